(** * Correctness of the dependence satisfaction tests. *)
From Coq Require Import ZArith QArith List Bool Lia.
From Verif Require Import SpecLinear MathModel VecProofs ConstraintsModel EditProofs SpecProg FrameworkModel.
Import ListNotations.
Open Scope Z_scope.

Lemma dot_zip_sub a b x : length a = length x -> length b = length x ->
  dot (zip_with Z.sub a b) x = dot a x - dot b x.
Proof.
  revert b x; induction a as [|u a IH]; intros [|v b] [|w x] Ha Hb; simpl in *; try lia.
  rewrite IH; lia.
Qed.
Lemma dot_zip_rsub a b x : length a = length x -> length b = length x ->
  dot (zip_with (fun a b => - a + b) a b) x = dot b x - dot a x.
Proof.
  revert b x; induction a as [|u a IH]; intros [|v b] [|w x] Ha Hb; simpl in *; try lia.
  rewrite IH; lia.
Qed.

Lemma aff_split r i p n : length r = (n + length p + 1)%nat -> length i = n ->
  aff r (i ++ p) = dot (firstn n r) i + dot (skipn n r) (p ++ [1]).
Proof.
  intros H1 H2. unfold aff. rewrite <- app_assoc. rewrite <- (firstn_skipn n r) at 1.
  rewrite dot_app; auto. rewrite firstn_length_le; lia.
Qed.

Lemma map_nth_S {A} k (f : A -> A) a l : map_nth (S k) f (a :: l) = a :: map_nth k f l.
Proof. unfold map_nth; simpl. destruct (nth_error l k); auto. Qed.
Lemma add_const_aff v r x : length r = S (length x) -> aff (add_const v r) x = aff r x + v.
Proof.
  intros H. unfold add_const, aff. rewrite H. simpl. rewrite Nat.sub_0_r.
  revert r H; induction x as [|a x IH]; intros [|b r] H; simpl in H; try lia.
  - destruct r; [|simpl in H; lia]. unfold map_nth. simpl. lia.
  - cbn [length]. rewrite map_nth_S. cbn [dot app]. rewrite IH by lia. lia.
Qed.
Lemma map_nth_length {A} k (f : A -> A) r : length (map_nth k f r) = length r.
Proof. unfold map_nth. destruct (nth_error r k); auto. apply set_nth_length. Qed.
Lemma add_const_length v r : length (add_const v r) = length r.
Proof. apply map_nth_length. Qed.

Section Rows.
Variables (pr : prog) (d : dep) (k : nat).
Hypothesis Wp : wf_prog pr.
Hypothesis Wd : wf_dep pr d.
Hypothesis Hk : (k < length (p_hprops pr))%nat.

Lemma row_length s : (s < length (p_stmts pr))%nat ->
  length (nth k (mrows (s_trans (stmt_of pr s))) []) = (s_dim (stmt_of pr s) + p_npar pr + 1)%nat.
Proof.
  intros Hs. destruct Wp as [W _]. destruct (W (stmt_of pr s)) as (_ & N & Wm & R & _).
  { apply nth_In; auto. }
  rewrite <- N. apply Wm. apply nth_In. unfold mnrows in R. lia.
Qed.

Lemma src_minus_dst_length : length (src_minus_dst pr d k) = dep_ncols pr d.
Proof.
  unfold src_minus_dst, dep_ncols. destruct Wd as (H1 & H2 & _).
  pose proof (row_length _ H1) as L1. pose proof (row_length _ H2) as L2.
  rewrite !app_length, map_length, zip_with_length by (rewrite !skipn_length; lia).
  rewrite !firstn_length, !skipn_length. lia.
Qed.
Lemma dst_minus_src_length : length (dst_minus_src pr d k) = dep_ncols pr d.
Proof.
  unfold dst_minus_src, dep_ncols. destruct Wd as (H1 & H2 & _).
  pose proof (row_length _ H1) as L1. pose proof (row_length _ H2) as L2.
  rewrite !app_length, map_length, zip_with_length by (rewrite !skipn_length; lia).
  rewrite !firstn_length, !skipn_length. lia.
Qed.

Lemma src_minus_dst_val s t p :
  length s = s_dim (stmt_of pr (d_src d)) -> length t = s_dim (stmt_of pr (d_dst d)) -> length p = p_npar pr ->
  aff (src_minus_dst pr d k) (s ++ t ++ p) = - distance pr d k s t p.
Proof.
  intros Hs Ht Hp. destruct Wd as (H1 & H2 & _). unfold distance, theta.
  pose proof (row_length _ H1) as L1. pose proof (row_length _ H2) as L2.
  rewrite (aff_split _ s p (s_dim (stmt_of pr (d_src d)))) by lia.
  rewrite (aff_split _ t p (s_dim (stmt_of pr (d_dst d)))) by lia.
  unfold src_minus_dst. unfold aff. rewrite <- !app_assoc.
  rewrite dot_app by (rewrite firstn_length_le; lia).
  rewrite dot_app by (rewrite map_length, firstn_length_le; lia).
  rewrite dot_map_opp, dot_zip_sub by (rewrite skipn_length, app_length; simpl; lia). lia.
Qed.

Lemma dst_minus_src_val s t p :
  length s = s_dim (stmt_of pr (d_src d)) -> length t = s_dim (stmt_of pr (d_dst d)) -> length p = p_npar pr ->
  aff (dst_minus_src pr d k) (s ++ t ++ p) = distance pr d k s t p.
Proof.
  intros Hs Ht Hp. destruct Wd as (H1 & H2 & _). unfold distance, theta.
  pose proof (row_length _ H1) as L1. pose proof (row_length _ H2) as L2.
  rewrite (aff_split _ s p (s_dim (stmt_of pr (d_src d)))) by lia.
  rewrite (aff_split _ t p (s_dim (stmt_of pr (d_dst d)))) by lia.
  unfold dst_minus_src. unfold aff. rewrite <- !app_assoc.
  rewrite dot_app by (rewrite map_length, firstn_length_le; lia).
  rewrite dot_app by (rewrite firstn_length_le; lia).
  rewrite dot_map_opp, dot_zip_rsub by (rewrite skipn_length, app_length; simpl; lia). lia.
Qed.
End Rows.

Lemma split3z (x : point) n m q : length x = (n + m + q)%nat ->
  exists s t p, x = s ++ t ++ p /\ length s = n /\ length t = m /\ length p = q.
Proof.
  intros H. exists (firstn n x), (firstn m (skipn n x)), (skipn m (skipn n x)).
  rewrite !firstn_skipn. split; auto. rewrite !firstn_length, !skipn_length. lia.
Qed.

Lemma exact_iff f c : exact_empty f -> wf_cst c -> (f c = true <-> forall x, ~ mem c x).
Proof.
  intros E W. specialize (E c W). destruct (f c); [tauto|]. split; [discriminate|].
  destruct E as [x Hx]. intros H. elim (H x Hx).
Qed.

Section Tests.
Variable is_emptyb : cst -> bool.
Hypothesis EX : exact_empty is_emptyb.
Variables (pr : prog) (d : dep).
Hypothesis Wp : wf_prog pr.
Hypothesis Wd : wf_dep pr d.

(** [poly] describes a set of instances of [d]. *)
Definition inst_poly (poly : cst) : Prop := wf_cst poly /\ ncols poly = dep_ncols pr d.

Lemma dpoly_inst : inst_poly (d_poly d).
Proof. destruct Wd as (_ & _ & W & N & _). split; auto. Qed.

Definition inst_in (poly : cst) (s t p : point) : Prop :=
  length s = s_dim (stmt_of pr (d_src d)) /\ length t = s_dim (stmt_of pr (d_dst d)) /\
  length p = p_npar pr /\ mem poly (s ++ t ++ p).

Lemma with_row_empty poly r (P : point -> point -> point -> Prop) :
  inst_poly poly -> length r = dep_ncols pr d ->
  (forall s t p, length s = s_dim (stmt_of pr (d_src d)) -> length t = s_dim (stmt_of pr (d_dst d)) -> length p = p_npar pr ->
     (0 <= aff r (s ++ t ++ p) <-> P s t p)) ->
  is_emptyb (with_row (dep_ncols pr d) r poly) = true <->
  (forall s t p, inst_in poly s t p -> ~ P s t p).
Proof.
  intros [W N] L HP.
  assert (wf_cst (with_row (dep_ncols pr d) r poly)) as Ww.
  { split; simpl. unfold dep_ncols; lia. intros r' [<-|Hr]; simpl; auto. rewrite <- N. apply W; auto. }
  rewrite (exact_iff _ _ EX Ww). split.
  - intros H s t p (Hs & Ht & Hp & Hm) C. apply (H (s ++ t ++ p)). split.
    + simpl. rewrite <- N. apply Hm.
    + simpl. intros r' [<-|Hr]; [|apply Hm; auto]. unfold holds; simpl. apply HP; auto.
  - intros H x [Hl Hx]. simpl in Hl. unfold dep_ncols in Hl.
    destruct (split3z x (s_dim (stmt_of pr (d_src d))) (s_dim (stmt_of pr (d_dst d))) (p_npar pr)) as (s & t & p & -> & Hs & Ht & Hp); [lia|].
    apply (H s t p).
    + repeat split; auto. rewrite Hl. rewrite N. unfold dep_ncols; lia. intros r' Hr. apply Hx. simpl; auto.
    + apply HP; auto. specialize (Hx (mkRow false r) (or_introl eq_refl)). exact Hx.
Qed.

Lemma pos_empty poly k : inst_poly poly -> (k < length (p_hprops pr))%nat ->
  is_emptyb (with_row (dep_ncols pr d) (add_const (-1) (dst_minus_src pr d k)) poly) = true <->
  forall s t p, inst_in poly s t p -> distance pr d k s t p <= 0.
Proof.
  intros I Hk. rewrite (with_row_empty poly _ (fun s t p => 1 <= distance pr d k s t p) I).
  - split; intros H s t p Hi; specialize (H s t p Hi); lia.
  - rewrite add_const_length. apply dst_minus_src_length; auto.
  - intros s t p Hs Ht Hp. rewrite add_const_aff. rewrite dst_minus_src_val by auto. lia.
    rewrite dst_minus_src_length by auto. unfold dep_ncols. rewrite !app_length. lia.
Qed.
Lemma neg_empty poly k : inst_poly poly -> (k < length (p_hprops pr))%nat ->
  is_emptyb (with_row (dep_ncols pr d) (add_const (-1) (src_minus_dst pr d k)) poly) = true <->
  forall s t p, inst_in poly s t p -> 0 <= distance pr d k s t p.
Proof.
  intros I Hk. rewrite (with_row_empty poly _ (fun s t p => distance pr d k s t p <= -1) I).
  - split; intros H s t p Hi; specialize (H s t p Hi); lia.
  - rewrite add_const_length. apply src_minus_dst_length; auto.
  - intros s t p Hs Ht Hp. rewrite add_const_aff. rewrite src_minus_dst_val by auto. lia.
    rewrite src_minus_dst_length by auto. unfold dep_ncols. rewrite !app_length. lia.
Qed.

Lemma sat_test_spec k : (k < length (p_hprops pr))%nat ->
  dep_satisfaction_test is_emptyb pr d k = true <-> strict_at pr d k.
Proof.
  intros Hk. unfold dep_satisfaction_test. rewrite (with_row_empty (d_poly d) _ (fun s t p => distance pr d k s t p <= 0) dpoly_inst).
  - unfold strict_at. split; intros H s t p Hi; specialize (H s t p Hi); lia.
  - apply src_minus_dst_length; auto.
  - intros. rewrite src_minus_dst_val by auto. lia.
Qed.

Lemma direction_spec k : (k < length (p_hprops pr))%nat ->
  match get_dep_direction is_emptyb pr d k with
  | DEP_ZERO => zero_at pr d k
  | DEP_PLUS => weak_at pr d k /\ ~ zero_at pr d k
  | DEP_MINUS => neg_at pr d k /\ ~ zero_at pr d k
  | DEP_STAR => ~ weak_at pr d k /\ ~ neg_at pr d k
  end.
Proof.
  intros Hk. pose proof (pos_empty (d_poly d) k dpoly_inst Hk) as P. pose proof (neg_empty (d_poly d) k dpoly_inst Hk) as N.
  change (forall s t p, inst_in (d_poly d) s t p -> distance pr d k s t p <= 0) with (neg_at pr d k) in P.
  change (forall s t p, inst_in (d_poly d) s t p -> 0 <= distance pr d k s t p) with (weak_at pr d k) in N.
  assert (zero_at pr d k <-> weak_at pr d k /\ neg_at pr d k) as Z.
  { split. intros H; split; intros s t p Hi; rewrite (H s t p Hi); lia.
    intros [H1 H2] s t p Hi. specialize (H1 s t p Hi). specialize (H2 s t p Hi). lia. }
  unfold get_dep_direction. cbv zeta.
  destruct (is_emptyb (with_row (dep_ncols pr d) (add_const (-1) (dst_minus_src pr d k)) (d_poly d)));
  destruct (is_emptyb (with_row (dep_ncols pr d) (add_const (-1) (src_minus_dst pr d k)) (d_poly d))); simpl;
  try rewrite Z; destruct P as [P1 P2], N as [N1 N2].
  - auto.
  - split; auto. intros [A B]. apply N2 in A. discriminate.
  - split; auto. intros [A B]. apply P2 in B. discriminate.
  - split; intros A; [apply N2 in A|apply P2 in A]; discriminate.
Qed.

(** ** Precise satisfaction *)
(** No level before [k] gives the instance a positive distance. *)
Definition unsat_before (k : nat) (s t p : point) : Prop :=
  forall j, (j < k)%nat -> distance pr d j s t p <= 0.

Lemma remaining_step k poly : inst_poly poly -> (k < length (p_hprops pr))%nat ->
  (forall s t p, inst_in poly s t p <-> instance pr d s t p /\ unsat_before k s t p) ->
  let poly' := remove_satisfied_instances pr d k poly in
  inst_poly poly' /\ (forall s t p, inst_in poly' s t p <-> instance pr d s t p /\ unsat_before (S k) s t p).
Proof.
  intros [W N] Hk H poly'.
  assert (inst_poly poly') as I.
  { split; [|exact N]. split; [apply W|]. intros r Hr. unfold poly' in Hr. simpl in Hr. apply in_app_or in Hr.
    change (ncols poly') with (ncols poly). destruct Hr as [Hr|[<-|[]]]; [apply W; auto|]. simpl.
    rewrite src_minus_dst_length by auto. auto. }
  split; auto. intros s t p. split.
  - intros (Hs & Ht & Hp & Hm). assert (inst_in poly s t p) as Hi.
    { repeat split; auto. apply Hm. intros r Hr. apply Hm. simpl. apply in_or_app. auto. }
    apply H in Hi as [Hi U]. split; auto. intros j Hj.
    destruct (Nat.eq_dec j k) as [->|]; [|apply U; lia].
    assert (0 <= aff (src_minus_dst pr d k) (s ++ t ++ p)) as K.
    { apply (proj2 Hm (mkRow false (src_minus_dst pr d k))). simpl. apply in_or_app. right; left; auto. }
    rewrite src_minus_dst_val in K by auto. lia.
  - intros [Hi U]. assert (inst_in poly s t p) as Hj. { apply H. split; auto. intros j Hj. apply U. lia. }
    destruct Hj as (Hs & Ht & Hp & Hm). split; [auto|split; [auto|split; [auto|]]].
    split; [apply Hm|]. intros r Hr. simpl in Hr. apply in_app_or in Hr. destruct Hr as [Hr|[<-|[]]]; [apply Hm; auto|].
    unfold holds; simpl. rewrite src_minus_dst_val by auto. specialize (U k). lia.
Qed.

(** Some instance not satisfied before level [k] gets a positive distance there. *)
Definition contributes (k : nat) : Prop :=
  exists s t p, instance pr d s t p /\ unsat_before k s t p /\ 0 < distance pr d k s t p.

Lemma is_empty_inst poly : inst_poly poly -> is_emptyb poly = true <-> forall s t p, ~ inst_in poly s t p.
Proof.
  intros [W N]. rewrite (exact_iff _ _ EX W). split.
  - intros H s t p (_ & _ & _ & Hm). apply (H _ Hm).
  - intros H x Hx. destruct (split3z x (s_dim (stmt_of pr (d_src d))) (s_dim (stmt_of pr (d_dst d))) (p_npar pr)) as (s & t & p & -> & Hs & Ht & Hp).
    { destruct Hx as [Hx _]. rewrite N in Hx. unfold dep_ncols in Hx. lia. }
    apply (H s t p). repeat split; auto; apply Hx.
Qed.

(** Invariant of the loop over the levels. *)
Definition loop_inv (k : nat) (sv : list bool) (sl : Z) : Prop :=
  length sv = k /\
  (forall j, (j < k)%nat -> (nth j sv false = true <-> contributes j)) /\
  (sl = -1 /\ (forall j, (j < k)%nat -> nth j sv false = false) \/
   exists j, sl = Z.of_nat j /\ (j < k)%nat /\ nth j sv false = true /\ forall i, (j < i < k)%nat -> nth i sv false = false).

Lemma precise_loop_spec n : forall k poly sv sl,
  (k + n = length (p_hprops pr))%nat -> inst_poly poly ->
  (forall s t p, inst_in poly s t p <-> instance pr d s t p /\ unsat_before k s t p) ->
  loop_inv k sv sl ->
  match precise_loop is_emptyb pr d (seq k n) poly sv sl with
  | (sv', sl', sat) => exists k', (k <= k' <= k + n)%nat /\ loop_inv k' sv' sl' /\
      if sat then forall s t p, instance pr d s t p -> ~ unsat_before k' s t p
      else k' = length (p_hprops pr) /\
           (0 < n -> exists s t p, instance pr d s t p /\ unsat_before k' s t p)%nat
  end.
Proof.
  induction n as [|n IH]; intros k poly sv sl Hn I H L; cbn [seq precise_loop].
  - exists k. split; [lia|]. split; auto. split; [lia|]. lia.
  - cbv zeta. assert (k < length (p_hprops pr))%nat as Hk by lia.
    destruct (remaining_step k poly I Hk H) as [I' H']. cbv zeta in I', H'.
    set (poly' := remove_satisfied_instances pr d k poly) in *.
    set (b := dep_satisfies_instance is_emptyb pr d k poly).
    assert (b = true <-> contributes k) as B.
    { unfold b, dep_satisfies_instance. pose proof (pos_empty poly k I Hk) as P.
      destruct (is_emptyb (with_row (dep_ncols pr d) (add_const (-1) (dst_minus_src pr d k)) poly)) eqn:E; simpl.
      - split; [discriminate|]. intros (s & t & p & Hi & U & C). apply proj1 in P. specialize (P eq_refl s t p).
        assert (inst_in poly s t p) as Hi' by (apply H; auto). specialize (P Hi'). lia.
      - split; auto. intros _.
        assert (wf_cst (with_row (dep_ncols pr d) (add_const (-1) (dst_minus_src pr d k)) poly)) as Ww.
        { destruct I as [W N]. split; simpl. unfold dep_ncols; lia.
          intros r' [<-|Hr]; simpl. rewrite add_const_length, dst_minus_src_length; auto. rewrite <- N. apply W; auto. }
        pose proof (EX _ Ww) as X. rewrite E in X. destruct X as [x Hx].
        destruct (split3z x (s_dim (stmt_of pr (d_src d))) (s_dim (stmt_of pr (d_dst d))) (p_npar pr)) as (s & t & p & -> & Hs & Ht & Hp).
        { destruct Hx as [Hx _]. simpl in Hx. unfold dep_ncols in Hx. lia. }
        assert (inst_in poly s t p) as Hi.
        { split; [auto|split; [auto|split; [auto|]]]. destruct I as [W N]. split. rewrite N. apply Hx.
          intros r Hr. apply Hx. simpl. auto. }
        pose proof (proj2 Hx (mkRow false (add_const (-1) (dst_minus_src pr d k))) (or_introl eq_refl)) as D.
        unfold holds in D. simpl in D. rewrite add_const_aff in D.
        2:{ rewrite dst_minus_src_length by auto. unfold dep_ncols. rewrite !app_length. lia. }
        rewrite dst_minus_src_val in D by auto.
        exists s, t, p. apply H in Hi as [Hi U]. split; [auto|split; [auto|]]. lia. }
    assert (loop_inv (S k) (sv ++ [b]) (if b then Z.max sl (Z.of_nat k) else sl)) as L'.
    { destruct L as (L1 & L2 & L3). split; [|split].
      - rewrite app_length; simpl; lia.
      - intros j Hj. destruct (Nat.eq_dec j k) as [->|].
        + rewrite app_nth2, L1, Nat.sub_diag by lia. exact B.
        + rewrite app_nth1 by lia. apply L2. lia.
      - destruct b.
        + right. exists k. split; [|split; [lia|split; [|intros; lia]]].
          * destruct L3 as [[-> _]|(j & -> & ? & _)]; lia.
          * rewrite app_nth2, L1, Nat.sub_diag by lia. auto.
        + destruct L3 as [[-> Z]|(j & -> & Hj & E1 & E2)].
          * left. split; auto. intros j Hj. destruct (Nat.eq_dec j k) as [->|].
            { rewrite app_nth2, L1, Nat.sub_diag by lia. auto. }
            rewrite app_nth1 by lia. apply Z. lia.
          * right. exists j. split; [auto|split; [lia|split]]. { rewrite app_nth1 by lia. auto. }
            intros i Hi. destruct (Nat.eq_dec i k) as [->|].
            { rewrite app_nth2, L1, Nat.sub_diag by lia. auto. }
            rewrite app_nth1 by lia. apply E2. lia. }
    pose proof (EX poly' (proj1 I')) as X. destruct (is_emptyb poly') eqn:E.
    + exists (S k). split; [lia|]. split; auto. intros s t p Hi U.
      pose proof (proj2 (H' s t p) (conj Hi U)) as (_ & _ & _ & Hm). apply (X _ Hm).
    + specialize (IH (S k) poly' (sv ++ [b]) (if b then Z.max sl (Z.of_nat k) else sl)).
      destruct (precise_loop is_emptyb pr d (seq (S k) n) poly' (sv ++ [b]) (if b then Z.max sl (Z.of_nat k) else sl)) as [[sv' sl'] sat].
      destruct IH as (k' & K1 & K2 & K3); auto; [lia|]. exists k'. split; [lia|]. split; auto.
      destruct sat; auto. destruct K3 as [K3 K4]. split; auto. intros _.
      destruct n as [|n].
      * assert (k' = S k) by lia. subst k'. destruct X as [x Hx].
        destruct (split3z x (s_dim (stmt_of pr (d_src d))) (s_dim (stmt_of pr (d_dst d))) (p_npar pr)) as (s & t & p & -> & Hs & Ht & Hp).
        { destruct Hx as [Hx _]. rewrite (proj2 I') in Hx. unfold dep_ncols in Hx. lia. }
        exists s, t, p. rewrite H0. apply H'. split; [auto|split; [auto|split; [auto|]]]. exact Hx.
      * apply K4. lia.
Qed.

Lemma precise_dep_spec :
  let d' := precise_dep is_emptyb pr d in
  let n := length (p_hprops pr) in
  (d_sat d' = true -> forall s t p, instance pr d s t p -> exists k, (k < n)%nat /\ 0 < distance pr d k s t p) /\
  (d_sat d' = false -> (0 < n)%nat -> exists s t p, instance pr d s t p /\ forall k, (k < n)%nat -> distance pr d k s t p <= 0) /\
  length (d_satvec d') = n /\
  (forall k, (k < n)%nat -> nth k (d_satvec d') false = true <-> contributes k) /\
  (d_level d' = -1 /\ (forall j, (j < n)%nat -> nth j (d_satvec d') false = false) \/
   exists j, d_level d' = Z.of_nat j /\ (j < n)%nat /\ nth j (d_satvec d') false = true /\
     forall i, (j < i < n)%nat -> nth i (d_satvec d') false = false).
Proof.
  cbv zeta. unfold precise_dep.
  pose proof (precise_loop_spec (length (p_hprops pr)) 0 (d_poly d) [] (-1)) as H.
  destruct (precise_loop is_emptyb pr d (seq 0 (length (p_hprops pr))) (d_poly d) [] (-1)) as [[sv sl] sat].
  cbn [d_sat d_satvec d_level]. destruct H as (k' & K1 & (L1 & L2 & L3) & K3); auto.
  - apply dpoly_inst.
  - intros s t p. split; [intros Hi; split; auto; intros j Hj; lia|intros [Hi _]; exact Hi].
  - split; [auto|split; [intros; lia|]]. left. split; auto. intros; lia.
  - assert (forall j, nth j (sv ++ repeat false (length (p_hprops pr) - length sv)) false = nth j sv false) as E.
    { intros j. destruct (Nat.lt_ge_cases j (length sv)). { rewrite app_nth1; auto. }
      rewrite app_nth2, (nth_overflow sv) by lia. apply nth_repeat. }
    split; [|split; [|split; [|split]]].
    + intros -> s t p Hi. specialize (K3 s t p Hi).
      assert (forall m, ~ unsat_before m s t p -> exists k, (k < m)%nat /\ 0 < distance pr d k s t p) as F.
      { induction m as [|m IH]; intros U. { elim U. intros j Hj; lia. }
        destruct (Z_lt_le_dec 0 (distance pr d m s t p)) as [A|A]. { exists m; split; [lia|auto]. }
        destruct IH as (k & ? & ?); [|exists k; split; [lia|auto]].
        intros V. apply U. intros j Hj. destruct (Nat.eq_dec j m) as [->|]; auto. apply V; lia. }
      destruct (F k' K3) as (k & ? & ?). exists k. split; [lia|auto].
    + intros -> Hn. destruct K3 as [-> K3]. destruct (K3 Hn) as (s & t & p & A & B). exists s, t, p. auto.
    + rewrite app_length, repeat_length. lia.
    + intros k Hk. rewrite E. destruct (Nat.lt_ge_cases k k'). { apply L2; auto. }
      rewrite nth_overflow by lia. split; [discriminate|]. destruct sat; [|lia].
      intros (s & t & p & A & B & C). elim (K3 s t p A). intros j Hj. apply B. lia.
    + destruct L3 as [[-> Z]|(j & -> & A & B & C)].
      * left. split; auto. intros j Hj. rewrite E. destruct (Nat.lt_ge_cases j k'). apply Z; auto. apply nth_overflow; lia.
      * right. exists j. split; [auto|split; [lia|split; [rewrite E; auto|]]]. intros i Hi. rewrite E.
        destruct (Nat.lt_ge_cases i k'). apply C; lia. apply nth_overflow; lia.
Qed.
End Tests.

(** ** Bookkeeping over all dependences *)
Section Book.
Variable is_emptyb : cst -> bool.
Hypothesis EX : exact_empty is_emptyb.

(** Same dependence, possibly different flags. *)
Definition same_dep (d d' : dep) : Prop :=
  d_src d' = d_src d /\ d_dst d' = d_dst d /\ d_rar d' = d_rar d /\ d_poly d' = d_poly d /\ d_bpoly d' = d_bpoly d.
Lemma same_dep_refl d : same_dep d d. Proof. repeat split. Qed.
Lemma same_dep_sym d d' : same_dep d d' -> same_dep d' d.
Proof. intros (A & B & C & D & E); repeat split; congruence. Qed.
Lemma same_dep_trans d1 d2 d3 : same_dep d1 d2 -> same_dep d2 d3 -> same_dep d1 d3.
Proof. intros (A & B & C & D & E) (A' & B' & C' & D' & E'); repeat split; congruence. Qed.

Lemma same_dep_wf pr d d' : same_dep d d' -> wf_dep pr d -> wf_dep pr d'.
Proof. intros (A & B & C & D & E). unfold wf_dep. rewrite A, B, D, E. auto. Qed.
Lemma same_dep_instance pr d d' s t p : same_dep d d' -> instance pr d' s t p <-> instance pr d s t p.
Proof. intros (A & B & C & D & E). unfold instance. rewrite A, B, D. tauto. Qed.
Lemma same_dep_distance pr d d' k s t p : same_dep d d' -> distance pr d' k s t p = distance pr d k s t p.
Proof. intros (A & B & C & D & E). unfold distance. rewrite A, B. auto. Qed.
Lemma same_dep_strict pr d d' k : same_dep d d' -> strict_at pr d' k <-> strict_at pr d k.
Proof.
  intros S. unfold strict_at. split; intros H s t p Hi.
  - rewrite <- (same_dep_distance pr d d') by auto. apply H. apply (same_dep_instance pr d d'); auto.
  - rewrite (same_dep_distance pr d d') by auto. apply H. apply (same_dep_instance pr d d') in Hi; auto.
Qed.
Lemma same_dep_weak pr d d' k : same_dep d d' -> weak_at pr d' k <-> weak_at pr d k.
Proof.
  intros S. unfold weak_at. split; intros H s t p Hi.
  - rewrite <- (same_dep_distance pr d d') by auto. apply H. apply (same_dep_instance pr d d'); auto.
  - rewrite (same_dep_distance pr d d') by auto. apply H. apply (same_dep_instance pr d d') in Hi; auto.
Qed.
Lemma same_dep_zero pr d d' k : same_dep d d' -> zero_at pr d' k <-> zero_at pr d k.
Proof.
  intros S. unfold zero_at. split; intros H s t p Hi.
  - rewrite <- (same_dep_distance pr d d') by auto. apply H. apply (same_dep_instance pr d d'); auto.
  - rewrite (same_dep_distance pr d d') by auto. apply H. apply (same_dep_instance pr d d') in Hi; auto.
Qed.
Lemma same_dep_test pr d d' k : same_dep d d' -> dep_satisfaction_test is_emptyb pr d' k = dep_satisfaction_test is_emptyb pr d k.
Proof. intros (A & B & C & D & E). unfold dep_satisfaction_test, dep_ncols, src_minus_dst. rewrite A, B, D. auto. Qed.

Lemma update_same pr k d : same_dep d (update_dep is_emptyb pr k d).
Proof. unfold update_dep. destruct (d_sat d); [apply same_dep_refl|]. destruct (dep_satisfaction_test _ _ _ _); repeat split. Qed.

Lemma set_deps_wf pr l : wf_prog pr -> (forall d', In d' l -> exists d, In d (p_deps pr) /\ same_dep d d') -> wf_prog (set_deps pr l).
Proof.
  intros [W1 W2] H. split; [exact W1|]. intros d' Hd. destruct (H d' Hd) as (d & Hd' & S).
  apply (same_dep_wf _ d); auto. apply (W2 d Hd').
Qed.

(** The flags after the levels [l] have been processed. *)
Definition run_levels (pr : prog) (l : list nat) (d : dep) : dep :=
  fold_left (fun d k => update_dep is_emptyb pr k d) l d.

Lemma update_levels pr l : forall ds,
  fold_left (fun q level => fst (dep_satisfaction_update is_emptyb q level)) l (set_deps pr ds)
  = set_deps pr (map (run_levels pr l) ds).
Proof.
  induction l as [|k l IH]; intros ds.
  - simpl. rewrite map_id. auto.
  - cbn [fold_left]. unfold dep_satisfaction_update at 2. cbn [fst].
    change (set_deps (set_deps pr ds) (map (update_dep is_emptyb (set_deps pr ds) k) (p_deps (set_deps pr ds))))
      with (set_deps pr (map (update_dep is_emptyb pr k) ds)).
    rewrite IH, map_map. auto.
Qed.

Lemma run_same pr l d : same_dep d (run_levels pr l d).
Proof.
  revert d; induction l as [|k l IH]; intros d; simpl. apply same_dep_refl.
  apply same_dep_trans with (update_dep is_emptyb pr k d); [apply update_same|apply IH].
Qed.
Lemma run_dirs pr l d : d_dirs (run_levels pr l d) = d_dirs d.
Proof.
  revert d; induction l as [|k l IH]; intros d; simpl; auto. rewrite IH. unfold update_dep.
  destruct (d_sat d); auto. destruct (dep_satisfaction_test _ _ _ _); auto.
Qed.

Lemma run_sat pr l d : d_sat d = true -> run_levels pr l d = d.
Proof.
  revert d; induction l as [|k l IH]; intros d H; simpl; auto. unfold update_dep. rewrite H. auto.
Qed.

Lemma run_levels_spec pr d : wf_prog pr -> wf_dep pr d -> d_sat d = false -> d_level d = -1 ->
  forall m k, (k + m <= length (p_hprops pr))%nat ->
  let d' := run_levels pr (seq k m) d in
  (d_sat d' = true /\ exists j, d_level d' = Z.of_nat j /\ (k <= j < k + m)%nat /\ strict_at pr d j /\ forall i, (k <= i < j)%nat -> ~ strict_at pr d i)
  \/ (d_sat d' = false /\ d_level d' = -1 /\ forall i, (k <= i < k + m)%nat -> ~ strict_at pr d i).
Proof.
  intros Wp Wd E1 E2. induction m as [|m IH]; intros k Hk; cbv zeta; simpl.
  - right. repeat split; auto. intros; lia.
  - assert (update_dep is_emptyb pr k d = if dep_satisfaction_test is_emptyb pr d k then set_sat d true (Z.of_nat k) else d) as U by (unfold update_dep; rewrite E1; auto). rewrite U. clear U.
    pose proof (sat_test_spec is_emptyb EX pr d Wp Wd k ltac:(lia)) as T.
    destruct (dep_satisfaction_test is_emptyb pr d k) eqn:ET.
    + left. fold (run_levels pr (seq (S k) m) (set_sat d true (Z.of_nat k))). rewrite run_sat by auto. simpl. split; auto.
      exists k. split; auto. split; [lia|]. split; [apply T; auto|intros; lia].
    + fold (run_levels pr (seq (S k) m) d).
      assert (~ strict_at pr d k) as N. { intros X. apply T in X. discriminate. }
      destruct (IH (S k)) as [(A & j & B & C & D & F)|(A & B & C)]; [lia| |].
      * left. split; auto. exists j. split; auto. split; [lia|]. split; auto.
        intros i Hi. destruct (Nat.eq_dec i k) as [->|]; auto. apply F; lia.
      * right. split; auto. split; auto. intros i Hi. destruct (Nat.eq_dec i k) as [->|]; auto. apply C; lia.
Qed.

Lemma set_satvec_same n d : same_dep d (set_satvec n d) /\ d_sat (set_satvec n d) = d_sat d /\ d_level (set_satvec n d) = d_level d /\ d_dirs (set_satvec n d) = d_dirs d.
Proof. unfold set_satvec. destruct (d_rar d) eqn:E; repeat split; auto. Qed.

Lemma compute_sat_deps pr :
  p_deps (compute_dep_satisfaction is_emptyb pr) =
  map (fun d => set_satvec (length (p_hprops pr)) (run_levels pr (seq 0 (length (p_hprops pr))) (set_sat d false (-1)))) (p_deps pr).
Proof.
  unfold compute_dep_satisfaction. cbv zeta. unfold dep_satisfaction_reset. rewrite update_levels. simpl. rewrite !map_map. auto.
Qed.
Lemma compute_sat_frame pr : let q := compute_dep_satisfaction is_emptyb pr in
  p_nvar q = p_nvar pr /\ p_npar q = p_npar pr /\ p_stmts q = p_stmts pr /\ p_hprops q = p_hprops pr.
Proof.
  unfold compute_dep_satisfaction. cbv zeta. unfold dep_satisfaction_reset. rewrite update_levels. simpl. auto.
Qed.

Lemma compute_sat_spec pr i d : wf_prog pr -> nth_error (p_deps pr) i = Some d ->
  exists d', nth_error (p_deps (compute_dep_satisfaction is_emptyb pr)) i = Some d' /\ same_dep d d' /\ d_dirs d' = d_dirs d /\
  ((d_sat d' = true /\ exists j, d_level d' = Z.of_nat j /\ (j < length (p_hprops pr))%nat /\ strict_at pr d j /\
      forall i, (i < j)%nat -> ~ strict_at pr d i)
   \/ (d_sat d' = false /\ d_level d' = -1 /\ forall i, (i < length (p_hprops pr))%nat -> ~ strict_at pr d i)) /\
  (d_rar d = false -> length (d_satvec d') = length (p_hprops pr) /\
     forall k, (k < length (p_hprops pr))%nat ->
       (nth k (d_satvec d') false = true <-> nth k (d_dirs d) DEP_ZERO <> DEP_ZERO /\ forall i, (i < k)%nat -> ~ strict_at pr d i)).
Proof.
  intros Wp Hi. set (n := length (p_hprops pr)). set (d1 := set_sat d false (-1)).
  set (d2 := run_levels pr (seq 0 n) d1). exists (set_satvec n d2).
  rewrite compute_sat_deps, nth_error_map, Hi. split; [reflexivity|].
  assert (wf_dep pr d) as Wd by (apply Wp; eapply nth_error_In; eauto).
  assert (same_dep d d1) as S1 by (repeat split).
  destruct (set_satvec_same n d2) as (A & B & C & D).
  assert (same_dep d d2) as S2 by (apply (same_dep_trans _ d1); auto; apply run_same).
  split; [apply (same_dep_trans _ d2); auto|].
  split. { rewrite D. unfold d2. rewrite run_dirs. auto. }
  rewrite B, C.
  assert (wf_dep pr d1) as Wd1 by (apply (same_dep_wf _ d); auto).
  pose proof (run_levels_spec pr d1 Wp Wd1 eq_refl eq_refl n 0 ltac:(unfold n; lia)) as R. cbv zeta in R. fold d2 in R.
  assert (forall j, strict_at pr d1 j <-> strict_at pr d j) as S by (intros; apply same_dep_strict; auto).
  split.
  - destruct R as [(R1 & j & R2 & R3 & R4 & R5)|(R1 & R2 & R3)].
    + left. split; auto. exists j. split; auto. split; [lia|]. split; [apply S; auto|]. intros i' Hi'. rewrite <- S. apply R5; lia.
    + right. split; auto. split; auto. intros i' Hi'. rewrite <- S. apply R3; lia.
  - intros Hr. assert (d_rar d2 = false) as Hr2. { destruct S2 as (_ & _ & X & _). congruence. }
    assert (d_dirs d2 = d_dirs d) as Dd. { unfold d2. rewrite run_dirs. auto. }
    unfold set_satvec. rewrite Hr2. cbn [d_satvec]. split. { rewrite map_length, seq_length; auto. }
    intros k Hk.
    rewrite nth_indep with (d' := (fun level => negb (is_zero_dir (nth level (d_dirs d2) DEP_ZERO)) && ((Z.of_nat level <=? d_level d2) || (d_level d2 =? -1))) 0%nat)
      by (rewrite map_length, seq_length; auto).
    rewrite (List.map_nth (fun level => negb (is_zero_dir (nth level (d_dirs d2) DEP_ZERO)) && ((Z.of_nat level <=? d_level d2) || (d_level d2 =? -1))) (seq 0 n)).
    rewrite seq_nth by auto. rewrite Dd. cbn [Nat.add].
    rewrite andb_true_iff, orb_true_iff, Z.leb_le, Z.eqb_eq.
    assert (negb (is_zero_dir (nth k (d_dirs d) DEP_ZERO)) = true <-> nth k (d_dirs d) DEP_ZERO <> DEP_ZERO) as ->.
    { destruct (nth k (d_dirs d) DEP_ZERO); simpl; split; congruence. }
    apply and_iff_compat_l.
    destruct R as [(R1 & j & R2 & R3 & R4 & R5)|(R1 & R2 & R3)].
    + rewrite R2. split.
      * intros [H|H]; [|lia]. intros i' Hi'. rewrite <- S. apply R5. lia.
      * intros H. left. destruct (Nat.le_gt_cases k j); [lia|]. elim (H j); auto.
    + rewrite R2. split; [|auto]. intros _ i' Hi'. rewrite <- S. apply R3. lia.
Qed.

Lemma directions_spec pr i d : wf_prog pr -> nth_error (p_deps pr) i = Some d ->
  exists d', nth_error (p_deps (compute_dep_directions is_emptyb pr)) i = Some d' /\ same_dep d d' /\
    d_sat d' = d_sat d /\ d_level d' = d_level d /\ length (d_dirs d') = length (p_hprops pr) /\
    forall k, (k < length (p_hprops pr))%nat ->
      match nth k (d_dirs d') DEP_ZERO with
      | DEP_ZERO => zero_at pr d k
      | DEP_PLUS => weak_at pr d k /\ ~ zero_at pr d k
      | DEP_MINUS => neg_at pr d k /\ ~ zero_at pr d k
      | DEP_STAR => ~ weak_at pr d k /\ ~ neg_at pr d k
      end.
Proof.
  intros Wp Hi. unfold compute_dep_directions. cbn [p_deps set_deps]. rewrite nth_error_map, Hi. simpl.
  eexists. split; [reflexivity|]. cbn [d_sat d_level d_dirs]. split; [repeat split|]. repeat split; auto.
  - rewrite map_length, seq_length; auto.
  - intros k Hk. rewrite nth_indep with (d' := get_dep_direction is_emptyb pr d 0%nat) by (rewrite map_length, seq_length; auto).
    rewrite List.map_nth, seq_nth by auto. apply direction_spec; auto. apply Wp. eapply nth_error_In; eauto.
Qed.

Lemma update_spec pr k i d : wf_prog pr -> (k < length (p_hprops pr))%nat -> nth_error (p_deps pr) i = Some d ->
  exists d', nth_error (p_deps (fst (dep_satisfaction_update is_emptyb pr k))) i = Some d' /\ same_dep d d' /\
    (d_sat d = true -> d' = d) /\
    (d_sat d = false -> (d_sat d' = true <-> strict_at pr d k) /\
       (d_sat d' = true -> d_level d' = Z.of_nat k) /\ (d_sat d' = false -> d' = d)).
Proof.
  intros Wp Hk Hi. simpl. rewrite nth_error_map, Hi. simpl. eexists. split; [reflexivity|]. split; [apply update_same|].
  pose proof (sat_test_spec is_emptyb EX pr d Wp ltac:(apply Wp; eapply nth_error_In; eauto) k Hk) as T.
  unfold update_dep. split; intros E; rewrite E; auto.
  destruct (dep_satisfaction_test is_emptyb pr d k) eqn:ET; simpl.
  - split; [split; [intros _; apply T; auto|auto]|]. split; auto. discriminate.
  - split; [split; [congruence|]|]. intros X. apply T in X. discriminate. split; auto. congruence.
Qed.
End Book.

(** Number of dependences newly satisfied. *)
Lemma update_count f pr k : exact_empty f -> wf_prog pr -> (k < length (p_hprops pr))%nat ->
  snd (dep_satisfaction_update f pr k) =
  length (filter (fun dd => negb (d_rar (fst dd)) && negb (d_sat (fst dd)) && d_sat (snd dd))
            (combine (p_deps pr) (p_deps (fst (dep_satisfaction_update f pr k))))).
Proof.
  intros EX Wp Hk. simpl. induction (p_deps pr) as [|d l IH]; auto. cbn [map combine filter].
  assert (negb (d_sat d) && negb (d_rar d) && dep_satisfaction_test f pr d k =
          negb (d_rar (fst (d, update_dep f pr k d))) && negb (d_sat (fst (d, update_dep f pr k d))) && d_sat (snd (d, update_dep f pr k d))) as ->.
  { cbn [fst snd]. unfold update_dep. destruct (d_sat d) eqn:E; simpl; rewrite ?andb_false_r; auto.
    destruct (dep_satisfaction_test f pr d k); simpl; rewrite ?E, ?andb_true_r, ?andb_false_r; auto. }
  destruct (negb _ && negb _ && _); cbn [length]; rewrite IH; auto.
Qed.
