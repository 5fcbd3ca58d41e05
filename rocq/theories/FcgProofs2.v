(** * What the linear programs of the fusion conflict graph decide. *)
From Coq Require Import ZArith QArith List Bool Arith Lia Lqa.
From Verif Require Import SpecLinear VecProofs MathModel ConstraintsModel EditProofs FarkasProofs SumProofs SpecProg SpecDriver SpecGraph GraphModel
  FrameworkModel FrameworkProofs ProgModel ProgProofs DriverModel HypProofs DfpModel FcgModel FcgProofs SpecFcg.
Import ListNotations.
Open Scope Z_scope.

(** ** Rows for one unknown *)
Lemma set_nth_end' {A} (v w : A) l : set_nth (length l) v (l ++ [w]) = l ++ [v].
Proof. induction l as [|a l IH]; cbn; [reflexivity|]. rewrite IH. reflexivity. Qed.
Lemma set_nth_front {A} i (v : A) l l' : (i < length l)%nat -> set_nth i v (l ++ l') = set_nth i v l ++ l'.
Proof. revert i. induction l as [|a l IH]; intros i H; cbn in *; [lia|]. destruct i; cbn; [reflexivity|]. rewrite IH by lia. reflexivity. Qed.
Lemma qdot_unit_v k i a (y : qpoint) : (i < k)%nat -> length y = k -> (qdot (set_nth i a (repeat 0%Z k)) y == inject_Z a * nth i y 0)%Q.
Proof.
  revert i y. induction k as [|k IH]; intros i [|v y] H L; try lia; try discriminate L. destruct i; cbn - [Qmult inject_Z].
  - rewrite qdot_repeat0_l. ring.
  - rewrite IH; try lia; [|cbn in L; lia]. rewrite inject_Z_0. ring.
Qed.
Lemma qaff_row w i a v (x : qpoint) : S (length x) = w -> (i < length x)%nat ->
  (qaff (set_nth (w - 1) v (set_nth i a (repeat 0%Z w))) x == inject_Z a * nth i x 0 + inject_Z v)%Q.
Proof.
  intros <- H. replace (S (length x) - 1)%nat with (length x) by lia. replace (S (length x)) with (length x + 1)%nat by lia. rewrite repeat_app. cbn [repeat].
  rewrite set_nth_front by (rewrite repeat_length; auto).
  replace (length x) with (length (set_nth i a (repeat 0 (length x)))) at 1 by (rewrite set_nth_length, repeat_length; auto).
  rewrite set_nth_end'. unfold qaff. rewrite qdot_app by (rewrite set_nth_length, repeat_length; auto). rewrite qdot_unit_v by auto. cbn. ring.
Qed.
Lemma qaff_row0 w i a (x : qpoint) : S (length x) = w -> (i < length x)%nat ->
  (qaff (set_nth i a (repeat 0%Z w)) x == inject_Z a * nth i x 0)%Q.
Proof.
  intros <- H. replace (S (length x)) with (length x + 1)%nat by lia. rewrite repeat_app. cbn [repeat].
  rewrite set_nth_front by (rewrite repeat_length; auto).
  unfold qaff. rewrite qdot_app by (rewrite set_nth_length, repeat_length; auto). rewrite qdot_unit_v by auto. cbn. ring.
Qed.

Lemma rows_lb l lb : forall c, let c' := fold_left (fun c i => add_lb c i lb) l c in
  ncols c' = ncols c /\ rows c' = rows c ++ map (fun i => mkRow false (set_nth (ncols c - 1) (- lb) (set_nth i 1 (repeat 0 (ncols c))))) l.
Proof.
  induction l as [|i l IH]; intros c; cbn [fold_left map]; [rewrite app_nil_r; auto|].
  destruct (IH (add_lb c i lb)) as [A B]. cbv zeta in *. rewrite A, B. unfold add_lb, add_inequality. rewrite add_row2. cbn [ncols rows].
  rewrite <- app_assoc. split; reflexivity.
Qed.
Lemma rows_ub l ub : forall c, let c' := fold_left (fun c i => add_ub c i ub) l c in
  ncols c' = ncols c /\ rows c' = rows c ++ map (fun i => mkRow false (set_nth (ncols c - 1) ub (set_nth i (-1) (repeat 0 (ncols c))))) l.
Proof.
  induction l as [|i l IH]; intros c; cbn [fold_left map]; [rewrite app_nil_r; auto|].
  destruct (IH (add_ub c i ub)) as [A B]. cbv zeta in *. rewrite A, B. unfold add_ub, add_inequality. rewrite add_row2. cbn [ncols rows].
  rewrite <- app_assoc. split; reflexivity.
Qed.

Definition within (o : options) (pr : prog) (q : Q) : Prop :=
  match coeff_limit o pr with Some l => (q <= inject_Z l)%Q | None => True end.

Lemma lb_holds w i lb (x : qpoint) : S (length x) = w -> (i < length x)%nat ->
  (qholds x (mkRow false (set_nth (w - 1) (- lb) (set_nth i 1 (repeat 0 w)))) <-> (inject_Z lb <= nth i x 0)%Q).
Proof. intros L H. unfold qholds. cbn [is_eq coef]. rewrite qaff_row by auto. rewrite inject_Z_opp. unfold inject_Z at 1. split; intros K; lra. Qed.
Lemma ub_holds w i ub (x : qpoint) : S (length x) = w -> (i < length x)%nat ->
  (qholds x (mkRow false (set_nth (w - 1) ub (set_nth i (-1) (repeat 0 w)))) <-> (nth i x 0 <= inject_Z ub)%Q).
Proof. intros L H. unfold qholds. cbn [is_eq coef]. rewrite qaff_row by auto. unfold inject_Z at 1. split; intros K; lra. Qed.

Lemma bounding_rows_qmem o pr (x : qpoint) : S (length x) = cst_width pr ->
  (forall r, In r (rows (get_coeff_bounding_constraints o pr)) -> qholds x r) <->
  (forall i, (i < length x)%nat -> (0 <= nth i x 0)%Q) /\
  (forall i, (p_npar pr + 1 <= i < length x)%nat -> within o pr (nth i x 0%Q)).
Proof.
  intros L. unfold get_coeff_bounding_constraints, within, coeff_limit. cbv zeta. set (w := cst_width pr) in *.
  destruct (rows_lb (seq 0 (w - 1)) 0 (universe w)) as [A B]. cbv zeta in A, B. set (lbs := fold_left _ (seq 0 (w - 1)) (universe w)) in *.
  cbn [universe ncols rows app] in A, B.
  assert ((forall r, In r (rows lbs) -> qholds x r) <-> (forall i, (i < length x)%nat -> (0 <= nth i x 0)%Q)) as EL.
  { rewrite B. split.
    - intros H i Hi. apply (lb_holds w i 0); auto. apply H. apply in_map_iff. exists i. split; auto. apply in_seq. lia.
    - intros H r Hr. apply in_map_iff in Hr as (i & <- & Hi). apply in_seq in Hi. apply lb_holds; auto; [lia|]. apply H. lia. }
  assert (forall u, (forall r, In r (rows (fold_left (fun c i => add_ub c i u) (seq (p_npar pr + 1) (w - 1 - (p_npar pr + 1))) lbs)) -> qholds x r) <->
     (forall i, (i < length x)%nat -> (0 <= nth i x 0)%Q) /\ (forall i, (p_npar pr + 1 <= i < length x)%nat -> (nth i x 0 <= inject_Z u)%Q)) as EU.
  { intros u. destruct (rows_ub (seq (p_npar pr + 1) (w - 1 - (p_npar pr + 1))) u lbs) as [A' B']. cbv zeta in A', B'. rewrite B', A. split.
    - intros H. split; [apply EL; intros r Hr; apply H, in_or_app; auto|]. intros i Hi. apply (ub_holds w i u); auto; [lia|].
      apply H, in_or_app. right. apply in_map_iff. exists i. split; auto. apply in_seq. lia.
    - intros [H1 H2] r Hr. apply in_app_or in Hr as [Hr|Hr]; [revert r Hr; apply EL; auto|].
      apply in_map_iff in Hr as (i & <- & Hi). apply in_seq in Hi. apply ub_holds; auto; [lia|]. apply H2. lia. }
  destruct (negb (o_coeff_bound o =? -1)); [apply EU|]. destruct (10 <=? largest_const_in_domains pr); [apply EU|].
  rewrite EL. split; [intros H; split; auto|tauto].
Qed.

(** ** The whole system *)
Lemma unknown_holds pr ones free i (x : qpoint) : S (length x) = cst_width pr -> (i < length x)%nat ->
  (qholds x (unknown_row pr ones free i) <->
   if (i <? p_npar pr + 1)%nat then (0 <= nth i x 0)%Q
   else if existsb (Nat.eqb i) ones then (1 <= nth i x 0)%Q
   else if existsb (Nat.eqb i) free then (0 <= nth i x 0)%Q else (nth i x 0 == 0)%Q).
Proof.
  intros L H. unfold unknown_row. cbv zeta.
  assert (qaff (set_nth i 1%Z (repeat 0%Z (cst_width pr))) x == nth i x 0)%Q as E by (rewrite qaff_row0 by auto; unfold inject_Z; ring).
  destruct (i <? p_npar pr + 1)%nat; [unfold qholds; cbn [is_eq coef]; rewrite E; tauto|].
  destruct (existsb (Nat.eqb i) ones).
  - unfold qholds. cbn [is_eq coef]. rewrite qaff_row by auto. unfold inject_Z. split; intros K; lra.
  - unfold qholds. destruct (existsb (Nat.eqb i) free); cbn [negb is_eq coef]; rewrite E; tauto.
Qed.

Lemma conflict_qmem o pr ones free extra (x : qpoint) :
  qmem (conflict_cst o pr ones free extra) x <->
  S (length x) = cst_width pr /\ (forall i, (i < length x)%nat -> (0 <= nth i x 0)%Q) /\
  (forall i, (p_npar pr + 1 <= i < length x)%nat -> within o pr (nth i x 0%Q)) /\
  (forall i, (p_npar pr + 1 <= i < length x)%nat ->
     if existsb (Nat.eqb i) ones then (1 <= nth i x 0)%Q else if existsb (Nat.eqb i) free then True else (nth i x 0 == 0)%Q) /\
  (forall r, In r extra -> qholds x r).
Proof.
  unfold qmem, conflict_cst. cbn [ncols rows]. split.
  - intros [L H]. split; auto. assert (forall r, In r (rows (get_coeff_bounding_constraints o pr)) -> qholds x r) as H1 by (intros; apply H, in_or_app; auto).
    apply bounding_rows_qmem in H1 as [H1 H2]; auto. split; auto. split; auto. split.
    + intros i Hi. assert (qholds x (unknown_row pr ones free i)) as K.
      { apply H, in_or_app. right. apply in_or_app. left. apply in_map_iff. exists i. split; auto. apply in_seq. lia. }
      apply unknown_holds in K; auto; [|lia]. rewrite (proj2 (Nat.ltb_ge i (p_npar pr + 1))) in K by lia.
      destruct (existsb _ ones); auto. destruct (existsb _ free); auto.
    + intros r Hr. apply H, in_or_app. right. apply in_or_app. right. auto.
  - intros (L & H1 & H2 & H3 & H4). split; auto. intros r Hr. apply in_app_or in Hr as [Hr|Hr].
    { revert r Hr. apply bounding_rows_qmem; auto. }
    apply in_app_or in Hr as [Hr|Hr]; auto. apply in_map_iff in Hr as (i & <- & Hi). apply in_seq in Hi.
    apply unknown_holds; auto; [lia|]. destruct (Nat.ltb_spec i (p_npar pr + 1)); [apply H1; lia|]. specialize (H3 i ltac:(lia)).
    destruct (existsb _ ones); auto. destruct (existsb _ free); auto. apply H1. lia.
Qed.

(** ** Its meaning *)
Section Meaning.
Variables (o : options) (pr : prog).
Hypothesis W : wf_prog pr.
Hypothesis PD : padded pr.
Hypothesis OF : orig_first pr.
Hypothesis NE : forall d, In d (p_deps pr) -> (exists x, qmem (d_poly d) x) /\ (exists x, qmem (d_bpoly d) x).
Variables (act : list nat) (lp : nat -> nat) (fr : bool) (L : list dep).
Hypothesis AN : act <> [].
Hypothesis AL : forall s, In s act -> is_loop pr s (lp s).
Hypothesis HL : forall d, In d L -> In d (p_deps pr) /\ In (d_src d) act /\ In (d_dst d) act.

Let ones := map (fun s => coef_col pr s (lp s)) act.
Let free := if fr then map (fun s => coef_col pr s (p_nvar pr)) act else [].
Let extra := flat_map (fun d => rows (dep_cst o pr d)) L.

Lemma nvar_bound s : In s act -> (lp s < p_nvar pr)%nat.
Proof.
  intros H. destruct (AL s H) as [A B]. destruct (OF (stmt_of pr s)) as [C _]; [apply stmt_of_in; auto|]. lia.
Qed.
Lemma coef_col_inj s k s' k' : (k <= p_nvar pr)%nat -> (k' <= p_nvar pr)%nat -> coef_col pr s k = coef_col pr s' k' -> s = s' /\ k = k'.
Proof.
  unfold coef_col. intros A B E. assert (s * (p_nvar pr + 1) + k = s' * (p_nvar pr + 1) + k')%nat as E' by lia.
  assert (s = s') as -> by nia. split; auto. lia.
Qed.
Lemma coef_col_range s k : (s < length (p_stmts pr))%nat -> (k <= p_nvar pr)%nat -> (p_npar pr + 1 <= coef_col pr s k < cst_width pr - 1)%nat.
Proof. unfold coef_col, cst_width. intros. nia. Qed.
Lemma coef_col_split i : (p_npar pr + 1 <= i < cst_width pr - 1)%nat -> exists s k, i = coef_col pr s k /\ (s < length (p_stmts pr))%nat /\ (k <= p_nvar pr)%nat.
Proof.
  intros H. set (q := (i - (p_npar pr + 1))%nat). exists (q / (p_nvar pr + 1))%nat, (q mod (p_nvar pr + 1))%nat.
  pose proof (Nat.div_mod q (p_nvar pr + 1) ltac:(lia)) as E. pose proof (Nat.mod_upper_bound q (p_nvar pr + 1) ltac:(lia)).
  split; [unfold coef_col; lia|]. split; [|lia]. apply Nat.div_lt_upper_bound; [lia|]. unfold cst_width in H. unfold q. nia.
Qed.
Lemma existsb_eqb i l : existsb (Nat.eqb i) l = true <-> In i l.
Proof.
  rewrite existsb_exists. split; [intros (x & Hx & E); apply Nat.eqb_eq in E; subst; auto|intros H; exists i; split; auto; apply Nat.eqb_refl].
Qed.
Lemma ones_in s k : (s < length (p_stmts pr))%nat -> (k <= p_nvar pr)%nat -> (In (coef_col pr s k) ones <-> In s act /\ k = lp s).
Proof.
  intros Hs Hk. unfold ones. rewrite in_map_iff. split.
  - intros (s' & E & H). pose proof (nvar_bound s' H). apply coef_col_inj in E as [<- <-]; auto; lia.
  - intros [H ->]. exists s. auto.
Qed.
Lemma free_in s k : (s < length (p_stmts pr))%nat -> (k <= p_nvar pr)%nat -> (In (coef_col pr s k) free <-> fr = true /\ In s act /\ k = p_nvar pr).
Proof.
  intros Hs Hk. unfold free. destruct fr; [|cbn; split; [tauto|intros (H & _); discriminate]]. rewrite in_map_iff. split.
  - intros (s' & E & H). apply coef_col_inj in E as [<- <-]; auto.
  - intros (_ & H & ->). exists s. auto.
Qed.

Lemma hyp_of_nth (x : qpoint) s k : (k <= p_nvar pr)%nat -> nth k (hyp_of (p_nvar pr) (p_npar pr) x s) 0%Q = nth (coef_col pr s k) x 0%Q.
Proof.
  intros H. unfold hyp_of, coef_col. rewrite nth_firstn_lt by lia. rewrite nth_skipn_add. reflexivity.
Qed.

(** A point all of whose coefficients outside of the chosen loops vanish. *)
Lemma hval_line (x y : qpoint) s : S (length x) = cst_width pr -> (s < length (p_stmts pr))%nat -> (lp s < p_nvar pr)%nat -> length y = p_nvar pr ->
  (forall k, (k < p_nvar pr)%nat -> k <> lp s -> (nth (coef_col pr s k) x 0 == 0)%Q) ->
  (hval (hyp_of (p_nvar pr) (p_npar pr) x s) y == line (nth (coef_col pr s (lp s)) x 0) (nth (coef_col pr s (p_nvar pr)) x 0) (lp s) y)%Q.
Proof.
  intros Lx Hs Hl Ly H. rewrite (hval_sum _ _ (p_nvar pr)) by (auto; apply hyp_of_length; auto).
  rewrite (qsum_one _ (lp s)) by (auto; intros i Hi N; rewrite hyp_of_nth by lia; rewrite (H i Hi N); ring).
  rewrite !hyp_of_nth by lia. reflexivity.
Qed.
Lemma bound_split (x p : qpoint) : (p_npar pr < length x)%nat -> length p = p_npar pr ->
  (bound_val (p_npar pr) x p == qqdot (firstn (p_npar pr) x) p + nth (p_npar pr) x 0)%Q.
Proof.
  intros Hx Hp. unfold bound_val.
  assert (firstn (S (p_npar pr)) x = firstn (p_npar pr) x ++ [nth (p_npar pr) x 0%Q]) as ->.
  { clear - Hx. revert x Hx. induction (p_npar pr) as [|n IH]; intros [|v x] H; cbn in *; try lia; auto. f_equal. apply IH. lia. }
  rewrite qqdot_app by (rewrite firstn_length_le; lia). cbn. ring.
Qed.

(** What a point of the system stands for. *)
Lemma lp_at : forall x, qmem (conflict_cst o pr ones free extra) x ->
  let a s := nth (coef_col pr s (lp s)) x 0%Q in
  let c s := nth (coef_col pr s (p_nvar pr)) x 0%Q in
  let u := firstn (p_npar pr) x in
  let w := nth (p_npar pr) x 0%Q in
  (forall s, In s act -> (1 <= a s)%Q /\ within o pr (a s) /\ (0 <= c s)%Q /\ within o pr (c s) /\ (fr = false -> c s == 0)%Q) /\
  bound_ok pr u w /\
  forall d, In d L -> ordered o pr d (line (a (d_src d)) (c (d_src d)) (lp (d_src d))) (line (a (d_dst d)) (c (d_dst d)) (lp (d_dst d))) u w.
Proof.
  intros x H. apply conflict_qmem in H as (Lx & N & B & U & X).
    assert (p_npar pr < length x)%nat as Lx2 by (unfold cst_width in Lx; lia).
    assert (forall s k, In s act -> (k < p_nvar pr)%nat -> k <> lp s -> (nth (coef_col pr s k) x 0 == 0)%Q) as Z0.
    { intros s k Hs Hk Nk. destruct (AL s Hs) as [Hs' _]. pose proof (coef_col_range s k Hs' ltac:(lia)) as R. specialize (U (coef_col pr s k) ltac:(lia)).
      destruct (existsb (Nat.eqb (coef_col pr s k)) ones) eqn:E1; [apply existsb_eqb, ones_in in E1 as [_ E1]; auto; [contradiction|lia]|].
      destruct (existsb (Nat.eqb (coef_col pr s k)) free) eqn:E2; [apply existsb_eqb, free_in in E2 as (_ & _ & E2); auto; lia|]. auto. }
    cbv zeta.
    split; [|split].
    + intros s Hs. destruct (AL s Hs) as [Hs' _]. pose proof (nvar_bound s Hs) as Hl.
      pose proof (coef_col_range s (lp s) Hs' ltac:(lia)) as R1. pose proof (coef_col_range s (p_nvar pr) Hs' ltac:(lia)) as R2.
      split; [|split; [apply B; lia|split; [apply N; lia|split; [apply B; lia|]]]].
      * specialize (U (coef_col pr s (lp s)) ltac:(lia)). destruct (existsb (Nat.eqb (coef_col pr s (lp s))) ones) eqn:E1; auto.
        exfalso. assert (existsb (Nat.eqb (coef_col pr s (lp s))) ones = true) by (apply existsb_eqb, ones_in; auto; lia). congruence.
      * intros F. specialize (U (coef_col pr s (p_nvar pr)) ltac:(lia)).
        destruct (existsb (Nat.eqb (coef_col pr s (p_nvar pr))) ones) eqn:E1; [apply existsb_eqb, ones_in in E1 as [_ E1]; auto; lia|].
        destruct (existsb (Nat.eqb (coef_col pr s (p_nvar pr))) free) eqn:E2; [apply existsb_eqb, free_in in E2 as (E2 & _); auto; congruence|]. auto.
    + split; [apply firstn_length_le; lia|]. split; [|apply N; lia]. intros v Hv. apply (In_nth _ _ 0%Q) in Hv as (i & Hi & <-).
      rewrite firstn_length_le in Hi by lia. rewrite nth_firstn_lt by lia. apply N. lia.
    + intros d Hd. destruct (HL d Hd) as (Hd1 & Hs & Ht).
      assert (padding_zero pr x) as PZ.
      { intros s k Hs' Hk Hz. change (nth (coef_col pr s k) x 0 == 0)%Q.
        pose proof (coef_col_range s k Hs' ltac:(lia)) as R. specialize (U (coef_col pr s k) ltac:(lia)).
        destruct (existsb (Nat.eqb (coef_col pr s k)) ones) eqn:E1.
        - apply existsb_eqb, ones_in in E1 as [E1 E2]; auto; [|lia]. exfalso. destruct (AL s E1) as [_ A2]. destruct (OF (stmt_of pr s)) as [_ O2]; [apply stmt_of_in; auto|].
          rewrite O2 in Hz. rewrite app_nth1 in Hz by (rewrite repeat_length; lia). rewrite nth_repeat in Hz. discriminate.
        - destruct (existsb (Nat.eqb (coef_col pr s k)) free) eqn:E2; [apply existsb_eqb, free_in in E2 as (_ & _ & E2); auto; lia|]. auto. }
      assert (qmem (dep_cst o pr d) x) as Q.
      { destruct (dep_cst_wf o pr d) as [_ N1]. split; [rewrite N1; auto|]. intros r Hr. apply X. unfold extra. apply in_flat_map. exists d. auto. }
      apply dep_cst_sound in Q as [Q1 Q2]; auto; [|apply padded_dep_intro; auto]. destruct (AL _ Hs) as [Hs' _]. destruct (AL _ Ht) as [Ht' _].
      pose proof (nvar_bound _ Hs). pose proof (nvar_bound _ Ht). split.
      * intros Hr s t p Ls Lt Lp M. specialize (Q1 Hr s t p Ls Lt Lp M). rewrite !hval_line in Q1 by (auto; intros; apply Z0; auto). rewrite inject_Z_0 in Q1. lra.
      * intros Hn s t p Ls Lt Lp M. specialize (Q2 Hn s t p Ls Lt Lp M). rewrite !hval_line in Q2 by (auto; intros; apply Z0; auto). rewrite bound_split in Q2 by (auto; lia). exact Q2.
Qed.

Theorem lp_meaning :
  (exists x, qmem (conflict_cst o pr ones free extra) x) <->
  exists (a c : nat -> Q) (u : qpoint) (w : Q),
    (forall s, In s act -> (1 <= a s)%Q /\ within o pr (a s) /\ (0 <= c s)%Q /\ within o pr (c s) /\ (fr = false -> c s == 0)%Q) /\
    bound_ok pr u w /\
    forall d, In d L -> ordered o pr d (line (a (d_src d)) (c (d_src d)) (lp (d_src d))) (line (a (d_dst d)) (c (d_dst d)) (lp (d_dst d))) u w.
Proof.
  split.
  - intros (x & H). do 4 eexists. exact (lp_at x H).
  - intros (a & c & u & w & HA & (Lu & Nu & Nw) & HD).
    set (val := fun i => if (i <? p_npar pr)%nat then nth i u 0%Q else if (i =? p_npar pr)%nat then w else
       let q := (i - (p_npar pr + 1))%nat in let s := (q / (p_nvar pr + 1))%nat in let k := (q mod (p_nvar pr + 1))%nat in
       if existsb (Nat.eqb s) act then (if (k =? lp s)%nat then a s else if (k =? p_nvar pr)%nat then c s else 0%Q) else 0%Q).
    set (x := map val (seq 0 (cst_width pr - 1))).
    assert (S (length x) = cst_width pr) as Lx by (unfold x; rewrite map_length, seq_length; unfold cst_width; lia).
    assert (forall i, (i < length x)%nat -> nth i x 0%Q = val i) as Nx.
    { intros i Hi. unfold x in *. rewrite map_length, seq_length in Hi. rewrite (nth_indep _ 0%Q (val 0%nat)) by (rewrite map_length, seq_length; auto).
      rewrite List.map_nth, seq_nth by auto. reflexivity. }
    assert (forall s k, (s < length (p_stmts pr))%nat -> (k <= p_nvar pr)%nat -> nth (coef_col pr s k) x 0%Q =
       if existsb (Nat.eqb s) act then (if (k =? lp s)%nat then a s else if (k =? p_nvar pr)%nat then c s else 0%Q) else 0%Q) as Cx.
    { intros s k Hs Hk. pose proof (coef_col_range s k Hs Hk) as R. rewrite Nx by lia. unfold val.
      rewrite (proj2 (Nat.ltb_ge _ _)) by lia. rewrite (proj2 (Nat.eqb_neq _ _)) by lia. cbv zeta.
      replace (coef_col pr s k - (p_npar pr + 1))%nat with (k + s * (p_nvar pr + 1))%nat by (unfold coef_col; lia).
      rewrite Nat.div_add, Nat.mod_add by lia. rewrite Nat.div_small, Nat.mod_small by lia. reflexivity. }
    assert (within o pr 0%Q) as W0.
    { destruct act as [|s0 rest] eqn:EA; [contradiction|]. destruct (HA s0 (or_introl eq_refl)) as (H1 & H2 & _). unfold within in *. destruct (coeff_limit o pr); auto. lra. }
    exists x. apply conflict_qmem. split; auto.
    assert (forall i, (i < length x)%nat -> (0 <= nth i x 0)%Q /\ ((p_npar pr + 1 <= i)%nat -> within o pr (nth i x 0%Q))) as NB.
    { intros i Hi. destruct (le_lt_dec (p_npar pr + 1) i) as [G|G].
      - destruct (coef_col_split i ltac:(lia)) as (s & k & -> & Hs & Hk). rewrite Cx by auto. destruct (existsb (Nat.eqb s) act) eqn:E; [|split; [lra|auto]].
        apply existsb_eqb in E. destruct (HA s E) as (H1 & H2 & H3 & H4 & _). destruct (k =? lp s)%nat; [split; [lra|auto]|]. destruct (k =? p_nvar pr)%nat; split; auto; lra.
      - split; [|lia]. rewrite Nx by auto. unfold val. destruct (Nat.ltb_spec i (p_npar pr)).
        + apply Nu. apply nth_In. lia.
        + rewrite (proj2 (Nat.eqb_eq i (p_npar pr))) by lia. auto. }
    split; [intros i Hi; apply NB; auto|]. split; [intros i Hi; apply NB; lia|]. split.
    + intros i Hi. destruct (coef_col_split i ltac:(lia)) as (s & k & -> & Hs & Hk). rewrite Cx by auto.
      destruct (existsb (Nat.eqb s) act) eqn:E.
      * apply existsb_eqb in E. destruct (HA s E) as (H1 & H2 & H3 & H4 & H5). pose proof (nvar_bound s E).
        destruct (Nat.eqb_spec k (lp s)) as [->|Nk].
        { rewrite (proj2 (existsb_eqb _ ones)) by (apply ones_in; auto). auto. }
        destruct (existsb (Nat.eqb (coef_col pr s k)) ones) eqn:E1; [apply existsb_eqb, ones_in in E1 as [_ E1]; auto; contradiction|].
        destruct (existsb (Nat.eqb (coef_col pr s k)) free) eqn:E2; auto. destruct (Nat.eqb_spec k (p_nvar pr)) as [->|]; [|lra].
        apply H5. apply not_true_is_false. intros Ef. assert (existsb (Nat.eqb (coef_col pr s (p_nvar pr))) free = true) by (apply existsb_eqb, free_in; auto). congruence.
      * assert (~ In s act) as NI by (intros H; apply existsb_eqb in H; congruence).
        destruct (existsb (Nat.eqb (coef_col pr s k)) ones) eqn:E1; [apply existsb_eqb, ones_in in E1 as [E1 _]; auto; contradiction|].
        destruct (existsb (Nat.eqb (coef_col pr s k)) free) eqn:E2; auto. reflexivity.
    + intros r Hr. unfold extra in Hr. apply in_flat_map in Hr as (d & Hd & Hr). destruct (HL d Hd) as (Hd1 & Hs & Ht).
      destruct (AL _ Hs) as [Hs' _]. destruct (AL _ Ht) as [Ht' _]. pose proof (nvar_bound _ Hs). pose proof (nvar_bound _ Ht).
      assert (padding_zero pr x) as PZ.
      { intros s k Hs0 Hk Hz. change (nth (coef_col pr s k) x 0 == 0)%Q. rewrite Cx by (auto; lia). destruct (existsb (Nat.eqb s) act) eqn:E; [|reflexivity].
        apply existsb_eqb in E. destruct (Nat.eqb_spec k (lp s)) as [->|Nk].
        - exfalso. destruct (AL s E) as [_ A2]. destruct (OF (stmt_of pr s)) as [_ O2]; [apply stmt_of_in; auto|].
          rewrite O2 in Hz. rewrite app_nth1 in Hz by (rewrite repeat_length; lia). rewrite nth_repeat in Hz. discriminate.
        - rewrite (proj2 (Nat.eqb_neq k (p_nvar pr))) by lia. reflexivity. }
      assert (forall s k, In s act -> (k < p_nvar pr)%nat -> k <> lp s -> (nth (coef_col pr s k) x 0 == 0)%Q) as Z0.
      { intros s k H1 H2 H3. destruct (AL s H1) as [H4 _]. rewrite Cx by (auto; lia). rewrite (proj2 (existsb_eqb s act)) by auto.
        rewrite (proj2 (Nat.eqb_neq k (lp s))) by auto. rewrite (proj2 (Nat.eqb_neq k (p_nvar pr))) by lia. reflexivity. }
      assert (forall s, In s act -> nth (coef_col pr s (lp s)) x 0%Q = a s /\ nth (coef_col pr s (p_nvar pr)) x 0%Q = c s) as V.
      { intros s H1. destruct (AL s H1) as [H4 _]. pose proof (nvar_bound s H1). rewrite !Cx by (auto; lia). rewrite (proj2 (existsb_eqb s act)) by auto. rewrite !Nat.eqb_refl.
        rewrite (proj2 (Nat.eqb_neq (p_nvar pr) (lp s))) by lia. auto. }
      destruct (HD d Hd) as [D1 D2]. destruct (NE d Hd1) as [NE1 NE2].
      assert (qmem (dep_cst o pr d) x) as Q; [|apply Q; auto].
      apply dep_cst_complete; auto.
      * apply padded_dep_intro; auto.
      * intros Hrr. split; auto. intros s t p Ls Lt Lp M. rewrite !hval_line by (auto; intros; apply Z0; auto).
        destruct (V _ Hs) as [-> ->]. destruct (V _ Ht) as [-> ->]. specialize (D1 Hrr s t p Ls Lt Lp M). rewrite inject_Z_0. lra.
      * intros Hn. split; auto. intros s t p Ls Lt Lp M. rewrite !hval_line by (auto; intros; apply Z0; auto).
        destruct (V _ Hs) as [-> ->]. destruct (V _ Ht) as [-> ->]. specialize (D2 Hn s t p Ls Lt Lp M).
        rewrite bound_split by (auto; unfold cst_width in Lx; lia).
        assert (firstn (p_npar pr) x = u) as ->.
        { apply nth_ext with (d := 0%Q) (d' := 0%Q); [rewrite firstn_length_le; unfold cst_width in Lx; lia|]. intros i Hi. rewrite firstn_length in Hi.
          rewrite nth_firstn_lt by lia. rewrite Nx by lia. unfold val. rewrite (proj2 (Nat.ltb_lt _ _)) by lia. reflexivity. }
        rewrite Nx by (unfold cst_width in Lx; lia). unfold val at 1. rewrite Nat.ltb_irrefl, Nat.eqb_refl. exact D2.
Qed.
End Meaning.
