(** * Index-set splitting of a whole program: proofs. *)
From Coq Require Import ZArith List Bool Lia Arith.
From Verif Require Import SpecLinear MathModel ConstraintsModel VecProofs EditProofs MatrixProofs SpecProg SpecTile
  RankProofs FrameworkModel ProgModel DepProofs SimplifyProofs LexProofs ProgProofs TileModel TileProofs LoopModel
  IssModel SpecIss Checkers IssProofs.
Import ListNotations.
Open Scope Z_scope.

(** ** Adding statements *)
Lemma pad_same pr h : (forall st, In st (p_stmts pr) -> mnrows (s_trans st) = h) -> length (p_hprops pr) = h ->
  pad_stmt_transformations pr = pr.
Proof.
  intros H L. unfold pad_stmt_transformations.
  assert (max_nrows (p_stmts pr) <= h)%nat as M.
  { unfold max_nrows. assert (forall l m, (m <= h)%nat -> (forall st, In st l -> mnrows (s_trans st) = h) ->
      (fold_left (fun m st => Nat.max m (mnrows (s_trans st))) l m <= h)%nat) as K.
    { induction l; simpl; auto. intros m Hm Hl. apply IHl; auto. rewrite (Hl a); auto. lia. }
    apply K; auto. lia. }
  destruct (_ <=? _)%nat; auto. destruct pr as [a b l c e]; cbn [p_stmts p_hprops p_nvar p_npar p_deps] in *.
  replace (max_nrows l - length e)%nat with 0%nat by lia. cbn [pad_hprops]. f_equal.
  rewrite <- (map_id l) at 2. apply map_ext_in. intros st Hst. rewrite (H st Hst).
  replace (max_nrows l - h)%nat with 0%nat by lia. reflexivity.
Qed.

Lemma add_given_fold st cuts : forall pr h,
  (forall st, In st (p_stmts pr) -> mnrows (s_trans st) = h) -> length (p_hprops pr) = h -> mnrows (s_trans st) = h ->
  let q := fold_left (fun q cut => add_given_stmt q (iss_stmt st cut)) cuts pr in
  p_npar q = p_npar pr /\ p_stmts q = p_stmts pr ++ map (iss_stmt st) cuts /\ p_deps q = p_deps pr /\
  p_hprops q = p_hprops pr /\ (p_nvar q = p_nvar pr \/ p_nvar q = Nat.max (p_nvar pr) (s_dim st)).
Proof.
  induction cuts as [|c cuts IH]; intros pr h H L S; cbv zeta; cbn [fold_left map].
  - rewrite app_nil_r. auto 6.
  - assert (add_given_stmt pr (iss_stmt st c) =
      mkProg (Nat.max (p_nvar pr) (s_dim st)) (p_npar pr) (p_stmts pr ++ [iss_stmt st c]) (p_deps pr) (p_hprops pr)) as ->.
    { unfold add_given_stmt. rewrite (pad_same _ h); auto. cbn [p_stmts]. intros st' Hs.
      apply in_app_or in Hs as [Hs|[<-|[]]]; auto. }
    destruct (IH (mkProg (Nat.max (p_nvar pr) (s_dim st)) (p_npar pr) (p_stmts pr ++ [iss_stmt st c]) (p_deps pr) (p_hprops pr)) h)
      as (A1 & A2 & A3 & A4 & A5); auto.
    { cbn [p_stmts]. intros st' Hs. apply in_app_or in Hs as [Hs|[<-|[]]]; auto. }
    cbn [p_stmts p_npar p_deps p_hprops p_nvar] in *. repeat split; auto.
    + rewrite A2, <- app_assoc. reflexivity.
    + right. destruct A5 as [->| ->]; lia.
Qed.

(** ** Removing the first statements *)
Lemma remove_skipn {A} n (l : list A) : remove_at 0 (skipn n l) = skipn (S n) l.
Proof.
  revert n; induction l; destruct n; try reflexivity. change (skipn (S n) (a :: l)) with (skipn n l).
  rewrite IHl. reflexivity.
Qed.
Lemma remove_first n : forall q, (n <= length (p_stmts q))%nat ->
  (forall d, In d (p_deps q) -> (n <= d_src d < length (p_stmts q))%nat /\ (n <= d_dst d < length (p_stmts q))%nat) ->
  let r := Nat.iter n (fun q => remove_stmt q 0) q in
  p_stmts r = skipn n (p_stmts q) /\ p_npar r = p_npar q /\ p_hprops r = p_hprops q /\
  p_deps r = map (fun d => set_ends d (d_src d - n) (d_dst d - n)) (p_deps q).
Proof.
  induction n; intros q Hn Hd; cbn zeta.
  - cbn. split; auto. split; auto. split; auto. rewrite <- (map_id (p_deps q)) at 1. apply map_ext_in.
    intros d _. destruct d; unfold set_ends; cbn. f_equal; lia.
  - destruct (IHn q) as (A1 & A2 & A3 & A4); [lia|intros d H; specialize (Hd d H); lia|].
    change (Nat.iter (S n) (fun q0 => remove_stmt q0 0) q) with (remove_stmt (Nat.iter n (fun q0 => remove_stmt q0 0) q) 0).
    set (r := Nat.iter n (fun q => remove_stmt q 0) q) in *.
    destruct (remove_stmt_spec r 0) as (B1 & _ & B2).
    { rewrite A1, skipn_length. lia. }
    { rewrite A1, A4, skipn_length. intros d H. apply in_map_iff in H as (d0 & <- & H). specialize (Hd d0 H). cbn. lia. }
    split; [|split; [exact A2|split; [exact A3|]]].
    + rewrite B1, A1. apply remove_skipn.
    + rewrite B2, A4, map_map. apply map_ext_in. intros d H. specialize (Hd d H). unfold set_ends, renum; cbn [d_src d_dst d_rar d_poly d_bpoly d_sat d_level d_satvec d_dirs]. f_equal; natb; lia.
Qed.

(** ** Stages of the loop *)
Lemma Forall2_flat {A B} (R S : A -> list B -> Prop) (f : B -> list B) l G :
  (forall d g, In d l -> (forall x, In x g -> In x (concat G)) -> R d g -> S d (flat_map f g)) ->
  Forall2 R l G -> Forall2 S l (map (flat_map f) G).
Proof.
  intros H F. induction F; simpl; constructor.
  - apply H; auto. simpl; auto. intros z Hz. simpl. apply in_or_app; auto.
  - apply IHF. intros d g Hd Hg. apply H. simpl; auto. intros z Hz. simpl. apply in_or_app; auto.
Qed.
Lemma flat_concat {A B} (f : A -> list B) G : flat_map f (concat G) = concat (map (flat_map f) G).
Proof. induction G; simpl; auto. rewrite flat_map_app, IHG. auto. Qed.

Definition nilb {A} (l : list A) : bool := match l with [] => true | _ => false end.
Lemma update_eq is_empty q cuts sid base : cuts <> [] ->
  update_deps_after_iss is_empty q cuts sid base =
  let l := flat_map (iss_split_dep is_empty q cuts sid base) (p_deps q) in
  if nilb l && negb (nilb (p_deps q)) then None else Some (mkProg (p_nvar q) (p_npar q) (p_stmts q) l (p_hprops q)).
Proof.
  intros H. unfold update_deps_after_iss. destruct cuts as [|c cuts]; [congruence|]. cbv zeta.
  destruct (flat_map _ _); cbn [nilb andb]; auto. destruct (p_deps q); auto.
Qed.

Section Stages.
Variables (is_empty : cst -> bool) (pr : prog) (cuts : list cst) (D : nat).
Hypothesis E : forall c, wf_cst c -> is_empty c = true -> forall x, ~ mem c x.
Hypothesis C : parts (D + p_npar pr) cuts.
Hypothesis W : wf_prog pr.
Hypothesis SD : forall st, In st (p_stmts pr) -> s_dim st = D.
Let n := length (p_stmts pr).
Let m := length cuts.

Definition pieces (l : list stmt) : list stmt := flat_map (fun st => map (iss_stmt st) cuts) l.
Lemma pieces_length l : length (pieces l) = (length l * m)%nat.
Proof. unfold pieces. induction l; simpl; auto. rewrite app_length, map_length, IHl. auto. Qed.
Lemma pieces_nth l s k : (s < length l)%nat -> (k < m)%nat ->
  nth (s * m + k) (pieces l) dummy_stmt = iss_stmt (nth s l dummy_stmt) (nth k cuts (universe 1)).
Proof.
  unfold pieces. revert s. induction l; simpl; intros s Hs Hk; [lia|]. destruct s.
  - rewrite app_nth1 by (rewrite map_length; auto). cbn [Nat.mul Nat.add].
    rewrite (nth_indep _ dummy_stmt (iss_stmt a (universe 1))) by (rewrite map_length; auto).
    rewrite List.map_nth. auto.
  - rewrite app_nth2 by (rewrite map_length; cbn; fold m; lia). rewrite map_length. fold m.
    replace (S s * m + k - m)%nat with (s * m + k)%nat by (cbn; lia). apply IHl; auto. lia.
Qed.

Definition stage_end (j e e' k : nat) : Prop :=
  if (e <? j)%nat then (k < m)%nat /\ e' = (n + e * m + k)%nat else e' = e.
Definition stage_cut (j e k : nat) (x p : point) : Prop :=
  (e < j)%nat -> memb (nth k cuts (universe 1)) (x ++ p) = true.

Definition grp (j : nat) (d : dep) (g : list dep) : Prop :=
  (forall x y p, length x = D -> length y = D -> length p = p_npar pr ->
     count (fun d' => memb (d_poly d') (x ++ y ++ p)) g = b2n (memb (d_poly d) (x ++ y ++ p))) /\
  forall d', In d' g ->
    (d_rar d' = d_rar d /\ d_sat d' = d_sat d /\ d_level d' = d_level d /\ d_bpoly d' = d_bpoly d) /\
    wf_cst (d_poly d') /\ ncols (d_poly d') = ncols (d_poly d) /\
    exists s t, stage_end j (d_src d) (d_src d') s /\ stage_end j (d_dst d) (d_dst d') t /\
      forall x y p, length x = D -> length y = D -> memb (d_poly d') (x ++ y ++ p) = true ->
        memb (d_poly d) (x ++ y ++ p) = true /\ stage_cut j (d_src d) s x p /\ stage_cut j (d_dst d) t y p.

Definition stage (j : nat) (q : prog) : Prop :=
  p_npar q = p_npar pr /\ p_hprops q = p_hprops pr /\
  p_stmts q = p_stmts pr ++ pieces (firstn j (p_stmts pr)) /\
  exists G, p_deps q = concat G /\ Forall2 (grp j) (p_deps pr) G.

Lemma stage_0 : stage 0 pr.
Proof.
  split; auto. split; auto. split; [cbn; rewrite app_nil_r; auto|].
  exists (map (fun d => [d]) (p_deps pr)). split.
  - induction (p_deps pr); simpl; congruence.
  - assert (forall d, In d (p_deps pr) -> grp 0 d [d]) as H.
    { intros d Hd. destruct (proj2 W d Hd) as (W1 & W2 & W3 & W4 & _). split.
      - intros x y p _ _ _. unfold count; cbn [filter]. destruct (memb _ _); auto.
      - intros d' [<-|[]]. split; auto. split; auto. split; auto. exists 0%nat, 0%nat. split; [reflexivity|].
        split; [reflexivity|]. intros x y p _ _ M. split; auto. split; intros K; lia. }
    clear - H. induction (p_deps pr); simpl; constructor. apply H; simpl; auto. apply IHl. intros; apply H; simpl; auto.
Qed.

Lemma dims_pieces l : (forall st, In st l -> s_dim st = D) -> forall st, In st (pieces l) -> s_dim st = D.
Proof.
  intros H st Hs. apply in_flat_map in Hs as (st0 & H0 & Hs). apply in_map_iff in Hs as (c & <- & _). cbn. auto.
Qed.

Lemma firstn_in {A} k (l : list A) x : In x (firstn k l) -> In x l.
Proof. intros H. rewrite <- (firstn_skipn k l). apply in_or_app; auto. Qed.

Lemma grp_step q j base d g : (j < n)%nat -> p_npar q = p_npar pr ->
  (forall e, (e < length (p_stmts q))%nat -> s_dim (stmt_of q e) = D) ->
  base = (n + j * m)%nat -> (base <= length (p_stmts q))%nat ->
  In d (p_deps pr) -> grp j d g -> grp (S j) d (flat_map (iss_split_dep is_empty q cuts j base) g).
Proof.
  intros Hj Hp Hq Hb Hl Hd [G1 G2].
  destruct (proj2 W d Hd) as (W1 & W2 & W3 & W4 & _).
  assert (n <= base)%nat as Nb by lia.
  assert (forall e e' k, (e < n)%nat -> stage_end j e e' k -> (e' < base)%nat /\ (e' = j <-> e = j)) as SE.
  { intros e e' k He. unfold stage_end. destruct (Nat.ltb_spec e j); intros K.
    - destruct K as [K ->]. split; [|lia]. assert (e * m + m <= j * m)%nat by nia. lia.
    - subst. lia. }
  assert (SD' : forall s, (s < n)%nat -> s_dim (stmt_of pr s) = D) by (intros s Hs; apply SD, nth_In; auto).
  assert (forall d', In d' g -> dep_shape q d' /\ s_dim (stmt_of q (d_src d')) = D /\ s_dim (stmt_of q (d_dst d')) = D) as DS.
  { intros d' H'. destruct (G2 d' H') as (_ & A2 & A3 & s & t & A4 & A5 & _).
    apply SE in A4; auto. apply SE in A5; auto.
    assert (s_dim (stmt_of q (d_src d')) = D) as X1 by (apply Hq; lia).
    assert (s_dim (stmt_of q (d_dst d')) = D) as X2 by (apply Hq; lia).
    split; auto. split; auto. rewrite A3, W4, X1, X2, Hp, !SD' by auto. auto. }
  assert (C' : parts (D + p_npar q) cuts) by (rewrite Hp; auto).
  assert (Sj : s_dim (stmt_of q j) = D) by (apply Hq; lia).
  split.
  - intros x y p Hx Hy Hpp. rewrite count_flat_map. rewrite <- G1 by auto. rewrite count_nsum. apply nsum_ext.
    intros d' H'. destruct (DS d' H') as (S1 & S2 & S3).
    apply (split_count is_empty q cuts j base D E C' Sj d' x y p); auto; congruence.
  - intros d'' H''. apply in_flat_map in H'' as (d' & H' & H'').
    destruct (DS d' H') as (S1 & S2 & S3). destruct (G2 d' H') as ((F1 & F2 & F3 & F4) & A2 & A3 & s & t & A4 & A5 & A6).
    destruct (split_in is_empty q cuts j base D C' Sj d' d'' S1 H'') as (B1 & B2 & B3 & B4 & B5 & B6 & s' & t' & B7 & B8 & B9).
    split; [repeat split; congruence|]. split; auto. split; [congruence|].
    exists (if (d_src d =? j)%nat then s' else s), (if (d_dst d =? j)%nat then t' else t).
    assert (forall e e' e'' k k', (e < n)%nat -> stage_end j e e' k -> new_end cuts j base e' e'' k' ->
      stage_end (S j) e e'' (if (e =? j)%nat then k' else k)) as NE.
    { intros e e' e'' k k' He X Y. destruct (SE e e' k He X) as [Z1 Z2]. unfold stage_end, new_end in *.
      destruct (Nat.eqb_spec e j) as [->|Ne].
      - rewrite (proj2 (Nat.ltb_lt j (S j))) by lia. rewrite (proj2 (Nat.eqb_eq e' j)) in Y by tauto. destruct Y as [Y1 ->]. split; auto.
      - rewrite (proj2 (Nat.eqb_neq e' j)) in Y by tauto. subst.
        replace (e <? S j)%nat with (e <? j)%nat; auto. natb; lia. }
    split; [apply NE with (e' := d_src d'); auto|]. split; [apply NE with (e' := d_dst d'); auto|].
    intros x y p Hx Hy M. destruct (B9 x y p) as (M1 & M2 & M3); auto; [congruence|congruence|].
    destruct (A6 x y p Hx Hy M1) as (N1 & N2 & N3). split; auto.
    assert (forall e e' k k' z, (e < n)%nat -> stage_end j e e' k -> stage_cut j e k z p -> at_cut cuts j e' k' z p = true ->
      stage_cut (S j) e (if (e =? j)%nat then k' else k) z p) as CE.
    { intros e e' k k' z He X Y Z0 Le. destruct (SE e e' k He X) as [Z1 Z2]. unfold at_cut, stage_cut in *.
      destruct (Nat.eqb_spec e j) as [->|Ne].
      - rewrite (proj2 (Nat.eqb_eq e' j)) in Z0 by tauto. auto.
      - apply Y. lia. }
    split; eapply CE; eauto.
Qed.

Lemma stage_dims j q : stage j q -> forall e, (e < length (p_stmts q))%nat -> s_dim (stmt_of q e) = D.
Proof.
  intros (_ & _ & Q & _) e He.
  assert (In (stmt_of q e) (p_stmts q)) as H by (apply nth_In; auto).
  rewrite Q in H. apply in_app_or in H as [H|H]; auto. eapply dims_pieces; [|exact H].
  intros st Hs. apply SD. eapply firstn_in; eauto.
Qed.

Lemma stage_length j q : (j <= n)%nat -> stage j q -> length (p_stmts q) = (n + j * m)%nat.
Proof.
  intros Hj (_ & _ & Q & _). rewrite Q, app_length, pieces_length, firstn_length. fold n. rewrite Nat.min_l; auto.
Qed.

Lemma m_pos : (1 <= m)%nat.
Proof.
  unfold m. destruct cuts; simpl; [|lia]. destruct C as [_ K].
  specialize (K (repeat 0 (D + p_npar pr)) (repeat_length _ _)). discriminate.
Qed.

Lemma stage_nonempty j q : stage j q -> (exists d x y p, In d (p_deps pr) /\ instance pr d x y p) -> p_deps q <> [].
Proof.
  intros (_ & _ & _ & G & Q & F) (d & x & y & p & Hd & I) Z. rewrite Q in Z.
  assert (forall l G, Forall2 (grp j) l G -> In d l -> concat G = [] -> grp j d []) as K.
  { intros l G0 FF. induction FF; simpl; intros H1 H2; [tauto|]. apply app_eq_nil in H2 as [-> H2].
    destruct H1 as [->|H1]; auto. }
  destruct (K _ _ F Hd Z) as [K1 _]. destruct (proj2 W d Hd) as (W1 & W2 & _).
  destruct I as (I1 & I2 & I3 & I4).
  specialize (K1 x y p). rewrite (proj2 (memb_ok _ _) I4) in K1. 
  assert (0 = 1)%nat; [|lia]. apply K1; auto; [rewrite I1|rewrite I2]; apply SD, nth_In; auto.
Qed.

Lemma stage_step j q : (j < n)%nat -> stage j q ->
  match iss is_empty q j cuts with
  | Some q' => stage (S j) q'
  | None => forall d x y p, In d (p_deps pr) -> ~ instance pr d x y p
  end.
Proof.
  intros Hj Sg. pose proof Sg as (Q1 & Q2 & Q3 & G & Q4 & Q5).
  pose proof (stage_length j q (Nat.lt_le_incl _ _ Hj) Sg) as L.
  pose proof (stage_dims j q Sg) as DM. pose proof m_pos as MP.
  assert (stmt_of q j = stmt_of pr j) as Ej by (unfold stmt_of; rewrite Q3, app_nth1; auto).
  assert (In (stmt_of pr j) (p_stmts pr)) as Ij by (apply nth_In; auto).
  assert (HR : forall st, In st (p_stmts q) -> mnrows (s_trans st) = length (p_hprops pr)).
  { rewrite Q3. intros st H. apply in_app_or in H as [H|H].
    - apply (proj1 W) in H. apply H.
    - apply in_flat_map in H as (st0 & H0 & H). apply in_map_iff in H as (c & <- & _). cbn.
      apply firstn_in in H0. apply (proj1 W) in H0. apply H0. }
  destruct (add_given_fold (stmt_of q j) cuts q (length (p_hprops pr))) as (A1 & A2 & A3 & A4 & _); auto; [congruence| |].
  { rewrite Ej. apply (proj1 W) in Ij. apply Ij. }
  unfold iss. set (q1 := fold_left _ cuts q) in *.
  assert (forall e, (e < length (p_stmts q1))%nat -> s_dim (stmt_of q1 e) = D) as DM1.
  { intros e He. assert (In (stmt_of q1 e) (p_stmts q1)) as H by (apply nth_In; auto).
    rewrite A2 in H. apply in_app_or in H as [H|H].
    - apply (In_nth _ _ dummy_stmt) in H as (k & K1 & K2). rewrite <- K2. apply DM; auto.
    - apply in_map_iff in H as (c & <- & _). cbn. rewrite Ej. auto. }
  set (l' := flat_map (iss_split_dep is_empty q1 cuts j (length (p_stmts q))) (p_deps q1)).
  assert (stage (S j) (mkProg (p_nvar q1) (p_npar q1) (p_stmts q1) l' (p_hprops q1))) as ST.
  { split; [cbn; congruence|]. split; [cbn; congruence|]. split.
    - cbn [p_stmts]. rewrite A2, Q3, <- app_assoc. f_equal. unfold pieces.
      assert (firstn (S j) (p_stmts pr) = firstn j (p_stmts pr) ++ [stmt_of pr j]) as ->.
      { clear - Hj. unfold n, stmt_of in *. revert Hj. generalize (p_stmts pr) as l. induction j; destruct l; simpl; intros; try lia; auto.
        f_equal. apply IHj. lia. }
      rewrite flat_map_app. cbn [flat_map]. rewrite app_nil_r, Ej. auto.
    - exists (map (flat_map (iss_split_dep is_empty q1 cuts j (length (p_stmts q)))) G). split.
      + cbn [p_deps]. unfold l'. rewrite A3, Q4. apply flat_concat.
      + apply (Forall2_flat (grp j)); auto. intros d g Hd _ Hg.
        apply (grp_step q1 j (length (p_stmts q))); auto; [congruence|]. rewrite A2, app_length. lia. }
  rewrite update_eq by (intros Z; apply (f_equal (@length _)) in Z; unfold m in MP; cbn in Z; lia).
  cbv zeta. fold l'.
  destruct l' as [|d0 l0] eqn:El; cbn [nilb andb]; auto.
  destruct (p_deps q1) as [|d9 l9] eqn:Ed; cbn [nilb negb]; auto.
  intros d x y p Hd I. apply (stage_nonempty (S j) _ ST); [|reflexivity]. exists d, x, y, p. auto.
Qed.

Lemma stage_all k : forall j q, (j + k = n)%nat -> stage j q ->
  match iss_all is_empty q cuts (seq j k) with
  | Some q' => stage n q'
  | None => forall d x y p, In d (p_deps pr) -> ~ instance pr d x y p
  end.
Proof.
  induction k; intros j q Hk Sg; cbn [seq iss_all].
  - replace n with j by lia. auto.
  - pose proof (stage_step j q ltac:(lia) Sg) as H. destruct (iss is_empty q j cuts); auto.
    apply IHk; auto. lia.
Qed.

(** ** The result *)
Lemma end_range e e' k : (e < n)%nat -> stage_end n e e' k -> (k < m)%nat /\ e' = (n + (e * m + k))%nat /\ (e * m + k < n * m)%nat.
Proof.
  intros He. unfold stage_end. rewrite (proj2 (Nat.ltb_lt e n)) by auto. intros [K ->]. split; auto. split; [lia|]. nia.
Qed.

Lemma split_all_spec :
  match split_all is_empty pr cuts with
  | Some r =>
      p_npar r = p_npar pr /\ p_hprops r = p_hprops pr /\ p_stmts r = pieces (p_stmts pr) /\
      exists G, p_deps r = concat G /\ Forall2 (replaces m pr r) (p_deps pr) G
  | None => forall d x y p, In d (p_deps pr) -> ~ instance pr d x y p
  end.
Proof.
  unfold split_all. pose proof (stage_all n 0 pr (Nat.add_0_l _) stage_0) as H. fold n.
  destruct (iss_all is_empty pr cuts (seq 0 n)) as [q|]; auto.
  pose proof H as (Q1 & Q2 & Q3 & G & Q4 & Q5). pose proof (stage_length n q (le_n _) H) as L.
  assert (F2 : forall d', In d' (p_deps q) -> exists d s t, In d (p_deps pr) /\ stage_end n (d_src d) (d_src d') s /\ stage_end n (d_dst d) (d_dst d') t).
  { intros d' H'. rewrite Q4 in H'. clear - Q5 H'. induction Q5 as [|d g l G [_ R] Q5 IH]; [destruct H'|].
    cbn [concat] in H'. apply in_app_or in H' as [H'|H'].
    - destruct (R d' H') as (_ & _ & _ & s & t & A & B & _). exists d, s, t. simpl; auto.
    - destruct (IH H') as (d0 & s & t & A & B). exists d0, s, t. simpl; auto. }
  destruct (remove_first n q) as (R1 & R2 & R3 & R4).
  { lia. }
  { intros d' H'. destruct (F2 d' H') as (d & s & t & Hd & A & B). destruct (proj2 W d Hd) as (W1 & W2 & _).
    apply end_range in A; auto. apply end_range in B; auto. lia. }
  set (r := Nat.iter n (fun q => remove_stmt q 0) q) in *.
  assert (RS : p_stmts r = pieces (p_stmts pr)).
  { rewrite R1, Q3, skipn_app. unfold n. rewrite skipn_all, Nat.sub_diag, firstn_all. reflexivity. }
  assert (stmt_r : forall s k, (s < n)%nat -> (k < m)%nat -> stmt_of r (s * m + k) = iss_stmt (stmt_of pr s) (nth k cuts (universe 1))).
  { intros s k Hs Hk. unfold stmt_of. rewrite RS. apply pieces_nth; auto. }
  split; [congruence|]. split; [congruence|]. split; [exact RS|].
  set (sh := fun d => set_ends d (d_src d - n) (d_dst d - n)) in *.
  exists (map (map sh) G). split; [rewrite R4, Q4; apply concat_map|].
  assert (forall d, In d (p_deps pr) -> forall g, grp n d g -> replaces m pr r d (map sh g)) as RP.
  { intros d Hd g [G1 G2]. destruct (proj2 W d Hd) as (W1 & W2 & W3 & W4 & _).
    assert (SD' : forall s, (s < n)%nat -> s_dim (stmt_of pr s) = D) by (intros s Hs; apply SD, nth_In; auto).
    assert (forall d', In d' g -> exists s t, (s < m)%nat /\ (t < m)%nat /\
        d_src (sh d') = (d_src d * m + s)%nat /\ d_dst (sh d') = (d_dst d * m + t)%nat /\
        forall x y p, instance r (sh d') x y p <-> length x = D /\ length y = D /\ length p = p_npar pr /\ mem (d_poly d') (x ++ y ++ p)) as EN.
    { intros d' H'. destruct (G2 d' H') as (_ & _ & _ & s & t & A4 & A5 & _).
      apply end_range in A4 as (A41 & A42 & A43); auto. apply end_range in A5 as (A51 & A52 & A53); auto.
      assert (d_src (sh d') = (d_src d * m + s)%nat) as X1 by (cbn; lia).
      assert (d_dst (sh d') = (d_dst d * m + t)%nat) as X2 by (cbn; lia).
      exists s, t. do 4 (split; [assumption|]). intros x y p. unfold instance. rewrite X1, X2, !stmt_r by auto.
      cbn [iss_stmt stmt_dup set_domain s_dim]. rewrite !SD', R2, Q1 by auto. reflexivity. }
    split; [|split].
    - intros x y p. split.
      + intros (I1 & I2 & I3 & I4). rewrite SD' in I1, I2 by auto. rewrite map_length.
        assert (count (fun d' => memb (d_poly d') (x ++ y ++ p)) g = 1%nat) as CT.
        { rewrite G1 by auto. rewrite (proj2 (memb_ok _ _) I4). auto. }
        apply (count_one d) in CT. eapply exactly_one_ext; [|exact CT]. intros k Hk.
        rewrite (nth_indep _ d (sh d)) by (rewrite map_length; auto). rewrite List.map_nth.
        destruct (EN (nth k g d) (nth_In _ _ Hk)) as (s & t & _ & _ & _ & _ & EQ). rewrite EQ.
        rewrite memb_ok. tauto.
      + intros d1 H1 I. apply in_map_iff in H1 as (d' & <- & H'). destruct (EN d' H') as (s & t & _ & _ & _ & _ & EQ).
        apply EQ in I as (I1 & I2 & I3 & I4). destruct (G2 d' H') as (_ & _ & _ & s' & t' & _ & _ & A6).
        destruct (A6 x y p I1 I2) as [A7 _]; [apply memb_ok; auto|]. apply memb_ok in A7.
        split; [rewrite SD'; auto|]. split; [rewrite SD'; auto|]. auto.
    - intros d1 H1. apply in_map_iff in H1 as (d' & <- & H'). destruct (EN d' H') as (s & t & S1 & S2 & S3 & S4 & EQ).
      destruct (G2 d' H') as ((F1 & F3 & F4 & F5) & _). repeat (split; auto). exists s; auto. exists t; auto.
    - intros d1 x y p H1 I T1 T2. apply in_map_iff in H1 as (d' & <- & H'). destruct (EN d' H') as (s & t & S1 & S2 & S3 & S4 & EQ).
      apply EQ in I as (I1 & I2 & I3 & I4). destruct (G2 d' H') as (_ & _ & _ & s' & t' & A4 & A5 & A6).
      destruct (A6 x y p I1 I2) as (_ & A8 & A9); [apply memb_ok; auto|].
      apply end_range in A4 as (A41 & A42 & A43); auto. apply end_range in A5 as (A51 & A52 & A53); auto.
      assert (s' = s) as -> by (cbn in S3; lia). assert (t' = t) as -> by (cbn in S4; lia).
      rewrite S3, S4, !stmt_r by auto.
      assert (forall e k z, (e < n)%nat -> (k < m)%nat -> iteration (p_npar pr) (stmt_of pr e) z p -> stage_cut n e k z p ->
        iteration (p_npar pr) (iss_stmt (stmt_of pr e) (nth k cuts (universe 1))) z p) as IT.
      { intros e k z He Hk (J1 & J2 & J3) SC. split; [exact J1|]. split; auto.
        cbn [iss_stmt stmt_dup set_domain s_domain]. apply cst_add_mem.
        - destruct (nth_cut _ _ k C Hk) as [_ ->]. assert (In (stmt_of pr e) (p_stmts pr)) as X by (apply nth_In; auto).
          destruct (proj1 W _ X) as (_ & _ & _ & _ & _ & _ & -> & _). rewrite SD' by auto. lia.
        - split; auto. apply memb_ok. apply SC; auto. }
      split; apply IT; auto. }
  clear - Q5 RP. revert RP. generalize (replaces m pr r). induction Q5; intros P RP; simpl; constructor.
  - apply RP; simpl; auto.
  - apply IHQ5. intros; apply RP; simpl; auto.
Qed.
End Stages.
