(** * Lists of constraint systems; constant bounds; reading and printing. *)
From Coq Require Import ZArith QArith List Bool Lia.
From Verif Require Import SpecLinear VecProofs MathModel ConstraintsModel EditProofs RankProofs.
Import ListNotations.
Open Scope Z_scope.

Lemma umem_map f (P : point -> Prop) l x :
  (forall c, In c l -> mem (f c) x <-> mem c x /\ P x) -> umem (map f l) x <-> umem l x /\ P x.
Proof.
  intros H. unfold umem. split.
  - intros (c & Hc & M). apply in_map_iff in Hc as (c0 & <- & Hc). apply H in M; auto. destruct M. eauto.
  - intros ((c & Hc & M) & Hp). exists (f c). split; [apply in_map; auto|]. apply H; auto.
Qed.

Lemma add_to_each_room l c2 x :
  (forall a, In a l -> (nrows (body a) + nrows c2 <= alloc_nrows a)%nat /\ ncols (body a) = ncols c2) ->
  umem (map body (add_to_each l c2)) x <-> umem (map body l) x /\ mem c2 x.
Proof.
  intros H. assert (map body (add_to_each l c2) = map (fun c => cst_add c c2) (map body l)) as E.
  { unfold add_to_each. induction l as [|a l IH]; auto.
    cbn [length add_to_each_fuel map]. destruct (H a (or_introl eq_refl)) as [H1 H2].
    rewrite (proj2 (Nat.ltb_ge _ _) H1). cbn [map]. f_equal.
    - unfold write_last_rows, grow, cst_add, nrows; cbn [body rows ncols]. f_equal.
      rewrite app_length, repeat_length.
      replace (length (rows (body a)) + length (rows c2) - length (rows c2))%nat with (length (rows (body a))) by lia.
      rewrite firstn_app, Nat.sub_diag, firstn_all. simpl. rewrite app_nil_r. auto.
    - apply IH. intros; apply H; simpl; auto. }
  rewrite E. apply umem_map. intros c Hc. apply in_map_iff in Hc as (a & <- & Ha).
  apply cst_add_mem. apply H; auto.
Qed.

(** Reading back what was printed. *)
Lemma read_rows_print nc l : (forall r, In r l -> length (coef r) = nc) ->
  forall rest, read_rows (length l) nc (flat_map (fun r => (if is_eq r then 0 else 1) :: coef r) l ++ rest) = Some (l, rest).
Proof.
  induction l as [|r l IH]; intros H rest; auto.
  cbn [length read_rows flat_map app]. rewrite <- !app_assoc.
  assert (length (coef r) = nc) as L by (apply H; simpl; auto).
  rewrite (proj2 (Nat.ltb_ge _ _)) by (rewrite app_length; lia).
  rewrite skipn_app, firstn_app, L, Nat.sub_diag. rewrite <- L, skipn_all, firstn_all, L. simpl skipn. simpl firstn.
  rewrite app_nil_r. cbn [app]. rewrite IH by (intros; apply H; simpl; auto).
  destruct r as [[|] c]; cbn; auto.
Qed.

Lemma read_print c : wf_cst c -> read_polylib (print_polylib [c]) = Some c.
Proof.
  intros [H1 H2]. unfold print_polylib, num_in_list. cbn [length Nat.leb flat_map app]. rewrite app_nil_r.
  unfold print_polylib_single, read_polylib.
  replace (Z.to_nat (Z.of_nat (S (ncols c)) - 1)) with (ncols c) by lia.
  rewrite Nat2Z.id. unfold nrows.
  pose proof (read_rows_print (ncols c) (rows c) H2 []) as E. rewrite app_nil_r in E. rewrite E.
  destruct c; auto.
Qed.

(** Constant bounds from one-variable projections that only have inequalities
    with unit coefficients. *)
Lemma const_lb_scan_spec l st : (forall r, In r l -> is_eq r = false /\ length (coef r) = 2%nat) ->
  let res := const_lb_scan 2 l st in
  snd st <= snd res /\
  (fst res = true -> fst st = true \/ exists r, In r l /\ 1 <= nth 0 (coef r) 0) /\
  (snd res = snd st \/ exists r, In r l /\ 1 <= nth 0 (coef r) 0 /\ snd res = - nth 1 (coef r) 0).
Proof.
  revert st. induction l as [|r l IH]; intros st H; cbn [const_lb_scan].
  - repeat split; auto; lia.
  - destruct (H r (or_introl eq_refl)) as [E L]. rewrite E. cbn [Nat.sub].
    destruct (Z.leb_spec 1 (nth 0 (coef r) 0)) as [P|P].
    + specialize (IH (true, Z.max (snd st) (- nth 1 (coef r) 0)) (fun r' h => H r' (or_intror h))).
      cbv zeta in *. destruct IH as (I1 & I2 & I3). cbn [fst snd] in *. repeat split; try lia.
      * intros _. right. exists r. simpl; auto.
      * destruct I3 as [I3|(r' & H1 & H2 & H3)].
        -- rewrite I3. destruct (Z.max_spec (snd st) (- nth 1 (coef r) 0)) as [[? ->]|[? ->]]; auto.
           right. exists r. simpl; auto.
        -- right. exists r'. simpl; auto.
    + specialize (IH st (fun r' h => H r' (or_intror h))). cbv zeta in *. destruct IH as (I1 & I2 & I3).
      repeat split; auto.
      * intros X. destruct (I2 X) as [?|(r' & ? & ?)]; auto. right; exists r'; simpl; auto.
      * destruct I3 as [?|(r' & ? & ? & ?)]; auto. right; exists r'; simpl; auto.
Qed.

Lemma const_ub_scan_spec l st : (forall r, In r l -> is_eq r = false /\ length (coef r) = 2%nat) ->
  let res := const_ub_scan 2 l st in
  snd res <= snd st /\
  (fst res = true -> fst st = true \/ exists r, In r l /\ nth 0 (coef r) 0 <= -1) /\
  (snd res = snd st \/ exists r, In r l /\ nth 0 (coef r) 0 <= -1 /\ snd res = nth 1 (coef r) 0).
Proof.
  revert st. induction l as [|r l IH]; intros st H; cbn [const_ub_scan].
  - repeat split; auto; lia.
  - destruct (H r (or_introl eq_refl)) as [E L]. rewrite E. cbn [Nat.sub].
    destruct (Z.leb_spec (nth 0 (coef r) 0) (-1)) as [P|P].
    + specialize (IH (true, Z.min (snd st) (nth 1 (coef r) 0)) (fun r' h => H r' (or_intror h))).
      cbv zeta in *. destruct IH as (I1 & I2 & I3). cbn [fst snd] in *. repeat split; try lia.
      * intros _. right. exists r. simpl; auto.
      * destruct I3 as [I3|(r' & H1 & H2 & H3)].
        -- rewrite I3. destruct (Z.min_spec (snd st) (nth 1 (coef r) 0)) as [[? ->]|[? ->]]; auto.
           right. exists r. simpl; auto.
        -- right. exists r'. simpl; auto.
    + specialize (IH st (fun r' h => H r' (or_intror h))). cbv zeta in *. destruct IH as (I1 & I2 & I3).
      repeat split; auto.
      * intros X. destruct (I2 X) as [?|(r' & ? & ?)]; auto. right; exists r'; simpl; auto.
      * destruct I3 as [?|(r' & ? & ? & ?)]; auto. right; exists r'; simpl; auto.
Qed.

(** What is needed of the projection: one variable, inequalities only, unit
    coefficients, constants that the initial values of the loops do not clip. *)
Definition unit_proj (p : cst) : Prop :=
  ncols p = 2%nat /\ forall r, In r (rows p) ->
    is_eq r = false /\ length (coef r) = 2%nat /\ -1 <= nth 0 (coef r) 0 <= 1 /\
    INT_MIN <= - nth 1 (coef r) 0 /\ nth 1 (coef r) 0 <= LLONG_MAX.

Lemma aff2 a x : length a = 2%nat -> aff a [x] = nth 0 a 0 * x + nth 1 a 0.
Proof. destruct a as [|u [|v [|? ?]]]; simpl; try discriminate. intros _. unfold aff. simpl. lia. Qed.

Lemma get_const_lb_partial proj l pos lb x :
  (forall c, In c l -> unit_proj (proj c pos) /\ (forall y, mem c y -> mem (proj c pos) [nth pos y 0])) ->
  get_const_lb proj l pos = (true, lb) -> umem l x -> lb <= nth pos x 0.
Proof.
  revert lb. induction l as [|c l IH]; intros lb H E U; [discriminate|].
  cbn [get_const_lb] in E.
  destruct (H c (or_introl eq_refl)) as [[P1 P2] P3].
  pose proof (const_lb_scan_spec (rows (proj c pos)) (false, INT_MIN)) as K.
  rewrite P1 in E. destruct (const_lb_scan 2 (rows (proj c pos)) (false, INT_MIN)) as [ret b] eqn:Es.
  cbv zeta in K. cbn [fst snd] in K. destruct K as (K1 & K2 & K3).
  { intros r Hr. destruct (P2 r Hr); tauto. }
  assert (ret = true -> mem c x -> b <= nth pos x 0) as B.
  { intros -> M. apply P3 in M as [M1 M2].
    assert (forall r, In r (rows (proj c pos)) -> 1 <= nth 0 (coef r) 0 -> - nth 1 (coef r) 0 <= nth pos x 0) as L.
    { intros r Hr Pr. destruct (P2 r Hr) as (R1 & R2 & R3 & R4). specialize (M2 r Hr). unfold holds in M2.
      rewrite R1, aff2 in M2 by auto. replace (nth 0 (coef r) 0) with 1 in M2 by lia. lia. }
    destruct K3 as [K3|(r & Hr & Pr & K3)].
    - destruct (K2 eq_refl) as [|(r & Hr & Pr)]; [discriminate|].
      specialize (L r Hr Pr). destruct (P2 r Hr) as (_ & _ & _ & R4 & _). lia.
    - rewrite K3. auto. }
  destruct l as [|c' l].
  - injection E as -> ->. destruct U as (c0 & [<-|[]] & M). auto.
  - destruct ret; [|discriminate].
    destruct (get_const_lb proj (c' :: l) pos) as [ret' b'] eqn:E'.
    injection E as E1 E2. subst b. destruct (Z.eqb_spec lb b'); cbn in E1; [|discriminate]. subst.
    destruct U as (c0 & [<-|Hc] & M); auto.
    apply IH; auto. intros; apply H; simpl; auto. exists c0; auto.
Qed.

Lemma get_const_ub_partial proj l pos ub x :
  (forall c, In c l -> unit_proj (proj c pos) /\ (forall y, mem c y -> mem (proj c pos) [nth pos y 0])) ->
  get_const_ub proj l pos = (true, ub) -> umem l x -> nth pos x 0 <= ub.
Proof.
  revert ub. induction l as [|c l IH]; intros ub H E U; [discriminate|].
  cbn [get_const_ub] in E.
  destruct (H c (or_introl eq_refl)) as [[P1 P2] P3].
  pose proof (const_ub_scan_spec (rows (proj c pos)) (false, LLONG_MAX)) as K.
  rewrite P1 in E. destruct (const_ub_scan 2 (rows (proj c pos)) (false, LLONG_MAX)) as [ret b] eqn:Es.
  cbv zeta in K. cbn [fst snd] in K. destruct K as (K1 & K2 & K3).
  { intros r Hr. destruct (P2 r Hr); tauto. }
  assert (ret = true -> mem c x -> nth pos x 0 <= b) as B.
  { intros -> M. apply P3 in M as [M1 M2].
    assert (forall r, In r (rows (proj c pos)) -> nth 0 (coef r) 0 <= -1 -> nth pos x 0 <= nth 1 (coef r) 0) as L.
    { intros r Hr Pr. destruct (P2 r Hr) as (R1 & R2 & R3 & R4). specialize (M2 r Hr). unfold holds in M2.
      rewrite R1, aff2 in M2 by auto. replace (nth 0 (coef r) 0) with (-1) in M2 by lia. lia. }
    destruct K3 as [K3|(r & Hr & Pr & K3)].
    - destruct (K2 eq_refl) as [|(r & Hr & Pr)]; [discriminate|].
      specialize (L r Hr Pr). destruct (P2 r Hr) as (_ & _ & _ & _ & R4). lia.
    - rewrite K3. auto. }
  destruct l as [|c' l].
  - injection E as -> ->. destruct U as (c0 & [<-|[]] & M). auto.
  - destruct ret; [|discriminate].
    destruct (get_const_ub proj (c' :: l) pos) as [ret' b'] eqn:E'.
    injection E as E1 E2. subst b. destruct (Z.eqb_spec ub b'); cbn in E1; [|discriminate]. subst.
    destruct U as (c0 & [<-|Hc] & M); auto.
    apply IH; auto. intros; apply H; simpl; auto. exists c0; auto.
Qed.

(** Negation of a constraint is the complement when the constant is 0. *)
Lemma negate_constraint_mem c pos r x : wf_cst c -> nth_error (rows c) pos = Some r -> is_eq r = false ->
  mem (negate_constraint c pos) x <->
  mem (remove_row c pos) x /\ aff (coef r) x - 2 * last (coef r) 0 < 0.
Proof.
  intros [W1 W2] Hr He. unfold negate_constraint.
  rewrite (map_nth_mem c pos _ r) by auto. unfold holds, map_coef; cbn [is_eq coef]. rewrite He.
  assert (S (length x) = ncols c ->
    aff (map Z.opp (firstn (ncols c - 1) (coef r)) ++ map (fun v => v - 1) (skipn (ncols c - 1) (coef r))) x
    = - aff (coef r) x + 2 * last (coef r) 0 - 1) as E.
  { intros Hx. assert (length (coef r) = ncols c) as L by (apply W2; eapply nth_error_In; eauto).
    destruct (exists_last (l := coef r)) as (a & k & Ea); [intros X; rewrite X in L; simpl in L; lia|].
    rewrite Ea, last_last. rewrite Ea, app_length in L. simpl in L.
    replace (ncols c - 1)%nat with (length a) by lia.
    rewrite firstn_app, skipn_app, Nat.sub_diag, firstn_all, skipn_all. cbn [map app firstn skipn]. rewrite app_nil_r.
    unfold aff. rewrite !dot_app by (rewrite ?map_length; lia). rewrite dot_map_opp. cbn [dot]. lia. }
  split; intros [H1 H2]; split; auto.
  - rewrite E in H2 by (destruct H1; auto). lia.
  - rewrite E by (destruct H1; auto). lia.
Qed.

Lemma extract_le2 pieces x : (1 <= length pieces <= 2)%nat ->
  exists d, extract_stmt_domain pieces = Some d /\ (umem d x <-> umem pieces x).
Proof.
  intros H. destruct pieces as [|a [|b [|? ?]]]; simpl in H; try lia; eexists; (split; [reflexivity|reflexivity]).
Qed.

Lemma interchange_cols_mem_nth c i j x y : wf_cst c ->
  (i < ncols c - 1)%nat -> (j < ncols c - 1)%nat -> length x = length y ->
  nth i y 0 = nth j x 0 -> nth j y 0 = nth i x 0 ->
  (forall k, k <> i -> k <> j -> nth k y 0 = nth k x 0) ->
  (mem (interchange_cols c i j) y <-> mem c x).
Proof.
  intros W Hi Hj L E1 E2 E3.
  destruct (Nat.eq_dec (S (length x)) (ncols c)) as [Hl|Hl].
  - assert (y = swap_nth 0 i j x) as ->.
    { apply (list_ext_nth 0); [rewrite swap_nth_length; auto|]. intros k Hk.
      unfold swap_nth. destruct (Nat.eq_dec k j) as [->|N].
      - rewrite nth_set_nth_eq by (rewrite set_nth_length; lia). auto.
      - rewrite nth_set_nth_neq by auto. destruct (Nat.eq_dec k i) as [->|N'].
        + rewrite nth_set_nth_eq by lia. auto.
        + rewrite nth_set_nth_neq by auto. auto. }
    apply interchange_cols_mem; auto.
  - assert (ncols (interchange_cols c i j) = ncols c) as N by (unfold interchange_cols; destruct (i =? j)%nat; auto).
    split; intros [H _]; [rewrite N in H|]; exfalso; lia.
Qed.
