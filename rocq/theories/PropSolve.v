(** * C77 - C80: numbers, sets and functions exchanged with isl, PIP and PolyLib;
    tests of vectors. *)
From Coq Require Import ZArith QArith Qround List Bool Lia Lqa.
From Verif Require Import SpecLinear MathModel ConstraintsModel SpecLib OslModel SpecProg SpecSolve SolveModel SpecMatrix
  VecProofs Checkers OslProofs SolveProofs SolveProofs2 SolveOracles FrameworkModel ProgModel LoopModel ConeModel.
Import ListNotations.
Open Scope Z_scope.

(** ** C77.  Solving. *)

(** Numbers cross the boundary to and from the arbitrary precision of isl unchanged
    if they are 64-bit numbers. *)
Theorem C77_numbers :
  (forall z, fits64 z -> num_ll z = z /\ set_sll z = z /\ wrap64 z = z) /\
  (forall z, 0 <= z < 2 ^ 64 -> set_ull z = z).
Proof.
  split; [|exact set_ull_exact]. intros z H. split; [apply num_ll_exact|split; [apply set_sll_exact|apply wrap64_id]]; auto.
Qed.
Print Assumptions C77_numbers.

Example C77_numbers_met : fits64 (- 2 ^ 63) /\ num_ll (- 2 ^ 63) = - 2 ^ 63 /\ num_ll (2 ^ 63 - 1) = 2 ^ 63 - 1 /\ num_ll (-1) = -1 /\ set_sll (-5) = -5.
Proof. vm_compute. intuition congruence. Qed.

(** A large negative number comes back as the greatest positive one. *)
Theorem C77_numbers_refuted : forall z, z < - 2 ^ 63 -> num_ll z = 2 ^ 63 - 1.
Proof.
  intros z H. unfold num_ll. destruct (mpz_fits_ll z) eqn:E.
  - apply fits_ll in E. unfold fits64 in E. lia.
  - cbn [negb]. destruct (Z.eqb_spec (Z.sgn z) 0) as [X|X]; [apply Z.sgn_null_iff in X; lia|]. reflexivity.
Qed.
Print Assumptions C77_numbers_refuted.

(** With either solver: no solution is returned exactly if there is none (without
    negative unknowns); a solution returned is the least one, provided its
    coordinates are 64-bit numbers. *)
Theorem C77_least_solution : forall lexmin pip islsolve negvar c,
  isl_lexmin_ok lexmin -> pip_ok pip -> wf_cst c -> fits64_cst c ->
  let r := constraints_lexmin islsolve lexmin pip negvar c in
  (forall x, least (solution negvar c) x -> Forall fits64 x -> r = Some x) /\
  (forall y, r = Some y -> exists x, least (solution negvar c) x /\ (Forall fits64 x -> y = x)) /\
  ((forall x, ~ solution negvar c x) -> r = None) /\
  (negvar = false -> r = None -> forall x, ~ solution negvar c x).
Proof.
  intros lexmin pip islsolve negvar c HL HP W F r.
  assert (exists conv, (forall z, fits64 z -> conv z = z) /\
    (forall x, r = Some x <-> exists y, least (solution negvar c) y /\ x = map conv y) /\ ((forall x, ~ solution negvar c x) -> r = None)) as (conv & C & A & B).
  { destruct islsolve; [exists num_ll|exists wrap64]; (split; [apply num_ll_exact || apply wrap64_id|]).
    - apply (lexmin_isl_spec lexmin negvar c HL W F).
    - apply (lexmin_pip_spec pip negvar c HP W). }
  split; [|split; [|split; [exact B|]]].
  - intros x Hx Fx. apply A. exists x. split; auto. symmetry. apply map_id_Forall; auto.
  - intros y Hy. apply A in Hy as (x & Hx & ->). exists x. split; auto. intros Fx. apply map_id_Forall; auto.
  - intros -> Hr x Hx. destruct (least_nonneg (ncols c - 1) (solution false c)) as [y Hy].
    + intros z [[L _] N]. split; [lia|auto].
    + eauto.
    + assert (r = Some (map conv y)) as X by (apply A; eauto). congruence.
Qed.
Print Assumptions C77_least_solution.

(** Both solvers give the same answer. *)
Theorem C77_solvers_agree : forall lexmin pip negvar c,
  isl_lexmin_ok lexmin -> pip_ok pip -> wf_cst c -> fits64_cst c ->
  (forall x, least (solution negvar c) x -> Forall fits64 x) ->
  constraints_lexmin true lexmin pip negvar c = constraints_lexmin false lexmin pip negvar c.
Proof.
  intros lexmin pip negvar c HL HP W F S.
  destruct (C77_least_solution lexmin pip true negvar c HL HP W F) as (A1 & A2 & _).
  destruct (C77_least_solution lexmin pip false negvar c HL HP W F) as (B1 & B2 & _).
  destruct (constraints_lexmin true lexmin pip negvar c) as [y|] eqn:E.
  - destruct (A2 y eq_refl) as (x & Hx & Fx). specialize (Fx (S x Hx)). subst y. symmetry. apply B1; auto.
  - destruct (constraints_lexmin false lexmin pip negvar c) as [y|] eqn:E'; auto.
    destruct (B2 y eq_refl) as (x & Hx & Fx). discriminate (A1 x Hx (S x Hx)).
Qed.
Print Assumptions C77_solvers_agree.

(** x + y >= 3, x <= 1, y <= 5. *)
Definition ex_sys := mkCst 3 [mkRow false [1;1;-3]; mkRow false [-1;0;1]; mkRow false [0;-1;5]].
Example C77_met : exists lexmin pip, isl_lexmin_ok lexmin /\ pip_ok pip /\ wf_cst ex_sys /\ fits64_cst ex_sys /\
  least (solution false ex_sys) [0;3] /\ Forall fits64 [0;3] /\ (forall b, constraints_lexmin b lexmin pip false ex_sys = Some [0;3]).
Proof.
  destruct lexmin_exists as [f Hf], pip_exists as [g Hg]. exists f, g.
  assert (W : wf_cst ex_sys). { split; [cbn; lia|]. intros r [<-|[<-|[<-|[]]]]; reflexivity. }
  assert (F : fits64_cst ex_sys). { intros r [<-|[<-|[<-|[]]]]; repeat (constructor; [unfold fits64; lia|]); constructor. }
  assert (L : least (solution false ex_sys) [0;3]).
  { split.
    - split; [|intros _; repeat (constructor; [lia|]); constructor]. split; [reflexivity|]. intros r [<-|[<-|[<-|[]]]]; cbn; lia.
    - intros y [[Ly H] N]. destruct y as [|a [|b [|? ?]]]; try discriminate Ly. specialize (N eq_refl).
      inversion N as [|? ? Na N']; subst. inversion N' as [|? ? Nb _]; subst.
      pose proof (H _ (or_introl eq_refl)) as H1. unfold holds, aff in H1. cbn - [Z.mul] in H1.
      destruct (Z.eq_dec a 0) as [->|]; [|right; cbn; lia]. destruct (Z.eq_dec b 3) as [->|]; [left; auto|right; cbn; lia]. }
  assert (Fx : Forall fits64 [0;3]) by (repeat (constructor; [unfold fits64; lia|]); constructor).
  split; [exact Hf|]. split; [exact Hg|]. split; [auto|]. split; [auto|]. split; [auto|]. split; [auto|].
  intros b. apply (C77_least_solution f g b false ex_sys Hf Hg W F); auto.
Qed.

(** A solution with a coordinate that does not fit is changed: neither solver returns
    a point of the set { x = 4 y, y = 2^62 }. *)
Definition big_sys := mkCst 3 [mkRow true [1;-4;0]; mkRow true [0;1;- 2 ^ 62]].
Theorem C77_large_solution_refuted : forall lexmin pip, isl_lexmin_ok lexmin -> pip_ok pip ->
  wf_cst big_sys /\ fits64_cst big_sys /\ solution false big_sys [2 ^ 64; 2 ^ 62] /\
  forall islsolve, exists y, constraints_lexmin islsolve lexmin pip false big_sys = Some y /\ ~ mem big_sys y.
Proof.
  intros f g Hf Hg.
  assert (W : wf_cst big_sys). { split; [cbn; lia|]. intros r [<-|[<-|[]]]; reflexivity. }
  assert (F : fits64_cst big_sys). { intros r [<-|[<-|[]]]; repeat (constructor; [unfold fits64; lia|]); constructor. }
  assert (S : solution false big_sys [2 ^ 64; 2 ^ 62]).
  { split; [|intros _; repeat (constructor; [lia|]); constructor]. split; [reflexivity|]. intros r [<-|[<-|[]]]; reflexivity. }
  assert (L : least (solution false big_sys) [2 ^ 64; 2 ^ 62]).
  { split; [exact S|]. intros y [[Ly H] _]. left. destruct y as [|a [|b [|? ?]]]; try discriminate Ly.
    pose proof (H _ (or_introl eq_refl)) as H1. pose proof (H _ (or_intror (or_introl eq_refl))) as H2.
    unfold holds, aff in H1, H2. cbn - [Z.mul Z.pow] in H1, H2. change (2 ^ 64) with (4 * 2 ^ 62). f_equal; [|f_equal]; lia. }
  split; [auto|]. split; [auto|]. split; [auto|]. intros [|].
  - exists (map num_ll [2 ^ 64; 2 ^ 62]). split; [apply (lexmin_isl_spec f false big_sys Hf W F); eauto|].
    intros [_ H]. specialize (H _ (or_introl eq_refl)). vm_compute in H. discriminate H.
  - exists (map wrap64 [2 ^ 64; 2 ^ 62]). split; [apply (lexmin_pip_spec g false big_sys Hg W); eauto|].
    intros [_ H]. specialize (H _ (or_introl eq_refl)). vm_compute in H. discriminate H.
Qed.
Print Assumptions C77_large_solution_refuted.

(** ** C78.  Operations on sets. *)

(** Intersection by isl: no common point is lost; the result is exact if isl needs no
    existentially quantified variables for it.  The in-place version leaves the same
    in its first argument. *)
Theorem C78_intersection_isl : forall rd inter n l1 l2,
  remove_divs_set_ok rd -> isl_op_ok inter and -> list_ok n l1 -> list_ok n l2 ->
  (forall c, In c (l1 ++ l2) -> fits64_cst c) ->
  let s := inter n (map bset_from l1) (map bset_from l2) in
  exists l, intersection_isl rd inter l1 l2 = Some l /\ intersect_isl rd inter l1 l2 = Some l /\
    list_ok n l /\
    (small_uset rd s -> forall x, umem l1 x -> umem l2 x -> umem l x) /\
    (remove_divs_exact rd -> plain_uset s -> forall x, umem l x <-> umem l1 x /\ umem l2 x).
Proof.
  intros rd inter n l1 l2 R I A B F s.
  assert (Sh1 : shaped_uset n (map bset_from l1)) by (apply set_from_shaped, A).
  assert (Sh2 : shaped_uset n (map bset_from l2)) by (apply set_from_shaped, B).
  destruct (I n _ _ Sh1 Sh2) as [Sh E]. fold s in Sh, E.
  unfold intersect_isl, intersection_isl. rewrite (list_ok_dim n l1 A). cbn [set_from]. fold s.
  destruct (set_to rd n (Some s)) as [l|] eqn:T; [|discriminate T]. exists l. split; [auto|]. split; [cbn; rewrite copy_list_eq; auto|].
  assert (forall x, umem l1 x -> length x = n) as L1.
  { intros x (c & Hc & M & _). destruct (proj2 A c Hc) as [_ N]. lia. }
  assert (M1 : forall x, uset_mem (map bset_from l1) x <-> umem l1 x).
  { intros x. apply set_from_mem. intros c Hc. split; [apply A; auto|]. apply F. apply in_or_app. auto. }
  assert (M2 : forall x, uset_mem (map bset_from l2) x <-> umem l2 x).
  { intros x. apply set_from_mem. intros c Hc. split; [apply B; auto|]. apply F. apply in_or_app. auto. }
  split; [|split].
  - split; [|intros c Hc; eapply set_to_wf; eauto]. rewrite set_to_eq in T. injection T as <-. destruct s; discriminate.
  - intros Sm x X1 X2. eapply set_to_mem; eauto. apply E; [apply L1; auto|]. rewrite M1, M2. auto.
  - intros RE P x. rewrite (set_to_exact rd n s l x RE Sh P T). split.
    + intros H. assert (length x = n) as Lx. { destruct H as (b & Hb & L & _). destruct (Sh b Hb) as [D _]. lia. }
      apply E in H; auto. rewrite M1, M2 in H. auto.
    + intros [X1 X2]. apply E; [apply L1; auto|]. rewrite M1, M2. auto.
Qed.
Print Assumptions C78_intersection_isl.

(** 0 <= x <= 9 and x = 2 y *)
Definition ex_a := [mkCst 3 [mkRow false [1;0;0]; mkRow false [-1;0;9]]].
Definition ex_b := [mkCst 3 [mkRow true [1;-2;0]]].
Lemma ex_ab_ok : list_ok 2 ex_a /\ list_ok 2 ex_b /\ (forall c, In c (ex_a ++ ex_b) -> fits64_cst c).
Proof.
  split; [|split].
  - split; [discriminate|]. intros c [<-|[]]. split; [|reflexivity]. split; [cbn; lia|]. intros r [<-|[<-|[]]]; reflexivity.
  - split; [discriminate|]. intros c [<-|[]]. split; [|reflexivity]. split; [cbn; lia|]. intros r [<-|[]]; reflexivity.
  - intros c [<-|[<-|[]]]; intros r Hr; cbn in Hr; repeat destruct Hr as [<-|Hr]; try (destruct Hr); cbn;
      repeat (constructor; [unfold fits64; lia|]); constructor.
Qed.
Example C78_intersection_met : remove_divs_exact drop_divs /\ isl_op_ok uinter and /\ list_ok 2 ex_a /\ list_ok 2 ex_b /\
  (forall c, In c (ex_a ++ ex_b) -> fits64_cst c) /\ plain_uset (uinter 2 (map bset_from ex_a) (map bset_from ex_b)) /\
  intersection_isl drop_divs uinter ex_a ex_b = Some [mkCst 3 [mkRow true [1;-2;0]; mkRow false [1;0;0]; mkRow false [-1;0;9]]].
Proof.
  destruct ex_ab_ok as (A & B & C). split; [exact drop_divs_ok|]. split; [exact uinter_ok|]. split; [auto|]. split; [auto|]. split; [auto|].
  split; [|reflexivity]. intros b [<-|[]]. split; [reflexivity|]. intros r [<-|[<-|[<-|[]]]]; cbn; repeat (constructor; [unfold fits64; lia|]); constructor.
Qed.

(** Union and projection by isl are called without a context: they never have a
    result. *)
Theorem C78_no_context_refuted : forall rd union proj l1 l2 start num,
  union_isl rd union l1 l2 = None /\ unionize_isl rd union l1 l2 = None /\
  ((0 < num)%nat -> project_out_isl rd proj l1 start num = None).
Proof.
  intros. split; [reflexivity|]. split; [reflexivity|]. intros H. unfold project_out_isl.
  destruct (Nat.eqb_spec num 0); [lia|]. destruct (_ <=? _)%nat; reflexivity.
Qed.
Print Assumptions C78_no_context_refuted.

(** Projection of one set by isl: the projection of every point is kept. *)
Theorem C78_project_isl_single_partial : forall rd proj n c start num,
  remove_divs_set_ok rd -> isl_project_ok proj -> list_ok n [c] -> fits64_cst c -> (0 < num)%nat -> (start + num <= n)%nat ->
  small_uset rd [proj start num (bset_from c)] ->
  exists c', project_out_isl_single rd proj [c] start num = Some [c'] /\ wf_cst c' /\ ncols c' = (n - num + 1)%nat /\
    (forall x, mem c x -> mem c' (firstn start x ++ skipn (start + num) x)) /\
    (remove_divs_exact rd -> bs_ndiv (proj start num (bset_from c)) = 0%nat ->
     forall y, mem c' y <-> exists x, mem c x /\ y = firstn start x ++ skipn (start + num) x).
Proof.
  intros rd proj n c start num R P [_ OK] F N H Sm. destruct (OK c (or_introl eq_refl)) as [W E].
  destruct (P start num (bset_from c) (bset_from_shaped c W) eq_refl ltac:(cbn; lia)) as (D & NP & Sh & M).
  unfold project_out_isl_single. destruct (Nat.eqb_spec num 0); [lia|].
  replace (start + num - 1 <=? ncols c - 2)%nat with true by (symmetry; apply Nat.leb_le; lia).
  eexists. split; [reflexivity|]. split; [apply bset_to_wf; auto|]. split; [apply bset_to_ncols; auto; rewrite D; cbn; lia|].
  assert (forall y, mem (bset_to rd (proj start num (bset_from c))) y <-> bset_mem (rd (proj start num (bset_from c))) y []) as T.
  { intros y. apply bset_to_mem; auto. apply Sm. left. auto. }
  split.
  - intros x Hx. apply T. destruct (R (proj start num (bset_from c))) as (_ & _ & _ & _ & I). apply I. apply M. exists x. split; auto.
    apply bset_from_mem; auto.
  - intros [_ X] Z0 y. rewrite T, X, M by auto. split; intros (x & Hx & ->); exists x; split; auto; apply bset_from_mem; auto.
Qed.
Print Assumptions C78_project_isl_single_partial.

Example C78_project_isl_met : isl_project_ok bproj /\ list_ok 2 [hd (universe 0) ex_a] /\
  small_uset drop_divs [bproj 0 1 (bset_from (hd (universe 0) ex_a))].
Proof.
  destruct ex_ab_ok as (A & _). split; [exact bproj_ok|]. split; [exact A|]. intros b [<-|[]] r Hr. destruct Hr.
Qed.

(** Of a union only the first element is projected. *)
Theorem C78_project_isl_union_refuted : forall rd proj c l start num l', (0 < num)%nat ->
  project_out_isl_single rd proj (c :: l) start num = Some l' -> project_out_isl_single rd proj [c] start num = Some l'.
Proof. intros rd proj c l start num l' H. unfold project_out_isl_single. destruct (Nat.eqb_spec num 0); [lia|]. auto. Qed.
Print Assumptions C78_project_isl_union_refuted.

(** Union, intersection and difference by PolyLib are exact; the in-place versions
    leave the result in their first argument. *)
Theorem C78_polylib : forall union inter diff n l1 l2,
  polylib_op_ok union or -> polylib_op_ok inter and -> polylib_op_ok diff (fun a b => a /\ ~ b) ->
  list_ok n l1 -> list_ok n l2 ->
  (list_ok n (polylib_op union l1 l2) /\ forall x, umem (polylib_op union l1 l2) x <-> umem l1 x \/ umem l2 x) /\
  (list_ok n (polylib_op inter l1 l2) /\ forall x, umem (polylib_op inter l1 l2) x <-> umem l1 x /\ umem l2 x) /\
  (list_ok n (polylib_op diff l1 l2) /\ forall x, umem (polylib_op diff l1 l2) x <-> umem l1 x /\ ~ umem l2 x) /\
  (forall op, polylib_update op l1 l2 = polylib_op op l1 l2).
Proof.
  intros union inter diff n l1 l2 U I D A B.
  assert (forall l x, list_ok n l -> umem l x -> length x = n) as L.
  { intros l x [_ OK] (c & Hc & M & _). destruct (OK c Hc) as [_ N]. lia. }
  destruct (polylib_op_mem union _ n l1 l2 U ltac:(tauto) A B) as (U1 & U2 & U3).
  destruct (polylib_op_mem inter _ n l1 l2 I ltac:(tauto) A B) as (I1 & I2 & I3).
  destruct (polylib_op_mem diff _ n l1 l2 D ltac:(tauto) A B) as (D1 & D2 & D3).
  split; [|split; [|split]].
  - split; auto. intros x. split; intros H.
    + apply U2; auto.
    + apply U2; auto. destruct H as [H|H]; [exact (L l1 x A H)|exact (L l2 x B H)].
  - split; [auto|]. intros x. split; intros H; [apply I2; auto|]. apply I2; auto. exact (L l1 x A (proj1 H)).
  - split; [auto|]. intros x. split; intros H; [apply D2; auto|]. apply D2; auto. exact (L l1 x A (proj1 H)).
  - intros op. apply copy_list_eq.
Qed.
Print Assumptions C78_polylib.

(** The test for equality decides whether two lists describe the same points. *)
Theorem C78_are_equal : forall e diff n l1 l2, exact_empty e -> polylib_op_ok diff (fun a b => a /\ ~ b) -> list_ok n l1 -> list_ok n l2 ->
  are_equal e diff l1 l2 = true <-> forall x, umem l1 x <-> umem l2 x.
Proof.
  intros e diff n l1 l2 E D A B.
  assert (forall a b, list_ok n a -> list_ok n b -> list_ok n (polylib_op diff a b) /\ forall x, umem (polylib_op diff a b) x <-> umem a x /\ ~ umem b x) as K.
  { intros a b Ha Hb. destruct (polylib_op_mem diff _ n a b D ltac:(tauto) Ha Hb) as (D1 & D2 & D3). split; auto.
    intros x. split; intros H; [apply D2; auto|]. apply D2; auto. destruct H as [(c & Hc & M & _) _]. destruct (proj2 Ha c Hc) as [_ N]. lia. }
  destruct (K l1 l2 A B) as [O1 M1], (K l2 l1 B A) as [O2 M2].
  unfold are_equal. rewrite andb_true_iff. rewrite (is_empty_iff n e _ E O1), (is_empty_iff n e _ E O2). split.
  - intros [H1 H2] x. specialize (H1 x). specialize (H2 x). rewrite M1 in H1. rewrite M2 in H2.
    split; intros H; apply Classical_Prop.NNPP; intros X; [apply H1|apply H2]; auto.
  - intros H. split; intros x Hx; [apply M1 in Hx|apply M2 in Hx]; destruct Hx as [X Y]; apply Y, H; auto.
Qed.
Print Assumptions C78_are_equal.

Example C78_polylib_met :
  polylib_op_ok (fun n a b => a ++ b) or /\ polylib_op_ok pinter and /\ polylib_op_ok pdiff (fun a b => a /\ ~ b) /\
  list_ok 2 ex_a /\ list_ok 2 ex_b /\ umem (polylib_op pdiff ex_a ex_b) [3;1] /\ ~ umem (polylib_op pdiff ex_a ex_b) [4;2].
Proof.
  destruct polylib_exists as (U & I & D). destruct ex_ab_ok as (A & B & _).
  destruct (C78_polylib _ _ _ 2%nat ex_a ex_b U I D A B) as (_ & _ & [_ K] & _).
  split; [exact U|]. split; [exact I|]. split; [exact D|]. split; [auto|]. split; [auto|]. split.
  - apply K. split.
    + eexists. split; [left; reflexivity|]. split; [reflexivity|]. intros r [<-|[<-|[]]]; vm_compute; intros X; discriminate X.
    + intros (c & [<-|[]] & _ & H). specialize (H _ (or_introl eq_refl)). vm_compute in H. discriminate H.
  - intros H. apply K in H as [_ H]. apply H. eexists. split; [left; reflexivity|]. split; [reflexivity|]. intros r [<-|[]]. reflexivity.
Qed.

(** Projecting out dimensions: the result is the rational projection, so the
    projection of every integer point is kept. *)
Theorem C78_project_out : forall img n l start num, image_ok img -> list_ok n l -> (start + num <= n)%nat ->
  exists l', project_out img start num l = Some l' /\ list_ok (n - num) l' /\
    (forall y, (exists c', In c' l' /\ qmem c' y) <->
       exists c x, In c l /\ qmem c x /\ Forall2 Qeq y (firstn start x ++ skipn (start + num) x)) /\
    (forall x, umem l x -> umem l' (firstn start x ++ skipn (start + num) x)).
Proof.
  intros img n l start num I [NE OK] H.
  assert (exists l', project_out img start num l = Some l' /\ (l <> [] -> l' <> []) /\ (forall c', In c' l' -> wf_cst c' /\ ncols c' = (n - num + 1)%nat) /\
    (forall y, (exists c', In c' l' /\ qmem c' y) <->
       exists c x, In c l /\ qmem c x /\ Forall2 Qeq y (firstn start x ++ skipn (start + num) x))) as (l' & A & B & C & D).
  { clear NE. unfold project_out. induction l as [|c l IH]; cbn.
    - exists []. split; auto. split; auto. split; [intros c' []|]. intros y. split; [intros (c' & [] & _)|intros (c & x & [] & _)].
    - destruct (OK c (or_introl eq_refl)) as [W N]. destruct (project_single_spec img start num c I W ltac:(lia)) as (c' & E & W' & N' & M).
      rewrite E. destruct IH as (l' & E' & _ & OK' & M'); [intros d Hd; apply OK; right; auto|]. rewrite E'. exists (c' :: l').
      split; auto. split; [discriminate|]. split.
      + intros d [<-|Hd]; [|apply OK'; auto]. split; auto. lia.
      + intros y. split.
        * intros (d & [<-|Hd] & Hy).
          -- apply M in Hy as (x & Hx & Ex). exists c, x. split; [left|]; auto.
          -- destruct (proj1 (M' y) (ex_intro _ d (conj Hd Hy))) as (d' & x & Hd' & Hx & Ex). exists d', x. split; [right|]; auto.
        * intros (d & x & [<-|Hd] & Hx & Ex).
          -- exists c'. split; [left; auto|]. apply M. eauto.
          -- destruct (proj2 (M' y)) as (d' & Hd' & Hy); [eauto|]. exists d'. split; [right|]; auto. }
  exists l'. split; auto. split; [split; auto|]. split; auto.
  intros x (c & Hc & M).
  destruct (proj2 (D (zpoint (firstn start x ++ skipn (start + num) x)))) as (c' & Hc' & M').
  - exists c, (zpoint x). split; auto. split; [apply qmem_of_mem; auto|]. unfold zpoint. rewrite map_app, firstn_map, skipn_map. apply Forall2_Qeq_refl.
  - exists c'. split; auto. apply qmem_zpoint. auto.
Qed.
Print Assumptions C78_project_out.

(** An integer point of the result need not be the projection of one: x = 2 y. *)
Theorem C78_project_integer_refuted : forall img, image_ok img ->
  exists l', project_out img 1 1 ex_b = Some l' /\ umem l' [1] /\ forall y, ~ umem ex_b [1; y].
Proof.
  intros img I. destruct ex_ab_ok as (_ & B & _).
  destruct (C78_project_out img 2 ex_b 1 1 I B ltac:(lia)) as (l' & E & OK & Q & _). exists l'. split; auto. split.
  - destruct (proj2 (Q (zpoint [1]))) as (c' & Hc' & M).
    + exists (mkCst 3 [mkRow true [1;-2;0]]), [1%Q; (1 # 2)%Q]. split; [left; auto|]. split.
      * split; [reflexivity|]. intros r [<-|[]]. vm_compute. reflexivity.
      * constructor; [reflexivity|constructor].
    + exists c'. split; auto. apply qmem_zpoint. auto.
  - intros y (c & [<-|[]] & _ & H). specialize (H _ (or_introl eq_refl)). unfold holds, aff in H. cbn - [Z.mul] in H. lia.
Qed.
Print Assumptions C78_project_integer_refuted.

Example C78_project_met : image_ok img /\ list_ok 2 ex_a /\ list_ok 2 ex_b /\
  project_out img 1 1 ex_a = Some [mkCst 2 [mkRow false [-1;9]; mkRow false [0;1]; mkRow false [1;0]]].
Proof. destruct ex_ab_ok as (A & B & _). split; [exact image_exists|]. split; [auto|]. split; [auto|]. vm_compute. reflexivity. Qed.

(** ** C79.  Functions read from isl maps. *)

(** All dimensions of the map are given by one piece with integer coefficients and
    without integer divisions. *)
Definition plain_map (ni np : nat) (ds : map_dims) : Prop :=
  forall o, In o ds -> exists c a, o = Some [(c, a)] /\ plain_aff ni np a.

Lemma plain_row ni np c a i p v : plain_aff ni np a -> length i = ni -> length p = np ->
  dim_val (Some [(c, a)]) i p v -> aff (aff_to_func a) (i ++ p) = v.
Proof.
  intros (A1 & A2 & A3 & A4 & A5 & A6) Li Lp (l & c' & a' & E & Hin & _ & V). injection E as <-. destruct Hin as [E|[]]. injection E as <- <-.
  pose proof (aff_func_value a i p A1 A4 A5 A6 ltac:(lia) ltac:(lia)) as K. rewrite <- V in K. exact (proj1 (inject_Z_injective _ _) K).
Qed.

(** The matrices made of the map of an access and of a schedule compute the values of
    the map. *)
Theorem C79_functions_partial : forall ni np ds, plain_map ni np ds ->
  exists m, map_to_func (ni + np + 1) ds = Some m /\ access_func (ni + np + 1) ds = Some m /\
    mncols m = (ni + np + 1)%nat /\ length (mrows m) = length ds /\
    forall k i p v, (k < length ds)%nat -> length i = ni -> length p = np -> dim_val (nth k ds None) i p v ->
      aff (nth k (mrows m) []) (i ++ p) = v.
Proof.
  intros ni np ds H. set (g := fun o : option (list ipiece) => match o with Some ((_, a) :: _) => aff_to_func a | _ => [] end).
  exists (mkMat (ni + np + 1) (map g ds)). split; [|split; [|split; [|split]]].
  - unfold map_to_func. rewrite (all_rows_some _ g); [reflexivity|]. intros o Ho. destruct (H o Ho) as (c & a & -> & _). reflexivity.
  - unfold access_func. change (map g ds) with ([] ++ map g ds).
    assert (forall acc, fold_left (fun o d =>
      match o, d with
      | Some m, Some l => match pieces_to_func l with Some r => Some (matrix_add m (mkMat (ni + np + 1) [r])) | None => None end
      | Some m, None => Some (matrix_zero_row (matrix_add_row m 0) 0)
      | None, _ => None
      end) ds (Some (mkMat (ni + np + 1) acc)) = Some (mkMat (ni + np + 1) (acc ++ map g ds))) as K; [|apply K].
    induction ds as [|o ds IH]; intros acc; cbn [fold_left map]; [rewrite app_nil_r; auto|].
    destruct (H o (or_introl eq_refl)) as (c & a & -> & _). cbn [pieces_to_func fold_left snd].
    unfold matrix_add at 2. cbn [mncols mrows]. rewrite IH by (intros o Ho; apply H; right; auto). rewrite <- app_assoc. reflexivity.
  - reflexivity.
  - cbn. apply map_length.
  - intros k i p v Hk Li Lp V. cbn [mrows]. rewrite (nth_indep _ [] (g None)) by (rewrite map_length; auto). rewrite (List.map_nth g).
    destruct (H (nth k ds None) (nth_In _ _ Hk)) as (c & a & E & P). rewrite E in *. cbn. eapply plain_row; eauto.
Qed.
Print Assumptions C79_functions_partial.

(** The accesses of a statement: one matrix for every basic map. *)
Theorem C79_accesses_partial : forall ni np ms, (forall m, In m ms -> fst m = (ni + np + 1)%nat /\ plain_map ni np (snd m)) ->
  exists l, extract_accesses (ni + np + 1) ms = Some l /\ length l = length ms /\
    forall j k i p v, (j < length ms)%nat -> length i = ni -> length p = np ->
      (k < length (snd (nth j ms (0%nat, []))))%nat -> dim_val (nth k (snd (nth j ms (0%nat, []))) None) i p v ->
      aff (nth k (mrows (nth j l (mkMat 0 []))) []) (i ++ p) = v.
Proof.
  intros ni np ms H. unfold extract_accesses. induction ms as [|[w ds] ms IH]; cbn [all_rows fst snd].
  - exists []. split; auto. split; auto. intros j k i p v Hj. cbn in Hj. lia.
  - destruct (H (w, ds) (or_introl eq_refl)) as [E P]. cbn in E, P. subst w.
    destruct (C79_functions_partial ni np ds P) as (m & _ & A & N & _ & V). rewrite A, N, Nat.eqb_refl.
    destruct IH as (l & E & L & K); [intros x Hx; apply H; right; auto|]. rewrite E. exists (m :: l). split; auto. split; [cbn; auto|].
    intros [|j] k i p v Hj Li Lp Hk Hv; cbn in Hk, Hv |- *; [apply V; auto|]. apply (K j k i p v); auto. cbn in Hj. lia.
Qed.
Print Assumptions C79_accesses_partial.

Definition any (i p : point) : Prop := True.
(** (i, j) -> (i + N - 1, 2 j) *)
Definition ex_map : map_dims :=
  [Some [(any, mkIaff [1%Q; 0%Q] [1%Q] (-1)%Q [])]; Some [(any, mkIaff [0%Q; 2%Q] [0%Q] 0%Q [])]].
Example C79_met : plain_map 2 1 ex_map /\ access_func 4 ex_map = Some (mkMat 4 [[1;0;1;-1];[0;2;0;0]]) /\
  dim_val (nth 0 ex_map None) [3;5] [10] 12.
Proof.
  assert (forall z, is_int (z # 1)) as Z1 by (intros z; exists z; reflexivity).
  split; [|split; [reflexivity|]].
  - intros o [<-|[<-|[]]]; eexists _, _; (split; [reflexivity|]); (split; [reflexivity|]); (split; [reflexivity|]); (split; [reflexivity|]);
      (split; [repeat (apply Forall_cons; [apply Z1|]); apply Forall_nil|]); (split; [repeat (apply Forall_cons; [apply Z1|]); apply Forall_nil|]); apply Z1.
  - eexists _, _, _. split; [reflexivity|]. split; [left; reflexivity|]. split; [exact I|]. vm_compute. reflexivity.
Qed.

(** What goes wrong otherwise: a coefficient 1/2 becomes 1; of two pieces the last is
    used everywhere; a floor becomes zero; a dimension that is not single valued
    moves the other dimensions of an access. *)
Definition half : map_dims := [Some [(fun i _ => nth 0 i 0 mod 2 = 0, mkIaff [(1 # 2)%Q] [] 0%Q [])]].
Definition two : map_dims := [Some [(fun i _ => nth 0 i 0 <= 4, mkIaff [1%Q] [] 0%Q []); (fun i _ => 4 < nth 0 i 0, mkIaff [0%Q] [] 0%Q [])]].
Definition flo : map_dims := [Some [(any, mkIaff [0%Q] [] 0%Q [mkIdiv 1%Q [1;0] 2])]].
Definition mul : map_dims := [Some [(any, mkIaff [1%Q] [] 0%Q [])]; None].
Theorem C79_functions_refuted :
  (exists v m, dim_val (nth 0 half None) [6] [] v /\ map_to_func 2 half = Some m /\ aff (nth 0 (mrows m) []) [6] <> v) /\
  (exists v m, dim_val (nth 0 two None) [3] [] v /\ map_to_func 2 two = Some m /\ aff (nth 0 (mrows m) []) [3] <> v) /\
  (exists v m, dim_val (nth 0 flo None) [6] [] v /\ map_to_func 2 flo = Some m /\ aff (nth 0 (mrows m) []) [6] <> v) /\
  (exists v m, dim_val (nth 0 mul None) [6] [] v /\ access_func 2 mul = Some m /\ aff (nth 0 (mrows m) []) [6] <> v).
Proof.
  split; [|split; [|split]].
  - exists 3. eexists. split; [eexists _, _, _; split; [reflexivity|]; split; [left; reflexivity|]; split; [reflexivity|vm_compute; reflexivity]|].
    split; [reflexivity|]. vm_compute. discriminate.
  - exists 3. eexists. split; [eexists _, _, _; split; [reflexivity|]; split; [left; reflexivity|]; split; [cbn; lia|vm_compute; reflexivity]|].
    split; [reflexivity|]. vm_compute. discriminate.
  - exists 3. eexists. split; [eexists _, _, _; split; [reflexivity|]; split; [left; reflexivity|]; split; [exact I|vm_compute; reflexivity]|].
    split; [reflexivity|]. vm_compute. discriminate.
  - exists 6. eexists. split; [eexists _, _, _; split; [reflexivity|]; split; [left; reflexivity|]; split; [exact I|vm_compute; reflexivity]|].
    split; [reflexivity|]. vm_compute. discriminate.
Qed.
Print Assumptions C79_functions_refuted.

(** ** C80.  Tests of vectors. *)

(** Two rows are multiples of a common vector. *)
Definition parallel (a b : list Z) : Prop := exists k l, k <> 0 /\ l <> 0 /\ map (Z.mul k) a = map (Z.mul l) b.

Theorem C80_parallel : forall m1 r1 m2 r2,
  let a := nth r1 (mrows m1) [] in let b := nth r2 (mrows m2) [] in
  length a = length b -> Forall fits32 a -> Forall fits32 b ->
  vector_is_parallel m1 r1 m2 r2 = true <-> parallel a b.
Proof. intros m1 r1 m2 r2 a b L Fa Fb. apply parallel_loop_zero; auto. Qed.
Print Assumptions C80_parallel.

Example C80_parallel_met :
  vector_is_parallel (mkMat 3 [[2;-4;0]]) 0 (mkMat 3 [[-3;6;0]]) 0 = true /\ vector_is_parallel (mkMat 3 [[2;-4;0]]) 0 (mkMat 3 [[-3;6;1]]) 0 = false /\
  Forall fits32 [2;-4;0] /\ Forall fits32 [-3;6;0].
Proof. split; [reflexivity|]. split; [reflexivity|]. split; repeat (constructor; [unfold fits32; lia|]); constructor. Qed.

(** Ratios are kept in 32 bits: with larger numbers rows are called parallel that are
    not. *)
Theorem C80_parallel_refuted : exists a b, length a = length b /\
  vector_is_parallel (mkMat 2 [a]) 0 (mkMat 2 [b]) 0 = true /\ ~ parallel a b.
Proof.
  exists [2 ^ 32; 1], [2 ^ 32; 5]. split; [reflexivity|]. split; [reflexivity|].
  intros (k & l & K & K' & E). cbn - [Z.mul Z.pow] in E. injection E as E1 E2. lia.
Qed.
Print Assumptions C80_parallel_refuted.

(** Rows are called normal iff their product is 0, provided sums stay in 32 bits. *)
Theorem C80_normal : forall m1 r1 m2 r2,
  let a := nth r1 (mrows m1) [] in let b := nth r2 (mrows m2) [] in
  length a = mncols m1 -> length b = mncols m1 ->
  (forall k, (k <= length a)%nat -> fits32 (dot (firstn k a) b)) ->
  vector_is_normal m1 r1 m2 r2 = true <-> dot a b = 0.
Proof.
  intros m1 r1 m2 r2 a b La Lb F. unfold vector_is_normal, mget. fold a b. rewrite Z.eqb_eq.
  assert (forall k acc, (k <= length a)%nat -> fold_left (fun acc j => acc + nth j a 0 * nth j b 0) (seq 0 k) acc = acc + dot (firstn k a) b) as K.
  { intros k acc Hk. apply fold_dot; lia. }
  rewrite normal_fold.
  - rewrite <- La, K by lia. rewrite firstn_all. reflexivity.
  - intros k Hk. rewrite K by lia. apply F. lia.
Qed.
Print Assumptions C80_normal.

Example C80_normal_met : vector_is_normal (mkMat 3 [[1;2;0]]) 0 (mkMat 3 [[2;-1;7]]) 0 = true /\
  vector_is_normal (mkMat 3 [[1;2;0]]) 0 (mkMat 3 [[2;1;7]]) 0 = false /\
  forall k, (k <= 3)%nat -> fits32 (dot (firstn k [1;2;0]) [2;-1;7]).
Proof.
  split; [reflexivity|]. split; [reflexivity|]. intros k Hk.
  destruct k as [|[|[|[|k]]]]; try lia; vm_compute; intuition congruence.
Qed.

Theorem C80_normal_refuted : exists a b, length a = length b /\
  vector_is_normal (mkMat 2 [a]) 0 (mkMat 2 [b]) 0 = true /\ dot a b <> 0.
Proof. exists [2 ^ 16; 0], [2 ^ 16; 0]. split; [reflexivity|]. split; [reflexivity|]. vm_compute. discriminate. Qed.
Print Assumptions C80_normal_refuted.

(** The lexicographic minimum of two vectors. *)
Theorem C80_min_lexical : forall a b, length a = length b ->
  let m := if min_lexical a b then a else b in
  (m = a \/ m = b) /\ ~ lexlt a m /\ ~ lexlt b m.
Proof.
  intros a b L m. destruct (min_lexical_spec a b L) as [A B]. unfold m. destruct (min_lexical a b) eqn:E.
  - split; auto. split; [apply lexlt_irrefl|]. destruct (proj1 A eq_refl) as [->|H]; [apply lexlt_irrefl|]. intros K. eapply lexlt_trans_eq; eauto.
  - split; auto. split; [|apply lexlt_irrefl]. intros K. eapply lexlt_trans_eq; [exact K|]. apply B. auto.
Qed.
Print Assumptions C80_min_lexical.

Example C80_min_met : (if min_lexical [1;0;5] [1;-2;9] then [1;0;5] else [1;-2;9]) = [1;-2;9].
Proof. reflexivity. Qed.

(** The hyperplane of a band that diamond tiling replaces: the first one that is
    parallel to the face for some statement, the last one if there is none. *)
Theorem C80_replaced_hyperplane : forall pr b faces,
  let l := l_depth (pb_loop b) in let w := pb_width b in
  let row k d := nth d (mrows (s_trans (stmt_of pr (nth k (l_stmts (pb_loop b)) 0%nat)))) [] in
  let face k := nth k (mrows faces) [] in
  (1 <= w)%nat ->
  (forall k d, (k < length (l_stmts (pb_loop b)))%nat -> (l <= d < l + w)%nat ->
     length (row k d) = length (face k) /\ Forall fits32 (row k d) /\ Forall fits32 (face k)) ->
  let touches d := exists k, (k < length (l_stmts (pb_loop b)))%nat /\ parallel (row k d) (face k) in
  let e := find_hyperplane_to_be_evicted pr b faces in
  (l <= e < l + w)%nat /\ (forall d, (l <= d < e)%nat -> ~ touches d) /\ (e = l + w - 1 \/ touches e)%nat.
Proof.
  intros pr b faces l w row face Hw F touches e.
  assert (forall d, (l <= d < l + w)%nat -> (is_concurrent_start_face pr b faces d = true <-> touches d)) as T.
  { intros d Hd. unfold is_concurrent_start_face. rewrite existsb_exists. split.
    - intros ([k s] & Hin & P). cbn [fst snd] in P.
      destruct (In_nth _ _ (0%nat, 0%nat) Hin) as (i & Hi & E). rewrite combine_length, seq_length, Nat.min_id in Hi.
      rewrite combine_nth, seq_nth in E by (rewrite ?seq_length; auto). injection E as <- <-. cbn in P. exists i. split; auto.
      destruct (F i d Hi Hd) as (L & F1 & F2). apply (C80_parallel _ d faces i L F1 F2). auto.
    - intros (k & Hk & P). exists (k, nth k (l_stmts (pb_loop b)) 0%nat). split.
      + replace (k, nth k (l_stmts (pb_loop b)) 0%nat) with (nth k (combine (seq 0 (length (l_stmts (pb_loop b)))) (l_stmts (pb_loop b))) (0%nat, 0%nat)).
        * apply nth_In. rewrite combine_length, seq_length, Nat.min_id. auto.
        * rewrite combine_nth, seq_nth by (rewrite ?seq_length; auto). reflexivity.
      + cbn [fst snd]. destruct (F k d Hk Hd) as (L & F1 & F2). apply (C80_parallel _ d faces k L F1 F2). auto. }
  unfold e, find_hyperplane_to_be_evicted. fold l w. destruct (find _ _) as [d|] eqn:E.
  - assert (forall n s d, find (is_concurrent_start_face pr b faces) (seq s n) = Some d ->
      (s <= d < s + n)%nat /\ is_concurrent_start_face pr b faces d = true /\ forall d', (s <= d' < d)%nat -> is_concurrent_start_face pr b faces d' = false) as K.
    { clear. induction n as [|n IH]; intros s d H; [discriminate H|]. cbn in H. destruct (is_concurrent_start_face pr b faces s) eqn:X.
      - injection H as <-. split; [lia|]. split; auto. intros d' Hd'. lia.
      - destruct (IH _ _ H) as (A & B & C). split; [lia|]. split; auto. intros d' Hd'. destruct (Nat.eq_dec d' s) as [->|]; auto. apply C. lia. }
    destruct (K _ _ _ E) as (A & B & C). split; [lia|]. split.
    + intros d' Hd' X. apply T in X; [|lia]. rewrite C in X by lia. discriminate.
    + right. apply T; auto. lia.
  - split; [lia|]. split; [|left; reflexivity]. intros d Hd X. apply T in X; [|lia].
    rewrite (find_none _ _ E d) in X by (apply in_seq; lia). discriminate.
Qed.
Print Assumptions C80_replaced_hyperplane.

(** Rows (1,0), (1,1) and a face (2,2): the second row is replaced. *)
Definition ex_st : stmt := mkStmt 2 2 [true; true] (mkCst 3 []) (mkMat 3 [[1;0;0];[1;1;0];[0;1;0]]) [H_LOOP; H_LOOP; H_LOOP] 0 0 [] [] None 0 (-1) (-1).
Example C80_replaced_met :
  let pr := mkProg 2 0 [ex_st] [] [H_LOOP; H_LOOP; H_LOOP] in let b := mkPband (mkPloop 0 [0%nat]) 3 in let faces := mkMat 3 [[2;2;0]] in
  (forall k d, (k < length (l_stmts (pb_loop b)))%nat -> (0 <= d < 0 + 3)%nat ->
     length (nth d (mrows (s_trans (stmt_of pr (nth k (l_stmts (pb_loop b)) 0%nat)))) []) = length (nth k (mrows faces) []) /\
     Forall fits32 (nth d (mrows (s_trans (stmt_of pr (nth k (l_stmts (pb_loop b)) 0%nat)))) []) /\ Forall fits32 (nth k (mrows faces) [])) /\
  find_hyperplane_to_be_evicted pr b faces = 1%nat.
Proof.
  split; [|reflexivity]. intros k d Hk Hd. cbn in Hk. assert (k = 0%nat) as -> by lia.
  destruct d as [|[|[|d]]]; [| | |lia]; (split; [reflexivity|]); split; repeat (constructor; [unfold fits32; lia|]); constructor.
Qed.
