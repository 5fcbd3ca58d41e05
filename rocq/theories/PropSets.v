(** * Theorems C41, C46-C50, C57, C58: editing constraint systems, unions of
    systems, half-spaces, constant bounds, conversions. *)
From Coq Require Import ZArith QArith List Bool Lia.
From Verif Require Import SpecLinear VecProofs MathModel ConstraintsModel EditProofs ListProofs Checkers.
Import ListNotations.
Open Scope Z_scope.

(** ** C41 *)
Theorem C41_bounds_and_values : forall c v k x, (v < ncols c - 1)%nat ->
  (mem (add_lb c v k) x <-> mem c x /\ k <= nth v x 0) /\
  (mem (add_ub c v k) x <-> mem c x /\ nth v x 0 <= k) /\
  (mem (set_var c v k) x <-> mem c x /\ nth v x 0 = k).
Proof.
  intros c v k x H. split; [|split].
  - apply add_lb_mem; auto.
  - apply add_ub_mem; auto.
  - apply set_var_mem; auto.
Qed.
Print Assumptions C41_bounds_and_values.

Theorem C41_conjunction : forall c1 c2 x, ncols c1 = ncols c2 ->
  (mem (cst_add c1 c2) x <-> mem c1 x /\ mem c2 x).
Proof. exact cst_add_mem. Qed.
Print Assumptions C41_conjunction.

Theorem C41_universe_and_empty : forall n x,
  (mem (universe n) x <-> S (length x) = n) /\ ((1 <= n)%nat -> ~ mem (empty_cst n) x).
Proof. intros n x. split; [apply universe_mem|apply empty_mem]. Qed.
Print Assumptions C41_universe_and_empty.

Theorem C41_rows : forall c pos r x, nth_error (rows c) pos = Some r ->
  (mem c x <-> mem (remove_row c pos) x /\ holds x r) /\
  (mem (select_row c pos) x <-> S (length x) = ncols c /\ holds x r) /\
  (mem (zero_row c pos) x <-> mem (remove_row c pos) x) /\
  (is_eq r = false ->
   (mem (negate_row c pos) x <-> mem (remove_row c pos) x /\ aff (coef r) x <= 0)).
Proof.
  intros c pos r x H. split; [|split; [|split]].
  - apply remove_row_mem; auto.
  - apply select_row_mem; auto.
  - eapply zero_row_mem; eauto.
  - apply negate_row_mem; auto.
Qed.
Print Assumptions C41_rows.

(** A new dimension is unconstrained; removing a dimension fixes it to 0;
    removal undoes insertion; interchanging columns interchanges coordinates. *)
Theorem C41_dimensions : forall c pos x, wf_cst c ->
  ((pos <= length x)%nat -> forall v, mem (add_dim c pos) (insert_at pos v x) <-> mem c x) /\
  ((pos < ncols c)%nat -> remove_dim (add_dim c pos) pos = c) /\
  ((pos < ncols c - 1)%nat -> (mem (remove_dim c pos) x <-> mem c (insert_at pos 0 x))).
Proof.
  intros c pos x W. split; [|split].
  - intros H v. apply add_dim_mem; auto.
  - intros H. apply remove_add_dim; auto.
  - intros H. apply remove_dim_mem; auto.
Qed.
Print Assumptions C41_dimensions.

Theorem C41_interchange_columns : forall c i j x y, wf_cst c ->
  (i < ncols c - 1)%nat -> (j < ncols c - 1)%nat -> length x = length y ->
  nth i y 0 = nth j x 0 -> nth j y 0 = nth i x 0 ->
  (forall k, k <> i -> k <> j -> nth k y 0 = nth k x 0) ->
  (mem (interchange_cols c i j) y <-> mem c x).
Proof. exact interchange_cols_mem_nth. Qed.
Print Assumptions C41_interchange_columns.

(** { (x, y) | x - y >= 0, y >= 1 } *)
Definition ex_c41 := mkCst 3 [mkRow false [1; -1; 0]; mkRow false [0; 1; -1]].
Example C41_ex : wf_cst ex_c41 /\ mem ex_c41 [3; 2] /\
  add_ub ex_c41 0 7 = mkCst 3 [mkRow false [1; -1; 0]; mkRow false [0; 1; -1]; mkRow false [-1; 0; 7]] /\
  interchange_cols ex_c41 0 1 = mkCst 3 [mkRow false [-1; 1; 0]; mkRow false [1; 0; -1]].
Proof.
  split; [wf|split; [inset|split; reflexivity]].
Qed.

(** ** C46 *)
Theorem C46_append_is_union : forall l1 l2 x,
  umem (unionize_simple_effect l1 l2) x <-> umem l1 x \/ umem l2 x.
Proof. exact umem_app. Qed.
Print Assumptions C46_append_is_union.

Theorem C46_copy : forall dest src x, umem (copy_list dest src) x <-> umem src x.
Proof. intros. rewrite copy_list_src. tauto. Qed.
Print Assumptions C46_copy.

Theorem C46_is_empty : forall empty1 l,
  (forall c, In c l -> (empty1 c = true <-> forall x, ~ mem c x)) ->
  (is_empty empty1 l = true <-> forall x, ~ umem l x).
Proof. exact is_empty_correct. Qed.
Print Assumptions C46_is_empty.

Theorem C46_bounds_on_each : forall l v k x,
  (forall c, In c l -> (v < ncols c - 1)%nat) ->
  (umem (add_lb_list l v k) x <-> umem l x /\ k <= nth v x 0) /\
  (umem (add_ub_list l v k) x <-> umem l x /\ nth v x 0 <= k) /\
  (umem (set_var_list l v k) x <-> umem l x /\ nth v x 0 = k).
Proof.
  intros l v k x H. split; [|split].
  - apply umem_map with (P := fun x => k <= nth v x 0). intros; apply add_lb_mem; auto.
  - apply umem_map with (P := fun x => nth v x 0 <= k). intros; apply add_ub_mem; auto.
  - apply umem_map with (P := fun x => nth v x 0 = k). intros; apply set_var_mem; auto.
Qed.
Print Assumptions C46_bounds_on_each.

(** Adding a system to each piece intersects, as long as every piece has room
    for the new rows. *)
Theorem C46_add_to_each_partial : forall l c2 x,
  (forall a, In a l -> (nrows (body a) + nrows c2 <= alloc_nrows a)%nat /\ ncols (body a) = ncols c2) ->
  (umem (map body (add_to_each l c2)) x <-> umem (map body l) x /\ mem c2 x).
Proof. exact add_to_each_room. Qed.
Print Assumptions C46_add_to_each_partial.

(** Otherwise rows of later pieces can be dropped: { x >= 0 } union
    { x <= -5, x >= -9, x >= -8, x>= -7 } intersected with { x <= 100 }. *)
Theorem C46_add_to_each_refuted : exists l c2 x,
  (forall a, In a l -> (nrows (body a) <= alloc_nrows a)%nat /\ wf_cst (body a) /\ ncols (body a) = ncols c2) /\
  wf_cst c2 /\
  umem (map body (add_to_each l c2)) x /\ ~ (umem (map body l) x /\ mem c2 x).
Proof.
  exists [mkAcst 1 (mkCst 2 [mkRow false [1; 0]]);
          mkAcst 4 (mkCst 2 [mkRow false [-1; -5]; mkRow false [1; 9]; mkRow false [1; 8]; mkRow false [1; 7]])],
         (mkCst 2 [mkRow false [-1; 100]]), [-9].
  split; [|split; [|split]].
  - intros a [<-|[<-|[]]]; (split; [vm_compute; lia|split; [wf|reflexivity]]).
  - wf.
  - inset.
  - intros [H _]. revert H. inset.
Qed.
Print Assumptions C46_add_to_each_refuted.

(** A domain assembled from at most two pieces is their union ... *)
Theorem C46_domain_pieces_partial : forall pieces x, (1 <= length pieces <= 2)%nat ->
  exists d, extract_stmt_domain pieces = Some d /\ (umem d x <-> umem pieces x).
Proof. exact extract_le2. Qed.
Print Assumptions C46_domain_pieces_partial.

(** ... but with three pieces the first is lost. *)
Theorem C46_domain_pieces_refuted : exists pieces x d,
  extract_stmt_domain pieces = Some d /\ umem pieces x /\ ~ umem d x.
Proof.
  exists [mkCst 2 [mkRow true [1; -1]]; mkCst 2 [mkRow true [1; -2]]; mkCst 2 [mkRow true [1; -3]]], [1].
  eexists. split; [reflexivity|]. split.
  - inset.
  - inset.
Qed.
Print Assumptions C46_domain_pieces_refuted.

Example C46_ex :
  (forall a, In a [mkAcst 4 ex_c41; mkAcst 3 ex_c41] ->
     (nrows (body a) + nrows (universe 3) <= alloc_nrows a)%nat /\ ncols (body a) = ncols (universe 3)) /\
  umem [ex_c41; ex_c41] [3; 2].
Proof.
  split.
  - intros a [<-|[<-|[]]]; vm_compute; lia.
  - exists ex_c41. split; [simpl; auto|]. apply C41_ex.
Qed.

(** ** C47 *)
Theorem C47_half_spaces : forall h a x,
  rows h = [mkRow true a] -> wf_cst h -> S (length x) = ncols h ->
  (mem (non_negative_half_space h) x <-> 0 <= aff a x) /\
  (mem (negative_half_space h) x <-> aff a x < 0).
Proof. exact half_spaces. Qed.
Print Assumptions C47_half_spaces.

Theorem C47_half_spaces_partition : forall h a x,
  rows h = [mkRow true a] -> wf_cst h -> S (length x) = ncols h ->
  (mem (non_negative_half_space h) x \/ mem (negative_half_space h) x) /\
  ~ (mem (non_negative_half_space h) x /\ mem (negative_half_space h) x).
Proof.
  intros h a x H1 H2 H3. destruct (half_spaces h a x H1 H2 H3) as [E1 E2]. rewrite E1, E2. lia.
Qed.
Print Assumptions C47_half_spaces_partition.

Example C47_ex : let h := mkCst 3 [mkRow true [2; -1; 3]] in
  wf_cst h /\ negative_half_space h = mkCst 3 [mkRow false [-2; 1; -4]].
Proof. split; [wf|reflexivity]. Qed.

(** ** C48: the complement of r >= 0 (given the other rows) is r < 0. *)
Theorem C48_negate_constraint_partial : forall c pos r x,
  wf_cst c -> nth_error (rows c) pos = Some r -> is_eq r = false ->
  last (coef r) 0 = 0 ->
  (mem (negate_constraint c pos) x <-> mem (remove_row c pos) x /\ ~ holds x r).
Proof.
  intros c pos r x W Hr He Hl. rewrite (negate_constraint_mem c pos r x W Hr He), Hl.
  unfold holds. rewrite He. split; intros [H1 H2]; split; auto; lia.
Qed.
Print Assumptions C48_negate_constraint_partial.

Theorem C48_negate_constraint_refuted : exists c pos r x,
  wf_cst c /\ nth_error (rows c) pos = Some r /\ is_eq r = false /\
  mem (negate_constraint c pos) x /\ holds x r.
Proof.
  exists (mkCst 2 [mkRow false [1; 5]]), 0%nat, (mkRow false [1; 5]), [2].
  split; [wf|split; [reflexivity|split; [reflexivity|split; [inset|]]]].
  vm_compute. congruence.
Qed.
Print Assumptions C48_negate_constraint_refuted.

Example C48_ex : let c := mkCst 3 [mkRow false [1; -2; 0]] in
  wf_cst c /\ last (coef (mkRow false [1; -2; 0])) 0 = 0 /\
  negate_constraint c 0 = mkCst 3 [mkRow false [-1; 2; -1]].
Proof. split; [wf|split; reflexivity]. Qed.

(** ** C49.  [proj] stands for the library projection on one variable; all that
    is assumed is that projections of points are in the result. *)
Theorem C49_const_bounds_partial : forall proj l pos,
  (forall c, In c l ->
     (forall y, mem c y -> mem (proj c pos) [nth pos y 0]) /\
     ncols (proj c pos) = 2%nat /\
     (forall r, In r (rows (proj c pos)) ->
        is_eq r = false /\ length (coef r) = 2%nat /\ -1 <= nth 0 (coef r) 0 <= 1 /\
        - 2 ^ 31 <= - nth 1 (coef r) 0 /\ nth 1 (coef r) 0 <= 2 ^ 63 - 1)) ->
  forall x, umem l x ->
  (forall lb, get_const_lb proj l pos = (true, lb) -> lb <= nth pos x 0) /\
  (forall ub, get_const_ub proj l pos = (true, ub) -> nth pos x 0 <= ub).
Proof.
  intros proj l pos H x U. split; intros b E.
  - eapply get_const_lb_partial; eauto. intros c Hc. destruct (H c Hc) as (H1 & H2 & H3).
    split; auto. split; auto.
  - eapply get_const_ub_partial; eauto. intros c Hc. destruct (H c Hc) as (H1 & H2 & H3).
    split; auto. split; auto.
Qed.
Print Assumptions C49_const_bounds_partial.

(** With an exact projection (here: the set has one variable and [proj] is the
    identity) the reported bounds can be wrong: for { x - 5 = 0 } the reported
    lower and upper bound is -5; for { 2x - 5 >= 0 } union nothing the lower
    bound 5 excludes x = 3; for { x + 2^31 + 1 >= 0 } the lower bound is INT_MIN. *)
Theorem C49_const_bounds_refuted :
  (exists c x ub, mem c x /\ get_const_ub (fun c _ => c) [c] 0 = (true, ub) /\ ~ nth 0 x 0 <= ub) /\
  (exists c x lb, mem c x /\ get_const_lb (fun c _ => c) [c] 0 = (true, lb) /\ ~ lb <= nth 0 x 0) /\
  (exists c x lb, mem c x /\ (forall r, In r (rows c) -> is_eq r = false /\ nth 0 (coef r) 0 = 1) /\
     get_const_lb (fun c _ => c) [c] 0 = (true, lb) /\ ~ lb <= nth 0 x 0).
Proof.
  split; [|split].
  - exists (mkCst 2 [mkRow true [1; -5]]), [5], (-5). split; [|split; [reflexivity|simpl; lia]].
    inset.
  - exists (mkCst 2 [mkRow false [2; -5]]), [3], 5. split; [|split; [reflexivity|simpl; lia]].
    inset.
  - exists (mkCst 2 [mkRow false [1; 2 ^ 31 + 1]]), [- 2 ^ 31 - 1], (- 2 ^ 31).
    split; [|split; [|split; [reflexivity|vm_compute; congruence]]].
    + inset.
    + simpl. intuition (subst; reflexivity).
Qed.
Print Assumptions C49_const_bounds_refuted.

(** { 2 <= x <= 9 } *)
Example C49_ex : let c := mkCst 2 [mkRow false [1; -2]; mkRow false [-1; 9]] in
  get_const_lb (fun c _ => c) [c] 0 = (true, 2) /\ get_const_ub (fun c _ => c) [c] 0 = (true, 9) /\
  (forall r, In r (rows c) -> is_eq r = false /\ length (coef r) = 2%nat /\ -1 <= nth 0 (coef r) 0 <= 1 /\
        - 2 ^ 31 <= - nth 1 (coef r) 0 /\ nth 1 (coef r) 0 <= 2 ^ 63 - 1).
Proof.
  split; [reflexivity|split; [reflexivity|]]. intros r [<-|[<-|[]]]; vm_compute; intuition congruence.
Qed.

(** ** C50 *)
Theorem C50_matrix_round_trip : forall c, wf_cst c -> from_matrix (to_matrix c) = c.
Proof. exact matrix_round_trip. Qed.
Print Assumptions C50_matrix_round_trip.

Theorem C50_matrix_round_trip_back : forall m, wf_mat m -> (1 <= mncols m)%nat ->
  (forall r, In r (mrows m) -> nth 0 r 0 = 0 \/ nth 0 r 0 = 1) ->
  to_matrix (from_matrix m) = m.
Proof. exact matrix_round_trip'. Qed.
Print Assumptions C50_matrix_round_trip_back.

Theorem C50_print_read_partial : forall c, wf_cst c -> read_polylib (print_polylib [c]) = Some c.
Proof. exact read_print. Qed.
Print Assumptions C50_print_read_partial.

(** A printed union of several systems is not read back (not even its first
    element). *)
Theorem C50_print_read_list_refuted : exists l, length l = 2%nat /\
  (forall c, In c l -> wf_cst c) /\
  forall c, In c l -> read_polylib (print_polylib l) <> Some c.
Proof.
  exists [mkCst 2 [mkRow false [1; 0]; mkRow false [-1; 3]]; mkCst 2 [mkRow false [1; -5]]].
  split; [reflexivity|split].
  - intros c [<-|[<-|[]]]; wf.
  - intros c [<-|[<-|[]]]; vm_compute; discriminate.
Qed.
Print Assumptions C50_print_read_list_refuted.

Example C50_ex : wf_cst ex_c41 /\ print_polylib [ex_c41] = [2; 4; 1; 1; -1; 0; 1; 0; 1; -1].
Proof. split; [apply C41_ex|reflexivity]. Qed.

(** ** C57 *)
Theorem C57_shift_dim : forall c pos func x,
  wf_cst c -> length func = ncols c -> nth pos func 0 = 0 ->
  (pos < ncols c - 1)%nat -> S (length x) = ncols c ->
  (mem (shift_dim c pos func) (set_nth pos (nth pos x 0 + aff func x) x) <-> mem c x).
Proof. exact shift_dim_mem. Qed.
Print Assumptions C57_shift_dim.

(** Shift x by 2y + 1. *)
Example C57_ex : wf_cst ex_c41 /\ nth 0 [0; 2; 1] 0 = 0 /\
  mem ex_c41 [3; 2] /\ mem (shift_dim ex_c41 0 [0; 2; 1]) [8; 2].
Proof.
  split; [apply C41_ex|split; [reflexivity|split; [apply C41_ex|]]].
  inset.
Qed.

(** ** C58: the same constraint, but nothing is divided. *)
Theorem C58_normalize_row_same_partial : forall c pos m p,
  normalize_row c pos = c /\ matrix_normalize_row m p = m.
Proof. intros. split; [apply normalize_row_id|apply matrix_normalize_row_id]. Qed.
Print Assumptions C58_normalize_row_same_partial.

Theorem C58_normalize_row_primitive_refuted : exists c pos r,
  nth_error (rows (normalize_row c pos)) pos = Some r /\
  exists g, 1 < g /\ forall v, In v (coef r) -> (g | v).
Proof.
  exists (mkCst 3 [mkRow false [2; 4; 6]]), 0%nat, (mkRow false [2; 4; 6]). split; [reflexivity|].
  exists 2. split; [lia|]. simpl. intros v [<-|[<-|[<-|[]]]]; [exists 1|exists 2|exists 3]; reflexivity.
Qed.
Print Assumptions C58_normalize_row_primitive_refuted.
