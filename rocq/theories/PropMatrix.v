(** * Theorems C42-C45: matrix editing, product, rank, Gaussian elimination. *)
From Coq Require Import ZArith QArith List Bool Lia.
From Verif Require Import SpecLinear SpecMatrix VecProofs MathModel EditProofs RankProofs MatrixProofs Checkers.
Import ListNotations.
Open Scope Z_scope.

(** ** C42.  [mget m i j] is the entry in row i, column j. *)
Theorem C42_columns : forall m pos, wf_mat m ->
  (forall i j, mget (matrix_remove_col m pos) i j = mget m i (if (j <? pos)%nat then j else S j)) /\
  ((pos <= mncols m)%nat -> forall i j, (i < mnrows m)%nat ->
     mget (matrix_add_col m pos) i j =
     if (j <? pos)%nat then mget m i j else if (j =? pos)%nat then 0 else mget m i (j - 1)) /\
  ((pos <= mncols m)%nat -> matrix_remove_col (matrix_add_col m pos) pos = m).
Proof.
  intros m pos W. split; [|split].
  - intros. apply remove_col_get.
  - intros. apply add_col_get; auto.
  - intros. apply remove_add_col; auto.
Qed.
Print Assumptions C42_columns.

Theorem C42_rows : forall m pos,
  (forall i j, mget (matrix_remove_row m pos) i j = mget m (if (i <? pos)%nat then i else S i) j) /\
  ((pos <= mnrows m)%nat -> forall i j,
     mget (matrix_add_row m pos) i j =
     if (i <? pos)%nat then mget m i j else if (i =? pos)%nat then 0 else mget m (i - 1) j) /\
  ((pos <= mnrows m)%nat -> matrix_remove_row (matrix_add_row m pos) pos = m).
Proof.
  intros m pos. split; [|split].
  - intros. apply remove_row_get.
  - intros. apply add_row_get; auto.
  - intros. apply remove_add_row; auto.
Qed.
Print Assumptions C42_rows.

Theorem C42_negate : forall m i j, mget (matrix_negate m) i j = - mget m i j.
Proof. exact negate_get. Qed.
Print Assumptions C42_negate.

Theorem C42_interchange_rows : forall m r1 r2, (r1 < mnrows m)%nat -> (r2 < mnrows m)%nat ->
  (forall i j, mget (matrix_interchange_rows m r1 r2) i j =
     mget m (if (i =? r1)%nat then r2 else if (i =? r2)%nat then r1 else i) j) /\
  matrix_interchange_rows (matrix_interchange_rows m r1 r2) r1 r2 = m.
Proof.
  intros m r1 r2 H1 H2. split.
  - intros i j. unfold mget, matrix_interchange_rows; cbn [mrows]. rewrite swap_nth_nth by auto. auto.
  - destruct m as [n l]. unfold matrix_interchange_rows; cbn in *. f_equal. apply swap_nth_invol; auto.
Qed.
Print Assumptions C42_interchange_rows.

(** Interchange of columns is right for entries that fit the [int] temporary. *)
Theorem C42_interchange_cols : forall m c1 c2 i j, wf_mat m ->
  (c1 < mncols m)%nat -> (c2 < mncols m)%nat -> (i < mnrows m)%nat ->
  fits32 (mget m i c1) ->
  mget (matrix_interchange_cols m c1 c2) i j =
  mget m i (if (j =? c1)%nat then c2 else if (j =? c2)%nat then c1 else j).
Proof. exact interchange_cols_get. Qed.
Print Assumptions C42_interchange_cols.

Theorem C42_interchange_cols_large_refuted : exists m c1 c2,
  wf_mat m /\ (c1 < mncols m)%nat /\ (c2 < mncols m)%nat /\ (0 < mnrows m)%nat /\
  in64 (mget m 0 c1) = true /\
  mget (matrix_interchange_cols m c1 c2) 0 c2 <> mget m 0 c1.
Proof.
  exists (mkMat 2 [[2 ^ 40; 1]]), 0%nat, 1%nat.
  split; [wf|]. repeat split; try (vm_compute; lia); vm_compute; congruence.
Qed.
Print Assumptions C42_interchange_cols_large_refuted.

(** Moving column c1 to place c2: take it out and put it back at c2. *)
Theorem C42_move_col : forall m c1 c2, wf_mat m ->
  (c1 < mncols m)%nat -> (c2 < mncols m)%nat ->
  (forall r, In r (mrows m) -> fits32 (nth c1 r 0)) ->
  mrows (matrix_move_col m c1 c2) = map (fun r => insert_at c2 (nth c1 r 0) (remove_at c1 r)) (mrows m).
Proof. intros m c1 c2 H1 H2 H3 H4. rewrite move_col_rows; auto. Qed.
Print Assumptions C42_move_col.

Theorem C42_reverse_rows : forall m, mrows (matrix_reverse_rows m) = rev (mrows m).
Proof. exact reverse_rows_rev. Qed.
Print Assumptions C42_reverse_rows.

Definition ex_m := mkMat 3 [[1; 2; 3]; [4; 5; 6]].
Example C42_ex : wf_mat ex_m /\ (forall r, In r (mrows ex_m) -> fits32 (nth 0 r 0)) /\
  matrix_move_col ex_m 0 2 = mkMat 3 [[2; 3; 1]; [5; 6; 4]] /\
  matrix_interchange_cols ex_m 0 2 = mkMat 3 [[3; 2; 1]; [6; 5; 4]].
Proof.
  split; [wf|split; [|split; reflexivity]].
  intros r [<-|[<-|[]]]; vm_compute; intuition congruence.
Qed.

(** ** C43.  [mat_vec A v] is the vector A v. *)
Theorem C43_product_composes : forall A B v, wf_mat A -> wf_mat B ->
  mncols A = mnrows B -> length v = mncols B ->
  mat_vec (mrows (matrix_product A B)) v = mat_vec (mrows A) (mat_vec (mrows B) v).
Proof. exact product_vec. Qed.
Print Assumptions C43_product_composes.

Theorem C43_product_associative : forall A B C, wf_mat A -> wf_mat B -> wf_mat C ->
  mncols A = mnrows B -> mncols B = mnrows C ->
  matrix_product (matrix_product A B) C = matrix_product A (matrix_product B C).
Proof. exact product_assoc. Qed.
Print Assumptions C43_product_associative.

Theorem C43_identity_neutral : forall A, wf_mat A ->
  matrix_product (matrix_identity (mnrows A)) A = A /\
  matrix_product A (matrix_identity (mncols A)) = A.
Proof. intros A W. split; [apply product_identity_l|apply product_identity_r]; auto. Qed.
Print Assumptions C43_identity_neutral.

Example C43_ex : let B := mkMat 2 [[1; 0]; [2; -1]; [0; 3]] in
  wf_mat ex_m /\ wf_mat B /\ mncols ex_m = mnrows B /\
  matrix_product ex_m B = mkMat 2 [[5; 7]; [14; 13]].
Proof. split; [wf|split; [wf|split; reflexivity]]. Qed.

(** ** C44.  [has_rank n rows k]: the rows span a space of dimension k. *)
Theorem C44_rank_square_or_tall_partial : forall m, wf_mat m -> (mncols m <= mnrows m)%nat ->
  has_rank (mncols m) (mrows m) (matrix_get_rank m).
Proof. exact rank_ok. Qed.
Print Assumptions C44_rank_square_or_tall_partial.

(** In general the rank is never under-reported. *)
Theorem C44_rank_upper_bound_partial : forall m k, wf_mat m ->
  has_rank (mncols m) (mrows m) k -> (k <= matrix_get_rank m)%nat.
Proof. exact rank_upper. Qed.
Print Assumptions C44_rank_upper_bound_partial.

(** For wide matrices it can be over-reported: two proportional rows. *)
Theorem C44_rank_wide_refuted : exists m, wf_mat m /\
  ~ has_rank (mncols m) (mrows m) (matrix_get_rank m).
Proof.
  exists (mkMat 3 [[0; 0; 1]; [0; 0; 2]]). split; [wf|]. intros (B & L & Hb & Hi & _ & Hs).
  cbn [mncols mrows] in *.
  assert (length B <= 1)%nat as Hl.
  { apply (steinitz 3 B [[0; 0; 1]]); auto.
    - intros v [<-|[]]. reflexivity.
    - intros b HB. specialize (Hs b HB). destruct Hs as (d & cs & Hd & Hc & E).
      destruct cs as [|u [|w [|? ?]]]; try discriminate.
      exists d, [u + 2 * w]. split; auto. split; auto. rewrite E. cbn [lincomb zip_with map repeat].
      f_equal; [lia|f_equal; [lia|f_equal; lia]]. }
  rewrite L in Hl. vm_compute in Hl. lia.
Qed.
Print Assumptions C44_rank_wide_refuted.

Example C44_ex : let m := mkMat 2 [[0; 2]; [3; 1]; [3; 5]] in
  wf_mat m /\ (mncols m <= mnrows m)%nat /\ matrix_get_rank m = 2%nat.
Proof. split; [wf|split; [vm_compute; lia|reflexivity]]. Qed.

(** ** C45.  [eqsol rows x]: x solves all the equations rows * x = 0. *)
Theorem C45_gaussian_projection : forall n m start x, wf_mat m ->
  (start + n <= mncols m)%nat -> (length x + n = mncols m)%nat ->
  (eqsol (mrows (gaussian_eliminate m start n)) x <->
   exists vs, length vs = n /\ eqsol (mrows m) (firstn start x ++ vs ++ skipn start x)).
Proof. exact gaussian_exact. Qed.
Print Assumptions C45_gaussian_projection.

Example C45_ex : wf_mat ex_m /\ gaussian_eliminate ex_m 0 1 = mkMat 2 [[-3; -6]].
Proof. split; [wf|reflexivity]. Qed.
