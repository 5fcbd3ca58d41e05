(** * Matrix editing, product, elimination on equality matrices. *)
From Coq Require Import ZArith QArith List Bool Lia Lqa.
From Verif Require Import SpecLinear SpecMatrix VecProofs MathModel GcdProofs ConstraintsModel SimplifyProofs FMProofs FarkasProofs EditProofs RankProofs.
Import ListNotations.
Open Scope Z_scope.

(** ** Entries *)
Lemma nth_map_row (f : list Z -> list Z) i l : f [] = [] \/ (i < length l)%nat ->
  nth i (map f l) [] = f (nth i l []).
Proof.
  intros [H|H].
  - rewrite <- H at 1. apply List.map_nth.
  - rewrite nth_indep with (d' := f []) by (rewrite map_length; auto). apply List.map_nth.
Qed.

Lemma remove_col_get m pos i j : mget (matrix_remove_col m pos) i j =
  mget m i (if (j <? pos)%nat then j else S j).
Proof.
  unfold mget, matrix_remove_col; cbn [mrows].
  rewrite nth_map_row by (left; destruct pos; auto).
  destruct (Nat.ltb_spec j pos).
  - rewrite nth_remove_at_lt by auto. auto.
  - rewrite nth_remove_at_ge by auto. auto.
Qed.

Lemma add_col_get m pos i j : wf_mat m -> (i < mnrows m)%nat -> (pos <= mncols m)%nat ->
  mget (matrix_add_col m pos) i j =
  if (j <? pos)%nat then mget m i j else if (j =? pos)%nat then 0 else mget m i (j - 1).
Proof.
  intros Hw Hi Hp. unfold mget, matrix_add_col; cbn [mrows].
  rewrite nth_map_row by auto.
  assert (length (nth i (mrows m) []) = mncols m) as L by (apply Hw, nth_In; auto).
  destruct (Nat.ltb_spec j pos).
  - rewrite nth_insert_at_lt by lia. auto.
  - destruct (Nat.eqb_spec j pos).
    + subst. rewrite nth_insert_at_eq by lia. auto.
    + destruct j; [lia|]. rewrite nth_insert_at_ge by lia. f_equal. lia.
Qed.

Lemma remove_add_col m pos : wf_mat m -> (pos <= mncols m)%nat ->
  matrix_remove_col (matrix_add_col m pos) pos = m.
Proof.
  intros Hw Hp. destruct m as [n l]. unfold matrix_remove_col, matrix_add_col; cbn in *. f_equal; [lia|].
  rewrite map_map. apply map_id_in. intros r Hr. apply remove_insert. rewrite (Hw r Hr). auto.
Qed.

Lemma remove_add_row m pos : (pos <= mnrows m)%nat ->
  matrix_remove_row (matrix_add_row m pos) pos = m.
Proof.
  intros Hp. destruct m as [n l]. unfold matrix_remove_row, matrix_add_row; cbn in *. f_equal.
  apply remove_insert. auto.
Qed.

Lemma add_row_get m pos i j : (pos <= mnrows m)%nat ->
  mget (matrix_add_row m pos) i j =
  if (i <? pos)%nat then mget m i j else if (i =? pos)%nat then 0 else mget m (i - 1) j.
Proof.
  intros Hp. unfold mnrows in Hp. unfold mget, matrix_add_row; cbn [mrows].
  destruct (Nat.ltb_spec i pos).
  - rewrite nth_insert_at_lt by lia. auto.
  - destruct (Nat.eqb_spec i pos).
    + subst. rewrite nth_insert_at_eq by lia. apply nth_repeat.
    + destruct i; [lia|]. rewrite nth_insert_at_ge by lia. f_equal. f_equal. lia.
Qed.

Lemma remove_row_get m pos i j :
  mget (matrix_remove_row m pos) i j = mget m (if (i <? pos)%nat then i else S i) j.
Proof.
  unfold mget, matrix_remove_row; cbn [mrows]. destruct (Nat.ltb_spec i pos).
  - rewrite nth_remove_at_lt by auto. auto.
  - rewrite nth_remove_at_ge by auto. auto.
Qed.

(** ** Negation *)
Lemma map_nth_nth {A} (d : A) pos f l i :
  nth i (map_nth pos f l) d = if (i =? pos)%nat && (pos <? length l)%nat then f (nth pos l d) else nth i l d.
Proof.
  unfold map_nth. destruct (nth_error l pos) eqn:E.
  - assert (pos < length l)%nat as Hl by (apply nth_error_Some; congruence).
    rewrite (proj2 (Nat.ltb_lt _ _) Hl). rewrite andb_true_r.
    destruct (Nat.eqb_spec i pos).
    + subst. rewrite nth_set_nth_eq by auto. rewrite (nth_error_nth _ _ d E). auto.
    + rewrite nth_set_nth_neq by auto. auto.
  - apply nth_error_None in E. rewrite (proj2 (Nat.ltb_ge _ _) E). rewrite andb_false_r. auto.
Qed.

Lemma map_nth_length {A} pos (f : A -> A) l : length (map_nth pos f l) = length l.
Proof. unfold map_nth. destruct (nth_error l pos); auto. apply set_nth_length. Qed.

Lemma negate_get m i j : mget (matrix_negate m) i j = - mget m i j.
Proof.
  unfold matrix_negate.
  assert (forall k, let m' := fold_left matrix_negate_row (seq 0 k) m in
     mnrows m' = mnrows m /\ mncols m' = mncols m /\
     ((k <= mnrows m)%nat -> forall i, nth i (mrows m') [] = if (i <? k)%nat then map Z.opp (nth i (mrows m) []) else nth i (mrows m) [])) as K.
  { induction k as [|k IH].
    - simpl. repeat split; auto.
    - cbv zeta in *. rewrite seq_S, fold_left_app. cbn [fold_left]. destruct IH as (I1 & I2 & I3).
      rewrite Nat.add_0_l. unfold matrix_negate_row at 1 3 5. cbn [mrows mncols].
      unfold mnrows at 1. cbn [mrows]. rewrite map_nth_length. repeat split; auto.
      intros Hk p. rewrite map_nth_nth. fold (mnrows (fold_left matrix_negate_row (seq 0 k) m)).
      rewrite I1, !I3 by lia. rewrite (proj2 (Nat.ltb_lt k (mnrows m))) by lia. rewrite andb_true_r.
      rewrite Nat.ltb_irrefl.
      destruct (Nat.eqb_spec p k).
      + subst. rewrite (proj2 (Nat.ltb_lt k (S k))) by lia. auto.
      + destruct (Nat.ltb_spec p k), (Nat.ltb_spec p (S k)); auto; lia. }
  destruct (K (mnrows m)) as (_ & _ & E). specialize (E ltac:(lia) i).
  unfold mget. rewrite E. unfold mnrows. destruct (Nat.ltb_spec i (length (mrows m))).
  - rewrite <- (List.map_nth Z.opp). auto.
  - rewrite (nth_overflow (mrows m)) by auto. destruct j; auto.
Qed.

(** ** Interchange *)
Lemma swap_nth_nth {A} (d : A) i j l p : (i < length l)%nat -> (j < length l)%nat ->
  nth p (swap_nth d i j l) d = nth (if (p =? i)%nat then j else if (p =? j)%nat then i else p) l d.
Proof.
  intros Hi Hj. unfold swap_nth. destruct (Nat.eq_dec p j) as [->|N].
  - rewrite nth_set_nth_eq by (rewrite set_nth_length; auto).
    destruct (Nat.eqb_spec j i); subst; auto. rewrite Nat.eqb_refl. auto.
  - rewrite nth_set_nth_neq by auto. destruct (Nat.eqb_spec p i) as [->|N2].
    + rewrite nth_set_nth_eq by auto. auto.
    + rewrite nth_set_nth_neq by auto. destruct (Nat.eqb_spec p j); [lia|auto].
Qed.

Lemma swap_nth_invol {A} (d : A) i j l : (i < length l)%nat -> (j < length l)%nat ->
  swap_nth d i j (swap_nth d i j l) = l.
Proof.
  intros Hi Hj. apply (list_ext_nth d); rewrite !swap_nth_length; auto.
  intros p Hp. rewrite !swap_nth_nth by (rewrite ?swap_nth_length; auto).
  f_equal. destruct (Nat.eqb_spec p i), (Nat.eqb_spec p j); subst;
  repeat match goal with |- context [Nat.eqb ?a ?b] => destruct (Nat.eqb_spec a b); subst end; lia.
Qed.

Lemma wrap32_fits z : fits32 z -> wrap32 z = z.
Proof.
  unfold fits32, wrap32. intros H. rewrite Z.mod_small; lia.
Qed.

Lemma interchange_cols_row_swap c1 c2 r : fits32 (nth c1 r 0) ->
  interchange_cols_row c1 c2 r = swap_nth 0 c1 c2 r.
Proof. intros H. unfold interchange_cols_row, swap_nth. rewrite wrap32_fits; auto. Qed.

Lemma interchange_cols_get m c1 c2 i j : wf_mat m -> (c1 < mncols m)%nat -> (c2 < mncols m)%nat ->
  (i < mnrows m)%nat -> fits32 (mget m i c1) ->
  mget (matrix_interchange_cols m c1 c2) i j =
  mget m i (if (j =? c1)%nat then c2 else if (j =? c2)%nat then c1 else j).
Proof.
  intros Hw H1 H2 Hi Hf. unfold mget in *. unfold matrix_interchange_cols; cbn [mrows].
  assert (length (nth i (mrows m) []) = mncols m) as L by (apply Hw, nth_In; auto).
  rewrite nth_map_row by auto. rewrite interchange_cols_row_swap by auto.
  apply swap_nth_nth; lia.
Qed.

Lemma interchange_step_up j v s : fits32 v -> (j < length s)%nat ->
  interchange_cols_row j (S j) (insert_at j v s) = insert_at (S j) v s.
Proof.
  intros Hf. revert s. induction j; intros s Hj.
  - destruct s as [|w s]; simpl in Hj; [lia|]. unfold interchange_cols_row. simpl.
    rewrite wrap32_fits by auto. auto.
  - destruct s as [|w s]; simpl in Hj; [lia|]. specialize (IHj s ltac:(lia)).
    unfold interchange_cols_row in *. simpl. f_equal. auto.
Qed.

Lemma interchange_step_down j v s : fits32 v -> (j < length s)%nat ->
  interchange_cols_row (S j) j (insert_at (S j) v s) = insert_at j v s.
Proof.
  intros Hf. revert s. induction j; intros s Hj.
  - destruct s as [|w s]; simpl in Hj; [lia|]. unfold interchange_cols_row. simpl.
    rewrite wrap32_fits by auto. destruct s; auto.
  - destruct s as [|w s]; simpl in Hj; [lia|]. specialize (IHj s ltac:(lia)).
    unfold interchange_cols_row in *. simpl in *. f_equal. auto.
Qed.

Lemma fold_interchange m (l : list (nat * nat)) :
  fold_left (fun m p => matrix_interchange_cols m (fst p) (snd p)) l m =
  mkMat (mncols m) (map (fun r => fold_left (fun r p => interchange_cols_row (fst p) (snd p) r) l r) (mrows m)).
Proof.
  revert m. induction l as [|p l IH]; intros m; simpl.
  - rewrite map_id. destruct m; auto.
  - rewrite IH. unfold matrix_interchange_cols; cbn. f_equal. rewrite map_map. auto.
Qed.

Lemma fold_left_map {A B C} (f : A -> B -> A) (g : C -> B) l a :
  fold_left (fun x c => f x (g c)) l a = fold_left f (map g l) a.
Proof. revert a; induction l; simpl; auto. Qed.

(** Moving column c1 to position c2. *)
Lemma move_col_rows m c1 c2 : wf_mat m -> (c1 < mncols m)%nat -> (c2 < mncols m)%nat ->
  (forall r, In r (mrows m) -> fits32 (nth c1 r 0)) ->
  matrix_move_col m c1 c2 =
  mkMat (mncols m) (map (fun r => insert_at c2 (nth c1 r 0) (remove_at c1 r)) (mrows m)).
Proof.
  intros Hw H1 H2 Hf. unfold matrix_move_col. destruct (Nat.ltb_spec c1 c2).
  - rewrite (fold_left_map (fun m p => matrix_interchange_cols m (fst p) (snd p)) (fun j => (j, S j))).
    rewrite fold_interchange. f_equal. apply map_ext_in. intros r Hr.
    rewrite <- (fold_left_map (fun r p => interchange_cols_row (fst p) (snd p) r) (fun j => (j, S j))). cbn [fst snd].
    specialize (Hw r Hr). specialize (Hf r Hr).
    set (v := nth c1 r 0) in *. set (s := remove_at c1 r).
    assert (length s = mncols m - 1)%nat as Ls by (unfold s; rewrite remove_at_length; lia).
    assert (forall k, (c1 + k <= length s)%nat ->
       fold_left (fun r j => interchange_cols_row j (S j) r) (seq c1 k) r = insert_at (c1 + k) v s) as K.
    { induction k as [|k IH]; intros Hk.
      - simpl. rewrite Nat.add_0_r. unfold s, v. symmetry. apply insert_remove. lia.
      - rewrite seq_S, fold_left_app. cbn [fold_left]. rewrite IH by lia.
        rewrite interchange_step_up by (auto; lia). f_equal. lia. }
    rewrite K by lia. f_equal. lia.
  - rewrite (fold_left_map (fun m p => matrix_interchange_cols m (fst p) (snd p)) (fun j => (j, (j - 1)%nat))).
    rewrite fold_interchange. f_equal. apply map_ext_in. intros r Hr.
    rewrite <- (fold_left_map (fun r p => interchange_cols_row (fst p) (snd p) r) (fun j => (j, (j - 1)%nat))). cbn [fst snd].
    specialize (Hw r Hr). specialize (Hf r Hr).
    set (v := nth c1 r 0) in *. set (s := remove_at c1 r).
    assert (length s = mncols m - 1)%nat as Ls by (unfold s; rewrite remove_at_length; lia).
    assert (forall k a, (a + k = c1)%nat ->
       fold_left (fun r j => interchange_cols_row j (j - 1) r) (rev (seq (S a) k)) r = insert_at a v s) as K.
    { induction k as [|k IH]; intros a Ha.
      - simpl. replace a with c1 by lia. unfold s, v. symmetry. apply insert_remove. lia.
      - cbn [seq rev]. rewrite fold_left_app. cbn [fold_left]. rewrite IH by lia.
        replace (S a - 1)%nat with a by lia. apply interchange_step_down; auto. lia. }
    apply K. lia.
Qed.

(** ** Reversal of the rows *)
Lemma reverse_rows_rev m : mrows (matrix_reverse_rows m) = rev (mrows m).
Proof.
  unfold matrix_reverse_rows. set (n := mnrows m).
  assert (forall k, (k <= n / 2)%nat ->
    let m' := fold_left (fun m' i => matrix_swap_rows m' i (n - 1 - i)) (seq 0 k) m in
    length (mrows m') = n /\
    forall p, (p < n)%nat -> nth p (mrows m') [] =
       nth (if (p <? k)%nat || (n - 1 - k <? p)%nat then n - 1 - p else p)%nat (mrows m) []) as K.
  { induction k as [|k IH]; intros Hk.
    - simpl. split; auto. intros p Hp. destruct (Nat.ltb_spec (n - 1 - 0) p); auto. lia.
    - destruct (IH ltac:(lia)) as [I1 I2]. cbv zeta in *.
      rewrite seq_S, fold_left_app. cbn [fold_left]. unfold matrix_swap_rows at 1 3. cbn [mrows].
      rewrite swap_nth_length. split; auto.
      assert (2 * (n / 2) <= n)%nat as Hd by (apply Nat.mul_div_le; lia).
      intros p Hp. rewrite swap_nth_nth by lia.
      rewrite I2.
      2:{ destruct (Nat.eqb_spec p (0 + k)); [lia|]. destruct (Nat.eqb_spec p (n - 1 - (0 + k))); lia. }
      f_equal.
      destruct (Nat.eqb_spec p (0 + k)); [|destruct (Nat.eqb_spec p (n - 1 - (0 + k)))];
      repeat match goal with |- context [Nat.ltb ?a ?b] => destruct (Nat.ltb_spec a b) end; simpl; lia. }
  destruct (K (n / 2)%nat ltac:(lia)) as [K1 K2]. cbv zeta in *.
  apply (list_ext_nth []).
  - rewrite rev_length, K1. auto.
  - rewrite K1. intros p Hp. rewrite K2 by auto. rewrite rev_nth by (fold n; auto).
    fold (mnrows m). fold n.
    assert (n < 2 * S (n / 2))%nat as Hd by (apply Nat.mul_succ_div_gt; lia).
    assert (2 * (n / 2) <= n)%nat as Hd2 by (apply Nat.mul_div_le; lia).
    f_equal.
    repeat match goal with |- context [Nat.ltb ?a ?b] => destruct (Nat.ltb_spec a b) end; simpl; try lia.
Qed.

(** ** Product *)
Lemma fold_sum_dot (f : nat -> Z) ra n s acc :
  fold_left (fun acc k => acc + nth k ra 0 * f k) (seq s n) acc =
  acc + dot (map (fun k => nth k ra 0) (seq s n)) (map f (seq s n)).
Proof.
  revert s acc; induction n; intros s acc; simpl; [lia|]. rewrite IHn. lia.
Qed.

Lemma product_entry ra m1n m2 j : length ra = m1n -> mnrows m2 = m1n ->
  fold_left (fun acc k => acc + nth k ra 0 * mget m2 k j) (seq 0 m1n) 0 = dot ra (coln j (mrows m2)).
Proof.
  intros Hr Hm. rewrite fold_sum_dot. rewrite Z.add_0_l.
  rewrite <- Hr at 1. rewrite map_seq_nth. f_equal.
  unfold mget, coln. rewrite <- Hm. unfold mnrows.
  apply (list_ext_nth 0); rewrite !map_length, seq_length; auto.
  intros i Hi. rewrite (nth_map_seq _ _ i) by auto.
  rewrite nth_indep with (l := map _ _) (d' := (fun v : list Z => nth j v 0) []) by (rewrite map_length; auto).
  rewrite (List.map_nth (fun v => nth j v 0)). auto.
Qed.

Lemma product_vec m1 m2 v : wf_mat m1 -> wf_mat m2 -> mncols m1 = mnrows m2 -> length v = mncols m2 ->
  mat_vec (mrows (matrix_product m1 m2)) v = mat_vec (mrows m1) (mat_vec (mrows m2) v).
Proof.
  intros W1 W2 E Lv. unfold matrix_product, mat_vec at 1 2. cbn [mrows]. rewrite map_map.
  apply map_ext_in. intros ra Hra.
  assert (map (fun j => fold_left (fun acc k => acc + nth k ra 0 * mget m2 k j) (seq 0 (mncols m1)) 0) (seq 0 (mncols m2))
        = map (fun j => dot ra (coln j (mrows m2))) (seq 0 (mncols m2))) as ->.
  { apply map_ext. intros j. apply product_entry; auto. }
  rewrite <- Lv. unfold mat_vec. symmetry.
  apply (dot_map_dot ra (mrows m2) v). rewrite (W1 ra Hra). auto.
Qed.

Lemma product_wf m1 m2 : wf_mat (matrix_product m1 m2) /\ mnrows (matrix_product m1 m2) = mnrows m1 /\
  mncols (matrix_product m1 m2) = mncols m2.
Proof.
  unfold matrix_product, wf_mat, mnrows; cbn [mrows mncols]. split; [|split; auto].
  - intros r Hr. apply in_map_iff in Hr as (ra & <- & _). rewrite map_length, seq_length. auto.
  - apply map_length.
Qed.

(** A matrix is determined by its action. *)
Lemma dot_unit k n (r : list Z) : length r = n -> (k < n)%nat -> dot r (set_nth k 1 (repeat 0 n)) = nth k r 0.
Proof. intros. rewrite dot_comm. rewrite dot_set_nth_zero by auto. lia. Qed.

Lemma row_determined n (r1 r2 : list Z) : length r1 = n -> length r2 = n ->
  (forall v, length v = n -> dot r1 v = dot r2 v) -> r1 = r2.
Proof.
  intros L1 L2 H. apply (list_ext_nth 0); [lia|]. intros i Hi.
  rewrite <- (dot_unit i n r1), <- (dot_unit i n r2) by lia. apply H.
  rewrite set_nth_length, repeat_length. auto.
Qed.

Lemma rows_determined n (l1 l2 : list (list Z)) : (forall r, In r l1 -> length r = n) -> (forall r, In r l2 -> length r = n) ->
  length l1 = length l2 ->
  (forall v, length v = n -> mat_vec l1 v = mat_vec l2 v) -> l1 = l2.
Proof.
  revert l2. induction l1 as [|a l1 IH]; intros [|b l2] H1 H2 L H; simpl in L; try lia; auto. f_equal.
  - apply (row_determined n). apply H1; simpl; auto. apply H2; simpl; auto.
    intros v Hv. specialize (H v Hv). simpl in H. inversion H. auto.
  - apply IH; try lia. intros; apply H1; simpl; auto. intros; apply H2; simpl; auto.
    intros v Hv. specialize (H v Hv). simpl in H. inversion H. auto.
Qed.

Lemma mat_vec_length l v : length (mat_vec l v) = length l.
Proof. apply map_length. Qed.

Lemma product_assoc a b c : wf_mat a -> wf_mat b -> wf_mat c ->
  mncols a = mnrows b -> mncols b = mnrows c ->
  matrix_product (matrix_product a b) c = matrix_product a (matrix_product b c).
Proof.
  intros Wa Wb Wc E1 E2.
  destruct (product_wf a b) as (P1 & P2 & P3). destruct (product_wf b c) as (Q1 & Q2 & Q3).
  destruct (product_wf (matrix_product a b) c) as (R1 & R2 & R3).
  destruct (product_wf a (matrix_product b c)) as (S1 & S2 & S3).
  assert (mrows (matrix_product (matrix_product a b) c) = mrows (matrix_product a (matrix_product b c))) as E.
  { apply (rows_determined (mncols c)).
    - intros r Hr. rewrite <- R3. auto.
    - intros r Hr. rewrite <- Q3, <- S3. auto.
    - unfold mnrows in *. congruence.
    - intros v Hv. rewrite !product_vec; auto; try congruence.
      rewrite mat_vec_length. unfold mnrows in *. congruence. }
  destruct (matrix_product (matrix_product a b) c), (matrix_product a (matrix_product b c)); cbn in *. congruence.
Qed.

Lemma identity_vec n v : length v = n -> mat_vec (mrows (matrix_identity n)) v = v.
Proof.
  intros L. unfold matrix_identity, mat_vec; cbn [mrows]. rewrite map_map.
  etransitivity; [|apply map_seq_nth]. rewrite L. apply map_ext_in. intros i Hi. apply in_seq in Hi.
  rewrite dot_set_nth_zero by lia. lia.
Qed.

Lemma identity_wf n : wf_mat (matrix_identity n) /\ mnrows (matrix_identity n) = n /\ mncols (matrix_identity n) = n.
Proof.
  unfold wf_mat, matrix_identity, mnrows; cbn [mrows mncols]. split; [|split; auto].
  - intros r Hr. apply in_map_iff in Hr as (i & <- & _). rewrite set_nth_length, repeat_length. auto.
  - rewrite map_length, seq_length. auto.
Qed.

Lemma product_identity_l m : wf_mat m -> matrix_product (matrix_identity (mnrows m)) m = m.
Proof.
  intros Hw. destruct (identity_wf (mnrows m)) as (I1 & I2 & I3).
  destruct (product_wf (matrix_identity (mnrows m)) m) as (P1 & P2 & P3).
  assert (mrows (matrix_product (matrix_identity (mnrows m)) m) = mrows m) as E.
  { apply (rows_determined (mncols m)).
    - intros r Hr. rewrite <- P3. auto.
    - auto.
    - unfold mnrows in *. congruence.
    - intros v Hv. rewrite product_vec by auto. apply identity_vec. apply mat_vec_length. }
  destruct (matrix_product _ m), m; cbn in *. congruence.
Qed.

Lemma product_identity_r m : wf_mat m -> matrix_product m (matrix_identity (mncols m)) = m.
Proof.
  intros Hw. destruct (identity_wf (mncols m)) as (I1 & I2 & I3).
  destruct (product_wf m (matrix_identity (mncols m))) as (P1 & P2 & P3).
  assert (mrows (matrix_product m (matrix_identity (mncols m))) = mrows m) as E.
  { apply (rows_determined (mncols m)).
    - intros r Hr. rewrite <- I3, <- P3. auto.
    - auto.
    - unfold mnrows in *. congruence.
    - intros v Hv. rewrite product_vec by (auto; congruence). rewrite identity_vec; auto. }
  destruct (matrix_product m _), m; cbn in *. congruence.
Qed.

(** ** Elimination from a matrix read as homogeneous equalities *)
Lemma gauss_row_eval pos a b x : length a = length b -> length x = length b ->
  (pos < length b)%nat -> nth pos a 0 <> 0 ->
  length (gauss_row pos a b) = length b /\ nth pos (gauss_row pos a b) 0 = 0 /\
  exists f1 f2 : Z, f1 <> 0 /\ (qdot (gauss_row pos a b) x == inject_Z f1 * qdot b x - inject_Z f2 * qdot a x)%Q.
Proof.
  intros Hl Hx Hp Ha. unfold gauss_row.
  destruct (Z.eqb_spec (nth pos b 0) 0) as [E|E].
  - repeat split; auto. exists 1, 0. split; [lia|]. rewrite inject_Z_0, inject_Z_1. ring.
  - set (pa := nth pos a 0) in *. set (pb := nth pos b 0) in *.
    assert (Z.abs pa <> 0 /\ Z.abs pb <> 0) as [Na Nb] by lia.
    destruct (lcm_spec (Z.abs pa) (Z.abs pb) Na Nb) as (ka & kb & E1 & E2 & E3).
    set (l := lcm (Z.abs pa) (Z.abs pb)) in *.
    assert (Z.quot l pa * pa = l) as Q1.
    { assert (exists q, l = q * pa) as [q ->] by (destruct (Z.abs_spec pa) as [[? ->]|[? ->]] in E1; [exists ka|exists (- ka)]; lia).
      rewrite Z.quot_mul by lia. auto. }
    assert (Z.quot l pb * pb = l) as Q2.
    { assert (exists q, l = q * pb) as [q ->] by (destruct (Z.abs_spec pb) as [[? ->]|[? ->]] in E2; [exists kb|exists (- kb)]; lia).
      rewrite Z.quot_mul by lia. auto. }
    set (f1 := Z.quot l pb) in *. set (f2 := Z.quot l pa) in *.
    assert (f1 <> 0) by (intros X; rewrite X in Q2; lia).
    split; [|split].
    + rewrite zip_with_length; lia.
    + rewrite (nth_zip_with (fun vb va => vb * f1 - va * f2) pos b a 0) by lia. fold pa pb. lia.
    + exists f1, f2. split; auto. clearbody f1 f2. clear - Hl Hx.
      revert b x Hl Hx. induction a as [|w a IH]; intros [|v b] [|q x] Hl Hx; simpl in *; try lia.
      * ring.
      * rewrite IH by lia. unfold Z.sub.
        rewrite inject_Z_plus, inject_Z_opp, !inject_Z_mult. ring.
Qed.

Lemma gaussian_var_wf m pos : wf_mat m -> (pos < mncols m)%nat ->
  wf_mat (gaussian_eliminate_var m pos) /\ mncols (gaussian_eliminate_var m pos) = (mncols m - 1)%nat.
Proof.
  intros Hw Hp. unfold gaussian_eliminate_var.
  assert (forall l, (forall r, In r l -> length r = mncols m) ->
    wf_mat (matrix_remove_col (mkMat (mncols m) l) pos) /\ mncols (matrix_remove_col (mkMat (mncols m) l) pos) = (mncols m - 1)%nat) as K.
  { intros l Hl. unfold wf_mat, matrix_remove_col; cbn [mrows mncols]. split; auto.
    intros r Hr. apply in_map_iff in Hr as (r0 & <- & H0). rewrite remove_at_length; rewrite (Hl r0 H0); lia. }
  destruct (first_nonzero pos 0 (mrows m)) as [r|] eqn:E.
  - apply K. intros r0 Hr0. apply in_map_iff in Hr0 as (b & <- & Hb).
    pose proof (first_nonzero_spec pos 0 (mrows m)) as F. rewrite E in F. destruct F as (p' & F1 & F2 & F3). simpl in F1. subst p'.
    apply In_remove_at in Hb. unfold gauss_row. destruct (_ =? 0); auto.
    rewrite zip_with_length; auto. rewrite (Hw b Hb). symmetry. apply Hw, nth_In. lia.
  - destruct m as [n l]. apply K. exact Hw.
Qed.

Lemma gaussian_var_exact m pos x : wf_mat m -> (pos < mncols m)%nat -> S (length x) = mncols m ->
  (eqsol (mrows (gaussian_eliminate_var m pos)) x <-> exists v, eqsol (mrows m) (insert_at pos v x)).
Proof.
  intros Hw Hp Hx. unfold gaussian_eliminate_var.
  assert (forall r v, length r = mncols m -> nth pos r 0 = 0 ->
      (qdot r (insert_at pos v x) == qdot (remove_at pos r) x)%Q) as Z.
  { intros r v Lr Er. rewrite qdot_insert_point by lia. rewrite Er, inject_Z_0. ring. }
  pose proof (first_nonzero_spec pos 0 (mrows m)) as F.
  destruct (first_nonzero pos 0 (mrows m)) as [p|] eqn:E.
  - destruct F as (p' & F1 & F2 & F3). simpl in F1. subst p'.
    set (a := nth p (mrows m) []) in *.
    assert (length a = mncols m) as La by (apply Hw, nth_In; lia).
    unfold matrix_remove_col; cbn [mrows].
    assert (forall r, In r (mrows m) <-> r = a \/ In r (remove_at p (mrows m))) as Sp.
    { intros r. rewrite <- (insert_remove p [] (mrows m)) at 1 by lia. rewrite In_insert_at. reflexivity. }
    split.
    + intros H. exists (- qdot (remove_at pos a) x / inject_Z (nth pos a 0%Z))%Q.
      set (v := (- qdot (remove_at pos a) x / inject_Z (nth pos a 0%Z))%Q).
      assert (~ (inject_Z (nth pos a 0%Z) == 0)%Q) as Nz.
      { intro X. apply (proj1 (inject_Z_eq0 _)) in X. auto. }
      assert (qdot a (insert_at pos v x) == 0)%Q as Ea.
      { rewrite qdot_insert_point by lia. unfold v. field. auto. }
      intros r Hr. apply Sp in Hr as [->|Hr]; auto.
      assert (length r = mncols m) as Lr by (apply Hw; eapply In_remove_at; eauto).
      destruct (gauss_row_eval pos a r (insert_at pos v x)) as (G1 & G2 & f1 & f2 & G3 & G4);
        try rewrite insert_at_length; try lia; auto.
      assert (qdot (gauss_row pos a r) (insert_at pos v x) == 0)%Q as G5.
      { rewrite Z by (auto; lia). apply H. apply in_map. apply in_map. auto. }
      rewrite G4, Ea in G5.
      assert (inject_Z f1 * qdot r (insert_at pos v x) == 0)%Q as G6 by (rewrite <- G5; ring).
      apply Qmult_integral in G6 as [G6|G6]; auto. apply (proj1 (inject_Z_eq0 _)) in G6. lia.
    + intros (v & H) r Hr. apply in_map_iff in Hr as (g & <- & Hg). apply in_map_iff in Hg as (b & <- & Hb).
      assert (In b (mrows m)) as Hb' by (eapply In_remove_at; eauto).
      assert (length b = mncols m) as Lb by (apply Hw; auto).
      destruct (gauss_row_eval pos a b (insert_at pos v x)) as (G1 & G2 & f1 & f2 & G3 & G4);
        try rewrite insert_at_length; try lia; auto.
      rewrite <- (Z _ v) by (auto; lia). rewrite G4. rewrite (H b Hb').
      rewrite (H a). ring. apply Sp; auto.
  - unfold matrix_remove_col; cbn [mrows].
    split.
    + intros H. exists 0%Q. intros r Hr. rewrite Z by auto. apply H. apply in_map. auto.
    + intros (v & H) r Hr. apply in_map_iff in Hr as (b & <- & Hb). rewrite <- (Z b v) by auto. auto.
Qed.

Lemma insert_at_firstn {A} pos (v : A) vs x : (pos <= length x)%nat ->
  insert_at pos v (firstn pos x ++ vs ++ skipn pos x) = firstn pos x ++ (v :: vs) ++ skipn pos x.
Proof.
  intros H. rewrite insert_at_spec.
  - rewrite firstn_app, skipn_app, firstn_firstn, Nat.min_id, firstn_length_le by auto.
    rewrite Nat.sub_diag, (skipn_all2 (firstn pos x)) by (rewrite firstn_length_le; auto). simpl. rewrite app_nil_r. auto.
  - rewrite app_length, firstn_length_le by auto. lia.
Qed.

Lemma gaussian_exact n m start x : wf_mat m -> (start + n <= mncols m)%nat -> (length x + n = mncols m)%nat ->
  (eqsol (mrows (gaussian_eliminate m start n)) x <->
   exists vs, length vs = n /\ eqsol (mrows m) (firstn start x ++ vs ++ skipn start x)).
Proof.
  revert m x. induction n as [|n IH]; intros m x Hw Hs Hx; simpl.
  - split.
    + intros H. exists []. split; auto. simpl. rewrite firstn_skipn. auto.
    + intros ([|] & Hv & H); [|discriminate]. simpl in H. rewrite firstn_skipn in H. auto.
  - destruct (gaussian_var_wf m start Hw) as [W1 W2]; [lia|].
    rewrite IH by (auto; lia). split.
    + intros (vs & Hv & H). rewrite gaussian_var_exact in H; auto; try lia.
      2:{ rewrite !app_length, firstn_length, skipn_length. lia. }
      destruct H as (v & H). exists (v :: vs). split; [simpl; lia|].
      rewrite insert_at_firstn in H by lia. auto.
    + intros ([|v vs] & Hv & H); [discriminate|]. simpl in Hv. exists vs. split; [lia|].
      rewrite gaussian_var_exact; auto; try lia.
      2:{ rewrite !app_length, firstn_length, skipn_length. lia. }
      exists v. rewrite insert_at_firstn by lia. auto.
Qed.
