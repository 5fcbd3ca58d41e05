(** * Effects of constraint editing functions on the set of points. *)
From Coq Require Import ZArith QArith List Bool Lia Lqa Permutation.
From Verif Require Import SpecLinear VecProofs MathModel GcdProofs ConstraintsModel SimplifyProofs FMProofs FarkasProofs.
Import ListNotations.
Open Scope Z_scope.

Lemma mem_app nc l1 l2 x :
  mem (mkCst nc (l1 ++ l2)) x <-> mem (mkCst nc l1) x /\ (forall r, In r l2 -> holds x r).
Proof.
  unfold mem; cbn [ncols rows]. split.
  - intros [H1 H2]. repeat split; auto; intros; apply H2; apply in_or_app; auto.
  - intros [[H1 H2] H3]. split; auto. intros r Hr. apply in_app_or in Hr. destruct Hr; auto.
Qed.

Lemma add_row2 c eq v a w b :
  set_last w b (set_last v a (add_zero_row eq c)) =
  mkCst (ncols c) (rows c ++ [mkRow eq (set_nth w b (set_nth v a (repeat 0 (ncols c))))]).
Proof.
  unfold set_last, add_zero_row. cbn [rows ncols]. rewrite map_nth_last.
  rewrite map_nth_last. reflexivity.
Qed.

Lemma dot_set_nth_zero k v n y : (k < n)%nat -> length y = n ->
  dot (set_nth k v (repeat 0 n)) y = v * nth k y 0.
Proof.
  revert n y; induction k; destruct n, y; simpl; intros; try lia.
  - rewrite dot_repeat0_l. ring.
  - apply IHk; lia.
Qed.

Lemma aff_two n v a b x : (v < n - 1)%nat -> S (length x) = n ->
  aff (set_nth (n - 1) b (set_nth v a (repeat 0 n))) x = a * nth v x 0 + b.
Proof.
  intros Hv Hx. unfold aff. rewrite dot_set_nth by (rewrite ?set_nth_length, ?repeat_length, ?app_length; simpl; lia).
  rewrite dot_set_nth_zero by (rewrite ?app_length; simpl; lia).
  rewrite app_nth1 by lia. rewrite app_nth2 by lia.
  replace (n - 1 - length x)%nat with 0%nat by lia. 
  rewrite nth_set_nth_neq by lia. rewrite nth_repeat. simpl. ring.
Qed.

Lemma aff_two_const n a x : (1 <= n)%nat -> S (length x) = n ->
  aff (set_nth (n - 1) a (repeat 0 n)) x = a.
Proof.
  intros. unfold aff. rewrite dot_set_nth_zero by (rewrite ?app_length; simpl; lia).
  rewrite app_nth2 by lia. replace (n - 1 - length x)%nat with 0%nat by lia. simpl. ring.
Qed.

Lemma add_row2_mem c eq v a b x : (v < ncols c - 1)%nat ->
  mem (set_last (ncols c - 1) b (set_last v a (add_zero_row eq c))) x <->
  mem c x /\ (if eq then a * nth v x 0 + b = 0 else 0 <= a * nth v x 0 + b).
Proof.
  intros Hv. rewrite add_row2. rewrite mem_app. unfold mem; cbn [ncols rows].
  split; intros [[H1 H2] H3]; repeat split; auto.
  - specialize (H3 _ (or_introl eq_refl)). unfold holds in H3. cbn [is_eq coef] in H3.
    rewrite aff_two in H3 by auto. auto.
  - intros r [<-|[]]. unfold holds. cbn [is_eq coef]. rewrite aff_two by auto. auto.
Qed.

Lemma add_lb_mem c v l x : (v < ncols c - 1)%nat ->
  mem (add_lb c v l) x <-> mem c x /\ l <= nth v x 0.
Proof.
  intros Hv. unfold add_lb, add_inequality.
  rewrite add_row2_mem by auto. split; intros [? ?]; split; auto; lia.
Qed.

Lemma add_ub_mem c v u x : (v < ncols c - 1)%nat ->
  mem (add_ub c v u) x <-> mem c x /\ nth v x 0 <= u.
Proof.
  intros Hv. unfold add_ub, add_inequality.
  rewrite add_row2_mem by auto. split; intros [? ?]; split; auto; lia.
Qed.

Lemma set_var_mem c v u x : (v < ncols c - 1)%nat ->
  mem (set_var c v u) x <-> mem c x /\ nth v x 0 = u.
Proof.
  intros Hv. unfold set_var, add_equality.
  rewrite add_row2_mem by auto. split; intros [? ?]; split; auto; lia.
Qed.

Lemma cst_add_mem c1 c2 x : ncols c1 = ncols c2 ->
  mem (cst_add c1 c2) x <-> mem c1 x /\ mem c2 x.
Proof.
  intros E. unfold cst_add. rewrite mem_app. unfold mem. cbn [ncols rows].
  rewrite E. tauto.
Qed.

Lemma universe_mem n x : mem (universe n) x <-> S (length x) = n.
Proof. unfold mem, universe; cbn. split; [tauto|]. intros; split; auto. intros r []. Qed.

Lemma empty_mem n x : (1 <= n)%nat -> ~ mem (empty_cst n) x.
Proof.
  intros Hn [H1 H2]. unfold empty_cst, add_equality, add_zero_row, set_last, universe in *. cbn in *.
  specialize (H2 _ (or_introl eq_refl)). unfold holds in H2. cbn [is_eq coef] in H2.
  rewrite aff_two_const in H2 by auto. lia.
Qed.

Lemma nth_error_remove_split {A} pos (l : list A) r : nth_error l pos = Some r ->
  forall x, In x l <-> x = r \/ In x (remove_at pos l).
Proof.
  revert pos; induction l as [|a l IH]; destruct pos; simpl; intros H x; try discriminate.
  - inversion H; subst. split; intros [?|?]; subst; auto.
  - rewrite (IH pos H x). split; intros [?|[?|?]]; auto.
Qed.

Lemma remove_row_mem c pos r x : nth_error (rows c) pos = Some r ->
  mem c x <-> mem (remove_row c pos) x /\ holds x r.
Proof.
  intros H. unfold mem, remove_row; cbn [ncols rows].
  pose proof (nth_error_remove_split pos (rows c) r H) as E. split.
  - intros [H1 H2]. repeat split; auto; intros; apply H2; apply E; auto.
  - intros [[H1 H2] H3]. split; auto. intros s Hs. apply E in Hs. destruct Hs; subst; auto.
Qed.

Lemma select_row_mem c pos r x : nth_error (rows c) pos = Some r ->
  mem (select_row c pos) x <-> S (length x) = ncols c /\ holds x r.
Proof.
  intros H. unfold mem, select_row; cbn [ncols rows]. rewrite H. split.
  - intros [H1 H2]. split; auto. apply H2; simpl; auto.
  - intros [H1 H2]. split; auto. intros s [<-|[]]; auto.
Qed.

Lemma holds_insert pos v r x : (pos <= length x)%nat -> length (coef r) = S (length x) ->
  holds (insert_at pos v x) (map_coef (insert_at pos 0) r) <-> holds x r.
Proof.
  intros Hp Hl. unfold holds, map_coef; cbn [is_eq coef].
  rewrite aff_insert_both by lia. rewrite Z.mul_0_l, Z.add_0_l. tauto.
Qed.

Lemma add_dim_mem c pos v x : wf_cst c -> (pos <= length x)%nat ->
  mem (add_dim c pos) (insert_at pos v x) <-> mem c x.
Proof.
  intros [Hn Hw] Hp. unfold mem, add_dim; cbn [ncols rows]. rewrite insert_at_length. split.
  - intros [H1 H2]. split; [lia|]. intros r Hr. apply (holds_insert pos v).
    auto. rewrite Hw; auto; lia. apply H2. apply in_map; auto.
  - intros [H1 H2]. split; [lia|]. intros r Hr. apply in_map_iff in Hr as (s & <- & Hs).
    apply holds_insert; auto. rewrite Hw; auto.
Qed.

Lemma add_dim_wf c pos : wf_cst c -> wf_cst (add_dim c pos).
Proof.
  intros [Hn Hw]. split; cbn [add_dim ncols rows]. lia.
  intros r Hr. apply in_map_iff in Hr as (s & <- & Hs). simpl. rewrite insert_at_length, Hw; auto.
Qed.

Lemma map_id_in {A} (f : A -> A) l : (forall x, In x l -> f x = x) -> map f l = l.
Proof. induction l; simpl; intros; f_equal; auto. Qed.

Lemma remove_add_dim c pos : wf_cst c -> (pos < ncols c)%nat -> remove_dim (add_dim c pos) pos = c.
Proof.
  intros [Hn Hw] Hp. unfold remove_dim, add_dim; cbn [ncols rows]. destruct c as [n l]; cbn in *.
  f_equal; [lia|]. rewrite map_map. apply map_id_in. intros r Hr.
  unfold map_coef; cbn. rewrite remove_insert by (rewrite Hw; auto; lia). symmetry; apply row_eta.
Qed.

Lemma remove_dim_mem c pos x : wf_cst c -> (pos < ncols c - 1)%nat ->
  mem (remove_dim c pos) x <-> mem c (insert_at pos 0 x).
Proof.
  intros [Hn Hw] Hp. unfold mem, remove_dim; cbn [ncols rows]. rewrite insert_at_length.
  assert (forall r, In r (rows c) -> S (length x) = (ncols c - 1)%nat ->
            (holds (insert_at pos 0 x) r <-> holds x (map_coef (remove_at pos) r))) as K.
  { intros r Hr Hx. unfold holds, map_coef; cbn [is_eq coef].
    rewrite aff_insert_point by (rewrite ?Hw; auto; lia).
    rewrite Z.mul_0_r, Z.add_0_l. tauto. }
  split; intros [H1 H2]; split; try lia.
  - intros r Hr. apply K; auto. apply H2. apply in_map; auto.
  - intros r Hr. apply in_map_iff in Hr as (s & <- & Hs). apply K; auto. lia.
Qed.

Lemma map_nth_other {A} pos (f : A -> A) l x : In x (map_nth pos f l) ->
  In x l \/ exists y, nth_error l pos = Some y /\ x = f y.
Proof.
  unfold map_nth. destruct (nth_error l pos) as [y|] eqn:E; auto.
  intros H. assert (In x l \/ x = f y) as [?|?]; eauto.
  clear E. revert pos H. generalize (f y); intros z.
  induction l; destruct pos; simpl; intros; auto.
  - destruct H; auto.
  - destruct H; auto. destruct (IHl _ H); auto.
Qed.

Lemma map_nth_spec {A} pos (f : A -> A) l r : nth_error l pos = Some r ->
  forall x, In x (map_nth pos f l) <-> x = f r \/ In x (remove_at pos l).
Proof.
  unfold map_nth. intros H. rewrite H. revert pos H; induction l as [|a l IH]; destruct pos; simpl; intros H x; try discriminate.
  - inversion H; subst. split; intros [?|?]; subst; auto.
  - rewrite (IH pos H x). split; intros [?|[?|?]]; auto.
Qed.

Lemma map_nth_mem c pos f r x : nth_error (rows c) pos = Some r ->
  mem (mkCst (ncols c) (map_nth pos f (rows c))) x <->
  mem (remove_row c pos) x /\ holds x (f r).
Proof.
  intros H. unfold mem, remove_row; cbn [ncols rows].
  pose proof (map_nth_spec pos f (rows c) r H) as E. split.
  - intros [H1 H2]. repeat split; auto; intros; apply H2; apply E; auto.
  - intros [[H1 H2] H3]. split; auto. intros s Hs. apply E in Hs. destruct Hs; subst; auto.
Qed.

Lemma zero_row_mem c pos r x : nth_error (rows c) pos = Some r ->
  mem (zero_row c pos) x <-> mem (remove_row c pos) x.
Proof.
  intros H. unfold zero_row. rewrite (map_nth_mem c pos _ r x H).
  assert (holds x (map_coef (fun _ => repeat 0 (ncols c)) r)); [|tauto].
  apply holds_all_zero. simpl. apply all_zero_spec. intros v Hv. apply repeat_spec in Hv. auto.
Qed.

Lemma aff_map_opp r x : aff (map Z.opp r) x = - aff r x.
Proof. apply dot_map_opp. Qed.

Lemma negate_row_mem c pos r x : nth_error (rows c) pos = Some r -> is_eq r = false ->
  mem (negate_row c pos) x <-> mem (remove_row c pos) x /\ aff (coef r) x <= 0.
Proof.
  intros H He. unfold negate_row. rewrite (map_nth_mem c pos _ r x H).
  unfold holds, map_coef; cbn [is_eq coef]. rewrite He, aff_map_opp. split; intros [? ?]; split; auto; lia.
Qed.

(** ** Column interchange *)
Lemma swap_nth_length {A} (d : A) i j l : length (swap_nth d i j l) = length l.
Proof. unfold swap_nth. rewrite !set_nth_length. auto. Qed.

Lemma dot_set_both i u v a x : (i < length a)%nat -> length x = length a ->
  dot (set_nth i u a) (set_nth i v x) = dot a x - nth i a 0 * nth i x 0 + u * v.
Proof.
  revert a x; induction i; destruct a, x; simpl; intros; try lia. rewrite IHi by lia. lia.
Qed.

Lemma dot_swap a x i j : (i < length a)%nat -> (j < length a)%nat -> length x = length a ->
  dot (swap_nth 0 i j a) (swap_nth 0 i j x) = dot a x.
Proof.
  intros Hi Hj Hl. unfold swap_nth.
  destruct (Nat.eq_dec i j) as [->|N].
  - assert (forall (l : list Z), (j < length l)%nat -> set_nth j (nth j l 0) (set_nth j (nth j l 0) l) = l) as E.
    { clear. intros l; revert j. induction l; destruct j; simpl; intros; auto; try lia. f_equal. apply IHl; lia. }
    rewrite !E by lia. auto.
  - rewrite !dot_set_both by (rewrite ?set_nth_length; lia).
    rewrite !(nth_set_nth_neq i j) by lia. ring.
Qed.

Lemma swap_nth_app i j (l l' : list Z) : (i < length l)%nat -> (j < length l)%nat ->
  swap_nth 0 i j (l ++ l') = swap_nth 0 i j l ++ l'.
Proof.
  intros Hi Hj. unfold swap_nth.
  assert (forall k v (a b : list Z), (k < length a)%nat -> set_nth k v (a ++ b) = set_nth k v a ++ b) as E.
  { clear. intros k v a; revert k; induction a; destruct k; simpl; intros; try lia; auto. f_equal. apply IHa. lia. }
  rewrite !app_nth1 by lia. rewrite !E by (rewrite ?set_nth_length; lia). auto.
Qed.

Lemma interchange_cols_mem c i j x : wf_cst c -> (i < ncols c - 1)%nat -> (j < ncols c - 1)%nat ->
  mem (interchange_cols c i j) (swap_nth 0 i j x) <-> mem c x.
Proof.
  intros [Hn Hw] Hi Hj. unfold interchange_cols.
  destruct (Nat.eqb_spec i j) as [->|N].
  - unfold mem. rewrite swap_nth_length.
    assert (S (length x) = ncols c -> swap_nth 0 j j x = x) as E.
    { intros H1. unfold swap_nth. assert (j < length x)%nat as Hl by lia. revert Hl; clear.
      revert j; induction x; destruct j; simpl; intros; auto; try lia; f_equal; apply IHx; lia. }
    split; intros [H1 H2]; split; auto; rewrite E in * by auto; auto.
  - unfold mem; cbn [ncols rows]. rewrite swap_nth_length.
    assert (forall r, In r (rows c) -> S (length x) = ncols c ->
       (holds (swap_nth 0 i j x) (map_coef (swap_nth 0 i j) r) <-> holds x r)) as K.
    { intros r Hr Hx. unfold holds, map_coef; cbn [is_eq coef]. unfold aff.
      rewrite <- swap_nth_app by lia.
      rewrite dot_swap by (rewrite ?app_length, ?Hw; simpl; auto; lia). tauto. }
    split; intros [H1 H2]; split; auto.
    + intros r Hr. apply K; auto. apply H2. apply in_map; auto.
    + intros r Hr. apply in_map_iff in Hr as (s & <- & Hs). apply K; auto.
Qed.

(** ** Half-spaces *)
Lemma half_spaces h a x : rows h = [mkRow true a] -> wf_cst h -> S (length x) = ncols h ->
  (mem (non_negative_half_space h) x <-> 0 <= aff a x) /\
  (mem (negative_half_space h) x <-> aff a x < 0).
Proof.
  intros Hr [Hn Hw] Hx. rewrite Hr in Hw. specialize (Hw _ (or_introl eq_refl)). cbn in Hw.
  unfold non_negative_half_space, negative_half_space, mem; cbn [ncols rows]. rewrite Hr. cbn.
  assert (aff (set_nth (ncols h - 1) (nth (ncols h - 1) (map Z.opp a) 0 - 1) (map Z.opp a)) x = - aff a x - 1) as E.
  { unfold aff. rewrite dot_set_nth by (rewrite ?map_length, ?app_length; simpl; lia).
    rewrite dot_map_opp. rewrite app_nth2 by lia. replace (ncols h - 1 - length x)%nat with 0%nat by lia.
    simpl. lia. }
  split; split.
  - intros [_ H]. specialize (H _ (or_introl eq_refl)). auto.
  - intros H. split; auto. intros r [<-|[]]. auto.
  - intros [_ H]. specialize (H _ (or_introl eq_refl)). unfold holds in H. cbn [is_eq coef] in H.
    rewrite E in H. lia.
  - intros H. split; auto. intros r [<-|[]]. unfold holds. cbn [is_eq coef]. rewrite E. lia.
Qed.

(** ** shift_dim *)
Lemma map_seq_nth (l : list Z) : map (fun j => nth j l 0) (seq 0 (length l)) = l.
Proof.
  induction l as [|a l IH]; simpl; auto. f_equal. rewrite <- seq_shift, map_map. auto.
Qed.

Lemma dot_map_seq_sub n (f g : nat -> Z) y : length y = n ->
  dot (map (fun j => f j - g j) (seq 0 n)) y =
  dot (map f (seq 0 n)) y - dot (map g (seq 0 n)) y.
Proof.
  revert n f g; induction y as [|v y IH]; intros n f g H; destruct n; simpl in *; try lia.
  rewrite <- !seq_shift, !map_map. rewrite IH by lia. ring.
Qed.

Lemma shift_row_aff n pos r func x : length r = n -> length func = n -> S (length x) = n ->
  (pos < n - 1)%nat -> nth pos func 0 = 0 ->
  aff (map (fun j => if (j =? pos)%nat then nth j r 0
                     else nth j r 0 - nth pos r 0 * nth j func 0) (seq 0 n)) x
  = aff r x - nth pos r 0 * aff func x.
Proof.
  intros Hr Hf Hx Hp H0. unfold aff.
  assert (map (fun j => if (j =? pos)%nat then nth j r 0
                     else nth j r 0 - nth pos r 0 * nth j func 0) (seq 0 n)
          = map (fun j => nth j r 0 - nth pos r 0 * nth j func 0) (seq 0 n)) as ->.
  { apply map_ext. intros j. destruct (Nat.eqb_spec j pos); auto. subst. rewrite H0. ring. }
  rewrite dot_map_seq_sub by (rewrite app_length; simpl; lia).
  rewrite <- Hr at 1. rewrite map_seq_nth.
  rewrite <- (map_map (fun j => nth j func 0) (Z.mul (nth pos r 0))).
  rewrite <- Hf, map_seq_nth. rewrite dot_map_mul. auto.
Qed.

Lemma aff_set_point r x pos v : (pos < length x)%nat -> length r = S (length x) ->
  aff r (set_nth pos v x) = aff r x + nth pos r 0 * (v - nth pos x 0).
Proof.
  intros Hp Hl. unfold aff.
  replace (set_nth pos v x ++ [1]) with (set_nth pos v (x ++ [1])).
  2:{ clear Hl. revert pos Hp; induction x; destruct pos; simpl; intros; try lia; auto. f_equal. apply IHx. lia. }
  rewrite dot_comm, dot_set_nth by (rewrite ?app_length; simpl; lia).
  rewrite dot_comm. rewrite app_nth1 by lia. ring.
Qed.

(** Shifting: [x] is in the result iff the point moved back by [func] is in [c]. *)
Lemma shift_dim_mem c pos func x : wf_cst c -> length func = ncols c -> nth pos func 0 = 0 ->
  (pos < ncols c - 1)%nat -> S (length x) = ncols c ->
  mem (shift_dim c pos func) (set_nth pos (nth pos x 0 + aff func x) x) <-> mem c x.
Proof.
  intros [Hn Hw] Hf H0 Hp Hx. unfold mem, shift_dim; cbn [ncols rows]. rewrite set_nth_length.
  assert (forall r, In r (rows c) ->
    (holds (set_nth pos (nth pos x 0 + aff func x) x)
       (map_coef (fun r => map (fun j => if (j =? pos)%nat then nth j r 0
                     else nth j r 0 - nth pos r 0 * nth j func 0) (seq 0 (ncols c))) r)
     <-> holds x r)) as K.
  { intros r Hr. unfold holds, map_coef; cbn [is_eq coef].
    rewrite shift_row_aff by (rewrite ?set_nth_length; auto).
    rewrite !aff_set_point by (rewrite ?Hw; auto; lia).
    rewrite H0. replace (aff (coef r) x + nth pos (coef r) 0 * (nth pos x 0 + aff func x - nth pos x 0) -
       nth pos (coef r) 0 * (aff func x + 0 * (nth pos x 0 + aff func x - nth pos x 0))) with (aff (coef r) x) by ring.
    tauto. }
  split; intros [H1 H2]; split; auto.
  - intros r Hr. apply K; auto. apply H2. apply in_map; auto.
  - intros r Hr. apply in_map_iff in Hr as (s & <- & Hs). apply K; auto.
Qed.

(** ** Conversions *)
Lemma matrix_round_trip c : wf_cst c -> from_matrix (to_matrix c) = c.
Proof.
  intros [_ Hw]. unfold from_matrix, to_matrix; cbn [mncols mrows]. destruct c as [n l]; cbn in *.
  rewrite Nat.sub_0_r. f_equal. rewrite map_map. apply map_id_in. intros r Hr. cbn.
  rewrite firstn_all2 by (rewrite Hw; auto). destruct r as [[] co]; auto.
Qed.

Lemma matrix_round_trip' m : wf_mat m -> (1 <= mncols m)%nat ->
  (forall r, In r (mrows m) -> nth 0 r 0 = 0 \/ nth 0 r 0 = 1) ->
  to_matrix (from_matrix m) = m.
Proof.
  intros Hw Hn Hr. unfold from_matrix, to_matrix; cbn [ncols rows]. destruct m as [n l]; cbn in *.
  f_equal; [lia|]. rewrite map_map. apply map_id_in. intros r Hin. cbn.
  specialize (Hr r Hin). specialize (Hw r Hin). cbn in Hw. destruct r as [|v r]; [simpl in Hw; lia|].
  simpl. rewrite firstn_all2 by (simpl in *; lia).
  simpl in Hr. destruct Hr as [Hr|Hr]; rewrite Hr; auto.
Qed.

(** ** Row normalisation is a no-op *)
Lemma fold_left_id {A B} (f : A -> B -> A) l a : (forall b, In b l -> f a b = a) -> fold_left f l a = a.
Proof. induction l; simpl; intros; auto. rewrite H by auto. auto. Qed.

Lemma normalize_row_id c pos : normalize_row c pos = c.
Proof.
  unfold normalize_row. apply fold_left_id. intros i Hi. apply in_seq in Hi.
  destruct (_ =? 0); auto. destruct (Nat.eqb_spec i (nrows c)); auto. lia.
Qed.

Lemma matrix_normalize_row_id m pos : matrix_normalize_row m pos = m.
Proof.
  unfold matrix_normalize_row. apply fold_left_id. intros i Hi. apply in_seq in Hi.
  destruct (_ =? 0); auto. destruct (Nat.eqb_spec i (mnrows m)); auto. lia.
Qed.

(** ** Lists *)
Lemma umem_app l1 l2 x : umem (l1 ++ l2) x <-> umem l1 x \/ umem l2 x.
Proof.
  unfold umem. split.
  - intros (c & Hc & Hx). apply in_app_or in Hc. destruct Hc; eauto.
  - intros [(c & Hc & Hx)|(c & Hc & Hx)]; exists c; split; auto; apply in_or_app; auto.
Qed.

Lemma copy_list_src dest src : copy_list dest src = src.
Proof. revert dest; induction src; destruct dest; simpl; auto. f_equal; auto. Qed.

Lemma is_empty_correct empty1 l :
  (forall c, In c l -> (empty1 c = true <-> forall x, ~ mem c x)) ->
  is_empty empty1 l = true <-> (forall x, ~ umem l x).
Proof.
  induction l as [|c l IH]; intros H; simpl.
  - split; auto. intros _ x (c & [] & _).
  - specialize (IH ltac:(intros; apply H; simpl; auto)).
    destruct (empty1 c) eqn:E; simpl.
    + rewrite IH. pose proof (proj1 (H c (or_introl eq_refl)) E) as E1. unfold umem. split.
      * intros K x (d & [<-|Hd] & Hx). eapply E1; eauto. eapply K; eauto.
      * intros K x (d & Hd & Hx). apply (K x). exists d; simpl; auto.
    + split; [discriminate|]. intros K. exfalso.
      assert (empty1 c = true); [|congruence]. apply H; [simpl; auto|].
      intros x Hx. apply (K x). exists c; simpl; auto.
Qed.
