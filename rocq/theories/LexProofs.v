(** * Lexicographic order: lemmas. *)
From Coq Require Import ZArith List Bool Lia Permutation.
From Verif Require Import SpecLinear MathModel VecProofs.
Import ListNotations.
Open Scope Z_scope.

(** First non-zero entry exists and is positive. *)
Fixpoint lexpos (l : list Z) : Prop :=
  match l with
  | [] => False
  | x :: l' => 0 < x \/ (x = 0 /\ lexpos l')
  end.
Definition zeros (l : list Z) : Prop := forall x, In x l -> x = 0.
Definition nonneg (l : list Z) : Prop := forall x, In x l -> 0 <= x.

Lemma lexlt_pos a b : length a = length b -> lexlt a b <-> lexpos (zip_with Z.sub b a).
Proof.
  revert b; induction a; destruct b; simpl; intros; try lia; try tauto.
  rewrite IHa by lia. split; intros [H1|[H1 H2]]; [left|right|left|right]; try split; try lia; auto.
Qed.

Lemma zeros_cons x l : zeros (x :: l) <-> x = 0 /\ zeros l.
Proof.
  unfold zeros; simpl. split. intros H; split; auto. intros [H1 H2] y [<-|]; auto.
Qed.
Lemma zeros_app a b : zeros (a ++ b) <-> zeros a /\ zeros b.
Proof. unfold zeros. setoid_rewrite in_app_iff. firstorder. Qed.
Lemma nonneg_cons x l : nonneg (x :: l) <-> 0 <= x /\ nonneg l.
Proof.
  unfold nonneg; simpl. split. intros H; split; auto. intros [H1 H2] y [<-|]; auto.
Qed.
Lemma nonneg_app a b : nonneg (a ++ b) <-> nonneg a /\ nonneg b.
Proof. unfold nonneg. setoid_rewrite in_app_iff. firstorder. Qed.

Lemma zeros_dec l : {zeros l} + {~ zeros l}.
Proof.
  induction l. left. intros x [].
  destruct IHl; [destruct (Z.eq_dec a 0)|].
  left; apply zeros_cons; auto. right; rewrite zeros_cons; tauto. right; rewrite zeros_cons; tauto.
Qed.

Lemma lexpos_app a b : lexpos (a ++ b) <-> lexpos a \/ (zeros a /\ lexpos b).
Proof.
  induction a; simpl.
  - split; [intros; right; split; auto; intros x []|intros [[]|[_ ?]]; auto].
  - rewrite IHa, zeros_cons. tauto.
Qed.

Lemma lexpos_not_zeros l : lexpos l -> ~ zeros l.
Proof. induction l; simpl. tauto. rewrite zeros_cons. intros [H|[H1 H2]] [K1 K2]; [lia|]. apply IHl; auto. Qed.

Lemma lexpos_nonneg l : nonneg l -> ~ zeros l -> lexpos l.
Proof.
  induction l; simpl. intros _ H. apply H. intros x [].
  rewrite nonneg_cons, zeros_cons. intros [H1 H2] H3. destruct (Z.eq_dec a 0). right; split; auto. left; lia.
Qed.

Lemma zeros_perm a b : Permutation a b -> zeros a -> zeros b.
Proof. intros P H x Hx. apply H. eapply Permutation_in; [apply Permutation_sym; eauto|auto]. Qed.
Lemma nonneg_perm a b : Permutation a b -> nonneg a -> nonneg b.
Proof. intros P H x Hx. apply H. eapply Permutation_in; [apply Permutation_sym; eauto|auto]. Qed.

(** Reordering a block that is non-negative whenever the part before it is zero
    keeps the sign of the vector. *)
Lemma lexpos_perm a b b' c : (zeros a -> nonneg b) -> Permutation b b' ->
  lexpos (a ++ b ++ c) -> lexpos (a ++ b' ++ c).
Proof.
  intros H P. rewrite !lexpos_app. intros [L|[Z L]]; [left; auto|right; split; auto].
  specialize (H Z). destruct L as [L|[L1 L2]].
  - left. apply lexpos_nonneg. eapply nonneg_perm; eauto. intros K. apply (lexpos_not_zeros _ L).
    eapply zeros_perm; [apply Permutation_sym; eauto|auto].
  - right; split; auto. eapply zeros_perm; eauto.
Qed.

Lemma lexpos_insert0 k l : lexpos (insert_at k 0 l) <-> lexpos l.
Proof.
  revert l; induction k; destruct l; simpl; try (rewrite IHk); intuition lia.
Qed.

Lemma zeros_repeat n : zeros (repeat 0 n).
Proof. intros x Hx. apply repeat_spec in Hx. auto. Qed.

Lemma lexpos_trail l n : lexpos (l ++ repeat 0 n) <-> lexpos l.
Proof.
  rewrite lexpos_app. split; auto. intros [|[_ H]]; auto. exfalso. apply (lexpos_not_zeros _ H). apply zeros_repeat.
Qed.

Lemma zip_with_app {A B C} (f : A -> B -> C) a b a' b' : length a = length b ->
  zip_with f (a ++ a') (b ++ b') = zip_with f a b ++ zip_with f a' b'.
Proof. revert b; induction a; destruct b; simpl; intros; try lia; auto. f_equal; auto. Qed.

Lemma lexlt_app a b a' b' : length a = length b -> lexlt (a ++ a') (b ++ b') <-> lexlt a b \/ (a = b /\ lexlt a' b').
Proof.
  revert b; induction a; destruct b; simpl; intros; try lia; try tauto.
  rewrite IHa by lia. split.
  - intros [H1|[H1 [H2|[H2 H3]]]]; auto. right. split; auto. congruence.
  - intros [[H1|[H1 H2]]|[H1 H2]]; auto. inversion H1; auto.
Qed.

Lemma lexlt_irrefl a : ~ lexlt a a.
Proof. induction a; simpl; [tauto|]. intros [H|[_ H]]; [lia|auto]. Qed.

Lemma lexlt_trans a b c : lexlt a b -> lexlt b c -> lexlt a c.
Proof.
  revert b c; induction a; destruct b, c; simpl; try tauto.
  intros [H1|[H1 H2]] [K1|[K1 K2]]; [left; lia|left; lia|left; lia|right; split; [lia|eauto]].
Qed.

Lemma lexlt_insert k v a b : (k <= length a)%nat -> length a = length b ->
  lexlt (insert_at k v a) (insert_at k v b) <-> lexlt a b.
Proof.
  revert a b; induction k; intros a b Hk Hl.
  - destruct a, b; simpl in *; try lia; intuition lia.
  - destruct a, b; simpl in *; try lia. rewrite IHk by lia. tauto.
Qed.

(** ** Reordering time vectors *)
Definition permute_rows (sigma : list nat) (l : list Z) : list Z := map (fun k => nth k l 0) sigma.

Lemma map_nth_seq {A} (d : A) l : map (fun k => nth k l d) (seq 0 (length l)) = l.
Proof.
  apply nth_ext with (d := d) (d' := d). rewrite map_length, seq_length; auto.
  intros k Hk. rewrite map_length, seq_length in Hk.
  rewrite (nth_indep _ d (nth 0 l d)) by (rewrite map_length, seq_length; auto).
  rewrite (List.map_nth (fun k => nth k l d) _ 0%nat), seq_nth by auto. auto.
Qed.

Lemma zip_with_nth f a b k : length a = length b -> (k < length a)%nat ->
  nth k (zip_with f a b) 0 = f (nth k a 0) (nth k b 0).
Proof. revert b k; induction a; destruct b, k; simpl; intros; try lia; auto. apply IHa; lia. Qed.

Lemma zip_with_len {A B C} (f : A -> B -> C) a b : length a = length b -> length (zip_with f a b) = length a.
Proof. revert b; induction a; destruct b; simpl; intros; try lia. f_equal; auto. Qed.

Lemma zip_with_map2 {A B} (f : B -> B -> B) (g h : A -> B) l :
  zip_with f (map g l) (map h l) = map (fun k => f (g k) (h k)) l.
Proof. induction l; simpl; auto. f_equal; auto. Qed.

Lemma in_seq_perm sigma n k : Permutation sigma (seq 0 n) -> In k sigma -> (k < n)%nat.
Proof. intros P H. eapply Permutation_in in H; [|exact P]. apply in_seq in H. lia. Qed.

Lemma permute_length sigma l : length (permute_rows sigma l) = length sigma.
Proof. apply map_length. Qed.

Lemma permute_sub sigma a b n : length a = n -> length b = n -> Permutation sigma (seq 0 n) ->
  zip_with Z.sub (permute_rows sigma a) (permute_rows sigma b) = permute_rows sigma (zip_with Z.sub a b).
Proof.
  intros Ha Hb P. unfold permute_rows. rewrite zip_with_map2. apply map_ext_in. intros k Hk.
  apply in_seq_perm with (n := n) in Hk; auto. rewrite zip_with_nth; auto; lia.
Qed.

Lemma permute_perm sigma l : Permutation sigma (seq 0 (length l)) -> Permutation l (permute_rows sigma l).
Proof.
  intros P. transitivity (map (fun k => nth k l 0) (seq 0 (length l))); [rewrite map_nth_seq; auto|]. unfold permute_rows. apply Permutation_map. apply Permutation_sym; auto.
Qed.

Lemma skipn_skipn' {A} x y (l : list A) : skipn x (skipn y l) = skipn (x + y) l.
Proof.
  revert l; induction y; intros l. simpl. f_equal. lia.
  destruct l. rewrite !skipn_nil. auto. rewrite Nat.add_succ_r. simpl. apply IHy.
Qed.

Lemma split3 {A} a b (l : list A) : (a <= b)%nat -> l = firstn a l ++ firstn (b - a) (skipn a l) ++ skipn b l.
Proof.
  intros H. rewrite <- (firstn_skipn a l) at 1. f_equal.
  rewrite <- (firstn_skipn (b - a) (skipn a l)) at 1. f_equal.
  rewrite skipn_skipn'. f_equal. lia.
Qed.

Lemma lexpos_reorder a b D D' : (a <= b)%nat -> firstn a D' = firstn a D -> skipn b D' = skipn b D -> Permutation D D' ->
  (zeros (firstn a D) -> nonneg (firstn (b - a) (skipn a D))) -> lexpos D -> lexpos D'.
Proof.
  intros Hab E1 E2 P H L. rewrite (split3 a b D Hab) in L, P. rewrite (split3 a b D' Hab) in P |- *.
  rewrite E1, E2 in *. apply Permutation_app_inv_l in P. apply Permutation_app_inv_r in P.
  exact (lexpos_perm _ _ _ _ H P L).
Qed.

Lemma firstn_permute a sigma n l : length l = n -> (a <= n)%nat -> firstn a sigma = seq 0 a ->
  firstn a (permute_rows sigma l) = firstn a l.
Proof.
  intros Hl Ha H. unfold permute_rows. rewrite firstn_map, H.
  transitivity (firstn a (map (fun k => nth k l 0) (seq 0 (length l)))); [|rewrite map_nth_seq; auto]. rewrite firstn_map.
  f_equal. rewrite Hl. clear - Ha. revert n Ha. generalize 0%nat. induction a; simpl; intros; auto.
  destruct n0; [lia|]. simpl. f_equal. apply IHa. lia.
Qed.

Lemma skipn_permute b sigma n l : length l = n -> skipn b sigma = skipn b (seq 0 n) ->
  skipn b (permute_rows sigma l) = skipn b l.
Proof.
  intros Hl H. unfold permute_rows. rewrite skipn_map, H.
  transitivity (skipn b (map (fun k => nth k l 0) (seq 0 (length l)))); [|rewrite map_nth_seq; auto]. rewrite skipn_map, Hl. auto.
Qed.

(** [sigma] only reorders positions [a] .. [b]-1 of vectors of length [n]. *)
Definition reorders (n a b : nat) (sigma : list nat) : Prop :=
  Permutation sigma (seq 0 n) /\ firstn a sigma = seq 0 a /\ skipn b sigma = skipn b (seq 0 n).

Lemma nth_firstn_skipn (l : list Z) a m k : (k < m)%nat -> nth k (firstn m (skipn a l)) 0 = nth (a + k) l 0.
Proof.
  revert l m k; induction a; simpl; intros.
  - revert k m H; induction l; destruct k, m; simpl; intros; auto; try lia. apply IHl. lia.
  - destruct l; simpl. rewrite firstn_nil. destruct k; auto. apply IHa; auto.
Qed.

Lemma zeros_firstn_eq n a ts tt : length ts = n -> length tt = n -> (a <= n)%nat ->
  zeros (firstn a (zip_with Z.sub tt ts)) <-> firstn a ts = firstn a tt.
Proof.
  revert n ts tt; induction a; intros n ts tt L1 L2 H; simpl. split; auto. intros _ x [].
  destruct ts, tt; simpl in *; try lia. rewrite zeros_cons. rewrite (IHa (pred n)) by lia.
  split. intros [H1 H2]. f_equal; auto; lia. intros H1. inversion H1. split; auto; lia.
Qed.

Lemma lexlt_reorder n a b sigma ts tt : (a <= b)%nat -> (a <= n)%nat -> reorders n a b sigma ->
  length ts = n -> length tt = n ->
  (firstn a ts = firstn a tt -> forall k, (a <= k < b)%nat -> nth k ts 0 <= nth k tt 0) ->
  lexlt ts tt -> lexlt (permute_rows sigma ts) (permute_rows sigma tt).
Proof.
  intros Hab Han (P & F & S) L1 L2 H L.
  rewrite lexlt_pos in * by (rewrite ?permute_length; lia).
  rewrite (permute_sub sigma tt ts n) by auto.
  assert (length (zip_with Z.sub tt ts) = n) as L3 by (rewrite zip_with_len; lia).
  revert L. apply (lexpos_reorder a b); auto.
  - apply firstn_permute with n; auto.
  - apply skipn_permute with n; auto.
  - apply permute_perm. rewrite L3; auto.
  - intros Z. apply (zeros_firstn_eq n) in Z; auto. specialize (H Z).
    intros x Hx. apply (In_nth _ _ 0) in Hx as (k & Hk & <-).
    rewrite firstn_length, skipn_length, L3 in Hk.
    rewrite nth_firstn_skipn by lia. rewrite zip_with_nth by lia.
    specialize (H (a + k)%nat). lia.
Qed.

Lemma lexlt_prefix a ts tt : lexlt (firstn a ts) (firstn a tt) -> lexlt ts tt.
Proof.
  revert ts tt; induction a; intros ts tt; destruct ts, tt; simpl; auto; try tauto.
  intros [H|[H1 H2]]; auto.
Qed.

(** ** Swapping and moving positions *)
Lemma set_nth_map {A B} (f : A -> B) k v l : set_nth k (f v) (map f l) = map f (set_nth k v l).
Proof. revert l; induction k; destruct l; simpl; auto. f_equal; auto. Qed.

Lemma perm_set_nth {A} (d : A) j x l : (j < length l)%nat -> Permutation (nth j l d :: set_nth j x l) (x :: l).
Proof.
  revert l; induction j; destruct l; simpl; intros; try lia. apply perm_swap.
  rewrite perm_swap. rewrite (IHj l) by lia. apply perm_swap.
Qed.
Lemma firstn_set_nth {A} a k (v : A) l : (a <= k)%nat -> firstn a (set_nth k v l) = firstn a l.
Proof. revert k l; induction a; destruct k, l; simpl; intros; auto; try lia. f_equal. apply IHa; lia. Qed.
Lemma skipn_set_nth {A} b k (v : A) l : (k < b)%nat -> skipn b (set_nth k v l) = skipn b l.
Proof. revert k l; induction b; destruct k, l; simpl; intros; auto; try lia. apply IHb; lia. Qed.

Lemma perm_swap_nth {A} (d : A) i j l : (i < length l)%nat -> (j < length l)%nat -> Permutation (swap_nth d i j l) l.
Proof.
  unfold swap_nth. revert j l; induction i; destruct j, l; simpl; intros; try lia.
  - apply Permutation_refl.
  - apply perm_set_nth. lia.
  - apply perm_set_nth. lia.
  - apply perm_skip. apply (IHi j l); lia.
Qed.

Lemma perm_insert {A} k (v : A) l : Permutation (insert_at k v l) (v :: l).
Proof. revert l; induction k; destruct l; simpl; auto. rewrite IHk. apply perm_swap. Qed.
Lemma perm_remove {A} (d : A) k l : (k < length l)%nat -> Permutation (nth k l d :: remove_at k l) l.
Proof. revert l; induction k; destruct l; simpl; intros; try lia; auto. rewrite perm_swap. apply perm_skip. apply IHk. lia. Qed.
Lemma firstn_insert {A} a k (v : A) l : (a <= k)%nat -> (k <= length l)%nat -> firstn a (insert_at k v l) = firstn a l.
Proof. revert k l; induction a; destruct k, l; simpl; intros; auto; try lia. f_equal. apply IHa; lia. Qed.
Lemma firstn_remove {A} a k (l : list A) : (a <= k)%nat -> firstn a (remove_at k l) = firstn a l.
Proof. revert k l; induction a; destruct k, l; simpl; intros; auto; try lia. f_equal. apply IHa; lia. Qed.
Lemma skipn_insert {A} b k (v : A) l : (k <= b)%nat -> (k <= length l)%nat -> skipn (S b) (insert_at k v l) = skipn b l.
Proof.
  revert k l; induction b; destruct k, l; simpl; intros; auto; try lia. apply (IHb k l); lia.
Qed.
Lemma skipn_remove {A} b k (l : list A) : (k <= b)%nat -> skipn b (remove_at k l) = skipn (S b) l.
Proof.
  revert k l; induction b; destruct k, l; simpl; intros; auto; try lia. rewrite IHb by lia. destruct l; auto.
Qed.

Lemma firstn_seq a n s : (a <= n)%nat -> firstn a (seq s n) = seq s a.
Proof. revert s n; induction a; destruct n; simpl; intros; auto; try lia. f_equal. apply IHa. lia. Qed.

Lemma swap_reorders n a b i j : (a <= i < b)%nat -> (a <= j < b)%nat -> (b <= n)%nat ->
  reorders n a b (swap_nth 0%nat i j (seq 0 n)).
Proof.
  intros Hi Hj Hb. split; [|split].
  - apply perm_swap_nth; rewrite seq_length; lia.
  - unfold swap_nth. rewrite !firstn_set_nth by lia. apply firstn_seq; lia.
  - unfold swap_nth. rewrite !skipn_set_nth by lia. auto.
Qed.

Lemma swap_permute n i j (l : list Z) : length l = n -> (i < n)%nat -> (j < n)%nat ->
  swap_nth 0 i j l = permute_rows (swap_nth 0%nat i j (seq 0 n)) l.
Proof.
  intros Hl Hi Hj. unfold permute_rows, swap_nth. rewrite <- !set_nth_map. rewrite !seq_nth by auto. simpl.
  do 2 f_equal. rewrite <- Hl. symmetry. apply map_nth_seq.
Qed.

(** Move position [i] to position [j] >= i; the positions between move up. *)
Definition move_down {A} (d : A) (i j : nat) (l : list A) : list A := insert_at j (nth i l d) (remove_at i l).

Lemma move_reorders n a b i j : (a <= i)%nat -> (i <= j < b)%nat -> (b <= n)%nat ->
  reorders n a b (move_down 0%nat i j (seq 0 n)).
Proof.
  intros Hi Hj Hb. assert (length (remove_at i (seq 0 n)) = n - 1)%nat as L by (rewrite remove_at_length; rewrite seq_length; lia).
  unfold move_down. split; [|split].
  - rewrite perm_insert. apply perm_remove. rewrite seq_length; lia.
  - rewrite firstn_insert, firstn_remove by lia. apply firstn_seq; lia.
  - destruct b; [lia|]. rewrite skipn_insert by lia. apply skipn_remove. lia.
Qed.

Lemma map_insert {A B} (f : A -> B) k v l : map f (insert_at k v l) = insert_at k (f v) (map f l).
Proof. revert l; induction k; destruct l; simpl; auto. f_equal; auto. Qed.
Lemma map_remove {A B} (f : A -> B) k l : map f (remove_at k l) = remove_at k (map f l).
Proof. revert l; induction k; destruct l; simpl; auto. f_equal; auto. Qed.

Lemma move_permute n i j (l : list Z) : length l = n -> (i < n)%nat ->
  move_down 0 i j l = permute_rows (move_down 0%nat i j (seq 0 n)) l.
Proof.
  intros Hl Hi. unfold permute_rows, move_down. rewrite map_insert, map_remove, seq_nth by auto. simpl. f_equal.
  f_equal. rewrite <- Hl. symmetry. apply map_nth_seq.
Qed.

(** Adjacent swaps move a position down. *)
Lemma swap_insert {A} (d : A) k v l : (k < length l)%nat ->
  swap_nth d k (S k) (insert_at k v l) = insert_at (S k) v l.
Proof.
  revert l; induction k; intros l Hk.
  - destruct l; simpl in *; [lia|]. unfold swap_nth. simpl. auto.
  - destruct l; simpl in *; [lia|]. unfold swap_nth in *. simpl. f_equal. apply (IHk l). lia.
Qed.

Lemma insert_remove' {A} (d : A) k l : (k < length l)%nat -> insert_at k (nth k l d) (remove_at k l) = l.
Proof. intros; apply insert_remove; auto. Qed.

Lemma swaps_move {A} (d : A) i n l : (i + n < length l)%nat ->
  fold_left (fun l k => swap_nth d k (S k) l) (seq i n) l = move_down d i (i + n) l.
Proof.
  induction n; intros H.
  - simpl. unfold move_down. rewrite Nat.add_0_r. symmetry. apply insert_remove'. lia.
  - rewrite seq_S, fold_left_app, IHn by lia. simpl. unfold move_down.
    rewrite swap_insert by (rewrite remove_at_length; lia). f_equal. lia.
Qed.
