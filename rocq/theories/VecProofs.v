(** * Lemmas on lists, scalar products (over Z and Q) and row combinations. *)
From Coq Require Import ZArith QArith List Bool Lia Lqa.
From Verif Require Import SpecLinear.
Import ListNotations.
Open Scope Z_scope.

(** ** insert_at / remove_at / set_nth *)
Lemma insert_at_length {A} pos (v : A) l :
  length (insert_at pos v l) = S (length l).
Proof. revert l; induction pos; destruct l; simpl; auto. Qed.

Lemma remove_at_length {A} pos (l : list A) :
  (pos < length l)%nat -> length (remove_at pos l) = (length l - 1)%nat.
Proof.
  revert l; induction pos; destruct l; simpl; intros; try lia.
  rewrite IHpos by lia. lia.
Qed.

Lemma remove_at_length_S {A} pos (l : list A) n :
  length l = S n -> (pos <= n)%nat -> length (remove_at pos l) = n.
Proof. intros. rewrite remove_at_length; lia. Qed.

Lemma set_nth_length {A} pos (v : A) l : length (set_nth pos v l) = length l.
Proof. revert l; induction pos; destruct l; simpl; auto. Qed.

Lemma remove_insert {A} pos (v : A) l :
  (pos <= length l)%nat -> remove_at pos (insert_at pos v l) = l.
Proof.
  revert l; induction pos; destruct l; simpl; intros; auto; try lia.
  f_equal. apply IHpos; lia.
Qed.

Lemma insert_remove {A} pos (d : A) l :
  (pos < length l)%nat -> insert_at pos (nth pos l d) (remove_at pos l) = l.
Proof.
  revert l; induction pos; destruct l; simpl; intros; auto; try lia.
  f_equal. apply IHpos; lia.
Qed.

Lemma nth_insert_at_eq {A} pos (v d : A) l :
  (pos <= length l)%nat -> nth pos (insert_at pos v l) d = v.
Proof.
  revert l; induction pos; destruct l; simpl; intros; auto; try lia.
  apply IHpos; lia.
Qed.

Lemma nth_insert_at_lt {A} pos i (v d : A) l :
  (i < pos)%nat -> (pos <= length l)%nat -> nth i (insert_at pos v l) d = nth i l d.
Proof.
  revert i l; induction pos; destruct l; simpl; intros; auto; try lia.
  destruct i; auto. apply IHpos; lia.
Qed.

Lemma nth_insert_at_ge {A} pos i (v d : A) l :
  (pos <= i)%nat -> (pos <= length l)%nat -> nth (S i) (insert_at pos v l) d = nth i l d.
Proof.
  revert i l; induction pos; destruct l; simpl; intros; auto; try lia.
  destruct i; [lia|]. apply IHpos; lia.
Qed.

Lemma nth_remove_at_lt {A} pos i (d : A) l :
  (i < pos)%nat -> nth i (remove_at pos l) d = nth i l d.
Proof.
  revert i l; induction pos; destruct l; simpl; intros; auto; try lia.
  destruct i; auto. apply IHpos; lia.
Qed.

Lemma nth_remove_at_ge {A} pos i (d : A) l :
  (pos <= i)%nat -> nth i (remove_at pos l) d = nth (S i) l d.
Proof.
  revert i l; induction pos; destruct l; simpl; intros; auto; try lia.
  - destruct i; auto.
  - destruct i; auto.
  - destruct i; [lia|]. apply IHpos; lia.
Qed.

Lemma nth_set_nth_eq {A} pos (v d : A) l :
  (pos < length l)%nat -> nth pos (set_nth pos v l) d = v.
Proof. revert l; induction pos; destruct l; simpl; intros; auto; try lia. apply IHpos; lia. Qed.

Lemma nth_set_nth_neq {A} pos i (v d : A) l :
  i <> pos -> nth i (set_nth pos v l) d = nth i l d.
Proof.
  revert i l; induction pos; destruct l; simpl; intros; auto.
  - destruct i; auto; lia.
  - destruct i; auto.
Qed.

Lemma insert_at_app {A} pos (v : A) l l' :
  (pos <= length l)%nat -> insert_at pos v (l ++ l') = insert_at pos v l ++ l'.
Proof.
  revert l; induction pos; destruct l; simpl; intros; auto; try lia.
  f_equal. apply IHpos; lia.
Qed.

Lemma insert_at_end {A} (v : A) l : insert_at (length l) v l = l ++ [v].
Proof. induction l; simpl; auto. f_equal; auto. Qed.

Lemma remove_at_app {A} pos (l l' : list A) :
  (pos < length l)%nat -> remove_at pos (l ++ l') = remove_at pos l ++ l'.
Proof.
  revert l; induction pos; destruct l; simpl; intros; auto; try lia.
  f_equal. apply IHpos; lia.
Qed.

Lemma map_insert_at {A B} (f : A -> B) pos v l :
  map f (insert_at pos v l) = insert_at pos (f v) (map f l).
Proof. revert l; induction pos; destruct l; simpl; auto. f_equal; auto. Qed.

Lemma map_remove_at {A B} (f : A -> B) pos l :
  map f (remove_at pos l) = remove_at pos (map f l).
Proof. revert l; induction pos; destruct l; simpl; auto. f_equal; auto. Qed.

Lemma insert_at_spec {A} pos (v : A) l :
  (pos <= length l)%nat -> insert_at pos v l = firstn pos l ++ v :: skipn pos l.
Proof.
  revert l; induction pos; destruct l; simpl; intros; auto; try lia.
  f_equal. apply IHpos; lia.
Qed.

Lemma remove_at_spec {A} pos (l : list A) :
  remove_at pos l = firstn pos l ++ skipn (S pos) l.
Proof.
  revert l; induction pos; destruct l; simpl; auto.
  f_equal. rewrite IHpos. destruct l; simpl; auto.
Qed.

Lemma In_remove_at {A} pos (x : A) l : In x (remove_at pos l) -> In x l.
Proof.
  revert l; induction pos; destruct l; simpl; intros; auto.
  destruct H; auto.
Qed.

Lemma In_insert_at {A} pos (x v : A) l : In x (insert_at pos v l) <-> x = v \/ In x l.
Proof.
  revert l; induction pos; destruct l; simpl; intros; auto.
  - intuition.
  - intuition.
  - intuition.
  - rewrite IHpos. intuition.
Qed.

(** ** dot over Z *)
Lemma dot_nil_r a : dot a [] = 0.
Proof. destruct a; auto. Qed.

Lemma dot_app a b x y : length a = length x -> dot (a ++ b) (x ++ y) = dot a x + dot b y.
Proof.
  revert x; induction a; destruct x; simpl; intros; try lia.
  rewrite IHa by lia. lia.
Qed.

Lemma dot_comm a b : dot a b = dot b a.
Proof. revert b; induction a; destruct b; simpl; auto. rewrite IHa. lia. Qed.

Lemma dot_insert_at pos c v a x :
  length a = length x -> (pos <= length x)%nat ->
  dot (insert_at pos c a) (insert_at pos v x) = c * v + dot a x.
Proof.
  revert a x; induction pos; intros; simpl.
  - destruct a, x; simpl in *; lia.
  - destruct a, x; simpl in *; try lia.
    rewrite IHpos by lia. lia.
Qed.

Lemma dot_insert_point pos v a x :
  length a = S (length x) -> (pos <= length x)%nat ->
  dot a (insert_at pos v x) = nth pos a 0 * v + dot (remove_at pos a) x.
Proof.
  intros. rewrite <- (insert_remove pos 0 a) at 1 by lia.
  apply dot_insert_at; auto. rewrite remove_at_length; lia.
Qed.

Lemma dot_repeat0_l n x : dot (repeat 0 n) x = 0.
Proof. revert x; induction n; destruct x; simpl; auto. Qed.

Lemma dot_repeat0_r n x : dot x (repeat 0 n) = 0.
Proof. rewrite dot_comm. apply dot_repeat0_l. Qed.

Lemma dot_set_nth pos c a x :
  (pos < length a)%nat -> length a = length x ->
  dot (set_nth pos c a) x = dot a x + (c - nth pos a 0) * nth pos x 0.
Proof.
  revert a x; induction pos; destruct a, x; simpl; intros; try lia.
  rewrite IHpos by lia. lia.
Qed.

Lemma dot_map_opp a x : dot (map Z.opp a) x = - dot a x.
Proof. revert x; induction a; destruct x; simpl; auto. rewrite IHa. lia. Qed.

Lemma dot_map_mul k a x : dot (map (Z.mul k) a) x = k * dot a x.
Proof. revert x; induction a; destruct x; simpl; auto; try lia. rewrite IHa. lia. Qed.

Lemma dot_map_mul_r k a x : dot a (map (Z.mul k) x) = k * dot a x.
Proof. rewrite dot_comm, dot_map_mul, dot_comm. auto. Qed.

(** ** Row combination *)
Lemma zip_with_length {A B C} (f : A -> B -> C) a b :
  length a = length b -> length (zip_with f a b) = length a.
Proof. revert b; induction a; destruct b; simpl; intros; auto; try lia. Qed.

Lemma zip_with_remove_at (f : Z -> Z -> Z) pos a b :
  length a = length b ->
  remove_at pos (zip_with f a b) = zip_with f (remove_at pos a) (remove_at pos b).
Proof.
  revert a b; induction pos; destruct a, b; simpl; intros; auto; try lia.
  f_equal; auto.
Qed.

Lemma nth_zip_with (f : Z -> Z -> Z) pos a b d :
  length a = length b -> (pos < length a)%nat ->
  nth pos (zip_with f a b) d = f (nth pos a 0) (nth pos b 0).
Proof.
  revert a b; induction pos; destruct a, b; simpl; intros; auto; try lia.
  apply IHpos; lia.
Qed.

Lemma dot_comb f g a b x :
  length a = length b ->
  dot (zip_with (fun u v => u * f + v * g) a b) x = f * dot a x + g * dot b x.
Proof.
  revert b x; induction a; destruct b, x; simpl; intros; try lia.
  rewrite IHa by lia. lia.
Qed.

Lemma dot_add a b x :
  length a = length b ->
  dot (zip_with Z.add a b) x = dot a x + dot b x.
Proof.
  revert b x; induction a; destruct b, x; simpl; intros; try lia.
  rewrite IHa by lia. lia.
Qed.

Lemma dot_sub a b x :
  length a = length b ->
  dot (zip_with Z.sub a b) x = dot a x - dot b x.
Proof.
  revert b x; induction a; destruct b, x; simpl; intros; try lia.
  rewrite IHa by lia. lia.
Qed.

Lemma dot_add_r a x y :
  length x = length y ->
  dot a (zip_with Z.add x y) = dot a x + dot a y.
Proof. intros. rewrite dot_comm, dot_add by auto. rewrite (dot_comm x), (dot_comm y). auto. Qed.

Lemma dot_sub_r a x y :
  length x = length y ->
  dot a (zip_with Z.sub x y) = dot a x - dot a y.
Proof. intros. rewrite dot_comm, dot_sub by auto. rewrite (dot_comm x), (dot_comm y). auto. Qed.

(** ** qdot over Q *)
Lemma qdot_app a b x y : length a = length x -> (qdot (a ++ b) (x ++ y) == qdot a x + qdot b y)%Q.
Proof.
  revert x; induction a; destruct x; simpl; intros; try lia.
  - ring.
  - rewrite IHa by lia. ring.
Qed.

Lemma qdot_insert_at pos c v a x :
  length a = length x -> (pos <= length x)%nat ->
  (qdot (insert_at pos c a) (insert_at pos v x) == inject_Z c * v + qdot a x)%Q.
Proof.
  revert a x; induction pos; intros; simpl.
  - destruct a, x; simpl in *; try lia; ring.
  - destruct a, x; simpl in *; try lia.
    rewrite IHpos by lia. ring.
Qed.

Lemma qdot_insert_point pos v a x :
  length a = S (length x) -> (pos <= length x)%nat ->
  (qdot a (insert_at pos v x) == inject_Z (nth pos a 0%Z) * v + qdot (remove_at pos a) x)%Q.
Proof.
  intros. rewrite <- (insert_remove pos 0%Z a) at 1 by lia.
  apply qdot_insert_at; auto. rewrite remove_at_length; lia.
Qed.

Lemma qdot_repeat0_l n x : (qdot (repeat 0%Z n) x == 0)%Q.
Proof.
  revert x; induction n; destruct x; simpl; try reflexivity.
  rewrite IHn. unfold inject_Z. ring.
Qed.

Lemma inject_Z_0 : inject_Z 0 = 0%Q.
Proof. reflexivity. Qed.
Lemma inject_Z_1 : inject_Z 1 = 1%Q.
Proof. reflexivity. Qed.

Lemma qdot_comb f g a b x :
  length a = length b ->
  (qdot (zip_with (fun u v => u * f + v * g)%Z a b) x
   == inject_Z f * qdot a x + inject_Z g * qdot b x)%Q.
Proof.
  revert b x; induction a; destruct b, x; simpl; intros; try lia; try ring.
  rewrite IHa by lia. rewrite inject_Z_plus, !inject_Z_mult. ring.
Qed.

Lemma qdot_map_opp a x : (qdot (map Z.opp a) x == - qdot a x)%Q.
Proof.
  revert x; induction a; destruct x; simpl; try reflexivity.
  rewrite IHa, inject_Z_opp. ring.
Qed.

Lemma qdot_map_mul k a x : (qdot (map (Z.mul k) a) x == inject_Z k * qdot a x)%Q.
Proof.
  revert x; induction a; destruct x; simpl; try ring.
  rewrite IHa, inject_Z_mult. ring.
Qed.

Lemma qdot_add a b x :
  length a = length b ->
  (qdot (zip_with Z.add a b) x == qdot a x + qdot b x)%Q.
Proof.
  revert b x; induction a; destruct b, x; simpl; intros; try lia; try ring.
  rewrite IHa by lia. rewrite inject_Z_plus. ring.
Qed.

Lemma qdot_zpoint a x : (qdot a (zpoint x) == inject_Z (dot a x))%Q.
Proof.
  revert x; induction a; destruct x; simpl; try reflexivity.
  unfold zpoint in IHa. rewrite IHa, inject_Z_plus, inject_Z_mult. reflexivity.
Qed.

Lemma zpoint_app x y : zpoint (x ++ y) = zpoint x ++ zpoint y.
Proof. apply map_app. Qed.

Lemma qaff_zpoint r x : (qaff r (zpoint x) == inject_Z (aff r x))%Q.
Proof.
  unfold qaff, aff. rewrite <- qdot_zpoint, zpoint_app. reflexivity.
Qed.

Lemma inject_Z_le0 z : (0 <= inject_Z z)%Q <-> 0 <= z.
Proof. rewrite (Zle_Qle 0 z). reflexivity. Qed.

Lemma inject_Z_eq0 z : (inject_Z z == 0)%Q <-> z = 0.
Proof. rewrite <- inject_Z_0. apply inject_Z_injective. Qed.

Lemma inject_Z_lt0 z : (0 < inject_Z z)%Q <-> 0 < z.
Proof. rewrite (Zlt_Qlt 0 z). reflexivity. Qed.

Lemma qholds_zpoint x r : qholds (zpoint x) r <-> holds x r.
Proof.
  unfold qholds, holds. destruct (is_eq r); rewrite qaff_zpoint.
  - apply inject_Z_eq0.
  - apply inject_Z_le0.
Qed.

Lemma zpoint_length x : length (zpoint x) = length x.
Proof. apply map_length. Qed.

Lemma qmem_zpoint c x : qmem c (zpoint x) <-> mem c x.
Proof.
  unfold qmem, mem. rewrite zpoint_length.
  split; intros [H H0]; split; auto; intros; apply qholds_zpoint; auto.
Qed.

(** ** aff / qaff *)
Lemma aff_insert_point pos v r x :
  length r = S (S (length x)) -> (pos <= length x)%nat ->
  aff r (insert_at pos v x) = nth pos r 0 * v + aff (remove_at pos r) x.
Proof.
  intros. unfold aff. rewrite <- insert_at_app by auto.
  apply dot_insert_point; rewrite ?app_length; simpl; lia.
Qed.

Lemma qaff_insert_point pos v r x :
  length r = S (S (length x)) -> (pos <= length x)%nat ->
  (qaff r (insert_at pos v x) == inject_Z (nth pos r 0%Z) * v + qaff (remove_at pos r) x)%Q.
Proof.
  intros. unfold qaff. rewrite <- insert_at_app by auto.
  apply qdot_insert_point; rewrite ?app_length; simpl; lia.
Qed.

Lemma aff_insert_both pos c v r x :
  length r = S (length x) -> (pos <= length x)%nat ->
  aff (insert_at pos c r) (insert_at pos v x) = c * v + aff r x.
Proof.
  intros. unfold aff. rewrite <- insert_at_app by auto.
  apply dot_insert_at; rewrite ?app_length; simpl; lia.
Qed.
