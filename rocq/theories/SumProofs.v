(** * Finite sums of rationals and windows of coefficient vectors. *)
From Coq Require Import ZArith QArith List Bool Lia Lqa Arith.
From Verif Require Import SpecLinear VecProofs MathModel FarkasProofs.
Import ListNotations.
Open Scope Q_scope.

Fixpoint qsum (n : nat) (f : nat -> Q) : Q :=
  match n with O => 0 | S m => qsum m f + f m end.

Lemma qsum_ext n f g : (forall i, (i < n)%nat -> f i == g i) -> qsum n f == qsum n g.
Proof. induction n; intros H; simpl; [reflexivity|]. rewrite IHn by (intros; apply H; lia). rewrite (H n) by lia. reflexivity. Qed.

Lemma qsum_add n f g : qsum n (fun i => f i + g i) == qsum n f + qsum n g.
Proof. induction n; simpl; [ring|]. rewrite IHn. ring. Qed.

Lemma qsum_zero n f : (forall i, (i < n)%nat -> f i == 0) -> qsum n f == 0.
Proof. induction n; intros H; simpl; [reflexivity|]. rewrite IHn by (intros; apply H; lia). rewrite (H n) by lia. ring. Qed.

Lemma qsum_app a b f : qsum (a + b) f == qsum a f + qsum b (fun i => f (a + i)%nat).
Proof.
  induction b; simpl.
  - rewrite Nat.add_0_r. ring.
  - rewrite Nat.add_succ_r. simpl. rewrite IHb. ring.
Qed.

Lemma qsum_shift n f : qsum (S n) f == f 0%nat + qsum n (fun i => f (S i)).
Proof. induction n; [simpl; ring|]. change (qsum (S (S n)) f) with (qsum (S n) f + f (S n)). rewrite IHn. simpl. ring. Qed.

Lemma qsum_one n k f : (k < n)%nat -> (forall i, (i < n)%nat -> i <> k -> f i == 0) -> qsum n f == f k.
Proof.
  induction n; intros Hk H; [lia|]. simpl. destruct (Nat.eq_dec k n) as [->|Hn].
  - rewrite (qsum_zero n) by (intros; apply H; lia). ring.
  - rewrite IHn by (try lia; intros; apply H; lia). rewrite (H n) by lia. ring.
Qed.

(** Only the window [off, off+m) contributes. *)
Lemma qsum_window n off m f : (off + m <= n)%nat ->
  (forall i, (i < n)%nat -> (i < off \/ off + m <= i)%nat -> f i == 0) ->
  qsum n f == qsum m (fun i => f (off + i)%nat).
Proof.
  intros Hn H. replace n with (off + (m + (n - off - m)))%nat by lia.
  rewrite qsum_app, qsum_app.
  rewrite (qsum_zero off) by (intros; apply H; lia).
  rewrite (qsum_zero (n - off - m)) by (intros; apply H; lia).
  ring.
Qed.

Lemma qqdot_sum a b n : length a = n -> length b = n ->
  qqdot a b == qsum n (fun i => nth i a 0 * nth i b 0).
Proof.
  revert b n; induction a as [|x a IH]; destruct b as [|y b]; simpl; intros n Ha Hb; try lia; subst n.
  - reflexivity.
  - rewrite qsum_shift. simpl. rewrite (IH b (length a)) by lia. reflexivity.
Qed.

Lemma qdot_sum a b n : length a = n -> length b = n ->
  qdot a b == qsum n (fun i => inject_Z (nth i a 0%Z) * nth i b 0).
Proof.
  revert b n; induction a as [|x a IH]; destruct b as [|y b]; simpl; intros n Ha Hb; try lia; subst n.
  - reflexivity.
  - rewrite qsum_shift. simpl. rewrite (IH b (length a)) by lia. reflexivity.
Qed.

Lemma qaff_sum r c n : length r = S n -> length c = n ->
  qaff r c == qsum n (fun i => inject_Z (nth i r 0%Z) * nth i c 0) + inject_Z (nth n r 0%Z).
Proof.
  intros Hr Hc. unfold qaff. rewrite (qdot_sum _ _ (S n)) by (rewrite ?app_length; simpl; lia).
  simpl. rewrite (qsum_ext n _ (fun i => inject_Z (nth i r 0%Z) * nth i c 0)).
  - rewrite app_nth2 by lia. replace (n - length c)%nat with 0%nat by lia. simpl. ring.
  - intros i Hi. rewrite app_nth1 by lia. reflexivity.
Qed.

Lemma qaff_map f n c : length c = n ->
  qaff (map f (seq 0 (S n))) c == qsum n (fun i => inject_Z (f i) * nth i c 0) + inject_Z (f n).
Proof.
  intros Hc. rewrite (qaff_sum _ _ n) by (rewrite ?map_length, ?seq_length; auto).
  rewrite nth_map_seq by lia. rewrite (qsum_ext n _ (fun i => inject_Z (f i) * nth i c 0)); [reflexivity|].
  intros i Hi. rewrite nth_map_seq by lia. reflexivity.
Qed.

Lemma nth_firstn_lt {A} m (c : list A) i d : (i < m)%nat -> nth i (firstn m c) d = nth i c d.
Proof. revert c i; induction m; intros c i H; [lia|]. destruct c; [reflexivity|]. simpl. destruct i; [reflexivity|]. apply IHm. lia. Qed.

Lemma nth_skipn_add {A} off (c : list A) i d : nth i (skipn off c) d = nth (off + i) c d.
Proof. revert c; induction off; intros c; simpl; [reflexivity|]. destruct c; [destruct i; reflexivity|]. apply IHoff. Qed.

Lemma nth_window {A} (c : list A) off m i d : (i < m)%nat -> nth i (firstn m (skipn off c)) d = nth (off + i) c d.
Proof. intros. rewrite nth_firstn_lt by auto. apply nth_skipn_add. Qed.

Lemma window_length {A} (c : list A) off m : (off + m <= length c)%nat -> length (firstn m (skipn off c)) = m.
Proof. intros. rewrite firstn_length, skipn_length. lia. Qed.

Lemma inject_Z_add a b : inject_Z (a + b) == inject_Z a + inject_Z b.
Proof. rewrite inject_Z_plus. reflexivity. Qed.
