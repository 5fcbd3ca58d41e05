(** * gcd and lcm of math_support.c. *)
From Coq Require Import ZArith List Bool Lia Znumtheory.
From Verif Require Import SpecLinear MathModel.
Import ListNotations.
Open Scope Z_scope.

Lemma rem_log2 a b : 0 < b -> b < a -> 0 < Z.rem a b -> Z.log2 (Z.rem a b) < Z.log2 a.
Proof.
  intros Hb Hab Hr.
  rewrite Z.rem_mod_nonneg in * by lia.
  pose proof (Z.div_mod a b ltac:(lia)).
  pose proof (Z.mod_pos_bound a b Hb).
  assert (1 <= a / b) by (apply Z.div_le_lower_bound; lia).
  assert (2 * (a mod b) <= a) by nia.
  pose proof (Z.log2_double (a mod b) Hr).
  pose proof (Z.log2_le_mono (2 * (a mod b)) a ltac:(lia)). lia.
Qed.

Lemma gcd_rem_l a b : 0 < b -> 0 <= a -> Z.gcd (Z.rem a b) b = Z.gcd a b.
Proof.
  intros. rewrite Z.rem_mod_nonneg by lia.
  rewrite Z.gcd_mod by lia. apply Z.gcd_comm.
Qed.

Lemma gcd_rec_correct fuel a b :
  0 <= a -> 0 <= b -> Z.log2 a + Z.log2 b + 3 <= Z.of_nat fuel ->
  gcd_rec fuel a b = Z.gcd a b.
Proof.
  revert a b. induction fuel as [|fuel IH]; intros a b Ha Hb Hf.
  - pose proof (Z.log2_nonneg a). pose proof (Z.log2_nonneg b). lia.
  - simpl gcd_rec.
    destruct (Z.eqb_spec (a * b) 0) as [E|E].
    { apply Z.mul_eq_0 in E. destruct E; subst; simpl.
      - rewrite Z.abs_eq; lia.
      - rewrite Z.gcd_0_r, Z.abs_eq; lia. }
    assert (a <> 0 /\ b <> 0) as [Ha0 Hb0] by (split; intro; subst; lia).
    destruct (Z.eqb_spec a b) as [E2|E2].
    { subst. rewrite Z.gcd_diag, Z.abs_eq; lia. }
    destruct (Z.ltb_spec b a) as [L|L].
    + rewrite <- (gcd_rem_l a b) by lia.
      pose proof (Z.rem_bound_pos a b ltac:(lia) ltac:(lia)).
      destruct (Z.eq_dec (Z.rem a b) 0) as [R|R].
      * rewrite R. destruct fuel; [pose proof (Z.log2_nonneg a); pose proof (Z.log2_nonneg b); lia|].
        simpl. rewrite Z.abs_eq; lia.
      * apply IH; try lia. pose proof (rem_log2 a b ltac:(lia) L ltac:(lia)). lia.
    + rewrite (Z.gcd_comm a b), <- (gcd_rem_l b a) by lia.
      pose proof (Z.rem_bound_pos b a ltac:(lia) ltac:(lia)).
      destruct (Z.eq_dec (Z.rem b a) 0) as [R|R].
      * rewrite R. destruct fuel; [pose proof (Z.log2_nonneg a); pose proof (Z.log2_nonneg b); lia|].
        simpl. rewrite Z.mul_0_r. simpl. rewrite Z.abs_eq; lia.
      * rewrite Z.gcd_comm. apply IH; try lia.
        pose proof (rem_log2 b a ltac:(lia) ltac:(lia) ltac:(lia)). lia.
Qed.

Lemma gcd_correct a b : gcd a b = Z.gcd a b.
Proof.
  unfold gcd. pose proof (Z.log2_nonneg (Z.abs a)). pose proof (Z.log2_nonneg (Z.abs b)).
  rewrite gcd_rec_correct by lia.
  rewrite Z.gcd_abs_l, Z.gcd_abs_r. auto.
Qed.

(** With 64-bit arithmetic the result is the same when the product fits. *)
Lemma gcd64_rec_correct fuel a b :
  0 <= a < 2 ^ 63 -> 0 <= b < 2 ^ 63 -> a * b < 2 ^ 63 ->
  Z.log2 a + Z.log2 b + 3 <= Z.of_nat fuel ->
  gcd64_rec fuel a b = Some (gcd_rec fuel a b).
Proof.
  revert a b. induction fuel as [|fuel IH]; intros a b Ha Hb Hp Hf.
  - pose proof (Z.log2_nonneg a). pose proof (Z.log2_nonneg b). lia.
  - simpl gcd_rec; simpl gcd64_rec.
    assert (in64 (a * b) = true) as ->.
    { unfold in64. apply andb_true_intro. split; [apply Z.leb_le; nia | apply Z.ltb_lt; lia]. }
    simpl negb. cbv iota.
    destruct (Z.eqb_spec (a * b) 0) as [E|E].
    { apply Z.mul_eq_0 in E.
      replace (in64 (a + b)) with true; auto. symmetry.
      unfold in64. apply andb_true_intro. split; [apply Z.leb_le; lia | apply Z.ltb_lt; lia]. }
    assert (a <> 0 /\ b <> 0) as [Ha0 Hb0] by (split; intro; subst; lia).
    destruct (Z.eqb_spec a b) as [E2|E2]; auto.
    destruct (Z.ltb_spec b a) as [L|L].
    + pose proof (Z.rem_bound_pos a b ltac:(lia) ltac:(lia)).
      destruct (Z.eq_dec (Z.rem a b) 0) as [R|R].
      * rewrite R. destruct fuel; [pose proof (Z.log2_nonneg a); pose proof (Z.log2_nonneg b); lia|].
        simpl. replace (in64 b) with true; auto. symmetry.
        unfold in64. apply andb_true_intro. split; [apply Z.leb_le; lia | apply Z.ltb_lt; lia].
      * apply IH; try lia. nia.
        pose proof (rem_log2 a b ltac:(lia) L ltac:(lia)). lia.
    + pose proof (Z.rem_bound_pos b a ltac:(lia) ltac:(lia)).
      destruct (Z.eq_dec (Z.rem b a) 0) as [R|R].
      * rewrite R. destruct fuel; [pose proof (Z.log2_nonneg a); pose proof (Z.log2_nonneg b); lia|].
        simpl. rewrite Z.mul_0_r. simpl. rewrite Z.add_0_r. replace (in64 a) with true; auto. symmetry.
        unfold in64. apply andb_true_intro. split; [apply Z.leb_le; lia | apply Z.ltb_lt; lia].
      * apply IH; try lia. nia.
        pose proof (rem_log2 b a ltac:(lia) ltac:(lia) ltac:(lia)). lia.
Qed.

Lemma gcd64_correct a b :
  Z.abs a < 2 ^ 63 -> Z.abs b < 2 ^ 63 -> Z.abs a * Z.abs b < 2 ^ 63 ->
  gcd64 a b = Some (Z.gcd a b).
Proof.
  intros. unfold gcd64.
  assert (in64 (Z.abs a) && in64 (Z.abs b) = true) as ->.
  { unfold in64. rewrite !andb_true_iff, !Z.leb_le, !Z.ltb_lt. lia. }
  pose proof (Z.log2_nonneg (Z.abs a)). pose proof (Z.log2_nonneg (Z.abs b)).
  rewrite gcd64_rec_correct by (try lia; rewrite Z2Nat.id; lia).
  fold (gcd a b). rewrite gcd_correct. auto.
Qed.

(** ** lcm *)
Lemma lcm_spec a b : a <> 0 -> b <> 0 ->
  exists ka kb, lcm a b = a * ka /\ lcm a b = b * kb /\ lcm a b <> 0.
Proof.
  intros Ha Hb. unfold lcm. destruct (Z.eqb_spec (a * b) 0) as [E|E]; [nia|].
  rewrite gcd_correct.
  pose proof (Z.gcd_nonneg a b).
  assert (Z.gcd a b <> 0) by (intro X; apply Z.gcd_eq_0 in X; lia).
  destruct (Z.gcd_divide_l a b) as [u Hu]. destruct (Z.gcd_divide_r a b) as [v Hv].
  set (g := Z.gcd a b) in *. clearbody g.
  exists v, u.
  assert (Z.quot (a * b) g = a * v) as ->.
  { replace (a * b) with (a * v * g) by (rewrite Hv; ring). apply Z.quot_mul; auto. }
  repeat split; auto.
  - transitivity (u * g * v); [rewrite <- Hu; auto|]. rewrite Hv. ring.
  - intro X. apply Z.mul_eq_0 in X. destruct X as [X|X]; [lia|]. rewrite X in Hv. lia.
Qed.

Lemma lcm_zlcm a b : Z.abs (lcm a b) = Z.lcm a b.
Proof.
  unfold lcm. destruct (Z.eqb_spec (a * b) 0) as [E|E].
  - apply Z.mul_eq_0 in E. destruct E; subst; rewrite ?Z.lcm_0_l, ?Z.lcm_0_r; auto.
  - rewrite gcd_correct. unfold Z.lcm.
    assert (a <> 0 /\ b <> 0) as [? ?] by (split; intro; subst; lia).
    assert (Z.gcd a b <> 0) by (intro X; apply Z.gcd_eq_0 in X; lia).
    f_equal. destruct (Z.gcd_divide_r a b) as [v Hv].
    set (g := Z.gcd a b) in *. clearbody g.
    replace (a * b) with (a * v * g) by (rewrite Hv; ring).
    rewrite Z.quot_mul by auto. f_equal. rewrite Hv. rewrite Z.div_mul; auto.
Qed.

Lemma lcm_pos a b : 0 < a -> 0 < b -> 0 < lcm a b.
Proof.
  intros. unfold lcm. destruct (Z.eqb_spec (a * b) 0); [nia|].
  rewrite gcd_correct.
  assert (Z.gcd a b <> 0) by (intro X; apply Z.gcd_eq_0 in X; lia).
  pose proof (Z.gcd_nonneg a b).
  destruct (Z.gcd_divide_r a b) as [v Hv]. set (g := Z.gcd a b) in *. clearbody g.
  replace (a * b) with (a * v * g) by (rewrite Hv; ring).
  rewrite Z.quot_mul by auto. nia.
Qed.

(** Exact quotients of the lcm by its arguments. *)
Lemma lcm_quot_l a b : a <> 0 -> b <> 0 -> Z.quot (lcm a b) a * a = lcm a b.
Proof.
  intros. destruct (lcm_spec a b) as (ka & kb & E1 & E2 & E3); auto.
  rewrite E1. rewrite Z.mul_comm. rewrite (Z.mul_comm a ka), Z.quot_mul; auto. lia.
Qed.

Lemma lcm_quot_r a b : a <> 0 -> b <> 0 -> Z.quot (lcm a b) b * b = lcm a b.
Proof.
  intros. destruct (lcm_spec a b) as (ka & kb & E1 & E2 & E3); auto.
  rewrite E2. rewrite (Z.mul_comm b kb), Z.quot_mul; auto.
Qed.

Lemma lcm_comm a b : lcm a b = lcm b a.
Proof. unfold lcm. rewrite (Z.mul_comm b a), !gcd_correct, (Z.gcd_comm b a). auto. Qed.
