(** * Lemmas for the remapping of time iterators to domain iterators (C33, C34). *)
From Coq Require Import ZArith List Bool Lia Arith.
From Verif Require Import SpecLinear SpecMatrix MathModel ConstraintsModel GcdProofs VecProofs EditProofs MatrixProofs SpecProg ProgModel
  ExportModel ExportProofs.
Import ListNotations.
Open Scope Z_scope.

Definition rw (l : list (list Z)) (k : nat) : list Z := nth k l [].
Definition ent (l : list (list Z)) (k j : nat) : Z := nth j (nth k l []) 0.
Definition width (n : nat) (l : list (list Z)) : Prop := forall k, (k < length l)%nat -> length (rw l k) = n.
Definition kernel (l : list (list Z)) (X : list Z) : Prop := forall k, (k < length l)%nat -> dot (rw l k) X = 0.
Definition comb (f1 f2 : Z) (b a : list Z) : list Z := zip_with (fun x y => x * f1 - y * f2) b a.

Lemma dot_comb2 f g a b x : length a = length b -> dot (comb f g a b) x = f * dot a x - g * dot b x.
Proof. unfold comb. revert b x; induction a; destruct b, x; simpl; intros; try lia. rewrite IHa by lia. lia. Qed.
Lemma comb_length f g a b : length a = length b -> length (comb f g a b) = length a.
Proof. intros. unfold comb. rewrite zip_with_length by auto. lia. Qed.
Lemma comb_nth f g a b j : length a = length b -> nth j (comb f g a b) 0 = f * nth j a 0 - g * nth j b 0.
Proof.
  intros L. destruct (Nat.lt_ge_cases j (length a)).
  - unfold comb. rewrite nth_zip_with by auto. lia.
  - rewrite !nth_overflow; rewrite ?comb_length; lia.
Qed.
Lemma comb_id a b : length a = length b -> comb 1 0 a b = a.
Proof. unfold comb. revert b; induction a; destruct b; simpl; intros; try lia; auto. rewrite IHa by lia. f_equal. lia. Qed.

Lemma zip_firstn_skipn f g from a b : length a = length b -> (forall j, (j < from)%nat -> nth j a 0 = 0 /\ nth j b 0 = 0) ->
  firstn from b ++ zip_with (fun x y => x * f - y * g) (skipn from b) (skipn from a) = comb f g b a.
Proof.
  unfold comb. revert a b. induction from as [|from IH]; intros a b L H; [reflexivity|].
  destruct a as [|u a], b as [|v b]; simpl in L; try lia; [reflexivity|]. cbn [firstn skipn app zip_with].
  destruct (H 0%nat ltac:(lia)) as [H1 H2]. simpl in H1, H2. subst. rewrite IH; [f_equal; lia|lia|]. intros j Hj. apply (H (S j)). lia.
Qed.

Lemma remap_comb_eq from i a b : length a = length b -> nth i a 0 <> 0 -> (forall j, (j < from)%nat -> nth j a 0 = 0 /\ nth j b 0 = 0) ->
  exists f1 f2, f1 <> 0 /\ remap_comb from i a b = comb f1 f2 b a /\ f1 * nth i b 0 - f2 * nth i a 0 = 0.
Proof.
  intros L A H. unfold remap_comb. destruct (Z.eqb_spec (nth i b 0) 0) as [E|E].
  - exists 1, 0. split; [lia|]. split; [rewrite comb_id; auto|]. lia.
  - pose proof (lcm_quot_l _ _ E A) as Q1. pose proof (lcm_quot_r _ _ E A) as Q2.
    destruct (lcm_spec _ _ E A) as (_ & _ & _ & _ & NZ).
    set (l := lcm (nth i b 0) (nth i a 0)) in *. exists (Z.quot l (nth i b 0)), (Z.quot l (nth i a 0)).
    split; [intros Z0; rewrite Z0 in Q1; lia|]. split; [apply zip_firstn_skipn; auto|]. lia.
Qed.

(** A sequence of row operations with pivot row [i]. *)
Definition ops (from i : nat) (ks : list nat) (l : list (list Z)) : list (list Z) :=
  fold_left (fun l k => map_nth k (remap_comb from i (nth i l [])) l) ks l.

Lemma ops_spec n from i ks : forall l, width n l -> NoDup ks -> ~ In i ks -> (i < length l)%nat -> (forall k, In k ks -> (k < length l)%nat) ->
  ent l i i <> 0 -> (forall k j, (j < from)%nat -> k = i \/ In k ks -> ent l k j = 0) ->
  let l' := ops from i ks l in
  length l' = length l /\ width n l' /\ (forall k, ~ In k ks -> rw l' k = rw l k) /\
  (forall k, In k ks -> exists f1 f2, f1 <> 0 /\ rw l' k = comb f1 f2 (rw l k) (rw l i) /\ ent l' k i = 0) /\
  (forall X, kernel l' X <-> kernel l X).
Proof.
  induction ks as [|k ks IH]; intros l W ND NI Hi Hk A Z0; cbv zeta.
  - cbn. split; [auto|]. split; [auto|]. split; [auto|]. split; [contradiction|]. tauto.
  - unfold ops. cbn [fold_left]. set (l1 := map_nth k (remap_comb from i (nth i l [])) l). fold (ops from i ks l1).
    inversion ND as [|? ? ND1 ND2]; subst. assert (k <> i) as NE by (intros ->; apply NI; simpl; auto).
    assert (k < length l)%nat as Hkl by (apply Hk; simpl; auto).
    destruct (remap_comb_eq from i (rw l i) (rw l k)) as (f1 & f2 & F1 & F2 & F3).
    { rewrite !W by auto. reflexivity. }
    { exact A. }
    { intros j Hj. split; apply Z0; simpl; auto. }
    assert (forall k', rw l1 k' = if (k' =? k)%nat then comb f1 f2 (rw l k) (rw l i) else rw l k') as R1.
    { intros k'. unfold rw, l1. rewrite map_nth_nth. destruct (Nat.eqb_spec k' k) as [->|]; [|reflexivity].
      rewrite (proj2 (Nat.ltb_lt _ _) Hkl). cbn [andb]. exact F2. }
    assert (length l1 = length l) as L1 by apply map_nth_length.
    assert (width n l1) as W1.
    { intros k' Hk'. rewrite R1. destruct (k' =? k)%nat; [rewrite comb_length; rewrite !W; auto|apply W; lia]. }
    assert (rw l1 i = rw l i) as Ri by (rewrite R1, (proj2 (Nat.eqb_neq _ _)); auto).
    destruct (IH l1 W1 ND2) as (A1 & A2 & A3 & A4 & A5).
    + intros H; apply NI; simpl; auto.
    + lia.
    + intros k' H. rewrite L1. apply Hk. simpl. auto.
    + unfold ent. fold (rw l1 i). rewrite Ri. exact A.
    + intros k' j Hj H. unfold ent. fold (rw l1 k'). rewrite R1. destruct (Nat.eqb_spec k' k) as [->|]; [destruct H; [congruence|contradiction]|].
      apply (Z0 k' j Hj). simpl. tauto.
    + cbv zeta in *. split; [lia|]. split; [exact A2|]. split; [|split].
      * intros k' H. rewrite A3 by (intros X; apply H; simpl; auto). rewrite R1. rewrite (proj2 (Nat.eqb_neq _ _)) by (intros ->; apply H; simpl; auto). reflexivity.
      * intros k' [<-|H].
        -- exists f1, f2. split; [auto|]. rewrite A3, R1, Nat.eqb_refl by auto. split; [reflexivity|].
           unfold ent. fold (rw (ops from i ks l1) k). rewrite A3, R1, Nat.eqb_refl by auto. rewrite comb_nth by (rewrite !W; auto). exact F3.
        -- destruct (A4 k' H) as (g1 & g2 & G1 & G2 & G3). exists g1, g2. split; [auto|]. rewrite G2, Ri, R1.
           rewrite (proj2 (Nat.eqb_neq _ _)) by (intros ->; contradiction). auto.
      * intros X. rewrite A5. unfold kernel. rewrite L1. split; intros H k' Hk'.
        -- specialize (H k' Hk') as H1. rewrite R1 in H1. destruct (Nat.eqb_spec k' k) as [->|]; [|auto].
           rewrite dot_comb2 in H1 by (rewrite !W; auto). specialize (H i Hi). rewrite Ri in H. rewrite H in H1. nia.
        -- rewrite R1. destruct (Nat.eqb_spec k' k) as [->|]; [|auto]. rewrite dot_comb2 by (rewrite !W; auto). rewrite !H by auto. lia.
Qed.

Lemma down_ops i m : remap_down i m = mkMat (mncols m) (ops i i (seq (S i) (mnrows m - S i)) (mrows m)).
Proof.
  unfold remap_down, ops. generalize (seq (S i) (mnrows m - S i)). intros ks. revert m. induction ks as [|k ks IH]; intros [c l]; [reflexivity|].
  cbn [fold_left mncols mrows]. rewrite IH. reflexivity.
Qed.
Lemma up_ops i m : remap_up i m = mkMat (mncols m) (ops 0 i (rev (seq 0 i)) (mrows m)).
Proof.
  unfold remap_up, ops. generalize (rev (seq 0 i)). intros ks. revert m. induction ks as [|k ks IH]; intros [c l]; [reflexivity|].
  cbn [fold_left mncols mrows]. rewrite IH. reflexivity.
Qed.

(** ** Forward elimination *)
Definition fwd (i : nat) (l : list (list Z)) : Prop :=
  (forall k j, (k < length l)%nat -> (j < i)%nat -> (j < k)%nat -> ent l k j = 0) /\ (forall k, (k < i)%nat -> ent l k k <> 0).

Lemma ent_bound l k j : ent l k j <> 0 -> (k < length l)%nat.
Proof. intros H. destruct (Nat.lt_ge_cases k (length l)); auto. exfalso. apply H. unfold ent. rewrite nth_overflow with (l := l) by auto. destruct j; reflexivity. Qed.

Lemma swap_rw i k l p : (i < length l)%nat -> (k < length l)%nat -> rw (swap_nth [] i k l) p = rw l (if (p =? i)%nat then k else if (p =? k)%nat then i else p).
Proof. intros. unfold rw. apply swap_nth_nth; auto. Qed.
Lemma swap_length {A} (d : A) i k l : length (swap_nth d i k l) = length l.
Proof. unfold swap_nth. rewrite !set_nth_length. reflexivity. Qed.

Lemma pivot_spec n i m : width n (mrows m) -> fwd i (mrows m) ->
  match remap_pivot i m with
  | Some m' => mncols m' = mncols m /\ length (mrows m') = length (mrows m) /\ width n (mrows m') /\ fwd i (mrows m') /\ ent (mrows m') i i <> 0 /\
               (forall X, kernel (mrows m') X <-> kernel (mrows m) X)
  | None => forall k, (i <= k)%nat -> ent (mrows m) k i = 0
  end.
Proof.
  intros W F. unfold remap_pivot. destruct (Z.eqb_spec (mget m i i) 0) as [E|E].
  - destruct (find_pivot i m) as [k|] eqn:FP.
    + unfold find_pivot in FP. apply find_some in FP. destruct FP as [FI FN]. apply in_seq in FI. apply negb_true_iff, Z.eqb_neq in FN.
      assert (k < length (mrows m))%nat as Hk by (apply (ent_bound _ k i FN)). assert (i < length (mrows m))%nat as Hi by lia.
      unfold matrix_interchange_rows. cbn [mncols mrows]. split; [reflexivity|]. split; [apply swap_length|].
      assert (forall p, ent (swap_nth [] i k (mrows m)) p = ent (mrows m) (if (p =? i)%nat then k else if (p =? k)%nat then i else p)) as EP.
      { intros p. unfold ent. fold (rw (swap_nth [] i k (mrows m)) p). rewrite swap_rw by auto. reflexivity. }
      split; [|split; [|split]].
      * intros p Hp. rewrite swap_length in Hp. rewrite swap_rw by auto. apply W. destruct (p =? i)%nat; [lia|]. destruct (p =? k)%nat; lia.
      * destruct F as [F1 F2]. split.
        -- intros p j Hp Hj Hjp. rewrite swap_length in Hp. rewrite EP. destruct (Nat.eqb_spec p i); [|destruct (Nat.eqb_spec p k)]; apply F1; lia.
        -- intros p Hp. rewrite EP. rewrite !(proj2 (Nat.eqb_neq _ _)) by lia. auto.
      * rewrite EP, Nat.eqb_refl. exact FN.
      * intros X. unfold kernel. rewrite swap_length. split; intros H p Hp.
        -- destruct (Nat.eq_dec p i) as [Ei|Ei]; [|destruct (Nat.eq_dec p k) as [Ek|Ek]].
           ++ subst p. specialize (H k Hk). rewrite swap_rw, Nat.eqb_refl in H by auto. rewrite (proj2 (Nat.eqb_neq k i)) in H by lia. exact H.
           ++ subst p. specialize (H i Hi). rewrite swap_rw, Nat.eqb_refl in H by auto. exact H.
           ++ specialize (H p Hp). rewrite swap_rw in H by auto. rewrite !(proj2 (Nat.eqb_neq _ _)) in H by auto. exact H.
        -- rewrite swap_rw by auto. apply H. destruct (p =? i)%nat; [lia|]. destruct (p =? k)%nat; lia.
    + intros k Hk. destruct (Nat.eq_dec k i) as [->|NE]; [exact E|]. destruct (Nat.lt_ge_cases k (length (mrows m))) as [Hl|Hl].
      * unfold find_pivot in FP. pose proof (find_none _ _ FP k) as N. cbv beta in N. apply negb_false_iff, Z.eqb_eq in N; [exact N|].
        apply in_seq. unfold mnrows. lia.
      * unfold ent. rewrite nth_overflow with (l := mrows m) by auto. destruct i; reflexivity.
  - split; [auto|]. split; [auto|]. split; [auto|]. split; [auto|]. split; [exact E|]. tauto.
Qed.

Lemma down_spec n i m : width n (mrows m) -> fwd i (mrows m) -> ent (mrows m) i i <> 0 ->
  let m' := remap_down i m in mncols m' = mncols m /\ length (mrows m') = length (mrows m) /\ width n (mrows m') /\ fwd (S i) (mrows m') /\
  (forall X, kernel (mrows m') X <-> kernel (mrows m) X).
Proof.
  intros W [F1 F2] A. cbv zeta. rewrite down_ops. cbn [mncols mrows]. pose proof (ent_bound _ _ _ A) as Hi.
  set (ks := seq (S i) (mnrows m - S i)).
  assert (forall k, In k ks <-> (i < k < length (mrows m))%nat) as IK by (intros k; unfold ks; rewrite in_seq; unfold mnrows; lia).
  destruct (ops_spec n i i ks (mrows m)) as (B1 & B2 & B3 & B4 & B5); auto.
  - apply seq_NoDup.
  - rewrite IK. lia.
  - intros k H. apply IK in H. lia.
  - intros k j Hj [->|H]; [apply F1; lia|]. apply IK in H. apply F1; lia.
  - cbv zeta in *. split; [auto|]. split; [auto|]. split; [auto|]. split; [|auto]. split.
    + intros k j Hk Hj Hjk. destruct (in_dec Nat.eq_dec k ks) as [I|N].
      * destruct (B4 k I) as (f1 & f2 & _ & R & Z0). apply IK in I. destruct (Nat.eq_dec j i) as [->|]; [exact Z0|].
        unfold ent. fold (rw (ops i i ks (mrows m)) k). rewrite R, comb_nth by (rewrite !W; lia).
        pose proof (F1 k j ltac:(lia) ltac:(lia) ltac:(lia)) as E1. pose proof (F1 i j ltac:(lia) ltac:(lia) ltac:(lia)) as E2. unfold ent in E1, E2. unfold rw. rewrite E1, E2. lia.
      * unfold ent. fold (rw (ops i i ks (mrows m)) k). rewrite (B3 k N). apply F1; try lia. rewrite IK in N. lia.
    + intros k Hk. unfold ent. fold (rw (ops i i ks (mrows m)) k). rewrite B3 by (rewrite IK; lia).
      destruct (Nat.eq_dec k i) as [->|]; [exact A|apply F2; lia].
Qed.

Lemma forward_spec n m : width n (mrows m) -> forall dim,
  match remap_forward dim m with
  | Some m' => mncols m' = mncols m /\ length (mrows m') = length (mrows m) /\ width n (mrows m') /\ fwd dim (mrows m') /\
               (forall X, kernel (mrows m') X <-> kernel (mrows m) X)
  | None => exists i l, (i < dim)%nat /\ width n l /\ fwd i l /\ (forall k, (i <= k)%nat -> ent l k i = 0) /\ (i <= length l)%nat /\
               (forall X, kernel l X <-> kernel (mrows m) X)
  end.
Proof.
  intros W. unfold remap_forward. induction dim as [|dim IH].
  - cbn. split; [auto|]. split; [auto|]. split; [auto|]. split; [|tauto]. split; intros; lia.
  - rewrite seq_S, fold_left_app. cbn [fold_left Nat.add]. destruct (fold_left _ (seq 0 dim) (Some m)) as [m1|].
    + destruct IH as (A1 & A2 & A3 & A4 & A5). pose proof (pivot_spec n dim m1 A3 A4) as P. destruct (remap_pivot dim m1) as [m2|].
      * destruct P as (B1 & B2 & B3 & B4 & B5 & B6). destruct (down_spec n dim m2 B3 B4 B5) as (C1 & C2 & C3 & C4 & C5). cbv zeta in *.
        split; [congruence|]. split; [congruence|]. split; [auto|]. split; [auto|]. intros X. rewrite C5, B6, A5. tauto.
      * exists dim, (mrows m1). split; [lia|]. split; [auto|]. split; [auto|]. split; [auto|]. split; [|auto].
        destruct dim as [|d]; [lia|]. pose proof (ent_bound _ _ _ (proj2 A4 d ltac:(lia))). lia.
    + destruct IH as (i & l & A1 & A2). exists i, l. split; [lia|auto].
Qed.

(** ** A vector in the kernel when column [i] has no pivot *)
Lemma dot_tail a x y c i : length a = length x -> length a = length y -> (forall j, (j < i)%nat -> nth j a 0 = 0) ->
  (forall j, (i <= j)%nat -> nth j y 0 = c * nth j x 0) -> dot a y = c * dot a x.
Proof.
  revert x y i. induction a as [|v a IH]; intros x y i L1 L2 H1 H2; [simpl; lia|].
  destruct x as [|u x], y as [|w y]; simpl in L1, L2; try lia. simpl. destruct i as [|i].
  - pose proof (H2 0%nat ltac:(lia)) as E. simpl in E. rewrite (IH x y 0%nat); try lia. intros j _. apply (H2 (S j)). lia.
  - pose proof (H1 0%nat ltac:(lia)) as E. simpl in E. rewrite (IH x y i); try lia.
    + intros j Hj. apply (H1 (S j)). lia.
    + intros j Hj. apply (H2 (S j)). lia.
Qed.

Lemma dot_set_entry i v a x : length a = length x -> (i < length a)%nat -> dot a (set_nth i v x) = dot a x - nth i a 0 * nth i x 0 + nth i a 0 * v.
Proof.
  revert i x. induction a as [|u a IH]; intros i x L Hi; [simpl in Hi; lia|]. destruct x as [|w x]; simpl in L; [lia|].
  destruct i as [|i]; simpl in *; [lia|]. rewrite IH by lia. lia.
Qed.

Lemma back_substitute n l i : width n l -> fwd i l -> (i <= length l)%nat -> (i <= n)%nat -> forall v, length v = n ->
  exists c v', c <> 0 /\ length v' = n /\ (forall j, (i <= j)%nat -> nth j v' 0 = c * nth j v 0) /\
    forall k, (k < i)%nat -> dot (rw l k) v' = 0.
Proof.
  intros W. induction i as [|i IH]; intros F Hl Hn v Lv.
  - exists 1, v. split; [lia|]. split; [auto|]. split; [intros; lia|intros; lia].
  - set (a := rw l i). assert (length a = n) as La by (apply W; lia). assert (nth i a 0 <> 0) as A by (apply (proj2 F i); lia).
    set (s := dot a (set_nth i 0 v)). set (v1 := set_nth i (- s) (map (Z.mul (nth i a 0)) v)).
    assert (length v1 = n) as L1 by (unfold v1; rewrite set_nth_length, map_length; auto).
    assert (dot a v1 = 0) as D1.
    { unfold v1. rewrite dot_set_entry by (rewrite ?map_length; lia). rewrite dot_map_mul_r. unfold s. rewrite dot_set_entry by lia.
      replace (nth i (map (Z.mul (nth i a 0)) v) 0) with (nth i a 0 * nth i v 0); [ring|].
      rewrite <- (List.map_nth (Z.mul (nth i a 0))). rewrite Z.mul_0_r. reflexivity. }
    destruct (IH (conj (fun k j H1 H2 H3 => proj1 F k j H1 (Nat.lt_lt_succ_r _ _ H2) H3) (fun k H => proj2 F k (Nat.lt_lt_succ_r _ _ H))) ltac:(lia) ltac:(lia) v1 L1)
      as (c & v' & C1 & C2 & C3 & C4).
    exists (c * nth i a 0), v'. split; [nia|]. split; [auto|]. split.
    + intros j Hj. rewrite C3 by lia. unfold v1. rewrite nth_set_nth_neq by lia.
      replace (nth j (map (Z.mul (nth i a 0)) v) 0) with (nth i a 0 * nth j v 0); [ring|].
      rewrite <- (List.map_nth (Z.mul (nth i a 0))). rewrite Z.mul_0_r. reflexivity.
    + intros k Hk. destruct (Nat.eq_dec k i) as [->|]; [|apply C4; lia]. fold a.
      rewrite (dot_tail a v1 v' c i); [rewrite D1; lia|lia|lia| |exact C3]. intros j Hj. apply (proj1 F i j); lia.
Qed.

Lemma kernel_vector n l i : width n l -> fwd i l -> (i <= length l)%nat -> (i < n)%nat -> (forall k, (i <= k)%nat -> ent l k i = 0) ->
  exists v, length v = n /\ nth i v 0 <> 0 /\ (forall j, (i < j)%nat -> nth j v 0 = 0) /\ kernel l v.
Proof.
  intros W F Hl Hn Z0. destruct (back_substitute n l i W F Hl ltac:(lia) (set_nth i 1 (repeat 0 n))) as (c & v & C1 & C2 & C3 & C4).
  { rewrite set_nth_length, repeat_length. reflexivity. }
  exists v. assert (forall j, (i < j)%nat -> nth j v 0 = 0) as T.
  { intros j Hj. rewrite C3 by lia. rewrite nth_set_nth_neq, nth_repeat by lia. lia. }
  split; [auto|]. split; [rewrite C3, nth_set_nth_eq by (rewrite ?repeat_length; lia); lia|]. split; [exact T|].
  intros k Hk. destruct (Nat.lt_ge_cases k i) as [H|H]; [auto|].
  assert (forall j, nth j (rw l k) 0 * nth j v 0 = 0) as P.
  { intros j. destruct (Nat.lt_trichotomy j i) as [H1|[->|H1]].
    - fold (ent l k j). unfold rw. fold (ent l k j). rewrite (proj1 F k j) by lia. lia.
    - unfold rw. fold (ent l k i). rewrite Z0 by lia. lia.
    - rewrite T by auto. lia. }
  clear - P. revert v P. induction (rw l k) as [|u a IH]; intros [|w v] P; simpl; auto.
  pose proof (P 0%nat) as E. simpl in E. rewrite (IH v); [lia|]. intros j. apply (P (S j)).
Qed.

(** ** Backward substitution *)
Definition bwd (dim i : nat) (l : list (list Z)) : Prop :=
  fwd dim l /\ forall k j, (i <= j < dim)%nat -> (k < j)%nat -> ent l k j = 0.

Lemma up_spec n dim i m : width n (mrows m) -> (i < dim)%nat -> bwd dim (S i) (mrows m) ->
  let m' := remap_up i m in mncols m' = mncols m /\ length (mrows m') = length (mrows m) /\ width n (mrows m') /\ bwd dim i (mrows m') /\
  (forall X, kernel (mrows m') X <-> kernel (mrows m) X).
Proof.
  intros W Hi [[F1 F2] B]. cbv zeta. rewrite up_ops. cbn [mncols mrows]. pose proof (F2 i Hi) as A. pose proof (ent_bound _ _ _ A) as Hl.
  set (ks := rev (seq 0 i)).
  assert (forall k, In k ks <-> (k < i)%nat) as IK by (intros k; unfold ks; rewrite <- in_rev, in_seq; lia).
  destruct (ops_spec n 0 i ks (mrows m)) as (B1 & B2 & B3 & B4 & B5); auto.
  - apply NoDup_rev, seq_NoDup.
  - rewrite IK. lia.
  - intros k H. apply IK in H. lia.
  - intros k j Hj. lia.
  - cbv zeta in *. split; [auto|]. split; [auto|]. split; [auto|]. split; [|auto].
    assert (forall k j, (k < i)%nat -> exists f1 f2, f1 <> 0 /\ ent (ops 0 i ks (mrows m)) k j = f1 * ent (mrows m) k j - f2 * ent (mrows m) i j) as C.
    { intros k j Hk. destruct (B4 k) as (f1 & f2 & N & R & _); [apply IK; auto|]. exists f1, f2. split; [auto|]. unfold ent. fold (rw (ops 0 i ks (mrows m)) k).
      rewrite R, comb_nth by (rewrite !W; lia). reflexivity. }
    assert (forall k j, (i <= k)%nat -> ent (ops 0 i ks (mrows m)) k j = ent (mrows m) k j) as D.
    { intros k j Hk. unfold ent. fold (rw (ops 0 i ks (mrows m)) k). rewrite B3 by (rewrite IK; lia). reflexivity. }
    split; [split|].
    + intros k j Hk Hj Hjk. destruct (Nat.lt_ge_cases k i) as [H|H]; [|rewrite D by auto; apply F1; lia].
      destruct (C k j H) as (f1 & f2 & _ & ->). rewrite !F1 by lia. lia.
    + intros k Hk. destruct (Nat.lt_ge_cases k i) as [H|H]; [|rewrite D by auto; apply F2; lia].
      destruct (C k k H) as (f1 & f2 & N & ->). rewrite (F1 i k) by lia. pose proof (F2 k Hk). nia.
    + intros k j Hj Hk. destruct (Nat.lt_ge_cases k i) as [H|H].
      * destruct (Nat.eq_dec j i) as [->|]; [destruct (B4 k) as (_ & _ & _ & _ & Z0); [apply IK; auto|exact Z0]|]. destruct (C k j H) as (f1 & f2 & _ & ->). rewrite !B by lia. lia.
      * rewrite D by auto. apply B; lia.
Qed.

Lemma backward_spec n dim m : width n (mrows m) -> fwd dim (mrows m) ->
  let m' := remap_backward dim m in mncols m' = mncols m /\ length (mrows m') = length (mrows m) /\ width n (mrows m') /\ bwd dim 0 (mrows m') /\
  (forall X, kernel (mrows m') X <-> kernel (mrows m) X).
Proof.
  intros W F. unfold remap_backward.
  assert (forall i m, (i <= dim)%nat -> width n (mrows m) -> bwd dim i (mrows m) ->
    let m' := fold_left (fun m i => remap_up i m) (rev (seq 0 i)) m in
    mncols m' = mncols m /\ length (mrows m') = length (mrows m) /\ width n (mrows m') /\ bwd dim 0 (mrows m') /\
    (forall X, kernel (mrows m') X <-> kernel (mrows m) X)) as G.
  { clear m W F. induction i as [|i IH]; intros m Hi W B; cbv zeta in *.
    - cbn. split; [auto|]. split; [auto|]. split; [auto|]. split; [auto|]. tauto.
    - rewrite seq_S, rev_app_distr. cbn [rev app fold_left Nat.add]. destruct (up_spec n dim i m W ltac:(lia) B) as (A1 & A2 & A3 & A4 & A5). cbv zeta in *.
      destruct (IH _ ltac:(lia) A3 A4) as (C1 & C2 & C3 & C4 & C5). split; [congruence|]. split; [congruence|]. split; [auto|]. split; [auto|].
      intros X. rewrite C5, A5. tauto. }
  apply G; auto. split; [auto|]. intros. lia.
Qed.

(** ** The remaining steps *)
Lemma remove_last {A} (l : list A) : remove_at (length l - 1) l = firstn (length l - 1) l.
Proof.
  induction l as [|x l IH]; [reflexivity|]. destruct l as [|y l]; [reflexivity|].
  replace (length (x :: y :: l) - 1)%nat with (S (length (y :: l) - 1)) by (simpl; lia). cbn [remove_at firstn]. f_equal. exact IH.
Qed.

Lemma drop_rows_eq dim m : (dim <= mnrows m)%nat -> drop_rows dim m = mkMat (mncols m) (firstn dim (mrows m)).
Proof.
  intros H. unfold drop_rows. assert (length (rev (seq dim (mnrows m - dim))) = (mnrows m - dim)%nat) as L by (rewrite rev_length, seq_length; auto).
  revert L. generalize (rev (seq dim (mnrows m - dim))). intros ks. revert m H. induction ks as [|k ks IH]; intros [c l] H L; unfold mnrows in *; cbn [mrows mncols] in *; simpl in L.
  - cbn. f_equal. symmetry. apply firstn_all2. lia.
  - cbn [fold_left]. unfold matrix_remove_row. unfold mnrows. cbn [mrows mncols]. rewrite IH; cbn [mrows mncols]; rewrite ?remove_last, ?firstn_length; try lia.
    f_equal. rewrite firstn_firstn. f_equal. lia.
Qed.

Lemma fold_rows_nth (f : nat -> list Z -> list Z) m l : let l' := fold_left (fun l i => map_nth i (f i) l) (seq 0 m) l in
  length l' = length l /\ forall k, (k < length l)%nat -> nth k l' [] = if (k <? m)%nat then f k (nth k l []) else nth k l [].
Proof.
  cbv zeta. induction m as [|m (I1 & I2)]; [split; [reflexivity|]; intros; reflexivity|].
  rewrite seq_S, fold_left_app. cbn [fold_left Nat.add]. split; [rewrite map_nth_length; auto|]. intros k Hk. rewrite map_nth_nth, I1.
  destruct (Nat.eqb_spec k m) as [->|].
  - rewrite (proj2 (Nat.ltb_lt _ _) Hk). cbn [andb]. rewrite I2, Nat.ltb_irrefl by auto. rewrite (proj2 (Nat.ltb_lt m (S m))) by lia. reflexivity.
  - cbn [andb]. rewrite I2 by auto. destruct (Nat.ltb_spec k m), (Nat.ltb_spec k (S m)); try lia; reflexivity.
Qed.

Lemma fold_mat_rows (f : matrix -> nat -> matrix) (g : nat -> list Z -> list Z) ks : (forall m i, f m i = mkMat (mncols m) (map_nth i (g i) (mrows m))) ->
  forall m, fold_left f ks m = mkMat (mncols m) (fold_left (fun l i => map_nth i (g i) l) ks (mrows m)).
Proof.
  intros E. induction ks as [|k ks IH]; intros [c l]; [reflexivity|]. cbn [fold_left]. rewrite E, IH. reflexivity.
Qed.

Lemma map_nth_id {A} i (f : A -> A) l : (forall x, nth_error l i = Some x -> f x = x) -> map_nth i f l = l.
Proof.
  unfold map_nth. destruct (nth_error l i) as [x|] eqn:E; [|auto]. intros H. rewrite (H x eq_refl).
  clear H. revert i E. induction l as [|y l IH]; intros [|i] E; simpl in *; try discriminate; [congruence|]. f_equal. auto.
Qed.
Lemma map_nth_ext {A} i (f g : A -> A) l : (forall x, nth_error l i = Some x -> f x = g x) -> map_nth i f l = map_nth i g l.
Proof. unfold map_nth. destruct (nth_error l i) as [x|]; [|auto]. intros H. rewrite (H x eq_refl). reflexivity. Qed.

Lemma sign_eq m i : remap_sign i m = mkMat (mncols m) (map_nth i (fun r => if nth i r 0 <=? -1 then map Z.opp r else r) (mrows m)).
Proof.
  unfold remap_sign, mget. destruct (Z.leb_spec (nth i (nth i (mrows m) []) 0) (-1)) as [H|H].
  - unfold matrix_negate_row. f_equal. apply map_nth_ext. intros x E. apply nth_error_nth with (d := []) in E. rewrite E in H.
    rewrite (proj2 (Z.leb_le _ _) H). reflexivity.
  - rewrite map_nth_id; [destruct m; reflexivity|]. intros x E. apply nth_error_nth with (d := []) in E. rewrite E in H.
    rewrite (proj2 (Z.leb_gt _ _) H). reflexivity.
Qed.

Lemma remove_cols_eq dim m : (dim <= mncols m)%nat -> fold_left (fun m _ => matrix_remove_col m 0) (seq 0 dim) m = mkMat (mncols m - dim) (map (skipn dim) (mrows m)).
Proof.
  intros H. induction dim as [|dim IH].
  - cbn [seq fold_left]. destruct m as [c l]. cbn [mncols mrows]. rewrite Nat.sub_0_r. f_equal. symmetry. apply map_id.
  - rewrite seq_S, fold_left_app. cbn [fold_left]. rewrite IH by lia. unfold matrix_remove_col. cbn [mncols mrows]. f_equal; [lia|]. rewrite map_map. apply map_ext.
    intros r. clear. revert r. induction dim as [|dim IH]; intros [|x r]; try reflexivity. cbn [skipn] in *. destruct r; [destruct dim; reflexivity|]. apply IH.
Qed.

Lemma insert_last {A} (l : list A) v : insert_at (length l) v l = l ++ [v].
Proof. apply insert_at_end. Qed.

Definition unit_rows (w npar cnt : nat) : list (list Z) := map (fun i => set_nth (w - npar - 1 + i) 1 (repeat 0 w)) (seq 0 cnt).

Lemma unit_rows_eq npar m : add_unit_rows npar m = mkMat (mncols m) (mrows m ++ unit_rows (mncols m) npar (npar + 1)).
Proof.
  unfold add_unit_rows. generalize (npar + 1)%nat. intros cnt. induction cnt as [|cnt IH].
  - cbn. rewrite app_nil_r. destruct m; reflexivity.
  - rewrite seq_S, fold_left_app. cbn [fold_left Nat.add]. rewrite IH. cbv zeta. unfold matrix_add_row, set_entry, mnrows. cbn [mncols mrows].
    f_equal. rewrite insert_last, app_length. cbn [length]. unfold unit_rows. rewrite seq_S, map_app, app_assoc. cbn [map Nat.add].
    set (l := mrows m ++ map _ (seq 0 cnt)). rewrite Nat.add_sub. unfold map_nth. rewrite nth_error_app2, Nat.sub_diag by lia. cbn [nth_error].
    clear. induction l as [|x l IH]; [reflexivity|]. cbn [length app set_nth]. f_equal. exact IH.
Qed.

(** ** Iterators to the left *)
Lemma move_one (a u b : list Z) v : insert_at (length a) (nth (length u + length a) (a ++ u ++ v :: b) 0) (remove_at (length u + length a) (a ++ u ++ v :: b)) = (a ++ [v]) ++ u ++ b.
Proof.
  assert (nth (length u + length a) (a ++ u ++ v :: b) 0 = v) as ->.
  { rewrite app_nth2 by lia. rewrite app_nth2 by lia. replace (length u + length a - length a - length u)%nat with 0%nat by lia. reflexivity. }
  assert (remove_at (length u + length a) (a ++ u ++ v :: b) = a ++ u ++ b) as ->.
  { induction a as [|x a IH].
    - simpl. rewrite Nat.add_0_r. induction u as [|x u IHu]; [reflexivity|]. simpl. f_equal. exact IHu.
    - cbn [length app]. rewrite Nat.add_succ_r. cbn [remove_at]. f_equal. exact IH. }
  induction a as [|x a IH]; [destruct u; reflexivity|]. cbn [length app insert_at]. f_equal. exact IH.
Qed.

Definition left_row (dim n k : nat) (r : list Z) : list Z := map Z.opp (firstn dim r) ++ set_nth k 1 (repeat 0 n) ++ map Z.opp (skipn dim r).

Lemma left_spec t dim : wf_mat t -> (dim <= mncols t)%nat -> (forall r, In r (mrows t) -> forall j, (j < dim)%nat -> Z.abs (nth j r 0) < 2 ^ 31) ->
  let m := iterators_left dim (schedule_matrix t) in
  mncols m = (mnrows t + mncols t)%nat /\ length (mrows m) = mnrows t /\
  forall k, (k < mnrows t)%nat -> rw (mrows m) k = left_row dim (mnrows t) k (rw (mrows t) k).
Proof.
  intros W. destruct (schedule_matrix_spec t) as (C & R & K). set (m0 := schedule_matrix t) in *. clearbody m0. cbv zeta. unfold iterators_left.
  induction dim as [|d IH]; intros Hd HF.
  - cbn [seq fold_left]. split; [auto|]. split; [exact R|]. intros k Hk. unfold rw. rewrite K by auto. reflexivity.
  - rewrite seq_S, fold_left_app. cbn [fold_left Nat.add]. destruct IH as (I1 & I2 & I3); [lia|intros; apply HF; auto|].
    set (m := fold_left _ (seq 0 d) m0) in *. clearbody m.
    assert (forall k, (k < mnrows t)%nat -> length (rw (mrows t) k) = mncols t) as LW by (intros k Hk; apply W, nth_In; exact Hk).
    assert (forall k, (k < mnrows t)%nat -> rw (mrows m) k = map Z.opp (firstn d (rw (mrows t) k)) ++ set_nth k 1 (repeat 0 (mnrows t)) ++
              - nth d (rw (mrows t) k) 0 :: map Z.opp (skipn (S d) (rw (mrows t) k))) as I4.
    { intros k Hk. rewrite I3 by auto. unfold left_row. do 2 f_equal.
      assert (skipn d (rw (mrows t) k) = nth d (rw (mrows t) k) 0 :: skipn (S d) (rw (mrows t) k)) as ->; [|reflexivity].
      pose proof (LW k Hk). revert H Hd. generalize (rw (mrows t) k) (mncols t). clear. induction d as [|d IH]; intros [|x l] n H Hd; simpl in *; try lia; [reflexivity|].
      rewrite (IH l (n - 1)%nat) by lia. reflexivity. }
    assert (forall k, (k < mnrows t)%nat -> length (map Z.opp (firstn d (rw (mrows t) k))) = d) as LA by (intros k Hk; rewrite map_length, firstn_length, LW by auto; lia).
    assert (mnrows m = mnrows t) as RM by exact I2.
    rewrite move_col_rows.
    + cbn [mncols mrows]. split; [exact I1|]. split; [rewrite map_length; exact I2|]. intros k Hk. unfold rw at 1.
      rewrite nth_map_row by (right; rewrite I2; exact Hk). fold (rw (mrows m) k). rewrite RM, I4 by auto.
      pose proof (move_one (map Z.opp (firstn d (rw (mrows t) k))) (set_nth k 1 (repeat 0 (mnrows t))) (map Z.opp (skipn (S d) (rw (mrows t) k))) (- nth d (rw (mrows t) k) 0)) as M.
      rewrite LA, set_nth_length, repeat_length in M by auto. rewrite M. unfold left_row. f_equal.
      clear - LW Hk Hd. pose proof (LW k Hk) as L. revert L Hd. generalize (rw (mrows t) k) (mncols t). induction d as [|d IH]; intros [|x l] n L Hd; simpl in *; try lia; [reflexivity|].
      f_equal. apply (IH l (n - 1)%nat); lia.
    + intros r Hr. apply (In_nth _ _ []) in Hr. destruct Hr as (k & Hk & <-). fold (rw (mrows m) k). rewrite I4 by lia.
      rewrite !app_length. cbn [length]. rewrite LA, set_nth_length, repeat_length, map_length, skipn_length, LW, I1 by lia. lia.
    + rewrite I1, RM. lia.
    + rewrite I1. lia.
    + intros r Hr. apply (In_nth _ _ []) in Hr. destruct Hr as (k & Hk & <-). fold (rw (mrows m) k). rewrite I4 by lia.
      rewrite app_nth2 by (rewrite LA by lia; lia). rewrite LA by lia. rewrite app_nth2 by (rewrite set_nth_length, repeat_length; lia).
      rewrite set_nth_length, repeat_length. replace (mnrows m + d - d - mnrows t)%nat with 0%nat by lia. cbn [nth].
      pose proof (HF (rw (mrows t) k) ltac:(apply nth_In; unfold mnrows in *; lia) d ltac:(lia)). unfold fits32. lia.
Qed.

Lemma left_row_dot dim n k r x t q : (k < n)%nat -> length t = n -> length x = dim -> (dim <= length r)%nat ->
  dot (left_row dim n k r) (x ++ t ++ q) = nth k t 0 - dot r (x ++ q).
Proof.
  intros Hk Lt Lx Lr. unfold left_row. rewrite dot_app by (rewrite map_length, firstn_length; lia). rewrite dot_app by (rewrite set_nth_length, repeat_length; lia).
  rewrite !dot_map_opp. rewrite (dot_comm (set_nth _ _ _)), dot_unit by auto.
  rewrite <- (firstn_skipn dim r) at 3. rewrite (dot_app (firstn dim r)) by (rewrite firstn_length; lia). lia.
Qed.
