(** * Rank: dimension of the row space; pluto_matrix_get_rank. *)
From Coq Require Import ZArith List Bool Lia Permutation.
From Verif Require Import SpecLinear SpecMatrix VecProofs MathModel GcdProofs.
Import ListNotations.
Open Scope Z_scope.

Lemma list_ext_nth {A} (d : A) l1 l2 : length l1 = length l2 ->
  (forall i, (i < length l1)%nat -> nth i l1 d = nth i l2 d) -> l1 = l2.
Proof.
  revert l2; induction l1; destruct l2; simpl; intros H H0; try lia; auto.
  f_equal. apply (H0 0%nat); lia. apply IHl1; [lia|]. intros i Hi. apply (H0 (S i)). lia.
Qed.

Lemma nth_map_mul k (v : list Z) i : nth i (map (Z.mul k) v) 0 = k * nth i v 0.
Proof. revert i; induction v; destruct i; simpl; auto; lia. Qed.

Lemma nth_zip_add a b i : length a = length b -> nth i (zip_with Z.add a b) 0 = nth i a 0 + nth i b 0.
Proof.
  revert b i; induction a; destruct b, i; simpl; intros; try lia. apply IHa; lia.
Qed.

(** Coordinates of a combination. *)
Definition wfv (n : nat) (vs : list (list Z)) : Prop := forall v, In v vs -> length v = n.

Lemma wfv_cons n v vs : wfv n (v :: vs) <-> length v = n /\ wfv n vs.
Proof.
  unfold wfv; simpl. split.
  - intros H; split; auto.
  - intros [H1 H2] w [<-|Hw]; auto.
Qed.

Lemma wfv_app n l1 l2 : wfv n (l1 ++ l2) <-> wfv n l1 /\ wfv n l2.
Proof.
  unfold wfv. split.
  - intros H; split; intros; apply H; apply in_or_app; auto.
  - intros [H1 H2] v Hv. apply in_app_or in Hv. destruct Hv; auto.
Qed.

Lemma lincomb_length n cs vs : wfv n vs -> length (lincomb n cs vs) = n.
Proof.
  revert vs; induction cs as [|c cs IH]; intros [|v vs] H; simpl; rewrite ?repeat_length; auto.
  apply wfv_cons in H as [H1 H2]. rewrite zip_with_length; rewrite ?map_length; auto.
  rewrite IH; auto.
Qed.

(** Column [i] of the vectors. *)
Definition coln (i : nat) (vs : list (list Z)) : list Z := map (fun v => nth i v 0) vs.

Lemma nth_lincomb n cs vs i : wfv n vs -> nth i (lincomb n cs vs) 0 = dot cs (coln i vs).
Proof.
  revert vs; induction cs as [|c cs IH]; intros [|v vs] H; simpl; auto using nth_repeat.
  apply wfv_cons in H as [H1 H2].
  rewrite nth_zip_add, nth_map_mul, IH; auto.
  rewrite map_length, lincomb_length; auto.
Qed.

Lemma lincomb_eq n cs vs w : wfv n vs -> length w = n ->
  (lincomb n cs vs = w <-> forall i, (i < n)%nat -> dot cs (coln i vs) = nth i w 0).
Proof.
  intros Hv Hw. split.
  - intros <- i Hi. rewrite nth_lincomb; auto.
  - intros H. apply (list_ext_nth 0); rewrite lincomb_length; auto.
    intros i Hi. rewrite nth_lincomb by auto. auto.
Qed.

Lemma in_span_coord n vs v : wfv n vs -> length v = n ->
  (in_span n vs v <-> exists d cs, d <> 0 /\ length cs = length vs /\
     forall i, (i < n)%nat -> d * nth i v 0 = dot cs (coln i vs)).
Proof.
  intros Hv Hl. split; intros (d & cs & H1 & H2 & H3); exists d, cs; repeat split; auto.
  - intros i Hi. symmetry. rewrite <- nth_map_mul.
    apply (lincomb_eq n); auto. rewrite map_length; auto.
  - symmetry. apply lincomb_eq; auto. rewrite map_length; auto.
    intros i Hi. rewrite nth_map_mul, H3; auto.
Qed.

(** ** A homogeneous system with more unknowns than equations has a non-trivial solution *)
Lemma nonzero_dec (r : list Z) : (forall v, In v r -> v = 0) \/ exists p, (p < length r)%nat /\ nth p r 0 <> 0.
Proof.
  induction r as [|a r [IH|(p & Hp & H)]]; simpl.
  - left; tauto.
  - destruct (Z.eq_dec a 0).
    + left. intros v [<-|Hv]; auto.
    + right. exists 0%nat. split; [lia|auto].
  - right. exists (S p). split; [lia|auto].
Qed.

Lemma dot_zero_all r x : (forall v, In v r -> v = 0) -> dot r x = 0.
Proof. revert x; induction r; destruct x; simpl; intros; auto. rewrite (H a) by auto. rewrite IHr by auto. lia. Qed.

Lemma homogeneous_nontrivial (m : list (list Z)) n :
  (forall r, In r m -> length r = n) -> (length m < n)%nat ->
  exists x, length x = n /\ (exists v, In v x /\ v <> 0) /\ forall r, In r m -> dot r x = 0.
Proof.
  remember (length m) as k eqn:Ek. revert m n Ek. induction k as [|k IH]; intros m n Ek Hm Hn.
  - destruct m; [|discriminate]. exists (1 :: repeat 0 (n - 1)). split; [|split].
    + simpl. rewrite repeat_length. lia.
    + exists 1. simpl. split; auto. lia.
    + intros r [].
  - destruct m as [|r m]; [discriminate|].
    assert (length r = n) as Lr by (apply Hm; simpl; auto).
    destruct (nonzero_dec r) as [Hz|(p & Hp & Hpz)].
    + destruct (IH m n ltac:(simpl in Ek; lia) ltac:(intros; apply Hm; simpl; auto) ltac:(lia)) as (x & Lx & Nx & Hx).
      exists x. split; [auto|split; auto]. intros s [<-|Hs]; auto. apply dot_zero_all; auto.
    + set (P := nth p r 0) in *.
      set (elim := fun s : list Z => remove_at p (zip_with (fun a b => P * a - nth p s 0 * b) s r)).
      destruct (IH (map elim m) (n - 1)%nat) as (y & Ly & (v & Hv & Nv) & Hy).
      { rewrite map_length. simpl in Ek; lia. }
      { intros s Hs. apply in_map_iff in Hs as (t & <- & Ht). unfold elim.
        rewrite remove_at_length; rewrite zip_with_length; rewrite ?Lr; auto; try (apply Hm; simpl; auto).
        rewrite (Hm t) by (simpl; auto). auto. rewrite (Hm t) by (simpl; auto). lia. }
      { lia. }
      (* x_p = - (r without p).y ; others P*y *)
      exists (insert_at p (- dot (remove_at p r) y) (map (Z.mul P) y)). split; [|split].
      * rewrite insert_at_length, map_length. lia.
      * exists (P * v). split; [|intros E; apply Z.mul_eq_0 in E; tauto].
        apply In_insert_at. right. apply in_map_iff. exists v; auto.
      * assert (forall s, length s = n ->
           dot s (insert_at p (- dot (remove_at p r) y) (map (Z.mul P) y)) =
           P * dot (remove_at p s) y - nth p s 0 * dot (remove_at p r) y) as E.
        { intros s Ls. rewrite dot_insert_point by (rewrite ?map_length; lia).
          rewrite dot_map_mul_r. ring. }
        intros s [<-|Hs].
        -- rewrite E by auto. fold P. ring.
        -- rewrite E by (apply Hm; simpl; auto).
           specialize (Hy (elim s) ltac:(apply in_map; auto)). unfold elim in Hy.
           assert (length s = n) as Ls by (apply Hm; simpl; auto).
           rewrite zip_with_remove_at in Hy by lia.
           etransitivity; [|exact Hy]. clear Hy.
           assert (length (remove_at p s) = length y /\ length (remove_at p r) = length y) as [A B]
             by (rewrite !remove_at_length by lia; lia).
           revert A B. generalize (remove_at p s) (remove_at p r) (nth p s 0). clear.
           induction y as [|w y IH]; intros [|a l1] [|b l2] q A B; simpl in *; try lia.
           rewrite <- IH by lia. ring.
Qed.

(** ** Steinitz: independent vectors in the span of B are at most |B| *)
Lemma dot_scaled_family (x ds : list Z) (a : list Z) :
  length x = length a -> length ds = length a ->
  dot (zip_with Z.mul x ds) a = dot x (zip_with Z.mul ds a).
Proof.
  revert ds a; induction x as [|u x IHx]; intros [|e ds] [|f a]; simpl; intros; try lia. rewrite IHx by lia. lia.
Qed.

Lemma span_family n A B : wfv n A -> wfv n B -> (forall a, In a A -> in_span n B a) ->
  exists ds M, length ds = length A /\ length M = length A /\
    (forall d, In d ds -> d <> 0) /\ (forall c, In c M -> length c = length B) /\
    forall i, (i < n)%nat ->
      zip_with Z.mul ds (coln i A) = map (fun c => dot c (coln i B)) M.
Proof.
  intros HA HB. induction A as [|a A IH]; intros H.
  - exists [], []. repeat split; simpl; auto; try tauto.
  - apply wfv_cons in HA as [La HA].
    destruct (IH HA ltac:(intros; apply H; simpl; auto)) as (ds & M & L1 & L2 & D & C & E).
    specialize (H a (or_introl eq_refl)). apply in_span_coord in H as (d & c & Hd & Hc & He); auto.
    exists (d :: ds), (c :: M). simpl. repeat split; try lia.
    + intros d' [<-|Hd']; auto.
    + intros c' [<-|Hc']; auto.
    + intros i Hi. f_equal; auto.
Qed.

Lemma dot_map_dot x M (b : list Z) : length x = length M ->
  dot x (map (fun c => dot c b) M) = dot (map (fun j => dot x (coln j M)) (seq 0 (length b))) b.
Proof.
  revert M. induction x as [|v x IH]; intros [|c M] H; simpl in *; try lia.
  - symmetry. apply dot_zero_all. intros w Hw. apply in_map_iff in Hw as (j & <- & _). auto.
  - rewrite IH by lia.
    assert (forall s (b : list Z),
      v * dot (skipn s c) b + dot (map (fun j => dot x (coln j M)) (seq s (length b))) b =
      dot (map (fun j => v * nth j c 0 + dot x (coln j M)) (seq s (length b))) b) as K.
    { clear. intros s b; revert s; induction b as [|w b IH]; intros s; simpl.
      - rewrite dot_nil_r. lia.
      - rewrite <- IH.
        assert (dot (skipn s c) (w :: b) = nth s c 0 * w + dot (skipn (S s) c) b) as ->.
        { clear. revert s; induction c; intros [|s]; simpl; auto. apply IHc. }
        ring. }
    apply (K 0%nat b).
Qed.

Lemma steinitz n A B : wfv n A -> wfv n B -> independent n A ->
  (forall a, In a A -> in_span n B a) -> (length A <= length B)%nat.
Proof.
  intros HA HB Hi Hs. destruct (le_lt_dec (length A) (length B)) as [|Hlt]; auto. exfalso.
  destruct (span_family n A B HA HB Hs) as (ds & M & L1 & L2 & D & C & E).
  (* find x with x M = 0 *)
  destruct (homogeneous_nontrivial (map (fun j => coln j M) (seq 0 (length B))) (length A))
    as (x & Lx & (v & Hv & Nv) & Hx).
  - intros r Hr. apply in_map_iff in Hr as (j & <- & _). unfold coln. rewrite map_length. auto.
  - rewrite map_length, seq_length. auto.
  - assert (forall c, In c (zip_with Z.mul x ds) -> c = 0) as K.
    { apply Hi. rewrite zip_with_length; lia.
      apply lincomb_eq; auto. apply repeat_length.
      intros i Hin. rewrite nth_repeat.
      rewrite dot_scaled_family by (unfold coln; rewrite map_length; lia).
      rewrite E by auto. rewrite dot_map_dot by lia.
      apply dot_zero_all. intros w Hw. apply in_map_iff in Hw as (j & <- & Hj).
      rewrite dot_comm. apply Hx. apply in_map_iff. exists j. split; auto.
      unfold coln in Hj. rewrite map_length in Hj. auto. }
    assert (exists c, In c (zip_with Z.mul x ds) /\ c <> 0) as (c & Hc & Nc).
    { assert (length x = length ds) as L by lia. revert L D Hv Nv. clear.
      revert ds. induction x as [|a x IH]; intros [|d ds] L D Hv Nv; simpl in *; try lia; try tauto.
      destruct Hv as [->|Hv].
      - exists (v * d). split; auto. intros X. apply Z.mul_eq_0 in X.
        destruct X; auto. apply (D d); auto.
      - destruct (IH ds ltac:(lia) ltac:(intros; apply D; auto) Hv Nv) as (c & Hc & Nc). eauto. }
    apply Nc, K, Hc.
Qed.

(** ** Spans compose *)
Lemma in_span_trans n A B v : wfv n A -> wfv n B -> length v = n ->
  in_span n A v -> (forall a, In a A -> in_span n B a) -> in_span n B v.
Proof.
  intros HA HB Hv Hs Ha.
  apply in_span_coord in Hs as (d & cs & Hd & Lc & E); auto.
  assert (exists e bs, e <> 0 /\ length bs = length B /\
     forall i, (i < n)%nat -> e * dot cs (coln i A) = dot bs (coln i B)) as (e & bs & He & Lb & Eb).
  { clear d Hd E. revert cs Lc. induction A as [|a A IH]; intros [|c cs] Lc; simpl in Lc; try lia.
    - exists 1, (repeat 0 (length B)). repeat split; try lia. apply repeat_length.
      intros. simpl. rewrite dot_repeat0_l. auto.
    - apply wfv_cons in HA as [La HA].
      destruct (IH HA ltac:(intros; apply Ha; simpl; auto) cs ltac:(lia)) as (e & bs & He & Lb & Eb).
      specialize (Ha a (or_introl eq_refl)). apply in_span_coord in Ha as (d & ds & Hd & Ld & Ed); auto.
      exists (e * d), (zip_with (fun p q => (e * c) * p + d * q) ds bs).
      split; [|split].
      + intros X. apply Z.mul_eq_0 in X. tauto.
      + rewrite zip_with_length; lia.
      + intros i Hi. specialize (Eb i Hi). specialize (Ed i Hi). simpl.
        assert (dot (zip_with (fun p q => e * c * p + d * q) ds bs) (coln i B) =
                e * c * dot ds (coln i B) + d * dot bs (coln i B)) as ->.
        { assert (length (coln i B) = length B) as L by (unfold coln; apply map_length).
          revert Ld Lb L. generalize (coln i B) (length B). clear. intros l m.
          revert bs l m. induction ds as [|x ds IH]; intros [|y bs] [|z l] m; simpl; intros; try lia.
          destruct m; [lia|]. rewrite (IH bs l m) by lia. ring. }
        rewrite <- Ed, <- Eb. ring. }
  apply in_span_coord; auto. exists (e * d), bs. split; [|split; auto].
  - intros X. apply Z.mul_eq_0 in X. tauto.
  - intros i Hi. rewrite <- Eb by auto. rewrite <- E by auto. ring.
Qed.

Lemma in_span_self n vs v : wfv n vs -> In v vs -> in_span n vs v.
Proof.
  intros Hw Hin. apply in_span_coord; auto.
  apply In_nth_error in Hin as [k Hk].
  exists 1, (set_nth k 1 (repeat 0 (length vs))).
  assert (k < length vs)%nat as Hl by (apply nth_error_Some; congruence).
  split; [lia|]. split. { rewrite set_nth_length, repeat_length; auto. }
  intros i Hi. rewrite dot_set_nth by (unfold coln; rewrite ?repeat_length, ?map_length; auto).
  rewrite dot_repeat0_l, nth_repeat. unfold coln.
  rewrite (nth_error_nth (map (fun v => nth i v 0) vs) k 0 (x := nth i v 0)). lia.
  apply (map_nth_error (fun v => nth i v 0)); auto.
Qed.

Lemma has_rank_unique n vs k1 k2 : wfv n vs -> has_rank n vs k1 -> has_rank n vs k2 -> k1 = k2.
Proof.
  intros Hw (B1 & <- & W1 & I1 & S1 & T1) (B2 & <- & W2 & I2 & S2 & T2).
  assert (forall a, In a B1 -> in_span n B2 a).
  { intros a Ha. apply (in_span_trans n vs); auto. }
  assert (forall a, In a B2 -> in_span n B1 a).
  { intros a Ha. apply (in_span_trans n vs); auto. }
  apply Nat.le_antisymm; apply (steinitz n); auto.
Qed.

(** ** Row echelon form *)
Definition same_span (n : nat) (A B : list (list Z)) : Prop :=
  (forall a, In a A -> in_span n B a) /\ (forall b, In b B -> in_span n A b).

Lemma same_span_trans n A B C : wfv n A -> wfv n B -> wfv n C ->
  same_span n A B -> same_span n B C -> same_span n A C.
Proof.
  intros HA HB HC [H1 H2] [H3 H4]. split; intros.
  - apply (in_span_trans n B); auto.
  - apply (in_span_trans n B); auto.
Qed.

Lemma same_span_incl n A B : wfv n A -> wfv n B -> (forall v, In v A <-> In v B) -> same_span n A B.
Proof. intros HA HB H. split; intros; apply in_span_self; auto; apply H; auto. Qed.

Lemma swap_nth_perm {A} (d : A) i j l : (i < length l)%nat -> (j < length l)%nat ->
  forall v, In v (swap_nth d i j l) <-> In v l.
Proof.
  intros Hi Hj v.
  assert (forall k (x : A) m, (k < length m)%nat ->
     (In v (set_nth k x m) <-> v = x \/ exists p, (p < length m)%nat /\ p <> k /\ nth p m d = v)) as K.
  { clear. intros k x m Hk. split.
    - intros H. apply (In_nth _ _ d) in H as (p & Hp & E). rewrite set_nth_length in Hp.
      destruct (Nat.eq_dec p k) as [->|N].
      + rewrite nth_set_nth_eq in E by auto. auto.
      + rewrite nth_set_nth_neq in E by auto. eauto.
    - intros [->|(p & Hp & N & E)].
      + rewrite <- (nth_set_nth_eq k x d m) at 1 by auto. apply nth_In. rewrite set_nth_length. auto.
      + rewrite <- E, <- (nth_set_nth_neq k p x d m) by auto. apply nth_In. rewrite set_nth_length. auto. }
  unfold swap_nth. rewrite K by (rewrite set_nth_length; auto). split.
  - intros [->|(p & Hp & N & E)].
    + apply nth_In; auto.
    + rewrite set_nth_length in Hp. destruct (Nat.eq_dec p i) as [->|N2].
      * rewrite nth_set_nth_eq in E by auto. subst. apply nth_In; auto.
      * rewrite nth_set_nth_neq in E by auto. subst. apply nth_In; auto.
  - intros H. apply (In_nth _ _ d) in H as (p & Hp & E).
    destruct (Nat.eq_dec p i) as [->|N]; auto.
    right. rewrite set_nth_length. destruct (Nat.eq_dec p j) as [->|N2].
    + exists i. split; auto. destruct (Nat.eq_dec i j); [congruence|]. split; auto.
      rewrite nth_set_nth_eq; auto.
    + exists p. repeat split; auto. rewrite nth_set_nth_neq; auto.
Qed.

Lemma in_span_comb n vs a b f1 f2 v : wfv n vs -> length v = n -> In a vs -> In b vs ->
  f1 <> 0 -> (forall i, (i < n)%nat -> f1 * nth i v 0 = f2 * nth i a 0 + nth i b 0) -> in_span n vs v.
Proof.
  intros Hw Lv Ha Hb Hf E.
  apply (in_span_trans n [a; b]); auto.
  - intros x [<-|[<-|[]]]; auto.
  - apply in_span_coord; auto. intros x [<-|[<-|[]]]; auto.
    exists f1, [f2; 1]. repeat split; auto. intros i Hi. rewrite E by auto. cbn [coln map dot]. ring.
  - intros x [<-|[<-|[]]]; apply in_span_self; auto.
Qed.

(** Replacing rows by combinations with a kept pivot row. *)
Lemma echelon_row_comb i a b : length a = length b ->
  nth i a 0 <> 0 ->
  (forall j, (j < i)%nat -> nth j a 0 = 0) -> (forall j, (j < i)%nat -> nth j b 0 = 0) ->
  length (echelon_row i a b) = length b /\
  (forall j, (j <= i)%nat -> nth j (echelon_row i a b) 0 = 0) /\
  exists f1 f2, f1 <> 0 /\ forall j, nth j (echelon_row i a b) 0 = f1 * nth j b 0 - f2 * nth j a 0.
Proof.
  intros Hl Ha Za Zb. unfold echelon_row.
  destruct (Z.eqb_spec (nth i b 0) 0) as [E|E].
  - split; auto. split.
    + intros j Hj. destruct (Nat.eq_dec j i); subst; auto. apply Zb; lia.
    + exists 1, 0. split; [lia|]. intros; lia.
  - set (pa := nth i a 0) in *. set (pb := nth i b 0) in *.
    pose proof (lcm_quot_l pb pa E Ha) as Q1. pose proof (lcm_quot_r pb pa E Ha) as Q2.
    destruct (lcm_spec pb pa E Ha) as (_ & _ & _ & _ & L0).
    set (f1 := Z.quot (lcm pb pa) pb) in *. set (f2 := Z.quot (lcm pb pa) pa) in *.
    assert (f1 <> 0) as F1 by (intros X; rewrite X in Q1; lia).
    assert (length (firstn i b ++ zip_with (fun vb va => vb * f1 - va * f2) (skipn i b) (skipn i a)) = length b) as Lr.
    { rewrite app_length, zip_with_length by (rewrite !skipn_length; lia).
      rewrite skipn_length, firstn_length. lia. }
    assert (forall j, nth j (firstn i b ++ zip_with (fun vb va => vb * f1 - va * f2) (skipn i b) (skipn i a)) 0
                      = f1 * nth j b 0 - f2 * nth j a 0) as N.
    { intros j. destruct (le_lt_dec (length b) j) as [Hj|Hj].
      { rewrite !nth_overflow; try lia. }
      destruct (le_lt_dec i j) as [Hij|Hij].
      - rewrite app_nth2 by (rewrite firstn_length; lia).
        rewrite firstn_length. replace (Nat.min i (length b)) with i by lia.
        assert (forall (l1 l2 : list Z) k, length l1 = length l2 ->
          nth k (zip_with (fun vb va => vb * f1 - va * f2) l1 l2) 0 = nth k l1 0 * f1 - nth k l2 0 * f2) as Z0.
        { clear. induction l1; destruct l2, k; simpl; intros; try lia. apply IHl1; lia. }
        rewrite Z0 by (rewrite !skipn_length; lia).
        assert (forall (l : list Z), nth (j - i) (skipn i l) 0 = nth j l 0) as Sk.
        { intros l. clear - Hij. revert j l Hij. induction i; intros j l Hij; simpl.
          - rewrite Nat.sub_0_r. auto.
          - destruct l; [destruct (j - S i)%nat, j; auto|]. destruct j; [lia|]. simpl. apply IHi. lia. }
        rewrite !Sk. ring.
      - rewrite app_nth1 by (rewrite firstn_length; lia).
        assert (nth j (firstn i b) 0 = nth j b 0) as ->.
        { clear - Hij. revert j b Hij. induction i; intros j b Hij; [lia|].
          destruct b, j; simpl; auto. apply IHi. lia. }
        rewrite Za, Zb by lia. lia. }
    split; auto. split.
    + intros j Hj. rewrite N. destruct (Nat.eq_dec j i) as [->|].
      * fold pa pb. lia.
      * rewrite Za, Zb by lia. lia.
    + exists f1, f2. auto.
Qed.

Fixpoint ech (i : nat) (top : list (list Z)) : Prop :=
  match top with
  | [] => True
  | t :: ts => (exists p, (p < i)%nat /\ nth p t 0 <> 0 /\ forall s, In s ts -> nth p s 0 = 0) /\ ech i ts
  end.

Lemma ech_mono i j top : (i <= j)%nat -> ech i top -> ech j top.
Proof.
  intros H. induction top; simpl; auto. intros [(p & H1 & H2) H3]. split; auto.
  exists p. split; auto. lia.
Qed.

Lemma ech_snoc i top t : ech i top -> (forall j, (j < i)%nat -> nth j t 0 = 0) ->
  nth i t 0 <> 0 -> ech (S i) (top ++ [t]).
Proof.
  intros He Hz Hn. induction top as [|a top IH]; simpl in *.
  - split; auto. exists i. repeat split; auto; try lia.
  - destruct He as [(p & H1 & H2 & H3) He]. split; auto.
    exists p. repeat split; auto; try lia. intros s Hs. apply in_app_or in Hs.
    destruct Hs as [Hs|[<-|[]]]; auto.
Qed.

Lemma ech_independent n i top : (i <= n)%nat -> wfv n top -> ech i top -> independent n top.
Proof.
  intros Hi. induction top as [|t ts IH]; intros Hw He cs Lc Hz c Hc.
  - destruct cs; [destruct Hc|discriminate].
  - destruct cs as [|c0 cs]; [destruct Hc|]. simpl in He. destruct He as [(p & H1 & H2 & H3) He].
    assert (Hw' := Hw). apply wfv_cons in Hw' as [Lt Hw'].
    assert (forall i, (i < n)%nat -> dot (c0 :: cs) (coln i (t :: ts)) = 0) as E.
    { intros k Hk. apply lincomb_eq with (i := k) in Hz; auto.
      rewrite Hz, nth_repeat; auto. apply repeat_length. }
    assert (c0 = 0) as E0.
    { specialize (E p ltac:(lia)). simpl in E.
      rewrite (dot_comm cs), dot_zero_all in E.
      - apply Z.eq_mul_0_l with (nth p t 0); auto. lia.
      - intros v Hv. apply in_map_iff in Hv as (s & <- & Hs). auto. }
    subst c0. destruct Hc as [<-|Hc]; auto.
    apply (IH Hw' He cs); auto.
    apply lincomb_eq; auto. apply repeat_length. intros k Hk. specialize (E k Hk). simpl in E.
    rewrite nth_repeat. lia.
Qed.

(** Invariant of the elimination loop before column [i]. *)
Definition ech_inv (n nr : nat) (m : list (list Z)) (i : nat) (st : nat * list (list Z)) : Prop :=
  let '(r, rs) := st in
  (r <= i)%nat /\ length rs = nr /\ wfv n rs /\ same_span n m rs /\
  (r <= nr)%nat /\ ech i (firstn r rs) /\
  (forall b, In b (skipn r rs) -> forall j, (j < i)%nat -> nth j b 0 = 0).

Lemma first_nonzero_spec pos k l :
  match first_nonzero pos k l with
  | Some q => exists j, q = (k + j)%nat /\ (j < length l)%nat /\ nth pos (nth j l []) 0 <> 0
  | None => forall r, In r l -> nth pos r 0 = 0
  end.
Proof.
  revert k; induction l as [|r l IH]; simpl; intros k; [tauto|].
  destruct (Z.eqb_spec (nth pos r 0) 0) as [E|E].
  - specialize (IH (S k)). destruct (first_nonzero pos (S k) l) as [q|].
    + destruct IH as (j & -> & Hj & H). exists (S j). repeat split; auto; lia.
    + intros s [<-|Hs]; auto.
  - exists 0%nat. repeat split; auto; lia.
Qed.

Lemma nth_skipn {A} (d : A) k j l : nth j (skipn k l) d = nth (k + j) l d.
Proof.
  revert l; induction k; simpl; intros l; auto. destruct l; [destruct j; auto|apply IHk].
Qed.

Lemma skipn_cons_nth {A} (d : A) k l : (k < length l)%nat -> skipn k l = nth k l d :: skipn (S k) l.
Proof.
  revert l; induction k; destruct l; simpl; intros; try lia; auto. apply IHk. lia.
Qed.

Lemma firstn_S_nth {A} (d : A) k l : (k < length l)%nat -> firstn (S k) l = firstn k l ++ [nth k l d].
Proof.
  revert l; induction k; destruct l; simpl; intros; try lia; auto. f_equal. apply IHk. lia.
Qed.

Lemma firstn_set_nth {A} k p (v : A) l : (k <= p)%nat -> firstn k (set_nth p v l) = firstn k l.
Proof.
  revert p l; induction k; destruct p, l; simpl; intros; auto; try lia. f_equal. apply IHk. lia.
Qed.

Lemma In_skipn_nth {A} (d : A) k l x : In x (skipn k l) -> exists j, (k <= j < length l)%nat /\ nth j l d = x.
Proof.
  intros H. apply (In_nth _ _ d) in H as (j & Hj & E). rewrite skipn_length in Hj.
  exists (k + j)%nat. rewrite nth_skipn in E. split; auto. lia.
Qed.

Lemma nth_In_skipn {A} (d : A) k j l : (k <= j < length l)%nat -> In (nth j l d) (skipn k l).
Proof.
  intros H. replace j with (k + (j - k))%nat by lia. rewrite <- nth_skipn.
  apply nth_In. rewrite skipn_length. lia.
Qed.

(** The row interchange keeps the invariant. *)
Lemma ech_inv_swap n nr m i r k rs : (r < nr)%nat -> (r < k < nr)%nat ->
  wfv n m ->
  ech_inv n nr m i (r, rs) -> ech_inv n nr m i (r, swap_nth [] r k rs).
Proof.
  intros Hr Hk Hm (H1 & H2 & H3 & H4 & H5 & H6 & H7). unfold ech_inv.
  assert (forall v, In v (swap_nth [] r k rs) <-> In v rs) as P by (apply swap_nth_perm; lia).
  assert (wfv n (swap_nth [] r k rs)) as W by (intros v Hv; apply H3, P, Hv).
  repeat split; auto.
  - unfold swap_nth. rewrite !set_nth_length. auto.
  - apply (same_span_trans n m rs); auto. apply same_span_incl; auto. intros v; symmetry; apply P.
  - apply (same_span_trans n m rs); auto. apply same_span_incl; auto. intros v; symmetry; apply P.
  - unfold swap_nth. rewrite !firstn_set_nth by lia. auto.
  - intros b Hb j Hj. apply (In_skipn_nth []) in Hb as (q & Hq & <-).
    unfold swap_nth in *. rewrite !set_nth_length in Hq.
    destruct (Nat.eq_dec q k) as [->|N].
    + rewrite nth_set_nth_eq by (rewrite set_nth_length; lia). apply H7; auto. apply nth_In_skipn; lia.
    + rewrite nth_set_nth_neq by auto. destruct (Nat.eq_dec q r) as [->|N2].
      * rewrite nth_set_nth_eq by lia. apply H7; auto. apply nth_In_skipn; lia.
      * rewrite nth_set_nth_neq by auto. apply H7; auto. apply nth_In_skipn; lia.
Qed.

Lemma echelon_step_inv n nr m i st : (i < n)%nat -> (i < nr)%nat -> wfv n m ->
  ech_inv n nr m i st -> ech_inv n nr m (S i) (echelon_step st i).
Proof.
  intros Hi Hnr Hm. destruct st as [r rs]. intros Hinv.
  assert (r < nr)%nat as Hr by (destruct Hinv; lia).
  unfold echelon_step.
  set (rs1 := if nth i (nth r rs []) 0 =? 0 then
      match first_nonzero i (S r) (skipn (S r) rs) with
      | Some k => swap_nth [] r k rs
      | None => rs
      end else rs).
  assert (ech_inv n nr m i (r, rs1) /\
          (nth i (nth r rs1 []) 0 = 0 -> forall b, In b (skipn r rs1) -> nth i b 0 = 0)) as [Hinv1 Hz].
  { unfold rs1. assert (Hinv' := Hinv). destruct Hinv' as (_ & Hlen & _).
    destruct (Z.eqb_spec (nth i (nth r rs []) 0) 0) as [E|E].
    - pose proof (first_nonzero_spec i (S r) (skipn (S r) rs)) as F.
      destruct (first_nonzero i (S r) (skipn (S r) rs)) as [k|].
      + destruct F as (j & -> & Hj & Hn). rewrite skipn_length in Hj. rewrite nth_skipn in Hn.
        split. { apply ech_inv_swap; auto. lia. }
        intros X. exfalso. apply Hn. etransitivity; [|exact X]. unfold swap_nth.
        rewrite nth_set_nth_neq by lia. rewrite nth_set_nth_eq by lia. auto.
      + split; auto. intros _ b Hb. rewrite (skipn_cons_nth []) in Hb by lia.
        destruct Hb as [<-|Hb]; auto.
    - split; auto. intros X; congruence. }
  clearbody rs1. clear Hinv rs.
  destruct Hinv1 as (H1 & H2 & H3 & H4 & H5 & H6 & H7).
  destruct (Z.eqb_spec (nth i (nth r rs1 []) 0) 0) as [E|E].
  - unfold ech_inv. repeat split; auto; try apply H4.
    + eapply ech_mono; [|eauto]. lia.
    + intros b Hb j Hj. destruct (Nat.eq_dec j i) as [->|]; auto. apply H7; auto. lia.
  - set (piv := nth r rs1 []) in *.
    assert (In piv (skipn r rs1)) as Hp by (apply nth_In_skipn; lia).
    assert (length piv = n) as Lp by (apply H3; unfold piv; apply nth_In; lia).
    set (bot := skipn (S r) rs1).
    assert (forall b, In b bot -> length b = n /\ forall j, (j < i)%nat -> nth j b 0 = 0) as Hb.
    { intros b Hb. unfold bot in Hb. split.
      - apply H3. apply (In_skipn_nth []) in Hb as (q & Hq & <-). apply nth_In. lia.
      - apply H7. rewrite (skipn_cons_nth []) by lia. right. auto. }
    assert (forall b, In b bot -> length (echelon_row i piv b) = length b /\
      (forall j, (j <= i)%nat -> nth j (echelon_row i piv b) 0 = 0) /\
      exists f1 f2, f1 <> 0 /\ forall j, nth j (echelon_row i piv b) 0 = f1 * nth j b 0 - f2 * nth j piv 0) as HE.
    { intros b Hin. destruct (Hb b Hin). apply echelon_row_comb; auto; try lia. }
    assert (length (firstn (S r) rs1) = S r) as Lf by (rewrite firstn_length; lia).
    assert (In piv (firstn (S r) rs1)) as Hpf.
    { rewrite (firstn_S_nth []) by lia. apply in_or_app. right. left. auto. }
    assert (wfv n (firstn (S r) rs1 ++ map (echelon_row i piv) bot)) as W.
    { apply wfv_app. split.
      - intros v Hv. apply H3. rewrite <- (firstn_skipn (S r) rs1). apply in_or_app; auto.
      - intros v Hv. apply in_map_iff in Hv as (b & <- & Hin). destruct (HE b Hin) as [-> _]. apply Hb; auto. }
    assert (same_span n rs1 (firstn (S r) rs1 ++ map (echelon_row i piv) bot)) as SS.
    { split.
      - intros a Ha. rewrite <- (firstn_skipn (S r) rs1) in Ha. apply in_app_or in Ha.
        destruct Ha as [Ha|Ha].
        + apply in_span_self; auto. apply in_or_app; auto.
        + destruct (HE a Ha) as (_ & _ & f1 & f2 & F1 & F2).
          apply (in_span_comb n _ piv (echelon_row i piv a) f1 f2); auto.
          * apply Hb; auto.
          * apply in_or_app; auto.
          * apply in_or_app; right. apply in_map; auto.
          * intros j Hj. rewrite F2. ring.
      - intros b Hin. apply in_app_or in Hin. destruct Hin as [Hin|Hin].
        + apply in_span_self; auto. rewrite <- (firstn_skipn (S r) rs1). apply in_or_app; auto.
        + apply in_map_iff in Hin as (b0 & <- & Hin).
          destruct (HE b0 Hin) as (L0 & _ & f1 & f2 & F1 & F2).
          apply (in_span_trans n [piv; b0]).
          * intros x [<-|[<-|[]]]; auto. apply Hb; auto.
          * auto.
          * rewrite L0. apply Hb; auto.
          * apply in_span_coord.
            { intros x [<-|[<-|[]]]; auto. apply Hb; auto. }
            { rewrite L0. apply Hb; auto. }
            exists 1, [- f2; f1]. repeat split; auto; try lia.
            intros j Hj. rewrite F2. cbn [coln map dot]. ring.
          * intros x [<-|[<-|[]]]; apply in_span_self; auto.
            -- rewrite <- (firstn_skipn (S r) rs1). apply in_or_app; auto.
            -- rewrite <- (firstn_skipn (S r) rs1). apply in_or_app; auto. }
    unfold ech_inv. repeat split; try lia.
    + rewrite app_length, map_length. unfold bot. rewrite skipn_length, Lf. lia.
    + auto.
    + apply (same_span_trans n m rs1); auto.
    + apply (same_span_trans n m rs1); auto.
    + replace (firstn (S r) (firstn (S r) rs1 ++ map (echelon_row i piv) bot)) with (firstn (S r) rs1).
      2:{ rewrite firstn_app, Lf, Nat.sub_diag, firstn_firstn, Nat.min_id, firstn_O, app_nil_r. auto. }
      rewrite (firstn_S_nth []) by lia.
      apply ech_snoc; auto.
    + intros b Hin j Hj. rewrite skipn_app, Lf, Nat.sub_diag in Hin.
      rewrite skipn_all2 in Hin by lia. simpl in Hin.
      apply in_map_iff in Hin as (b0 & <- & Hin). apply HE; auto. lia.
Qed.

Lemma echelon_inv m k : wf_mat m -> (k <= Nat.min (mncols m) (mnrows m))%nat ->
  ech_inv (mncols m) (mnrows m) (mrows m) k (fold_left echelon_step (seq 0 k) (O, mrows m)).
Proof.
  intros Hw. induction k as [|k IH]; intros Hk.
  - unfold ech_inv. cbn [seq fold_left].
    split; [lia|]. split; [reflexivity|]. split; [exact Hw|].
    split; [split; intros; apply in_span_self; auto|].
    split; [lia|]. split; [exact I|]. intros; lia.
  - rewrite seq_S, fold_left_app. simpl. apply echelon_step_inv; auto; try lia. apply IH. lia.
Qed.

Lemma abs_sum_zero r : abs_sum r = 0 <-> forall v, In v r -> v = 0.
Proof.
  unfold abs_sum.
  assert (forall l s, 0 <= s -> s <= fold_left (fun s v => s + Z.abs v) l s) as Mono.
  { induction l as [|a l IH]; intros s Hs; simpl; [lia|]. specialize (IH (s + Z.abs a) ltac:(lia)). lia. }
  assert (forall l s, 0 <= s -> (fold_left (fun s v => s + Z.abs v) l s = 0 <-> s = 0 /\ forall v, In v l -> v = 0)) as K.
  { induction l as [|a l IH]; intros s Hs; simpl.
    - split; intros; [|tauto]. split; auto; tauto.
    - rewrite IH by lia. split.
      + intros [H1 H2]. split; [lia|]. intros v [<-|Hv]; auto. lia.
      + intros [H1 H2]. split; auto. rewrite (H2 a) by auto. lia. }
  rewrite K by lia. tauto.
Qed.

Lemma filter_app_length {A} (f : A -> bool) l1 l2 :
  length (filter f (l1 ++ l2)) = (length (filter f l1) + length (filter f l2))%nat.
Proof. induction l1; simpl; auto. destruct (f a); simpl; lia. Qed.

Lemma filter_length_le {A} (f : A -> bool) l : (length (filter f l) <= length l)%nat.
Proof. induction l; simpl; auto. destruct (f a); simpl; lia. Qed.

Lemma filter_all {A} (f : A -> bool) l : (forall x, In x l -> f x = true) -> filter f l = l.
Proof. induction l; simpl; intros; auto. rewrite H by auto. f_equal; auto. Qed.
Lemma filter_none {A} (f : A -> bool) l : (forall x, In x l -> f x = false) -> filter f l = [].
Proof. induction l; simpl; intros; auto. rewrite H by auto. auto. Qed.

Lemma ech_nonzero i top t : ech i top -> In t top -> exists v, In v t /\ v <> 0.
Proof.
  induction top as [|a top IH]; simpl; [tauto|]. intros [(p & H1 & H2 & H3) He] [->|H]; auto.
  exists (nth p t 0). split; auto. apply nth_In.
  destruct (le_lt_dec (length t) p); auto. rewrite nth_overflow in H2 by auto. congruence.
Qed.

Lemma rank_ok m : wf_mat m -> (mncols m <= mnrows m)%nat ->
  has_rank (mncols m) (mrows m) (matrix_get_rank m).
Proof.
  intros Hw Hle. unfold matrix_get_rank, matrix_to_row_echelon. cbn [mrows].
  pose proof (echelon_inv m (Nat.min (mncols m) (mnrows m)) Hw ltac:(lia)) as Hinv.
  destruct (fold_left echelon_step _ _) as [r rs]. cbn [snd].
  destruct Hinv as (H1 & H2 & H3 & H4 & H5 & H6 & H7).
  replace (Nat.min (mncols m) (mnrows m)) with (mncols m) in * by lia.
  set (top := firstn r rs) in *. set (bot := skipn r rs) in *.
  assert (rs = top ++ bot) as E by (symmetry; apply firstn_skipn).
  assert (wfv (mncols m) top /\ wfv (mncols m) bot) as [Wt Wb] by (apply wfv_app; rewrite <- E; auto).
  assert (forall b, In b bot -> abs_sum b = 0) as Hb.
  { intros b Hb. apply abs_sum_zero. intros v Hv. apply (In_nth _ _ 0) in Hv as (j & Hj & <-).
    apply H7; auto. rewrite <- (Wb b Hb). auto. }
  assert (forall t, In t top -> abs_sum t <> 0) as Ht.
  { intros t Hin X. rewrite abs_sum_zero in X. destruct (ech_nonzero _ _ _ H6 Hin) as (v & Hv & Nv). auto. }
  exists top.
  split; [|split; [auto|split]].
  - rewrite E at 1 2. rewrite filter_app_length, app_length.
    rewrite (filter_none _ top), (filter_all _ bot). simpl. lia.
    + intros b Hin. apply Z.eqb_eq. auto.
    + intros t Hin. apply Z.eqb_neq. auto.
  - apply (ech_independent (mncols m) (mncols m)); auto.
  - assert (same_span (mncols m) rs top) as SS.
    { split.
      - intros a Ha. rewrite E in Ha. apply in_app_or in Ha. destruct Ha as [Ha|Ha].
        + apply in_span_self; auto.
        + apply in_span_coord; auto. exists 1, (repeat 0 (length top)).
          repeat split; try lia. apply repeat_length.
          intros i Hi. rewrite dot_repeat0_l. rewrite H7; auto; lia.
      - intros b Hb'. apply in_span_self; auto. rewrite E. apply in_or_app; auto. }
    apply (same_span_trans (mncols m) (mrows m) rs top); auto.
Qed.

(** In general the reported number is never smaller than the rank. *)
Lemma rank_upper m k : wf_mat m -> has_rank (mncols m) (mrows m) k -> (k <= matrix_get_rank m)%nat.
Proof.
  intros Hw (B & <- & WB & IB & S1 & S2). unfold matrix_get_rank, matrix_to_row_echelon. cbn [mrows].
  pose proof (echelon_inv m (Nat.min (mncols m) (mnrows m)) Hw ltac:(lia)) as Hinv.
  destruct (fold_left echelon_step _ _) as [r rs]. cbn [snd].
  destruct Hinv as (H1 & H2 & H3 & H4 & _).
  assert (length rs - length (filter (fun r => (abs_sum r =? 0)%Z) rs) =
          length (filter (fun r => negb ((abs_sum r =? 0)%Z)) rs))%nat as ->.
  { clear. induction rs as [|a rs IH]; cbn [length filter]; auto.
    pose proof (filter_length_le (fun r => (abs_sum r =? 0)%Z) rs) as Hf.
    destruct (abs_sum a =? 0)%Z; cbn [length negb]; lia. }
  apply (steinitz (mncols m)); auto.
  - intros v Hv. apply filter_In in Hv. apply H3. tauto.
  - intros b Hb. apply (in_span_trans (mncols m) rs); auto.
    + intros v Hv. apply filter_In in Hv. apply H3. tauto.
    + apply (in_span_trans (mncols m) (mrows m)); auto. apply H4.
    + intros a Ha. destruct (abs_sum a =? 0) eqn:E.
      * apply in_span_coord; auto.
        { intros v Hv. apply filter_In in Hv. apply H3. tauto. }
        exists 1, (repeat 0 (length (filter (fun r => negb (abs_sum r =? 0)) rs))).
        repeat split; try lia. apply repeat_length.
        intros i Hi. rewrite dot_repeat0_l. apply Z.eqb_eq in E. rewrite abs_sum_zero in E.
        rewrite (E (nth i a 0)); [lia|]. apply nth_In. rewrite (H3 a); auto.
      * apply in_span_self.
        { intros v Hv. apply filter_In in Hv. apply H3. tauto. }
        apply filter_In. rewrite E. auto.
Qed.
