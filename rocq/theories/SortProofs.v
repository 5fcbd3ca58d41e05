(** * Sorting of rows: any correct sort gives the same result; simplify is idempotent. *)
From Coq Require Import ZArith QArith List Bool Lia Permutation Sorted.
From Verif Require Import SpecLinear VecProofs MathModel GcdProofs ConstraintsModel SimplifyProofs.
Import ListNotations.
Open Scope Z_scope.

Lemma coef_compar_eq a b : length a = length b -> (coef_compar a b = Eq <-> a = b).
Proof.
  revert b; induction a as [|x a IH]; destruct b as [|y b]; simpl; intros H; try lia; try tauto.
  destruct (Z.eqb_spec x y).
  - subst. rewrite IH by lia. split; intros; congruence.
  - split; intros K. destruct (x <? y); discriminate. congruence.
Qed.

Lemma coef_compar_opp a b : length a = length b -> coef_compar b a = CompOpp (coef_compar a b).
Proof.
  revert b; induction a as [|x a IH]; destruct b as [|y b]; simpl; intros H; try lia; auto.
  destruct (Z.eqb_spec x y), (Z.eqb_spec y x); try lia.
  - apply IH; lia.
  - destruct (Z.ltb_spec x y), (Z.ltb_spec y x); auto; lia.
Qed.

Lemma coef_compar_lt_trans a b c : length a = length b -> length b = length c ->
  coef_compar a b = Lt -> coef_compar b c = Lt -> coef_compar a c = Lt.
Proof.
  revert b c; induction a as [|x a IH]; destruct b as [|y b], c as [|z c]; simpl; intros H H0 K1 K2; try lia; try discriminate.
  destruct (Z.eqb_spec x y) as [E1|E1], (Z.eqb_spec y z) as [E2|E2], (Z.eqb_spec x z) as [E3|E3]; try lia.
  - apply (IH b c); auto.
  - destruct (Z.ltb_spec y z), (Z.ltb_spec x z); try discriminate; auto; lia.
  - destruct (Z.ltb_spec x y), (Z.ltb_spec x z); try discriminate; auto; lia.
  - destruct (Z.ltb_spec x y), (Z.ltb_spec y z); try discriminate; auto; lia.
  - destruct (Z.ltb_spec x y), (Z.ltb_spec y z), (Z.ltb_spec x z); try discriminate; auto; lia.
Qed.

Definition rlen (n : nat) (r : row) : Prop := length (coef r) = n.

Lemma row_compar_eq n a b : rlen n a -> rlen n b -> (row_compar a b = Eq <-> a = b).
Proof.
  unfold rlen, row_compar. intros Ha Hb.
  pose proof (coef_compar_eq (coef a) (coef b) ltac:(lia)) as E.
  destruct (coef_compar (coef a) (coef b)) eqn:K.
  - destruct E as [E _]. specialize (E eq_refl). destruct a as [ea ca], b as [eb cb]. simpl in *. subst.
    destruct ea, eb; split; intros; congruence.
  - split; intros H; try discriminate. subst. discriminate (proj2 E eq_refl).
  - split; intros H; try discriminate. subst. discriminate (proj2 E eq_refl).
Qed.

Lemma row_compar_opp n a b : rlen n a -> rlen n b -> row_compar b a = CompOpp (row_compar a b).
Proof.
  unfold rlen, row_compar. intros Ha Hb. rewrite (coef_compar_opp (coef a) (coef b)) by lia.
  destruct (coef_compar (coef a) (coef b)); simpl; auto.
  destruct (is_eq a), (is_eq b); auto.
Qed.

Lemma row_compar_lt_trans n a b c : rlen n a -> rlen n b -> rlen n c ->
  row_compar a b = Lt -> row_compar b c = Lt -> row_compar a c = Lt.
Proof.
  unfold rlen, row_compar. intros Ha Hb Hc.
  destruct (coef_compar (coef a) (coef b)) eqn:K1; try discriminate;
  destruct (coef_compar (coef b) (coef c)) eqn:K2; try discriminate; intros E1 E2.
  - apply coef_compar_eq in K1; [|lia]. apply coef_compar_eq in K2; [|lia].
    rewrite K1, K2 in *. rewrite (proj2 (coef_compar_eq _ _ eq_refl) eq_refl).
    destruct (is_eq a), (is_eq b), (is_eq c); congruence.
  - apply coef_compar_eq in K1; [|lia]. rewrite K1, K2. auto.
  - apply coef_compar_eq in K2; [|lia]. rewrite <- K2, K1. auto.
  - rewrite (coef_compar_lt_trans _ (coef b) _) by (auto; lia). auto.
Qed.

(** Not-greater is a total order on rows of equal length. *)
Definition row_le (a b : row) : Prop := row_compar a b <> Gt.

Lemma row_le_trans n a b c : rlen n a -> rlen n b -> rlen n c -> row_le a b -> row_le b c -> row_le a c.
Proof.
  unfold row_le. intros Ha Hb Hc H1 H2.
  destruct (row_compar a b) eqn:K1; try congruence; destruct (row_compar b c) eqn:K2; try congruence.
  - apply (row_compar_eq n) in K1; auto. subst. congruence.
  - apply (row_compar_eq n) in K1; auto. subst. congruence.
  - apply (row_compar_eq n) in K2; auto. subst. congruence.
  - rewrite (row_compar_lt_trans n a b c); auto.
Qed.

Lemma row_le_antisym n a b : rlen n a -> rlen n b -> row_le a b -> row_le b a -> a = b.
Proof.
  unfold row_le. intros Ha Hb. rewrite (row_compar_opp n a b) by auto.
  destruct (row_compar a b) eqn:K; simpl; try congruence.
  intros _ _. apply (row_compar_eq n) in K; auto.
Qed.

Lemma row_le_refl n a : rlen n a -> row_le a a.
Proof. unfold row_le. intros. rewrite (proj2 (row_compar_eq n a a H H) eq_refl). congruence. Qed.

Lemma insert_row_sorted n r l : rlen n r -> (forall s, In s l -> rlen n s) ->
  StronglySorted row_le l -> StronglySorted row_le (insert_row r l).
Proof.
  intros Hr. induction l as [|a l IH]; intros Hl Hs; simpl.
  - repeat constructor.
  - inversion Hs; subst.
    assert (rlen n a) by (apply Hl; simpl; auto).
    destruct (row_compar r a) eqn:K.
    1, 2: constructor; auto; constructor; [unfold row_le; congruence|];
      rewrite Forall_forall in *; intros s Hin; apply (row_le_trans n r a s); auto;
      [apply Hl; simpl; auto | unfold row_le; congruence].
    constructor.
    + apply IH; auto. intros; apply Hl; simpl; auto.
    + rewrite Forall_forall in *. intros s Hin.
      apply (Permutation_in _ (insert_row_perm r l)) in Hin. destruct Hin as [<-|Hin]; auto.
      unfold row_le. rewrite (row_compar_opp n r a) by auto. rewrite K. simpl. congruence.
Qed.

Lemma sort_rows_sorted n l : (forall s, In s l -> rlen n s) -> StronglySorted row_le (sort_rows l).
Proof.
  induction l as [|a l IH]; intros Hl; simpl; [constructor|].
  apply (insert_row_sorted n); auto.
  - apply Hl; simpl; auto.
  - intros s Hs. apply (Permutation_in _ (sort_rows_perm l)) in Hs. apply Hl; simpl; auto.
  - apply IH. intros; apply Hl; simpl; auto.
Qed.

Lemma sorted_perm_unique n l1 l2 : (forall s, In s l1 -> rlen n s) ->
  Permutation l1 l2 -> StronglySorted row_le l1 -> StronglySorted row_le l2 -> l1 = l2.
Proof.
  revert l2. induction l1 as [|a l1 IH]; intros l2 Hl Hp H1 H2.
  - apply Permutation_nil in Hp. auto.
  - destruct l2 as [|b l2]; [symmetry in Hp; apply Permutation_nil in Hp; discriminate|].
    inversion H1; subst. inversion H2; subst. rewrite Forall_forall in *.
    assert (a = b).
    { assert (In a (b :: l2)) as Ha by (apply (Permutation_in _ Hp); simpl; auto).
      assert (In b (a :: l1)) as Hb by (apply (Permutation_in _ (Permutation_sym Hp)); simpl; auto).
      destruct Ha as [Ha|Ha]; auto. destruct Hb as [Hb|Hb]; auto.
      apply (row_le_antisym n); auto.
      apply Hl; simpl; auto. apply Hl; simpl; auto. }
    subst b. f_equal. apply IH; auto.
    + intros; apply Hl; simpl; auto.
    + apply Permutation_cons_inv in Hp. auto.
Qed.

(** Any algorithm that returns a sorted permutation returns [sort_rows]. *)
Lemma sort_rows_unique n l l' : (forall s, In s l -> rlen n s) ->
  Permutation l l' -> StronglySorted row_le l' -> l' = sort_rows l.
Proof.
  intros Hl Hp Hs. symmetry. apply (sorted_perm_unique n); auto.
  - intros s Hin. apply Hl. apply (Permutation_in _ (sort_rows_perm l)). auto.
  - rewrite sort_rows_perm. auto.
  - apply (sort_rows_sorted n); auto.
Qed.

(** ** Idempotence *)
Definition row_lt (a b : row) : Prop := row_compar a b = Lt.

Lemma drop_redundant_strict n prev l : rlen n prev -> (forall s, In s l -> rlen n s) ->
  StronglySorted row_le (prev :: l) ->
  StronglySorted row_lt (prev :: drop_redundant prev l).
Proof.
  intros Hp Hl Hs.
  assert (StronglySorted row_lt (drop_redundant prev l) /\
          forall s, In s (drop_redundant prev l) -> row_lt prev s) as [K1 K2].
  2:{ constructor; auto. apply Forall_forall. auto. }
  revert prev Hp Hs. induction l as [|a l IH]; intros prev Hp Hs; simpl.
  - split; [constructor|intros s []].
  - inversion Hs; subst. inversion H2; subst. inversion H1; subst.
    assert (rlen n a) as Ha by (apply Hl; simpl; auto).
    destruct (IH ltac:(intros; apply Hl; simpl; auto) a Ha H1) as [I1 I2].
    assert (forall s, In s (drop_redundant a l) -> row_lt prev s) as I3.
    { intros s Hin. specialize (I2 s Hin). unfold row_lt in *. unfold row_le in H3.
      pose proof (drop_redundant_incl _ _ _ Hin) as Hin'.
      destruct (row_compar prev a) eqn:K; try congruence.
      - apply (row_compar_eq n) in K; auto. subst; auto.
      - apply (row_compar_lt_trans n prev a s); auto. apply Hl; simpl; auto. }
    destruct (all_zero (coef a)) eqn:Ez; auto.
    destruct (coef_eqb (coef prev) (coef a) && eqb (is_eq prev) (is_eq a)) eqn:Ee; auto.
    assert (row_lt prev a) as Hlt.
    { unfold row_lt. unfold row_le in H3. destruct (row_compar prev a) eqn:K; auto; try congruence.
      apply (row_compar_eq n) in K; auto. subst.
      rewrite (proj2 (coef_eqb_eq _ _) eq_refl), eqb_reflx in Ee. discriminate. }
    split.
    + constructor; auto. apply Forall_forall. auto.
    + intros s [<-|Hin]; auto.
Qed.

Lemma drop_redundant_nonzero prev l s : In s (drop_redundant prev l) -> all_zero (coef s) = false.
Proof.
  revert prev; induction l as [|a l IH]; simpl; intros prev H; [destruct H|].
  destruct (all_zero (coef a)) eqn:E; eauto.
  destruct (coef_eqb _ _ && _); eauto. destruct H as [<-|H]; eauto.
Qed.

Lemma drop_redundant_id n prev l : rlen n prev -> (forall s, In s l -> rlen n s) ->
  StronglySorted row_lt (prev :: l) -> (forall s, In s l -> all_zero (coef s) = false) ->
  drop_redundant prev l = l.
Proof.
  revert prev. induction l as [|a l IH]; intros prev Hp Hl Hs Hz; simpl; auto.
  rewrite Hz by (simpl; auto). inversion Hs; subst. inversion H2; subst.
  destruct (coef_eqb (coef prev) (coef a) && eqb (is_eq prev) (is_eq a)) eqn:E.
  - apply andb_true_iff in E as [E1 E2]. apply coef_eqb_eq in E1. apply eqb_prop in E2.
    exfalso. unfold row_lt in H3. rewrite (row_eta prev), E1, E2, <- row_eta in H3.
    rewrite (proj2 (row_compar_eq n a a (Hl a (or_introl eq_refl)) (Hl a (or_introl eq_refl))) eq_refl) in H3.
    discriminate.
  - f_equal. apply IH; auto; intros; [apply Hl | apply Hl | apply Hz]; simpl; auto.
Qed.

(** Normalisation yields gcd 1, so normalising again changes nothing. *)
Lemma fold_gcd_greatest l g d : (d | g) -> (forall v, In v l -> (d | v)) ->
  (d | fold_left (fun g w => gcd (Z.abs w) g) l g).
Proof.
  revert g; induction l as [|w l IH]; simpl; intros g Hg Hl; auto.
  apply IH; auto. rewrite gcd_correct. apply Z.gcd_greatest; auto.
  apply Z.divide_abs_r. auto.
Qed.

Lemma row_gcd_greatest r d : (forall v, In v r -> (d | v)) -> (d | row_gcd r).
Proof.
  intros H. unfold row_gcd.
  destruct (from_first_nonzero_spec r) as [[_ ->]|(v & r' & k & -> & _ & E)].
  - apply Z.divide_0_r.
  - assert (forall w, In w (v :: r') -> (d | w)) as H'.
    { intros w Hw. apply H. rewrite E. apply in_or_app. auto. }
    apply fold_gcd_greatest; auto. apply Z.divide_abs_r. apply H'. simpl; auto.
Qed.

Lemma norm_row_idem r : norm_row (norm_row r) = norm_row r.
Proof.
  destruct (all_zero r) eqn:E.
  - unfold norm_row. rewrite !E. auto.
  - destruct (row_gcd_spec r E) as [G1 G2].
    assert (norm_row r = map (fun v => Z.quot v (row_gcd r)) r) as En by (unfold norm_row; rewrite E; auto).
    assert (all_zero (norm_row r) = false) as E'.
    { apply not_true_is_false. intros H. apply not_true_iff_false in E. apply E.
      rewrite all_zero_spec in *. intros v Hv. rewrite (quot_divide (row_gcd r) v) by auto.
      rewrite (H (Z.quot v (row_gcd r))); [lia|]. rewrite En. apply (in_map (fun v => Z.quot v (row_gcd r))). auto. }
    destruct (row_gcd_spec _ E') as [F1 F2].
    assert (row_gcd (norm_row r) = 1) as E1.
    { assert ((row_gcd (norm_row r) * row_gcd r | row_gcd r)) as D.
      { apply row_gcd_greatest. intros v Hv.
        destruct (F2 (Z.quot v (row_gcd r))) as [q Hq].
        { rewrite En. apply (in_map (fun v => Z.quot v (row_gcd r))). auto. }
        exists q. rewrite (quot_divide (row_gcd r) v) at 1 by auto. rewrite Hq. ring. }
      destruct D as [q Hq].
      assert (1 = q * row_gcd (norm_row r)) as Hq'.
      { apply Z.mul_reg_r with (row_gcd r); [lia|]. rewrite Z.mul_1_l. rewrite Hq at 1. ring. }
      assert (row_gcd (norm_row r) | 1) as D1 by (exists q; auto).
      apply Z.divide_1_r_nonneg in D1; auto. lia. }
    unfold norm_row at 1. rewrite E', E1.
    rewrite <- (map_id (norm_row r)) at 2. apply map_ext. intros. apply Z.quot_1_r.
Qed.

Lemma StronglySorted_lt_le l : StronglySorted row_lt l -> StronglySorted row_le l.
Proof.
  induction 1; constructor; auto. rewrite Forall_forall in *. intros x Hx.
  unfold row_le. rewrite H0; congruence.
Qed.

Lemma sort_rows_id n l : (forall s, In s l -> rlen n s) -> StronglySorted row_le l -> sort_rows l = l.
Proof. intros. symmetry. apply (sort_rows_unique n); auto. Qed.

Lemma simplify_idem c : wf_cst c -> simplify (simplify c) = simplify c.
Proof.
  intros [_ Hl]. unfold simplify at 2 3.
  destruct (rows c) as [|ra la] eqn:Er.
  { unfold simplify. rewrite Er. auto. }
  rewrite <- Er in *. set (ls := map (map_coef norm_row) (rows c)).
  assert (forall s, In s ls -> rlen (ncols c) s /\ norm_row (coef s) = coef s) as Hn.
  { intros s Hs. apply in_map_iff in Hs as (r & <- & Hr). simpl. unfold rlen; simpl.
    rewrite norm_row_length, norm_row_idem. auto. }
  pose proof (sort_rows_sorted (ncols c) ls ltac:(apply Hn)) as Hs.
  assert (forall s, In s (sort_rows ls) -> In s ls) as Hin
    by (intros s; apply Permutation_in, sort_rows_perm).
  destruct (sort_rows ls) as [|r0 l] eqn:El.
  { exfalso. pose proof (Permutation_length (sort_rows_perm ls)) as P. rewrite El in P.
    unfold ls in P. rewrite map_length, Er in P. discriminate. }
  set (d := drop_redundant r0 l).
  assert (rlen (ncols c) r0) as H0 by (apply Hn, Hin; simpl; auto).
  assert (forall s, In s l -> rlen (ncols c) s) as H1 by (intros; apply Hn, Hin; simpl; auto).
  assert (StronglySorted row_lt (r0 :: d)) as Hd by (apply (drop_redundant_strict (ncols c)); auto).
  assert (forall s, In s (r0 :: d) -> In s ls) as Hdin.
  { intros s [<-|Hs']. apply Hin; simpl; auto. apply Hin. right. eapply drop_redundant_incl; eauto. }
  unfold simplify. cbn [rows ncols].
  assert (map (map_coef norm_row) (r0 :: d) = r0 :: d) as ->.
  { rewrite <- (map_id (r0 :: d)) at 2. apply map_ext_in. intros s Hs'.
    unfold map_coef. rewrite (proj2 (Hn s (Hdin s Hs'))). symmetry. apply row_eta. }
  rewrite (sort_rows_id (ncols c)).
  2:{ intros. apply Hn; auto. }
  2:{ apply StronglySorted_lt_le; auto. }
  rewrite (drop_redundant_id (ncols c)); auto.
  - intros s Hs'. apply H1. eapply drop_redundant_incl; eauto.
  - intros s Hs'. eapply drop_redundant_nonzero; eauto.
Qed.
