(** * pluto_constraints_simplify preserves the set of points. *)
From Coq Require Import ZArith QArith List Bool Lia Lqa Permutation Sorting.Sorted.
From Verif Require Import SpecLinear VecProofs MathModel GcdProofs ConstraintsModel.
Import ListNotations.
Open Scope Z_scope.

(** ** gcd of a row *)
Lemma all_zero_spec r : all_zero r = true <-> forall v, In v r -> v = 0.
Proof.
  unfold all_zero. rewrite forallb_forall. split; intros H v Hv.
  - apply Z.eqb_eq; auto.
  - apply Z.eqb_eq; auto.
Qed.

Lemma all_zero_repeat r : all_zero r = true -> r = repeat 0 (length r).
Proof.
  rewrite all_zero_spec. induction r; simpl; intros; auto.
  f_equal; auto.
Qed.

Lemma fold_gcd_divide l g : 0 <= g ->
  let h := fold_left (fun g w => gcd (Z.abs w) g) l g in
  0 <= h /\ (h | g) /\ forall v, In v l -> (h | v).
Proof.
  revert g. induction l as [|w l IH]; simpl; intros g Hg.
  - repeat split; auto. apply Z.divide_refl. tauto.
  - rewrite gcd_correct, Z.gcd_abs_l.
    destruct (IH (Z.gcd w g)) as (H1 & H2 & H3). apply Z.gcd_nonneg.
    repeat split; auto.
    + eapply Z.divide_trans; [apply H2|apply Z.gcd_divide_r].
    + intros v [<-|Hv]; auto. eapply Z.divide_trans; [apply H2|apply Z.gcd_divide_l].
Qed.

Lemma from_first_nonzero_spec r :
  (all_zero r = true /\ from_first_nonzero r = []) \/
  (exists v r' k, from_first_nonzero r = v :: r' /\ v <> 0 /\ r = repeat 0 k ++ v :: r').
Proof.
  induction r as [|v r IH]; simpl.
  - left; auto.
  - destruct (Z.eqb_spec v 0) as [->|Hv]; simpl.
    + destruct IH as [[H1 H2]|(w & r' & k & H1 & H2 & H3)].
      * left. auto.
      * right. exists w, r', (S k). simpl. rewrite H1, <- H3. auto.
    + right. exists v, r, 0%nat. auto.
Qed.

Lemma row_gcd_spec r : all_zero r = false ->
  0 < row_gcd r /\ forall v, In v r -> (row_gcd r | v).
Proof.
  intros Hz. unfold row_gcd.
  destruct (from_first_nonzero_spec r) as [[H1 H2]|(v & r' & k & H1 & H2 & H3)]; [congruence|].
  rewrite H1.
  destruct (fold_gcd_divide (v :: r') (Z.abs v) ltac:(lia)) as (G1 & G2 & G3).
  set (h := fold_left _ _ _) in *.
  split.
  - destruct G2 as [q Hq]. assert (h <> 0) by (intros ->; lia). lia.
  - intros w Hw. rewrite H3 in Hw. apply in_app_or in Hw. destruct Hw as [Hw|Hw]; auto.
    apply repeat_spec in Hw. subst. apply Z.divide_0_r.
Qed.

Lemma quot_divide g v : 0 < g -> (g | v) -> v = g * Z.quot v g.
Proof. intros Hg [q ->]. rewrite Z.quot_mul by lia. lia. Qed.

Lemma norm_row_length r : length (norm_row r) = length r.
Proof. unfold norm_row. destruct (all_zero r); auto. apply map_length. Qed.

Lemma norm_row_scaled r : exists g, 0 < g /\ r = map (Z.mul g) (norm_row r).
Proof.
  unfold norm_row. destruct (all_zero r) eqn:E.
  - exists 1. split; [lia|]. rewrite <- (map_id r) at 1. apply map_ext. intros; lia.
  - destruct (row_gcd_spec r E) as [H1 H2]. exists (row_gcd r). split; auto.
    rewrite map_map. rewrite <- (map_id r) at 1. apply map_ext_in.
    intros. apply quot_divide; auto.
Qed.

Lemma aff_map_mul k r x : aff (map (Z.mul k) r) x = k * aff r x.
Proof. apply dot_map_mul. Qed.

Lemma qaff_map_mul k r x : (qaff (map (Z.mul k) r) x == inject_Z k * qaff r x)%Q.
Proof. apply qdot_map_mul. Qed.

Lemma holds_norm x r : holds x (map_coef norm_row r) <-> holds x r.
Proof.
  destruct (norm_row_scaled (coef r)) as (g & Hg & E).
  unfold holds, map_coef; simpl. set (nr := norm_row (coef r)) in *. rewrite E. clearbody nr.
  rewrite aff_map_mul. destruct (is_eq r); nia.
Qed.

Lemma qmul_pos_le0 k q : (0 < k)%Q -> ((0 <= k * q)%Q <-> (0 <= q)%Q).
Proof.
  intros Hk. split; intros H.
  - destruct (Qlt_le_dec q 0) as [L|L]; auto.
    exfalso. assert ((k * q < 0)%Q); [|lra].
    rewrite <- (Qmult_0_r k). apply Qmult_lt_l; auto.
  - apply Qmult_le_0_compat; auto. apply Qlt_le_weak; auto.
Qed.

Lemma qmul_pos_eq0 k q : (0 < k)%Q -> ((k * q == 0)%Q <-> (q == 0)%Q).
Proof.
  intros Hk. split; intros H.
  - destruct (Qmult_integral _ _ H); auto. lra.
  - rewrite H. ring.
Qed.

Lemma qholds_norm x r : qholds x (map_coef norm_row r) <-> qholds x r.
Proof.
  destruct (norm_row_scaled (coef r)) as (g & Hg & E).
  unfold qholds, map_coef; simpl. set (nr := norm_row (coef r)) in *. rewrite E. clearbody nr.
  apply inject_Z_lt0 in Hg.
  destruct (is_eq r); rewrite qaff_map_mul; symmetry.
  - apply qmul_pos_eq0; auto.
  - apply qmul_pos_le0; auto.
Qed.

(** ** Sorting *)
Lemma insert_row_perm r l : Permutation (insert_row r l) (r :: l).
Proof.
  induction l as [|r' l IH]; simpl; auto.
  destruct (row_compar r r'); auto.
  rewrite IH. constructor.
Qed.

Lemma sort_rows_perm l : Permutation (sort_rows l) l.
Proof.
  induction l; simpl; auto. rewrite insert_row_perm. auto.
Qed.

Lemma coef_eqb_eq a b : coef_eqb a b = true <-> a = b.
Proof.
  revert b; induction a; destruct b; simpl; split; intros; auto; try discriminate.
  - apply andb_true_iff in H as [H1 H2]. apply Z.eqb_eq in H1. apply IHa in H2. subst; auto.
  - inversion H; subst. rewrite Z.eqb_refl. simpl. apply IHa; auto.
Qed.

(** ** Dropping redundant rows *)
Lemma drop_redundant_incl prev l r : In r (drop_redundant prev l) -> In r l.
Proof.
  revert prev; induction l as [|a l IH]; simpl; intros; auto.
  destruct (all_zero (coef a)); eauto.
  destruct (coef_eqb _ _ && _); eauto.
  destruct H; eauto.
Qed.

Lemma row_eta r : r = mkRow (is_eq r) (coef r).
Proof. destruct r; auto. Qed.

Lemma drop_redundant_keeps prev l r :
  In r (prev :: l) -> all_zero (coef r) = true \/ In r (prev :: drop_redundant prev l).
Proof.
  revert prev; induction l as [|a l IH]; simpl; intros prev [->|H]; auto; try tauto.
  destruct (all_zero (coef a)) eqn:Ez.
  - destruct H as [->|H]; auto.
    destruct (IH a (or_intror H)) as [?|[?|?]]; subst; auto.
  - destruct (coef_eqb (coef prev) (coef a) && Bool.eqb (is_eq prev) (is_eq a)) eqn:E.
    + apply andb_true_iff in E as [E1 E2]. apply coef_eqb_eq in E1. apply eqb_prop in E2.
      assert (prev = a) by (rewrite (row_eta prev), (row_eta a); congruence). subst a.
      apply IH. destruct H; subst; simpl; auto.
    + simpl. destruct H as [->|H]; auto.
      destruct (IH a (or_intror H)) as [?|[?|?]]; auto.
Qed.

Lemma holds_all_zero x r : all_zero (coef r) = true -> holds x r.
Proof.
  intros H. apply all_zero_repeat in H. unfold holds, aff. rewrite H, dot_repeat0_l.
  destruct (is_eq r); lia.
Qed.

Lemma qholds_all_zero x r : all_zero (coef r) = true -> qholds x r.
Proof.
  intros H. apply all_zero_repeat in H. unfold qholds, qaff. rewrite H.
  destruct (is_eq r); rewrite qdot_repeat0_l; lra.
Qed.

(** Generic form: any predicate on rows that is invariant under normalisation and
    true of zero rows holds of all rows before iff after. *)
Lemma simplify_rows (P : row -> Prop) c :
  (forall r, P (map_coef norm_row r) <-> P r) ->
  (forall r, all_zero (coef r) = true -> P r) ->
  (forall r, In r (rows (simplify c)) -> P r) <-> (forall r, In r (rows c) -> P r).
Proof.
  intros Hn Hz. unfold simplify.
  destruct (rows c) as [|ra la] eqn:Er. { rewrite Er. tauto. }
  rewrite <- Er in *. clear Er ra la.
  pose proof (sort_rows_perm (map (map_coef norm_row) (rows c))) as Hp.
  destruct (sort_rows (map (map_coef norm_row) (rows c))) as [|r0 l] eqn:Es. { tauto. }
  simpl rows. split; intros H r Hr.
  - apply Hn. apply (in_map (map_coef norm_row)) in Hr.
    eapply Permutation_in in Hr; [|symmetry; apply Hp].
    destruct (drop_redundant_keeps r0 l _ Hr) as [K|K]; auto.
  - assert (In r (r0 :: l)) as Hr'.
    { destruct Hr; [left; auto|right; eapply drop_redundant_incl; eauto]. }
    eapply Permutation_in in Hr'; [|apply Hp].
    apply in_map_iff in Hr' as (r1 & <- & Hr1). apply Hn; auto.
Qed.

Lemma simplify_ncols c : ncols (simplify c) = ncols c.
Proof.
  unfold simplify. destruct (rows c); auto. destruct (sort_rows _); auto.
Qed.

Lemma simplify_mem c x : mem (simplify c) x <-> mem c x.
Proof.
  unfold mem. rewrite simplify_ncols. rewrite (simplify_rows (holds x)).
  - tauto.
  - apply holds_norm.
  - apply holds_all_zero.
Qed.

Lemma simplify_qmem c x : qmem (simplify c) x <-> qmem c x.
Proof.
  unfold qmem. rewrite simplify_ncols. rewrite (simplify_rows (qholds x)).
  - tauto.
  - apply qholds_norm.
  - apply qholds_all_zero.
Qed.

Lemma drop_redundant_length prev l : (length (drop_redundant prev l) <= length l)%nat.
Proof.
  revert prev; induction l as [|a l IH]; simpl; intros; auto.
  destruct (all_zero (coef a)); [specialize (IH a); lia|].
  destruct (coef_eqb _ _ && _); specialize (IH a); simpl; lia.
Qed.

Lemma simplify_nrows c : (nrows (simplify c) <= nrows c)%nat.
Proof.
  unfold simplify, nrows. destruct (rows c) as [|ra la] eqn:Er; [rewrite Er; auto|].
  rewrite <- Er. pose proof (sort_rows_perm (map (map_coef norm_row) (rows c))) as Hp.
  apply Permutation_length in Hp. rewrite map_length in Hp.
  destruct (sort_rows _) as [|r0 l]; [auto|]. simpl in *.
  pose proof (drop_redundant_length r0 l). lia.
Qed.

Lemma simplify_wf c : wf_cst c -> wf_cst (simplify c).
Proof.
  unfold wf_cst. rewrite simplify_ncols. intros [H1 H2]. split; auto.
  unfold simplify.
  destruct (rows c) as [|ra la] eqn:Er; [rewrite Er; auto|]. rewrite <- Er in *.
  pose proof (sort_rows_perm (map (map_coef norm_row) (rows c))) as Hp.
  destruct (sort_rows _) as [|r0 l]; [auto|]. simpl rows.
  intros r Hr.
  assert (In r (r0 :: l)) as Hr'.
  { destruct Hr; [left; auto|right; eapply drop_redundant_incl; eauto]. }
  eapply Permutation_in in Hr'; [|apply Hp].
  apply in_map_iff in Hr' as (r1 & <- & Hr1). simpl. rewrite norm_row_length. auto.
Qed.
