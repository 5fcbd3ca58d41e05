(** * What the sum of the bounds of all components is. *)
From Coq Require Import ZArith List Bool Arith Lia.
From Verif Require Import SpecLinear SpecMatrix VecProofs MathModel ConstraintsModel SimplifyProofs EditProofs FarkasProofs RankProofs MatrixProofs
  SpecGraph GraphModel GraphProofs GraphProofs2
  SpecProg SpecTile SpecLoop SpecDriver SpecCc FrameworkModel FrameworkProofs SumProofs DepProofs LexProofs ProgModel ProgProofs DriverModel HypProofs KeepProofs DriverProofs
  PadProofs AutoProofs CcModel CcProofs.
Import ListNotations.
Open Scope Z_scope.

Lemma lexlt_head x y : lexlt x y -> nth 0 x 0 <= nth 0 y 0.
Proof. destruct x as [|a x], y as [|b y]; cbn; try tauto; lia. Qed.

Lemma swaps_head l : forall y, (forall p, In p l -> (0 < fst p)%nat /\ (0 < snd p)%nat) -> nth 0 (swaps l y) 0 = nth 0 y 0.
Proof.
  induction l as [|p l IH]; intros y H; [reflexivity|]. change (swaps (p :: l) y) with (swaps l (swap_nth 0 (fst p) (snd p) y)).
  rewrite IH by (intros; apply H; simpl; auto). destruct (H p (or_introl eq_refl)) as [A B]. unfold swap_nth.
  rewrite !nth_set_nth_neq by lia. auto.
Qed.

Lemma lexmin_head q c solve x : wf_orig q -> (forall st, In st (p_stmts q) -> num_orig q st = s_dim_orig st) ->
  wf_cst c -> ncols c = cst_width q -> rows c <> [] -> solver_least solve ->
  prog_constraints_lexmin solve q c = Some x -> forall y, mem c y -> zpadding_zero q y -> nth 0 x 0 <= nth 0 y 0.
Proof.
  intros Ho Hd Wc Nc Hr SL E y My Zy. unfold prog_constraints_lexmin in E.
  destruct (solve q (compact_cst q c)) as [z|] eqn:Es; [|discriminate]. injection E as <-.
  rewrite firstn_front by auto. fold (sw q). fold (swaps (sw q) z).
  destruct (compact_spec q Ho Hd c Wc Nc [] Hr) as [Wk _].
  destruct (SL q _ z Wk Es) as [Mz Lz].
  destruct (compact_complete q Ho Hd c Wc Nc y Hr My Zy) as (z' & Mz' & <-).
  assert (forall v, nth 0 (fill_zeros (red_front q) (swaps (sw q) v)) 0 = nth 0 v 0) as HD.
  { intros v. assert (nth 0 (swaps (sw q) v) 0 = nth 0 v 0) as <-.
    { apply swaps_head. intros p Hp. apply reversal_range in Hp as (A & B & _). lia. }
    unfold red_front. rewrite Nat.add_comm. cbn [Nat.add repeat app fill_zeros].
    destruct (swaps (sw q) v); reflexivity. }
  rewrite !HD. destruct (Lz z' Mz') as [->|L]; [lia|]. apply lexlt_head. auto.
Qed.

(** The first column appears in no condition but the sum. *)
Lemma aff_head v r y : nth 0 r 0 = 0 -> y <> [] -> aff r (v :: tl y) = aff r y.
Proof. intros H N. destruct y as [|a y]; [tauto|]. destruct r as [|b r]; [reflexivity|]. cbn in H. subst b. cbn. lia. Qed.

Lemma mem_head c v y : (forall r, In r (rows c) -> nth 0 (coef r) 0 = 0) -> y <> [] -> mem c y -> mem c (v :: tl y).
Proof.
  intros Z N [L H]. split. destruct y; [tauto|]. cbn in *. auto. intros r Hr. specialize (H r Hr). unfold holds in *. rewrite aff_head; auto.
Qed.

Lemma sum_coef_head q s : sum_coef q s 0 = 0.
Proof. unfold sum_coef. destruct (Nat.leb_spec (stmt_offset q s) 0) as [L|L]; auto. exfalso. unfold stmt_offset in L. lia. Qed.

Lemma nontriv_head q mode r : In r (rows (get_non_trivial_sol_constraints q mode)) -> nth 0 (coef r) 0 = 0.
Proof.
  assert (2 <= cst_width q)%nat as W by (unfold cst_width; lia).
  destruct mode; cbn [get_non_trivial_sol_constraints rows]; intros H.
  - apply in_map_iff in H as (s & <- & _). cbn [coef]. rewrite nth_map_seq by lia. destruct (Nat.eqb_spec 0 (cst_width q - 1)); [lia|]. apply sum_coef_head.
  - destruct H as [<-|[]]. cbn [coef]. rewrite nth_map_seq by lia. destruct (Nat.eqb_spec 0 (cst_width q - 1)); [lia|].
    match goal with |- context [existsb ?f ?l] => assert (existsb f l = false) as -> end; auto.
    match goal with |- existsb ?f ?q = _ => induction q as [|a l IH]; cbn [existsb]; auto end. rewrite sum_coef_head. auto.
Qed.

Section Ind.
Variables (isl_emptyb : cst -> bool) (kernel : matrix -> matrix) (o : options) (q : prog) (cur : cst).

Lemma orth_sum_head s : nth 0 (orth_sum isl_emptyb kernel o q cur s) 0 = 0.
Proof.
  unfold orth_sum. rewrite sum_rows_nth by apply orth_rows_length.
  assert (forall r, In r (orth_rows isl_emptyb kernel o q cur s) -> nth 0 r 0 = 0) as Z0.
  { intros r Hr. unfold orth_rows in Hr. apply in_map_iff in Hr as (j & <- & _).
    match goal with |- context [orient_row _ _ _ _ ?v] => destruct (orient_row_pm isl_emptyb o q cur v []) as (e & _ & _ & _ & ->) end.
    unfold spread_column. rewrite nth_map_seq by (unfold cst_width; lia). unfold stmt_offset.
    destruct (Nat.leb_spec (p_npar q + 1 + s * (p_nvar q + 1)) 0); [lia|cbn [andb]; lia]. }
  induction (orth_rows isl_emptyb kernel o q cur s) as [|a l IH]; cbn [map fold_right]; auto. rewrite Z0 by (simpl; auto). rewrite IH; auto. intros; apply Z0; simpl; auto.
Qed.

Lemma ind_head mode r : In r (rows (get_linear_ind_constraints isl_emptyb kernel o q cur mode)) -> nth 0 (coef r) 0 = 0.
Proof.
  assert (2 <= cst_width q)%nat as W by (unfold cst_width; lia).
  unfold get_linear_ind_constraints. cbv zeta.
  set (orth := filter _ _).
  assert (forall l, In l orth -> exists s, last l (mkCst (cst_width q) []) = mkCst (cst_width q) [mkRow false (set_nth (cst_width q - 1) (-1) (orth_sum isl_emptyb kernel o q cur s))]) as F.
  { intros l Hl. apply filter_In in Hl as [Hl NE]. apply in_map_iff in Hl as (s & <- & Hs).
    destruct (lin_ind_form isl_emptyb kernel o q cur s) as [E|[_ E]]; [rewrite E in NE; discriminate|]. exists s. exact E. }
  assert (forall s, nth 0 (set_nth (cst_width q - 1) (-1) (orth_sum isl_emptyb kernel o q cur s)) 0 = 0) as Z0.
  { intros s. rewrite nth_set_nth_neq by lia. apply orth_sum_head. }
  intros Hr.
  assert ((mode = EAGER /\ In r (flat_map (fun l => rows (last l (mkCst (cst_width q) []))) orth)) \/
          (r = mkRow false (set_nth (cst_width q - 1) (-1) (fold_right (zip_with Z.add) (repeat 0 (cst_width q)) (map (last_row (cst_width q)) orth))))) as [[_ H]|H].
  { clearbody orth. destruct orth; [destruct Hr|]. destruct mode; [left; auto|right]. destruct Hr as [<-|[]]. auto. }
  - apply in_flat_map in H as (l & Hl & H). destruct (F l Hl) as [s E]. rewrite E in H. destruct H as [<-|[]]. apply Z0.
  - subst r. cbn [coef]. rewrite nth_set_nth_neq by lia. rewrite sum_rows_nth.
    + clear Hr. clearbody orth. induction orth as [|l orth IH]; cbn [map fold_right]; auto. rewrite IH by (intros; apply F; simpl; auto).
      unfold last_row. destruct (F l (or_introl eq_refl)) as [s E]. rewrite E. cbn [rows coef]. rewrite Z0. auto.
    + intros v Hv. apply in_map_iff in Hv as (l & <- & Hl). unfold last_row. destruct (F l Hl) as [s E]. rewrite E. cbn [rows coef].
      rewrite set_nth_length. apply orth_sum_length.
Qed.
End Ind.

Lemma own_head pr ncc c v y : y <> [] -> own pr ncc c (v :: tl y) = own pr ncc c y.
Proof.
  intros N. destruct y as [|a y]; [tauto|]. unfold own. cbn [tl].
  replace ((p_npar pr + 1) * (c + 1))%nat with (S ((p_npar pr + 1) * (c + 1) - 1)) by lia.
  replace (cc_cols pr ncc + p_npar pr + 1)%nat with (S (cc_cols pr ncc + p_npar pr)) by lia. reflexivity.
Qed.

Lemma bounding_head o q v y : y <> [] -> 0 <= v -> mem (get_coeff_bounding_constraints o q) y -> mem (get_coeff_bounding_constraints o q) (v :: tl y).
Proof.
  intros N Hv. rewrite !bounding_mem. destruct y as [|a y]; [tauto|]. cbn [tl length]. intros (L & A & B). split; auto. split.
  - intros u [<-|Hu]; auto. apply A. simpl; auto.
  - intros i Hi. destruct i; [lia|]. apply (B (S i)). auto.
Qed.

(** The row of the sum when there are no parameters. *)
Lemma dot_repeat v b : dot (repeat v (length b)) b = v * fold_right Z.add 0 b.
Proof. induction b; cbn; lia. Qed.

Lemma sum_row pr ncc y : p_npar pr = 0%nat -> S (length y) = cst_width (widen (cc_cols pr ncc) pr) ->
  (mem (obj_sum pr ncc) y <-> cc_total pr ncc y 0 <= nth 0 y 0).
Proof.
  intros NP L. unfold mem. cbn [obj_sum ncols]. unfold obj_sum. cbn [rows]. rewrite NP. cbn [Nat.add seq map].
  assert (cst_width (widen (cc_cols pr ncc) pr) = S (S ncc) + length (p_stmts pr) * (p_nvar pr + 1))%nat as Ew.
  { unfold cst_width. cbn. unfold cc_cols. rewrite NP. lia. }
  set (w := cst_width (widen (cc_cols pr ncc) pr)) in *. set (rest := (length (p_stmts pr) * (p_nvar pr + 1))%nat) in Ew. clearbody rest w.
  destruct y as [|a y]; [cbn in L; lia|].
  assert (exists b c, y = b ++ c /\ length b = ncc) as (b & c & -> & Lb).
  { exists (firstn ncc y), (skipn ncc y). split; [rewrite firstn_skipn; auto|]. rewrite firstn_length. cbn in L. lia. }
  assert (cc_total pr ncc (a :: b ++ c) 0 = fold_right Z.add 0 b) as ->.
  { unfold cc_total, cc_u. rewrite NP. f_equal. apply (list_ext_nth 0); [rewrite map_length, seq_length; auto|].
    intros i Hi. rewrite map_length, seq_length in Hi. rewrite nth_map_seq by auto.
    replace ((0 + 1) * (i + 1) + 0)%nat with (S i) by lia. cbn [nth]. rewrite app_nth1 by lia. auto. }
  set (r := map _ (seq 0 w)).
  assert (r = 1 :: repeat (-1) (length b) ++ repeat 0 (w - 1 - ncc)) as ->.
  { apply (list_ext_nth 0).
    - unfold r. rewrite map_length, seq_length. cbn [length]. rewrite app_length, !repeat_length. lia.
    - intros i Hi. unfold r in *. rewrite map_length, seq_length in Hi. rewrite nth_map_seq by auto.
      destruct i as [|i]; [reflexivity|]. cbn [nth Nat.eqb].
      destruct (Nat.ltb_spec 0 (S i)); [|lia]. destruct (Nat.leb_spec (S i) ncc); cbn [andb].
      + rewrite app_nth1 by (rewrite repeat_length; lia). rewrite nth_indep with (d' := -1) by (rewrite repeat_length; lia). rewrite nth_repeat. auto.
      + rewrite app_nth2 by (rewrite repeat_length; lia). rewrite nth_repeat. auto. }
  assert (aff (1 :: repeat (-1) (length b) ++ repeat 0 (w - 1 - ncc)) (a :: b ++ c) = a - fold_right Z.add 0 b) as Ea.
  { unfold aff. cbn [app dot]. rewrite <- app_assoc. rewrite dot_app by (rewrite repeat_length; auto).
    rewrite dot_repeat. rewrite (dot_zero_all (repeat 0 _)) by (intros v Hv; apply repeat_spec in Hv; auto). lia. }
  cbn [nth]. split.
  - intros [_ H]. specialize (H _ (or_introl eq_refl)). unfold holds in H. cbn [is_eq coef] in H. rewrite Ea in H. lia.
  - intros H. split; auto. intros q [<-|[]]. unfold holds. cbn [is_eq coef]. rewrite Ea. lia.
Qed.

Lemma total_nonneg pr ncc y : (forall v, In v y -> 0 <= v) -> 0 <= cc_total pr ncc y 0.
Proof.
  intros H. unfold cc_total. induction (seq 0 ncc) as [|c l IH]; cbn [map fold_right]; [lia|].
  assert (0 <= cc_u pr y c 0); [|lia]. unfold cc_u. set (i := (_ + 0)%nat). destruct (le_lt_dec (length y) i).
  - rewrite nth_overflow by auto. lia.
  - apply H. apply nth_In. auto.
Qed.

Lemma total_head pr ncc v y : y <> [] -> cc_total pr ncc (v :: tl y) 0 = cc_total pr ncc y 0.
Proof.
  intros N. unfold cc_total. f_equal. apply map_ext. intros c. unfold cc_u. destruct y; [tauto|].
  replace ((p_npar pr + 1) * (c + 1) + 0)%nat with (S ((p_npar pr + 1) * (c + 1) - 1)) by lia. reflexivity.
Qed.

Lemma sum_least isl_emptyb kernel solve o mode pr ccs ncc m base m' sol cur ind : solver_least solve -> orig_first pr ->
  (forall d, In d (p_deps pr) -> (Z.to_nat (nth (d_src d) ccs 0%Z) < ncc)%nat) -> p_npar pr = 0%nat ->
  cc_permutability o pr ccs ncc m = Some (base, m') -> cc_system isl_emptyb kernel o mode ncc base pr = (cur, ind) ->
  cc_solution isl_emptyb kernel solve o mode ncc base pr = Some sol ->
  mem cur sol /\ mem ind sol /\
  forall y, mem cur y -> mem ind y -> zpadding_zero (widen (cc_cols pr ncc) pr) y -> cc_total pr ncc sol 0 <= cc_total pr ncc y 0.
Proof.
  intros SL O RG NP E0 ES E. pose proof (cc_perm_spec o pr ccs ncc RG m base m' E0) as (Wb & Nb & Kb).
  pose proof (cc_system_wf isl_emptyb kernel o mode ncc base pr O Wb Nb) as K. unfold cc_solution in E. rewrite ES in K, E.
  destruct K as (W1 & W2 & N1 & N2 & K). destruct (nrows ind =? 0)%nat eqn:NR; [discriminate|].
  destruct (cst_add_wf cur ind W1 W2 ltac:(congruence)) as [W3 N3]. destruct (obj_sum_wf pr ncc) as [W4 N4].
  destruct (cst_add_wf _ _ W3 W4 ltac:(congruence)) as [W5 N5].
  destruct (widen_orig (cc_cols pr ncc) pr O) as [O1 O2].
  assert (rows (cst_add (cst_add cur ind) (obj_sum pr ncc)) <> []) as NE.
  { cbn [cst_add rows]. intros X. apply app_eq_nil in X as [X _]. apply app_eq_nil in X as [_ X].
    apply Nat.eqb_neq in NR. apply NR. unfold nrows. rewrite X. auto. }
  assert (solver_sound solve) as SO by (intros p c x Wx Ex; apply (SL p c x Wx Ex)).
  pose proof E as E1. apply (lexmin_sound _ O1 O2 _ W5 ltac:(congruence) solve sol SO NE) in E1 as [M _].
  apply cst_add_mem in M as [M M3]; [|congruence]. apply cst_add_mem in M as [M1 M2]; [|congruence].
  split; auto. split; auto. intros y My Iy Zy.
  assert (S (length y) = cst_width (widen (cc_cols pr ncc) pr)) as Ly by (destruct My; congruence).
  assert (S (length sol) = cst_width (widen (cc_cols pr ncc) pr)) as Ls by (destruct M1; congruence).
  assert (y <> []) as Ny. { intros ->. unfold cst_width in Ly. cbn in Ly. lia. }
  apply sum_row in M3; auto.
  pose proof (proj1 (Kb y) (K y My)) as (_ & By & Dy). pose proof By as By'. apply bounding_mem in By' as (_ & Py & _).
  pose proof (total_nonneg pr ncc y Py) as Tp. set (y' := cc_total pr ncc y 0 :: tl y).
  assert (S (length y') = cst_width (widen (cc_cols pr ncc) pr)) as Ly'. { unfold y'. destruct y; [tauto|]. exact Ly. }
  assert (mem base y') as Mb.
  { apply Kb. split; auto. split; [apply bounding_head; auto|]. intros d Hd Sd. unfold y'. rewrite own_head by auto. apply Dy; auto. }
  unfold cc_system in ES. injection ES as <- <-.
  apply (Z.le_trans _ _ _ M3). change (cc_total pr ncc y 0) with (nth 0 y' 0).
  eapply (lexmin_head _ _ solve sol O1 O2 W5 ltac:(congruence) NE SL E).
  - apply cst_add_mem; [congruence|]. split; [apply cst_add_mem; [congruence|]; split|].
    + apply cst_add_mem in My as [_ My]; [|rewrite (proj2 (nontriv_wf _ _)); auto]. apply cst_add_mem; [rewrite (proj2 (nontriv_wf _ _)); auto|]. split; auto.
      apply mem_head; auto. apply nontriv_head.
    + apply mem_head; auto. apply ind_head.
    + apply sum_row; auto. unfold y'. rewrite total_head by auto. cbn. lia.
  - intros s k Hs Hk Eo. specialize (Zy s k Hs Hk Eo). cbn [widen p_npar p_nvar] in *. unfold y'. destruct y; [tauto|]. cbn [tl].
    revert Zy. replace (p_npar pr + cc_cols pr ncc + 1 + s * (p_nvar pr + 1) + k)%nat with (S (p_npar pr + cc_cols pr ncc + s * (p_nvar pr + 1) + k)) by lia. auto.
Qed.
