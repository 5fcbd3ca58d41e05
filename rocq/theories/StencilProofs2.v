(** * The face of a component, and when the stencil test answers. *)
From Coq Require Import ZArith QArith List Bool Arith Lia Sorted.
From Verif Require Import SpecLinear SpecMatrix VecProofs MathModel ConstraintsModel EditProofs FarkasProofs SumProofs SpecProg SpecTile SpecDriver SpecCone SpecCc SpecStencil FrameworkModel FrameworkProofs DepProofs
  ProgModel ProgProofs DriverModel HypProofs DriverProofs PadProofs LoopModel ConeModel ConeProofs StencilModel StencilProofs.
Import ListNotations.
Open Scope Z_scope.

Lemma scc_stmts_filter pr scc :
  filter (fun s => is_stmt_in_stmt_list s (scc_stmts pr scc)) (seq 0 (length (p_stmts pr))) = scc_stmts pr scc.
Proof.
  apply filter_sorted.
  - apply sorted_filter. apply sorted_seq.
  - intros s Hs. apply scc_stmts_in in Hs as [Hs _]. lia.
Qed.

Section Face.
Variables (solve : prog -> cst -> option point) (o : options) (pr : prog) (scc : Z).
Hypothesis SOL : solver_sound solve.
Hypothesis O : orig_first pr.

Lemma face_spec faces : wf_prog pr -> padded pr -> scc_face solve o scc pr = Some faces ->
  exists f, mrows faces = map f (scc_stmts pr scc) /\ (forall s, in_scc pr scc s -> one_loop (p_nvar pr) (f s)) /\
    (forall s, in_scc pr scc s -> length (f s) = (p_nvar pr + p_npar pr + 1)%nat) /\
    forall d, scc_dep pr scc d -> hyps_strict pr f d.
Proof.
  intros W P H. unfold scc_face in H. apply faces_spec in H as (sol & M & Z0 & E & _ & N); auto. cbn [pb_loop l_stmts] in *.
  rewrite scc_stmts_filter in E. exists (hyp_row pr sol). split; [exact E|].
  assert (S (length sol) = cst_width pr) as Ls by (destruct M as [L _]; rewrite (proj2 (feautrier_wf o pr _)) in L; auto).
  split; [|split].
  - intros s Hs. apply one_nonzero; [rewrite hyp_row_length; lia|]. apply N. rewrite E. apply in_map. apply scc_stmts_in. auto.
  - intros s _. apply hyp_row_length.
  - intros d (Hd & Hr & E1 & E2) s t p Ins. assert (wf_dep pr d) as (D1 & D2 & _) by (apply W; auto).
    pose proof Ins as (L3 & L4 & L5 & _). rewrite (P _ (stmt_of_in pr _ D1)) in L3. rewrite (P _ (stmt_of_in pr _ D2)) in L4.
    rewrite !hyp_row_aff by (auto; congruence).
    pose proof (feautrier_sound_at o pr (scc_stmts pr scc) sol d W P) as F.
    assert (forall s, (s < length (p_stmts pr))%nat -> pad_at pr sol s) as PA.
    { intros u Hu k Hk Ok. unfold stmt_offset. apply Z0; auto. }
    specialize (F (PA _ D1) (PA _ D2) M Hd). rewrite !scc_stmts_in in F. specialize (F (conj D1 E1) (conj D2 E2) Hr s t p Ins). lia.
Qed.

(** ** Components without dependences *)

Lemma swaps_all (Q : Z -> Prop) l : Q 0 -> forall y, (forall v, In v y -> Q v) -> forall v, In v (swaps l y) -> Q v.
Proof.
  intros Q0. induction l as [|p l IH]; intros y H v Hv; [auto|].
  change (swaps (p :: l) y) with (swaps l (swap_nth 0 (fst p) (snd p) y)) in Hv. revert v Hv. apply IH.
  assert (forall i, Q (nth i y 0)) as N. { intros i. destruct (nth_in_or_default i y 0) as [X|X]; [auto|rewrite X; auto]. }
  assert (forall i a z, Q a -> (forall v, In v z -> Q v) -> forall v, In v (set_nth i a z) -> Q v) as SN.
  { intros i a z Ha Hz v Hv. apply (In_nth _ _ 0) in Hv as (j & Hj & <-). rewrite set_nth_length in Hj.
    destruct (Nat.eq_dec i j) as [->|Nij]; [rewrite nth_set_nth_eq; auto|rewrite nth_set_nth_neq by auto; apply Hz; apply nth_In; auto]. }
  unfold swap_nth. apply SN; [apply N|]. apply SN; [apply N|auto].
Qed.

Lemma fill_in red : forall y v, length y = keepn red -> In v y -> In v (fill_zeros red y).
Proof.
  induction red as [|b red IH]; intros y v L Hv.
  - destruct y; [contradiction|discriminate].
  - rewrite keepn_cons in L. destruct b; cbn [fill_zeros].
    + right. apply IH; auto.
    + destruct y as [|a y]; [discriminate|]. cbn [hd tl]. destruct Hv as [->|Hv]; [left; auto|right]. apply IH; auto.
Qed.

Lemma lexlt_zero x : forall y, (forall v, In v y -> v = 0) -> (forall v, In v x -> 0 <= v) -> ~ lexlt x y.
Proof.
  induction x as [|a x IH]; intros [|b y] Hy Hx H; cbn [lexlt] in H; try tauto.
  pose proof (Hy b (or_introl eq_refl)). pose proof (Hx a (or_introl eq_refl)). destruct H as [H|[_ H]]; [lia|].
  apply (IH y); auto; intros v Hv; [apply Hy|apply Hx]; simpl; auto.
Qed.

(** A solver that finds least points answers zero if that is a solution. *)
Lemma lexmin_zero c x : solver_least solve -> wf_cst c -> ncols c = cst_width pr -> rows c <> [] ->
  (forall y, mem c y -> forall v, In v y -> 0 <= v) -> mem c (repeat 0 (cst_width pr - 1)) ->
  prog_constraints_lexmin solve pr c = Some x -> x = repeat 0 (cst_width pr - 1).
Proof.
  intros SL Wc Nc Hr NN M0 E. assert (wf_orig pr) as Ho by (apply orig_first_wf; auto).
  assert (forall st, In st (p_stmts pr) -> num_orig pr st = s_dim_orig st) as Hd by (intros st Hst; apply (orig_first_mask pr st O Hst)).
  unfold prog_constraints_lexmin in E.
  destruct (solve pr (compact_cst pr c)) as [z|] eqn:Es; [|discriminate]. injection E as <-.
  rewrite firstn_front by auto. fold (sw pr). fold (swaps (sw pr) z).
  destruct (compact_spec pr Ho Hd c Wc Nc [] Hr) as [Wk _]. destruct (SL pr _ z Wk Es) as [Mz Lz].
  destruct (compact_complete pr Ho Hd c Wc Nc _ Hr M0) as (z' & Mz' & E').
  { intros s k _ _ _. apply nth_repeat. }
  destruct (Lz z' Mz') as [->|X]; [exact E'|]. exfalso.
  apply (compact_spec pr Ho Hd c Wc Nc z Hr) in Mz as [L1 M1]. apply (compact_spec pr Ho Hd c Wc Nc z' Hr) in Mz' as [L2 _].
  revert X. apply lexlt_zero.
  - intros v Hv. rewrite <- (swaps_involutive (sw pr) z') in Hv by (try apply sw_range; auto; apply reversal_apart).
    revert v Hv. apply swaps_all; [auto|]. intros v Hv. apply (fill_in (red_front pr)) in Hv; [|rewrite swaps_length; auto].
    rewrite E' in Hv. apply repeat_spec in Hv. auto.
  - intros v Hv. rewrite <- (swaps_involutive (sw pr) z) in Hv by (try apply sw_range; auto; apply reversal_apart).
    revert v Hv. apply (swaps_all (fun v => 0 <= v)); [lia|]. intros v Hv. apply (fill_in (red_front pr)) in Hv; [|rewrite swaps_length; auto].
    exact (NN _ M1 v Hv).
Qed.

Lemma zero_feautrier : wf_prog pr -> (forall d, ~ scc_dep pr scc d) -> mem (get_feautrier_schedule_constraints o pr (scc_stmts pr scc)) (repeat 0 (cst_width pr - 1)).
Proof.
  intros W ND. pose proof (width_pos pr) as WP. apply qmem_zpoint. apply feautrier_spec. rewrite zpoint_length, repeat_length. split; [lia|].
  intros d Hd S1 S2 _. apply scc_stmts_in in S1 as [_ S1]. apply scc_stmts_in in S2 as [_ S2].
  destruct (d_rar d) eqn:R.
  - unfold feautrier_cst_dep. rewrite R. split; [rewrite zpoint_length, repeat_length; cbn; lia|]. intros r [].
  - exfalso. apply (ND d). split; auto.
Qed.

Lemma no_deps_no_face : solver_least solve -> wf_prog pr -> (exists s, in_scc pr scc s) -> (forall d, ~ scc_dep pr scc d) -> scc_face solve o scc pr = None.
Proof.
  intros SL W [s0 Hs0] ND. pose proof (width_pos pr) as WP. unfold scc_face, get_face_with_concurrent_start. cbn [pb_loop l_stmts].
  set (c := cst_add _ _). destruct (prog_constraints_lexmin solve pr c) as [sol|] eqn:E; [|auto].
  destruct (feautrier_wf o pr (scc_stmts pr scc)) as [F1 F2]. destruct (bounding_wf o pr) as [B1 B2].
  destruct (DriverProofs.cst_add_wf _ _ F1 B1 ltac:(congruence)) as [W1 W2]. fold c in W1, W2.
  assert (rows c <> []) as NR. { unfold c. cbn [cst_add rows]. intros X. apply app_eq_nil in X as [_ X]. exact (bounding_rows o pr X). }
  assert (forall y, mem c y <-> mem (get_feautrier_schedule_constraints o pr (scc_stmts pr scc)) y /\ mem (get_coeff_bounding_constraints o pr) y) as MC.
  { intros y. unfold c. rewrite cst_add_mem by congruence. tauto. }
  assert (wf_orig pr) as Ho by (apply orig_first_wf; auto).
  assert (mem c sol) as Ms.
  { apply (lexmin_sound pr Ho) in E as [M _]; auto. intros st Hst; apply (orig_first_mask pr st O Hst). }
  apply (lexmin_zero c) in E; auto.
  - subst sol. rewrite scc_stmts_filter. destruct (forallb _ _) eqn:F; [|auto]. exfalso. rewrite forallb_forall in F.
    specialize (F (hyp_row pr (repeat 0 (cst_width pr - 1)) s0)). cbn [mrows] in F.
    specialize (F ltac:(apply in_map; apply scc_stmts_in; auto)). apply Nat.eqb_eq in F. apply one_nonzero in F; [|rewrite hyp_row_length; lia].
    destruct F as (j & Hj & N & _). apply N. rewrite hyp_row_nth by auto. apply nth_repeat.
  - intros y My. apply MC in My as [_ My]. apply bounding_mem in My. apply My.
  - apply MC. split; [apply zero_feautrier; auto|]. apply MC in Ms as [_ Ms]. apply bounding_mem in Ms as (L & NN & U). apply bounding_mem.
    rewrite repeat_length. split; [lia|]. split; [intros v Hv; apply repeat_spec in Hv; lia|].
    intros i Hi. specialize (U i ltac:(lia)). destruct (coeff_limit o pr); auto. rewrite nth_repeat.
    assert (0 <= nth i sol 0) by (apply NN; apply nth_In; lia). lia.
Qed.
End Face.
