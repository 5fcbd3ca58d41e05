(** * Proofs about the scaling of rational solutions: from the compacted system to the
    constraints of the search. *)
From Coq Require Import ZArith QArith Qabs List Bool Arith Lia.
From Verif Require Import SpecLinear SpecMatrix VecProofs MathModel ConstraintsModel EditProofs RankProofs MatrixProofs FarkasProofs SpecGraph GraphModel GraphProofs GraphProofs2
  SpecProg SpecDriver FrameworkModel FrameworkProofs ProgModel ProgProofs DriverModel HypProofs KeepProofs SpecGlpk GlpkModel GlpkProofs.
Import ListNotations.
Open Scope Z_scope.

(** ** The rows of the compacted system *)
Lemma reversal_distinct l : forall j p, In p (reversal_swaps j l) -> fst p <> snd p.
Proof.
  induction l as [|st l IH]; intros j p H; [destruct H|]. cbn [reversal_swaps] in H. apply in_app_or in H as [H|H]; [|eapply IH; eauto].
  apply in_map_iff in H as (k & <- & Hk). apply in_seq in Hk. cbn [fst snd].
  pose proof (Nat.mul_div_le (s_dim_orig st) 2 ltac:(lia)). lia.
Qed.

Lemma interchange_rows l : forall c, (forall p, In p l -> fst p <> snd p) ->
  rows (fold_left (fun c' p => interchange_cols c' (fst p) (snd p)) l c) = map (map_coef (swaps l)) (rows c).
Proof.
  induction l as [|p l IH]; intros c H; cbn [fold_left].
  - rewrite <- (map_id (rows c)) at 1. apply map_ext. intros [e r]. reflexivity.
  - rewrite IH by (intros; apply H; simpl; auto). unfold interchange_cols. destruct (Nat.eqb_spec (fst p) (snd p)) as [E|E]; [exfalso; apply (H p); simpl; auto|].
    cbn [rows]. rewrite map_map. apply map_ext. intros [e r]. reflexivity.
Qed.

Definition compact_row (pr : prog) (l : list Z) : list Z := swaps (sw pr) (select (map negb (redundant_cols pr)) l).
Lemma compact_rows pr c : rows (compact_cst pr c) = map (map_coef (compact_row pr)) (rows c).
Proof.
  rewrite compact_eq, interchange_rows by (intros p Hp; eapply reversal_distinct; eauto). unfold packed. cbn [rows]. rewrite map_map. apply map_ext. intros [e r]. reflexivity.
Qed.

(** ** Labels of columns *)
Definition labelled (k : Z) (r L : list Z) : Prop := forall i, nth i r 0 <> 0 -> nth i L 0 = k.

Lemma labelled_select k m : forall r L, length r = length L -> labelled k r L -> labelled k (select m r) (select m L).
Proof.
  induction m as [|b m IH]; intros [|a r] [|q L] E H i N; try discriminate; try (destruct i; cbn in N; congruence).
  injection E as E. assert (labelled k r L) as H' by (intros j Hj; apply (H (S j)); auto).
  cbn [select] in *. destruct b; [|apply (IH r L E H' i N)].
  destruct i as [|i]; [apply (H 0%nat); auto|]. cbn [nth] in *. apply (IH r L E H' i N).
Qed.

Lemma swap_same (L : list Z) a b : nth a L 0 = nth b L 0 -> (a < length L)%nat -> (b < length L)%nat -> swap_nth 0 a b L = L.
Proof.
  intros E A B. apply (list_ext_nth 0); [apply swap_nth_length|]. intros i Hi. rewrite swap_nth_nth by auto.
  destruct (Nat.eqb_spec i a); [congruence|]. destruct (Nat.eqb_spec i b); congruence.
Qed.

Lemma labelled_swaps k l : forall r L, length r = length L -> (forall p, In p l -> in_range (length L) p /\ nth (fst p) L 0 = nth (snd p) L 0) ->
  labelled k r L -> labelled k (swaps l r) L.
Proof.
  induction l as [|p l IH]; intros r L E HP H; auto.
  change (swaps (p :: l) r) with (swaps l (swap_nth 0 (fst p) (snd p) r)). destruct (HP p) as [[R1 R2] Q]; [simpl; auto|].
  apply IH; [rewrite swap_nth_length; auto|intros; apply HP; simpl; auto|].
  intros i N. rewrite swap_nth_nth in N by lia.
  destruct (Nat.eqb_spec i (fst p)) as [E1|E1]; [rewrite E1, Q; auto|]. destruct (Nat.eqb_spec i (snd p)) as [E2|E2]; auto.
  rewrite E2, <- Q. auto.
Qed.

(** The labels of the columns of the full and of the compacted system. *)
Definition full_labels (pr : prog) (cc : list Z) : list Z :=
  repeat (-5) (p_npar pr + 1) ++ flat_map (fun z => repeat z (p_nvar pr + 1)) cc.
Definition owners (pr : prog) (cc : list Z) : list Z := flat_map (fun p => repeat (fst p) (s_dim_orig (snd p) + 1)) (combine cc (p_stmts pr)).
Definition compact_labels (pr : prog) (cc : list Z) : list Z := repeat (-5) (p_npar pr + 1) ++ owners pr cc.

Lemma full_labels_length pr cc : length cc = length (p_stmts pr) -> S (length (full_labels pr cc)) = cst_width pr.
Proof.
  intros E. unfold full_labels, cst_width. rewrite app_length, repeat_length.
  assert (length (flat_map (fun z => repeat z (p_nvar pr + 1)) cc) = length cc * (p_nvar pr + 1))%nat as ->; [|rewrite E; lia].
  clear. induction cc; cbn [flat_map length]; auto. rewrite app_length, repeat_length, IHcc. lia.
Qed.

Lemma blocks_nth n cc : forall s j, (s < length cc)%nat -> (j < n)%nat -> nth (s * n + j) (flat_map (fun z => repeat z n) cc) 0 = nth s cc 0.
Proof.
  induction cc as [|z cc IH]; intros s j Hs Hj; [cbn in Hs; lia|]. cbn [flat_map]. destruct s as [|s].
  - rewrite app_nth1 by (rewrite repeat_length; lia). cbn [Nat.mul Nat.add]. rewrite (nth_indep _ 0 z) by (rewrite repeat_length; lia). apply nth_repeat.
  - rewrite app_nth2 by (rewrite repeat_length; nia). rewrite repeat_length. replace (S s * n + j - n)%nat with (s * n + j)%nat by nia.
    cbn [nth]. apply IH; auto. cbn in Hs. lia.
Qed.

Lemma full_labels_front pr cc k : (k < p_npar pr + 1)%nat -> nth k (full_labels pr cc) 0 = -5.
Proof.
  intros H. unfold full_labels. rewrite app_nth1 by (rewrite repeat_length; auto). rewrite (nth_indep _ 0 (-5)) by (rewrite repeat_length; auto). apply nth_repeat.
Qed.
Lemma full_labels_block pr cc s j : (s < length cc)%nat -> (j <= p_nvar pr)%nat -> nth (stmt_offset pr s + j) (full_labels pr cc) 0 = nth s cc 0.
Proof.
  intros Hs Hj. unfold full_labels, stmt_offset. rewrite app_nth2 by (rewrite repeat_length; lia). rewrite repeat_length.
  replace (p_npar pr + 1 + s * (p_nvar pr + 1) + j - (p_npar pr + 1))%nat with (s * (p_nvar pr + 1) + j)%nat by lia. apply blocks_nth; auto. lia.
Qed.

Lemma select_all {A} n (l : list A) : length l = n -> select (repeat true n) l = l.
Proof. revert n. induction l as [|a l IH]; intros [|n] H; try discriminate; auto. cbn. f_equal. apply IH. auto. Qed.
Lemma select_repeat m (z : Z) : select m (repeat z (length m)) = repeat z (count m).
Proof. unfold count. induction m as [|[|] m IH]; cbn; auto. f_equal. auto. Qed.

Lemma select_labels pr cc : orig_first pr -> length cc = length (p_stmts pr) ->
  select (map negb (red_front pr)) (full_labels pr cc) = compact_labels pr cc.
Proof.
  intros O E. unfold red_front, full_labels, compact_labels. rewrite map_app.
  rewrite select_app by (rewrite map_length, !repeat_length; auto). f_equal.
  - assert (forall n, map negb (repeat false n) = repeat true n) as -> by (clear; induction n; cbn; congruence). apply select_all. apply repeat_length.
  - unfold owners. revert E. assert (forall st, In st (p_stmts pr) -> In st (p_stmts pr)) as I by auto. revert I. generalize (p_stmts pr) at 1 3 4 5 as l.
    intros l I. revert cc. induction l as [|st l IH]; intros [|z cc] E; try discriminate; [reflexivity|]. injection E as E.
    cbn [flat_map combine]. rewrite map_app.
    destruct (orig_first_mask pr st O (I st (or_introl eq_refl))) as (_ & N & L & _).
    pose proof (mask_length pr st L) as ML.
    rewrite select_app.
    + f_equal; [|apply IH; auto; intros; apply I; simpl; auto]. rewrite map_app. cbn [map negb].
      replace (repeat z (p_nvar pr + 1)) with (repeat z (length (map negb (map negb (orig_mask pr st)) ++ [true]))).
      2:{ f_equal. rewrite app_length, !map_length, ML. reflexivity. }
      rewrite select_repeat. f_equal. cbn [snd]. rewrite <- N. unfold num_orig, orig_mask, count.
      rewrite filter_app, app_length. cbn. f_equal. fold (count (map negb (map negb (firstn (p_nvar pr) (s_orig st))))). rewrite count_map_negb. reflexivity.
    + rewrite repeat_length, !map_length, app_length, map_length, ML. reflexivity.
Qed.

Lemma swap_labels_gen npar : forall l cc j p, length cc = length l ->
  In p (reversal_swaps j l) -> (npar <= j)%nat ->
  forall L, L = repeat (-5) npar ++ flat_map (fun p => repeat (fst p) (s_dim_orig (snd p) + 1)) (combine cc l) -> j = npar ->
  nth (fst p) L 0 = nth (snd p) L 0.
Proof.
  assert (forall l cc j pre p, length cc = length l -> length pre = j -> In p (reversal_swaps j l) ->
    nth (fst p) (pre ++ flat_map (fun p => repeat (fst p) (s_dim_orig (snd p) + 1)) (combine cc l)) 0 =
    nth (snd p) (pre ++ flat_map (fun p => repeat (fst p) (s_dim_orig (snd p) + 1)) (combine cc l)) 0) as G.
  { induction l as [|st l IH]; intros [|z cc] j pre p E LP H; try discriminate; [destruct H|]. injection E as E.
    cbn [reversal_swaps] in H. apply in_app_or in H as [H|H].
    - apply in_map_iff in H as (k & <- & Hk). apply in_seq in Hk. pose proof (Nat.mul_div_le (s_dim_orig st) 2 ltac:(lia)). cbn [fst snd combine flat_map].
      assert (forall i n, (i < n)%nat -> nth i (repeat z n) 0 = z) as RN by (intros i n Hi; rewrite (nth_indep _ 0 z) by (rewrite repeat_length; lia); apply nth_repeat).
      assert (forall i Y, (i < s_dim_orig st)%nat -> nth (j + i) (pre ++ repeat z (s_dim_orig st + 1) ++ Y) 0 = z) as ST.
      { intros i Y Hi. rewrite app_nth2 by lia. rewrite LP. rewrite app_nth1 by (rewrite repeat_length; lia). apply RN. lia. }
      rewrite !ST by lia. reflexivity.
    - cbn [combine flat_map fst snd]. rewrite app_assoc. apply (IH cc (j + s_dim_orig st + 1)%nat); auto.
      rewrite app_length, repeat_length. lia. }
  intros l cc j p E H _ L -> ->. apply (G l cc npar); auto. apply repeat_length.
Qed.

Lemma owners_length pr cc : length cc = length (p_stmts pr) -> length (owners pr cc) = fold_right (fun st n => s_dim_orig st + 1 + n)%nat 0%nat (p_stmts pr).
Proof.
  unfold owners. revert cc. generalize (p_stmts pr) as l. induction l as [|st l IH]; intros [|z cc] E; try discriminate; auto.
  injection E as E. cbn [combine flat_map fold_right fst snd]. rewrite app_length, repeat_length, IH by auto. lia.
Qed.

Lemma compact_labelled pr cc k r : orig_first pr -> length cc = length (p_stmts pr) -> length r = cst_width pr ->
  labelled k (firstn (cst_width pr - 1) r) (full_labels pr cc) ->
  exists front, compact_row pr r = front ++ [last r 0] /\ length front = (p_npar pr + 1 + length (owners pr cc))%nat /\ labelled k front (compact_labels pr cc).
Proof.
  intros O E L H. pose proof (cst_width_S pr) as CW. pose proof (full_labels_length pr cc E) as FL.
  set (f := firstn (cst_width pr - 1) r) in *. assert (length f = cst_width pr - 1)%nat as Lf by (unfold f; rewrite firstn_length; lia).
  assert (r = f ++ [last r 0]) as Er. { rewrite last_nth, L. unfold f. apply last_split. lia. }
  pose proof (orig_first_wf pr O) as Ho. pose proof (red_front_length pr Ho) as RL.
  assert (forall st, In st (p_stmts pr) -> num_orig pr st = s_dim_orig st) as Hd by (intros st Hst; apply (orig_first_mask pr st O Hst)).
  set (g := select (map negb (red_front pr)) f).
  assert (length g = keepn (red_front pr)) as Lg by (unfold g; rewrite select_length; auto; rewrite map_length; lia).
  assert (length g = p_npar pr + 1 + length (owners pr cc))%nat as Lg2 by (rewrite Lg, (keepn_front pr Hd), owners_length; auto).
  exists (swaps (sw pr) g). split; [|split].
  - unfold compact_row. rewrite Er at 1. rewrite red_cols_front, map_app. rewrite select_app by (rewrite map_length; lia). cbn [map negb select]. fold g.
    assert (forall z l g0, (forall p, In p l -> in_range (length g0) p) -> swaps l (g0 ++ [z]) = swaps l g0 ++ [z]) as SA.
    { clear. intros z l. induction l as [|p l IH]; intros g0 H; auto.
      change (swaps (p :: l) ?y) with (swaps l (swap_nth 0 (fst p) (snd p) y)). destruct (H p) as [A B]; [simpl; auto|].
      rewrite swap_nth_app by auto. apply IH. rewrite swap_nth_length. intros; apply H; simpl; auto. }
    apply SA. intros p Hp. apply (sw_range pr Hd); auto.
  - rewrite swaps_length. auto.
  - apply labelled_swaps.
    + unfold compact_labels. rewrite app_length, repeat_length. lia.
    + intros p Hp. split.
      * unfold compact_labels. rewrite app_length, repeat_length, <- Lg2, Lg. apply (sw_range pr Hd); auto.
      * eapply swap_labels_gen; [exact E|exact Hp|reflexivity|reflexivity|reflexivity].
    + rewrite <- select_labels by auto. unfold g. apply labelled_select; auto. lia.
Qed.

(** ** Components *)
Lemma nth_firstn_lt (l : list Z) k i : (i < k)%nat -> nth i (firstn k l) 0 = nth i l 0.
Proof. revert l i. induction k; intros [|a l] [|i] H; cbn; auto; try lia. apply IHk. lia. Qed.

Lemma components_range pr cc num u : wf_prog pr -> components pr = (cc, num) -> (u < length (p_stmts pr))%nat ->
  length cc = length (p_stmts pr) /\ 0 <= nth u cc 0 < Z.of_nat num.
Proof.
  intros W E Hu. unfold components in E.
  assert (ddeps_ok (length (p_stmts pr)) (map to_ddep (p_deps pr))) as OK.
  { intros q Hq. apply in_map_iff in Hq as (e & <- & He). cbn. destruct (proj2 W e He) as (A & B & _). auto. }
  destruct (ddg_create_count _ _ OK) as [WG _]. fold (graph_of pr) in WG.
  pose proof (ddg_compute_cc_spec _ _ (repeat 0 (length (p_stmts pr))) WG (repeat_length _ _)) as K. rewrite E in K.
  destruct K as (L & R & LR & ND & HR & Hi). split; auto. rewrite Hi by auto. 
  destruct (leader_exists _ _ WG u Hu) as (r & Hr & Ld & C).
  assert (In r (filter (fun r => (r <=? u)%nat) R)) as I.
  { apply filter_In. split; [apply HR; split; auto; lia|apply Nat.leb_le; lia]. }
  pose proof (filter_length_le (fun r => (r <=? u)%nat) R) as FL.
  destruct (filter (fun r => (r <=? u)%nat) R); [destruct I|]. cbn [length] in *. lia.
Qed.

Definition intervals (pr : prog) : Prop := forall u v w, (u < v)%nat -> (v < w)%nat -> connected (graph_of pr) u w -> connected (graph_of pr) u v.

Lemma components_same pr cc num u v : wf_prog pr -> intervals pr -> components pr = (cc, num) -> (u < length (p_stmts pr))%nat -> (v < length (p_stmts pr))%nat ->
  connected (graph_of pr) u v -> nth u cc 0 = nth v cc 0.
Proof.
  intros W I E Hu Hv C. unfold components in E.
  assert (ddeps_ok (length (p_stmts pr)) (map to_ddep (p_deps pr))) as OK.
  { intros q Hq. apply in_map_iff in Hq as (e & <- & He). cbn. destruct (proj2 W e He) as (A & B & _). auto. }
  destruct (ddg_create_count _ _ OK) as [WG _]. fold (graph_of pr) in WG.
  pose proof (cc_intervals _ _ (repeat 0 (length (p_stmts pr))) WG (repeat_length _ _) I u v Hu Hv) as K. rewrite E in K. apply K; auto.
Qed.

Lemma column_block pr i : (p_npar pr + 1 <= i < cst_width pr - 1)%nat -> exists s j, (s < length (p_stmts pr))%nat /\ (j <= p_nvar pr)%nat /\ i = (stmt_offset pr s + j)%nat.
Proof.
  intros H. exists ((i - (p_npar pr + 1)) / (p_nvar pr + 1))%nat, ((i - (p_npar pr + 1)) mod (p_nvar pr + 1))%nat.
  pose proof (Nat.div_mod (i - (p_npar pr + 1)) (p_nvar pr + 1) ltac:(lia)) as D.
  pose proof (Nat.mod_upper_bound (i - (p_npar pr + 1)) (p_nvar pr + 1) ltac:(lia)) as M.
  unfold cst_width in H. unfold stmt_offset. split; [|split; [lia|nia]].
  apply Nat.div_lt_upper_bound; nia.
Qed.

Lemma scalable_label pr cc num r : wf_prog pr -> intervals pr -> components pr = (cc, num) -> length cc = length (p_stmts pr) -> scalable pr r -> length (coef r) = cst_width pr ->
  (forall i, (i < cst_width pr - 1)%nat -> nth i (coef r) 0 = 0) \/
  exists k, 0 <= k < Z.of_nat num /\ labelled k (firstn (cst_width pr - 1) (coef r)) (full_labels pr cc).
Proof.
  intros W I E LC [A _ _ D] L.
  destruct (find (fun i => negb (nth i (coef r) 0 =? 0)) (seq 0 (cst_width pr - 1))) as [i|] eqn:F.
  - right. apply find_some in F as [Hi N]. apply in_seq in Hi. apply negb_true_iff, Z.eqb_neq in N.
    destruct (le_lt_dec (p_npar pr + 1) i) as [G|G]; [|rewrite A in N by auto; lia].
    destruct (column_block pr i) as (s & j & Hs & Hj & ->); [lia|]. exists (nth s cc 0).
    split; [eapply components_range; eauto|]. intros i' N'.
    destruct (le_lt_dec (cst_width pr - 1) i') as [B|B]. { rewrite nth_overflow in N' by (rewrite firstn_length; lia). lia. }
    rewrite nth_firstn_lt in N' by auto.
    destruct (le_lt_dec (p_npar pr + 1) i') as [G'|G']; [|rewrite A in N' by auto; lia].
    destruct (column_block pr i') as (s' & j' & Hs' & Hj' & ->); [lia|].
    rewrite full_labels_block by lia. apply (components_same pr cc num); auto. apply (D s' s j' j); auto.
  - left. intros i Hi. pose proof (find_none _ _ F i ltac:(apply in_seq; lia)) as N. apply negb_false_iff, Z.eqb_eq in N. auto.
Qed.

(** ** The rows that survive *)
Section Scaled.
Variable glpk : Q -> gprob -> ganswer.

(** A usable answer to a problem, and the answer to the problem that scales it unless the
    simplex method ended without one or there is no integral solution, are precise. *)
Definition scales_precisely : Prop := forall npar ix k p p',
  let a := glpk (1 # 10000000) p in let a' := glpk (1 # 100) p' in
  usable a -> scaling_lp (skipn (npar + 1) (a_val a)) (Some ix) k = Some p' ->
  a_lp a' <> GLP_INFEAS -> a_lp a' <> GLP_UNDEF -> a_mip a' <> GLP_NOFEAS -> precise_scaling k p (a_val a) p' (a_val a').

Lemma solve_usable p f : solve_glpk glpk p = Some f -> usable (glpk (1 # 10000000) p) /\ f = a_val (glpk (1 # 10000000) p).
Proof.
  unfold solve_glpk, usable. destruct (a_lp _); try discriminate; destruct (a_mip _); try discriminate; intros E; injection E as <-; auto.
Qed.
Lemma scales_read : scales_precisely -> forall npar ix k p f p' v,
  solve_glpk glpk p = Some f -> scaling_lp (skipn (npar + 1) f) (Some ix) k = Some p' -> mip_scale glpk p' = Some v -> precise_scaling k p f p' v.
Proof.
  intros H npar ix k p f p' v E1 E2 E3. destruct (solve_usable p f E1) as [U ->].
  unfold mip_scale in E3. assert (a_lp (glpk (1 # 100) p') <> GLP_INFEAS /\ a_lp (glpk (1 # 100) p') <> GLP_UNDEF /\ a_mip (glpk (1 # 100) p') <> GLP_NOFEAS /\ v = a_val (glpk (1 # 100) p')) as (N1 & N2 & N3 & ->).
  { destruct (a_lp _); try discriminate; destruct (a_mip _); try discriminate; injection E3 as <-; (split; [discriminate|split; [discriminate|split; [discriminate|auto]]]). }
  exact (H npar ix k p p' U E2 N1 N2 N3).
Qed.

Lemma zero_row_holds obj c z r x : wf_cst c -> length obj = (ncols c - 1)%nat -> gp_point (glpk_problem true obj c) x -> In r (rows c) ->
  (forall i, (i < ncols c - 1)%nat -> nth i (coef r) 0 = 0) -> S (length z) = ncols c -> holds z r.
Proof.
  intros W LO P Hr Z0 Lz. destruct (problem_row true obj c x r W LO P Hr) as (Lx & LR & HR).
  pose proof (proj2 W r Hr) as LC.
  assert (removelast (coef r) = repeat 0 (ncols c - 1)) as E.
  { apply (list_ext_nth 0); [rewrite removelast_len, repeat_length; lia|]. intros i Hi. rewrite removelast_len in Hi.
    rewrite removelast_nth_Z by lia. rewrite nth_repeat. apply Z0. lia. }
  rewrite E in HR. pose proof (qdot_repeat0_l (ncols c - 1) x) as Q0. unfold holds. rewrite aff_const by (pose proof (proj1 W); lia). rewrite E, dot_repeat0_l.
  destruct (is_eq r).
  - rewrite Q0 in HR. change 0%Q with (inject_Z 0) in HR. apply (proj1 (inject_Z_injective _ _)) in HR. lia.
  - rewrite Q0 in HR. change 0%Q with (inject_Z 0) in HR. rewrite <- Zle_Qle in HR. lia.
Qed.

(** The columns of the compacted system. *)
Lemma compact_cols pr c : orig_first pr -> wf_cst c -> ncols c = cst_width pr -> rows c <> [] ->
  wf_cst (compact_cst pr c) /\ ncols (compact_cst pr c) = S (keepn (red_front pr)).
Proof.
  intros O Wc Nc NE. pose proof (orig_first_wf pr O) as Ho.
  assert (forall st, In st (p_stmts pr) -> num_orig pr st = s_dim_orig st) as Hd by (intros st Hst; apply (orig_first_mask pr st O Hst)).
  destruct (compact_spec pr Ho Hd c Wc Nc [] NE) as [Wcp _]. split; auto.
  rewrite compact_eq. destruct (interchange_all (sw pr) (packed pr c) [] (packed_wf pr Ho c Wc Nc NE)) as (_ & B & _).
  - rewrite (packed_ncols pr c) by auto. apply (sw_range pr Hd). lia.
  - fold (sw pr). rewrite B. apply packed_ncols; auto.
Qed.

(** A row of the compacted system and the row it comes from. *)
Lemma fill_row pr r y : orig_first pr -> length (coef r) = cst_width pr -> S (length y) = S (keepn (red_front pr)) ->
  holds y (map_coef (compact_row pr) r) -> holds (fill_zeros (red_front pr) (swaps (sw pr) y)) r.
Proof.
  intros O Lr Ly KH. pose proof (orig_first_wf pr O) as Ho.
  assert (forall st, In st (p_stmts pr) -> num_orig pr st = s_dim_orig st) as Hd by (intros st Hst; apply (orig_first_mask pr st O Hst)).
  set (c1 := mkCst (cst_width pr) [r]).
  assert (rows c1 <> []) as N1 by (unfold c1; discriminate).
  assert (wf_cst c1) as W1. { split; [cbn; unfold cst_width; lia|]. intros q [<-|[]]. cbn [c1 ncols]. auto. }
  destruct (compact_spec pr Ho Hd c1 W1 eq_refl y N1) as [_ M].
  assert (mem c1 (fill_zeros (red_front pr) (swaps (sw pr) y))) as [_ M1]; [|apply M1; left; auto].
  apply M. split.
  - rewrite (proj2 (compact_cols pr c1 O W1 eq_refl N1)). auto.
  - rewrite compact_rows. intros q [<-|[]]. exact KH.
Qed.

Lemma scaled_rows pr c cc num ix fp p2 v us : wf_prog pr -> orig_first pr -> intervals pr -> wf_cst c -> ncols c = cst_width pr -> rows c <> [] ->
  let cp := compact_cst pr c in
  components pr = (cc, num) -> scaling_index pr cc num (ncols cp - 1 - p_npar pr - 1) = Some ix ->
  scaling_lp (skipn (p_npar pr + 1) fp) (Some ix) num = Some p2 ->
  precise_scaling num (glpk_problem true (cplex_objective pr (ncols cp - 1)) cp) fp p2 v -> length us = (p_npar pr + 1)%nat ->
  let y := us ++ map c_round (skipn num v) in
  length fp = (ncols cp - 1)%nat /\ S (length y) = ncols cp /\
  forall r, In r (rows c) -> scalable pr r -> holds y (map_coef (compact_row pr) r).
Proof.
  intros W O I Wc Nc NE cp EC EX E2 PS LU y. pose proof (orig_first_wf pr O) as Ho. pose proof (red_front_length pr Ho) as RL.
  assert (forall st, In st (p_stmts pr) -> num_orig pr st = s_dim_orig st) as Hd by (intros st Hst; apply (orig_first_mask pr st O Hst)).
  destruct (compact_cols pr c O Wc Nc NE) as [Wcp Ncp]. fold cp in Wcp, Ncp.
  assert (length cc = length (p_stmts pr)) as LC.
  { destruct (p_stmts pr) eqn:ES. { unfold components in EC. rewrite ES in EC. cbn in EC. injection EC as <- _. reflexivity. }
    rewrite <- ES. apply (components_range pr cc num 0); auto. rewrite ES. cbn. lia. }
  pose proof (keepn_front pr Hd) as KF. pose proof (owners_length pr cc LC) as OL. rewrite <- OL in KF.
  assert (length ix = length (owners pr cc) /\ forall i, (i < length ix)%nat -> nth i ix (0, 0)%nat = (Z.to_nat (nth i (owners pr cc) 0 + 1), (num + i + 1)%nat)) as [LX NX].
  { unfold scaling_index in EX. cbv zeta in EX. fold (owners pr cc) in EX. destruct (_ =? _)%nat; [|discriminate]. injection EX as <-.
    rewrite map_length, combine_length, seq_length, Nat.min_id. split; auto. intros i Hi.
    rewrite (nth_indep _ _ ((fun p => (Z.to_nat (snd p + 1), (num + fst p + 1)%nat)) (0%nat, 0))) by (rewrite map_length, combine_length, seq_length; lia).
    rewrite (List.map_nth (fun p : nat * Z => (Z.to_nat (snd p + 1), (num + fst p + 1)%nat))). rewrite combine_nth by (rewrite seq_length; auto). rewrite seq_nth by auto. reflexivity. }
  set (obj := cplex_objective pr (ncols cp - 1)) in *.
  assert (length obj = ncols cp - 1)%nat as LO. { unfold obj, cplex_objective. cbv zeta. rewrite firstn_length, app_length, repeat_length. lia. }
  assert (length fp = ncols cp - 1)%nat as LF.
  { destruct PS as (x & _ & e & _ & _ & _ & (GL & _) & (WL & _) & _). rewrite map_length in WL. rewrite WL, GL. cbn [glpk_problem gp_cols]. rewrite map_length. auto. }
  assert (S (length y) = ncols cp) as Ly.
  { destruct PS as (x & y' & e & e' & t & s & _ & _ & (GL & _) & (WL & _) & _). destruct (scaling_cols _ _ _ _ E2) as (SL & _).
    unfold y. rewrite app_length, map_length, skipn_length, WL, GL, SL, skipn_length. lia. }
  split; auto. split; auto.
  intros r Hr SC. pose proof (proj2 Wc r Hr) as Lr. rewrite Nc in Lr.
    assert (In (map_coef (compact_row pr) r) (rows cp)) as Hr' by (unfold cp; rewrite compact_rows; apply in_map; auto).
    destruct (scalable_label pr cc num r W I EC LC SC Lr) as [Z0|(k & Hk & LB)].
    - destruct PS as (x & _ & _ & _ & _ & _ & GP & _). apply (zero_row_holds obj cp y _ x); auto.
      assert (labelled (-7) (firstn (cst_width pr - 1) (coef r)) (full_labels pr cc)) as LB.
      { intros i N. exfalso. destruct (le_lt_dec (cst_width pr - 1) i) as [B|B].
        - rewrite nth_overflow in N by (rewrite firstn_length; lia). lia.
        - rewrite nth_firstn_lt in N by auto. apply N. auto. }
      assert (labelled (-8) (firstn (cst_width pr - 1) (coef r)) (full_labels pr cc)) as LB'.
      { intros i N. exfalso. destruct (le_lt_dec (cst_width pr - 1) i) as [B|B].
        - rewrite nth_overflow in N by (rewrite firstn_length; lia). lia.
        - rewrite nth_firstn_lt in N by auto. apply N. auto. }
      destruct (compact_labelled pr cc (-7) (coef r) O LC Lr LB) as (front & EF & LFr & FB).
      destruct (compact_labelled pr cc (-8) (coef r) O LC Lr LB') as (front' & EF' & _ & FB').
      assert (front' = front) as -> by (rewrite EF in EF'; apply app_inj_tail in EF' as [X _]; auto).
      intros i Hi. cbn [map_coef coef]. rewrite EF. rewrite app_nth1 by lia. destruct (Z.eq_dec (nth i front 0) 0) as [X|X]; auto.
      specialize (FB i X). specialize (FB' i X). lia.
    - destruct (compact_labelled pr cc k (coef r) O LC Lr LB) as (front & EF & LFr & FB).
      apply (lp_rounds obj cp fp ix num (p_npar pr) p2 v us (map_coef (compact_row pr) r) (Z.to_nat (k + 1))); auto; try lia.
      + intros i Hi. rewrite NX by auto. reflexivity.
      + intros i Hi. cbn [map_coef coef]. rewrite EF. rewrite app_nth1 by lia. destruct (Z.eq_dec (nth i front 0) 0) as [X|X]; auto.
        specialize (FB i X). unfold compact_labels in FB. rewrite app_nth1 in FB by (rewrite repeat_length; auto).
        rewrite (nth_indep _ 0 (-5)), nth_repeat in FB by (rewrite repeat_length; auto). lia.
      + unfold const_of. cbn [map_coef coef]. rewrite EF, last_last. apply SC.
      + unfold const_of. cbn [map_coef coef is_eq]. rewrite EF, last_last. apply SC.
      + intros i Hi N. cbn [map_coef coef] in N. rewrite EF in N. rewrite app_nth1 in N by lia. specialize (FB _ N).
        rewrite NX by auto. cbn [fst]. f_equal. unfold compact_labels in FB. rewrite app_nth2 in FB by (rewrite repeat_length; lia).
        rewrite repeat_length in FB. replace (p_npar pr + 1 + i - (p_npar pr + 1))%nat with i in FB by lia. lia.
Qed.

Lemma lp_kept dfp pr c x : scales_precisely -> wf_prog pr -> orig_first pr -> intervals pr -> wf_cst c -> ncols c = cst_width pr -> rows c <> [] ->
  prog_constraints_lexmin (glpk_solver glpk true dfp) pr c = Some x -> kept pr c x /\ zpadding_zero pr x.
Proof.
  intros SP W O I Wc Nc NE H. pose proof (orig_first_wf pr O) as Ho. pose proof (red_front_length pr Ho) as RL.
  assert (forall st, In st (p_stmts pr) -> num_orig pr st = s_dim_orig st) as Hd by (intros st Hst; apply (orig_first_mask pr st O Hst)).
  unfold prog_constraints_lexmin in H. destruct (glpk_solver glpk true dfp pr (compact_cst pr c)) as [y|] eqn:EY; [|discriminate].
  injection H as <-. rewrite (firstn_front pr Ho c Nc). fold (sw pr). fold (swaps (sw pr) y).
  set (cp := compact_cst pr c) in *.
  destruct (compact_cols pr c O Wc Nc NE) as [Wcp Ncp]. fold cp in Wcp, Ncp.
  unfold glpk_solver, glpk_lexmin in EY. cbv zeta in EY. destruct (components pr) as [cc num] eqn:EC.
  destruct (scaling_index pr cc num (ncols cp - 1 - p_npar pr - 1)) as [ix|] eqn:EX; [|discriminate].
  unfold lexmin_glpk in EY. set (obj := cplex_objective pr (ncols cp - 1)) in *.
  destruct (solve_glpk glpk (glpk_problem true obj cp)) as [fp|] eqn:ES; [|discriminate]. cbn [orb] in EY.
  destruct (scaling_lp (skipn (p_npar pr + 1) fp) (Some ix) num) as [p2|] eqn:E2; [|discriminate].
  destruct (mip_scale glpk p2) as [v|] eqn:EM; [|discriminate].
  pose proof (scales_read SP _ _ _ _ _ _ _ ES E2 EM) as PS. injection EY as <-.
  assert (length fp = ncols cp - 1)%nat as LF.
  { destruct PS as (x & _ & e & _ & _ & _ & (GL & _) & (WL & _) & _). rewrite map_length in WL. rewrite WL, GL. cbn [glpk_problem gp_cols]. rewrite map_length.
    unfold obj, cplex_objective. cbv zeta. rewrite firstn_length, app_length, repeat_length. lia. }
  pose proof (keepn_front pr Hd) as KF.
  set (us := map _ (firstn (p_npar pr + 1) fp)).
  assert (length us = p_npar pr + 1)%nat as LU by (unfold us; rewrite map_length, firstn_length; lia).
  destruct (scaled_rows pr c cc num ix fp p2 v us W O I Wc Nc NE EC EX E2 PS LU) as (_ & Ly & KH). fold cp in Ly.
  set (y := us ++ map c_round (skipn num v)) in *.
  assert (S (length (fill_zeros (red_front pr) (swaps (sw pr) y))) = cst_width pr) as Lx by (rewrite fill_zeros_length; auto).
  split.
  - split; [congruence|]. intros r Hr SC. apply fill_row; auto; [rewrite <- Nc; apply (proj2 Wc); auto|congruence].
  - apply zero_red_pad; auto. intros i Hi. apply fill_zeros_nth. auto.
Qed.
End Scaled.
