(** * Proofs about the search with an objective for each component. *)
From Coq Require Import ZArith List Bool Arith Lia.
From Verif Require Import SpecLinear SpecMatrix VecProofs MathModel ConstraintsModel SimplifyProofs EditProofs FarkasProofs RankProofs MatrixProofs
  SpecGraph GraphModel GraphProofs GraphProofs2
  SpecProg SpecTile SpecLoop SpecDriver SpecCc FrameworkModel FrameworkProofs SumProofs DepProofs LexProofs ProgModel ProgProofs DriverModel HypProofs KeepProofs DriverProofs
  PadProofs AutoProofs CcModel.
Import ListNotations.
Open Scope Z_scope.

(** ** The columns of one component *)

(** The solution that component [c] sees. *)
Definition own (pr : prog) (ncc c : nat) (y : point) : point :=
  firstn (p_npar pr + 1) (skipn ((p_npar pr + 1) * (c + 1)) y) ++ skipn (cc_cols pr ncc + p_npar pr + 1) y.

Lemma widen_width k pr : cst_width (widen k pr) = (k + cst_width pr)%nat.
Proof. unfold cst_width. cbn. lia. Qed.

Lemma leading_wf k : forall c, wf_cst c -> wf_cst (add_leading_dims c k) /\ ncols (add_leading_dims c k) = (k + ncols c)%nat.
Proof.
  induction k as [|k IH]; intros c W; cbn [add_leading_dims]; [auto|]. destruct (IH (add_dim c 0) (add_dim_wf c 0 W)) as [A B].
  split; auto. rewrite B. cbn. lia.
Qed.

Lemma leading_mem k : forall c z, wf_cst c -> (k <= length z)%nat -> mem (add_leading_dims c k) z <-> mem c (skipn k z).
Proof.
  induction k as [|k IH]; intros c z W L; cbn [add_leading_dims]; [tauto|]. rewrite IH; [|apply add_dim_wf; auto|lia].
  assert (length (skipn k z) = length z - k)%nat as Lk by apply skipn_length.
  assert (skipn (S k) z = tl (skipn k z)) as ->. { clear. revert z; induction k; intros [|a z]; cbn; auto. apply (IHk z). }
  destruct (skipn k z) as [|v r] eqn:E; [cbn in Lk; lia|]. cbn [tl].
  change (v :: r) with (insert_at 0 v r). apply add_dim_mem; auto. lia.
Qed.

Lemma swap_get (l : list Z) i j m : (i < length l)%nat -> (j < length l)%nat ->
  nth m (swap_nth 0 i j l) 0 = if (m =? j)%nat then nth i l 0 else if (m =? i)%nat then nth j l 0 else nth m l 0.
Proof.
  intros Hi Hj. unfold swap_nth. destruct (Nat.eqb_spec m j) as [->|N].
  - rewrite nth_set_nth_eq by (rewrite set_nth_length; lia). auto.
  - rewrite nth_set_nth_neq by auto. destruct (Nat.eqb_spec m i) as [->|N'].
    + rewrite nth_set_nth_eq by lia. auto.
    + rewrite nth_set_nth_neq by auto. auto.
Qed.

Lemma spread_fold c k t n : wf_cst c -> (k + n <= ncols c - 1)%nat -> (t + n <= k \/ t = k)%nat ->
  let c' := fold_left (fun c j => interchange_cols c (k + j) (t + j)) (seq 0 n) c in
  wf_cst c' /\ ncols c' = ncols c /\
  forall y, S (length y) = ncols c -> exists z, length z = length y /\ (mem c' y <-> mem c z) /\
    (forall i, (i < n)%nat -> nth (k + i) z 0 = nth (t + i) y 0) /\ (forall i, (k + n <= i)%nat -> nth i z 0 = nth i y 0).
Proof.
  intros W. induction n as [|n IH]; intros Hn Ht; cbv zeta.
  - cbn. split; auto. split; auto. intros y L. exists y. split; auto. split; [tauto|]. split; [lia|auto].
  - rewrite seq_S, fold_left_app. cbn [fold_left plus]. destruct IH as (A & B & C); [lia|lia|]. cbv zeta in A, B, C.
    set (c1 := fold_left _ (seq 0 n) c) in *. destruct (interchange_wf c1 (k + n) (t + n) A) as [D E].
    split; auto. split; [congruence|]. intros y L.
    set (y1 := swap_nth 0 (k + n) (t + n) y).
    destruct (C y1) as (z & L1 & M & G1 & G2). { unfold y1. rewrite swap_nth_length. auto. }
    assert (length y1 = length y) as L2 by apply swap_nth_length.
    assert (forall m, nth m y1 0 = if (m =? t + n)%nat then nth (k + n) y 0 else if (m =? k + n)%nat then nth (t + n) y 0 else nth m y 0) as SG.
    { intros m. apply swap_get; lia. }
    exists z. split; [congruence|]. split.
    { rewrite <- M. replace y with (swap_nth 0 (k + n) (t + n) y1) at 1 by (apply swap_nth_invol; lia).
      apply interchange_cols_mem; auto; lia. }
    split.
    + intros i Hi. destruct (Nat.eq_dec i n) as [->|N].
      * rewrite G2 by lia. rewrite SG. destruct (Nat.eqb_spec (k + n) (t + n)); [replace t with k by lia; auto|]. rewrite Nat.eqb_refl. auto.
      * rewrite G1 by lia. rewrite SG. destruct (Nat.eqb_spec (t + i) (t + n)); [lia|]. destruct (Nat.eqb_spec (t + i) (k + n)); [lia|]. auto.
    + intros i Hi. rewrite G2 by lia. rewrite SG. destruct (Nat.eqb_spec i (t + n)); [lia|]. destruct (Nat.eqb_spec i (k + n)); [lia|]. auto.
Qed.

Section Spread.
Variables (pr : prog) (ccs : list Z) (ncc : nat) (d : dep).
Let c0 := Z.to_nat (nth (d_src d) ccs 0).
Hypothesis Hc : (c0 < ncc)%nat.

Lemma spread_spec c : wf_cst c -> ncols c = cst_width pr ->
  wf_cst (spread_dep pr ccs ncc d c) /\ ncols (spread_dep pr ccs ncc d c) = cst_width (widen (cc_cols pr ncc) pr) /\
  forall y, mem (spread_dep pr ccs ncc d c) y <-> S (length y) = cst_width (widen (cc_cols pr ncc) pr) /\ mem c (own pr ncc c0 y).
Proof.
  intros W N. unfold spread_dep. fold c0. set (k := cc_cols pr ncc).
  destruct (leading_wf k c W) as [W1 N1].
  assert ((p_npar pr + 1) * (c0 + 1) <= k)%nat as Hk.
  { unfold k, cc_cols. apply Nat.mul_le_mono_l. lia. }
  assert (p_npar pr + 1 + (p_npar pr + 1) * c0 = (p_npar pr + 1) * (c0 + 1))%nat as Et by lia. rewrite Et.
  set (t := ((p_npar pr + 1) * (c0 + 1))%nat) in *.
  assert (t + (p_npar pr + 1) <= k \/ t = k)%nat as Ht.
  { unfold t, k, cc_cols. destruct (Nat.eq_dec (c0 + 1) ncc) as [->|NE]; [right; auto|left].
    pose proof (Nat.mul_le_mono_l (c0 + 2) ncc (p_npar pr + 1) ltac:(lia)). lia. }
  destruct (spread_fold (add_leading_dims c k) k t (p_npar pr + 1) W1) as (A & B & C); auto.
  { rewrite N1, N. unfold cst_width. lia. }
  cbv zeta in A, B, C. split; auto. split; [rewrite B, N1, N, widen_width; auto|].
  intros y. destruct (Nat.eq_dec (S (length y)) (k + cst_width pr)) as [L|L].
  2:{ split; intros H; exfalso; apply L; [destruct H as [H _]; rewrite B, N1, N in H; auto|destruct H as [H _]; rewrite widen_width in H; auto]. }
  destruct (C y) as (z & Lz & M & G1 & G2); [rewrite N1, N; auto|].
  rewrite M, leading_mem by (auto; unfold cst_width in L; lia).
  assert (skipn k z = own pr ncc c0 y) as ->.
  { unfold own. fold t k. apply (list_ext_nth 0).
    - rewrite app_length, firstn_length, !skipn_length. unfold cst_width in L. lia.
    - intros i Hi. rewrite skipn_length in Hi. rewrite nth_skipn.
      assert (length (firstn (p_npar pr + 1) (skipn t y)) = p_npar pr + 1)%nat as Lf.
      { rewrite firstn_length, skipn_length. unfold cst_width in L. lia. }
      destruct (le_lt_dec (p_npar pr + 1) i) as [Hi1|Hi1].
      + rewrite app_nth2 by lia. rewrite Lf, nth_skipn. rewrite G2 by lia. f_equal. lia.
      + rewrite app_nth1 by lia. rewrite nth_firstn_lt by auto. rewrite nth_skipn. apply G1. auto. }
  rewrite widen_width. fold k. tauto.
Qed.
End Spread.

(** What the own solution consists of. *)
Lemma own_length pr ncc c y : (c < ncc)%nat -> S (length y) = cst_width (widen (cc_cols pr ncc) pr) -> S (length (own pr ncc c y)) = cst_width pr.
Proof.
  intros Hc L. rewrite widen_width in L. unfold own, cst_width in *.
  assert ((p_npar pr + 1) * (c + 1) <= cc_cols pr ncc)%nat by (unfold cc_cols; apply Nat.mul_le_mono_l; lia).
  rewrite app_length, firstn_length, !skipn_length. lia.
Qed.

Lemma own_get pr ncc c y i : (c < ncc)%nat -> S (length y) = cst_width (widen (cc_cols pr ncc) pr) -> (p_npar pr + 1 <= i)%nat ->
  nth i (own pr ncc c y) 0 = nth i (skipn (cc_cols pr ncc) y) 0.
Proof.
  intros Hc L Hi. rewrite widen_width in L. unfold own, cst_width in *.
  assert ((p_npar pr + 1) * (c + 1) <= cc_cols pr ncc)%nat by (unfold cc_cols; apply Nat.mul_le_mono_l; lia).
  assert (length (firstn (p_npar pr + 1) (skipn ((p_npar pr + 1) * (c + 1)) y)) = p_npar pr + 1)%nat as Lf by (rewrite firstn_length, skipn_length; lia).
  rewrite app_nth2 by lia. rewrite Lf, !nth_skipn. f_equal. lia.
Qed.

Lemma own_zhyp pr ncc c y s : (c < ncc)%nat -> S (length y) = cst_width (widen (cc_cols pr ncc) pr) ->
  zhyp pr (own pr ncc c y) s = cc_hyp pr ncc y s.
Proof.
  intros Hc L. pose proof (own_length pr ncc c y Hc L) as Lo. rewrite widen_width in L. unfold zhyp, cc_hyp. rewrite <- Nat.add_1_r.
  assert (cst_width pr = cst_width pr) as _ by auto. unfold cst_width in *.
  apply (list_ext_nth 0).
  - rewrite !firstn_length, !skipn_length. unfold cc_cols in *. lia.
  - intros i Hi. rewrite firstn_length in Hi. rewrite !nth_firstn_lt by lia. rewrite !nth_skipn.
    rewrite own_get; auto; [|unfold cst_width; rewrite Nat.add_comm; cbn; unfold cst_width in *; lia|lia].
    rewrite nth_skipn. f_equal. unfold cc_cols. lia.
Qed.

Lemma own_bound pr ncc c y p : (c < ncc)%nat -> S (length y) = cst_width (widen (cc_cols pr ncc) pr) ->
  zbound pr (own pr ncc c y) p = cc_bound pr y c p.
Proof.
  intros Hc L. rewrite widen_width in L. unfold cc_bound, zbound, own, cst_width in *. f_equal.
  assert ((p_npar pr + 1) * (c + 1) <= cc_cols pr ncc)%nat by (unfold cc_cols; apply Nat.mul_le_mono_l; lia).
  rewrite firstn_app. rewrite firstn_length, skipn_length. replace (S (p_npar pr)) with (p_npar pr + 1)%nat by lia.
  rewrite firstn_firstn, Nat.min_id. replace (p_npar pr + 1 - _)%nat with 0%nat by lia. cbn. rewrite app_nil_r. reflexivity.
Qed.

Lemma own_padding pr ncc c y : (c < ncc)%nat -> S (length y) = cst_width (widen (cc_cols pr ncc) pr) ->
  zpadding_zero (widen (cc_cols pr ncc) pr) y -> zpadding_zero pr (own pr ncc c y).
Proof.
  intros Hc L Z s k Hs Hk E. rewrite own_get by (auto; lia). rewrite nth_skipn.
  specialize (Z s k Hs Hk E). cbn [widen p_npar p_nvar] in Z. rewrite <- Z. f_equal; lia.
Qed.

(** ** The system *)

Section System.
Variables (o : options) (pr : prog) (ccs : list Z) (ncc : nat).
Hypothesis RG : forall d, In d (p_deps pr) -> (Z.to_nat (nth (d_src d) ccs 0%Z) < ncc)%nat.
Let w := cst_width (widen (cc_cols pr ncc) pr).
Definition cc_of (d : dep) : nat := Z.to_nat (nth (d_src d) ccs 0).
Definition cc_selected (d : dep) : bool := negb ((negb (o_rar o) && d_rar d) || d_sat d).

Lemma cc_fold_none l : fold_left (cc_add_dep o pr ccs ncc) l None = None.
Proof. induction l; cbn; auto. Qed.

Lemma cc_fold l : (forall d, In d l -> In d (p_deps pr)) -> forall g inc m g' inc' m', wf_cst g -> ncols g = w ->
  fold_left (cc_add_dep o pr ccs ncc) l (Some (g, inc, m)) = Some (g', inc', m') ->
  wf_cst g' /\ ncols g' = w /\ forall y, S (length y) = w ->
    (mem g' y <-> mem g y /\ forall d, In d l -> cc_selected d = true -> mem (dep_cst o pr d) (own pr ncc (cc_of d) y)).
Proof.
  induction l as [|d l IH]; intros Hl g inc m g' inc' m' W N E; cbn [fold_left] in E.
  - injection E as <- <- <-. split; auto. split; auto. intros y Ly. split; [intros; split; auto; intros d []|tauto].
  - unfold cc_add_dep in E at 2. destruct ((negb (o_rar o) && d_rar d) || d_sat d) eqn:Sk.
    + apply IH in E as (A & B & C); auto; [|intros; apply Hl; simpl; auto]. split; auto. split; auto. intros y Ly. rewrite C by auto. split.
      * intros [M1 M2]. split; auto. intros d' [<-|Hd]; auto. unfold cc_selected. rewrite Sk. discriminate.
      * intros [M1 M2]. split; auto. intros; apply M2; simpl; auto.
    + destruct (mem_add m (nrows g) _ _) as [m1|]; [|rewrite cc_fold_none in E; discriminate]. cbv zeta in E.
      destruct (dep_cst_wf o pr d) as [D1 D2].
      destruct (spread_spec pr ccs ncc d (RG d (Hl d (or_introl eq_refl))) _ D1 D2) as (S1 & S2 & S3). fold (cc_of d) in S3.
      set (sp := spread_dep pr ccs ncc d (dep_cst o pr d)) in *. fold w in S2, S3.
      destruct (cst_add_wf g sp W S1 ltac:(congruence)) as [A1 A2].
      assert (exists g1 inc1, wf_cst g1 /\ ncols g1 = w /\ (forall y, mem g1 y <-> mem (cst_add g sp) y) /\
        fold_left (cc_add_dep o pr ccs ncc) l (Some (g1, inc1, m1)) = Some (g', inc', m')) as (g1 & inc1 & G1 & G2 & G3 & G4).
      { match type of E with context [if ?b then Some (simplify _, _, _) else _] => destruct b end.
        - exists (simplify (cst_add g sp)), (inc + 1). split; [apply simplify_wf; auto|]. split; [rewrite simplify_ncols; congruence|]. split; auto. intros; apply simplify_mem.
        - exists (cst_add g sp), inc. split; auto. split; [congruence|]. split; auto. tauto. }
      apply IH in G4 as (A & B & C); auto; [|intros; apply Hl; simpl; auto]. split; auto. split; auto. intros y Ly. rewrite C, G3, cst_add_mem by (auto; congruence). rewrite S3.
      split.
      * intros [[M1 [_ M2]] M3]. split; auto. intros d' [<-|Hd]; auto.
      * intros [M1 M2]. split; [split; auto; split; auto; apply M2; simpl; auto; unfold cc_selected; rewrite Sk; auto|]. intros; apply M2; simpl; auto.
Qed.

Lemma cc_perm_spec m g m' : cc_permutability o pr ccs ncc m = Some (g, m') ->
  wf_cst g /\ ncols g = w /\ forall y, mem g y <->
    S (length y) = w /\ mem (get_coeff_bounding_constraints o (widen (cc_cols pr ncc) pr)) y /\
    forall d, In d (p_deps pr) -> cc_selected d = true -> mem (dep_cst o pr d) (own pr ncc (cc_of d) y).
Proof.
  intros E. unfold cc_permutability in E. fold w in E.
  destruct (fold_left _ _ _) as [[[g0 inc] m0]|] eqn:F; [|discriminate].
  assert (wf_cst (universe w)) as WU. { split; cbn. unfold w, cst_width; lia. intros r []. }
  apply cc_fold in F as (A & B & C); auto. cbv zeta in E.
  destruct (mem_add m0 _ _ _); [|discriminate]. injection E as <- <-.
  destruct (bounding_wf o (widen (cc_cols pr ncc) pr)) as [B1 B2]. fold w in B2.
  destruct (cst_add_wf (simplify g0) _ (simplify_wf _ A) B1 ltac:(rewrite simplify_ncols; congruence)) as [D1 D2].
  split; auto. split; [rewrite D2, simplify_ncols; auto|]. intros y.
  rewrite cst_add_mem by (rewrite simplify_ncols; congruence). rewrite simplify_mem. split.
  - intros [M1 M2]. assert (S (length y) = w) as Ly by (destruct M1; congruence). apply C in M1 as [_ M1]; auto.
  - intros (Ly & M1 & M2). split; auto. apply C; auto. split; auto. apply universe_mem. auto.
Qed.
End System.

(** ** Legality *)

Lemma cc_ids n g ccs ncc u : wf_graph n g -> ddg_compute_cc n g (repeat 0 n) = (ccs, ncc) -> (u < n)%nat -> (Z.to_nat (nth u ccs 0%Z) < ncc)%nat.
Proof.
  intros W E Hu. pose proof (ddg_compute_cc_spec n g (repeat 0 n) W (repeat_length _ _)) as K. rewrite E in K.
  destruct K as (L & R & LR & ND & HR & HI). rewrite HI by auto. rewrite <- LR.
  assert (In 0%nat R) as I0. { apply HR. split; [lia|]. intros j Hj. lia. }
  assert (length (filter (fun r => (r <=? u)%nat) R) <= length R)%nat as LE. { clear. induction R; cbn; [lia|]. destruct (_ <=? _)%nat; cbn; lia. }
  destruct R; [destruct I0|]. cbn [length] in *. lia.
Qed.

Lemma obj_sum_wf pr ncc : wf_cst (obj_sum pr ncc) /\ ncols (obj_sum pr ncc) = cst_width (widen (cc_cols pr ncc) pr).
Proof.
  split; [|reflexivity]. split. cbn. unfold cst_width; lia. intros r Hr. unfold obj_sum in *. cbn [ncols rows] in *.
  apply in_map_iff in Hr as (i & <- & _). cbn [coef]. rewrite map_length, seq_length. auto.
Qed.

Section Find.
Variables (isl_emptyb : cst -> bool) (kernel : matrix -> matrix) (solve : prog -> cst -> option point) (o : options).
Hypothesis SOL : solver_sound solve.

Lemma widen_orig k pr : orig_first pr -> wf_orig (widen k pr) /\ forall st, In st (p_stmts (widen k pr)) -> num_orig (widen k pr) st = s_dim_orig st.
Proof.
  intros H. split; [exact (orig_first_wf pr H)|]. intros st Hs. exact (proj1 (proj2 (orig_first_mask pr st H Hs))).
Qed.

Lemma cc_system_wf mode ncc base pr : orig_first pr -> wf_cst base -> ncols base = cst_width (widen (cc_cols pr ncc) pr) ->
  let '(cur, ind) := cc_system isl_emptyb kernel o mode ncc base pr in
  wf_cst cur /\ wf_cst ind /\ ncols cur = cst_width (widen (cc_cols pr ncc) pr) /\ ncols ind = cst_width (widen (cc_cols pr ncc) pr) /\
  (forall y, mem cur y -> mem base y).
Proof.
  intros O W N. unfold cc_system. set (q := widen _ pr) in *. destruct (nontriv_wf q mode) as [N1 N2].
  destruct (cst_add_wf base _ W N1 ltac:(congruence)) as [Wc Nc].
  destruct (lin_ind_wf isl_emptyb kernel o q (cst_add base (get_non_trivial_sol_constraints q mode)) mode (proj1 (widen_orig _ pr O))) as [L1 L2].
  split; auto. split; auto. split; [congruence|]. split; auto. intros y M. apply cst_add_mem in M; [tauto|congruence].
Qed.

Lemma cc_solution_spec mode ncc base pr sol : orig_first pr -> wf_cst base -> ncols base = cst_width (widen (cc_cols pr ncc) pr) ->
  cc_solution isl_emptyb kernel solve o mode ncc base pr = Some sol ->
  mem base sol /\ zpadding_zero (widen (cc_cols pr ncc) pr) sol.
Proof.
  intros O W N E. unfold cc_solution in E. pose proof (cc_system_wf mode ncc base pr O W N) as K.
  destruct (cc_system _ _ _ _ _ _ _) as [cur ind]. destruct K as (W1 & W2 & N1 & N2 & K).
  destruct (nrows ind =? 0)%nat eqn:NR; [discriminate|].
  destruct (cst_add_wf cur ind W1 W2 ltac:(congruence)) as [W3 N3]. destruct (obj_sum_wf pr ncc) as [W4 N4].
  destruct (cst_add_wf _ _ W3 W4 ltac:(congruence)) as [W5 N5].
  destruct (widen_orig (cc_cols pr ncc) pr O) as [O1 O2].
  apply (lexmin_sound _ O1 O2 _ W5 ltac:(congruence) solve sol SOL) in E as [M Z].
  - apply cst_add_mem in M as [M _]; [|congruence]. apply cst_add_mem in M as [M _]; [|congruence]. auto.
  - cbn [cst_add rows]. intros X. apply app_eq_nil in X as [X _]. apply app_eq_nil in X as [_ X].
    apply Nat.eqb_neq in NR. apply NR. unfold nrows. rewrite X. auto.
Qed.

(** A solution orders the dependences that are left and bounds them. *)
Lemma cc_sound pr0 ccs ncc m base m' sol : wf_prog pr0 -> padded pr0 ->
  (forall d, In d (p_deps pr0) -> (Z.to_nat (nth (d_src d) ccs 0%Z) < ncc)%nat) ->
  cc_permutability o pr0 ccs ncc m = Some (base, m') -> mem base sol -> zpadding_zero (widen (cc_cols pr0 ncc) pr0) sol ->
  forall d, In d (p_deps pr0) -> d_sat d = false ->
    (d_rar d = false -> forall s t p, instance pr0 d s t p -> aff (cc_hyp pr0 ncc sol (d_src d)) s <= aff (cc_hyp pr0 ncc sol (d_dst d)) t) /\
    ((o_rar o = true \/ d_rar d = false) -> o_nodepbound o = false ->
     forall s t p, length s = p_nvar pr0 -> length t = p_nvar pr0 -> length p = p_npar pr0 -> mem (d_bpoly d) (s ++ t ++ p) ->
       aff (cc_hyp pr0 ncc sol (d_dst d)) t - aff (cc_hyp pr0 ncc sol (d_src d)) s <= cc_bound pr0 sol (cc_of ccs d) p).
Proof.
  intros W P RG E M Z d Hd Sa. destruct (cc_perm_spec o pr0 ccs ncc RG m base m' E) as (_ & _ & K).
  apply K in M as (L & _ & M). pose proof (RG d Hd) as Hc. fold (cc_of ccs d) in Hc.
  assert (padded_dep pr0 d) as PD by (apply padded_dep_intro; auto).
  rewrite <- !(own_zhyp pr0 ncc (cc_of ccs d) sol) by auto.
  pose proof (own_padding pr0 ncc (cc_of ccs d) sol Hc L Z) as Zo.
  split; [intros Ra|intros Ra NB]; (assert (cc_selected o d = true) as Sl by (unfold cc_selected; rewrite Sa; destruct (o_rar o), (d_rar d); auto; destruct Ra; discriminate));
    specialize (M d Hd Sl); apply qmem_zpoint in M; apply dep_cst_sound in M as [M1 M2]; auto; try (apply zpadding; auto).
  - intros s t p In. pose proof (preserves_int pr0 d 0 _ PD P (M1 Ra) s t p In). lia.
  - intros s t p L1 L2 L3 Mb. rewrite <- (own_bound pr0 ncc) by auto. apply bounded_int; auto.
Qed.

Lemma cc_find_good md mode pr0 ccs ncc mm base mm' n : cc_permutability o pr0 ccs ncc mm = Some (base, mm') ->
  (forall d, In d (p_deps pr0) -> (Z.to_nat (nth (d_src d) ccs 0%Z) < ncc)%nat) -> wf_prog pr0 -> padded pr0 ->
  forall pr a k m, inv md (mkState pr a k m) -> frame pr0 pr -> p_deps pr = p_deps pr0 ->
  let '(pr', c) := cc_find isl_emptyb kernel solve o mode ncc n base pr in
  inv md (mkState pr' a k m) /\ frame pr pr' /\ p_deps pr' = p_deps pr /\
  length (p_hprops pr') = (length (p_hprops pr) + c)%nat.
Proof.
  intros E0 RG W0 P0. induction n as [|n IH]; intros pr a k m I F D; cbn [cc_find].
  - split; auto. split; [apply frame_refl|]. split; auto.
  - destruct (cc_solution _ _ _ _ _ _ _ _) as [sol|] eqn:E.
    2:{ split; auto. split; [apply frame_refl|]. split; auto. }
    destruct (cc_perm_spec o pr0 ccs ncc RG mm base mm' E0) as (Wb & Nb & _).
    assert (cc_cols pr ncc = cc_cols pr0 ncc) as Ek. { destruct F as (_ & F2 & _). unfold cc_cols. rewrite F2. auto. }
    assert (cst_width (widen (cc_cols pr ncc) pr) = cst_width (widen (cc_cols pr0 ncc) pr0)) as Ew.
    { rewrite !widen_width, Ek, (frame_width _ _ F). auto. }
    apply cc_solution_spec in E as [Ms Zs]; [|apply (i_orig _ _ I)|auto|congruence].
    assert (S (length sol) = cst_width (widen (cc_cols pr0 ncc) pr0)) as Ls by (destruct Ms; congruence).
    assert (zpadding_zero (widen (cc_cols pr0 ncc) pr0) sol) as Z0.
    { rewrite <- Ek. destruct F as (F1 & F2 & F3 & F4 & F5). intros s j Hs Hj Ho'. cbn [widen p_npar p_nvar p_stmts] in *.
      specialize (Zs s j). cbn [widen p_npar p_nvar p_stmts] in Zs. rewrite <- F1, <- F2. apply Zs; try congruence.
      destruct (F4 s) as (_ & _ & F6 & _). unfold stmt_of in *. cbn [widen p_stmts] in *. rewrite F6. auto. }
    rewrite hyperplane_app. set (pr1 := app_level _ _ _ _).
    pose proof (i_wf _ _ I) as W. pose proof (i_pad _ _ I) as P. cbn [st_prog] in W, P.
    assert (inv md (mkState pr1 a k m)) as I1.
    { apply inv_app; auto.
      - intros s Hs. rewrite hyp_row_length. rewrite (P _ (stmt_of_in pr s Hs)). auto.
      - intros d Hd Hr. destruct (i_dep _ _ I d Hd Hr) as [S _]. cbn [st_prog] in S. destruct (d_sat d) eqn:Sa; [left; auto|right].
        intros s t p In. assert (wf_dep pr d) as (D1 & D2 & _) by (apply W; auto).
        pose proof In as (L3 & L4 & L5 & _). rewrite (P _ (stmt_of_in pr _ D1)) in L3. rewrite (P _ (stmt_of_in pr _ D2)) in L4.
        rewrite !hyp_row_aff; auto. 2,3: rewrite skipn_length, Ek, (frame_width _ _ F); rewrite widen_width in Ls; unfold cst_width in *; lia.
        pose proof Hd as Hd0. rewrite D in Hd0.
        apply (frame_instance pr0 pr d d) in In; auto using same_dep_refl.
        destruct (cc_sound pr0 ccs ncc mm base mm' sol W0 P0 RG E0 Ms Z0 d Hd0 Sa) as [Q _].
        specialize (Q Hr s t p In).
        assert (forall u, zhyp pr (skipn (cc_cols pr ncc) sol) u = cc_hyp pr0 ncc sol u) as EH.
        { intros u. unfold zhyp, cc_hyp. rewrite <- Nat.add_1_r. destruct F as (F1 & F2 & _). rewrite F1, F2. f_equal.
          apply (list_ext_nth 0). { rewrite !skipn_length. unfold cc_cols. rewrite F2. lia. }
          intros i _. rewrite !nth_skipn. f_equal. unfold cc_cols. rewrite F2. lia. }
        rewrite !EH. exact Q. }
    specialize (IH pr1 a k m I1 (frame_trans _ _ _ F (app_level_frame _ _ _ _)) D).
    destruct (cc_find isl_emptyb kernel solve o mode ncc n base pr1) as [pr' c].
    destruct IH as (IA & IB & IC & ID). split; auto. split; [eapply frame_trans; [apply app_level_frame|eauto]|]. split; auto.
    rewrite ID. unfold pr1. cbn [p_hprops app_level]. rewrite app_length. cbn. lia.
Qed.

Variable is_emptyb : cst -> bool.
Hypothesis EX : exact_empty is_emptyb.

Lemma finish_good fuse depth mode s0 pr a k m pr1 nsols : good mode s0 (mkState pr a k m) ->
  inv mode (mkState pr1 a k m) -> frame pr pr1 -> length (p_hprops pr1) = (length (p_hprops pr) + nsols)%nat ->
  out_good s0 (finish_round is_emptyb fuse depth mode (mkState pr a k m) pr1 nsols).
Proof.
  intros G0 I1 F1 L1. unfold finish_round. cbn [st_prog st_adj st_num st_max].
  assert (good mode s0 (mkState pr1 a k m)) as G1 by (eapply good_trans; [exact G0|]; split; auto).
  set (r := if (1 <=? nsols)%nat then _ else _).
  assert (out_good s0 r) as R.
  { unfold r. destruct (1 <=? nsols)%nat.
    - cbn. eapply good_trans; [exact G1|]. apply update_levels_good; [exact EX|apply G1|]. cbn [st_prog].
      intros j Hj. unfold nrows0 in Hj. destruct (le_lt_dec (length (p_stmts pr1)) 0) as [L|L].
      + unfold stmt_of in Hj. rewrite nth_overflow in Hj by auto. cbn in Hj. lia.
      + rewrite wf_nrows in Hj; auto. lia. apply (i_wf _ _ I1).
    - destruct (inv_compute_scc _ _ I1) as [I2 F2]. set (s2 := compute_scc _) in *.
      assert (good mode s0 s2) as G2 by (eapply good_trans; [exact G1|]; split; auto).
      destruct (1 <=? _)%nat.
      + cbn. eapply good_trans; [exact G2|]. destruct fuse.
        * apply cut_all_good; auto.
        * apply cut_smart_good; auto.
        * destruct (_ <=? depth)%nat; [apply cut_all_good; auto|apply cut_conservative_good; auto].
      + destruct mode; [eapply good_lazy; exact G2|]. destruct (negb _); exact G2. }
  clearbody r. destruct r as [s' mode'|s']; auto. cbn in *. destruct mode'; auto.
  destruct s' as [pr' a' k' m']. cbn [st_prog st_adj st_num st_max].
  destruct (inv_precise LAZY is_emptyb EX pr' a' k' m' eq_refl (proj1 R)) as [I3 F3].
  eapply good_trans; [exact R|]. split; auto.
Qed.

Lemma cc_round_good fuse depth mode s0 mm r mm' : inv mode s0 ->
  cc_round is_emptyb isl_emptyb kernel solve o fuse depth mode s0 mm = Some (r, mm') -> out_good s0 r.
Proof.
  intros I0 E. unfold cc_round in E.
  set (s := match fuse with NoFuse => fst (cut_all_sccs is_emptyb (compute_scc s0)) | _ => s0 end) in *.
  assert (good mode s0 s) as G0.
  { unfold s. destruct fuse; try apply good_refl; auto. destruct (inv_compute_scc mode s0 I0) as [A B].
    eapply good_trans; [split; [exact A|exact B]|]. apply cut_all_good; auto. }
  clearbody s. destruct s as [pr a k m]. cbn [st_prog st_adj st_num st_max] in E. pose proof (proj1 G0) as I.
  destruct (ddg_compute_cc _ _ _) as [ccs ncc] eqn:CC.
  assert (forall d, In d (p_deps pr) -> (Z.to_nat (nth (d_src d) ccs 0%Z) < ncc)%nat) as RG.
  { intros d Hd. eapply cc_ids; [apply (i_graph _ _ I)|exact CC|]. apply (i_wf _ _ I); auto. }
  unfold cc_find_permutable in E. destruct (_ =? 0)%nat.
  - injection E as <- <-. apply finish_good; auto. apply frame_refl.
  - destruct (cc_permutability _ _ _ _ _) as [[base m1]|] eqn:CP; [|discriminate].
    pose proof (cc_find_good mode mode pr ccs ncc mm base m1 (num_sols_left pr) CP RG (i_wf _ _ I) (i_pad _ _ I) pr a k m I (frame_refl pr) eq_refl) as K.
    destruct (cc_find _ _ _ _ _ _ _ _ _) as [pr1 nsols]. destruct K as (K1 & K2 & _ & K3).
    injection E as <- <-. apply finish_good; auto.
Qed.

Lemma cc_drive_good fuse fuel : forall depth mode s mm r, inv mode s ->
  cc_drive is_emptyb isl_emptyb kernel solve o fuse fuel depth mode s mm = Some (Some r) ->
  out_good s r /\ match r with
                  | Continue s' _ => transformations_full_ranked (st_prog s') = true /\ deps_satisfaction_check (st_prog s') = true
                  | Failed _ => True
                  end.
Proof.
  induction fuel as [|fuel IH]; intros depth mode s mm r I E; cbn [cc_drive] in E; [discriminate|].
  destruct (cc_round _ _ _ _ _ _ _ _ _ _) as [[[s' mode'|s'] mm']|] eqn:R; [| |discriminate]; apply cc_round_good in R; auto.
  - destruct (transformations_full_ranked (st_prog s') && deps_satisfaction_check (st_prog s')) eqn:T.
    + injection E as <-. split; auto. apply andb_true_iff in T. auto.
    + cbn in R. apply IH in E; [|apply R]. destruct E as [E1 E2]. split; auto.
      destruct r; cbn in *; (split; [apply E1|eapply frame_trans; [apply R|apply E1]]).
  - injection E as <-. auto.
Qed.
End Find.
