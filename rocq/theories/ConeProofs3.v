(** * Diamond tiling in the first round that finds loops. *)
From Coq Require Import ZArith QArith List Bool Lia Arith Sorted.
From Verif Require Import SpecLinear SpecMatrix MathModel ConstraintsModel VecProofs EditProofs FarkasProofs SumProofs RankProofs MatrixProofs SpecProg SpecTile SpecDriver SpecGraph GraphModel FrameworkModel
  FrameworkProofs HypProofs ProgModel SimplifyProofs DepProofs ProgProofs DriverModel DriverProofs GrowProofs TileModel TileProofs IssProofs LoopModel LoopProofs LoopProofs2 LoopProofs3 LoopProofs4 DiamondModel DiamondProofs IntraModel SpecCone ConeModel ConeProofs ConeProofs2.
Import ListNotations.
Open Scope Z_scope.

(** ** Rows found by the solver *)
Inductive grown (o : options) (eager : bool) : prog -> prog -> nat -> Prop :=
| grown_nil pr : grown o eager pr pr 0
| grown_app pr sol pr' c : S (length sol) = cst_width pr -> zpadding_zero pr sol ->
    (forall d, In d (p_deps pr) -> d_rar d = false -> d_sat d = false -> hyps_weak pr (hyp_row pr sol) d) ->
    (eager = true -> forall s, (s < length (p_stmts pr))%nat -> needs_hyps (stmt_of pr s) = true ->
       exists j, (j < p_nvar pr)%nat /\ nth j (hyp_row pr sol s) 0 <> 0) ->
    grown o eager (app_level pr H_LOOP (hyp_type_of pr sol) (hyp_row pr sol)) pr' c -> grown o eager pr pr' (S c).

Lemma sum_nonzero pr s x : wf_orig pr -> (s < length (p_stmts pr))%nat -> S (length x) = cst_width pr ->
  1 <= aff (ones pr s) x -> exists j, (j < p_nvar pr)%nat /\ nth j (hyp_row pr x s) 0 <> 0.
Proof.
  intros Ho Hs Hx A. unfold ones in A. rewrite spread_dot in A by (auto; apply repeat_length).
  assert (exists v, In v (orig_part pr (stmt_of pr s) (iter_coefs pr x s)) /\ v <> 0) as H.
  { destruct (existsb (fun v => negb (v =? 0)) (orig_part pr (stmt_of pr s) (iter_coefs pr x s))) eqn:E.
    - apply existsb_exists in E as (v & Hv & N). exists v. split; auto. intros ->. discriminate.
    - exfalso. assert (dot (repeat 1 (HypProofs.count (orig_mask pr (stmt_of pr s)))) (orig_part pr (stmt_of pr s) (iter_coefs pr x s)) = 0); [|unfold dot in *; lia].
      apply dot_zero_r'. intros v Hv. destruct (Z.eq_dec v 0); auto. exfalso.
      assert (existsb (fun v => negb (v =? 0)) (orig_part pr (stmt_of pr s) (iter_coefs pr x s)) = true); [|congruence].
      apply existsb_exists. exists v. split; auto. apply negb_true_iff, Z.eqb_neq. auto. }
  apply nontrivial_select in H as (j & Hj & _ & N). exists j. split; auto. rewrite hyp_row_iter by auto. auto.
Qed.

Lemma nontriv_eager_sum pr x s : wf_orig pr -> S (length x) = cst_width pr -> (s < length (p_stmts pr))%nat -> needs_hyps (stmt_of pr s) = true ->
  mem (get_non_trivial_sol_constraints pr EAGER) x -> 1 <= aff (ones pr s) x.
Proof.
  intros Ho Hx Hs Hn [_ M].
  specialize (M (mkRow false (map (fun j => if (j =? cst_width pr - 1)%nat then -1 else sum_coef pr s j) (seq 0 (cst_width pr))))).
  assert (1 <= cst_width pr)%nat as W1 by (unfold cst_width; lia).
  unfold holds in M; cbn [is_eq coef] in M. rewrite map_set_last in M by auto. rewrite <- ones_map in M.
  rewrite row_with_const in M; [|unfold ones; apply spread_length|auto|apply ones_last; auto].
  enough (0 <= aff (ones pr s) x + -1) by lia. apply M. unfold get_non_trivial_sol_constraints. cbn [rows].
  apply in_map_iff. exists s. split.
  - f_equal. rewrite ones_map, map_set_last by auto. reflexivity.
  - apply filter_In. split; auto. apply in_seq. lia.
Qed.

Section Grow.
Variables (isl_emptyb : cst -> bool) (kernel : matrix -> matrix) (solve : prog -> cst -> option point) (o : options).
Hypothesis SOL : solver_sound solve.

Lemma find_grown mode pr0 n : forall pr, wf_prog pr -> padded pr -> orig_first pr -> frame pr0 pr -> p_deps pr = p_deps pr0 ->
  wf_prog pr0 -> padded pr0 ->
  let base := cst_add (get_permutability_constraints o (fun _ => false) pr0) (get_coeff_bounding_constraints o pr0) in
  let '(pr', c) := find_hyperplanes isl_emptyb kernel solve o mode n base pr in
  grown o (match mode with EAGER => true | LAZY => false end) pr pr' c /\ (c <= n)%nat.
Proof.
  induction n as [|n IH]; intros pr W P O F D W0 P0; cbv zeta; cbn [find_hyperplanes].
  - split; [constructor|lia].
  - set (base := cst_add (get_permutability_constraints o (fun _ => false) pr0) (get_coeff_bounding_constraints o pr0)). set (cur := cst_add base (get_non_trivial_sol_constraints pr mode)).
    set (ind := get_linear_ind_constraints isl_emptyb kernel o pr cur mode).
    destruct (if (nrows ind =? 0)%nat then None else prog_constraints_lexmin solve pr (cst_add cur ind)) as [sol|] eqn:E; cbv beta iota.
    2:{ split; [constructor|lia]. }
    pose proof (frame_width _ _ F) as Wd.
    assert (wf_orig pr) as Ho by (apply orig_first_wf; auto).
    destruct (perm_cst_wf o (fun _ => false) pr0) as [P1 P2].
    destruct (bounding_wf o pr0) as [B1 B2]. destruct (nontriv_wf pr mode) as [N1 N2].
    destruct (lin_ind_wf isl_emptyb kernel o pr cur mode Ho) as [L1 L2]. fold ind in L1, L2.
    destruct (DriverProofs.cst_add_wf _ _ P1 B1 ltac:(congruence)) as [Wb Nb]. fold base in Wb, Nb.
    destruct (DriverProofs.cst_add_wf base _ Wb N1 ltac:(congruence)) as [Wc Nc]. fold cur in Wc, Nc.
    destruct (DriverProofs.cst_add_wf cur ind Wc L1 ltac:(congruence)) as [We Ne].
    destruct (nrows ind =? 0)%nat eqn:NR; [discriminate|].
    assert (mem (cst_add cur ind) sol /\ zpadding_zero pr sol) as [Ms Zs].
    { apply (lexmin_sound pr Ho) with (solve := solve); auto.
      - intros st Hst. apply (orig_first_mask pr st O Hst).
      - congruence.
      - cbn [cst_add rows]. intros X. apply app_eq_nil in X as [_ X]. apply Nat.eqb_neq in NR. apply NR. unfold nrows. rewrite X. auto. }
    apply cst_add_mem in Ms as [Ms _]; [|congruence]. apply cst_add_mem in Ms as [Ms Mn]; [|congruence].
    apply cst_add_mem in Ms as [Ms _]; [|congruence].
    assert (zpadding_zero pr0 sol) as Z0.
    { destruct F as (F1 & F2 & F3 & F4 & F5). intros s j Hs Hj Ho'. unfold zpadding_zero in Zs. rewrite <- F1, <- F2. apply Zs; try congruence.
      destruct (F4 s) as (_ & _ & -> & _). auto. }
    assert (S (length sol) = cst_width pr0) as Lsol by (destruct Ms; congruence).
    rewrite hyperplane_app. set (pr1 := app_level _ _ _ _).
    pose proof (app_level_frame pr H_LOOP (hyp_type_of pr sol) (hyp_row pr sol)) as F1. fold pr1 in F1.
    assert (wf_prog pr1) as W1. { apply app_level_wf; auto. intros s Hs. rewrite hyp_row_length, (P _ (stmt_of_in pr s Hs)). auto. }
    specialize (IH pr1 W1 (frame_padded _ _ F1 P) (frame_orig_first _ _ F1 O) (frame_trans _ _ _ F F1) D W0 P0). cbv zeta in IH. fold base in IH.
    destruct (find_hyperplanes isl_emptyb kernel solve o mode n base pr1) as [pr' c]. destruct IH as [IH1 IH2]. split; [|lia].
    apply (grown_app o _ pr sol); auto; [congruence| |].
    + intros d Hd Hr Sa s t p In'. assert (wf_dep pr d) as (D1 & D2 & _) by (apply W; auto).
      pose proof In' as (L3 & L4 & L5 & _). rewrite (P _ (stmt_of_in pr _ D1)) in L3. rewrite (P _ (stmt_of_in pr _ D2)) in L4.
      rewrite !hyp_row_aff by (auto; congruence).
      pose proof Hd as Hd0. rewrite D in Hd0. apply In_nth_error in Hd0 as [i Hi].
      apply (frame_instance pr0 pr d d) in In'; auto using same_dep_refl.
      pose proof (perm_sound_int o (fun _ => false) pr0 sol i d W0 P0 Z0 Ms Hi eq_refl Sa Hr s t p In') as Q.
      unfold zhyp in *. destruct F as (F1' & F2 & _). rewrite F1', F2. exact Q.
    + destruct mode; [|discriminate]. intros _ s Hs Hn. apply sum_nonzero; auto; [congruence|]. apply nontriv_eager_sum; auto. congruence.
Qed.
End Grow.

Section Grown.
Variables (o : options) (eager : bool).

Lemma grown_facts pr pr' c : grown o eager pr pr' c -> wf_prog pr -> padded pr ->
  wf_prog pr' /\ frame pr pr' /\ p_deps pr' = p_deps pr /\ length (p_hprops pr') = (length (p_hprops pr) + c)%nat /\
  (forall s, s_scc (stmt_of pr' s) = s_scc (stmt_of pr s)) /\
  (forall s k, (s < length (p_stmts pr))%nat -> (k < length (p_hprops pr))%nat ->
     nth k (mrows (s_trans (stmt_of pr' s))) [] = nth k (mrows (s_trans (stmt_of pr s))) []).
Proof.
  induction 1 as [pr|pr sol pr' c Ls Z Wk Nz G IH]; intros W P.
  - split; auto. split; [apply frame_refl|]. auto 10.
  - pose proof (app_level_frame pr H_LOOP (hyp_type_of pr sol) (hyp_row pr sol)) as F1.
    assert (wf_prog (app_level pr H_LOOP (hyp_type_of pr sol) (hyp_row pr sol))) as W1.
    { apply app_level_wf; auto. intros s Hs. rewrite hyp_row_length, (P _ (stmt_of_in pr s Hs)). auto. }
    destruct (IH W1 (frame_padded _ _ F1 P)) as (A & B & C & D & E & K). split; auto. split; [eapply frame_trans; eauto|].
    split; auto. split; [rewrite D; cbn; rewrite app_length; cbn; lia|]. split.
    + intros s. rewrite E. destruct (Nat.lt_ge_cases s (length (p_stmts pr))) as [L|L].
      * rewrite app_level_stmt by auto. reflexivity.
      * unfold stmt_of. rewrite !nth_overflow; auto. cbn. rewrite map_length, seq_length. auto.
    + intros s k Hs Hk. rewrite K.
      * apply (app_row_old pr H_LOOP _ _ s k W Hs Hk).
      * rewrite app_level_nstmts. auto.
      * cbn. rewrite app_length. cbn. lia.
Qed.

Lemma grown_pad pr pr' c : grown o eager pr pr' c -> wf_prog pr -> padded pr -> padding_free pr -> padding_free pr'.
Proof.
  induction 1 as [pr|pr sol pr' c Ls Z Wk Nz G IH]; intros W P RP; auto.
  pose proof (app_level_frame pr H_LOOP (hyp_type_of pr sol) (hyp_row pr sol)) as F1.
  apply IH; [|apply (frame_padded _ _ F1 P)|].
  { apply app_level_wf; auto. intros s Hs. rewrite hyp_row_length, (P _ (stmt_of_in pr s Hs)). auto. }
  intros s k j Hs Hj Ho. rewrite app_level_nstmts in Hs. change (j < p_nvar pr)%nat in Hj.
  destruct F1 as (_ & _ & _ & F4 & _). destruct (F4 s) as (_ & _ & E & _). rewrite E in Ho.
  rewrite app_level_stmt by auto. rewrite append_row_rows.
  destruct (Nat.lt_trichotomy k (length (mrows (s_trans (stmt_of pr s))))) as [L|[->|L]].
  - rewrite app_nth1 by auto. apply RP; auto.
  - rewrite app_nth2, Nat.sub_diag by auto. cbn [nth]. rewrite hyp_row_iter by auto. apply Z; auto.
  - rewrite (nth_overflow (_ ++ _)) by (rewrite app_length; cbn; lia). destruct j; auto.
Qed.

Lemma grown_weak pr pr' c d : grown o eager pr pr' c -> wf_prog pr -> padded pr -> In d (p_deps pr) -> d_rar d = false -> d_sat d = false ->
  weak_all pr d -> weak_all pr' d.
Proof.
  induction 1 as [pr|pr sol pr' c Ls Z Wk Nz G IH]; intros W P Hd Hr Sa WA; auto.
  pose proof (app_level_frame pr H_LOOP (hyp_type_of pr sol) (hyp_row pr sol)) as F1.
  apply IH; auto; [|apply (frame_padded _ _ F1 P)|].
  { apply app_level_wf; auto. intros s Hs. rewrite hyp_row_length, (P _ (stmt_of_in pr s Hs)). auto. }
  apply app_weak_all; auto; [apply W; auto|]. intros s t p I. apply (Wk d Hd Hr Sa s t p I).
Qed.

Lemma grown_first pr pr' c s : eager = true -> grown o eager pr pr' (S c) -> wf_prog pr -> padded pr -> (s < length (p_stmts pr))%nat ->
  needs_hyps (stmt_of pr s) = true ->
  exists j, (j < p_nvar pr)%nat /\ nth j (nth (length (p_hprops pr)) (mrows (s_trans (stmt_of pr' s))) []) 0 <> 0.
Proof.
  intros EA G W P Hs Hn. revert EA. inversion G as [|? sol ? ? Ls Z Wk Nz G']; subst. intros EA.
  pose proof (app_level_frame pr H_LOOP (hyp_type_of pr sol) (hyp_row pr sol)) as F1.
  assert (wf_prog (app_level pr H_LOOP (hyp_type_of pr sol) (hyp_row pr sol))) as W1.
  { apply app_level_wf; auto. intros u Hu. rewrite hyp_row_length, (P _ (stmt_of_in pr u Hu)). auto. }
  destruct (grown_facts _ _ _ G' W1 (frame_padded _ _ F1 P)) as (_ & _ & _ & _ & _ & K).
  rewrite K; [|rewrite app_level_nstmts; auto|cbn; rewrite app_length; cbn; lia].
  rewrite (proj1 (app_row_new pr H_LOOP _ _ s W Hs)). apply Nz; auto.
Qed.
End Grown.

(** A statement without loops so far needs some. *)
Lemma rank_zeros n k : has_rank n (repeat (repeat 0 n) k) 0.
Proof.
  induction k as [|k IH]; [apply rank_nil|]. cbn [repeat]. rewrite repeat_cons. apply rank_snoc_zero; auto.
  intros v Hv. apply repeat_spec in Hv. subst. apply repeat_length.
Qed.
Lemma constant_needs pr s : wf_prog pr -> padded pr -> orig_first pr -> constant_levels pr -> (s < length (p_stmts pr))%nat ->
  (1 <= s_dim_orig (stmt_of pr s))%nat -> needs_hyps (stmt_of pr s) = true.
Proof.
  intros W P O C Hs Hd. pose proof (stmt_of_in pr s Hs) as Hin. destruct (proj1 W _ Hin) as (A1 & A2 & A3 & A4 & _).
  destruct (O _ Hin) as [O1 O2].
  destruct (needs_hyps (stmt_of pr s)) eqn:E; auto. exfalso.
  apply needs_spec in E; [|auto|rewrite A2, (P _ Hin); lia].
  assert (map (firstn (s_dim_orig (stmt_of pr s))) (mrows (s_trans (stmt_of pr s))) = repeat (repeat 0 (s_dim_orig (stmt_of pr s))) (length (p_hprops pr))) as R.
  { apply (list_ext_nth []).
    - rewrite map_length, repeat_length. exact A4.
    - intros k Hk. rewrite map_length in Hk. rewrite (nth_indep (repeat _ _) [] (repeat 0 (s_dim_orig (stmt_of pr s)))) by (rewrite repeat_length; unfold mnrows in A4; lia). rewrite nth_repeat.
      rewrite (nth_indep _ _ (firstn (s_dim_orig (stmt_of pr s)) [])) by (rewrite map_length; auto). rewrite List.map_nth.
      assert (length (nth k (mrows (s_trans (stmt_of pr s))) []) = (p_nvar pr + p_npar pr + 1)%nat) as L.
      { rewrite (A3 _ (nth_In _ _ Hk)), A2, (P _ Hin). auto. }
      apply (list_ext_nth 0); [rewrite firstn_length, repeat_length; lia|]. intros j Hj. rewrite firstn_length in Hj.
      rewrite nth_firstn_lt by lia. rewrite nth_repeat. apply C; auto; [unfold mnrows in A4; lia|lia]. }
  unfold complete in E. rewrite R in E.
  assert (0%nat = s_dim_orig (stmt_of pr s)) as X; [|lia]. eapply has_rank_unique; [|apply rank_zeros|exact E].
  intros v Hv. apply repeat_spec in Hv. subst. apply repeat_length.
Qed.

(** ** The loops when all levels before the first loop are constants *)
Definition class (pr : prog) (stmts : list nat) (depth K s : nat) : list nat :=
  filter (fun t => forallb (fun k => row_const (stmt_of pr t) k =? row_const (stmt_of pr s) k) (seq depth (K - depth))) stmts.

Lemma filter_filter {A} (f g : A -> bool) l : filter f (filter g l) = filter (fun x => g x && f x) l.
Proof. induction l as [|a l IH]; cbn; auto. destruct (g a) eqn:E; cbn; rewrite ?E; [destruct (f a); cbn; congruence|auto]. Qed.
Lemma filter_all_true {A} (f : A -> bool) l : (forall x, In x l -> f x = true) -> filter f l = l.
Proof. induction l as [|a l IH]; cbn; intros H; auto. rewrite H by auto. f_equal. auto. Qed.

Lemma class_loops pr K n : forall stmts depth, (depth <= K < depth + n)%nat ->
  (forall s k, In s stmts -> (depth <= k < K)%nat -> is_hyperplane_loop (stmt_of pr s) k = false) ->
  (forall s, In s stmts -> is_hyperplane_loop (stmt_of pr s) K = true) ->
  forall lp, In lp (loops_under pr n stmts depth) ->
  exists s, In s stmts /\ In (mkPloop K (class pr stmts depth K s)) (loops_under pr n stmts depth) /\
    (lp = mkPloop K (class pr stmts depth K s) \/ ((K < l_depth lp)%nat /\ incl (l_stmts lp) (class pr stmts depth K s))).
Proof.
  induction n as [|n IH]; intros stmts depth HK S0 S1 lp H; [lia|]. cbn [loops_under] in *.
  destruct (existsb (fun s => is_hyperplane_loop (stmt_of pr s) depth) stmts) eqn:E.
  - apply existsb_exists in E as (s & Hs & L).
    assert (depth = K) as -> by (destruct (Nat.eq_dec depth K); auto; rewrite S0 in L by (auto; lia); discriminate).
    assert (filter (fun s => negb (is_hyperplane_scalar (stmt_of pr s) K)) stmts = stmts) as FS by (apply filter_all_true; intros t Ht; apply (S1 t Ht)).
    assert (class pr stmts K K s = stmts) as CS by (unfold class; rewrite Nat.sub_diag; apply filter_all_true; auto).
    rewrite FS in *. exists s. rewrite CS. split; auto. split; [apply in_or_app; right; left; auto|].
    apply in_app_or in H as [H|[<-|[]]]; [right|left; auto].
    apply loops_under_basic in H as (A & _ & B & _). split; [lia|]. intros t Ht. apply B. auto.
  - apply in_flat_map in H as (g & Hg & H). pose proof Hg as Hg0. apply regroup_In in Hg as (x & Hx & Eg).
    assert (depth < K)%nat as Lt.
    { destruct (Nat.eq_dec depth K); [|lia]. subst depth. exfalso.
      assert (existsb (fun s => is_hyperplane_loop (stmt_of pr s) K) stmts = true); [|congruence]. apply existsb_exists. exists x. auto. }
    assert (forall s, In s g -> In s stmts /\ row_const (stmt_of pr s) depth = row_const (stmt_of pr x) depth) as G.
    { intros s Hs. rewrite Eg in Hs. apply filter_In in Hs as [? Q]. split; auto. apply Z.eqb_eq in Q. auto. }
    destruct (IH g (S depth)) with (lp := lp) as (s & Hs & A & B); [lia| | |auto|].
    { intros s k Hs Hk. apply S0; [apply G; auto|lia]. } { intros s Hs. apply S1, G; auto. }
    assert (class pr g (S depth) K s = class pr stmts depth K s) as Ec.
    { unfold class. rewrite Eg, filter_filter. apply filter_ext. intros t. replace (K - depth)%nat with (S (K - S depth)) by lia. cbn [seq forallb].
      rewrite (proj2 (G s Hs)). reflexivity. }
    rewrite Ec in *. exists s. split; [apply G; auto|]. split; auto. apply in_flat_map. exists g. auto.
Qed.

(** ** The bands *)
Section FirstBands.
Variables (is_emptyb : cst -> bool) (pr1 : prog) (K : nat).
Hypothesis EX : exact_empty is_emptyb.
Hypothesis W : wf_prog pr1.
Let q := recompute is_emptyb pr1.
Let n := length (p_stmts pr1).
Hypothesis HK : (K < length (p_hprops pr1))%nat.
Hypothesis C0 : forall s k, (s < n)%nat -> (k < K)%nat -> is_hyperplane_loop (stmt_of pr1 s) k = false.
Hypothesis C1 : forall s, (s < n)%nat -> is_hyperplane_loop (stmt_of pr1 s) K = true.
(** dependences within a class are not reversed by the new levels *)
Hypothesis WK : forall d s k, In d (p_deps pr1) -> d_rar d = false -> (s < n)%nat ->
  In (d_src d) (class pr1 (seq 0 n) 0 K s) -> In (d_dst d) (class pr1 (seq 0 n) 0 K s) -> (K <= k < length (p_hprops pr1))%nat -> weak_at pr1 d k.

Lemma q_stmt s : stmt_of q s = stmt_of pr1 s.
Proof. exact (computed_stmt is_emptyb pr1 s). Qed.

Lemma first_loops lp : In lp (get_all_loops q) -> exists s, (s < n)%nat /\
  In (mkPloop K (class pr1 (seq 0 n) 0 K s)) (get_all_loops q) /\
  (lp = mkPloop K (class pr1 (seq 0 n) 0 K s) \/ ((K < l_depth lp)%nat /\ incl (l_stmts lp) (class pr1 (seq 0 n) 0 K s))).
Proof.
  destruct (recompute_same is_emptyb pr1) as (R1 & R2 & R3 & R4 & R5). fold q in R1, R2, R3, R4, R5.
  unfold get_all_loops, get_loops_under. rewrite R1, R4. fold n. intros H. apply (class_loops q K) in H as (s & Hs & A & B).
  - apply in_seq in Hs. assert (class q (seq 0 n) 0 K s = class pr1 (seq 0 n) 0 K s) as E.
    { unfold class. apply filter_ext. intros t. rewrite !q_stmt. reflexivity. }
    rewrite E in *. exists s. split; [lia|auto].
  - lia.
  - intros s k Hs Hk. apply in_seq in Hs. rewrite q_stmt. apply C0; lia.
  - intros s Hs. apply in_seq in Hs. rewrite q_stmt. apply C1; lia.
Qed.

Lemma q_weak d s k : In d (p_deps q) -> d_rar d = false -> (s < n)%nat ->
  In (d_src d) (class pr1 (seq 0 n) 0 K s) -> In (d_dst d) (class pr1 (seq 0 n) 0 K s) -> (K <= k < length (p_hprops pr1))%nat -> weak_at q d k.
Proof.
  intros Hd Hr Hs A B Hk. destruct (recompute_same is_emptyb pr1) as (R1 & R2 & R3 & R4 & R5). fold q in R1, R2, R3, R4, R5.
  destruct (Forall2_in_r _ _ _ d R5 Hd) as (d0 & Hd0 & SD). pose proof SD as (E1 & E2 & E3 & _).
  assert (weak_at pr1 d0 k) as X by (apply (WK d0 s k); congruence).
  apply (same_dep_weak q d0 d k SD). apply (same_dep_info pr1 q d0 R4 R3 q_stmt k). auto.
Qed.

Lemma first_band_end s m : (s < n)%nat -> forall depth, (K <= depth)%nat -> (depth + m = length (p_hprops pr1))%nat ->
  band_end q (mkPloop K (class pr1 (seq 0 n) 0 K s)) m depth = (depth + m)%nat.
Proof.
  intros Hs. induction m as [|m IH]; intros depth Hd Hm; cbn [band_end]; [lia|].
  destruct (existsb _ (p_deps q)) eqn:E.
  - exfalso. apply existsb_exists in E as (d & Hd' & S). unfold stops_band in S. rewrite !andb_true_iff in S.
    destruct S as (((((S1 & S2) & S3) & S4) & S5) & S6). apply negb_true_iff in S1.
    apply dep_in_loop_In in S5 as [I1 I2]. cbn [l_stmts] in I1, I2.
    pose proof (q_weak d s depth Hd' S1 Hs I1 I2 ltac:(lia)) as X.
    apply (dir_weak q (fun d Hd Hr => computed_info is_emptyb EX pr1 d (wf_prog_levels _ W) Hd Hr) d depth Hd' S1) in X; [congruence|].
    destruct (recompute_same is_emptyb pr1) as (_ & _ & _ & R4 & _). fold q in R4. rewrite R4. lia.
  - rewrite IH by lia. lia.
Qed.

Lemma peel_above p lp m e k : peel p lp m = Some e -> (e <= k < m)%nat -> is_depth_scalar p lp k = true.
Proof.
  revert e. induction m as [|m IH]; intros e; cbn [peel]; [discriminate|]. destruct (m <? l_depth lp)%nat; [discriminate|].
  destruct (is_depth_scalar p lp m) eqn:E.
  - intros H Hk. destruct (Nat.eq_dec k m) as [->|]; auto. apply (IH e); auto. lia.
  - intros [= <-] Hk. lia.
Qed.

Lemma first_bands bands : get_outermost_permutable_bands q = Some bands -> forall b, In b bands ->
  exists s, (s < n)%nat /\ pb_loop b = mkPloop K (class pr1 (seq 0 n) 0 K s).
Proof.
  intros H b Hb. unfold get_outermost_permutable_bands in H. destruct (collect_bands _ _ _) as [l|] eqn:C; [|discriminate]. cbn in H. injection H as <-.
  unfold get_dominator_bands in Hb. apply filter_In in Hb as [Hb ND]. pose proof (proj1 (collect_In _ _ _ _ C b) Hb) as (A & B & _).
  destruct (first_loops _ A) as (s & Hs & I & [E|[D S]]); [eauto|]. exfalso.
  pose proof (all_loops_ok _ _ I) as LI. pose proof (all_loops_ok _ _ A) as LA.
  destruct (recompute_same is_emptyb pr1) as (_ & _ & _ & R4 & _). fold q in R4.
  set (lp := mkPloop K (class pr1 (seq 0 n) 0 K s)) in *.
  assert (band_end q lp (length (p_hprops q) - l_depth lp) (l_depth lp) = length (p_hprops q)) as BE.
  { rewrite R4. cbn [l_depth lp]. unfold lp. rewrite first_band_end by (auto; lia). lia. }
  destruct (peel_some q lp (length (p_hprops q))) as (e & P).
  { rewrite R4. cbn. lia. } { apply loop_not_scalar; auto. }
  assert (exists t, In t (l_stmts (pb_loop b))) as (t & Ht). { destruct LA as (_ & N & _). destruct (l_stmts (pb_loop b)); [congruence|eexists; left; eauto]. }
  assert (l_depth (pb_loop b) < e)%nat as He.
  { destruct (Nat.lt_ge_cases (l_depth (pb_loop b)) e) as [|L]; auto. exfalso. destruct LA as (LA1 & _ & _ & LA4).
    pose proof (peel_above q lp _ e (l_depth (pb_loop b)) P ltac:(lia)) as X. unfold is_depth_scalar in X. rewrite forallb_forall in X.
    specialize (X t (S t Ht)). destruct (LA4 t Ht) as [_ Y]. unfold is_hyperplane_loop in Y. rewrite X in Y. discriminate. }
  assert (get_permutable_band q lp = BandFound (mkPband lp (e - K))) as F.
  { unfold get_permutable_band. rewrite BE, P. cbn [l_depth lp]. destruct (Nat.eqb_spec (e - K) 1); [lia|]. reflexivity. }
  assert (In (mkPband lp (e - K)) l) as J. { apply (collect_In _ _ _ _ C). split; [exact I|]. split; [exact F|reflexivity]. }
  apply negb_true_iff in ND. assert (existsb (is_band_dominated b) l = true) as X; [|congruence].
  apply existsb_exists. eexists. split; [exact J|]. unfold is_band_dominated. cbn [pb_loop]. apply andb_true_iff. split.
  - unfold stmt_is_subset_of. apply forallb_forall. intros u Hu. apply member_In. apply S. auto.
  - rewrite (proj2 (Nat.ltb_lt _ _)); auto.
Qed.
End FirstBands.
