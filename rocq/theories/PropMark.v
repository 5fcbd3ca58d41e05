(** * Theorems: loops of the generated code that are marked parallel, for
    vectorization, or for unroll and jam (C67, C68, C69).

    [info f pr] is the transformed program [pr] with dependence information for the
    emptiness test [f] (see PropLoop.v); [ast] lists the loops of the code that
    CLooG generated for it, in which loops with one iteration are left out. *)
From Coq Require Import ZArith List Bool Lia Arith.
From Verif Require Import SpecLinear MathModel ConstraintsModel VecProofs EditProofs MatrixProofs SpecProg SpecTile SpecLoop SpecMark
  RankProofs SumProofs FrameworkModel ProgModel DepProofs SimplifyProofs LexProofs ProgProofs TileModel TileProofs TileProofs2 TileProofs3
  LoopModel LoopProofs LoopProofs2 LoopProofs3 LoopProofs4 LoopProofs5 VectorModel MarkModel MarkProofs Checkers ExProg PropFramework PropAuto PropTile PropLoop.
Import ListNotations.
Open Scope Z_scope.

Lemma dom_parallel pr lp : In lp (get_dom_parallel_loops pr) -> is_loop_of pr lp /\ loop_is_parallel pr lp = true.
Proof.
  intros H. unfold get_dom_parallel_loops, not_dominated in H. apply filter_In in H as [H _]. unfold get_parallel_loops in H.
  apply filter_In in H as [H P]. split; auto. apply all_loops_ok; auto.
Qed.

(** ** C67.  Loops marked parallel *)

(** Marking never fails.  Every mark comes from an outermost parallel loop [lp] of
    the program with a group of levels [l_depth lp] .. [l_depth lp]+[w]-1 that are
    all parallel; the marked loop is at one of these levels, or at the level
    after them.  The private variables are the variables of the inner loops. *)
Theorem C67_marks_partial : forall f pr ast, exact_empty f -> wf_levels pr -> leveled pr ->
  exists marks, mark_parallel (info f pr) ast = Some marks /\
  forall m, In m marks ->
    In (pm_loop m) ast /\
    (forall k, In k (pm_private m) <-> (c_level (pm_loop m) < k < length (p_hprops pr))%nat) /\
    exists lp w, In lp (get_all_loops (info f pr)) /\ incl (c_stmts (pm_loop m)) (l_stmts lp) /\ (1 <= w)%nat /\
      (forall k, (l_depth lp <= k < l_depth lp + w)%nat -> parallel_level (info f pr) (l_stmts lp) k) /\
      (l_depth lp <= c_level (pm_loop m) <= l_depth lp + w)%nat.
Proof.
  intros f pr ast EX W LV. change (info f pr) with (computed f pr).
  pose proof (cq_wf f pr W) as W'. pose proof (cq_leveled f pr LV) as LV'.
  assert (forall d, In d (p_deps (computed f pr)) -> d_rar d = false -> info_ok (computed f pr) d) as INF by (intros; apply computed_info; auto).
  destruct (parallel_bands_ok (computed f pr) (get_dom_parallel_loops (computed f pr))) as (bs & E & B); [apply dom_parallel|].
  unfold mark_parallel. rewrite E. cbn [option_map]. eexists. split; [reflexivity|]. intros m Hm. apply in_flat_map in Hm as (b & Hb & Hm).
  unfold mark_band in Hm. destruct (find_parallel_loop _ _ _ _ _) as [[lp loops]|] eqn:F; [|destruct Hm].
  apply in_map_iff in Hm as (a & <- & Ha). cbn [pm_loop pm_private]. destruct (B b Hb) as [B1 B2]. destruct (dom_parallel _ _ B1) as [LP P].
  destruct (find_loop_spec _ _ _ _ _ _ _ F) as (F1 & F2 & F3 & -> & _); [lia|auto|]. apply clast_filter_In in Ha as (A1 & A2 & A3).
  split; auto. split.
  { intros k. rewrite private_In, A2, cq_hprops by auto. reflexivity. }
  destruct (parallel_band_ok _ _ LP P) as (b' & E' & _ & G1 & G2 & G3). rewrite B2 in E'. injection E' as <-.
  exists (pb_loop b), (pb_width b). split.
  { unfold get_dom_parallel_loops, not_dominated, get_parallel_loops in B1. apply filter_In in B1 as [B1 _]. apply filter_In in B1 as [B1 _]. auto. }
  split; [intros s Hs; auto|]. split; auto. split; [|lia].
  intros k Hk. apply (parallel_band_levels (computed f pr) INF LV' (pb_loop b) (pb_width b)); auto.
Qed.
Print Assumptions C67_marks_partial.

(** When the outermost parallel loops have not vanished from the code, exactly the
    code loops for them are marked, and these are parallel. *)
Theorem C67_marks_parallel : forall f pr ast, exact_empty f -> wf_levels pr -> leveled pr ->
  (forall lp, In lp (get_dom_parallel_loops (info f pr)) ->
     exists a, In a ast /\ c_level a = l_depth lp /\ incl (c_stmts a) (l_stmts lp)) ->
  exists marks, mark_parallel (info f pr) ast = Some marks /\
  (forall m, In m marks -> parallel_level (info f pr) (c_stmts (pm_loop m)) (c_level (pm_loop m))) /\
  (forall a, In a (map pm_loop marks) <->
     In a ast /\ exists lp, In lp (get_dom_parallel_loops (info f pr)) /\ c_level a = l_depth lp /\ incl (c_stmts a) (l_stmts lp)).
Proof.
  intros f pr ast EX W LV H. change (info f pr) with (computed f pr) in *.
  pose proof (cq_wf f pr W) as W'. pose proof (cq_leveled f pr LV) as LV'.
  assert (forall d, In d (p_deps (computed f pr)) -> d_rar d = false -> info_ok (computed f pr) d) as INF by (intros; apply computed_info; auto).
  assert (forall ls, (forall lp, In lp ls -> is_loop_of (computed f pr) lp /\ loop_is_parallel (computed f pr) lp = true) ->
    (forall lp, In lp ls -> exists a, In a ast /\ c_level a = l_depth lp /\ incl (c_stmts a) (l_stmts lp)) ->
    exists bs, parallel_bands (computed f pr) ls = Some bs /\
      flat_map (mark_band (computed f pr) ast) bs =
      flat_map (fun lp => map (fun a => mkParMark a (private_vars (computed f pr) lp)) (clast_filter ast (l_depth lp) (l_stmts lp))) ls) as K.
  { clear - W'. induction ls as [|lp ls IH]; intros H F; cbn [parallel_bands]; [exists []; auto|].
    destruct (H lp (or_introl eq_refl)) as [LP P]. destruct (parallel_band_ok _ lp LP P) as (b & E & B1 & B2 & _). rewrite E.
    destruct IH as (bs & -> & Q); [intros x Hx; apply H; simpl; auto|intros x Hx; apply F; simpl; auto|].
    rewrite (proj2 (Nat.eqb_neq _ _)) by lia. eexists. split; [reflexivity|]. cbn [flat_map]. rewrite Q. f_equal.
    unfold mark_band. cbn [find_parallel_loop]. rewrite B1.
    destruct (clast_filter ast (l_depth lp) (l_stmts lp)) as [|x l] eqn:C; auto. exfalso.
    destruct (F lp (or_introl eq_refl)) as (a & A). apply clast_filter_In in A. rewrite C in A. destruct A. }
  destruct (K (get_dom_parallel_loops (computed f pr)) (dom_parallel _) H) as (bs & E & Q).
  unfold mark_parallel. rewrite E. cbn [option_map]. rewrite Q. eexists. split; [reflexivity|]. split.
  - intros m Hm. apply in_flat_map in Hm as (lp & Hl & Hm). apply in_map_iff in Hm as (a & <- & Ha). cbn [pm_loop]. apply clast_filter_In in Ha as (A1 & A2 & A3).
    destruct (dom_parallel _ _ Hl) as [LP P]. apply (parallel_level_incl _ (l_stmts lp)); auto. rewrite A2. apply parallel_sound; auto; [apply info_sound; auto|apply LP].
  - intros a. rewrite in_map_iff. split.
    + intros (m & <- & Hm). apply in_flat_map in Hm as (lp & Hl & Hm). apply in_map_iff in Hm as (a & <- & Ha). cbn [pm_loop]. apply clast_filter_In in Ha as (A1 & A2 & A3). eauto.
    + intros (A1 & lp & Hl & A2 & A3). exists (mkParMark a (private_vars (computed f pr) lp)). split; auto. apply in_flat_map. exists lp. split; auto.
      apply in_map_iff. exists a. split; auto. apply clast_filter_In. auto.
Qed.
Print Assumptions C67_marks_parallel.

(** The loops of [par_prog] (PropLoop.v): for i, j: a[i][j] = f(a[i][j-1]). *)
Lemma par_wf : wf_levels par_prog.
Proof. exact (proj1 C29_met). Qed.
Lemma par_leveled : leveled par_prog.
Proof.
  intros d [<-|[]] _. exists 1%nat. split; [simpl; lia|]. split; [|intros j Hj]; intros s t p I; instance_cases;
    [|destruct j; [|lia]]; unfold distance, theta, aff; cbn -[Z.mul Z.add Z.sub]; lia.
Qed.
Example C67_met : wf_levels par_prog /\ leveled par_prog /\ exists f, exact_empty f /\
  map show_loop (get_dom_parallel_loops (info f par_prog)) = [(0, [0])]%nat /\
  option_map (map (fun m => (c_level (pm_loop m), pm_private m))) (mark_parallel (info f par_prog) [mkCodeLoop 0 [0%nat]; mkCodeLoop 1 [0%nat]])
    = Some [(0, [1])]%nat.
Proof.
  split; [exact par_wf|]. split; [exact par_leveled|]. destruct C12_oracle_exists as [f F]. exists (dec_empty f).
  split; [apply dec_empty_exact; auto|]. split; vm_compute; reflexivity.
Qed.

(** If loop i has one iteration, the generated code has no loop for it.  Then the
    loop at the level after the parallel ones is marked parallel: for i in 0..0,
    j in 0..9: a[i][j] = f(a[i][j-1]) runs loop j in parallel. *)
Definition one_prog : prog := mkProg 2 0
  [mkStmt 2 2 [true;true] (mkCst 3 [ge [1;0;0]; ge [-1;0;0]; ge [0;1;0]; ge [0;-1;9]]) (mkMat 3 [[1;0;0];[0;1;0]]) [H_LOOP;H_LOOP] 0 0 [] [] None 0 (-1) (-1)]
  [ex_dep 0 0 false (mkCst 5 [eq [1;0;-1;0;0]; eq [0;1;0;-1;1]; ge [1;0;0;0;0]; ge [-1;0;0;0;0]; ge [0;1;0;0;0]; ge [0;-1;0;0;8]])]
  [H_LOOP; H_LOOP].
Theorem C67_marks_refuted : exists pr f ast m, exact_empty f /\ wf_levels pr /\ leveled pr /\
  (** loop i has one iteration and the code has the loop j for the statement *)
  (forall i p, iteration (stmt_of pr 0) i p -> theta (stmt_of pr 0) 0 i p = 0) /\ ast = [mkCodeLoop 1 [0%nat]] /\
  mark_parallel (info f pr) ast = Some [m] /\ pm_loop m = mkCodeLoop 1 [0%nat] /\
  ~ parallel_level pr [0%nat] 1.
Proof.
  destruct C12_oracle_exists as [f F]. exists one_prog, (dec_empty f), [mkCodeLoop 1 [0%nat]], (mkParMark (mkCodeLoop 1 [0%nat]) []).
  split; [apply dec_empty_exact; auto|]. split; [|split; [|split]].
  - split; [|intros s Hs; destruct s as [|s]; [reflexivity|simpl in Hs; lia]]. split.
    + intros st [<-|[]]; (split; [|reflexivity]); repeat (split; [first [reflexivity|wf]|]); simpl; intuition (subst; first [wf|reflexivity]).
    + intros d [<-|[]]; (split; [simpl; lia|split; [simpl; lia|split; [wf|reflexivity]]]).
  - intros d [<-|[]] _. exists 1%nat. split; [simpl; lia|]. split; [|intros j Hj]; intros s t p I; instance_cases;
      [|destruct j; [|lia]]; unfold distance, theta, aff; cbn -[Z.mul Z.add Z.sub]; lia.
  - intros i p [L [L' M]]. destruct i as [|i [|j [|]]]; try discriminate. destruct p as [|]; [|discriminate]. apply Forall_forall in M. cbn in M.
    repeat match goal with M : Forall _ (_ :: _) |- _ => inversion M; clear M; subst end. unfold holds, aff in *.
    unfold theta, aff. cbn -[Z.mul Z.add Z.sub] in *. lia.
  - split; [reflexivity|]. split; [vm_compute; reflexivity|]. split; [reflexivity|].
    intros P. specialize (P _ (or_introl eq_refl) eq_refl (or_introl eq_refl) (or_introl eq_refl) [0;0] [0;1] []).
    assert (distance one_prog (nth 0 (p_deps one_prog) (ex_dep 0 0 false (mkCst 1 []))) 1 [0;0] [0;1] [] = 0) as Q; [|vm_compute in Q; discriminate].
    apply P; [|intros [|j] Hj; [reflexivity|lia]]. split; [reflexivity|]. split; [reflexivity|]. split; [reflexivity|]. inset.
Qed.
Print Assumptions C67_marks_refuted.

(** ** C69.  Loops marked for vectorization *)

(** Exactly the code loops for innermost parallel loops are marked: no statement
    in their body has an inner loop, and their iterations are independent. *)
Theorem C69_vector : forall f pr ast a, exact_empty f -> wf_levels pr ->
  (forall s, (s < length (p_stmts pr))%nat -> types_ok (stmt_of pr s)) ->
  In a (mark_vector (info f pr) ast) ->
  In a ast /\ parallel_level (info f pr) (c_stmts a) (c_level a) /\
  forall s k, In s (c_stmts a) -> (c_level a < k < length (p_hprops pr))%nat -> loop_level (stmt_of pr s) k = false.
Proof.
  intros f pr ast a EX W TO H. change (info f pr) with (computed f pr) in *. pose proof (cq_wf f pr W) as W'.
  assert (forall s, (s < length (p_stmts (computed f pr)))%nat -> types_ok (stmt_of (computed f pr) s)) as TO'.
  { intros s Hs. rewrite cq_stmts in Hs. rewrite cq_stmt. auto. }
  unfold mark_vector in H. apply in_flat_map in H as (lp & Hl & H). destruct (loop_is_innermost (computed f pr) lp) eqn:I; [|destruct H].
  apply clast_filter_In in H as (A1 & A2 & A3). unfold get_parallel_loops in Hl. apply filter_In in Hl as [Hl P]. pose proof (all_loops_ok _ _ Hl) as LP.
  split; auto. split.
  - apply (parallel_level_incl _ (l_stmts lp)); auto. rewrite A2. apply parallel_sound; auto; [apply info_sound; intros; apply computed_info; auto|apply LP].
  - intros s k Hs Hk. pose proof (innermost_spec _ W' TO' lp LP I s k (A3 s Hs)) as Q. rewrite cq_stmt, cq_hprops in Q. apply Q. lia.
Qed.
Print Assumptions C69_vector.

(** Every innermost loop that is reported parallel is marked when it is in the
    code. *)
Theorem C69_all_marked : forall f pr ast a lp, wf_levels pr ->
  In lp (get_all_loops (info f pr)) -> loop_is_parallel (info f pr) lp = true ->
  (forall s k, In s (l_stmts lp) -> (l_depth lp < k < length (p_hprops pr))%nat -> loop_level (stmt_of pr s) k = false) ->
  (forall s, (s < length (p_stmts pr))%nat -> types_ok (stmt_of pr s)) ->
  In a ast -> c_level a = l_depth lp -> incl (c_stmts a) (l_stmts lp) -> In a (mark_vector (info f pr) ast).
Proof.
  intros f pr ast a lp W Hl P NL TO A1 A2 A3. change (info f pr) with (computed f pr) in *. pose proof (cq_wf f pr W) as W'.
  pose proof (all_loops_ok _ _ Hl) as (L1 & L2 & L3 & L4).
  unfold mark_vector. apply in_flat_map. exists lp. split; [unfold get_parallel_loops; apply filter_In; auto|].
  assert (loop_is_innermost (computed f pr) lp = true) as ->; [|apply clast_filter_In; auto].
  unfold loop_is_innermost. destruct (get_loops_under (computed f pr) (l_stmts lp) (S (l_depth lp))) as [|x l] eqn:E; auto. exfalso.
  assert (In x (get_loops_under (computed f pr) (l_stmts lp) (S (l_depth lp)))) as X by (rewrite E; simpl; auto).
  unfold get_loops_under in X. destruct (loops_under_basic _ _ _ _ _ X) as (B1 & B2 & B3 & _). destruct (l_stmts x) as [|s r]; [congruence|].
  destruct (B3 s (or_introl eq_refl)) as [Q1 Q2]. destruct (L4 s Q1) as [N _]. rewrite cq_stmts in N. rewrite cq_hprops in B1, L1.
  rewrite cq_stmt in Q2. rewrite loop_is_level in Q2; [|auto|rewrite (proj2 W) by auto; lia]. rewrite NL in Q2; [discriminate|auto|lia].
Qed.
Print Assumptions C69_all_marked.

(** for i, j: a[i][j] = f(a[i-1][j]): loop j. *)
Definition vec_par_prog : prog := mkProg 2 0
  [mkStmt 2 2 [true;true] (mkCst 3 [ge [1;0;0]; ge [-1;0;9]; ge [0;1;0]; ge [0;-1;9]]) (mkMat 3 [[1;0;0];[0;1;0]]) [H_LOOP;H_LOOP] 0 0 [] [] None 0 (-1) (-1)]
  [ex_dep 0 0 false (mkCst 5 [eq [1;0;-1;0;1]; eq [0;1;0;-1;0]; ge [1;0;0;0;0]; ge [-1;0;0;0;8]; ge [0;1;0;0;0]; ge [0;-1;0;0;9]])]
  [H_LOOP; H_LOOP].
Example C69_met : wf_levels vec_par_prog /\ (forall s, (s < length (p_stmts vec_par_prog))%nat -> types_ok (stmt_of vec_par_prog s)) /\ exists f, exact_empty f /\
  map c_level (mark_vector (info f vec_par_prog) [mkCodeLoop 0 [0%nat]; mkCodeLoop 1 [0%nat]]) = [1]%nat.
Proof.
  split; [|split].
  - split; [|intros s Hs; destruct s as [|s]; [reflexivity|simpl in Hs; lia]]. split.
    + intros st [<-|[]]; (split; [|reflexivity]); repeat (split; [first [reflexivity|wf]|]); simpl; intuition (subst; first [wf|reflexivity]).
    + intros d [<-|[]]; (split; [simpl; lia|split; [simpl; lia|split; [wf|reflexivity]]]).
  - intros s Hs k Hk. destruct s as [|s]; [|simpl in Hs; lia]. unfold mnrows in Hk. simpl in Hk. destruct k as [|[|k]]; try lia; (split; [discriminate|]; intros H; exfalso).
    specialize (H 0%nat ltac:(simpl; lia)); simpl in H; lia. specialize (H 1%nat ltac:(simpl; lia)); simpl in H; lia.
  - destruct C12_oracle_exists as [f F]. exists (dec_empty f). split; [apply dec_empty_exact; auto|]. vm_compute; reflexivity.
Qed.

(** ** C68.  Unroll and jam *)

(** Whatever the cost function says: every loop marked for unroll and jam lies
    under a permutable band, and if the statements of the band have no loops
    inside of the band, then unroll and jam keeps dependent iterations in order. *)
Theorem C68_unroll_jam_partial : forall f pr ast profit marks a, exact_empty f -> wf_levels pr ->
  (forall s, (s < length (p_stmts pr))%nat -> types_ok (stmt_of pr s)) -> leveled pr ->
  mark_unroll_jam profit (info f pr) ast = Some marks -> In a marks ->
  In a ast /\ exists lp b, In lp (get_all_loops (info f pr)) /\ get_permutable_band (info f pr) lp = BandFound b /\
    incl (c_stmts a) (l_stmts lp) /\ (l_depth lp <= c_level a)%nat /\
    ((forall s k, In s (l_stmts lp) -> (l_depth lp + pb_width b <= k < length (p_hprops pr))%nat -> loop_level (stmt_of pr s) k = false) ->
     forall m, last_loop pr (c_stmts a) m -> jam_safe (info f pr) (c_stmts a) (c_level a) m).
Proof.
  intros f pr ast profit marks a EX W TO LV H Ha. change (info f pr) with (computed f pr) in *. pose proof (cq_wf f pr W) as W'.
  assert (forall s, (s < length (p_stmts (computed f pr)))%nat -> types_ok (stmt_of (computed f pr) s)) as TO'.
  { intros s Hs. rewrite cq_stmts in Hs. rewrite cq_stmt. auto. }
  assert (forall d, In d (p_deps (computed f pr)) -> d_rar d = false -> info_ok (computed f pr) d) as INF by (intros; apply computed_info; auto).
  unfold mark_unroll_jam in H. destruct (get_unroll_jam_loops profit (computed f pr)) as [uj|] eqn:G; [|discriminate]. injection H as <-.
  apply in_flat_map in Ha as (l & Hl & Ha). apply clast_filter_In in Ha as (A1 & A2 & A3). split; auto.
  unfold get_unroll_jam_loops in G. destruct (get_innermost_permutable_bands (computed f pr) 1) as [bands|] eqn:B; [|discriminate].
  destruct (filter_loops_In _ _ _ _ G Hl) as [L1 _]. apply in_flat_map in L1 as (b & Hb & L1).
  unfold get_innermost_permutable_bands in B. destruct (collect_bands _ _ _) as [bs|] eqn:C; [|discriminate]. injection B as <-.
  unfold get_dominator_bands in Hb. apply filter_In in Hb as [Hb _]. destruct (collect_bands_In _ _ _ _ _ C Hb) as (lp & P1 & P2 & _).
  pose proof (all_loops_ok _ _ P1) as LP. destruct (band_found _ lp b LP P2) as (B1 & _). rewrite B1 in L1.
  pose proof L1 as L1'. unfold get_loops_under in L1'. destruct (loops_under_basic _ _ _ _ _ L1') as (D1 & D2 & D3 & _).
  exists lp, b. split; auto. split; auto. split; [intros s Hs; apply D3; auto|]. split; [lia|].
  intros NB m LL. rewrite A2. apply (jam_loop_safe _ W' TO' INF (cq_leveled f pr LV) b l m lp); auto.
  - intros s k Hs Hk. rewrite cq_stmt. apply NB; auto. rewrite cq_hprops in Hk. auto.
  - destruct LL as [(s & S1 & S2 & S3) L]. split; [exists s; rewrite cq_stmt, cq_hprops; auto|]. intros x j Hx Hj. rewrite cq_stmt. rewrite cq_hprops in Hj. auto.
Qed.
Print Assumptions C68_unroll_jam_partial.

(** for i, j: y[i] = y[i] + A[i][j] * x[j]; loop i is unrolled and jammed. *)
Definition mv_prog : prog := mkProg 2 0
  [mkStmt 2 2 [true;true] (mkCst 3 [ge [1;0;0]; ge [-1;0;2]; ge [0;1;0]; ge [0;-1;2]]) (mkMat 3 [[1;0;0];[0;1;0]]) [H_LOOP;H_LOOP] 0 0
     [mkMat 3 [[1;0;0]]; mkMat 3 [[1;0;0];[0;1;0]]; mkMat 3 [[0;1;0]]] [mkMat 3 [[1;0;0]]] None 0 (-1) (-1)]
  [ex_dep 0 0 false (mkCst 5 [eq [1;0;-1;0;0]; eq [0;1;0;-1;1]; ge [1;0;0;0;0]; ge [-1;0;0;0;2]; ge [0;1;0;0;0]; ge [0;-1;0;0;1]])]
  [H_LOOP; H_LOOP].
Example C68_met : wf_levels mv_prog /\ (forall s, (s < length (p_stmts mv_prog))%nat -> types_ok (stmt_of mv_prog s)) /\ leveled mv_prog /\
  last_loop mv_prog [0%nat] 2 /\ exists f, exact_empty f /\
  (exists b, get_permutable_band (info f mv_prog) (mkPloop 0 [0%nat]) = BandFound b /\ pb_width b = 2%nat) /\
  option_map (map c_level) (mark_unroll_jam (is_unroll_jam_profitable (fun _ => [0; 1; 2; 0]%nat) 8) (info f mv_prog)
    [mkCodeLoop 0 [0%nat]; mkCodeLoop 1 [0%nat]]) = Some [0]%nat.
Proof.
  split; [|split; [|split; [|split]]].
  - split; [|intros s Hs; destruct s as [|s]; [reflexivity|simpl in Hs; lia]]. split.
    + intros st [<-|[]]; (split; [|reflexivity]); repeat (split; [first [reflexivity|wf]|]); simpl; intuition (subst; first [wf|reflexivity]).
    + intros d [<-|[]]; (split; [simpl; lia|split; [simpl; lia|split; [wf|reflexivity]]]).
  - intros s Hs k Hk. destruct s as [|s]; [|simpl in Hs; lia]. unfold mnrows in Hk. simpl in Hk. destruct k as [|[|k]]; try lia; (split; [discriminate|]; intros H; exfalso).
    specialize (H 0%nat ltac:(simpl; lia)); simpl in H; lia. specialize (H 1%nat ltac:(simpl; lia)); simpl in H; lia.
  - intros d [<-|[]] _. exists 1%nat. split; [simpl; lia|]. split; [|intros j Hj]; intros s t p I; instance_cases;
      [|destruct j; [|lia]]; unfold distance, theta, aff; cbn -[Z.mul Z.add Z.sub]; lia.
  - split; [exists 0%nat; simpl; auto|]. intros s j Hs Hj. simpl in Hj. lia.
  - destruct C12_oracle_exists as [f F]. exists (dec_empty f). split; [apply dec_empty_exact; auto|]. split; [|vm_compute; reflexivity].
    eexists. split; vm_compute; reflexivity.
Qed.

(** A loop that is taken for a tile loop is one: its variable is the quotient of an
    affine function [h] of the other dimensions and parameters by the tile size [T]. *)
Lemma nth_set_nth {A} pos (v d : A) l i : nth i (set_nth pos v l) d = if (i =? pos)%nat then (if (pos <? length l)%nat then v else nth i l d) else nth i l d.
Proof.
  destruct (Nat.eqb_spec i pos) as [->|N]; [|apply nth_set_nth_neq; auto]. destruct (Nat.ltb_spec pos (length l)); [apply nth_set_nth_eq; auto|].
  rewrite !nth_overflow; auto. rewrite set_nth_length. auto.
Qed.
Lemma last_row_some (test : list Z -> bool) : forall (l : list row) acc v, fold_left (fun o r => if test (coef r) then Some (coef r) else o) l acc = Some v ->
  acc = Some v \/ exists r, In r l /\ coef r = v /\ test v = true.
Proof.
  induction l as [|r l IH]; intros acc v H; cbn in H; auto. destruct (IH _ _ H) as [E|(r' & A & B)].
  - destruct (test (coef r)) eqn:T; auto. right. exists r. injection E as <-. simpl. auto.
  - right. exists r'. simpl. tauto.
Qed.
Theorem C68_tile_loops : forall st pos h T, wf_cst (s_domain st) ->
  check_supernode st pos = Some (Some (h, T)) ->
  1 <= T /\ nth pos h 0 = 0 /\ forall i p, mem (s_domain st) (i ++ p) -> nth pos (i ++ p) 0 = aff h (i ++ p) / T.
Proof.
  intros st pos h T W H. unfold check_supernode in H. cbv zeta in H. set (n := ncols (s_domain st)) in *.
  destruct ((n <=? pos)%nat && _) eqn:G; [discriminate|].
  destruct (last_row _ (rows (s_domain st))) as [ub|] eqn:U; [|discriminate].
  destruct (last_row (fun v => (nth pos v 0 <=? -1) && (nth (n - 1) v 0 =? 0)) (rows (s_domain st))) as [lb|] eqn:L; [|discriminate].
  destruct (forallb _ _) eqn:F; [|discriminate].
  assert (h = map (fun c => if (c =? pos)%nat then 0 else nth c lb 0) (seq 0 n) /\ T = nth pos ub 0) as [Hh HT].
  { split; [|congruence]. assert (forall (a b : list Z * Z), Some (Some a) = Some (Some b) -> fst a = fst b) as Q by (intros a b Q; congruence).
    symmetry. apply (Q _ _ H). }
  clear H. unfold last_row in U, L.
  apply (last_row_some (fun v => (1 <=? nth pos v 0) && (nth (n - 1) v 0 =? nth pos v 0 - 1))) in U as [U|(ru & U1 & U2 & U3)]; [discriminate|]. apply (last_row_some (fun v => (nth pos v 0 <=? -1) && (nth (n - 1) v 0 =? 0))) in L as [L|(rl & L1 & L2 & L3)]; [discriminate|].
  apply andb_true_iff in U3 as [U3 U4]. apply andb_true_iff in L3 as [L3 L4].
  apply Z.leb_le in U3, L3. apply Z.eqb_eq in U4, L4. pose proof (proj2 W _ U1) as WU. pose proof (proj2 W _ L1) as WL. rewrite U2 in WU. rewrite L2 in WL. fold n in WU, WL.
  assert (pos < n)%nat as Hp.
  { destruct (Nat.leb_spec n pos); auto. exfalso. destruct (rows (s_domain st)); [destruct U1|discriminate]. }
  assert (pos <> n - 1)%nat as Hp' by (intros ->; lia).
  assert (nth pos lb 0 = - T) as LT.
  { rewrite forallb_forall in F. specialize (F pos). rewrite in_seq in F. specialize (F ltac:(lia)). apply Z.eqb_eq in F. lia. }
  assert (h = set_nth pos 0 lb) as Hs.
  { rewrite Hh. apply nth_ext with (d := 0) (d' := 0). { rewrite map_length, seq_length, set_nth_length. auto. }
    intros c Hc. rewrite map_length, seq_length in Hc. rewrite nth_map_seq by auto. rewrite nth_set_nth. rewrite WL.
    destruct (Nat.eqb_spec c pos) as [->|N]. destruct (Nat.ltb_spec pos n); auto; lia. auto. }
  assert (ub = set_nth (n - 1) (T - 1) (map Z.opp lb)) as Hu.
  { apply nth_ext with (d := 0) (d' := 0). { rewrite set_nth_length, map_length. lia. }
    intros c Hc. rewrite nth_set_nth, map_length, WL. rewrite WU in Hc. destruct (Nat.eqb_spec c (n - 1)) as [->|N].
    - destruct (Nat.ltb_spec (n - 1) n); [|lia]. lia.
    - change 0 with (- 0) at 2. rewrite List.map_nth. rewrite forallb_forall in F. specialize (F c). rewrite in_seq in F. specialize (F ltac:(lia)). apply Z.eqb_eq in F. auto. }
  split; [lia|]. split. { rewrite Hs, nth_set_nth, Nat.eqb_refl, WL. destruct (Nat.ltb_spec pos n); auto; lia. }
  intros i p M. destruct M as [ML M]. fold n in ML. set (x := i ++ p) in *.
  assert (0 <= aff ub x) as AU by (specialize (M _ U1); unfold holds in M; rewrite U2 in M; destruct (is_eq ru); lia).
  assert (0 <= aff lb x) as AL by (specialize (M _ L1); unfold holds in M; rewrite L2 in M; destruct (is_eq rl); lia).
  assert (aff h x = aff lb x + T * nth pos x 0) as E1.
  { rewrite Hs. unfold aff. rewrite dot_set_nth by (rewrite ?app_length; simpl; lia). rewrite LT. rewrite (app_nth1 x) by lia. lia. }
  assert (aff ub x = T - 1 - aff lb x) as E2.
  { rewrite Hu. unfold aff. rewrite dot_set_nth by (rewrite ?app_length, map_length; simpl; lia). rewrite dot_map_opp. rewrite (app_nth2 x) by lia.
    replace (n - 1 - length x)%nat with 0%nat by lia. cbn [nth]. change 0 with (- 0). rewrite List.map_nth. rewrite L4. lia. }
  rewrite E1. symmetry. rewrite Z.mul_comm, Z.div_add by lia. rewrite Z.div_small; lia.
Qed.
Print Assumptions C68_tile_loops.
Example C68_tile_loops_met :
  check_supernode (set_domain (stmt_of mv_prog 0) (mkCst 4 [ge [-32;1;0;0]; ge [32;-1;0;31]; ge [0;1;0;0]; ge [0;-1;0;99]])) 0 = Some (Some ([0;1;0;0], 32)) /\
  mem (mkCst 4 [ge [-32;1;0;0]; ge [32;-1;0;31]; ge [0;1;0;0]; ge [0;-1;0;99]]) [2; 70; 5].
Proof. split; [reflexivity|inset]. Qed.

(** A loop is selected only if the cost function accepts it, it is not recognised
    as a tile loop, and there is a loop inside of it. *)
Theorem C68_selected : forall f pr profit uj lp, exact_empty f -> wf_levels pr ->
  get_unroll_jam_loops profit (info f pr) = Some uj -> In lp uj ->
  profit (info f pr) lp = Some true /\
  check_supernode (stmt_of pr (hd 0%nat (l_stmts lp))) (l_depth lp) = Some None /\
  exists s k, In s (l_stmts lp) /\ (l_depth lp < k < length (p_hprops pr))%nat /\
    exists i, (i < s_dim (stmt_of pr s))%nat /\ nth i (nth k (mrows (s_trans (stmt_of pr s))) []) 0 <> 0.
Proof.
  intros f pr profit uj lp EX W G Hl. change (info f pr) with (computed f pr) in *.
  unfold get_unroll_jam_loops in G. destruct (get_innermost_permutable_bands (computed f pr) 1) as [bands|] eqn:B; [|discriminate].
  destruct (filter_loops_In _ _ _ _ G Hl) as [_ K]. unfold keep_unroll_jam, is_tile_space_loop in K. rewrite cq_stmt in K.
  destruct (check_supernode _ _) as [[x|]|]; cbn [option_map] in K; try discriminate.
  destruct (loop_is_innermost (computed f pr) lp) eqn:I; [discriminate|]. split; auto. split; auto.
  unfold loop_is_innermost in I. destruct (get_loops_under _ _ _) as [|l' ls] eqn:U; [discriminate|].
  assert (In l' (get_loops_under (computed f pr) (l_stmts lp) (S (l_depth lp)))) as L1 by (rewrite U; simpl; auto).
  unfold get_loops_under in L1. destruct (loops_under_basic _ _ _ _ _ L1) as (D1 & D2 & D3 & D4).
  destruct (l_stmts l') as [|s r] eqn:El; [congruence|]. exists s, (l_depth l'). destruct (D3 s) as [X1 X2]; [simpl; auto|]. split; [exact X1|].
  rewrite cq_hprops in D1. split; [lia|]. rewrite cq_stmt in X2.
  unfold is_hyperplane_loop, is_hyperplane_scalar in X2. apply Bool.negb_true_iff in X2.
  destruct (existsb (fun j => negb (nth j (nth (l_depth l') (mrows (s_trans (stmt_of pr s))) []) 0 =? 0)) (seq 0 (s_dim (stmt_of pr s)))) eqn:E.
  - apply existsb_exists in E as (i & Hi & N). apply in_seq in Hi. apply Bool.negb_true_iff, Z.eqb_neq in N. exists i. split; [lia|auto].
  - rewrite (proj2 (forallb_forall _ _)) in X2; [discriminate|]. intros j Hj. destruct (Z.eqb_spec (nth j (nth (l_depth l') (mrows (s_trans (stmt_of pr s))) []) 0) 0) as [N|N]; [apply Z.eqb_eq; exact N|].
    rewrite <- not_true_iff_false, existsb_exists in E. destruct E. exists j. split; auto. apply Bool.negb_true_iff, Z.eqb_neq. auto.
Qed.
Print Assumptions C68_selected.

(** The band of the outer two loops is taken for innermost although there is a
    third loop inside: for b, t, i: y[b][t][i] = y[b][t-1][1-i] + A[i].  Loop t is
    unrolled and jammed into loop i, so y[b][t][0] is computed before y[b][t-1][1]. *)
Definition rev_prog : prog := mkProg 3 0
  [mkStmt 3 3 [true;true;true] (mkCst 4 [ge [1;0;0;0]; ge [-1;0;0;1]; ge [0;1;0;0]; ge [0;-1;0;1]; ge [0;0;1;0]; ge [0;0;-1;1]])
     (mkMat 4 [[1;0;0;0];[0;1;0;0];[0;0;1;0]]) [H_LOOP;H_LOOP;H_LOOP] 0 0
     [mkMat 4 [[1;0;0;0];[0;1;0;-1];[0;0;-1;1]]; mkMat 4 [[0;0;1;0]]] [mkMat 4 [[1;0;0;0];[0;1;0;0];[0;0;1;0]]] None 0 (-1) (-1)]
  [ex_dep 0 0 false (mkCst 7 [eq [1;0;0;-1;0;0;0]; eq [0;1;0;0;-1;0;1]; eq [0;0;1;0;0;1;-1]; ge [1;0;0;0;0;0;0]; ge [-1;0;0;0;0;0;1];
     ge [0;1;0;0;0;0;0]; ge [0;-1;0;0;0;0;0]; ge [0;0;1;0;0;0;0]; ge [0;0;-1;0;0;0;1]])]
  [H_LOOP; H_LOOP; H_LOOP].
Lemma rev_wf : wf_levels rev_prog.
Proof.
  split; [|intros s Hs; destruct s as [|s]; [reflexivity|simpl in Hs; lia]]. split.
  - intros st [<-|[]]; (split; [|reflexivity]); repeat (split; [first [reflexivity|wf]|]); simpl; intuition (subst; first [wf|reflexivity]).
  - intros d [<-|[]]; (split; [simpl; lia|split; [simpl; lia|split; [wf|reflexivity]]]).
Qed.
Lemma rev_types s : (s < length (p_stmts rev_prog))%nat -> types_ok (stmt_of rev_prog s).
Proof.
  intros Hs k Hk. destruct s as [|s]; [|simpl in Hs; lia]. unfold mnrows in Hk. simpl in Hk. destruct k as [|[|[|k]]]; try lia; (split; [discriminate|]; intros H; exfalso).
  specialize (H 0%nat ltac:(simpl; lia)); simpl in H; lia. specialize (H 1%nat ltac:(simpl; lia)); simpl in H; lia. specialize (H 2%nat ltac:(simpl; lia)); simpl in H; lia.
Qed.
Lemma rev_leveled : leveled rev_prog.
Proof.
  intros d [<-|[]] _. exists 1%nat. split; [simpl; lia|]. split; [|intros j Hj]; intros s t p I; instance_cases;
    [|destruct j; [|lia]]; unfold distance, theta, aff; cbn -[Z.mul Z.add Z.sub]; lia.
Qed.
Theorem C68_unroll_jam_refuted : exists pr f ast names marks a m, exact_empty f /\ wf_levels pr /\
  (forall s, (s < length (p_stmts pr))%nat -> types_ok (stmt_of pr s)) /\ leveled pr /\
  mark_unroll_jam (is_unroll_jam_profitable names 8) (info f pr) ast = Some marks /\ In a marks /\
  last_loop pr (c_stmts a) m /\ ~ jam_safe pr (c_stmts a) (c_level a) m.
Proof.
  destruct C12_oracle_exists as [f F].
  exists rev_prog, (dec_empty f), [mkCodeLoop 0 [0%nat]; mkCodeLoop 1 [0%nat]; mkCodeLoop 2 [0%nat]], (fun _ => [0; 1; 0]%nat),
    [mkCodeLoop 1 [0%nat]; mkCodeLoop 0 [0%nat]], (mkCodeLoop 1 [0%nat]), 3%nat.
  split; [apply dec_empty_exact; auto|]. split; [exact rev_wf|]. split; [exact rev_types|]. split; [exact rev_leveled|].
  split; [vm_compute; reflexivity|]. split; [simpl; auto|]. split.
  { split; [exists 0%nat; simpl; repeat split; auto; lia|]. intros s j Hs Hj. simpl in Hj. lia. }
  intros J. specialize (J 8 (fun _ _ => 0) ltac:(lia) _ (or_introl eq_refl) eq_refl (or_introl eq_refl) (or_introl eq_refl) [0;0;1] [0;1;0] []).
  enough (lexlt (jammed_time 1 3 8 0 [0;0;1]) (jammed_time 1 3 8 0 [0;1;0])) as Q by (vm_compute in Q; intuition discriminate).
  apply J. split; [reflexivity|]. split; [reflexivity|]. split; [reflexivity|]. inset.
Qed.
Print Assumptions C68_unroll_jam_refuted.
