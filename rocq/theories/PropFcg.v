(** * The fusion conflict graph of the framework "dfp": theorems. *)
From Coq Require Import ZArith QArith List Bool Arith Lia Lqa.
From Verif Require Import SpecLinear SpecMatrix VecProofs MathModel ConstraintsModel SpecGraph GraphModel GraphProofs GraphProofs2 SpecProg SpecDriver SpecDfp
  FrameworkModel FrameworkProofs HypProofs ProgModel ProgProofs DriverModel DriverProofs AutoProofs DfpModel SpecFcg FcgModel FcgProofs FcgProofs2 FcgProofs3
  SolveOracles ExProg Checkers PropFramework PropAuto PropCone PropDfp.
Import ListNotations.
Open Scope Z_scope.

(** A solver for linear programs: Fourier-Motzkin elimination. *)
Definition rowb (r : row) : bool := let v := hd 0 (coef r) in if is_eq r then v =? 0 else 0 <=? v.
Definition fm_lp (c : cst) : bool := forallb rowb (rows (elim (ncols c - 1) 0 c)).
Lemma fm_lp_exact : exact_lp fm_lp.
Proof.
  intros c W. pose proof W as [W1 _]. destruct (elim_spec (ncols c - 1) 0 c [] W ltac:(lia) eq_refl) as ([E0 E1] & E2 & E3).
  transitivity (qmem (elim (ncols c - 1) 0 c) []).
  - unfold fm_lp, qmem. rewrite forallb_forall, E2. cbn [length]. split; [intros H; split; [reflexivity|]|intros [_ H]]; intros r Hr; specialize (H r Hr); specialize (E1 r Hr);
      unfold rowb, qholds, qaff in *; destruct r as [e [|v [|]]]; cbn [coef] in E1; rewrite E2 in E1; try discriminate E1; cbn [is_eq coef hd app qdot] in *.
    + destruct e; [apply Z.eqb_eq in H|apply Z.leb_le in H]; [subst; reflexivity|]. rewrite Zle_Qle in H. change (inject_Z 0) with 0%Q in H. lra.
    + destruct e; [apply Z.eqb_eq|apply Z.leb_le].
      * assert (inject_Z v == inject_Z 0)%Q as K by (change (inject_Z 0) with 0%Q; lra). apply (proj1 (inject_Z_injective _ _)) in K. exact K.
      * rewrite Zle_Qle. change (inject_Z 0) with 0%Q. lra.
  - rewrite E3. cbn [app]. split.
    + intros (x & _ & H). eauto.
    + intros (x & H). exists x. split; auto. destruct H as [H _]. lia.
Qed.

Lemma graph_wf pr : wf_prog pr -> wf_graph (length (p_stmts pr)) (graph_of pr).
Proof.
  intros W. apply ddg_create_count. intros dd Hd. apply in_map_iff in Hd as (d & <- & Hd). destruct (proj2 W d Hd) as (A & B & _). cbn. auto.
Qed.

(** ** C86.  What the edges of the graph mean.

    [s] is a state of the search: its program is well formed, of common size, with
    the loops of each statement first, and without empty dependences.  Vertex
    [vertex pr k j] stands for loop j of statement k. *)
Definition dfp_state (s : dstate) : Prop :=
  wf_prog (st_prog s) /\ padded (st_prog s) /\ orig_first (st_prog s) /\
  (forall d, In d (p_deps (st_prog s)) -> (exists x, qmem (d_poly d) x) /\ (exists x, qmem (d_bpoly d) x)).

(** A loop without a colour has no self edge exactly if running the statement by
    this loop, as it is, reverses no dependence of the statement on itself that is
    not satisfied yet, with bounded distances. *)
Theorem C86_self : forall feasible o s col c k j,
  exact_lp feasible -> dfp_state s -> within o (st_prog s) 1 -> is_loop (st_prog s) k j -> nth (vertex (st_prog s) k j) col 0 = 0 ->
  (adj (build_fcg feasible o s col c) (vertex (st_prog s) k j) (vertex (st_prog s) k j) = 0 <->
   exists u w, bound_ok (st_prog s) u w /\
     forall d, In d (p_deps (st_prog s)) -> counts o k k d -> ordered o (st_prog s) d (line 1 0 j) (line 1 0 j) u w).
Proof.
  intros feasible o s col c k j EX (W & PD & OF & NE) WI L C. rewrite build_entries by auto. unfold edge_cond. rewrite !Nat.eqb_refl.
  rewrite <- (self_edge feasible o s EX W PD OF NE j k col c WI L) by (unfold coloured; rewrite C; reflexivity).
  destruct (self_cond _ _ _ _ _ _ _); split; congruence.
Qed.
Print Assumptions C86_self.

(** Two loops, without colours, of two statements that depend on each other have no
    edge exactly if the first has no self edge and they can be scaled and
    shifted such that running the statements by them reverses no dependence among
    the two. *)
Theorem C86_pair : forall feasible o s col c k1 i k2 j,
  exact_lp feasible -> dfp_state s -> st_adj s = graph_of (st_prog s) ->
  is_loop (st_prog s) k1 i -> is_loop (st_prog s) k2 j -> (k1 < k2)%nat ->
  (edge (st_adj s) k1 k2 \/ edge (st_adj s) k2 k1) ->
  nth (vertex (st_prog s) k1 i) col 0 = 0 -> nth (vertex (st_prog s) k2 j) col 0 = 0 ->
  let g := build_fcg feasible o s col c in
  (adj g (vertex (st_prog s) k1 i) (vertex (st_prog s) k2 j) = 0 <->
   adj g (vertex (st_prog s) k1 i) (vertex (st_prog s) k1 i) = 0 /\
   exists a1 c1 a2 c2 u w,
     (1 <= a1)%Q /\ within o (st_prog s) a1 /\ (0 <= c1)%Q /\ within o (st_prog s) c1 /\
     (1 <= a2)%Q /\ within o (st_prog s) a2 /\ (0 <= c2)%Q /\ within o (st_prog s) c2 /\ bound_ok (st_prog s) u w /\
     let time k := if (k =? k1)%nat then line a1 c1 i else line a2 c2 j in
     forall d, In d (p_deps (st_prog s)) -> counts o k1 k2 d -> ordered o (st_prog s) d (time (d_src d)) (time (d_dst d)) u w).
Proof.
  intros feasible o s col c k1 i k2 j EX (W & PD & OF & NE) EA L1 L2 LT AD C1 C2 g. unfold g. rewrite !build_entries by auto.
  unfold edge_cond. rewrite !Nat.eqb_refl, (proj2 (Nat.eqb_neq k1 k2)), (proj2 (Nat.ltb_lt k1 k2)) by lia.
  rewrite <- (pair_edge feasible o s EX W PD OF NE k1 i k2 j L1 L2) by lia.
  assert (is_adjacent (st_adj s) k1 k2 = true) as A.
  { unfold is_adjacent. rewrite orb_true_iff, !negb_true_iff, !Z.eqb_neq. exact AD. }
  assert (must_distribute_pair s k1 k2 = false) as M.
  { unfold must_distribute_pair. rewrite adjacent_closure; [reflexivity|apply graph_wf; auto|rewrite <- EA; auto]. }
  rewrite A, M, andb_false_r, orb_false_r. unfold coloured. rewrite C1, C2. cbn [negb andb Z.eqb].
  destruct (self_cond _ _ _ _ _ _ _), (feasible _); cbn; intuition congruence.
Qed.
Print Assumptions C86_pair.

(** The other edges: all pairs of loops of a statement; edges between statements
    go from the earlier to the later one; with the first colour, an edge joins
    all loops of two statements without a path between them in the transitive
    closure the code computes, unless a scalar level separates them; two
    statements that are not adjacent in the dependence graph have no other edges.
    No entry of the graph is anything else. *)
Theorem C86_rest : forall feasible o s col c k1 i k2 j,
  is_loop (st_prog s) k1 i -> is_loop (st_prog s) k2 j ->
  let e := adj (build_fcg feasible o s col c) (vertex (st_prog s) k1 i) (vertex (st_prog s) k2 j) in
  (e = 0 \/ e = 1) /\
  (k1 = k2 -> i <> j -> e = 1) /\ ((k2 < k1)%nat -> e = 0) /\
  ((k1 < k2)%nat -> ~ edge (st_adj s) k1 k2 -> ~ edge (st_adj s) k2 k1 ->
     (e = 1 <-> c = 1%nat /\ are_sccs_fused s (s_scc (stmt_of (st_prog s) k1)) (s_scc (stmt_of (st_prog s) k2)) = true /\
              let h := compute_transitive_closure (length (p_stmts (st_prog s))) (graph_of (st_prog s)) in ~ edge h k1 k2 /\ ~ edge h k2 k1)).
Proof.
  intros feasible o s col c k1 i k2 j L1 L2 e. unfold e. rewrite build_entries by auto. split; [destruct (edge_cond _ _ _ _ _ _ _ _ _); auto|].
  unfold edge_cond. split; [|split].
  - intros -> N. rewrite Nat.eqb_refl, (proj2 (Nat.eqb_neq i j)) by auto. reflexivity.
  - intros L. rewrite (proj2 (Nat.eqb_neq k1 k2)), (proj2 (Nat.ltb_ge k1 k2)) by lia. reflexivity.
  - intros L N1 N2. rewrite (proj2 (Nat.eqb_neq k1 k2)), (proj2 (Nat.ltb_lt k1 k2)) by lia. cbn [andb].
    assert (is_adjacent (st_adj s) k1 k2 = false) as ->.
    { apply not_true_is_false. unfold is_adjacent. rewrite orb_true_iff, !negb_true_iff, !Z.eqb_neq. unfold edge in *. tauto. }
    cbn [andb orb]. unfold must_distribute_pair.
    match goal with |- (if ?b then 1 else 0) = 1 <-> _ => transitivity (b = true); [destruct b; split; congruence|] end.
    rewrite !andb_true_iff, Nat.eqb_eq, negb_true_iff. cbv zeta.
    assert (forall h, is_adjacent h k1 k2 = false <-> ~ edge h k1 k2 /\ ~ edge h k2 k1) as K.
    { intros h. unfold is_adjacent, edge. rewrite orb_false_iff, !negb_false_iff, !Z.eqb_eq. lia. }
    rewrite K. tauto.
Qed.
Print Assumptions C86_rest.

(** The graph of the example of PropDfp.v: S0(i,j) depends on S0(i-1,j) and
    S0(i,j-1), S1(i,j) on S0(i,j+1): the same loops of the two can be fused. *)
Lemma start_dfp_state pr : input_ok pr -> (forall d, In d (p_deps (st_prog (dfp_start pr))) -> exists x y, memb (d_poly d) x = true /\ memb (d_bpoly d) y = true) ->
  dfp_state (dfp_start pr).
Proof.
  intros IN H. destruct (start_inv pr IN) as [I _]. split; [apply (i_wf _ _ I)|]. split; [apply (i_pad _ _ I)|]. split; [apply (i_orig _ _ I)|].
  intros d Hd. destruct (H d Hd) as (x & y & A & B). split; [exists (zpoint x)|exists (zpoint y)]; apply qmem_of_mem, memb_ok; auto.
Qed.
Example C86_met : exact_lp fm_lp /\ dfp_state (dfp_start d_prog) /\ within ex_opts (st_prog (dfp_start d_prog)) 1 /\
  edge (st_adj (dfp_start d_prog)) 0 1 /\ st_adj (dfp_start d_prog) = graph_of (st_prog (dfp_start d_prog)) /\
  build_fcg fm_lp ex_opts (dfp_start d_prog) [0;0;0;0] 1 = [[0;1;0;1]; [1;0;1;0]; [0;0;0;1]; [0;0;1;0]].
Proof.
  split; [exact fm_lp_exact|]. split; [apply start_dfp_state; [exact d_prog_ok|]|].
  - intros d Hd. vm_compute in Hd. destruct Hd as [<-|[<-|[<-|[]]]]; [exists [0;1;1;1;3], [0;1;1;1;3]|exists [0;1;0;2;3], [0;1;0;2;3]|exists [0;1;0;0;3], [0;1;0;0;3]]; split; vm_compute; reflexivity.
  - split; [vm_compute; discriminate|]. split; [unfold edge; vm_compute; discriminate|]. split; vm_compute; reflexivity.
Qed.

(** Loops that are pairwise free of conflicts need not fit together: three
    statements with S1(2i), S2(2j) and S2(i) depending on S0(i), S1(j) and S0(i).  The
    graph has no edges and all three loops get the same colour, but no scaling and
    shifting of them is legal, so for every solver the framework gives up
    (assertion in lib/framework-dfp.c:2797). *)
Definition j_dom : cst := mkCst 3 [ge [1;1;0]; ge [-1;1;0]].
Definition j_stmt : stmt := mkStmt 1 1 [true] j_dom (mkMat 3 [[1;0;0]]) [H_LOOP] 0 0 [] [] None 0 (-1) (-1).
Definition j_dep (k : Z) : cst := mkCst 4 [eq [-k;1;0;0]; ge [1;0;1;0]; ge [-1;0;1;0]; ge [0;1;1;0]; ge [0;-1;1;0]].
Definition j_prog : prog := mkProg 1 1 (repeat j_stmt 3) [ex_dep 0 1 false (j_dep 2); ex_dep 1 2 false (j_dep 2); ex_dep 0 2 false (j_dep 1)] [H_LOOP].
Lemma j_prog_ok : input_ok j_prog.
Proof.
  assert (forall st, In st (repeat j_stmt 3) -> st = j_stmt) as R by (intros st Hs; apply repeat_spec in Hs; auto).
  split; [split|].
  - intros st Hs. cbn [p_stmts j_prog] in Hs. rewrite (R st Hs). repeat (split; [first [reflexivity|wf]|]). simpl. intros a [].
  - intros d Hd. simpl in Hd. destruct Hd as [<-|[<-|[<-|[]]]]; (split; [simpl; lia|]; split; [simpl; lia|]; split; [wf|]; split; [reflexivity|]; split; [wf|reflexivity]).
  - intros st Hs. cbn [p_stmts j_prog] in Hs. rewrite (R st Hs). split; [reflexivity|split; [simpl; lia|reflexivity]].
Qed.
Theorem C86_joint_refuted : input_ok j_prog /\ exact_lp fm_lp /\ exists f, exact_empty f /\
  build_fcg fm_lp ex_opts (dfp_start j_prog) [0;0;0] 1 = [[0;0;0]; [0;0;0]; [0;0;0]] /\
  forall solve, solver_sound solve ->
    dfp_transform f solve (build_fcg fm_lp ex_opts) (update_fcg MaxFuse) no_skip ex_opts MaxFuse false j_prog = None.
Proof.
  split; [exact j_prog_ok|]. split; [exact fm_lp_exact|]. destruct C12_oracle_exists as [f F]. exists (dfs_empty f). split; [apply dfs_empty_exact; auto|].
  split; [vm_compute; reflexivity|]. intros solve SOL.
  unfold dfp_transform, dfp_search. set (s1 := dfp_start j_prog).
  assert (seq 1 (p_nvar (st_prog s1)) = [1%nat]) as -> by (vm_compute; reflexivity). cbn [dfp_levels].
  set (cs0 := mkC s1 _ _ false). unfold dfp_level.
  assert (colour_fcg (dfs_empty f) (build_fcg fm_lp ex_opts) (update_fcg MaxFuse) no_skip MaxFuse 1%nat cs0 =
    Some (mkC s1 [1;1;1] [[0;0;0]; [0;0;0]; [0;0;0]] false)) as -> by (vm_compute; reflexivity).
  unfold scale_shift. cbn [c_state c_col].
  set (c := cst_add _ _). destruct (prog_constraints_lexmin solve (st_prog s1) c) as [sol|] eqn:E; [exfalso|reflexivity].
  assert (orig_first (st_prog s1)) as OF by (destruct (start_inv j_prog j_prog_ok) as [I _]; apply (i_orig _ _ I)).
  assert (wf_cst c /\ ncols c = cst_width (st_prog s1) /\ rows c <> [] /\ fm_lp c = false) as (Wc & Nc & Rc & Lc).
  { split; [|split; [vm_compute; reflexivity|split; [vm_compute; discriminate|vm_compute; reflexivity]]]. split; [vm_compute; lia|]. intros r Hr. vm_compute in Hr. intuition (subst; reflexivity). }
  clearbody c. clear cs0. clearbody s1.
  apply (lexmin_sound (st_prog s1) (orig_first_wf _ OF)) in E as [M _]; auto; [|intros st Hst; apply (orig_first_mask _ st OF Hst)].
  assert (fm_lp c = true) as X; [|congruence]. apply fm_lp_exact; auto. exists (zpoint sol). apply qmem_of_mem. auto.
Qed.
Print Assumptions C86_joint_refuted.

(** ** C87.  The update of the graph after statements were distributed.

    With a fusion other than nofuse: the entries between statements with SCC
    numbers below [scc2] and statements with other SCC numbers are cleared, all
    others stay. *)
Theorem C87_update_partial : forall fuse s g scc1 scc2, fuse <> NoFuse -> wf_graph (num_vertices (st_prog s)) g ->
  exists g', update_fcg fuse s g scc1 scc2 = Some g' /\ wf_graph (num_vertices (st_prog s)) g' /\
  forall s1 i s2 j, is_loop (st_prog s) s1 i -> is_loop (st_prog s) s2 j ->
    let separated := (s_scc (stmt_of (st_prog s) s1) < Z.of_nat scc2 <= s_scc (stmt_of (st_prog s) s2)) \/
                     (s_scc (stmt_of (st_prog s) s2) < Z.of_nat scc2 <= s_scc (stmt_of (st_prog s) s1)) in
    (separated -> adj g' (vertex (st_prog s) s1 i) (vertex (st_prog s) s2 j) = 0) /\
    (~ separated -> adj g' (vertex (st_prog s) s1 i) (vertex (st_prog s) s2 j) = adj g (vertex (st_prog s) s1 i) (vertex (st_prog s) s2 j)).
Proof.
  intros fuse s g scc1 scc2 NF W. destruct (update_some fuse s g scc1 scc2 NF W) as (g' & E & W' & A). exists g'. split; auto. split; auto.
  intros s1 i s2 j L1 L2 separated. rewrite A by auto.
  destruct (apart _ _ _) eqn:P; unfold apart in P; [apply orb_true_iff in P|apply orb_false_iff in P]; rewrite ?andb_true_iff, ?andb_false_iff, ?Z.leb_le, ?Z.ltb_lt, ?Z.leb_gt, ?Z.ltb_ge in P.
  - split; auto. intros N. exfalso. apply N. unfold separated. lia.
  - split; auto. unfold separated. intros S. lia.
Qed.
Print Assumptions C87_update_partial.
Definition n_prog : prog := mkProg 2 1 (repeat dfp_stmt 2) [] [H_LOOP;H_LOOP].
Example C87_met : input_ok n_prog /\
  build_fcg fm_lp ex_opts (dfp_start n_prog) [0;0;0;0] 1 = [[0;1;1;1]; [1;0;1;1]; [0;0;0;1]; [0;0;1;0]] /\
  update_fcg MaxFuse (dfp_start n_prog) [[0;1;1;1]; [1;0;1;1]; [0;0;0;1]; [0;0;1;0]] 0 1 = Some [[0;1;0;0]; [1;0;0;0]; [0;0;0;1]; [0;0;1;0]].
Proof. split; [apply uni_ok; intros d []|]. split; vm_compute; reflexivity. Qed.

(** With nofuse the offset of the later statement is used for both.  Edges between
    its own loops are erased, those to other statements stay; and the matrix is
    written out of bounds if the last statement has fewer loops than another one.
    The states are those in which the framework starts colouring. *)
Definition short_dom : cst := mkCst 3 [ge [1;0;0]; ge [-1;1;-1]].
Definition short_stmt : stmt := mkStmt 1 1 [true] short_dom (mkMat 3 [[1;0;0]]) [H_LOOP] 0 0 [] [] None 0 (-1) (-1).
Definition short_prog : prog := mkProg 2 1 [dfp_stmt; short_stmt] [] [H_LOOP;H_LOOP].
Definition nofuse_start (f : cst -> bool) (pr : prog) : dstate := fst (cut_all_sccs f (compute_scc (dfp_start pr))).
Theorem C87_nofuse_refuted : exists f, exact_empty f /\
  (exists g g', wf_graph (num_vertices (st_prog (nofuse_start f n_prog))) g /\ adj g 0 2 = 1 /\
     update_fcg NoFuse (nofuse_start f n_prog) g 0 0 = Some g' /\ adj g' 0 2 = 1 /\
     adj (build_fcg fm_lp ex_opts (nofuse_start f n_prog) [0;0;0;0] 1) 2 3 = 1 /\ adj g 2 3 = 1 /\ adj g' 2 3 = 0) /\
  (forall g, update_fcg NoFuse (nofuse_start f short_prog) g 0 0 = None).
Proof.
  destruct C12_oracle_exists as [f F]. exists (dfs_empty f). split; [apply dfs_empty_exact; auto|]. split.
  - exists [[0;1;1;1]; [1;0;1;1]; [0;0;0;1]; [0;0;1;0]], [[0;1;1;1]; [1;0;1;1]; [0;0;0;0]; [0;0;0;0]].
    split; [split; [vm_compute; reflexivity|intros r Hr; vm_compute; simpl in Hr; intuition (subst; reflexivity)]|]. repeat split; vm_compute; reflexivity.
  - intros g. vm_compute. reflexivity.
Qed.
Print Assumptions C87_nofuse_refuted.

(** The update requires that the graph is not marked for rebuilding
    (lib/framework-dfp.c:914), but after the first level it always is, and edges of
    the old graph then still distribute statements whose dependences are all
    satisfied: S1(i,j) depends on S0(k,i) for all k < j.  The dependence is
    satisfied at the first level; at the second one the assertion fails. *)
Definition tr_dep : cst := mkCst 6 [eq [0;-1;1;0;0;0]; ge [-1;0;0;1;0;-1]; ge [1;0;0;0;0;0]; ge [0;1;0;0;0;0]; ge [0;-1;0;0;1;-1]; ge [0;0;0;-1;1;-1]].
Definition tr_prog : prog := mkProg 2 1 (repeat dfp_stmt 2) [ex_dep 0 1 false tr_dep] [H_LOOP;H_LOOP].
Definition tr_solve := first_of [[1;0;0;1;0;1;0;0]; [0;0;1;0;0;0;1;0]].
Definition tr_start : cstate := mkC (dfp_start tr_prog) [0;0;0;0] (build_fcg fm_lp ex_opts (dfp_start tr_prog) [0;0;0;0] 1) false.
Theorem C87_rebuild_refuted : input_ok tr_prog /\ solver_sound tr_solve /\ exact_lp fm_lp /\ exists f cs1, exact_empty f /\
  dfp_level f tr_solve (build_fcg fm_lp ex_opts) (update_fcg MaxFuse) no_skip ex_opts MaxFuse false 1 tr_start = Some cs1 /\
  (forall d, In d (p_deps (st_prog (c_state cs1))) -> d_sat d = true) /\
  c_rebuild cs1 = true /\ must_distribute (c_state cs1) (c_fcg cs1) 1 = true /\
  dfp_transform f tr_solve (build_fcg fm_lp ex_opts) (update_fcg MaxFuse) no_skip ex_opts MaxFuse false tr_prog = None.
Proof.
  split; [apply uni_ok; intros d Hd; simpl in Hd; intuition (subst; first [simpl; lia|reflexivity|wf])|]. split; [apply first_of_sound|]. split; [exact fm_lp_exact|].
  destruct C12_oracle_exists as [f F]. exists (dfs_empty f).
  destruct (dfp_level (dfs_empty f) tr_solve (build_fcg fm_lp ex_opts) (update_fcg MaxFuse) no_skip ex_opts MaxFuse false 1 tr_start) as [cs1|] eqn:E; [|vm_compute in E; discriminate].
  vm_compute in E. injection E as <-. eexists. split; [apply dfs_empty_exact; auto|]. split; [reflexivity|]. split.
  - intros d Hd. simpl in Hd. destruct Hd as [<-|[]]. reflexivity.
  - split; [reflexivity|]. split; vm_compute; reflexivity.
Qed.
Print Assumptions C87_rebuild_refuted.
