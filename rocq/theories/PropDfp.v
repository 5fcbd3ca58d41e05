(** * The framework "decoupled fusion and permutation" (option dfp): theorems. *)
From Coq Require Import ZArith List Bool Arith Lia.
From Verif Require Import SpecLinear SpecMatrix VecProofs MathModel ConstraintsModel SpecGraph GraphModel SpecProg SpecDriver SpecDfp
  FrameworkModel ProgModel DriverModel DriverProofs PadProofs AutoProofs DfpModel DfpProofs DfpProofs2 DfpProofs3 DfpProofs4 FrameworkProofs DepProofs ProgProofs HypProofs GrowProofs MatrixProofs
  ExProg Checkers PropFramework PropAuto PropCone.
Import ListNotations.
Open Scope Z_scope.

(** Statements with loops i, j in 0..N-1 and uniform dependences between them. *)
Definition dfp_dom : cst := mkCst 4 [ge [1;0;0;0]; ge [-1;0;1;-1]; ge [0;1;0;0]; ge [0;-1;1;-1]].
Definition dfp_stmt : stmt := mkStmt 2 2 [true;true] dfp_dom (mkMat 4 [[1;0;0;0]; [0;1;0;0]]) [H_LOOP;H_LOOP] 0 0 [] [] None 0 (-1) (-1).
Definition uni_dep (di dj : Z) : cst := mkCst 6 [eq [-1;0;1;0;0;-di]; eq [0;-1;0;1;0;-dj]; ge [1;0;0;0;0;0]; ge [-1;0;0;0;1;-1]; ge [0;1;0;0;0;0]; ge [0;-1;0;0;1;-1];
  ge [0;0;1;0;0;0]; ge [0;0;-1;0;1;-1]; ge [0;0;0;1;0;0]; ge [0;0;0;-1;1;-1]].
Definition first_of (l : list point) (_ : prog) (c : cst) : option point := find (memb c) l.
Lemma first_of_sound l : solver_sound (first_of l).
Proof. intros pr c x _ H. apply find_some in H as [_ H]. apply memb_ok. auto. Qed.
Definition same_graph (s : dstate) (g : fcg) (a b : nat) : option fcg := Some g.
Definition no_skip (_ : dstate) (_ _ : nat) : bool := false.
Definition schedules (r : prog * bool) : list (list (list Z)) * bool := (map (fun s => mrows (s_trans s)) (p_stmts (fst r)), snd r).

Lemma uni_wf a b : wf_cst (uni_dep a b).
Proof. split; [simpl; lia|]. intros r H. simpl in H. intuition (subst; reflexivity). Qed.
Lemma uni_ok n deps : (forall d, In d deps -> (d_src d < n)%nat /\ (d_dst d < n)%nat /\ wf_cst (d_poly d) /\ ncols (d_poly d) = 6%nat /\ wf_cst (d_bpoly d) /\ ncols (d_bpoly d) = 6%nat) ->
  input_ok (mkProg 2 1 (repeat dfp_stmt n) deps [H_LOOP; H_LOOP]).
Proof.
  intros H. assert (forall st, In st (repeat dfp_stmt n) -> st = dfp_stmt) as R by (intros st Hs; apply repeat_spec in Hs; auto).
  assert (forall k, (k < n)%nat -> stmt_of (mkProg 2 1 (repeat dfp_stmt n) deps [H_LOOP; H_LOOP]) k = dfp_stmt) as Rk.
  { intros k Hk. unfold stmt_of. cbn [p_stmts]. apply R. apply nth_In. rewrite repeat_length. auto. }
  split; [split|].
  - intros st Hs. cbn [p_stmts] in Hs. rewrite (R st Hs). repeat (split; [first [reflexivity|wf]|]). simpl. intros a [].
  - intros d Hd. destruct (H d Hd) as (A & B & C & D & E & F). unfold wf_dep. cbn [p_stmts p_npar]. rewrite !Rk, repeat_length by auto. cbn [dfp_stmt s_dim]. split; [auto|]. split; [auto|]. split; [auto|]. split; [exact D|]. split; [auto|congruence].
  - intros st Hs. cbn [p_stmts] in Hs. rewrite (R st Hs). split; [reflexivity|split; [simpl; lia|reflexivity]].
Qed.

(** ** C83.  What the framework guarantees about the order of dependent instances.

    Whatever fusion conflict graphs are built ([build], [refresh]) and whatever
    dimensions the solution of a linear program excludes ([skip]): if no skewing
    was introduced ([false]), the result is the same program, all statements have
    times with one component per level, and the target of a dependence instance
    never runs before its source.  It runs strictly later, or at the same time;
    the latter only if the target's statement leads back to the source's. *)
Theorem C83_order_partial : forall is_emptyb solve build refresh skip o fuse delayed_cut pr pr',
  exact_empty is_emptyb -> solver_sound solve -> input_ok pr -> p_stmts pr <> [] ->
  dfp_transform is_emptyb solve build refresh skip o fuse delayed_cut pr = Some (pr', false) ->
  same_program pr pr' /\
  (forall s i p, (s < length (p_stmts pr))%nat -> length i = s_dim (stmt_of pr s) -> length p = p_npar pr ->
     length (timestamp (stmt_of pr' s) i p) = length (p_hprops pr')) /\
  (forall d, In d (p_deps pr) -> d_rar d = false -> forall s t p, instance pr d s t p ->
     lexlt (timestamp (stmt_of pr' (d_src d)) s p) (timestamp (stmt_of pr' (d_dst d)) t p) \/
     (timestamp (stmt_of pr' (d_src d)) s p = timestamp (stmt_of pr' (d_dst d)) t p /\ depends pr (d_dst d) (d_src d))).
Proof. intros is_emptyb solve build refresh skip o fuse dc pr pr' EX SOL IN NE H. destruct (dfp_success is_emptyb solve build refresh skip o fuse dc EX SOL pr pr' IN NE H) as (A & B & C & _). auto. Qed.
Print Assumptions C83_order_partial.

(** The result is legal if dependence cycles do not connect different statements. *)
Theorem C83_legal : forall is_emptyb solve build refresh skip o fuse delayed_cut pr pr',
  exact_empty is_emptyb -> solver_sound solve -> input_ok pr -> p_stmts pr <> [] ->
  (forall u v, depends pr u v -> depends pr v u -> v = u) ->
  (forall d s t p, In d (p_deps pr) -> d_rar d = false -> d_src d = d_dst d -> instance pr d s t p -> s <> t) ->
  dfp_transform is_emptyb solve build refresh skip o fuse delayed_cut pr = Some (pr', false) ->
  forall d, In d (p_deps pr) -> d_rar d = false -> forall s t p, instance pr d s t p ->
    lexlt (timestamp (stmt_of pr' (d_src d)) s p) (timestamp (stmt_of pr' (d_dst d)) t p).
Proof.
  intros is_emptyb solve build refresh skip o fuse dc pr pr' EX SOL IN NE CY SD H d Hd Hr s t p Inst.
  destruct (dfp_success is_emptyb solve build refresh skip o fuse dc EX SOL pr pr' IN NE H) as (_ & _ & C & D).
  destruct (C d Hd Hr s t p Inst) as [L|[E B]]; [auto|exfalso].
  assert (d_src d = d_dst d) as Es.
  { symmetry. apply CY; [|exact B]. apply depends_step with (d := d); auto. constructor. }
  apply (SD d s t p Hd Hr Es Inst). destruct (input_deps pr IN d Hd) as [D1 _]. destruct Inst as (L1 & L2 & L3 & _). rewrite <- Es in L2, E.
  apply (D (fun u v _ _ _ A B => CY u v A B) (d_src d) s t p D1 L1 L2 L3 E).
Qed.
Print Assumptions C83_legal.

(** S0(i,j) depends on S0(i-1,j) and S0(i,j-1), S1(i,j) on S0(i,j+1). *)
Definition d_prog : prog := mkProg 2 1 (repeat dfp_stmt 2)
  [ex_dep 0 0 false (uni_dep 1 0); ex_dep 0 0 false (uni_dep 0 1); ex_dep 0 1 false (uni_dep 0 (-1))] [H_LOOP; H_LOOP].
Definition d_solve := first_of [[0;1;0;1;0;0;1;0]; [0;1;1;0;0;1;0;1]].
Definition d_fcg (_ : dstate) (_ : list Z) (_ : nat) : fcg := [[0;0;0;1]; [0;0;1;0]; [0;1;0;0]; [1;0;0;0]].
Lemma d_prog_ok : input_ok d_prog.
Proof. apply uni_ok. intros d H. simpl in H. intuition (subst; first [simpl; lia|apply uni_wf|reflexivity]). Qed.
Lemma d_prog_acyclic u v : depends d_prog u v -> depends d_prog v u -> v = u.
Proof.
  assert (forall u v, depends d_prog u v -> u = v \/ (u = 0%nat /\ v = 1%nat)) as K.
  { intros a b H. induction H as [a|d w Hd _ _ IH]; [auto|]. simpl in Hd. destruct Hd as [<-|[<-|[<-|[]]]]; simpl in *; intuition lia. }
  intros A B. apply K in A. apply K in B. lia.
Qed.
Example C83_met : input_ok d_prog /\ solver_sound d_solve /\ (forall u v, depends d_prog u v -> depends d_prog v u -> v = u) /\
  (forall d s t p, In d (p_deps d_prog) -> d_rar d = false -> d_src d = d_dst d -> instance d_prog d s t p -> s <> t) /\
  exists f, exact_empty f /\
  option_map schedules (dfp_transform f d_solve d_fcg same_graph no_skip ex_opts MaxFuse false d_prog) =
    Some ([[[1;0;0;0]; [0;1;0;0]; [0;0;0;0]]; [[1;0;0;0]; [0;1;0;1]; [0;0;0;1]]], false).
Proof.
  split; [exact d_prog_ok|]. split; [apply first_of_sound|]. split; [exact d_prog_acyclic|]. split.
  - intros d s t p Hd _ _ (L1 & L2 & L3 & M) ->. simpl in Hd.
    assert (forall a b, mem (uni_dep a b) (t ++ t ++ p) -> a = 0 /\ b = 0) as K.
    { intros a b [_ H]. destruct t as [|x [|y [|]]]; try (destruct Hd as [<-|[<-|[<-|[]]]]; discriminate).
      destruct p as [|q [|]]; try discriminate. pose proof (H _ (or_introl eq_refl)) as H1. pose proof (H _ (or_intror (or_introl eq_refl))) as H2. unfold holds, aff in H1, H2. cbn [is_eq coef app dot eq ExProg.eq] in H1, H2. lia. }
    destruct Hd as [<-|[<-|[<-|[]]]]; apply K in M; lia.
  - destruct C12_oracle_exists as [f F]. exists (dfs_empty f). split; [apply dfs_empty_exact; auto|]. vm_compute. reflexivity.
Qed.

(** Two statements that depend on each other can end up with the same times, in
    which case nothing orders them, and no failure is reported: S1(i,j) reads
    what S0(i,j) writes, and S0(i,j) reads what all S1(i',j') with i' <= i, j' <= j
    and (i',j') <> (i,j) write. *)
Definition cy_dep : cst := mkCst 6 [ge [-1;0;1;0;0;0]; ge [0;-1;0;1;0;0]; ge [-1;-1;1;1;0;-1]; ge [1;0;0;0;0;0]; ge [0;1;0;0;0;0]; ge [0;0;-1;0;1;-1]; ge [0;0;0;-1;1;-1]].
Definition cy_prog : prog := mkProg 2 1 (repeat dfp_stmt 2) [ex_dep 0 1 false (uni_dep 0 0); ex_dep 1 0 false cy_dep] [H_LOOP; H_LOOP].
Definition cy_solve := first_of [[1;0;1;0;0;1;0;0]; [1;0;0;1;0;0;1;0]].
Definition no_edges (s : dstate) (_ : list Z) (_ : nat) : fcg := let n := num_vertices (st_prog s) in repeat (repeat 0 n) n.
Lemma cy_prog_ok : input_ok cy_prog.
Proof. apply uni_ok. intros d H. simpl in H. intuition (subst; first [simpl; lia|apply uni_wf|reflexivity|wf]). Qed.
Theorem C83_refuted : input_ok cy_prog /\ p_stmts cy_prog <> [] /\ solver_sound cy_solve /\
  exists f pr' d s t p, exact_empty f /\
  dfp_transform f cy_solve no_edges same_graph no_skip ex_opts MaxFuse false cy_prog = Some (pr', false) /\
  In d (p_deps cy_prog) /\ d_rar d = false /\ instance cy_prog d s t p /\ d_src d <> d_dst d /\
  timestamp (stmt_of pr' (d_src d)) s p = timestamp (stmt_of pr' (d_dst d)) t p.
Proof.
  split; [exact cy_prog_ok|]. split; [discriminate|]. split; [apply first_of_sound|].
  destruct C12_oracle_exists as [f F]. exists (dfs_empty f).
  destruct (dfp_transform (dfs_empty f) cy_solve no_edges same_graph no_skip ex_opts MaxFuse false cy_prog) as [[pr' b]|] eqn:E; [|vm_compute in E; discriminate].
  vm_compute in E. injection E as <- <-.
  eexists. exists (ex_dep 0 1 false (uni_dep 0 0)), [1;2], [1;2], [3]. split; [apply dfs_empty_exact; auto|]. split; [reflexivity|].
  split; [left; reflexivity|]. split; [reflexivity|]. split; [|split; [discriminate|reflexivity]].
  split; [reflexivity|]. split; [reflexivity|]. split; [reflexivity|]. apply memb_ok. reflexivity.
Qed.
Print Assumptions C83_refuted.

(** ** C84.  Dimensions and conflicts.

    Different instances of a statement get different times (if no skewing was
    introduced). *)
Theorem C84_one_to_one_partial : forall is_emptyb solve build refresh skip o fuse delayed_cut pr pr',
  exact_empty is_emptyb -> solver_sound solve -> input_ok pr -> p_stmts pr <> [] -> lone_scalars pr ->
  dfp_transform is_emptyb solve build refresh skip o fuse delayed_cut pr = Some (pr', false) ->
  forall s i j p, (s < length (p_stmts pr))%nat -> length i = s_dim (stmt_of pr s) -> length j = s_dim (stmt_of pr s) -> length p = p_npar pr ->
    timestamp (stmt_of pr' s) i p = timestamp (stmt_of pr' s) j p -> i = j.
Proof. intros is_emptyb solve build refresh skip o fuse dc pr pr' EX SOL IN NE LS H. destruct (dfp_success is_emptyb solve build refresh skip o fuse dc EX SOL pr pr' IN NE H) as (_ & _ & _ & D). exact (D LS). Qed.
Print Assumptions C84_one_to_one_partial.
Example C84_one_to_one_met : input_ok cy_prog /\ lone_scalars cy_prog /\ solver_sound cy_solve /\ exists f, exact_empty f /\
  option_map schedules (dfp_transform f cy_solve no_edges same_graph no_skip ex_opts MaxFuse false cy_prog) =
    Some ([[[1;0;0;0]; [0;1;0;0]]; [[1;0;0;0]; [0;1;0;0]]], false).
Proof.
  split; [exact cy_prog_ok|]. split; [|split; [apply first_of_sound|]].
  - intros u v Hu _ D. exfalso. simpl in Hu. destruct u as [|[|u]]; [discriminate D|discriminate D|lia].
  - destruct C12_oracle_exists as [f F]. exists (dfs_empty f). split; [apply dfs_empty_exact; auto|]. vm_compute. reflexivity.
Qed.

(** If the statements of component [i] get a dimension for level [c], each of them
    gets one of its own that is usable ([no self edge]), no two of these are in
    conflict, and none is in conflict with a dimension that another component has
    at this level. *)
Theorem C84_no_conflicts : forall is_emptyb skip fuse c i cs cs',
  (1 <= c)%nat -> Z.of_nat c <= nth i (st_max (c_state cs)) 0 ->
  (forall u, In u (scc_stmts (c_state cs) i) -> (1 <= s_dim_orig (stmt_of (st_prog (c_state cs)) u))%nat) ->
  colour_scc is_emptyb skip fuse c i cs = Some (true, cs') ->
  exists f : nat -> nat,
    (forall u, In u (scc_stmts (c_state cs) i) ->
       (vertex_offset (st_prog (c_state cs)) u <= f u < vertex_offset (st_prog (c_state cs)) u + s_dim_orig (stmt_of (st_prog (c_state cs)) u))%nat /\
       nth (f u) (c_col cs') 0 = Z.of_nat c /\ nth (f u) (nth (f u) (c_fcg cs) []) 0 = 0) /\
    (forall u w, In u (scc_stmts (c_state cs) i) -> In w (scc_stmts (c_state cs) i) -> w <> u -> ~ conflict (c_fcg cs) (f u) (f w)) /\
    (forall u w v, In u (scc_stmts (c_state cs) i) -> (w < length (p_stmts (st_prog (c_state cs))))%nat -> ~ In w (scc_stmts (c_state cs) i) ->
       (vertex_offset (st_prog (c_state cs)) w <= v < vertex_offset (st_prog (c_state cs)) w + s_dim_orig (stmt_of (st_prog (c_state cs)) w))%nat ->
       (v < length (c_col cs))%nat -> nth v (c_col cs) 0 = Z.of_nat c -> nth v (c_col cs') 0 = Z.of_nat c /\ ~ conflict (c_fcg cs) (f u) v).
Proof.
  intros is_emptyb skip fuse c i cs cs' Hc Hm Hd H. unfold colour_scc in H.
  destruct (Z.ltb_spec (nth i (st_max (c_state cs)) 0) (Z.of_nat (c - 1))); [lia|]. destruct (Z.eqb_spec (nth i (st_max (c_state cs)) 0) (Z.of_nat (c - 1))); [lia|].
  destruct (colour_stmts _ _ _ _ _ _ _) as [[b col]|] eqn:E; [|discriminate]. injection H as -> <-. cbn [c_col].
  assert (forall u, In u (scc_stmts (c_state cs) i) -> (u < length (p_stmts (st_prog (c_state cs))))%nat) as Hl.
  { intros u Hu. unfold scc_stmts in Hu. apply filter_In in Hu as [Hu _]. apply in_seq in Hu. lia. }
  apply colour_stmts_spec in E as [T S]; [|intros u Hu; split; auto|apply NoDup_filter, seq_NoDup].
  destruct (S eq_refl) as [f Ff]. exists f. split; [|split].
  - intros u Hu. destruct (Ff u Hu) as (A & B & C & D & _). split; [exact A|]. split; [exact C|exact D].
  - intros u w Hu Hw N. destruct (Ff u Hu) as (_ & _ & _ & _ & G & _). apply G; auto.
  - intros u w v Hu Hw Nw Hv Lv Cv.
    assert (~ own_any (st_prog (c_state cs)) (scc_stmts (c_state cs) i) v) as NO.
    { intros (x & Hx & Ox). apply Nw. replace w with x; [exact Hx|]. apply (own_disjoint (st_prog (c_state cs)) x w v); auto. }
    split; [rewrite (touch_out _ _ _ _ v T NO); exact Cv|]. destruct (Ff u Hu) as (_ & _ & _ & _ & _ & G). apply G; auto.
Qed.
Print Assumptions C84_no_conflicts.

(** S0 has dimension i at level 1, which dimension i of S1 must not be fused with,
    so S1 gets dimension j. *)
Definition nc_state : cstate := mkC (mkState (with_scc d_prog Z.of_nat) [] 2 [2;2]) [1;0;0;0] [[0;0;1;0]; [0;0;0;0]; [0;0;0;0]; [0;0;0;0]] false.
Example C84_no_conflicts_met : Z.of_nat 1 <= nth 1 (st_max (c_state nc_state)) 0 /\ scc_stmts (c_state nc_state) 1 = [1%nat] /\
  option_map (fun r => (fst r, c_col (snd r))) (colour_scc (fun _ => false) no_skip MaxFuse 1 1 nc_state) = Some (true, [1;0;0;1]).
Proof. split; [simpl; lia|]. split; reflexivity. Qed.

(** ** C85.  Skewing.

    If no skewing is introduced, the schedules stay as they are. *)
Theorem C85_unskewed : forall is_emptyb solve o pr pr1, introduce_skew is_emptyb solve o pr = Some (pr1, false) ->
  (forall u, s_trans (stmt_of pr1 u) = s_trans (stmt_of pr u)) /\ p_hprops pr1 = p_hprops pr.
Proof. intros is_emptyb solve o pr pr1 H. exact (introduce_rows is_emptyb solve o pr pr1 H). Qed.
Print Assumptions C85_unskewed.

(** The level [lv] computed by skewing for component [cc] (with the statements of
    [pr0], and schedules and dependence flags as in [pr]) has no negative distance
    for any dependence of the component that was unsatisfied in [pr0]; the
    other levels stay as they are; so do the loop coefficients of statements
    outside of the SCC that is skewed. *)
Theorem C85_skewed_level : forall solve o pr0 pr src skew scc cc lv pc sol,
  solver_sound solve -> wf_prog pr0 -> padded pr0 -> orig_first pr0 -> frame pr0 pr -> p_stmts pr <> [] ->
  (forall u, (u < length (p_stmts pr))%nat -> (lv < length (mrows (s_trans (stmt_of pr u))))%nat) ->
  get_cc_permutability_constraints o cc pr0 = Some pc ->
  prog_constraints_lexmin solve pr (get_skewing_constraints src skew scc pr lv (cst_add (universe (cst_width pr)) pc)) = Some sol ->
  let pr' := replace_level pr lv sol in
  (forall d, In d (p_deps pr0) -> d_sat d = false -> d_rar d = false -> s_cc (stmt_of pr0 (d_src d)) = cc -> s_cc (stmt_of pr0 (d_dst d)) = cc ->
     forall s t p, instance pr0 d s t p -> 0 <= distance pr' d lv s t p) /\
  (forall u k, (u < length (p_stmts pr))%nat -> k <> lv -> nth k (mrows (s_trans (stmt_of pr' u))) [] = nth k (mrows (s_trans (stmt_of pr u))) []) /\
  (forall u j, (u < length (p_stmts pr))%nat -> s_scc (stmt_of pr u) <> scc -> (j < s_dim_orig (stmt_of pr u))%nat ->
     nth j (nth lv (mrows (s_trans (stmt_of pr' u))) []) 0 = nth j (nth lv (mrows (s_trans (stmt_of pr u))) []) 0) /\
  (forall u j k, (u < length (p_stmts pr))%nat -> s_scc (stmt_of pr u) = scc -> (j < s_dim_orig (stmt_of pr u))%nat -> nth j src false = true ->
     (k < s_dim_orig (stmt_of pr u))%nat -> nth k skew false = true -> 1 <= nth j (nth lv (mrows (s_trans (stmt_of pr' u))) []) 0).
Proof.
  intros solve o pr0 pr src skew scc cc lv pc sol SOL W0 P0 O0 F NE LV EP H pr'.
  pose proof (frame_orig_first _ _ F O0) as O.
  destruct (skew_row solve o SOL pr0 pr src skew scc cc lv pc sol W0 P0 O0 O F NE EP H) as (L & Zp & R & D).
  assert (forall u, (u < length (p_stmts pr))%nat -> (s_dim_orig (stmt_of pr u) <= p_nvar pr)%nat) as DO by (intros u Hu; apply (O _ (stmt_of_in pr u Hu))).
  assert (forall u, (u < length (p_stmts pr))%nat -> nth lv (mrows (s_trans (stmt_of pr' u))) [] = hyp_row pr sol u) as RL.
  { intros u Hu. unfold pr'. rewrite replace_level_stmt, map_nth_nth by auto. rewrite Nat.eqb_refl, (proj2 (Nat.ltb_lt _ _) (LV u Hu)). reflexivity. }
  split; [|split; [|split]].
  - intros d Hd Sa Ra C1 C2 s t p In. pose proof (D d Hd Sa Ra C1 C2 s t p In) as [? _]. assert (wf_dep pr0 d) as (D1 & D2 & _) by (apply W0; auto).
    destruct F as (_ & _ & FL & _). unfold distance, theta. rewrite !RL by congruence. lia.
  - intros u k Hu N. unfold pr'. rewrite replace_level_stmt, map_nth_nth by auto. apply Nat.eqb_neq in N. rewrite N. reflexivity.
  - intros u j Hu Ns Hj. rewrite RL by auto. rewrite hyp_row_iter by (specialize (DO u Hu); lia).
    destruct (R u Hu) as [Q _]. apply Z.eqb_neq in Ns. rewrite Ns, andb_false_r in Q. specialize (Q j). rewrite andb_false_r in Q. apply Q. apply in_seq. lia.
  - intros u j k Hu Es Hj Sj Hk Sk. rewrite RL by auto. rewrite hyp_row_iter by (specialize (DO u Hu); lia).
    destruct (R u Hu) as [Q _]. rewrite Es, Z.eqb_refl, andb_true_r in Q.
    destruct (Nat.leb_spec (s_dim_orig (stmt_of pr u)) (match find (fun k => nth k skew false) (seq 0 (p_nvar pr)) with Some k => k | None => p_nvar pr end)) as [X|X].
    + exfalso. specialize (DO u Hu). destruct (find _ _) as [m|] eqn:Ef.
      * apply find_first in Ef as (_ & Q1). specialize (Q1 k ltac:(lia)). congruence.
      * apply find_none with (x := k) in Ef; [congruence|]. apply in_seq. lia.
    + specialize (Q j). rewrite Sj in Q. apply Q. apply in_seq. lia.
Qed.
Print Assumptions C85_skewed_level.
(** The stencil S(t,i) -> S(t+1,i-1), S(t+1,i+1): the second level becomes t + i. *)
Definition st_prog1 : prog := mkProg 2 1 [dfp_stmt] [ex_dep 0 0 false (uni_dep 1 (-1)); ex_dep 0 0 false (uni_dep 1 1)] [H_LOOP; H_LOOP].
Example C85_skewed_level_met : exists pc, get_cc_permutability_constraints ex_opts 0 st_prog1 = Some pc /\
  wf_prog st_prog1 /\ padded st_prog1 /\ orig_first st_prog1 /\ frame st_prog1 st_prog1 /\
  prog_constraints_lexmin (first_of [[0;2;1;1;0]]) st_prog1 (get_skewing_constraints [true;false] [false;true] 0 st_prog1 1 (cst_add (universe (cst_width st_prog1)) pc)) = Some [0;2;1;1;0] /\
  mrows (s_trans (stmt_of (replace_level st_prog1 1 [0;2;1;1;0]) 0)) = [[1;0;0;0]; [1;1;0;0]].
Proof.
  exists (match get_cc_permutability_constraints ex_opts 0 st_prog1 with Some c => c | None => universe 1 end).
  split; [vm_compute; reflexivity|]. split; [|split; [|split; [|split; [apply frame_refl|split; [|reflexivity]]]]].
  - assert (input_ok st_prog1) as [[W1 W2] _] by (apply uni_ok with (n := 1%nat); intros d H; simpl in H; intuition (subst; first [simpl; lia|apply uni_wf|reflexivity])).
    split; [|exact W2]. intros st Hs. simpl in Hs. destruct Hs as [<-|[]]. repeat (split; [first [reflexivity|wf]|]). simpl. intros a [].
  - intros st Hs. simpl in Hs. destruct Hs as [<-|[]]. reflexivity.
  - intros st Hs. simpl in Hs. destruct Hs as [<-|[]]. split; [simpl; lia|reflexivity].
  - vm_compute. reflexivity.
Qed.

(** If the sum of the bounds found (which are not negative) is 0, all distances at the
    new level are 0: the level is parallel. *)
Theorem C85_parallel : forall solve o pr0 pr src skew scc cc lv pc sol,
  solver_sound solve -> wf_prog pr0 -> padded pr0 -> orig_first pr0 -> frame pr0 pr -> p_stmts pr <> [] ->
  (forall u, (u < length (p_stmts pr))%nat -> (lv < length (mrows (s_trans (stmt_of pr u))))%nat) ->
  get_cc_permutability_constraints o cc pr0 = Some pc -> o_nodepbound o = false ->
  prog_constraints_lexmin solve pr (get_skewing_constraints src skew scc pr lv (cst_add (universe (cst_width pr)) pc)) = Some sol ->
  (forall v, In v (firstn (p_npar pr + 1) sol) -> 0 <= v) -> is_ilp_solution_parallel sol (p_npar pr) = true ->
  forall d, In d (p_deps pr0) -> d_sat d = false -> d_rar d = false -> d_bpoly d = d_poly d ->
    s_cc (stmt_of pr0 (d_src d)) = cc -> s_cc (stmt_of pr0 (d_dst d)) = cc ->
    forall s t p, instance pr0 d s t p -> distance (replace_level pr lv sol) d lv s t p = 0.
Proof.
  intros solve o pr0 pr src skew scc cc lv pc sol SOL W0 P0 O0 F NE LV EP ND H NN PAR d Hd Sa Ra Eb C1 C2 s t p In.
  pose proof (frame_orig_first _ _ F O0) as O.
  destruct (skew_row solve o SOL pr0 pr src skew scc cc lv pc sol W0 P0 O0 O F NE EP H) as (L & Zp & R & D).
  assert (forall u, (u < length (p_stmts pr))%nat -> nth lv (mrows (s_trans (stmt_of (replace_level pr lv sol) u))) [] = hyp_row pr sol u) as RL.
  { intros u Hu. rewrite replace_level_stmt, map_nth_nth by auto. rewrite Nat.eqb_refl, (proj2 (Nat.ltb_lt _ _) (LV u Hu)). reflexivity. }
  destruct (D d Hd Sa Ra C1 C2 s t p In) as [A B]. specialize (B ND Eb). assert (wf_dep pr0 d) as (D1 & D2 & _) by (apply W0; auto).
  destruct F as (_ & FN & FL & _). unfold distance, theta. rewrite !RL by congruence.
  assert (zbound pr0 sol p = 0) as Z0; [|lia].
  unfold zbound, aff. unfold is_ilp_solution_parallel in PAR. apply Z.eqb_eq in PAR.
  rewrite <- FN. rewrite Nat.add_1_r in *. clear - NN PAR. revert NN PAR. generalize (firstn (S (p_npar pr)) sol). intros l. generalize (p ++ [1]). intros q NN PAR.
  assert (forall l a, 0 <= a -> (forall v, List.In v l -> 0 <= v) -> fold_left Z.add l a = 0 -> a = 0 /\ forall v, List.In v l -> v = 0) as X.
  { clear. induction l as [|x l IH]; intros a Ha H E; cbn in E; [split; [auto|intros v []]|].
    pose proof (H x (or_introl eq_refl)). destruct (IH (a + x)) as [E1 E2]; auto; [lia|intros v Hv; apply H; right; auto|].
    split; [lia|]. intros v [<-|Hv]; [lia|auto]. }
  destruct (X l 0 ltac:(lia) NN PAR) as [_ Y]. clear - Y. revert q. induction l as [|x l IH]; intros [|y q]; cbn; try reflexivity.
  rewrite (Y x (or_introl eq_refl)), (IH (fun v Hv => Y v (or_intror Hv))). reflexivity.
Qed.
Print Assumptions C85_parallel.
(** S(t,i) -> S(t+1,i-1): t + i is found parallel. *)
Definition pa_prog1 : prog := mkProg 2 1 [dfp_stmt] [ex_dep 0 0 false (uni_dep 1 (-1))] [H_LOOP; H_LOOP].
Example C85_parallel_met : exists pc, get_cc_permutability_constraints ex_opts 0 pa_prog1 = Some pc /\
  wf_prog pa_prog1 /\ padded pa_prog1 /\ orig_first pa_prog1 /\ frame pa_prog1 pa_prog1 /\
  prog_constraints_lexmin (first_of [[0;0;1;1;0]]) pa_prog1 (get_skewing_constraints [true;false] [false;true] 0 pa_prog1 1 (cst_add (universe (cst_width pa_prog1)) pc)) = Some [0;0;1;1;0] /\
  is_ilp_solution_parallel [0;0;1;1;0] 1 = true /\ is_ilp_solution_parallel [0;1;1;1;0] 1 = false /\
  instance pa_prog1 (ex_dep 0 0 false (uni_dep 1 (-1))) [0;1] [1;0] [3].
Proof.
  exists (match get_cc_permutability_constraints ex_opts 0 pa_prog1 with Some c => c | None => universe 1 end).
  split; [vm_compute; reflexivity|]. split; [|split; [|split; [|split; [apply frame_refl|split; [|split; [reflexivity|split; [reflexivity|]]]]]]].
  - assert (input_ok pa_prog1) as [[W1 W2] _] by (apply uni_ok with (n := 1%nat); intros d H; simpl in H; intuition (subst; first [simpl; lia|apply uni_wf|reflexivity])).
    split; [|exact W2]. intros st Hs. simpl in Hs. destruct Hs as [<-|[]]. repeat (split; [first [reflexivity|wf]|]). simpl. intros a [].
  - intros st Hs. simpl in Hs. destruct Hs as [<-|[]]. reflexivity.
  - intros st Hs. simpl in Hs. destruct Hs as [<-|[]]. split; [simpl; lia|reflexivity].
  - vm_compute. reflexivity.
  - split; [reflexivity|]. split; [reflexivity|]. split; [reflexivity|]. apply memb_ok. reflexivity.
Qed.

(** Moving a level of component [cc] outwards exchanges two entries of the times of
    its statements; all other statements keep their times. *)
Theorem C85_exchange : forall pr pl lv cc pr', swap_trans_for_cc pl lv cc pr = Some pr' ->
  p_deps pr' = p_deps pr /\ p_hprops pr' = p_hprops pr /\ length (p_stmts pr') = length (p_stmts pr) /\
  (forall u i p, (u < length (p_stmts pr))%nat -> s_cc (stmt_of pr u) <> cc -> timestamp (stmt_of pr' u) i p = timestamp (stmt_of pr u) i p) /\
  (forall u i p, (u < length (p_stmts pr))%nat -> s_cc (stmt_of pr u) = cc ->
     (pl < length (mrows (s_trans (stmt_of pr u))))%nat -> (lv < length (mrows (s_trans (stmt_of pr u))))%nat ->
     length (timestamp (stmt_of pr' u) i p) = length (timestamp (stmt_of pr u) i p) /\
     nth pl (timestamp (stmt_of pr' u) i p) 0 = nth lv (timestamp (stmt_of pr u) i p) 0 /\
     nth lv (timestamp (stmt_of pr' u) i p) 0 = nth pl (timestamp (stmt_of pr u) i p) 0 /\
     forall k, k <> pl -> k <> lv -> nth k (timestamp (stmt_of pr' u) i p) 0 = nth k (timestamp (stmt_of pr u) i p) 0).
Proof.
  intros pr pl lv cc pr' H. unfold swap_trans_for_cc in H.
  destruct ((pl <? lv)%nat && _ && _) eqn:G; [|discriminate]. injection H as <-. apply andb_prop in G as [G _]. apply andb_prop in G as [G _]. apply Nat.ltb_lt in G.
  set (f := fun st : stmt => if s_cc st =? cc then set_trans st (matrix_interchange_rows (s_trans st) pl lv) else st).
  assert (forall u, (u < length (p_stmts pr))%nat -> stmt_of (set_stmts pr (map f (p_stmts pr))) u = f (stmt_of pr u)) as ST.
  { intros u Hu. unfold stmt_of. cbn [set_stmts p_stmts]. rewrite (nth_indep _ dummy_stmt (f dummy_stmt)) by (rewrite map_length; auto). apply List.map_nth. }
  split; [reflexivity|]. split; [reflexivity|]. split; [cbn [set_stmts p_stmts]; apply map_length|]. split.
  - intros u i p Hu N. rewrite ST by auto. unfold f. apply Z.eqb_neq in N. rewrite N. reflexivity.
  - intros u i p Hu E Hp Hl. rewrite ST by auto. unfold f. rewrite E, Z.eqb_refl. unfold timestamp. cbn [set_trans s_trans matrix_interchange_rows mrows].
    set (M := mrows (s_trans (stmt_of pr u))) in *.
    assert (length (swap_nth [] pl lv M) = length M) as SL by (unfold swap_nth; rewrite !set_nth_length; reflexivity).
    assert (forall (l : list (list Z)) k, nth k (map (fun r => aff r (i ++ p)) l) 0 = if (k <? length l)%nat then aff (nth k l []) (i ++ p) else 0) as NM.
    { intros l k. destruct (Nat.ltb_spec k (length l)) as [K|K].
      - rewrite (nth_indep _ 0 (aff [] (i ++ p))) by (rewrite map_length; auto). apply (List.map_nth (fun r => aff r (i ++ p))).
      - apply nth_overflow. rewrite map_length. auto. }
    split; [rewrite !map_length; auto|]. rewrite !NM, SL. rewrite (proj2 (Nat.ltb_lt _ _) Hp), (proj2 (Nat.ltb_lt _ _) Hl).
    rewrite !swap_nth_nth by auto. rewrite !Nat.eqb_refl. split; [reflexivity|].
    assert ((lv =? pl)%nat = false) as -> by (apply Nat.eqb_neq; lia). split; [reflexivity|].
    intros k N1 N2. rewrite !NM, SL. rewrite swap_nth_nth by auto. apply Nat.eqb_neq in N1, N2. rewrite N1, N2. reflexivity.
Qed.
Print Assumptions C85_exchange.
Example C85_exchange_met : option_map (fun q => map (fun st => mrows (s_trans st)) (p_stmts q))
  (swap_trans_for_cc 0 1 0 (mkProg 2 1 [dfp_stmt; set_cc dfp_stmt 1] [] [H_LOOP; H_LOOP])) =
  Some [[[0;1;0;0]; [1;0;0;0]]; [[1;0;0;0]; [0;1;0;0]]].
Proof. reflexivity. Qed.

(** Skewing one component recomputes the constants of all statements, without the
    constraints of the other components: S1 -> S2 has distance (0, -1), and its
    shift by 1 at the second level is lost although it is needed. *)
Definition sh_prog : prog := mkProg 2 1 (repeat dfp_stmt 3)
  [ex_dep 0 0 false (uni_dep 1 (-1)); ex_dep 0 0 false (uni_dep 1 1); ex_dep 1 2 false (uni_dep 0 (-1))] [H_LOOP; H_LOOP].
Definition sh_solve := first_of [[0;1;0;1;0;0;1;0;0;1;0]; [0;0;1;0;0;1;0;0;1;0;1]; [0;2;1;1;0;1;0;0;1;0;0]].
Definition sh_fcg (_ : dstate) (_ : list Z) (c : nat) : fcg :=
  let e := if (c =? 1)%nat then 1 else 0 in
  [[0;0;0;0;0;0]; [0;e;0;0;0;0]; [0;0;0;0;0;1]; [0;0;0;0;1;0]; [0;0;0;0;0;0]; [0;0;0;0;0;0]].
Lemma sh_prog_ok : input_ok sh_prog.
Proof. apply uni_ok. intros d H. simpl in H. intuition (subst; first [simpl; lia|apply uni_wf|reflexivity]). Qed.
Theorem C85_shift_refuted : input_ok sh_prog /\ solver_sound sh_solve /\
  exists f pr' d s t p, exact_empty f /\
  dfp_transform f sh_solve sh_fcg same_graph no_skip ex_opts MaxFuse false sh_prog = Some (pr', true) /\
  In d (p_deps sh_prog) /\ d_rar d = false /\ instance sh_prog d s t p /\
  lexlt (timestamp (stmt_of pr' (d_dst d)) t p) (timestamp (stmt_of pr' (d_src d)) s p).
Proof.
  split; [exact sh_prog_ok|]. split; [apply first_of_sound|]. destruct C12_oracle_exists as [f F]. exists (dfs_empty f).
  destruct (dfp_transform (dfs_empty f) sh_solve sh_fcg same_graph no_skip ex_opts MaxFuse false sh_prog) as [[pr' b]|] eqn:E; [|vm_compute in E; discriminate].
  vm_compute in E. injection E as <- <-.
  eexists. exists (ex_dep 1 2 false (uni_dep 0 (-1))), [0;1], [0;0], [3]. split; [apply dfs_empty_exact; auto|]. split; [reflexivity|].
  split; [simpl; auto|]. split; [reflexivity|]. split; [split; [reflexivity|]; split; [reflexivity|]; split; [reflexivity|]; apply memb_ok; reflexivity|].
  cbn. lia.
Qed.
Print Assumptions C85_shift_refuted.

(** A skewed level that carries no dependence is exchanged with an outer level even
    if a scalar level between them, added for the order of the other levels, relies
    on that outer level. *)
Definition sw_prog : prog := mkProg 2 1 (repeat dfp_stmt 2)
  [ex_dep 0 0 false (uni_dep 1 (-1)); ex_dep 0 1 false (uni_dep 0 0); ex_dep 1 0 false (uni_dep 1 (-1))] [H_LOOP; H_LOOP].
Definition sw_solve := first_of [[0;1;0;1;0;0;1;0]; [0;0;1;0;0;1;0;0]; [0;0;1;1;0;1;1;0]].
Definition sw_fcg (_ : dstate) (_ : list Z) (c : nat) : fcg :=
  let e := if (c =? 1)%nat then 1 else 0 in [[0;0;0;1]; [0;e;1;e]; [0;1;0;0]; [1;e;0;0]].
Lemma sw_prog_ok : input_ok sw_prog.
Proof. apply uni_ok. intros d H. simpl in H. intuition (subst; first [simpl; lia|apply uni_wf|reflexivity]). Qed.
Theorem C85_swap_refuted : input_ok sw_prog /\ solver_sound sw_solve /\
  exists f pr' d s t p, exact_empty f /\
  dfp_transform f sw_solve sw_fcg same_graph no_skip ex_opts NoFuse false sw_prog = Some (pr', true) /\
  In d (p_deps sw_prog) /\ d_rar d = false /\ instance sw_prog d s t p /\
  lexlt (timestamp (stmt_of pr' (d_dst d)) t p) (timestamp (stmt_of pr' (d_src d)) s p).
Proof.
  split; [exact sw_prog_ok|]. split; [apply first_of_sound|]. destruct C12_oracle_exists as [f F]. exists (dfs_empty f).
  destruct (dfp_transform (dfs_empty f) sw_solve sw_fcg same_graph no_skip ex_opts NoFuse false sw_prog) as [[pr' b]|] eqn:E; [|vm_compute in E; discriminate].
  vm_compute in E. injection E as <- <-.
  eexists. exists (ex_dep 1 0 false (uni_dep 1 (-1))), [0;1], [1;0], [3]. split; [apply dfs_empty_exact; auto|]. split; [reflexivity|].
  split; [simpl; auto|]. split; [reflexivity|]. split; [split; [reflexivity|]; split; [reflexivity|]; split; [reflexivity|]; apply memb_ok; reflexivity|].
  cbn. lia.
Qed.
Print Assumptions C85_swap_refuted.
