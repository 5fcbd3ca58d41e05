(** * The framework "dfp" with clusters of statements (option clusterscc): theorems. *)
From Coq Require Import ZArith List Bool Arith Lia.
From Verif Require Import SpecLinear SpecMatrix VecProofs MathModel ConstraintsModel SpecGraph GraphModel SpecProg SpecDriver SpecDfp
  FrameworkModel FrameworkProofs ProgModel ProgProofs DriverModel DriverProofs PadProofs AutoProofs DfpModel DfpProofs DfpProofs2 DfpProofs3 DfpProofs4 FcgModel ClusterModel ClusterProofs ClusterProofs2
  ExProg Checkers PropFramework PropAuto PropCone PropDfp PropFcg.
Import ListNotations.
Open Scope Z_scope.

(** ** C96.  Clusters of statements.

    All statements of a strongly connected component (SCC) of the dependence graph
    get their loops permuted in the same way.  Whatever conflict graphs are built
    ([build], [refresh]), and for any number [fuel] of steps within which the
    search ends: if no skewing was introduced, the result is the same program,
    all statements have times with one component per level, and the target of a
    dependence instance never runs before its source; it runs at the same time
    only if the target's statement leads back to the source's. *)
Theorem C96_order_partial : forall is_emptyb solve build refresh o fuse delayed_cut fuel pr pr',
  exact_empty is_emptyb -> solver_sound solve -> input_ok pr -> p_stmts pr <> [] ->
  cluster_transform is_emptyb solve build refresh o fuse delayed_cut fuel pr = Transformed pr' false ->
  same_program pr pr' /\
  (forall s i p, (s < length (p_stmts pr))%nat -> length i = s_dim (stmt_of pr s) -> length p = p_npar pr ->
     length (timestamp (stmt_of pr' s) i p) = length (p_hprops pr')) /\
  (forall d, In d (p_deps pr) -> d_rar d = false -> forall s t p, instance pr d s t p ->
     lexlt (timestamp (stmt_of pr' (d_src d)) s p) (timestamp (stmt_of pr' (d_dst d)) t p) \/
     (timestamp (stmt_of pr' (d_src d)) s p = timestamp (stmt_of pr' (d_dst d)) t p /\ depends pr (d_dst d) (d_src d))).
Proof. intros is_emptyb solve build refresh o fuse dc fuel pr pr' EX SOL IN NE H. destruct (cluster_success is_emptyb solve build refresh o fuse dc EX SOL fuel pr pr' IN NE H) as (A & B & C & _). auto. Qed.
Print Assumptions C96_order_partial.

Lemma input_even pr : input_ok pr ->
  (forall u v, (u < length (p_stmts pr))%nat -> (v < length (p_stmts pr))%nat -> depends pr u v -> depends pr v u -> s_dim (stmt_of pr v) = s_dim (stmt_of pr u)) -> even pr.
Proof.
  intros [_ Hi] H u v Hu Hv A B. destruct (Hi _ (stmt_of_in pr u Hu)) as (E1 & _). destruct (Hi _ (stmt_of_in pr v Hv)) as (E2 & _). rewrite <- E1, <- E2. auto.
Qed.

(** Different instances of a statement get different times, provided that the
    statements on a cycle of dependences have the same number of loops around
    them. *)
Theorem C96_one_to_one_partial : forall is_emptyb solve build refresh o fuse delayed_cut fuel pr pr',
  exact_empty is_emptyb -> solver_sound solve -> input_ok pr -> p_stmts pr <> [] ->
  (forall u v, (u < length (p_stmts pr))%nat -> (v < length (p_stmts pr))%nat -> depends pr u v -> depends pr v u -> s_dim (stmt_of pr v) = s_dim (stmt_of pr u)) ->
  cluster_transform is_emptyb solve build refresh o fuse delayed_cut fuel pr = Transformed pr' false ->
  forall s i j p, (s < length (p_stmts pr))%nat -> length i = s_dim (stmt_of pr s) -> length j = s_dim (stmt_of pr s) -> length p = p_npar pr ->
    timestamp (stmt_of pr' s) i p = timestamp (stmt_of pr' s) j p -> i = j.
Proof.
  intros is_emptyb solve build refresh o fuse dc fuel pr pr' EX SOL IN NE EV H.
  destruct (cluster_success is_emptyb solve build refresh o fuse dc EX SOL fuel pr pr' IN NE H) as (_ & _ & _ & D). exact (D (input_even pr IN EV)).
Qed.
Print Assumptions C96_one_to_one_partial.

(** The result is legal if dependence cycles do not connect different statements. *)
Theorem C96_legal : forall is_emptyb solve build refresh o fuse delayed_cut fuel pr pr',
  exact_empty is_emptyb -> solver_sound solve -> input_ok pr -> p_stmts pr <> [] ->
  (forall u v, depends pr u v -> depends pr v u -> v = u) ->
  (forall d s t p, In d (p_deps pr) -> d_rar d = false -> d_src d = d_dst d -> instance pr d s t p -> s <> t) ->
  cluster_transform is_emptyb solve build refresh o fuse delayed_cut fuel pr = Transformed pr' false ->
  forall d, In d (p_deps pr) -> d_rar d = false -> forall s t p, instance pr d s t p ->
    lexlt (timestamp (stmt_of pr' (d_src d)) s p) (timestamp (stmt_of pr' (d_dst d)) t p).
Proof.
  intros is_emptyb solve build refresh o fuse dc fuel pr pr' EX SOL IN NE CY SD H d Hd Hr s t p Inst.
  destruct (cluster_success is_emptyb solve build refresh o fuse dc EX SOL fuel pr pr' IN NE H) as (_ & _ & C & D).
  destruct (C d Hd Hr s t p Inst) as [L|[E B]]; [auto|exfalso].
  assert (d_src d = d_dst d) as Es.
  { symmetry. apply CY; [|exact B]. apply depends_step with (d := d); auto. constructor. }
  apply (SD d s t p Hd Hr Es Inst). destruct (input_deps pr IN d Hd) as [D1 _]. destruct Inst as (L1 & L2 & L3 & _). rewrite <- Es in L2, E.
  assert (even pr) as EV by (apply input_even; auto; intros u v _ _ A A'; rewrite (CY u v A A'); reflexivity).
  apply (D EV (d_src d) s t p D1 L1 L2 L3 E).
Qed.
Print Assumptions C96_legal.

(** S0(i,j) depends on S0(i-1,j) and S0(i,j-1), S1(i,j) on S0(i,j+1); the conflict
    graphs are those of the code ([build_cluster_fcg], [update_cluster_fcg]). *)
Definition view_outcome (r : cluster_outcome) : option (list (list (list Z)) * bool) :=
  match r with Transformed pr sk => Some (schedules (pr, sk)) | _ => None end.
Example C96_met : input_ok d_prog /\ solver_sound d_solve /\ (forall u v, depends d_prog u v -> depends d_prog v u -> v = u) /\
  exists f, exact_empty f /\
  view_outcome (cluster_transform f d_solve (build_cluster_fcg fm_lp ex_opts) (update_cluster_fcg MaxFuse) ex_opts MaxFuse false 20 d_prog) =
    Some ([[[1;0;0;0]; [0;1;0;0]; [0;0;0;0]]; [[1;0;0;0]; [0;1;0;1]; [0;0;0;1]]], false).
Proof.
  split; [exact d_prog_ok|]. split; [apply first_of_sound|]. split; [exact d_prog_acyclic|].
  destruct C12_oracle_exists as [f F]. exists (dfs_empty f). split; [apply dfs_empty_exact; auto|]. vm_compute. reflexivity.
Qed.
(** Two statements on a cycle, with a conflict graph that has no edges. *)
Definition no_conflict (s : dstate) (_ : list Z) (_ : nat) : fcg := let n := scc_vertices s in repeat (repeat 0 n) n.
Example C96_one_to_one_met : input_ok cy_prog /\ solver_sound cy_solve /\
  (forall u v, (u < length (p_stmts cy_prog))%nat -> (v < length (p_stmts cy_prog))%nat -> depends cy_prog u v -> depends cy_prog v u -> s_dim (stmt_of cy_prog v) = s_dim (stmt_of cy_prog u)) /\
  exists f, exact_empty f /\
  view_outcome (cluster_transform f cy_solve no_conflict (update_cluster_fcg MaxFuse) ex_opts MaxFuse false 20 cy_prog) =
    Some ([[[1;0;0;0]; [0;1;0;0]]; [[1;0;0;0]; [0;1;0;0]]], false).
Proof.
  split; [exact cy_prog_ok|]. split; [apply first_of_sound|]. split.
  - intros u v Hu Hv _ _. simpl in Hu, Hv. destruct u as [|[|u]]; [| |lia]; (destruct v as [|[|v]]; [| |lia]); reflexivity.
  - destruct C12_oracle_exists as [f F]. exists (dfs_empty f). split; [apply dfs_empty_exact; auto|]. vm_compute. reflexivity.
Qed.

(** If SCC [i] gets a dimension for level [c], it is one of its own that is usable (no
    self edge), that no other level has, and that is not in conflict with a
    dimension that another SCC has at this level. *)
Theorem C96_no_conflicts : forall is_emptyb fuse delayed_cut c i k k',
  (1 <= c)%nat -> Z.of_nat c <= nth i (st_max (k_state k)) 0 ->
  (scc_offset (k_state k) i + scc_dim (k_state k) i <= length (k_col k))%nat ->
  colour_scc_cluster is_emptyb fuse delayed_cut c i k = (true, k') ->
  exists v, (scc_offset (k_state k) i <= v < scc_offset (k_state k) i + scc_dim (k_state k) i)%nat /\
    nth v (k_col k') 0 = Z.of_nat c /\ (nth v (k_col k) 0 <= 0 \/ nth v (k_col k) 0 = Z.of_nat c) /\
    nth v (nth v (k_fcg k) []) 0 <> 1 /\
    (forall w, w <> v -> (w < length (k_col k))%nat -> nth w (k_col k') 0 = nth w (k_col k) 0) /\
    (forall w, (w < length (k_col k))%nat -> nth w (k_col k') 0 = Z.of_nat c -> w <> v -> ~ conflict (k_fcg k) v w).
Proof.
  intros is_emptyb fuse dc c i k k' Hc Hm HL H. unfold colour_scc_cluster in H.
  destruct (Z.ltb_spec (nth i (st_max (k_state k)) 0) (Z.of_nat (c - 1))); [lia|]. destruct (Z.eqb_spec (nth i (st_max (k_state k)) 0) (Z.of_nat (c - 1))); [lia|].
  destruct (find _ _) as [j|] eqn:E; [|discriminate]. injection H as <-. cbn [k_col]. apply find_some in E as [Hj E]. apply in_seq in Hj.
  set (v := (scc_offset (k_state k) i + j)%nat) in *. exists v. unfold colourable in E. rewrite !andb_true_iff, !negb_true_iff in E. destruct E as [[E1 E2] E3].
  split; [lia|]. split; [apply nth_set_nth_eq; lia|]. split.
  { apply andb_false_iff in E1 as [E1|E1]; [left; apply Z.ltb_ge in E1; auto|right]. apply negb_false_iff, Z.eqb_eq in E1. auto. }
  split; [unfold adj in E2; apply Z.eqb_neq in E2; auto|]. split.
  - intros w N L. apply nth_set_nth_neq. auto.
  - intros w L C N. rewrite nth_set_nth_neq in C by auto. exact (valid_spec _ _ _ _ w E3 L C).
Qed.
Print Assumptions C96_no_conflicts.
Example C96_no_conflicts_met : let k := mkK (mkState (with_scc d_prog Z.of_nat) [] 2 [2;2]) [1;0;0;0] [[0;0;1;0]; [0;0;0;0]; [0;0;0;0]; [0;0;0;0]] false [true;false] in
  Z.of_nat 1 <= nth 1 (st_max (k_state k)) 0 /\ (scc_offset (k_state k) 1 + scc_dim (k_state k) 1 <= length (k_col k))%nat /\
  (fst (colour_scc_cluster (fun _ => false) MaxFuse false 1 1 k), k_col (snd (colour_scc_cluster (fun _ => false) MaxFuse false 1 1 k))) = (true, [1;0;0;1]).
Proof. cbv zeta. split; [simpl; lia|]. split; [vm_compute; lia|reflexivity]. Qed.

(** In general, different instances of a statement can get the same time, and no
    failure is reported:
<<
    for (x..) for (y..) b[x][y] = ..                                  // S0
    for (i..) {
      s[i] = a[i-1][0][0];                                            // S1
      for (j..) for (k..) a[i][j][k] = a[i][j-1][k+1] + s[i] + b[j][N-1];  // S2
    }
>>
    S1 and S2 form an SCC, which gets loop j for level 1.  The conflict graph is
    rebuilt at level 2; the colours of the SCC are then taken from S1, which has no
    loop j (as its domain is padded, it passes for a statement with all loops of the
    SCC).  So level 3 gives S2 loop j again, and loop k is lost. *)
Definition box n : cst := mkCst (n+2) (flat_map (fun k => [ge (set_nth k 1 (repeat 0 (n+2))); ge (set_nth k (-1) (repeat 0 n ++ [1;-1]))]) (seq 0 n)).
Definition k_stmt n : stmt := mkStmt n n (repeat true n) (box n) (mkMat (n+2) []) [] 0 0 [] [] None 0 (-1) (-1).
(** x y i j k N 1 *)
Definition k_dep1 := mkCst 7 [eq [-1;0;0;1;0;0;0]; eq [0;-1;0;0;0;1;-1]; ge [1;0;0;0;0;0;0]; ge [-1;0;0;0;0;1;-1]; ge [0;0;1;0;0;0;0]; ge [0;0;-1;0;0;1;-1]; ge [0;0;0;0;1;0;0]; ge [0;0;0;0;-1;1;-1]].
(** i i' j k N 1 *)
Definition k_dep2 := mkCst 6 [eq [-1;1;0;0;0;0]; ge [1;0;0;0;0;0]; ge [-1;0;0;0;1;-1]; ge [0;0;1;0;0;0]; ge [0;0;-1;0;1;-1]; ge [0;0;0;1;0;0]; ge [0;0;0;-1;1;-1]].
(** i j k i' N 1 *)
Definition k_dep3 := mkCst 6 [eq [-1;0;0;1;0;-1]; eq [0;1;0;0;0;0]; eq [0;0;1;0;0;0]; ge [1;0;0;0;0;0]; ge [-1;0;0;0;1;-2]].
(** i j k i' j' k' N 1 *)
Definition k_dep4 := mkCst 8 [eq [-1;0;0;1;0;0;0;0]; eq [0;-1;0;0;1;0;0;-1]; eq [0;0;-1;0;0;1;0;1]; ge [1;0;0;0;0;0;0;0]; ge [-1;0;0;0;0;0;1;-1]; ge [0;1;0;0;0;0;0;0]; ge [0;-1;0;0;0;0;1;-2]; ge [0;0;1;0;0;0;0;-1]; ge [0;0;-1;0;0;0;1;-1]].
Definition k_prog := mkProg 3 1 [k_stmt 2; k_stmt 1; k_stmt 3] [ex_dep 0 2 false k_dep1; ex_dep 1 2 false k_dep2; ex_dep 2 1 false k_dep3; ex_dep 2 2 false k_dep4] [].
Definition k_solve := first_of [[1;0; 0;0;0; 0;0; 0;1;0;0]; [1;0; 0;1;0; 0;0; 0;1;0;0]; [0;1; 1;0;0; 1;0; 0;0;1;0]].
Lemma k_prog_ok : input_ok k_prog.
Proof.
  split; [split|].
  - intros st Hs. simpl in Hs. destruct Hs as [<-|[<-|[<-|[]]]]; (repeat (split; [first [reflexivity|wf]|]); simpl; intros a []).
  - intros d Hd. simpl in Hd. destruct Hd as [<-|[<-|[<-|[<-|[]]]]]; unfold wf_dep; simpl; repeat (split; [first [lia|reflexivity|wf]|]); first [lia|reflexivity|wf].
  - intros st Hs. simpl in Hs. destruct Hs as [<-|[<-|[<-|[]]]]; (split; [reflexivity|split; [simpl; lia|reflexivity]]).
Qed.
Theorem C96_one_to_one_refuted : input_ok k_prog /\ p_stmts k_prog <> [] /\ solver_sound k_solve /\
  exists f fuel pr' s i j p, exact_empty f /\
  cluster_transform f k_solve (build_cluster_fcg fm_lp ex_opts) (update_cluster_fcg MaxFuse) ex_opts MaxFuse false fuel k_prog = Transformed pr' false /\
  (s < length (p_stmts k_prog))%nat /\ length i = s_dim (stmt_of k_prog s) /\ length j = s_dim (stmt_of k_prog s) /\ length p = p_npar k_prog /\
  mem (s_domain (stmt_of k_prog s)) (i ++ p) /\ mem (s_domain (stmt_of k_prog s)) (j ++ p) /\ i <> j /\
  timestamp (stmt_of pr' s) i p = timestamp (stmt_of pr' s) j p.
Proof.
  split; [exact k_prog_ok|]. split; [discriminate|]. split; [apply first_of_sound|].
  destruct C12_oracle_exists as [f F]. exists (dfs_empty f), 20%nat.
  destruct (cluster_transform (dfs_empty f) k_solve _ _ ex_opts MaxFuse false 20 k_prog) as [pr' b| |] eqn:E; [|vm_compute in E; discriminate|vm_compute in E; discriminate].
  vm_compute in E. injection E as <- <-.
  eexists. exists 2%nat, [1;2;0], [1;2;1], [4]. split; [apply dfs_empty_exact; auto|]. split; [reflexivity|].
  split; [simpl; lia|]. split; [reflexivity|]. split; [reflexivity|]. split; [reflexivity|].
  split; [apply memb_ok; reflexivity|]. split; [apply memb_ok; reflexivity|]. split; [discriminate|reflexivity].
Qed.
Print Assumptions C96_one_to_one_refuted.

(** ** Termination *)

(** If the only SCC can be coloured, the loop over the SCCs ends (with enough fuel). *)
Lemma loop_once is_emptyb build refresh fuse dc c k k2 : nth 0 (k_done k) false = false -> (nth 0 (st_max (k_state k)) 0 <? Z.of_nat c) = false ->
  colour_scc_cluster is_emptyb fuse dc c 0 k = (true, k2) ->
  forall fuel, cluster_loop is_emptyb build refresh fuse dc fuel c 1 0 k = KFuel \/ cluster_loop is_emptyb build refresh fuse dc fuel c 1 0 k = KDone (mark_done 0 k2).
Proof.
  intros A B C [|fuel]; [left; reflexivity|]. cbn [cluster_loop]. rewrite A, B. cbn [Nat.leb orb]. unfold cluster_distributed. cbn [Nat.leb andb]. rewrite C.
  destruct fuel; [left; reflexivity|right; reflexivity].
Qed.
(** If it cannot, and rebuilding the graph ends where it started, the loop never ends. *)
Lemma loop_stuck is_emptyb build refresh fuse dc c k : fuse <> NoFuse -> nth 0 (k_done k) false = false -> (nth 0 (st_max (k_state k)) 0 <? Z.of_nat c) = false ->
  colour_scc_cluster is_emptyb fuse dc c 0 k = (false, k) -> rebuild_cluster build c k = k -> st_num (k_state k) = 1%nat ->
  forall fuel, cluster_loop is_emptyb build refresh fuse dc fuel c 1 0 k = KFuel.
Proof.
  intros NF A B C R N. induction fuel as [|fuel IH]; [reflexivity|]. cbn [cluster_loop]. rewrite A, B. cbn [Nat.leb orb]. unfold cluster_distributed. cbn [Nat.leb andb]. rewrite C, orb_true_r.
  replace (match fuse with NoFuse => _ | _ => k_state k end) with (k_state k) by (destruct fuse; congruence).
  replace (mkK (k_state k) (k_col k) (k_fcg k) (k_rebuild k) (k_done k)) with k by (destruct k; reflexivity).
  rewrite R, N. exact IH.
Qed.

(** The first round may change the state. *)
Lemma loop_stuck' is_emptyb build refresh fuse dc c k k2 : fuse <> NoFuse -> nth 0 (k_done k) false = false -> (nth 0 (st_max (k_state k)) 0 <? Z.of_nat c) = false ->
  colour_scc_cluster is_emptyb fuse dc c 0 k = (false, k) -> rebuild_cluster build c k = k2 ->
  nth 0 (k_done k2) false = false -> (nth 0 (st_max (k_state k2)) 0 <? Z.of_nat c) = false ->
  colour_scc_cluster is_emptyb fuse dc c 0 k2 = (false, k2) -> rebuild_cluster build c k2 = k2 -> st_num (k_state k2) = 1%nat ->
  forall fuel, cluster_loop is_emptyb build refresh fuse dc fuel c 1 0 k = KFuel.
Proof.
  intros NF A B C R A2 B2 C2 R2 N [|fuel]; [reflexivity|]. cbn [cluster_loop]. rewrite A, B. cbn [Nat.leb orb]. unfold cluster_distributed. cbn [Nat.leb andb]. rewrite C, orb_true_r.
  replace (match fuse with NoFuse => _ | _ => k_state k end) with (k_state k) by (destruct fuse; congruence).
  replace (mkK (k_state k) (k_col k) (k_fcg k) (k_rebuild k) (k_done k)) with k by (destruct k; reflexivity).
  rewrite R, N. apply loop_stuck; auto.
Qed.

Lemma level_once is_emptyb solve build refresh o fuse dc fuel c k k1 k2 :
  st_num (k_state k) = 1%nat -> (nth 0 (st_max (k_state k)) 0 <? Z.of_nat c) = false ->
  colour_scc_cluster is_emptyb fuse dc c 0 (mkK (k_state k) (k_col k) (k_fcg k) (k_rebuild k) [false]) = (true, k1) ->
  cluster_shift is_emptyb solve o dc c (mark_done 0 k1) = Some k2 ->
  cluster_level is_emptyb solve build refresh o fuse dc fuel c k = KFuel \/
  cluster_level is_emptyb solve build refresh o fuse dc fuel c k =
    KDone (mkK (mkState (fst (dep_satisfaction_update is_emptyb (st_prog (k_state k2)) (nrows0 (st_prog (k_state k2)) - 1))) (st_adj (k_state k2)) (st_num (k_state k2)) (st_max (k_state k2)))
             (k_col k2) (k_fcg k2) true (repeat false (st_num (k_state k2)))).
Proof.
  intros N B C H. unfold cluster_level. cbv zeta. rewrite N. cbn [repeat].
  destruct (loop_once is_emptyb build refresh fuse dc c (mkK (k_state k) (k_col k) (k_fcg k) (k_rebuild k) [false]) k1 eq_refl B C fuel) as [-> | ->]; [left; reflexivity|].
  rewrite H. right. reflexivity.
Qed.

(** The search need not end: for the program
<<
    for (i..) for (j..) a[2*i+j+1] = a[2*i+j];
>>
    with the dependence from (i,j) to all (i',j') with 2*i+j+1 = 2*i'+j' and i <= i',
    level 1 gets loop i.  This orders some instances of the dependence, not all; loop j
    keeps its self edge.  The graph is then rebuilt over and over, the precise check
    for dependences that are satisfied in part is never reached. *)
Definition l_dep : cst := mkCst 6 [eq [-2;-1;2;1;0;-1]; ge [-1;0;1;0;0;0]; ge [1;0;0;0;0;0]; ge [0;1;0;0;0;0]; ge [0;-1;0;0;1;-1]; ge [0;0;-1;0;1;-1]; ge [0;0;0;1;0;0]; ge [0;0;0;-1;1;-1]].
Definition l_prog : prog := mkProg 2 1 (repeat dfp_stmt 1) [ex_dep 0 0 false l_dep] [H_LOOP;H_LOOP].
Definition l_solve := first_of [[1;0;0;1;0]; [1;0;1;0;0]].
Lemma l_prog_ok : input_ok l_prog.
Proof. apply uni_ok. intros d H. simpl in H. destruct H as [<-|[]]. simpl. split; [lia|]. split; [lia|]. split; [wf|]. split; [reflexivity|]. split; [wf|reflexivity]. Qed.
Theorem C96_terminates_refuted : input_ok l_prog /\ p_stmts l_prog <> [] /\ solver_sound l_solve /\
  (forall s t p, instance l_prog (ex_dep 0 0 false l_dep) s t p -> lexlt (timestamp dfp_stmt s p) (timestamp dfp_stmt t p)) /\
  exists f, exact_empty f /\ forall fuel,
  cluster_transform f l_solve (build_cluster_fcg fm_lp ex_opts) (update_cluster_fcg MaxFuse) ex_opts MaxFuse false fuel l_prog = Running.
Proof.
  split; [exact l_prog_ok|]. split; [discriminate|]. split; [apply first_of_sound|]. split.
  - intros s t p (L1 & L2 & L3 & _ & M). destruct s as [|a [|b [|]]]; try discriminate. destruct t as [|a' [|b' [|]]]; try discriminate. destruct p as [|n [|]]; try discriminate.
    pose proof (M _ (or_introl eq_refl)) as H1. pose proof (M _ (or_intror (or_introl eq_refl))) as H2. unfold holds, aff in H1, H2. cbn [is_eq coef app dot eq ge ExProg.eq ExProg.ge] in H1, H2.
    unfold timestamp. cbn [dfp_stmt s_trans mrows map]. unfold aff. cbn [dot app lexlt]. lia.
  - destruct C12_oracle_exists as [f F]. exists (dfs_empty f). split; [apply dfs_empty_exact; auto|]. intros fuel.
    enough (cluster_search (dfs_empty f) l_solve (build_cluster_fcg fm_lp ex_opts) (update_cluster_fcg MaxFuse) ex_opts MaxFuse false fuel (dfp_start l_prog) = KFuel) as E by (unfold cluster_transform; rewrite E; reflexivity).
    unfold cluster_search. cbv zeta.
    match goal with |- cluster_levels _ _ _ _ _ _ _ _ _ ?k0 = _ => let k' := eval vm_compute in k0 in replace k0 with k' by (vm_compute; reflexivity) end.
    change (seq 1 _) with [1;2]%nat. cbn [cluster_levels].
    match goal with |- match cluster_level _ _ _ _ _ _ _ _ 1 ?k0 with _ => _ end = _ => set (k := k0) end.
    pose (r := colour_scc_cluster (dfs_empty f) MaxFuse false 1 0 (mkK (k_state k) (k_col k) (k_fcg k) (k_rebuild k) [false])).
    assert (exists k2, cluster_shift (dfs_empty f) l_solve ex_opts false 1 (mark_done 0 (snd r)) = Some k2 /\
      let s := k_state k2 in let k3 := mkK (mkState (fst (dep_satisfaction_update (dfs_empty f) (st_prog s) (nrows0 (st_prog s) - 1))) (st_adj s) (st_num s) (st_max s))
             (k_col k2) (k_fcg k2) true (repeat false (st_num s)) in
      forall fuel, cluster_level (dfs_empty f) l_solve (build_cluster_fcg fm_lp ex_opts) (update_cluster_fcg MaxFuse) ex_opts MaxFuse false fuel 2 k3 = KFuel) as (k2 & E2 & E3).
    { match goal with |- exists k2, ?x = _ /\ _ => let v := eval vm_compute in x in match v with Some ?y => exists y end end.
      split; [vm_compute; reflexivity|]. cbv zeta.
      match goal with |- forall fuel, cluster_level _ _ _ _ _ _ _ fuel 2 ?x = _ => let v := eval vm_compute in x in replace x with v by (vm_compute; reflexivity) end.
      intros fuel'. unfold cluster_level. cbv zeta. cbn [k_state st_num]. match goal with |- context [cluster_loop _ _ _ _ _ _ 2 1 0 ?x] => set (k3 := x) end.
      rewrite (loop_stuck' (dfs_empty f) (build_cluster_fcg fm_lp ex_opts) (update_cluster_fcg MaxFuse) MaxFuse false 2 k3 (rebuild_cluster (build_cluster_fcg fm_lp ex_opts) 2 k3)); try (vm_compute; reflexivity); discriminate. }
    destruct (level_once (dfs_empty f) l_solve (build_cluster_fcg fm_lp ex_opts) (update_cluster_fcg MaxFuse) ex_opts MaxFuse false fuel 1 k (snd r) k2 eq_refl eq_refl ltac:(vm_compute; reflexivity) E2) as [E|E]; rewrite E; [reflexivity|].
    cbv zeta in E3. cbn [cluster_levels]. rewrite E3. reflexivity.
Qed.
Print Assumptions C96_terminates_refuted.
