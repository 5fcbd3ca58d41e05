(** * The conflict graph of clusters of statements (option clusterscc): what its edges mean. *)
From Coq Require Import ZArith QArith List Bool Arith Lia Lqa.
From Verif Require Import SpecLinear VecProofs MathModel ConstraintsModel SpecGraph GraphModel GraphProofs GraphProofs2 SpecProg SpecDriver SpecDfp SpecFcg
  FrameworkModel ProgModel ProgProofs DriverModel PadProofs AutoProofs KeepProofs DfpModel DfpProofs2 FcgModel FcgProofs FcgProofs2 FcgProofs3 ClusterModel TypedModel TypedProofs2 TypedProofs3 ClusterProofs3
  ExProg Checkers PropFramework PropAuto PropCone PropDfp PropFcg PropCluster PropTyped.
Import ListNotations.
Open Scope Z_scope.

(** ** C96.  The edges.

    [dfp_state s]: see C86 (PropFcg.v).  [in_scc pr i u]: statement [u] belongs to SCC
    [i] (PropTyped.v).  Vertex [scc_offset s i + j] stands for dimension [j] of SCC [i].
    The dependences that count are those among the statements considered that are
    not satisfied yet; read-after-read dependences only with the option rar. *)
Definition remains (o : options) (pr : prog) (d : dep) : Prop :=
  In d (p_deps pr) /\ d_sat d = false /\ (d_rar d = true -> o_rar o = true).

(** A dimension of an SCC without a level has no self edge exactly if the loops of
    the statements of this dimension can be scaled (not shifted) such that
    running all statements of the SCC by them reverses none of the dependences among
    them, with bounded distances. *)
Theorem C96_self : forall feasible o s col c i j,
  exact_lp feasible -> dfp_state s -> within o (st_prog s) 1 -> (i < st_num s)%nat -> (j < scc_dim s i)%nat ->
  let pr := st_prog s in
  let v := (scc_offset s i + j)%nat in
  (exists u, in_scc pr i u) -> (forall u, in_scc pr i u -> (j < s_dim_orig (stmt_of pr u))%nat) -> nth v col 0 = 0 ->
  (nth v (nth v (build_cluster_fcg feasible o s col c) []) 0 <> 1 <->
   exists (m : nat -> Q) u w, (forall st, in_scc pr i st -> (1 <= m st)%Q /\ within o pr (m st)) /\ bound_ok pr u w /\
     forall d, remains o pr d -> in_scc pr i (d_src d) -> in_scc pr i (d_dst d) -> ordered o pr d (line (m (d_src d)) 0 j) (line (m (d_dst d)) 0 j) u w).
Proof.
  intros feasible o s col c i j EX (W & PD & OF & NE) WI Hi Hj pr v (u0 & Hu0) La Cv. subst pr v.
  assert (forall u, In u (scc_stmts s i) -> is_loop (st_prog s) u j) as Aa by (intros u Hu; apply in_scc_stmts in Hu; split; [tauto|apply La; exact Hu]).
  assert (scc_stmts s i <> []) as AN by (intros E; assert (In u0 (scc_stmts s i)) as K by (apply in_scc_stmts; exact Hu0); rewrite E in K; destruct K).
  assert (wf_cst (self_cst o s i j)) as WF by (rewrite self_system by auto; apply conflict_wf).
  assert (feasible (self_cst o s i j) = true <-> exists (m : nat -> Q) u w, (forall st, in_scc (st_prog s) i st -> (1 <= m st)%Q /\ within o (st_prog s) (m st)) /\ bound_ok (st_prog s) u w /\
     forall d, remains o (st_prog s) d -> in_scc (st_prog s) i (d_src d) -> in_scc (st_prog s) i (d_dst d) -> ordered o (st_prog s) d (line (m (d_src d)) 0 j) (line (m (d_dst d)) 0 j) u w) as M.
  { rewrite (EX _ WF), (self_meaning o s W PD OF NE i j AN Aa). unfold inside, remains. split; intros (m & u & w & A & B & D); exists m, u, w.
    - split; [intros st Hs; apply A, in_scc_stmts; exact Hs|]. split; [exact B|]. intros d (K1 & K2 & K3) K4 K5. apply D. cbv beta. rewrite !in_scc_stmts. unfold in_scc in K4, K5. tauto.
    - split; [intros st Hs; apply A, in_scc_stmts; exact Hs|]. split; [exact B|]. intros d Hd. cbv beta in Hd. rewrite !in_scc_stmts in Hd. apply D; unfold in_scc; tauto. }
  rewrite <- M. split.
  - intros N. destruct (scc_has_deps o s i) eqn:HD; [exact (no_conflict_self o s feasible col c i j Hi Hj HD Cv N)|].
    apply M. exists (fun _ => 1%Q), (repeat 0%Q (p_npar (st_prog s))), 0%Q. split; [intros; split; [lra|exact WI]|]. split.
    + split; [apply repeat_length|]. split; [|lra]. intros q Hq. apply repeat_spec in Hq. subst q. lra.
    + intros d (K1 & K2 & K3) [_ K4] [_ K5]. exfalso. unfold scc_has_deps in HD. assert (In d (scc_deps o (st_prog s) (fun z => z =? Z.of_nat i))) as K.
      { apply in_scc_deps. rewrite K4, K5, Z.eqb_refl. tauto. }
      destruct (scc_deps _ _ _); [destruct K|discriminate].
  - intros F E. apply edge_reason in E. apply reason_self in E; auto. destruct E as (_ & _ & _ & _ & E). congruence.
Qed.
Print Assumptions C96_self.

Lemma closure_pos n g u v : wf_graph n g -> 0 < adj g u v -> 0 < adj (compute_transitive_closure n g) u v.
Proof.
  intros W P. unfold compute_transitive_closure. refine (proj2 (fold_inv (fun h => wf_graph n h /\ 0 < adj h u v) _ _ g (conj W P) _)).
  intros h i Hi A. apply in_seq in Hi. apply fold_inv; auto. intros h1 j Hj A1. apply in_seq in Hj. apply fold_inv; auto. intros h2 k Hk [W2 A2]. unfold closure_step.
  split; [apply set_adj_wf; auto; lia|]. rewrite (set_adj_get n) by (auto; lia). destruct (Nat.eqb_spec u i) as [->|], (Nat.eqb_spec v j) as [->|]; cbn [andb]; auto.
  unfold truth. rewrite (proj2 (Z.eqb_neq _ _)) by lia. cbn. lia.
Qed.
Lemma graph_nonneg pr u v : wf_prog pr -> 0 <= adj (graph_of pr) u v.
Proof.
  intros W. unfold graph_of, ddg_create. refine (proj2 (fold_inv (fun h => wf_graph (length (p_stmts pr)) h /\ 0 <= adj h u v) _ _ _ _ _)).
  - split; [apply wf_zero|rewrite adj_zero; lia].
  - intros h d Hd [W1 A1]. apply in_map_iff in Hd as (d0 & <- & Hd). pose proof (proj2 W _ Hd) as (D1 & D2 & _). cbn [to_ddep drar dsrc ddst dsat]. destruct (d_rar d0); [auto|].
    split; [apply set_adj_wf; auto|]. rewrite (set_adj_get (length (p_stmts pr))) by auto. destruct (_ && _) eqn:E; [|auto].
    apply andb_true_iff in E as [E1 E2]. apply Nat.eqb_eq in E1. apply Nat.eqb_eq in E2. subst. destruct (d_sat d0); lia.
Qed.
Lemma connected_edge s a b u v : in_scc (st_prog s) a u -> in_scc (st_prog s) b v -> 0 < adj (st_adj s) u v -> sccs_direct_connected s (Z.of_nat a) (Z.of_nat b) = true.
Proof.
  intros [U1 U2] [V1 V2] P. unfold sccs_direct_connected. cbv zeta. apply existsb_exists. exists u. split; [apply in_seq; lia|]. rewrite U2, Z.eqb_refl. cbn [andb].
  apply existsb_exists. exists v. split; [apply in_seq; lia|]. rewrite V2, Z.eqb_refl. apply Z.ltb_lt. exact P.
Qed.

(** Two SCCs with a dependence from the first to the second, two dimensions of them
    that have neither levels nor self edges: they are in conflict exactly if their
    loops cannot be scaled and shifted such that running all statements of the two
    SCCs by them reverses none of the dependences among them. *)
Theorem C96_pair : forall feasible o s col c a i b j d0,
  exact_lp feasible -> dfp_state s -> st_adj s = graph_of (st_prog s) ->
  (a < b < st_num s)%nat -> (i < scc_dim s a)%nat -> (j < scc_dim s b)%nat ->
  let pr := st_prog s in
  let v := (scc_offset s a + i)%nat in
  let w := (scc_offset s b + j)%nat in
  let g := build_cluster_fcg feasible o s col c in
  In d0 (p_deps pr) -> d_sat d0 = false -> d_rar d0 = false -> in_scc pr a (d_src d0) -> in_scc pr b (d_dst d0) ->
  (forall u, in_scc pr a u -> (i < s_dim_orig (stmt_of pr u))%nat) -> (forall u, in_scc pr b u -> (j < s_dim_orig (stmt_of pr u))%nat) ->
  nth v col 0 = 0 -> nth w col 0 = 0 -> nth v (nth v g []) 0 <> 1 -> nth w (nth w g []) 0 <> 1 ->
  (~ conflict g v w <->
   exists (m t : nat -> Q) u y,
     (forall st, in_scc pr a st \/ in_scc pr b st -> (1 <= m st)%Q /\ within o pr (m st) /\ (0 <= t st)%Q /\ within o pr (t st)) /\ bound_ok pr u y /\
     let time st := line (m st) (t st) (if s_scc (stmt_of pr st) =? Z.of_nat a then i else j) in
     forall d, remains o pr d -> in_scc pr a (d_src d) \/ in_scc pr b (d_src d) -> in_scc pr a (d_dst d) \/ in_scc pr b (d_dst d) ->
       ordered o pr d (time (d_src d)) (time (d_dst d)) u y).
Proof.
  intros feasible o s col c a i b j d0 EX (W & PD & OF & NE) EA Hab Hi Hj pr v w g I0 S0 R0 A0 B0 La Lb Cv Cw Gv Gw. subst pr v w g.
  assert (forall u, In u (scc_stmts s a) -> is_loop (st_prog s) u i) as Aa by (intros u Hu; apply in_scc_stmts in Hu; split; [tauto|apply La; exact Hu]).
  assert (forall u, In u (scc_stmts s b) -> is_loop (st_prog s) u j) as Ab by (intros u Hu; apply in_scc_stmts in Hu; split; [tauto|apply Lb; exact Hu]).
  assert (scc_stmts s a <> []) as AN by (intros E; assert (In (d_src d0) (scc_stmts s a)) as K by (apply in_scc_stmts; exact A0); rewrite E in K; destruct K).
  assert (0 < adj (graph_of (st_prog s)) (d_src d0) (d_dst d0)) as P.
  { pose proof (dep_edge _ d0 W I0 R0 S0) as E. unfold edge in E. pose proof (graph_nonneg _ (d_src d0) (d_dst d0) W). lia. }
  assert (scc_edge s a b = true) as SE by (apply (connected_edge s a b (d_src d0) (d_dst d0)); auto; rewrite EA; exact P).
  assert (cluster_distribute_pair s a b = false) as DP.
  { unfold cluster_distribute_pair. cbv zeta. rewrite (connected_edge _ a b (d_src d0) (d_dst d0)); auto. cbn [st_adj]. apply closure_pos; [apply graph_wf; auto|exact P]. }
  assert (wf_cst (pair_cst o s a i b j)) as WF by (rewrite (pair_system o s a i b j) by (auto; lia); apply inter_wf).
  assert (forall k l, (k < st_num s)%nat -> (l < scc_dim s k)%nat -> nth (scc_offset s k + l) col 0 = 0 -> adj (build_cluster_fcg feasible o s col c) (scc_offset s k + l) (scc_offset s k + l) <> 1 -> ~ bad feasible o s col c k l) as NB.
  { intros k l Hk Hl Cl N (B1 & B2 & B3 & B4 & B5). rewrite (no_conflict_self o s feasible col c k l) in B5; auto. discriminate. }
  transitivity (feasible (pair_cst o s a i b j) = true).
  - split.
    + intros N. eapply no_conflict_pair; eauto. intros K. apply N. left. exact K.
    + intros F [E|E]; apply edge_reason in E; apply reason_pair in E as [L E]; auto; try lia. destruct E as [[_ E]|[_ [E|[E|E]]]]; [congruence| | |congruence]; revert E; apply NB; auto; lia.
  - rewrite (EX _ WF), (pair_meaning o s W PD OF NE a i b j AN ltac:(lia) Aa Ab). unfold inside, remains. split; intros (m & t & u & y & A & B & D); exists m, t, u, y.
    + split; [intros st Hs; apply A; rewrite in_app_iff, !in_scc_stmts; exact Hs|]. split; [exact B|]. cbv zeta. intros d (K1 & K2 & K3) K4 K5. apply D. cbv beta. rewrite !in_app_iff, !in_scc_stmts. unfold in_scc in K4, K5. tauto.
    + split; [intros st Hs; apply A; rewrite in_app_iff, !in_scc_stmts in Hs; exact Hs|]. split; [exact B|]. intros d Hd. cbv beta in Hd. rewrite !in_app_iff, !in_scc_stmts in Hd. apply D; unfold in_scc; tauto.
Qed.
Print Assumptions C96_pair.

(** The program of C100: S0(i,j) is used by S1(i,j), S1(i,j) by S1(i,j+1) and by S2(i,j). *)
Example C96_edges_met : exact_lp fm_lp /\ dfp_state ty_state /\ within ex_opts (st_prog ty_state) 1 /\ st_adj ty_state = graph_of (st_prog ty_state) /\
  (1 < 2 < st_num ty_state)%nat /\ scc_dim ty_state 1 = 2%nat /\ scc_dim ty_state 2 = 2%nat /\
  in_scc (st_prog ty_state) 1 0 /\ in_scc (st_prog ty_state) 2 1 /\
  (exists d, In d (p_deps (st_prog ty_state)) /\ d_sat d = false /\ d_rar d = false /\ d_src d = 0%nat /\ d_dst d = 1%nat) /\
  let g := build_cluster_fcg fm_lp ex_opts ty_state (repeat 0 8) 1 in
  nth 2 (nth 2 g []) 0 = 0 /\ nth 4 (nth 4 g []) 0 = 0 /\ ~ conflict g 2 4 /\ conflict g 2 5.
Proof.
  destruct C100_parallel_met as (_ & DS & _). split; [exact fm_lp_exact|]. split; [exact DS|]. split; [vm_compute; discriminate|]. split; [vm_compute; reflexivity|].
  split; [vm_compute; lia|]. split; [vm_compute; reflexivity|]. split; [vm_compute; reflexivity|].
  split; [split; [vm_compute; lia|vm_compute; reflexivity]|]. split; [split; [vm_compute; lia|vm_compute; reflexivity]|].
  split.
  { assert (existsb (fun d => negb (d_sat d) && negb (d_rar d) && (d_src d =? 0)%nat && (d_dst d =? 1)%nat) (p_deps (st_prog ty_state)) = true) as E by (vm_compute; reflexivity).
    apply existsb_exists in E as (d & Hd & E). rewrite !andb_true_iff, !negb_true_iff, !Nat.eqb_eq in E. exists d. tauto. }
  cbv zeta. unfold conflict.
  assert (build_cluster_fcg fm_lp ex_opts ty_state (repeat 0 8) 1 = [[0; 1; 1; 1; 1; 1; 1; 1]; [1; 0; 1; 1; 1; 1; 1; 1]; [0; 0; 0; 1; 0; 1; 0; 0]; [0; 0; 1; 0; 1; 0; 0; 0];
    [0; 0; 0; 0; 0; 1; 0; 1]; [0; 0; 0; 0; 1; 0; 1; 0]; [0; 0; 0; 0; 0; 0; 0; 1]; [0; 0; 0; 0; 0; 0; 1; 0]]) as -> by (vm_compute; reflexivity).
  cbn [nth]. split; [reflexivity|]. split; [reflexivity|]. split; [intros [X|X]; discriminate|left; reflexivity].
Qed.

(** Shifts of the statements of one SCC are not considered: S0(i,j) is used by
    S1(i,j-1), S1(i,j) by S0(i+1,j+1).  Running S0 by j and S1 by j+1 reverses no
    dependence, but dimension j of the SCC gets a self edge, so that it cannot be used
    for the first level. *)
Definition sh_prog : prog := mkProg 2 1 (repeat dfp_stmt 2) [ex_dep 0 1 false (uni_dep 0 (-1)); ex_dep 1 0 false (uni_dep 1 1)] [H_LOOP; H_LOOP].
Lemma sh_prog_ok : input_ok sh_prog.
Proof. apply uni_ok. intros d H. simpl in H. intuition (subst; first [simpl; lia|apply uni_wf|reflexivity]). Qed.
Definition with_context (c : cst) : cst := mkCst (ncols c) (rows c ++ [ge [0;0;0;0;1;-1]]).
Lemma sh_deps : p_deps (st_prog (dfp_start sh_prog)) =
  [mkDep 0 1 false (uni_dep 0 (-1)) (with_context (uni_dep 0 (-1))) false (-1) [] []; mkDep 1 0 false (uni_dep 1 1) (with_context (uni_dep 1 1)) false (-1) [] []].
Proof. vm_compute. reflexivity. Qed.
Theorem C96_shift_refuted : input_ok sh_prog /\ st_num (dfp_start sh_prog) = 1%nat /\ scc_dim (dfp_start sh_prog) 0 = 2%nat /\
  let pr := st_prog (dfp_start sh_prog) in
  let shift u := if (u =? 0)%nat then 0%Q else 1%Q in
  (forall feasible, exact_lp feasible -> nth 1 (nth 1 (build_cluster_fcg feasible ex_opts (dfp_start sh_prog) [0;0] 1) []) 0 = 1) /\
  exists u w, bound_ok pr u w /\ forall d, In d (p_deps pr) -> ordered ex_opts pr d (line 1 (shift (d_src d)) 1) (line 1 (shift (d_dst d)) 1) u w.
Proof.
  split; [exact sh_prog_ok|]. split; [vm_compute; reflexivity|]. split; [vm_compute; reflexivity|]. cbv zeta. rewrite sh_deps. split.
  - intros feasible EX. destruct (Z.eq_dec (nth 1 (nth 1 (build_cluster_fcg feasible ex_opts (dfp_start sh_prog) [0;0] 1) []) 0) 1) as [E|E]; [exact E|exfalso].
    assert (dfp_state (dfp_start sh_prog)) as DS.
    { apply start_dfp_state; [exact sh_prog_ok|]. apply (points_check _ [[0;1;0;0;3]; [0;0;1;1;3]]). vm_compute. reflexivity. }
    assert (in_scc (st_prog (dfp_start sh_prog)) 0 0) as I0 by (split; [vm_compute; lia|vm_compute; reflexivity]).
    assert (in_scc (st_prog (dfp_start sh_prog)) 0 1) as I1 by (split; [vm_compute; lia|vm_compute; reflexivity]).
    destruct (proj1 (C96_self feasible ex_opts (dfp_start sh_prog) [0;0] 1%nat 0%nat 1%nat EX DS ltac:(vm_compute; discriminate) ltac:(vm_compute; lia) ltac:(vm_compute; lia)
      (ex_intro _ 0%nat I0) ltac:(intros u [Hu _]; assert (u < 2)%nat as Hu' by exact Hu; clear Hu; destruct u as [|[|u]]; [vm_compute; lia|vm_compute; lia|lia]) eq_refl) E) as (m & u & w & A & _ & D).
    destruct (D (nth 0 (p_deps (st_prog (dfp_start sh_prog))) (ex_dep 0 0 false (uni_dep 0 0)))) as [O _]; [rewrite sh_deps; split; [rewrite sh_deps; left; reflexivity|split; [reflexivity|discriminate]]|rewrite sh_deps; exact I0|rewrite sh_deps; exact I1|rewrite sh_deps in O].
    specialize (O eq_refl (zpoint [0;1]) (zpoint [0;0]) (zpoint [3]) eq_refl eq_refl eq_refl). unfold line in O. cbn [d_src d_dst nth zpoint map] in O.
    assert (m 0%nat * inject_Z 1 + 0 <= m 1%nat * inject_Z 0 + 0)%Q as K by (apply O; apply (qmem_of_mem (uni_dep 0 (-1)) [0;1;0;0;3]); apply memb_ok; vm_compute; reflexivity).
    destruct (A 0%nat I0) as [A0 _]. unfold inject_Z in K. lra.
  - exists [0%Q], 0%Q. split; [split; [reflexivity|]; split; [intros q [<-|[]]; lra|lra]|].
    intros d Hd. assert (forall dj (s t p : qpoint), length s = 2%nat -> length t = 2%nat -> length p = 1%nat -> forall di, qmem (uni_dep di dj) (s ++ t ++ p) -> (nth 1 t 0 == nth 1 s 0 + inject_Z dj)%Q) as U.
    { intros dj s t p Ls Lt Lp di [_ M]. destruct s as [|s0 [|s1 [|]]]; try discriminate. destruct t as [|t0 [|t1 [|]]]; try discriminate. destruct p as [|n [|]]; try discriminate.
      specialize (M _ (or_intror (or_introl eq_refl))). unfold qholds, qaff in M. cbn [is_eq coef app nth ExProg.eq eq qdot] in *.
      rewrite inject_Z_opp in M. unfold inject_Z in *. lra. }
    assert (forall c x, qmem (with_context c) x -> qmem c x) as WC by (intros c0 x [L H]; split; [exact L|intros r Hr; apply H, in_or_app; auto]).
    destruct Hd as [<-|[<-|[]]]; (split; intros _ s t p Ls Lt Lp M; try apply WC in M; pose proof (U _ s t p Ls Lt Lp _ M) as K; unfold line; cbn [d_src d_dst Nat.eqb]; unfold inject_Z in K; [lra|]);
      (destruct p as [|n [|]]; try discriminate; cbn [qqdot combine fold_right map]; lra).
Qed.
Print Assumptions C96_shift_refuted.
