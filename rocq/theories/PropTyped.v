(** * Typed fusion (options dfp, clusterscc and typedfuse): theorems. *)
From Coq Require Import ZArith QArith List Bool Arith Lia Lqa.
From Verif Require Import SpecLinear SpecMatrix VecProofs MathModel ConstraintsModel SpecGraph GraphModel SpecProg SpecDriver SpecDfp SpecFcg SpecTyped
  FrameworkModel ProgModel DriverModel DriverProofs DfpModel DfpProofs DfpProofs2 DfpProofs3 FcgModel FcgProofs FcgProofs2 FcgProofs3 ClusterModel ClusterProofs ClusterProofs2 TypedModel TypedProofs TypedProofs2 TypedProofs3
  ExProg Checkers PropFramework PropAuto PropCone PropDfp PropFcg PropCluster.
Import ListNotations.
Open Scope Z_scope.

(** ** C100.  The dimensions that typed fusion puts on one level.

    [dims s i] are the dimensions of the strongly connected component (SCC) [i],
    [col] the levels given so far (0: none), [g] the conflicts and [q] the pairs that
    lose parallelism.  Where SCC [i] can run in parallel, level [c] is given to one of
    its dimensions and to dimensions of later SCCs [m].  Only dimensions without a
    level that can run in parallel get one, one at least for each SCC of [m]; two
    dimensions of that level do not conflict, and their fusion loses no parallelism;
    the other SCCs come after [i] and can run in parallel themselves. *)
Theorem C100_greedy : forall s g q par c col i col' m,
  c <> 0 -> (i < st_num s)%nat -> scc_vertices s = length col ->
  colour_scc_cluster_greedy s g q par c i col = Some (col', m) ->
  length col' = length col /\
  (exists m', m = i :: m' /\ forall j, In j m' -> (i < j < st_num s)%nat /\ nth j par false = true) /\
  (forall j, In j m -> exists v, In v (dims s j) /\ nth v col 0 = 0 /\ nth v col' 0 = c) /\
  (forall v, nth v col' 0 <> nth v col 0 ->
     nth v col 0 = 0 /\ nth v col' 0 = c /\ nth v (nth v g []) 0 = 0 /\ nth v (nth v q []) 0 = 0 /\ exists j, In j m /\ In v (dims s j)) /\
  (forall v w, v <> w -> nth v col' 0 <> nth v col 0 -> (w < length col)%nat -> nth w col' 0 = c -> ~ conflict g v w /\ ~ loses_parallelism q v w).
Proof.
  intros s g q par c col i col' m Hc Hi HL H. destruct (greedy_given s g q par c col i Hc Hi HL col' m H) as [[A B C D] (m' & E & F)].
  split; [auto|]. split; [|split; [auto|split; [exact B|]]].
  - exists m'. split; [auto|]. intros j Hj. apply F, succ_in in Hj. tauto.
  - intros v w N X L Y. destruct (C v w N X L Y) as [C1 C2]. split; [auto|]. apply par_edge_false. auto.
Qed.
Print Assumptions C100_greedy.

(** If different dimensions of an SCC conflict, as in the graphs of the code, an SCC
    gets the level once. *)
Theorem C100_once : forall s g q par c col i col' m,
  c <> 0 -> (i < st_num s)%nat -> scc_vertices s = length col ->
  (forall j v w, (j < st_num s)%nat -> In v (dims s j) -> In w (dims s j) -> v <> w -> conflict g v w) ->
  colour_scc_cluster_greedy s g q par c i col = Some (col', m) ->
  forall j v w, (j < st_num s)%nat -> In v (dims s j) -> In w (dims s j) -> nth v col' 0 <> nth v col 0 -> nth w col' 0 = c -> v = w.
Proof.
  intros s g q par c col i col' m Hc Hi HL CF H j v w Hj Dv Dw X Y. destruct (C100_greedy _ _ _ _ _ _ _ _ _ Hc Hi HL H) as (_ & _ & _ & _ & K).
  destruct (Nat.eq_dec v w) as [|N]; [auto|exfalso]. assert (w < length col)%nat as L by (rewrite <- HL; eapply dims_lt; eauto).
  destruct (K v w N X L Y) as [K1 _]. apply K1. eapply CF; eauto.
Qed.
Print Assumptions C100_once.

(** The level is refused only if SCC [i] has no dimension for it. *)
Theorem C100_refused : forall s g q par c col i,
  colour_scc_cluster_greedy s g q par c i col = None <-> forall v, In v (dims s i) -> ~ parallel_choice g q c col v.
Proof.
  intros. unfold colour_scc_cluster_greedy. destruct (filter _ _) as [|v0 r] eqn:F.
  - split; [|auto]. intros _ v D P. apply usable_iff in P. assert (In v (filter (usable g q c col) (dims s i))) as X by (apply filter_In; auto). rewrite F in X. destruct X.
  - assert (In v0 (filter (usable g q c col) (dims s i))) as X by (rewrite F; left; auto). apply filter_In in X as [D U]. apply usable_iff in U.
    split; [|intros H; exfalso; exact (H v0 D U)]. cbv zeta. destruct (get_colouring_dim _ _ _); discriminate.
Qed.
Print Assumptions C100_refused.

(** Of the dimensions of SCC [i] one is taken that fits the most of the later SCCs
    under consideration, each looked at by itself; only SCCs that it fits are fused. *)
Theorem C100_choice : forall s g q par c col i col' m,
  c <> 0 -> (i < st_num s)%nat -> scc_vertices s = length col ->
  (forall v w, nth w (nth v g []) 0 = 0 \/ nth w (nth v g []) 0 = 1) ->
  colour_scc_cluster_greedy s g q par c i col = Some (col', m) ->
  let fits v j := exists w, In w (dims s j) /\ parallel_choice g q c col w /\ ~ conflict g w v /\ ~ loses_parallelism q w v in
  exists v m' L, m = i :: m' /\ In v (dims s i) /\ parallel_choice g q c col v /\ nth v col' 0 = c /\
    NoDup L /\ incl m' L /\ (forall j, In j L <-> In j (get_convex_parallel_successors s g par i) /\ fits v j) /\
    (forall v' L', In v' (dims s i) -> parallel_choice g q c col v' -> NoDup L' ->
       (forall j, In j L' -> In j (get_convex_parallel_successors s g par i) /\ fits v' j) -> (length L' <= length L)%nat).
Proof.
  intros s g q par c col i col' m Hc Hi HL HB H fits. destruct (greedy_choice s g q par c col i Hc Hi HL HB col' m H) as (v & m' & E & D & P & V & M & X).
  set (succs := get_convex_parallel_successors s g par i) in *.
  assert (forall v', NoDup (filter (shares s g q c col v') succs)) as ND.
  { intros v'. apply NoDup_filter. unfold succs, get_convex_parallel_successors, get_convex_successors. apply NoDup_filter, NoDup_filter.
    generalize (seq_NoDup (st_num s - S i) (S i)). generalize (seq (S i) (st_num s - S i)) as l. induction l as [|a l IH]; intros N; cbn [before_distribution]; [constructor|].
    destruct (cluster_must_distribute s g a); [constructor|]. inversion N as [|? ? N1 N2]; subst. constructor; [|auto]. intros K. apply before_in in K. auto. }
  assert (forall v' j, In j (filter (shares s g q c col v') succs) <-> In j succs /\ fits v' j) as FI.
  { intros v' j. rewrite filter_In, (shares_iff s g q c col v' j HB). reflexivity. }
  exists v, m', (filter (shares s g q c col v) succs). repeat (split; [solve [auto]|]). split; [|split; [auto|]].
  - intros j Hj. apply filter_In. auto.
  - intros v' L' D' P' N' I'. eapply Nat.le_trans; [|exact (X v' D' P')]. apply NoDup_incl_length; [auto|]. intros j Hj. apply FI. auto.
Qed.
Print Assumptions C100_choice.

(** A sequential SCC, or a stencil: a dimension is found whenever one of its
    dimensions without a level has no conflict (and, if the SCC is parallel, loses no
    parallelism); the one found is such a dimension, or has the level already. *)
Theorem C100_sequential : forall s g q par lpcolour c col i,
  (forall v w, nth w (nth v g []) 0 = 0 \/ nth w (nth v g []) 0 = 1) -> (forall v, 0 <= nth v col 0) ->
  let fine v := nth v (nth v g []) 0 = 0 /\
    forall w, (w < length col)%nat -> nth w col 0 = c -> ~ conflict g v w /\ (nth i par false = true -> ~ loses_parallelism q v w) in
  match try_vertices s g q par lpcolour c i col (scc_dim s i) [] with
  | Some v => In v (dims s i) /\ (nth v col 0 = 0 \/ nth v col 0 = c) /\ fine v
  | None => forall v, In v (dims s i) -> nth v col 0 = 0 -> ~ fine v
  end.
Proof.
  intros s g q par lpcolour c col i HB HP fine.
  assert (forall v, accepted g q par c i col v = true <-> (nth v col 0 = 0 \/ nth v col 0 = c) /\ fine v) as AC.
  { intros v. unfold accepted, colourable, fine. rewrite !andb_true_iff, !negb_true_iff, valid_iff, !andb_false_iff, negb_false_iff, Z.ltb_ge, Z.eqb_eq, Z.eqb_neq, par_preventing_iff.
    pose proof (HB v v) as B. pose proof (HP v) as P. unfold adj. split.
    - intros (((A1 & A2) & A3) & A4). split; [lia|]. split; [lia|]. intros w L E. split; [auto|]. intros Pr. destruct A4 as [A4|A4]; [congruence|auto].
    - intros (A1 & A2 & A3). split; [split; [split; lia|]|].
      + intros w L E. exact (proj1 (A3 w L E)).
      + destruct (nth i par false); [right|left; auto]. intros w L E. exact (proj2 (A3 w L E) eq_refl). }
  destruct (try_vertices s g q par lpcolour c i col (scc_dim s i) []) as [v|] eqn:T.
  - apply try_sound in T as [T1 T2]. apply AC in T2. tauto.
  - intros v D Z0 F. assert (accepted g q par c i col v = true) as X by (apply AC; auto).
    rewrite (try_complete s g q par lpcolour c i col (scc_dim s i) [] (NoDup_nil _) ltac:(intros x []) ltac:(cbn [length]; lia) ltac:(intros x []) T v D Z0) in X; [discriminate|].
    destruct F as [F _]. unfold is_adjacent, adj. rewrite F. reflexivity.
Qed.
Print Assumptions C100_sequential.

(** If dependences lead to SCCs with larger numbers only, no chain of dependences
    leads from SCC [i] through an SCC in between to one fused with it. *)
Theorem C100_convex : forall s g q par c col i col' m,
  c <> 0 -> (i < st_num s)%nat -> scc_vertices s = length col ->
  let edge a b := (a < st_num s)%nat /\ (b < st_num s)%nat /\ a <> b /\ scc_edge s a b = true in
  (forall a b, edge a b -> (a < b)%nat) ->
  colour_scc_cluster_greedy s g q par c i col = Some (col', m) ->
  forall j x, In j m -> j <> i -> ~ (chain edge i x /\ chain edge x j).
Proof.
  intros s g q par c col i col' m Hc Hi HL edge T H j x Hj N [C1 C2].
  destruct (greedy_given s g q par c col i Hc Hi HL col' m H) as [_ (m' & E & F)]. subst m. destruct Hj as [<-|Hj]; [congruence|].
  apply F, succ_in in Hj as (Lj & _ & CV). rewrite convex_spec in CV by lia.
  assert (forall a b, edge a b -> (a <= b)%nat) as T' by (intros a b K; specialize (T a b K); lia).
  apply chain_first in C1 as (y1 & E1 & K1). apply chain_last in C2 as (y2 & E2 & K2).
  assert (y1 <= x)%nat as L1 by (destruct K1 as [->|K1]; [auto|exact (chain_le edge T' _ _ K1)]).
  assert (x <= y2)%nat as L2 by (destruct K2 as [->|K2]; [auto|exact (chain_le edge T' _ _ K2)]).
  pose proof (T _ _ E1). pose proof (T _ _ E2). destruct E1 as (_ & B1 & _ & G1). destruct E2 as (_ & _ & _ & G2).
  specialize (CV y1 y2 ltac:(lia) ltac:(lia) G1 G2). lia.
Qed.
Print Assumptions C100_convex.

(** *** What the two matrices say

    [in_scc pr i u]: statement [u] belongs to SCC [i].  For dimensions without a level
    of two connected SCCs of which one can run in parallel, and where fusion of the
    two is not excluded from the test, the absence of an edge in both matrices means
    this: the statements can run by these dimensions, scaled and shifted by
    non-negative amounts, so that no dependence among them is carried: both of its
    ends run at the same time.  This holds for SCCs whose statements all have the
    dimension, and with distances that are bounded (option nodepbound off). *)
Definition in_scc (pr : prog) (i u : nat) : Prop := (u < length (p_stmts pr))%nat /\ s_scc (stmt_of pr u) = Z.of_nat i.
Theorem C100_pair_parallel : forall lp o hybridcut s hyp sten col c g q par a i b j,
  zero_lp lp -> dfp_state s -> o_nodepbound o = false -> build_typed lp o hybridcut s hyp sten col c = (g, q, par) ->
  (a < b < st_num s)%nat -> (i < scc_dim s a)%nat -> (j < scc_dim s b)%nat -> scc_edge s a b = true ->
  (nth a par false = true \/ nth b par false = true) -> (hybridcut = true -> nth a hyp false = true -> nth b hyp false = false) ->
  (nth a sten false = true -> nth b sten false = false) ->
  let pr := st_prog s in
  let v := (scc_offset s a + i)%nat in
  let w := (scc_offset s b + j)%nat in
  (forall u, in_scc pr a u -> (i < s_dim_orig (stmt_of pr u))%nat) -> (forall u, in_scc pr b u -> (j < s_dim_orig (stmt_of pr u))%nat) ->
  nth v col 0 = 0 -> nth w col 0 = 0 -> nth v (nth v g []) 0 = 0 -> nth w (nth w g []) 0 = 0 -> ~ conflict g v w -> ~ loses_parallelism q v w ->
  exists m t : nat -> Q,
    (forall u, in_scc pr a u \/ in_scc pr b u -> (1 <= m u)%Q /\ within o pr (m u) /\ (0 <= t u)%Q /\ within o pr (t u)) /\
    let time u := line (m u) (t u) (if s_scc (stmt_of pr u) =? Z.of_nat a then i else j) in
    forall d, In d (p_deps pr) -> d_sat d = false -> d_rar d = false -> in_scc pr a (d_src d) \/ in_scc pr b (d_src d) -> in_scc pr a (d_dst d) \/ in_scc pr b (d_dst d) ->
      in_step pr d (time (d_src d)) (time (d_dst d)).
Proof.
  intros lp o hybridcut s hyp sten col c g q par a i b j ZL (W & PD & OF & NE) NB B Hab Hi Hj E P HH HS pr v w La Lb Cv Cw Gv Gw G Q. subst pr v w.
  assert (wants_check hybridcut par hyp sten a b = true) as WC.
  { unfold wants_check. rewrite !andb_true_iff, !negb_true_iff, orb_true_iff. split; [split; [|auto]|].
    - destruct hybridcut, (nth a hyp false); auto.
    - destruct (nth a sten false); auto. }
  assert (forall u, In u (scc_stmts s a) -> is_loop (st_prog s) u i) as Aa by (intros u Hu; apply in_scc_stmts in Hu; split; [tauto|apply La; exact Hu]).
  assert (forall u, In u (scc_stmts s b) -> is_loop (st_prog s) u j) as Ab by (intros u Hu; apply in_scc_stmts in Hu; split; [tauto|apply Lb; exact Hu]).
  pose proof (no_edge_pair lp o hybridcut s hyp sten col c a i b j g q par B Hab Hi Hj E WC Cv Cw) as X. unfold adj in X.
  assert (lp_parallel lp (st_prog s) (pair_cst o s a i b j) = true) as LP.
  { apply X; [rewrite Gv; discriminate|rewrite Gw; discriminate| |]; intros K; [apply G; left; exact K|apply Q; left; rewrite K; discriminate]. }
  unfold lp_parallel in LP. destruct (lp (st_prog s) (pair_cst o s a i b j)) as [[|]|] eqn:EL; try discriminate.
  assert (wf_cst (pair_cst o s a i b j)) as WF by (rewrite (pair_system o s a i b j) by (auto; lia); apply inter_wf).
  destruct (ZL (st_prog s) _ WF) as [_ ZT]. destruct (ZT EL) as (x & M & Z).
  destruct (pair_zero o s W PD OF a i b j x NB ltac:(lia) Aa Ab M Z) as (m & t & A & D). exists m, t. split.
  - intros u Hu. apply A. unfold in_scc in Hu. rewrite !in_scc_stmts. exact Hu.
  - cbv zeta. intros d Hd S R K1 K2. apply D; auto; rewrite in_app_iff, !in_scc_stmts; auto.
Qed.
Print Assumptions C100_pair_parallel.

(** The same for one dimension of an SCC, without shifts. *)
Theorem C100_self_parallel : forall lp o hybridcut s hyp sten col c g q par i j,
  zero_lp lp -> dfp_state s -> o_nodepbound o = false -> build_typed lp o hybridcut s hyp sten col c = (g, q, par) ->
  (i < st_num s)%nat -> (j < scc_dim s i)%nat ->
  let pr := st_prog s in
  let v := (scc_offset s i + j)%nat in
  (forall u, in_scc pr i u -> (j < s_dim_orig (stmt_of pr u))%nat) ->
  nth v col 0 = 0 -> nth v (nth v g []) 0 = 0 -> nth v (nth v q []) 0 = 0 ->
  exists m : nat -> Q, (forall u, in_scc pr i u -> (1 <= m u)%Q) /\
    forall d, In d (p_deps pr) -> d_sat d = false -> d_rar d = false -> in_scc pr i (d_src d) -> in_scc pr i (d_dst d) ->
      in_step pr d (line (m (d_src d)) 0 j) (line (m (d_dst d)) 0 j).
Proof.
  intros lp o hybridcut s hyp sten col c g q par i j ZL (W & PD & OF & NE) NB B Hi Hj pr v La Cv Gv Qv. subst pr v.
  assert (forall u, In u (scc_stmts s i) -> is_loop (st_prog s) u j) as Aa by (intros u Hu; apply in_scc_stmts in Hu; split; [tauto|apply La; exact Hu]).
  destruct (scc_has_deps o s i) eqn:HD.
  - pose proof (no_edge_self lp o hybridcut s hyp sten col c i j g q par B Hi Hj HD Cv) as X. unfold adj in X. rewrite Gv, Qv in X. specialize (X ltac:(discriminate) ltac:(discriminate)).
    unfold lp_parallel in X. destruct (lp (st_prog s) (self_cst o s i j)) as [[|]|] eqn:EL; try discriminate.
    assert (wf_cst (self_cst o s i j)) as WF by (rewrite self_system by auto; apply conflict_wf).
    destruct (ZL (st_prog s) _ WF) as [_ ZT]. destruct (ZT EL) as (x & M & Z). destruct (self_zero o s W PD OF i j x NB Aa M Z) as (m & A & D). exists m. split.
    + intros u Hu. apply A. apply in_scc_stmts. exact Hu.
    + intros d Hd S R [_ K1] [_ K2]. apply D; auto.
  - exists (fun _ => 1%Q). split; [intros; lra|]. intros d Hd S R [_ K1] [_ K2] s1 t p _ _ _ _ _. exfalso. unfold scc_has_deps in HD.
    assert (In d (scc_deps o (st_prog s) (fun z => z =? Z.of_nat i))) as K.
    { apply in_scc_deps. rewrite K1, K2, Z.eqb_refl. repeat (split; [solve [auto|congruence]|]). auto. }
    destruct (scc_deps _ _ _); [destruct K|discriminate].
Qed.
Print Assumptions C100_self_parallel.

(** An SCC is called parallel only if it has no dependences left, or a dimension
    without a level that carries none of them. *)
Theorem C100_flag : forall lp o hybridcut s hyp sten col c g q par i,
  zero_lp lp -> dfp_state s -> o_nodepbound o = false -> build_typed lp o hybridcut s hyp sten col c = (g, q, par) ->
  (i < st_num s)%nat -> nth i par false = true ->
  let pr := st_prog s in
  (forall u, in_scc pr i u -> (scc_dim s i <= s_dim_orig (stmt_of pr u))%nat) ->
  (forall d, In d (p_deps pr) -> d_sat d = false -> d_rar d = false -> in_scc pr i (d_src d) -> in_scc pr i (d_dst d) -> False) \/
  exists j m, (j < scc_dim s i)%nat /\ (forall u, in_scc pr i u -> (1 <= m u)%Q) /\
    forall d, In d (p_deps pr) -> d_sat d = false -> d_rar d = false -> in_scc pr i (d_src d) -> in_scc pr i (d_dst d) ->
      in_step pr d (line (m (d_src d)) 0 j) (line (m (d_dst d)) 0 j).
Proof.
  intros lp o hybridcut s hyp sten col c g q par i ZL (W & PD & OF & NE) NB B Hi HP pr La. subst pr. unfold build_typed in B. injection B as _ _ B. rewrite <- B in HP.
  rewrite (nth_indep _ false (scc_is_parallel lp o s col c 0)) in HP by (rewrite map_length, seq_length; auto). rewrite List.map_nth, seq_nth in HP by auto. cbn [Nat.add] in HP.
  unfold scc_is_parallel in HP. apply orb_true_iff in HP as [HP|HP].
  - left. intros d Hd S R [_ K1] [_ K2]. apply negb_true_iff in HP. unfold scc_has_deps in HP.
    assert (In d (scc_deps o (st_prog s) (fun z => z =? Z.of_nat i))) as K.
    { apply in_scc_deps. rewrite K1, K2, Z.eqb_refl. repeat (split; [solve [auto|congruence]|]). auto. }
    destruct (scc_deps _ _ _); [destruct K|discriminate].
  - right. apply existsb_exists in HP as (j & Hj & HP). apply in_seq in Hj. apply andb_true_iff in HP as [_ HP].
    assert (forall u, In u (scc_stmts s i) -> is_loop (st_prog s) u j) as Aa by (intros u Hu; apply in_scc_stmts in Hu; split; [tauto|specialize (La u Hu); lia]).
    unfold lp_parallel in HP. destruct (lp (st_prog s) (self_cst o s i j)) as [[|]|] eqn:EL; try discriminate.
    assert (wf_cst (self_cst o s i j)) as WF by (rewrite self_system by auto; apply conflict_wf).
    destruct (ZL (st_prog s) _ WF) as [_ ZT]. destruct (ZT EL) as (x & M & Z). destruct (self_zero o s W PD OF i j x NB Aa M Z) as (m & A & D). exists j, m. split; [lia|]. split.
    + intros u Hu. apply A. apply in_scc_stmts. exact Hu.
    + intros d Hd S R [_ K1] [_ K2]. apply D; auto.
Qed.
Print Assumptions C100_flag.

(** A solver that prefers solutions with zero distances. *)
Definition ex_zero (pr : prog) (c : cst) : cst := mkCst (ncols c) (rows c ++ map (fun j => mkRow true (set_nth j 1 (repeat 0 (ncols c)))) (seq 0 (min (p_npar pr + 1) (ncols c - 1)))).
Definition ex_typed_lp (pr : prog) (c : cst) : option bool := if fm_lp (ex_zero pr c) then Some true else if fm_lp c then Some false else None.

Lemma ex_zero_wf pr c : wf_cst c -> wf_cst (ex_zero pr c).
Proof.
  intros [W1 W2]. split; cbn [ncols rows ex_zero]; [auto|]. intros r Hr. apply in_app_or in Hr as [Hr|Hr]; [auto|]. apply in_map_iff in Hr as (i & <- & _).
  cbn [coef]. rewrite set_nth_length, repeat_length. reflexivity.
Qed.
Lemma ex_zero_point pr c x : qmem (ex_zero pr c) x -> qmem c x /\ forall i, (i <= p_npar pr)%nat -> (nth i x 0 == 0)%Q.
Proof.
  intros [L H]. unfold ex_zero in *. cbn [ncols rows] in *. split; [split; [auto|intros r Hr; apply H, in_or_app; auto]|]. intros i Hi.
  destruct (le_lt_dec (length x) i) as [G|G]; [rewrite nth_overflow by auto; reflexivity|].
  assert (qholds x (mkRow true (set_nth i 1 (repeat 0 (ncols c))))) as K.
  { apply H, in_or_app. right. apply in_map_iff. exists i. split; [auto|]. apply in_seq. lia. }
  unfold qholds in K. cbn [is_eq coef] in K. rewrite qaff_row0 in K by (auto; lia). unfold inject_Z in K. lra.
Qed.
Lemma ex_typed_zero : zero_lp ex_typed_lp.
Proof.
  intros pr c W. unfold ex_typed_lp. pose proof (fm_lp_exact _ (ex_zero_wf pr c W)) as Z. pose proof (fm_lp_exact _ W) as F.
  destruct (fm_lp (ex_zero pr c)); split; intros H; try discriminate.
  - destruct (proj1 Z eq_refl) as (x & M). exists x. apply ex_zero_point. auto.
  - intros X. apply F in X. rewrite X in H. discriminate.
  - destruct (fm_lp c); discriminate.
Qed.

(** S0(i,j) is used by S1(i,j), S1(i,j) by S1(i,j+1) and by S2(i,j); S3 is independent.
    The SCCs are S3, S0, S1, S2 in this order. *)
Definition ty_prog : prog := mkProg 2 1 (repeat dfp_stmt 4)
  [ex_dep 0 1 false (uni_dep 0 0); ex_dep 1 1 false (uni_dep 0 1); ex_dep 1 2 false (uni_dep 0 0)] [H_LOOP; H_LOOP].
Definition ty_state := dfp_start ty_prog.
Definition ty_graphs := build_typed ex_typed_lp ex_opts false ty_state [] [] [1;0;1;0;1;0;1;0] 2.

Lemma ty_prog_ok : input_ok ty_prog.
Proof. apply uni_ok. intros d H. simpl in H. intuition (subst; first [simpl; lia|apply uni_wf|reflexivity]). Qed.
Lemma points_check l pts : forallb (fun d => existsb (memb (d_poly d)) pts && existsb (memb (d_bpoly d)) pts) l = true ->
  forall d, In d l -> exists x y, memb (d_poly d) x = true /\ memb (d_bpoly d) y = true.
Proof.
  intros H d Hd. rewrite forallb_forall in H. apply H, andb_true_iff in Hd as [A B]. apply existsb_exists in A as (x & _ & A). apply existsb_exists in B as (y & _ & B). eauto.
Qed.
(** S0 and S1 can be fused by their first dimensions; the second dimension of S1 is
    not parallel, so its fusion with that of S0 is. *)
Example C100_parallel_met : zero_lp ex_typed_lp /\ dfp_state ty_state /\ o_nodepbound ex_opts = false /\
  (forall i u j, in_scc (st_prog ty_state) i u -> (j < scc_dim ty_state i)%nat -> (j < s_dim_orig (stmt_of (st_prog ty_state) u))%nat) /\
  exists g q par, build_typed ex_typed_lp ex_opts false ty_state [] [] (repeat 0 8) 1 = (g, q, par) /\
  (1 < 2 < st_num ty_state)%nat /\ scc_dim ty_state 1 = 2%nat /\ scc_dim ty_state 2 = 2%nat /\ scc_edge ty_state 1 2 = true /\ par = [true; true; true; true] /\
  nth 2 (nth 2 g []) 0 = 0 /\ nth 4 (nth 4 g []) 0 = 0 /\ ~ conflict g 2 4 /\ ~ loses_parallelism q 2 4 /\
  nth 2 (nth 2 q []) 0 = 0 /\ nth 4 (nth 4 q []) 0 = 0 /\ nth 5 (nth 5 q []) 0 = 1.
Proof.
  split; [exact ex_typed_zero|]. split; [apply start_dfp_state; [exact ty_prog_ok|]|].
  - apply (points_check _ [[0;1;0;1;3]; [0;1;0;2;3]]). vm_compute. reflexivity.
  - split; [reflexivity|]. split.
    + intros i u j [Hu Hs] Hj. assert (length (p_stmts (st_prog ty_state)) = 4%nat) as E4 by (vm_compute; reflexivity). rewrite E4 in Hu. assert (s_dim_orig (stmt_of (st_prog ty_state) u) = 2%nat) as ->.
      { destruct u as [|[|[|[|u]]]]; try (vm_compute; reflexivity). lia. }
      assert (i = Z.to_nat (s_scc (stmt_of (st_prog ty_state) u))) as -> by lia. clear Hs.
      assert (scc_dim ty_state (Z.to_nat (s_scc (stmt_of (st_prog ty_state) u))) = 2%nat) as E2 by (destruct u as [|[|[|[|u]]]]; try (vm_compute; reflexivity); lia).
      rewrite E2 in Hj. exact Hj.
    + do 3 eexists. split; [vm_compute; reflexivity|]. unfold conflict, loses_parallelism. cbn [nth].
      repeat (split; [solve [vm_compute; lia|vm_compute; reflexivity|vm_compute; intros [X|X]; lia]|]). reflexivity.
Qed.

(** The hypotheses of the theorems above are met for the second level of this program. *)
Example C100_met : let '(g, q, par) := ty_graphs in
  2 <> 0 /\ (0 < st_num ty_state)%nat /\ scc_vertices ty_state = length [1;0;1;0;1;0;1;0] /\
  (forall v w, nth w (nth v g []) 0 = 0 \/ nth w (nth v g []) 0 = 1) /\
  (forall j v w, (j < st_num ty_state)%nat -> In v (dims ty_state j) -> In w (dims ty_state j) -> v <> w -> conflict g v w) /\
  (forall a b, (a < st_num ty_state)%nat /\ (b < st_num ty_state)%nat /\ a <> b /\ scc_edge ty_state a b = true -> (a < b)%nat) /\
  colour_scc_cluster_greedy ty_state g q par 2 0 [1;0;1;0;1;0;1;0] = Some ([1;2;1;2;1;0;1;2], [0;1;3]%nat).
Proof.
  assert (forall l : list Z, forallb (fun x => (x =? 0) || (x =? 1)) l = true -> forall w, nth w l 0 = 0 \/ nth w l 0 = 1) as BR.
  { intros l H w. destruct (Nat.lt_ge_cases w (length l)) as [L|L]; [|left; apply nth_overflow; auto]. rewrite forallb_forall in H.
    specialize (H _ (nth_In l 0 L)). apply orb_true_iff in H. rewrite !Z.eqb_eq in H. auto. }
  assert (forall g, forallb (forallb (fun x => (x =? 0) || (x =? 1))) g = true -> forall v w, nth w (nth v g []) 0 = 0 \/ nth w (nth v g []) 0 = 1) as BM.
  { intros g H v w. apply BR. destruct (Nat.lt_ge_cases v (length g)) as [L|L]; [|rewrite nth_overflow by auto; reflexivity]. rewrite forallb_forall in H. apply H, nth_In, L. }
  vm_compute ty_graphs. split; [lia|]. split; [vm_compute; lia|]. split; [vm_compute; reflexivity|]. split; [apply BM; reflexivity|]. split; [|split].
  - assert (st_num ty_state = 4%nat) as -> by (vm_compute; reflexivity). intros j v w Hj Dv Dw N.
    destruct j as [|[|[|[|j]]]]; [| | | |lia]; vm_compute in Dv, Dw; destruct Dv as [<-|[<-|[]]]; destruct Dw as [<-|[<-|[]]]; try congruence; left; vm_compute; reflexivity.
  - assert (st_num ty_state = 4%nat) as -> by (vm_compute; reflexivity). intros a b (La & Lb & N & E).
    destruct a as [|[|[|[|a]]]]; [| | | |lia]; (destruct b as [|[|[|[|b]]]]; [| | | |lia]); try congruence; try lia; vm_compute in E; discriminate.
  - vm_compute. reflexivity.
Qed.
Example C100_refused_met : let '(g, q, par) := ty_graphs in
  colour_scc_cluster_greedy ty_state g q par 2 2 [1;2;1;2;1;0;1;2] = None /\
  try_vertices ty_state g q par false 2 2 [1;2;1;2;1;0;1;2] (scc_dim ty_state 2) [] = Some 5%nat /\
  try_vertices ty_state [[0;1];[1;1]] q par true 2 0 [1;0] 2 [] = None.
Proof. vm_compute. auto. Qed.

(** The SCCs fused on a level are not convex as a group: S3 is fused with S0 and S2,
    although S1, which runs between these two, is not fused with them. *)
Theorem C100_group_refuted : exists s g q par c col i col' m a x b,
  build_typed ex_typed_lp ex_opts false s [] [] col (Z.to_nat c) = (g, q, par) /\
  colour_scc_cluster_greedy s g q par c i col = Some (col', m) /\
  In a m /\ In b m /\ ~ In x m /\ scc_edge s a x = true /\ scc_edge s x b = true /\ (a < x < b)%nat.
Proof.
  exists ty_state, (fst (fst ty_graphs)), (snd (fst ty_graphs)), (snd ty_graphs), 2, [1;0;1;0;1;0;1;0], 0%nat, [1;2;1;2;1;0;1;2], [0;1;3]%nat, 1%nat, 2%nat, 3%nat.
  split; [vm_compute; reflexivity|]. split; [vm_compute; reflexivity|]. split; [right; left; auto|]. split; [right; right; left; auto|].
  split; [intros [E|[E|[E|[]]]]; discriminate|]. split; [vm_compute; reflexivity|]. split; [vm_compute; reflexivity|]. lia.
Qed.
Print Assumptions C100_group_refuted.

(** The dimension taken is not the one that can be fused with the most SCCs: the SCCs
    that fit it may not fit each other.  Here three later SCCs fit the first dimension
    of the first SCC, one is fused; with the second dimension there would be two. *)
Definition nf_g : fcg := [[0;1;0;1;0;1;0;1]; [1;0;1;0;1;0;1;1]; [0;1;0;1;0;0;0;0]; [1;0;1;0;0;0;0;0]; [0;1;0;0;0;1;0;0]; [1;0;0;0;1;0;0;0]; [0;1;0;0;0;0;0;1]; [1;1;0;0;0;0;1;0]].
Definition nf_q : fcg := [[]; []; [0;0;0;0;1;0;1;0]; []; [0;0;0;0;0;0;1;0]; []; []; []].
Definition nf_state := dfp_start (mkProg 2 1 (repeat dfp_stmt 4) [] [H_LOOP; H_LOOP]).
Theorem C100_most_refuted : exists s g q par c col i col' m v,
  colour_scc_cluster_greedy s g q par c i col = Some (col', m) /\ In v (dims s i) /\ parallel_choice g q c col v /\
  (length m < length (i :: snd (colour_convex_successors s g q v (get_convex_parallel_successors s g par i) c (set_nth v c col))))%nat.
Proof.
  exists nf_state, nf_g, nf_q, [true;true;true;true], 1, [0;0;0;0;0;0;0;0], 0%nat, [1;0;1;0;0;0;0;0], [0;1]%nat, 1%nat.
  split; [vm_compute; reflexivity|]. split; [vm_compute; auto|]. split; [apply usable_iff; vm_compute; reflexivity|]. vm_compute. lia.
Qed.
Print Assumptions C100_most_refuted.

(** The pairs that lose parallelism are to be found for SCCs of which one can run in
    parallel; but after the first such pair they are found for all the others too.
    S2(i) is used by S3(i); S0 and S1 are sequential, S0(i) is used by S1(i) and
    S1(i+1).  The SCCs are S2, S3, S0, S1 in this order. *)
Definition sq_dep (d : Z) : cst := mkCst 4 [eq [-1;1;0;-d]; ge [1;0;0;0]; ge [-1;0;1;-1]; ge [0;1;0;0]; ge [0;-1;1;-1]].
Definition sq_stmt : stmt := mkStmt 1 1 [true] (mkCst 3 [ge [1;0;0]; ge [-1;1;-1]]) (mkMat 3 [[1;0;0]]) [H_LOOP] 0 0 [] [] None 0 (-1) (-1).
Definition sq_prog : prog := mkProg 1 1 (repeat sq_stmt 4)
  [ex_dep 2 3 false (sq_dep 0); ex_dep 0 0 false (sq_dep 1); ex_dep 1 1 false (sq_dep 1); ex_dep 0 1 false (sq_dep 0); ex_dep 0 1 false (sq_dep 1)] [H_LOOP].
Definition sq_state := dfp_start sq_prog.
Theorem C100_check_refuted : exists s col a b g q par v w,
  let none := repeat false (st_num s) in
  build_typed ex_typed_lp ex_opts false s none none col 1 = (g, q, par) /\
  (a < b < st_num s)%nat /\ nth a par false = false /\ nth b par false = false /\
  In v (dims s a) /\ In w (dims s b) /\ loses_parallelism q v w.
Proof.
  exists sq_state, [0;0;0;0], 2%nat, 3%nat, [[0;0;1;1]; [0;0;1;1]; [0;0;0;0]; [0;0;0;0]], [[0;0;0;0]; [0;0;0;0]; [0;0;1;1]; [0;0;0;1]], [true;true;false;false], 2%nat, 3%nat.
  cbv zeta. split; [vm_compute; reflexivity|]. split; [vm_compute; lia|]. split; [reflexivity|]. split; [reflexivity|]. split; [vm_compute; auto|]. split; [vm_compute; auto|].
  left. vm_compute. discriminate.
Qed.
Print Assumptions C100_check_refuted.

(** ** C101.  Typed fusion keeps the order of dependent instances.

    Whatever graphs are built ([build], [refresh]), whichever SCCs are called stencils
    ([sten]), and for any number [fuel] of steps within which the search ends: if no
    skewing was introduced, the result is the same program, all statements have times
    with one component per level, and the target of a dependence instance never runs
    before its source; it runs at the same time only if the target's statement leads
    back to the source's.  Missing: skewed results. *)
Theorem C101_order_partial : forall is_emptyb solve build refresh o lpcolour hybridcut delayed_cut fuel sten pr pr',
  exact_empty is_emptyb -> solver_sound solve -> input_ok pr -> p_stmts pr <> [] ->
  typed_transform is_emptyb solve build refresh o lpcolour hybridcut delayed_cut fuel sten pr = Transformed pr' false ->
  same_program pr pr' /\
  (forall s i p, (s < length (p_stmts pr))%nat -> length i = s_dim (stmt_of pr s) -> length p = p_npar pr ->
     length (timestamp (stmt_of pr' s) i p) = length (p_hprops pr')) /\
  (forall d, In d (p_deps pr) -> d_rar d = false -> forall s t p, instance pr d s t p ->
     lexlt (timestamp (stmt_of pr' (d_src d)) s p) (timestamp (stmt_of pr' (d_dst d)) t p) \/
     (timestamp (stmt_of pr' (d_src d)) s p = timestamp (stmt_of pr' (d_dst d)) t p /\ depends pr (d_dst d) (d_src d))).
Proof. intros is_emptyb solve build refresh o lpcolour hybridcut dc fuel sten pr pr' EX SOL IN NE H. exact (typed_success is_emptyb solve build refresh o lpcolour hybridcut dc EX SOL fuel sten pr pr' IN NE H). Qed.
Print Assumptions C101_order_partial.

(** S0(i,j) depends on S0(i-1,j) and S0(i,j-1), S1(i,j) on S0(i,j+1): S1 could run in
    parallel, and is separated from S0. *)
Example C101_met : input_ok d_prog /\ solver_sound d_solve /\ p_stmts d_prog <> [] /\
  exists f, exact_empty f /\
  view_outcome (typed_transform f d_solve (build_typed ex_typed_lp ex_opts false) update_typed ex_opts false false false 40 [false;false] d_prog) =
    Some ([[[0;0;0;0]; [1;0;0;0]; [0;1;0;0]]; [[0;0;0;1]; [1;0;0;0]; [0;1;0;1]]], false).
Proof.
  split; [exact d_prog_ok|]. split; [apply first_of_sound|]. split; [discriminate|].
  destruct C12_oracle_exists as [f F]. exists (dfs_empty f). split; [apply dfs_empty_exact; auto|]. vm_compute. reflexivity.
Qed.
