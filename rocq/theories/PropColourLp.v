(** * Colouring guided by linear programs (option lpcolor). *)
From Coq Require Import ZArith QArith List Bool Arith Lia Lqa Cantor ConstructiveEpsilon.
From Verif Require Import SpecLinear VecProofs MathModel ConstraintsModel SpecGraph GraphModel GraphProofs SpecProg SpecDriver SpecDfp SpecFcg SpecTyped SumProofs
  FrameworkModel FrameworkProofs ProgModel ProgProofs DepProofs DriverModel DriverProofs PadProofs AutoProofs DfpModel DfpProofs FcgModel FcgProofs FcgProofs2 FcgProofs3 ClusterModel TypedModel TypedProofs3
  ColourLpModel ColourLpProofs ExProg Checkers PropFramework PropAuto PropCone PropDfp PropFcg PropTyped.
Import ListNotations.
Open Scope Z_scope.

(** What is assumed of the linear programs. *)
Definition exact_point (lp : cst -> option qpoint) : Prop :=
  forall c, wf_cst c -> match lp c with Some x => qmem c x | None => ~ exists x, qmem c x end.

(** The schedule of statement [u] in the solution [x] recorded for an SCC. *)
Definition recorded (pr : prog) (x : qpoint) (u : nat) : qpoint -> Q := hval (hyp_of (p_nvar pr) (p_npar pr) x u).
(** Loop [j] of statement [u] has no level yet. *)
Definition open_loop (pr : prog) (col : list Z) (u j : nat) : Prop :=
  (j < s_dim_orig (stmt_of pr u))%nat /\ nth (vertex_offset pr u + j) col 0 = 0.

Lemma recorded_qmem lp is_emptyb o col s s' m i x : exact_point lp -> dfp_state s -> mark_parallel_sccs lp is_emptyb o col s = Some (s', m) -> nth i (m_sol m) None = Some x ->
  wf_prog (st_prog s') /\ padded (st_prog s') /\ exists c, mark_system o (st_prog s') col i = Some c /\ qmem c x.
Proof.
  intros EX DS H E. destruct (mark_ok lp is_emptyb o col s s' m DS H) as ((W & PD & _) & (_ & _ & A & _) & _). split; auto. split; auto.
  destruct (A i x E) as (c & Ec & L). exists c. split; auto. pose proof (EX c (mark_wf o (st_prog s') col i c Ec)) as K. rewrite L in K. exact K.
Qed.

(** ** C102.  A solution recorded for an SCC is a schedule that reverses none of the
    dependences inside of the SCC that are not satisfied, with bounded distances.

    [dfp_state s]: see C86 (PropFcg.v); [in_scc pr i u]: statement [u] belongs to SCC [i]
    (PropTyped.v).  Partial: it is assumed that coefficients without a meaning (loops
    that a statement does not have) are 0. *)
Theorem C102_order_partial : forall lp is_emptyb o col s s' m i x,
  exact_point lp -> dfp_state s -> mark_parallel_sccs lp is_emptyb o col s = Some (s', m) -> nth i (m_sol m) None = Some x ->
  let pr := st_prog s' in
  padding_zero pr x ->
  forall d, In d (p_deps pr) -> d_sat d = false -> in_scc pr i (d_src d) -> in_scc pr i (d_dst d) ->
    ordered o pr d (recorded pr x (d_src d)) (recorded pr x (d_dst d)) (firstn (p_npar pr) x) (nth (p_npar pr) x 0%Q).
Proof.
  intros lp is_emptyb o col s s' m i x EX DS H E pr PZ d Hd Sd [_ S1] [_ S2].
  destruct (recorded_qmem lp is_emptyb o col s s' m i x EX DS H E) as (W & PD & c & Ec & M).
  apply (mark_qmem o pr col i c x Ec) in M as (L & _ & _ & _ & D). specialize (D d (conj Hd (conj Sd (conj S1 S2)))).
  destruct (dep_cst_sound o pr d x (padded_dep_intro pr d W PD Hd) PZ D) as [A B]. split.
  - intros R s0 t p Ls Lt Lp Q. specialize (A R s0 t p Ls Lt Lp Q). unfold recorded. change (inject_Z 0) with 0%Q in A. lra.
  - intros R s0 t p Ls Lt Lp Q. specialize (B R s0 t p Ls Lt Lp Q). unfold recorded. rewrite <- bound_split; auto. unfold cst_width in L. lia.
Qed.
Print Assumptions C102_order_partial.

(** It uses a loop without a level for every statement of the SCC that has one,
    and no coefficient is negative. *)
Theorem C102_independent : forall lp is_emptyb o col s s' m i x,
  exact_point lp -> dfp_state s -> mark_parallel_sccs lp is_emptyb o col s = Some (s', m) -> nth i (m_sol m) None = Some x ->
  let pr := st_prog s' in
  (forall k, (0 <= nth k x 0)%Q) /\
  forall u, in_scc pr i u -> (exists j, open_loop pr col u j) ->
    exists j, open_loop pr col u j /\ (0 < nth j (hyp_of (p_nvar pr) (p_npar pr) x u) 0)%Q.
Proof.
  intros lp is_emptyb o col s s' m i x EX DS H E pr.
  destruct (mark_ok lp is_emptyb o col s s' m DS H) as ((_ & _ & OF & _) & _).
  destruct (recorded_qmem lp is_emptyb o col s s' m i x EX DS H E) as (W & PD & c & Ec & M).
  apply (mark_qmem o pr col i c x Ec) in M as (L & N & _ & R & _). split.
  - intros k. destruct (le_lt_dec (length x) k) as [K|K]; [rewrite nth_overflow by auto; lra|auto].
  - intros u [Hu Su] (j0 & Hj0). assert (In u (members pr col i)) as Mu.
    { apply in_members. split; auto. split; auto. intros E0. apply (in_plain pr col u j0) in Hj0. rewrite E0 in Hj0. destruct Hj0. }
    destruct (row_positive pr u _ x L N (R u Mu)) as (j & Hj & P). apply in_plain in Hj. exists j. split; [exact Hj|]. rewrite hyp_of_nth; [exact P|].
    destruct (OF (stmt_of pr u)) as [O1 _]; [apply stmt_of_in; auto|]. destruct Hj as [Hj _]. unfold pr in *. lia.
Qed.
Print Assumptions C102_independent.

(** An SCC is marked as parallel only if all of its loops have levels or all
    instances that depend on each other run at the same time by the solution
    recorded.  Partial: see above; with the option for unbounded distances nothing is said. *)
Theorem C102_parallel_partial : forall lp is_emptyb o col s s' m i,
  exact_point lp -> dfp_state s -> mark_parallel_sccs lp is_emptyb o col s = Some (s', m) -> nth i (m_par m) false = true -> o_nodepbound o = false ->
  let pr := st_prog s' in
  (forall u j, in_scc pr i u -> ~ open_loop pr col u j) \/
  exists x, nth i (m_sol m) None = Some x /\
    (padding_zero pr x -> forall d, In d (p_deps pr) -> d_sat d = false -> d_rar d = false -> in_scc pr i (d_src d) -> in_scc pr i (d_dst d) ->
       in_step pr d (recorded pr x (d_src d)) (recorded pr x (d_dst d))).
Proof.
  intros lp is_emptyb o col s s' m i EX DS H E NB pr.
  destruct (mark_ok lp is_emptyb o col s s' m DS H) as (_ & (_ & _ & _ & B) & _). destruct (B i E) as [K|(x & Ex & P)].
  - left. intros u j [Hu Su] Hj. apply mark_none in K. assert (In u (members (st_prog s') col i)) as Q; [|rewrite K in Q; destruct Q].
    apply in_members. split; auto. split; auto. intros E0. apply (in_plain (st_prog s') col u j) in Hj. rewrite E0 in Hj. destruct Hj.
  - right. exists x. split; auto. intros PZ d Hd Sd Rd S1 S2.
    destruct (recorded_qmem lp is_emptyb o col s s' m i x EX DS H Ex) as (_ & _ & c & Ec & M). apply (mark_qmem o pr col i c x Ec) in M as (L & N & _).
    unfold lp_parallel in P. apply Qeq_bool_iff in P.
    assert (forall v, In v (firstn (p_npar pr + 1) x) -> (v == 0)%Q) as Z.
    { apply sum_zero; [|exact P]. intros v Hv. apply (In_nth _ _ 0%Q) in Hv as (k & Hk & <-). rewrite firstn_length in Hk. rewrite nth_firstn_lt by lia. apply N. lia. }
    assert (p_npar pr + 1 <= length x)%nat as LX by (unfold cst_width in L; lia).
    apply (zero_same o s' d _ _ (firstn (p_npar pr) x) (nth (p_npar pr) x 0%Q)); auto.
    + eapply C102_order_partial; eauto.
    + intros v Hv. apply Z. rewrite <- (firstn_skipn (p_npar pr) (firstn (p_npar pr + 1) x)). apply in_or_app. left. rewrite firstn_firstn. rewrite Nat.min_l by lia. exact Hv.
    + apply Z. rewrite <- (nth_firstn_lt (p_npar pr + 1)) by lia. apply nth_In. rewrite firstn_length. lia.
Qed.
Print Assumptions C102_parallel_partial.

(** If every SCC has such a schedule, the state stays as it is, and each SCC with a
    loop without a level gets a solution. *)
Definition schedulable (o : options) (pr : prog) (col : list Z) (i : nat) : Prop :=
  exists x : qpoint, S (length x) = cst_width pr /\ (forall v, In v x -> (0 <= v)%Q) /\ (forall k, (p_npar pr + 1 <= k < length x)%nat -> within o pr (nth k x 0%Q)) /\ padding_zero pr x /\
    (forall u, in_scc pr i u -> (exists j, open_loop pr col u j) -> exists j, open_loop pr col u j /\ (1 <= nth j (hyp_of (p_nvar pr) (p_npar pr) x u) 0)%Q) /\
    forall d, In d (p_deps pr) -> d_sat d = false -> in_scc pr i (d_src d) -> in_scc pr i (d_dst d) ->
      ordered o pr d (recorded pr x (d_src d)) (recorded pr x (d_dst d)) (firstn (p_npar pr) x) (nth (p_npar pr) x 0%Q).
Lemma nth_firstn_lt {A} k n (l : list A) d : (k < n)%nat -> nth k (firstn n l) d = nth k l d.
Proof. revert n l. induction k as [|k IH]; intros [|n] [|a l] H; cbn; auto; try lia. apply IH. lia. Qed.
Lemma sum_all_zero (l : list Q) : (forall v, In v l -> (v == 0)%Q) -> (fold_left Qplus l 0 == 0)%Q.
Proof. induction l as [|a l IH]; intros H; cbn [fold_left]; [reflexivity|]. rewrite sum_from, IH, (H a (or_introl eq_refl)) by (intros; apply H; right; auto). reflexivity. Qed.
Lemma sched_lp lp o col s : exact_point lp -> dfp_state s -> (forall i, (i < st_num s)%nat -> schedulable o (st_prog s) col i) ->
  forall i c, (i < st_num s)%nat -> mark_system o (st_prog s) col i = Some c -> lp c <> None.
Proof.
  intros EX (W & PD & OF & NE) SC. set (pr := st_prog s) in *. intros i c Hi Ec E. pose proof (EX c (mark_wf o pr col i c Ec)) as Q. rewrite E in Q. apply Q. clear Q E.
  destruct (SC i Hi) as (x & L & N & WI & PZ & U & D). exists x. apply (mark_qmem o pr col i c x Ec).
  assert (forall k, (k < length x)%nat -> (0 <= nth k x 0)%Q) as N' by (intros k Hk; apply N, nth_In; auto).
  split; auto. split; auto. split; auto. split.
  - intros u Hu. apply in_members in Hu as (U1 & U2 & U3). destruct (U u (conj U1 U2)) as (j & Hj & P).
    { destruct (plain_loops pr col u) as [|j l] eqn:E; [congruence|]. exists j. apply in_plain. rewrite E. left; auto. }
    assert (j < p_nvar pr)%nat as Hn by (destruct (OF (stmt_of pr u)) as [O1 _]; [apply stmt_of_in; auto|destruct Hj as [Hj _]; lia]).
    rewrite hyp_of_nth in P by lia. apply (row_holds pr u _ j); auto; [apply in_plain; auto|]. pose proof (coef_col_range pr u j U1 ltac:(lia)). lia.
  - intros d (D1 & D2 & D3 & D4). destruct (proj2 W d D1) as (B1 & B2 & _). destruct (NE d D1) as [P1 P2].
    destruct (D d D1 D2 (conj B1 D3) (conj B2 D4)) as [A B]. apply dep_cst_complete; auto; [apply padded_dep_intro; auto| |]; intros R; (split; [auto|]).
    + intros s0 t p Ls Lt Lp Q. specialize (A R s0 t p Ls Lt Lp Q). unfold recorded in A. change (inject_Z 0) with 0%Q. lra.
    + intros s0 t p Ls Lt Lp Q. specialize (B R s0 t p Ls Lt Lp Q). unfold recorded in B. rewrite bound_split; auto. unfold cst_width in L. lia.
Qed.
Theorem C102_every : forall lp is_emptyb o col s,
  exact_point lp -> dfp_state s -> (forall i, (i < st_num s)%nat -> schedulable o (st_prog s) col i) ->
  exists m, mark_parallel_sccs lp is_emptyb o col s = Some (s, m) /\
    forall i u j, (i < st_num s)%nat -> in_scc (st_prog s) i u -> open_loop (st_prog s) col u j -> exists x, nth i (m_sol m) None = Some x.
Proof.
  intros lp is_emptyb o col s EX DS SC. pose proof (sched_lp lp o col s EX DS SC) as K. destruct DS as (W & PD & OF & NE). set (pr := st_prog s) in *.
  destruct (mark_from_all lp is_emptyb o col (seq 0 (st_num s)) s (mkMarks (repeat None (st_num s)) (repeat false (st_num s)))) as (m & E & A & _).
  - apply seq_NoDup.
  - apply empty_ok.
  - intros i Hi. apply in_seq in Hi. lia.
  - intros i c Hi. apply in_seq in Hi. apply K. lia.
  - exists m. split; [exact E|]. intros i u j Hi [U1 U2] Hj. destruct (mark_system o pr col i) as [c|] eqn:Ec.
    + specialize (A i c ltac:(apply in_seq; lia) Ec). destruct (nth i (m_sol m) None) as [x|]; [exists x; auto|congruence].
    + exfalso. apply mark_none in Ec. assert (In u (members pr col i)) as Q; [|rewrite Ec in Q; destruct Q].
      apply in_members. split; auto. split; auto. intros E0. apply (in_plain pr col u j) in Hj. rewrite E0 in Hj. destruct Hj.
Qed.
Print Assumptions C102_every.

(** Then the marks are exact: a component is marked parallel if and only if none of its
    statements has a loop without a level, or the bound on distances recorded for it is
    0. *)
Theorem C102_marks : forall lp is_emptyb o col s,
  exact_point lp -> dfp_state s -> (forall i, (i < st_num s)%nat -> schedulable o (st_prog s) col i) ->
  exists m, mark_parallel_sccs lp is_emptyb o col s = Some (s, m) /\
    forall i, (i < st_num s)%nat ->
      (nth i (m_par m) false = true <->
       (forall u j, in_scc (st_prog s) i u -> ~ open_loop (st_prog s) col u j) \/
       exists x, nth i (m_sol m) None = Some x /\ forall k, (k <= p_npar (st_prog s))%nat -> (nth k x 0 == 0)%Q).
Proof.
  intros lp is_emptyb o col s EX DS SC. pose proof (sched_lp lp o col s EX DS SC) as K. set (pr := st_prog s) in *.
  destruct (mark_from_par lp is_emptyb o col (seq 0 (st_num s)) s (mkMarks (repeat None (st_num s)) (repeat false (st_num s)))) as (m & E & A & _).
  - apply seq_NoDup.
  - apply empty_ok.
  - intros i Hi. apply in_seq in Hi. lia.
  - intros i c Hi. apply in_seq in Hi. apply K. lia.
  - exists m. split; [exact E|]. intros i Hi. specialize (A i ltac:(apply in_seq; lia)). fold pr in A.
    assert ((forall u j, in_scc pr i u -> ~ open_loop pr col u j) <-> mark_system o pr col i = None) as N.
    { rewrite mark_none. split.
      - intros Q. destruct (members pr col i) as [|u l] eqn:Em; auto. exfalso. assert (In u (members pr col i)) as Hu by (rewrite Em; left; auto).
        apply in_members in Hu as (U1 & U2 & U3). destruct (plain_loops pr col u) as [|j js] eqn:Ep; [congruence|]. apply (Q u j (conj U1 U2)). apply in_plain. rewrite Ep. left; auto.
      - intros Q u j [U1 U2] Hj. assert (In u (members pr col i)) as Z; [|rewrite Q in Z; destruct Z].
        apply in_members. split; auto. split; auto. intros E0. apply (in_plain pr col u j) in Hj. rewrite E0 in Hj. destruct Hj. }
    rewrite N. destruct (mark_system o pr col i) as [c|] eqn:Ec.
    + destruct A as (x & L & S & P). rewrite P, S. pose proof (EX c (mark_wf o pr col i c Ec)) as M. rewrite L in M.
      apply (mark_qmem o pr col i c x Ec) in M as (LX & NN & _).
      assert (forall k, (k <= p_npar pr)%nat -> (k < length x)%nat) as LK by (intros k Hk; unfold cst_width in LX; lia).
      unfold lp_parallel. rewrite Qeq_bool_iff. split.
      * intros Z. right. exists x. split; auto. intros k Hk. refine (proj2 (sum_zero _ _) Z _ _).
        -- intros v Hv. destruct (In_nth _ _ 0%Q Hv) as (q & Hq & <-). rewrite firstn_length in Hq. rewrite nth_firstn_lt by lia. apply NN. lia.
        -- rewrite <- (nth_firstn_lt k (p_npar pr + 1) x 0%Q) by lia. apply nth_In. rewrite firstn_length. specialize (LK k Hk). lia.
      * intros [Z|(y & Y & Z)]; [discriminate|]. injection Y as <-. apply sum_all_zero. intros v Hv. destruct (In_nth _ _ 0%Q Hv) as (q & Hq & <-).
        rewrite firstn_length in Hq. rewrite nth_firstn_lt by lia. apply Z. lia.
    + destruct A as [_ ->]. tauto.
Qed.
Print Assumptions C102_marks.

(** The loop tried first for a statement: as long as only loops with a level were
    tried, there is one left with a positive coefficient, and it is taken. *)
Theorem C102_next : forall lp is_emptyb o col s s' m i x u tried,
  exact_point lp -> dfp_state s -> mark_parallel_sccs lp is_emptyb o col s = Some (s', m) -> nth i (m_sol m) None = Some x ->
  let pr := st_prog s' in
  in_scc pr i u -> (exists j, open_loop pr col u j) -> (forall j, open_loop pr col u j -> tried (vertex_offset pr u + j)%nat = false) ->
  exists j, next_min_vertex m pr u tried = Some j /\ (j < s_dim_orig (stmt_of pr u))%nat /\ tried (vertex_offset pr u + j)%nat = false /\
    (0 < nth j (hyp_of (p_nvar pr) (p_npar pr) x u) 0)%Q.
Proof.
  intros lp is_emptyb o col s s' m i x u tried EX DS H E pr Hu Ho T.
  destruct (C102_independent lp is_emptyb o col s s' m i x EX DS H E) as [N P]. destruct (P u Hu Ho) as (j & Hj & Pj). fold pr in N, P, Hj, Pj.
  destruct (mark_ok lp is_emptyb o col s s' m DS H) as ((_ & _ & OF & _) & _). destruct Hu as [U1 U2].
  assert (s_dim_orig (stmt_of pr u) <= p_nvar pr)%nat as O1 by (apply (OF (stmt_of pr u)); apply stmt_of_in; auto).
  rewrite hyp_of_nth in Pj by (destruct Hj; lia).
  destruct (next_loop_spec x pr u tried (seq 0 (s_dim_orig (stmt_of pr u)))) as (k & K1 & K2 & K3 & K4).
  - intros k _. apply N.
  - exists j. split; [apply in_seq; destruct Hj; lia|]. split; auto.
  - exists k. apply in_seq in K2. split; [|split; [lia|split; [exact K3|rewrite hyp_of_nth by lia; exact K4]]].
    unfold next_min_vertex. rewrite U2, Nat2Z.id, E. exact K1.
Qed.
Print Assumptions C102_next.

(** Such a solver exists: Fourier-Motzkin elimination decides, and a search through
    all points finds a solution. *)
Definition nat_q (a : nat) : Q := let (x, y) := of_nat a in let (p, q) := of_nat x in (Z.of_nat p - Z.of_nat q) # Pos.of_nat (S y).
Fixpoint nat_point (n k : nat) : qpoint :=
  match n with O => [] | S n => let (a, b) := of_nat k in nat_q a :: nat_point n b end.
Lemma nat_q_all q : exists a, nat_q a = q.
Proof.
  destruct q as [z d]. exists (to_nat (to_nat (Z.to_nat z, Z.to_nat (- z)), pred (Pos.to_nat d))). unfold nat_q. rewrite !cancel_of_to.
  pose proof (Pos2Nat.is_pos d). f_equal; [lia|]. replace (S (pred (Pos.to_nat d))) with (Pos.to_nat d) by lia. apply Pos2Nat.id.
Qed.
Lemma nat_point_all : forall x, exists k, nat_point (length x) k = x.
Proof.
  induction x as [|q x (k & IH)]; [exists 0%nat; reflexivity|]. destruct (nat_q_all q) as (a & A). exists (to_nat (a, k)). cbn [length nat_point]. rewrite cancel_of_to, A, IH. reflexivity.
Qed.
Definition qrowb (x : qpoint) (r : row) : bool := if is_eq r then Qeq_bool (qaff (coef r) x) 0 else Qle_bool 0 (qaff (coef r) x).
Definition qmemb (c : cst) (x : qpoint) : bool := (S (length x) =? ncols c)%nat && forallb (qrowb x) (rows c).
Lemma qmemb_ok c x : qmemb c x = true <-> qmem c x.
Proof.
  unfold qmemb, qmem. rewrite andb_true_iff, Nat.eqb_eq, forallb_forall. split; intros [A B]; split; auto; intros r Hr; specialize (B r Hr); unfold qrowb, qholds in *; destruct (is_eq r);
    first [apply Qeq_bool_iff; assumption|apply Qle_bool_iff; assumption].
Qed.
Definition wf_cstb (c : cst) : bool := (1 <=? ncols c)%nat && forallb (fun r => (length (coef r) =? ncols c)%nat) (rows c).
Lemma wf_cstb_ok c : wf_cstb c = true <-> wf_cst c.
Proof.
  unfold wf_cstb, wf_cst. rewrite andb_true_iff, Nat.leb_le, forallb_forall. split; intros [A B]; (split; [lia|]); intros r Hr; specialize (B r Hr); apply Nat.eqb_eq; auto.
Qed.
Lemma has_point c : wf_cst c -> fm_lp c = true -> exists k, qmemb c (nat_point (ncols c - 1) k) = true.
Proof.
  intros W F. apply (fm_lp_exact c W) in F as (x & M). destruct (nat_point_all x) as (k & K). exists k. replace (ncols c - 1)%nat with (length x) by (destruct M; lia). rewrite K. apply qmemb_ok. exact M.
Qed.
Definition search_lp (c : cst) : option qpoint.
Proof.
  destruct (Bool.bool_dec (wf_cstb c) true) as [W|_]; [|exact None]. destruct (Bool.bool_dec (fm_lp c) true) as [F|_]; [|exact None].
  destruct (constructive_indefinite_ground_description_nat (fun k => qmemb c (nat_point (ncols c - 1) k) = true) (fun k => Bool.bool_dec _ _) (has_point c (proj1 (wf_cstb_ok c) W) F)) as [k _].
  exact (Some (nat_point (ncols c - 1) k)).
Defined.
Lemma search_lp_exact : exact_point search_lp.
Proof.
  intros c W. unfold search_lp. destruct (Bool.bool_dec (wf_cstb c) true) as [W'|N]; [|exfalso; apply N, wf_cstb_ok; auto].
  destruct (Bool.bool_dec (fm_lp c) true) as [F|F]; [|intros X; apply F, fm_lp_exact; auto].
  destruct (constructive_indefinite_ground_description_nat _ _ _) as [k K]. apply qmemb_ok. exact K.
Qed.

(** A point of the system of an SCC with integer coordinates is a schedule. *)
Lemma schedulable_point o s col i c z : wf_prog (st_prog s) -> padded (st_prog s) -> orig_first (st_prog s) -> mark_system o (st_prog s) col i = Some c ->
  qmemb c (zpoint z) = true -> padding_zero (st_prog s) (zpoint z) -> schedulable o (st_prog s) col i.
Proof.
  intros W PD OF Ec M PZ. apply qmemb_ok in M. apply (mark_qmem o (st_prog s) col i c _ Ec) in M as (L & N & WI & R & D). exists (zpoint z). split; auto. split.
  { intros v Hv. apply (In_nth _ _ 0%Q) in Hv as (k & Hk & <-). auto. }
  split; auto. split; auto. split.
  - intros u [U1 U2] (j0 & Hj0). assert (In u (members (st_prog s) col i)) as Mu.
    { apply in_members. split; auto. split; auto. intros E0. apply (in_plain (st_prog s) col u j0) in Hj0. rewrite E0 in Hj0. destruct Hj0. }
    destruct (row_positive (st_prog s) u _ _ L N (R u Mu)) as (j & Hj & P). apply in_plain in Hj. exists j. split; [exact Hj|].
    destruct (OF (stmt_of (st_prog s) u)) as [O1 _]; [apply stmt_of_in; auto|]. rewrite hyp_of_nth by (destruct Hj; lia). revert P.
    assert (nth (coef_col (st_prog s) u j) (zpoint z) 0%Q = inject_Z (nth (coef_col (st_prog s) u j) z 0)) as -> by apply (List.map_nth inject_Z z 0).
    unfold Qlt, Qle, inject_Z. cbn. lia.
  - intros d Hd Sd [_ S1] [_ S2]. specialize (D d (conj Hd (conj Sd (conj S1 S2)))).
    destruct (dep_cst_sound o (st_prog s) d (zpoint z) (padded_dep_intro _ d W PD Hd) PZ D) as [A B]. split.
    + intros K s0 t p Ls Lt Lp Q. specialize (A K s0 t p Ls Lt Lp Q). unfold recorded. change (inject_Z 0) with 0%Q in A. lra.
    + intros K s0 t p Ls Lt Lp Q. specialize (B K s0 t p Ls Lt Lp Q). unfold recorded. rewrite <- bound_split; auto. unfold cst_width in L. lia.
Qed.

(** The example of PropDfp.v: S0(i,j) depends on S0(i-1,j) and S0(i,j-1), S1(i,j) on
    S0(i,j+1).  With the solver below S0 gets the schedule i, S1 is parallel by i. *)
Definition seen_lp (l : list qpoint) (c : cst) : option qpoint :=
  match find (qmemb c) l with Some x => Some x | None => search_lp c end.
Lemma seen_lp_exact l : exact_point (seen_lp l).
Proof.
  intros c W. unfold seen_lp. destruct (find (qmemb c) l) as [x|] eqn:E; [apply find_some in E as [_ E]; apply qmemb_ok; auto|]. apply search_lp_exact; auto.
Qed.
Definition ld_lp := seen_lp [zpoint [0;1;1;0;0;0;0;0]; zpoint [0;0;0;0;0;1;0;0]].
Example C102_met :
  let s := dfp_start d_prog in
  let m := mkMarks [Some (zpoint [0;1;1;0;0;0;0;0]); Some (zpoint [0;0;0;0;0;1;0;0])] [false; true] in
  exact_point ld_lp /\ dfp_state s /\ (forall f, mark_parallel_sccs ld_lp f ex_opts [0;0;0;0] s = Some (s, m)) /\
  (forall x, In (Some x) (m_sol m) -> padding_zero (st_prog s) x) /\ o_nodepbound ex_opts = false /\
  (forall i, (i < st_num s)%nat -> schedulable ex_opts (st_prog s) [0;0;0;0] i) /\
  in_scc (st_prog s) 0 0 /\ open_loop (st_prog s) [0;0;0;0] 0 0 /\ in_scc (st_prog s) 1 1 /\ open_loop (st_prog s) [0;0;0;0] 1 1.
Proof.
  cbv zeta. destruct C86_met as (_ & DS & _).
  assert (forall x, padding_zero (st_prog (dfp_start d_prog)) x) as PZ.
  { intros x u k Hu Hk E. assert (u < 2)%nat as Hu' by exact Hu. assert (k < 2)%nat as Hk' by exact Hk. exfalso.
    assert (forallb (fun u => forallb (fun k => nth k (s_orig (stmt_of (st_prog (dfp_start d_prog)) u)) true) [0;1]%nat) [0;1]%nat = true) as K by (vm_compute; reflexivity).
    rewrite forallb_forall in K. specialize (K u ltac:(simpl; lia)). rewrite forallb_forall in K. specialize (K k ltac:(simpl; lia)). cbv beta in K. congruence. }
  split; [apply seen_lp_exact|]. split; [exact DS|]. split; [intros f; vm_compute; reflexivity|]. split; [intros; apply PZ|]. split; [reflexivity|]. split.
  - intros i Hi. assert (i < 2)%nat as Hi' by exact Hi. clear Hi. destruct DS as (W & PD & OF & _).
    destruct i as [|[|i]]; [| |lia]; (eapply schedulable_point; [exact W|exact PD|exact OF|vm_compute; reflexivity| |apply PZ]);
      [instantiate (1 := [0;1;1;0;0;0;0;0])|instantiate (1 := [0;0;0;0;0;1;0;0])]; vm_compute; reflexivity.
  - split; [split; [vm_compute; lia|vm_compute; reflexivity]|]. split; [split; [vm_compute; lia|vm_compute; reflexivity]|]. split; [split; [vm_compute; lia|vm_compute; reflexivity]|split; [vm_compute; lia|vm_compute; reflexivity]].
Qed.

(** A second computation of the SCCs loses the solutions recorded before it.  T
    and S have three loops; S(i,j,k) depends on T(i,j,k) and on S(i',j',k') for all
    i' <= i, j' <= j with i' + j' < i + j.  After the levels i and j the dependence of
    S on itself is satisfied by both levels together only, so that no schedule is
    found for S at first.  The second attempt finds one, but T, for which there was a
    solution, is left without: the assertion in get_next_min_vertex fails for T. *)
Definition lc_dom : cst := mkCst 5 [ge [1;0;0;0;0]; ge [-1;0;0;1;0]; ge [0;1;0;0;0]; ge [0;-1;0;1;0]; ge [0;0;1;0;0]; ge [0;0;-1;1;0]].
Definition lc_stmt : stmt := mkStmt 3 3 [true;true;true] lc_dom (mkMat 5 [[1;0;0;0;0]; [0;1;0;0;0]; [0;0;1;0;0]]) [H_LOOP;H_LOOP;H_LOOP] 0 0 [] [] None 0 (-1) (-1).
Definition lc_self : cst := mkCst 8 [ge [-1;0;0;1;0;0;0;0]; ge [0;-1;0;0;1;0;0;0]; ge [-1;-1;0;1;1;0;0;-1];
  ge [1;0;0;0;0;0;0;0]; ge [0;0;0;-1;0;0;1;0]; ge [0;1;0;0;0;0;0;0]; ge [0;0;0;0;-1;0;1;0];
  ge [0;0;1;0;0;0;0;0]; ge [0;0;-1;0;0;0;1;0]; ge [0;0;0;0;0;1;0;0]; ge [0;0;0;0;0;-1;1;0]].
Definition lc_flow : cst := mkCst 8 [eq [-1;0;0;1;0;0;0;0]; eq [0;-1;0;0;1;0;0;0]; eq [0;0;-1;0;0;1;0;0];
  ge [1;0;0;0;0;0;0;0]; ge [-1;0;0;0;0;0;1;0]; ge [0;1;0;0;0;0;0;0]; ge [0;-1;0;0;0;0;1;0]; ge [0;0;1;0;0;0;0;0]; ge [0;0;-1;0;0;0;1;0]].
Definition lc_prog : prog := mkProg 3 1 (repeat lc_stmt 2) [ex_dep 0 1 false lc_flow; ex_dep 1 1 false lc_self] [H_LOOP;H_LOOP;H_LOOP].
Lemma lc_prog_ok : input_ok lc_prog.
Proof.
  assert (forall st, In st (repeat lc_stmt 2) -> st = lc_stmt) as R by (intros st Hs; apply repeat_spec in Hs; auto).
  split; [split|].
  - intros st Hs. cbn [p_stmts lc_prog] in Hs. rewrite (R st Hs). repeat (split; [first [reflexivity|wf]|]). simpl. intros a [].
  - intros d Hd. simpl in Hd. destruct Hd as [<-|[<-|[]]]; (split; [simpl; lia|]; split; [simpl; lia|]; split; [wf|]; split; [reflexivity|]; split; [wf|reflexivity]).
  - intros st Hs. cbn [p_stmts lc_prog] in Hs. rewrite (R st Hs). split; [reflexivity|split; [simpl; lia|reflexivity]].
Qed.
Definition lc_solve := first_of [[1;0;0;0;1;0;0;0;1;0]; [1;0;0;1;0;0;0;1;0;0]].
(** The search for the first two levels. *)
Definition two_levels (is_emptyb : cst -> bool) (solve : prog -> cst -> option point) (pr : prog) (col : list Z) : option cstate :=
  dfp_levels is_emptyb solve (build_fcg fm_lp ex_opts) (update_fcg MaxFuse) no_skip ex_opts MaxFuse false [1;2]%nat
    (mkC (dfp_start pr) col (build_fcg fm_lp ex_opts (dfp_start pr) col 1) false).
Notation lc_search f := (two_levels f lc_solve lc_prog [0;0;0;0;0;0]).
Definition lc_cs : cstate :=
  match lc_search (dfs_empty (fun _ => false)) with Some cs => cs | None => mkC (dfp_start lc_prog) [] [] false end.
Definition lc_next : dstate := refresh (dfs_empty (fun _ => false)) (c_state lc_cs).
Definition system_of (s : dstate) (i : nat) : cst := match mark_system ex_opts (st_prog s) [1;2;0;1;2;0] i with Some c => c | None => mkCst 1 [] end.
Lemma lc_systems :
  (mark_system ex_opts (st_prog (c_state lc_cs)) [1;2;0;1;2;0] 0 = Some (system_of (c_state lc_cs) 0) /\ qmemb (system_of (c_state lc_cs) 0) (zpoint [0;0;0;0;1;0;0;0;0;0]) = true) /\
  (mark_system ex_opts (st_prog (c_state lc_cs)) [1;2;0;1;2;0] 1 = Some (system_of (c_state lc_cs) 1) /\ fm_lp (system_of (c_state lc_cs) 1) = false) /\
  (mark_system ex_opts (st_prog lc_next) [1;2;0;1;2;0] 1 = Some (system_of lc_next 1) /\ qmemb (system_of lc_next 1) (zpoint [0;0;0;0;0;0;0;0;1;0]) = true).
Proof. split; [split; vm_compute; reflexivity|]. split; split; vm_compute; reflexivity. Qed.
Lemma lost_generic lp f o col s s1 c0 c1 c2 x0 x2 :
  exact_point lp -> st_num s = 2%nat -> st_num s1 = 2%nat -> refresh f s = s1 ->
  mark_system o (st_prog s) col 0 = Some c0 /\ qmemb c0 x0 = true -> mark_system o (st_prog s) col 1 = Some c1 /\ fm_lp c1 = false ->
  mark_system o (st_prog s1) col 1 = Some c2 /\ qmemb c2 x2 = true ->
  exists x, mark_parallel_sccs lp f o col s = Some (s1, mkMarks [None; Some x] [false; lp_parallel (st_prog s1) x]).
Proof.
  intros EX E3 E4 E1 [A1 A2] [B1 B2] [C1 C2]. unfold mark_parallel_sccs. rewrite E3. cbn [seq mark_from repeat].
  pose proof (EX _ (mark_wf _ _ _ _ _ A1)) as L0. pose proof (EX _ (mark_wf _ _ _ _ _ B1)) as L1. pose proof (EX _ (mark_wf _ _ _ _ _ C1)) as L2.
  unfold mark_one at 1. rewrite A1. destruct (lp c0) as [y0|]; [|exfalso; apply L0; eexists; apply qmemb_ok; exact A2].
  unfold mark_one. rewrite B1. destruct (lp c1) as [y1|].
  { exfalso. assert (fm_lp c1 = true) as K; [|congruence]. apply fm_lp_exact; [exact (mark_wf _ _ _ _ _ B1)|]. exists y1. exact L1. }
  rewrite E1, E3, E4. cbn [Nat.eqb]. rewrite C1. destruct (lp c2) as [y2|]; [|exfalso; apply L2; eexists; apply qmemb_ok; exact C2].
  exists y2. reflexivity.
Qed.
Lemma lost_next pr y b tried : s_scc (stmt_of pr 0) = 0 -> s_dim_orig (stmt_of pr 0) = 3%nat -> vertex_offset pr 0 = 0%nat -> tried 2%nat = false ->
  next_min_vertex (mkMarks [None; y] b) pr 0 tried = None.
Proof.
  intros E5 E7 E8 T. unfold next_min_vertex. rewrite E5, E7. cbn [Z.to_nat m_sol nth seq next_loop]. rewrite E8. cbn [Nat.add].
  destruct (tried 0%nat); [|reflexivity]. destruct (tried 1%nat); [|reflexivity]. rewrite T. reflexivity.
Qed.
Lemma dfp_start_inv pr : input_ok pr -> inv LAZY (dfp_start pr).
Proof. intros H. apply (inv_lazy EAGER). change (inv EAGER (start_state pr)). apply (start_inv pr H). Qed.
Lemma levels_inv f solve pr col cs : exact_empty f -> solver_sound solve -> input_ok pr -> two_levels f solve pr col = Some cs -> inv LAZY (c_state cs).
Proof.
  intros F S IN G. unfold two_levels in G. apply dfp_levels_good in G as [G _]; [exact G|exact F|exact S|cbn [c_state]; exact (dfp_start_inv pr IN)].
Qed.
Lemma search_state f cs pts : exact_empty f -> lc_search f = Some cs ->
  forallb (fun d => existsb (memb (d_poly d)) pts && existsb (memb (d_bpoly d)) pts) (p_deps (st_prog (c_state cs))) = true -> dfp_state (c_state cs).
Proof.
  intros F G P. apply (levels_inv f lc_solve lc_prog [0;0;0;0;0;0] cs F (first_of_sound _) lc_prog_ok) in G.
  split; [apply (i_wf _ _ G)|]. split; [apply (i_pad _ _ G)|]. split; [apply (i_orig _ _ G)|]. intros d Hd.
  destruct (points_check _ pts P d Hd) as (x & y & A & B). split; [exists (zpoint x); apply qmem_of_mem, memb_ok; exact A|exists (zpoint y); apply qmem_of_mem, memb_ok; exact B].
Qed.
Lemma all_loops pr n k x : length (p_stmts pr) = n -> p_nvar pr = k ->
  forallb (fun u => forallb (fun j => nth j (s_orig (stmt_of pr u)) true) (seq 0 k)) (seq 0 n) = true -> padding_zero pr x.
Proof.
  intros <- <- H u j Hu Hj K. exfalso. rewrite forallb_forall in H. specialize (H u ltac:(apply in_seq; lia)). rewrite forallb_forall in H.
  specialize (H j ltac:(apply in_seq; lia)). cbv beta in H. rewrite K in H. discriminate H.
Qed.
Theorem C102_lost_refuted : input_ok lc_prog /\ solver_sound lc_solve /\ exact_lp fm_lp /\ exists f cs, exact_empty f /\
  lc_search f = Some cs /\ dfp_state (c_state cs) /\ c_col cs = [1;2;0;1;2;0] /\ schedulable ex_opts (st_prog (c_state cs)) (c_col cs) 0 /\
  forall lp, exact_point lp -> exists s' m, mark_parallel_sccs lp f ex_opts (c_col cs) (c_state cs) = Some (s', m) /\
    in_scc (st_prog s') 0 0 /\ open_loop (st_prog s') (c_col cs) 0 2 /\ nth 0 (m_sol m) None = None /\
    forall tried, tried 2%nat = false -> next_min_vertex m (st_prog s') 0 tried = None.
Proof.
  split; [exact lc_prog_ok|]. split; [apply first_of_sound|]. split; [exact fm_lp_exact|]. destruct C12_oracle_exists as [f F]. exists (dfs_empty f), lc_cs. split; [apply dfs_empty_exact; auto|].
  assert (lc_search (dfs_empty f) = Some lc_cs) as E by (vm_compute; reflexivity).
  assert (refresh (dfs_empty f) (c_state lc_cs) = lc_next) as E1 by (vm_compute; reflexivity).
  assert (c_col lc_cs = [1;2;0;1;2;0]) as E2 by (vm_compute; reflexivity).
  assert (st_num (c_state lc_cs) = 2%nat) as E3 by (vm_compute; reflexivity).
  assert (st_num lc_next = 2%nat) as E4 by (vm_compute; reflexivity).
  assert (in_scc (st_prog lc_next) 0 0) as E5 by (split; [vm_compute; lia|vm_compute; reflexivity]).
  assert (open_loop (st_prog lc_next) [1;2;0;1;2;0] 0 2) as E6 by (split; [vm_compute; lia|vm_compute; reflexivity]).
  assert (s_dim_orig (stmt_of (st_prog lc_next) 0) = 3%nat) as E7 by (vm_compute; reflexivity).
  assert (vertex_offset (st_prog lc_next) 0 = 0%nat) as E8 by (vm_compute; reflexivity).
  assert (forall x, padding_zero (st_prog (c_state lc_cs)) x) as PZ by (intros x; apply (all_loops _ 2 3); vm_compute; reflexivity).
  assert (dfp_state (c_state lc_cs)) as DS.
  { apply (search_state (dfs_empty f) lc_cs [[0;0;0;0;0;0;3]; [0;0;0;1;0;0;3]]); [apply dfs_empty_exact; auto|exact E|vm_compute; reflexivity]. }
  pose proof lc_systems as SY. generalize dependent lc_next. generalize dependent lc_cs. intros cs E E2 E3 PZ DS s1 E1 E4 E5 E6 E7 E8 (A & B & C).
  split; [exact E|]. split; [exact DS|]. split; [exact E2|]. rewrite E2. split.
  - destruct DS as (W & PD & OF & _). destruct A as [A1 A2]. exact (schedulable_point _ _ _ _ _ _ W PD OF A1 A2 (PZ _)).
  - intros lp EX. destruct (lost_generic lp (dfs_empty f) ex_opts _ _ _ _ _ _ _ _ EX E3 E4 E1 A B C) as (x & K). eexists _, _. split; [exact K|]. split; [exact E5|]. split; [exact E6|]. split; [reflexivity|].
    intros tried T. apply lost_next; auto. exact (proj2 E5).
Qed.
Print Assumptions C102_lost_refuted.
