(** * Proofs about the conflict graph of clusters: the meaning of its edges. *)
From Coq Require Import ZArith QArith List Bool Arith Lia Lqa.
From Verif Require Import SpecLinear VecProofs MathModel ConstraintsModel SpecProg SpecDriver SpecGraph SpecDfp SpecFcg GraphModel GraphProofs GraphProofs2
  FrameworkModel ProgModel ProgProofs DriverModel HypProofs PadProofs AutoProofs DfpModel DfpProofs2 FcgModel FcgProofs FcgProofs2 FcgProofs3 ClusterModel TypedModel TypedProofs2 TypedProofs3.
Import ListNotations.
Open Scope Z_scope.

Section Only.
Variable n : nat.
Variable J : nat -> nat -> Prop.
(** A step that keeps the form of the graph and adds only edges with [J]. *)
Definition justified (f : fcg -> fcg) : Prop :=
  forall g, wf_graph n g -> (forall v w, adj g v w = 1 -> J v w) -> wf_graph n (f g) /\ forall v w, adj (f g) v w = 1 -> J v w.
Lemma just_id : justified (fun g => g).
Proof. intros g W H. auto. Qed.
Lemma just_comp f h : justified f -> justified h -> justified (fun g => h (f g)).
Proof. intros F H g W A. destruct (F g W A). auto. Qed.
Lemma just_set i j : (i < n)%nat -> (j < n)%nat -> J i j -> justified (fun g => set_adj g i j 1).
Proof.
  intros Hi Hj HJ g W A. split; [apply set_adj_wf; auto|]. intros v w. rewrite (set_adj_get n) by auto.
  destruct (Nat.eqb_spec v i) as [->|], (Nat.eqb_spec w j) as [->|]; cbn [andb]; auto.
Qed.
Lemma just_if (b : bool) f h : (b = true -> justified f) -> (b = false -> justified h) -> justified (fun g => if b then f g else h g).
Proof. intros F H. destruct b; auto. Qed.
Lemma just_self v f h : (J v v -> justified f) -> justified h -> justified (fun g => if adj g v v =? 1 then f g else h g).
Proof. intros F H g W A. destruct (Z.eqb_spec (adj g v v) 1) as [E|E]; [apply F; auto|apply H; auto]. Qed.
Lemma just_fold {X} (f : fcg -> X -> fcg) l : (forall x, In x l -> justified (fun g => f g x)) -> justified (fun g => fold_left f l g).
Proof.
  induction l as [|x l IH]; intros H; [apply just_id|]. cbn [fold_left].
  apply (just_comp (fun g => f g x) (fun g => fold_left f l g)); [apply H; left; auto|]. apply IH. intros y Hy. apply H. right; auto.
Qed.
End Only.

Section Edges.
Variables (feasible : cst -> bool) (o : options) (s : dstate) (col : list Z) (c : nat).
Let n := scc_vertices s.

(** What an edge stands for. *)
Definition bad (i j : nat) : Prop :=
  (i < st_num s)%nat /\ (j < scc_dim s i)%nat /\ coloured col c (scc_offset s i + j) = false /\ scc_has_deps o s i = true /\ feasible (self_cst o s i j) = false.
Definition reason (v w : nat) : Prop :=
  (exists i j, v = (scc_offset s i + j)%nat /\ w = v /\ bad i j) \/
  (exists i, (i < st_num s)%nat /\ In v (dims s i) /\ In w (dims s i) /\ v <> w) \/
  (exists a i b j, (a < b < st_num s)%nat /\ (i < scc_dim s a)%nat /\ (j < scc_dim s b)%nat /\ v = (scc_offset s a + i)%nat /\ w = (scc_offset s b + j)%nat /\
     ((c = 1%nat /\ cluster_distribute_pair s a b = true) \/ (scc_edge s a b = true /\ (bad a i \/ bad b j \/ feasible (pair_cst o s a i b j) = false)))).

Lemma offset_inj a i b j : (i < scc_dim s a)%nat -> (j < scc_dim s b)%nat -> (scc_offset s a + i = scc_offset s b + j)%nat -> a = b /\ i = j.
Proof.
  intros Hi Hj E. assert (a = b) as -> by (apply (dims_disjoint s a b (scc_offset s a + i)); apply in_dims; lia). split; [auto|lia].
Qed.
Lemma reason_self i j : (i < st_num s)%nat -> (j < scc_dim s i)%nat -> reason (scc_offset s i + j) (scc_offset s i + j) -> bad i j.
Proof.
  intros Hi Hj [(i' & j' & E & _ & B)|[(i' & _ & _ & _ & N)|(a & i' & b & j' & L & Ha & Hb & E1 & E2 & _)]].
  - assert (i = i' /\ j = j') as [-> ->]; [|auto]. destruct B as (_ & B & _). apply offset_inj; auto.
  - contradiction.
  - rewrite E1 in E2. apply offset_inj in E2; auto. lia.
Qed.
Lemma reason_pair a i b j : (a < st_num s)%nat -> (b < st_num s)%nat -> a <> b -> (i < scc_dim s a)%nat -> (j < scc_dim s b)%nat -> reason (scc_offset s a + i) (scc_offset s b + j) ->
  (a < b)%nat /\ ((c = 1%nat /\ cluster_distribute_pair s a b = true) \/ (scc_edge s a b = true /\ (bad a i \/ bad b j \/ feasible (pair_cst o s a i b j) = false))).
Proof.
  intros Ha Hb N Hi Hj [(i' & j' & _ & E & _)|[(i' & _ & D1 & D2 & _)|(a' & i' & b' & j' & L & Ha' & Hb' & E1 & E2 & R)]].
  - apply offset_inj in E; auto. destruct E. congruence.
  - exfalso. apply N. transitivity i'; [apply (dims_disjoint s _ _ (scc_offset s a + i)); auto; apply in_dims; lia|symmetry; apply (dims_disjoint s _ _ (scc_offset s b + j)); auto; apply in_dims; lia].
  - apply offset_inj in E1; auto. apply offset_inj in E2; auto. destruct E1 as [-> ->], E2 as [-> ->]. split; [lia|auto].
Qed.

Lemma permute_just : justified n reason (cluster_permute_edges feasible o s col c).
Proof.
  apply (just_fold n reason (fun g i => _)). intros i Hi. apply in_seq in Hi.
  destruct (scc_deps o (st_prog s) (fun z => z =? Z.of_nat i)) as [|d0 l0] eqn:E; [apply just_id|].
  apply (just_fold n reason (fun g j => _)). intros j Hj. apply in_seq in Hj. cbv zeta.
  apply just_if; [intros _; apply just_id|]. intros C. apply just_if; [intros _; apply just_id|]. intros F.
  apply just_set; [apply offset_lt; lia|apply offset_lt; lia|]. left. exists i, j. split; [auto|]. split; [auto|].
  split; [lia|]. split; [lia|]. split; [exact C|]. split; [unfold scc_has_deps; rewrite E; reflexivity|exact F].
Qed.
Lemma inter_just : justified n reason (cluster_inter_edges feasible o s col c).
Proof.
  apply (just_fold n reason (fun g a => _)). intros a Ha. apply in_seq in Ha. apply (just_fold n reason (fun g b => _)). intros b Hb. apply in_seq in Hb.
  apply just_if; [intros ED|intros _; apply just_id]. unfold cluster_pair_edges. cbv zeta.
  apply (just_fold n reason (fun g i => _)). intros i Hi. apply in_seq in Hi. apply just_if; [intros _; apply just_id|]. intros C1.
  apply just_self.
  - intros R. apply reason_self in R; [|lia|lia]. apply (just_fold n reason (fun g j => _)). intros j Hj. apply in_seq in Hj.
    apply just_set; [apply offset_lt; lia|apply offset_lt; lia|]. right. right. exists a, i, b, j. repeat (split; [solve [lia|reflexivity]|]). right. auto.
  - apply (just_fold n reason (fun g j => _)). intros j Hj. apply in_seq in Hj. apply just_if; [intros _; apply just_id|]. intros C2. apply just_self.
    + intros R. apply reason_self in R; [|lia|lia].
      apply just_set; [apply offset_lt; lia|apply offset_lt; lia|]. right. right. exists a, i, b, j. repeat (split; [solve [lia|reflexivity]|]). right. auto.
    + apply just_if; [intros _; apply just_id|]. intros F.
      apply just_set; [apply offset_lt; lia|apply offset_lt; lia|]. right. right. exists a, i, b, j. repeat (split; [solve [lia|reflexivity]|]). right. split; [exact ED|].
      right. right. exact F.
Qed.
Lemma intra_just : justified n reason (cluster_intra_edges s).
Proof.
  apply (just_fold n reason (fun g i => _)). intros i Hi. apply in_seq in Hi. apply (just_fold n reason (fun g j => _)). intros j Hj. apply in_seq in Hj.
  apply (just_fold n reason (fun g k => _)). intros k Hk. apply in_seq in Hk.
  apply (just_comp n reason (fun g => set_adj g _ _ 1) (fun g => set_adj g _ _ 1)); (apply just_set; [apply offset_lt; lia|apply offset_lt; lia|]);
    right; left; exists i; (split; [lia|]); (split; [apply in_dims; lia|]); (split; [apply in_dims; lia|lia]).
Qed.
Lemma distribute_just : c = 1%nat -> justified n reason (cluster_distribute_edges s).
Proof.
  intros C. apply (just_fold n reason (fun g a => _)). intros a Ha. apply in_seq in Ha. apply (just_fold n reason (fun g b => _)). intros b Hb. apply in_seq in Hb.
  apply just_if; [intros ED|intros _; apply just_id]. apply (just_fold n reason (fun g k => _)). intros k Hk. apply in_seq in Hk.
  apply (just_fold n reason (fun g l => _)). intros l Hl. apply in_seq in Hl.
  apply just_set; [apply offset_lt; lia|apply offset_lt; lia|]. right. right. exists a, k, b, l. repeat (split; [solve [lia|reflexivity]|]). left. auto.
Qed.
Theorem edge_reason v w : adj (build_cluster_fcg feasible o s col c) v w = 1 -> reason v w.
Proof.
  unfold build_cluster_fcg. cbv zeta. fold n. revert v w.
  assert (wf_graph n (repeat (repeat 0 n) n)) as W0 by apply wf_zero.
  destruct (permute_just _ W0) as [W1 A1]; [intros v w; rewrite adj_zero; discriminate|].
  destruct (inter_just _ W1 A1) as [W2 A2]. destruct (intra_just _ W2 A2) as [W3 A3].
  destruct (Nat.eqb_spec c 1) as [E|]; [|exact A3]. destruct (distribute_just E _ W3 A3) as [_ A4]. exact A4.
Qed.
End Edges.

(** ** The systems *)
Section Systems.
Variables (o : options) (s : dstate).
Let pr := st_prog s.
Hypothesis W : wf_prog pr.
Hypothesis PD : padded pr.
Hypothesis OF : orig_first pr.
Hypothesis NE : forall d, In d (p_deps pr) -> (exists x, qmem (d_poly d) x) /\ (exists x, qmem (d_bpoly d) x).
(** The dependences with both ends among SCCs with [f]. *)
Definition inside (f : nat -> Prop) (d : dep) : Prop :=
  In d (p_deps pr) /\ d_sat d = false /\ (d_rar d = true -> o_rar o = true) /\ f (d_src d) /\ f (d_dst d).

Lemma self_meaning i j : scc_stmts s i <> [] -> (forall u, In u (scc_stmts s i) -> is_loop pr u j) ->
  (exists x, qmem (self_cst o s i j) x) <->
  exists (m : nat -> Q) u w, (forall st, In st (scc_stmts s i) -> (1 <= m st)%Q /\ within o pr (m st)) /\ bound_ok pr u w /\
    forall d, inside (fun st => In st (scc_stmts s i)) d -> ordered o pr d (line (m (d_src d)) 0 j) (line (m (d_dst d)) 0 j) u w.
Proof.
  intros AN AL. rewrite (self_system o s) by auto. fold pr. set (L := scc_deps o pr (fun z => z =? Z.of_nat i)).
  assert (forall d, In d L <-> inside (fun st => In st (scc_stmts s i)) d) as IL.
  { intros d. unfold L, inside, pr. rewrite (in_scc_deps o s), !in_scc_stmts. fold pr. rewrite !Z.eqb_eq. split.
    - intros (A & B & C & D & E). pose proof (dep_stmts s W d A) as DS. fold pr in DS. tauto.
    - tauto. }
  assert (forall d, In d L -> In d (p_deps pr) /\ In (d_src d) (scc_stmts s i) /\ In (d_dst d) (scc_stmts s i)) as HL.
  { intros d Hd. apply IL in Hd. unfold inside in Hd. tauto. }
  pose proof (lp_meaning o pr W PD OF NE (scc_stmts s i) (fun _ => j) false L AN AL HL) as M. cbv beta in M. rewrite M. split.
  - intros (a & c0 & u & w & A & B & D). exists a, u, w. split; [intros st Hs; destruct (A st Hs) as (A1 & A2 & _); auto|]. split; [exact B|].
    intros d Hd. apply IL in Hd. destruct (HL d Hd) as (_ & K1 & K2). destruct (A _ K1) as (_ & _ & _ & _ & C1). destruct (A _ K2) as (_ & _ & _ & _ & C2).
    destruct (D d Hd) as [D1 D2]. unfold line in *. split; intros G s1 t p Ls Lt Lp Q; [specialize (D1 G s1 t p Ls Lt Lp Q); rewrite (C1 eq_refl), (C2 eq_refl) in D1|
      specialize (D2 G s1 t p Ls Lt Lp Q); rewrite (C1 eq_refl), (C2 eq_refl) in D2]; auto.
  - intros (m & u & w & A & B & D). exists m, (fun _ => 0%Q), u, w. split; [|split; [exact B|]].
    + intros st Hs. destruct (A st Hs) as [A1 A2]. split; [auto|]. split; [auto|]. split; [lra|]. split; [|intros; lra]. unfold within in *. destruct (coeff_limit o pr); auto. lra.
    + intros d Hd. apply D, IL, Hd.
Qed.
Lemma pair_meaning a i b j : scc_stmts s a <> [] -> a <> b -> (forall u, In u (scc_stmts s a) -> is_loop pr u i) -> (forall u, In u (scc_stmts s b) -> is_loop pr u j) ->
  (exists x, qmem (pair_cst o s a i b j) x) <->
  exists (m t : nat -> Q) u w, (forall st, In st (scc_stmts s a ++ scc_stmts s b) -> (1 <= m st)%Q /\ within o pr (m st) /\ (0 <= t st)%Q /\ within o pr (t st)) /\ bound_ok pr u w /\
    forall d, inside (fun st => In st (scc_stmts s a ++ scc_stmts s b)) d ->
      ordered o pr d (line (m (d_src d)) (t (d_src d)) (loop_of s a i j (d_src d))) (line (m (d_dst d)) (t (d_dst d)) (loop_of s a i j (d_dst d))) u w.
Proof.
  intros AN N A1 A2. rewrite (pair_system o s) by auto. fold pr.
  set (f := fun z => (z =? Z.of_nat a) || (z =? Z.of_nat b)). set (act := scc_stmts s a ++ scc_stmts s b). set (L := scc_deps o pr f).
  assert (forall u, In u act <-> (u < length (p_stmts pr))%nat /\ f (s_scc (stmt_of pr u)) = true) as IA.
  { intros u. unfold act, f. rewrite in_app_iff, !in_scc_stmts, orb_true_iff, !Z.eqb_eq. fold pr. tauto. }
  assert (forall u, In u act -> is_loop pr u (loop_of s a i j u)) as AL.
  { intros u Hu. unfold act in Hu. apply in_app_iff in Hu as [Hu|Hu]; pose proof Hu as E; apply in_scc_stmts in E as [_ E]; unfold loop_of; rewrite E.
    - rewrite Z.eqb_refl. auto.
    - rewrite (proj2 (Z.eqb_neq _ _)) by lia. auto. }
  assert (forall d, In d L <-> inside (fun st => In st act) d) as IL.
  { intros d. unfold L, inside. unfold pr at 1. rewrite (in_scc_deps o s). rewrite !IA. fold pr. split.
    - intros (A & B & C & D & E). pose proof (dep_stmts s W d A) as DS. fold pr in DS. tauto.
    - tauto. }
  assert (forall d, In d L -> In d (p_deps pr) /\ In (d_src d) act /\ In (d_dst d) act) as HL.
  { intros d Hd. apply IL in Hd. unfold inside in Hd. tauto. }
  assert (act <> []) as AC by (unfold act; destruct (scc_stmts s a); [contradiction|discriminate]).
  pose proof (lp_meaning o pr W PD OF NE act (loop_of s a i j) true L AC AL HL) as M.
  assert (forall x, qmem (inter_cst o pr (map (fun u => coef_col pr u (loop_of s a i j u)) act) (map (fun u => coef_col pr u (p_nvar pr)) act) (flat_map (fun d => rows (dep_cst o pr d)) L)) x <->
    qmem (conflict_cst o pr (map (fun u => coef_col pr u (loop_of s a i j u)) act) (map (fun u => coef_col pr u (p_nvar pr)) act) (flat_map (fun d => rows (dep_cst o pr d)) L)) x) as IC
    by (intros x; apply inter_conflict).
  transitivity (exists x, qmem (conflict_cst o pr (map (fun u => coef_col pr u (loop_of s a i j u)) act) (map (fun u => coef_col pr u (p_nvar pr)) act) (flat_map (fun d => rows (dep_cst o pr d)) L)) x).
  { split; intros (x & H); exists x; apply IC; auto. }
  rewrite M. split.
  - intros (m & t & u & w & A & B & D). exists m, t, u, w. split; [intros st Hs; destruct (A st Hs) as (H1 & H2 & H3 & H4 & _); auto|]. split; [exact B|]. intros d Hd. apply D, IL, Hd.
  - intros (m & t & u & w & A & B & D). exists m, t, u, w. split; [intros st Hs; destruct (A st Hs) as (H1 & H2 & H3 & H4); repeat (split; [assumption|]); discriminate|]. split; [exact B|].
    intros d Hd. apply D, IL, Hd.
Qed.
End Systems.
