(** * Theorems C17-C20: the data dependence graph and its components. *)
From Coq Require Import ZArith List Bool Arith Lia.
From Verif Require Import SpecLinear SpecGraph MathModel GraphModel GraphProofs GraphProofs2.
Import ListNotations.
Open Scope nat_scope.

Fixpoint wf_graphb_rows (n : nat) (g : list (list Z)) : bool :=
  match g with [] => true | r :: g' => (length r =? n) && wf_graphb_rows n g' end.
Lemma wf_graph_check n g : (length g =? n) && wf_graphb_rows n g = true -> wf_graph n g.
Proof.
  rewrite andb_true_iff, Nat.eqb_eq. intros [L R]. split; auto. clear L. induction g as [|r g IH]; cbn in *; [tauto|].
  apply andb_true_iff in R as [A B]. apply Nat.eqb_eq in A. intros x [<-|Hx]; auto.
Qed.

(** A graph with a cycle 0 -> 2 -> 0, an edge 2 -> 1 and a self loop on 3. *)
Definition exg : list (list Z) := [[0;0;2;0]; [0;0;0;0]; [1;1;0;0]; [0;0;0;1]]%Z.
Example exg_wf : wf_graph 4 exg.
Proof. apply wf_graph_check. reflexivity. Qed.

(** ** C17.  The graph has an edge exactly for the unsatisfied dependences other
    than input dependences; same component number iff strongly connected. *)
Theorem C17_graph : forall n deps, (forall d, In d deps -> dsrc d < n /\ ddst d < n) ->
  wf_graph n (ddg_create n deps) /\
  forall u v, edge (ddg_create n deps) u v <->
    exists d, In d deps /\ drar d = false /\ dsat d = false /\ dsrc d = u /\ ddst d = v.
Proof. intros n deps H. split; [apply ddg_create_count; exact H|intros; apply ddg_create_edge; exact H]. Qed.
Print Assumptions C17_graph.

Theorem C17_scc : forall n g fn0 cc0, wf_graph n g -> length fn0 = n ->
  let '(scc, num) := ddg_compute_scc n g fn0 cc0 in
  (forall u, u < n -> (0 <= nth u scc 0 < Z.of_nat num)%Z) /\
  (forall k, k < num -> exists u, u < n /\ nth u scc 0%Z = Z.of_nat k) /\
  (forall u v, u < n -> v < n -> (nth u scc 0%Z = nth v scc 0%Z <-> reach g u v /\ reach g v u)).
Proof.
  intros n g fn0 cc0 W L. pose proof (scc_correct n g fn0 cc0 W L) as K.
  destruct (ddg_compute_scc n g fn0 cc0) as [scc num]. destruct K as (_ & A & B & C & _). split; [|split]; auto.
Qed.
Print Assumptions C17_scc.

Theorem C17_scc_vertices : forall n g fn0 cc0 u, wf_graph n g -> length fn0 = n -> u < n ->
  let '(scc, num) := ddg_compute_scc n g fn0 cc0 in
  (forall v, In v (scc_vertices n scc (nth u scc 0%Z)) <-> reach g u v /\ reach g v u) /\
  get_scc_size scc (nth u scc 0%Z) = length (scc_vertices n scc (nth u scc 0%Z)).
Proof.
  intros n g fn0 cc0 u W L Hu. pose proof (scc_correct n g fn0 cc0 W L) as K.
  destruct (ddg_compute_scc n g fn0 cc0) as [scc num]. destruct K as (Ls & A & B & C & _). split.
  - intros v. rewrite scc_vertices_in. split.
    + intros [Hv E]. apply (C u v Hu Hv). auto.
    + intros SC. assert (v < n) by (apply (reach_lt n g u v W (proj1 SC) Hu)). split; auto.
      symmetry. apply C; auto.
  - rewrite <- Ls. symmetry. apply scc_vertices_length.
Qed.
Print Assumptions C17_scc_vertices.

Theorem C17_max_dim : forall scc dims id, length scc = length dims ->
  let m := get_max_orig_dim_in_scc scc dims id in
  (forall u, u < length scc -> nth u scc 0%Z = id -> (Z.of_nat (nth u dims 0%nat) <= m)%Z) /\
  (m = (-1)%Z \/ exists u, u < length scc /\ nth u scc 0%Z = id /\ m = Z.of_nat (nth u dims 0%nat)).
Proof. exact max_dim_spec. Qed.
Print Assumptions C17_max_dim.

Example C17_example : ddg_compute_scc 4 exg [0;0;0;0] [0;0;0;0]%Z = ([1;2;1;0]%Z, 3) /\
  exg = ddg_create 4 [mkDD 0 2 false false; mkDD 0 2 false false; mkDD 2 0 false false; mkDD 2 1 false false;
                      mkDD 3 3 false false; mkDD 1 0 true false; mkDD 1 3 false true].
Proof. split; reflexivity. Qed.

(** ** C18.  Component numbers are a topological order. *)
Theorem C18_topological : forall n g fn0 cc0, wf_graph n g -> length fn0 = n ->
  let '(scc, num) := ddg_compute_scc n g fn0 cc0 in
  forall u v, u < n -> v < n -> reach g u v -> (nth u scc 0 <= nth v scc 0)%Z.
Proof.
  intros n g fn0 cc0 W L. pose proof (scc_correct n g fn0 cc0 W L) as K.
  destruct (ddg_compute_scc n g fn0 cc0) as [scc num]. destruct K as (_ & A & B & C & D).
  intros u v Hu Hv R. clear Hu Hv. induction R as [|u v w E _ IH]; [lia|]. specialize (D u v E). lia.
Qed.
Print Assumptions C18_topological.

(** Between different components the order is strict, so a cut that orders
    statements by component number carries every dependence that crosses. *)
Theorem C18_strict : forall n g fn0 cc0, wf_graph n g -> length fn0 = n ->
  let '(scc, num) := ddg_compute_scc n g fn0 cc0 in
  forall u v, u < n -> v < n -> reach g u v -> ~ reach g v u -> (nth u scc 0 < nth v scc 0)%Z.
Proof.
  intros n g fn0 cc0 W L. pose proof (C18_topological n g fn0 cc0 W L) as T. pose proof (C17_scc n g fn0 cc0 W L) as S.
  destruct (ddg_compute_scc n g fn0 cc0) as [scc num]. destruct S as (_ & _ & S).
  intros u v Hu Hv R N. specialize (T u v Hu Hv R). specialize (S u v Hu Hv).
  destruct (Z.eq_dec (nth u scc 0%Z) (nth v scc 0%Z)) as [E|E]; [|lia]. apply S in E. tauto.
Qed.
Print Assumptions C18_strict.

Example C18_example : reach exg 0 1 /\ ~ reach exg 1 0.
Proof.
  split.
  - eapply reach_step with 2; [unfold edge; cbn; lia|]. eapply reach_step with 1; [unfold edge; cbn; lia|]. constructor.
  - intros R. remember 1 as a eqn:Ea. remember 0 as b eqn:Eb. induction R as [|u v w E _ IH]; [lia|].
    subst. unfold edge, adj in E. cbn in E. destruct v as [|[|[|[|v]]]]; cbn in E; try lia. destruct v; lia.
Qed.

(** ** C19.  Two statements get the same connected component number iff they are
    connected: false in general, because the number of the statement is replaced
    by the running counter (lib/pluto.c:2006). *)
Theorem C19_cc_refuted : exists n g cc0 u v, wf_graph n g /\ length cc0 = n /\ u < n /\ v < n /\
  connected g u v /\ nth u (fst (ddg_compute_cc n g cc0)) 0%Z <> nth v (fst (ddg_compute_cc n g cc0)) 0%Z.
Proof.
  exists 3, [[0;0;1]; [0;0;0]; [0;0;0]]%Z, [0;0;0]%Z, 0, 2.
  split; [apply wf_graph_check; reflexivity|]. repeat (split; [cbn; lia|]). split.
  - eapply conn_step; [|constructor]. left. unfold edge. cbn. lia.
  - vm_compute. discriminate.
Qed.
Print Assumptions C19_cc_refuted.

(** The number of components is right. *)
Theorem C19_count_partial : forall n g cc0, wf_graph n g -> length cc0 = n ->
  exists reps, length reps = snd (ddg_compute_cc n g cc0) /\ NoDup reps /\ (forall r, In r reps -> r < n) /\
    forall u, u < n -> exists r, In r reps /\ connected g u r /\ forall s, In s reps -> connected g u s -> s = r.
Proof. exact cc_count. Qed.
Print Assumptions C19_count_partial.

(** The numbers are right when every component is an interval of statements. *)
Theorem C19_intervals_partial : forall n g cc0, wf_graph n g -> length cc0 = n ->
  (forall u v w, u < v -> v < w -> connected g u w -> connected g u v) ->
  forall u v, u < n -> v < n ->
  (nth u (fst (ddg_compute_cc n g cc0)) 0%Z = nth v (fst (ddg_compute_cc n g cc0)) 0%Z <-> connected g u v).
Proof. exact cc_intervals. Qed.
Print Assumptions C19_intervals_partial.

Example C19_example : fst (ddg_compute_cc 4 [[0;1;0;0];[0;0;0;0];[0;0;0;0];[0;0;1;0]]%Z [0;0;0;0]%Z) = [0;0;1;1]%Z.
Proof. reflexivity. Qed.

(** ** C20.  Transitive closure: false in general (the loop over the middle vertex
    is innermost), 0 -> 3 -> 2 -> 1. *)
Theorem C20_closure_refuted : exists n g u v, wf_graph n g /\ u < n /\ v < n /\ reach g u v /\ u <> v /\
  ~ edge (compute_transitive_closure n g) u v.
Proof.
  exists 4, [[0;0;0;1];[0;0;0;0];[0;1;0;0];[0;0;1;0]]%Z, 0, 1.
  split; [apply wf_graph_check; reflexivity|]. split; [lia|]. split; [lia|]. split; [|split; [lia|]].
  - eapply reach_step with 3; [unfold edge; cbn; lia|]. eapply reach_step with 2; [unfold edge; cbn; lia|].
    eapply reach_step with 1; [unfold edge; cbn; lia|]. constructor.
  - unfold edge. vm_compute. intros H. apply H. reflexivity.
Qed.
Print Assumptions C20_closure_refuted.

(** What it does guarantee: only real paths are added, edges and two-edge paths
    are all present. *)
Theorem C20_closure_partial : forall n g, wf_graph n g ->
  (forall u v, edge (compute_transitive_closure n g) u v -> exists w, edge g u w /\ reach g w v) /\
  (forall u v, edge g u v -> edge (compute_transitive_closure n g) u v) /\
  (forall u w v, edge g u w -> edge g w v -> edge (compute_transitive_closure n g) u v).
Proof.
  intros n g W. destruct (closure_same n g W) as (_ & A & B). split; [|split]; auto.
  intros u w v. apply closure_two. exact W.
Qed.
Print Assumptions C20_closure_partial.

Example C20_example : compute_transitive_closure 4 exg = [[1;1;1;0]; [0;0;0;0]; [1;1;1;0]; [0;0;0;1]]%Z.
Proof. reflexivity. Qed.
