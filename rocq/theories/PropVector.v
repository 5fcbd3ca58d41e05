(** * Theorems: loops that can be vectorized (C65). *)
From Coq Require Import ZArith List Bool Lia Arith.
From Verif Require Import SpecLinear SpecMatrix SpecExport SpecVector MathModel ConstraintsModel VecProofs SpecProg SpecTile SpecLoop ProgModel ExportModel
  RemapProofs RemapProofs2 FrameworkModel LoopModel LoopProofs LoopProofs2 LoopProofs3 LoopProofs5 VectorModel VectorProofs Checkers ExProg
  PropFramework PropAuto PropExport PropLoop.
Import ListNotations.
Open Scope Z_scope.

(** Iterations are computed from times with a common divisor that fits into an
    int (is 1). *)
Definition divisor_ok (npar : nat) (st : stmt) (ok : Z -> Prop) : Prop :=
  forall m divs D, stmt_get_remapping st = Some (m, divs) -> remaps npar st m D -> ok (fold_left Z.lcm D 1).

(** Nothing is assumed but that all iterations have different times and small
    coefficients. *)
Definition invertible (pr : prog) (lp : ploop) : Prop :=
  forall s, In s (l_stmts lp) -> one_to_one (p_npar pr) (stmt_of pr s) /\ small_coefs (stmt_of pr s) /\ divisor_ok (p_npar pr) (stmt_of pr s) fits32.

Lemma new_access_of pr lp s acc : wf_levels pr -> invertible pr lp -> is_loop_of pr lp -> In s (l_stmts lp) ->
  In acc (s_reads (stmt_of pr s) ++ s_writes (stmt_of pr s)) ->
  exists m L, (exists dv, get_new_access_func acc (stmt_of pr s) = Some (m, dv)) /\ 0 < L /\ mnrows m = mnrows acc /\
    mncols m = (mnrows (s_trans (stmt_of pr s)) + p_npar pr + 1)%nat /\
    (forall x p, length x = s_dim (stmt_of pr s) -> length p = p_npar pr ->
       access_val (timestamp (stmt_of pr s) x p) p m = map (Z.mul L) (access_val x p acc)) /\
    (l_depth lp < mnrows (s_trans (stmt_of pr s)))%nat /\
    (divisor_ok (p_npar pr) (stmt_of pr s) (fun l => l = 1) -> L = 1).
Proof.
  intros W IV LP Hs Ha. destruct (IV s Hs) as (O & S & F). destruct LP as (D1 & _ & _ & D2). destruct (D2 s Hs) as [Ls _].
  destruct W as [[W _] WR]. destruct (W (stmt_of pr s)) as [WC _]; [apply nth_In; auto|]. pose proof WC as (_ & _ & _ & _ & _ & WA). destruct (WA acc Ha) as [WM CM].
  destruct (stmt_get_remapping (stmt_of pr s)) as [[m divs]|] eqn:E; [|exfalso; apply (C33_full_rank pr (stmt_of pr s) WC S) in O; auto].
  destruct (C33_remapping pr _ m divs WC S E) as (D & R & _).
  destruct (C34_new_access pr (stmt_of pr s) acc m divs D WC S WM CM E R (F m divs D E R)) as (na & A1 & A2 & A3 & A4 & A5).
  exists na, (fold_left Z.lcm D 1). split; [eauto|]. split; auto. split; auto. split; auto. split; auto. split; [rewrite WR; auto|].
  intros U. apply (U m divs D E R).
Qed.

(** The data used does not depend on the dependence information. *)
Lemma loop_accesses_info f pr lp : loop_accesses (info f pr) lp = loop_accesses pr lp.
Proof. change (info f pr) with (computed f pr). unfold loop_accesses. apply flat_map_ext. intros s. rewrite (cq_stmt f pr s). reflexivity. Qed.

Lemma in_accesses pr lp s acc : In (s, acc) (loop_accesses pr lp) <-> In s (l_stmts lp) /\ In acc (s_reads (stmt_of pr s) ++ s_writes (stmt_of pr s)).
Proof.
  unfold loop_accesses. rewrite in_flat_map. split.
  - intros (s' & H & X). apply in_map_iff in X as (a & Q & X). injection Q as <- <-. auto.
  - intros [A B]. exists s. split; auto. apply in_map. auto.
Qed.

Definition answer (o : option bool) : bool := match o with Some b => b | None => false end.

Lemma vectorizable_iff pr lp : wf_levels pr -> invertible pr lp -> is_loop_of pr lp ->
  exists b, loop_is_vectorizable pr lp = Some b /\ (exists v, loop_score pr lp = Some v) /\
  (b = true <-> loop_is_parallel pr lp = true /\ loop_accesses pr lp <> [] /\
     forall s acc, In s (l_stmts lp) -> In acc (s_reads (stmt_of pr s) ++ s_writes (stmt_of pr s)) ->
       answer (has_spatial_reuse (stmt_of pr s) acc (l_depth lp)) || answer (is_invariant (stmt_of pr s) acc (l_depth lp)) = true).
Proof.
  intros W IV LP.
  assert (forall a, In a (loop_accesses pr lp) -> exists b1 b2, has_spatial_reuse (stmt_of pr (fst a)) (snd a) (l_depth lp) = Some b1 /\
     is_invariant (stmt_of pr (fst a)) (snd a) (l_depth lp) = Some b2 /\ (b1 = true -> b2 = true -> False)) as AC.
  { intros [s acc] H. apply in_accesses in H as [H1 H2]. cbn [fst snd].
    destruct (new_access_of pr lp s acc W IV LP H1 H2) as (m & L & G & LP0 & NR & NC & E & K & _).
    destruct (spatial_iff (stmt_of pr s) (p_npar pr) acc m (l_depth lp) NR NC K G) as (b1 & E1 & I1).
    destruct (invariant_iff (stmt_of pr s) (p_npar pr) acc m (l_depth lp) NR NC K G) as (b2 & E2 & I2).
    exists b1, b2. split; auto. split; auto. intros X Y. apply I1 in X. apply I2 in Y. apply (not_both acc m (l_depth lp) X Y). }
  destruct (count_accesses has_spatial_reuse pr lp) as [s|] eqn:CS.
  2: { exfalso. revert CS. apply count_some. intros a Ha. destruct (AC a Ha) as (b1 & b2 & -> & _). discriminate. }
  destruct (count_accesses is_invariant pr lp) as [t|] eqn:CT.
  2: { exfalso. revert CT. apply count_some. intros a Ha. destruct (AC a Ha) as (b1 & b2 & _ & -> & _). discriminate. }
  destruct (count_spec _ _ _ _ CS) as [_ NS]. destruct (count_spec _ _ _ _ CT) as [_ NT].
  assert (exists b, loop_is_vectorizable pr lp = Some b /\ (b = true <-> loop_is_parallel pr lp = true /\ loop_accesses pr lp <> [] /\
     forall s acc, In s (l_stmts lp) -> In acc (s_reads (stmt_of pr s) ++ s_writes (stmt_of pr s)) ->
       answer (has_spatial_reuse (stmt_of pr s) acc (l_depth lp)) || answer (is_invariant (stmt_of pr s) acc (l_depth lp)) = true)) as (b & EB & I).
  { unfold loop_is_vectorizable. rewrite CS, CT. destruct (loop_is_parallel pr lp); cbn [negb].
    2: { exists false. split; auto. split; [discriminate|]. intros (X & _). discriminate. }
    eexists. split; [reflexivity|]. rewrite num_accesses, andb_true_iff, Nat.leb_le, Nat.eqb_eq.
    destruct (disjoint_filters (fun a => match has_spatial_reuse (stmt_of pr (fst a)) (snd a) (l_depth lp) with Some b => b | None => false end)
      (fun a => match is_invariant (stmt_of pr (fst a)) (snd a) (l_depth lp) with Some b => b | None => false end) (loop_accesses pr lp)) as [_ Q].
    { intros a Ha. destruct (AC a Ha) as (b1 & b2 & -> & -> & D). auto. }
    split.
    - intros [A B]. split; auto. split; [intros X; rewrite X in A; simpl in A; lia|]. intros s0 acc H1 H2.
      assert (In (s0, acc) (loop_accesses pr lp)) as Hi by (apply in_accesses; auto).
      assert (forall x, In x (loop_accesses pr lp) -> _) as Q' by (apply Q; lia). apply (Q' _ Hi).
    - intros (_ & A & B). split; [destruct (loop_accesses pr lp); [contradiction|simpl; lia]|]. rewrite NS, NT. symmetry. apply Q.
      intros [s0 acc] Hi. apply in_accesses in Hi as [H1 H2]. apply (B s0 acc H1 H2). }
  exists b. split; auto. split; [|exact I]. unfold loop_score. rewrite CS, CT, EB. eauto.
Qed.

(** ** C65 *)

(** No abort. *)
Theorem C65_defined : forall f pr lp, exact_empty f -> wf_levels pr -> In lp (get_all_loops (info f pr)) -> invertible pr lp ->
  (exists b, loop_is_vectorizable (info f pr) lp = Some b) /\ exists v, loop_score (info f pr) lp = Some v.
Proof.
  intros f pr lp EX W Hl IV. change (info f pr) with (computed f pr) in *.
  assert (invertible (computed f pr) lp) as IV'. { intros s Hs. rewrite cq_stmt, cq_npar. apply IV; auto. }
  destruct (vectorizable_iff (computed f pr) lp (cq_wf f pr W) IV' (all_loops_ok _ _ Hl)) as (b & A & B & _). eauto.
Qed.
Print Assumptions C65_defined.

(** A vectorizable loop is parallel and has accesses; when it advances, each
    access of its statements stays at the same element or advances in the last
    index only, by at most four for each step. *)
Theorem C65_vectorizable : forall f pr lp, exact_empty f -> wf_levels pr -> In lp (get_all_loops (info f pr)) -> invertible pr lp ->
  loop_is_vectorizable (info f pr) lp = Some true ->
  parallel_level pr (l_stmts lp) (l_depth lp) /\
  (exists s acc, In s (l_stmts lp) /\ In acc (s_reads (stmt_of pr s) ++ s_writes (stmt_of pr s))) /\
  forall s acc, In s (l_stmts lp) -> In acc (s_reads (stmt_of pr s) ++ s_writes (stmt_of pr s)) ->
    (forall n x x' p, length x = s_dim (stmt_of pr s) -> length x' = s_dim (stmt_of pr s) -> length p = p_npar pr -> 0 < n ->
       steps_later (stmt_of pr s) (l_depth lp) n x x' p -> same_element acc x x' p) \/
    (forall n x x' p, length x = s_dim (stmt_of pr s) -> length x' = s_dim (stmt_of pr s) -> length p = p_npar pr -> 0 < n ->
       steps_later (stmt_of pr s) (l_depth lp) n x x' p -> short_step acc n x x' p).
Proof.
  intros f pr lp EX W Hl IV V. pose proof (C29_parallel f pr lp EX W Hl) as PL. change (info f pr) with (computed f pr) in *.
  assert (invertible (computed f pr) lp) as IV'. { intros s Hs. rewrite cq_stmt, cq_npar. apply IV; auto. }
  destruct (vectorizable_iff (computed f pr) lp (cq_wf f pr W) IV' (all_loops_ok _ _ Hl)) as (b & A & _ & B). rewrite V in A. injection A as <-.
  destruct (proj1 B eq_refl) as (B1 & B2 & B3). split; [apply (C29_same_program f pr); auto|]. split.
  { destruct (loop_accesses (computed f pr) lp) as [|[s acc] r] eqn:E; [contradiction|]. exists s, acc. 
    assert (In (s, acc) (loop_accesses (computed f pr) lp)) as Hi by (rewrite E; left; auto). apply in_accesses in Hi. rewrite cq_stmt in Hi. exact Hi. }
  intros s acc Hs Ha. specialize (B3 s acc Hs). rewrite cq_stmt in B3. specialize (B3 Ha).
  assert (is_loop_of pr lp) as LP. { apply all_loops_ok. rewrite <- (proj1 (C29_same_program f pr)). exact Hl. }
  destruct (new_access_of pr lp s acc W IV LP Hs Ha) as (m & L & G & LP0 & NR & NC & E & K & _).
  destruct (spatial_iff (stmt_of pr s) (p_npar pr) acc m (l_depth lp) NR NC K G) as (b1 & E1 & I1).
  destruct (invariant_iff (stmt_of pr s) (p_npar pr) acc m (l_depth lp) NR NC K G) as (b2 & E2 & I2).
  rewrite E1, E2 in B3. cbn [answer] in B3. apply orb_true_iff in B3 as [X|X]; [right|left]; intros n x x' p Lx Lx' Lp N ST.
  - apply I1 in X. apply (spatial_short (stmt_of pr s) (p_npar pr) acc m L (l_depth lp)); auto.
  - apply I2 in X. apply (invariant_same (stmt_of pr s) (p_npar pr) acc m L (l_depth lp)) with (n := n); auto.
Qed.
Print Assumptions C65_vectorizable.

(** Conversely, a loop reported parallel that has accesses is found if each of
    them stays at the same element or takes a short step in one iteration, and
    iterations are integer combinations of times. *)
Theorem C65_found : forall f pr lp, exact_empty f -> wf_levels pr -> In lp (get_all_loops (info f pr)) -> invertible pr lp ->
  loop_is_parallel (info f pr) lp = true ->
  (exists s acc, In s (l_stmts lp) /\ In acc (s_reads (stmt_of pr s) ++ s_writes (stmt_of pr s))) ->
  (forall s acc, In s (l_stmts lp) -> In acc (s_reads (stmt_of pr s) ++ s_writes (stmt_of pr s)) ->
     divisor_ok (p_npar pr) (stmt_of pr s) (fun l => l = 1) /\
     exists x x' p, length x = s_dim (stmt_of pr s) /\ length x' = s_dim (stmt_of pr s) /\ length p = p_npar pr /\
       steps_later (stmt_of pr s) (l_depth lp) 1 x x' p /\ (same_element acc x x' p \/ short_step acc 1 x x' p)) ->
  loop_is_vectorizable (info f pr) lp = Some true.
Proof.
  intros f pr lp EX W Hl IV PL (s0 & a0 & H0 & H0') AL. change (info f pr) with (computed f pr) in *.
  assert (invertible (computed f pr) lp) as IV'. { intros s Hs. rewrite cq_stmt, cq_npar. apply IV; auto. }
  destruct (vectorizable_iff (computed f pr) lp (cq_wf f pr W) IV' (all_loops_ok _ _ Hl)) as (b & A & _ & B). rewrite A. f_equal. apply B.
  split; auto. split.
  { intros X. assert (In (s0, a0) (loop_accesses (computed f pr) lp)) as Y by (apply in_accesses; rewrite cq_stmt; auto). rewrite X in Y. destruct Y. }
  intros s acc Hs Ha. rewrite cq_stmt in *. destruct (AL s acc Hs Ha) as (U & x & x' & p & Lx & Lx' & Lp & ST & SS).
  assert (is_loop_of pr lp) as LP. { apply all_loops_ok. rewrite <- (proj1 (C29_same_program f pr)). exact Hl. }
  destruct (new_access_of pr lp s acc W IV LP Hs Ha) as (m & L & G & LP0 & NR & NC & E & K & L1). specialize (L1 U).
  destruct (spatial_iff (stmt_of pr s) (p_npar pr) acc m (l_depth lp) NR NC K G) as (b1 & E1 & I1).
  destruct (invariant_iff (stmt_of pr s) (p_npar pr) acc m (l_depth lp) NR NC K G) as (b2 & E2 & I2).
  rewrite E1, E2. cbn [answer]. apply orb_true_iff. destruct SS as [SS|SS]; [right; apply I2|left; apply I1].
  - apply (same_invariant (stmt_of pr s) (p_npar pr) acc m L (l_depth lp)) with (n := 1) (x := x) (x' := x') (p := p); auto; lia.
  - apply (short_spatial (stmt_of pr s) (p_npar pr) acc m L (l_depth lp)) with (x := x) (x' := x') (p := p); auto.
Qed.
Print Assumptions C65_found.

(** for i, j: A[i][j] = A[i-1][j] + c[i]: loop j is vectorizable, loop i is not. *)
Definition vec_stmt : stmt := mkStmt 2 2 [true;true] two_dom (mkMat 3 [[1;0;0];[0;1;0]]) [H_LOOP;H_LOOP] 0 0
  [mkMat 3 [[1;0;-1];[0;1;0]]; mkMat 3 [[1;0;0]]] [mkMat 3 [[1;0;0];[0;1;0]]] None 0 (-1) (-1).
Definition vec_prog : prog := mkProg 2 0 [vec_stmt] [ex_dep 0 0 false (mkCst 5 [eq [1;0;-1;0;1]; eq [0;1;0;-1;0]; ge [1;0;0;0;0]; ge [0;0;-1;0;9]; ge [0;1;0;0;0]; ge [0;-1;0;0;9]])] [H_LOOP; H_LOOP].
Lemma vec_divisor : divisor_ok 0 vec_stmt (fun l => l = 1).
Proof.
  intros m divs D E R. assert (D = [1;1;1]) as ->; [|reflexivity]. vm_compute in E. injection E as <- <-.
  pose proof R as (_ & _ & _ & L & _ & _). destruct R as (_ & _ & _ & _ & _ & R). specialize (R [1;1] [] eq_refl eq_refl).
  destruct D as [|d0 [|d1 [|d2 [|]]]]; try discriminate L. cbn in R. injection R as R0 R1 R2. repeat f_equal; lia.
Qed.
Example C65_met : exists f, exact_empty f /\ wf_levels vec_prog /\ invertible vec_prog (mkPloop 1 [0%nat]) /\
  map show_loop (get_all_loops (info f vec_prog)) = [(1, [0]); (0, [0])]%nat /\
  loop_is_vectorizable (info f vec_prog) (mkPloop 1 [0%nat]) = Some true /\ loop_score (info f vec_prog) (mkPloop 1 [0%nat]) = Some 16 /\
  loop_is_vectorizable (info f vec_prog) (mkPloop 0 [0%nat]) = Some false /\ loop_score (info f vec_prog) (mkPloop 0 [0%nat]) = Some (-30) /\
  divisor_ok 0 vec_stmt (fun l => l = 1) /\ steps_later vec_stmt 1 1 [3;4] [3;5] [] /\
  same_element (mkMat 3 [[1;0;0]]) [3;4] [3;5] [] /\ short_step (mkMat 3 [[1;0;-1];[0;1;0]]) 1 [3;4] [3;5] [].
Proof.
  destruct C12_oracle_exists as [f F]. exists (dec_empty f). split; [apply dec_empty_exact; auto|]. split.
  { split; [|intros s Hs; destruct s as [|s]; [reflexivity|simpl in Hs; lia]].
    split; [intros st [<-|[]]; (split; [|reflexivity]); repeat (split; [first [reflexivity|wf]|]); simpl; intuition (subst; first [wf|reflexivity])|].
    intros d [<-|[]]. repeat (split; [first [simpl; lia|wf]|]). reflexivity. }
  split.
  { intros s [<-|[]]. split; [|split].
    - intros x y p Lx Ly Lp T. simpl in Lx, Ly, Lp. destruct x as [|x0 [|x1 [|]]], y as [|y0 [|y1 [|]]], p; try discriminate.
      pose proof (f_equal (fun l => nth 0 l 0) T) as T0. apply (f_equal (fun l => nth 1 l 0)) in T. unfold timestamp, aff in T, T0. cbn -[Z.mul Z.add] in T, T0.
      repeat f_equal; lia.
    - intros r [<-|[<-|[]]] [|[|j]] Hj; simpl in *; lia.
    - intros m divs D E R. rewrite (vec_divisor m divs D E R). vm_compute. split; [discriminate|reflexivity]. }
  split; [vm_compute; reflexivity|]. split; [vm_compute; reflexivity|]. split; [vm_compute; reflexivity|]. split; [vm_compute; reflexivity|]. split; [vm_compute; reflexivity|].
  split; [exact vec_divisor|]. split; [intros [|[|[|j]]]; reflexivity|]. split; [reflexivity|]. split; [discriminate|]. split; [reflexivity|]. vm_compute. split; [reflexivity|discriminate].
Qed.
