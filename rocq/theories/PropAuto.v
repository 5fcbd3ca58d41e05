(** * Theorems: the automatic transformation as a whole (C15, C16, C59). *)
From Coq Require Import ZArith QArith List Bool Lia.
From Verif Require Import SpecLinear SpecMatrix VecProofs MathModel ConstraintsModel FMProofs SpecGraph GraphModel GraphProofs SpecProg SpecDriver
  FrameworkModel FrameworkProofs DepProofs Checkers ProgModel ProgProofs DriverModel HypProofs DriverProofs PadProofs AutoProofs
  ExProg PropFramework PropDriver.
Import ListNotations.
Open Scope Z_scope.

(** ** An input program, an exact emptiness test that computes, and a solver *)

(** for i, j: S0; for i: S1 -- S1 has one loop only. *)
Definition in_s0 : stmt := mkStmt 2 2 [true;true] ex_dom0 (mkMat 4 [[1;0;0;0]; [0;1;0;0];[0;0;0;0]]) [H_LOOP;H_LOOP;H_SCALAR] 0 0
  (s_reads ex_s0) (s_writes ex_s0) None 0 0 (-1).
Definition in_s1 : stmt := mkStmt 1 1 [true] (mkCst 3 [ge [1;0;0]; ge [-1;1;-1]]) (mkMat 3 [[1;0;0]; [0;0;0]; [0;0;1]]) [H_LOOP;H_SCALAR;H_SCALAR] 0 0
  [mkMat 3 [[1;0;0]; [0;0;0]]] [mkMat 3 [[1;0;0]]] None 0 0 (-1).
Definition in_d2 : cst := mkCst 5 [eq [1;0;-1;0;0]; eq [0;1;0;0;0]; ge [1;0;0;0;0]; ge [-1;0;0;1;-1]].
Definition in_d3 : cst := mkCst 4 [eq [1;-1;0;1]; ge [1;0;0;0]; ge [0;-1;1;-1]].
Definition in_prog : prog := mkProg 2 1 [in_s0; in_s1]
    [ex_dep 0 0 false ex_d0; ex_dep 0 0 false ex_d1; ex_dep 0 1 false in_d2; ex_dep 1 1 true in_d3] [H_LOOP; H_LOOP; H_SCALAR].

Fixpoint box (n : nat) : list point :=
  match n with O => [[]] | S k => flat_map (fun x => map (fun v => v :: x) [0;1;2]) (box k) end.
Definition elim_all (n : nat) (c : cst) : cst := Nat.iter n (fun c => fm_eliminate c 0) c.
Definition dec_empty (f : cst -> bool) (c : cst) : bool :=
  if negb (memb (elim_all (ncols c - 1) c) []) then true else if existsb (memb c) (box (ncols c - 1)) then false else f c.

Lemma elim_all_mem n : forall c x, wf_cst c -> (n < ncols c)%nat -> (n <= length x)%nat -> qmem c x -> qmem (elim_all n c) (skipn n x).
Proof.
  assert (forall n c, wf_cst c -> (n < ncols c)%nat -> wf_cst (elim_all n c) /\ ncols (elim_all n c) = (ncols c - n)%nat) as WF.
  { clear. intros n. induction n as [|n IH]; intros c W L; [split; [exact W|unfold elim_all; simpl; lia]|].
    destruct (IH c W) as [A B]; [lia|]. destruct (fm_eliminate_wf (elim_all n c) 0 A) as [C D]; [lia|].
    split; [exact C|]. unfold elim_all in *. simpl. lia. }
  induction n as [|n IH]; intros c x W L Lx M; [exact M|].
  destruct (WF n c W) as [A B]; [lia|].
  change (qmem (fm_eliminate (elim_all n c) 0) (skipn (S n) x)). apply fm_eliminate_exact; [auto|lia|].
  specialize (IH c x W ltac:(lia) ltac:(lia) M).
  destruct (skipn n x) as [|v l] eqn:E.
  - apply (f_equal (@length _)) in E. rewrite skipn_length in E. simpl in E. lia.
  - exists v. replace (skipn (S n) x) with l; [exact IH|]. clear - E. revert x E. induction n as [|n IHn]; intros [|y x] E; simpl in *; try discriminate; [congruence|auto].
Qed.
Lemma dec_empty_exact f : exact_empty f -> exact_empty (dec_empty f).
Proof.
  intros F c W. unfold dec_empty. destruct (memb (elim_all (ncols c - 1) c) []) eqn:R; simpl.
  - destruct (existsb (memb c) (box (ncols c - 1))) eqn:B.
    + apply existsb_exists in B as (x & _ & B). exists x. apply memb_ok. auto.
    + apply (F c W).
  - intros x M. apply memb_false in R. apply R. pose proof (proj1 W) as W1. pose proof (proj1 M) as L.
    pose proof (elim_all_mem (ncols c - 1) c (zpoint x) W) as K. apply qmem_zpoint. change (zpoint []) with (@nil Q).
    unfold zpoint in K at 1. rewrite map_length in K. specialize (K ltac:(lia) ltac:(lia) (proj2 (qmem_zpoint _ _) M)).
    rewrite skipn_all2 in K; [exact K|]. unfold zpoint. rewrite map_length. lia.
Qed.

Definition ex_kern (m : matrix) : matrix :=
  match mrows m with
  | [] => mkMat (mncols m) (map (fun i => set_nth i 1 (repeat 0 (mncols m))) (seq 0 (mncols m)))
  | _ => if matrix_eq_dec m (mkMat 2 [[1;0]]) then mkMat 1 [[0];[1]] else mkMat 0 (repeat [] (mncols m))
  end.
Definition ex_solve (_ : prog) (c : cst) : option point := find (memb c) [[0;1;0;1;0;1;0]; [0;1;1;1;0;1;0]].
Lemma ex_solve_sound : solver_sound ex_solve.
Proof. intros pr c x _ H. apply find_some in H as [_ H]. apply memb_ok. auto. Qed.

Lemma in_prog_ok : input_ok in_prog.
Proof.
  split; [split|].
  - intros st [<-|[<-|[]]]; repeat (split; [first [reflexivity|wf]|]); simpl; intuition (subst; first [wf|reflexivity]).
  - intros d [<-|[<-|[<-|[<-|[]]]]]; (split; [simpl; lia|split; [simpl; lia|split; [wf|split; [reflexivity|split; [wf|reflexivity]]]]]).
  - intros st [<-|[<-|[]]]; (split; [reflexivity|split; [simpl; lia|reflexivity]]).
Qed.

(** ** C15.  The transformation that the tool finds is legal.

    [auto_transform] is pluto_auto_transform with the domains made uniform at
    the start and restored at the end; diamond tiling, the per-cc objective and
    the LP-based variants are not modelled.  The hypotheses are on the external
    solvers: the emptiness test is exact, the ILP solver returns points of the
    system it is given.  Nothing is assumed about optimality, about the kernel
    computation or about the test [isl_emptyb] that prunes redundant
    constraints. *)
Theorem C15_auto_transform_legal : forall is_emptyb isl_emptyb kernel solve o fuse fuel pr pr',
  exact_empty is_emptyb -> solver_sound solve -> input_ok pr ->
  auto_transform is_emptyb isl_emptyb kernel solve o fuse fuel pr = Some (0, pr') ->
  same_program pr pr' /\
  (forall s i p, (s < length (p_stmts pr))%nat -> length i = s_dim (stmt_of pr s) -> length p = p_npar pr ->
     length (timestamp (stmt_of pr' s) i p) = length (p_hprops pr')) /\
  (forall d, In d (p_deps pr) -> d_rar d = false -> forall s t p, instance pr d s t p ->
     lexlt (timestamp (stmt_of pr' (d_src d)) s p) (timestamp (stmt_of pr' (d_dst d)) t p)) /\
  (forall s i j p, (s < length (p_stmts pr))%nat ->
     length i = s_dim (stmt_of pr s) -> length j = s_dim (stmt_of pr s) -> length p = p_npar pr ->
     timestamp (stmt_of pr' s) i p = timestamp (stmt_of pr' s) j p -> i = j).
Proof. intros; eapply auto_success; eauto. Qed.
Print Assumptions C15_auto_transform_legal.

(** When no transformation is found, the input schedules are back in place. *)
Theorem C15_failure_restores : forall is_emptyb isl_emptyb kernel solve o fuse fuel pr pr',
  exact_empty is_emptyb -> solver_sound solve -> input_ok pr ->
  auto_transform is_emptyb isl_emptyb kernel solve o fuse fuel pr = Some (1, pr') ->
  same_program pr pr' /\ p_hprops pr' = p_hprops pr /\
  (forall s, (s < length (p_stmts pr))%nat ->
     s_trans (stmt_of pr' s) = s_trans (stmt_of pr s) /\ s_hyp (stmt_of pr' s) = s_hyp (stmt_of pr s)).
Proof. intros; eapply auto_failure; eauto. Qed.
Print Assumptions C15_failure_restores.

Example C15_met : input_ok in_prog /\ solver_sound ex_solve /\ exists f, exact_empty f /\
  option_map (fun r => (fst r, map (fun s => mrows (s_trans s)) (p_stmts (snd r))))
    (auto_transform f (fun _ => false) ex_kern ex_solve ex_opts MaxFuse 10 in_prog) =
    Some (0, [[[1;0;0;0];[1;1;0;0];[0;0;0;0]]; [[1;0;0];[1;0;0];[0;0;1]]]) /\
  option_map fst (auto_transform f (fun _ => false) ex_kern (fun _ _ => None) ex_opts MaxFuse 10 in_prog) = Some 1.
Proof.
  split; [exact in_prog_ok|]. split; [exact ex_solve_sound|]. destruct C12_oracle_exists as [f F].
  exists (dec_empty f). split; [apply dec_empty_exact; auto|]. split; vm_compute; reflexivity.
Qed.

(** ** C16.  Cutting between components.

    [fresh pr n m] is the state after the dependence graph of [pr] and its
    components have been recomputed; [comp s u] is the number of the component
    of statement [u], [st_num s] the number of components, [st_max s] their
    largest loop depths. *)
Theorem C16_components : forall pr n m, wf_prog pr ->
  let s := fresh pr n m in
  (forall u, (u < length (p_stmts pr))%nat -> 0 <= comp s u < Z.of_nat (st_num s)) /\
  (forall u v, (u < length (p_stmts pr))%nat -> (v < length (p_stmts pr))%nat ->
     (comp s u = comp s v <-> dep_chain pr u v /\ dep_chain pr v u)) /\
  (forall u v, (u < length (p_stmts pr))%nat -> (v < length (p_stmts pr))%nat -> dep_chain pr u v -> comp s u <= comp s v) /\
  (forall k, (k < st_num s)%nat ->
     (forall u, (u < length (p_stmts pr))%nat -> comp s u = Z.of_nat k -> Z.of_nat (s_dim_orig (stmt_of pr u)) <= nth k (st_max s) 0) /\
     exists u, (u < length (p_stmts pr))%nat /\ comp s u = Z.of_nat k /\ nth k (st_max s) 0 = Z.of_nat (s_dim_orig (stmt_of pr u))).
Proof. exact fresh_comp. Qed.
Print Assumptions C16_components.

(** Cutting between all components appends one constant level: the component
    number.  No dependence is violated, and exactly those between different
    components (and those without instances) become satisfied. *)
Theorem C16_cut_all : forall is_emptyb pr n m, exact_empty is_emptyb -> wf_prog pr -> padded pr -> p_stmts pr <> [] ->
  let s := fresh pr n m in
  let '(s', k) := cut_all_sccs is_emptyb s in
  (st_num s = 1%nat /\ s' = s) \/
  (st_num s <> 1%nat /\ scalar_appended pr (st_prog s') (comp s) /\ Forall2 (cut_effect pr (comp s)) (p_deps pr) (p_deps (st_prog s'))).
Proof. intros; apply cut_all_fresh; auto. Qed.
Print Assumptions C16_cut_all.

(** Cutting between two components: statements in components before the second
    one run first.  The level is kept iff it satisfies a dependence. *)
Theorem C16_cut_between : forall is_emptyb pr n m i j, exact_empty is_emptyb -> wf_prog pr -> padded pr -> p_stmts pr <> [] ->
  let s := fresh pr n m in
  let '(s', k) := cut_between_sccs is_emptyb s i j in
  let c := fun u => if comp s u <? j then 0 else 1 in
  (k = 0%nat /\ not_cut pr (st_prog s')) \/
  ((1 <= k)%nat /\ scalar_appended pr (st_prog s') c /\ Forall2 (cut_effect pr c) (p_deps pr) (p_deps (st_prog s'))).
Proof.
  intros is_emptyb pr n m i j EX W P N s. pose proof (cut_between_fresh is_emptyb EX pr n m W P N i j) as H. fold s in H.
  destruct (cut_between_sccs is_emptyb s i j) as [s' k]. destruct H as [(E & ->)|H]; [|exact H].
  left. split; [auto|]. destruct (fresh_facts pr n m W P N) as (_ & _ & _ & _ & T & Hp & D). split; [exact Hp|]. split; [exact T|].
  unfold s. rewrite D. clear. induction (p_deps pr); constructor; auto.
Qed.
Print Assumptions C16_cut_between.

(** Cutting by loop depth: components are numbered consecutively, the number
    increasing wherever the depth changes from one component to the next. *)
Theorem C16_cut_dim_based : forall is_emptyb pr n m, exact_empty is_emptyb -> wf_prog pr -> padded pr -> p_stmts pr <> [] ->
  let s := fresh pr n m in
  let '(s', k) := cut_scc_dim_based is_emptyb s in
  (k = 0%nat /\ s' = s) \/
  exists c : Z -> Z, c 0 = 0 /\
    (forall q, 0 <= q -> q + 1 < Z.of_nat (st_num s) ->
      c (q + 1) = c q + (if nth (Z.to_nat (q + 1)) (st_max s) 0 =? nth (Z.to_nat q) (st_max s) 0 then 0 else 1)) /\
    ((k = 0%nat /\ not_cut pr (st_prog s')) \/
     ((1 <= k)%nat /\ scalar_appended pr (st_prog s') (fun u => c (comp s u)) /\
      Forall2 (cut_effect pr (fun u => c (comp s u))) (p_deps pr) (p_deps (st_prog s')))).
Proof. intros; apply cut_dim_fresh; auto. Qed.
Print Assumptions C16_cut_dim_based.

Example C16_met : wf_prog mid_prog /\ padded mid_prog /\ p_stmts mid_prog <> [] /\
  let s := fresh mid_prog 0 [] in
  st_num s = 2%nat /\ map (comp s) [0%nat; 1%nat] = [0; 1] /\ st_max s = [2; 1] /\
  exists f, exact_empty f /\
  (let '(s', k) := cut_all_sccs f s in
   k = 1%nat /\ map (fun s => mrows (s_trans s)) (p_stmts (st_prog s')) = [[[1;0;0;0]; [0;0;0;0]]; [[1;0;0;0]; [0;0;0;1]]]) /\
  (let '(s', k) := cut_between_sccs f s 0 1 in
   k = 1%nat /\ map (fun s => mrows (s_trans s)) (p_stmts (st_prog s')) = [[[1;0;0;0]; [0;0;0;0]]; [[1;0;0;0]; [0;0;0;1]]]) /\
  (let '(s', k) := cut_scc_dim_based f s in
   k = 1%nat /\ map d_sat (p_deps (st_prog s')) = [false; false; true; false]).
Proof.
  destruct mid_prog_ok as (W & P & _). split; [exact W|]. split; [exact P|]. split; [discriminate|].
  split; [reflexivity|]. split; [reflexivity|]. split; [reflexivity|].
  destruct C12_oracle_exists as [f F]. exists (dec_empty f). split; [apply dec_empty_exact; auto|].
  split; [|split]; vm_compute; auto.
Qed.

(** ** C59.  Full rank and one-to-one schedules. *)
Theorem C59_full_rank_one_to_one : forall pr,
  (forall st, In st (p_stmts pr) -> wf_cols pr st /\ (s_dim_orig st <= s_dim st)%nat) ->
  transformations_full_ranked pr = true <-> forall st, In st (p_stmts pr) -> one_to_one pr st.
Proof. exact full_rank_injective. Qed.
Print Assumptions C59_full_rank_one_to_one.

(** A statement needs no further hyperplanes iff its schedule is one-to-one. *)
Theorem C59_needs_hyperplanes : forall pr st, wf_cols pr st -> (s_dim_orig st <= s_dim st)%nat ->
  needs_hyps st = false <-> one_to_one pr st.
Proof.
  intros pr st (A & B & C & _) D. rewrite needs_spec; [|auto|lia]. apply complete_injective; auto.
Qed.
Print Assumptions C59_needs_hyperplanes.

Example C59_met :
  (forall st, In st (p_stmts ex_prog) -> wf_cols ex_prog st /\ (s_dim_orig st <= s_dim st)%nat) /\
  transformations_full_ranked ex_prog = true /\
  needs_hyps (stmt_of mid_prog 0) = true /\ ~ one_to_one mid_prog (stmt_of mid_prog 0).
Proof.
  split; [|split; [vm_compute; reflexivity|split; [vm_compute; reflexivity|]]].
  - intros st Hs. split; [|destruct Hs as [<-|[<-|[]]]; simpl; lia].
    destruct Hs as [<-|[<-|[]]]; repeat (split; [first [reflexivity|wf]|]); simpl; intuition (subst; first [wf|reflexivity]).
  - intros H. specialize (H [0;0] [0;1] [5] eq_refl eq_refl eq_refl eq_refl eq_refl). discriminate.
Qed.
