(** * The solver Gurobi (options gurobi and lp): theorems (C94, C95). *)
From Coq Require Import ZArith QArith Qabs List Bool Lia Lqa Arith.
From Verif Require Import SpecLinear SpecMatrix VecProofs MathModel ConstraintsModel SpecGraph GraphModel SpecProg SpecDriver SpecGlpk SpecGurobi
  FrameworkModel FrameworkProofs ProgModel DriverModel KeepProofs DriverProofs PadProofs AutoProofs GlpkModel GurobiModel GlpkProofs GlpkProofs2 GlpkProofs3 NearProofs GurobiProofs
  Checkers ExProg PropFramework PropAuto PropCone PropDfp PropGlpk.
Import ListNotations.
Open Scope Z_scope.

(** ** C94.  --gurobi: integer programs with a weighted objective.

    [conclusive grb]: every call ends with an optimum or without solution.
    [grb_rounds grb]: optima are precise enough to be rounded. *)

(** Every answer, rounded, satisfies every constraint that has a coefficient. *)
Theorem C94_constraints : forall grb pr c x, conclusive grb -> grb_rounds grb -> wf_cst c ->
  gurobi_lexmin grb false pr c = O_val x ->
  S (length x) = ncols c /\
  forall r, In r (rows c) -> (exists k, (k < length (coef r) - 1)%nat /\ nth k (coef r) 0 <> 0) -> holds x r.
Proof. intros grb pr c x CO RP W H. apply (ilp_answer grb CO pr); auto. Qed.
Print Assumptions C94_constraints.

(** Constraints without a coefficient are not passed on: a system that contains
    0 >= 1 has "solutions", with exact answers. *)
Definition absurd_system : cst := mkCst 6 [ge [0;0;1;1;0;-1]; ge [0;0;0;0;0;-1]].
Definition absurd_answers : list (list Q * list Q) := [([0;0;0;1;0]%Q, [4]%Q)].
Theorem C94_constraints_refuted : exists grb pr c x, grb_exact grb /\ conclusive grb /\ grb_rounds grb /\ wf_cst c /\
  gurobi_lexmin grb false pr c = O_val x /\ ~ exists y, mem c y.
Proof.
  exists (cert_grb absurd_answers), wide_prog, absurd_system, [0;0;0;1;0]. split; [apply cert_grb_exact|].
  split; [apply grb_exact_conclusive, cert_grb_exact|]. split; [apply grb_exact_rounds, cert_grb_exact|]. split; [wf|]. split; [vm_compute; reflexivity|].
  intros (y & L & H). cbn in L. assert (length y = 5%nat) by lia. specialize (H (ge [0;0;0;0;0;-1]) ltac:(right; left; reflexivity)).
  destruct y as [|a [|b [|c [|d [|e [|q y]]]]]]; try discriminate. cbv -[Z.le Z.add Z.mul] in H. lia.
Qed.
Print Assumptions C94_constraints_refuted.

(** If Gurobi stops for another reason -- a limit, an interrupt, numerical trouble --
    the values it has are taken for a solution. *)
Theorem C94_status_refuted : forall pr c v, exists grb,
  (forall tol p, g_status (grb tol p) = GRB_OTHER) /\ gurobi_lexmin grb false pr c = O_val (map c_round v).
Proof. intros pr c v. exists (fun _ _ => mkGrb GRB_OTHER (Some v)). split; reflexivity. Qed.
Print Assumptions C94_status_refuted.
Example C94_status_met : exists pr c x grb, wf_cst c /\ (exists y, mem c y) /\ (forall tol p, g_status (grb tol p) = GRB_OTHER) /\
  gurobi_lexmin grb false pr c = O_val x /\ ~ mem c x.
Proof.
  destruct (C94_status_refuted wide_prog (mkCst 6 [ge [0;0;1;1;0;-1]]) [0;0;0;0;0]%Q) as (grb & S & E).
  exists wide_prog, (mkCst 6 [ge [0;0;1;1;0;-1]]), [0;0;0;0;0], grb. split; [wf|]. split; [exists [0;0;0;1;0]; apply memb_ok; reflexivity|]. split; auto. split; [exact E|].
  intros M. apply memb_ok in M. discriminate.
Qed.

(** The transformation found is legal. *)
Theorem C94_legal : forall is_emptyb isl_emptyb kernel grb o fuse fuel pr pr',
  exact_empty is_emptyb -> conclusive grb -> grb_rounds grb -> input_ok pr ->
  auto_transform is_emptyb isl_emptyb kernel (gurobi_solver grb false) o fuse fuel pr = Some (0, pr') ->
  same_program pr pr' /\
  (forall d, In d (p_deps pr) -> d_rar d = false -> forall s t p, instance pr d s t p ->
     lexlt (timestamp (stmt_of pr' (d_src d)) s p) (timestamp (stmt_of pr' (d_dst d)) t p)) /\
  (forall s i j p, (s < length (p_stmts pr))%nat ->
     length i = s_dim (stmt_of pr s) -> length j = s_dim (stmt_of pr s) -> length p = p_npar pr ->
     timestamp (stmt_of pr' s) i p = timestamp (stmt_of pr' s) j p -> i = j).
Proof.
  intros is_emptyb isl_emptyb kernel grb o fuse fuel pr pr' EX CO RP IN H.
  destruct (auto_success is_emptyb isl_emptyb kernel _ o EX (ilp_hkeeps grb CO RP) fuse fuel pr pr' IN H) as (A & _ & B & C). auto.
Qed.
Print Assumptions C94_legal.

(** NULL is returned only if there is no solution without negative numbers. *)
Theorem C94_none : forall grb pr c y, truthful grb -> wf_cst c ->
  gurobi_lexmin grb false pr c = O_null -> mem c y -> ~ forall v, In v y -> 0 <= v.
Proof.
  intros grb pr c y T W H M N. unfold gurobi_lexmin, lexmin_gurobi in H. cbv zeta in H.
  set (obj := cplex_objective pr (ncols c - 1)) in *. set (p := grb_problem false obj c) in *.
  assert (grb_solve grb (1 # 10000000) p = O_null) as E.
  { destruct (grb_solve grb (1 # 10000000) p) as [| | |o]; auto; try discriminate. destruct o; discriminate. }
  destruct (point_of_mem false obj c y W (cplex_length _ _) M N) as [P Wh]. fold p in P, Wh.
  unfold grb_solve in E. cbv zeta in E. specialize (T (1 # 10000000)%Q p). destruct (g_status (grb (1 # 10000000)%Q p)); try discriminate.
  - apply (T _ P Wh).
  - destruct T as [T|T]; [apply (T _ P Wh)|]. destruct (T 0%Q) as (x & Px & L). apply (Qlt_not_le _ _ L). apply grb_obj_nonneg; auto. intros w. apply cplex_nonneg.
Qed.
Print Assumptions C94_none.

(** If the answers are nearly optimal, no non-negative point of the system has a
    smaller weighted sum than the rounded answer. *)
Theorem C94_cost : forall grb pr c x y, conclusive grb ->
  (forall p v, g_status (grb (1 # 10000000)%Q p) = GRB_OPTIMAL -> g_vals (grb (1 # 10000000)%Q p) = Some v -> nearly_best p v) -> wf_cst c ->
  gurobi_lexmin grb false pr c = O_val x -> mem c y -> (forall v, In v y -> 0 <= v) ->
  dot (cplex_objective pr (ncols c - 1)) x <= dot (cplex_objective pr (ncols c - 1)) y.
Proof.
  intros grb pr c x y CO NB W H M N. unfold gurobi_lexmin, lexmin_gurobi in H. cbv zeta in H.
  destruct (grb_solve grb _ _) as [| | |o] eqn:E; try discriminate. apply (solve_optimal grb CO) in E as (S & v & -> & V).
  cbn [grb_ilp_solution] in H. injection H as <-. apply (rounded_cost _ c); auto; [apply cplex_length|].
  apply (best_fewer (grb_problem false (cplex_objective pr (ncols c - 1)) c)); auto. intros g. apply grb_rows_glpk.
Qed.
Print Assumptions C94_cost.

Example C94_met : grb_exact (cert_grb wide_answers) /\ conclusive (cert_grb wide_answers) /\ grb_rounds (cert_grb wide_answers) /\ input_ok wide_prog /\
  (forall p v, g_status (cert_grb wide_answers (1 # 10000000)%Q p) = GRB_OPTIMAL -> g_vals (cert_grb wide_answers (1 # 10000000)%Q p) = Some v -> nearly_best p v) /\
  gurobi_lexmin (cert_grb wide_answers) false (st_prog (start_state wide_prog)) (first_system (fun _ => false) kern2 ex_opts wide_prog) = O_val [1;0;0;1;0].
Proof.
  split; [apply cert_grb_exact|]. split; [apply grb_exact_conclusive, cert_grb_exact|]. split; [apply grb_exact_rounds, cert_grb_exact|]. split; [exact wide_ok|].
  split; [apply grb_exact_best, cert_grb_exact|]. vm_compute. reflexivity.
Qed.
(** A solver that knows one infeasible constraint: minus the first column is at least 1. *)
Definition minus_first (r : grow) : bool := match gr_terms r, gr_bnd r with [(1%nat, q)], GLP_LO b => Qle_bool q 0 && Qle_bool 1 b | _, _ => false end.
Definition simple_grb : gurobi := fun _ p =>
  mkGrb (match gp_cols p with mkGcol (GLP_LO l) _ _ :: _ => if Qle_bool 0 l && existsb minus_first (gp_rows p) then GRB_INFEASIBLE else GRB_UNBOUNDED | _ => GRB_UNBOUNDED end) None.
Example C94_none_met : truthful simple_grb /\ gurobi_lexmin simple_grb false wide_prog (mkCst 6 [ge [0;0;1;1;0;-1]; ge [-1;0;0;0;0;-1]]) = O_null.
Proof.
  split; [|reflexivity]. intros tol p. cbn [simple_grb g_status]. destruct (gp_cols p) as [|[[l|f] b o] cs] eqn:EC; auto.
  destruct (Qle_bool 0 l && existsb minus_first (gp_rows p)) eqn:E; auto. apply andb_true_iff in E as [E0 E]. apply Qle_bool_iff in E0.
  apply existsb_exists in E as (r & Hr & B). intros x (L & C & R) _. specialize (R r Hr). unfold minus_first in B. rewrite EC in L, C.
  destruct (gr_terms r) as [|[[|[|n]] q] [|t k]]; try discriminate. destruct (gr_bnd r) as [d|]; [|discriminate].
  apply andb_true_iff in B as [B1 B2]. apply Qle_bool_iff in B1, B2. destruct x as [|v x]; [discriminate|].
  specialize (C 0%nat ltac:(cbn; lia)). cbn in C, R. assert (0 <= v)%Q by lra. nra.
Qed.

(** ** C95.  --gurobi with --lp: rational solutions scaled to integers. *)

(** The constraints that survive the scaling: those without u and w, with constant 0, on
    statements of one component -- if components consist of consecutive statements.
    Constraints with a negative constant survive too unless all their coefficients
    belong to redundant columns; C94_constraints_refuted. *)
Theorem C95_scaled_partial : forall grb pr c x,
  conclusive grb -> grb_scales grb -> wf_prog pr -> orig_first pr -> wf_cst c -> ncols c = cst_width pr -> rows c <> [] ->
  (forall u v w, (u < v)%nat -> (v < w)%nat -> connected (graph_of pr) u w -> connected (graph_of pr) u v) ->
  prog_constraints_lexmin (gurobi_solver grb true) pr c = Some x ->
  S (length x) = ncols c /\
  (forall r, In r (rows c) ->
     (forall k, (k < p_npar pr + 1)%nat -> nth k (coef r) 0 = 0) -> last (coef r) 0 = 0 ->
     (forall s s' j j', (s < length (p_stmts pr))%nat -> (s' < length (p_stmts pr))%nat -> (j <= p_nvar pr)%nat -> (j' <= p_nvar pr)%nat ->
        nth (stmt_offset pr s + j) (coef r) 0 <> 0 -> nth (stmt_offset pr s' + j') (coef r) 0 <> 0 -> connected (graph_of pr) s s') ->
     holds x r) /\
  zpadding_zero pr x.
Proof.
  intros grb pr c x CO SP W O Wc Nc NE I H. destruct (lp_hkept grb CO pr c x SP W O I Wc Nc NE H) as (A & B & C).
  split; auto. split; auto. intros r Hr D1 D2 D3. apply B; auto. constructor; auto; try lia.
Qed.
Print Assumptions C95_scaled_partial.

(** The transformation found is legal if dependences connect only statements that
    follow one another in the program (and statements with themselves). *)
Theorem C95_legal_partial : forall is_emptyb isl_emptyb kernel grb o fuse fuel pr pr',
  exact_empty is_emptyb -> conclusive grb -> grb_scales grb -> input_ok pr ->
  (forall d, In d (p_deps pr) -> d_rar d = false -> (d_src d <= d_dst d + 1)%nat /\ (d_dst d <= d_src d + 1)%nat) ->
  auto_transform is_emptyb isl_emptyb kernel (gurobi_solver grb true) o fuse fuel pr = Some (0, pr') ->
  same_program pr pr' /\
  (forall d, In d (p_deps pr) -> d_rar d = false -> forall s t p, instance pr d s t p ->
     lexlt (timestamp (stmt_of pr' (d_src d)) s p) (timestamp (stmt_of pr' (d_dst d)) t p)) /\
  (forall s i j p, (s < length (p_stmts pr))%nat ->
     length i = s_dim (stmt_of pr s) -> length j = s_dim (stmt_of pr s) -> length p = p_npar pr ->
     timestamp (stmt_of pr' s) i p = timestamp (stmt_of pr' s) j p -> i = j).
Proof.
  intros is_emptyb isl_emptyb kernel grb o fuse fuel pr pr' EX CO SP IN N H. pose proof (lp_hkeeps grb CO SP) as K.
  rewrite <- (auto_near is_emptyb isl_emptyb kernel _ o K EX fuse fuel pr IN N) in H.
  destruct (auto_success is_emptyb isl_emptyb kernel _ o EX K fuse fuel pr pr' IN H) as (A & _ & B & C). auto.
Qed.
Print Assumptions C95_legal_partial.

(** The answers for that program; its first constraint, 0 >= 0, is not passed on. *)
Definition gap_grb_answers : list (list Q * list Q) := map (fun a => (fst a, if (length (snd a) =? 41)%nat then tl (snd a) else snd a)) gap_answers.
(** In general it is not legal, even with exact answers: the program of
    C89_legal_refuted. *)
Theorem C95_legal_refuted : exists is_emptyb kernel grb o pr pr' d s t p,
  exact_empty is_emptyb /\ kernel_ok kernel /\ grb_exact grb /\ input_ok pr /\
  auto_transform is_emptyb (fun _ => false) kernel (gurobi_solver grb true) o MaxFuse 10 pr = Some (0, pr') /\
  In d (p_deps pr) /\ d_rar d = false /\ instance pr d s t p /\
  lexlt (timestamp (stmt_of pr' (d_dst d)) t p) (timestamp (stmt_of pr' (d_src d)) s p) /\
  o_coeff_bound o = 2 /\ map (fun st => mrows (s_trans st)) (p_stmts pr') =
    [[[1;0;0;0];[0;1;0;0];[0;0;0;1]]; [[2;1;0;0];[1;0;0;0];[0;0;0;0]]; [[3;0;0;3];[0;1;0;0];[0;0;0;0]]].
Proof.
  destruct C12_oracle_exists as [f F]. exists (wide_empty f), kern2, (cert_grb gap_grb_answers), gap_opts, gap_prog.
  assert (option_map (fun r => (fst r, map (fun st => mrows (s_trans st)) (p_stmts (snd r))))
    (auto_transform (wide_empty f) (fun _ => false) kern2 (gurobi_solver (cert_grb gap_grb_answers) true) gap_opts MaxFuse 10 gap_prog) =
    Some (0, [[[1;0;0;0];[0;1;0;0];[0;0;0;1]]; [[2;1;0;0];[1;0;0;0];[0;0;0;0]]; [[3;0;0;3];[0;1;0;0];[0;0;0;0]]])) as E by (vm_compute; reflexivity).
  destruct (auto_transform _ _ _ _ _ _ _ _) as [[r pr']|]; [|discriminate]. cbn [option_map fst snd] in E.
  apply (f_equal (option_map fst)) in E as E1. cbn in E1. apply (f_equal (option_map snd)) in E as E2. cbn [option_map snd] in E2. injection E1 as ->.
  assert (forall A (a b : A), Some a = Some b -> a = b) as SI by (intros A a b X; injection X; auto). apply SI in E2. clear E.
  exists pr', (ex_dep 2 0 false (uni_dep 1 0)), [0;0], [1;0], [5].
  split; [apply wide_empty_exact; auto|]. split; [exact kern2_ok|]. split; [apply cert_grb_exact|]. split; [exact gap_ok|]. split; [reflexivity|].
  split; [left; reflexivity|]. split; [reflexivity|]. split; [split; [reflexivity|split; [reflexivity|split; [reflexivity|apply memb_ok; vm_compute; reflexivity]]]|].
  split; [|split; [reflexivity|exact E2]].
  assert (forall k, mrows (s_trans (stmt_of pr' k)) = nth k (map (fun st => mrows (s_trans st)) (p_stmts pr')) (mrows (s_trans dummy_stmt))) as T
    by (intros k; rewrite (List.map_nth (fun st => mrows (s_trans st))); reflexivity).
  unfold timestamp. rewrite !T, E2. vm_compute. auto.
Qed.
Print Assumptions C95_legal_refuted.

Example C95_met : conclusive (cert_grb near_answers) /\ grb_scales (cert_grb near_answers) /\ input_ok near_prog /\
  (forall d, In d (p_deps near_prog) -> d_rar d = false -> (d_src d <= d_dst d + 1)%nat /\ (d_dst d <= d_src d + 1)%nat) /\
  exists f, exact_empty f /\
  option_map (fun r => (fst r, map (fun st => mrows (s_trans st)) (p_stmts (snd r))))
    (auto_transform f (fun _ => false) kern2 (gurobi_solver (cert_grb near_answers) true) ex_opts MaxFuse 10 near_prog) =
    Some (0, [[[2;1;0;0];[1;0;0;0];[0;0;0;0]]; [[2;1;0;0];[1;0;0;0];[0;0;0;1]]]).
Proof.
  split; [apply grb_exact_conclusive, cert_grb_exact|]. split; [apply grb_exact_scales, cert_grb_exact|]. split; [exact near_ok|]. split; [intros d [<-|[<-|[]]] _; simpl; lia|].
  destruct C12_oracle_exists as [f F]. exists (wide_empty f). split; [apply wide_empty_exact; auto|]. vm_compute. reflexivity.
Qed.
