(** * The solver GLPK (options glpk and lp): theorems (C88, C89, C90). *)
From Coq Require Import ZArith QArith Qabs List Bool Lia Arith.
From Verif Require Import SpecLinear SpecMatrix VecProofs MathModel ConstraintsModel SpecGraph GraphModel SpecProg SpecDriver SpecGlpk
  FrameworkModel FrameworkProofs ProgModel DriverModel KeepProofs DriverProofs PadProofs AutoProofs GlpkModel GlpkProofs GlpkProofs2 GlpkProofs3 NearProofs
  Checkers ExProg PropFramework PropAuto PropCone PropDfp.
Import ListNotations.
Open Scope Z_scope.

(** ** C88.  --glpk: integer programs with a weighted objective.

    [rounds_precisely glpk]: the values of answers whose state is optimal or feasible
    are [precise]: near a solution of the linear program, nearly integer, the
    errors small compared to the coefficients. *)

(** Every answer, rounded, satisfies every constraint it was computed for. *)
Theorem C88_constraints : forall glpk pr c x, rounds_precisely glpk -> wf_cst c ->
  glpk_lexmin glpk false false pr c = Some (Some x) -> mem c x.
Proof.
  intros glpk pr c x RP W H. unfold glpk_lexmin, lexmin_glpk in H. cbn [orb] in H.
  destruct (solve_glpk glpk _) as [v|] eqn:E; [|discriminate]. injection H as <-. apply solve_usable in E as [U ->]. apply RP in U.
  apply (ilp_rounds (cplex_objective pr (ncols c - 1))); auto. unfold cplex_objective. cbv zeta. rewrite firstn_length, app_length, repeat_length. lia.
Qed.
Print Assumptions C88_constraints.

Lemma glpk_sound glpk : rounds_precisely glpk -> solver_sound (glpk_solver glpk false false).
Proof.
  intros RP pr c x W H. unfold glpk_solver in H. destruct (glpk_lexmin glpk false false pr c) as [[y|]|] eqn:E; try discriminate. injection H as <-.
  apply (C88_constraints glpk pr); auto.
Qed.

(** The transformation found is legal. *)
Theorem C88_legal : forall is_emptyb isl_emptyb kernel glpk o fuse fuel pr pr',
  exact_empty is_emptyb -> rounds_precisely glpk -> input_ok pr ->
  auto_transform is_emptyb isl_emptyb kernel (glpk_solver glpk false false) o fuse fuel pr = Some (0, pr') ->
  same_program pr pr' /\
  (forall d, In d (p_deps pr) -> d_rar d = false -> forall s t p, instance pr d s t p ->
     lexlt (timestamp (stmt_of pr' (d_src d)) s p) (timestamp (stmt_of pr' (d_dst d)) t p)) /\
  (forall s i j p, (s < length (p_stmts pr))%nat ->
     length i = s_dim (stmt_of pr s) -> length j = s_dim (stmt_of pr s) -> length p = p_npar pr ->
     timestamp (stmt_of pr' s) i p = timestamp (stmt_of pr' s) j p -> i = j).
Proof.
  intros is_emptyb isl_emptyb kernel glpk o fuse fuel pr pr' EX RP IN H.
  destruct (C15_auto_transform_legal is_emptyb isl_emptyb kernel _ o fuse fuel pr pr' EX (glpk_sound glpk RP) IN H) as (A & _ & B & C). auto.
Qed.
Print Assumptions C88_legal.

(** If the answers are nearly optimal, no non-negative point of the system has a
    smaller weighted sum than the rounded answer. *)
Theorem C88_cost : forall glpk pr c x y, 
  (forall p, usable (glpk (1 # 10000000)%Q p) -> nearly_best p (a_val (glpk (1 # 10000000)%Q p))) -> wf_cst c ->
  glpk_lexmin glpk false false pr c = Some (Some x) -> mem c y -> (forall v, In v y -> 0 <= v) ->
  dot (cplex_objective pr (ncols c - 1)) x <= dot (cplex_objective pr (ncols c - 1)) y.
Proof.
  intros glpk pr c x y NB W H M N. unfold glpk_lexmin, lexmin_glpk in H. cbn [orb] in H.
  destruct (solve_glpk glpk _) as [v|] eqn:E; [|discriminate]. injection H as <-. apply solve_usable in E as [U ->]. apply NB in U.
  apply (rounded_cost _ c); auto. unfold cplex_objective. cbv zeta. rewrite firstn_length, app_length, repeat_length. lia.
Qed.
Print Assumptions C88_cost.

Lemma exact_best glpk : exact_answers glpk -> forall p, usable (glpk (1 # 10000000)%Q p) -> nearly_best p (a_val (glpk (1 # 10000000)%Q p)).
Proof.
  intros H p U. destruct (exact_usable glpk _ p H U) as (P & W & C & O).
  exists 0%Q, 0%Q. split; [apply P|]. split; [apply whole_nearly; auto|]. split; [discriminate|]. split; [reflexivity|]. split.
  - intros x Hx Wx. rewrite Qplus_0_r. auto.
  - rewrite Qmult_0_r. reflexivity.
Qed.

(** for i in 0..2N-1, j in 0..8, with the dependence (i,j) -> (i+N,j+6). *)
Definition wide_dom : cst := mkCst 4 [ge [1;0;0;0]; ge [-1;0;2;-1]; ge [0;1;0;0]; ge [0;-1;0;8]].
Definition wide_stmt : stmt := mkStmt 2 2 [true;true] wide_dom (mkMat 4 [[1;0;0;0]; [0;1;0;0]]) [H_LOOP;H_LOOP] 0 0 [] [] None 0 (-1) (-1).
Definition wide_dep : cst := mkCst 6 [eq [-1;0;1;0;-1;0]; eq [0;-1;0;1;0;-6]; ge [1;0;0;0;0;0]; ge [-1;0;0;0;2;-1]; ge [0;1;0;0;0;0]; ge [0;-1;0;0;0;8];
  ge [0;0;1;0;0;0]; ge [0;0;-1;0;2;-1]; ge [0;0;0;1;0;0]; ge [0;0;0;-1;0;8]].
Definition wide_prog : prog := mkProg 2 1 [wide_stmt] [ex_dep 0 0 false wide_dep] [H_LOOP;H_LOOP].
Lemma wide_ok : input_ok wide_prog.
Proof.
  split; [split|].
  - intros st [<-|[]]; repeat (split; [first [reflexivity|wf]|]); simpl; intuition (subst; first [wf|reflexivity]).
  - intros d [<-|[]]; (split; [simpl; lia|split; [simpl; lia|split; [wf|split; [reflexivity|split; [wf|reflexivity]]]]]).
  - intros st [<-|[]]; (split; [reflexivity|split; [simpl; lia|reflexivity]]).
Qed.

Definition kern2 (m : matrix) : matrix :=
  match mrows m with
  | [] => mkMat (mncols m) (map (fun i => set_nth i 1 (repeat 0 (mncols m))) (seq 0 (mncols m)))
  | [[a;b]] => if b =? 0 then mkMat 1 [[0];[1]] else mkMat 1 [[b];[-a]]
  | _ => mkMat 0 (repeat [] (mncols m))
  end.
(** The first system the search solves. *)
Definition first_system (isl_emptyb : cst -> bool) (kernel : matrix -> matrix) (o : options) (pr : prog) : cst :=
  let pr0 := st_prog (start_state pr) in
  let cur := cst_add (cst_add (get_permutability_constraints o (fun _ => false) pr0) (get_coeff_bounding_constraints o pr0)) (get_non_trivial_sol_constraints pr0 EAGER) in
  compact_cst pr0 (cst_add cur (get_linear_ind_constraints isl_emptyb kernel o pr0 cur EAGER)).
Definition wide_answers : list (list Q * list Q) := [([1;0;0;1;0]%Q, [0;0;40;10;0;0;0;0;0;0;0;0;0;54]%Q)].

(** ** C90.  The same solution with either solver.

    The default solver minimises (u, w, ...) lexicographically.  With --glpk even an
    exact optimum need not be that minimum: here u = 1, w = 0 is answered, but
    u = 0, w = 6 is possible. *)
Theorem C90_lexmin_refuted : exists glpk pr x y, exact_answers glpk /\ input_ok pr /\
  let c := first_system (fun _ => false) kern2 ex_opts pr in
  wf_cst c /\ glpk_lexmin glpk false false (st_prog (start_state pr)) c = Some (Some x) /\ mem c y /\ (forall v, In v y -> 0 <= v) /\ lexlt y x.
Proof.
  exists (cert_glpk wide_answers), wide_prog, [1;0;0;1;0], [0;6;1;0;0]. split; [apply cert_exact|]. split; [exact wide_ok|]. cbv zeta.
  split; [split; [vm_compute; lia|intros r Hr; vm_compute in Hr; intuition (subst; reflexivity)]|].
  split; [vm_compute; reflexivity|]. split; [apply memb_ok; vm_compute; reflexivity|]. split; [simpl; lia|].
  simpl. lia.
Qed.
Print Assumptions C90_lexmin_refuted.

Example C88_met : exact_answers (cert_glpk wide_answers) /\ rounds_precisely (cert_glpk wide_answers) /\ input_ok wide_prog /\
  cplex_objective wide_prog 5 = [50;10;8;4;1] /\
  glpk_lexmin (cert_glpk wide_answers) false false (st_prog (start_state wide_prog)) (first_system (fun _ => false) kern2 ex_opts wide_prog) = Some (Some [1;0;0;1;0]).
Proof. split; [apply cert_exact|]. split; [apply exact_rounds, cert_exact|]. split; [exact wide_ok|]. split; vm_compute; reflexivity. Qed.

(** With --dfp and --ilp the answer is read although no column numbers for scaling
    were made: a NULL pointer is dereferenced as soon as a value after the first
    npar + 1 is not 0. *)
Theorem C90_dfp_ilp_refuted : forall glpk pr c v,
  solve_glpk glpk (glpk_problem false (cplex_objective pr (ncols c - 1)) c) = Some v ->
  (exists i, (p_npar pr + 1 <= i)%nat /\ (1 # 10000000 < Qabs (nth i v 0))%Q) ->
  glpk_lexmin glpk false true pr c = None.
Proof.
  intros glpk pr c v E (i & Hi & U). unfold glpk_lexmin, lexmin_glpk. rewrite E. cbn [orb].
  assert (existsb is_used (skipn (p_npar pr + 1) v) = true) as X.
  { apply existsb_exists. exists (nth i v 0%Q). split.
    - replace i with (p_npar pr + 1 + (i - (p_npar pr + 1)))%nat by lia. rewrite <- nth_skipn_any. apply nth_In. rewrite skipn_length.
      destruct (le_lt_dec (length v) i) as [L|L]; [|lia]. rewrite nth_overflow in U by auto. exfalso. apply (Qlt_irrefl (1 # 10000000)). eapply Qlt_trans; [exact U|reflexivity].
    - unfold is_used. apply negb_true_iff. destruct (Qle_bool _ _) eqn:B; auto. apply Qle_bool_iff in B. exfalso. apply (Qlt_not_le _ _ U B). }
  unfold scaling_lp. rewrite X. reflexivity.
Qed.
Print Assumptions C90_dfp_ilp_refuted.
Example C90_dfp_ilp_met : glpk_lexmin (cert_glpk wide_answers) false true (st_prog (start_state wide_prog)) (first_system (fun _ => false) kern2 ex_opts wide_prog) = None.
Proof. vm_compute. reflexivity. Qed.

(** ** C89.  --lp: rational solutions scaled to integers.

    [scales_precisely glpk]: usable answers to a problem and the answers to the problem
    that scales it are precise together. *)

(** The constraints that survive the scaling: those without u and w, with constant at
    most 0, on statements of one component -- if components consist of consecutive
    statements. *)
Theorem C89_scaled_partial : forall glpk dfp pr c x,
  scales_precisely glpk -> wf_prog pr -> orig_first pr -> wf_cst c -> ncols c = cst_width pr -> rows c <> [] ->
  (forall u v w, (u < v)%nat -> (v < w)%nat -> connected (graph_of pr) u w -> connected (graph_of pr) u v) ->
  prog_constraints_lexmin (glpk_solver glpk true dfp) pr c = Some x ->
  S (length x) = ncols c /\
  (forall r, In r (rows c) ->
     (forall k, (k < p_npar pr + 1)%nat -> nth k (coef r) 0 = 0) ->
     last (coef r) 0 <= 0 -> (is_eq r = true -> last (coef r) 0 = 0) ->
     (forall s s' j j', (s < length (p_stmts pr))%nat -> (s' < length (p_stmts pr))%nat -> (j <= p_nvar pr)%nat -> (j' <= p_nvar pr)%nat ->
        nth (stmt_offset pr s + j) (coef r) 0 <> 0 -> nth (stmt_offset pr s' + j') (coef r) 0 <> 0 -> connected (graph_of pr) s s') ->
     holds x r) /\
  zpadding_zero pr x.
Proof.
  intros glpk dfp pr c x SP W O Wc Nc NE I H. destruct (lp_kept glpk dfp pr c x SP W O I Wc Nc NE H) as [[A B] C].
  split; auto. split; auto. intros r Hr D1 D2 D3 D4. apply B; auto. constructor; auto.
Qed.
Print Assumptions C89_scaled_partial.

(** The transformation found is legal if dependences connect only statements that
    follow one another in the program (and statements with themselves). *)
Theorem C89_legal_partial : forall is_emptyb isl_emptyb kernel glpk dfp o fuse fuel pr pr',
  exact_empty is_emptyb -> scales_precisely glpk -> input_ok pr ->
  (forall d, In d (p_deps pr) -> d_rar d = false -> (d_src d <= d_dst d + 1)%nat /\ (d_dst d <= d_src d + 1)%nat) ->
  auto_transform is_emptyb isl_emptyb kernel (glpk_solver glpk true dfp) o fuse fuel pr = Some (0, pr') ->
  same_program pr pr' /\
  (forall d, In d (p_deps pr) -> d_rar d = false -> forall s t p, instance pr d s t p ->
     lexlt (timestamp (stmt_of pr' (d_src d)) s p) (timestamp (stmt_of pr' (d_dst d)) t p)) /\
  (forall s i j p, (s < length (p_stmts pr))%nat ->
     length i = s_dim (stmt_of pr s) -> length j = s_dim (stmt_of pr s) -> length p = p_npar pr ->
     timestamp (stmt_of pr' s) i p = timestamp (stmt_of pr' s) j p -> i = j).
Proof.
  intros is_emptyb isl_emptyb kernel glpk dfp o fuse fuel pr pr' EX SP IN N H. pose proof (glpk_near_keeps glpk dfp SP) as K.
  rewrite <- (auto_near is_emptyb isl_emptyb kernel _ o K EX fuse fuel pr IN N) in H.
  destruct (auto_success is_emptyb isl_emptyb kernel _ o EX K fuse fuel pr pr' IN H) as (A & _ & B & C). auto.
Qed.
Print Assumptions C89_legal_partial.

(** Three statements in loops i, j; S2 (i,j) -> S0 (i+1,j) and S1 (i,j) -> S1 (i+1,j-2). *)
Definition gap_prog : prog := mkProg 2 1 (repeat dfp_stmt 3) [ex_dep 2 0 false (uni_dep 1 0); ex_dep 1 1 false (uni_dep 1 (-2))] [H_LOOP;H_LOOP].
Lemma gap_ok : input_ok gap_prog.
Proof. apply uni_ok. intros d [<-|[<-|[]]]; (split; [simpl; lia|split; [simpl; lia|split; [apply uni_wf|split; [reflexivity|split; [apply uni_wf|reflexivity]]]]]). Qed.
Definition gap_answers : list (list Q * list Q) :=
  [([0;0;0;1;0;1#3;2#3;0;0;1;1]%Q, [0;0;2;5;0;0;0;0;0;0;0;1;0;4#3;0;0;83#3;0;0;0;0;0;0;0;0;0;0;0;0;0;0;0;0;0;0;0;0;0;0;16#3;9]%Q);
   ([0;1;1;0;0;0;1;0;1;0;0]%Q, [0;0;8;0;0;0;0;0;0;0;0;0;0;30;0;0;0;0;0;0;0;16;0;0;0;0;0;0;0;0;0;0;0;0;0;0;0;0;0;34;16]%Q);
   ([1;3;0;1;0;1;2;0;0;3;3]%Q, [0;3;0;0;0]%Q);
   ([1;1;1;0;0;0;1;0;1;0;0]%Q, [0;0;0]%Q)].
Definition gap_opts : options := mkOpts false false 2 false.
Lemma kern2_ok : kernel_ok kern2.
Proof.
  assert (forall m, wf_mat m -> forall k, wf_mat (mkMat 0 (repeat [] k))) as T.
  { intros m _ k r Hr. cbn in Hr. apply repeat_spec in Hr. subst. reflexivity. }
  intros m W. unfold kern2. destruct (mrows m) as [|r l] eqn:E.
  - split; [|split].
    + intros q Hq. cbn in Hq. apply in_map_iff in Hq as (i & <- & _). cbn. rewrite set_nth_length, repeat_length. reflexivity.
    + unfold mnrows. cbn. rewrite map_length, seq_length. reflexivity.
    + intros r j Hr. destruct Hr.
  - assert (mncols m = length r) as Ec by (symmetry; apply (W r); rewrite E; left; auto).
    assert (forall P : matrix -> Prop, P (mkMat 0 (repeat [] (mncols m))) -> (forall a b, r = [a;b] -> l = [] -> P (if b =? 0 then mkMat 1 [[0];[1]] else mkMat 1 [[b];[-a]])) ->
      P (match r :: l with [] => mkMat (mncols m) (map (fun i => set_nth i 1 (repeat 0 (mncols m))) (seq 0 (mncols m))) | [[a;b]] => if b =? 0 then mkMat 1 [[0];[1]] else mkMat 1 [[b];[-a]] | _ => mkMat 0 (repeat [] (mncols m)) end)) as Cs.
    { intros P H1 H2. destruct r as [|a [|b [|e r]]], l; auto. }
    apply Cs.
    + split; [apply (T m W)|]. split; [unfold mnrows; cbn; apply repeat_length|]. intros q j _ Hj. cbn in Hj. lia.
    + intros a b -> ->. rewrite Ec. destruct (Z.eqb_spec b 0) as [Hb|N].
      * split; [intros q Hq; cbn in Hq; intuition (subst; reflexivity)|]. split; [reflexivity|]. intros q j [<-|[]] Hj. assert (j = 0%nat) as -> by (cbn in Hj; lia). cbn. lia.
      * split; [intros q Hq; cbn in Hq; intuition (subst; reflexivity)|]. split; [reflexivity|]. intros q j [<-|[]] Hj. assert (j = 0%nat) as -> by (cbn in Hj; lia). cbn. lia.
Qed.

(** An exact emptiness test that computes for the systems below. *)
Fixpoint search4 (n : nat) (c : cst) : option point :=
  if negb (memb (elim_all n c) []) then None
  else match n with O => Some [] | S k => first_some (fun v => search4 k (subst_first c v)) [0;1;-1;2;-2;3;4;-3;-4;5;6] end.
Definition wide_empty (f : cst -> bool) (c : cst) : bool :=
  if negb (memb (elim_all (ncols c - 1) c) []) then true
  else match search4 (ncols c - 1) c with Some x => if memb c x then false else f c | None => f c end.
Lemma wide_empty_exact f : exact_empty f -> exact_empty (wide_empty f).
Proof.
  intros F c W. unfold wide_empty. pose proof (dec_empty_exact f F c W) as D. unfold dec_empty in D.
  destruct (memb (elim_all (ncols c - 1) c) []) eqn:R; cbn [negb] in *; auto.
  destruct (search4 (ncols c - 1) c) as [x|]; [|apply (F c W)]. destruct (memb c x) eqn:M; [|apply (F c W)].
  exists x. apply memb_ok. auto.
Qed.

(** In general it is not legal, even with exact answers: the numbers given to the
    components can make statements that depend on each other be scaled by different
    factors.  A coefficient can also exceed the bound asked for (here 2). *)
Theorem C89_legal_refuted : exists is_emptyb kernel glpk o pr pr' d s t p,
  exact_empty is_emptyb /\ kernel_ok kernel /\ exact_answers glpk /\ input_ok pr /\
  auto_transform is_emptyb (fun _ => false) kernel (glpk_solver glpk true false) o MaxFuse 10 pr = Some (0, pr') /\
  In d (p_deps pr) /\ d_rar d = false /\ instance pr d s t p /\
  lexlt (timestamp (stmt_of pr' (d_dst d)) t p) (timestamp (stmt_of pr' (d_src d)) s p) /\
  o_coeff_bound o = 2 /\ map (fun st => mrows (s_trans st)) (p_stmts pr') =
    [[[1;0;0;0];[0;1;0;0];[0;0;0;1]]; [[2;1;0;0];[1;0;0;0];[0;0;0;0]]; [[3;0;0;3];[0;1;0;0];[0;0;0;0]]].
Proof.
  destruct C12_oracle_exists as [f F]. exists (wide_empty f), kern2, (cert_glpk gap_answers), gap_opts, gap_prog.
  assert (option_map (fun r => (fst r, map (fun st => mrows (s_trans st)) (p_stmts (snd r))))
    (auto_transform (wide_empty f) (fun _ => false) kern2 (glpk_solver (cert_glpk gap_answers) true false) gap_opts MaxFuse 10 gap_prog) =
    Some (0, [[[1;0;0;0];[0;1;0;0];[0;0;0;1]]; [[2;1;0;0];[1;0;0;0];[0;0;0;0]]; [[3;0;0;3];[0;1;0;0];[0;0;0;0]]])) as E by (vm_compute; reflexivity).
  destruct (auto_transform _ _ _ _ _ _ _ _) as [[r pr']|]; [|discriminate]. cbn [option_map fst snd] in E.
  apply (f_equal (option_map fst)) in E as E1. cbn in E1. apply (f_equal (option_map snd)) in E as E2. cbn [option_map snd] in E2. injection E1 as ->.
  assert (forall A (a b : A), Some a = Some b -> a = b) as SI by (intros A a b X; injection X; auto). apply SI in E2. clear E.
  exists pr', (ex_dep 2 0 false (uni_dep 1 0)), [0;0], [1;0], [5].
  split; [apply wide_empty_exact; auto|]. split; [exact kern2_ok|]. split; [apply cert_exact|]. split; [exact gap_ok|]. split; [reflexivity|].
  split; [left; reflexivity|]. split; [reflexivity|]. split; [split; [reflexivity|split; [reflexivity|split; [reflexivity|apply memb_ok; vm_compute; reflexivity]]]|].
  split; [|split; [reflexivity|exact E2]].
  assert (forall k, mrows (s_trans (stmt_of pr' k)) = nth k (map (fun st => mrows (s_trans st)) (p_stmts pr')) (mrows (s_trans dummy_stmt))) as T
    by (intros k; rewrite (List.map_nth (fun st => mrows (s_trans st))); reflexivity).
  unfold timestamp. rewrite !T, E2. vm_compute. auto.
Qed.
Print Assumptions C89_legal_refuted.

(** S0 (i,j) -> S0 (i+1,j-2) and S0 (i,j) -> S1 (i,j): the rational solution (2/3, 1/3) is
    scaled by 3. *)
Definition near_prog : prog := mkProg 2 1 (repeat dfp_stmt 2) [ex_dep 0 0 false (uni_dep 1 (-2)); ex_dep 0 1 false (uni_dep 0 0)] [H_LOOP;H_LOOP].
Definition near_answers : list (list Q * list Q) :=
  [([0;0;1#3;2#3;0;1#3;2#3;0]%Q, [4;0;4;0;0;0;0;0;0;0;8#3;0;0;52#3;0;0;0;0;0;0;0;0;0;0;0;0;0;0;32#3;0]%Q);
   ([0;1;0;1;0;0;1;0]%Q, [0;0;16;0;0;0;0;0;0;0;20;0;0;0;0;32;0;0;0;0;0;0;0;0;0;0;0;0;24;4]%Q);
   ([3;1;2;0;1;2;0]%Q, [3;0;0;0]%Q);
   ([1;0;1;0;0;1;0]%Q, [0;0]%Q)].
Lemma near_ok : input_ok near_prog.
Proof. apply uni_ok. intros d [<-|[<-|[]]]; (split; [simpl; lia|split; [simpl; lia|split; [apply uni_wf|split; [reflexivity|split; [apply uni_wf|reflexivity]]]]]). Qed.
Example C89_met : scales_precisely (cert_glpk near_answers) /\ input_ok near_prog /\
  (forall d, In d (p_deps near_prog) -> d_rar d = false -> (d_src d <= d_dst d + 1)%nat /\ (d_dst d <= d_src d + 1)%nat) /\
  exists f, exact_empty f /\
  option_map (fun r => (fst r, map (fun st => mrows (s_trans st)) (p_stmts (snd r))))
    (auto_transform f (fun _ => false) kern2 (glpk_solver (cert_glpk near_answers) true false) ex_opts MaxFuse 10 near_prog) =
    Some (0, [[[2;1;0;0];[1;0;0;0];[0;0;0;0]]; [[2;1;0;0];[1;0;0;0];[0;0;0;1]]]).
Proof.
  split; [apply exact_scales, cert_exact|]. split; [exact near_ok|]. split; [intros d [<-|[<-|[]]] _; simpl; lia|].
  destruct C12_oracle_exists as [f F]. exists (wide_empty f). split; [apply wide_empty_exact; auto|]. vm_compute. reflexivity.
Qed.
