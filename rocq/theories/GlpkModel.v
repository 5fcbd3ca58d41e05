(** * Model of the solver calls with GLPK: --glpk, --lp and the scaling of rational
    solutions (lib/constraints.c, lib/pluto.c, lib/framework.cpp).

    Doubles are rational numbers here, the conversions of coefficients to double and
    of rounded values to int64_t are exact.  GLPK itself is the parameter [glpk]: the
    integer tolerance and the problem are given, the statuses after glp_simplex and
    glp_intopt and the values of the columns come back.  Debug output and time
    keeping are left out. *)
From Coq Require Import ZArith QArith Qround Qabs List Bool.
From Verif Require Import SpecLinear ConstraintsModel SpecProg FrameworkModel GraphModel DriverModel SpecGlpk.
Import ListNotations.
Open Scope Q_scope.

(** round of the C library: halves away from zero. *)
Definition c_round (x : Q) : Z := if Qle_bool 0 x then Qfloor (x + (1 # 2)) else Qceiling (x - (1 # 2)).

Definition const_of (r : row) : Z := last (coef r) 0%Z.

(** lib/constraints.c:1117-1135: the entries of a row that are not 0 with their column
    numbers. *)
Definition row_terms (l : list Z) : list (nat * Q) :=
  flat_map (fun p => if (snd p =? 0)%Z then [] else [(S (fst p), inject_Z (snd p))]) (combine (seq 0 (length l)) l).
(** lib/constraints.c:1097-1140 [set_glpk_constraints_from_pluto_constraints]; -val is
    computed in int64_t. *)
Definition glpk_rows (c : cst) : list grow :=
  map (fun r => mkGrow (if is_eq r then GLP_FX (inject_Z (- const_of r)) else GLP_LO (inject_Z (- const_of r)))
                       (row_terms (removelast (coef r)))) (rows c).

(** lib/pluto.c:243-267 [construct_cplex_objective]; the entries after those of the last
    statement are 0 (there are none without per_cc_obj). *)
Definition stmt_weights (nvar : nat) (st : stmt) : list Z :=
  map (fun k => (Z.of_nat (nvar + 2) * Z.of_nat (s_dim_orig st - k))%Z) (seq 0 (s_dim_orig st)) ++ [1%Z].
Definition cplex_objective (pr : prog) (n : nat) : list Z :=
  let base := (5 * Z.of_nat (p_nvar pr) * Z.of_nat (length (p_stmts pr)))%Z in
  let l := repeat (5 * base)%Z (p_npar pr) ++ [base] ++ flat_map (stmt_weights (p_nvar pr)) (p_stmts pr) in
  firstn n (l ++ repeat 0%Z n).

(** lib/constraints.c:1342-1360: the problem of [pluto_prog_constraints_lexmin_glpk];
    [set_glpk_objective_from_pluto_matrix] is lines 1319-1324. *)
Definition glpk_problem (lp : bool) (obj : list Z) (c : cst) : gprob :=
  mkGprob (map (fun w => mkGcol (GLP_LO 0) (negb lp) (inject_Z w)) obj) (glpk_rows c).

(** framework.cpp:1374-1413 [populate_scaling_csr_matrices_for_pluto_program]: the two
    column numbers of each row, for the component of each statement; [None] is the
    assertion at the end. *)
Definition scaling_index (pr : prog) (cc : list Z) (num_ccs nrows : nat) : option (list (nat * nat)) :=
  let owners := flat_map (fun p => repeat (fst p) (s_dim_orig (snd p) + 1)) (combine cc (p_stmts pr)) in
  let l := map (fun p => (Z.to_nat (snd p + 1), (num_ccs + fst p + 1)%nat)) (combine (seq 0 (length owners)) owners) in
  if (length l =? nrows)%nat then Some l else None.

(** The threshold 1e-7 of lib/constraints.c:1296. *)
Definition is_used (v : Q) : bool := negb (Qle_bool (Qabs v) (1 # 10000000)).

(** lib/constraints.c:1269-1317 [get_scaling_lp_glpk]: [fp] are the numbers after the first
    npar + 1.  Without index and val ([None]) a number above the threshold makes it
    dereference NULL. *)
Definition scaling_lp (fp : list Q) (index : option (list (nat * nat))) (num_ccs : nat) : option gprob :=
  let cols := repeat (mkGcol (GLP_LO 1) false 1) num_ccs
              ++ map (fun v => if is_used v then mkGcol (GLP_LO 1) true 0 else mkGcol (GLP_FX 0) false 0) fp in
  match index with
  | Some ix => Some (mkGprob cols
      (flat_map (fun p => if is_used (fst p) then [mkGrow (GLP_FX 0) [(fst (snd p), fst p); (snd (snd p), -1)]] else []) (combine fp ix)))
  | None => if existsb is_used fp then None else Some (mkGprob cols [])
  end.

Section Glpk.
Variable glpk : Q -> gprob -> ganswer.

(** lib/constraints.c:1211-1239 [pluto_constraints_solve_glpk] with the values read
    afterwards; [None]: return value 1. *)
Definition solve_glpk (p : gprob) : option (list Q) :=
  let a := glpk (1 # 10000000) p in
  match a_lp a with
  | GLP_INFEAS | GLP_UNDEF => None
  | _ => match a_mip a with
         | GLP_INFEAS | GLP_UNDEF | GLP_NOFEAS | GLP_UNBND => None
         | _ => Some (a_val a)
         end
  end.

(** lib/constraints.c:1241-1267 [pluto_mip_scale_solutions_glpk]; [None]: NULL. *)
Definition mip_scale (p : gprob) : option (list Q) :=
  let a := glpk (1 # 100) p in
  match a_lp a with
  | GLP_INFEAS | GLP_UNDEF => None
  | _ => match a_mip a with GLP_NOFEAS => None | _ => Some (a_val a) end
  end.

(** lib/constraints.c:1386-1395. *)
Definition max_scale (v : list Q) (num_ccs : nat) : Z :=
  fold_left (fun m s => if Qle_bool s (inject_Z m) then m else c_round s) (firstn num_ccs v) (c_round (nth 0 v 0)).

(** lib/constraints.c:1328-1415 [pluto_prog_constraints_lexmin_glpk].  [None]: the
    behaviour is undefined (NULL dereferenced, or values read from a problem that was
    deleted); [Some None]: NULL is returned. *)
Definition lexmin_glpk (lp dfp : bool) (c : cst) (obj : list Z) (index : option (list (nat * nat))) (npar num_ccs : nat) : option (option point) :=
  match solve_glpk (glpk_problem lp obj c) with
  | None => Some None
  | Some fp =>
      if lp || dfp then
        match scaling_lp (skipn (npar + 1) fp) index num_ccs with
        | None => None
        | Some p => match mip_scale p with
                    | None => None
                    | Some v => Some (Some (map (fun u => (max_scale v num_ccs * c_round u)%Z) (firstn (npar + 1) fp)
                                            ++ map c_round (skipn num_ccs v)))
                    end
        end
      else Some (Some (map c_round fp))
  end.

(** lib/pluto.c:344-386: the call in [pluto_prog_constraints_lexmin], for the compacted
    system [c].  The components are those of the dependences not satisfied when the
    call is made (ddg_compute_cc at framework.cpp:1383 works on prog->ddg, which
    [ddg_update] keeps in step with the dependences). *)
Definition components (pr : prog) : list Z * nat :=
  let n := length (p_stmts pr) in ddg_compute_cc n (graph_of pr) (repeat 0%Z n).
Definition glpk_lexmin (lp dfp : bool) (pr : prog) (c : cst) : option (option point) :=
  let n := (ncols c - 1)%nat in
  let obj := cplex_objective pr n in
  if lp then
    let '(cc, num) := components pr in
    match scaling_index pr cc num (n - p_npar pr - 1) with
    | None => None
    | Some ix => lexmin_glpk lp dfp c obj (Some ix) (p_npar pr) num
    end
  else lexmin_glpk lp dfp c obj None (p_npar pr) 0.

(** The solver for the search.  Runs in which a call is undefined are not described by
    the search with this solver. *)
Definition glpk_solver (lp dfp : bool) (pr : prog) (c : cst) : option point :=
  match glpk_lexmin lp dfp pr c with Some r => r | None => None end.
End Glpk.
