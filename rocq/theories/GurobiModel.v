(** * Model of the solver calls with Gurobi: --gurobi with and without --lp
    (lib/gurobi-plugin.c, lib/pluto.c).

    Doubles are rational numbers, as in GlpkModel.  Gurobi itself is the parameter
    [grb].  Debug output, environments and the memory that is not freed (vtype, lb,
    grb_obj, the environment of the pairwise calls) are left out.  GRBsetdblattr with
    the integer attribute ModelSense (line 326) is refused by Gurobi and its error not
    looked at; minimisation is the default. *)
From Coq Require Import ZArith QArith List Bool.
From Verif Require Import SpecLinear ConstraintsModel SpecProg FrameworkModel GraphModel DriverModel SpecGlpk SpecGurobi GlpkModel.
Import ListNotations.
Open Scope Q_scope.

(** What a function ends with: NULL, exit(1), values that were never written, a result. *)
Inductive outcome (A : Type) := O_null | O_exit | O_garbage | O_val (a : A).
Arguments O_null {A}. Arguments O_exit {A}. Arguments O_garbage {A}. Arguments O_val {A}.

(** lib/gurobi-plugin.c:54-87 [set_gurobi_constraints_from_pluto_constraints]: a row
    whose coefficients are all 0 is not added, whatever its constant (line 74). *)
Definition grb_rows (c : cst) : list grow :=
  flat_map (fun r => match row_terms (removelast (coef r)) with
                     | [] => []
                     | t => [mkGrow (if is_eq r then GLP_FX (inject_Z (- const_of r)) else GLP_LO (inject_Z (- const_of r))) t]
                     end) (rows c).

(** lib/gurobi-plugin.c:40-50 [get_gurobi_objective_from_pluto_matrix] and 308-328:
    the columns are at least 0, and integer without --lp. *)
Definition grb_problem (lp : bool) (obj : list Z) (c : cst) : gprob :=
  mkGprob (map (fun w => mkGcol (GLP_LO 0) (negb lp) (inject_Z w)) obj) (grb_rows c).

(** lib/gurobi-plugin.c:180-209 [get_gurobi_scaling_obj] and
    [get_lower_bounds_for_variables], 223-270 [get_scaling_lp_gurobi]; [fp] are the numbers
    after the first npar + 1.  Lower and upper bound 0 is [GLP_FX 0]. *)
Definition grb_scaling (fp : list Q) (ix : list (nat * nat)) (num_ccs : nat) : gprob :=
  mkGprob (repeat (mkGcol (GLP_LO 1) false 1) num_ccs
           ++ map (fun v => mkGcol (if is_used v then GLP_LO 1 else GLP_FX 0) true 0) fp)
          (flat_map (fun p => if is_used (fst p) then [mkGrow (GLP_FX 0) [(fst (snd p), fst p); (snd (snd p), -1)]] else []) (combine fp ix)).

(** lib/gurobi-plugin.c:272-285 [get_max_scale_factor]; max is an int in the code. *)
Definition grb_max_scale (v : list Q) (num_ccs : nat) : Z :=
  fold_left (fun m s => if Qle_bool s (inject_Z m) then m else c_round s) (firstn num_ccs v) 0%Z.

Section Gurobi.
Variable grb : gurobi.

(** lib/gurobi-plugin.c:133-178 [find_optimal_solution_gurobi] and
    [pluto_constraints_solve_gurobi]: [O_null] is the return value 1, otherwise what can
    be read afterwards. *)
Definition grb_solve (tol : Q) (p : gprob) : outcome (option (list Q)) :=
  let a := grb tol p in
  match g_status a with
  | GRB_INFEASIBLE => O_null
  | GRB_UNBOUNDED => O_exit
  | GRB_INF_OR_UNBD => O_null
  | _ => O_val (g_vals a)
  end.

(** lib/gurobi-plugin.c:89-108 [get_ilp_solution_from_gurobi_problem]: errors end the
    program. *)
Definition grb_ilp_solution (x : option (list Q)) : outcome point :=
  match x with Some v => O_val (map c_round v) | None => O_exit end.
(** lib/gurobi-plugin.c:110-131 [get_lp_solution_from_gurobi_problem]: they do not. *)
Definition grb_lp_solution (x : option (list Q)) : outcome (list Q) :=
  match x with Some v => O_val v | None => O_garbage end.

(** lib/gurobi-plugin.c:211-221 [pluto_mip_scale_solutions_gurobi]. *)
Definition grb_mip_scale (p : gprob) : outcome (list Q) :=
  match grb_solve (1 # 100) p with
  | O_val x => grb_lp_solution x
  | O_garbage => O_garbage
  | _ => O_exit
  end.

(** lib/gurobi-plugin.c:287-384 [pluto_prog_constraints_lexmin_gurobi]; [index] is given
    if [lp]. *)
Definition lexmin_gurobi (c : cst) (obj : list Z) (index : option (list (nat * nat))) (npar num_ccs : nat) : outcome point :=
  let lp := match index with Some _ => true | None => false end in
  match grb_solve (1 # 10000000) (grb_problem lp obj c) with
  | O_null => O_null
  | O_exit => O_exit
  | O_garbage => O_garbage
  | O_val x =>
      match index with
      | None => grb_ilp_solution x
      | Some ix =>
          match grb_lp_solution x with
          | O_val fp =>
              match grb_mip_scale (grb_scaling (skipn (npar + 1) fp) ix num_ccs) with
              | O_val v => O_val (repeat (grb_max_scale v num_ccs) (npar + 1) ++ map c_round (skipn num_ccs v))
              | O_null => O_null
              | O_exit => O_exit
              | O_garbage => O_garbage
              end
          | O_null => O_null
          | O_exit => O_exit
          | O_garbage => O_garbage
          end
      end
  end.

(** lib/pluto.c:344-386: the call in [pluto_prog_constraints_lexmin] for the compacted
    system [c]; the assertion of populate_scaling_csr_matrices_for_pluto_program is
    [O_exit]. *)
Definition gurobi_lexmin (lp : bool) (pr : prog) (c : cst) : outcome point :=
  let n := (ncols c - 1)%nat in
  let obj := cplex_objective pr n in
  if lp then
    let '(cc, num) := components pr in
    match scaling_index pr cc num (n - p_npar pr - 1) with
    | None => O_exit
    | Some ix => lexmin_gurobi c obj (Some ix) (p_npar pr) num
    end
  else lexmin_gurobi c obj None (p_npar pr) 0.

(** The solver for the search.  A call that ends the program counts as one without a
    solution: such runs do not succeed. *)
Definition gurobi_solver (lp : bool) (pr : prog) (c : cst) : option point :=
  match gurobi_lexmin lp pr c with O_val x => Some x | _ => None end.

(** lib/gurobi-plugin.c:386-433 [pluto_fcg_constraints_lexmin_gurobi]. *)
Definition fcg_gurobi (lp : bool) (obj : list Z) (c : cst) : outcome (list Q) :=
  match grb_solve (1 # 10000000) (grb_problem lp obj c) with
  | O_val x => grb_lp_solution x
  | O_null => O_null
  | O_exit => O_exit
  | O_garbage => O_garbage
  end.
End Gurobi.
