(** * Model of colouring guided by linear programs (option lpcolor).

    /repo/lib/framework-dfp.c, without clusters of SCCs.  [lp] is the linear program
    (lib/framework-dfp.c:212-226 [pluto_fusion_constraints_feasibility_solve], GLPK or
    Gurobi) with its solution; floating point numbers are taken to be rational.
    [is_emptyb] is the emptiness check of isl. *)
From Coq Require Import ZArith QArith List Bool Arith.
From Verif Require Import SpecLinear MathModel ConstraintsModel SpecProg SpecDriver SpecGraph GraphModel FrameworkModel ProgModel DriverModel DfpModel FcgModel ClusterModel.
Import ListNotations.
Open Scope Z_scope.

Section Lp.
Variable lp : cst -> option qpoint.
Variable is_emptyb : cst -> bool.
Variable o : options.

(** The loops of statement [u] without a colour, lib/framework-dfp.c:68-79.  The counter q
    is the first vertex of the statement plus j. *)
Definition plain_loops (pr : prog) (col : list Z) (u : nat) : list nat :=
  filter (fun j => nth (vertex_offset pr u + j) col 0 =? 0) (seq 0 (s_dim_orig (stmt_of pr u))).

(** One row, lib/framework-dfp.c:75, 81: the sum of the coefficients is at least 1. *)
Definition ortho_row (pr : prog) (u : nat) (js : list nat) : row :=
  mkRow false (set_nth (cst_width pr - 1) (-1) (fold_left (fun r j => set_nth (coef_col pr u j) 1 r) js (repeat 0 (cst_width pr)))).

(** lib/framework-dfp.c:53-90 [dfp_get_scc_ortho_constraints]; [None]: NULL. *)
Definition ortho_constraints (pr : prog) (col : list Z) (i : nat) : option cst :=
  let l := flat_map (fun u => if (s_scc (stmt_of pr u) =? Z.of_nat i)
                              then match plain_loops pr col u with [] => [] | js => [ortho_row pr u js] end
                              else []) (seq 0 (length (p_stmts pr))) in
  match l with [] => None | _ => Some (mkCst (cst_width pr) l) end.

(** lib/framework-dfp.c:140-150, again 161-166: the system for SCC [i]. *)
Definition mark_system (pr : prog) (col : list Z) (i : nat) : option cst :=
  match ortho_constraints pr col i with
  | None => None
  | Some c =>
      let c1 := cst_add c (get_coeff_bounding_constraints o pr) in
      Some (match get_scc_permutability_constraints o (Z.of_nat i) pr with
            | None => c1
            | Some p => cst_add c1 p
            end)
  end.

(** lib/framework-dfp.c:106-114 [is_lp_solution_parallel]: the sum of u and w is 0. *)
Definition lp_parallel (pr : prog) (x : qpoint) : bool :=
  Qeq_bool (fold_left Qplus (firstn (p_npar pr + 1) x) 0%Q) 0%Q.

(** The fields sol and is_parallel of the SCCs. *)
Record marks := mkMarks { m_sol : list (option qpoint); m_par : list bool }.

(** lib/framework-dfp.c:154-157.  The field max_dim is recomputed as well; the printing
    in 154 is left out. *)
Definition refresh (s : dstate) : dstate :=
  compute_scc (ddg_update (mkState (compute_dep_satisfaction_precise is_emptyb (st_prog s)) (st_adj s) (st_num s) (st_max s))).

(** lib/framework-dfp.c:137-188: one SCC; [None]: one of the assertions in 158 and 171, or
    the null pointer in 162 (no row after the second computation).  lib/pluto.c:2046-2047
    resets the fields of all SCCs ([refresh]). *)
Definition mark_one (col : list Z) (sm : dstate * marks) (i : nat) : option (dstate * marks) :=
  let '(s, m) := sm in
  let put (s : dstate) (m : marks) x b := Some (s, mkMarks (set_nth i x (m_sol m)) (set_nth i b (m_par m))) in
  match mark_system (st_prog s) col i with
  | None => put s m None true
  | Some c =>
      match lp c with
      | Some x => put s m (Some x) (lp_parallel (st_prog s) x)
      | None =>
          let s' := refresh s in
          if (st_num s' =? st_num s)%nat then
            match mark_system (st_prog s') col i with
            | None => None
            | Some c' =>
                match lp c' with
                | None => None
                | Some x => put s' (mkMarks (repeat None (st_num s')) (repeat false (st_num s'))) (Some x) (lp_parallel (st_prog s') x)
                end
            end
          else None
      end
  end.

Fixpoint mark_from (col : list Z) (l : list nat) (sm : dstate * marks) : option (dstate * marks) :=
  match l with
  | [] => Some sm
  | i :: l => match mark_one col sm i with None => None | Some sm' => mark_from col l sm' end
  end.

(** lib/framework-dfp.c:130-191 [mark_parallel_sccs].  The fields are those of
    [ddg_compute_scc], lib/pluto.c:2046-2047. *)
Definition mark_parallel_sccs (col : list Z) (s : dstate) : option (dstate * marks) :=
  mark_from col (seq 0 (st_num s)) (s, mkMarks (repeat None (st_num s)) (repeat false (st_num s))).

(** lib/framework-dfp.c:1295-1320 [get_next_min_vertex] with lpcolor: the loop of statement
    [u] that is tried next; [discarded] stands for is_discarded.  [None]: the assertion in
    1310. *)
Fixpoint next_loop (sol : option qpoint) (pr : prog) (u : nat) (discarded : nat -> bool) (js : list nat) : option nat :=
  match js with
  | [] => Some 0%nat
  | j :: js =>
      if discarded (vertex_offset pr u + j)%nat then next_loop sol pr u discarded js
      else match sol with
           | None => None
           | Some x => if Qeq_bool (nth (coef_col pr u j) x 0%Q) 0%Q then next_loop sol pr u discarded js else Some j
           end
  end.
Definition next_min_vertex (m : marks) (pr : prog) (u : nat) (discarded : nat -> bool) : option nat :=
  next_loop (nth (Z.to_nat (s_scc (stmt_of pr u))) (m_sol m) None) pr u discarded (seq 0 (s_dim_orig (stmt_of pr u))).
End Lp.
