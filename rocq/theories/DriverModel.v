(** * Model of the automatic transformation driver.

    /repo/lib/pluto.c and the constraint generators of /repo/lib/framework.cpp.
    Modelled without the options per_cc_obj, dfp, typed fusion and diamond tiling
    and without the files .fst, .precut and skipdeps.txt.  External solvers are
    parameters: [is_emptyb] is the integer emptiness test
    (pluto_constraints_is_empty), [isl_emptyb] is isl_basic_set_is_empty,
    [kernel] is isl_mat_right_kernel, [solve] is the lexicographic minimum
    (PIP, isl); it may depend on the whole state.  Values are unbounded
    integers. *)
From Coq Require Import ZArith List Bool Arith.
From Verif Require Import SpecLinear SpecMatrix MathModel ConstraintsModel SpecProg SpecDriver SpecGraph GraphModel FrameworkModel ProgModel.
Import ListNotations.
Open Scope Z_scope.

(** ** Independent hyperplanes *)

(** lib/program.cpp:2158-2170 [pluto_stmt_get_num_ind_hyps]. *)
Definition num_ind_hyps (st : stmt) : nat :=
  matrix_get_rank
    (Nat.iter (mncols (s_trans st) - s_dim_orig st)
       (fun m => matrix_remove_col m (s_dim_orig st)) (s_trans st)).

(** lib/program.cpp:2137-2156 [pluto_stmt_get_num_ind_hyps_non_scalar]; the rows
    removed are those whose type is H_SCALAR. *)
Definition is_scalar_type (h : hyptype) : bool := match h with H_SCALAR => true | _ => false end.
Definition num_ind_hyps_non_scalar (st : stmt) : nat :=
  let t := Nat.iter (mncols (s_trans st) - s_dim_orig st)
             (fun m => matrix_remove_col m (s_dim_orig st)) (s_trans st) in
  matrix_get_rank
    (mkMat (mncols t)
       (map snd (filter (fun p => negb (is_scalar_type (fst p))) (combine (s_hyp st) (mrows t))))).

(** lib/program.cpp:2127-2135 [pluto_get_max_ind_hyps]. *)
Definition get_max_ind_hyps (pr : prog) : nat :=
  fold_left (fun m st => Nat.max m (num_ind_hyps st)) (p_stmts pr) 0%nat.

(** lib/program.cpp:2175-2184 [pluto_transformations_full_ranked]. *)
Definition transformations_full_ranked (pr : prog) : bool :=
  forallb (fun st => negb (num_ind_hyps st <? s_dim_orig st)%nat) (p_stmts pr).

(** A statement that still needs hyperplanes, the test of
    lib/framework.cpp:710, 901, 918. *)
Definition needs_hyps (st : stmt) : bool := negb (s_dim_orig st <=? num_ind_hyps st)%nat.

(** ** Constraints on the next hyperplane *)

(** is_orig_loop of the first nvar dimensions. *)
Definition orig_mask (pr : prog) (st : stmt) : list bool := firstn (p_nvar pr) (s_orig st).

(** lib/framework.cpp:717-751: the rows whose level is not of type H_SCALAR,
    restricted to the original loops. *)
Definition hyp_matrix (pr : prog) (st : stmt) : matrix :=
  mkMat (length (filter (fun b => b) (orig_mask pr st)))
    (map (fun p => select (orig_mask pr st) (snd p))
       (filter (fun p => negb (is_scalar_type (fst p))) (combine (p_hprops pr) (mrows (s_trans st))))).

(** Column [j] of a matrix. *)
Definition column (m : matrix) (j : nat) : list Z := map (fun r => nth j r 0) (mrows m).

(** lib/framework.cpp:780-797: a column is divided by the gcd of its entries
    only when none of them is zero (line 781 for the first, 786 for the others). *)
Definition normalize_column (c : list Z) : list Z :=
  if existsb (fun v => v =? 0) c then c
  else let g := fold_left gcd (map Z.abs (tl c)) (Z.abs (hd 0 c)) in
       if 1 <? g then map (fun v => Z.quot v g) c else c.

(** lib/framework.cpp:812-819: the entries of a column at the coefficients of
    the original loops of statement [s]. *)
Definition spread_column (pr : prog) (s : nat) (c : list Z) : list Z :=
  let m := orig_mask pr (stmt_of pr s) in
  map (fun j =>
         let q := (j - stmt_offset pr s)%nat in
         if (stmt_offset pr s <=? j)%nat && (q <? p_nvar pr)%nat && nth q m false
         then nth (length (filter (fun b => b) (firstn q m))) c 0
         else 0) (seq 0 (cst_width pr)).

Section Oracles.
Variable is_emptyb : cst -> bool.
Variable isl_emptyb : cst -> bool.
Variable kernel : matrix -> matrix.

(** lib/framework.cpp:820-836: the row is negated if it cannot be positive
    (without option flic). *)
Definition orient_row (o : options) (pr : prog) (cur : cst) (r : list Z) : list Z :=
  if o_flic o then r
  else if isl_emptyb (cst_add (mkCst (cst_width pr) [mkRow false (set_nth (cst_width pr - 1) (-1) r)]) cur)
       then map Z.opp r else r.

(** lib/framework.cpp:696-870 [get_stmt_lin_ind_constraints]: the orthcst array
    of orthonum systems of one row each; [] for NULL.  [fold_right] adds the
    rows (841-845). *)
Definition stmt_lin_ind_constraints (o : options) (pr : prog) (cur : cst) (s : nat) : list cst :=
  let st := stmt_of pr s in
  if negb (needs_hyps st) then []
  else
    let ortho := kernel (hyp_matrix pr st) in
    let rs := map (fun j => orient_row o pr cur (spread_column pr s (normalize_column (column ortho j))))
                (seq 0 (mncols ortho)) in
    let w := cst_width pr in
    match rs with
    | [] => []
    | _ => map (fun r => mkCst w [mkRow false r]) rs
           ++ [mkCst w [mkRow false (set_nth (w - 1) (-1) (fold_right (zip_with Z.add) (repeat 0 w) rs))]]
    end.

(** lib/pluto.h:77-78. *)
Inductive search_mode := EAGER | LAZY.

(** lib/pluto.c:664-733 [get_linear_ind_constraints]. *)
Definition last_row (w : nat) (l : list cst) : list Z :=
  match rows (last l (mkCst w [])) with r :: _ => coef r | [] => repeat 0 w end.
Definition get_linear_ind_constraints (o : options) (pr : prog) (cur : cst) (mode : search_mode) : cst :=
  let w := cst_width pr in
  let orth := filter (fun l => negb (length l =? 0)%nat)
                (map (stmt_lin_ind_constraints o pr cur) (seq 0 (length (p_stmts pr)))) in
  match orth with
  | [] => mkCst w []
  | _ =>
    match mode with
    | EAGER => mkCst w (flat_map (fun l => rows (last l (mkCst w []))) orth)
    | LAZY => mkCst w [mkRow false (set_nth (w - 1) (-1)
                (fold_right (zip_with Z.add) (repeat 0 w) (map (last_row w) orth)))]
    end
  end.

(** lib/framework.cpp:905-911: 1 for every coefficient of an original loop of
    statement [s]. *)
Definition sum_coef (pr : prog) (s : nat) (j : nat) : Z :=
  let q := (j - stmt_offset pr s)%nat in
  if (stmt_offset pr s <=? j)%nat && (q <? p_nvar pr)%nat && nth q (orig_mask pr (stmt_of pr s)) false
  then 1 else 0.

(** lib/framework.cpp:880-934 [get_non_trivial_sol_constraints]. *)
Definition get_non_trivial_sol_constraints (pr : prog) (mode : search_mode) : cst :=
  let w := cst_width pr in
  let need := filter (fun s => needs_hyps (stmt_of pr s)) (seq 0 (length (p_stmts pr))) in
  match mode with
  | EAGER =>
      mkCst w (map (fun s => mkRow false
        (map (fun j => if (j =? w - 1)%nat then -1 else sum_coef pr s j) (seq 0 w))) need)
  | LAZY =>
      mkCst w [mkRow false
        (map (fun j => if (j =? w - 1)%nat then (if (length need =? 0)%nat then 0 else -1)
                       else if existsb (fun s => sum_coef pr s j =? 1) need then 1 else 0) (seq 0 w))]
  end.

(** lib/program.cpp:719-729 [pluto_prog_get_largest_const_in_domains]; the maximum is
    an [int] in the code, unbounded here (as all values of this file). *)
Definition largest_const_in_domains (pr : prog) : Z :=
  fold_left (fun m st =>
    fold_left (fun m r => Z.max m (nth (ncols (s_domain st) - 1) (coef r) 0)) (rows (s_domain st)) m)
    (p_stmts pr) 0 - 1.

(** lib/framework.cpp:937-993 [get_coeff_bounding_constraints]. *)
Definition get_coeff_bounding_constraints (o : options) (pr : prog) : cst :=
  let w := cst_width pr in
  let lbs := fold_left (fun c i => add_lb c i 0) (seq 0 (w - 1)) (universe w) in
  let coefs := seq (p_npar pr + 1) (w - 1 - (p_npar pr + 1)) in
  if negb (o_coeff_bound o =? -1) then
    fold_left (fun c i => add_ub c i (o_coeff_bound o)) coefs lbs
  else
    let ub := largest_const_in_domains pr in
    if 10 <=? ub then fold_left (fun c i => add_ub c i ub) coefs lbs else lbs.

(** ** The ILP call *)

(** lib/pluto.c:291-303 (redun). *)
Definition redundant_cols (pr : prog) : list bool :=
  repeat false (p_npar pr + 1)
  ++ flat_map (fun st => map negb (orig_mask pr st) ++ [false]) (p_stmts pr) ++ [false].

(** Column pairs exchanged in lib/pluto.c:325-334 and 404-416. *)
Fixpoint reversal_swaps (j : nat) (l : list stmt) : list (nat * nat) :=
  match l with
  | [] => []
  | st :: l' =>
      map (fun k => ((j + k)%nat, (j + (s_dim_orig st - 1 - k))%nat)) (seq 0 (s_dim_orig st / 2))
      ++ reversal_swaps (j + s_dim_orig st + 1) l'
  end.

(** lib/pluto.c:308-334: the system given to the solver; with no row the number
    of columns stays 0 (line 308). *)
Definition compact_cst (pr : prog) (c : cst) : cst :=
  let keep := map negb (redundant_cols pr) in
  let n := match rows c with [] => 0%nat | _ => length (filter (fun b => b) keep) end in
  fold_left (fun c' p => interchange_cols c' (fst p) (snd p))
    (reversal_swaps (p_npar pr + 1) (p_stmts pr))
    (mkCst n (map (map_coef (select keep)) (rows c))).

(** lib/pluto.c:420-424. *)
Fixpoint fill_zeros (red : list bool) (sol : list Z) : list Z :=
  match red with
  | [] => []
  | b :: red' => if b then 0 :: fill_zeros red' sol else hd 0 sol :: fill_zeros red' (tl sol)
  end.

(** The solver: may depend on the state of the program. *)
Variable solve : prog -> cst -> option point.

(** lib/pluto.c:275-431 [pluto_prog_constraints_lexmin]. *)
Definition prog_constraints_lexmin (pr : prog) (c : cst) : option point :=
  match solve pr (compact_cst pr c) with
  | None => None
  | Some sol =>
      let sol' := fold_left (fun s p => swap_nth 0 (fst p) (snd p) s)
                    (reversal_swaps (p_npar pr + 1) (p_stmts pr)) sol in
      Some (fill_zeros (firstn (ncols c - 1) (redundant_cols pr)) sol')
  end.

(** lib/framework.cpp:1416-1449 [pluto_add_hyperplane_from_ilp_solution]; the
    statement part. *)
Definition hyp_row (pr : prog) (sol : point) (s : nat) : list Z :=
  map (fun k => nth (stmt_offset pr s + k) sol 0) (seq 0 (p_nvar pr))
  ++ repeat 0 (p_npar pr) ++ [nth (stmt_offset pr s + p_nvar pr) sol 0].
Definition append_row (st : stmt) (ht : hyptype) (r : list Z) : stmt :=
  let n := mnrows (s_trans st) in
  let st1 := stmt_add_hyperplane st ht n in
  set_trans st1 (mkMat (mncols (s_trans st1)) (map_nth n (fun _ => r) (mrows (s_trans st1)))).
Definition add_hyperplane_from_ilp_solution (pr : prog) (sol : point) : prog :=
  let pr1 := prog_add_hyperplane pr (length (p_hprops pr)) H_LOOP in
  set_stmts pr1
    (map (fun s => let r := hyp_row pr sol s in
                   append_row (stmt_of pr s)
                     (if forallb (fun v => v =? 0) (firstn (s_dim (stmt_of pr s)) r) then H_SCALAR else H_LOOP) r)
       (seq 0 (length (p_stmts pr)))).

(** lib/pluto.c:788-851: the loop of [find_permutable_hyperplanes]; [n] is the
    number of solutions still wanted. *)
Fixpoint find_hyperplanes (o : options) (mode : search_mode) (n : nat) (basecst : cst) (pr : prog) : prog * nat :=
  match n with
  | O => (pr, 0%nat)
  | S n' =>
      let cur := cst_add basecst (get_non_trivial_sol_constraints pr mode) in
      let ind := get_linear_ind_constraints o pr cur mode in
      match (if (nrows ind =? 0)%nat then None else prog_constraints_lexmin pr (cst_add cur ind)) with
      | None => (pr, 0%nat)
      | Some sol =>
          let '(pr', k) := find_hyperplanes o mode n' basecst (add_hyperplane_from_ilp_solution pr sol) in
          (pr', S k)
      end
  end.

(** lib/pluto.c:770-857 [find_permutable_hyperplanes]. *)
Definition find_permutable_hyperplanes (o : options) (mode : search_mode) (max_sols : nat) (pr : prog) : prog * nat :=
  find_hyperplanes o mode max_sols
    (cst_add (get_permutability_constraints o (fun _ => false) pr) (get_coeff_bounding_constraints o pr)) pr.

(** ** The dependence graph inside of the driver *)

(** prog together with ddg: adjacency matrix, num_sccs, max_dim of the SCCs
    (scc_id is a field of the statements). *)
Record dstate := mkState { st_prog : prog; st_adj : list (list Z); st_num : nat; st_max : list Z }.

Definition to_ddep (d : dep) : ddep := mkDD (d_src d) (d_dst d) (d_rar d) (d_sat d).

(** lib/pluto.c:1932-1948 [ddg_create], 1908-1927 [ddg_update]. *)
Definition graph_of (pr : prog) : list (list Z) := ddg_create (length (p_stmts pr)) (map to_ddep (p_deps pr)).
Definition ddg_update (s : dstate) : dstate := mkState (st_prog s) (graph_of (st_prog s)) (st_num s) (st_max s).

(** lib/pluto.c:2018-2053 [ddg_compute_scc]; all entries of fn and cc_id are
    overwritten by the search before they are read, so their old values are
    taken to be 0. *)
Definition compute_scc (s : dstate) : dstate :=
  let pr := st_prog s in
  let n := length (p_stmts pr) in
  let '(scc, num) := GraphModel.ddg_compute_scc n (st_adj s) (repeat 0%nat n) (repeat 0 n) in
  mkState
    (set_stmts pr (map (fun i => set_scc (stmt_of pr i) (nth i scc 0)) (seq 0 n)))
    (st_adj s) num
    (map (fun k => get_max_orig_dim_in_scc scc (map s_dim_orig (p_stmts pr)) (Z.of_nat k)) (seq 0 num)).

(** ** Cuts *)

(** lib/pluto.c:434-450 [ddg_sccs_direct_connected]. *)
Definition sccs_direct_connected (s : dstate) (scc1 scc2 : Z) : bool :=
  let n := length (p_stmts (st_prog s)) in
  existsb (fun i => (s_scc (stmt_of (st_prog s) i) =? scc1) &&
    existsb (fun j => (s_scc (stmt_of (st_prog s) j) =? scc2) && (0 <? adj (st_adj s) i j)) (seq 0 n)) (seq 0 n).

(** A scalar row with value [f st] for each statement, e.g.
    lib/pluto.c:469-481. *)
Definition const_row (pr : prog) (v : Z) : list Z := repeat 0 (p_nvar pr + p_npar pr) ++ [v].
Definition add_scalar_level (pr : prog) (f : stmt -> Z) : prog :=
  set_stmts (prog_add_hyperplane pr (length (p_hprops pr)) H_SCALAR)
    (map (fun st => append_row st H_SCALAR (const_row pr (f st))) (p_stmts pr)).

(** lib/pluto.c:489-492 and 582-585: nrows and num_hyperplanes are decremented. *)
Definition drop_last_level (pr : prog) : prog :=
  let n := (length (p_hprops pr) - 1)%nat in
  set_hprops (set_stmts pr (map (fun st =>
      set_hyp (set_trans st (mkMat (mncols (s_trans st)) (firstn (mnrows (s_trans st) - 1) (mrows (s_trans st)))))
              (firstn (length (s_hyp st) - 1) (s_hyp st))) (p_stmts pr)))
    (firstn n (p_hprops pr)).

(** stmts[0]->trans->nrows. *)
Definition nrows0 (pr : prog) : nat := mnrows (s_trans (stmt_of pr 0)).

(** lib/pluto.c:482-495 and 574-588: keep the level if it satisfies something. *)
Definition keep_if_useful (s : dstate) (pr1 : prog) : dstate * nat :=
  let '(pr2, k) := dep_satisfaction_update is_emptyb pr1 (nrows0 pr1 - 1) in
  if (1 <=? k)%nat then (ddg_update (mkState pr2 (st_adj s) (st_num s) (st_max s)), k)
  else (mkState (drop_last_level pr2) (st_adj s) (st_num s) (st_max s), k).

(** lib/pluto.c:453-496 [cut_between_sccs]. *)
Definition cut_between_sccs (s : dstate) (scc1 scc2 : Z) : dstate * nat :=
  if negb (sccs_direct_connected s scc1 scc2) then (s, 0%nat)
  else keep_if_useful s (add_scalar_level (st_prog s) (fun st => if s_scc st <? scc2 then 0 else 1)).

(** lib/pluto.c:499-529 [cut_all_sccs]. *)
Definition cut_all_sccs (s : dstate) : dstate * nat :=
  if (st_num s =? 1)%nat then (s, 0%nat)
  else
    let pr1 := add_scalar_level (st_prog s) s_scc in
    let '(pr2, k) := dep_satisfaction_update is_emptyb pr1 (nrows0 pr1 - 1) in
    (ddg_update (mkState pr2 (st_adj s) (st_num s) (st_max s)), k).

(** lib/pluto.c:552-561: the value of [count] for SCC number [k]. *)
Fixpoint dim_counts (cur : Z) (count : Z) (l : list Z) : list Z :=
  match l with
  | [] => []
  | m :: l' => if cur =? m then count :: dim_counts cur count l'
               else (count + 1) :: dim_counts m (count + 1) l'
  end.

(** lib/pluto.c:541-589 [cut_scc_dim_based]. *)
Definition cut_scc_dim_based (s : dstate) : dstate * nat :=
  if (st_num s =? 1)%nat then (s, 0%nat)
  else
    let counts := dim_counts (nth 0 (st_max s) 0) 0 (st_max s) in
    keep_if_useful s (add_scalar_level (st_prog s) (fun st => nth (Z.to_nat (s_scc st)) counts 0)).

(** ceil(num_sccs / 2.0). *)
Definition half_up (n : nat) : Z := Z.of_nat ((n + 1) / 2).

(** The pairs (i, j) of the loops lib/pluto.c:612-613 and 640-641. *)
Definition far_pairs (num : nat) : list (nat * nat) :=
  flat_map (fun i => map (fun j => (i, j)) (rev (seq (S i) (num - 1 - i)))) (seq 0 (num - 1)).

(** lib/pluto.c:611-624. *)
Fixpoint cut_far_smart (pairs : list (nat * nat)) (s : dstate) : dstate :=
  match pairs with
  | [] => s
  | (i, j) :: l =>
      if (nrows0 (st_prog s) <=? 4 * p_nvar (st_prog s) + 2)%nat then
        cut_far_smart l
          (if sccs_direct_connected s (Z.of_nat i) (Z.of_nat j)
           then fst (cut_between_sccs s (Z.of_nat i) (Z.of_nat j)) else s)
      else fst (cut_all_sccs s)
  end.

(** lib/pluto.c:592-624 [cut_smart]. *)
Definition cut_smart (s : dstate) : dstate :=
  if (st_num s =? 0)%nat then s
  else if transformations_full_ranked (st_prog s) then fst (cut_all_sccs s)
  else
    let '(s1, k1) := cut_scc_dim_based s in
    if (1 <=? k1)%nat then s1
    else
      let '(s2, k2) := cut_between_sccs s1 (half_up (st_num s1) - 1) (half_up (st_num s1)) in
      if (1 <=? k2)%nat then s2 else cut_far_smart (far_pairs (st_num s2)) s2.

(** lib/pluto.c:639-651. *)
Fixpoint cut_far_conservative (pairs : list (nat * nat)) (s : dstate) : dstate :=
  match pairs with
  | [] => s
  | (i, j) :: l =>
      if (nrows0 (st_prog s) <=? 4 * p_nvar (st_prog s) + 2)%nat then
        let '(s1, k) := cut_between_sccs s (Z.of_nat i) (Z.of_nat j) in
        if (1 <=? k)%nat then s1 else cut_far_conservative l s1
      else fst (cut_all_sccs s)
  end.

(** lib/pluto.c:628-652 [cut_conservative]. *)
Definition cut_conservative (s : dstate) : dstate :=
  let '(s1, k1) := cut_scc_dim_based s in
  if (1 <=? k1)%nat then s1
  else
    let '(s2, k2) := cut_between_sccs s1 (half_up (st_num s1) - 1) (half_up (st_num s1)) in
    if (1 <=? k2)%nat then s2 else cut_far_conservative (far_pairs (st_num s2)) s2.

(** ** Padding *)

(** lib/pluto.c:1160-1181: the parameter context; aggregation stops when more
    than nstmts * npar rows were seen. *)
Definition param_context (pr : prog) : cst :=
  let '(c, _, _) :=
    fold_left (fun (acc : cst * nat * bool) st =>
      let '(c, count, stop) := acc in
      if stop then acc
      else
        let copy := Nat.iter (s_dim_orig st) (fun c => fm_eliminate c 0) (s_domain st) in
        let count' := (count + nrows copy)%nat in
        if (count' <=? length (p_stmts pr) * p_npar pr)%nat then (cst_add c copy, count', false)
        else (c, count', true))
    (p_stmts pr) (universe (p_npar pr + 1), 0%nat, false) in
  simplify c.

(** lib/pluto.c:1186-1204: the context rows, as inequalities, are added to a copy
    of the dependence polyhedron. *)
Definition bounding_with_context (pr : prog) (ctx : cst) (d : dep) : cst :=
  let nc := ncols (d_poly d) in
  mkCst nc (rows (d_poly d) ++
    map (fun r => mkRow false (repeat 0 (nc - (p_npar pr + 1)) ++ coef r)) (rows ctx)).

(** lib/pluto.c:1211-1216: padding of statement [sid]. *)
Definition pad_domain (pr : prog) (sid : nat) : prog :=
  Nat.iter (p_nvar pr - s_dim (stmt_of pr sid))
    (fun q => sink_statement q sid (s_dim (stmt_of q sid)) 0) pr.

(** lib/pluto.c:1248-1270: a row u_j >= 0 for every parameter whose coefficients
    in the dependence polyhedron are never positive and not all zero. *)
Definition neg_param (pr : prog) (d : dep) (j : nat) : bool :=
  let l := map (fun r => nth (2 * p_nvar pr + j) (coef r) 0) (rows (d_poly d)) in
  (fold_left Z.min l (hd 0 l) <? 0) && (fold_left Z.max l (hd 0 l) <=? 0).
Definition bounding_with_neg (pr : prog) (d : dep) : cst :=
  match rows (d_poly d) with
  | [] => d_bpoly d
  | _ => mkCst (ncols (d_bpoly d)) (rows (d_bpoly d) ++
           map (fun j => mkRow false (set_nth (2 * p_nvar pr + j) 1 (repeat 0 (ncols (d_bpoly d)))))
             (filter (neg_param pr d) (seq 0 (p_npar pr))))
  end.

(** lib/pluto.c:1138-1273 [normalize_domains]. *)
Definition normalize_domains (pr : prog) : prog :=
  let pr1 :=
    if (1 <=? p_npar pr)%nat then
      let ctx := param_context pr in
      set_deps pr (map (fun d => set_polys d (d_poly d) (bounding_with_context pr ctx d)) (p_deps pr))
    else pr in
  let pr2 := fold_left pad_domain (seq 0 (length (p_stmts pr))) pr1 in
  let pr3 := set_deps pr2 (map (fun d =>
    set_polys d (fold_left normalize_row (seq 0 (nrows (d_poly d))) (d_poly d)) (d_bpoly d)) (p_deps pr2)) in
  set_deps pr3 (map (fun d => set_polys d (d_poly d) (bounding_with_neg pr3 d)) (p_deps pr3)).

(** lib/pluto.c:1287-1295: the loop over j for statement [sid], [n] more
    iterations; [pos] = j - del_count. *)
Fixpoint unpad_domain (n pos sid : nat) (pr : prog) : prog :=
  match n with
  | O => pr
  | S n' =>
      if nth pos (s_orig (stmt_of pr sid)) true then unpad_domain n' (S pos) sid pr
      else
        let pr1 := stmt_remove_dim pr sid pos in
        let pr2 := set_stmts pr1 (map_nth sid (fun st =>
          set_evict st (match s_evict st with Some e => Some (remove_at pos e) | None => None end)) (p_stmts pr1)) in
        unpad_domain n' pos sid pr2
  end.

(** lib/pluto.c:1277-1304 [denormalize_domains]. *)
Definition denormalize_domains (pr : prog) : prog :=
  fold_left (fun q sid =>
    let q1 := unpad_domain (p_nvar q) 0 sid q in
    set_stmts q1 (map_nth sid (fun st => set_orig st (repeat true (s_dim st))) (p_stmts q1)))
    (seq 0 (length (p_stmts pr))) pr.

(** ** The driver *)

(** include/pluto/pluto.h:30-46 [fusionType]; all other values behave like
    maximal fusion in the code modelled here. *)
Inductive fusion := NoFuse | SmartFuse | MaxFuse.

(** lib/pluto.c:1707-1714. *)
Definition num_sols_left (pr : prog) : nat :=
  fold_left (fun m st => Nat.max m (s_dim_orig st - num_ind_hyps st)) (p_stmts pr) 0%nat.

(** lib/pluto.c:1884-1900 [get_num_unsatisfied_inter_scc_deps]. *)
Definition num_unsatisfied_inter_scc_deps (pr : prog) : nat :=
  length (filter (fun d => negb (d_rar d)
                           && negb (s_scc (stmt_of pr (d_src d)) =? s_scc (stmt_of pr (d_dst d)))
                           && negb (d_sat d)) (p_deps pr)).

(** Result of one round of the loop lib/pluto.c:1697-1823. *)
Inductive outcome := Continue (s : dstate) (mode : search_mode) | Failed (s : dstate).

(** lib/pluto.c:1748-1752. *)
Definition update_levels (first n : nat) (s : dstate) : dstate :=
  fold_left (fun s level => ddg_update (mkState (fst (dep_satisfaction_update is_emptyb (st_prog s) level))
                                          (st_adj s) (st_num s) (st_max s))) (seq first n) s.

(** lib/pluto.c:1697-1821, one round; [depth] is the number of rounds done. *)
Definition round (o : options) (fuse : fusion) (depth : nat) (mode : search_mode) (s0 : dstate) : outcome :=
  let s := match fuse with NoFuse => fst (cut_all_sccs (compute_scc s0)) | _ => s0 end in
  let '(pr1, nsols) := find_permutable_hyperplanes o mode (num_sols_left (st_prog s)) (st_prog s) in
  let s1 := mkState pr1 (st_adj s) (st_num s) (st_max s) in
  let r :=
    if (1 <=? nsols)%nat then Continue (update_levels (nrows0 pr1 - nsols) nsols s1) mode
    else
      let s2 := compute_scc s1 in
      if (1 <=? num_unsatisfied_inter_scc_deps (st_prog s2))%nat then
        Continue (match fuse with
                  | NoFuse => fst (cut_all_sccs s2)
                  | SmartFuse => cut_smart s2
                  | MaxFuse => if (2 * p_nvar (st_prog s2) + 1 <=? depth)%nat
                               then fst (cut_all_sccs s2) else cut_conservative s2
                  end) mode
      else
        match mode with
        | EAGER => Continue s2 LAZY
        | LAZY => if negb (deps_satisfaction_check (st_prog s2)) then Failed s2 else Continue s2 LAZY
        end in
  match r with
  | Failed s => Failed s
  | Continue s mode =>
      Continue (match mode with
                | LAZY => mkState (compute_dep_satisfaction_precise is_emptyb (st_prog s)) (st_adj s) (st_num s) (st_max s)
                | EAGER => s
                end) mode
  end.

(** lib/pluto.c:1697-1823; [None]: the fuel (number of rounds) is used up. *)
Fixpoint drive (o : options) (fuse : fusion) (fuel depth : nat) (mode : search_mode) (s : dstate) : option outcome :=
  match fuel with
  | O => None
  | S f =>
      match round o fuse depth mode s with
      | Failed s' => Some (Failed s')
      | Continue s' mode' =>
          if transformations_full_ranked (st_prog s') && deps_satisfaction_check (st_prog s')
          then Some (Continue s' mode') else drive o fuse f (S depth) mode' s'
      end
  end.

(** lib/pluto.c:1515-1517 and 1541-1552: flags and transformations are reset. *)
Definition clear_schedules (pr : prog) : prog :=
  mkProg (p_nvar pr) (p_npar pr)
    (map (fun st => set_hyp (set_trans st (mkMat (s_dim st + p_npar pr + 1) [])) []) (p_stmts pr))
    (map (fun d => set_sat d false (d_level d)) (p_deps pr)) (p_hprops pr).

(** lib/pluto.c:1807-1812: the original transformations are put back. *)
Definition restore_schedules (orig pr : prog) : prog :=
  set_hprops (set_stmts pr (map (fun i =>
      set_hyp (set_trans (stmt_of pr i) (s_trans (stmt_of orig i))) (s_hyp (stmt_of orig i)))
    (seq 0 (length (p_stmts pr))))) (p_hprops orig).

(** lib/pluto.c:1492-1823 [pluto_auto_transform] up to the end of the main loop,
    for a program with statements. *)
Definition auto_search (o : options) (fuse : fusion) (fuel : nat) (pr : prog) : option outcome :=
  let pr0 := clear_schedules pr in
  let s0 := compute_scc (mkState pr0 (graph_of pr0) 0 []) in
  let pr1 := set_hprops (normalize_domains (st_prog s0)) [] in
  let s1 := mkState pr1 (st_adj s0) (st_num s0) (st_max s0) in
  let s2 := match fuse with SmartFuse => fst (cut_scc_dim_based s1) | _ => s1 end in
  drive o fuse fuel 0 EAGER s2.

(** lib/pluto.c:1492-1850 [pluto_auto_transform]: return value (0 or 1) and the
    final program. *)
Definition auto_transform (o : options) (fuse : fusion) (fuel : nat) (pr : prog) : option (Z * prog) :=
  if (length (p_stmts pr) =? 0)%nat then Some (0, mkProg (p_nvar pr) (p_npar pr) []
                                         (map (fun d => set_sat d false (d_level d)) (p_deps pr)) (p_hprops pr))
  else
    match auto_search o fuse fuel pr with
    | None => None
    | Some (Continue s _) => Some (0, denormalize_domains (st_prog s))
    | Some (Failed s) => Some (1, restore_schedules pr (denormalize_domains (st_prog s)))
    end.
End Oracles.
