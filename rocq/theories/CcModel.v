(** The search with an objective for each connected component (option
    per-cc-obj).  Every component has its own bounding function; the columns of
    a system are those of the sums, of the bounds of each component, and of the
    coefficients.  Without files, diamond tiling, and with the default solver or
    isl.  [None]: more entries are written to a row than were allocated for it. *)
From Coq Require Import ZArith List Bool Arith.
From Verif Require Import SpecLinear SpecMatrix MathModel ConstraintsModel SpecProg SpecDriver SpecGraph GraphModel FrameworkModel ProgModel DriverModel.
Import ListNotations.
Open Scope Z_scope.

(** The number of additional columns, e.g. lib/framework.cpp:400, and the
    program as the generators of constraints see it: with [k] more columns in
    front of the coefficients everything is as if there were [k] more
    parameters (lib/framework.cpp:763, 890, 945, lib/pluto.c:285, 692). *)
Definition cc_cols (pr : prog) (ncc : nat) : nat := ((p_npar pr + 1) * ncc)%nat.
Definition widen (k : nat) (pr : prog) : prog := mkProg (p_nvar pr) (p_npar pr + k) (p_stmts pr) (p_deps pr) (p_hprops pr).

(** lib/framework.cpp:435-444: the columns of the bound are moved to those of
    the component of the source. *)
Definition spread_dep (pr : prog) (ccs : list Z) (ncc : nat) (d : dep) (c : cst) : cst :=
  let k := cc_cols pr ncc in
  let target := (p_npar pr + 1 + (p_npar pr + 1) * Z.to_nat (nth (d_src d) ccs 0%Z))%nat in
  fold_left (fun c j => interchange_cols c (k + j) (target + j)) (seq 0 (p_npar pr + 1)) (add_leading_dims c k).

(** alloc_nrows and alloc_ncols of prog->globcst. *)
Record gmem := mkGmem { g_rows : nat; g_cols : nat }.

(** lib/constraints.c:285-307 [pluto_constraints_add] of [n] rows to a system
    with [have] rows, both with [cols] columns: memory is resized (127-170) only
    if there are too many rows. *)
Definition mem_add (m : gmem) (have n cols : nat) : option gmem :=
  if (g_rows m <? have + n)%nat then Some (mkGmem (Nat.max (have + n) (g_rows m)) (Nat.max cols (g_cols m)))
  else if (0 <? n)%nat && (g_cols m <? cols)%nat then None
  else Some m.

(** lib/framework.cpp:409-468. *)
Definition cc_add_dep (o : options) (pr : prog) (ccs : list Z) (ncc : nat) (acc : option (cst * Z * gmem)) (d : dep) : option (cst * Z * gmem) :=
  match acc with
  | None => None
  | Some (g, inc, m) =>
      if (negb (o_rar o) && d_rar d) || d_sat d then acc
      else
        let dc := spread_dep pr ccs ncc d (dep_cst o pr d) in
        match mem_add m (nrows g) (nrows dc) (ncols g) with
        | None => None
        | Some m' =>
            let g' := cst_add g dc in
            let thr := CONSTRAINTS_SIMPLIFY_THRESHOLD + 3000 * inc in
            if (thr <=? Z.of_nat (nrows g')) && (Z.of_nat (nrows g') - Z.of_nat (nrows dc) <? thr)
            then Some (simplify g', inc + 1, m') else Some (g', inc, m')
        end
  end.

(** lib/framework.cpp:376-406: the memory is allocated by the first call. *)
Definition cc_alloc (o : options) (pr : prog) (cols : nat) (m : option gmem) : gmem :=
  match m with
  | Some m => m
  | None => mkGmem (fold_left (fun n d => if negb (o_rar o) && d_rar d then n else (n + nrows (dep_cst o pr d))%nat) (p_deps pr) 0%nat) cols
  end.

(** lib/framework.cpp:348-485 [get_permutability_constraints] and
    lib/pluto.c:791-793 (the bounds of the coefficients are added in place). *)
Definition cc_permutability (o : options) (pr : prog) (ccs : list Z) (ncc : nat) (m : option gmem) : option (cst * gmem) :=
  let w := cst_width (widen (cc_cols pr ncc) pr) in
  match fold_left (cc_add_dep o pr ccs ncc) (p_deps pr) (Some (universe w, 0, cc_alloc o pr w m)) with
  | None => None
  | Some (g, _, m') =>
      let g' := simplify g in
      let b := get_coeff_bounding_constraints o (widen (cc_cols pr ncc) pr) in
      match mem_add m' (nrows g') (nrows b) w with
      | None => None
      | Some m'' => Some (cst_add g' b, m'')
      end
  end.

(** lib/pluto.c:740-759 [get_per_cc_obj_sum_constraints]; the rows are
    inequalities. *)
Definition obj_sum (pr : prog) (ncc : nat) : cst :=
  let w := cst_width (widen (cc_cols pr ncc) pr) in
  mkCst w (map (fun i => mkRow false (map (fun c => if (c =? i)%nat then 1
                                                    else if (i <? c)%nat && (c <=? i + ncc)%nat then -1 else 0) (seq 0 w)))
             (seq 0 (p_npar pr + 1))).

Section Cc.
Variable is_emptyb : cst -> bool.
Variable isl_emptyb : cst -> bool.
Variable kernel : matrix -> matrix.
Variable solve : prog -> cst -> option point.

(** lib/pluto.c:804-832: the system for the next hyperplane and its solution. *)
Definition cc_system (o : options) (mode : search_mode) (ncc : nat) (base : cst) (pr : prog) : cst * cst :=
  let q := widen (cc_cols pr ncc) pr in
  let cur := cst_add base (get_non_trivial_sol_constraints q mode) in
  (cur, get_linear_ind_constraints isl_emptyb kernel o q cur mode).
Definition cc_solution (o : options) (mode : search_mode) (ncc : nat) (base : cst) (pr : prog) : option point :=
  let '(cur, ind) := cc_system o mode ncc base pr in
  if (nrows ind =? 0)%nat then None
  else prog_constraints_lexmin solve (widen (cc_cols pr ncc) pr) (cst_add (cst_add cur ind) (obj_sum pr ncc)).

(** lib/pluto.c:803-851; the coefficients start after all bounds
    (lib/framework.cpp:1425-1428). *)
Fixpoint cc_find (o : options) (mode : search_mode) (ncc n : nat) (base : cst) (pr : prog) : prog * nat :=
  match n with
  | O => (pr, 0%nat)
  | S n' =>
      match cc_solution o mode ncc base pr with
      | None => (pr, 0%nat)
      | Some sol =>
          let '(pr', k) := cc_find o mode ncc n' base (add_hyperplane_from_ilp_solution pr (skipn (cc_cols pr ncc) sol)) in
          (pr', S k)
      end
  end.

(** lib/pluto.c:770-857 [find_permutable_hyperplanes]. *)
Definition cc_find_permutable (o : options) (mode : search_mode) (ccs : list Z) (ncc max_sols : nat) (pr : prog) (m : option gmem)
  : option (prog * nat * option gmem) :=
  if (max_sols =? 0)%nat then Some (pr, 0%nat, m)
  else
    match cc_permutability o pr ccs ncc m with
    | None => None
    | Some (base, m') => let '(pr', k) := cc_find o mode ncc max_sols base pr in Some (pr', k, Some m')
    end.

(** lib/pluto.c:1737-1821: what follows the search for hyperplanes, as in
    [DriverModel.round]. *)
Definition finish_round (fuse : fusion) (depth : nat) (mode : search_mode) (s : dstate) (pr1 : prog) (nsols : nat) : outcome :=
  let s1 := mkState pr1 (st_adj s) (st_num s) (st_max s) in
  let r :=
    if (1 <=? nsols)%nat then Continue (update_levels is_emptyb (nrows0 pr1 - nsols) nsols s1) mode
    else
      let s2 := compute_scc s1 in
      if (1 <=? num_unsatisfied_inter_scc_deps (st_prog s2))%nat then
        Continue (match fuse with
                  | NoFuse => fst (cut_all_sccs is_emptyb s2)
                  | SmartFuse => cut_smart is_emptyb s2
                  | MaxFuse => if (2 * p_nvar (st_prog s2) + 1 <=? depth)%nat
                               then fst (cut_all_sccs is_emptyb s2) else cut_conservative is_emptyb s2
                  end) mode
      else
        match mode with
        | EAGER => Continue s2 LAZY
        | LAZY => if negb (deps_satisfaction_check (st_prog s2)) then Failed s2 else Continue s2 LAZY
        end in
  match r with
  | Failed s => Failed s
  | Continue s mode =>
      Continue (match mode with
                | LAZY => mkState (compute_dep_satisfaction_precise is_emptyb (st_prog s)) (st_adj s) (st_num s) (st_max s)
                | EAGER => s
                end) mode
  end.

(** lib/pluto.c:1697-1821 with the components of lib/pluto.c:1727-1729; cc_id
    is kept outside of the statements. *)
Definition cc_round (o : options) (fuse : fusion) (depth : nat) (mode : search_mode) (s0 : dstate) (m : option gmem) : option (outcome * option gmem) :=
  let s := match fuse with NoFuse => fst (cut_all_sccs is_emptyb (compute_scc s0)) | _ => s0 end in
  let n := length (p_stmts (st_prog s)) in
  let '(ccs, ncc) := ddg_compute_cc n (st_adj s) (repeat 0 n) in
  match cc_find_permutable o mode ccs ncc (num_sols_left (st_prog s)) (st_prog s) m with
  | None => None
  | Some (pr1, nsols, m') => Some (finish_round fuse depth mode s pr1 nsols, m')
  end.

(** lib/pluto.c:1697-1823; outer [None]: no more fuel. *)
Fixpoint cc_drive (o : options) (fuse : fusion) (fuel depth : nat) (mode : search_mode) (s : dstate) (m : option gmem) : option (option outcome) :=
  match fuel with
  | O => None
  | S f =>
      match cc_round o fuse depth mode s m with
      | None => Some None
      | Some (Failed s', _) => Some (Some (Failed s'))
      | Some (Continue s' mode', m') =>
          if transformations_full_ranked (st_prog s') && deps_satisfaction_check (st_prog s')
          then Some (Some (Continue s' mode')) else cc_drive o fuse f (S depth) mode' s' m'
      end
  end.

(** lib/pluto.c:1492-1850 [pluto_auto_transform] with option per-cc-obj. *)
Definition cc_auto_transform (o : options) (fuse : fusion) (fuel : nat) (pr : prog) : option (option (Z * prog)) :=
  if (length (p_stmts pr) =? 0)%nat then Some (Some (0, mkProg (p_nvar pr) (p_npar pr) []
                                         (map (fun d => set_sat d false (d_level d)) (p_deps pr)) (p_hprops pr)))
  else
    let pr0 := clear_schedules pr in
    let s0 := compute_scc (mkState pr0 (graph_of pr0) 0 []) in
    let pr1 := set_hprops (normalize_domains (st_prog s0)) [] in
    let s1 := mkState pr1 (st_adj s0) (st_num s0) (st_max s0) in
    let s2 := match fuse with SmartFuse => fst (cut_scc_dim_based is_emptyb s1) | _ => s1 end in
    match cc_drive o fuse fuel 0 EAGER s2 None with
    | None => None
    | Some None => Some None
    | Some (Some (Continue s _)) => Some (Some (0, denormalize_domains (st_prog s)))
    | Some (Some (Failed s)) => Some (Some (1, restore_schedules pr (denormalize_domains (st_prog s))))
    end.
End Cc.
