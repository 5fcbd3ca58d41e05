(** * Model of /repo/lib/framework.cpp: the constraints on hyperplanes.

    Modelled for a program whose statements have all been padded to [nvar]
    dimensions ("IMPORTANT: It's assumed that all statements are of
    dimensionality nvar", lib/framework.cpp:73, 503), without the options
    per_cc_obj and dfp. *)
From Coq Require Import ZArith List Bool Arith.
From Verif Require Import SpecLinear MathModel ConstraintsModel SpecProg.
Import ListNotations.
Open Scope Z_scope.

(** Options used here (lib/program.cpp:830-940): --rar, --nodepbound,
    coeff_bound, --flic. *)
Record options := mkOpts { o_rar : bool; o_nodepbound : bool; o_coeff_bound : Z; o_flic : bool }.

(** A matrix given by its entries. *)
Definition mat_of (nr nc : nat) (f : nat -> nat -> Z) : matrix :=
  mkMat nc (map (fun r => map (f r) (seq 0 nc)) (seq 0 nr)).

(** lib/framework.cpp:84-123 (validity form, phi(t) - phi(s) >= 0), and
    lib/framework.cpp:515-555 for the same matrix with the constant [-strict]. *)
Definition phi_valid (nvar npar : nat) (same : bool) (strict : Z) : matrix :=
  let nc := if same then (nvar + 1 + 1)%nat else (2 * (nvar + 1) + 1)%nat in
  mat_of (2 * nvar + npar + 1) nc (fun r j =>
    if (r <? nvar)%nat then (if (j =? r)%nat then -1 else 0)
    else if (r <? 2 * nvar)%nat then
      (if (j =? (if same then r - nvar else nvar + 1 + (r - nvar)))%nat then 1 else 0)
    else if (r =? 2 * nvar + npar)%nat then
      (if (j =? nc - 1)%nat then - strict
       else if same then 0
       else if (j =? nvar + 1 + nvar)%nat then 1
       else if (j =? nvar)%nat then -1 else 0)
    else 0).

(** lib/framework.cpp:130-183 (bounding form, u.p + w - (phi(t) - phi(s)) >= 0). *)
Definition phi_bound (nvar npar : nat) (same : bool) : matrix :=
  let nc := if same then (npar + 1 + (nvar + 1) + 1)%nat else (npar + 1 + 2 * (nvar + 1) + 1)%nat in
  mat_of (2 * nvar + npar + 1) nc (fun r j =>
    if (r <? nvar)%nat then (if (j =? npar + 1 + r)%nat then 1 else 0)
    else if (r <? 2 * nvar)%nat then
      (if (j =? (if same then npar + 1 + (r - nvar) else npar + 1 + (nvar + 1) + (r - nvar)))%nat
       then -1 else 0)
    else if (r <? 2 * nvar + npar)%nat then (if (j =? r - 2 * nvar)%nat then 1 else 0)
    else
      if (j =? npar)%nat then 1
      else if same then 0
      else if (j =? npar + 1 + nvar)%nat then 1
      else if (j =? npar + 1 + (nvar + 1) + nvar)%nat then -1
      else 0).

(** First column of statement [s] in the global system. *)
Definition stmt_offset (pr : prog) (s : nat) : nat := (p_npar pr + 1 + s * (p_nvar pr + 1))%nat.

(** One row in global format, lib/framework.cpp:207-225 ([base] = 0) and
    240-263 ([base] = npar + 1: the first [base] columns are the u and w). *)
Definition scatter_row (pr : prog) (d : dep) (base : nat) (l : list Z) : list Z :=
  let n := p_nvar pr in
  let w := cst_width pr in
  let so := stmt_offset pr (d_src d) in
  let do_ := stmt_offset pr (d_dst d) in
  let same := (d_src d =? d_dst d)%nat in
  map (fun j =>
    if (j =? w - 1)%nat then nth (if same then base + n + 1 else base + 2 * n + 2) l 0
    else if (j <? base)%nat then nth j l 0
    else if negb same && (do_ <=? j)%nat && (j <? do_ + (n + 1))%nat then nth (base + (n + 1) + (j - do_)) l 0
    else if (so <=? j)%nat && (j <? so + (n + 1))%nat then nth (base + (j - so)) l 0
    else 0) (seq 0 w).

Definition scatter (pr : prog) (d : dep) (base : nat) (c : cst) : cst :=
  mkCst (cst_width pr) (map (map_coef (scatter_row pr d base)) (rows c)).

(** lib/framework.cpp:253-266: the columns of padded dimensions are zeroed; the
    second test compares the source statement with the target's column offset,
    as in line 260 of the code. *)
Definition pad_col (pr : prog) (s : nat) (j : nat) : bool :=
  (stmt_offset pr s <=? j)%nat && (j <? stmt_offset pr s + p_nvar pr)%nat &&
  negb (nth (j - stmt_offset pr s) (s_orig (stmt_of pr s)) true).
Definition zero_pads (pr : prog) (d : dep) (c : cst) : cst :=
  mkCst (ncols c)
    (map (map_coef (fun r =>
       map (fun j =>
         if pad_col pr (d_src d) j
            || (negb (d_src d =? stmt_offset pr (d_dst d))%nat && pad_col pr (d_dst d) j)
         then 0 else nth j r 0) (seq 0 (ncols c)))) (rows c)).

(** The two systems before they are put in global format,
    lib/framework.cpp:126 and 186. *)
Definition same_stmt (d : dep) : bool := (d_src d =? d_dst d)%nat.
Definition tiling_valid_cst (pr : prog) (d : dep) : cst :=
  farkas_lemma_affine (d_poly d) (phi_valid (p_nvar pr) (p_npar pr) (same_stmt d) 0).
Definition bounding_func_cst (pr : prog) (d : dep) : cst :=
  farkas_lemma_affine (d_bpoly d) (phi_bound (p_nvar pr) (p_npar pr) (same_stmt d)).

(** lib/framework.cpp:62-272 [compute_permutability_constraints_dep]: dep->cst. *)
Definition dep_cst (o : options) (pr : prog) (d : dep) : cst :=
  let valid := if d_rar d then [] else rows (scatter pr d 0 (tiling_valid_cst pr d)) in
  let bound := if o_nodepbound o then [] else rows (scatter pr d (p_npar pr + 1) (bounding_func_cst pr d)) in
  zero_pads pr d (mkCst (cst_width pr) (valid ++ bound)).

(** dep->bounding_cst (lib/framework.cpp:268-271). *)
Definition dep_bounding_cst (pr : prog) (d : dep) : cst :=
  scatter pr d (p_npar pr + 1) (bounding_func_cst pr d).

(** CONSTRAINTS_SIMPLIFY_THRESHOLD, lib/framework.cpp:38. *)
Definition CONSTRAINTS_SIMPLIFY_THRESHOLD : Z := 10000.

(** The accumulation loop lib/framework.cpp:409-468; [skip i] tells whether
    dependence [i] is listed in the debug file skipdeps.txt. *)
Definition add_dep_cst (o : options) (pr : prog) (skip : nat -> bool)
    (acc : cst * Z) (p : nat * dep) : cst * Z :=
  let '(g, inc) := acc in
  let '(i, d) := p in
  if skip i || (negb (o_rar o) && d_rar d) || d_sat d then acc
  else
    let dc := dep_cst o pr d in
    let g' := cst_add g dc in
    let thr := CONSTRAINTS_SIMPLIFY_THRESHOLD + 3000 * inc in
    if (thr <=? Z.of_nat (nrows g')) && (Z.of_nat (nrows g') - Z.of_nat (nrows dc) <? thr)
    then (simplify g', inc + 1) else (g', inc).

(** lib/framework.cpp:347-485 [get_permutability_constraints].  The caching of
    dep->cst is not modelled: it is a function of the dependence, which does not
    change between the calls. *)
Definition get_permutability_constraints (o : options) (skip : nat -> bool) (pr : prog) : cst :=
  simplify (fst (fold_left (add_dep_cst o pr skip)
                   (combine (seq 0 (length (p_deps pr))) (p_deps pr))
                   (universe (cst_width pr), 0))).

(** lib/framework.cpp:283-314 [get_scc_permutability_constraints]; [None] is the
    NULL returned when no dependence qualifies. *)
Definition get_scc_permutability_constraints (o : options) (scc_id : Z) (pr : prog) : option cst :=
  fold_left (fun acc d =>
      if d_sat d then acc
      else if (s_scc (stmt_of pr (d_src d)) =? scc_id)
              && (s_scc (stmt_of pr (d_src d)) =? s_scc (stmt_of pr (d_dst d)))
      then Some (cst_add (match acc with Some c => c | None => universe (cst_width pr) end) (dep_cst o pr d))
      else acc) (p_deps pr) None.

(** lib/framework.cpp:318-345 [get_cc_permutability_constraints]. *)
Definition get_cc_permutability_constraints (o : options) (cc_id : Z) (pr : prog) : option cst :=
  fold_left (fun acc d =>
      if d_sat d then acc
      else if (s_cc (stmt_of pr (d_src d)) =? cc_id)
              && (s_cc (stmt_of pr (d_src d)) =? s_cc (stmt_of pr (d_dst d)))
      then Some (cst_add (match acc with Some c => c | None => universe (cst_width pr) end) (dep_cst o pr d))
      else acc) (p_deps pr) None.

(** lib/framework.cpp:489-610 [get_feautrier_schedule_constraints_dep]. *)
Definition feautrier_cst_dep (pr : prog) (d : dep) : cst :=
  let valid :=
    if d_rar d then []
    else rows (scatter pr d 0
                 (farkas_lemma_affine (d_poly d) (phi_valid (p_nvar pr) (p_npar pr) (same_stmt d) 1))) in
  zero_pads pr d (mkCst (cst_width pr) valid).

(** lib/framework.cpp:1452-1460 [is_stmt_in_stmt_list]. *)
Definition is_stmt_in_stmt_list (s : nat) (l : list nat) : bool := existsb (Nat.eqb s) l.

(** lib/framework.cpp:613-671 [get_feautrier_schedule_constraints].  [fcst_d] is
    freed in line 646 before its nrows is read in 649; the model uses the value
    before the free. *)
Definition get_feautrier_schedule_constraints (o : options) (pr : prog) (sl : list nat) : cst :=
  simplify (fst (fold_left (fun (acc : cst * Z) d =>
      let '(g, inc) := acc in
      if (negb (o_rar o) && d_rar d)
         || negb (is_stmt_in_stmt_list (d_src d) sl) || negb (is_stmt_in_stmt_list (d_dst d) sl)
      then acc
      else
        let dc := feautrier_cst_dep pr d in
        let g' := cst_add g dc in
        let thr := CONSTRAINTS_SIMPLIFY_THRESHOLD + 1000 * inc in
        if (thr <=? Z.of_nat (nrows g')) && (Z.of_nat (nrows g') - Z.of_nat (nrows dc) <? thr)
        then let g'' := simplify g' in
             (g'', if thr <=? Z.of_nat (nrows g'') then inc + 1 else inc)
        else (g', inc))
    (p_deps pr) (universe (cst_width pr), 0))).

(** ** Satisfaction tests *)

(** Coefficients of phi(src) - phi(dest) at [level] over (source iterators, target
    iterators, parameters, 1), e.g. lib/framework.cpp:1028-1037. *)
Definition src_minus_dst (pr : prog) (d : dep) (level : nat) : list Z :=
  let ss := stmt_of pr (d_src d) in
  let ds := stmt_of pr (d_dst d) in
  let rs := nth level (mrows (s_trans ss)) [] in
  let rd := nth level (mrows (s_trans ds)) [] in
  firstn (s_dim ss) rs ++ map Z.opp (firstn (s_dim ds) rd)
  ++ zip_with Z.sub (skipn (s_dim ss) rs) (skipn (s_dim ds) rd).

(** phi(dest) - phi(src), e.g. lib/framework.cpp:1257-1266. *)
Definition dst_minus_src (pr : prog) (d : dep) (level : nat) : list Z :=
  let ss := stmt_of pr (d_src d) in
  let ds := stmt_of pr (d_dst d) in
  let rs := nth level (mrows (s_trans ss)) [] in
  let rd := nth level (mrows (s_trans ds)) [] in
  map Z.opp (firstn (s_dim ss) rs) ++ firstn (s_dim ds) rd
  ++ zip_with (fun a b => - a + b) (skipn (s_dim ss) rs) (skipn (s_dim ds) rd).

(** [v] added to the constant term (last entry). *)
Definition add_const (v : Z) (r : list Z) : list Z := map_nth (length r - 1) (fun x => x + v) r.

Definition dep_ncols (pr : prog) (d : dep) : nat :=
  (s_dim (stmt_of pr (d_src d)) + s_dim (stmt_of pr (d_dst d)) + p_npar pr + 1)%nat.

(** [pluto_constraints_add] of a dependence polyhedron to one inequality. *)
Definition with_row (n : nat) (r : list Z) (c : cst) : cst := cst_add (mkCst n [mkRow false r]) c.

Section Oracle.
(** lib/constraints.c:1903-1927 [pluto_constraints_is_empty] (isl / PIP). *)
Variable is_emptyb : cst -> bool.

(** lib/framework.cpp:1000-1050 [dep_satisfaction_test]. *)
Definition dep_satisfaction_test (pr : prog) (d : dep) (level : nat) : bool :=
  is_emptyb (with_row (dep_ncols pr d) (src_minus_dst pr d level) (d_poly d)).

(** lib/framework.cpp:1226-1369 [get_dep_direction]. *)
Definition get_dep_direction (pr : prog) (d : dep) (level : nat) : depdir :=
  let n := dep_ncols pr d in
  let pos := add_const (-1) (dst_minus_src pr d level) in
  let neg := add_const (-1) (src_minus_dst pr d level) in
  if is_emptyb (with_row n pos (d_poly d)) && is_emptyb (with_row n neg (d_poly d)) then DEP_ZERO
  else if is_emptyb (with_row n neg (d_poly d)) then DEP_PLUS
  else if is_emptyb (with_row n pos (d_poly d)) then DEP_MINUS
  else DEP_STAR.

(** lib/framework.cpp:1173-1220 [pluto_dep_satisfies_instance] on the remaining
    instances [poly] (dep->depsat_poly); the intersection by isl is the
    conjunction. *)
Definition dep_satisfies_instance (pr : prog) (d : dep) (level : nat) (poly : cst) : bool :=
  negb (is_emptyb (with_row (dep_ncols pr d) (add_const (-1) (dst_minus_src pr d level)) poly)).

(** lib/framework.cpp:1061-1112 [pluto_dep_remove_satisfied_instances]: the new
    dep->depsat_poly (return value unused). *)
Definition remove_satisfied_instances (pr : prog) (d : dep) (level : nat) (poly : cst) : cst :=
  cst_add poly (mkCst (dep_ncols pr d) [mkRow false (src_minus_dst pr d level)]).

(** Loop lib/framework.cpp:1143-1157 over the levels [levels]: (satvec entries
    written, satisfaction_level, satisfied). *)
Fixpoint precise_loop (pr : prog) (d : dep) (levels : list nat) (poly : cst)
    (sv : list bool) (sl : Z) : list bool * Z * bool :=
  match levels with
  | [] => (sv, sl, false)
  | k :: levels' =>
      let b := dep_satisfies_instance pr d k poly in
      let poly' := remove_satisfied_instances pr d k poly in
      let sl' := if b then Z.max sl (Z.of_nat k) else sl in
      if is_emptyb poly' then (sv ++ [b], sl', true)
      else precise_loop pr d levels' poly' (sv ++ [b]) sl'
  end.

(** lib/framework.cpp:1118-1170 [pluto_compute_dep_satisfaction_precise] for one
    dependence; the remaining satvec entries are 0 (1161-1164). *)
Definition precise_dep (pr : prog) (d : dep) : dep :=
  let n := length (p_hprops pr) in
  let '(sv, sl, sat) := precise_loop pr d (seq 0 n) (d_poly d) [] (-1) in
  mkDep (d_src d) (d_dst d) (d_rar d) (d_poly d) (d_bpoly d) sat sl
        (sv ++ repeat false (n - length sv)) (d_dirs d).
Definition set_deps (pr : prog) (l : list dep) : prog :=
  mkProg (p_nvar pr) (p_npar pr) (p_stmts pr) l (p_hprops pr).
Definition compute_dep_satisfaction_precise (pr : prog) : prog :=
  set_deps pr (map (precise_dep pr) (p_deps pr)).

(** lib/pluto.c:60-89 [dep_satisfaction_update]: the updated dependences and the
    number of newly satisfied ones. *)
Definition set_sat (d : dep) (sat : bool) (level : Z) : dep :=
  mkDep (d_src d) (d_dst d) (d_rar d) (d_poly d) (d_bpoly d) sat level (d_satvec d) (d_dirs d).
Definition update_dep (pr : prog) (level : nat) (d : dep) : dep :=
  if d_sat d then d
  else if dep_satisfaction_test pr d level then set_sat d true (Z.of_nat level) else d.
Definition dep_satisfaction_update (pr : prog) (level : nat) : prog * nat :=
  (set_deps pr (map (update_dep pr level) (p_deps pr)),
   length (filter (fun d => negb (d_sat d) && negb (d_rar d) && dep_satisfaction_test pr d level) (p_deps pr))).

(** lib/pluto.c:92-103 [deps_satisfaction_check]. *)
Definition deps_satisfaction_check (pr : prog) : bool :=
  forallb (fun d => d_rar d || d_sat d) (p_deps pr).

(** lib/pluto.c:105-115 [pluto_dep_satisfaction_reset]. *)
Definition dep_satisfaction_reset (pr : prog) : prog :=
  set_deps pr (map (fun d => set_sat d false (-1)) (p_deps pr)).

(** lib/pluto.c:122-156 [pluto_compute_dep_satisfaction]. *)
Definition is_zero_dir (x : depdir) : bool := match x with DEP_ZERO => true | _ => false end.
Definition set_satvec (n : nat) (d : dep) : dep :=
  if d_rar d then d
  else mkDep (d_src d) (d_dst d) (d_rar d) (d_poly d) (d_bpoly d) (d_sat d) (d_level d)
         (map (fun level =>
            negb (is_zero_dir (nth level (d_dirs d) DEP_ZERO))
            && ((Z.of_nat level <=? d_level d) || (d_level d =? -1))) (seq 0 n))
         (d_dirs d).
Definition compute_dep_satisfaction (pr : prog) : prog :=
  let n := length (p_hprops pr) in
  let pr1 := fold_left (fun q level => fst (dep_satisfaction_update q level)) (seq 0 n) (dep_satisfaction_reset pr) in
  set_deps pr1 (map (set_satvec n) (p_deps pr1)).

(** lib/pluto.c:1027-1041 [pluto_compute_dep_directions]. *)
Definition compute_dep_directions (pr : prog) : prog :=
  set_deps pr (map (fun d =>
    mkDep (d_src d) (d_dst d) (d_rar d) (d_poly d) (d_bpoly d) (d_sat d) (d_level d) (d_satvec d)
      (map (get_dep_direction pr d) (seq 0 (length (p_hprops pr))))) (p_deps pr)).
End Oracle.
