(** * Model of the test whether a strongly connected component is a stencil.

    /repo/lib/framework.cpp:1559-1815 [is_scc_stencil] and its helpers, called by
    /repo/lib/pluto.c:1583-1600 for typed fusion.  The lexicographic minimum of
    the integer points of a system is a parameter ([lexmin]), as is the solver of
    the search for the face ([solve]).  Values are unbounded integers.  The
    caching of dep->bounding_cst is not modelled: it is a function of the
    dependence. *)
From Coq Require Import ZArith List Bool Arith.
From Verif Require Import SpecLinear MathModel ConstraintsModel SpecProg FrameworkModel ProgModel DriverModel LoopModel ConeModel.
Import ListNotations.
Open Scope Z_scope.

(** lib/framework.cpp:38. *)
Definition MAX_SHORT_DEP_DISTANCE : Z := 10.

(** lib/framework.cpp:1604-1657: the form u.p + w + (phi(t) - phi(s)). *)
Definition phi_lower (nvar npar : nat) (same : bool) : matrix :=
  let nc := if same then (npar + 1 + (nvar + 1) + 1)%nat else (npar + 1 + 2 * (nvar + 1) + 1)%nat in
  mat_of (2 * nvar + npar + 1) nc (fun r j =>
    if (r <? nvar)%nat then (if (j =? npar + 1 + r)%nat then -1 else 0)
    else if (r <? 2 * nvar)%nat then
      (if (j =? (if same then npar + 1 + (r - nvar) else npar + 1 + (nvar + 1) + (r - nvar)))%nat
       then 1 else 0)
    else if (r <? 2 * nvar + npar)%nat then (if (j =? r - 2 * nvar)%nat then 1 else 0)
    else
      if (j =? npar)%nat then 1
      else if same then 0
      else if (j =? npar + 1 + nvar)%nat then -1
      else if (j =? npar + 1 + (nvar + 1) + nvar)%nat then 1
      else 0).

(** lib/framework.cpp:1596-1688
    [compute_dep_dist_lb_constraints_for_stencil_check]. *)
Definition lower_func_cst (pr : prog) (d : dep) : cst :=
  farkas_lemma_affine (d_bpoly d) (phi_lower (p_nvar pr) (p_npar pr) (same_stmt d)).
Definition dep_lower_cst (pr : prog) (d : dep) : cst :=
  scatter pr d (p_npar pr + 1) (lower_func_cst pr d).

(** The dependences the loops of lib/framework.cpp:1567-1575 and 1704-1711 do not
    skip. *)
Definition scc_deps (pr : prog) (scc : Z) : list dep :=
  filter (fun d => negb (d_rar d) && (s_scc (stmt_of pr (d_src d)) =? scc) && (s_scc (stmt_of pr (d_dst d)) =? scc)) (p_deps pr).

(** lib/framework.cpp:1561-1590 [get_dep_distance_bounding_constraints_for_scc];
    [None] for NULL. *)
Definition get_dep_distance_bounding_constraints_for_scc (scc : Z) (pr : prog) : option cst :=
  fold_left (fun acc d =>
      Some (cst_add (match acc with Some c => c | None => universe (cst_width pr) end) (dep_bounding_cst pr d)))
    (scc_deps pr scc) None.

(** lib/framework.cpp:1693-1721 [get_dep_dist_lower_bound_constraints_for_scc];
    the system starts with one row of zeros (line 1719). *)
Definition get_dep_dist_lower_bound_constraints_for_scc (scc : Z) (pr : prog) : option cst :=
  fold_left (fun acc d =>
      Some (cst_add (match acc with Some c => c | None => add_inequality (universe (cst_width pr)) end) (dep_lower_cst pr d)))
    (scc_deps pr scc) None.

(** lib/framework.cpp:1757-1772: no negative coefficients and w, u = 0, w at most
    MAX_SHORT_DEP_DISTANCE. *)
Definition stencil_coeff_bounds (pr : prog) : cst :=
  let w := cst_width pr in
  let npar := p_npar pr in
  let lbs := fold_left (fun c i => add_lb c i 0) (seq npar (w - 1 - npar)) (universe w) in
  let eqs := fold_left (fun c i => set_last i 1 (add_equality c)) (seq 0 npar) lbs in
  add_ub eqs npar MAX_SHORT_DEP_DISTANCE.

(** lib/framework.cpp:1730-1737: the statements of the component, in order. *)
Definition scc_stmts (pr : prog) (scc : Z) : list nat :=
  filter (fun s => s_scc (stmt_of pr s) =? scc) (seq 0 (length (p_stmts pr))).

(** lib/framework.cpp:1786-1797: the sum of the coefficients of the loops of
    statement [s] on which the face [f] is zero is at least 1. *)
Definition ortho_row (pr : prog) (s : nat) (f : list Z) : row :=
  let w := cst_width pr in
  let o := stmt_offset pr s in
  mkRow false (map (fun j => if (o <=? j)%nat && (j <? o + p_nvar pr)%nat && (nth (j - o) f 0 =? 0) then 1 else 0) (seq 0 (w - 1)) ++ [-1]).

(** lib/framework.cpp:1779-1799: these rows come first, then one equality per
    loop on which the face of the statement is not zero. *)
Definition orthocst (pr : prog) (l : list (nat * list Z)) : cst :=
  fold_left (fun c p =>
      fold_left (fun c i => if nth i (snd p) 0 =? 0 then c else set_last (stmt_offset pr (fst p) + i) 1 (add_equality c))
        (seq 0 (p_nvar pr)) c)
    l (mkCst (cst_width pr) (map (fun p => ortho_row pr (fst p) (snd p)) l)).

(** lib/framework.cpp:1801-1804: the system solved. *)
Definition stencil_system (pr : prog) (scc : Z) (faces : list (list Z)) (bound lower : cst) : cst :=
  cst_add (cst_add (cst_add bound (orthocst pr (combine (scc_stmts pr scc) faces))) lower) (stencil_coeff_bounds pr).

Section Oracles.
Variable solve : prog -> cst -> option point.
(** [pluto_constraints_lexmin(.., ALLOW_NEGATIVE_COEFF)]. *)
Variable lexmin : cst -> option point.

(** lib/framework.cpp:1741-1742: the search for the face, for the statements of
    the component. *)
Definition scc_face (o : options) (scc : Z) (pr : prog) : option matrix :=
  get_face_with_concurrent_start solve o pr (mkPband (mkPloop 0 (scc_stmts pr scc)) 0).

(** lib/framework.cpp:1729-1815 [is_scc_stencil]; [None]: a null pointer is
    dereferenced, which is dep->bounding_cst in line 1580 (compute_permutability_
    constraints_dep sets none with --nodepbound) or dep_bound_cst in line 1752. *)
Definition is_scc_stencil (o : options) (scc : Z) (pr : prog) : option bool :=
  match scc_face o scc pr with
  | None => Some false
  | Some faces =>
      if o_nodepbound o then None
      else
        match get_dep_distance_bounding_constraints_for_scc scc pr, get_dep_dist_lower_bound_constraints_for_scc scc pr with
        | Some bound, Some lower =>
            match lexmin (stencil_system pr scc (mrows faces) bound lower) with
            | None => Some false
            | Some sol => Some (negb (nth (p_npar pr) sol 0 =? 0))
            end
        | _, _ => None
        end
  end.
End Oracles.
