(** * Model of /repo/lib/iss.c (index-set splitting).

    Simplifications that apply to the whole file: domains and dependence
    polyhedra have one element ([next] is NULL); names and messages are left
    out; the solvers behind [pluto_constraints_is_empty] and
    [pluto_constraints_lexmin] are parameters. *)
From Coq Require Import ZArith List Bool Arith.
From Verif Require Import SpecLinear MathModel ConstraintsModel SpecProg SpecTile FrameworkModel ProgModel TileModel
  LoopModel.
Import ListNotations.
Open Scope Z_scope.

(** ** The pieces of a statement *)

(** lib/program.cpp:2197-2226 [pluto_stmt_dup] with lib/program.cpp:1349-1404
    [pluto_stmt_alloc]: hyp_types, the tiling fields and evicted_hyp are those of
    a new statement.  scc_id and cc_id are not initialised by the code (they are
    computed when the dependence graph is made); the model has 0. *)
Definition stmt_dup (st : stmt) : stmt :=
  mkStmt (s_dim st) (s_dim_orig st) (s_orig st) (s_domain st) (s_trans st)
    (repeat H_LOOP (mnrows (s_trans st))) 0 0 (s_reads st) (s_writes st) None 0 0 (-1).

(** lib/iss.c:401-402, one new statement. *)
Definition iss_stmt (st : stmt) (cut : cst) : stmt :=
  set_domain (stmt_dup st) (cst_add (s_domain (stmt_dup st)) cut).

(** ** Dependences *)

(** lib/iss.c:332-355: the polyhedron for source piece [s] and target piece [t]. *)
Definition iss_poly (pr : prog) (cuts : list cst) (sid : nat) (d : dep) (s t : nat) : cst :=
  let sd := s_dim (stmt_of pr (d_src d)) in
  let dd := s_dim (stmt_of pr (d_dst d)) in
  let c1 := if (d_src d =? sid)%nat
            then cst_add (d_poly d) (Nat.iter dd (fun c => add_dim c sd) (nth s cuts (universe 1)))
            else d_poly d in
  if (d_dst d =? sid)%nat
  then cst_add c1 (Nat.iter sd (fun c => add_dim c 0) (nth t cuts (universe 1)))
  else c1.

(** lib/iss.c:357-374, with lib/program.cpp:1316-1343 [pluto_dep_dup]: the copy
    has no satvec and no dirvec, its bounding_poly is that of the old one. *)
Definition iss_dep_dup (d : dep) (c : cst) (src dst : nat) : dep :=
  mkDep src dst (d_rar d) c (d_bpoly d) (d_sat d) (d_level d) [] [].

Section Iss.
Variable is_empty : cst -> bool.

(** lib/iss.c:312-380, the dependences that replace one dependence. *)
Definition iss_split_dep (pr : prog) (cuts : list cst) (sid base : nat) (d : dep) : list dep :=
  if negb (d_src d =? sid)%nat && negb (d_dst d =? sid)%nat then [d]
  else
    flat_map (fun s => flat_map (fun t =>
        let c := iss_poly pr cuts sid d s t in
        if is_empty c then []
        else [iss_dep_dup d c (if (d_src d =? sid)%nat then (base + s)%nat else d_src d)
                              (if (d_dst d =? sid)%nat then (base + t)%nat else d_dst d)])
      (seq 0 (if (d_dst d =? sid)%nat then length cuts else 1)))
    (seq 0 (if (d_src d =? sid)%nat then length cuts else 1)).

(** lib/iss.c:300-386 [pluto_update_deps_after_iss].  [None]: no dependence is
    left, and prog->deps goes on pointing to dependences that have been freed. *)
Definition update_deps_after_iss (pr : prog) (cuts : list cst) (sid base : nat) : option prog :=
  match cuts with
  | [] => Some pr
  | _ =>
      match flat_map (iss_split_dep pr cuts sid base) (p_deps pr), p_deps pr with
      | [], _ :: _ => None
      | l, _ => Some (mkProg (p_nvar pr) (p_npar pr) (p_stmts pr) l (p_hprops pr))
      end
  end.

(** lib/iss.c:391-408 [pluto_iss]. *)
Definition iss (pr : prog) (sid : nat) (cuts : list cst) : option prog :=
  let st := stmt_of pr sid in
  let pr' := fold_left (fun q cut => add_given_stmt q (iss_stmt st cut)) cuts pr in
  update_deps_after_iss pr' cuts sid (length (p_stmts pr)).

(** ** The cuts *)

(** lib/iss.c:493-515, for the hyperplane found in one dimension.  The loop
    variable of the outer loop is used again in line 506: afterwards the outer
    loop goes on with dimension 3, but as there are four cuts then, no further
    dimension changes the cuts and the model goes through the dimensions in
    order. *)
Definition add_cut (cuts : list cst) (h : cst) : list cst :=
  let negh := negative_half_space h in
  let posh := non_negative_half_space h in
  match length cuts with
  | O => [negh; posh]
  | S (S O) | S O => map (fun c => cst_add c negh) cuts ++ map (fun c => cst_add c posh) cuts
  | _ => cuts
  end.

(** lib/iss.c:129-268 [pluto_find_iss] without [indcst] (always NULL). *)
Definition phi_iss (ndim npar : nat) (sign : Z) : matrix :=
  mat_of (2 * ndim + npar + 1) (2 + ndim + npar + 1 + 1) (fun r j =>
    if (r <? ndim)%nat then (if (j =? 2 + r)%nat then - sign else 0)
    else if (r <? 2 * ndim)%nat then (if (j =? 2 + (r - ndim))%nat then - sign else 0)
    else if (r <? 2 * ndim + npar)%nat then
      (if (j =? 2 + ndim + (r - 2 * ndim))%nat then sign * 2 else 0)
    else if (j =? 2 + ndim + npar)%nat then sign * 2
    else if (j =? 0)%nat then 1 else 0).
Definition iss_cst (ndim npar : nat) (doms : list cst) : cst :=
  let width := (2 + ndim + npar + 1 + 1)%nat in
  let c := fold_left (fun c dom => cst_add (cst_add c (farkas_lemma_affine dom (phi_iss ndim npar 1)))
                                     (farkas_lemma_affine dom (phi_iss ndim npar (-1))))
             doms (universe width) in
  let c := add_ub c 0 5 in
  let sigma := mkRow true (map (fun j => if (j =? 1)%nat then 1
                                         else if (2 <=? j)%nat && (j <? 2 + ndim)%nat then -1 else 0)
                             (seq 0 width)) in
  let nz := mkRow false (map (fun j => if (2 <=? j)%nat && (j <? 2 + ndim)%nat then 1
                                       else if (j =? width - 1)%nat then -1 else 0)
                           (seq 0 width)) in
  cst_add (mkCst width (rows c ++ [sigma])) (mkCst width [nz]).
Definition cut_of_solution (ndim npar : nat) (sol : list Z) : cst :=
  mkCst (ndim + npar + 1)
    [mkRow true (map (fun j => nth (2 + j) sol 0) (seq 0 ndim)
                 ++ map (fun j => - nth (2 + ndim + j) sol 0) (seq 0 npar)
                 ++ [- nth (2 + ndim + npar) sol 0])].
Definition find_iss (lexmin : cst -> option (list Z)) (npar : nat) (doms : list cst) : option cst :=
  match doms with
  | [] => None
  | dom0 :: _ =>
      let ndim := ((ncols dom0 - 1 - npar) / 2)%nat in
      match lexmin (iss_cst ndim npar doms) with
      | Some sol => Some (cut_of_solution ndim npar sol)
      | None => None
      end
  end.

(** lib/iss.c:447-455, 468-478: the polyhedra of the dependences from a statement
    to itself that are long in dimension [j]; [is_long] is
    [is_long_bidirectional_dep] (lib/iss.c:273-294), which only decides where to
    cut. *)
Definition long_dep_doms (is_long : dep -> nat -> bool) (pr : prog) (j : nat) : list cst :=
  map d_poly (filter (fun d => (d_src d =? d_dst d)%nat && is_long d j) (p_deps pr)).

(** lib/iss.c:483-518. *)
Definition iss_cuts (is_long : dep -> nat -> bool) (lexmin : cst -> option (list Z)) (pr : prog) (ndim : nat) : list cst :=
  fold_left (fun cuts j =>
      match long_dep_doms is_long pr j with
      | [] => cuts
      | doms => match find_iss lexmin (p_npar pr) doms with Some h => add_cut cuts h | None => cuts end
      end) (seq 0 ndim) [].

(** lib/pluto.c:2133-2149 [pluto_are_stmts_fused]. *)
Definition are_stmts_fused (pr : prog) : bool :=
  match find (fun d => negb (is_hyperplane_scalar (stmt_of pr 0) d)) (rev (seq 0 (length (p_hprops pr)))) with
  | None => false
  | Some d => (length (get_loops_under pr (seq 0 (length (p_stmts pr))) d) =? 1)%nat
  end.

(** lib/iss.c:520-530: all statements are split, then the old ones removed. *)
Fixpoint iss_all (pr : prog) (cuts : list cst) (sids : list nat) : option prog :=
  match sids with
  | [] => Some pr
  | sid :: l => match iss pr sid cuts with Some pr' => iss_all pr' cuts l | None => None end
  end.
Definition split_all (pr : prog) (cuts : list cst) : option prog :=
  let n := length (p_stmts pr) in
  match iss_all pr cuts (seq 0 n) with
  | Some pr' => Some (Nat.iter n (fun q => remove_stmt q 0) pr')
  | None => None
  end.

(** lib/iss.c:413-544 [pluto_iss_dep]. *)
Definition iss_program (is_long : dep -> nat -> bool) (lexmin : cst -> option (list Z)) (pr : prog) : option prog :=
  if (length (p_stmts pr) =? 0)%nat then Some pr
  else if negb (forallb (fun st => (s_dim st =? s_dim (stmt_of pr 0))%nat) (p_stmts pr)) then Some pr
  else if negb (are_stmts_fused pr) then Some pr
  else if (length (p_deps pr) =? 0)%nat then Some pr
  else
    let cuts := iss_cuts is_long lexmin pr (s_dim (stmt_of pr 0)) in
    if (2 <=? length cuts)%nat then split_all pr cuts else Some pr.
End Iss.
