(** * Model of the search for diamond tiles and of the driver that calls it.

    /repo/lib/pluto.c [pluto_diamond_tile], [find_cone_complement_hyperplane],
    /repo/lib/framework.cpp [get_face_with_concurrent_start].  The lexicographic
    minimum of a set of integer points is a parameter ([lexmin]), as are the other
    solvers (DriverModel).  Values are unbounded integers. *)
From Coq Require Import ZArith List Bool Arith.
From Verif Require Import SpecLinear SpecMatrix MathModel ConstraintsModel SpecProg SpecTile SpecDriver SpecGraph GraphModel FrameworkModel ProgModel DriverModel TileModel LoopModel DiamondModel IntraModel.
Import ListNotations.
Open Scope Z_scope.

(** lib/pluto.c:210-241 [get_coeff_bounding_constraints_for_cone_complement]. *)
Definition cone_bounds (pr : prog) : cst :=
  let w := cst_width pr in
  fold_left (fun c s =>
      add_lb (fold_left (fun c i => add_lb c (stmt_offset pr s + i) (-4)) (seq 0 (p_nvar pr)) c)
        (stmt_offset pr s + p_nvar pr) 0)
    (seq 0 (length (p_stmts pr)))
    (fold_left (fun c i => add_lb c i 0) (seq 0 (p_npar pr + 1)) (universe w)).

(** First multiplier of statement number [i] of the band, lib/pluto.c:1337, 1351. *)
Definition lambda_offset (pr : prog) (i : nat) : nat :=
  (p_npar pr + 1 + length (p_stmts pr) * (p_nvar pr + 1) + i * p_nvar pr)%nat.

(** lib/pluto.c:1331-1333: columns of lambda_cst for [n] statements. *)
Definition lambda_width (pr : prog) (n : nat) : nat := (cst_width pr + p_nvar pr * n)%nat.

(** A row of zeros with the entries [l] (position, value), written in order. *)
Definition row_with (n : nat) (l : list (nat * Z)) : list Z :=
  fold_left (fun r e => set_nth (fst e) (snd e) r) l (repeat 0 n).

(** lib/pluto.c:1335-1343: every multiplier is at least 1. *)
Definition lambda_lbs (pr : prog) (n : nat) : list row :=
  flat_map (fun i => map (fun j => mkRow false (row_with (lambda_width pr n) [((lambda_offset pr i + j)%nat, 1); ((lambda_width pr n - 1)%nat, -1)]))
                       (seq 0 (p_nvar pr))) (seq 0 n).

(** lib/pluto.c:1361-1377: the rows of the transformation that form the cone with
    the face; [full] is the option --full-diamond-tile. *)
Definition cone_rows (full : bool) (b : pband) (evict ccpos : nat) (st : stmt) : list nat :=
  if full then
    filter (fun k => negb (k =? evict)%nat && negb (is_scalar_type (nth k (s_hyp st) H_UNKNOWN)))
      (seq (l_depth (pb_loop b)) (pb_width b))
  else [ccpos].

(** lib/pluto.c:1353-1378: coefficient [j] of the new hyperplane of statement [s],
    number [i] of the band, is that of the face times the first multiplier minus
    those of the rows of the cone times theirs. *)
Definition lambda_eq (pr : prog) (full : bool) (b : pband) (faces : list (list Z)) (evict ccpos : nat) (i s j : nat) : row :=
  let n := length (l_stmts (pb_loop b)) in
  let ks := cone_rows full b evict ccpos (stmt_of pr s) in
  mkRow true (row_with (lambda_width pr n)
    ([((stmt_offset pr s + j)%nat, 1); (lambda_offset pr i, - nth j (nth i faces []) 0)]
     ++ map (fun q => ((lambda_offset pr i + fst q + 1)%nat, mget (s_trans (stmt_of pr s)) (snd q) j)) (combine (seq 0 (length ks)) ks)
     ++ [((lambda_width pr n - 1)%nat, 0)])).

(** lib/pluto.c:1331-1380: lambda_cst. *)
Definition lambda_cst (pr : prog) (full : bool) (b : pband) (faces : list (list Z)) (evict ccpos : nat) : cst :=
  let l := l_stmts (pb_loop b) in
  mkCst (lambda_width pr (length l))
    (lambda_lbs pr (length l)
     ++ flat_map (fun p => map (lambda_eq pr full b faces evict ccpos (fst p) (snd p)) (seq 0 (p_nvar pr)))
          (combine (seq 0 (length l)) l)).

(** lib/pluto.c:1387-1397: the system solved. *)
Definition cone_system (pr : prog) (full : bool) (b : pband) (faces : list (list Z)) (evict ccpos : nat) (basecst : cst) : cst :=
  cst_add (Nat.iter (p_nvar pr * length (l_stmts (pb_loop b))) (fun c => add_dim c (ncols basecst - 1)) (cst_add basecst (cone_bounds pr)))
    (lambda_cst pr full b faces evict ccpos).

(** lib/pluto.c:2207-2225: the face is normal to all rows of all statements of the
    band. *)
Definition all_normal (pr : prog) (b : pband) (faces : matrix) : bool :=
  forallb (fun p => forallb (fun d => vector_is_normal (s_trans (stmt_of pr (snd p))) d faces (fst p))
                      (seq (l_depth (pb_loop b)) (pb_width b)))
    (combine (seq 0 (length (l_stmts (pb_loop b)))) (l_stmts (pb_loop b))).

(** lib/pluto.c:1443-1451 [is_concurrent_start_face]. *)
Definition is_concurrent_start_face (pr : prog) (b : pband) (faces : matrix) (d : nat) : bool :=
  existsb (fun p => vector_is_parallel (s_trans (stmt_of pr (snd p))) d faces (fst p))
    (combine (seq 0 (length (l_stmts (pb_loop b)))) (l_stmts (pb_loop b))).

(** lib/pluto.c:1458-1466 [find_hyperplane_to_be_evicted]. *)
Definition find_hyperplane_to_be_evicted (pr : prog) (b : pband) (faces : matrix) : nat :=
  match find (is_concurrent_start_face pr b faces) (seq (l_depth (pb_loop b)) (pb_width b - 1)) with
  | Some d => d
  | None => (l_depth (pb_loop b) + pb_width b - 1)%nat
  end.

(** lib/pluto.c:2176-2206: the band is not parallel outside, the loops right below
    its first one are parallel for every statement and have a dependence that
    tiling would make them carry. *)
Definition loses_parallelism (pr : prog) (b : pband) : bool :=
  let iloops := get_loops_immediately_inner pr (pb_loop b) in
  negb (loop_is_parallel pr (pb_loop b))
  && forallb (fun lp => forallb (loop_is_parallel_for_stmt pr lp) (l_stmts (pb_loop b))) iloops
  && forallb (loop_has_satisfied_dep_with_component pr) iloops.

Section Oracles.
Variable is_emptyb : cst -> bool.
Variable isl_emptyb : cst -> bool.
Variable kernel : matrix -> matrix.
Variable solve : prog -> cst -> option point.
(** [pluto_constraints_lexmin(.., ALLOW_NEGATIVE_COEFF)]. *)
Variable lexmin : cst -> option point.

(** lib/framework.cpp:1466-1541 [get_face_with_concurrent_start_for_stmts] and
    1546-1557; [None] for NULL.  Row i belongs to the i-th statement of the
    program that is in the band. *)
Definition get_face_with_concurrent_start (o : options) (pr : prog) (b : pband) : option matrix :=
  let l := l_stmts (pb_loop b) in
  match prog_constraints_lexmin solve pr (cst_add (get_feautrier_schedule_constraints o pr l) (get_coeff_bounding_constraints o pr)) with
  | None => None
  | Some sol =>
      let faces := mkMat (p_nvar pr + p_npar pr + 1)
        (map (hyp_row pr sol) (filter (fun s => is_stmt_in_stmt_list s l) (seq 0 (length (p_stmts pr))))) in
      if forallb (fun r => (length (filter (fun v => negb (v =? 0)%Z) (firstn (p_nvar pr) r)) =? 1)%nat) (mrows faces)
      then Some faces else None
  end.

(** lib/pluto.c:1314-1437 [find_cone_complement_hyperplane]: the new rows, one per
    statement of the band; [None]: there is no solution. *)
Definition find_cone_complement_hyperplane (full : bool) (b : pband) (faces : matrix) (evict ccpos : nat) (basecst : cst) (pr : prog) : option (list (list Z)) :=
  match lexmin (cone_system pr full b (mrows faces) evict ccpos basecst) with
  | None => None
  | Some sol => Some (map (hyp_row pr sol) (l_stmts (pb_loop b)))
  end.

(** lib/pluto.c:2208-2256: position and new rows for a band, if it is to be
    changed. *)
Definition diamond_band (o : options) (full : bool) (basecst : cst) (pr : prog) (b : pband) : option (nat * list (list Z)) :=
  if negb (loses_parallelism pr b) then None
  else
    match get_face_with_concurrent_start o pr b with
    | None => None
    | Some faces =>
        if all_normal pr b faces then None
        else
          let first := l_depth (pb_loop b) in
          let evict := find_hyperplane_to_be_evicted pr b faces in
          let ccpos := if (evict =? first)%nat then S first else first in
          match find_cone_complement_hyperplane full b faces evict ccpos basecst pr with
          | Some hs => Some (evict, hs)
          | None => None
          end
    end.

(** The loop lib/pluto.c:2172-2285; the flag tells whether some band was changed
    (conc_start_enabled).  [None]: an assertion fails. *)
Fixpoint diamond_bands (o : options) (full : bool) (basecst : cst) (bands : list pband) (a : prog * list nat) (enabled : bool) : option (prog * list nat * bool) :=
  match bands with
  | [] => Some (a, enabled)
  | b :: bands' =>
      match diamond_band o full basecst (fst a) b with
      | None => diamond_bands o full basecst bands' a enabled
      | Some (pos, hs) =>
          match evict_band a (l_stmts (pb_loop b)) pos hs with
          | None => None
          | Some a' => diamond_bands o full basecst bands' a' true
          end
      end
  end.

(** lib/pluto.c:2152-2297 [pluto_diamond_tile]. *)
Definition pluto_diamond_tile (o : options) (full : bool) (pr : prog) (pos : list nat) : option (prog * list nat * bool) :=
  let basecst := get_permutability_constraints o (fun _ => false) pr in
  let pr1 := recompute is_emptyb pr in
  match get_outermost_permutable_bands pr1 with
  | None => None
  | Some bands =>
      match diamond_bands o full basecst bands (pr1, pos) false with
      | None => None
      | Some (pr2, pos2, enabled) => Some (if enabled then dep_satisfaction_reset pr2 else pr2, pos2, enabled)
      end
  end.

(** The state of the driver: that of DriverModel, the positions of the evicted
    hyperplanes and conc_start_found. *)
Record ddstate := mkDD { dd_state : dstate; dd_pos : list nat; dd_found : bool }.
Inductive doutcome := DContinue (s : ddstate) (mode : search_mode) | DFailed (s : ddstate).

(** lib/pluto.c:1702-1705: the state in which a round looks for hyperplanes; with
    no fusion all components are separated first. *)
Definition round_start (fuse : fusion) (s0 : dstate) : dstate :=
  match fuse with NoFuse => fst (cut_all_sccs is_emptyb (compute_scc s0)) | _ => s0 end.

(** lib/pluto.c:1697-1821, one round, with option diamondtile; [None]: an
    assertion fails.  When no hyperplane is found the round is that of
    DriverModel. *)
Definition round_d (o : options) (full : bool) (fuse : fusion) (depth : nat) (mode : search_mode) (d : ddstate) : option doutcome :=
  let s0 := dd_state d in
  let s := round_start fuse s0 in
  let '(pr1, nsols) := find_permutable_hyperplanes isl_emptyb kernel solve o mode (num_sols_left (st_prog s)) (st_prog s) in
  if ((2 <=? nsols)%nat && negb (dd_found d))%bool then
    match pluto_diamond_tile o full pr1 (dd_pos d) with
    | None => None
    | Some (pr2, pos2, found) =>
        let s2 := update_levels is_emptyb (nrows0 pr2 - nsols) nsols (mkState pr2 (st_adj s) (st_num s) (st_max s)) in
        Some (DContinue (mkDD (match mode with
                               | LAZY => mkState (compute_dep_satisfaction_precise is_emptyb (st_prog s2)) (st_adj s2) (st_num s2) (st_max s2)
                               | EAGER => s2
                               end) pos2 found) mode)
    end
  else
    Some (match round is_emptyb isl_emptyb kernel solve o fuse depth mode s0 with
          | Failed s' => DFailed (mkDD s' (dd_pos d) (dd_found d))
          | Continue s' m => DContinue (mkDD s' (dd_pos d) (dd_found d)) m
          end).

(** lib/pluto.c:1697-1823; outer [None]: the fuel is used up; inner [None]: an
    assertion fails. *)
Fixpoint drive_d (o : options) (full : bool) (fuse : fusion) (fuel depth : nat) (mode : search_mode) (d : ddstate) : option (option doutcome) :=
  match fuel with
  | O => None
  | S f =>
      match round_d o full fuse depth mode d with
      | None => Some None
      | Some (DFailed d') => Some (Some (DFailed d'))
      | Some (DContinue d' mode') =>
          if transformations_full_ranked (st_prog (dd_state d')) && deps_satisfaction_check (st_prog (dd_state d'))
          then Some (Some (DContinue d' mode')) else drive_d o full fuse f (S depth) mode' d'
      end
  end.

(** lib/pluto.c:1492-1675 with option diamondtile: the state in which the first
    round begins; the statements have no evicted hyperplane. *)
Definition start_d (fuse : fusion) (pr : prog) : ddstate :=
  let pr0 := clear_schedules pr in
  let s0 := compute_scc (mkState pr0 (graph_of pr0) 0 []) in
  let pr1 := set_hprops (normalize_domains (st_prog s0)) [] in
  let s1 := mkState pr1 (st_adj s0) (st_num s0) (st_max s0) in
  let s2 := match fuse with SmartFuse => fst (cut_scc_dim_based is_emptyb s1) | _ => s1 end in
  mkDD s2 (repeat 0%nat (length (p_stmts pr))) false.

(** The states in which the rounds of the loop lib/pluto.c:1697-1823 begin, with
    their number and the mode. *)
Inductive round_begins (o : options) (full : bool) (fuse : fusion) (pr : prog) : nat -> search_mode -> ddstate -> Prop :=
| first_round : round_begins o full fuse pr 0 EAGER (start_d fuse pr)
| next_round depth mode d d' mode' : round_begins o full fuse pr depth mode d ->
    round_d o full fuse depth mode d = Some (DContinue d' mode') ->
    transformations_full_ranked (st_prog (dd_state d')) && deps_satisfaction_check (st_prog (dd_state d')) = false ->
    round_begins o full fuse pr (S depth) mode' d'.

(** lib/pluto.c:1492-1823 with option diamondtile. *)
Definition auto_search_d (o : options) (full : bool) (fuse : fusion) (fuel : nat) (pr : prog) : option (option doutcome) :=
  drive_d o full fuse fuel 0 EAGER (start_d fuse pr).

(** lib/pluto.c:1492-1850 [pluto_auto_transform] with option diamondtile, when the
    search succeeds: the final program and the positions of its evicted
    hyperplanes. *)
Definition auto_transform_d (o : options) (full : bool) (fuse : fusion) (fuel : nat) (pr : prog) : option (prog * list nat) :=
  match auto_search_d o full fuse fuel pr with
  | Some (Some (DContinue d _)) => Some (denormalize_domains (st_prog (dd_state d)), dd_pos d)
  | _ => None
  end.

(** lib/tile.c:214-322 [pluto_tile] with option diamondtile; [None]: an assertion
    fails. *)
Definition pluto_tile_d (score : prog -> ploop -> Z) (sizes sizes2 : pband -> list Z) (o : tile_options) (pos : list nat) (pr : prog) : option prog :=
  match bands_to_tile pr with
  | None => None
  | Some bands =>
      let q1 := tile_scattering_dims pr (map (with_sizes sizes) bands) in
      let q2 := if o_second_level o then tile_scattering_dims q1 (map (with_sizes sizes2) bands) else q1 in
      let levels := if o_second_level o then 2%nat else 1%nat in
      match diamond_tile_reschedule pos (recompute is_emptyb q2) with
      | None => None
      | Some (q3, r) =>
          let q3' := if r then recompute is_emptyb q3 else q3 in
          let q4 := if o_intratileopt o then
                      let '(q, r) := intra_tile_optimize_bands score levels bands q3' in if r then recompute is_emptyb q else q
                    else q3' in
          Some (if o_parallel o then fst (create_tile_schedule (o_multipar o) (o_innerpar o) q4 bands) else q4)
      end
  end.
End Oracles.
