(** * Model of the reordering of loops inside tiles, /repo/lib/post_transform.c,
    and of [pluto_tile], /repo/lib/tile.c.

    Simplifications that apply to the whole file: the score of a loop is a
    parameter (it is defined in VectorModel.v), computed in [Z] instead of int;
    bands and loops are not shared or freed; debugging output is left out. *)
From Coq Require Import ZArith List Bool Arith.
From Verif Require Import SpecLinear MathModel ConstraintsModel SpecProg SpecTile FrameworkModel ProgModel TileModel LoopModel.
Import ListNotations.
Open Scope Z_scope.

(** lib/post_transform.c:232-262 [get_best_vectorizable_loop]: the first loop with
    the largest score; [None] (NULL) if there is no loop with a score above
    INT_MIN. *)
Definition best_loop (score : ploop -> Z) (loops : list ploop) : option ploop :=
  fst (fold_left (fun (a : option ploop * Z) lp => if snd a <? score lp then (Some lp, score lp) else a) loops (None, - 2 ^ 31)).

(** lib/post_transform.c:291-316 [are_stmts_fused_in_band] for the per-statement
    bands of [s1] and [s2]; the levels are [first] .. [first] + [n] - 1. *)
Definition fused_in_band (pr : prog) (first n : nat) (s1 s2 : nat) : bool :=
  forallb (fun i => negb (is_hyperplane_scalar (stmt_of pr s1) i) || (row_const (stmt_of pr s1) i =? row_const (stmt_of pr s2) i))
    (seq first n).

(** lib/post_transform.c:333-369: the array band_map and total_bands; [fz] tells
    whether the statements at two positions are fused. *)
Definition map_inner (fz : nat -> nat -> bool) (n i : nat) (bm : list nat) : list nat :=
  fold_left (fun bm j =>
    if (nth i bm 0 =? nth j bm 0)%nat then bm
    else if fz i j then set_nth j (nth i bm 0%nat) bm else bm) (seq (S i) (n - S i)) bm.
Definition band_map (fz : nat -> nat -> bool) (n : nat) : list nat * nat :=
  fold_left (fun (a : list nat * nat) i =>
    if (nth i (fst a) 0 <? i)%nat then a
    else (map_inner fz n i (set_nth i (snd a) (fst a)), S (snd a))) (seq 0 n) (seq 0 n, 0%nat).

(** lib/post_transform.c:268-286 [get_per_stmt_band] followed by 321-401
    [fuse_per_stmt_bands]: the statements of the resulting bands; their loops and
    widths are those of the given band. *)
Definition fuse_per_stmt_bands (pr : prog) (first n : nat) (stmts : list nat) : list (list nat) :=
  let fz := fun i j => fused_in_band pr first n (nth i stmts 0%nat) (nth j stmts 0%nat) in
  let '(bm, total) := band_map fz (length stmts) in
  if (total =? length stmts)%nat then map (fun s => [s]) stmts
  else fold_left (fun gs i =>
    if (length gs <=? nth i bm 0)%nat then gs ++ [[nth i stmts 0%nat]]
    else map_nth (nth i bm 0%nat) (fun g => g ++ [nth i stmts 0%nat]) gs) (seq 0 (length stmts)) [].

(** lib/post_transform.c:406-441 [make_parallel_loop_innermost]. *)
Definition make_parallel_loop_innermost (score : prog -> ploop -> Z) (pr : prog) (b : pband) (levels : nat) : prog * bool :=
  let first := l_depth (pb_loop b) in
  let loops := get_loops_under pr (l_stmts (pb_loop b)) (first + levels * pb_width b) in
  let innermost := fold_left (fun m lp => if (m <? l_depth lp)%nat then l_depth lp else m) loops first in
  match best_loop (score pr) (filter (loop_is_parallel pr) loops) with
  | Some lp => if loop_is_innermost pr lp then (pr, false) else (make_innermost_loop pr lp (innermost + 1) true, true)
  | None => (pr, false)
  end.

(** The body of the loop lib/post_transform.c:483-517: one group of statements. *)
Definition optimize_group (score : prog -> ploop -> Z) (b : pband) (levels : nat) (a : prog * bool) (g : list nat) : prog * bool :=
  let pr := fst a in
  let first := l_depth (pb_loop b) in
  match best_loop (score pr) (get_loops_under pr g (first + levels * pb_width b)) with
  | Some lp => if loop_is_innermost pr lp then a
               else (make_innermost_loop pr lp (first + (levels + 1) * pb_width b) (negb (levels =? 0)%nat), true)
  | None => a
  end.

(** lib/post_transform.c:444-520 [pluto_intra_tile_optimize_band]. *)
Definition intra_tile_optimize_band (score : prog -> ploop -> Z) (pr : prog) (b : pband) (levels : nat) : prog * bool :=
  if is_band_innermost pr b levels 0 then
    fold_left (optimize_group score b levels)
      (fuse_per_stmt_bands pr (l_depth (pb_loop b)) (levels * pb_width b) (l_stmts (pb_loop b))) (pr, false)
  else if (levels =? 0)%nat then (pr, false)
  else make_parallel_loop_innermost score pr b levels.

(** The loops over all bands, lib/tile.c:302-306 and lib/post_transform.c:529-532. *)
Definition intra_tile_optimize_bands (score : prog -> ploop -> Z) (levels : nat) (bands : list pband) (pr : prog) : prog * bool :=
  fold_left (fun (a : prog * bool) b => let '(q, r) := intra_tile_optimize_band score (fst a) b levels in (q, snd a || r)) bands (pr, false).

(** pluto_compute_dep_directions followed by pluto_compute_dep_satisfaction, e.g.
    lib/tile.c:276-277. *)
Definition recompute (f : cst -> bool) (pr : prog) : prog := compute_dep_satisfaction f (compute_dep_directions f pr).

(** lib/post_transform.c:524-546 [pluto_intra_tile_optimize] with is_tiled = 0
    (its only use, tool/main.cpp:679, lib/plutolib.c:67); [None]: an assertion
    fails while the bands are searched. *)
Definition pluto_intra_tile_optimize (f : cst -> bool) (score : prog -> ploop -> Z) (pr : prog) : option prog :=
  match get_outermost_permutable_bands pr with
  | None => None
  | Some bands => let '(q, r) := intra_tile_optimize_bands score 0 bands pr in Some (if r then recompute f q else q)
  end.

(** The options used by [pluto_tile]; --diamond-tile is not set. *)
Record tile_options := mkTileOptions {
  o_second_level : bool; o_intratileopt : bool; o_parallel : bool; o_multipar : bool; o_innerpar : bool }.

(** lib/tile.c:214-322 [pluto_tile] without diamond tiling; [sizes] and [sizes2]
    are the tile sizes of the bands for the first and the second level. *)
Definition pluto_tile (f : cst -> bool) (score : prog -> ploop -> Z) (sizes sizes2 : pband -> list Z) (o : tile_options) (pr : prog) : option prog :=
  match bands_to_tile pr with
  | None => None
  | Some bands =>
      let q1 := tile_scattering_dims pr (map (with_sizes sizes) bands) in
      let q2 := if o_second_level o then tile_scattering_dims q1 (map (with_sizes sizes2) bands) else q1 in
      let levels := if o_second_level o then 2%nat else 1%nat in
      let q3 := recompute f q2 in
      let q4 := if o_intratileopt o then
                  let '(q, r) := intra_tile_optimize_bands score levels bands q3 in if r then recompute f q else q
                else q3 in
      Some (if o_parallel o then fst (create_tile_schedule (o_multipar o) (o_innerpar o) q4 bands) else q4)
  end.

(** tool/main.cpp:664-702 and lib/plutolib.c:53-91: what is done after the
    transformation has been found; [tile] is the option --tile (--identity is not
    set).  Line 688 computes satisfaction again. *)
Definition post_transform (f : cst -> bool) (score : prog -> ploop -> Z) (sizes sizes2 : pband -> list Z) (tile : bool) (o : tile_options) (pr : prog) : option prog :=
  let q0 := recompute f pr in
  if tile then pluto_tile f score sizes sizes2 o q0
  else
    match (if o_intratileopt o then pluto_intra_tile_optimize f score q0 else Some q0) with
    | None => None
    | Some q =>
        if o_parallel o then
          let q' := compute_dep_satisfaction f q in
          match get_outermost_permutable_bands q' with
          | None => None
          | Some bands => Some (fst (create_tile_schedule (o_multipar o) (o_innerpar o) q' bands))
          end
        else Some q
    end.
