(** * Model of /repo/lib/polyloop.c (loops and bands of the transformed program)
    and of the parts of /repo/lib/tile.c that use them.

    Simplifications that apply to the whole file: all statements are of type
    ORIG (other types only come from distributed-memory code generation);
    hProps[..].dep_prop is never PARALLEL (no function in /repo sets it), so the
    shortcut on it (polyloop.c:293-295) is left out; loops and statements are not
    shared or freed, statements are given by their numbers; the array satvec is
    present after [compute_dep_satisfaction]. *)
From Coq Require Import ZArith List Bool Arith.
From Verif Require Import SpecLinear MathModel ConstraintsModel SpecProg SpecTile FrameworkModel ProgModel TileModel.
Import ListNotations.
Open Scope Z_scope.

(** lib/program.cpp:2063-2070 [pluto_stmt_is_member_of], 2072-2081
    [pluto_stmt_is_subset_of]. *)
Definition stmt_is_member_of (s : nat) (l : list nat) : bool := existsb (Nat.eqb s) l.
Definition stmt_is_subset_of (l1 l2 : list nat) : bool := forallb (fun s => stmt_is_member_of s l2) l1.

(** trans->val[depth][trans->ncols - 1]. *)
Definition row_const (st : stmt) (depth : nat) : Z := mget (s_trans st) depth (mncols (s_trans st) - 1).

(** lib/polyloop.c:183-208: [s] is added to the first group whose first statement
    has the same constant, else a new group is made. *)
Fixpoint add_to_group (key : nat -> Z) (s : nat) (groups : list (list nat)) : list (list nat) :=
  match groups with
  | [] => [[s]]
  | g :: gs => if key s =? key (hd 0%nat g) then (g ++ [s]) :: gs else g :: add_to_group key s gs
  end.
Definition regroup (key : nat -> Z) (stmts : list nat) : list (list nat) :=
  fold_left (fun gs s => add_to_group key s gs) stmts [].

(** lib/polyloop.c:117-230 [pluto_get_loops_under]; [n] is the number of levels
    from [depth] on (num_hyperplanes - depth). *)
Fixpoint loops_under (pr : prog) (n : nat) (stmts : list nat) (depth : nat) : list ploop :=
  match n with
  | O => []
  | S n' =>
      if existsb (fun s => is_hyperplane_loop (stmt_of pr s) depth) stmts then
        loops_under pr n' stmts (S depth)
        ++ [mkPloop depth (filter (fun s => negb (is_hyperplane_scalar (stmt_of pr s) depth)) stmts)]
      else
        flat_map (fun g => loops_under pr n' g (S depth))
          (regroup (fun s => row_const (stmt_of pr s) depth) stmts)
  end.
Definition get_loops_under (pr : prog) (stmts : list nat) (depth : nat) : list ploop :=
  loops_under pr (length (p_hprops pr) - depth) stmts depth.

(** lib/polyloop.c:232-236 [pluto_get_all_loops]. *)
Definition get_all_loops (pr : prog) : list ploop := get_loops_under pr (seq 0 (length (p_stmts pr))) 0.

(** lib/polyloop.c:88-110 [pluto_get_loops_immediately_inner]. *)
Definition get_loops_immediately_inner (pr : prog) (lp : ploop) : list ploop :=
  filter (fun l => (l_depth l =? S (l_depth lp))%nat) (get_loops_under pr (l_stmts lp) (l_depth lp)).

(** Both ends of a dependence are statements of the loop. *)
Definition dep_in_loop (lp : ploop) (d : dep) : bool :=
  stmt_is_member_of (d_src d) (l_stmts lp) && stmt_is_member_of (d_dst d) (l_stmts lp).

(** lib/polyloop.c:279-314 [pluto_loop_is_parallel]. *)
Definition loop_is_parallel (pr : prog) (lp : ploop) : bool :=
  forallb (fun d => d_rar d || negb (dep_in_loop lp d && nth (l_depth lp) (d_satvec d) false)) (p_deps pr).

(** lib/polyloop.c:321-352 [pluto_loop_is_parallel_for_stmt]. *)
Definition loop_is_parallel_for_stmt (pr : prog) (lp : ploop) (s : nat) : bool :=
  forallb (fun d => d_rar d ||
    negb ((d_src d =? s)%nat && (d_dst d =? s)%nat && nth (l_depth lp) (d_satvec d) false)) (p_deps pr).

(** lib/polyloop.c:242-277 [pluto_loop_has_satisfied_dep_with_component]. *)
Definition loop_has_satisfied_dep_with_component (pr : prog) (lp : ploop) : bool :=
  existsb (fun d => negb (d_rar d) && dep_in_loop lp d && (d_level d <? Z.of_nat (l_depth lp))
    && negb (is_zero_dir (nth (l_depth lp) (d_dirs d) DEP_ZERO))) (p_deps pr).

(** lib/polyloop.c:357-394 [pluto_satisfies_inter_stmt_dep]. *)
Definition satisfies_inter_stmt_dep (pr : prog) (lp : ploop) (depth : nat) : bool :=
  existsb (fun d => negb (d_rar d) && negb (d_src d =? d_dst d)%nat && dep_in_loop lp d
    && existsb (fun k => nth k (d_satvec d) false) (seq depth (length (p_hprops pr) - depth))) (p_deps pr).

(** lib/polyloop.c:396-418 [is_loop_dominated]. *)
Definition is_loop_dominated (pr : prog) (l1 l2 : ploop) : bool :=
  (l_depth l2 <? l_depth l1)%nat &&
  let s1 := stmt_of pr (hd 0%nat (l_stmts l1)) in
  let s2 := stmt_of pr (hd 0%nat (l_stmts l2)) in
  forallb (fun i => negb (is_hyperplane_scalar s1 i && is_hyperplane_scalar s2 i) || (row_const s1 i =? row_const s2 i))
    (seq 0 (S (l_depth l2))).

(** lib/polyloop.c:609-630 [pluto_get_parallel_loops]. *)
Definition get_parallel_loops (pr : prog) : list ploop := filter (loop_is_parallel pr) (get_all_loops pr).

(** Loops lib/polyloop.c:645-654 and 674-682: the loops that no loop of the list
    dominates. *)
Definition not_dominated (pr : prog) (loops : list ploop) : list ploop :=
  filter (fun l => negb (existsb (is_loop_dominated pr l) loops)) loops.
(** lib/polyloop.c:633-656 [pluto_get_dom_parallel_loops], 663-686
    [pluto_get_outermost_loops]. *)
Definition get_dom_parallel_loops (pr : prog) : list ploop := not_dominated pr (get_parallel_loops pr).
Definition get_outermost_loops (pr : prog) : list ploop := not_dominated pr (get_all_loops pr).

(** ** Bands *)

(** [Band] in lib/pluto.h (its children are not used): a loop and a width. *)
Record pband := mkPband { pb_loop : ploop; pb_width : nat }.

(** lib/polyloop.c:730-743 [is_band_dominated]. *)
Definition is_band_dominated (b1 b2 : pband) : bool :=
  stmt_is_subset_of (l_stmts (pb_loop b1)) (l_stmts (pb_loop b2)) &&
  ((l_depth (pb_loop b2) <? l_depth (pb_loop b1))%nat ||
   (l_depth (pb_loop b1) =? l_depth (pb_loop b2))%nat && (pb_width b1 <? pb_width b2)%nat).

(** lib/polyloop.c:883-904 [pluto_get_dominator_bands]. *)
Definition get_dominator_bands (bands : list pband) : list pband :=
  filter (fun b => negb (existsb (is_band_dominated b) bands)) bands.

(** lib/polyloop.c:761-771 [pluto_is_depth_scalar]; the assertion is part of the
    callers. *)
Definition is_depth_scalar (pr : prog) (lp : ploop) (depth : nat) : bool :=
  forallb (fun s => is_hyperplane_scalar (stmt_of pr s) depth) (l_stmts lp).

(** lib/polyloop.c:787-812: does the dependence stop the band at [depth]? *)
Definition stops_band (pr : prog) (lp : ploop) (depth : nat) (d : dep) : bool :=
  negb (d_rar d) && negb (d_level d <? Z.of_nat (l_depth lp)) && d_sat d
  && negb (is_depth_scalar pr lp (Z.to_nat (d_level d)))
  && dep_in_loop lp d
  && match nth depth (d_dirs d) DEP_ZERO with DEP_STAR | DEP_MINUS => true | _ => false end.

(** The do-loop lib/polyloop.c:786-816: first depth that is not in the band; [n]
    levels are left. *)
Fixpoint band_end (pr : prog) (lp : ploop) (n depth : nat) : nat :=
  match n with
  | O => depth
  | S n' => if existsb (stops_band pr lp depth) (p_deps pr) then depth else band_end pr lp n' (S depth)
  end.

(** lib/polyloop.c:818-820: scalar levels are peeled off from the end; [None]:
    the assertion depth - 1 >= loop->depth of [pluto_is_depth_scalar] fails. *)
Fixpoint peel (pr : prog) (lp : ploop) (depth : nat) : option nat :=
  match depth with
  | O => None
  | S k => if (k <? l_depth lp)%nat then None
           else if is_depth_scalar pr lp k then peel pr lp k else Some (S k)
  end.

(** lib/polyloop.c:775-826 [pluto_get_permutable_band]. *)
Inductive band_result := BandAbort | BandTrivial | BandFound (b : pband).
Definition get_permutable_band (pr : prog) (lp : ploop) : band_result :=
  match peel pr lp (band_end pr lp (length (p_hprops pr) - l_depth lp) (l_depth lp)) with
  | None => BandAbort
  | Some e => let w := (e - l_depth lp)%nat in
              if (w =? 1)%nat then BandTrivial else BandFound (mkPband lp w)
  end.

(** The loop lib/polyloop.c:954-960 over all loops; [None]: an assertion fails. *)
Fixpoint collect_bands (pr : prog) (keep : pband -> bool) (loops : list ploop) : option (list pband) :=
  match loops with
  | [] => Some []
  | lp :: ls =>
      match get_permutable_band pr lp, collect_bands pr keep ls with
      | BandAbort, _ | _, None => None
      | BandTrivial, Some l => Some l
      | BandFound b, Some l => Some (if keep b then b :: l else l)
      end
  end.

(** lib/polyloop.c:942-969 [pluto_get_outermost_permutable_bands]. *)
Definition get_outermost_permutable_bands (pr : prog) : option (list pband) :=
  option_map get_dominator_bands (collect_bands pr (fun _ => true) (get_all_loops pr)).

(** lib/polyloop.c:971-981 [pluto_loop_is_innermost]. *)
Definition loop_is_innermost (pr : prog) (lp : ploop) : bool :=
  match get_loops_under pr (l_stmts lp) (S (l_depth lp)) with [] => true | _ => false end.

(** lib/polyloop.c:983-998 [pluto_is_band_innermost]. *)
Definition is_band_innermost (pr : prog) (b : pband) (num_tiling_levels num_introduced : nat) : bool :=
  let firstd := (l_depth (pb_loop b) + (num_tiling_levels + 1) * pb_width b + num_introduced)%nat in
  forallb (fun s => forallb (fun j => negb (is_hyperplane_loop (stmt_of pr s) j))
                      (seq firstd (mnrows (s_trans (stmt_of pr s)) - firstd)))
    (l_stmts (pb_loop b)).

(** lib/polyloop.c:1000-1016 [pluto_get_innermost_loops]. *)
Definition get_innermost_loops (pr : prog) : list ploop := filter (loop_is_innermost pr) (get_all_loops pr).

(** lib/polyloop.c:1019-1047 [pluto_get_innermost_permutable_bands]. *)
Definition get_innermost_permutable_bands (pr : prog) (num_tiled_levels : nat) : option (list pband) :=
  option_map get_dominator_bands
    (collect_bands pr (fun b => is_band_innermost pr b num_tiled_levels 0) (get_all_loops pr)).

(** ** Tiling the bands *)

(** lib/tile.c:230-246: bands of one loop for the innermost parallel loops that
    no band dominates (bands added by this loop count as well). *)
Definition add_parallel_bands (pr : prog) (bands : list pband) : list pband :=
  fold_left (fun bs lp =>
    if loop_is_innermost pr lp && negb (existsb (fun b => is_loop_dominated pr lp (pb_loop b)) bs)
    then bs ++ [mkPband lp 1] else bs) (get_parallel_loops pr) bands.

(** The bands that [pluto_tile] tiles, lib/tile.c:217-246. *)
Definition bands_to_tile (pr : prog) : option (list pband) :=
  option_map (add_parallel_bands pr) (get_outermost_permutable_bands pr).

(** A band with its tile sizes. *)
Definition with_sizes (sizes : pband -> list Z) (b : pband) : band :=
  mkBand (l_stmts (pb_loop b)) (l_depth (pb_loop b)) (sizes b).

(** lib/tile.c:391-409: loop_depths[0 .. nloops-1]. *)
Definition loop_depths (pr : prog) (b : pband) : list nat :=
  l_depth (pb_loop b) ::
  filter (fun depth => forallb (fun s => negb (is_hyperplane_scalar (stmt_of pr s) depth)) (l_stmts (pb_loop b)))
    (seq (S (l_depth (pb_loop b))) (pb_width b - 1)).

(** lib/tile.c:434-442: rows loop_depths[1 .. nip_dims] are added to row [first]. *)
Definition add_rows (first : nat) (ks : list nat) (st : stmt) : stmt :=
  fold_left (fun st k =>
    let r := nth k (mrows (s_trans st)) [] in
    set_trans st (mkMat (mncols (s_trans st)) (map_nth first (fun f => zip_with Z.add f r) (mrows (s_trans st))))) ks st.

(** lib/tile.c:453-468: the new satvec. *)
Definition shift_satvec (first : nat) (ks : list nat) (v : list bool) : list bool :=
  fold_left (fun v k => set_nth k false (set_nth first (nth first v false || nth k v false) v)) ks v.
Definition set_sv (d : dep) (v : list bool) : dep :=
  mkDep (d_src d) (d_dst d) (d_rar d) (d_poly d) (d_bpoly d) (d_sat d) (d_level d) v (d_dirs d).

(** lib/tile.c:384-470 [pluto_create_tile_schedule_band]; the options are
    [multipar] and [innerpar]. *)
Definition create_tile_schedule_band (multipar innerpar : bool) (pr : prog) (b : pband) : prog * bool :=
  if loop_is_parallel pr (pb_loop b) then (pr, false)
  else
    let depths := loop_depths pr b in
    if (length depths <=? 1)%nat then (pr, false)
    else
      let nip := if multipar then (length depths - 1)%nat else 1%nat in
      let ks := firstn nip (tl depths) in
      let first := l_depth (pb_loop b) in
      let pr1 := if innerpar then pr
                 else set_stmts pr (fold_left (fun ss s => map_nth s (add_rows first ks) ss) (l_stmts (pb_loop b)) (p_stmts pr)) in
      (set_deps pr1 (map (fun d => if negb (d_rar d) && dep_in_loop (pb_loop b) d
                                   then set_sv d (shift_satvec first ks (d_satvec d)) else d) (p_deps pr1)), true).

(** lib/tile.c:473-483 [pluto_create_tile_schedule]. *)
Definition create_tile_schedule (multipar innerpar : bool) (pr : prog) (bands : list pband) : prog * bool :=
  fold_left (fun a b => let '(q, r) := create_tile_schedule_band multipar innerpar (fst a) b in (q, snd a || r)) bands (pr, false).
