(** * Model of the framework "decoupled fusion and permutation" (option dfp).

    /repo/lib/framework-dfp.c and its use in /repo/lib/pluto.c, for one vertex per
    dimension of a statement (without scc_cluster and typed fusion) and without
    diamond tiling.  Parameters: the emptiness test and the solver (see
    DriverModel.v); [build] is the fusion conflict graph computed with linear
    programs (framework-dfp.c:1080-1223 [build_fusion_conflict_graph]), [refresh] its
    update after a cut (903-964 [update_fcg_between_sccs]), [None] if it fails; [skip] tells for a
    statement and a dimension that lpcolour is set and the coefficient in the
    solution of the linear program is 0 (1310-1318).  All of them may depend on the
    whole state.  Failed assertions and accesses outside of the colour array are
    [None]. *)
From Coq Require Import ZArith List Bool Arith.
From Verif Require Import SpecLinear MathModel ConstraintsModel SpecProg SpecDriver SpecGraph GraphModel FrameworkModel ProgModel DriverModel.
Import ListNotations.
Open Scope Z_scope.

(** ** The colouring *)

Definition fcg := list (list Z).

(** lib/ddg.c:216-221 [is_adjacent]. *)
Definition is_adjacent (g : fcg) (i j : nat) : bool := negb (adj g i j =? 0) || negb (adj g j i =? 0).

(** The first vertex of statement [s], lib/pluto.c:1634-1639 (field fcg_stmt_offset). *)
Definition vertex_offset (pr : prog) (s : nat) : nat :=
  fold_left Nat.add (map s_dim_orig (firstn s (p_stmts pr))) 0%nat.
(** Number of vertices. *)
Definition num_vertices (pr : prog) : nat := vertex_offset pr (length (p_stmts pr)).

(** lib/framework-dfp.c:1260-1278 [is_valid_colour] with is_parallel = false. *)
Definition is_valid_colour (v : nat) (c : Z) (g : fcg) (col : list Z) : bool :=
  forallb (fun i => negb (((adj g i v =? 1) || (adj g v i =? 1)) && (nth i col 0 =? c))) (seq 0 (length col)).

(** lib/framework-dfp.c:1282-1288 [is_discarded], lib/framework-dfp.c:1295-1320 [get_next_min_vertex]. *)
Definition get_next_min_vertex (skip : nat -> bool) (off dim : nat) (discarded : list nat) : nat :=
  match find (fun i => negb (existsb (Nat.eqb (off + i)) discarded) && negb (skip i)) (seq 0 dim) with
  | Some i => i
  | None => 0%nat
  end.

(** The loop lib/framework-dfp.c:1519-1580 of [colour_scc] for one statement with first
    vertex [off]; [k] is nvar - num_discarded and [rec] the recursive call for the
    following statements.  The result tells success and the new colours. *)
Fixpoint try_dims (rec : list Z -> nat -> option (bool * list Z)) (skip : nat -> bool) (g : fcg) (c : Z)
    (off dim : nat) (pv : option nat) (k : nat) (disc : list nat) (col : list Z) : option (bool * list Z) :=
  match k with
  | O => Some (false, col)
  | S k' =>
      let v := (off + get_next_min_vertex skip off dim disc)%nat in
      let next := try_dims rec skip g c off dim pv k' (v :: disc) in
      if (length col <=? v)%nat then None
      else if (0 <? nth v col 0) && negb (nth v col 0 =? c) then next col
      else if negb (adj g v v =? 0) then next col
      else if match pv with Some w => is_adjacent g v w | None => false end then next col
      else if is_valid_colour v c g col then
        match rec (set_nth v c col) v with
        | None => None
        | Some (true, col') => Some (true, col')
        | Some (false, col') => next (set_nth v 0 col')
        end
      else next (set_nth v 0 col)
  end.

(** lib/framework-dfp.c:1448-1586 [colour_scc] for the statements [stmts] of an SCC that
    has dimensions left (lines 1512-1585; the test in line 1465 does not change
    during the recursion, see [colour_scc]). *)
Fixpoint colour_stmts (skip : nat -> nat -> bool) (pr : prog) (g : fcg) (c : Z) (stmts : list nat) (pv : option nat) (col : list Z)
    : option (bool * list Z) :=
  match stmts with
  | [] => Some (true, col)
  | u :: l =>
      try_dims (fun col' v => colour_stmts skip pr g c l (Some v) col') (skip u) g c
        (vertex_offset pr u) (s_dim_orig (stmt_of pr u)) pv (p_nvar pr) [] col
  end.

Section Oracles.
Variable is_emptyb : cst -> bool.
Variable solve : prog -> cst -> option point.
Variable build : dstate -> list Z -> nat -> fcg.
Variable refresh : dstate -> fcg -> nat -> nat -> option fcg.
Variable skip : dstate -> nat -> nat -> bool.
Variable o : options.
Variable fuse : fusion.
Variable delayed_cut : bool.

(** The loop lib/framework-dfp.c:1477-1508 over the SCCs [js] for an SCC all of whose
    dimensions are coloured. *)
Fixpoint cut_coloured (scc : nat) (js : list nat) (s : dstate) : dstate :=
  match js with
  | [] => s
  | j :: l =>
      if (j =? scc)%nat then cut_coloured scc l s
      else if (j <? scc)%nat && sccs_direct_connected s (Z.of_nat j) (Z.of_nat scc) then
        match fuse with
        | NoFuse => cut_coloured scc l (fst (cut_all_sccs is_emptyb s))
        | _ =>
            let s1 := fst (cut_between_sccs is_emptyb s (Z.of_nat j) (Z.of_nat scc)) in
            if existsb (fun k => sccs_direct_connected s1 (Z.of_nat scc) (Z.of_nat k)) (seq (S scc) (st_num s1 - S scc))
            then fst (cut_all_sccs is_emptyb s1) else s1
        end
      else if sccs_direct_connected s (Z.of_nat scc) (Z.of_nat j) then
        match fuse with
        | NoFuse => fst (cut_all_sccs is_emptyb s)
        | _ => fst (cut_between_sccs is_emptyb s (Z.of_nat scc) (Z.of_nat j))
        end
      else cut_coloured scc l s
  end.

(** The state of the colouring: program and DDG, colours, conflict graph and its
    flag to_be_rebuilt. *)
Record cstate := mkC { c_state : dstate; c_col : list Z; c_fcg : fcg; c_rebuild : bool }.

(** The statements of SCC [i], lib/ddg.c:223-240 [compute_scc_vertices]. *)
Definition scc_stmts (s : dstate) (i : nat) : list nat :=
  filter (fun u => s_scc (stmt_of (st_prog s) u) =? Z.of_nat i) (seq 0 (length (p_stmts (st_prog s)))).

(** lib/framework-dfp.c:1448-1586 [colour_scc]; prog->coloured_dims is [c] - 1. *)
Definition colour_scc (c i : nat) (cs : cstate) : option (bool * cstate) :=
  let s := c_state cs in
  let max_dim := nth i (st_max s) 0 in
  if max_dim <? Z.of_nat (c - 1) then Some (true, cs)
  else if max_dim =? Z.of_nat (c - 1) then
    Some (true, mkC (match scc_stmts s i with
                     | [_] => cut_coloured i (seq 0 (st_num s)) s
                     | _ => s
                     end) (c_col cs) (c_fcg cs) (c_rebuild cs))
  else
    match colour_stmts (skip s) (st_prog s) (c_fcg cs) (Z.of_nat c) (scc_stmts s i) None (c_col cs) with
    | None => None
    | Some (b, col) => Some (b, mkC s col (c_fcg cs) (c_rebuild cs))
    end.

(** lib/framework-dfp.c:1590-1619 [scc_has_must_distribute_edges]. *)
Definition must_distribute (s : dstate) (g : fcg) (i : nat) : bool :=
  let first k := vertex_offset (st_prog s) (hd 0%nat (scc_stmts s k)) in
  negb (nth i (st_max s) 0 =? 0)
  && existsb (fun k => negb (nth k (st_max s) 0 =? 0)
                       && negb (sccs_direct_connected s (Z.of_nat k) (Z.of_nat i))
                       && is_adjacent g (first k) (first i)) (seq 0 i).

(** lib/framework-dfp.c:2470-2490 [pluto_add_scalar_hyperplanes_between_sccs], followed
    by the update in 2525. *)
Definition distribute (i : nat) (s : dstate) : dstate :=
  let pr1 := add_scalar_level (st_prog s) (fun st => if s_scc st <? Z.of_nat i then 0 else 1) in
  mkState (fst (dep_satisfaction_update is_emptyb pr1 (nrows0 pr1 - 1))) (st_adj s) (st_num s) (st_max s).

(** lib/framework-dfp.c:2631-2647 and 2666-2676: the cut between SCC [i] and an earlier
    one. *)
Definition cut_before (i : nat) (s : dstate) : dstate :=
  match fuse with
  | NoFuse => fst (cut_all_sccs is_emptyb s)
  | _ =>
      match find (fun j => sccs_direct_connected s (Z.of_nat j) (Z.of_nat i)) (rev (seq 0 i)) with
      | Some j => fst (cut_between_sccs is_emptyb s (Z.of_nat j) (Z.of_nat i))
      | None => s
      end
  end.
(** The update fails if the graph has to be rebuilt: assertion in lib/framework-dfp.c:914. *)
Definition update_graph (rebuild : bool) (s : dstate) (g : fcg) (scc1 scc2 : nat) : option fcg :=
  if rebuild then None else refresh s g scc1 scc2.
Definition refreshed (rebuild : bool) (i : nat) (s : dstate) (g : fcg) : option fcg :=
  match fuse with NoFuse => update_graph rebuild s g 0 0 | _ => update_graph rebuild s g (i - 1) i end.

(** lib/framework-dfp.c:2499-2733: the body of the loop of [colour_fcg_scc_based] for SCC
    [i]. *)
Definition cut_and_retry (c i : nat) (cs : cstate) : option (bool * cstate) :=
  let s := cut_before i (c_state cs) in
  match refreshed (c_rebuild cs) i s (c_fcg cs) with
  | Some g => colour_scc c i (mkC s (c_col cs) g (c_rebuild cs))
  | None => None
  end.
Definition rebuild (c : nat) (cs : cstate) : cstate :=
  mkC (c_state cs) (c_col cs) (build (c_state cs) (c_col cs) c) false.
(** lib/framework-dfp.c:2519-2526: the graph is updated before the dependences. *)
Definition distributed (i : nat) (cs : cstate) : option cstate :=
  if (1 <=? i)%nat && must_distribute (c_state cs) (c_fcg cs) i then
    let s := c_state cs in
    let pr1 := add_scalar_level (st_prog s) (fun st => if s_scc st <? Z.of_nat i then 0 else 1) in
    match update_graph (c_rebuild cs) (mkState pr1 (st_adj s) (st_num s) (st_max s)) (c_fcg cs) (i - 1) i with
    | Some g => Some (mkC (distribute i s) (c_col cs) g (c_rebuild cs))
    | None => None
    end
  else Some cs.
Definition colour_one (c i : nat) (cs0 : cstate) : option cstate :=
  match distributed i cs0 with None => None | Some cs =>
  match colour_scc c i cs with
  | None => None
  | Some (true, cs1) => Some cs1
  | Some (false, cs1) =>
      let r :=
        if c_rebuild cs1 || (i =? 0)%nat then
          let s2 := match fuse with NoFuse => fst (cut_all_sccs is_emptyb (c_state cs1)) | _ => c_state cs1 end in
          let cs2 := rebuild c (mkC s2 (c_col cs1) (c_fcg cs1) (c_rebuild cs1)) in
          match colour_scc c i cs2 with
          | Some (false, cs3) => if (i =? 0)%nat then Some (false, cs3) else cut_and_retry c i cs3
          | r => r
          end
        else cut_and_retry c i cs1 in
      match r with
      | None => None
      | Some (true, cs4) => Some cs4
      | Some (false, cs4) =>
          let s := c_state cs4 in
          let s5 := mkState (compute_dep_directions is_emptyb (compute_dep_satisfaction_precise is_emptyb (st_prog s)))
                      (st_adj s) (st_num s) (st_max s) in
          match colour_scc c i (rebuild c (mkC s5 (c_col cs4) (c_fcg cs4) (c_rebuild cs4))) with
          | Some (true, cs6) => Some cs6
          | _ => None
          end
      end
  end end.

(** lib/framework-dfp.c:2493-2735 [colour_fcg_scc_based]. *)
Fixpoint colour_sccs (c : nat) (is : list nat) (cs : cstate) : option cstate :=
  match is with
  | [] => Some cs
  | i :: l => match colour_one c i cs with Some cs' => colour_sccs c l cs' | None => None end
  end.
Definition colour_fcg (c : nat) (cs : cstate) : option cstate := colour_sccs c (seq 0 (st_num (c_state cs))) cs.

(** ** Scaling and shifting *)

(** lib/framework-dfp.c:2916-2945 [add_coeff_constraints_from_fcg_colouring]. *)
Definition colour_constraints (pr : prog) (col : list Z) (c : nat) (cst0 : cst) : cst :=
  fold_left (fun acc j =>
      let st := stmt_of pr j in
      let var k := (p_npar pr + 1 + j * (p_nvar pr + 1) + k)%nat in
      if (s_dim_orig st <? c)%nat then
        fold_left (fun acc k => add_lb acc (var k) 0) (seq 0 (s_dim_orig st)) acc
      else
        fold_left (fun acc k =>
            if nth k (s_orig st) false && (nth (vertex_offset pr j + k) col 0 =? Z.of_nat c)
            then add_lb acc (var k) 1
            else set_last (var k) 1 (add_equality acc)) (seq 0 (p_nvar pr)) acc)
    (seq 0 (length (p_stmts pr))) cst0.

(** lib/framework-dfp.c:2952-3031 [scale_shift_permutations] for colour [c].  All SCCs
    have been coloured, so the sum of their sizes (2975) is the number of
    statements. *)
Definition scale_shift (c : nat) (cs : cstate) : option cstate :=
  let s := c_state cs in
  let pr := st_prog s in
  let coeff := colour_constraints pr (c_col cs) c (get_coeff_bounding_constraints o pr) in
  let with_row s1 sol := mkC (mkState (add_hyperplane_from_ilp_solution (st_prog s1) sol) (st_adj s1) (st_num s1) (st_max s1))
                           (c_col cs) (c_fcg cs) (c_rebuild cs) in
  match prog_constraints_lexmin solve pr (cst_add coeff (get_permutability_constraints o (fun _ => false) pr)) with
  | Some sol => Some (with_row s sol)
  | None =>
      if delayed_cut then
        let s1 := cut_smart is_emptyb s in
        match prog_constraints_lexmin solve (st_prog s1)
                (cst_add coeff (get_permutability_constraints o (fun _ => false) (st_prog s1))) with
        | Some sol => Some (with_row s1 sol)
        | None => None
        end
      else None
  end.

(** lib/framework-dfp.c:2765-2842, for one colour. *)
Definition dfp_level (c : nat) (cs : cstate) : option cstate :=
  match colour_fcg c cs with
  | None => None
  | Some cs1 =>
      match scale_shift c cs1 with
      | None => None
      | Some cs2 =>
          let s := c_state cs2 in
          let pr := fst (dep_satisfaction_update is_emptyb (st_prog s) (nrows0 (st_prog s) - 1)) in
          Some (mkC (compute_scc (ddg_update (mkState pr (st_adj s) (st_num s) (st_max s)))) (c_col cs2) (c_fcg cs2) true)
      end
  end.
(** lib/framework-dfp.c:2752-2856 [find_permutable_dimensions_scc_based]. *)
Fixpoint dfp_levels (cs : list nat) (st : cstate) : option cstate :=
  match cs with
  | [] => Some st
  | c :: l => match dfp_level c st with Some st' => dfp_levels l st' | None => None end
  end.

(** lib/pluto.c:1606-1668: the search without skewing, from the state [s]. *)
Definition dfp_search (s : dstate) : option cstate :=
  let s1 := match fuse with NoFuse => fst (cut_all_sccs is_emptyb (compute_scc s)) | _ => s end in
  let col := repeat 0 (num_vertices (st_prog s1)) in
  dfp_levels (seq 1 (p_nvar (st_prog s1))) (mkC s1 col (build s1 col 1%nat) false).

(** ** Skewing *)

Definition set_cc (st : stmt) (cc : Z) : stmt :=
  mkStmt (s_dim st) (s_dim_orig st) (s_orig st) (s_domain st) (s_trans st) (s_hyp st) (s_scc st) cc
    (s_reads st) (s_writes st) (s_evict st) (s_num_tiled st) (s_ftd st) (s_ltd st).

Definition is_loop_type (h : hyptype) : bool := match h with H_LOOP => true | _ => false end.
(** Levels of type H_LOOP before [level]. *)
Definition loops_before (pr : prog) (level : nat) : nat :=
  length (filter is_loop_type (firstn level (p_hprops pr))).

(** lib/framework-dfp.c:3038-3062 [get_negative_components]: the number of the first loop
    level from [level] on with a negative component. *)
Definition negative_component (pr : prog) (d : dep) (level : nat) : option nat :=
  option_map (loops_before pr)
    (find (fun i => (level <=? i)%nat && negb (is_scalar_type (nth i (p_hprops pr) H_UNKNOWN))
                    && match nth i (d_dirs d) DEP_ZERO with DEP_MINUS | DEP_STAR => true | _ => false end)
       (seq 0 (length (p_hprops pr)))).

(** lib/framework-dfp.c:3126-3152 [dims_to_be_skewed]: the loops to be skewed, and the
    array tile_preventing_deps with new entries. *)
Definition skew_candidates (pr : prog) (scc : Z) (level : nat) (d : dep) : option nat :=
  if negb (o_rar o) && d_rar d then None
  else if negb (s_scc (stmt_of pr (d_src d)) =? scc) || negb (s_scc (stmt_of pr (d_dst d)) =? scc) then None
  else if d_sat d then negative_component pr d level else None.
Definition dims_to_be_skewed (pr : prog) (scc : Z) (tpd : list bool) (level : nat) : list bool * list bool :=
  let l := map (skew_candidates pr scc level) (p_deps pr) in
  (map (fun k => existsb (fun x => match x with Some m => (m =? k)%nat | None => false end) l) (seq 0 (p_nvar pr)),
   map (fun p => fst p || match snd p with Some _ => true | None => false end) (combine tpd l)).

(** lib/framework-dfp.c:3155-3177 [get_dep_satisfaction_dims]. *)
Definition dep_satisfaction_dims (pr : prog) (tpd : list bool) : list bool :=
  map (fun k => existsb (fun p => fst p && (0 <=? d_level (snd p)) && (d_level (snd p) <? Z.of_nat (length (p_hprops pr)))
                                  && (loops_before pr (Z.to_nat (d_level (snd p))) =? k)%nat) (combine tpd (p_deps pr)))
    (seq 0 (p_nvar pr)).

(** lib/framework-dfp.c:3181-3227 [get_skewing_constraints]. *)
Definition get_skewing_constraints (src_dims skew_dims : list bool) (scc : Z) (pr : prog) (level : nat) (c : cst) : cst :=
  let outer := match find (fun k => nth k skew_dims false) (seq 0 (p_nvar pr)) with Some k => k | None => p_nvar pr end in
  fold_left (fun acc i =>
      let st := stmt_of pr i in
      let var k := (p_npar pr + 1 + i * (p_nvar pr + 1) + k)%nat in
      let acc' :=
        if (s_dim_orig st <=? outer)%nat && (s_scc st =? scc) then
          fold_left (fun acc j => add_lb acc (var j) 0) (seq 0 (s_dim_orig st)) acc
        else
          fold_left (fun acc j =>
              if nth j src_dims false && (s_scc st =? scc) then add_lb acc (var j) 1
              else set_last (cst_width pr - 1) (- nth j (nth level (mrows (s_trans st)) []) 0)
                     (set_last (var j) 1 (add_equality acc))) (seq 0 (s_dim_orig st)) acc in
      add_lb acc' (var (p_nvar pr)) 0)
    (seq 0 (length (p_stmts pr))) c.

(** lib/framework-dfp.c:3232-3242 [get_outermost_sat_level]; [None] for -1. *)
Definition outermost_sat_level (pr : prog) (max_dim : nat) (src_dims : list bool) : option nat :=
  find (fun i => is_loop_type (nth i (p_hprops pr) H_UNKNOWN) && (loops_before pr i <? max_dim)%nat
                 && nth (loops_before pr i) src_dims false) (seq 0 (length (p_hprops pr))).

(** lib/framework-dfp.c:3246-3258 [swap_trans_for_cc]; [None]: a failed assertion. *)
Definition swap_trans_for_cc (par_level level : nat) (cc : Z) (pr : prog) : option prog :=
  if (par_level <? level)%nat && is_loop_type (nth par_level (p_hprops pr) H_UNKNOWN) && is_loop_type (nth level (p_hprops pr) H_UNKNOWN)
  then Some (set_stmts pr (map (fun st => if s_cc st =? cc then set_trans st (matrix_interchange_rows (s_trans st) par_level level) else st) (p_stmts pr)))
  else None.

(** lib/framework-dfp.c:3387-3405: the rows of all statements at [level] are replaced. *)
Definition replace_level (pr : prog) (level : nat) (sol : point) : prog :=
  set_stmts pr (map (fun s =>
      let st := stmt_of pr s in
      let r := hyp_row pr sol s in
      set_hyp (set_trans st (mkMat (mncols (s_trans st)) (map_nth level (fun _ => r) (mrows (s_trans st)))))
        (map_nth level (fun _ => if forallb (fun v => v =? 0) (firstn (s_dim st) r) then H_SCALAR else H_LOOP) (s_hyp st)))
    (seq 0 (length (p_stmts pr)))).

(** lib/framework-dfp.c:118-126 [is_ilp_solution_parallel]. *)
Definition is_ilp_solution_parallel (sol : point) (npar : nat) : bool :=
  fold_left Z.add (firstn (npar + 1) sol) 0 =? 0.

(** State of the loops of [introduce_skew]: program, tile_preventing_deps,
    is_skew_introduced. *)
Record skstate := mkSk { sk_prog : prog; sk_tpd : list bool; sk_done : bool }.

(** lib/framework-dfp.c:3353-3428: the loop over the levels for SCC [i]; the level to be
    skewed is the one found in 3359-3368, a level of type H_LOOP from [initial]
    on.  The outcome [None]: an assertion fails, or the fuel is used up. *)
Fixpoint skew_levels (fuel initial i : nat) (cc : Z) (permute : cst) (max_dim level : nat) (skew_dims src_dims : list bool) (k : skstate) : option skstate :=
  match fuel with
  | O => None
  | S f =>
      let pr := sk_prog k in
      if (length (p_hprops pr) <=? level)%nat then Some k
      else if negb (is_loop_type (nth level (p_hprops pr) H_UNKNOWN)) then skew_levels f initial i cc permute max_dim (S level) skew_dims src_dims k
      else
        match find (fun j => is_loop_type (nth j (p_hprops pr) H_UNKNOWN) && nth (loops_before pr j) skew_dims false)
                (seq initial (length (p_hprops pr) - initial)) with
        | None => Some k
        | Some lv =>
            match prog_constraints_lexmin solve pr (get_skewing_constraints src_dims skew_dims (Z.of_nat i) pr lv (cst_add (universe (cst_width pr)) permute)) with
            | None => Some k
            | Some sol =>
                let pr1 := replace_level pr lv sol in
                match (if is_ilp_solution_parallel sol (p_npar pr) then
                         match outermost_sat_level pr1 max_dim src_dims with
                         | Some pl => swap_trans_for_cc pl lv cc pr1
                         | None => None
                         end
                       else Some pr1) with
                | None => None
                | Some pr2 =>
                    let pr3 := compute_dep_directions is_emptyb (fst (dep_satisfaction_update is_emptyb pr2 lv)) in
                    if (length (p_hprops pr3) <=? S lv)%nat then Some (mkSk pr3 (sk_tpd k) true)
                    else
                      let '(sd, tpd) := dims_to_be_skewed pr3 (Z.of_nat i) (sk_tpd k) (S lv) in
                      skew_levels f initial i cc permute max_dim (S lv) sd (dep_satisfaction_dims pr3 tpd) (mkSk pr3 tpd true)
                end
            end
        end
  end.

(** lib/framework-dfp.c:3341-3432, for SCC [i]. *)
Definition skew_scc (initial : nat) (permute : list (option cst)) (maxs : list Z) (i : nat) (k : skstate) : option skstate :=
  let pr := sk_prog k in
  let u := hd 0%nat (filter (fun u => s_scc (stmt_of pr u) =? Z.of_nat i) (seq 0 (length (p_stmts pr)))) in
  let cc := s_cc (stmt_of pr u) in
  match nth (Z.to_nat cc) permute None with
  | None => Some k
  | Some pc =>
      let '(sd, tpd) := dims_to_be_skewed pr (Z.of_nat i) (sk_tpd k) initial in
      skew_levels (2 * length (p_hprops pr) + 2) initial i cc pc (Z.to_nat (nth i maxs 0)) (S initial) sd
        (dep_satisfaction_dims pr tpd) (mkSk pr tpd (sk_done k))
  end.
Fixpoint skew_sccs (initial : nat) (permute : list (option cst)) (maxs : list Z) (is : list nat) (k : skstate) : option skstate :=
  match is with
  | [] => Some k
  | i :: l => match skew_scc initial permute maxs i k with Some k' => skew_sccs initial permute maxs l k' | None => None end
  end.

(** lib/framework-dfp.c:3262-3446 [introduce_skew]: the new program and whether a skew was
    introduced. *)
Definition update_to (pr : prog) (levels : list nat) : prog :=
  fold_left (fun q level => fst (dep_satisfaction_update is_emptyb q level)) levels pr.
Definition introduce_skew (pr : prog) : option (prog * bool) :=
  if (length (p_hprops pr) <=? 1)%nat then Some (pr, false)
  else
    let pr1 := dep_satisfaction_reset (compute_dep_directions is_emptyb pr) in
    let initial := match find (fun i => is_loop_type (nth i (p_hprops pr1) H_UNKNOWN)) (seq 0 (length (p_hprops pr1))) with
                   | Some i => i | None => length (p_hprops pr1) end in
    let pr2 := update_to pr1 (seq 0 initial) in
    if (initial =? length (p_hprops pr))%nat then Some (pr2, false)
    else
      let s := compute_scc (mkState pr2 (graph_of pr2) 0 []) in
      let n := length (p_stmts pr2) in
      let '(cc, num_cc) := ddg_compute_cc n (st_adj s) (repeat 0 n) in
      let pr3 := set_stmts (st_prog s) (map (fun u => set_cc (stmt_of (st_prog s) u) (nth u cc 0)) (seq 0 n)) in
      let permute := map (fun k => get_cc_permutability_constraints o (Z.of_nat k) pr3) (seq 0 num_cc) in
      let pr4 := fst (dep_satisfaction_update is_emptyb pr3 initial) in
      match skew_sccs initial permute (st_max s) (seq 0 (st_num s)) (mkSk pr4 (repeat false (length (p_deps pr4))) false) with
      | Some k => Some (sk_prog k, sk_done k)
      | None => None
      end.

(** ** The whole transformation *)

(** lib/pluto.c:1674-1689: what is left unsatisfied is distributed. *)
Definition dfp_finish (pr : prog) (s : dstate) : dstate :=
  let pr1 := update_to (dep_satisfaction_reset pr) (seq 0 (length (p_hprops pr))) in
  let s1 := mkState pr1 (st_adj s) (st_num s) (st_max s) in
  if deps_satisfaction_check pr1 then s1
  else fst (cut_all_sccs is_emptyb (compute_scc (ddg_update s1))).

(** lib/pluto.c:1492-1850 [pluto_auto_transform] with option dfp, for a program with
    statements: the final program and whether a skew was introduced. *)
Definition dfp_start (pr : prog) : dstate :=
  let pr0 := clear_schedules pr in
  let s0 := compute_scc (mkState pr0 (graph_of pr0) 0 []) in
  mkState (set_hprops (normalize_domains (st_prog s0)) []) (st_adj s0) (st_num s0) (st_max s0).
Definition dfp_transform (pr : prog) : option (prog * bool) :=
  match dfp_search (dfp_start pr) with
  | None => None
  | Some cs =>
      match introduce_skew (st_prog (c_state cs)) with
      | None => None
      | Some (pr1, skewed) => Some (denormalize_domains (st_prog (dfp_finish pr1 (c_state cs))), skewed)
      end
  end.
End Oracles.
