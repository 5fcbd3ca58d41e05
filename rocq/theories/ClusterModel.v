(** * Model of the framework "dfp" with one vertex per dimension of a strongly
    connected component (options dfp and clusterscc).

    /repo/lib/framework-dfp.c and its use in /repo/lib/pluto.c, without typed fusion,
    lpcolour and diamond tiling.  Parameters as in DfpModel.v: [build] and
    [refresh] give the conflict graph and its update; [build_cluster_fcg] and
    [update_cluster_fcg] below are the ones of the code, with [feasible] the linear
    program (see FcgModel.v). *)
From Coq Require Import ZArith List Bool Arith.
From Verif Require Import SpecLinear MathModel ConstraintsModel SpecProg SpecDriver SpecGraph GraphModel FrameworkModel ProgModel DriverModel DfpModel FcgModel.
Import ListNotations.
Open Scope Z_scope.

(** The dimension of SCC [i] (field max_dim). *)
Definition scc_dim (s : dstate) (i : nat) : nat := Z.to_nat (nth i (st_max s) 0).
(** The first vertex of SCC [i], lib/pluto.c:1621-1628 and lib/framework-dfp.c:2382-2383
    (field fcg_scc_offset). *)
Definition scc_offset (s : dstate) (i : nat) : nat := fold_left Nat.add (map (scc_dim s) (seq 0 i)) 0%nat.
(** Number of vertices. *)
Definition scc_vertices (s : dstate) : nat := scc_offset s (st_num s).

(** ** The conflict graph *)

Section Graph.
Variable feasible : cst -> bool.
Variable o : options.

(** The dependences that count with both ends in an SCC that satisfies [f]:
    lib/framework-dfp.c:637-673 [compute_intra_scc_dep_cst] and 373-411
    [get_inter_scc_dep_constraints]. *)
Definition scc_deps (pr : prog) (f : Z -> bool) : list dep :=
  filter (fun d => negb (negb (o_rar o) && d_rar d) && negb (d_sat d)
                   && f (s_scc (stmt_of pr (d_src d))) && f (s_scc (stmt_of pr (d_dst d)))) (p_deps pr).
Definition scc_rows (pr : prog) (f : Z -> bool) : list row := flat_map (fun d => rows (dep_cst o pr d)) (scc_deps pr f).

(** lib/framework-dfp.c:751-845 [fcg_scc_cluster_add_permute_preventing_edges]. *)
Definition cluster_permute_edges (s : dstate) (col : list Z) (c : nat) (g : fcg) : fcg :=
  let pr := st_prog s in
  fold_left (fun g i =>
      let own z := z =? Z.of_nat i in
      match scc_deps pr own with
      | [] => g
      | _ =>
          fold_left (fun g j =>
              let v := (scc_offset s i + j)%nat in
              let ones := map (fun u => coef_col pr u j) (filter (fun u => nth j (s_orig (stmt_of pr u)) false) (scc_stmts s i)) in
              if coloured col c v then g
              else if feasible (conflict_cst o pr ones [] (scc_rows pr own)) then g
              else set_adj g v v 1) (seq 0 (scc_dim s i)) g
      end) (seq 0 (st_num s)) g.

(** The system of lib/framework-dfp.c:433-457: the constraints of the dependences come
    first. *)
Definition inter_cst (pr : prog) (ones free : list nat) (deps : list row) : cst :=
  mkCst (cst_width pr)
    (deps ++ rows (get_coeff_bounding_constraints o pr) ++ map (unknown_row pr ones free) (seq 0 (cst_width pr - 1))).

(** lib/framework-dfp.c:413-593 [fcg_scc_cluster_add_inter_scc_edges] for the SCCs [a] and
    [b].  The lower bound 1 is set for statements with at least as many loops as
    the number of the dimension (506, 527: "<=", one too many). *)
Definition with_bound (s : dstate) (i j : nat) : list nat :=
  map (fun u => coef_col (st_prog s) u j) (filter (fun u => (j <=? s_dim_orig (stmt_of (st_prog s) u))%nat) (scc_stmts s i)).
Definition cluster_pair_edges (s : dstate) (col : list Z) (c : nat) (a b : nat) (g : fcg) : fcg :=
  let pr := st_prog s in
  let oa := scc_offset s a in
  let ob := scc_offset s b in
  let dims2 := seq 0 (scc_dim s b) in
  let shifts := map (fun u => coef_col pr u (p_nvar pr)) (scc_stmts s a ++ scc_stmts s b) in
  let deps := scc_rows pr (fun z => (z =? Z.of_nat a) || (z =? Z.of_nat b)) in
  fold_left (fun g i =>
      if coloured col c (oa + i) then g
      else if adj g (oa + i) (oa + i) =? 1 then
        fold_left (fun g j => set_adj g (oa + i) (ob + j) 1) dims2 g
      else
        fold_left (fun g j =>
            if coloured col c (ob + j) then g
            else if adj g (ob + j) (ob + j) =? 1 then set_adj g (oa + i) (ob + j) 1
            else if feasible (inter_cst pr (with_bound s a i ++ with_bound s b j) shifts deps) then g
            else set_adj g (oa + i) (ob + j) 1) dims2 g)
    (seq 0 (scc_dim s a)) g.
(** lib/framework-dfp.c:434-443: all pairs of connected SCCs. *)
Definition cluster_inter_edges (s : dstate) (col : list Z) (c : nat) (g : fcg) : fcg :=
  let n := st_num s in
  fold_left (fun g a =>
      fold_left (fun g b => if sccs_direct_connected s (Z.of_nat a) (Z.of_nat b) then cluster_pair_edges s col c a b g else g)
        (seq (S a) (n - S a)) g)
    (seq 0 n) g.

(** lib/framework-dfp.c:968-984 [fcg_add_intra_scc_edges]. *)
Definition cluster_intra_edges (s : dstate) (g : fcg) : fcg :=
  fold_left (fun g i =>
      fold_left (fun g j =>
          fold_left (fun g k => set_adj (set_adj g (scc_offset s i + j) (scc_offset s i + k) 1) (scc_offset s i + k) (scc_offset s i + j) 1)
            (seq (S j) (scc_dim s i - S j)) g)
        (seq 0 (scc_dim s i)) g)
    (seq 0 (st_num s)) g.

(** lib/framework-dfp.c:1017-1045, in [add_must_distribute_edges]. *)
Definition cluster_distribute_pair (s : dstate) (a b : nat) : bool :=
  let pr := st_prog s in
  let closure := mkState pr (compute_transitive_closure (length (p_stmts pr)) (graph_of pr)) (st_num s) (st_max s) in
  negb (sccs_direct_connected closure (Z.of_nat a) (Z.of_nat b)) && are_sccs_fused s (Z.of_nat a) (Z.of_nat b).
Definition cluster_distribute_edges (s : dstate) (g : fcg) : fcg :=
  let n := st_num s in
  fold_left (fun g a =>
      fold_left (fun g b =>
          if cluster_distribute_pair s a b then
            fold_left (fun g k =>
                fold_left (fun g l => set_adj g (scc_offset s a + k) (scc_offset s b + l) 1) (seq 0 (scc_dim s b)) g)
              (seq 0 (scc_dim s a)) g
          else g)
        (seq (S a) (n - S a)) g)
    (seq 0 n) g.

(** lib/framework-dfp.c:1080-1224 [build_fusion_conflict_graph] with scc_cluster. *)
Definition build_cluster_fcg (s : dstate) (col : list Z) (c : nat) : fcg :=
  let n := scc_vertices s in
  let g0 := repeat (repeat 0 n) n in
  let g3 := cluster_intra_edges s (cluster_inter_edges s col c (cluster_permute_edges s col c g0)) in
  if (c =? 1)%nat then cluster_distribute_edges s g3 else g3.

(** lib/framework-dfp.c:903-926 [update_fcg_between_sccs] and 851-900
    [update_scc_cluster_fcg_between_sccs]; the assertion in line 914 is in
    [update_graph] of DfpModel.v.  [None]: the assertion in 860 fails, or, with
    NoFuse and more than one SCC, an access outside of the adjacency matrix
    (865 and 868: "<="). *)
Definition update_cluster_fcg (fuse : fusion) (s : dstate) (g : fcg) (scc1 scc2 : nat) : option fcg :=
  if (length (p_stmts (st_prog s)) =? 1)%nat then Some g
  else if (scc1 =? scc2)%nat then None
  else match fuse with
  | NoFuse => if (st_num s <=? 1)%nat then Some g else None
  | _ =>
      Some (fold_left (fun g i =>
        fold_left (fun g k =>
          fold_left (fun g j =>
            fold_left (fun g l =>
                set_adj (set_adj g (scc_offset s i + k) (scc_offset s j + l) 0) (scc_offset s j + l) (scc_offset s i + k) 0)
              (seq 0 (scc_dim s j)) g)
            (seq scc2 (st_num s - scc2)) g)
          (seq 0 (scc_dim s i)) g)
        (seq 0 scc2) g)
  end.
End Graph.

(** ** The colouring *)

(** The state of the colouring: as in DfpModel.v, and the flags is_scc_coloured. *)
Record kstate := mkK { k_state : dstate; k_col : list Z; k_fcg : fcg; k_rebuild : bool; k_done : list bool }.

(** Outcome of a loop: its end, a failed assertion (or undefined behaviour), or the
    fuel is used up. *)
Inductive kres := KDone (k : kstate) | KAbort | KFuel.

Section Oracles.
Variable is_emptyb : cst -> bool.
Variable solve : prog -> cst -> option point.
Variable build : dstate -> list Z -> nat -> fcg.
Variable refresh : dstate -> fcg -> nat -> nat -> option fcg.
Variable o : options.
Variable fuse : fusion.
Variable delayed_cut : bool.

(** lib/framework-dfp.c:1402-1443 [cut_around_scc], the loop over [js]. *)
Fixpoint cut_around (scc : nat) (js : list nat) (s : dstate) : dstate :=
  match js with
  | [] => s
  | j :: l =>
      if (j =? scc)%nat then cut_around scc l s
      else if (j <? scc)%nat && sccs_direct_connected s (Z.of_nat j) (Z.of_nat scc) then
        match fuse with
        | NoFuse => cut_around scc l (fst (cut_all_sccs is_emptyb s))
        | _ =>
            let s1 := fst (cut_between_sccs is_emptyb s (Z.of_nat j) (Z.of_nat scc)) in
            match find (fun k => sccs_direct_connected s1 (Z.of_nat scc) (Z.of_nat k)) (seq (S scc) (st_num s1 - S scc)) with
            | Some k => fst (cut_between_sccs is_emptyb s1 (Z.of_nat scc) (Z.of_nat k))
            | None => s1
            end
        end
      else if sccs_direct_connected s (Z.of_nat scc) (Z.of_nat j) then
        match fuse with
        | NoFuse => fst (cut_all_sccs is_emptyb s)
        | _ => fst (cut_between_sccs is_emptyb s (Z.of_nat scc) (Z.of_nat j))
        end
      else cut_around scc l s
  end.

(** lib/framework-dfp.c:2196-2299 [colour_scc_cluster] and 2182-2193, the end of
    [get_next_min_vertex_scc_cluster]: the vertices are tried in their order.
    prog->coloured_dims is [c] - 1. *)
Definition colourable (g : fcg) (col : list Z) (c : Z) (v : nat) : bool :=
  negb ((0 <? nth v col 0) && negb (nth v col 0 =? c)) && negb (adj g v v =? 1) && is_valid_colour v c g col.
Definition colour_scc_cluster (c i : nat) (k : kstate) : bool * kstate :=
  let s := k_state k in
  let max_dim := nth i (st_max s) 0 in
  if max_dim <? Z.of_nat (c - 1) then (true, k)
  else if max_dim =? Z.of_nat (c - 1) then
    (true, mkK (if delayed_cut then s else cut_around i (seq 0 (st_num s)) s) (k_col k) (k_fcg k) (k_rebuild k) (k_done k))
  else
    match find (fun j => colourable (k_fcg k) (k_col k) (Z.of_nat c) (scc_offset s i + j)) (seq 0 (scc_dim s i)) with
    | Some j => (true, mkK s (set_nth (scc_offset s i + j) (Z.of_nat c) (k_col k)) (k_fcg k) (k_rebuild k) (k_done k))
    | None => (false, k)
    end.

(** lib/framework-dfp.c:1590-1619 [scc_has_must_distribute_edges] with scc_cluster. *)
Definition cluster_must_distribute (s : dstate) (g : fcg) (i : nat) : bool :=
  negb (nth i (st_max s) 0 =? 0)
  && existsb (fun k => negb (nth k (st_max s) 0 =? 0)
                       && negb (sccs_direct_connected s (Z.of_nat k) (Z.of_nat i))
                       && is_adjacent g (scc_offset s k) (scc_offset s i)) (seq 0 i).

(** The colours of the dimensions of a statement, lib/framework-dfp.c:2302-2319
    [get_vertex_colour_from_scc_colour]. *)
Definition stmt_colour (s : dstate) (col : list Z) (u j : nat) : Z :=
  let st := stmt_of (st_prog s) u in
  if (j <? s_dim_orig st)%nat then nth (scc_offset s (Z.to_nat (s_scc st)) + j) col 0 else 0.
(** The statement whose colours become those of SCC [i], lib/framework-dfp.c:2372-2377. *)
Definition scc_representative (s : dstate) (i : nat) : nat :=
  match find (fun u => nth i (st_max s) 0 =? Z.of_nat (s_dim (stmt_of (st_prog s) u))) (scc_stmts s i) with
  | Some u => u
  | None => last (scc_stmts s i) 0%nat
  end.
(** lib/framework-dfp.c:2353-2390 [get_scc_colours_from_vertex_colours]. *)
Definition scc_colours (s : dstate) (scol : nat -> nat -> Z) : list Z :=
  flat_map (fun i => map (scol (scc_representative s i)) (seq 0 (scc_dim s i))) (seq 0 (st_num s)).
Definition scc_coloured (s : dstate) (scol : nat -> nat -> Z) (c : nat) : list bool :=
  map (fun i => existsb (fun j => scol (scc_representative s i) j =? Z.of_nat c) (seq 0 (scc_dim s i))) (seq 0 (st_num s)).
(** lib/framework-dfp.c:2395-2466 [rebuild_scc_cluster_fcg]. *)
Definition rebuild_cluster (c : nat) (k : kstate) : kstate :=
  let scol := stmt_colour (k_state k) (k_col k) in
  let s := compute_scc (ddg_update (k_state k)) in
  let col := scc_colours s scol in
  mkK s col (build s col c) false (scc_coloured s scol c).

(** lib/framework-dfp.c:2519-2526: the update of the graph comes before the one of the
    dependences. *)
Definition cluster_distributed (i : nat) (k : kstate) : option kstate :=
  if (1 <=? i)%nat && cluster_must_distribute (k_state k) (k_fcg k) i then
    let s := k_state k in
    let pr1 := add_scalar_level (st_prog s) (fun st => if s_scc st <? Z.of_nat i then 0 else 1) in
    match update_graph refresh (k_rebuild k) (mkState pr1 (st_adj s) (st_num s) (st_max s)) (k_fcg k) (i - 1) i with
    | Some g => Some (mkK (distribute is_emptyb i s) (k_col k) g (k_rebuild k) (k_done k))
    | None => None
    end
  else Some k.
(** lib/framework-dfp.c:2683-2701: the graph is not to be rebuilt here; prev_scc is
    [i] - 1. *)
Definition cluster_retry (c i : nat) (k : kstate) : option (bool * kstate) :=
  let s := cut_before is_emptyb fuse i (k_state k) in
  match refreshed refresh fuse (k_rebuild k) i s (k_fcg k) with
  | Some g => Some (colour_scc_cluster c i (mkK s (k_col k) g (k_rebuild k) (k_done k)))
  | None => None
  end.
(** lib/framework-dfp.c:2703-2724, if this fails. *)
Definition cluster_precise (c i : nat) (k : kstate) : bool * kstate :=
  let s := k_state k in
  let s1 := mkState (compute_dep_directions is_emptyb (compute_dep_satisfaction_precise is_emptyb (st_prog s)))
              (st_adj s) (st_num s) (st_max s) in
  colour_scc_cluster c i (mkK s1 (k_col k) (build s1 (k_col k) c) false (k_done k)).
Definition mark_done (i : nat) (k : kstate) : kstate :=
  mkK (k_state k) (k_col k) (k_fcg k) (k_rebuild k) (set_nth i true (k_done k)).

(** lib/framework-dfp.c:2493-2735 [colour_fcg_scc_based] with scc_cluster, from SCC [i] on;
    [n] is nsccs.  When an SCC cannot be coloured, the graph is rebuilt (for the
    first SCC: whenever this happens) and the loop starts again (2612-2622). *)
Fixpoint cluster_loop (fuel : nat) (c n i : nat) (k : kstate) : kres :=
  match fuel with
  | O => KFuel
  | S f =>
      if (n <=? i)%nat then KDone k
      else if nth i (k_done k) false || (nth i (st_max (k_state k)) 0 <? Z.of_nat c) then cluster_loop f c n (S i) k
      else match cluster_distributed i k with
      | None => KAbort
      | Some k1 =>
          match colour_scc_cluster c i k1 with
          | (true, k2) => cluster_loop f c n (S i) (mark_done i k2)
          | (false, k2) =>
              if k_rebuild k2 || (i =? 0)%nat then
                let s2 := match fuse with NoFuse => fst (cut_all_sccs is_emptyb (k_state k2)) | _ => k_state k2 end in
                let k3 := rebuild_cluster c (mkK s2 (k_col k2) (k_fcg k2) (k_rebuild k2) (k_done k2)) in
                cluster_loop f c (st_num (k_state k3)) 0 k3
              else match cluster_retry c i k2 with
              | None => KAbort
              | Some (true, k3) => cluster_loop f c n (S i) (mark_done i k3)
              | Some (false, k3) =>
                  match cluster_precise c i k3 with
                  | (true, k4) => cluster_loop f c n (S i) (mark_done i k4)
                  | (false, _) => KAbort
                  end
              end
          end
      end
  end.

(** ** Scaling and shifting *)

(** lib/framework-dfp.c:2865-2911 [add_coeff_constraints_from_scc_clustered_fcg_colouring]. *)
Definition cluster_constraints (s : dstate) (col : list Z) (c : nat) (cst0 : cst) : cst :=
  let pr := st_prog s in
  fold_left (fun acc j =>
      fold_left (fun acc u =>
          let var k := (p_npar pr + 1 + u * (p_nvar pr + 1) + k)%nat in
          let orig k := nth k (s_orig (stmt_of pr u)) false in
          fold_left (fun acc k =>
              if nth j (st_max s) 0 <? Z.of_nat c then
                if orig k then add_lb acc (var k) 0 else set_last (var k) 1 (add_equality acc)
              else if (nth (scc_offset s j + k) col 0 =? Z.of_nat c) && orig k then add_lb acc (var k) 1
              else set_last (var k) 1 (add_equality acc)) (seq 0 (scc_dim s j)) acc)
        (scc_stmts s j) acc)
    (seq 0 (st_num s)) cst0.

(** lib/framework-dfp.c:2952-3031 [scale_shift_permutations] for colour [c]; see
    [scale_shift] of DfpModel.v. *)
Definition cluster_shift (c : nat) (k : kstate) : option kstate :=
  let s := k_state k in
  let pr := st_prog s in
  let coeff := cluster_constraints s (k_col k) c (get_coeff_bounding_constraints o pr) in
  let with_row s1 sol := mkK (mkState (add_hyperplane_from_ilp_solution (st_prog s1) sol) (st_adj s1) (st_num s1) (st_max s1))
                           (k_col k) (k_fcg k) (k_rebuild k) (k_done k) in
  match prog_constraints_lexmin solve pr (cst_add coeff (get_permutability_constraints o (fun _ => false) pr)) with
  | Some sol => Some (with_row s sol)
  | None =>
      if delayed_cut then
        let s1 := cut_smart is_emptyb s in
        match prog_constraints_lexmin solve (st_prog s1)
                (cst_add coeff (get_permutability_constraints o (fun _ => false) (st_prog s1))) with
        | Some sol => Some (with_row s1 sol)
        | None => None
        end
      else None
  end.

(** lib/framework-dfp.c:2765-2842 with scc_cluster, for one colour: the dependence graph
    and the SCCs stay as they are. *)
Definition cluster_level (fuel c : nat) (k : kstate) : kres :=
  let start := mkK (k_state k) (k_col k) (k_fcg k) (k_rebuild k) (repeat false (st_num (k_state k))) in
  match cluster_loop fuel c (st_num (k_state k)) 0 start with
  | KDone k1 =>
      match cluster_shift c k1 with
      | None => KAbort
      | Some k2 =>
          let s := k_state k2 in
          let pr := fst (dep_satisfaction_update is_emptyb (st_prog s) (nrows0 (st_prog s) - 1)) in
          KDone (mkK (mkState pr (st_adj s) (st_num s) (st_max s)) (k_col k2) (k_fcg k2) true (repeat false (st_num s)))
      end
  | r => r
  end.
(** lib/framework-dfp.c:2752-2856 [find_permutable_dimensions_scc_based]. *)
Fixpoint cluster_levels (fuel : nat) (cs : list nat) (k : kstate) : kres :=
  match cs with
  | [] => KDone k
  | c :: l => match cluster_level fuel c k with KDone k' => cluster_levels fuel l k' | r => r end
  end.

(** lib/pluto.c:1606-1668: the search without skewing, from the state [s]. *)
Definition cluster_search (fuel : nat) (s : dstate) : kres :=
  let s1 := match fuse with NoFuse => fst (cut_all_sccs is_emptyb (compute_scc s)) | _ => s end in
  let col := repeat 0 (scc_vertices s1) in
  cluster_levels fuel (seq 1 (p_nvar (st_prog s1))) (mkK s1 col (build s1 col 1%nat) false (repeat false (st_num s1))).

(** lib/pluto.c:1492-1850 [pluto_auto_transform] with options dfp and clusterscc, for a
    program with statements: the final program and whether a skew was introduced,
    as in [dfp_transform]. *)
Inductive cluster_outcome := Transformed (pr : prog) (skewed : bool) | Aborted | Running.
Definition cluster_transform (fuel : nat) (pr : prog) : cluster_outcome :=
  match cluster_search fuel (dfp_start pr) with
  | KFuel => Running
  | KAbort => Aborted
  | KDone k =>
      match introduce_skew is_emptyb solve o (st_prog (k_state k)) with
      | None => Aborted
      | Some (pr1, skewed) => Transformed (denormalize_domains (st_prog (dfp_finish is_emptyb pr1 (k_state k)))) skewed
      end
  end.
End Oracles.
