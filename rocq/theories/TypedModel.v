(** * Model of typed fusion (options dfp, clusterscc and typedfuse): loops of a strongly
    connected component (SCC) that can run in parallel are fused only with loops of
    other SCCs with which they stay parallel.

    /repo/lib/framework-dfp.c.  The edges of the conflict graph are those of
    ClusterModel.v; [q] is par_preventing_adj_mat, the matrix of the pairs of
    dimensions whose fusion prevents parallelism.  Debug output and the freeing of
    memory are left out. *)
From Coq Require Import ZArith List Bool Arith.
From Verif Require Import SpecLinear MathModel ConstraintsModel SpecProg SpecDriver SpecGraph GraphModel FrameworkModel ProgModel DriverModel DfpModel FcgModel ClusterModel.
Import ListNotations.
Open Scope Z_scope.

(** ** The choice of dimensions *)

Section Choice.
Variables (s : dstate) (g q : fcg) (par : list bool).

(** lib/pluto.c:434-450 [ddg_sccs_direct_connected]. *)
Definition scc_edge (a b : nat) : bool := sccs_direct_connected s (Z.of_nat a) (Z.of_nat b).
(** lib/framework-dfp.c:1367-1376 [get_min_succ_scc]. *)
Definition get_min_succ_scc (i : nat) : nat :=
  match find (scc_edge i) (seq (S i) (st_num s - S i)) with Some k => k | None => st_num s end.
(** lib/framework-dfp.c:1380-1387 [get_max_pred_scc]; -1 is [None]. *)
Definition get_max_pred_scc (i : nat) : option nat := find (fun k => scc_edge k i) (rev (seq 0 i)).
(** lib/framework-dfp.c:1390-1398 [is_convex_scc]. *)
Definition is_convex_scc (a b : nat) : bool :=
  match get_max_pred_scc b with Some p => (p <? get_min_succ_scc a)%nat | None => true end.
(** lib/framework-dfp.c:1623-1644 [get_convex_successors]: the loop ends at an SCC that
    must be distributed. *)
Fixpoint before_distribution (l : list nat) : list nat :=
  match l with
  | [] => []
  | i :: t => if cluster_must_distribute s g i then [] else i :: before_distribution t
  end.
Definition get_convex_successors (a : nat) : list nat :=
  filter (is_convex_scc a) (before_distribution (seq (S a) (st_num s - S a))).
(** lib/framework-dfp.c:1648-1673 [get_convex_parallel_successors]. *)
Definition get_convex_parallel_successors (a : nat) : list nat :=
  filter (fun i => nth i par false) (get_convex_successors a).

(** An edge of par_preventing_adj_mat in one of the directions. *)
Definition par_edge (v w : nat) : bool := negb (adj q v w =? 0) || negb (adj q w v =? 0).
(** lib/framework-dfp.c:1677-1685 [is_colour_par_preventing]. *)
Definition is_colour_par_preventing (v : nat) (c : Z) (col : list Z) : bool :=
  existsb (fun i => (nth i col 0 =? c) && par_edge v i) (seq 0 (length col)).
(** lib/framework-dfp.c:1260-1278 [is_valid_colour] with is_parallel = true. *)
Definition valid_parallel (v : nat) (c : Z) (col : list Z) : bool :=
  is_valid_colour v c g col && negb (is_colour_par_preventing v c col).
(** The vertices of SCC [i]. *)
Definition dims (i : nat) : list nat := map (Nat.add (scc_offset s i)) (seq 0 (scc_dim s i)).
(** lib/framework-dfp.c:1819-1827: a dimension that is parallel and can get colour [c]. *)
Definition usable (c : Z) (col : list Z) (v : nat) : bool :=
  (nth v col 0 =? 0) && (adj g v v =? 0) && (adj q v v =? 0) && valid_parallel v c col.
(** lib/framework-dfp.c:1703-1731: SCC [i] has a dimension that can be fused with [k]. *)
Definition shares (c : Z) (col : list Z) (k i : nat) : bool :=
  existsb (fun v => usable c col v && negb (is_adjacent g v k) && negb (par_edge v k)) (dims i).
(** lib/framework-dfp.c:1690-1735 [get_common_parallel_dims], the entry for vertex [v]. *)
Definition common (c : Z) (col : list Z) (succs : list nat) (v : nat) : nat :=
  if usable c col v then length (filter (shares c col v) succs) else 0%nat.
(** lib/framework-dfp.c:1741-1755 [get_colouring_dim], for pairs of a vertex and a count;
    -1 is [None]. *)
Fixpoint get_colouring_dim (l : list (nat * nat)) (max : nat) (dim : option nat) : option nat :=
  match l with
  | [] => dim
  | (v, n) :: t => if (max <? n)%nat then get_colouring_dim t n (Some v) else get_colouring_dim t max dim
  end.

(** lib/framework-dfp.c:1759-1789 [colour_convex_successors]: the colours, and the SCCs
    that got one. *)
Definition colourable_successor (c : Z) (col : list Z) (k v : nat) : bool :=
  (nth v col 0 =? 0) && (adj g v v =? 0) && (adj q v k =? 0) && (adj q v v =? 0) && valid_parallel v c col.
Definition colour_successor (k : nat) (c : Z) (st : list Z * list nat) (i : nat) : list Z * list nat :=
  match find (colourable_successor c (fst st) k) (dims i) with
  | Some v => (set_nth v c (fst st), snd st ++ [i])
  | None => st
  end.
Definition colour_convex_successors (k : nat) (succs : list nat) (c : Z) (col : list Z) : list Z * list nat :=
  fold_left (colour_successor k c) succs (col, []).

(** lib/framework-dfp.c:1797-1896 [colour_scc_cluster_greedy]: [None] if SCC [i] has no
    parallel dimension for colour [c]; otherwise the colours, and the SCCs whose
    flags is_scc_coloured and has_parallel_hyperplane are set. *)
Definition colour_scc_cluster_greedy (c : Z) (i : nat) (col : list Z) : option (list Z * list nat) :=
  match filter (usable c col) (dims i) with
  | [] => None
  | v0 :: _ =>
      let succs := get_convex_parallel_successors i in
      match get_colouring_dim (map (fun v => (v, common c col succs v)) (dims i)) 0 None with
      | None => Some (set_nth v0 c col, [i])
      | Some v =>
          let r := colour_convex_successors v succs c (set_nth v c col) in
          Some (fst r, i :: snd r)
      end
  end.

(** ** The next dimension to be tried, option lpcolour *)

(** lib/framework-dfp.c:1961-1983 [get_colourable_dims]. *)
Definition colourable_dims (col : list Z) (disc : list nat) (i : nat) : list nat :=
  filter (fun v => (nth v col 0 =? 0) && negb (is_adjacent g v v) && negb (existsb (Nat.eqb v) disc)) (dims i).
(** lib/framework-dfp.c:1910-1926 [get_min_convex_successor]. *)
Definition get_min_convex_successor (i : nat) (succs : list nat) : option nat :=
  match find (scc_edge i) succs with
  | Some k => Some k
  | None => match rev succs with [] => None | k :: _ => Some k end
  end.
(** lib/framework-dfp.c:2026-2047 [get_convex_preds_from_convex_successors]. *)
Definition convex_preds (m i : nat) (succs : list nat) : list nat :=
  map (fun k => if (k =? m)%nat then i else k) (filter (fun k => (k <=? m)%nat) succs).
(** lib/framework-dfp.c:1988-2021 [get_common_dims], the entry for vertex [v] of the
    successor. *)
Definition common_any (c : Z) (col : list Z) (allowed : list nat) (preds : list nat) (v : nat) : nat :=
  if existsb (Nat.eqb v) allowed then
    length (filter (fun i => existsb (fun v2 => (nth v2 col 0 =? 0) && negb (is_adjacent g v v2) && (adj g v2 v2 =? 0)
                                              && is_valid_colour v2 c g col) (dims i)) preds)
  else 0%nat.
(** lib/framework-dfp.c:2050-2193 [get_next_min_vertex_scc_cluster]; -1 is [None]. *)
Definition get_next_min_vertex_scc_cluster (lpcolour : bool) (c : Z) (i : nat) (col : list Z) (disc : list nat) : option nat :=
  if lpcolour then
    match colourable_dims col disc i with
    | [] => None
    | v0 :: rest =>
        let succs := get_convex_successors i in
        match get_min_convex_successor i succs with
        | None => Some v0
        | Some m =>
            match get_colouring_dim (map (fun v => (v, common_any c col (colourable_dims col disc m) (convex_preds m i succs) v)) (dims m)) 0 None with
            | None => Some v0
            | Some w =>
                match find (fun v => negb (is_adjacent g v w)) (v0 :: rest) with
                | Some v => Some v
                | None => Some v0
                end
            end
        end
    end
  else find (fun v => negb (existsb (Nat.eqb v) disc)) (dims i).
(** The loop lib/framework-dfp.c:2244-2296 of [colour_scc_cluster]; [fuel] is the number
    of dimensions that are not discarded. *)
Fixpoint try_vertices (lpcolour : bool) (c : Z) (i : nat) (col : list Z) (fuel : nat) (disc : list nat) : option nat :=
  match fuel with
  | O => None
  | S f =>
      match get_next_min_vertex_scc_cluster lpcolour c i col disc with
      | None => None
      | Some v =>
          if colourable g col c v && negb (nth i par false && is_colour_par_preventing v c col) then Some v
          else try_vertices lpcolour c i col f (disc ++ [v])
      end
  end.
End Choice.

(** ** The edges that prevent parallelism *)

Section Edges.
(** The linear program: [None] if it has no solution, otherwise whether u and w are
    zero in the solution (lib/framework-dfp.c:104-114 [is_lp_solution_parallel]). *)
Variable lp : prog -> cst -> option bool.
Variable o : options.
Variable hybridcut : bool.
Definition lp_feasible (pr : prog) (c : cst) : bool := match lp pr c with Some _ => true | None => false end.
Definition lp_parallel (pr : prog) (c : cst) : bool := match lp pr c with Some b => b | None => false end.

(** The system of lib/framework-dfp.c:785-803 for dimension [j] of SCC [i]. *)
Definition self_cst (s : dstate) (i j : nat) : cst :=
  let pr := st_prog s in
  conflict_cst o pr (map (fun u => coef_col pr u j) (filter (fun u => nth j (s_orig (stmt_of pr u)) false) (scc_stmts s i))) []
    (scc_rows o pr (fun z => z =? Z.of_nat i)).
Definition scc_has_deps (s : dstate) (i : nat) : bool :=
  match scc_deps o (st_prog s) (fun z => z =? Z.of_nat i) with [] => false | _ => true end.
(** lib/framework-dfp.c:768-772, 822: is_parallel. *)
Definition scc_is_parallel (s : dstate) (col : list Z) (c i : nat) : bool :=
  negb (scc_has_deps s i)
  || existsb (fun j => negb (coloured col c (scc_offset s i + j)) && lp_parallel (st_prog s) (self_cst s i j)) (seq 0 (scc_dim s i)).
(** lib/framework-dfp.c:817-819: the entries on the diagonal. *)
Definition par_self_edges (s : dstate) (col : list Z) (c : nat) (q : fcg) : fcg :=
  fold_left (fun q i =>
      fold_left (fun q j =>
          let v := (scc_offset s i + j)%nat in
          if scc_has_deps s i && negb (coloured col c v) && lp_feasible (st_prog s) (self_cst s i j) && negb (lp_parallel (st_prog s) (self_cst s i j))
          then set_adj q v v 1 else q) (seq 0 (scc_dim s i)) q)
    (seq 0 (st_num s)) q.

(** lib/framework-dfp.c:433-457, 498-530: the system for dimension [i] of SCC [a] and
    dimension [j] of SCC [b], see [cluster_pair_edges]. *)
Definition pair_cst (s : dstate) (a i b j : nat) : cst :=
  let pr := st_prog s in
  inter_cst o pr (with_bound s a i ++ with_bound s b j)
    (map (fun u => coef_col pr u (p_nvar pr)) (scc_stmts s a ++ scc_stmts s b))
    (scc_rows o pr (fun z => (z =? Z.of_nat a) || (z =? Z.of_nat b))).
(** lib/framework-dfp.c:558-565, where check_parallel is set; [g] has the self edges. *)
Definition par_pair_edges (s : dstate) (col : list Z) (c : nat) (g : fcg) (a b : nat) (q : fcg) : fcg :=
  fold_left (fun q i =>
      fold_left (fun q j =>
          let v := (scc_offset s a + i)%nat in
          let w := (scc_offset s b + j)%nat in
          if negb (coloured col c v) && negb (adj g v v =? 1) && negb (coloured col c w) && negb (adj g w w =? 1)
             && lp_feasible (st_prog s) (pair_cst s a i b j) && negb (lp_parallel (st_prog s) (pair_cst s a i b j))
          then set_adj q v w 1 else q) (seq 0 (scc_dim s b)) q)
    (seq 0 (scc_dim s a)) q.
(** lib/framework-dfp.c:447-454: check_parallel is set here and never reset. *)
Definition wants_check (par hyp sten : list bool) (a b : nat) : bool :=
  negb (hybridcut && nth a hyp false && nth b hyp false) && (nth a par false || nth b par false)
  && negb (nth a sten false && nth b sten false).
Definition par_inter_edges (s : dstate) (par hyp sten : list bool) (col : list Z) (c : nat) (g q : fcg) : fcg :=
  snd (fold_left (fun st ab =>
      if scc_edge s (fst ab) (snd ab) then
        let check := fst st || wants_check par hyp sten (fst ab) (snd ab) in
        (check, if check then par_pair_edges s col c g (fst ab) (snd ab) (snd st) else snd st)
      else st)
    (flat_map (fun a => map (fun b => (a, b)) (seq (S a) (st_num s - S a))) (seq 0 (st_num s))) (false, q)).

(** lib/framework-dfp.c:1080-1224 [build_fusion_conflict_graph] with scc_cluster and typed
    fusion: the conflict graph, [q] and is_parallel. *)
Definition build_typed (s : dstate) (hyp sten : list bool) (col : list Z) (c : nat) : fcg * fcg * list bool :=
  let n := scc_vertices s in
  let zero := repeat (repeat 0 n) n in
  let par := map (scc_is_parallel s col c) (seq 0 (st_num s)) in
  let g := build_cluster_fcg (lp_feasible (st_prog s)) o s col c in
  (g, par_inter_edges s par hyp sten col c g (par_self_edges s col c zero), par).
End Edges.

(** lib/framework-dfp.c:851-926: the update of both graphs at SCC [i]; scc1 is used in
    the assertion only, and differs from [i]. *)
Definition update_typed (s : dstate) (g : fcg) (i : nat) : fcg :=
  match update_cluster_fcg MaxFuse s g (S i) i with Some g' => g' | None => g end.

(** ** The search *)

(** The state of the colouring: as in ClusterModel.v, [q], and the flags is_parallel,
    has_parallel_hyperplane and is_scc_stencil of the SCCs. *)
Record tstate := mkT { t_k : kstate; t_q : fcg; t_par : list bool; t_hyp : list bool; t_sten : list bool }.
Inductive tres := TDone (t : tstate) | TAbort | TFuel.

Section Oracles.
Variable is_emptyb : cst -> bool.
Variable solve : prog -> cst -> option point.
Variable build : dstate -> list bool -> list bool -> list Z -> nat -> fcg * fcg * list bool.
Variable refresh : dstate -> fcg -> nat -> fcg.
Variable o : options.
Variables (lpcolour hybridcut delayed_cut : bool).

(** The same state with another program, colours and so on. *)
Definition with_state (t : tstate) (s : dstate) : tstate :=
  let k := t_k t in mkT (mkK s (k_col k) (k_fcg k) (k_rebuild k) (k_done k)) (t_q t) (t_par t) (t_hyp t) (t_sten t).
Definition with_colours (t : tstate) (col : list Z) : tstate :=
  let k := t_k t in mkT (mkK (k_state k) col (k_fcg k) (k_rebuild k) (k_done k)) (t_q t) (t_par t) (t_hyp t) (t_sten t).
(** The two graphs updated at SCC [i]. *)
Definition with_update (t : tstate) (i : nat) : tstate :=
  let k := t_k t in
  mkT (mkK (k_state k) (k_col k) (refresh (k_state k) (k_fcg k) i) (k_rebuild k) (k_done k))
    (refresh (k_state k) (t_q t) i) (t_par t) (t_hyp t) (t_sten t).
(** Both graphs built anew, for the colours [col]. *)
Definition with_build (t : tstate) (c : nat) : tstate :=
  let k := t_k t in
  let b := build (k_state k) (t_hyp t) (t_sten t) (k_col k) c in
  mkT (mkK (k_state k) (k_col k) (fst (fst b)) false (k_done k)) (snd (fst b)) (snd b) (t_hyp t) (t_sten t).

(** lib/framework-dfp.c:1899-1906 [cut_from_predecessor]. *)
Definition cut_from_predecessor (i : nat) (s : dstate) : dstate :=
  fold_left (fun s k => if scc_edge s k i then fst (cut_between_sccs is_emptyb s (Z.of_nat k) (Z.of_nat i)) else s) (rev (seq 0 i)) s.

(** The flags set by the greedy choice. *)
Definition try_greedy (c i : nat) (t : tstate) : option tstate :=
  let k := t_k t in
  match colour_scc_cluster_greedy (k_state k) (k_fcg k) (t_q t) (t_par t) (Z.of_nat c) i (k_col k) with
  | Some (col, marked) =>
      let set l := fold_left (fun l j => set_nth j true l) marked l in
      Some (mkT (mkK (k_state k) col (k_fcg k) (k_rebuild k) (set (k_done k))) (t_q t) (t_par t) (set (t_hyp t)) (t_sten t))
  | None => None
  end.
(** lib/framework-dfp.c:2196-2299 [colour_scc_cluster] with typed fusion; prog->coloured_dims
    is [c] - 1. *)
Definition colour_typed (c i : nat) (t : tstate) : bool * tstate :=
  let k := t_k t in
  let s := k_state k in
  let max_dim := nth i (st_max s) 0 in
  if max_dim <? Z.of_nat (c - 1) then (true, t)
  else if max_dim =? Z.of_nat (c - 1) then
    (true, if delayed_cut then t else with_state t (cut_around is_emptyb MaxFuse i (seq 0 (st_num s)) s))
  else if negb (nth i (t_sten t) false) && nth i (t_par t) false && negb (hybridcut && nth i (t_hyp t) false) then
    match try_greedy c i t with
    | Some t' => (true, t')
    | None =>
        let t1 := with_update (with_state t (cut_from_predecessor i s)) i in
        match try_greedy c i t1 with
        | Some t' => (true, t')
        | None => (false, t1)
        end
    end
  else
    match try_vertices s (k_fcg k) (t_q t) (t_par t) lpcolour (Z.of_nat c) i (k_col k) (scc_dim s i) [] with
    | Some v => (true, with_colours t (set_nth v (Z.of_nat c) (k_col k)))
    | None => (false, t)
    end.

(** lib/framework-dfp.c:2519-2526. *)
Definition typed_distributed (i : nat) (t : tstate) : tstate :=
  let k := t_k t in
  let s := k_state k in
  if (1 <=? i)%nat && cluster_must_distribute s (k_fcg k) i then
    let pr1 := add_scalar_level (st_prog s) (fun st => if s_scc st <? Z.of_nat i then 0 else 1) in
    with_state (with_update (with_state t (mkState pr1 (st_adj s) (st_num s) (st_max s))) i) (distribute is_emptyb i s)
  else t.
(** lib/framework-dfp.c:2535-2568: a level between a parallel SCC and a sequential one,
    without an update of the dependences if they are not connected; [was] is
    is_parallel_scc_coloured, prev_scc is [i] - 1. *)
Definition typed_separate (i : nat) (was : bool) (t : tstate) : tstate :=
  let s := k_state (t_k t) in
  let hybrid := hybridcut && nth i (t_hyp t) false in
  if (1 <=? i)%nat && (if nth i (t_par t) false then negb hybrid && negb was else was)
     && are_sccs_fused s (Z.of_nat (i - 1)) (Z.of_nat i) then
    if scc_edge s (i - 1) i then
      with_update (with_state t (fst (cut_between_sccs is_emptyb s (Z.of_nat (i - 1)) (Z.of_nat i)))) i
    else with_state t (mkState (add_scalar_level (st_prog s) (fun st => if s_scc st <? Z.of_nat i then 0 else 1)) (st_adj s) (st_num s) (st_max s))
  else t.

(** lib/framework-dfp.c:2395-2466 [rebuild_scc_cluster_fcg]; the flags of an SCC are
    those its first statement had (2321-2346). *)
Definition typed_rebuild (c : nat) (t : tstate) : tstate :=
  let k := t_k t in
  let scol := stmt_colour (k_state k) (k_col k) in
  let of_stmt (l : list bool) u := nth (Z.to_nat (s_scc (stmt_of (st_prog (k_state k)) u))) l false in
  let s := compute_scc (ddg_update (k_state k)) in
  let of_scc l := map (fun i => of_stmt l (hd 0%nat (scc_stmts s i))) (seq 0 (st_num s)) in
  with_build (mkT (mkK s (scc_colours s scol) (k_fcg k) false (scc_coloured s scol c)) (t_q t) (t_par t) (of_scc (t_hyp t)) (of_scc (t_sten t))) c.
(** lib/framework-dfp.c:2666-2682 and 2694-2701. *)
Definition typed_retry (c i : nat) (t : tstate) : bool * tstate :=
  colour_typed c i (with_update (with_state t (cut_before is_emptyb MaxFuse i (k_state (t_k t)))) i).
(** lib/framework-dfp.c:2703-2724. *)
Definition typed_precise (c i : nat) (t : tstate) : bool * tstate :=
  let s := k_state (t_k t) in
  let s1 := mkState (compute_dep_directions is_emptyb (compute_dep_satisfaction_precise is_emptyb (st_prog s)))
              (st_adj s) (st_num s) (st_max s) in
  colour_typed c i (with_build (with_state t s1) c).
Definition typed_mark (i : nat) (t : tstate) : tstate := mkT (mark_done i (t_k t)) (t_q t) (t_par t) (t_hyp t) (t_sten t).

(** lib/framework-dfp.c:2493-2735 [colour_fcg_scc_based] with typed fusion, from SCC [i]
    on; see [cluster_loop]. *)
Fixpoint typed_loop (fuel : nat) (c n i : nat) (was : bool) (t : tstate) : tres :=
  match fuel with
  | O => TFuel
  | S f =>
      if (n <=? i)%nat then TDone t
      else if nth i (k_done (t_k t)) false || (nth i (st_max (k_state (t_k t))) 0 <? Z.of_nat c) then typed_loop f c n (S i) was t
      else
        let t1 := typed_separate i was (typed_distributed i t) in
        let was' := nth i (t_par t1) false in
        match colour_typed c i t1 with
        | (true, t2) => typed_loop f c n (S i) was' (typed_mark i t2)
        | (false, t2) =>
            if k_rebuild (t_k t2) || (i =? 0)%nat then
              let t3 := typed_rebuild c t2 in
              typed_loop f c (st_num (k_state (t_k t3))) 0 was' t3
            else match typed_retry c i t2 with
            | (true, t3) => typed_loop f c n (S i) was' (typed_mark i t3)
            | (false, t3) =>
                match typed_precise c i t3 with
                | (true, t4) => typed_loop f c n (S i) was' (typed_mark i t4)
                | (false, _) => TAbort
                end
            end
        end
  end.

(** lib/framework-dfp.c:2765-2842 for one colour, see [cluster_level]. *)
Definition typed_level (fuel c : nat) (t : tstate) : tres :=
  let k := t_k t in
  let start := mkT (mkK (k_state k) (k_col k) (k_fcg k) (k_rebuild k) (repeat false (st_num (k_state k)))) (t_q t) (t_par t) (t_hyp t) (t_sten t) in
  match typed_loop fuel c (st_num (k_state k)) 0 false start with
  | TDone t1 =>
      match cluster_shift is_emptyb solve o delayed_cut c (t_k t1) with
      | None => TAbort
      | Some k2 =>
          let s := k_state k2 in
          let pr := fst (dep_satisfaction_update is_emptyb (st_prog s) (nrows0 (st_prog s) - 1)) in
          TDone (mkT (mkK (mkState pr (st_adj s) (st_num s) (st_max s)) (k_col k2) (k_fcg k2) true (repeat false (st_num s)))
                   (t_q t1) (t_par t1) (t_hyp t1) (t_sten t1))
      end
  | r => r
  end.
Fixpoint typed_levels (fuel : nat) (cs : list nat) (t : tstate) : tres :=
  match cs with
  | [] => TDone t
  | c :: l => match typed_level fuel c t with TDone t' => typed_levels fuel l t' | r => r end
  end.

(** lib/pluto.c:1584-1668: the search without skewing; [sten] are the SCCs called stencils
    (StencilModel.v). *)
Definition typed_search (fuel : nat) (sten : list bool) (s : dstate) : tres :=
  let col := repeat 0 (scc_vertices s) in
  typed_levels fuel (seq 1 (p_nvar (st_prog s)))
    (with_build (mkT (mkK s col [] false (repeat false (st_num s))) [] [] sten sten) 1).

(** lib/pluto.c:1492-1850 [pluto_auto_transform] with options dfp, clusterscc and
    typedfuse, see [cluster_transform]. *)
Definition typed_transform (fuel : nat) (sten : list bool) (pr : prog) : cluster_outcome :=
  match typed_search fuel sten (dfp_start pr) with
  | TFuel => Running
  | TAbort => Aborted
  | TDone t =>
      let s := k_state (t_k t) in
      match introduce_skew is_emptyb solve o (st_prog s) with
      | None => Aborted
      | Some (pr1, skewed) => Transformed (denormalize_domains (st_prog (dfp_finish is_emptyb pr1 s))) skewed
      end
  end.
End Oracles.
