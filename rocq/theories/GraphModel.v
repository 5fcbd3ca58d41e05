(** * Model of /repo/lib/ddg.c and of the graph functions of /repo/lib/pluto.c.

    A graph is its adjacency matrix (list of rows); the vertex attributes vn, fn,
    cc_id, scc_id are separate lists indexed by the vertex number ([vertices[i].id]
    is always i, lib/ddg.c:31-33). *)
From Coq Require Import ZArith List Bool Arith.
From Verif Require Import SpecLinear SpecGraph MathModel.
Import ListNotations.
Open Scope Z_scope.

(** lib/ddg.c:72-85 [graph_transpose] (adjacency). *)
Definition graph_transpose (n : nat) (g : list (list Z)) : list (list Z) :=
  map (fun j => map (fun i => adj g i j) (seq 0 n)) (seq 0 n).

(** lib/ddg.c:89-101 [get_undirected_graph]: entry (i,j) and (j,i) for j <= i. *)
Definition get_undirected_graph (n : nat) (g : list (list Z)) : list (list Z) :=
  map (fun i => map (fun j =>
      let hi := Nat.max i j in
      let lo := Nat.min i j in
      if adj g hi lo =? 0 then adj g lo hi else adj g hi lo) (seq 0 n)) (seq 0 n).

(** Write entry (i, j). *)
Definition set_adj (g : list (list Z)) (i j : nat) (v : Z) : list (list Z) :=
  map_nth i (set_nth j v) g.

(** lib/ddg.c:104-114 [compute_transitive_closure]: in place, innermost loop k. *)
Definition truth (z : Z) : bool := negb (z =? 0).
Definition closure_step (g : list (list Z)) (i j k : nat) : list (list Z) :=
  set_adj g i j (if truth (adj g i j) || (truth (adj g i k) && truth (adj g k j)) then 1 else 0).
Definition compute_transitive_closure (n : nat) (g : list (list Z)) : list (list Z) :=
  fold_left (fun g i =>
    fold_left (fun g j =>
      fold_left (fun g k => closure_step g i j k) (seq 0 n) g) (seq 0 n) g) (seq 0 n) g.

(** Depth first search state: time, vn, fn and cc_id of all vertices. *)
Record dstate := mkD { dtime : nat; vn : list nat; fn : list nat; ccid : list Z }.

(** lib/ddg.c:117-134 [dfs_vertex].  [fuel] bounds the recursion depth; [n]
    vertices. *)
Fixpoint dfs_vertex (fuel n : nat) (g : list (list Z)) (v : nat) (st : dstate) : dstate :=
  match fuel with
  | O => st
  | S f =>
      let t := S (dtime st) in
      let st1 := mkD t (set_nth v t (vn st)) (fn st) (ccid st) in
      let st2 :=
        fold_left (fun st j =>
          if truth (adj g v j) then
            let st' := mkD (dtime st) (vn st) (fn st) (set_nth j (nth v (ccid st) 0) (ccid st)) in
            if (nth j (vn st') 0 =? 0)%nat then dfs_vertex f n g j st' else st'
          else st) (seq 0 n) st1 in
      let t' := S (dtime st2) in
      mkD t' (vn st2) (set_nth v t' (fn st2)) (ccid st2)
  end.

(** lib/ddg.c:137-150 [dfs].  The recursion depth is at most the number of
    vertices, so the fuel [n] is enough. *)
Definition dfs (n : nat) (g : list (list Z)) (fn0 : list nat) (cc0 : list Z) : dstate :=
  fold_left (fun st i =>
      if (nth i (vn st) 0 =? 0)%nat then dfs_vertex n n g i st else st)
    (seq 0 n) (mkD 0 (repeat 0%nat n) fn0 cc0).

(** [qsort] with [compar] (lib/ddg.c:153-166, 188): ascending by finish time;
    insertion sort.  Finish times are distinct, so every sort agrees. *)
Fixpoint insert_fn (f : nat -> nat) (v : nat) (l : list nat) : list nat :=
  match l with
  | [] => [v]
  | w :: l' => if (f v <=? f w)%nat then v :: l else w :: insert_fn f v l'
  end.
Definition sort_fn (f : nat -> nat) (l : list nat) : list nat :=
  fold_right (insert_fn f) [] l.

(** The marking loop lib/ddg.c:198-203. *)
Definition mark_scc (num : nat) (vns : list nat) (scc : list Z) : list Z :=
  zip_with (fun s v => if (s =? -1) && negb (v =? 0)%nat then Z.of_nat num else s) scc vns.

(** lib/ddg.c:174-213 [dfs_for_scc]: (scc_id of each vertex, number of SCCs).
    [fns] are the finish numbers the graph comes with. *)
Definition dfs_for_scc (n : nat) (g : list (list Z)) (fns : list nat) : list Z * nat :=
  let order := rev (sort_fn (fun v => nth v fns 0%nat) (seq 0 n)) in
  let '(_, scc, num) :=
    fold_left (fun (acc : dstate * list Z * nat) v =>
        let '(st, scc, num) := acc in
        if (nth v (vn st) 0 =? 0)%nat then
          let st' := dfs_vertex n n g v st in
          (st', mark_scc num (vn st') scc, S num)
        else acc)
      order (mkD 0 (repeat 0%nat n) fns (repeat 0 n), repeat (-1) n, 0%nat) in
  (scc, num).

(** lib/pluto.c:2018-2053 [ddg_compute_scc]: (scc_id, num_sccs). *)
Definition ddg_compute_scc (n : nat) (g : list (list Z)) (fn0 : list nat) (cc0 : list Z) : list Z * nat :=
  let st := dfs n g fn0 cc0 in
  dfs_for_scc n (graph_transpose n g) (fn st).

(** lib/pluto.c:1966-1980 [get_scc_size]. *)
Definition get_scc_size (scc : list Z) (id : Z) : nat := length (filter (fun s => s =? id) scc).

(** lib/pluto.c:1950-1964 [get_max_orig_dim_in_scc]; [dims] are the dim_orig. *)
Definition get_max_orig_dim_in_scc (scc : list Z) (dims : list nat) (id : Z) : Z :=
  fold_left (fun m p => if fst p =? id then Z.max m (Z.of_nat (snd p)) else m) (combine scc dims) (-1).

(** lib/ddg.c:224-241 [compute_scc_vertices], for one SCC. *)
Definition scc_vertices (n : nat) (scc : list Z) (id : Z) : list nat :=
  filter (fun j => nth j scc 0 =? id) (seq 0 n).

(** lib/pluto.c:1983-2015 [ddg_compute_cc]: (cc_id of each vertex, num_ccs). *)
Definition ddg_compute_cc (n : nat) (g : list (list Z)) (cc0 : list Z) : list Z * nat :=
  let gU := get_undirected_graph n g in
  let '(_, out, num, _) :=
    fold_left (fun (acc : dstate * list Z * nat * Z) i =>
        let '(st, out, num, id) := acc in
        let '(st1, num1, id1) :=
          if (nth i (vn st) 0 =? 0)%nat then
            let id' := id + 1 in
            let st' := dfs_vertex n n gU i (mkD (dtime st) (vn st) (fn st) (set_nth i id' (ccid st))) in
            (mkD (dtime st') (vn st') (fn st') (set_nth i id' (ccid st')), S num, id')
          else (st, num, id) in
        let st2 := mkD (dtime st1) (vn st1) (fn st1) (set_nth i id1 (ccid st1)) in
        (st2, out ++ [nth i (ccid st2) 0], num1, id1))
      (seq 0 n) (mkD 0 (repeat 0%nat n) (repeat 0%nat n) cc0, [], 0%nat, -1) in
  (out, num).

(** A dependence as far as the DDG needs it: source and target statement, is it
    an input (RAR) dependence, has it been satisfied (lib/pluto.h, struct dependence;
    [dep_is_satisfied] is satisfied == true). *)
Record ddep := mkDD { dsrc : nat; ddst : nat; drar : bool; dsat : bool }.

(** lib/pluto.c:1932-1948 [ddg_create] and 1908-1929 [ddg_update]. *)
Definition ddg_create (n : nat) (deps : list ddep) : list (list Z) :=
  fold_left (fun g d =>
      if drar d then g
      else set_adj g (dsrc d) (ddst d)
             (adj g (dsrc d) (ddst d) + (if dsat d then 0 else 1)))
    deps (repeat (repeat 0 n) n).

(** lib/ddg.c:216-222 [is_adjacent]. *)
Definition is_adjacent (g : list (list Z)) (i j : nat) : bool :=
  truth (adj g i j) || truth (adj g j i).
