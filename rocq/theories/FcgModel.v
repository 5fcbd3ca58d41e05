(** * Model of the fusion conflict graph of the framework "dfp".

    /repo/lib/framework-dfp.c, for one vertex per dimension of a statement (without
    scc_cluster and typed fusion).  [feasible] is the linear program
    (lib/framework-dfp.c:212-226 [pluto_fusion_constraints_feasibility_solve], GLPK or
    Gurobi): whether it returns a solution.  The values of the solutions are not used. *)
From Coq Require Import ZArith List Bool Arith.
From Verif Require Import SpecLinear MathModel ConstraintsModel SpecProg SpecDriver SpecGraph GraphModel FrameworkModel ProgModel DriverModel DfpModel.
Import ListNotations.
Open Scope Z_scope.

Section Lp.
Variable feasible : cst -> bool.
Variable o : options.

(** The column of the coefficient of loop [j] of statement [s], of its shift for
    [j] = nvar, e.g. lib/framework-dfp.c:278-279. *)
Definition coef_col (pr : prog) (s j : nat) : nat := (p_npar pr + 1 + s * (p_nvar pr + 1) + j)%nat.

(** Row [i] of the last rows of the system, lib/framework-dfp.c:1133-1147: u and w are
    at least 0; the other unknowns are 0, except for those in [ones] (at least 1:
    311-313, 329-331, 724-725) and those in [free] (at least 0: 1174, 1178). *)
Definition unknown_row (pr : prog) (ones free : list nat) (i : nat) : row :=
  let w := cst_width pr in
  let r := set_nth i 1 (repeat 0 w) in
  if (i <? p_npar pr + 1)%nat then mkRow false r
  else if existsb (Nat.eqb i) ones then mkRow false (set_nth (w - 1) (-1) r)
  else mkRow (negb (existsb (Nat.eqb i) free)) r.

(** The system given to the solver, lib/framework-dfp.c:1116-1147, with the constraints
    [extra] of dependences. *)
Definition conflict_cst (pr : prog) (ones free : list nat) (extra : list row) : cst :=
  mkCst (cst_width pr)
    (rows (get_coeff_bounding_constraints o pr)
     ++ map (unknown_row pr ones free) (seq 0 (cst_width pr - 1)) ++ extra).

(** lib/framework-dfp.c:596-634 [compute_intra_stmt_deps]: the dependences of statement [s] on itself
    that count; their constraints. *)
Definition intra_deps (pr : prog) (s : nat) : list dep :=
  filter (fun d => negb (negb (o_rar o) && d_rar d) && negb (d_sat d) && (d_src d =? s)%nat && (d_dst d =? s)%nat) (p_deps pr).
Definition intra_rows (pr : prog) (s : nat) : list row := flat_map (fun d => rows (dep_cst o pr d)) (intra_deps pr s).

(** A vertex coloured before, lib/framework-dfp.c:300-303, 321-324, 714-717. *)
Definition coloured (col : list Z) (c : nat) (v : nat) : bool :=
  negb (nth v col 0 =? 0) && negb (nth v col 0 =? Z.of_nat c).

(** lib/framework-dfp.c:680-746 [add_permute_preventing_edges]. *)
Definition add_permute_preventing_edges (pr : prog) (col : list Z) (c : nat) (g : fcg) : fcg :=
  fold_left (fun g s =>
      match intra_deps pr s with
      | [] => g
      | _ =>
          fold_left (fun g j =>
              let v := (vertex_offset pr s + j)%nat in
              if coloured col c v then g
              else if feasible (conflict_cst pr [coef_col pr s j] [] (intra_rows pr s)) then g
              else set_adj g v v 1) (seq 0 (s_dim_orig (stmt_of pr s))) g
      end) (seq 0 (length (p_stmts pr))) g.

(** lib/framework-dfp.c:253-268: the dependences between two statements. *)
Definition between_deps (pr : prog) (s1 s2 : nat) : list dep :=
  filter (fun d => negb (d_sat d) && (((d_src d =? s1)%nat && (d_dst d =? s2)%nat) || ((d_src d =? s2)%nat && (d_dst d =? s1)%nat))) (p_deps pr).
Definition pair_rows (pr : prog) (s1 s2 : nat) : list row :=
  flat_map (fun d => rows (dep_cst o pr d)) (between_deps pr s1 s2) ++ intra_rows pr s1 ++ intra_rows pr s2.

(** lib/framework-dfp.c:224-368 [fcg_add_pairwise_edges], with check_parallel = false
    (281-290: typed fusion only).  The shifts of both statements are released
    in 1174 and 1178. *)
Definition add_pairwise_edges (pr : prog) (col : list Z) (c : nat) (s1 s2 : nat) (g : fcg) : fcg :=
  let o1 := vertex_offset pr s1 in
  let o2 := vertex_offset pr s2 in
  let dims2 := seq 0 (s_dim_orig (stmt_of pr s2)) in
  fold_left (fun g i =>
      if coloured col c (o1 + i) then g
      else if adj g (o1 + i) (o1 + i) =? 1 then
        fold_left (fun g j => set_adj g (o1 + i) (o2 + j) 1) dims2 g
      else
        fold_left (fun g j =>
            if coloured col c (o2 + j) then g
            else if adj g (o1 + i) (o1 + i) =? 1 then set_adj g (o1 + i) (o2 + j) 1
            else if feasible (conflict_cst pr [coef_col pr s1 i; coef_col pr s2 j]
                                [coef_col pr s1 (p_nvar pr); coef_col pr s2 (p_nvar pr)] (pair_rows pr s1 s2)) then g
            else set_adj g (o1 + i) (o2 + j) 1) dims2 g)
    (seq 0 (s_dim_orig (stmt_of pr s1))) g.

(** lib/framework-dfp.c:1172-1185: all pairs adjacent in the dependence graph [ddg]. *)
Definition add_all_pairwise_edges (pr : prog) (ddg : list (list Z)) (col : list Z) (c : nat) (g : fcg) : fcg :=
  let n := length (p_stmts pr) in
  fold_left (fun g i =>
      fold_left (fun g j => if is_adjacent ddg i j then add_pairwise_edges pr col c i j g else g)
        (seq (S i) (n - S i)) g)
    (seq 0 (n - 1)) g.

(** lib/framework-dfp.c:1193-1207: edges between the dimensions of a statement. *)
Definition add_stmt_edges (pr : prog) (g : fcg) : fcg :=
  fold_left (fun g s =>
      let off := vertex_offset pr s in
      fold_left (fun g j =>
          fold_left (fun g k => set_adj (set_adj g j k 1) k j 1)
            (seq (S j) (off + s_dim_orig (stmt_of pr s) - S j)) g)
        (seq off (s_dim_orig (stmt_of pr s))) g)
    (seq 0 (length (p_stmts pr))) g.

(** lib/framework-dfp.c:984-1009 [are_sccs_fused]. *)
Definition are_sccs_fused (s : dstate) (scc1 scc2 : Z) : bool :=
  let pr := st_prog s in
  let first k := stmt_of pr (hd 0%nat (scc_stmts s (Z.to_nat k))) in
  forallb (fun l => is_loop_type (nth l (p_hprops pr) H_UNKNOWN)
                    || (nth (p_nvar pr + p_npar pr) (nth l (mrows (s_trans (first scc1))) []) 0
                        =? nth (p_nvar pr + p_npar pr) (nth l (mrows (s_trans (first scc2))) []) 0))
    (seq 0 (length (p_hprops pr))).

(** lib/framework-dfp.c:1012-1070 [add_must_distribute_edges], lines 1047-1069. *)
Definition must_distribute_pair (s : dstate) (i j : nat) : bool :=
  let pr := st_prog s in
  negb (is_adjacent (compute_transitive_closure (length (p_stmts pr)) (graph_of pr)) i j)
  && are_sccs_fused s (s_scc (stmt_of pr i)) (s_scc (stmt_of pr j)).
Definition add_must_distribute_edges (s : dstate) (g : fcg) : fcg :=
  let pr := st_prog s in
  let n := length (p_stmts pr) in
  fold_left (fun g i =>
      fold_left (fun g j =>
          if must_distribute_pair s i j then
            fold_left (fun g k =>
                fold_left (fun g l => set_adj g (vertex_offset pr i + k) (vertex_offset pr j + l) 1)
                  (seq 0 (s_dim_orig (stmt_of pr j))) g)
              (seq 0 (s_dim_orig (stmt_of pr i))) g
          else g)
        (seq (S i) (n - S i)) g)
    (seq 0 n) g.

(** lib/framework-dfp.c:1080-1224 [build_fusion_conflict_graph]. *)
Definition build_fcg (s : dstate) (col : list Z) (c : nat) : fcg :=
  let pr := st_prog s in
  let n := num_vertices pr in
  let g0 := repeat (repeat 0 n) n in
  let g1 := add_permute_preventing_edges pr col c g0 in
  let g2 := add_all_pairwise_edges pr (st_adj s) col c g1 in
  let g3 := add_stmt_edges pr g2 in
  if (c =? 1)%nat then add_must_distribute_edges s g3 else g3.

(** lib/framework-dfp.c:903-964 [update_fcg_between_sccs]; the assertion in line 914 is in
    [update_graph] of DfpModel.v.  With NoFuse both offsets are those of statement i
    (932-933).  [None]: an access outside of the adjacency matrix. *)
Definition clear_block (n o1 o2 n1 n2 : nat) (g : fcg) : option fcg :=
  if (n1 =? 0)%nat || (n2 =? 0)%nat || ((o1 + n1 <=? n)%nat && (o2 + n2 <=? n)%nat) then
    Some (fold_left (fun g k =>
        fold_left (fun g l => set_adj (set_adj g (o1 + k) (o2 + l) 0) (o2 + l) (o1 + k) 0) (seq 0 n2) g)
      (seq 0 n1) g)
  else None.
Fixpoint fold_opt {A B} (f : A -> B -> option A) (l : list B) (a : A) : option A :=
  match l with
  | [] => Some a
  | b :: l' => match f a b with Some a' => fold_opt f l' a' | None => None end
  end.
Definition last_value (pr : prog) (st : stmt) : Z :=
  nth (p_nvar pr + p_npar pr) (nth (mnrows (s_trans st) - 1) (mrows (s_trans st)) []) 0.
Definition update_fcg (fuse : fusion) (s : dstate) (g : fcg) (scc1 scc2 : nat) : option fcg :=
  let pr := st_prog s in
  let n := length (p_stmts pr) in
  let dim k := s_dim_orig (stmt_of pr k) in
  if (n =? 1)%nat then Some g
  else match fuse with
  | NoFuse =>
      fold_opt (fun g i =>
          fold_opt (fun g j =>
              if negb (last_value pr (stmt_of pr i) =? last_value pr (stmt_of pr j))
              then clear_block (num_vertices pr) (vertex_offset pr i) (vertex_offset pr i) (dim i) (dim j) g else Some g)
            (seq 0 i) g)
        (seq 1 (n - 1)) g
  | _ =>
      fold_opt (fun g i =>
          fold_opt (fun g j =>
              if ((Z.of_nat scc2 <=? s_scc (stmt_of pr i)) && (s_scc (stmt_of pr j) <? Z.of_nat scc2))
                 || ((Z.of_nat scc2 <=? s_scc (stmt_of pr j)) && (s_scc (stmt_of pr i) <? Z.of_nat scc2))
              then clear_block (num_vertices pr) (vertex_offset pr i) (vertex_offset pr j) (dim i) (dim j) g else Some g)
            (seq 0 n) g)
        (seq 0 n) g
  end.
End Lp.
