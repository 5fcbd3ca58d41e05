(** * Model of program editing: /repo/lib/program.cpp and /repo/lib/transforms.c.

    Simplifications that apply to the whole file: names (iterators, parameters,
    statement text), [transdeps] (edited exactly like [deps]) and the fields of
    hProps other than [type] are not modelled.  [assert] failures are not
    modelled; the theorems assume the asserted conditions. *)
From Coq Require Import ZArith List Bool Arith.
From Verif Require Import SpecLinear MathModel ConstraintsModel SpecProg.
Import ListNotations.
Open Scope Z_scope.

(** Field updates. *)
Definition set_trans (st : stmt) (m : matrix) : stmt :=
  mkStmt (s_dim st) (s_dim_orig st) (s_orig st) (s_domain st) m (s_hyp st) (s_scc st) (s_cc st)
    (s_reads st) (s_writes st) (s_evict st) (s_num_tiled st) (s_ftd st) (s_ltd st).
Definition set_hyp (st : stmt) (h : list hyptype) : stmt :=
  mkStmt (s_dim st) (s_dim_orig st) (s_orig st) (s_domain st) (s_trans st) h (s_scc st) (s_cc st)
    (s_reads st) (s_writes st) (s_evict st) (s_num_tiled st) (s_ftd st) (s_ltd st).
Definition set_domain (st : stmt) (c : cst) : stmt :=
  mkStmt (s_dim st) (s_dim_orig st) (s_orig st) c (s_trans st) (s_hyp st) (s_scc st) (s_cc st)
    (s_reads st) (s_writes st) (s_evict st) (s_num_tiled st) (s_ftd st) (s_ltd st).
Definition set_orig (st : stmt) (l : list bool) : stmt :=
  mkStmt (s_dim st) (s_dim_orig st) l (s_domain st) (s_trans st) (s_hyp st) (s_scc st) (s_cc st)
    (s_reads st) (s_writes st) (s_evict st) (s_num_tiled st) (s_ftd st) (s_ltd st).
Definition set_evict (st : stmt) (e : option (list Z)) : stmt :=
  mkStmt (s_dim st) (s_dim_orig st) (s_orig st) (s_domain st) (s_trans st) (s_hyp st) (s_scc st) (s_cc st)
    (s_reads st) (s_writes st) e (s_num_tiled st) (s_ftd st) (s_ltd st).
Definition set_tile (st : stmt) (n : nat) (f l : Z) : stmt :=
  mkStmt (s_dim st) (s_dim_orig st) (s_orig st) (s_domain st) (s_trans st) (s_hyp st) (s_scc st) (s_cc st)
    (s_reads st) (s_writes st) (s_evict st) n f l.
Definition set_scc (st : stmt) (scc : Z) : stmt :=
  mkStmt (s_dim st) (s_dim_orig st) (s_orig st) (s_domain st) (s_trans st) (s_hyp st) scc (s_cc st)
    (s_reads st) (s_writes st) (s_evict st) (s_num_tiled st) (s_ftd st) (s_ltd st).
Definition set_stmts (pr : prog) (l : list stmt) : prog :=
  mkProg (p_nvar pr) (p_npar pr) l (p_deps pr) (p_hprops pr).
Definition set_hprops (pr : prog) (h : list hyptype) : prog :=
  mkProg (p_nvar pr) (p_npar pr) (p_stmts pr) (p_deps pr) h.
Definition set_polys (d : dep) (c b : cst) : dep :=
  mkDep (d_src d) (d_dst d) (d_rar d) c b (d_sat d) (d_level d) (d_satvec d) (d_dirs d).

(** ** Dimensions of a statement *)

(** lib/program.cpp:1005-1052, the statement part of [pluto_stmt_add_dim]
    ([None] is time_pos = -1).  The new coordinate gets column [pos]
    everywhere; with [Some k] a schedule row equal to the new coordinate is
    inserted at row [k]. *)
Definition stmt_add_dim1 (pos : nat) (time_pos : option nat) (ht : hyptype) (st : stmt) : stmt :=
  let t1 := matrix_add_col (s_trans st) pos in
  mkStmt (S (s_dim st)) (s_dim_orig st) (insert_at pos true (s_orig st)) (add_dim (s_domain st) pos)
    (match time_pos with
     | None => t1
     | Some k => mkMat (mncols t1) (map_nth k (set_nth pos 1) (mrows (matrix_add_row t1 k)))
     end)
    (match time_pos with None => s_hyp st | Some k => insert_at k ht (s_hyp st) end)
    (s_scc st) (s_cc st)
    (map (fun a => matrix_add_col a pos) (s_reads st)) (map (fun a => matrix_add_col a pos) (s_writes st))
    (s_evict st) (s_num_tiled st) (s_ftd st) (s_ltd st).

(** lib/program.cpp:1054-1067, the dependence part: [stmts] are the statements
    after the update of the statement. *)
Definition dep_add_dim (sid pos : nat) (stmts : list stmt) (d : dep) : dep :=
  let d1 := if (d_src d =? sid)%nat then set_polys d (add_dim (d_poly d) pos) (add_dim (d_bpoly d) pos) else d in
  if (d_dst d =? sid)%nat then
    let q := (s_dim (nth (d_src d) stmts dummy_stmt) + pos)%nat in
    set_polys d1 (add_dim (d_poly d1) q) (add_dim (d_bpoly d1) q)
  else d1.

(** lib/program.cpp:1002-1084 [pluto_stmt_add_dim]. *)
Definition stmt_add_dim (pr : prog) (sid pos : nat) (time_pos : option nat) (ht : hyptype) : prog :=
  let stmts := map_nth sid (stmt_add_dim1 pos time_pos ht) (p_stmts pr) in
  mkProg (p_nvar pr) (p_npar pr) stmts (map (dep_add_dim sid pos stmts) (p_deps pr)) (p_hprops pr).

(** lib/program.cpp:1088-1145 [pluto_stmt_remove_dim]; only [dpolytope] is
    edited, not [bounding_poly]. *)
Definition stmt_remove_dim1 (pos : nat) (st : stmt) : stmt :=
  mkStmt (s_dim st - 1) (s_dim_orig st) (remove_at pos (s_orig st)) (remove_dim (s_domain st) pos)
    (matrix_remove_col (s_trans st) pos) (s_hyp st) (s_scc st) (s_cc st)
    (map (fun a => matrix_remove_col a pos) (s_reads st)) (map (fun a => matrix_remove_col a pos) (s_writes st))
    (s_evict st) (s_num_tiled st) (s_ftd st) (s_ltd st).
Definition dep_remove_dim (sid pos : nat) (stmts : list stmt) (d : dep) : dep :=
  let d1 := if (d_src d =? sid)%nat then set_polys d (remove_dim (d_poly d) pos) (d_bpoly d) else d in
  if (d_dst d =? sid)%nat then
    set_polys d1 (remove_dim (d_poly d1) (s_dim (nth (d_src d) stmts dummy_stmt) + pos)) (d_bpoly d1)
  else d1.
Definition stmt_remove_dim (pr : prog) (sid pos : nat) : prog :=
  let stmts := map_nth sid (stmt_remove_dim1 pos) (p_stmts pr) in
  mkProg (p_nvar pr) (p_npar pr) stmts (map (dep_remove_dim sid pos stmts) (p_deps pr)) (p_hprops pr).

(** lib/transforms.c:23-33 [pluto_sink_statement]. *)
Definition sink_statement (pr : prog) (sid depth : nat) (val : Z) : prog :=
  let pr' := stmt_add_dim pr sid depth None H_SCALAR in
  set_stmts pr' (map_nth sid (fun st =>
    set_orig (set_domain st (set_var (s_domain st) depth val)) (set_nth depth false (s_orig st))) (p_stmts pr')).

(** lib/transforms.c:37-57 [pluto_stripmine]; the second component tells whether
    the write of line 56 stays inside of the constraint matrix, i.e. whether its
    column number is smaller than the number of columns; a write outside of the
    matrix does not change the modelled constraints. *)
Definition stripmine_row (t : list Z) (factor sign : Z) : list Z :=
  map (fun j => if (j =? 0)%nat then sign * factor
                else if (j <? length t - 1)%nat then - sign * nth j t 0 else 0) (seq 0 (length t)).
Definition stripmine (pr : prog) (sid dim : nat) (factor : Z) : prog * bool :=
  let pr' := stmt_add_dim pr sid 0 (Some dim) H_TILE_SPACE_LOOP in
  let st := stmt_of pr' sid in
  let t := nth (S dim) (mrows (s_trans st)) [] in
  let n := ncols (s_domain st) in
  let r1 := stripmine_row t factor (-1) in
  let r2 := stripmine_row t factor 1 in
  let dom := mkCst n (rows (s_domain st) ++
               [mkRow false r1;
                mkRow false (map_nth (mncols (s_trans st)) (fun x => x + factor) r2)]) in
  (set_stmts pr' (map_nth sid (fun st => set_domain st dom) (p_stmts pr')),
   (mncols (s_trans st) <? n)%nat).

(** ** Parameters *)

(** lib/program.cpp:954-990 [pluto_prog_add_param]; the contexts are not
    modelled.  Note that [bounding_poly] is not edited by the code. *)
Definition stmt_add_param (npar pos : nat) (st : stmt) : stmt :=
  mkStmt (s_dim st) (s_dim_orig st) (s_orig st)
    (add_dim (s_domain st) (ncols (s_domain st) - 1 - npar + pos))
    (matrix_add_col (s_trans st) (mncols (s_trans st) - 1 - npar + pos))
    (s_hyp st) (s_scc st) (s_cc st)
    (map (fun a => matrix_add_col a (s_dim st + pos)) (s_reads st))
    (map (fun a => matrix_add_col a (s_dim st + pos)) (s_writes st))
    (s_evict st) (s_num_tiled st) (s_ftd st) (s_ltd st).
Definition prog_add_param (pr : prog) (pos : nat) : prog :=
  mkProg (p_nvar pr) (S (p_npar pr)) (map (stmt_add_param (p_npar pr) pos) (p_stmts pr))
    (map (fun d => set_polys d (add_dim (d_poly d) (ncols (d_poly d) - 1 - p_npar pr + pos)) (d_bpoly d))
       (p_deps pr))
    (p_hprops pr).

(** ** Removing a statement *)

(** The array [prog->stmts] (pointers, here numbers of the statements in the
    original program), the field [id] of each statement, and the dependences. *)
Record rm_state := mkRm { rm_order : list nat; rm_ids : list nat; rm_deps : list dep }.

(** lib/program.cpp:2228-2242 [decrement_stmt_id]. *)
Definition set_ends (d : dep) (s t : nat) : dep :=
  mkDep s t (d_rar d) (d_poly d) (d_bpoly d) (d_sat d) (d_level d) (d_satvec d) (d_dirs d).
Definition decrement_stmt_id (r : rm_state) (id : nat) : rm_state :=
  mkRm (rm_order r) (map_nth (nth id (rm_order r) 0%nat) pred (rm_ids r))
    (map (fun d => set_ends d (if (d_src d =? id)%nat then pred (d_src d) else d_src d)
                              (if (d_dst d =? id)%nat then pred (d_dst d) else d_dst d)) (rm_deps r)).

(** lib/program.cpp:2245-2263 [pluto_remove_stmt]: the loop, then the shorter
    array. *)
Definition remove_stmt_step (r : rm_state) (i : nat) : rm_state :=
  let p := nth (S i) (rm_order r) 0%nat in
  let r1 := mkRm (set_nth i p (rm_order r)) (rm_ids r) (rm_deps r) in
  decrement_stmt_id r1 (nth p (rm_ids r1) 0%nat).
Definition remove_stmt_loop (n sid : nat) (deps : list dep) : rm_state :=
  fold_left remove_stmt_step (seq sid (n - 1 - sid)) (mkRm (seq 0 n) (seq 0 n) deps).

(** The resulting program: the statement at position k is the one whose pointer
    is stored there. *)
Definition remove_stmt (pr : prog) (sid : nat) : prog :=
  let n := length (p_stmts pr) in
  let r := remove_stmt_loop n sid (p_deps pr) in
  let stmts := map (fun p => nth p (p_stmts pr) dummy_stmt) (firstn (n - 1) (rm_order r)) in
  mkProg (fold_left (fun m st => Nat.max m (s_dim st)) stmts (p_nvar pr)) (p_npar pr)
    stmts (rm_deps r) (p_hprops pr).
(** The ids stored in the statements of the result. *)
Definition remove_stmt_ids (pr : prog) (sid : nat) : list nat :=
  let n := length (p_stmts pr) in
  let r := remove_stmt_loop n sid (p_deps pr) in
  map (fun p => nth p (rm_ids r) 0%nat) (firstn (n - 1) (rm_order r)).

(** ** Schedule rows *)

(** lib/program.cpp:1147-1163 [pluto_stmt_add_hyperplane]. *)
Definition stmt_add_hyperplane (st : stmt) (ht : hyptype) (pos : nat) : stmt :=
  mkStmt (s_dim st) (s_dim_orig st) (s_orig st) (s_domain st) (matrix_add_row (s_trans st) pos)
    (insert_at pos ht (s_hyp st)) (s_scc st) (s_cc st) (s_reads st) (s_writes st) (s_evict st) (s_num_tiled st)
    (if s_ftd st >=? Z.of_nat pos then s_ftd st + 1 else s_ftd st)
    (if s_ltd st >=? Z.of_nat pos then s_ltd st + 1 else s_ltd st).

(** lib/program.cpp:1165-1183 [pluto_prog_add_hyperplane]. *)
Definition prog_add_hyperplane (pr : prog) (pos : nat) (ht : hyptype) : prog :=
  set_hprops pr (insert_at pos ht (p_hprops pr)).

(** lib/transforms.c:81-98 [pluto_sink_transformation]. *)
Definition sink_transformation (st : stmt) (pos : nat) : stmt :=
  set_hyp (set_trans st (matrix_add_row (s_trans st) pos)) (insert_at pos H_SCALAR (s_hyp st)).

(** lib/program.cpp:1210-1245 [pluto_pad_stmt_transformations] (statements
    always have a transformation here). *)
Fixpoint pad_stmt (n : nat) (st : stmt) : stmt :=
  match n with
  | O => st
  | S n' => pad_stmt n' (stmt_add_hyperplane st H_SCALAR (mnrows (s_trans st)))
  end.
Fixpoint pad_hprops (n : nat) (h : list hyptype) : list hyptype :=
  match n with
  | O => h
  | S n' => pad_hprops n' (insert_at (length h) H_SCALAR h)
  end.
Definition max_nrows (l : list stmt) : nat := fold_left (fun m st => Nat.max m (mnrows (s_trans st))) l 0%nat.
Definition pad_stmt_transformations (pr : prog) : prog :=
  let m := max_nrows (p_stmts pr) in
  if (1 <=? m)%nat then
    mkProg (p_nvar pr) (p_npar pr) (map (fun st => pad_stmt (m - mnrows (s_trans st)) st) (p_stmts pr))
      (p_deps pr) (pad_hprops (m - length (p_hprops pr)) (p_hprops pr))
  else pr.

(** lib/program.cpp:1248-1260 [pluto_add_given_stmt]; also the effect of
    [pluto_add_stmt], lines 1268-1293. *)
Definition add_given_stmt (pr : prog) (st : stmt) : prog :=
  pad_stmt_transformations
    (mkProg (Nat.max (p_nvar pr) (s_dim st)) (p_npar pr) (p_stmts pr ++ [st]) (p_deps pr) (p_hprops pr)).

(** Write the constant of row [level] of the transformation. *)
Definition set_row_const (level : nat) (v : Z) (st : stmt) : stmt :=
  set_trans st (mkMat (mncols (s_trans st))
    (map_nth level (set_nth (mncols (s_trans st) - 1) v) (mrows (s_trans st)))).

(** lib/program.cpp:2030-2046 [pluto_separate_stmts]; [l] lists the numbers of
    the statements. *)
Definition separate_stmts (pr : prog) (l : list nat) (level : nat) (offset : Z) : prog :=
  let stmts := map (fun st => stmt_add_hyperplane st H_SCALAR level) (p_stmts pr) in
  let stmts2 := fold_left (fun ss kv => map_nth (snd kv) (set_row_const level (offset + 1 + Z.of_nat (fst kv))) ss)
                  (combine (seq 0 (length l)) l) stmts in
  prog_add_hyperplane (set_stmts pr stmts2) level H_SCALAR.

(** lib/program.cpp:2049-2062 [pluto_separate_stmt]. *)
Definition separate_stmt (pr : prog) (sid level : nat) : prog :=
  let stmts := map (fun st => stmt_add_hyperplane st H_SCALAR level) (p_stmts pr) in
  prog_add_hyperplane (set_stmts pr (map_nth sid (set_row_const level 1) stmts)) level H_SCALAR.

(** ** Loop interchange *)

(** lib/transforms.c:60-66 [pluto_stmt_loop_interchange]. *)
Definition stmt_loop_interchange (l1 l2 : nat) (st : stmt) : stmt :=
  set_trans st (matrix_interchange_rows (s_trans st) l1 l2).

(** lib/transforms.c:68-79 [pluto_interchange]. *)
Definition interchange (pr : prog) (l1 l2 : nat) : prog :=
  mkProg (p_nvar pr) (p_npar pr) (map (stmt_loop_interchange l1 l2) (p_stmts pr)) (p_deps pr)
    (swap_nth H_UNKNOWN l1 l2 (p_hprops pr)).

(** lib/program.cpp:1866-1875 [pluto_is_hyperplane_scalar]. *)
Definition is_hyperplane_scalar (st : stmt) (level : nat) : bool :=
  forallb (fun j => mget (s_trans st) level j =? 0) (seq 0 (s_dim st)).

(** A loop of the transformed program, [struct ploop] in lib/pluto.h: its depth
    and the numbers of its statements. *)
Record ploop := mkPloop { l_depth : nat; l_stmts : list nat }.

(** lib/transforms.c:117-122: first scalar level from [d] on (at most [n] more
    levels are tried), then [d - 1] in unsigned arithmetic (32 bits). *)
Fixpoint first_scalar (st : stmt) (n d : nat) : nat :=
  match n with
  | O => d
  | S n' => if is_hyperplane_scalar st d then d else first_scalar st n' (S d)
  end.
Definition pred_unsigned (d : nat) : Z := if (d =? 0)%nat then 2 ^ 32 - 1 else Z.of_nat d - 1.
Definition last_depth (pr : prog) (lp : ploop) : Z :=
  fold_left (fun ld s =>
    let st := stmt_of pr s in
    Z.min ld (pred_unsigned (first_scalar st (mnrows (s_trans st) - l_depth lp) (l_depth lp))))
    (l_stmts lp) (Z.of_nat (length (p_hprops pr)) - 1).

(** lib/transforms.c:127-129: successive interchanges of d and d+1. *)
Definition rotate_stmt (from to : nat) (st : stmt) : stmt :=
  fold_left (fun s d => stmt_loop_interchange d (S d) s) (seq from (to - from)) st.

(** lib/transforms.c:106-144 [pluto_make_innermost_loop]; both branches do the
    same interchanges up to a different last level. *)
Definition make_innermost_loop (pr : prog) (lp : ploop) (last_level : nat) (across : bool) : prog :=
  let to := if across then (last_level - 1)%nat else Z.to_nat (last_depth pr lp) in
  set_stmts pr (fold_left (fun ss s => map_nth s (rotate_stmt (l_depth lp) to) ss) (l_stmts lp) (p_stmts pr)).
