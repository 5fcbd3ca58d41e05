(** * Model of the loop marks set on the generated code, /repo/tool/ast_transform.c,
    with the functions of /repo/lib/polyloop.c and /repo/lib/program.cpp they use.

    The AST is created by CLooG (not part of /repo); it is given as the list of
    its loops. *)
From Coq Require Import ZArith List Bool Arith.
From Verif Require Import SpecLinear MathModel ConstraintsModel SpecProg ProgModel ExportModel LoopModel SpecMark VectorModel.
Import ListNotations.
Open Scope Z_scope.

(** [clast_filter] of CLooG with filter type [subset], as used in
    tool/ast_transform.c:69-72, 161-164, 217-220: the loops with this loop variable
    whose statements are all in the given list. *)
Definition clast_filter (ast : list code_loop) (level : nat) (stmts : list nat) : list code_loop :=
  filter (fun a => (c_level a =? level)%nat && stmt_is_subset_of (c_stmts a) stmts) ast.

(** ** Parallel loops *)

(** lib/polyloop.c:844-862: does the dependence stop the parallel band? *)
Definition stops_parallel_band (pr : prog) (lp : ploop) (depth : nat) (d : dep) : bool :=
  negb (d_rar d) && dep_in_loop lp d && negb (d_level d <? Z.of_nat (l_depth lp)) && nth depth (d_satvec d) false.

(** The do-loop lib/polyloop.c:843-866; [n] levels are left. *)
Fixpoint parallel_band_end (pr : prog) (lp : ploop) (n depth : nat) : nat :=
  match n with
  | O => depth
  | S n' => if existsb (stops_parallel_band pr lp depth) (p_deps pr) then depth else parallel_band_end pr lp n' (S depth)
  end.

(** lib/polyloop.c:868-870: scalar levels are peeled off from the end. *)
Fixpoint peel_parallel (pr : prog) (lp : ploop) (depth : nat) : nat :=
  match depth with
  | O => O
  | S k => if (l_depth lp <=? k)%nat && is_depth_scalar pr lp k then peel_parallel pr lp k else S k
  end.

(** lib/polyloop.c:833-880 [pluto_get_parallel_band]; [None] is a failing
    assertion.  The output innermost_split_level (872-875), which nobody uses, is
    left out. *)
Definition get_parallel_band (pr : prog) (lp : ploop) : option pband :=
  if is_depth_scalar pr lp (l_depth lp) then None
  else Some (mkPband lp (peel_parallel pr lp (parallel_band_end pr lp (length (p_hprops pr) - l_depth lp) (l_depth lp)) - l_depth lp)).

(** The loop tool/ast_transform.c:50-123 for one band: the loop that is looked for
    and the loops of the code found for it; [None]: no loop found, a warning is
    printed.  [n] bounds the number of rounds (each goes one level down). *)
Fixpoint find_parallel_loop (pr : prog) (ast : list code_loop) (b : pband) (n : nat) (curr : ploop) : option (ploop * list code_loop) :=
  match n with
  | O => None
  | S n' =>
      match clast_filter ast (l_depth curr) (l_stmts curr) with
      | [] =>
          match get_loops_immediately_inner pr curr with
          | [] => None
          | l :: _ => if (l_depth (pb_loop b) + pb_width b <? l_depth l)%nat then None else find_parallel_loop pr ast b n' l
          end
      | loops => Some (curr, loops)
      end
  end.

(** A mark "omp parallel for" with the list of private loop variables (their
    levels; lbv and ubv are always private). *)
Record par_mark := mkParMark { pm_loop : code_loop; pm_private : list nat }.

(** tool/ast_transform.c:56-61: max_depth; 101-105: private variables t(depth+2)
    .. t(max_depth), i.e. levels depth+1 .. max_depth-1. *)
Definition max_depth (pr : prog) (lp : ploop) : nat :=
  fold_left (fun m s => if (m <? mnrows (s_trans (stmt_of pr s)))%nat then mnrows (s_trans (stmt_of pr s)) else m) (l_stmts lp) 0%nat.
Definition private_vars (pr : prog) (lp : ploop) : list nat :=
  seq (S (l_depth lp)) (max_depth pr lp - S (l_depth lp)).

(** The marks set for one band. *)
Definition mark_band (pr : prog) (ast : list code_loop) (b : pband) : list par_mark :=
  match find_parallel_loop pr ast b (S (length (p_hprops pr))) (pb_loop b) with
  | None => []
  | Some (lp, loops) => map (fun a => mkParMark a (private_vars pr lp)) loops
  end.

(** All bands, lines 35-40; [None]: an assertion fails. *)
Fixpoint parallel_bands (pr : prog) (loops : list ploop) : option (list pband) :=
  match loops with
  | [] => Some []
  | lp :: ls =>
      match get_parallel_band pr lp, parallel_bands pr ls with
      | Some b, Some bs => if (pb_width b =? 0)%nat then None else Some (b :: bs)
      | _, _ => None
      end
  end.

(** tool/ast_transform.c:22-127 [pluto_mark_parallel] (called with the option
    --parallel, tool/pluto_codegen_if.c:287-289). *)
Definition mark_parallel (pr : prog) (ast : list code_loop) : option (list par_mark) :=
  option_map (flat_map (mark_band pr ast)) (parallel_bands pr (get_dom_parallel_loops pr)).

(** ** Vector loops *)

(** tool/ast_transform.c:192-243 [pluto_mark_vector]: the loops marked. *)
Definition mark_vector (pr : prog) (ast : list code_loop) : list code_loop :=
  flat_map (fun lp => if loop_is_innermost pr lp then clast_filter ast (l_depth lp) (l_stmts lp) else []) (get_parallel_loops pr).

(** ** Unroll and jam *)

(** The row lib/program.cpp:187-198 remembers: the last row that satisfies [test]. *)
Definition last_row (test : list Z -> bool) (rows : list row) : option (list Z) :=
  fold_left (fun o r => if test (coef r) then Some (coef r) else o) rows None.

(** lib/program.cpp:175-219 [pluto_check_supernode]: the tiled function and the
    tile size; the read val[r][pos] is outside of the row if pos >= ncols, this
    outcome is [None]. *)
Definition check_supernode (st : stmt) (pos : nat) : option (option (list Z * Z)) :=
  let n := ncols (s_domain st) in
  if (n <=? pos)%nat && negb (match rows (s_domain st) with [] => true | _ => false end) then None
  else
    Some
      match last_row (fun v => (1 <=? nth pos v 0) && (nth (n - 1) v 0 =? nth pos v 0 - 1)) (rows (s_domain st)),
            last_row (fun v => (nth pos v 0 <=? -1) && (nth (n - 1) v 0 =? 0)) (rows (s_domain st)) with
      | Some ub, Some lb =>
          if forallb (fun c => nth c ub 0 =? - nth c lb 0) (seq 0 (n - 1))
          then Some (map (fun c => if (c =? pos)%nat then 0 else nth c lb 0) (seq 0 n), nth pos ub 0)
          else None
      | _, _ => None
      end.

(** lib/program.cpp:221-231 [is_tile_space_loop]. *)
Definition is_tile_space_loop (pr : prog) (lp : ploop) : option bool :=
  option_map (fun o => match o with Some _ => true | None => false end)
    (check_supernode (stmt_of pr (hd 0%nat (l_stmts lp))) (l_depth lp)).

(** lib/polyloop.c:480-488 [get_max_dim] and the selection 501-508, 531-538. *)
Definition deepest_stmts (pr : prog) (stmts : list nat) : list nat :=
  let m := fold_left (fun m s => Nat.max m (s_dim (stmt_of pr s))) stmts 0%nat in
  filter (fun s => s_dim (stmt_of pr s) =? m)%nat stmts.

(** Accesses: an array (given by a number instead of its name) and a matrix of
    the transformed access function.  [names] lists the arrays of the accesses of
    a statement, reads before writes. *)
Definition access_same (a b : nat * matrix) : bool := (fst a =? fst b)%nat && matrices_equal (snd a) (snd b).

(** lib/program.cpp:2378-2441: accesses that differ in the array or in the matrix
    of the new access function; [None]: an assertion fails. *)
Definition unique_accesses (names : nat -> list nat) (pr : prog) (stmts : list nat) : option (list (nat * matrix)) :=
  fold_left (fun o (a : nat * (nat * matrix)) =>
    match o, get_new_access_func (snd (snd a)) (stmt_of pr (fst a)) with
    | Some l, Some (m, _) => let x := (fst (snd a), m) in Some (if existsb (access_same x) l then l else l ++ [x])
    | _, _ => None
    end)
    (flat_map (fun s => map (pair s) (combine (names s) (s_reads (stmt_of pr s) ++ s_writes (stmt_of pr s)))) stmts) (Some []).

(** lib/program.cpp:2461-2472 [get_num_unique_accesses_in_stmts]. *)
Definition num_unique_accesses (names : nat -> list nat) (pr : prog) (stmts : list nat) : option nat :=
  option_map (@length _) (unique_accesses names pr stmts).
(** lib/program.cpp:2474-2502 [is_access_invariant] and
    [get_num_invariant_accesses_in_stmts]. *)
Definition num_invariant_accesses (names : nat -> list nat) (pr : prog) (stmts : list nat) (depth : nat) : option nat :=
  option_map (fun l => length (filter (fun a => forallb (fun i => mget (snd a) i depth =? 0) (seq 0 (mnrows (snd a)))) l))
    (unique_accesses names pr stmts).

(** The maximum over the innermost loops under a loop, lib/polyloop.c:490-547
    [get_max_num_innermost_invariant_accesses], [get_max_num_innermost_accesses]. *)
Definition max_innermost (pr : prog) (lp : ploop) (num : list nat -> option nat) : option nat :=
  fold_left (fun o l => match o, num (deepest_stmts pr (l_stmts l)) with Some m, Some k => Some (Nat.max m k) | _, _ => None end)
    (filter (loop_is_innermost pr) (get_loops_under pr (l_stmts lp) (l_depth lp))) (Some 0%nat).

(** lib/polyloop.c:27. *)
Definition NUM_TOTAL_REGISTERS : Z := 32.

(** lib/polyloop.c:549-573 [is_unroll_jam_profitable]. *)
Definition is_unroll_jam_profitable (names : nat -> list nat) (ufactor : Z) (pr : prog) (lp : ploop) : option bool :=
  match max_innermost pr lp (fun l => num_invariant_accesses names pr l (l_depth lp)),
        max_innermost pr lp (num_unique_accesses names pr) with
  | Some t, Some a =>
      Some (negb (t =? 0)%nat && (0 <=? NUM_TOTAL_REGISTERS - (Z.of_nat a * ufactor - Z.of_nat t * (ufactor - 1))))
  | _, _ => None
  end.

(** The filter lib/polyloop.c:587-600; [profit] is the cost function. *)
Definition keep_unroll_jam (profit : prog -> ploop -> option bool) (pr : prog) (lp : ploop) : option bool :=
  match is_tile_space_loop pr lp with
  | None => None
  | Some true => Some false
  | Some false => if loop_is_innermost pr lp then Some false else profit pr lp
  end.
Fixpoint filter_loops (keep : ploop -> option bool) (l : list ploop) : option (list ploop) :=
  match l with
  | [] => Some []
  | x :: l' => match keep x, filter_loops keep l' with Some b, Some r => Some (if b then x :: r else r) | _, _ => None end
  end.

(** lib/polyloop.c:575-606 [pluto_get_unroll_jam_loops]; [None]: an assertion
    fails or a read outside of a row. *)
Definition get_unroll_jam_loops (profit : prog -> ploop -> option bool) (pr : prog) : option (list ploop) :=
  match get_innermost_permutable_bands pr 1 with
  | None => None
  | Some bands => filter_loops (keep_unroll_jam profit pr)
                    (flat_map (fun b => get_loops_under pr (l_stmts (pb_loop b)) (l_depth (pb_loop b))) bands)
  end.

(** tool/ast_transform.c:129-187 [pluto_mark_unroll_jam]: the loops of the code that
    [clast_unroll_jam] of CLooG then unrolls and jams. *)
Definition mark_unroll_jam (profit : prog -> ploop -> option bool) (pr : prog) (ast : list code_loop) : option (list code_loop) :=
  option_map (flat_map (fun lp => clast_filter ast (l_depth lp) (l_stmts lp))) (get_unroll_jam_loops profit pr).
