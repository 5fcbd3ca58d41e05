(** * Model of the choice of the loop to vectorize, /repo/lib/post_transform.c and
    /repo/lib/polyloop.c.

    Counters and scores are unbounded instead of int and unsigned. *)
From Coq Require Import ZArith List Bool Arith.
From Verif Require Import SpecLinear MathModel ConstraintsModel SpecProg ProgModel ExportModel LoopModel.
Import ListNotations.
Open Scope Z_scope.

(** lib/post_transform.c:30. *)
Definition SHORT_STRIDE : Z := 4.

(** The matrix of lib/program.cpp:1985-2027 [pluto_get_new_access_func] with the
    assertion of lib/post_transform.c:35 and lib/polyloop.c:452; [None] is a
    failing assertion. *)
Definition new_access_at (st : stmt) (acc : matrix) (depth : nat) : option matrix :=
  match get_new_access_func acc st with
  | Some (m, _) => if (depth <=? mncols m - 1)%nat then Some m else None
  | None => None
  end.

(** lib/post_transform.c:32-61 [has_spatial_reuse]. *)
Definition has_spatial_reuse (st : stmt) (acc : matrix) (depth : nat) : option bool :=
  match new_access_at st acc depth with
  | None => None
  | Some m =>
      if (mnrows m =? 0)%nat then Some false
      else if existsb (fun i => negb (mget m i depth =? 0)) (seq 0 (mnrows m - 1)) then Some false
      else Some ((1 <=? mget m (mnrows m - 1) depth) && (mget m (mnrows m - 1) depth <=? SHORT_STRIDE))
  end.

(** lib/polyloop.c:449-462 [is_invariant]. *)
Definition is_invariant (st : stmt) (acc : matrix) (depth : nat) : option bool :=
  match new_access_at st acc depth with
  | None => None
  | Some m => Some (forallb (fun i => mget m i depth =? 0) (seq 0 (mnrows m)))
  end.

(** The accesses of the statements of a loop in the order of the loops
    lib/post_transform.c:66-74 and lib/polyloop.c:467-475. *)
Definition loop_accesses (pr : prog) (lp : ploop) : list (nat * matrix) :=
  flat_map (fun s => map (pair s) (s_reads (stmt_of pr s) ++ s_writes (stmt_of pr s))) (l_stmts lp).

(** The counting loops lib/post_transform.c:63-76 [get_num_spatial_accesses] and
    lib/polyloop.c:464-477 [get_num_invariant_accesses]. *)
Definition count_accesses (test : stmt -> matrix -> nat -> option bool) (pr : prog) (lp : ploop) : option nat :=
  fold_left (fun o (a : nat * matrix) =>
    match o, test (stmt_of pr (fst a)) (snd a) (l_depth lp) with
    | Some n, Some b => Some (n + Nat.b2n b)%nat
    | _, _ => None
    end) (loop_accesses pr lp) (Some 0%nat).

(** lib/polyloop.c:438-445 [get_num_accesses]. *)
Definition get_num_accesses (pr : prog) (lp : ploop) : nat :=
  fold_left (fun n s => (n + (length (s_reads (stmt_of pr s)) + length (s_writes (stmt_of pr s))))%nat) (l_stmts lp) 0%nat.

(** lib/post_transform.c:101-118 [pluto_loop_is_vectorizable]. *)
Definition loop_is_vectorizable (pr : prog) (lp : ploop) : option bool :=
  if negb (loop_is_parallel pr lp) then Some false
  else
    let a := get_num_accesses pr lp in
    match count_accesses has_spatial_reuse pr lp, count_accesses is_invariant pr lp with
    | Some s, Some t => Some ((1 <=? a)%nat && (a =? s + t)%nat)
    | _, _ => None
    end.

(** lib/post_transform.c:239-251: the score of a loop. *)
Definition loop_score (pr : prog) (lp : ploop) : option Z :=
  match count_accesses has_spatial_reuse pr lp, count_accesses is_invariant pr lp, loop_is_vectorizable pr lp with
  | Some s, Some t, Some v =>
      let a := Z.of_nat (get_num_accesses pr lp) in
      let s := Z.of_nat s in
      let t := Z.of_nat t in
      Some ((2 * s + 4 * t + 8 * Z.b2z v - 16 * (a - s - t)) * Z.of_nat (length (l_stmts lp)))
  | _, _, _ => None
  end.
