(** * Specification vocabulary for the loops of the generated code.

    The code generator (CLooG) turns the transformed program into code.  Of this
    code only its loops matter here: each scans one level of the schedule and
    executes some statements. *)
From Coq Require Import ZArith List Bool Arith.
From Verif Require Import SpecLinear MathModel SpecProg SpecTile SpecLoop.
Import ListNotations.
Open Scope Z_scope.

(** A loop of the generated code: the level it scans (loop variable t1 scans
    level 0) and the statements in its body. *)
Record code_loop := mkCodeLoop { c_level : nat; c_stmts : list nat }.

(** ** Unroll and jam

    The loop at level [k] is unrolled [u] times, starting at [base], and the copies
    of its body are merged down to level [m]-1: execution is ordered by the outer
    levels, the number of the group of [u] iterations, the levels [k]+1 .. [m]-1,
    the iteration of loop [k], and the remaining levels. *)
Definition jammed_time (k m : nat) (u base : Z) (ts : list Z) : list Z :=
  firstn k ts ++ [(nth k ts 0 - base) / u] ++ firstn (m - S k) (skipn (S k) ts) ++ [nth k ts 0] ++ skipn m ts.

(** [m]-1 is the last level that is a loop for some statement of [l]. *)
Definition last_loop (pr : prog) (l : list nat) (m : nat) : Prop :=
  (exists s, In s l /\ (1 <= m <= length (p_hprops pr))%nat /\ loop_level (stmt_of pr s) (m - 1) = true) /\
  (forall s j, In s l -> (m <= j < length (p_hprops pr))%nat -> loop_level (stmt_of pr s) j = false).

(** Unroll and jam of loop [k] around the statements [l] keeps all dependent
    iterations in order, for any unroll factor; the lower bound of the loop is any
    function of the outer loop variables (and of the parameters). *)
Definition jam_safe (pr : prog) (l : list nat) (k m : nat) : Prop :=
  forall u (base : list Z -> point -> Z), 1 <= u ->
  forall d, In d (p_deps pr) -> d_rar d = false -> In (d_src d) l -> In (d_dst d) l ->
  forall s t p, instance pr d s t p ->
    let ts := timestamp (stmt_of pr (d_src d)) s p in
    let tt := timestamp (stmt_of pr (d_dst d)) t p in
    lexlt (jammed_time k m u (base (firstn k ts) p) ts) (jammed_time k m u (base (firstn k tt) p) tt).
