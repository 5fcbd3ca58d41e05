(** * Specification vocabulary: running a program on a memory.

    Nothing in this file models code of Pluto; it says what it means that two
    programs compute the same result. *)
From Coq Require Import ZArith List Bool.
From Verif Require Import SpecLinear MathModel SpecProg.
Import ListNotations.

(** A memory cell: an array (or scalar) and its subscripts. *)
Definition loc := (nat * list Z)%type.
Lemma loc_eq_dec (a b : loc) : {a = b} + {a <> b}.
Proof. decide equality; [apply (list_eq_dec Z.eq_dec) | decide equality]. Defined.

(** The cells accessed by iteration [i] through the access matrices [mats] of
    the arrays [ids], for parameters [p]. *)
Definition cells (ids : list nat) (mats : list matrix) (i p : point) : list loc :=
  combine ids (map (access_val i p) mats).

Section Memory.
Context {V : Type}.

(** A memory gives each cell a value. *)
Definition memory := loc -> V.
Definition store (m : memory) (l : loc) (v : V) : memory := fun l' => if loc_eq_dec l' l then v else m l'.
Fixpoint store_all (m : memory) (ls : list loc) (vs : list V) : memory :=
  match ls, vs with
  | l :: ls', v :: vs' => store_all (store m l v) ls' vs'
  | _, _ => m
  end.

(** Running one statement instance: read the cells [rl], compute the new values
    from the values read, store them in the cells [wl]. *)
Definition run_instance (body : list V -> list V) (rl wl : list loc) (m : memory) : memory :=
  store_all m wl (body (map m rl)).

(** Running a list of instances (statement number, iteration) one after the
    other; [step] runs one of them. *)
Definition inst := (nat * point)%type.
Fixpoint run (step : inst -> memory -> memory) (l : list inst) (m : memory) : memory :=
  match l with
  | [] => m
  | x :: l' => run step l' (step x m)
  end.

(** How instance [x] of program [pr] runs: [ra], [wa] are the arrays accessed by
    the reads and writes of each statement, [body s i] computes the values written
    from the values read (the text of statement [s] for iteration [i]). *)
Definition step_of (pr : prog) (ra wa : nat -> list nat) (body : nat -> point -> list V -> list V) (p : point)
    (x : inst) (m : memory) : memory :=
  let (s, i) := x in
  run_instance (body s i) (cells (ra s) (s_reads (stmt_of pr s)) i p) (cells (wa s) (s_writes (stmt_of pr s)) i p) m.
End Memory.
Arguments memory : clear implicits.

(** [a] comes before [b] in the list. *)
Definition before {A} (l : list A) (a b : A) : Prop := exists u v w, l = u ++ a :: v ++ b :: w.

(** An instance of [pr] that runs when the parameters are [p]. *)
Definition runs (pr : prog) (p : point) (x : inst) : Prop :=
  (fst x < length (p_stmts pr))%nat /\ iteration (stmt_of pr (fst x)) (snd x) p.

(** The list contains each instance of the program (for parameters [p]) exactly
    once and nothing else. *)
Definition all_instances (pr : prog) (p : point) (l : list inst) : Prop :=
  NoDup l /\ forall x, In x l <-> runs pr p x.

(** Two instances access a common cell that at least one of them writes. *)
Definition conflict (pr : prog) (ra wa : nat -> list nat) (p : point) (x y : inst) : Prop :=
  let rd (z : inst) := cells (ra (fst z)) (s_reads (stmt_of pr (fst z))) (snd z) p in
  let wr (z : inst) := cells (wa (fst z)) (s_writes (stmt_of pr (fst z))) (snd z) p in
  exists l, (In l (wr x) /\ (In l (rd y) \/ In l (wr y))) \/ (In l (rd x) /\ In l (wr y)).

(** [x] and [y] are connected by a chain of dependences of [pr] between instances
    that run. *)
Inductive depends (pr : prog) (p : point) : inst -> inst -> Prop :=
| depends_one d s t : In d (p_deps pr) -> d_rar d = false -> instance pr d s t p ->
    runs pr p (d_src d, s) -> runs pr p (d_dst d, t) -> depends pr p (d_src d, s) (d_dst d, t)
| depends_chain x y z : depends pr p x y -> depends pr p y z -> depends pr p x z.

(** The dependences of [pr] order all conflicting instances as the list [orig]
    (the order of the input program) does. *)
Definition deps_cover (pr : prog) (ra wa : nat -> list nat) (p : point) (orig : list inst) : Prop :=
  forall x y, before orig x y -> conflict pr ra wa p x y -> depends pr p x y.

(** The list follows the timestamps of the program: what is earlier in time runs
    earlier (instances with equal timestamps come in any order). *)
Definition time_of (pr : prog) (p : point) (x : inst) : list Z := timestamp (stmt_of pr (fst x)) (snd x) p.
Definition follows_times (pr : prog) (p : point) (l : list inst) : Prop :=
  forall x y, In x l -> In y l -> lexlt (time_of pr p x) (time_of pr p y) -> before l x y.

(** The same when the iterations of level [k] of the statements [ls] run in
    parallel: instances of [ls] that agree on the levels outside [k] and differ in
    level [k] come in any order. *)
Definition concurrent (pr : prog) (p : point) (ls : list nat) (k : nat) (x y : inst) : Prop :=
  In (fst x) ls /\ In (fst y) ls /\ firstn k (time_of pr p x) = firstn k (time_of pr p y) /\
  nth k (time_of pr p x) 0%Z <> nth k (time_of pr p y) 0%Z.
Definition follows_times_parallel (pr : prog) (p : point) (marks : list (list nat * nat)) (l : list inst) : Prop :=
  forall x y, In x l -> In y l -> lexlt (time_of pr p x) (time_of pr p y) ->
    (forall ls k, In (ls, k) marks -> ~ concurrent pr p ls k x y) -> before l x y.
