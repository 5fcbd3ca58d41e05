(** A fusion structure asked for by the user, and the files that ask for it. *)
From Coq Require Import ZArith List.
From Verif Require Import SpecLinear SpecProg.
Import ListNotations.
Open Scope Z_scope.

(** .fst: the groups of statements in the order in which they are to run; each
    with a flag that says whether to tile it.  The file lists the number of
    groups and then, for each group, the number of its statements, their
    numbers, and the flag. *)
Definition fst_text (gs : list (list nat * Z)) : list Z :=
  Z.of_nat (length gs) ::
  flat_map (fun g => Z.of_nat (length (fst g)) :: map Z.of_nat (fst g) ++ [snd g]) gs.

(** Statement [s] is in group number [g]. *)
Definition in_group (gs : list (list nat * Z)) (s g : nat) : Prop :=
  (g < length gs)%nat /\ In s (fst (nth g gs ([], 0))).

(** Every one of [n] statements is in one group only, no group is empty. *)
Definition groups_of (n : nat) (gs : list (list nat * Z)) : Prop :=
  (forall g, In g gs -> fst g <> []) /\
  NoDup (concat (map fst gs)) /\ (forall s, In s (concat (map fst gs)) <-> (s < n)%nat).

(** .precut: for each statement the first rows of its schedule: coefficients of
    its loops and of the parameters, and a constant. *)
Record frow := mkFrow { f_loops : list Z; f_pars : list Z; f_const : Z }.
Definition frow_value (r : frow) (i p : point) : Z := dot (f_loops r) i + dot (f_pars r) p + f_const r.

(** Number of statements, number of flags, and for each statement: number of
    rows and of columns, the rows (in front of each a 0 for "equality"), a number
    and the flags. *)
Definition frow_text (r : frow) : list Z := 0 :: f_loops r ++ f_pars r ++ [f_const r].
Definition precut_text (npar : nat) (depth : nat) (stmts : list (nat * list frow * Z * list Z)) : list Z :=
  Z.of_nat (length stmts) :: Z.of_nat depth ::
  flat_map (fun x => let '(dim, rs, num, flags) := x in
     Z.of_nat (length rs) :: Z.of_nat (1 + dim + npar + 1) :: flat_map frow_text rs ++ num :: flags) stmts.

(** The rows [rs] do not contradict the dependences of [pr]: each dependence is
    carried by one of the rows before any row is against it, or no row is
    against it. *)
Definition dummy_frow : frow := mkFrow [] [] 0.
Definition rows_fit (pr : prog) (n : nat) (rs : nat -> list frow) : Prop :=
  forall d, In d (p_deps pr) -> d_rar d = false ->
    let value s k i p := frow_value (nth k (rs s) dummy_frow) i p in
    (forall k, (k < n)%nat -> forall s t p, instance pr d s t p -> value (d_src d) k s p <= value (d_dst d) k t p) \/
    (exists l, (l < n)%nat /\
       (forall s t p, instance pr d s t p -> value (d_src d) l s p < value (d_dst d) l t p) /\
       forall k, (k < l)%nat -> forall s t p, instance pr d s t p -> value (d_src d) k s p <= value (d_dst d) k t p).

(** [xs] gives [k] rows for each statement of [pr]: the loop depth, the rows, a
    number without meaning, and [depth] flags. *)
Definition rows_for (pr : prog) (k depth : nat) (xs : list (nat * list frow * Z * list Z)) : Prop :=
  length xs = length (p_stmts pr) /\
  forall s, (s < length (p_stmts pr))%nat -> let '(d, rs, num, flags) := nth s xs (0%nat, [], 0, []) in
    d = s_dim (stmt_of pr s) /\ length rs = k /\ length flags = depth /\
    forall r, In r rs -> length (f_loops r) = d /\ length (f_pars r) = p_npar pr.
(** The rows of statement [s]. *)
Definition rows_of (xs : list (nat * list frow * Z * list Z)) (s : nat) : list frow := snd (fst (fst (nth s xs (0%nat, [], 0, [])))).
