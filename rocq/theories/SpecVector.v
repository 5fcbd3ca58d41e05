(** * Specification vocabulary for vectorizable loops. *)
From Coq Require Import ZArith List Bool Arith.
From Verif Require Import SpecLinear SpecMatrix MathModel SpecProg.
Import ListNotations.
Open Scope Z_scope.

(** Iteration [x'] runs [n] steps of the loop at level [k] after iteration [x]: the
    times of both are the same at all other levels. *)
Definition steps_later (st : stmt) (k : nat) (n : Z) (x x' p : point) : Prop :=
  forall j, nth j (timestamp st x' p) 0 = nth j (timestamp st x p) 0 + (if (j =? k)%nat then n else 0).

(** Both iterations access the same element. *)
Definition same_element (acc : matrix) (x x' p : point) : Prop := access_val x' p acc = access_val x p acc.

(** Only the last index differs; it has grown by at most four in each step. *)
Definition short_step (acc : matrix) (n : Z) (x x' p : point) : Prop :=
  access_val x p acc <> [] /\
  removelast (access_val x' p acc) = removelast (access_val x p acc) /\
  0 < last (access_val x' p acc) 0 - last (access_val x p acc) 0 <= 4 * n.
