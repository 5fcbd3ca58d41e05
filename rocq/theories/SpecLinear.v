(** * Specification vocabulary: points, affine functions, sets of points.

    Nothing in this file models code of Pluto; it fixes the mathematical meaning
    that the theorems refer to. *)
From Coq Require Import ZArith QArith List Bool.
Import ListNotations.
Open Scope Z_scope.

(** An integer point is the list of its coordinates. *)
Definition point := list Z.
(** A rational point. *)
Definition qpoint := list Q.

(** Scalar product (of lists of the same length). *)
Fixpoint dot (a b : list Z) : Z :=
  match a, b with
  | x :: a', y :: b' => x * y + dot a' b'
  | _, _ => 0
  end.

(** The value at point [x] of the affine function whose coefficients are the
    list [r]; the last element of [r] is the constant term. *)
Definition aff (r : list Z) (x : point) : Z := dot r (x ++ [1]).

(** The same at a rational point. *)
Fixpoint qdot (a : list Z) (b : list Q) : Q :=
  match a, b with
  | x :: a', y :: b' => (inject_Z x * y + qdot a' b')%Q
  | _, _ => 0%Q
  end.
Definition qaff (r : list Z) (x : qpoint) : Q := qdot r (x ++ [1%Q]).

Definition zpoint (x : point) : qpoint := map inject_Z x.

(** A constraint is an affine function together with the information whether it
    has to be 0 or has to be >= 0. *)
Record row := mkRow { is_eq : bool; coef : list Z }.

(** A constraint system over [ncols - 1] variables (conjunction of its rows). *)
Record cst := mkCst { ncols : nat; rows : list row }.

Definition holds (x : point) (r : row) : Prop :=
  if is_eq r then aff (coef r) x = 0 else 0 <= aff (coef r) x.

Definition qholds (x : qpoint) (r : row) : Prop :=
  if is_eq r then (qaff (coef r) x == 0)%Q else (0 <= qaff (coef r) x)%Q.

(** [mem c x]: integer point [x] belongs to the set described by [c]. *)
Definition mem (c : cst) (x : point) : Prop :=
  S (length x) = ncols c /\ forall r, In r (rows c) -> holds x r.

(** [qmem c x]: rational point [x] belongs to the set described by [c]. *)
Definition qmem (c : cst) (x : qpoint) : Prop :=
  S (length x) = ncols c /\ forall r, In r (rows c) -> qholds x r.

(** Every row has the declared number of columns and there is a constant column. *)
Definition wf_cst (c : cst) : Prop :=
  (1 <= ncols c)%nat /\ forall r, In r (rows c) -> length (coef r) = ncols c.

(** Insert value [v] in front of position [pos]; delete position [pos]. *)
Fixpoint insert_at {A} (pos : nat) (v : A) (l : list A) : list A :=
  match pos, l with
  | O, _ => v :: l
  | S p, [] => [v]
  | S p, x :: l' => x :: insert_at p v l'
  end.

Fixpoint remove_at {A} (pos : nat) (l : list A) : list A :=
  match pos, l with
  | _, [] => []
  | O, _ :: l' => l'
  | S p, x :: l' => x :: remove_at p l'
  end.

(** Replace the element at position [pos]. *)
Fixpoint set_nth {A} (pos : nat) (v : A) (l : list A) : list A :=
  match pos, l with
  | _, [] => []
  | O, _ :: l' => v :: l'
  | S p, x :: l' => x :: set_nth p v l'
  end.

(** Lexicographic order on time vectors of equal length. *)
Fixpoint lexlt (a b : list Z) : Prop :=
  match a, b with
  | x :: a', y :: b' => x < y \/ (x = y /\ lexlt a' b')
  | _, _ => False
  end.

(** Elementwise combination of two lists (up to the shorter length). *)
Fixpoint zip_with {A B C} (f : A -> B -> C) (a : list A) (b : list B) : list C :=
  match a, b with
  | x :: a', y :: b' => f x y :: zip_with f a' b'
  | _, _ => []
  end.

(** Scalar product of rational vectors. *)
Fixpoint qqdot (a b : list Q) : Q :=
  match a, b with
  | x :: a', y :: b' => (x * y + qqdot a' b')%Q
  | _, _ => 0%Q
  end.

(** The affine form in [x] whose coefficients (constant last) are the values at
    [c] of the affine functions [phi]:
    phi_1(c) * x_1 + ... + phi_n(c) * x_n + phi_(n+1)(c). *)
Definition form_val (phi : list (list Z)) (c x : qpoint) : Q :=
  qqdot (map (fun r => qaff r c) phi) (x ++ [1%Q]).

(** Points of a union of sets. *)
Definition umem (l : list cst) (x : point) : Prop := exists c, In c l /\ mem c x.
