(** * Specification vocabulary for matrices: linear maps, span, rank. *)
From Coq Require Import ZArith QArith List Bool.
From Verif Require Import SpecLinear.
Import ListNotations.
Open Scope Z_scope.

(** The vector M v for a matrix given by its rows. *)
Definition mat_vec (m : list (list Z)) (v : list Z) : list Z := map (fun r => dot r v) m.

(** Linear combination of vectors of length [n]. *)
Fixpoint lincomb (n : nat) (cs : list Z) (vs : list (list Z)) : list Z :=
  match cs, vs with
  | c :: cs', v :: vs' => zip_with Z.add (map (Z.mul c) v) (lincomb n cs' vs')
  | _, _ => repeat 0 n
  end.

(** Linear independence (over the integers, hence over the rationals). *)
Definition independent (n : nat) (vs : list (list Z)) : Prop :=
  forall cs, length cs = length vs -> lincomb n cs vs = repeat 0 n ->
             forall c, In c cs -> c = 0.

(** [v] is a rational combination of [vs] (a non-zero multiple of [v] is an
    integer combination). *)
Definition in_span (n : nat) (vs : list (list Z)) (v : list Z) : Prop :=
  exists d cs, d <> 0 /\ length cs = length vs /\ map (Z.mul d) v = lincomb n cs vs.

(** The space spanned by [vs] has dimension [k]. *)
Definition has_rank (n : nat) (vs : list (list Z)) (k : nat) : Prop :=
  exists B, length B = k /\ (forall b, In b B -> length b = n) /\
            independent n B /\
            (forall v, In v vs -> in_span n B v) /\
            (forall b, In b B -> in_span n vs b).

(** [x] solves the homogeneous equations whose coefficient rows are [m]. *)
Definition eqsol (m : list (list Z)) (x : list Q) : Prop := forall r, In r m -> (qdot r x == 0)%Q.

(** [z] is a value of the C type [int]. *)
Definition fits32 (z : Z) : Prop := - 2 ^ 31 <= z < 2 ^ 31.
