(** * Specification vocabulary for directed graphs given by an adjacency matrix. *)
From Coq Require Import ZArith List Bool.
Import ListNotations.
Open Scope Z_scope.

(** A graph: row u, column v is non-zero iff there is an edge u -> v. *)
Definition adj (g : list (list Z)) (u v : nat) : Z := nth v (nth u g []) 0.

Definition edge (g : list (list Z)) (u v : nat) : Prop := adj g u v <> 0.

(** [n] vertices 0 .. n-1. *)
Definition wf_graph (n : nat) (g : list (list Z)) : Prop :=
  length g = n /\ forall r, In r g -> length r = n.

(** There is a (possibly empty) path from u to v. *)
Inductive reach (g : list (list Z)) : nat -> nat -> Prop :=
| reach_refl : forall u, reach g u u
| reach_step : forall u v w, edge g u v -> reach g v w -> reach g u w.

(** Strongly connected. *)
Definition strongly_connected (g : list (list Z)) (u v : nat) : Prop :=
  reach g u v /\ reach g v u.

(** Connected when edge directions are ignored. *)
Inductive connected (g : list (list Z)) : nat -> nat -> Prop :=
| conn_refl : forall u, connected g u u
| conn_step : forall u v w, edge g u v \/ edge g v u -> connected g v w -> connected g u w.
