(** * Specification vocabulary for the framework "decoupled fusion and permutation". *)
From Coq Require Import ZArith List Bool.
From Verif Require Import SpecLinear SpecGraph GraphModel SpecProg.
Import ListNotations.
Open Scope Z_scope.

(** Statement [v] depends on statement [u] along a chain of dependences (input
    dependences aside), of whatever length. *)
Inductive depends (pr : prog) : nat -> nat -> Prop :=
| depends_refl : forall u, depends pr u u
| depends_step : forall d w, In d (p_deps pr) -> d_rar d = false -> depends pr (d_dst d) w -> depends pr (d_src d) w.

(** A statement outside of all loops is on no cycle of dependences with another
    statement (it runs once, so this holds for every program). *)
Definition lone_scalars (pr : prog) : Prop :=
  forall u v, (u < length (p_stmts pr))%nat -> (v < length (p_stmts pr))%nat ->
    s_dim (stmt_of pr u) = 0%nat -> depends pr u v -> depends pr v u -> v = u.

(** Vertices [v] and [w] of a conflict graph (given by its adjacency matrix) are in
    conflict. *)
Definition conflict (g : list (list Z)) (v w : nat) : Prop :=
  nth w (nth v g []) 0 = 1 \/ nth v (nth w g []) 0 = 1.
