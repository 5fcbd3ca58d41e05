(** * Specification vocabulary for typed fusion. *)
From Coq Require Import ZArith QArith List Bool.
From Verif Require Import SpecLinear SpecProg SpecDfp.
Import ListNotations.
Open Scope Z_scope.

(** [q] is the matrix of the pairs of dimensions that cannot be fused without losing
    parallelism. *)
Definition loses_parallelism (q : list (list Z)) (v w : nat) : Prop :=
  nth w (nth v q []) 0 <> 0 \/ nth v (nth w q []) 0 <> 0.

(** Dimension [v] has no level yet, can run in parallel by itself, and fits the
    dimensions that have level [c]: there is no conflict with them, and no
    parallelism is lost by fusion with them. *)
Definition parallel_choice (g q : list (list Z)) (c : Z) (col : list Z) (v : nat) : Prop :=
  nth v col 0 = 0 /\ nth v (nth v g []) 0 = 0 /\ nth v (nth v q []) 0 = 0 /\
  forall x, (x < length col)%nat -> nth x col 0 = c -> ~ conflict g v x /\ ~ loses_parallelism q v x.

(** A chain of edges. *)
Inductive chain (edge : nat -> nat -> Prop) : nat -> nat -> Prop :=
| chain_one : forall a b, edge a b -> chain edge a b
| chain_more : forall a b c, edge a b -> chain edge b c -> chain edge a c.

(** What is assumed of the linear programs of typed fusion: "no solution" is
    answered only if there is none, and "parallel" only if there is a solution in
    which the bound of the distances is zero. *)
Definition zero_lp (lp : prog -> cst -> option bool) : Prop :=
  forall pr c, wf_cst c ->
    (lp pr c = None -> ~ exists x, qmem c x) /\
    (lp pr c = Some true -> exists x, qmem c x /\ forall i, (i <= p_npar pr)%nat -> (nth i x 0 == 0)%Q).

(** Under the schedules [f] of its source and [g] of its target, the two ends of the
    dependence run at the same time, for all rational points of its polyhedra. *)
Definition in_step (pr : prog) (d : dep) (f g : qpoint -> Q) : Prop :=
  forall s t p, length s = p_nvar pr -> length t = p_nvar pr -> length p = p_npar pr ->
    qmem (d_poly d) (s ++ t ++ p) -> qmem (d_bpoly d) (s ++ t ++ p) -> (f s == g t)%Q.
