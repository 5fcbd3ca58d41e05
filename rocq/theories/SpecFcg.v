(** * What a fusion conflict is: vocabulary for the properties of the fusion conflict
    graph.  Independent of the model of the code. *)
From Coq Require Import ZArith QArith List.
From Verif Require Import SpecLinear SpecProg SpecDriver FrameworkModel.
Import ListNotations.

(** The schedule of a statement that runs by its loop [i] only, scaled by [a] and
    shifted by [c]. *)
Definition line (a c : Q) (i : nat) (x : qpoint) : Q := (a * nth i x 0 + c)%Q.

(** Under the schedules [f] of its source and [g] of its target, no instance of the
    dependence runs backwards, and no distance exceeds u . p + w (unless the
    option nodepbound is set); for all rational points of its polyhedra. *)
Definition ordered (o : options) (pr : prog) (d : dep) (f g : qpoint -> Q) (u : qpoint) (w : Q) : Prop :=
  (d_rar d = false -> forall s t p, length s = p_nvar pr -> length t = p_nvar pr -> length p = p_npar pr ->
     qmem (d_poly d) (s ++ t ++ p) -> (f s <= g t)%Q) /\
  (o_nodepbound o = false -> forall s t p, length s = p_nvar pr -> length t = p_nvar pr -> length p = p_npar pr ->
     qmem (d_bpoly d) (s ++ t ++ p) -> (g t - f s <= qqdot u p + w)%Q).

(** The bound of the distances has no negative coefficient. *)
Definition bound_ok (pr : prog) (u : qpoint) (w : Q) : Prop :=
  length u = p_npar pr /\ (forall v, In v u -> (0 <= v)%Q) /\ (0 <= w)%Q.

(** The dependences among two statements that have to be respected: those not
    satisfied yet.  Read-after-read dependences of a statement on itself count
    only with the option rar. *)
Definition counts (o : options) (s1 s2 : nat) (d : dep) : Prop :=
  d_sat d = false /\ (d_src d = s1 \/ d_src d = s2) /\ (d_dst d = s1 \/ d_dst d = s2) /\
  (d_src d = d_dst d -> d_rar d = true -> o_rar o = true).

(** What is assumed of the linear programming solver: it reports a solution
    exactly if there is one. *)
Definition exact_lp (feasible : cst -> bool) : Prop :=
  forall c, wf_cst c -> (feasible c = true <-> exists x, qmem c x).
