(** * What Gurobi answers.  Independent of the model of the code.  Linear programs are
    those of SpecGlpk; their columns are numbered from 1 there, from 0 by Gurobi. *)
From Coq Require Import ZArith QArith List.
From Verif Require Import SpecGlpk.
Import ListNotations.
Open Scope Q_scope.

(** The states after GRBoptimize; [GRB_OTHER]: limits, interrupts, numerical trouble. *)
Inductive grb_status := GRB_OPTIMAL | GRB_SUBOPTIMAL | GRB_INFEASIBLE | GRB_INF_OR_UNBD | GRB_UNBOUNDED | GRB_OTHER.
(** The state, and the values of the columns if there are any. *)
Record grb_answer := mkGrb { g_status : grb_status; g_vals : option (list Q) }.

(** Gurobi: integer tolerance and problem are given. *)
Definition gurobi := Q -> gprob -> grb_answer.

(** Every call ends with an optimum or with the proof that there is none. *)
Definition conclusive (grb : gurobi) : Prop :=
  forall tol p, match g_status (grb tol p) with
                | GRB_OPTIMAL => exists v, g_vals (grb tol p) = Some v
                | GRB_INFEASIBLE | GRB_INF_OR_UNBD | GRB_UNBOUNDED => True
                | GRB_SUBOPTIMAL | GRB_OTHER => False
                end.

(** The values of optimal answers are precise enough to be rounded. *)
Definition grb_rounds (grb : gurobi) : Prop :=
  forall p v, g_status (grb (1 # 10000000) p) = GRB_OPTIMAL -> g_vals (grb (1 # 10000000) p) = Some v -> precise p v.

(** A rational optimum of [p] and the optimum of the problem [p'] that scales it -- [k]
    scaling factors, one column for each number [f], that is 0 for small numbers and a
    multiple of the number of at least 1 for the others -- are precise together. *)
Definition scales (k skip : nat) (f : list Q) (p' : gprob) : Prop :=
  length (gp_cols p') = (k + (length f - skip))%nat /\
  (forall i, (i < k)%nat -> gc_bnd (nth i (gp_cols p') (mkGcol (GLP_FX 0) false 0)) = GLP_LO 1) /\
  (forall i, (skip + i < length f)%nat ->
     nth (k + i) (gp_cols p') (mkGcol (GLP_FX 0) false 0) = mkGcol (if Qeq_bool (cut (nth (skip + i) f 0)) 0 then GLP_FX 0 else GLP_LO 1) true 0).
Definition grb_scales (grb : gurobi) : Prop :=
  forall k skip p f p' v,
    g_status (grb (1 # 10000000) p) = GRB_OPTIMAL -> g_vals (grb (1 # 10000000) p) = Some f -> scales k skip f p' ->
    g_status (grb (1 # 100) p') = GRB_OPTIMAL -> g_vals (grb (1 # 100) p') = Some v -> precise_scaling k p f p' v.

(** Exact optima, or the answer that there is none. *)
Definition grb_exact (grb : gurobi) : Prop :=
  forall tol p, match g_status (grb tol p) with
    | GRB_OPTIMAL => exists v, g_vals (grb tol p) = Some v /\ gp_point p v /\ whole p v /\ map cut v = v /\
                     forall x, gp_point p x -> whole p x -> obj_sum p v <= obj_sum p x
    | GRB_INFEASIBLE => forall x, gp_point p x -> ~ whole p x
    | GRB_INF_OR_UNBD | GRB_UNBOUNDED => True
    | GRB_SUBOPTIMAL | GRB_OTHER => False
    end.

(** The answers without a solution are true: infeasible problems have no integral
    solution; the others have none or solutions with an objective as small as one
    likes. *)
Definition truthful (grb : gurobi) : Prop :=
  forall tol p, match g_status (grb tol p) with
    | GRB_INFEASIBLE => forall x, gp_point p x -> ~ whole p x
    | GRB_INF_OR_UNBD => (forall x, gp_point p x -> ~ whole p x) \/ forall b, exists x, gp_point p x /\ obj_sum p x < b
    | _ => True
    end.
