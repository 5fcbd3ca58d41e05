(** * Linear programs as GLPK sees them, and what is assumed of its answers.
    Independent of the model of the code.  Numbers are rational: every double is. *)
From Coq Require Import ZArith QArith Qabs List.
Import ListNotations.
Open Scope Q_scope.

(** Bounds of rows and columns: from below, or fixed. *)
Inductive gbound := GLP_LO (b : Q) | GLP_FX (b : Q).
Record gcol := mkGcol { gc_bnd : gbound; gc_int : bool; gc_obj : Q }.
(** A row is the sum of its terms; the columns are numbered from 1. *)
Record grow := mkGrow { gr_bnd : gbound; gr_terms : list (nat * Q) }.
Record gprob := mkGprob { gp_cols : list gcol; gp_rows : list grow }.

Definition in_bound (b : gbound) (v : Q) : Prop := match b with GLP_LO l => l <= v | GLP_FX f => v == f end.
Definition term_sum (l : list (nat * Q)) (x : list Q) : Q := fold_right (fun t a => snd t * nth (fst t - 1) x 0 + a) 0 l.
Definition obj_sum (p : gprob) (x : list Q) : Q := fold_right (fun t a => fst t * snd t + a) 0 (combine (map gc_obj (gp_cols p)) x).

(** A solution of the linear program: integrality of columns left aside. *)
Definition gp_point (p : gprob) (x : list Q) : Prop :=
  length x = length (gp_cols p) /\
  (forall i, (i < length x)%nat -> in_bound (gc_bnd (nth i (gp_cols p) (mkGcol (GLP_FX 0) false 0))) (nth i x 0)) /\
  (forall r, In r (gp_rows p) -> in_bound (gr_bnd r) (term_sum (gr_terms r) x)).

(** The state of the problem after glp_simplex and after glp_intopt, and the values of
    the columns. *)
Inductive gstatus := GLP_OPT | GLP_FEAS | GLP_INFEAS | GLP_NOFEAS | GLP_UNBND | GLP_UNDEF.
Record ganswer := mkAns { a_lp : gstatus; a_mip : gstatus; a_val : list Q }.

(** The answers that count: the state after glp_intopt is optimal or feasible. *)
Definition usable (a : ganswer) : Prop := a_mip a = GLP_OPT \/ a_mip a = GLP_FEAS.

(** ** Precision *)
Definition within (e : Q) (v x : list Q) : Prop := length v = length x /\ forall i, Qabs (nth i v 0 - nth i x 0) <= e.
(** The integer columns are within [t] of integers. *)
Definition nearly_integer (t : Q) (p : gprob) (v : list Q) : Prop :=
  forall i, (i < length (gp_cols p))%nat -> gc_int (nth i (gp_cols p) (mkGcol (GLP_FX 0) false 0)) = true ->
    exists z, Qabs (nth i v 0 - inject_Z z) <= t.

(** The sum of the absolute coefficients of a row. *)
Definition term_weight (l : list (nat * Q)) : Q := fold_right (fun t a => Qabs (snd t) + a) 0 l.

(** The values [v] for problem [p] are precise enough to be rounded: an exact solution
    of the linear program is nearby, integer columns are nearly integer, and the
    errors, summed over a row, stay below 1. *)
Definition precise (p : gprob) (v : list Q) : Prop :=
  exists x e t, gp_point p x /\ within e v x /\ nearly_integer t p v /\ 0 <= t /\ t < 1 # 2 /\
    forall r, In r (gp_rows p) -> term_weight (gr_terms r) * (e + t) < 1.

(** The same for a rational solution [f] of [p], in which small numbers count as 0, and
    the values [v] of the problem [p'] that scales it: [k] scaling factors come first,
    none is above [s]. *)
Definition cut (f : Q) : Q := if Qle_bool (Qabs f) (1 # 10000000) then 0 else f.
Definition precise_scaling (k : nat) (p : gprob) (f : list Q) (p' : gprob) (v : list Q) : Prop :=
  exists x y e e' t s, gp_point p x /\ within e (map cut f) x /\ gp_point p' y /\ within e' v y /\ nearly_integer t p' v /\
    0 <= t /\ t < 1 # 2 /\ e' < 1 # 2 /\ (forall i, (i < k)%nat -> nth i y 0 <= s) /\
    forall r, In r (gp_rows p) -> term_weight (gr_terms r) * (t + e' + s * e) < 1.

(** Usable answers with the tolerance used for solving are precise. *)
Definition rounds_precisely (glpk : Q -> gprob -> ganswer) : Prop :=
  forall p, usable (glpk (1 # 10000000) p) -> precise p (a_val (glpk (1 # 10000000) p)).

(** ** Optimality *)
Definition whole (p : gprob) (x : list Q) : Prop :=
  forall i, (i < length (gp_cols p))%nat -> gc_int (nth i (gp_cols p) (mkGcol (GLP_FX 0) false 0)) = true -> exists z, nth i x 0 == inject_Z z.

(** The sum of the absolute weights of the objective. *)
Definition obj_weight (p : gprob) : Q := fold_right (fun c a => Qabs (gc_obj c) + a) 0 (gp_cols p).

(** The values [v] are nearly optimal: up to [g] no integral solution has a smaller
    objective, and this and the rounding of [v] change the objective by less than 1. *)
Definition nearly_best (p : gprob) (v : list Q) : Prop :=
  exists t g, length v = length (gp_cols p) /\ nearly_integer t p v /\ 0 <= t /\ t < 1 # 2 /\
    (forall x, gp_point p x -> whole p x -> obj_sum p v <= obj_sum p x + g) /\ obj_weight p * t + g < 1.

(** All answers are exact optimal solutions, or no answer is given. *)
Definition exact_answers (glpk : Q -> gprob -> ganswer) : Prop :=
  forall tol p, let a := glpk tol p in
    (a_lp a = GLP_UNDEF /\ a_mip a = GLP_UNDEF) \/
    (a_lp a = GLP_OPT /\ a_mip a = GLP_OPT /\ gp_point p (a_val a) /\ whole p (a_val a) /\ map cut (a_val a) = a_val a /\
     forall x, gp_point p x -> whole p x -> obj_sum p (a_val a) <= obj_sum p x).
