(** * Specification vocabulary for the automatic transformation. *)
From Coq Require Import ZArith List Bool.
From Verif Require Import SpecLinear SpecMatrix MathModel SpecProg.
Import ListNotations.
Open Scope Z_scope.

(** Entries of [l] where the mask is true. *)
Fixpoint select {A} (mask : list bool) (l : list A) : list A :=
  match mask, l with
  | b :: mask', x :: l' => if b then x :: select mask' l' else select mask' l'
  | _, _ => []
  end.

(** The coefficients of the original loops of statement [st] in a schedule row
    (iterator coefficients first): the columns of loops added for padding are
    left out. *)
Definition orig_part (pr : prog) (st : stmt) (r : list Z) : list Z :=
  select (firstn (p_nvar pr) (s_orig st)) r.

(** Number of original loops according to is_orig_loop. *)
Definition num_orig (pr : prog) (st : stmt) : nat :=
  length (filter (fun b => b) (firstn (p_nvar pr) (s_orig st))).

(** Coefficient of iterator [k] of statement [s] in a solution. *)
Definition hcoef (pr : prog) (x : point) (s k : nat) : Z :=
  nth (p_npar pr + 1 + s * (p_nvar pr + 1) + k) x 0.

(** The iterator coefficients of the hyperplane of statement [s]. *)
Definition iter_coefs (pr : prog) (x : point) (s : nat) : list Z :=
  map (hcoef pr x s) (seq 0 (p_nvar pr)).

(** The hyperplane of statement [s] is non-zero on some original loop. *)
Definition nontrivial (pr : prog) (x : point) (s : nat) : Prop :=
  exists k, (k < p_nvar pr)%nat /\ nth k (s_orig (stmt_of pr s)) false = true /\ hcoef pr x s k <> 0.

(** The schedule of a statement has as many independent rows as the statement
    has original loops (which come first); equivalently the schedule separates
    different iterations. *)
Definition complete (st : stmt) : Prop :=
  has_rank (s_dim_orig st) (map (firstn (s_dim_orig st)) (mrows (s_trans st))) (s_dim_orig st).

(** The columns of [k m] are orthogonal to the rows of [m]. *)
Definition kernel_ok (k : matrix -> matrix) : Prop :=
  forall m, wf_mat m -> wf_mat (k m) /\ mnrows (k m) = mncols m /\
    forall r j, In r (mrows m) -> (j < mncols (k m))%nat ->
      dot r (map (fun row => nth j row 0) (mrows (k m))) = 0.

(** The ILP solver answers with a point of the system. *)
Definition solver_sound (solve : prog -> cst -> option point) : Prop :=
  forall pr c x, wf_cst c -> solve pr c = Some x -> mem c x.

(** A trivial kernel is computed only for a matrix of full column rank. *)
Definition kernel_complete (k : matrix -> matrix) : Prop :=
  forall m, wf_mat m -> mncols (k m) = 0%nat -> has_rank (mncols m) (mrows m) (mncols m).

(** Rows of scalar levels have no iterator coefficients on original loops. *)
Definition scalar_levels_zero (pr : prog) (s : nat) : Prop :=
  forall j, nth j (p_hprops pr) H_UNKNOWN = H_SCALAR ->
    forall v, In v (orig_part pr (stmt_of pr s) (nth j (mrows (s_trans (stmt_of pr s))) [])) -> v = 0.

(** The original loops come first, then the loops added for padding. *)
Definition orig_first (pr : prog) : Prop :=
  forall st, In st (p_stmts pr) -> (s_dim_orig st <= p_nvar pr)%nat /\
    s_orig st = repeat true (s_dim_orig st) ++ repeat false (p_nvar pr - s_dim_orig st).

(** A program as it is handed to the driver: only original loops. *)
Definition input_ok (pr : prog) : Prop :=
  wf_shapes pr /\
  forall st, In st (p_stmts pr) -> s_dim st = s_dim_orig st /\ (s_dim st <= p_nvar pr)%nat /\ s_orig st = repeat true (s_dim st).

(** Both programs have the same iterations of the same statements, which access
    the same memory and depend on each other in the same way. *)
Definition same_program (a b : prog) : Prop :=
  length (p_stmts b) = length (p_stmts a) /\ p_npar b = p_npar a /\
  (forall s, (s < length (p_stmts a))%nat ->
     s_dim (stmt_of b s) = s_dim (stmt_of a s) /\
     forall i p, length i = s_dim (stmt_of a s) -> length p = p_npar a ->
       (iteration (stmt_of b s) i p <-> iteration (stmt_of a s) i p) /\
       map (access_val i p) (s_reads (stmt_of b s)) = map (access_val i p) (s_reads (stmt_of a s)) /\
       map (access_val i p) (s_writes (stmt_of b s)) = map (access_val i p) (s_writes (stmt_of a s))) /\
  Forall2 (fun d d' => d_src d' = d_src d /\ d_dst d' = d_dst d /\ d_rar d' = d_rar d /\
             forall s t p, instance b d' s t p <-> instance a d s t p) (p_deps a) (p_deps b).

(** A chain of unsatisfied dependences (input dependences aside) from statement
    [u] to statement [v]. *)
Inductive dep_chain (pr : prog) : nat -> nat -> Prop :=
| chain_refl : forall u, dep_chain pr u u
| chain_step : forall d w, In d (p_deps pr) -> d_rar d = false -> d_sat d = false ->
    dep_chain pr (d_dst d) w -> dep_chain pr (d_src d) w.

(** One constant level with value [c u] for statement [u] has been appended. *)
Definition scalar_appended (a b : prog) (c : nat -> Z) : Prop :=
  p_hprops b = p_hprops a ++ [H_SCALAR] /\
  forall u i p, (u < length (p_stmts a))%nat -> length i = s_dim (stmt_of a u) -> length p = p_npar a ->
    timestamp (stmt_of b u) i p = timestamp (stmt_of a u) i p ++ [c u].

(** Dependences [d] (before) and [d'] (after a cut with statement values [c]):
    the cut does not violate [d] and satisfies it iff it separates its ends
    (or [d] has no instances). *)
Definition cut_effect (a : prog) (c : nat -> Z) (d d' : dep) : Prop :=
  d_src d' = d_src d /\ d_dst d' = d_dst d /\ d_rar d' = d_rar d /\ d_poly d' = d_poly d /\
  (d_sat d = true -> d_sat d' = true) /\
  (d_sat d = false -> d_rar d = false ->
     c (d_src d) <= c (d_dst d) /\
     (d_sat d' = true <-> c (d_src d) < c (d_dst d) \/ forall s t p, ~ instance a d s t p)).

(** Schedules and dependences (except for flags of input dependences) are
    unchanged. *)
Definition not_cut (a b : prog) : Prop :=
  p_hprops b = p_hprops a /\ (forall u, s_trans (stmt_of b u) = s_trans (stmt_of a u)) /\
  Forall2 (fun d d' => d_rar d' = d_rar d /\ (d_rar d = false -> d' = d)) (p_deps a) (p_deps b).

(** Different iterations of the statement (equal on the dimensions that are no
    original loops) run at different times. *)
Definition one_to_one (pr : prog) (st : stmt) : Prop :=
  forall i j p, length i = s_dim st -> length j = s_dim st -> length p = p_npar pr ->
    skipn (s_dim_orig st) i = skipn (s_dim_orig st) j ->
    timestamp st i p = timestamp st j p -> i = j.
