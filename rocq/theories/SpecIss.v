(** * Specification vocabulary: index-set splitting. *)
From Coq Require Import ZArith List.
From Verif Require Import SpecLinear MathModel SpecProg.
Import ListNotations.
Open Scope Z_scope.

(** [i] is an iteration of the statement for the parameters [p]. *)
Definition iteration (npar : nat) (st : stmt) (i p : point) : Prop :=
  length i = s_dim st /\ length p = npar /\ mem (s_domain st) (i ++ p).

(** Exactly one of the numbers below [n] has the property. *)
Definition exactly_one (n : nat) (P : nat -> Prop) : Prop :=
  exists k, (k < n)%nat /\ P k /\ forall k', (k' < n)%nat -> P k' -> k' = k.

(** Every point of the space belongs to exactly one of the sets. *)
Definition partition (n : nat) (cuts : list cst) : Prop :=
  (forall c, In c cuts -> wf_cst c /\ ncols c = S n) /\
  forall z, length z = n -> exactly_one (length cuts) (fun k => mem (nth k cuts (mkCst 0 [])) z).

(** One hyperplane a.x = 0 of the n-dimensional space (constant last). *)
Definition hyperplane (n : nat) (h : cst) : Prop :=
  exists a, rows h = [mkRow true a] /\ wf_cst h /\ ncols h = S n.

(** Statement [st'] does the same as [st] (accesses, schedule), for those
    iterations of [st] that belong to [cut]. *)
Definition piece_of (npar : nat) (st : stmt) (cut : cst) (st' : stmt) : Prop :=
  s_dim st' = s_dim st /\ s_dim_orig st' = s_dim_orig st /\ s_orig st' = s_orig st /\
  s_trans st' = s_trans st /\ s_reads st' = s_reads st /\ s_writes st' = s_writes st /\
  forall i p, iteration npar st' i p <-> iteration npar st i p /\ mem cut (i ++ p).

(** The statements [l] together do the work of [st]: the same accesses at the
    same times, and every iteration of [st] belongs to exactly one of them. *)
Definition splits_into (npar : nat) (st : stmt) (l : list stmt) : Prop :=
  (forall st', In st' l ->
     s_dim st' = s_dim st /\ s_dim_orig st' = s_dim_orig st /\ s_orig st' = s_orig st /\
     s_trans st' = s_trans st /\ s_reads st' = s_reads st /\ s_writes st' = s_writes st) /\
  forall i p,
    (iteration npar st i p -> exactly_one (length l) (fun k => iteration npar (nth k l dummy_stmt) i p)) /\
    (forall st', In st' l -> iteration npar st' i p -> iteration npar st i p).

(** The dependences [l] of the program [pr'] stand for the dependence [d] of [pr]
    when statement [s] has become the [m] statements [s * m ..]: every dependent
    pair is an instance of exactly one of them, and its source and target belong
    to the pieces the new dependence connects. *)
Definition replaces (m : nat) (pr pr' : prog) (d : dep) (l : list dep) : Prop :=
  (forall s t p,
     (instance pr d s t p ->
        exactly_one (length l) (fun k => instance pr' (nth k l d) s t p)) /\
     (forall d', In d' l -> instance pr' d' s t p -> instance pr d s t p)) /\
  (forall d', In d' l ->
     d_rar d' = d_rar d /\ d_sat d' = d_sat d /\ d_level d' = d_level d /\ d_bpoly d' = d_bpoly d /\
     (exists k, (k < m)%nat /\ d_src d' = (d_src d * m + k)%nat) /\
     (exists k, (k < m)%nat /\ d_dst d' = (d_dst d * m + k)%nat)) /\
  (forall d' s t p, In d' l -> instance pr' d' s t p ->
     iteration (p_npar pr) (stmt_of pr (d_src d)) s p ->
     iteration (p_npar pr) (stmt_of pr (d_dst d)) t p ->
     iteration (p_npar pr) (stmt_of pr' (d_src d')) s p /\
     iteration (p_npar pr) (stmt_of pr' (d_dst d')) t p).

(** The integer programming solver: an answer is a non-negative solution;
    no answer means that there is none. *)
Definition sound_solver (lexmin : cst -> option point) : Prop :=
  forall c x, wf_cst c -> lexmin c = Some x -> mem c x /\ Forall (Z.le 0) x.
Definition complete_solver (lexmin : cst -> option point) : Prop :=
  forall c, wf_cst c -> lexmin c = None -> forall x, Forall (Z.le 0) x -> ~ mem c x.

(** Sum of the elements. *)
Definition zsum (l : list Z) : Z := fold_right Z.add 0 l.
