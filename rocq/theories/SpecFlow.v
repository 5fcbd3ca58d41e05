(** * Specification vocabulary for the whole tool: one program carries out
    another one. *)
From Coq Require Import ZArith List Bool.
From Verif Require Import SpecLinear MathModel SpecProg.
Import ListNotations.

(** [r] carries out [pr]: iteration [i] of statement [s] of [pr], for parameters
    [p], is iteration [E s i p] of the same statement of [r].  Every iteration of
    [pr] is carried out exactly once, nothing else is, the memory accessed is the
    same, and the dependences of [pr] are recorded in [r].  New iterators (of
    tiles) come first, and the number of original iterators is kept. *)
Definition carries (pr r : prog) (E : nat -> point -> point -> point) : Prop :=
  length (p_stmts r) = length (p_stmts pr) /\ p_npar r = p_npar pr /\
  (forall s p, (s < length (p_stmts pr))%nat -> length p = p_npar pr ->
     (forall x, iteration (stmt_of r s) x p <-> exists i, iteration (stmt_of pr s) i p /\ x = E s i p) /\
     (forall i, exists tile, E s i p = tile ++ i) /\
     (forall i j, iteration (stmt_of pr s) i p -> iteration (stmt_of pr s) j p -> E s i p = E s j p -> i = j) /\
     (forall i, iteration (stmt_of pr s) i p ->
        map (access_val (E s i p) p) (s_reads (stmt_of r s)) = map (access_val i p) (s_reads (stmt_of pr s)) /\
        map (access_val (E s i p) p) (s_writes (stmt_of r s)) = map (access_val i p) (s_writes (stmt_of pr s)))) /\
  (forall s, (s < length (p_stmts pr))%nat -> s_dim_orig (stmt_of r s) = s_dim_orig (stmt_of pr s) /\ (s_dim (stmt_of pr s) <= s_dim (stmt_of r s))%nat) /\
  Forall2 (fun d d' => d_src d' = d_src d /\ d_dst d' = d_dst d /\ d_rar d' = d_rar d /\
     forall s t p, instance pr d s t p -> instance r d' (E (d_src d) s p) (E (d_dst d) t p) p) (p_deps pr) (p_deps r).

(** Different iterations of a statement run at different times. *)
Definition distinct_times (pr : prog) : Prop :=
  forall s i j p, (s < length (p_stmts pr))%nat -> length p = p_npar pr ->
    iteration (stmt_of pr s) i p -> iteration (stmt_of pr s) j p ->
    timestamp (stmt_of pr s) i p = timestamp (stmt_of pr s) j p -> i = j.

(** [r] is a correct transformation of [pr]: it carries out [pr], dependent
    iterations of [pr] run in their order, and no two iterations of a statement
    run at the same time. *)
Definition correct_transformation (pr r : prog) : Prop :=
  exists E, carries pr r E /\ distinct_times r /\
  forall d, In d (p_deps pr) -> d_rar d = false -> forall s t p, instance pr d s t p ->
    lexlt (timestamp (stmt_of r (d_src d)) (E (d_src d) s p) p) (timestamp (stmt_of r (d_dst d)) (E (d_dst d) t p) p).
