(** * Specification vocabulary for reordering the loops of statements. *)
From Coq Require Import ZArith List Bool Permutation.
From Verif Require Import SpecLinear MathModel SpecProg.
Import ListNotations.

(** [q] is [pr] with the levels of the schedules of its statements in another
    order; iterations, accesses and dependences are the same. *)
Definition levels_reordered (pr q : prog) : Prop :=
  length (p_stmts q) = length (p_stmts pr) /\ p_npar q = p_npar pr /\ p_hprops q = p_hprops pr /\
  map (fun d => (d_src d, d_dst d, d_rar d, d_poly d)) (p_deps q) = map (fun d => (d_src d, d_dst d, d_rar d, d_poly d)) (p_deps pr) /\
  forall s, (s < length (p_stmts pr))%nat ->
    s_dim (stmt_of q s) = s_dim (stmt_of pr s) /\ s_dim_orig (stmt_of q s) = s_dim_orig (stmt_of pr s) /\ s_domain (stmt_of q s) = s_domain (stmt_of pr s) /\
    s_reads (stmt_of q s) = s_reads (stmt_of pr s) /\ s_writes (stmt_of q s) = s_writes (stmt_of pr s) /\
    Permutation (mrows (s_trans (stmt_of q s))) (mrows (s_trans (stmt_of pr s))).

(** Level [k] of statement [s] is the same in both programs. *)
Definition same_level (pr q : prog) (s k : nat) : Prop :=
  nth k (mrows (s_trans (stmt_of q s))) [] = nth k (mrows (s_trans (stmt_of pr s))) [].

(** A statement [s] of the list [l]. *)
Definition some_member (ls : list (list nat)) (s : nat) : Prop := exists l, In l ls /\ In s l.
