(** * Specification vocabulary for the stencil test. *)
From Coq Require Import ZArith QArith List Bool Arith.
From Verif Require Import SpecLinear SpecProg SpecTile.
Import ListNotations.
Open Scope Z_scope.

(** The solver finds the lexicographically least point of every system without
    points with negative entries, and a point only if there is one. *)
Definition lexmin_exact (lexmin : cst -> option point) : Prop :=
  forall c, wf_cst c -> (forall y, mem c y -> forall v, In v y -> 0 <= v) ->
    match lexmin c with
    | Some x => mem c x /\ forall y, mem c y -> y = x \/ lexlt x y
    | None => forall y, ~ mem c y
    end.

(** Statement [s] belongs to the component [scc]. *)
Definition in_scc (pr : prog) (scc : Z) (s : nat) : Prop :=
  (s < length (p_stmts pr))%nat /\ s_scc (stmt_of pr s) = scc.

(** [d] is a dependence (not between two reads) inside the component. *)
Definition scc_dep (pr : prog) (scc : Z) (d : dep) : Prop :=
  In d (p_deps pr) /\ d_rar d = false /\ s_scc (stmt_of pr (d_src d)) = scc /\ s_scc (stmt_of pr (d_dst d)) = scc.

(** Dependent iterations are at most [w] apart along the hyperplanes [h] (one per
    statement: coefficients of the loops, then the constant), in either direction;
    points with rational coordinates included. *)
Definition short (pr : prog) (h : nat -> list Z) (w : Z) (d : dep) : Prop :=
  forall s t p, length s = p_nvar pr -> length t = p_nvar pr -> length p = p_npar pr ->
    qmem (d_bpoly d) (s ++ t ++ p) ->
    (- inject_Z w <= hval (zpoint (h (d_dst d))) t - hval (zpoint (h (d_src d))) s <= inject_Z w)%Q.

(** [h] gives every statement of the component a hyperplane without negative
    coefficients which uses some loop, none of them a loop of the face [f], and
    along which dependent iterations are at most [w] apart. *)
Definition short_hyp (pr : prog) (scc : Z) (f h : nat -> list Z) (w : Z) : Prop :=
  (forall s, in_scc pr scc s ->
     length (h s) = S (p_nvar pr) /\ (forall v, In v (h s) -> 0 <= v) /\
     (forall j, (j < p_nvar pr)%nat -> nth j (f s) 0 <> 0 -> nth j (h s) 0 = 0) /\
     exists j, (j < p_nvar pr)%nat /\ 1 <= nth j (h s) 0) /\
  forall d, scc_dep pr scc d -> short pr h w d.

(** The component is a stencil seen from the face [f]: there are such hyperplanes
    with distances of at most 10, and none with distance 0 (such ones would be
    parallel loops). *)
Definition stencil (pr : prog) (scc : Z) (f : nat -> list Z) : Prop :=
  (exists h w, 1 <= w <= 10 /\ short_hyp pr scc f h w) /\ ~ exists h, short_hyp pr scc f h 0.
