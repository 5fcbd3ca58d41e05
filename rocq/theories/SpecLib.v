(** * Specification vocabulary: the library interface (C75).

    The objects of isl that a caller of the library passes and gets back; nothing in
    this file models code of Pluto. *)
From Coq Require Import ZArith List Bool.
From Verif Require Import SpecLinear MathModel SpecProg SpecExec SpecOsl SpecDeps.
Import ListNotations.
Open Scope Z_scope.

(** A basic set: rows over (dimensions, existentially quantified integers,
    parameters, 1). *)
Record bset := mkBset { bs_dim : nat; bs_ndiv : nat; bs_npar : nat; bs_rows : list row }.
Definition bset_mem (b : bset) (i p : point) : Prop :=
  length i = bs_dim b /\ length p = bs_npar b /\
  exists e, length e = bs_ndiv b /\ forall r, In r (bs_rows b) -> holds (i ++ e ++ p) r.

(** A set with a name (the number [d] of S_d; [None]: any other name) and a union of
    such sets. *)
Record iset := mkIset { is_name : option nat; is_sets : list bset }.
Definition in_domain (ds : list iset) (s : nat) (i p : point) : Prop :=
  exists d b, In d ds /\ is_name d = Some s /\ In b (is_sets d) /\ bset_mem b i p.

(** isl_basic_set_remove_divs: no existential variables are left and no element is
    lost. *)
Definition shaped_set (b : bset) : Prop := forall r, In r (bs_rows b) -> length (coef r) = (bs_dim b + bs_ndiv b + bs_npar b + 1)%nat.
Definition shaped_map (b : bmap) : Prop := forall r, In r (b_rows b) -> length (coef r) = (b_nin b + b_nout b + b_ndiv b + b_npar b + 1)%nat.
Definition remove_divs_set_ok (rd : bset -> bset) : Prop :=
  forall b, bs_dim (rd b) = bs_dim b /\ bs_npar (rd b) = bs_npar b /\ bs_ndiv (rd b) = 0%nat /\ (shaped_set b -> shaped_set (rd b)) /\
    (forall i p, bset_mem b i p -> bset_mem (rd b) i p).

(** A schedule: rows over (date, existentially quantified integers, iteration,
    parameters, 1).  The schedules of a program, by number of the statement. *)
Record imap := mkImap { im_out : nat; im_hidden : nat; im_in : nat; im_npar : nat; im_rows : list row }.
Definition imap_mem (m : imap) (i p t : point) : Prop :=
  length t = im_out m /\ length i = im_in m /\ length p = im_npar m /\
  exists e, length e = im_hidden m /\ forall r, In r (im_rows m) -> holds (t ++ e ++ i ++ p) r.
Definition date (ms : list imap) (s : nat) (i p t : point) : Prop := exists m, nth_error ms s = Some m /\ imap_mem m i p t.

(** What a caller relies on: every iteration of the domains has one date, different
    iterations of a statement have different dates, and of two dependent iterations
    the source has the smaller date. *)
Record valid_schedules (ds : list iset) (deps : umap) (ms : list imap) : Prop := {
  vs_dated : forall s i p, in_domain ds s i p -> exists t, date ms s i p t /\ forall t', date ms s i p t' -> t' = t;
  vs_once : forall s i j p t, in_domain ds s i p -> in_domain ds s j p -> date ms s i p t -> date ms s j p t -> i = j;
  vs_order : forall a s b t p u v, umap_rel deps a s b t p -> in_domain ds (n_stmt a) s p -> in_domain ds (n_stmt b) t p ->
    date ms (n_stmt a) s p u -> date ms (n_stmt b) t p v -> lexlt u v
}.

(** What isl guarantees of the arguments: the sets of a union set have different
    names, all objects have the same parameters, rows have the right length.
    [npar]: number of parameters. *)
Record isl_args (ds : list iset) (deps : umap) (npar : nat) : Prop := {
  ia_names : NoDup (map is_name ds);
  ia_sets : forall d b, In d ds -> In b (is_sets d) -> bs_npar b = npar /\ shaped_set b;
  ia_maps : forall b, In b (concat deps) -> b_npar b = npar /\ shaped_map b
}.

(** ** From accesses to schedules

    isl_union_map_union. *)
Definition union_ok (uni : umap -> umap -> umap) : Prop :=
  forall u v a s b t p, umap_rel (uni u v) a s b t p <-> umap_rel u a s b t p \/ umap_rel v a s b t p.

(** The schedule that the caller passes gives every iteration that accesses memory at
    most one date, and different ones different dates. *)
Definition dates_differ (sched : smap) (acc : amap) : Prop :=
  (forall a s p l u v, acc a s p l -> sched a s p u -> sched a s p v -> u = v) /\
  (forall a s b t p l l', acc a s p l -> acc b t p l' -> same_date sched a s b t p -> n_stmt a = n_stmt b /\ s = t).

(** Each cell is written by finitely many iterations. *)
Definition finitely_written (writes : amap) : Prop :=
  forall p l, exists ws : list (aname * point), forall c u, writes c u p l -> In (c, u) ws.

(** Schedules under which a program computes what it computed before: as
    [valid_schedules], where two iterations that access the same cell, one of them
    writing it, keep their order. *)
Record keeps_memory (ds : list iset) (reads writes : amap) (sched : smap) (ms : list imap) : Prop := {
  km_dated : forall s i p, in_domain ds s i p -> exists t, date ms s i p t /\ forall t', date ms s i p t' -> t' = t;
  km_once : forall s i j p t, in_domain ds s i p -> in_domain ds s j p -> date ms s i p t -> date ms s j p t -> i = j;
  km_order : forall a s b t p l u v,
    (writes a s p l /\ (reads b t p l \/ writes b t p l)) \/ (reads a s p l /\ writes b t p l) -> sooner sched a s b t p ->
    date ms (n_stmt a) s p u -> date ms (n_stmt b) t p v -> lexlt u v
}.
