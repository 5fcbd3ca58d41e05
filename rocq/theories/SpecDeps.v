(** * Specification vocabulary: dependence analysis (C73).

    The analysis itself is done by isl, which is not part of the repository.  This
    file says what the results of isl's functions mean according to isl's manual;
    nothing in it models code of Pluto. *)
From Coq Require Import ZArith List Bool Permutation.
From Verif Require Import SpecLinear MathModel SpecProg SpecExec SpecOsl.
Import ListNotations.
Open Scope Z_scope.

(** The name of a tuple: S_d, or S_d_rk / S_d_wk for access number k of the reads /
    writes ([true]: write) of statement d. *)
Record aname := mkName { n_stmt : nat; n_acc : option (bool * nat) }.

(** An access map relates named iterations, for parameter values, to the cells
    they access; a schedule relates them to dates. *)
Definition amap := aname -> point -> point -> loc -> Prop.
Definition smap := aname -> point -> point -> list Z -> Prop.
Definition no_access : amap := fun _ _ _ _ => False.

(** A relation between named iterations: source, target, parameters. *)
Definition drel := aname -> point -> aname -> point -> point -> Prop.

Definition sooner (sched : smap) (a : aname) (s : point) (b : aname) (t p : point) : Prop :=
  exists u v, sched a s p u /\ sched b t p v /\ lexlt u v.
Definition same_date (sched : smap) (a : aname) (s : point) (b : aname) (t p : point) : Prop :=
  exists u, sched a s p u /\ sched b t p u.

(** ** isl_union_map_compute_flow

    [must] and [may]: the sources, [sink]: the sinks.  [D] (must dependences) and
    [M] (may dependences) relate a source to a later sink of the same cell when no
    must source lies in between; every such source, or another one of the same
    date, is related to the sink; only must sources are in [D], and a pair is in [M]
    only if a may source of the cell precedes the sink. *)
Definition unmasked (must : amap) (sched : smap) (a : aname) (s : point) (b : aname) (t p : point) (l : loc) : Prop :=
  forall c u, must c u p l -> sooner sched a s c u p -> sooner sched c u b t p -> False.
Record flow_ok (sink must may : amap) (sched : smap) (D M : drel) : Prop := {
  flow_must : forall a s b t p, D a s b t p ->
    exists l, must a s p l /\ sink b t p l /\ sooner sched a s b t p /\ unmasked must sched a s b t p l;
  flow_may : forall a s b t p, M a s b t p ->
    exists l, (must a s p l \/ may a s p l) /\ sink b t p l /\ sooner sched a s b t p /\ unmasked must sched a s b t p l /\
      exists c u, may c u p l /\ sooner sched c u b t p;
  flow_all : forall a s b t p l, must a s p l \/ may a s p l -> sink b t p l -> sooner sched a s b t p ->
    unmasked must sched a s b t p l ->
    exists a' s', same_date sched a' s' a s p /\ (must a' s' p l \/ may a' s' p l) /\ (D a' s' b t p \/ M a' s' b t p)
}.

(** ** isl_basic_map, isl_map and isl_union_map

    A basic map from iterations of one name to iterations of another one: rows over
    (source, target, existentially quantified integers, parameters, 1). *)
Record bmap := mkBmap {
  b_src : aname; b_dst : aname;
  b_nin : nat; b_nout : nat; b_ndiv : nat; b_npar : nat;
  b_rows : list row
}.
Definition bmap_mem (b : bmap) (s t p : point) : Prop :=
  length s = b_nin b /\ length t = b_nout b /\ length p = b_npar b /\
  exists e, length e = b_ndiv b /\ forall r, In r (b_rows b) -> holds (s ++ t ++ e ++ p) r.

(** A map is a list of basic maps, a union map a list of maps. *)
Definition umap := list (list bmap).
Definition umap_rel (u : umap) : drel := fun a s b t p =>
  exists m c, In m u /\ In c m /\ b_src c = a /\ b_dst c = b /\ bmap_mem c s t p.

(** isl_basic_map_remove_divs: no existential variables are left and no element is
    lost. *)
Definition remove_divs_ok (rd : bmap -> bmap) : Prop :=
  forall b, b_src (rd b) = b_src b /\ b_dst (rd b) = b_dst b /\ b_nin (rd b) = b_nin b /\ b_nout (rd b) = b_nout b /\
    b_npar (rd b) = b_npar b /\ b_ndiv (rd b) = 0%nat /\ (b_ndiv b = 0%nat -> rd b = b) /\
    (forall s t p, bmap_mem b s t p -> bmap_mem (rd b) s t p).

(** isl_union_map_coalesce: another representation of the same union map. *)
Definition coalesce_ok (co : umap -> umap) : Prop := forall u a s b t p, umap_rel (co u) a s b t p <-> umap_rel u a s b t p.

(** The list [orig] is the order of the original schedule: of two instances that
    access memory, the one with the smaller date comes first, and no two of them
    have the same date. *)
Definition scheduled (sched : smap) (acc : amap) (p : point) (orig : list inst) : Prop :=
  forall a s b t l l', acc a s p l -> acc b t p l' ->
    (sooner sched a s b t p <-> before orig (n_stmt a, s) (n_stmt b, t)) /\
    (same_date sched a s b t p -> (n_stmt a, s) = (n_stmt b, t)).
Definition any_access (r w : amap) : amap := fun a i p l => r a i p l \/ w a i p l.

(** The access maps describe what the instances of the program access. *)
Definition accesses_of (pr : prog) (ids : nat -> list nat) (mats : stmt -> list matrix) (acc : amap) (p : point) : Prop :=
  (forall a i l, acc a i p l -> runs pr p (n_stmt a, i) /\ In l (cells (ids (n_stmt a)) (mats (stmt_of pr (n_stmt a))) i p)) /\
  (forall s i l, runs pr p (s, i) -> In l (cells (ids s) (mats (stmt_of pr s)) i p) -> exists a, n_stmt a = s /\ acc a i p l).

(** Access [k] of a tuple named S_d_rk (or S_d_wk) is element number [k] of the
    array of reads (writes) of statement d. *)
Definition names_access (pr : prog) (ids : nat -> list nat) (mats : stmt -> list matrix) (w : bool) (acc : amap) (p : point) : Prop :=
  forall a i l, acc a i p l -> exists k, n_acc a = Some (w, k) /\
    nth_error (cells (ids (n_stmt a)) (mats (stmt_of pr (n_stmt a))) i p) k = Some l.

(** isl does what its manual says when it is called with reads, writes and the
    empty union map. *)
Definition isl_correct (flow : amap -> amap -> amap -> smap -> umap * umap) (reads writes : amap) (sched : smap) : Prop :=
  forall sink must may, In sink [reads; writes; no_access] -> In must [reads; writes; no_access] -> In may [reads; writes; no_access] ->
    flow_ok sink must may sched (umap_rel (fst (flow sink must may sched))) (umap_rel (snd (flow sink must may sched))).

(** The spaces of isl: the basic maps between iterations of statements have the
    dimensions of the statements. *)
Definition typed (pr : prog) (u : umap) : Prop := forall b, In b (concat u) ->
  b_nin b = s_dim (stmt_of pr (n_stmt (b_src b))) /\ b_nout b = s_dim (stmt_of pr (n_stmt (b_dst b))) /\ b_npar b = p_npar pr.
(** Removing the existentially quantified variables adds no elements. *)
Definition divs_exact (rd : bmap -> bmap) (u : umap) : Prop :=
  forall b, In b (concat u) -> forall s t p, bmap_mem (rd b) s t p -> bmap_mem b s t p.

(** ** Statements of OpenScop *)

(** A statement of an OpenScop: union of domains, schedule, accesses with the array
    number (osl_relation_get_array_id, part of OpenScop). *)
Record osl_stmt := mkOslStmt { os_domain : list osl_rel; os_sched : osl_rel; os_acc : list (osl_type * nat * osl_rel) }.

(** OpenScop statements in the usual form, for [npar] parameters. *)
Definition access_form (npar dim : nat) (x : osl_type * nat * osl_rel) : Prop :=
  exists w id A, Permutation (access_rows w id A) (o_rows (snd x)) /\ o_out (snd x) = S (length A) /\ o_local (snd x) = 0%nat /\
    o_in (snd x) = dim /\ o_par (snd x) = npar.
Definition stmt_form (npar : nat) (o : osl_stmt) (dim : nat) (A : list (list Z)) : Prop :=
  (exists c, os_domain o = [c] /\ o_out c = dim /\ o_in c = 0%nat /\ o_local c = 0%nat /\ o_par c = npar) /\
  (Permutation (schedule_rows A) (o_rows (os_sched o)) /\ o_out (os_sched o) = length A /\ o_in (os_sched o) = dim /\
   o_local (os_sched o) = 0%nat /\ o_par (os_sched o) = npar) /\
  (forall x, In x (os_acc o) -> access_form npar dim x).

