(** * Specification vocabulary: statements, dependences, schedules, legality.

    The records describe the data the properties talk about (fields of
    [struct statement], [struct dependence] and [PlutoProg], /repo/lib/pluto.h);
    the definitions give their mathematical meaning.  No code of Pluto is
    modelled in this file. *)
From Coq Require Import ZArith QArith List Bool.
From Verif Require Import SpecLinear MathModel.
Import ListNotations.
Open Scope Z_scope.

(** lib/pluto.h:88-93 [hyptype]; lib/pluto.h:80-85 [dirvec_type]. *)
Inductive hyptype := H_UNKNOWN | H_LOOP | H_TILE_SPACE_LOOP | H_SCALAR.
Inductive depdir := DEP_MINUS | DEP_ZERO | DEP_PLUS | DEP_STAR.

(** A statement: domain over [s_dim] iterators and the parameters; rows of
    [s_trans] are schedule functions of (iterators, parameters, 1). *)
Record stmt := mkStmt {
  s_dim : nat;            (* dim *)
  s_dim_orig : nat;       (* dim_orig *)
  s_orig : list bool;     (* is_orig_loop *)
  s_domain : cst;         (* domain *)
  s_trans : matrix;       (* trans *)
  s_hyp : list hyptype;   (* hyp_types *)
  s_scc : Z;              (* scc_id *)
  s_cc : Z;               (* cc_id *)
  s_reads : list matrix;  (* access matrices of reads *)
  s_writes : list matrix; (* access matrices of writes *)
  s_evict : option (list Z); (* evicted_hyp *)
  s_num_tiled : nat;      (* num_tiled_loops *)
  s_ftd : Z;              (* first_tile_dim *)
  s_ltd : Z               (* last_tile_dim *)
}.

(** A dependence: its polyhedron is over (source iterators, target iterators,
    parameters). *)
Record dep := mkDep {
  d_src : nat;            (* src *)
  d_dst : nat;            (* dest *)
  d_rar : bool;           (* IS_RAR(type) *)
  d_poly : cst;           (* dpolytope *)
  d_bpoly : cst;          (* bounding_poly *)
  d_sat : bool;           (* satisfied *)
  d_level : Z;            (* satisfaction_level *)
  d_satvec : list bool;   (* satvec *)
  d_dirs : list depdir    (* dirvec *)
}.

(** A program; the statement number (field id) is the position in the list;
    [p_hprops] holds the field [type] of hProps, one entry per hyperplane
    (num_hyperplanes entries). *)
Record prog := mkProg {
  p_nvar : nat;
  p_npar : nat;
  p_stmts : list stmt;
  p_deps : list dep;
  p_hprops : list hyptype
}.

Definition dummy_stmt : stmt := mkStmt 0 0 [] (mkCst 1 []) (mkMat 1 []) [] 0 0 [] [] None 0 0 0.
Definition stmt_of (pr : prog) (s : nat) : stmt := nth s (p_stmts pr) dummy_stmt.

(** Value of row [k] of the transformation of statement [st] for iteration [i]
    and parameters [p], and the complete time vector. *)
Definition theta (st : stmt) (k : nat) (i p : point) : Z :=
  aff (nth k (mrows (s_trans st)) []) (i ++ p).
Definition timestamp (st : stmt) (i p : point) : list Z :=
  map (fun r => aff r (i ++ p)) (mrows (s_trans st)).

(** [instance pr d s t p]: iteration [t] of the target depends on iteration [s]
    of the source when the parameters are [p]. *)
Definition instance (pr : prog) (d : dep) (s t p : point) : Prop :=
  length s = s_dim (stmt_of pr (d_src d)) /\ length t = s_dim (stmt_of pr (d_dst d)) /\
  length p = p_npar pr /\ mem (d_poly d) (s ++ t ++ p).

(** Distance of an instance at level [k] of the transformed program. *)
Definition distance (pr : prog) (d : dep) (k : nat) (s t p : point) : Z :=
  theta (stmt_of pr (d_dst d)) k t p - theta (stmt_of pr (d_src d)) k s p.

(** The dependence is respected: each source instance is executed before the
    target instance that depends on it. *)
Definition respected (pr : prog) (d : dep) : Prop :=
  forall s t p, instance pr d s t p ->
    lexlt (timestamp (stmt_of pr (d_src d)) s p) (timestamp (stmt_of pr (d_dst d)) t p).

(** Legality of the program's transformation. *)
Definition legal (pr : prog) : Prop :=
  forall d, In d (p_deps pr) -> d_rar d = false -> respected pr d.

(** ** Coefficient vectors of the hyperplane search

    A solution lists u_1 .. u_npar, w, and for every statement the coefficients
    of its nvar iterators followed by the constant. *)
Definition hyp_of (nvar npar : nat) (c : qpoint) (s : nat) : qpoint :=
  firstn (S nvar) (skipn (npar + 1 + s * (nvar + 1)) c).

(** Value of a hyperplane (coefficients, constant last) at iteration [x]. *)
Definition hval (h x : qpoint) : Q := qqdot h (x ++ [1%Q]).

(** u . p + w *)
Definition bound_val (npar : nat) (c p : qpoint) : Q := qqdot (firstn (S npar) c) (p ++ [1%Q]).

(** Coefficients of the dimensions that were added for padding are 0. *)
Definition padding_zero (pr : prog) (c : qpoint) : Prop :=
  forall s k, (s < length (p_stmts pr))%nat -> (k < p_nvar pr)%nat ->
    nth k (s_orig (stmt_of pr s)) true = false ->
    (nth (p_npar pr + 1 + s * (p_nvar pr + 1) + k) c 0 == 0)%Q.

(** Number of ILP variables plus one (macro CST_WIDTH). *)
Definition cst_width (pr : prog) : nat :=
  (p_npar pr + 1 + length (p_stmts pr) * (p_nvar pr + 1) + 1)%nat.

(** The program is in the form the search works on: all statements have [nvar]
    iterators, all shapes agree. *)
Definition wf_dep (pr : prog) (d : dep) : Prop :=
  (d_src d < length (p_stmts pr))%nat /\ (d_dst d < length (p_stmts pr))%nat /\
  wf_cst (d_poly d) /\
  ncols (d_poly d) = (s_dim (stmt_of pr (d_src d)) + s_dim (stmt_of pr (d_dst d)) + p_npar pr + 1)%nat /\
  wf_cst (d_bpoly d) /\ ncols (d_bpoly d) = ncols (d_poly d).

Definition wf_stmt (pr : prog) (st : stmt) : Prop :=
  length (s_orig st) = s_dim st /\
  mncols (s_trans st) = (s_dim st + p_npar pr + 1)%nat /\ wf_mat (s_trans st) /\
  mnrows (s_trans st) = length (p_hprops pr) /\ length (s_hyp st) = length (p_hprops pr) /\
  wf_cst (s_domain st) /\ ncols (s_domain st) = (s_dim st + p_npar pr + 1)%nat /\
  (forall a, In a (s_reads st ++ s_writes st) -> wf_mat a /\ mncols a = (s_dim st + p_npar pr + 1)%nat).

Definition wf_prog (pr : prog) : Prop :=
  (forall st, In st (p_stmts pr) -> wf_stmt pr st) /\
  (forall d, In d (p_deps pr) -> wf_dep pr d).

(** Additionally all statements have been padded to [nvar] dimensions. *)
Definition padded (pr : prog) : Prop :=
  forall st, In st (p_stmts pr) -> s_dim st = p_nvar pr.

(** The hyperplanes in [c] never run a source instance after its target
    (rational relaxation of the dependence included), with distance at least
    [k]. *)
Definition preserves (pr : prog) (d : dep) (k : Z) (c : qpoint) : Prop :=
  forall s t p, length s = p_nvar pr -> length t = p_nvar pr -> length p = p_npar pr ->
    qmem (d_poly d) (s ++ t ++ p) ->
    (hval (hyp_of (p_nvar pr) (p_npar pr) c (d_src d)) s + inject_Z k
     <= hval (hyp_of (p_nvar pr) (p_npar pr) c (d_dst d)) t)%Q.

(** All distances are at most u.p + w. *)
Definition bounded_by (pr : prog) (d : dep) (c : qpoint) : Prop :=
  forall s t p, length s = p_nvar pr -> length t = p_nvar pr -> length p = p_npar pr ->
    qmem (d_bpoly d) (s ++ t ++ p) ->
    (hval (hyp_of (p_nvar pr) (p_npar pr) c (d_dst d)) t
     - hval (hyp_of (p_nvar pr) (p_npar pr) c (d_src d)) s <= bound_val (p_npar pr) c p)%Q.

(** Every instance of the dependence has distance >= 1 (resp. >= 0) at level [k]. *)
Definition strict_at (pr : prog) (d : dep) (k : nat) : Prop :=
  forall s t p, instance pr d s t p -> 0 < distance pr d k s t p.
Definition weak_at (pr : prog) (d : dep) (k : nat) : Prop :=
  forall s t p, instance pr d s t p -> 0 <= distance pr d k s t p.
(** All distances at level [k] are 0, resp. <= 0. *)
Definition zero_at (pr : prog) (d : dep) (k : nat) : Prop :=
  forall s t p, instance pr d s t p -> distance pr d k s t p = 0.
Definition neg_at (pr : prog) (d : dep) (k : nat) : Prop :=
  forall s t p, instance pr d s t p -> distance pr d k s t p <= 0.

(** An exact test for the absence of integer points. *)
Definition exact_empty (is_emptyb : cst -> bool) : Prop :=
  forall c, wf_cst c -> if is_emptyb c then (forall x, ~ mem c x) else (exists x, mem c x).

(** Integer solutions: the hyperplane (coefficients of the nvar iterators,
    constant last) of statement [s]; its value at iteration [x] is [aff h x]. *)
Definition zhyp (pr : prog) (c : point) (s : nat) : list Z :=
  firstn (S (p_nvar pr)) (skipn (p_npar pr + 1 + s * (p_nvar pr + 1)) c).
(** u . p + w for an integer solution. *)
Definition zbound (pr : prog) (c p : point) : Z := aff (firstn (S (p_npar pr)) c) p.

Definition zpadding_zero (pr : prog) (c : point) : Prop :=
  forall s k, (s < length (p_stmts pr))%nat -> (k < p_nvar pr)%nat ->
    nth k (s_orig (stmt_of pr s)) true = false ->
    nth (p_npar pr + 1 + s * (p_nvar pr + 1) + k) c 0 = 0.

(** Subscripts computed by an access matrix at iteration [i]. *)
Definition access_val (i p : point) (a : matrix) : list Z := map (fun r => aff r (i ++ p)) (mrows a).

(** Iterations of a statement. *)
Definition iteration (st : stmt) (i p : point) : Prop := length i = s_dim st /\ mem (s_domain st) (i ++ p).

(** All column counts agree (the numbers of rows of the transformations are not
    constrained, in contrast to [wf_prog]). *)
Definition wf_cols (pr : prog) (st : stmt) : Prop :=
  length (s_orig st) = s_dim st /\
  mncols (s_trans st) = (s_dim st + p_npar pr + 1)%nat /\ wf_mat (s_trans st) /\
  wf_cst (s_domain st) /\ ncols (s_domain st) = (s_dim st + p_npar pr + 1)%nat /\
  (forall a, In a (s_reads st ++ s_writes st) -> wf_mat a /\ mncols a = (s_dim st + p_npar pr + 1)%nat).
Definition wf_shapes (pr : prog) : Prop :=
  (forall st, In st (p_stmts pr) -> wf_cols pr st) /\ (forall d, In d (p_deps pr) -> wf_dep pr d).

(** The point of statement [s] with value [v] inserted at position [pos] if [s]
    is the edited statement [sid]. *)
Definition widen (sid pos : nat) (s : nat) (v : Z) (x : point) : point :=
  if (s =? sid)%nat then insert_at pos v x else x.

(** Levels [a] .. [b]-1 are permutable for dependence [d]: an instance that is
    not ordered by the levels before [a] has no negative distance there. *)
Definition permutable_on (pr : prog) (d : dep) (a b : nat) : Prop :=
  forall s t p, instance pr d s t p -> (forall k, (k < a)%nat -> distance pr d k s t p = 0) ->
    forall k, (a <= k < b)%nat -> 0 <= distance pr d k s t p.

(** All instances of [d] are ordered by the levels before [a]. *)
Definition separated_before (pr : prog) (d : dep) (a : nat) : Prop :=
  forall s t p, instance pr d s t p ->
    lexlt (firstn a (timestamp (stmt_of pr (d_src d)) s p)) (firstn a (timestamp (stmt_of pr (d_dst d)) t p)).
