(** * Specification vocabulary for tiling.

    A band: a list of statements, its first schedule level and one tile size for
    each of its levels. *)
From Coq Require Import ZArith List Bool Arith.
From Verif Require Import SpecLinear MathModel SpecProg.
Import ListNotations.
Open Scope Z_scope.

Record band := mkBand { b_stmts : list nat; b_first : nat; b_sizes : list Z }.

Definition in_band (b : band) (s : nat) : bool := existsb (Nat.eqb s) (b_stmts b).

(** Is level [k] of the statement's schedule a loop? *)
Definition loop_level (st : stmt) (k : nat) : bool :=
  match nth k (s_hyp st) H_UNKNOWN with H_SCALAR => false | _ => true end.

(** The recorded types say which levels depend on the iterators. *)
Definition types_ok (st : stmt) : Prop :=
  forall k, (k < mnrows (s_trans st))%nat ->
    (loop_level st k = false <-> forall j, (j < s_dim st)%nat -> nth j (nth k (mrows (s_trans st)) []) 0 = 0).

(** Tile number of iteration [i] at level [k] with tile size [T]: tiles cover
    T consecutive values of the schedule function; [Z.div] rounds down.  A level
    that is no loop is not tiled. *)
Definition tile_time (st : stmt) (k : nat) (T : Z) (i p : point) : Z :=
  if loop_level st k then theta st k i p / T else theta st k i p.

(** The tile iterators of iteration [i] and the tile part of its time vector;
    the levels are [k], [k+1], ... with the given sizes. *)
Fixpoint tile_coords (st : stmt) (k : nat) (sizes : list Z) (i p : point) : list Z :=
  match sizes with
  | [] => []
  | T :: l => (if loop_level st k then [theta st k i p / T] else []) ++ tile_coords st (S k) l i p
  end.
Fixpoint tile_times (st : stmt) (k : nat) (sizes : list Z) (i p : point) : list Z :=
  match sizes with [] => [] | T :: l => tile_time st k T i p :: tile_times st (S k) l i p end.

(** Number of loops among the levels of the band. *)
Fixpoint num_loops (st : stmt) (k : nat) (sizes : list Z) : nat :=
  match sizes with [] => 0%nat | _ :: l => ((if loop_level st k then 1 else 0) + num_loops st (S k) l)%nat end.

(** The iteration of the tiled statement that executes iteration [i]. *)
Definition tile_point (pr : prog) (b : band) (s : nat) (i p : point) : point :=
  if in_band b s then tile_coords (stmt_of pr s) (b_first b) (b_sizes b) i p ++ i else i.

(** Its time: the tile numbers are placed before the levels of the band. *)
Definition tile_stamp (pr : prog) (b : band) (s : nat) (i p : point) : list Z :=
  let ts := timestamp (stmt_of pr s) i p in
  if in_band b s then
    firstn (b_first b) ts ++ tile_times (stmt_of pr s) (b_first b) (b_sizes b) i p ++ skipn (b_first b) ts
  else ts.

(** A band of the program. *)
Definition wf_band (pr : prog) (b : band) : Prop :=
  NoDup (b_stmts b) /\ (forall T, In T (b_sizes b) -> 1 <= T) /\
  forall s, In s (b_stmts b) -> (s < length (p_stmts pr))%nat /\
    (b_first b + length (b_sizes b) <= mnrows (s_trans (stmt_of pr s)))%nat.

(** Shapes of statements and dependence polyhedra. *)
Definition wf_core (pr : prog) : Prop :=
  (forall st, In st (p_stmts pr) -> wf_cols pr st /\ length (s_hyp st) = mnrows (s_trans st)) /\
  (forall d, In d (p_deps pr) ->
     (d_src d < length (p_stmts pr))%nat /\ (d_dst d < length (p_stmts pr))%nat /\ wf_cst (d_poly d) /\
     ncols (d_poly d) = (s_dim (stmt_of pr (d_src d)) + s_dim (stmt_of pr (d_dst d)) + p_npar pr + 1)%nat).

(** The program [pr'] is [pr] with the band tiled. *)
Definition tiled (pr pr' : prog) (b : band) : Prop :=
  length (p_stmts pr') = length (p_stmts pr) /\ p_npar pr' = p_npar pr /\ p_hprops pr' = p_hprops pr /\
  (forall s, in_band b s = false -> stmt_of pr' s = stmt_of pr s) /\
  (forall s, (s < length (p_stmts pr))%nat -> in_band b s = true ->
     s_dim (stmt_of pr' s) = (num_loops (stmt_of pr s) (b_first b) (b_sizes b) + s_dim (stmt_of pr s))%nat /\
     (forall x p, length p = p_npar pr ->
        (iteration (stmt_of pr' s) x p <-> exists i, iteration (stmt_of pr s) i p /\ x = tile_point pr b s i p)) /\
     (forall i p, length i = s_dim (stmt_of pr s) -> length p = p_npar pr ->
        timestamp (stmt_of pr' s) (tile_point pr b s i p) p = tile_stamp pr b s i p /\
        map (access_val (tile_point pr b s i p) p) (s_reads (stmt_of pr' s)) = map (access_val i p) (s_reads (stmt_of pr s)) /\
        map (access_val (tile_point pr b s i p) p) (s_writes (stmt_of pr' s)) = map (access_val i p) (s_writes (stmt_of pr s)))) /\
  Forall2 (fun d d' =>
     d_src d' = d_src d /\ d_dst d' = d_dst d /\ d_rar d' = d_rar d /\ d_sat d' = d_sat d /\ d_level d' = d_level d /\
     forall x y p, instance pr' d' x y p <->
       exists s t, instance pr d s t p /\ x = tile_point pr b (d_src d) s p /\ y = tile_point pr b (d_dst d) t p)
    (p_deps pr) (p_deps pr').

(** Level [k] has no negative distance and cannot reverse the tiles of the source
    iteration [s] and the target iteration [t] of dependence [d]: it is of the
    same kind for both statements, or the statement that has no loop there has a
    value of the right sign. *)
Definition keeps_tiles (pr : prog) (d : dep) (k : nat) (s t p : point) : Prop :=
  let src := stmt_of pr (d_src d) in let dst := stmt_of pr (d_dst d) in
  0 <= distance pr d k s t p /\
  (loop_level src k = loop_level dst k \/
   if loop_level src k then 0 <= theta dst k t p else theta src k s p <= 0).

(** The levels [a] .. [b]-1 may be tiled for dependence [d]: they keep the tiles
    of an instance that is not ordered by the levels before [a], except behind a
    level that is no loop and orders the instance. *)
Definition tilable_on (pr : prog) (d : dep) (a b : nat) : Prop :=
  forall s t p, instance pr d s t p -> (forall k, (k < a)%nat -> distance pr d k s t p = 0) ->
    forall k, (a <= k < b)%nat -> keeps_tiles pr d k s t p \/
      exists j, (a <= j < k)%nat /\ loop_level (stmt_of pr (d_src d)) j = false /\
        loop_level (stmt_of pr (d_dst d)) j = false /\ 0 < distance pr d j s t p.

(** What a band has to satisfy for dependence [d]. *)
Definition band_safe (pr : prog) (b : band) (d : dep) : Prop :=
  (in_band b (d_src d) = false /\ in_band b (d_dst d) = false) \/
  separated_before pr d (b_first b) \/
  (in_band b (d_src d) = true /\ in_band b (d_dst d) = true /\
   tilable_on pr d (b_first b) (b_first b + length (b_sizes b))).

(** No statement is in two of the bands. *)
Definition disjoint_bands (bands : list band) : Prop :=
  ForallOrdPairs (fun b b' => forall s, in_band b s = true -> in_band b' s = false) bands.

(** The band of statement [s], an empty band if there is none. *)
Definition band_of (bands : list band) (s : nat) : band :=
  match find (fun b => in_band b s) bands with Some b => b | None => mkBand [] 0 [] end.

(** The program [pr'] is [pr] with all the bands tiled; all time vectors have
    the same length (zeros are added at their ends). *)
Definition tiled_all (pr pr' : prog) (bands : list band) : Prop :=
  length (p_stmts pr') = length (p_stmts pr) /\ p_npar pr' = p_npar pr /\
  (forall s s', (s < length (p_stmts pr))%nat -> (s' < length (p_stmts pr))%nat ->
     mnrows (s_trans (stmt_of pr' s)) = mnrows (s_trans (stmt_of pr' s'))) /\
  (forall s, (s < length (p_stmts pr))%nat ->
     let b := band_of bands s in
     s_dim (stmt_of pr' s) = (num_loops (stmt_of pr s) (b_first b) (b_sizes b) + s_dim (stmt_of pr s))%nat /\
     (forall x p, length p = p_npar pr ->
        (iteration (stmt_of pr' s) x p <-> exists i, iteration (stmt_of pr s) i p /\ x = tile_point pr b s i p)) /\
     exists n, forall i p, length i = s_dim (stmt_of pr s) -> length p = p_npar pr ->
        timestamp (stmt_of pr' s) (tile_point pr b s i p) p = tile_stamp pr b s i p ++ repeat 0 n /\
        map (access_val (tile_point pr b s i p) p) (s_reads (stmt_of pr' s)) = map (access_val i p) (s_reads (stmt_of pr s)) /\
        map (access_val (tile_point pr b s i p) p) (s_writes (stmt_of pr' s)) = map (access_val i p) (s_writes (stmt_of pr s))) /\
  Forall2 (fun d d' =>
     d_src d' = d_src d /\ d_dst d' = d_dst d /\ d_rar d' = d_rar d /\ d_sat d' = d_sat d /\ d_level d' = d_level d /\
     forall x y p, instance pr' d' x y p <->
       exists s t, instance pr d s t p /\ x = tile_point pr (band_of bands (d_src d)) (d_src d) s p /\
                   y = tile_point pr (band_of bands (d_dst d)) (d_dst d) t p)
    (p_deps pr) (p_deps pr').

(** A band for tiling the tile loops of band [b] again: same statements and
    levels, other sizes. *)
Definition same_levels (b b2 : band) : Prop :=
  b_stmts b2 = b_stmts b /\ b_first b2 = b_first b /\ length (b_sizes b2) = length (b_sizes b) /\
  (forall T, In T (b_sizes b2) -> 1 <= T).
