(** * Specification vocabulary for diamond tiling. *)
From Coq Require Import ZArith List Bool Arith.
From Verif Require Import SpecLinear MathModel SpecProg SpecTile.
Import ListNotations.
Open Scope Z_scope.

(** The time of iteration [i] when the levels of band [b] are tiled with the
    schedule of [pr] and every tile is executed in the order of [pr0]; [sizes] lists
    the sizes of the levels of tiles, outermost first. *)
Definition diamond_stamp (pr0 pr : prog) (b : band) (sizes : list (list Z)) (s : nat) (i p : point) : list Z :=
  let ts := timestamp (stmt_of pr0 s) i p in
  if in_band b s then
    firstn (b_first b) ts ++ concat (map (fun l => tile_times (stmt_of pr s) (b_first b) l i p) sizes) ++ skipn (b_first b) ts
  else ts.

(** Its iteration vector. *)
Definition diamond_point (pr : prog) (b : band) (sizes : list (list Z)) (s : nat) (i p : point) : point :=
  if in_band b s then concat (map (fun l => tile_coords (stmt_of pr s) (b_first b) l i p) sizes) ++ i else i.

(** What is evicted where: statements, level and new hyperplanes of a band. *)
Definition eviction := (list nat * nat * list (list Z))%type.

(** The evictions belong to the bands: all statements of the band, a level of the
    band, hyperplanes of the right length. *)
Definition evicts_in (pr : prog) (bands : list band) (e : eviction) : Prop :=
  let '(l, pos, hs) := e in
  exists b, In b bands /\ incl l (b_stmts b) /\ (b_first b <= pos < b_first b + length (b_sizes b))%nat /\
    forall s h, In s l -> In h hs -> length h = mncols (s_trans (stmt_of pr s)).

(** The program [r] is [pr0] with the bands tiled by the schedule of [pr] and every
    tile executed in the order of [pr0].  It has the iterations of [pr0]; if [pr0]
    respects all dependences and the tiles of [pr] may be formed, then [r]
    respects all dependences. *)
Definition rescheduled (pr0 pr : prog) (bands : list band) (r : prog) (sizes : band -> list (list Z)) : Prop :=
  length (p_stmts r) = length (p_stmts pr0) /\ p_npar r = p_npar pr0 /\
  (forall s, (s < length (p_stmts pr0))%nat -> let b := band_of bands s in
     (forall x p, length p = p_npar pr0 ->
        (iteration (stmt_of r s) x p <-> exists i, iteration (stmt_of pr0 s) i p /\ x = diamond_point pr b (sizes b) s i p)) /\
     exists z, forall i p, length i = s_dim (stmt_of pr0 s) -> length p = p_npar pr0 ->
        timestamp (stmt_of r s) (diamond_point pr b (sizes b) s i p) p = diamond_stamp pr0 pr b (sizes b) s i p ++ repeat 0 z) /\
  (legal pr0 -> (forall d, In d (p_deps pr0) -> d_rar d = false -> Forall (fun b => band_safe pr b d) bands) -> legal r).
