(** * Specification vocabulary for the search for diamond tiles. *)
From Coq Require Import ZArith List Bool Arith.
From Verif Require Import SpecLinear MathModel SpecProg SpecTile ProgModel.
Import ListNotations.
Open Scope Z_scope.

(** The solver answers with a point of the system. *)
Definition lexmin_ok (lexmin : cst -> option point) : Prop :=
  forall c x, wf_cst c -> lexmin c = Some x -> mem c x.

(** The hyperplanes [h] (one per statement) do not run the target of a dependent
    pair of iterations before its source. *)
Definition hyps_weak (pr : prog) (h : nat -> list Z) (d : dep) : Prop :=
  forall s t p, instance pr d s t p -> aff (h (d_src d)) (s ++ p) <= aff (h (d_dst d)) (t ++ p).
(** They run the source strictly before the target. *)
Definition hyps_strict (pr : prog) (h : nat -> list Z) (d : dep) : Prop :=
  forall s t p, instance pr d s t p -> aff (h (d_src d)) (s ++ p) < aff (h (d_dst d)) (t ++ p).

(** The coefficients [f] of the iterators are inside the cone of those of [h] and
    of the rows [rs]: a positive multiple of [f] is the sum of [h] and positive
    multiples of the rows. *)
Definition inside_cone (n : nat) (f h : list Z) (rs : list (list Z)) : Prop :=
  exists l0 ls, 1 <= l0 /\ length ls = length rs /\ (forall v, In v ls -> 1 <= v) /\
    forall j, (j < n)%nat -> l0 * nth j f 0 = nth j h 0 + dot ls (map (fun r => nth j r 0) rs).

(** No coefficient for the padded loops of a statement. *)
Definition padding_free (pr : prog) : Prop := forall s k j, (s < length (p_stmts pr))%nat -> (j < p_nvar pr)%nat ->
  nth j (s_orig (stmt_of pr s)) true = false -> nth j (nth k (mrows (s_trans (stmt_of pr s))) []) 0 = 0.

(** A vector with exactly one entry that is not zero. *)
Definition one_loop (n : nat) (f : list Z) : Prop :=
  exists j, (j < n)%nat /\ nth j f 0 <> 0 /\ forall i, (i < n)%nat -> i <> j -> nth i f 0 = 0.

(** [h] are right as new rows for the statements [l] at level [pos] of a band of
    [width] levels from [first] on: they do not reverse the dependences that are
    not satisfied yet, and there are faces [f], each along one loop, which run
    dependent iterations strictly one after the other, such that every face is
    inside the cone of the new row and the other rows: one of them, or all other
    loops of the band if [full]. *)
Definition diamond_rows (pr : prog) (full : bool) (l : list nat) (first width pos : nat) (h : nat -> list Z) : Prop :=
  (first <= pos < first + width)%nat /\
  (forall s, In s l -> length (h s) = (p_nvar pr + p_npar pr + 1)%nat) /\
  (forall d, In d (p_deps pr) -> d_rar d = false -> d_sat d = false -> In (d_src d) l -> In (d_dst d) l -> hyps_weak pr h d) /\
  exists f cc, (first <= cc < first + width)%nat /\ cc <> pos /\
    (forall d, In d (p_deps pr) -> d_rar d = false -> In (d_src d) l -> In (d_dst d) l -> hyps_strict pr f d) /\
    forall s, In s l ->
      one_loop (p_nvar pr) (f s) /\
      exists ks, (if full then forall k, In k ks <-> (first <= k < first + width)%nat /\ k <> pos /\ loop_level (stmt_of pr s) k = true else ks = [cc]) /\
        inside_cone (p_nvar pr) (f s) (h s) (map (fun k => nth k (mrows (s_trans (stmt_of pr s))) []) ks).

(** No loop has been found yet: all levels are constants. *)
Definition constant_levels (pr : prog) : Prop := forall s k j, (s < length (p_stmts pr))%nat -> (k < length (p_hprops pr))%nat ->
  (j < p_nvar pr + p_npar pr)%nat -> nth j (nth k (mrows (s_trans (stmt_of pr s))) []) 0 = 0.

(** The program with the evicted hyperplanes, which were at the levels [pos], put
    back. *)
Definition put_back_stmt (k : nat) (st : stmt) : stmt :=
  match s_evict st with
  | None => st
  | Some e => set_evict (set_trans st (mkMat (mncols (s_trans st)) (set_nth k e (mrows (s_trans st))))) None
  end.
Definition put_back (pos : list nat) (pr : prog) : prog :=
  set_stmts pr (map (fun s => put_back_stmt (nth s pos 0%nat) (stmt_of pr s)) (seq 0 (length (p_stmts pr)))).
