(** * Specification vocabulary for loops and bands of the transformed program. *)
From Coq Require Import ZArith List Bool.
From Verif Require Import SpecLinear MathModel SpecProg SpecTile.
Import ListNotations.
Open Scope Z_scope.

(** Level [k] has one and the same value for all iterations of statement [s] and
    all parameters. *)
Definition constant_level (pr : prog) (s k : nat) : Prop :=
  forall i i' p p', length i = s_dim (stmt_of pr s) -> length i' = s_dim (stmt_of pr s) ->
    length p = p_npar pr -> length p' = p_npar pr ->
    theta (stmt_of pr s) k i p = theta (stmt_of pr s) k i' p'.

(** No level before [k] separates the statements [s] and [t]: where both have a
    constant level the constants are equal. *)
Definition fused (pr : prog) (k s t : nat) : Prop :=
  forall j, (j < k)%nat -> loop_level (stmt_of pr s) j = false -> loop_level (stmt_of pr t) j = false ->
    forall i i' p, length i = s_dim (stmt_of pr s) -> length i' = s_dim (stmt_of pr t) -> length p = p_npar pr ->
      theta (stmt_of pr s) j i p = theta (stmt_of pr t) j i' p.

(** A level is a loop for all of several fused statements or for none. *)
Definition uniform (pr : prog) : Prop :=
  forall s t k, (s < length (p_stmts pr))%nat -> (t < length (p_stmts pr))%nat -> (k < length (p_hprops pr))%nat ->
    fused pr k s t -> loop_level (stmt_of pr s) k = loop_level (stmt_of pr t) k.

(** The types recorded with the statements are right and levels that are no
    loops are constant. *)
Definition plain_levels (pr : prog) : Prop :=
  forall s, (s < length (p_stmts pr))%nat -> types_ok (stmt_of pr s) /\
    forall k, (k < length (p_hprops pr))%nat -> loop_level (stmt_of pr s) k = false -> constant_level pr s k.

(** Some level orders all instances of [d] and no level before it reverses one
    (the form in which the hyperplane search orders dependences). *)
Definition ordered_at (pr : prog) (d : dep) (L : nat) : Prop :=
  (L < length (p_hprops pr))%nat /\ strict_at pr d L /\ forall j, (j < L)%nat -> weak_at pr d j.
Definition leveled (pr : prog) : Prop :=
  forall d, In d (p_deps pr) -> d_rar d = false -> exists L, ordered_at pr d L.

(** Level [k] does not carry [d]: two dependent iterations that agree on all
    outer levels agree on level [k], too. *)
Definition not_carried (pr : prog) (d : dep) (k : nat) : Prop :=
  forall s t p, instance pr d s t p -> (forall j, (j < k)%nat -> distance pr d j s t p = 0) ->
    distance pr d k s t p = 0.

(** The statements [l] may run the iterations of level [k] in any order or in
    parallel, for fixed values of the outer levels. *)
Definition parallel_level (pr : prog) (l : list nat) (k : nat) : Prop :=
  forall d, In d (p_deps pr) -> d_rar d = false -> In (d_src d) l -> In (d_dst d) l -> not_carried pr d k.

(** ** Wavefronts *)
Definition zsum (l : list Z) : Z := fold_right Z.add 0 l.

(** The levels among [a] .. [a]+[n]-1 that are loops for all statements of [l]. *)
Definition common_loops (pr : prog) (l : list nat) (a n : nat) : list nat :=
  filter (fun k => forallb (fun s => loop_level (stmt_of pr s) k) l) (seq a n).

(** What a group of statements and the levels [first] .. [last]-1 have to satisfy
    for dependence [d]: neither end is in the group, or [d] is ordered before
    [first], or both ends are in the group and the levels are permutable. *)
Definition wave_safe (pr : prog) (l : list nat) (first last : nat) (d : dep) : Prop :=
  (~ In (d_src d) l /\ ~ In (d_dst d) l) \/ separated_before pr d first \/
  (In (d_src d) l /\ In (d_dst d) l /\ permutable_on pr d first last).

(** A group of statements and the levels of a band. *)
Definition wave_band (pr : prog) (l : list nat) (first width : nat) : Prop :=
  NoDup l /\ (forall s, In s l -> (s < length (p_stmts pr))%nat) /\ (1 <= width)%nat /\ (first + width <= length (p_hprops pr))%nat.
