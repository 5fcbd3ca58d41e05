(** * Specification: references to objects of isl.

    An object is used through references.  Each one is owned by someone, who has to
    release it or hand it over once, and must not use it afterwards. *)
From Coq Require Import List.
Import ListNotations.

(** A pointer: NULL or a reference. *)
Definition ref := option nat.

(** The references that are owned, the next one to be handed out, and the places (source
    lines) where a reference was used that was not owned any more or where NULL was
    dereferenced. *)
Record heap := mkHeap { live : list nat; fresh : nat; bad : list nat }.

(** References handed out earlier; each one is listed once. *)
Definition sane (h : heap) : Prop := NoDup (live h) /\ forall n, In n (live h) -> n < fresh h.

(** The arguments a caller may pass: references the caller owns, each passed once, or
    NULL. *)
Definition owned (h : heap) (args : list ref) : Prop :=
  (forall n, In (Some n) args -> In n (live h)) /\
  forall i j n, nth_error args i = Some (Some n) -> nth_error args j = Some (Some n) -> i = j.

(** A call that takes [args] and returns [res] is clean: it uses nothing that was released
    before, and afterwards exactly those references are owned that were owned before and
    not passed, and the result. *)
Definition handed_over (h : heap) (args : list ref) (res : ref) (h' : heap) : Prop :=
  sane h' /\
  forall n, In n (live h') <-> (In n (live h) /\ ~ In (Some n) args) \/ res = Some n.
Definition clean (h : heap) (args : list ref) (res : ref) (h' : heap) : Prop :=
  handed_over h args res h' /\ bad h' = bad h.
(** A new result. *)
Definition new_or_null (h : heap) (res : ref) : Prop := forall n, res = Some n -> ~ In n (live h).
