(** * Specification vocabulary for remappings. *)
From Coq Require Import ZArith List Bool Arith.
From Verif Require Import SpecLinear SpecMatrix MathModel SpecProg.
Import ListNotations.
Open Scope Z_scope.

(** Different iterations have different times. *)
Definition one_to_one (npar : nat) (st : stmt) : Prop :=
  forall x y p, length x = s_dim st -> length y = s_dim st -> length p = npar ->
    timestamp st x p = timestamp st y p -> x = y.

(** [remap] maps times back to iterations: for iteration [x] at time [t], row [r] of
    [remap] applied to (t, p, 1) is D_r times coordinate [r] of (x, p, 1). *)
Definition remaps (npar : nat) (st : stmt) (remap : matrix) (D : list Z) : Prop :=
  wf_mat remap /\ mnrows remap = (s_dim st + npar + 1)%nat /\ mncols remap = (mnrows (s_trans st) + npar + 1)%nat /\
  length D = (s_dim st + npar + 1)%nat /\ (forall d, In d D -> 0 < d) /\
  forall x p, length x = s_dim st -> length p = npar ->
    mat_vec (mrows remap) (timestamp st x p ++ p ++ [1]) = zip_with Z.mul D (x ++ p ++ [1]).

(** The coefficients of the iterators are smaller than 2^31. *)
Definition small_coefs (st : stmt) : Prop :=
  forall r, In r (mrows (s_trans st)) -> forall j, (j < s_dim st)%nat -> Z.abs (nth j r 0) < 2 ^ 31.
