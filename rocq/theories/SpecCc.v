(** What an objective for each connected component means (option per-cc-obj). *)
From Coq Require Import ZArith List.
From Verif Require Import SpecLinear SpecProg SpecDriver.
Import ListNotations.
Open Scope Z_scope.

(** A solution lists [npar + 1] sums of bounds, then for each of [ncc] components
    the [npar + 1] numbers u, w of its bound u.p + w on dependence distances, then
    the coefficients of the statements. *)
Definition cc_u (pr : prog) (x : point) (c i : nat) : Z := nth ((p_npar pr + 1) * (c + 1) + i) x 0.
Definition cc_bound (pr : prog) (x : point) (c : nat) (p : point) : Z := zbound pr (skipn ((p_npar pr + 1) * (c + 1)) x) p.
(** The sum over all components of the number [i] of the bounds. *)
Definition cc_total (pr : prog) (ncc : nat) (x : point) (i : nat) : Z :=
  fold_right Z.add 0 (map (fun c => cc_u pr x c i) (seq 0 ncc)).
(** The coefficients of statement [s] in a solution: those of its [nvar] loops
    and a constant. *)
Definition cc_hyp (pr : prog) (ncc : nat) (x : point) (s : nat) : list Z :=
  firstn (p_nvar pr + 1) (skipn ((p_npar pr + 1) * (ncc + 1) + s * (p_nvar pr + 1)) x).

(** The solver answers with the lexicographically least point. *)
Definition solver_least (solve : prog -> cst -> option point) : Prop :=
  forall pr c x, wf_cst c -> solve pr c = Some x -> mem c x /\ forall y, mem c y -> y = x \/ lexlt x y.
