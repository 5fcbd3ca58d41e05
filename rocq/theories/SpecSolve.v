(** * Specification vocabulary: what the external libraries do (C77 - C79).

    isl, PIP and PolyLib are not part of the repository.  This file says what the
    results of their functions mean; nothing in it models code of Pluto. *)
From Coq Require Import ZArith QArith Qround List Bool.
From Verif Require Import SpecLinear MathModel SpecLib.
Import ListNotations.
Open Scope Z_scope.

(** The values of a signed 64-bit variable. *)
Definition fits64 (z : Z) : Prop := - 2 ^ 63 <= z < 2 ^ 63.
Definition fits64_cst (c : cst) : Prop := forall r, In r (rows c) -> Forall fits64 (coef r).

(** The lexicographically least point with a property. *)
Definition least (P : point -> Prop) (x : point) : Prop := P x /\ forall y, P y -> y = x \/ lexlt x y.
Definition nonneg (x : point) : Prop := Forall (fun v => 0 <= v) x.

(** The solutions asked for: points of a set, without negative coordinates unless
    [negvar] is set. *)
Definition solution (negvar : bool) (c : cst) (x : point) : Prop := mem c x /\ (negvar = false -> nonneg x).

(** ** Solvers

    isl_set_lexmin of a basic set without parameters, followed by the test for
    emptiness and isl_set_sample_point: the least point if there is one, nothing if
    the set is empty. *)
Definition isl_lexmin_ok (f : bset -> option point) : Prop :=
  forall b, shaped_set b -> bs_npar b = 0%nat ->
    (forall x, f b = Some x <-> least (fun x => bset_mem b x []) x) /\
    ((forall x, ~ bset_mem b x []) -> f b = None).

(** pip_solve of a matrix whose rows start with 0 (equality) or 1 (inequality) and
    end with the constant; without parameters; [urs]: the unknowns may be negative. *)
Definition pip_row_holds (l : list Z) (x : point) : Prop :=
  match l with [] => True | t :: r => if t =? 0 then aff r x = 0 else 0 <= aff r x end.
Definition pip_mem (urs : bool) (n : nat) (m : list (list Z)) (x : point) : Prop :=
  length x = n /\ (urs = false -> nonneg x) /\ forall l, In l m -> pip_row_holds l x.
Definition pip_ok (f : bool -> nat -> list (list Z) -> option point) : Prop :=
  forall urs n m, (forall l, In l m -> length l = (n + 2)%nat) ->
    (forall x, f urs n m = Some x <-> least (pip_mem urs n m) x) /\
    ((forall x, ~ pip_mem urs n m x) -> f urs n m = None).

(** A list of constraints that describes a set of points with [n] coordinates. *)
Definition list_ok (n : nat) (l : list cst) : Prop := l <> [] /\ forall c, In c l -> wf_cst c /\ ncols c = (n + 1)%nat.

(** ** Sets of isl: unions of basic sets without parameters *)
Definition uset_mem (l : list bset) (x : point) : Prop := exists b, In b l /\ bset_mem b x [].
Definition shaped_uset (n : nat) (l : list bset) : Prop :=
  forall b, In b l -> bs_dim b = n /\ bs_npar b = 0%nat /\ shaped_set b.
(** A result without existentially quantified variables whose numbers are 64-bit. *)
Definition plain_uset (l : list bset) : Prop :=
  forall b, In b l -> bs_ndiv b = 0%nat /\ forall r, In r (bs_rows b) -> Forall fits64 (coef r).
(** Only the size of the numbers. *)
Definition small_uset (rd : bset -> bset) (l : list bset) : Prop :=
  forall b, In b l -> forall r, In r (bs_rows (rd b)) -> Forall fits64 (coef r).
(** A binary operation computes the points that [P] describes. *)
Definition isl_op_ok (op : nat -> list bset -> list bset -> list bset) (P : Prop -> Prop -> Prop) : Prop :=
  forall n a b, shaped_uset n a -> shaped_uset n b ->
    shaped_uset n (op n a b) /\ forall x, length x = n -> (uset_mem (op n a b) x <-> P (uset_mem a x) (uset_mem b x)).
(** Existential variables are removed only by enlarging the set; a set without any
    is left alone. *)
Definition remove_divs_exact (rd : bset -> bset) : Prop := remove_divs_set_ok rd /\ forall b, bs_ndiv b = 0%nat -> rd b = b.

(** isl_basic_set_project_out: the projections of the integer points. *)
Definition isl_project_ok (proj : nat -> nat -> bset -> bset) : Prop :=
  forall start num b, shaped_set b -> bs_npar b = 0%nat -> (start + num <= bs_dim b)%nat ->
    bs_dim (proj start num b) = (bs_dim b - num)%nat /\ bs_npar (proj start num b) = 0%nat /\ shaped_set (proj start num b) /\
    forall y, bset_mem (proj start num b) y [] <-> exists x, bset_mem b x [] /\ y = firstn start x ++ skipn (start + num) x.

(** ** Domains of PolyLib: unions of polyhedra given by such matrices *)
Definition pol_mem (n : nat) (l : list (list (list Z))) (x : point) : Prop :=
  length x = n /\ exists m, In m l /\ forall r, In r m -> pip_row_holds r x.
Definition shaped_pol (n : nat) (l : list (list (list Z))) : Prop := forall m r, In m l -> In r m -> length r = (n + 2)%nat.
Definition polylib_op_ok (op : nat -> list (list (list Z)) -> list (list (list Z)) -> list (list (list Z))) (P : Prop -> Prop -> Prop) : Prop :=
  forall n a b, shaped_pol n a -> shaped_pol n b -> a <> [] -> b <> [] ->
    shaped_pol n (op n a b) /\ op n a b <> [] /\
    forall x, length x = n -> (pol_mem n (op n a b) x <-> P (pol_mem n a x) (pol_mem n b x)).

(** Polyhedron_Image under an affine function given by the rows of a matrix (the
    last of them yields 1): the image of the rational polyhedron. *)
Definition qpip_row_holds (l : list Z) (x : qpoint) : Prop :=
  match l with [] => True | t :: r => if t =? 0 then (qaff r x == 0)%Q else (0 <= qaff r x)%Q end.
Definition qpol_mem (n : nat) (m : list (list Z)) (x : qpoint) : Prop :=
  length x = n /\ forall r, In r m -> qpip_row_holds r x.
Definition image_ok (img : nat -> list (list Z) -> list (list Z) -> list (list Z)) : Prop :=
  forall n m f, (forall r, In r m -> length r = (n + 2)%nat) -> (1 <= length f)%nat -> (forall r, In r f -> length r = (n + 1)%nat) ->
    last f [] = repeat 0 n ++ [1] ->
    (forall r, In r (img n m f) -> length r = (length f + 1)%nat) /\
    (forall y, qpol_mem (length f - 1) (img n m f) y <->
       exists x, qpol_mem n m x /\ Forall2 Qeq y (map (fun r => qaff r x) (removelast f))).

(** ** Affine functions of isl

    An isl_aff in the iterators and parameters: rational coefficients, a rational
    constant, and multiples of integer divisions, each of them the floor of an
    affine expression (integer coefficients, constant last) divided by a positive
    number. *)
Record idiv := mkIdiv { dv_factor : Q; dv_expr : list Z; dv_den : Z }.
Record iaff := mkIaff { af_in : list Q; af_par : list Q; af_cst : Q; af_divs : list idiv }.
Fixpoint qsum (a : list Q) (x : list Z) : Q :=
  match a, x with
  | c :: a', v :: x' => (c * inject_Z v + qsum a' x')%Q
  | _, _ => 0%Q
  end.
Definition iaff_val (a : iaff) (i p : point) : Q :=
  (qsum (af_in a) i + qsum (af_par a) p + af_cst a
   + fold_right (fun d s => dv_factor d * inject_Z (aff (dv_expr d) (i ++ p) / dv_den d) + s) 0 (af_divs a))%Q.

(** One dimension of the range of an isl_map as a function of the iterators and
    parameters: the pieces of isl_pw_aff_from_map_dim, or [None] if the dimension is
    not single valued. *)
Definition ipiece := ((point -> point -> Prop) * iaff)%type.
Definition map_dims := list (option (list ipiece)).
(** The value of a dimension. *)
Definition dim_val (o : option (list ipiece)) (i p : point) (v : Z) : Prop :=
  exists l c a, o = Some l /\ In (c, a) l /\ c i p /\ (inject_Z v == iaff_val a i p)%Q.
(** A function with integer coefficients of [ni] iterators and [np] parameters
    without integer divisions. *)
Definition is_int (q : Q) : Prop := exists z, (q == inject_Z z)%Q.
Definition plain_aff (ni np : nat) (a : iaff) : Prop :=
  af_divs a = [] /\ length (af_in a) = ni /\ length (af_par a) = np /\
  Forall is_int (af_in a) /\ Forall is_int (af_par a) /\ is_int (af_cst a).
