(** * Specification vocabulary for the exchange format OpenScop (C70 - C72).

    A relation of OpenScop is an integer matrix whose rows have the columns
    [eq | output dimensions | input dimensions | local dimensions | parameters | constant].
    Column 0 says whether the row is an equality (0) or an inequality (1).
    OpenScop and Candl are not part of the repository; this file only fixes what
    their matrices mean.  Nothing in it models code of Pluto. *)
From Coq Require Import ZArith List Bool.
From Verif Require Import SpecLinear.
Import ListNotations.
Open Scope Z_scope.

Record osl_rel := mkRel {
  o_out : nat; o_in : nat; o_local : nat; o_par : nat;   (* numbers of dimensions *)
  o_rows : list (list Z)
}.

Definition o_cols (r : osl_rel) : nat := (1 + (o_out r + o_in r + o_local r + o_par r) + 1)%nat.

(** The rectangular matrices. *)
Definition wf_rel (r : osl_rel) : Prop := forall l, In l (o_rows r) -> length l = o_cols r.

Definition osl_holds (x : point) (l : list Z) : Prop :=
  if nth 0 l 0 =? 0 then aff (tl l) x = 0 else 0 <= aff (tl l) x.

(** [rel_mem r x]: the point [x] (output, input, local, parameter coordinates)
    belongs to the relation. *)
Definition rel_mem (r : osl_rel) (x : point) : Prop :=
  length x = (o_out r + o_in r + o_local r + o_par r)%nat /\ forall l, In l (o_rows r) -> osl_holds x l.

(** A union of relations (the chain of next pointers of OpenScop). *)
Definition union_mem (rs : list osl_rel) (x : point) : Prop := exists r, In r rs /\ rel_mem r x.

(** The usual form of schedules and accesses, [eq -I A c]: one row
    "- out_i + A_i (in, par, 1) = 0" per output dimension. *)
Definition neg_unit (n k : nat) : list Z := set_nth k (-1) (repeat 0 n).
Definition graph_row (n k : nat) (a : list Z) : list Z := 0 :: neg_unit n k ++ a.

Definition schedule_rows (A : list (list Z)) : list (list Z) :=
  map (fun i => graph_row (length A) i (nth i A [])) (seq 0 (length A)).

(** Accesses: the first output dimension is the number of the array. *)
Definition access_rows (w : nat) (id : Z) (A : list (list Z)) : list (list Z) :=
  graph_row (S (length A)) 0 (repeat 0 w ++ [id]) ::
  map (fun i => graph_row (S (length A)) (S i) (nth i A [])) (seq 0 (length A)).

(** The kind of an access relation. *)
Inductive osl_type := T_READ | T_WRITE | T_MAY_WRITE.

(** The kind of a dependence. *)
Inductive dep_type := D_RAW | D_WAR | D_WAW | D_RAR | D_UNDEFINED.

(** ** Dependence systems of Candl

    Coordinates: source iterators (ns), subscripts of the source access (as the
    first one: array number), target iterators (nt), subscripts of the target
    access, parameters (np).  Rows: domain of the source, domain of the target,
    source access, target access with opposite sign, equality of the subscripts,
    order of the iterations. *)
Record candl_dep := mkCandl {
  k_ns : nat; k_nt : nat; k_np : nat;
  k_sdom : list row;             (* rows over (source iterators, parameters) *)
  k_tdom : list row;             (* rows over (target iterators, parameters) *)
  k_sarr : Z; k_tarr : Z;        (* accessed arrays *)
  k_sacc : list (list Z);        (* subscripts over (source iterators, parameters) *)
  k_tacc : list (list Z);        (* subscripts over (target iterators, parameters) *)
  k_order : list (bool * Z * Z * Z)  (* level i: a * s_i + b * t_i + c  = 0 or >= 0 *)
}.

Definition eq_flag (e : bool) : Z := if e then 0 else 1.

(** The two halves of a row over (iterators, parameters, 1). *)
Definition it_part (n : nat) (r : list Z) : list Z := firstn n r.
Definition par_part (n : nat) (r : list Z) : list Z := skipn n r.

Definition candl_rows (k : candl_dep) : list (list Z) :=
  let a := S (length (k_sacc k)) in
  let b := S (length (k_tacc k)) in
  map (fun r => eq_flag (is_eq r) :: it_part (k_ns k) (coef r) ++ repeat 0 a ++ repeat 0 (k_nt k) ++ repeat 0 b ++
                par_part (k_ns k) (coef r)) (k_sdom k) ++
  map (fun r => eq_flag (is_eq r) :: repeat 0 (k_ns k) ++ repeat 0 a ++ it_part (k_nt k) (coef r) ++ repeat 0 b ++
                par_part (k_nt k) (coef r)) (k_tdom k) ++
  (* source access *)
  map (fun i => let r := match i with O => repeat 0 (k_ns k + k_np k) ++ [k_sarr k] | S j => nth j (k_sacc k) [] end in
                0 :: it_part (k_ns k) r ++ neg_unit a i ++ repeat 0 (k_nt k) ++ repeat 0 b ++ par_part (k_ns k) r)
      (seq 0 a) ++
  (* target access, opposite sign *)
  map (fun i => let r := match i with O => repeat 0 (k_nt k + k_np k) ++ [k_tarr k] | S j => nth j (k_tacc k) [] end in
                0 :: repeat 0 (k_ns k) ++ repeat 0 a ++ map Z.opp (it_part (k_nt k) r) ++ map Z.opp (neg_unit b i) ++
                map Z.opp (par_part (k_nt k) r))
      (seq 0 b) ++
  (* equal subscripts *)
  map (fun i => 0 :: repeat 0 (k_ns k) ++ neg_unit a i ++ repeat 0 (k_nt k) ++ map Z.opp (neg_unit b i) ++
                repeat 0 (k_np k + 1)) (seq 0 (Nat.min a b)) ++
  (* order of the iterations *)
  map (fun ir => match snd ir with (e, u, v, c) =>
         eq_flag e :: set_nth (fst ir) u (repeat 0 (k_ns k)) ++ repeat 0 a ++ set_nth (fst ir) v (repeat 0 (k_nt k)) ++
         repeat 0 b ++ repeat 0 (k_np k) ++ [c] end) (combine (seq 0 (length (k_order k))) (k_order k)).

(** A consistent description: all rows have the right size, both accesses have
    the same number of subscripts, the ordered levels exist on both sides. *)
Definition wf_candl (k : candl_dep) : Prop :=
  (forall r, In r (k_sdom k) -> length (coef r) = (k_ns k + k_np k + 1)%nat) /\
  (forall r, In r (k_tdom k) -> length (coef r) = (k_nt k + k_np k + 1)%nat) /\
  (forall r, In r (k_sacc k) -> length r = (k_ns k + k_np k + 1)%nat) /\
  (forall r, In r (k_tacc k) -> length r = (k_nt k + k_np k + 1)%nat) /\
  length (k_sacc k) = length (k_tacc k) /\
  (length (k_order k) <= k_ns k)%nat /\ (length (k_order k) <= k_nt k)%nat.

(** What the system says about source iteration [s], target iteration [t] and
    parameters [p]: there are subscripts completing them to a solution. *)
Definition candl_mem (k : candl_dep) (s t p : point) : Prop :=
  length s = k_ns k /\ length t = k_nt k /\ length p = k_np k /\
  exists u v, length u = S (length (k_sacc k)) /\ length v = S (length (k_tacc k)) /\
    forall l, In l (candl_rows k) -> osl_holds (s ++ u ++ t ++ v ++ p) l.

(** The same in plain words: the source iteration belongs to the source domain,
    the target iteration to the target domain, both access the same element and
    they are in the given order. *)
Definition dep_meaning (k : candl_dep) (s t p : point) : Prop :=
  (forall r, In r (k_sdom k) -> holds (s ++ p) r) /\
  (forall r, In r (k_tdom k) -> holds (t ++ p) r) /\
  (forall j, (j < length (k_sacc k))%nat -> aff (nth j (k_sacc k) []) (s ++ p) = aff (nth j (k_tacc k) []) (t ++ p)) /\
  (forall i e a b c, nth_error (k_order k) i = Some (e, a, b, c) ->
     let v := a * nth i s 0 + b * nth i t 0 + c in if e then v = 0 else 0 <= v).
