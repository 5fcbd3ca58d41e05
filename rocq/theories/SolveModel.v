(** * Model of the exchange of numbers, sets and functions with isl, PIP and PolyLib:
    lib/isl_support.c, lib/constraints_isl.c, tool/constraints_polylib.c, parts of
    lib/constraints.c, lib/math_support.c and lib/program.cpp.

    The functions of the external libraries are parameters (SpecSolve.v says what
    they compute).  [None] is a failing assertion or a read through NULL. *)
From Coq Require Import ZArith QArith List Bool.
From Verif Require Import SpecLinear MathModel ConstraintsModel SpecLib OslModel SpecSolve.
Import ListNotations.
Open Scope Z_scope.

(** ** Numbers *)

(** Conversion to a signed 64-bit type. *)
Definition wrap64 (z : Z) : Z := (z + 2 ^ 63) mod 2 ^ 64 - 2 ^ 63.

(** lib/isl_support.c:103-118 [mpz_fits_ll]. *)
Definition mpz_fits_ll (z : Z) : bool :=
  Z.sgn (if 0 <? Z.sgn z then Z.quot z (2 ^ 63) else Z.quot (z + 1) (2 ^ 63)) =? 0.

(** lib/isl_support.c:124-170 [isl_val_get_num_ll] of an integer: lo and hi are of
    type unsigned int. *)
Definition num_ll (z : Z) : Z :=
  if negb (mpz_fits_ll z) then
    (if negb (Z.sgn z =? 0) then 2 ^ 63 - 1 else wrap64 (2 ^ 63))
  else
    let tmp := z mod 2 ^ 64 in
    let lo := tmp mod 2 ^ 32 in
    let hi := (tmp / 2 ^ 32) mod 2 ^ 32 in
    wrap64 (hi * 2 ^ 32 + lo).

(** lib/math_support.c:690-697 [mpz_set_sll]. *)
Definition set_sll (z : Z) : Z := wrap32 (z / 2 ^ 32) * 2 ^ 32 + z mod 2 ^ 32.

(** lib/math_support.c:700-707 [mpz_set_ull] of an unsigned number. *)
Definition set_ull (z : Z) : Z := (z / 2 ^ 32) mod 2 ^ 32 * 2 ^ 32 + z mod 2 ^ 32.

(** ** Sets for isl *)

(** lib/constraints_isl.c:80-126 [isl_basic_set_from_pluto_constraints]. *)
Definition bset_from (c : cst) : bset :=
  mkBset (ncols c - 1) 0 0
    (map (map_coef (map set_sll)) (filter is_eq (rows c) ++ filter (fun r => negb (is_eq r)) (rows c))).

(** lib/constraints_isl.c:131-145 [isl_set_from_pluto_constraints]; [ctx]: the
    context is not NULL.  Without one isl creates no object (isl_malloc_or_die
    returns NULL). *)
Definition set_from (ctx : bool) (l : clist) : option (list bset) :=
  if ctx then Some (map bset_from l) else None.

(** lib/constraints_isl.c:243-289 [isl_basic_set_to_pluto_constraints]; [rd]:
    isl_basic_set_remove_divs. *)
Definition bset_to (rd : bset -> bset) (b : bset) : cst :=
  mkCst (bs_dim (rd b) + bs_npar (rd b) + 1)
    (map (map_coef (map num_ll)) (filter is_eq (bs_rows (rd b)) ++ filter (fun r => negb (is_eq r)) (bs_rows (rd b)))).

(** lib/constraints_isl.c:152-171 [extract_basic_set_constraints], 174-186
    [isl_set_to_pluto_constraints] of a set with [n] dimensions. *)
Definition set_to (rd : bset -> bset) (n : nat) (s : option (list bset)) : option clist :=
  match s with
  | None => None
  | Some l =>
      Some match fold_left (fun o b => match o with
                                       | None => Some [bset_to rd b]
                                       | Some l => Some (unionize_simple_effect l [bset_to rd b])
                                       end) l None with
           | None => [empty_cst (n + 1)]
           | Some r => r
           end
  end.

(** Number of dimensions of the first element of a list. *)
Definition list_dim (l : clist) : nat := match l with [] => 0 | c :: _ => ncols c - 1 end.

(** lib/constraints_isl.c:402-414 [pluto_constraints_union_isl]. *)
Definition union_isl (rd : bset -> bset) (union : nat -> list bset -> list bset -> list bset) (l1 l2 : clist) : option clist :=
  set_to rd (list_dim l1)
    match set_from false l1, set_from false l2 with
    | Some a, Some b => Some (union (list_dim l1) a b)
    | _, _ => None
    end.

(** lib/constraints.c:1882-1888 [pluto_constraints_unionize_isl]. *)
Definition unionize_isl rd union (l1 l2 : clist) : option clist := option_map (copy_list l1) (union_isl rd union l1 l2).

(** lib/constraints_isl.c:465-483 [pluto_constraints_intersection_isl], 486-494
    [pluto_constraints_intersect_isl]: the contents of the first argument. *)
Definition intersection_isl (rd : bset -> bset) (inter : nat -> list bset -> list bset -> list bset) (l1 l2 : clist) : option clist :=
  set_to rd (list_dim l1)
    match set_from true l1, set_from true l2 with
    | Some a, Some b => Some (inter (list_dim l1) a b)
    | _, _ => None
    end.
Definition intersect_isl rd inter (l1 l2 : clist) : option clist := option_map (copy_list l1) (intersection_isl rd inter l1 l2).

(** lib/constraints_isl.c:34-49 [pluto_constraints_project_out_isl]; [proj]:
    isl_set_project_out.  Were a result created, it would not reach the caller: it
    is assigned to the parameter. *)
Definition project_out_isl (rd : bset -> bset) (proj : nat -> nat -> list bset -> list bset) (l : clist) (start num : nat) : option clist :=
  if (num =? 0)%nat then Some l
  else if (start + num - 1 <=? list_dim l - 1)%nat
  then set_to rd (list_dim l - num) (option_map (proj start num) (set_from false l))
  else None.

(** lib/constraints_isl.c:52-74 [pluto_constraints_project_out_isl_single]: the
    element the pointer refers to afterwards, without the rest of its list. *)
Definition project_out_isl_single (rd : bset -> bset) (proj : nat -> nat -> bset -> bset) (l : clist) (start num : nat) : option clist :=
  if (num =? 0)%nat then Some l
  else match l with
       | [] => None
       | c :: _ => if (start + num - 1 <=? ncols c - 2)%nat then Some [bset_to rd (proj start num (bset_from c))] else None
       end.

(** ** Solving *)

(** isl_basic_set_positive_orthant and the intersection with it,
    lib/constraints_isl.c:371-375. *)
Definition orthant_rows (n : nat) : list row := map (fun i => mkRow false (set_nth i 1 (repeat 0 (n + 1)))) (seq 0 n).

(** lib/constraints_isl.c:353-400 [pluto_constraints_lexmin_isl]. *)
Definition lexmin_isl (lexmin : bset -> option point) (negvar : bool) (c : cst) : option point :=
  let b := bset_from c in
  let dom := if negvar then b else mkBset (bs_dim b) 0 0 (bs_rows b ++ orthant_rows (bs_dim b)) in
  option_map (map num_ll) (lexmin dom).

(** lib/constraints.c:1002-1018 [pluto_constraints_to_pip_matrix], 1688-1702
    [pip_matrix_populate]. *)
Definition pip_matrix (c : cst) : list (list Z) := map (fun r => (if is_eq r then 0 else 1) :: coef r) (rows c).

(** lib/constraints.c:1021-1083 [pluto_constraints_lexmin_pip]; the numbers of the
    solution are converted to 64 bits. *)
Definition lexmin_pip (pip : bool -> nat -> list (list Z) -> option point) (negvar : bool) (c : cst) : option point :=
  option_map (map wrap64) (pip negvar (ncols c - 1)%nat (pip_matrix c)).

(** lib/constraints.c:1087-1093 [pluto_constraints_lexmin]. *)
Definition constraints_lexmin (islsolve : bool) lexmin pip (negvar : bool) (c : cst) : option point :=
  if islsolve then lexmin_isl lexmin negvar c else lexmin_pip pip negvar c.

(** ** PolyLib *)

(** tool/constraints_polylib.c:26-38 [pluto_matrix_to_polylib],
    53-72 [pluto_constraints_to_polylib], with lib/constraints.c:721-733; the domain that
    Constraints2Polyhedron makes of a matrix is represented by the matrix. *)
Definition to_polylib (l : clist) : list (list (list Z)) := map (fun c => mrows (to_matrix c)) l.

(** tool/constraints_polylib.c:74-85 [polylib_to_pluto_constraints], 171-185
    [polylib_matrix_to_pluto_constraints]; [n] dimensions. *)
Definition from_polylib (n : nat) (l : list (list (list Z))) : clist :=
  map (fun m => mkCst (n + 1) (map (fun r => mkRow (nth 0 r 0 =? 0) (tl r)) m)) l.

(** tool/constraints_polylib.c:112-158: union, difference and intersection;
    [op]: DomainUnion, DomainDifference or DomainIntersection. *)
Definition polylib_op (op : nat -> list (list (list Z)) -> list (list (list Z)) -> list (list (list Z))) (l1 l2 : clist) : clist :=
  from_polylib (list_dim l1) (op (list_dim l1) (to_polylib l1) (to_polylib l2)).
(** tool/constraints_polylib.c:161-168, 208-214, lib/constraints.c:1873-1879: the
    contents of the first argument. *)
Definition polylib_update op (l1 l2 : clist) : clist := copy_list l1 (polylib_op op l1 l2).

(** tool/constraints_polylib.c:216-227 [pluto_constraints_are_equal]; [empty1]
    decides emptiness of one element. *)
Definition are_equal (empty1 : cst -> bool) diff (l1 l2 : clist) : bool :=
  is_empty empty1 (polylib_op diff l1 l2) && is_empty empty1 (polylib_op diff l2 l1).

(** The matrix of lib/constraints.c:1799-1806. *)
Definition project_func (nc start num : nat) : list (list Z) :=
  map (fun i => set_nth i 1 (repeat 0 nc)) (seq 0 start ++ seq (start + num) (nc - (start + num))).

(** lib/constraints.c:1786-1814 [pluto_constraints_project_out_single], with
    tool/constraints_polylib.c:91-110 [pluto_constraints_image]. *)
Definition project_out_single (img : nat -> list (list Z) -> list (list Z) -> list (list Z)) (start num : nat) (c : cst) : option cst :=
  if (num =? 0)%nat then Some c
  else if (start + num - 1 <=? ncols c - 2)%nat then
    hd_error (from_polylib (ncols c - num - 1) [img (ncols c - 1)%nat (mrows (to_matrix c)) (project_func (ncols c) start num)])
  else None.

(** lib/constraints.c:1817-1823 [pluto_constraints_project_out]. *)
Definition project_out img (start num : nat) (l : clist) : option clist := all_rows (project_out_single img start num) l.

(** ** Affine functions *)

(** isl_val_get_num_si: the numerator of a rational number in lowest terms. *)
Definition num_si (q : Q) : Z := Qnum (Qred q).

(** lib/isl_support.c:53-100 [isl_aff_to_pluto_func]: only the first integer
    division is looked at. *)
Definition aff_to_func (a : iaff) : list Z :=
  let w := (length (af_in a) + length (af_par a) + 1)%nat in
  match af_divs a with
  | d :: _ => if negb (dv_den d =? 1) then repeat 0 w
              else map num_si (af_in a) ++ map num_si (af_par a) ++ [num_si (af_cst a)]
  | [] => map num_si (af_in a) ++ map num_si (af_par a) ++ [num_si (af_cst a)]
  end.

(** isl_pw_aff_foreach_piece with this function: every piece replaces the row. *)
Definition pieces_to_func (l : list ipiece) : option (list Z) := fold_left (fun _ x => Some (aff_to_func (snd x))) l None.

(** lib/constraints_isl.c:422-450 [isl_map_to_pluto_func]; [n] columns. *)
Definition map_to_func (n : nat) (ds : map_dims) : option matrix :=
  option_map (mkMat n) (all_rows (fun o => match o with Some l => pieces_to_func l | None => None end) ds).

(** lib/program.cpp:505-540 [isl_basic_map_extract_access_func]: for a dimension
    that is not single valued a row of zeros is inserted in front. *)
Definition access_func (n : nat) (ds : map_dims) : option matrix :=
  fold_left (fun o d =>
    match o, d with
    | Some m, Some l => match pieces_to_func l with Some r => Some (matrix_add m (mkMat n [r])) | None => None end
    | Some m, None => Some (matrix_zero_row (matrix_add_row m 0) 0)
    | None, _ => None
    end) ds (Some (mkMat n [])).

(** lib/program.cpp:543-549 [isl_map_extract_access_func],
    555-596 [extract_accesses_for_pluto_stmt]: one access per basic map; [width]: the number
    of columns that is asserted. *)
Definition extract_accesses (width : nat) (ms : list (nat * map_dims)) : option (list matrix) :=
  all_rows (fun m => match access_func (fst m) (snd m) with
                     | Some a => if (mncols a =? width)%nat then Some a else None
                     | None => None
                     end) ms.
