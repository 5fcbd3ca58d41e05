(** * Model of /repo/lib/math_support.c (matrix and integer helpers).

    Simplifications that apply to the whole file: [int64_t] entries are
    unbounded integers [Z] unless a definition says otherwise; allocation sizes
    ([alloc_nrows], [alloc_ncols]) and memory management are not modelled. *)
From Coq Require Import ZArith List Bool.
From Verif Require Import SpecLinear.
Import ListNotations.
Open Scope Z_scope.

(** [PlutoMatrix], include/pluto/matrix.h: the first [nrows] x [ncols] entries. *)
Record matrix := mkMat { mncols : nat; mrows : list (list Z) }.

Definition mnrows (m : matrix) : nat := length (mrows m).

Definition wf_mat (m : matrix) : Prop :=
  forall r, In r (mrows m) -> length r = mncols m.

(** Entry [mat->val[i][j]]. *)
Definition mget (m : matrix) (i j : nat) : Z := nth j (nth i (mrows m) []) 0.

(** ** gcd and lcm *)

(** lib/math_support.c:398-410 [gcd], after the [llabs] of lines 399-400 (the
    recursive calls only pass non-negative arguments, on which [llabs] is the
    identity).  [fuel] bounds the recursion depth. *)
Fixpoint gcd_rec (fuel : nat) (a b : Z) : Z :=
  match fuel with
  | O => 0
  | S fuel' =>
      if a * b =? 0 then a + b
      else if a =? b then a
      else if b <? a then gcd_rec fuel' (Z.rem a b) b
      else gcd_rec fuel' a (Z.rem b a)
  end.

(** lib/math_support.c:398-410 [gcd] over unbounded integers. *)
Definition gcd (a b : Z) : Z :=
  gcd_rec (Z.to_nat (Z.log2 (Z.abs a) + Z.log2 (Z.abs b) + 3)) (Z.abs a) (Z.abs b).

(** lib/math_support.c:391-395 [lcm]. *)
Definition lcm (a b : Z) : Z :=
  if a * b =? 0 then 0 else Z.quot (a * b) (gcd a b).

(** Signed 64-bit range and the two's complement wrap to it. *)
Definition in64 (z : Z) : bool := (- 2 ^ 63 <=? z) && (z <? 2 ^ 63).
Definition wrap64 (z : Z) : Z := (z + 2 ^ 63) mod 2 ^ 64 - 2 ^ 63.
Definition wrap32 (z : Z) : Z := (z + 2 ^ 31) mod 2 ^ 32 - 2 ^ 31.

(** lib/math_support.c:398-410 [gcd] with C arithmetic: [None] is undefined
    behaviour (signed overflow of [a * b], of [a + b] or of [llabs]). *)
Fixpoint gcd64_rec (fuel : nat) (a b : Z) : option Z :=
  match fuel with
  | O => None
  | S fuel' =>
      if negb (in64 (a * b)) then None
      else if a * b =? 0 then (if in64 (a + b) then Some (a + b) else None)
      else if a =? b then Some a
      else if b <? a then gcd64_rec fuel' (Z.rem a b) b
      else gcd64_rec fuel' a (Z.rem b a)
  end.
Definition gcd64 (a b : Z) : option Z :=
  if in64 (Z.abs a) && in64 (Z.abs b) then
    gcd64_rec (Z.to_nat (Z.log2 (Z.abs a) + Z.log2 (Z.abs b) + 3)) (Z.abs a) (Z.abs b)
  else None.

(** lib/math_support.c:391-395 [lcm] with C arithmetic. *)
Definition lcm64 (a b : Z) : option Z :=
  if negb (in64 (a * b)) then None
  else if a * b =? 0 then Some 0
  else match gcd64 a b with
       | Some g => Some (Z.quot (a * b) g)
       | None => None
       end.

(** The same with wrap-around products (what common compilers produce). *)
Fixpoint gcdw_rec (fuel : nat) (a b : Z) : Z :=
  match fuel with
  | O => 0
  | S fuel' =>
      if wrap64 (a * b) =? 0 then wrap64 (a + b)
      else if a =? b then a
      else if b <? a then gcdw_rec fuel' (Z.rem a b) b
      else gcdw_rec fuel' a (Z.rem b a)
  end.
Definition gcdw (a b : Z) : Z :=
  gcdw_rec (Z.to_nat (Z.log2 (Z.abs a) + Z.log2 (Z.abs b) + 3))
           (wrap64 (Z.abs a)) (wrap64 (Z.abs b)).

(** ** Matrix editing *)

(** lib/math_support.c:62-74 [pluto_matrix_remove_col] (requires pos < ncols). *)
Definition matrix_remove_col (m : matrix) (pos : nat) : matrix :=
  mkMat (mncols m - 1) (map (remove_at pos) (mrows m)).

(** lib/math_support.c:77-88 [pluto_matrix_remove_row] (requires pos < nrows). *)
Definition matrix_remove_row (m : matrix) (pos : nat) : matrix :=
  mkMat (mncols m) (remove_at pos (mrows m)).

(** lib/math_support.c:117-138 [pluto_matrix_add_col] (requires pos <= ncols). *)
Definition matrix_add_col (m : matrix) (pos : nat) : matrix :=
  mkMat (S (mncols m)) (map (insert_at pos 0) (mrows m)).

(** Map a function over the element at one position. *)
Definition map_nth {A} (pos : nat) (f : A -> A) (l : list A) : list A :=
  match nth_error l pos with
  | Some x => set_nth pos (f x) l
  | None => l
  end.

(** lib/math_support.c:141-147 [pluto_matrix_negate_row]. *)
Definition matrix_negate_row (m : matrix) (pos : nat) : matrix :=
  mkMat (mncols m) (map_nth pos (map Z.opp) (mrows m)).

(** lib/math_support.c:149-154 [pluto_matrix_negate]: negates rows 0, 1, ... *)
Definition matrix_negate (m : matrix) : matrix :=
  fold_left matrix_negate_row (seq 0 (mnrows m)) m.

(** lib/math_support.c:157-169 [pluto_matrix_add] (requires equal ncols). *)
Definition matrix_add (m1 m2 : matrix) : matrix :=
  mkMat (mncols m1) (mrows m1 ++ mrows m2).

(** lib/math_support.c:173-194 [pluto_matrix_add_row] (requires pos <= nrows). *)
Definition matrix_add_row (m : matrix) (pos : nat) : matrix :=
  mkMat (mncols m) (insert_at pos (repeat 0 (mncols m)) (mrows m)).

(** Exchange two list positions. *)
Definition swap_nth {A} (d : A) (i j : nat) (l : list A) : list A :=
  set_nth j (nth i l d) (set_nth i (nth j l d) l).

(** lib/math_support.c:196-204 [pluto_matrix_interchange_rows]. *)
Definition matrix_interchange_rows (m : matrix) (r1 r2 : nat) : matrix :=
  mkMat (mncols m) (swap_nth [] r1 r2 (mrows m)).

(** lib/math_support.c:206-214 [pluto_matrix_interchange_cols]; the temporary is
    an [int], so the value that travels through it is truncated to 32 bits. *)
Definition interchange_cols_row (c1 c2 : nat) (r : list Z) : list Z :=
  set_nth c2 (wrap32 (nth c1 r 0)) (set_nth c1 (nth c2 r 0) r).
Definition matrix_interchange_cols (m : matrix) (c1 c2 : nat) : matrix :=
  mkMat (mncols m) (map (interchange_cols_row c1 c2) (mrows m)).

(** lib/math_support.c:217-229 [pluto_matrix_move_col]. *)
Definition matrix_move_col (m : matrix) (c1 c2 : nat) : matrix :=
  if (c1 <? c2)%nat then
    fold_left (fun m j => matrix_interchange_cols m j (S j)) (seq c1 (c2 - c1)) m
  else
    fold_left (fun m j => matrix_interchange_cols m j (j - 1)%nat)
              (rev (seq (S c2) (c1 - c2))) m.

(** lib/math_support.c:253-261 [pluto_matrix_set]. *)
Definition matrix_set (m : matrix) (v : Z) : matrix :=
  mkMat (mncols m) (map (fun _ => repeat v (mncols m)) (mrows m)).

(** lib/math_support.c:264-271 [pluto_matrix_identity]. *)
Definition matrix_identity (size : nat) : matrix :=
  mkMat size (map (fun i => set_nth i 1 (repeat 0 size)) (seq 0 size)).

(** lib/math_support.c:274-280 [pluto_matrix_zero_row]. *)
Definition matrix_zero_row (m : matrix) (pos : nat) : matrix :=
  mkMat (mncols m) (map_nth pos (fun _ => repeat 0 (mncols m)) (mrows m)).

(** lib/math_support.c:283-291 [pluto_matrix_zero_col]. *)
Definition matrix_zero_col (m : matrix) (pos : nat) : matrix :=
  mkMat (mncols m) (map (set_nth pos 0) (mrows m)).

(** lib/math_support.c:329-350 [pluto_matrix_normalize_row].  The division is
    guarded by [i == mat->nrows] inside the loop [i < mat->nrows], so it is never
    executed; [rowgcd] (lines 338-344) has no other effect. *)
Definition matrix_normalize_row (m : matrix) (pos : nat) : matrix :=
  fold_left
    (fun m' i =>
       if nth 0 (nth i (mrows m') []) 0 =? 0 then m'
       else if (i =? mnrows m)%nat then
         mkMat (mncols m')
           (map_nth i (fun r => map (fun v => Z.quot v (fold_left gcd r 0)) r) (mrows m'))
       else m')
    (seq 0 (mnrows m)) m.

(** Body of the inner loops of [gaussian_eliminate_var] for one other row [b],
    pivot row [a] (lib/math_support.c:363-370).  The factors are [int] in the
    code; here they are unbounded. *)
Definition gauss_row (pos : nat) (a b : list Z) : list Z :=
  let pa := nth pos a 0 in
  let pb := nth pos b 0 in
  if pb =? 0 then b
  else
    let f1 := Z.quot (lcm (Z.abs pa) (Z.abs pb)) pb in
    let f2 := Z.quot (lcm (Z.abs pa) (Z.abs pb)) pa in
    zip_with (fun vb va => vb * f1 - va * f2) b a.

(** First index at or after [k] of a row with a non-zero entry in column [pos]. *)
Fixpoint first_nonzero (pos : nat) (k : nat) (l : list (list Z)) : option nat :=
  match l with
  | [] => None
  | r :: l' => if nth pos r 0 =? 0 then first_nonzero pos (S k) l' else Some k
  end.

(** lib/math_support.c:353-379 [gaussian_eliminate_var]. *)
Definition gaussian_eliminate_var (m : matrix) (pos : nat) : matrix :=
  let m1 :=
    match first_nonzero pos 0 (mrows m) with
    | Some r =>
        mkMat (mncols m)
          (map (gauss_row pos (nth r (mrows m) [])) (remove_at r (mrows m)))
    | None => m
    end in
  matrix_remove_col m1 pos.

(** lib/math_support.c:383-389 [gaussian_eliminate]. *)
Fixpoint gaussian_eliminate (m : matrix) (start num_elim : nat) : matrix :=
  match num_elim with
  | O => m
  | S n => gaussian_eliminate (gaussian_eliminate_var m start) start n
  end.

(** lib/math_support.c:412-424 [min_lexical]: [true] when [a] is returned. *)
Fixpoint min_lexical (a b : list Z) : bool :=
  match a, b with
  | x :: a', y :: b' =>
      if y <? x then false else if x <? y then true else min_lexical a' b'
  | _, _ => true
  end.

(** lib/math_support.c:433-451 [pluto_matrix_product] (requires
    mat1->ncols = mat2->nrows). *)
Definition matrix_product (m1 m2 : matrix) : matrix :=
  mkMat (mncols m2)
    (map (fun ra =>
            map (fun j =>
                   fold_left (fun acc k => acc + nth k ra 0 * mget m2 k j)
                             (seq 0 (mncols m1)) 0)
                (seq 0 (mncols m2)))
         (mrows m1)).

(** Loop lib/math_support.c:469-478 of [pluto_matrix_to_row_echelon] for one row
    [b] below the pivot row [a]: only columns [j >= i] are touched. *)
Definition echelon_row (i : nat) (a b : list Z) : list Z :=
  let pa := nth i a 0 in
  let pb := nth i b 0 in
  if pb =? 0 then b
  else
    let l := lcm pb pa in
    let f1 := Z.quot l pb in
    let f2 := Z.quot l pa in
    firstn i b ++ zip_with (fun vb va => vb * f1 - va * f2) (skipn i b) (skipn i a).

(** Body of the outer loop, lib/math_support.c:458-481, at column [i] with the
    current pivot row index [r]. *)
Definition echelon_step (st : nat * list (list Z)) (i : nat) : nat * list (list Z) :=
  let '(r, rs) := st in
  let rs1 :=
    if nth i (nth r rs []) 0 =? 0 then
      match first_nonzero i (S r) (skipn (S r) rs) with
      | Some k => swap_nth [] r k rs
      | None => rs
      end
    else rs in
  let piv := nth r rs1 [] in
  if nth i piv 0 =? 0 then (r, rs1)
  else (S r, firstn (S r) rs1 ++ map (echelon_row i piv) (skipn (S r) rs1)).

(** lib/math_support.c:454-484 [pluto_matrix_to_row_echelon]; the loop runs over
    the first min(ncols, nrows) columns only. *)
Definition matrix_to_row_echelon (m : matrix) : matrix :=
  mkMat (mncols m)
    (snd (fold_left echelon_step (seq 0 (Nat.min (mncols m) (mnrows m))) (O, mrows m))).

(** Sum of absolute values, lib/math_support.c:493-497 (an [int] in the code). *)
Definition abs_sum (r : list Z) : Z := fold_left (fun s v => s + Z.abs v) r 0.

(** lib/math_support.c:487-504 [pluto_matrix_get_rank]. *)
Definition matrix_get_rank (m : matrix) : nat :=
  let re := matrix_to_row_echelon m in
  (length (mrows re) - length (filter (fun r => (abs_sum r =? 0)%Z) (mrows re)))%nat.

(** lib/math_support.c:506-515 [pluto_matrix_swap_rows]. *)
Definition matrix_swap_rows (m : matrix) (r1 r2 : nat) : matrix :=
  mkMat (mncols m) (swap_nth [] r1 r2 (mrows m)).

(** lib/math_support.c:518-524 [pluto_matrix_reverse_rows]. *)
Definition matrix_reverse_rows (m : matrix) : matrix :=
  fold_left (fun m' i => matrix_swap_rows m' i (mnrows m - 1 - i)%nat)
            (seq 0 (Nat.div (mnrows m) 2)) m.

(** Loop of [pluto_vector_is_parallel], lib/math_support.c:653-670, with the
    current ratio num/den, which are of type [int]; the products are 64-bit in the
    code, unbounded here. *)
Fixpoint parallel_loop (num den : Z) (a b : list Z) : bool :=
  match a, b with
  | x :: a', y :: b' =>
      if (x =? 0) && (y =? 0) then parallel_loop num den a' b'
      else if negb (x =? 0) && (y =? 0) then false
      else if (x =? 0) && negb (y =? 0) then false
      else if num =? 0 then parallel_loop (wrap32 x) (wrap32 y) a' b'
      else if negb (num * y =? den * x) then false
      else parallel_loop num den a' b'
  | _, _ => true
  end.

(** lib/math_support.c:641-673 [pluto_vector_is_parallel]. *)
Definition vector_is_parallel (m1 : matrix) (r1 : nat) (m2 : matrix) (r2 : nat) : bool :=
  parallel_loop 0 0 (nth r1 (mrows m1) []) (nth r2 (mrows m2) []).

(** lib/math_support.c:675-687 [pluto_vector_is_normal]; the accumulator is an
    [int], the products are 64-bit in the code, unbounded here. *)
Definition vector_is_normal (m1 : matrix) (r1 : nat) (m2 : matrix) (r2 : nat) : bool :=
  fold_left (fun acc j => wrap32 (acc + mget m1 r1 j * mget m2 r2 j)) (seq 0 (mncols m1)) 0 =? 0.

(** lib/math_support.c:710-720 [are_pluto_matrices_equal]. *)
Definition matrices_equal (m1 m2 : matrix) : bool :=
  if negb (mnrows m1 =? mnrows m2)%nat || negb (mncols m1 =? mncols m2)%nat then false
  else
    forallb (fun i => forallb (fun j => mget m1 i j =? mget m2 i j) (seq 0 (mncols m1)))
            (seq 0 (mnrows m1)).
