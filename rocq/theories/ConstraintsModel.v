(** * Model of /repo/lib/constraints.c.

    A [cst] (SpecLinear) is one element of a [PlutoConstraints] list: [nrows]
    rows of [ncols] entries with an is_eq flag each.  Names of dimensions,
    allocation sizes and memory management are not modelled; [int64_t] is [Z]. *)
From Coq Require Import ZArith List Bool.
From Verif Require Import SpecLinear MathModel.
Import ListNotations.
Open Scope Z_scope.

Definition nrows (c : cst) : nat := length (rows c).

(** Entry [cst->val[i][j]]. *)
Definition cget (c : cst) (i j : nat) : Z :=
  match nth_error (rows c) i with Some r => nth j (coef r) 0 | None => 0 end.

(** ** Construction *)

(** lib/constraints.c:45-84 [pluto_constraints_alloc] (nrows is set to 0),
    and lib/constraints.c:1890-1893 [pluto_constraints_universe]. *)
Definition universe (nc : nat) : cst := mkCst nc [].

(** lib/constraints.c:1475-1490 [pluto_constraints_add_inequality] and
    lib/constraints.c:1494-1511 [pluto_constraints_add_equality] (one element). *)
Definition add_zero_row (eq : bool) (c : cst) : cst :=
  mkCst (ncols c) (rows c ++ [mkRow eq (repeat 0 (ncols c))]).
Definition add_inequality := add_zero_row false.
Definition add_equality := add_zero_row true.

(** lib/constraints.c:1514-1519 [pluto_constraints_add_constraint]. *)
Definition add_constraint (c : cst) (eq : bool) : cst :=
  if eq then add_equality c else add_inequality c.

(** [cst->val[cst->nrows - 1][j] = v] on the last row. *)
Definition set_last (j : nat) (v : Z) (c : cst) : cst :=
  mkCst (ncols c)
    (map_nth (length (rows c) - 1)
       (fun r => mkRow (is_eq r) (set_nth j v (coef r))) (rows c)).

(** lib/constraints.c:1649-1659 [pluto_constraints_add_lb] (one element). *)
Definition add_lb (c : cst) (varnum : nat) (lb : Z) : cst :=
  set_last (ncols c - 1) (- lb) (set_last varnum 1 (add_inequality c)).

(** lib/constraints.c:1662-1672 [pluto_constraints_add_ub] (one element). *)
Definition add_ub (c : cst) (varnum : nat) (ub : Z) : cst :=
  set_last (ncols c - 1) ub (set_last varnum (-1) (add_inequality c)).

(** lib/constraints.c:1675-1685 [pluto_constraints_set_var] (one element). *)
Definition set_var (c : cst) (varnum : nat) (v : Z) : cst :=
  set_last (ncols c - 1) (- v) (set_last varnum 1 (add_equality c)).

(** lib/constraints.c:1896-1901 [pluto_constraints_empty]. *)
Definition empty_cst (nc : nat) : cst :=
  set_last (nc - 1) 1 (add_equality (universe nc)).

(** lib/constraints.c:285-307 [pluto_constraints_add] (requires equal ncols). *)
Definition cst_add (c1 c2 : cst) : cst := mkCst (ncols c1) (rows c1 ++ rows c2).

(** lib/constraints.c:1522-1532 [pluto_constraints_remove_row]. *)
Definition remove_row (c : cst) (pos : nat) : cst :=
  mkCst (ncols c) (remove_at pos (rows c)).

Definition map_coef (f : list Z -> list Z) (r : row) : row := mkRow (is_eq r) (f (coef r)).

(** lib/constraints.c:1535-1561 [pluto_constraints_remove_dim] (one element;
    requires pos <= ncols - 2). *)
Definition remove_dim (c : cst) (pos : nat) : cst :=
  mkCst (ncols c - 1) (map (map_coef (remove_at pos)) (rows c)).

(** lib/constraints.c:1601-1636 [pluto_constraints_add_dim] (one element;
    requires pos <= ncols - 1). *)
Definition add_dim (c : cst) (pos : nat) : cst :=
  mkCst (S (ncols c)) (map (map_coef (insert_at pos 0)) (rows c)).

(** lib/constraints.c:1643-1647 [pluto_constraints_add_leading_dims]. *)
Fixpoint add_leading_dims (c : cst) (num : nat) : cst :=
  match num with O => c | S n => add_leading_dims (add_dim c 0) n end.

(** lib/constraints.c:1564-1571 [pluto_constraints_zero_row]. *)
Definition zero_row (c : cst) (pos : nat) : cst :=
  mkCst (ncols c) (map_nth pos (map_coef (fun _ => repeat 0 (ncols c))) (rows c)).

(** lib/constraints.c:1574-1598 [pluto_constraints_normalize_row]: as in
    [matrix_normalize_row], the division is guarded by [i == cst->nrows] inside
    the loop [i < cst->nrows]. *)
Definition normalize_row (c : cst) (pos : nat) : cst :=
  fold_left
    (fun c' i =>
       if cget c' i 0 =? 0 then c'
       else if (i =? nrows c)%nat then
         mkCst (ncols c')
           (map_nth i (map_coef (fun r => map (fun v => Z.quot v (fold_left gcd r 0)) r)) (rows c'))
       else c')
    (seq 0 (nrows c)) c.

(** lib/constraints.c:1704-1715 [pluto_constraints_select_row]. *)
Definition select_row (c : cst) (pos : nat) : cst :=
  mkCst (ncols c) (match nth_error (rows c) pos with Some r => [r] | None => [] end).

(** lib/constraints.c:1720-1728 [pluto_constraints_negate_row]. *)
Definition negate_row (c : cst) (pos : nat) : cst :=
  mkCst (ncols c) (map_nth pos (map_coef (map Z.opp)) (rows c)).

(** lib/constraints.c:1733-1742 [pluto_constraints_negate_constraint]: all
    coefficients but the last are negated, the last one is decremented. *)
Definition negate_constraint (c : cst) (pos : nat) : cst :=
  mkCst (ncols c)
    (map_nth pos
       (map_coef (fun r =>
          map Z.opp (firstn (ncols c - 1) r) ++ map (fun v => v - 1) (skipn (ncols c - 1) r)))
       (rows c)).

(** lib/constraints.c:1825-1839 [pluto_constraints_interchange_cols] (one element). *)
Definition interchange_cols (c : cst) (c1 c2 : nat) : cst :=
  if (c1 =? c2)%nat then c
  else mkCst (ncols c) (map (map_coef (swap_nth 0 c1 c2)) (rows c)).

(** ** Conversions *)

(** lib/constraints.c:721-733 [pluto_constraints_to_matrix]; also
    lib/constraints.c:1002-1017 [pluto_constraints_to_pip_matrix]. *)
Definition to_matrix (c : cst) : matrix :=
  mkMat (S (ncols c)) (map (fun r => (if is_eq r then 0 else 1) :: coef r) (rows c)).

(** lib/constraints.c:755-770 [pluto_constraints_from_matrix]. *)
Definition from_matrix (m : matrix) : cst :=
  mkCst (mncols m - 1)
    (map (fun r => mkRow (nth 0 r 0 =? 0) (firstn (mncols m - 1) (skipn 1 r))) (mrows m)).

(** lib/constraints.c:736-752 [pluto_constraints_from_mixed_matrix]. *)
Definition from_mixed_matrix (m : matrix) (eqs : list bool) : cst :=
  mkCst (mncols m) (zip_with (fun e r => mkRow e (firstn (mncols m) r)) eqs (mrows m)).

(** lib/constraints.c:773-786 [pluto_constraints_from_inequalities]. *)
Definition from_inequalities (m : matrix) : cst :=
  mkCst (mncols m) (map (fun r => mkRow false (firstn (mncols m) r)) (mrows m)).

(** lib/constraints.c:1458-1471 [pluto_constraints_from_equalities]. *)
Definition from_equalities (m : matrix) : cst :=
  mkCst (mncols m) (map (fun r => mkRow true (firstn (mncols m) r)) (mrows m)).

(** lib/constraints.c:2248-2265 [pluto_constraints_extract_equalities] and
    lib/constraints.c:2237-2246 [pluto_constraints_get_num_equalities]. *)
Definition extract_equalities (c : cst) : matrix :=
  mkMat (ncols c) (map coef (filter is_eq (rows c))).
Definition get_num_equalities (c : cst) : nat := length (filter is_eq (rows c)).

(** ** Simplification *)

(** Are all entries 0?  (scan loops lib/constraints.c:395-398, 433-436). *)
Definition all_zero (r : list Z) : bool := forallb (fun v => v =? 0) r.

(** Drop the leading zeros: what remains after the scan loop 395-398. *)
Fixpoint from_first_nonzero (r : list Z) : list Z :=
  match r with
  | [] => []
  | v :: r' => if v =? 0 then from_first_nonzero r' else r
  end.

(** gcd of a row as computed in lib/constraints.c:400-404; 0 when all are zero. *)
Definition row_gcd (r : list Z) : Z :=
  match from_first_nonzero r with
  | [] => 0
  | v :: r' => fold_left (fun g w => gcd (Z.abs w) g) (v :: r') (Z.abs v)
  end.

(** Normalisation of one row, lib/constraints.c:393-411. *)
Definition norm_row (r : list Z) : list Z :=
  if all_zero r then r else map (fun v => Z.quot v (row_gcd r)) r.

(** lib/constraints.c:342-371 [row_compar]. *)
Fixpoint coef_compar (a b : list Z) : comparison :=
  match a, b with
  | x :: a', y :: b' =>
      if x =? y then coef_compar a' b' else if x <? y then Lt else Gt
  | _, _ => Eq
  end.
Definition row_compar (a b : row) : comparison :=
  match coef_compar (coef a) (coef b) with
  | Eq => match is_eq a, is_eq b with
          | true, false => Lt
          | false, true => Gt
          | _, _ => Eq
          end
  | c => c
  end.

(** [qsort] with [row_compar] (lib/constraints.c:421), as insertion sort.  Rows
    that compare equal are identical, so the result of any sorting algorithm is
    the same list (lemma [sort_rows_unique]). *)
Fixpoint insert_row (r : row) (l : list row) : list row :=
  match l with
  | [] => [r]
  | r' :: l' => match row_compar r r' with Gt => r' :: insert_row r l' | _ => r :: l end
  end.
Fixpoint sort_rows (l : list row) : list row :=
  match l with [] => [] | r :: l' => insert_row r (sort_rows l') end.

Fixpoint coef_eqb (a b : list Z) : bool :=
  match a, b with
  | [], [] => true
  | x :: a', y :: b' => (x =? y) && coef_eqb a' b'
  | _, _ => false
  end.

(** Redundancy marking and compaction, lib/constraints.c:430-463, for the rows
    after the row [prev] of the sorted array. *)
Fixpoint drop_redundant (prev : row) (l : list row) : list row :=
  match l with
  | [] => []
  | r :: l' =>
      if all_zero (coef r) then drop_redundant r l'
      else if coef_eqb (coef prev) (coef r) && Bool.eqb (is_eq prev) (is_eq r)
      then drop_redundant r l'
      else r :: drop_redundant r l'
  end.

(** lib/constraints.c:378-474 [pluto_constraints_simplify] (one element). *)
Definition simplify (c : cst) : cst :=
  match rows c with
  | [] => c
  | _ =>
      match sort_rows (map (map_coef norm_row) (rows c)) with
      | [] => c
      | r0 :: l => mkCst (ncols c) (r0 :: drop_redundant r0 l)
      end
  end.

(** ** Equalities to inequalities *)

(** lib/constraints.c:1748-1783 [pluto_constraints_to_pure_inequalities_single]. *)
Definition neg_eq_sum (nc : nat) (l : list row) : list Z :=
  fold_left (fun acc r => if is_eq r then zip_with Z.sub acc (coef r) else acc)
            l (repeat 0 nc).
Definition to_pure_inequalities (c : cst) : cst :=
  let ineq := map (fun r => mkRow false (coef r)) (rows c) in
  if existsb is_eq (rows c) then
    mkCst (ncols c) (ineq ++ [mkRow false (neg_eq_sum (ncols c) (rows c))])
  else mkCst (ncols c) ineq.

(** ** Fourier-Motzkin elimination *)

(** Combination of an upper-bound row [u] (negative coefficient at [pos]) with a
    lower-bound row [l] (positive), lib/constraints.c:545-555 and 2525-2535. *)
Definition fm_combine (pos : nat) (u l : list Z) : list Z :=
  let cu := nth pos u 0 in
  let cl := nth pos l 0 in
  let f1 := Z.quot (lcm cl (- cu)) (- cu) in
  let f2 := Z.quot (lcm (- cu) cl) cl in
  remove_at pos (zip_with (fun vu vl => vu * f1 + vl * f2) u l).

(** Loop over pairs, lib/constraints.c:541-569 and 2521-2551, for one row [r];
    [keep_eq] distinguishes line 2548 (is_eq kept) from the plain version (all
    rows are inequalities there, the flag stays 0 from the zeroing at 537). *)
Definition fm_row (pos : nat) (keep_eq : bool) (all : list row) (r : row) : list row :=
  let c := nth pos (coef r) 0 in
  if c <? 0 then
    map (fun l => mkRow false (fm_combine pos (coef r) (coef l)))
        (filter (fun l => 0 <? nth pos (coef l) 0) all)
  else if c =? 0 then [mkRow (keep_eq && is_eq r) (remove_at pos (coef r))]
  else [].

(** lib/constraints.c:485-581 [fourier_motzkin_eliminate] (one element). *)
Definition fm_eliminate (c0 : cst) (pos : nat) : cst :=
  let c := if existsb is_eq (rows c0) then to_pure_inequalities c0 else c0 in
  let newc :=
    if forallb (fun r => nth pos (coef r) 0 =? 0) (rows c) then remove_dim c pos
    else mkCst (ncols c - 1) (flat_map (fm_row pos false (rows c)) (rows c)) in
  simplify newc.

(** ** Gaussian elimination with an equality *)

(** One row [b] other than the equality [a], lib/constraints.c:2584-2601 (the
    factors are [int] in the code, unbounded here). *)
Definition ge_row (pos : nat) (a b : list Z) : list Z :=
  let pa := nth pos a 0 in
  let pb := nth pos b 0 in
  if pb =? 0 then b
  else
    let m := lcm (Z.abs pa) (Z.abs pb) in
    let f1 := if 1 <=? pb then Z.quot m pb else Z.quot (- m) pb in
    let f2 := if 1 <=? pb then Z.quot m pa else Z.quot (- m) pa in
    zip_with (fun vb va => vb * f1 - va * f2) b a.

(** First equality with a non-zero coefficient, lib/constraints.c:2572-2576. *)
Fixpoint find_eq (pos : nat) (k : nat) (l : list row) : option nat :=
  match l with
  | [] => None
  | r :: l' => if is_eq r && negb (nth pos (coef r) 0 =? 0) then Some k else find_eq pos (S k) l'
  end.

(** lib/constraints.c:2565-2608 [pluto_constraints_gaussian_eliminate] (one
    element); [None] is the failing [assert(0)] of line 2580. *)
Definition gaussian_eliminate_cst (c : cst) (pos : nat) : option cst :=
  match find_eq pos 0 (rows c) with
  | None => None
  | Some k =>
      match nth_error (rows c) k with
      | None => None
      | Some e =>
          Some (remove_dim
                  (mkCst (ncols c) (map (map_coef (ge_row pos (coef e))) (remove_at k (rows c))))
                  pos)
      end
  end.

(** lib/constraints.c:2470-2563 [fourier_motzkin_eliminate_smart] (one element). *)
Definition fm_eliminate_smart (c : cst) (pos : nat) : cst :=
  if existsb (fun r => is_eq r && negb (nth pos (coef r) 0 =? 0)) (rows c) then
    match gaussian_eliminate_cst c pos with
    | Some c' => simplify c'
    | None => c
    end
  else
    let newc :=
      if forallb (fun r => nth pos (coef r) 0 =? 0) (rows c) then remove_dim c pos
      else mkCst (ncols c - 1) (flat_map (fm_row pos true (rows c)) (rows c)) in
    simplify newc.

(** lib/constraints.c:2339-2375 [pluto_constraints_best_elim_candidate]. *)
Definition elim_cost (c : cst) (j : nat) : Z :=
  let num_eq := length (filter (fun r => is_eq r && negb (nth j (coef r) 0 =? 0)) (rows c)) in
  let rest := filter (fun r => negb (is_eq r && negb (nth j (coef r) 0 =? 0))) (rows c) in
  let ub := length (filter (fun r => 0 <? nth j (coef r) 0) rest) in
  let lb := length (filter (fun r => nth j (coef r) 0 <? 0) rest) in
  let nb := length (filter (fun r => nth j (coef r) 0 =? 0) rest) in
  if (1 <=? num_eq)%nat then Z.of_nat (nrows c) - 1
  else Z.of_nat lb * Z.of_nat ub + Z.of_nat nb.
Definition best_elim_candidate (c : cst) (max_elim : nat) : nat :=
  snd (fold_left
         (fun (st : Z * nat) d =>
            let j := (ncols c - 2 - d)%nat in
            let cost := elim_cost c j in
            if cost <? fst st then (cost, j) else st)
         (seq 0 max_elim)
         (Z.quot (Z.of_nat (nrows c) * Z.of_nat (nrows c)) 4, (ncols c - 2)%nat)).

(** ** Farkas lemma *)

(** The system before elimination, lib/constraints.c:224-265.  [idom] already
    has the extra row 1 >= 0. *)
Definition farkas_system (idom : cst) (phi : matrix) : cst :=
  let n := nrows idom in
  mkCst (mncols phi + n)
    (map (fun i =>
            mkRow true
              (firstn (mncols phi - 1) (nth i (mrows phi) [])
               ++ map (fun r => - nth i (coef r) 0) (rows idom)
               ++ [mget phi i (mncols phi - 1)]))
         (seq 0 (ncols idom))
     ++ map (fun j => mkRow false (set_nth (mncols phi - 1 + j) 1 (repeat 0 (mncols phi + n))))
            (seq 0 n)).

(** The elimination loop, lib/constraints.c:267-274. *)
Fixpoint farkas_eliminate (f : cst) (n : nat) : cst :=
  match n with
  | O => f
  | S n' => farkas_eliminate (fm_eliminate_smart f (best_elim_candidate f (S n'))) n'
  end.

(** lib/constraints.c:213-280 [farkas_lemma_affine]. *)
Definition farkas_lemma_affine (dom : cst) (phi : matrix) : cst :=
  let idom0 := to_pure_inequalities dom in
  let idom := set_last (ncols idom0 - 1) 1 (add_inequality idom0) in
  farkas_eliminate (farkas_system idom phi) (nrows idom).

(** ** Half-spaces, shifting *)

(** lib/constraints.c:2377-2384 [pluto_hyperplane_get_non_negative_half_space]. *)
Definition non_negative_half_space (h : cst) : cst :=
  mkCst (ncols h) (map_nth 0 (fun r => mkRow false (coef r)) (rows h)).

(** lib/constraints.c:2386-2395 [pluto_hyperplane_get_negative_half_space]
    (h has one row, so nrows - 1 = 0). *)
Definition negative_half_space (h : cst) : cst :=
  mkCst (ncols h)
    (map_nth 0 (fun r =>
        let n := map Z.opp (coef r) in
        mkRow false (set_nth (ncols h - 1) (nth (ncols h - 1) n 0 - 1) n)) (rows h)).

(** lib/constraints.c:2398-2412 [pluto_constraints_shift_dim] ([func] is the only
    row of the matrix). *)
Definition shift_dim (c : cst) (pos : nat) (func : list Z) : cst :=
  mkCst (ncols c)
    (map (map_coef (fun r =>
       map (fun j => if (j =? pos)%nat then nth j r 0
                     else nth j r 0 - nth pos r 0 * nth j func 0)
           (seq 0 (ncols c)))) (rows c)).

(** lib/constraints.c:2414-2419 [pluto_constraints_is_ub]. *)
Definition is_ub (c : cst) (r pos : nat) : bool := cget c r pos <=? -1.

(** lib/constraints.c:2421-2437 [pluto_constraints_remove_const_ub].  [i] is only
    advanced when the row is a non-constant upper bound; the sum loop stops at
    [pos].  [fuel] is the remaining number of iterations of the loop over [r]
    (whose bound [cst->nrows] shrinks as rows are removed). *)
Fixpoint remove_const_ub_loop (fuel : nat) (c : cst) (pos i r : nat) : cst :=
  match fuel with
  | O => c
  | S f =>
      if (r <? nrows c)%nat then
        if is_ub c i pos then
          let sum := fold_left (fun s v => s + Z.abs v)
                       (firstn (Nat.min pos (ncols c - 1))
                          (match nth_error (rows c) i with Some w => coef w | None => [] end)) 0 in
          if sum =? 0 then remove_const_ub_loop f (remove_row c i) pos i (S r)
          else remove_const_ub_loop f c pos (S i) (S r)
        else remove_const_ub_loop f c pos i (S r)
      else c
  end.
Definition remove_const_ub (c : cst) (pos : nat) : cst :=
  remove_const_ub_loop (nrows c) c pos 0 0.

(** lib/constraints.c:2441-2456 [pluto_constraints_get_num_non_zero_coeffs]. *)
Definition get_num_non_zero_coeffs (c : cst) : nat :=
  fold_left (fun n r =>
    (n + length (filter (fun v => negb (v =? 0)%Z) (firstn (ncols c - 1) (coef r))))%nat) (rows c) 0%nat.

(** ** Lists of constraints (unions) *)

(** A [PlutoConstraints] list linked by [next]. *)
Definition clist := list cst.

(** lib/constraints.c:1865-1870 [pluto_constraints_num_in_list]. *)
Definition num_in_list (l : clist) : nat := length l.

(** lib/constraints.c:1930-1938 [pluto_constraints_unionize_simple]: the list
    reachable from the first argument afterwards, and the returned list (which
    starts at the last element of the first argument). *)
Definition unionize_simple_effect (l1 l2 : clist) : clist := l1 ++ l2.
Fixpoint unionize_simple_result (l1 l2 : clist) : clist :=
  match l1 with
  | [] => l2
  | [c] => c :: l2
  | _ :: l1' => unionize_simple_result l1' l2
  end.

(** lib/plutolib.c:114-131 [extract_basic_set], folded over the basic sets by
    [isl_set_foreach_basic_set] (line 171): the domain of the statement. *)
Definition extract_basic_set (dom : option clist) (b : cst) : option clist :=
  match dom with
  | Some l => Some (unionize_simple_result l [b])
  | None => Some [b]
  end.
Definition extract_stmt_domain (pieces : list cst) : option clist :=
  fold_left extract_basic_set pieces None.

(** lib/constraints.c:1903-1927 [pluto_constraints_is_empty]; the solver call is
    the parameter [empty1]. *)
Fixpoint is_empty (empty1 : cst -> bool) (l : clist) : bool :=
  match l with
  | [] => true
  | c :: l' => if negb (empty1 c) then false else is_empty empty1 l'
  end.

(** lib/constraints.c:585-601 [pluto_constraints_copy]: contents of [dest]. *)
Fixpoint copy_list (dest src : clist) : clist :=
  match dest, src with
  | _ :: dest', s :: src' => s :: copy_list dest' src'
  | _, [] => []
  | [], _ => src
  end.

(** ** Constant bounds of a variable *)

(** C limits used by the initialisations below (limits.h, 64-bit Linux). *)
Definition INT_MIN : Z := - 2 ^ 31.
Definition LLONG_MAX : Z := 2 ^ 63 - 1.

(** Loop lib/constraints.c:1953-1963 over the rows of the projected system
    (columns: the variable, the constant): (retval, *lb). *)
Fixpoint const_lb_scan (nc : nat) (l : list row) (st : bool * Z) : bool * Z :=
  match l with
  | [] => st
  | r :: l' =>
      if is_eq r then (true, nth (nc - 1) (coef r) 0)
      else if 1 <=? nth 0 (coef r) 0
      then const_lb_scan nc l' (true, Z.max (snd st) (- nth (nc - 1) (coef r) 0))
      else const_lb_scan nc l' st
  end.

(** lib/constraints.c:1942-1974 [pluto_constraints_get_const_lb].  The two
    projections (1948-1949), computed by PolyLib, are the parameter [proj]:
    [proj c pos] has one variable, coordinate [pos] of [c]. *)
Fixpoint get_const_lb (proj : cst -> nat -> cst) (l : clist) (pos : nat) : bool * Z :=
  match l with
  | [] => (false, 0)
  | c :: l' =>
      let p := proj c pos in
      let '(ret, lb) := const_lb_scan (ncols p) (rows p) (false, INT_MIN) in
      match l' with
      | [] => (ret, lb)
      | _ => if ret then
               let '(ret', lb') := get_const_lb proj l' pos in
               (if negb (lb =? lb') then false else ret', lb)
             else (ret, lb)
      end
  end.

(** Loop lib/constraints.c:1989-1999. *)
Fixpoint const_ub_scan (nc : nat) (l : list row) (st : bool * Z) : bool * Z :=
  match l with
  | [] => st
  | r :: l' =>
      if is_eq r then (true, nth (nc - 1) (coef r) 0)
      else if nth 0 (coef r) 0 <=? -1
      then const_ub_scan nc l' (true, Z.min (snd st) (nth (nc - 1) (coef r) 0))
      else const_ub_scan nc l' st
  end.

(** lib/constraints.c:1978-2010 [pluto_constraints_get_const_ub]; projection as
    above. *)
Fixpoint get_const_ub (proj : cst -> nat -> cst) (l : clist) (pos : nat) : bool * Z :=
  match l with
  | [] => (false, 0)
  | c :: l' =>
      let p := proj c pos in
      let '(ret, ub) := const_ub_scan (ncols p) (rows p) (false, LLONG_MAX) in
      match l' with
      | [] => (ret, ub)
      | _ => if ret then
               let '(ret', ub') := get_const_ub proj l' pos in
               (if negb (ub =? ub') then false else ret', ub)
             else (ret, ub)
      end
  end.

(** ** List-wide editing *)

(** lib/constraints.c:1475-1490 [pluto_constraints_add_inequality] and
    1649-1685 [pluto_constraints_add_lb], [pluto_constraints_add_ub],
    [pluto_constraints_set_var] on a list: the recursion and the while loops
    treat every element. *)
Definition add_lb_list (l : clist) (varnum : nat) (lb : Z) : clist :=
  map (fun c => add_lb c varnum lb) l.
Definition add_ub_list (l : clist) (varnum : nat) (ub : Z) : clist :=
  map (fun c => add_ub c varnum ub) l.
Definition set_var_list (l : clist) (varnum : nat) (v : Z) : clist :=
  map (fun c => set_var c varnum v) l.

(** An element together with its [alloc_nrows]. *)
Record acst := mkAcst { alloc_nrows : nat; body : cst }.

(** lib/constraints.c:127-170 [pluto_constraints_resize_single] (the number of
    columns is not changed): rows beyond [n] are dropped, missing rows are
    zero inequalities (the new buffer is zeroed by [pluto_constraints_alloc]). *)
Definition resize_single (n : nat) (a : acst) : acst :=
  mkAcst (Nat.max n (alloc_nrows a))
    (mkCst (ncols (body a))
       (firstn n (rows (body a))
        ++ repeat (mkRow false (repeat 0 (ncols (body a)))) (n - nrows (body a)))).

(** lib/constraints.c:114-120 [pluto_constraints_resize]: the same number of
    rows for every element of the list. *)
Definition resize (n : nat) (l : list acst) : list acst := map (resize_single n) l.

(** Overwrite the last rows of a system by those of [c2]
    (lib/constraints.c:298-304, 321-327). *)
Definition write_last_rows (a : acst) (c2 : cst) : acst :=
  mkAcst (alloc_nrows a)
    (mkCst (ncols (body a)) (firstn (nrows (body a) - nrows c2) (rows (body a)) ++ rows c2)).

(** [cst->nrows += k]; the rows exposed are overwritten immediately. *)
Definition grow (k : nat) (a : acst) : acst :=
  mkAcst (alloc_nrows a)
    (mkCst (ncols (body a)) (rows (body a) ++ repeat (mkRow false (repeat 0 (ncols (body a)))) k)).

(** lib/constraints.c:310-333 [pluto_constraints_add_to_each].  [fuel] is the
    number of elements left. *)
Fixpoint add_to_each_fuel (fuel : nat) (l : list acst) (c2 : cst) : list acst :=
  match fuel, l with
  | S f, a :: _ =>
      let l1 :=
        if (alloc_nrows a <? nrows (body a) + nrows c2)%nat
        then resize (nrows (body a) + nrows c2) l
        else match l with [] => [] | a' :: l' => grow (nrows c2) a' :: l' end in
      match l1 with
      | [] => []
      | a1 :: l1' => write_last_rows a1 c2 :: add_to_each_fuel f l1' c2
      end
  | _, _ => l
  end.
Definition add_to_each (l : list acst) (c2 : cst) : list acst :=
  add_to_each_fuel (length l) l c2.

(** ** Printing and reading in polylib format *)

(** lib/constraints.c:690-706 [pluto_constraints_print_polylib_without_num]: the
    sequence of numbers written. *)
Definition print_polylib_single (c : cst) : list Z :=
  Z.of_nat (nrows c) :: Z.of_nat (S (ncols c))
  :: flat_map (fun r => (if is_eq r then 0 else 1) :: coef r) (rows c).

(** lib/constraints.c:708-718 [pluto_constraints_print_polylib]. *)
Definition print_polylib (l : clist) : list Z :=
  (if (2 <=? num_in_list l)%nat then [Z.of_nat (num_in_list l)] else [])
  ++ flat_map print_polylib_single l.

(** The row loop of [pluto_constraints_read], lib/constraints.c:803-809; [None]
    when the input ends early (the code then leaves the entries unset). *)
Fixpoint read_rows (n nc : nat) (inp : list Z) : option (list row * list Z) :=
  match n with
  | O => Some ([], inp)
  | S n' =>
      match inp with
      | [] => None
      | ineq :: inp' =>
          if (length inp' <? nc)%nat then None
          else match read_rows n' nc (skipn nc inp') with
               | Some (l, rest) => Some (mkRow (negb (Z.lxor ineq 1 =? 0)) (firstn nc inp') :: l, rest)
               | None => None
               end
      end
  end.

(** lib/constraints.c:789-820 [pluto_constraints_read]; the names read at the
    end (811-818) are not modelled. *)
Definition read_polylib (inp : list Z) : option cst :=
  match inp with
  | nr :: nc :: inp' =>
      match read_rows (Z.to_nat nr) (Z.to_nat (nc - 1)) inp' with
      | Some (l, _) => Some (mkCst (Z.to_nat (nc - 1)) l)
      | None => None
      end
  | _ => None
  end.
