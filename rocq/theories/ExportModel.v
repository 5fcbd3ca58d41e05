(** * Model: schedules and remappings handed to code generators and library users.

    lib/pluto.c, lib/plutolib.c, lib/program.cpp.  Integers are unbounded, except
    for the 32-bit temporary of [pluto_matrix_interchange_cols] (MathModel) and
    the divisors, which are stored in [int]. *)
From Coq Require Import ZArith List Bool Arith.
From Verif Require Import SpecLinear MathModel ConstraintsModel SpecProg ProgModel.
Import ListNotations.
Open Scope Z_scope.

(** Assignment [m->val[r][c] = v]. *)
Definition set_entry (m : matrix) (r c : nat) (v : Z) : matrix :=
  mkMat (mncols m) (map_nth r (set_nth c v) (mrows m)).

(** lib/pluto.c:2064-2071 and lib/program.cpp:1885-1893: rows of
    [T | -transformation], from the last row to the first. *)
Definition schedule_matrix (t : matrix) : matrix :=
  fold_left (fun m i => let r := (mnrows t - 1 - i)%nat in
                        set_entry (matrix_add_col (matrix_negate_row m r) 0) r 0 1)
            (seq 0 (mnrows t)) t.

(** lib/pluto.c:2060-2078 [pluto_stmt_get_schedule]. *)
Definition stmt_get_schedule (st : stmt) : cst := from_equalities (schedule_matrix (s_trans st)).

(** Loop lib/plutolib.c:233-251 of [normalize_domain_schedule] (one element of the
    domain): [r] counts the rows, [del] the rows deleted so far. *)
Fixpoint cut_rows (n nt snodes r del : nat) (dom sched : cst) : cst * cst :=
  match n with
  | O => (dom, sched)
  | S n' =>
      if existsb (fun v => negb (v =? 0)) (firstn snodes (coef (nth (r - del) (rows dom) (mkRow false [])))) then
        cut_rows n' nt snodes (S r) (S del) (remove_row dom (r - del))
                 (cst_add sched (add_leading_dims (select_row dom (r - del)) nt))
      else cut_rows n' nt snodes (S r) del dom sched
  end.

(** lib/plutolib.c:223-257 [normalize_domain_schedule]: the schedule with the
    constraints on tile iterators, and the program with the statement's tile
    iterators removed. *)
Definition normalize_domain_schedule (pr : prog) (sid : nat) : cst * prog :=
  let st := stmt_of pr sid in
  let snodes := (s_dim st - s_dim_orig st)%nat in
  let '(dom, sched) := cut_rows (nrows (s_domain st)) (mnrows (s_trans st)) snodes 0 0 (s_domain st) (stmt_get_schedule st) in
  (sched, Nat.iter snodes (fun q => stmt_remove_dim q sid 0) (set_stmts pr (map_nth sid (fun x => set_domain x dom) (p_stmts pr)))).

(** lib/plutolib.c:286-291 [pluto_schedules_to_isl]: the statements one after the
    other. *)
Definition schedules (pr : prog) : list cst * prog :=
  fold_left (fun acc s => let '(c, q) := normalize_domain_schedule (snd acc) s in (fst acc ++ [c], q))
            (seq 0 (length (p_stmts pr))) ([], pr).

(** The relation between iterations and times that lib/plutolib.c:289-295 makes
    of the schedule: the first [snodes] iterators are projected out (isl, exact on
    integers). *)
Definition exported (sched : cst) (snodes : nat) (i p t : point) : Prop :=
  exists tile, length tile = snodes /\ mem sched (t ++ tile ++ i ++ p).

(** The number of these iterators, lib/plutolib.c:294-296. *)
Definition projected (pr : prog) (s : nat) : nat :=
  (ncols (nth s (fst (schedules pr)) (mkCst 0 [])) - mnrows (s_trans (stmt_of (snd (schedules pr)) s)) -
   ncols (s_domain (stmt_of (snd (schedules pr)) s)))%nat.

(** ** Remapping *)

(** lib/program.cpp:1895-1898: iterator columns to the left. *)
Definition iterators_left (dim : nat) (m : matrix) : matrix :=
  fold_left (fun m i => matrix_move_col m (mnrows m + i) i) (seq 0 dim) m.

(** lib/program.cpp:1906-1909: first row below row [i] with an entry in column i. *)
Definition find_pivot (i : nat) (m : matrix) : option nat :=
  find (fun k => negb (mget m k i =? 0)) (seq (S i) (mnrows m - S i)).

(** lib/program.cpp:1903-1920: [None] is assert(0). *)
Definition remap_pivot (i : nat) (m : matrix) : option matrix :=
  if mget m i i =? 0 then
    match find_pivot i m with
    | Some k => Some (matrix_interchange_rows m i k)
    | None => None
    end
  else Some m.

(** lib/program.cpp:1922-1930 (and 1937-1946 with [from] = 0): row [b] of the matrix
    becomes a combination of itself and row [a] such that column [i] is 0; the columns
    before [from] are not changed. *)
Definition remap_comb (from i : nat) (a b : list Z) : list Z :=
  if nth i b 0 =? 0 then b
  else
    let l := lcm (nth i b 0) (nth i a 0) in
    let f1 := Z.quot l (nth i b 0) in
    let f2 := Z.quot l (nth i a 0) in
    firstn from b ++ zip_with (fun x y => x * f1 - y * f2) (skipn from b) (skipn from a).

(** lib/program.cpp:1921-1931: rows below row [i]. *)
Definition remap_down (i : nat) (m : matrix) : matrix :=
  fold_left (fun m k => mkMat (mncols m) (map_nth k (remap_comb i i (nth i (mrows m) [])) (mrows m)))
            (seq (S i) (mnrows m - S i)) m.

(** lib/program.cpp:1902-1932. *)
Definition remap_forward (dim : nat) (m : matrix) : option matrix :=
  fold_left (fun o i => match o with
                        | Some m => match remap_pivot i m with Some m' => Some (remap_down i m') | None => None end
                        | None => None
                        end) (seq 0 dim) (Some m).

(** lib/program.cpp:1937-1946: rows i-1, ..., 0. *)
Definition remap_up (i : nat) (m : matrix) : matrix :=
  fold_left (fun m k => mkMat (mncols m) (map_nth k (remap_comb 0 i (nth i (mrows m) [])) (mrows m)))
            (rev (seq 0 i)) m.

(** lib/program.cpp:1935-1947. *)
Definition remap_backward (dim : nat) (m : matrix) : matrix :=
  fold_left (fun m i => remap_up i m) (rev (seq 0 dim)) m.

(** lib/program.cpp:1950-1952. *)
Definition drop_rows (dim : nat) (m : matrix) : matrix :=
  fold_left (fun m _ => matrix_remove_row m (mnrows m - 1)) (rev (seq dim (mnrows m - dim))) m.

(** lib/program.cpp:1954-1960: row [i] and its divisor. *)
Definition remap_sign (i : nat) (m : matrix) : matrix :=
  if mget m i i <=? -1 then matrix_negate_row m i else m.

(** lib/program.cpp:1971-1975: rows for the parameters and the constant. *)
Definition add_unit_rows (npar : nat) (m : matrix) : matrix :=
  fold_left (fun m i => let m' := matrix_add_row m (mnrows m) in set_entry m' (mnrows m' - 1) (mncols m' - npar - 1 + i) 1)
            (seq 0 (npar + 1)) m.

(** lib/program.cpp:1883-1980 [pluto_stmt_get_remapping]: matrix and divisors
    (stored in [int], line 1959); [None] is a failing assertion. *)
Definition stmt_get_remapping (st : stmt) : option (matrix * list Z) :=
  let dim := s_dim st in
  let npar := (ncols (s_domain st) - dim - 1)%nat in
  let m0 := iterators_left dim (schedule_matrix (s_trans st)) in
  if (dim <=? mnrows m0)%nat then
    match remap_forward dim m0 with
    | None => None
    | Some m1 =>
        let m2 := remap_backward dim m1 in
        let m3 := drop_rows dim m2 in
        let m4 := fold_left (fun m i => remap_sign i m) (seq 0 dim) m3 in
        if forallb (fun i => negb (mget m4 i i =? 0)) (seq 0 dim) then
          let divs := map (fun i => wrap32 (Z.abs (mget m4 i i))) (seq 0 dim) in
          let m5 := fold_left (fun m _ => matrix_remove_col m 0) (seq 0 dim) m4 in
          let m6 := fold_left matrix_negate_row (seq 0 dim) m5 in
          Some (add_unit_rows npar m6, divs ++ repeat 1 (npar + 1))
        else None
    end
  else None.

(** ** New access functions *)

(** lib/program.cpp:2002-2006: [_lcm] is an [int]. *)
Definition lcm_all (divs : list Z) : Z := fold_left (fun l d => wrap32 (lcm l d)) divs 1.

(** lib/program.cpp:2007-2011: all rows get the common divisor. *)
Definition scale_rows (l : Z) (m : matrix) (divs : list Z) : matrix :=
  mkMat (mncols m) (zip_with (fun r d => map (fun v => Z.quot (v * l) d) r) (mrows m) divs).

(** lib/program.cpp:1985-2027 [pluto_get_new_access_func]: matrix and divisors;
    [None] is a failing assertion (line 2004). *)
Definition get_new_access_func (acc : matrix) (st : stmt) : option (matrix * list Z) :=
  match stmt_get_remapping st with
  | None => None
  | Some (remap, divs) =>
      if existsb (Z.eqb 0) divs then None
      else
        let l := lcm_all divs in
        let m := matrix_product acc (scale_rows l remap divs) in
        Some (m, repeat l (mnrows m))
  end.
