(** * Model of tool/osl_pluto.c: exchange of domains, schedules, accesses and
      dependences with OpenScop and Candl.

    Integers are unbounded (OpenScop's integers are read with osl_int_get_si
    into 64-bit, in one place 32-bit, variables).  [None] stands for exit(1) or
    a failed assertion. *)
From Coq Require Import ZArith List Bool.
From Verif Require Import SpecLinear MathModel ConstraintsModel SpecOsl.
Import ListNotations.
Open Scope Z_scope.

(** ** Writing *)

(** tool/osl_pluto.c:45-84 [pluto_trans_to_osl_scattering]: the loop over the
    columns starts at 1, column 0 keeps the 0 of osl_relation_pmalloc. *)
Definition trans_to_scattering (npar : nat) (m : matrix) : osl_rel :=
  let out := mnrows m in
  let cols := (mnrows m + mncols m + 1)%nat in
  mkRel out (mncols m - npar - 1) 0 npar
    (map (fun i => map (fun j =>
            if (j =? 0)%nat then 0
            else if (j =? i + 1)%nat then -1
            else if (j <=? out)%nat then 0
            else nth (j - out - 1) (nth i (mrows m) []) 0) (seq 0 cols))
       (seq 0 (mnrows m))).

(** tool/osl_pluto.c:443-470 [pluto_constraints_to_osl_domain]. *)
Definition constraints_to_domain (npar : nat) (c : cst) : osl_rel :=
  mkRel (ncols c + 1 - npar - 2) 0 0 npar
    (map (fun r => (if is_eq r then 0 else 1) :: coef r) (rows c)).

(** tool/osl_pluto.c:618-632 [pluto_populate_scop]: one blank column in front of
    the input dimensions of every access for every new iterator. *)
Definition insert_blank_column (r : osl_rel) : osl_rel :=
  mkRel (o_out r) (S (o_in r)) (o_local r) (o_par r)
    (map (insert_at (o_out r + 1) 0) (o_rows r)).
Fixpoint update_access (k : nat) (r : osl_rel) : osl_rel :=
  match k with O => r | S k' => update_access k' (insert_blank_column r) end.

(** ** Reading *)

(** tool/osl_pluto.c:718-745 [osl_relation_to_pluto_constraints]. *)
Definition relation_to_constraints (r : osl_rel) : option cst :=
  if (0 <? o_local r)%nat then None
  else Some (mkCst (o_cols r - 1) (map (fun l => mkRow (nth 0 l 0 =? 0) (tl l)) (o_rows r))).

(** tool/osl_pluto.c:775-776 [osl_to_pluto_stmts]: the domain of a statement is
    the first relation of the chain. *)
Definition read_domain (rs : list osl_rel) : option cst :=
  match rs with [] => None | r :: _ => relation_to_constraints r end.

(** tool/osl_pluto.c:472-506 [osl_relation_get_row_id_for_nth_dimension]: the
    number of rows that use the dimension and the last of them. *)
Definition row_id_for_dim (r : osl_rel) (ndim : nat) : option nat :=
  if (length (o_rows r) <? ndim)%nat then None
  else
    let f := fold_left (fun acc i => if nth ndim (nth i (o_rows r) []) 0 =? 0 then acc else (S (fst acc), i))
               (seq 0 (length (o_rows r))) (0%nat, 0%nat) in
    if (fst f =? 1)%nat then Some (snd f) else None.

(** Rows of a result, or failure as soon as one of them fails. *)
Fixpoint all_rows {A B} (f : A -> option B) (l : list A) : option (list B) :=
  match l with
  | [] => Some []
  | x :: l' => match f x with
               | None => None
               | Some y => match all_rows f l' with None => None | Some ys => Some (y :: ys) end
               end
  end.

(** tool/osl_pluto.c:508-538 [osl_scattering_to_pluto_trans]. *)
Definition scattering_to_trans (r : osl_rel) : option matrix :=
  if (0 <? o_local r)%nat then None
  else
    match all_rows (fun i =>
            if nth 0 (nth i (o_rows r) []) 0 =? 0 then
              match row_id_for_dim r (i + 1) with
              | None => None
              | Some k => Some (skipn (o_out r + 1) (nth k (o_rows r) []))
              end
            else None) (seq 0 (length (o_rows r))) with
    | None => None
    | Some l => Some (mkMat (o_cols r - o_out r - 1) l)
    end.

(** tool/osl_pluto.c:540-581 [osl_access_relation_to_pluto_matrix]. *)
Definition access_to_matrix (r : osl_rel) : option matrix :=
  if (0 <? o_local r)%nat then None
  else
    let nc := (o_cols r - o_out r - 1)%nat in
    if (length (o_rows r) =? 1)%nat then Some (mkMat nc [repeat 0 nc])
    else
      match all_rows (fun i =>
              match row_id_for_dim r (i + 1) with
              | None => None
              | Some k => Some (skipn (o_out r + 1) (nth k (o_rows r) []))
              end) (seq 1 (length (o_rows r) - 1)) with
      | None => None
      | Some l => Some (mkMat nc l)
      end.

(** tool/osl_pluto.c:761-788 [osl_to_pluto_stmts]: a shorter schedule is padded
    with zero rows at its end. *)
Definition pad_trans (nrows : nat) (m : matrix) : matrix :=
  fold_left (fun m j => matrix_add_row m j) (seq (mnrows m) (nrows - mnrows m)) m.

(** ** Lists of accesses *)

Definition is_write (t : osl_type) : bool := match t with T_READ => false | _ => true end.
Definition is_read (t : osl_type) : bool := match t with T_READ => true | _ => false end.

(** tool/osl_pluto.c:125-195 [osl_access_list_filter_write] and
    [osl_access_list_filter_read]: the walk over a copy of the list, which cuts
    out the nodes of another kind.  [done]: the nodes reachable from filtered,
    in reverse order. *)
Fixpoint filter_walk {A} (keep : A -> bool) (l : list A) (done : list A) : list A :=
  match l with
  | [] => rev done
  | x :: l' => if keep x then filter_walk keep l' (x :: done) else filter_walk keep l' done
  end.

(** tool/osl_pluto.c:86-123 [get_osl_write_access_position] and
    [get_osl_read_access_position]: walk to node number [k]. *)
Fixpoint access_position {A} (keep : A -> bool) (l : list A) (k : nat) (num : Z) : Z :=
  match l with
  | [] => num
  | x :: l' =>
      let num' := if keep x then num + 1 else num in
      match k with O => num' | S k' => access_position keep l' k' num' end
  end.

(** ** Dependences of Candl *)

Definition at_mat (m : list (list Z)) (i j : nat) : Z := nth j (nth i m []) 0.

(** tool/osl_pluto.c:197-441 [osl_dep_domain_to_pluto_constraints]; no local
    dimensions (they make the function exit).  [sdr], [tdr]: numbers of rows of
    the domains, [sar] rows of the source access relation (array line included),
    [so], [to] output dimensions of the accesses, [si], [ti] their input
    dimensions.  Reads outside the matrix are not defined in C; they give 0
    here and do not happen under the hypotheses of the theorems. *)
Definition dep_domain_to_constraints (ns nt np sdr tdr sar so to si ti depth : nat) (m : list (list Z)) : cst :=
  let nb_out := (ns + so)%nat in
  let nb_in := (nt + to)%nat in
  let ip := (1 + nb_out + nb_in)%nat in
  let copy_row s t := map (fun j => s j) (seq 0 ns) ++ map (fun j => t j) (seq 0 nt) in
  let params i := map (fun j => at_mat m i (ip + j)) (seq 0 (np + 1)) in
  let flag i := at_mat m i 0 =? 0 in
  let src := map (fun i => mkRow (flag i) (copy_row (fun j => at_mat m i (1 + j)) (fun _ => 0) ++ params i))
               (seq 0 sdr) in
  let tgt := map (fun i => mkRow (flag i) (copy_row (fun _ => 0) (fun j => at_mat m i (1 + nb_out + j)) ++ params i))
               (seq sdr tdr) in
  let a0 := (sdr + tdr + 1)%nat in
  let acc := map (fun i => mkRow (flag i)
               (copy_row (fun j => if (j <? si)%nat then at_mat m i (1 + j) else 0)
                         (fun j => if (j <? ti)%nat then at_mat m (i + sar) (1 + nb_out + j) else 0) ++
                map (fun j => at_mat m i (ip + j) - (- at_mat m (i + sar) (ip + j))) (seq 0 (np + 1))))
               (seq a0 (sar - 1)) in
  let o0 := (a0 + (sar - 1) + sar + Nat.min so to)%nat in
  let pad := if (sar - 1 =? 0)%nat then [mkRow false (repeat 0 (ns + nt + np + 1))] else [] in
  let ord := map (fun d => mkRow (flag (o0 + d)%nat)
               (copy_row (fun j => if (j =? d)%nat then at_mat m (o0 + d) (1 + d) else 0)
                         (fun j => if (j =? d)%nat then at_mat m (o0 + d) (1 + nb_out + d) else 0) ++
                repeat 0 np ++ [at_mat m (o0 + d) (ip + np)]))
               (seq 0 depth) in
  mkCst (ns + nt + np + 1) (src ++ tgt ++ acc ++ pad ++ ord).

(** tool/osl_pluto.c:1578-1601 [deps_read]: rows of zeros are removed. *)
Definition remove_zero_rows (c : cst) : cst :=
  mkCst (ncols c) (filter (fun r => negb (all_zero (coef r))) (rows c)).

(** tool/osl_pluto.c:1501-1513 [deps_read], the switch over the type given by
    Candl.  No case ends with a break: the assignments of all following cases
    are executed too. *)
Definition switch_cases : list (dep_type * dep_type) :=
  [(D_RAW, D_RAW); (D_WAW, D_WAW); (D_WAR, D_WAR); (D_RAR, D_RAR); (D_UNDEFINED, D_UNDEFINED)].
Definition dep_type_eqb (a b : dep_type) : bool :=
  match a, b with
  | D_RAW, D_RAW | D_WAR, D_WAR | D_WAW, D_WAW | D_RAR, D_RAR | D_UNDEFINED, D_UNDEFINED => true
  | _, _ => false
  end.
Fixpoint run_switch (t : dep_type) (cases : list (dep_type * dep_type)) (entered : bool) (cur : dep_type) : dep_type :=
  match cases with
  | [] => cur
  | (label, v) :: cases' =>
      if entered || dep_type_eqb t label then run_switch t cases' true v else run_switch t cases' false cur
  end.
Definition read_type (t : dep_type) : dep_type := run_switch t switch_cases false D_UNDEFINED.

(** What [deps_read] keeps of one dependence. *)
Record read_dep := mkReadDep {
  rd_src : nat; rd_dst : nat; rd_type : dep_type; rd_poly : cst;
  rd_sacc : Z; rd_tacc : Z   (* positions of the accesses among the reads or the writes *)
}.

(** A dependence as Candl gives it: labels, type, system, and for source and
    target the kinds of the accesses of the statement and the number of the
    access in the list. *)
Record candl_item := mkItem {
  ki_src : nat; ki_dst : nat; ki_type : dep_type; ki_dep : candl_dep;
  ki_slist : list osl_type; ki_sacc : nat;
  ki_tlist : list osl_type; ki_tacc : nat
}.

Definition candl_poly (k : candl_dep) : cst :=
  dep_domain_to_constraints (k_ns k) (k_nt k) (k_np k) (length (k_sdom k)) (length (k_tdom k))
    (S (length (k_sacc k))) (S (length (k_sacc k))) (S (length (k_tacc k))) (k_ns k) (k_nt k)
    (length (k_order k)) (candl_rows k).

(** tool/osl_pluto.c:1474-1616 [deps_read], one round of the loop; [rt] is the
    type switch.  The assertions of the position functions and of the default
    case give [None].  Names of dimensions are left out. *)
Definition read_one (rt : dep_type -> dep_type) (i : candl_item) : option read_dep :=
  let ty := rt (ki_type i) in
  let pos keep l k := let n := access_position keep l k (-1) in if n <? 0 then None else Some n in
  let both ks kt :=
    match pos ks (ki_slist i) (ki_sacc i), pos kt (ki_tlist i) (ki_tacc i) with
    | Some a, Some b =>
        Some (mkReadDep (ki_src i) (ki_dst i) ty (remove_zero_rows (candl_poly (ki_dep i))) a b)
    | _, _ => None
    end in
  match ty with
  | D_RAW => both is_write is_read
  | D_WAW => both is_write is_write
  | D_WAR => both is_read is_write
  | D_RAR => both is_read is_read
  | D_UNDEFINED => None
  end.
Definition deps_read (l : list candl_item) : option (list read_dep) := all_rows (read_one read_type) l.
