(** * Model: computing dependences with isl (lib/program.cpp, tool/osl_pluto.c,
    tool/pet_to_pluto.cpp). *)
From Coq Require Import ZArith List Bool.
From Verif Require Import SpecLinear MathModel ConstraintsModel SpecProg SpecExec SpecOsl OslModel SpecDeps.
Import ListNotations.
Open Scope Z_scope.

(** lib/program.cpp:614-631 the results of [compute_deps_isl]. *)
Record isl_deps := mkDeps { i_raw : umap; i_war : umap; i_waw : umap; i_rar : umap; i_twar : umap; i_twaw : umap }.

(** lib/program.cpp:623-696 [compute_deps_isl].  [flow sink must may sched] is
    isl_union_map_compute_flow (must dependences, may dependences), [co]
    isl_union_map_coalesce.  The results that are not computed are empty: that is
    what tool/osl_pluto.c:1215-1216 initialises dep_rar with; the transitive ones
    are only used under lastwriter. *)
Definition compute_deps_isl (flow : amap -> amap -> amap -> smap -> umap * umap) (co : umap -> umap)
    (lastwriter rar coalesce : bool) (reads writes : amap) (sched : smap) : isl_deps :=
  let c u := if coalesce then co u else u in
  if lastwriter then
    let raw := fst (flow reads writes no_access sched) in
    let ww := flow writes writes reads sched in
    let twar := snd (flow writes no_access reads sched) in
    let twaw := snd (flow writes no_access writes sched) in
    let rr := if rar then fst (flow reads reads no_access sched) else [] in
    mkDeps (c raw) (c (snd ww)) (c (fst ww)) rr (c twar) (c twaw)
  else
    let raw := snd (flow reads no_access writes sched) in
    let war := snd (flow writes no_access reads sched) in
    let waw := snd (flow writes no_access writes sched) in
    let rr := if rar then snd (flow reads no_access reads sched) else [] in
    mkDeps (c raw) (c war) (c waw) rr [] [].

(** A dependence as it is extracted: [x_sacc], [x_dacc] are the fields src_acc and
    dest_acc ([true]: element of the array writes, [false]: of reads). *)
Record xdep := mkXdep { x_src : nat; x_dst : nat; x_type : dep_type; x_poly : cst;
  x_sacc : option (bool * nat); x_dacc : option (bool * nat) }.

(** lib/program.cpp:445-475: the accesses and the type, by the numbers and letters in
    the names; [None]: an index outside of the arrays. *)
Definition access_index (st : stmt) (w : bool) (k : nat) : option (bool * nat) :=
  if (k <? length (if w then s_writes st else s_reads st))%nat then Some (w, k) else None.
Definition dep_accesses (ss st : stmt) (ty : dep_type) (a b : bool * nat) : option (dep_type * (bool * nat) * (bool * nat)) :=
  let pick ty' ws wd :=
    match access_index ss ws (snd a), access_index st wd (snd b) with
    | Some x, Some y => Some (ty', x, y)
    | _, _ => None
    end in
  match ty with
  | D_RAW => pick D_RAW true false
  | D_WAW => pick D_WAW true true
  | D_WAR => if fst a && fst b then pick D_WAW true true else pick D_WAR false true
  | D_RAR => pick D_RAR false false
  | D_UNDEFINED => None
  end.

(** lib/constraints_isl.c:161-181, 271-290 [isl_basic_map_to_pluto_constraints]:
    equalities first; the divs have been removed. *)
Definition bmap_to_constraints (b : bmap) : cst :=
  mkCst (b_nin b + b_nout b + b_npar b + 1) (filter is_eq (b_rows b) ++ filter (fun r => negb (is_eq r)) (b_rows b)).

(** lib/program.cpp:367-486 [basic_map_extract_dep]; [rd]: isl_basic_map_remove_divs;
    [accesswise]: options->isldepaccesswise.  [None]: an assertion fails or an array
    is overrun.  The names of the tuples are parsed (atoi(name + 2), the letter and
    the number after the next '_'); here they are records.  A wrapped range
    (lines 392-395) is its domain part here. *)
Definition extract_dep (rd : bmap -> bmap) (accesswise : bool) (stmts : list stmt) (ty : dep_type) (b0 : bmap) : option xdep :=
  let b := rd b0 in
  let s := n_stmt (b_src b) in let t := n_stmt (b_dst b) in
  if (s <? length stmts)%nat && (t <? length stmts)%nat then
    let ss := nth s stmts dummy_stmt in let st := nth t stmts dummy_stmt in
    let poly := bmap_to_constraints b in
    if (ncols poly =? s_dim ss + s_dim st + (ncols (s_domain ss) - s_dim ss))%nat then
      if accesswise then
        match n_acc (b_src b), n_acc (b_dst b) with
        | Some x, Some y =>
            match dep_accesses ss st ty x y with
            | Some (ty', sa, da) => Some (mkXdep s t ty' poly (Some sa) (Some da))
            | None => None
            end
        | _, _ => None
        end
      else Some (mkXdep s t ty poly None None)
    else None
  else None.

(** lib/program.cpp:489-493, 601-611 [map_extract_dep],
    [extract_deps_from_isl_union_map]: in the order of the maps and basic maps. *)
Definition extract_deps (rd : bmap -> bmap) (accesswise : bool) (stmts : list stmt) (ty : dep_type) (u : umap) : option (list xdep) :=
  all_rows (extract_dep rd accesswise stmts ty) (concat u).

(** lib/constraints_isl.c:453-463 [isl_map_count], [basic_map_count] over the maps of a union map. *)
Definition map_count (u : umap) : nat := fold_left (fun n m => (n + length m)%nat) u 0%nat.

(** tool/osl_pluto.c:1399-1427 (in tool/pet_to_pluto.cpp:139-157 the same without
    the input dependences, [with_rar = false]). *)
Definition all_deps (rd : bmap -> bmap) (accesswise with_rar : bool) (stmts : list stmt) (d : isl_deps) : option (list xdep) :=
  let ex := extract_deps rd accesswise stmts in
  match ex D_RAW (i_raw d), ex D_WAR (i_war d), ex D_WAW (i_waw d), (if with_rar then ex D_RAR (i_rar d) else Some []) with
  | Some a, Some b, Some c, Some e => Some (a ++ b ++ c ++ e)
  | _, _, _, _ => None
  end.
(** The number of array elements allocated for them. *)
Definition all_deps_count (with_rar : bool) (d : isl_deps) : nat :=
  (map_count (i_raw d) + map_count (i_war d) + map_count (i_waw d) + (if with_rar then map_count (i_rar d) else 0))%nat.

(** lib/pluto.h IS_RAR, lib/program.cpp [pluto_dep_alloc]: not satisfied, level -1. *)
Definition to_dep (x : xdep) : dep :=
  mkDep (x_src x) (x_dst x) (match x_type x with D_RAR => true | _ => false end) (x_poly x) (x_poly x) false (-1) [] [].

(** ** Access maps and schedules for isl from OpenScop *)

(** tool/osl_pluto.c:907-926 [extract_equalities_osl]: row i is the one that uses
    output dimension i; without the first column. *)
Definition equalities_osl (r : osl_rel) : option (list (list Z)) :=
  all_rows (fun i => match row_id_for_dim r (i + 1) with Some k => Some (tl (nth k (o_rows r) [])) | None => None end)
    (seq 0 (length (o_rows r))).

(** tool/osl_pluto.c:955-986 [extract_equalities_osl_access]: without the dimension
    that holds the array number; a scalar becomes an array with subscript 0. *)
Definition equalities_osl_access (r : osl_rel) : option (list (list Z)) :=
  if (length (o_rows r) =? 1)%nat then Some [ -1 :: repeat 0 (o_cols r - 2) ]
  else all_rows (fun i => match row_id_for_dim r (i + 1) with Some k => Some (skipn 2 (nth k (o_rows r) [])) | None => None end)
    (seq 1 (length (o_rows r) - 1)).

(** A map given by equalities over (output, input, parameters, 1), as
    isl_basic_map_from_constraint_matrices builds it, for one named tuple and one
    array; its domain is a union of relations. *)
Record acc_entry := mkEntry { e_name : aname; e_array : nat; e_dim : nat; e_dom : list osl_rel; e_eqs : list (list Z) }.
Definition entry_rel (e : acc_entry) (i p : point) (l : loc) : Prop :=
  fst l = e_array e /\ length i = e_dim e /\ union_mem (e_dom e) (i ++ p) /\ length (snd l) = length (e_eqs e) /\
  forall r, In r (e_eqs e) -> aff r (snd l ++ i ++ p) = 0.
Definition entries_amap (es : list acc_entry) : amap := fun a i p l => exists e, In e es /\ e_name e = a /\ entry_rel e i p l.

(** tool/osl_pluto.c:1292-1391 (access-wise): the accesses of a statement with their
    names; the counters racc_num and wacc_num. *)
Fixpoint name_accesses (s racc wacc : nat) (l : list (osl_type * nat * osl_rel)) : list (aname * (osl_type * nat * osl_rel)) :=
  match l with
  | [] => []
  | x :: l' =>
      if is_read (fst (fst x)) then (mkName s (Some (false, racc)), x) :: name_accesses s (S racc) wacc l'
      else (mkName s (Some (true, wacc)), x) :: name_accesses s racc (S wacc) l'
  end.

(** tool/osl_pluto.c:992-1024, 1037-1079 [osl_basic_access_to_isl_union_map],
    [osl_access_list_to_isl_union_map]; the domain is the union of all relations
    (tool/osl_pluto.c:1143-1157 [osl_relation_list_to_isl_set]).  The intersection
    with the context is left out. *)
Definition entry_of (o : osl_stmt) (x : aname * (osl_type * nat * osl_rel)) : option acc_entry :=
  match equalities_osl_access (snd (snd x)) with
  | Some eqs => Some (mkEntry (fst x) (snd (fst (snd x))) (o_in (snd (snd x))) (os_domain o) eqs)
  | None => None
  end.

(** tool/osl_pluto.c:1226-1391: the named accesses of statement number [s] of one
    kind ([rd]: reads), access-wise or statement-wise. *)
Definition stmt_entries (accesswise rd : bool) (s : nat) (o : osl_stmt) : option (list acc_entry) :=
  let keep := fun x : osl_type * nat * osl_rel => if rd then is_read (fst (fst x)) else is_write (fst (fst x)) in
  let named := if accesswise then filter (fun x => keep (snd x)) (name_accesses s 0 0 (os_acc o))
               else map (pair (mkName s None)) (filter_walk keep (os_acc o) []) in
  all_rows (entry_of o) named.

Definition osl_entries (accesswise rd : bool) (os : list osl_stmt) : option (list acc_entry) :=
  match all_rows (fun so => stmt_entries accesswise rd (fst so) (snd so)) (combine (seq 0 (length os)) os) with
  | Some l => Some (concat l)
  | None => None
  end.

(** tool/osl_pluto.c:931-950 [osl_scattering_to_isl_map], one schedule per name. *)
Definition osl_smap (os : list osl_stmt) : smap := fun a i p u =>
  exists o eqs, nth_error os (n_stmt a) = Some o /\ equalities_osl (os_sched o) = Some eqs /\
    length i = o_in (os_sched o) /\ length u = length eqs /\ forall r, In r eqs -> aff r (u ++ i ++ p) = 0.

(** tool/osl_pluto.c:744-902 [osl_to_pluto_stmts]: the fields used here; the arrays
    of the reads and writes are returned by [osl_ids]. *)
Definition osl_to_stmt (nsched : nat) (o : osl_stmt) : option stmt :=
  match read_domain (os_domain o), scattering_to_trans (os_sched o),
        all_rows (fun x => access_to_matrix (snd x)) (filter_walk (fun x => is_write (fst (fst x))) (os_acc o) []),
        all_rows (fun x => access_to_matrix (snd x)) (filter_walk (fun x => is_read (fst (fst x))) (os_acc o) []) with
  | Some d, Some t, Some w, Some r =>
      let t' := pad_trans nsched t in
      let dim := match os_domain o with c :: _ => (o_out c + o_in c)%nat | [] => 0%nat end in
      Some (mkStmt dim dim (repeat true dim) d t' (repeat H_SCALAR (mnrows t')) 0 0 r w None 0 (-1) (-1))
  | _, _, _, _ => None
  end.
Definition osl_ids (keep : osl_type -> bool) (o : osl_stmt) : list nat :=
  map (fun x => snd (fst x)) (filter_walk (fun x => keep (fst (fst x))) (os_acc o) []).
