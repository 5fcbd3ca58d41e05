(** * Model of what the library does with references to isl objects:
    lib/plutolib.c, lib/program.cpp, lib/constraints_isl.c, lib/isl_support.c,
    lib/framework.cpp, lib/iss.c.

    Only the references are modelled, not the contents of the objects.  The rules are
    those of the isl manual: an argument marked __isl_take is given away, one marked
    __isl_keep is only used, a result marked __isl_give belongs to the caller;
    functions called with NULL return NULL, but take their arguments all the same.
    The functions of isl that /repo calls are not annotated there; they take and keep
    as the manual says (isl_pw_aff_from_map_dim, which is not in the manual, keeps
    its argument: /repo uses it afterwards).  A call that fails for lack of memory and
    failing assertions are left out.  How often the loops are executed depends on the
    contents; this is given by the shapes below.  A reference that is used after it was
    given away, or a NULL pointer that is dereferenced, is recorded with the source
    line; the run goes on, so that everything that happens is seen. *)
From Coq Require Import List Arith Bool.
From Verif Require Import SpecOwn.
Import ListNotations.

(** ** Calls *)

Definition M (A : Type) : Type := heap -> A * heap.
Definition ret {A} (a : A) : M A := fun h => (a, h).
Definition bind {A B} (m : M A) (k : A -> M B) : M B := fun h => let '(a, h') := m h in k a h'.
Notation "x <- m ;; k" := (bind m (fun x => k)) (at level 61, m at next level, right associativity).
Notation "m ;; k" := (bind m (fun _ => k)) (at level 61, right associativity).

(** A new reference. *)
Definition give : M ref := fun h => (Some (fresh h), mkHeap (fresh h :: live h) (S (fresh h)) (bad h)).
Definition is_live (h : heap) (n : nat) : bool := existsb (Nat.eqb n) (live h).
Definition look (line : nat) (r : ref) : M unit := fun h =>
  match r with
  | None => (tt, h)
  | Some n => (tt, if is_live h n then h else mkHeap (live h) (fresh h) (bad h ++ [line]))
  end.
Definition drop (n : nat) (l : list nat) : list nat := filter (fun m => negb (n =? m)) l.
Definition take (line : nat) (r : ref) : M unit := fun h =>
  match r with
  | None => (tt, h)
  | Some n => (tt, if is_live h n then mkHeap (drop n (live h)) (fresh h) (bad h) else mkHeap (live h) (fresh h) (bad h ++ [line]))
  end.
(** A pointer that is dereferenced by /repo itself. *)
Definition deref (line : nat) (r : ref) : M unit :=
  match r with
  | None => fun h => (tt, mkHeap (live h) (fresh h) (bad h ++ [line]))
  | Some _ => look line r
  end.
Fixpoint each {A} (l : list A) (f : A -> M unit) : M unit :=
  match l with
  | [] => ret tt
  | a :: l' => f a;; each l' f
  end.
Definition nulls (l : list ref) : bool := existsb (fun r => match r with None => true | Some _ => false end) l.
(** A call of isl with the arguments [takes] and [keeps] that returns an object. *)
Definition call (line : nat) (takes keeps : list ref) : M ref :=
  each keeps (look line);; each takes (take line);;
  if nulls (takes ++ keeps) then ret None else give.
Definition copy (line : nat) (r : ref) : M ref := call line [] [r].
(** isl_…_foreach_…: the function gets a reference of its own for each element. *)
Definition foreach {A} (line : nat) (r : ref) (l : list A) (f : A -> ref -> M unit) : M unit :=
  look line r;; match r with None => ret tt | Some _ => each l (fun a => e <- give;; f a e) end.
(** A loop that replaces an object. *)
Fixpoint replace {A} (l : list A) (f : A -> ref -> M ref) (r : ref) : M ref :=
  match l with
  | [] => ret r
  | a :: l' => r' <- f a r;; replace l' f r'
  end.
(** isl_ctx_free: objects of the context must not be left. *)
Definition ctx_free (line : nat) (c : ref) : M unit := fun h =>
  match c with
  | None => (tt, h)
  | Some n => let h' := snd (take line c h) in
              (tt, if existsb (fun m => n <? m) (live h') then mkHeap (live h') (fresh h') (bad h' ++ [line]) else h')
  end.

(** ** Shapes *)

(** Basic sets and maps: numbers of equalities, inequalities, columns. *)
Record bshape := mkBshape { n_eq : nat; n_ineq : nat; n_col : nat }.
Definition cells (rows cols : nat) : list nat := seq 0 (rows * cols).
(** Union sets: the basic sets of each set.  Union maps of dependences: for each basic
    map also whether its range is wrapped. *)
Definition sets := list (list bshape).
Definition maps := list (list (bool * bshape)).
(** Pieces of a function: input dimensions, parameters, and whether there is an
    integer division and its denominator is 1.  Accesses: for each map the statement and
    its basic maps; for each dimension the pieces, if it is single valued. *)
Record piece := mkPiece { pc_in : nat; pc_par : nat; pc_div : option bool }.
Definition accesses := list (nat * list (list (option (list piece)))).

(** ** lib/isl_support.c, lib/constraints_isl.c *)

(** lib/constraints_isl.c:269-284, 328-343, lib/isl_support.c:40-45: the numbers of a
    matrix. *)
Definition read_cells (line : nat) (m : ref) (rows cols : nat) : M unit :=
  each (cells rows cols) (fun _ => v <- call line [] [m];; look line v;; take line v).

(** lib/isl_support.c:31-48 [pluto_matrix_from_isl_mat]. *)
Definition matrix_from_isl_mat (m : ref) (rows cols : nat) : M unit :=
  look 36 m;; look 37 m;; read_cells 42 m rows cols.

(** lib/isl_support.c:53-101 [isl_aff_to_pluto_func]. *)
Definition coefficient (line : nat) (aff : ref) : M unit := v <- call line [] [aff];; look line v;; take line v.
Definition coefficients (p : piece) (set aff : ref) : M unit :=
  each (seq 0 (pc_in p)) (fun _ => coefficient 84 aff);;
  each (seq 0 (pc_par p)) (fun _ => coefficient 89 aff);;
  coefficient 93 aff;; take 97 set;; take 98 aff.
Definition aff_to_pluto_func (p : piece) (set aff : ref) : M unit :=
  look 57 aff;; look 62 aff;; look 66 aff;;
  match pc_div p with
  | None => coefficients p set aff
  | Some one =>
      d <- call 67 [] [aff];; v <- call 68 [] [d];; take 69 d;; look 70 v;;
      if one then take 77 v;; coefficients p set aff else take 72 v;; take 73 set;; take 74 aff
  end.

(** lib/constraints_isl.c:243-290 [isl_basic_set_to_pluto_constraints]. *)
Definition basic_set_to (b : bshape) (bset : ref) : M unit :=
  c <- copy 253 bset;; bc <- call 253 [c] [];;
  eq <- call 255 [] [bc];; ineq <- call 257 [] [bc];; take 259 bc;;
  look 261 eq;; look 262 ineq;; look 263 eq;;
  read_cells 271 eq (n_eq b) (n_col b);; read_cells 280 ineq (n_ineq b) (n_col b);;
  take 286 eq;; take 287 ineq.

(** lib/constraints_isl.c:304-351 [isl_basic_map_to_pluto_constraints_func_arg], 294-301
    [isl_basic_map_to_pluto_constraints]. *)
Definition basic_map_to_arg (b : bshape) (bmap : ref) : M unit :=
  eq <- call 315 [] [bmap];; ineq <- call 317 [] [bmap];;
  look 320 eq;; look 321 ineq;; look 322 eq;;
  read_cells 330 eq (n_eq b) (n_col b);; read_cells 339 ineq (n_ineq b) (n_col b);;
  take 345 eq;; take 346 ineq;; take 347 bmap.
Definition basic_map_to (b : bshape) (bmap : ref) : M unit := c <- copy 298 bmap;; basic_map_to_arg b c.

(** lib/constraints_isl.c:80-128 [isl_basic_set_from_pluto_constraints]; the objects are
    created in the context [ctx]. *)
Definition basic_set_from (ctx : ref) (b : bshape) : M ref :=
  eq <- call 94 [] [ctx];; ineq <- call 95 [] [ctx];; dim <- call 97 [] [ctx];;
  let store (_ : nat) (m : ref) := v <- call 118 [] [ctx];; call 119 [m; v] [] in
  eq <- replace (cells (n_eq b) (n_col b)) store eq;;
  ineq <- replace (cells (n_ineq b) (n_col b)) store ineq;;
  call 125 [dim; eq; ineq] [].
(** lib/constraints_isl.c:133-147 [isl_set_from_pluto_constraints]. *)
Definition set_from (ctx : ref) (l : list bshape) : M ref :=
  dim <- call 137 [] [ctx];; set <- call 138 [dim] [];;
  replace l (fun b set => bset <- basic_set_from ctx b;; s <- call 142 [bset] [];; call 142 [set; s] []) set.
(** lib/constraints_isl.c:192-237 [isl_basic_map_from_pluto_constraints]. *)
Definition basic_map_from (ctx : ref) (b : bshape) : M ref :=
  space <- call 202 [] [ctx];; eq <- call 211 [] [ctx];; ineq <- call 212 [] [ctx];;
  let store (_ : nat) (m : ref) := call 228 [m] [] in
  eq <- replace (cells (n_eq b) (n_col b)) store eq;;
  ineq <- replace (cells (n_ineq b) (n_col b)) store ineq;;
  call 232 [space; eq; ineq] [].

(** lib/constraints_isl.c:154-173 [extract_basic_set_constraints], 176-187
    [isl_set_to_pluto_constraints] of a set with the basic sets [l]. *)
Definition set_to (l : list bshape) (set : ref) : M unit :=
  deref 179 set;;
  foreach 181 set l (fun b bset => basic_set_to b bset;; take 161 bset);;
  match l with [] => look 183 set;; look 184 set | _ => ret tt end.

(** lib/constraints_isl.c:35-50 [pluto_constraints_project_out_isl] (num > 0): the
    context is NULL; [res]: basic sets of the result of isl. *)
Definition project_out (l res : list bshape) : M unit :=
  set <- set_from None l;; set <- call 46 [set] [];; set_to res set;; take 49 set.
(** lib/constraints_isl.c:53-74 [pluto_constraints_project_out_isl_single] (num > 0). *)
Definition project_out_single (b res : bshape) : M unit :=
  ctx <- give;; bset <- basic_set_from ctx b;; bset <- call 69 [bset] [];;
  basic_set_to res bset;; take 72 bset;; ctx_free 73 ctx.
(** lib/constraints_isl.c:354-403 [pluto_constraints_lexmin_isl]; [empty]: there is no
    solution; [ndim]: number of dimensions. *)
Definition lexmin (b : bshape) (negvar empty : bool) (ndim : nat) : M unit :=
  ctx <- give;; bset <- basic_set_from ctx b;; domain <- call 369 [bset] [];;
  domain <- (if negvar then ret domain
             else s <- call 373 [] [domain];; p <- call 373 [s] [];; ps <- call 374 [p] [];; call 375 [domain; ps] []);;
  lm <- call 377 [domain] [];; look 379 lm;;
  if empty then take 380 lm;; ctx_free 381 ctx
  else
    look 385 lm;; p <- call 390 [lm] [];;
    each (seq 0 ndim) (fun _ => v <- call 394 [] [p];; look 395 v;; take 396 v);;
    take 399 p;; ctx_free 400 ctx.
(** lib/constraints_isl.c:405-416 [pluto_constraints_union_isl]. *)
Definition union (l1 l2 res : list bshape) : M unit :=
  s1 <- set_from None l1;; s2 <- set_from None l2;; s3 <- call 409 [s1; s2] [];; set_to res s3;; take 413 s3.
(** lib/constraints_isl.c:465-484 [pluto_constraints_intersection_isl]. *)
Definition intersection (l1 l2 res : list bshape) : M unit :=
  ctx <- give;; s1 <- set_from ctx l1;; s2 <- set_from ctx l2;; s3 <- call 476 [s1; s2] [];;
  set_to res s3;; take 479 s3;; ctx_free 481 ctx.

(** lib/constraints_isl.c:422-449 [isl_map_to_pluto_func] (its argument is not taken). *)
Definition map_to_pluto_func (dims : list (list piece)) (map : ref) : M unit :=
  look 426 map;; look 427 map;;
  each dims (fun ps =>
    look 437 map;; pw <- call 438 [] [map];;
    foreach 442 pw ps (fun p set => aff <- give;; aff_to_pluto_func p set aff);;
    take 445 pw).

(** lib/constraints_isl.c:451-457 [basic_map_count], 459-463 [isl_map_count]. *)
Definition map_count {A} (l : list A) (map : ref) : M unit :=
  foreach 460 map l (fun _ bmap => take 455 bmap);; take 461 map.

(** ** lib/framework.cpp, lib/iss.c *)

(** lib/framework.cpp:733-757, 800-867 in [get_stmt_lin_ind_constraints]: [q] x [p] is the
    size of the matrix, [ocols] the columns of the kernel, [cur] and [orth] the shapes of
    the constraints. *)
Definition stmt_lin_ind (flic : bool) (p q ocols : nat) (cur : bshape) (orth : list bshape) : M unit :=
  ctx <- give;; h <- call 736 [] [ctx];;
  h <- replace (cells p q) (fun _ h => call 745 [h] []) h;;
  h <- call 753 [h] [];; matrix_from_isl_mat h p ocols;; take 757 h;;
  c <- (if flic then ret None else basic_set_from ctx cur);;
  each orth (fun b =>
    if flic then ret tt
    else i <- basic_set_from ctx b;; c' <- copy 829 c;; i <- call 829 [i; c'] [];; look 830 i;; look 831 i;; take 834 i);;
  take 866 c;; ctx_free 867 ctx.

(** lib/iss.c:28-121 [get_lin_ind_constraints]. *)
Definition lin_ind (rows cols ocols : nat) : M unit :=
  ctx <- give;; h <- call 41 [] [ctx];; h <- replace (cells rows cols) (fun _ h => call 45 [h] []) h;;
  h <- call 49 [h] [];; matrix_from_isl_mat h cols ocols;; take 53 h;; ctx_free 118 ctx.

(** ** lib/program.cpp *)

(** lib/program.cpp:367-495 [basic_map_extract_dep], 498-502 [map_extract_dep]. *)
Definition basic_map_extract_dep (accesswise : bool) (b : bool * bshape) (bmap : ref) : M unit :=
  bmap <- call 377 [bmap] [];; look 385 bmap;;
  space <- call 391 [] [bmap];; look 392 space;;
  x <- (if fst b then bmap <- call 393 [bmap] [];; take 394 space;; space <- call 395 [] [bmap];; ret (bmap, space)
        else ret (bmap, space));;
  let '(bmap, space) := x in
  look 397 space;; basic_map_to (snd b) bmap;; take 400 space;;
  (if accesswise then look 435 bmap;; look 445 bmap else ret tt);;
  take 493 bmap.
Definition map_extract_dep (accesswise : bool) (l : list (bool * bshape)) (map : ref) : M unit :=
  foreach 499 map l (basic_map_extract_dep accesswise);; take 500 map.
(** lib/program.cpp:599-607 [extract_deps_from_isl_union_map]. *)
Definition extract_deps (accesswise : bool) (ms : maps) (umap : ref) : M unit :=
  foreach 604 umap ms (map_extract_dep accesswise).

(** lib/program.cpp:505-540 [isl_basic_map_extract_access_func], 543-549
    [isl_map_extract_access_func]. *)
Definition basic_map_extract_access (dims : list (option (list piece))) (bmap : ref) : M unit :=
  map <- call 507 [bmap] [];; look 509 map;; look 511 map;;
  each dims (fun d =>
    look 519 map;;
    match d with
    | None => ret tt
    | Some ps =>
        pw <- call 520 [] [map];;
        foreach 523 pw ps (fun p set => aff <- give;; aff_to_pluto_func p set aff);;
        take 526 pw
    end);;
  look 535 bmap;; take 538 map.
Definition map_extract_access (l : list (list (option (list piece)))) (map : ref) : M unit :=
  foreach 546 map l basic_map_extract_access;; take 547 map.
(** lib/program.cpp:555-596 [extract_accesses_for_pluto_stmt]. *)
Definition extract_accesses (rs ws : accesses) (reads writes : ref) : M unit :=
  foreach 559 reads rs (fun m => map_count (snd m));; foreach 560 writes ws (fun m => map_count (snd m));;
  foreach 583 reads rs (fun m => map_extract_access (snd m));; foreach 584 writes ws (fun m => map_extract_access (snd m)).

(** isl_union_map_compute_flow called with copies of four maps; [must], [may]: the
    pointers for these results are not NULL. *)
Definition flow (line : nat) (a b c d : ref) (must may : bool) : M (ref * ref) :=
  a <- copy line a;; b <- copy line b;; c <- copy line c;; d <- copy line d;;
  each [a; b; c; d] (take line);;
  x <- (if must then give else ret None);; y <- (if may then give else ret None);; ret (x, y).
(** lib/program.cpp:623-696 [compute_deps_isl]; [trans]: the last two pointers for results
    are not NULL.  The result: RAW, WAR, WAW, RAR, transitive WAR and WAW
    dependences. *)
Record dep_refs := mkDepRefs { dr_raw : ref; dr_war : ref; dr_waw : ref; dr_rar : ref; dr_twar : ref; dr_twaw : ref }.
Definition compute_deps (lastwriter rar coalesce trans : bool) (reads writes schedule empty : ref) : M dep_refs :=
  d <- (if lastwriter then
          raw <- flow 634 reads writes empty schedule true false;;
          w <- flow 639 writes writes reads schedule true true;;
          twar <- flow 644 writes empty reads schedule false trans;;
          twaw <- flow 649 writes empty writes schedule false trans;;
          r <- (if rar then flow 655 reads reads empty schedule true false else ret (None, None));;
          ret (mkDepRefs (fst raw) (snd w) (fst w) (fst r) (snd twar) (snd twaw))
        else
          raw <- flow 663 reads empty writes schedule false true;;
          war <- flow 668 writes empty reads schedule false true;;
          waw <- flow 673 writes empty writes schedule false true;;
          r <- (if rar then flow 679 reads empty reads schedule false true else ret (None, None));;
          ret (mkDepRefs (snd raw) (snd war) (snd waw) (snd r) None None));;
  if coalesce then
    raw <- call 687 [dr_raw d] [];; war <- call 688 [dr_war d] [];; waw <- call 689 [dr_waw d] [];;
    if lastwriter then
      (if trans then
         twar <- call 692 [dr_twar d] [];; twaw <- call 693 [dr_twaw d] [];;
         ret (mkDepRefs raw war waw (dr_rar d) twar twaw)
       else deref 692 None;; deref 693 None;; ret (mkDepRefs raw war waw (dr_rar d) None None))
    else ret (mkDepRefs raw war waw (dr_rar d) (dr_twar d) (dr_twaw d))
  else ret d.

(** ** lib/plutolib.c *)

(** lib/plutolib.c:114-131 [extract_basic_set], 140-193 [extract_stmt], 196-216
    [extract_stmts]. *)
Definition extract_stmt (l : list bshape) (set : ref) : M unit :=
  look 143 set;; look 144 set;; look 150 set;; look 156 set;;
  foreach 173 set l (fun b bset => basic_set_to b bset;; take 129 bset);; take 190 set.
Definition extract_stmts (ds : sets) (domains : ref) : M unit :=
  look 197 domains;; foreach 211 domains ds extract_stmt.

(** lib/plutolib.c:266-277 [stmt_filter] and the loops 357-358: the new union map for
    statement [i]. *)
Definition stmt_filter (i s : nat) (umap map : ref) : M ref :=
  look 267 map;;
  if (s =? i) then u <- call 272 [map] [];; call 272 [umap; u] [] else take 275 map;; ret umap.
Definition filter_stmt (line i : nat) (acc : accesses) (all umap : ref) : M ref :=
  look line all;; replace acc (fun m umap => map <- give;; stmt_filter i (fst m) umap map) umap.

(** lib/plutolib.c:318-383 [pluto_prog_from_isl_domains_dependences]; [rs] and [ws] are
    the accesses if [reads] and [writes] are not NULL. *)
Definition prog_from (accesswise : bool) (ds : sets) (ms : maps) (rs ws : accesses) (domains dependences reads writes : ref) : M unit :=
  extract_stmts ds domains;; take 327 domains;;
  match reads, writes with
  | Some _, Some _ =>
      each (seq 0 (length ds)) (fun i =>
        sr <- call 352 [] [reads];; reads_s <- call 352 [sr] [];;
        sw <- call 354 [] [writes];; writes_s <- call 354 [sw] [];;
        reads_s <- filter_stmt 357 i rs reads reads_s;; writes_s <- filter_stmt 358 i ws writes writes_s;;
        extract_accesses (filter (fun m => fst m =? i) rs) (filter (fun m => fst m =? i) ws) reads_s writes_s;;
        take 364 reads_s;; take 365 writes_s);;
      take 367 reads;; take 368 writes
  | _, _ => ret tt
  end;;
  foreach 372 dependences ms (fun m => map_count m);;
  extract_deps accesswise ms dependences;; take 380 dependences.

(** lib/plutolib.c:281-313 [pluto_schedules_to_isl]: [scheds] are the shapes of the
    schedules of the statements, [npar] the number of parameters of the space. *)
Definition schedules_to_isl (scheds : list bshape) (npar : nat) (ctx space : ref) : M ref :=
  s <- copy 285 space;; schedules <- call 285 [s] [];;
  schedules <- replace scheds (fun b schedules =>
    bmap <- basic_map_from ctx b;; bmap <- call 293 [bmap] [];; map <- call 298 [bmap] [];;
    look 301 space;;
    map <- replace (seq 0 npar) (fun _ map => id <- call 302 [] [space];; call 303 [map; id] []) map;;
    map <- call 306 [map] [];; u <- call 307 [map] [];; call 307 [schedules; u] []) schedules;;
  take 311 space;; ret schedules.

(** The shape of a run: whether a transformation was found, and the schedules. *)
Record run := mkRun { found : bool; r_scheds : list bshape; r_npar : nat }.

(** lib/plutolib.c:390-423 [pluto_transform].  isl_union_set_get_ctx gives no reference;
    [ctx] is the context of the caller. *)
Definition transform (ctx : ref) (accesswise : bool) (ds : sets) (ms : maps) (rs ws : accesses) (r : run)
    (domains dependences reads writes : ref) : M ref :=
  look 395 domains;; space <- call 396 [] [domains];;
  prog_from accesswise ds ms rs ws domains dependences reads writes;;
  if found r then schedules_to_isl (r_scheds r) (r_npar r) ctx space
  else take 409 space;; ret None.

(** lib/plutolib.c:429-452 [pluto_schedule]; [ds], [ms]: the domains and the dependences
    computed by isl. *)
Definition schedule (ctx : ref) (accesswise lastwriter rar coalesce : bool) (ds : sets) (ms : maps) (rs ws : accesses) (r : run)
    (schedules reads writes : ref) : M ref :=
  s <- call 435 [] [reads];; empty <- call 435 [s] [];;
  d <- compute_deps lastwriter rar coalesce false reads writes schedules empty;; take 441 empty;;
  dependences <- call 443 [dr_raw d; dr_war d] [];; dependences <- call 444 [dependences; dr_waw d] [];;
  domains <- call 445 [schedules] [];; c <- copy 448 domains;;
  p <- transform ctx accesswise ds ms rs ws r c dependences reads writes;;
  call 449 [p; domains] [].

(** lib/plutolib.c:474-497 [pluto_schedule_and_get_remapping]; the result tells whether
    a remapping is returned. *)
Definition schedule_and_get_remapping (accesswise : bool) (ds : sets) (ms : maps) (r : run) (domains dependences : ref) : M bool :=
  prog_from accesswise ds ms [] [] domains dependences None None;; ret (found r).

(** lib/plutolib.c:500-532 [pluto_parallel_schedule_with_remapping].  Neither ploops nor
    nploops is assigned, remap only if a transformation is found. *)
Definition parallel_schedule_with_remapping (ctx : ref) (accesswise : bool) (ds : sets) (ms : maps) (r : run) (domains dependences : ref) : M ref :=
  look 504 domains;; space <- call 505 [] [domains];;
  prog_from accesswise ds ms [] [] domains dependences None None;;
  if found r then
    schedules <- schedules_to_isl (r_scheds r) (r_npar r) ctx space;; take 529 space;; ret schedules
  else ret None.

(** lib/plutolib.c:543-597 [pluto_schedule_str].  isl_printer_print_union_map takes the
    printer and returns one, which is ignored; this does no harm as long as it is the
    same, so the printer is kept here, unless the map is NULL: then isl frees the printer
    and returns NULL. *)
Definition schedule_str (accesswise : bool) (ds : sets) (ms : maps) (r : run) : M unit :=
  ctx <- give;; domains <- call 551 [] [ctx];; dependences <- call 553 [] [ctx];;
  s <- parallel_schedule_with_remapping ctx accesswise ds ms r domains dependences;;
  printer <- call 584 [] [ctx];;
  match s with Some _ => look 585 s;; look 585 printer | None => take 585 printer end;;
  look 587 printer;; take 591 printer;; take 592 domains;; take 593 dependences;; take 594 s;; ctx_free 596 ctx.

(** lib/plutolib.c:599-612 [pluto_get_remapping_str]; the remapping is an object that is
    not of isl: line 609 dereferences it. *)
Definition get_remapping_str (accesswise : bool) (ds : sets) (ms : maps) (r : run) : M unit :=
  ctx <- give;; domains <- call 603 [] [ctx];; dependences <- call 605 [] [ctx];;
  f <- schedule_and_get_remapping accesswise ds ms r domains dependences;;
  (if f then ret tt else deref 609 None);; ctx_free 611 ctx.
