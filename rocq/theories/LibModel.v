(** * Model: the library interface (lib/plutolib.c). *)
From Coq Require Import ZArith List Bool.
From Verif Require Import SpecLinear MathModel ConstraintsModel SpecProg SpecExec SpecOsl OslModel SpecDeps DepsModel SpecLib
  FrameworkModel ProgModel DriverModel TileModel LoopModel IntraModel ExportModel.
Import ListNotations.
Open Scope Z_scope.

(** lib/constraints_isl.c:243-289 [isl_basic_set_to_pluto_constraints] of a set without
    divs: equalities first. *)
Definition bset_to_constraints (b : bset) : cst :=
  mkCst (bs_dim b + bs_npar b + 1) (filter is_eq (bs_rows b) ++ filter (fun r => negb (is_eq r)) (bs_rows b)).

(** lib/plutolib.c:140-192 [extract_stmt] and 114-132 [extract_basic_set] for one
    basic set; lib/program.cpp [pluto_stmt_alloc]: the statement and its number.
    [None]: no such name (assertions 154-158) or not exactly one basic set: several
    basic sets make a list of constraint sets, which the model of statements does not
    have; an empty set leaves the domain NULL, which line 178 dereferences.
    [rd]: isl_basic_set_remove_divs; [acc]: the access matrices that 344-366 add
    (reads, writes; none when the caller passes no accesses). *)
Definition extract_stmt (rd : bset -> bset) (acc : nat -> list matrix * list matrix) (d : iset) : option (nat * stmt) :=
  match is_name d, is_sets d with
  | Some s, [b] =>
      let n := bs_dim b in
      Some (s, mkStmt n n (repeat true n) (bset_to_constraints (rd b)) (mkMat (n + bs_npar b + 1) []) [] 0 0
                      (fst (acc s)) (snd (acc s)) None 0 (-1) (-1))
  | _, _ => None
  end.

(** lib/plutolib.c:160-162: the array element must exist (out of bounds otherwise)
    and be free (assertion). *)
Definition place (o : option (list (option stmt))) (x : option (nat * stmt)) : option (list (option stmt)) :=
  match o, x with
  | Some l, Some (s, st) =>
      match nth_error l s with
      | Some None => Some (set_nth s (Some st) l)
      | _ => None
      end
  | _, _ => None
  end.

(** lib/plutolib.c:196-216 [extract_stmts]. *)
Definition extract_stmts (rd : bset -> bset) (acc : nat -> list matrix * list matrix) (ds : list iset) : option (list stmt) :=
  match fold_left place (map (extract_stmt rd acc) ds) (Some (repeat None (length ds))) with
  | Some l => all_rows (fun x => x) l
  | None => None
  end.

(** lib/plutolib.c:318-383 [pluto_prog_from_isl_domains_dependences].  The type of all
    dependences is RAW (line 378).  [nvar] is -1 without statements, 0 here. *)
Definition prog_from_isl (rds : bset -> bset) (rd : bmap -> bmap) (accesswise : bool) (acc : nat -> list matrix * list matrix)
    (ds : list iset) (deps : umap) : option prog :=
  match extract_stmts rds acc ds with
  | None => None
  | Some stmts =>
      let nvar := fold_left (fun n st => Nat.max n (s_dim st)) stmts 0%nat in
      let npar := match stmts with st :: _ => (ncols (s_domain st) - s_dim st - 1)%nat | [] => 0%nat end in
      match extract_deps rd accesswise stmts D_RAW deps with
      | None => None
      | Some xs => Some (mkProg nvar npar stmts (map to_dep xs) [])
      end
  end.

(** lib/constraints_isl.c:189-236 [isl_basic_map_from_pluto_constraints] (columns date,
    iteration, parameters, 1) with isl_mat_set_element_si, whose argument is an
    [int]; lib/plutolib.c:294-296 hides the first iterators. *)
Definition bmap_from_constraints (c : cst) (out hidden n_in npar : nat) : imap :=
  mkImap out hidden n_in npar (map (map_coef (map wrap32)) (rows c)).

(** lib/plutolib.c:281-313 [pluto_schedules_to_isl]. *)
Definition schedules_to_isl (pr : prog) : list imap :=
  map (fun s => let c := nth s (fst (schedules pr)) (mkCst 0 []) in let st := stmt_of (snd (schedules pr)) s in
         bmap_from_constraints c (mnrows (s_trans st)) (projected pr s)
           (ncols c - mnrows (s_trans st) - p_npar pr - 1 - projected pr s) (p_npar pr))
      (seq 0 (length (p_stmts pr))).

Section Library.
Variables (is_emptyb isl_emptyb : cst -> bool) (kernel : matrix -> matrix) (solve : prog -> cst -> option point)
  (o : options) (fuse : fusion) (fuel : nat)
  (score : prog -> ploop -> Z) (tile : bool) (po : tile_options) (sizes sizes2 : pband -> list Z).

(** lib/plutolib.c:30-102 [pluto_schedule_prog] without options->identity: [Some None]
    is the return value 1. *)
Definition schedule_prog (pr : prog) : option (option prog) :=
  match auto_transform is_emptyb isl_emptyb kernel solve o fuse fuel pr with
  | Some (0, q) => match post_transform is_emptyb score sizes sizes2 tile po q with Some r => Some (Some r) | None => None end
  | Some _ => Some None
  | None => None
  end.

(** lib/plutolib.c:390-422 [pluto_transform]: [Some None] is the result NULL. *)
Definition pluto_transform (rds : bset -> bset) (rd : bmap -> bmap) (accesswise : bool) (acc : nat -> list matrix * list matrix)
    (ds : list iset) (deps : umap) : option (option (list imap)) :=
  match prog_from_isl rds rd accesswise acc ds deps with
  | None => None
  | Some pr =>
      match schedule_prog pr with
      | None => None
      | Some None => Some None
      | Some (Some r) => Some (Some (schedules_to_isl r))
      end
  end.

(** lib/plutolib.c:429-452 [pluto_schedule].  [ds]: isl_union_map_domain of the
    schedules (443); [uni]: isl_union_map_union.  The pointers trans_dep_war and
    trans_dep_waw are NULL (438-439); [compute_deps_isl] dereferences them when both
    options are set (lib/program.cpp:691-694).  dep_rar is not used.  The domain of
    the result is restricted to [ds] at the end (447). *)
Definition pluto_schedule (flow : amap -> amap -> amap -> smap -> umap * umap) (co : umap -> umap) (uni : umap -> umap -> umap)
    (lastwriter rar coalesce : bool) (reads writes : amap) (sched : smap)
    (rds : bset -> bset) (rd : bmap -> bmap) (accesswise : bool) (acc : nat -> list matrix * list matrix) (ds : list iset) : option (option (list imap)) :=
  if lastwriter && coalesce then None
  else let d := compute_deps_isl flow co lastwriter rar coalesce reads writes sched in
       pluto_transform rds rd accesswise acc ds (uni (uni (i_raw d) (i_war d)) (i_waw d)).
End Library.
