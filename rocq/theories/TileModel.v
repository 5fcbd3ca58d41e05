(** * Model of /repo/lib/tile.c and of pluto_update_deps (lib/pluto.c).

    Simplifications that apply to the whole file: names of iterators and
    [transdeps] (edited exactly like [deps]) are not modelled; the [assert] on
    tile sizes is a hypothesis of the theorems; tile sizes are given (the files
    and models they come from are not modelled here). *)
From Coq Require Import ZArith List Bool Arith.
From Verif Require Import SpecLinear MathModel ConstraintsModel SpecProg SpecTile FrameworkModel ProgModel.
Import ListNotations.
Open Scope Z_scope.

(** lib/pluto.c:2081-2130 [pluto_update_deps]: a constraint of the domain of
    statement [sid] is added to its dependences. *)
Definition update_deps (pr : prog) (sid : nat) (c : cst) : prog :=
  set_deps pr (map (fun d =>
    let d1 := if (d_src d =? sid)%nat
              then set_polys d (cst_add (d_poly d)
                     (Nat.iter (s_dim (stmt_of pr (d_dst d))) (fun c => add_dim c (s_dim (stmt_of pr sid))) c)) (d_bpoly d)
              else d in
    if (d_dst d =? sid)%nat
    then set_polys d1 (cst_add (d_poly d1)
           (Nat.iter (s_dim (stmt_of pr (d_src d))) (fun c => add_dim c 0) c)) (d_bpoly d1)
    else d1) (p_deps pr)).

(** One constraint added to the domain of statement [sid] and to its
    dependences, lib/tile.c:147-166 (lower bound) and 169-190 (upper bound). *)
Definition add_domain_row (pr : prog) (sid : nat) (r : list Z) : prog :=
  let pr1 := set_stmts pr (map_nth sid (fun st =>
               set_domain st (mkCst (ncols (s_domain st)) (rows (s_domain st) ++ [mkRow false r]))) (p_stmts pr)) in
  let dom := s_domain (stmt_of pr1 sid) in
  update_deps pr1 sid (select_row dom (nrows dom - 1)).

(** The rows of lib/tile.c:147-161 ([sign] = 1) and 169-185 ([sign] = -1):
    [sign] times row [t] of the transformation from column nsup + 1 on, the
    tile size at column nsup, the constant. *)
Definition tile_row (t : list Z) (nsup width : nat) (sign T extra : Z) : list Z :=
  map (fun j => if (j =? width - 1)%nat then sign * nth j t 0 + extra
                else if (j =? nsup)%nat then - (sign * T)
                else if (nsup <? j)%nat then sign * nth j t 0 else 0) (seq 0 width).

(** lib/tile.c:140-204, the body of the loops for level [b_first + k] and
    statement [sid]; [nsup] = num_domain_supernodes[s].  Returns the program and
    the new value of num_domain_supernodes[s]. *)
Definition tile_step (b : band) (pr : prog) (sid k nsup : nat) (T : Z) : prog * nat :=
  let depth := (b_first b + k)%nat in
  let mark st := set_tile st (S (s_num_tiled st)) (Z.of_nat (b_first b)) (Z.of_nat (b_first b + length (b_sizes b)) - 1) in
  if loop_level (stmt_of pr sid) (depth + k) then
    let pr1 := stmt_add_dim pr sid nsup (Some depth) H_TILE_SPACE_LOOP in
    let st := stmt_of pr1 sid in
    let t := nth (depth + k + 1) (mrows (s_trans st)) [] in
    let w := ncols (s_domain st) in
    let pr2 := add_domain_row pr1 sid (tile_row t nsup w 1 T 0) in
    let pr3 := add_domain_row pr2 sid (tile_row t nsup w (-1) T (T - 1)) in
    (set_stmts pr3 (map_nth sid mark (p_stmts pr3)), S nsup)
  else
    (set_stmts pr (map_nth sid (fun st =>
       let st1 := stmt_add_hyperplane st H_SCALAR depth in
       let t := nth (depth + k + 1) (mrows (s_trans st1)) [] in
       mark (set_trans st1 (mkMat (mncols (s_trans st1)) (map_nth depth (fun _ => t) (mrows (s_trans st1)))))) (p_stmts pr)),
     nsup).

(** lib/tile.c:109-207 [pluto_tile_band]; the array num_domain_supernodes is a
    list indexed by statement numbers. *)
Definition tile_level (b : band) (acc : prog * list nat) (kT : nat * Z) : prog * list nat :=
  fold_left (fun (a : prog * list nat) sid =>
    let '(pr', n) := tile_step b (fst a) sid (fst kT) (nth sid (snd a) 0%nat) (snd kT) in
    (pr', set_nth sid n (snd a))) (b_stmts b) acc.
Definition tile_band (pr : prog) (b : band) : prog :=
  fst (fold_left (tile_level b) (combine (seq 0 (length (b_sizes b))) (b_sizes b))
         (pr, repeat 0%nat (length (p_stmts pr)))).

(** ** All bands *)

(** lib/program.cpp:1877-1879 [pluto_is_hyperplane_loop]. *)
Definition is_hyperplane_loop (st : stmt) (level : nat) : bool := negb (is_hyperplane_scalar st level).

(** lib/pluto.c:1043-1051 [pluto_detect_hyperplane_types_stmtwise]. *)
Definition detect_types_stmtwise (pr : prog) : prog :=
  set_stmts pr (map (fun st => set_hyp st
    (map (fun k => if is_hyperplane_loop st k then H_LOOP else H_SCALAR) (seq 0 (mnrows (s_trans st))))) (p_stmts pr)).

(** lib/pluto.c:1054-1065 [pluto_detect_hyperplane_types]. *)
Definition detect_types (pr : prog) : prog :=
  set_hprops pr (map (fun k => if existsb (fun st => is_hyperplane_loop st k) (p_stmts pr) then H_LOOP else H_SCALAR)
                   (seq 0 (length (p_hprops pr)))).

(** lib/tile.c:362-379: all transformations get the same number of rows. *)
Definition sink_all (pr : prog) : prog :=
  let m := max_nrows (p_stmts pr) in
  let pr1 := set_stmts pr (map (fun st =>
    Nat.iter (m - mnrows (s_trans st)) (fun st => sink_transformation st (mnrows (s_trans st))) st) (p_stmts pr)) in
  Nat.iter (m - length (p_hprops pr)) (fun q => prog_add_hyperplane q (length (p_hprops q)) H_UNKNOWN) pr1.

(** lib/tile.c:330-380 [pluto_tile_scattering_dims]; the tile sizes are part of
    the bands. *)
Definition tile_scattering_dims (pr : prog) (bands : list band) : prog :=
  detect_types_stmtwise (detect_types (sink_all (fold_left tile_band bands pr))).
