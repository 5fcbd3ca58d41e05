(** * Model of diamond tiling: hyperplanes replaced before tiling and put back
    for the point loops.

    The field [evicted_hyp_pos] of the statements is a list indexed by statement
    numbers. *)
From Coq Require Import ZArith List Bool Arith.
From Verif Require Import SpecLinear MathModel ConstraintsModel SpecProg SpecTile FrameworkModel ProgModel.
Import ListNotations.
Open Scope Z_scope.

(** lib/pluto.c:2267-2276, one statement: row [pos] of the transformation is kept
    as the evicted hyperplane and replaced with [h].  [None]: the assertion
    of line 2269 fails or the row does not exist. *)
Definition evict_stmt (pos : nat) (h : list Z) (st : stmt) : option stmt :=
  match s_evict st with
  | Some _ => None
  | None =>
      if (pos <? mnrows (s_trans st))%nat then
        Some (set_evict (set_trans st (mkMat (mncols (s_trans st)) (set_nth pos h (mrows (s_trans st)))))
                        (Some (nth pos (mrows (s_trans st)) [])))
      else None
  end.

(** lib/pluto.c:2266-2277, the statements [l] of a band; [hs] are the rows of
    cone_complement_hyps, in the order of the statements of the band. *)
Fixpoint evict_band (a : prog * list nat) (l : list nat) (pos : nat) (hs : list (list Z)) : option (prog * list nat) :=
  match l, hs with
  | s :: l', h :: hs' =>
      match evict_stmt pos h (stmt_of (fst a) s) with
      | Some st => evict_band (set_stmts (fst a) (set_nth s st (p_stmts (fst a))), set_nth s pos (snd a)) l' pos hs'
      | None => None
      end
  | _, _ => Some a
  end.

(** lib/pluto.c:2171-2286, the bands for which a hyperplane was found: statements,
    position and hyperplanes. *)
Fixpoint evict_bands (a : prog * list nat) (es : list (list nat * nat * list (list Z))) : option (prog * list nat) :=
  match es with
  | [] => Some a
  | (l, pos, hs) :: es' => match evict_band a l pos hs with Some a' => evict_bands a' es' | None => None end
  end.

(** lib/tile.c:88-101, one statement: the evicted hyperplane and the columns from
    fl on of row fl + evicted_hyp_pos are exchanged.  [None]: the assertion of
    line 93 fails or the row does not exist. *)
Definition reschedule_stmt (pos : nat) (st : stmt) : option stmt :=
  match s_evict st with
  | None => Some st
  | Some e =>
      let fl := (s_dim st - s_dim_orig st)%nat in
      if ((fl + length e =? mncols (s_trans st)) && (fl + pos <? mnrows (s_trans st)))%nat%bool then
        let r := nth (fl + pos) (mrows (s_trans st)) [] in
        Some (set_evict (set_trans st (mkMat (mncols (s_trans st)) (set_nth (fl + pos) (firstn fl r ++ e) (mrows (s_trans st)))))
                        (Some (skipn fl r)))
      else None
  end.

Fixpoint all_some {A} (l : list (option A)) : option (list A) :=
  match l with
  | [] => Some []
  | None :: _ => None
  | Some x :: l' => match all_some l' with Some r => Some (x :: r) | None => None end
  end.

(** lib/tile.c:85-106 [pluto_diamond_tile_reschedule]; the result tells whether
    there was an evicted hyperplane. *)
Definition diamond_tile_reschedule (pos : list nat) (pr : prog) : option (prog * bool) :=
  match all_some (map (fun k => reschedule_stmt (nth k pos 0%nat) (stmt_of pr k)) (seq 0 (length (p_stmts pr)))) with
  | Some l => Some (set_stmts pr l, existsb (fun st => match s_evict st with Some _ => true | None => false end) (p_stmts pr))
  | None => None
  end.
