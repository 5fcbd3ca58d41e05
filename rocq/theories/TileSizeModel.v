(** * Model of the choice of tile sizes: /repo/lib/tile_size_selection_model.cpp
    and [read_tile_sizes] in /repo/lib/tile.c.

    Numbers of type [unsigned] are integers modulo 2^32.  Simplifications: the
    dimensional reuse of a loop is a rational number (a [float] in the code), the
    solution of the reuse polynomial and the conversion of a [float] to
    [unsigned] are parameters; messages are left out. *)
From Coq Require Import ZArith QArith List Bool Arith.
From Verif Require Import SpecLinear MathModel SpecProg SpecTile ProgModel TileModel LoopModel.
Import ListNotations.
Open Scope Z_scope.

Definition u32 (x : Z) : Z := x mod 2 ^ 32.

(** lib/tile_size_selection_model.cpp:92-105 [approximate_to_nearest_multiple].
    [None]: the assertion factor > 0 fails. *)
Definition nearest_multiple (num factor : Z) : option Z :=
  if factor =? 0 then None
  else if factor =? 1 then Some num
  else
    let r := num mod factor in
    if r =? 0 then Some num
    else if u32 (2 * r) <? factor then Some (u32 (num - r))
    else Some (u32 (u32 (num - r) + factor)).

(** lib/tile_size_selection_model.cpp:132-140
    [round_tile_sizes_wrt_unroll_jam_factor]. *)
Definition round_tile_size (tile_size ufactor : Z) : option Z :=
  if tile_size <? ufactor then Some ufactor else nearest_multiple tile_size ufactor.

(** lib/tile_size_selection_model.cpp:46-61, the constructor: the vector
    dimension; the number of dimensions if there is none. *)
Definition vector_dim (reuse : list Q) (vec : list bool) : nat :=
  fold_left (fun v i =>
      if negb (nth i vec false) then v
      else if (v =? length vec)%nat then i
      else if Qle_bool (nth v reuse 0%Q) (nth i reuse 0%Q) then i else v)
    (seq 0 (length vec)) (length vec).

Definition Qlt_b (a b : Q) : bool := negb (Qle_bool b a).

(** First position of a value, [std::find]; the length if there is none. *)
Fixpoint find_pos (q : Q) (l : list Q) : nat :=
  match l with [] => 0 | a :: l' => if Qeq_bool a q then 0 else S (find_pos q l') end.
Definition qmax_list (l : list Q) : Q :=
  fold_left (fun m a => if Qlt_b m a then a else m) l (hd 0%Q l).

Section Infer.
(** Conversion of a non-negative [float] to [unsigned]. *)
Variable conv : Q -> Z.

(** lib/tile_size_selection_model.cpp:144-157: min_dim_reuse (the test !vectorDim
    asks whether the vector dimension is dimension 0). *)
Definition min_dim_reuse (reuse : list Q) (vdim : nat) : Q :=
  fold_left (fun m a => if Qlt_b 0 a && (vdim =? 0)%nat && Qlt_b a m then a else m) reuse (qmax_list reuse).

(** lib/tile_size_selection_model.cpp:154-169: min_reuse_dim. *)
Definition min_reuse_dim (reuse : list Q) (vdim par : nat) : nat :=
  let m := min_dim_reuse reuse vdim in
  let d := find_pos m reuse in
  if (d =? vdim)%nat || (d =? par)%nat then
    match find (fun i => negb ((i =? vdim)%nat || (i =? par)%nat) && Qeq_bool (nth i reuse 0%Q) m) (seq 0 (length reuse)) with
    | Some i => i
    | None => d
    end
  else d.

(** All results, [None] if one of them is. *)
Fixpoint all_some {A} (l : list (option A)) : option (list A) :=
  match l with
  | [] => Some []
  | Some a :: l' => option_map (cons a) (all_some l')
  | None :: _ => None
  end.

(** lib/tile_size_selection_model.cpp:144-195 [infer_tile_sizes].  [None]: an
    assertion fails. *)
Definition infer_tile_sizes (reuse : list Q) (vdim par : nat) (pipeline : bool) (ufactor root : Z) : option (list Z) :=
  let d := min_reuse_dim reuse vdim par in
  if (length reuse <=? d)%nat then None
  else
    match round_tile_size (conv (nth d reuse 0%Q * inject_Z root)) ufactor with
    | None => None
    | Some min_size =>
        all_some (map (fun i =>
          if pipeline && ((i =? 0)%nat || (i =? 1)%nat) then Some 32
          else if (i =? vdim)%nat then Some 512
          else if (i =? par)%nat then Some 32
          else if (i =? d)%nat then Some min_size
          else round_tile_size (conv (nth i reuse 0%Q / min_dim_reuse reuse vdim * inject_Z min_size)) ufactor)
          (seq 0 (length reuse)))
    end.

(** lib/tile_size_selection_model.cpp:501-519
    [get_tile_sizes_for_band_with_zero_dim_reuse]. *)
Definition zero_reuse_sizes (vec : list bool) (n : nat) : list Z :=
  map (fun i => if nth i vec false then 512 else 32) (seq 0 n).

(** lib/tile_size_selection_model.cpp:559-585: the last loop that is parallel for
    all of its statements; the width of the band if there is none. *)
Definition par_loop_depth (pr : prog) (b : pband) : nat :=
  fold_left (fun v lp =>
      if forallb (loop_is_parallel_for_stmt pr lp) (l_stmts lp) then (l_depth lp - l_depth (pb_loop b))%nat else v)
    (get_loops_under pr (l_stmts (pb_loop b)) (l_depth (pb_loop b))) (pb_width b).

(** lib/tile_size_selection_model.cpp:521-547
    [pluto_band_has_wavefront_parallelism]. *)
Definition has_wavefront (pr : prog) (b : pband) : bool :=
  negb (loop_is_parallel pr (pb_loop b)) && (1 <? length (loop_depths pr b))%nat.

(** lib/tile_size_selection_model.cpp:476-497 [get_dimensional_reuse]: one entry
    for each level of the band, filled in for all loops from the band on inwards;
    [loop_reuse] is the reuse of one loop.  [None]: a loop below the band is
    written behind the end of the array. *)
Fixpoint dimensional_reuse (loop_reuse : ploop -> Q) (first : nat) (loops : list ploop) (arr : list Q) : option (list Q) :=
  match loops with
  | [] => Some arr
  | lp :: l =>
      if (l_depth lp - first <? length arr)%nat
      then dimensional_reuse loop_reuse first l (set_nth (l_depth lp - first) (loop_reuse lp) arr)
      else None
  end.

(** lib/tile_size_selection_model.cpp:409-466 [get_vectorizable_dimensions];
    [best] lists the levels (from the first level of the band) of the loops that
    [get_best_vectorizable_loop] returns for the parts of the band; it is empty
    without intra-tile optimization.  [None]: access out of bounds. *)
Fixpoint vectorizable_dims (diamond : bool) (best : list nat) (vec : list bool) : option (list bool) :=
  match best with
  | [] => Some vec
  | k :: l =>
      if (k =? 0)%nat || diamond && (k <=? 1)%nat then vectorizable_dims diamond l vec
      else if (k <? length vec)%nat then vectorizable_dims diamond l (set_nth k true vec)
      else None
  end.

(** lib/tile_size_selection_model.cpp:551-644, the static [find_tile_sizes];
    [root] is the solution of the reuse polynomial.  [None]: an array is accessed
    out of its bounds (line 588: no loop of the band is parallel, or the
    parallel loop is below the band), or an assertion fails. *)
Definition find_tile_sizes_band (pr : prog) (diamond : bool) (best : list nat) (loop_reuse : ploop -> Q) (ufactor root : Z)
    (b : pband) : option (list Z) :=
  if (pb_width b =? 1)%nat then Some [32]
  else
    match vectorizable_dims diamond best (repeat false (pb_width b)) with
    | None => None
    | Some vec =>
        let par := par_loop_depth pr b in
        if (length vec <=? par)%nat then None
        else
          let vec1 := set_nth par false vec in
          let wave := has_wavefront pr b in
          let vec2 := if wave then set_nth 1 false (set_nth 0 false vec1) else vec1 in
          if wave && (pb_width b =? 2)%nat then Some [32; 32]
          else
            match dimensional_reuse loop_reuse (l_depth (pb_loop b))
                    (get_loops_under pr (l_stmts (pb_loop b)) (l_depth (pb_loop b))) (repeat 0%Q (pb_width b)) with
            | None => None
            | Some reuse =>
                if Qeq_bool (qmax_list reuse) 0 then Some (zero_reuse_sizes vec2 (length reuse))
                else
                  let reuse1 := if diamond then set_nth 0 (nth 1 reuse 0%Q) reuse else reuse in
                  infer_tile_sizes reuse1 (vector_dim reuse1 vec2) par wave ufactor root
            end
    end.

(** lib/tile_size_selection_model.cpp:646-680 [find_tile_sizes]: 42 for levels
    that are no loops. *)
Definition is_loop_of_band (pr : prog) (b : pband) (i : nat) : bool :=
  existsb (fun s => is_hyperplane_loop (stmt_of pr s) (l_depth (pb_loop b) + i)) (l_stmts (pb_loop b)).
Definition find_tile_sizes (pr : prog) (diamond : bool) (best : list nat) (loop_reuse : ploop -> Q) (ufactor root : Z)
    (b : pband) : option (list Z) :=
  match find_tile_sizes_band pr diamond best loop_reuse ufactor root b with
  | None => None
  | Some l =>
      if (length l =? pb_width b)%nat
      then Some (map (fun i => if is_loop_of_band pr b i then nth i l 0 else 42) (seq 0 (pb_width b)))
      else None
  end.
End Infer.

(** ** Tile sizes from the file tile.sizes

    The file is a list of integers separated by white space; [newline] tells
    whether anything follows the last number.  The state of the stream is the
    list of numbers that are left and the end-of-file indicator. *)
Definition stream := (list Z * bool)%type.

(** [fscanf] with format %d: the indicator is set if the end of the file is
    reached before or directly after a number; without a number the variable
    keeps its value. *)
Definition scan (newline : bool) (st : stream) (old : Z) : Z * stream :=
  match fst st with
  | [] => (old, ([], true))
  | [x] => (x, ([], negb newline))
  | x :: l => (x, (l, false))
  end.

(** The loop lib/tile.c:44-57 from level [i] on, [n] levels are left.  Returns
    the array, the stream and the final value of i. *)
Fixpoint read_first (newline : bool) (is_loop : nat -> bool) (n i : nat) (arr : list Z) (st : stream)
    : list Z * stream * nat :=
  match n with
  | O => (arr, st, i)
  | S n' =>
      if snd st then (arr, st, i)
      else if is_loop i then
        let '(v, st') := scan newline st (nth i arr 0) in
        read_first newline is_loop n' (S i) (set_nth i v arr) st'
      else read_first newline is_loop n' (S i) (set_nth i 42 arr) st
  end.

(** lib/tile.c:65-68. *)
Fixpoint read_ratios (newline : bool) (n i : nat) (arr : list Z) (st : stream) : list Z * nat :=
  match n with
  | O => (arr, i)
  | S n' =>
      if snd st then (arr, i)
      else let '(v, st') := scan newline st (nth i arr 0) in read_ratios newline n' (S i) (set_nth i v arr) st'
  end.

(** lib/tile.c:26-80 [read_tile_sizes] for one band; the file is opened again for
    each band.  [file] is [None] if there is no file.  Options ft and lt are not
    set. *)
Definition read_tile_sizes (file : option (list Z * bool)) (is_loop : nat -> bool) (n : nat) (sizes ratios : list Z)
    : list Z * list Z :=
  match file with
  | None => (sizes, ratios)
  | Some (nums, newline) =>
      let '(sizes1, st, i) := read_first newline is_loop n 0 sizes (nums, false) in
      if (i <? n)%nat then (sizes1, ratios)
      else
        let '(ratios1, i2) := read_ratios newline n 0 ratios st in
        (sizes1, if (i2 <? n)%nat then fold_left (fun a k => set_nth k 8 a) (seq 0 n) ratios1 else ratios1)
  end.

(** The sizes used for the bands, lib/tile.c:332-357; DEFAULT_FIRST_LEVEL_TILE_SIZE
    is 32 and DEFAULT_SECOND_LEVEL_TILE_SIZE_RATIO 8.  The arrays are not reset
    between the bands.  Returns the bands with the sizes of both levels. *)
Fixpoint sizes_of_bands (pr : prog) (file : option (list Z * bool)) (bands : list pband) (sizes ratios : list Z)
    : list (pband * (list Z * list Z)) :=
  match bands with
  | [] => []
  | b :: l =>
      let '(s, r) := read_tile_sizes file (is_loop_of_band pr b) (pb_width b) sizes ratios in
      (b, (firstn (pb_width b) s, firstn (pb_width b) r)) :: sizes_of_bands pr file l s r
  end.
Definition file_tile_sizes (pr : prog) (file : option (list Z * bool)) (bands : list pband)
    : list (pband * (list Z * list Z)) :=
  sizes_of_bands pr file bands (repeat 32 (length (p_hprops pr))) (repeat 8 (length (p_hprops pr))).

(** The bands with the sizes of the first level, or with the ratios of the second
    level of tiles, lib/tile.c:353-357. *)
Definition sized_bands (second : bool) (l : list (pband * (list Z * list Z))) : list band :=
  map (fun x => with_sizes (fun _ => if second then snd (snd x) else fst (snd x)) (fst x)) l.

(** lib/tile.c:330-380 [pluto_tile_scattering_dims] with the sizes it reads. *)
Definition tile_scattering_file (pr : prog) (file : option (list Z * bool)) (second : bool) (bands : list pband) : prog :=
  tile_scattering_dims pr (sized_bands second (file_tile_sizes pr file bands)).
