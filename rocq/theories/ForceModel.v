(** Fusion structures forced by the user: the files .fst and .precut in the
    working directory, which pluto_auto_transform reads before the search.  A
    file is the list of the numbers in it (fscanf skips white space); a file
    that ends too early leaves variables without a value, which is the outcome
    [None], as are failed assertions and accesses outside of arrays. *)
From Coq Require Import ZArith List Bool.
From Verif Require Import SpecLinear SpecMatrix MathModel ConstraintsModel SpecProg SpecDriver SpecGraph GraphModel FrameworkModel ProgModel DriverModel.
Import ListNotations.
Open Scope Z_scope.

(** fscanf "%d" with count [n]. *)
Fixpoint read_numbers (n : nat) (l : list Z) : option (list Z * list Z) :=
  match n, l with
  | O, _ => Some ([], l)
  | S n', v :: l' => match read_numbers n' l' with Some (vs, r) => Some (v :: vs, r) | None => None end
  | S _, [] => None
  end.

(** lib/pluto.c:904-908: the numbers of the statements of one group.  The assert
    bounds them from above only; the use of a negative one as an index
    (lib/pluto.c:914) is outside of the array of statements. *)
Fixpoint read_ids (nstmts n : nat) (l : list Z) : option (list nat * list Z) :=
  match n, l with
  | O, _ => Some ([], l)
  | S n', v :: l' =>
      if (v <=? Z.of_nat nstmts - 1) && (0 <=? v) then
        match read_ids nstmts n' l' with Some (vs, r) => Some (Z.to_nat v :: vs, r) | None => None end
      else None
  | S _, [] => None
  end.

(** lib/pluto.c:903-917: [n] groups, each a count, the statements and a flag.
    The flag is stored in stmt->tile (lines 912-915), which nothing reads. *)
Fixpoint read_groups (nstmts n : nat) (l : list Z) : option (list (list nat)) :=
  match n with
  | O => Some []
  | S n' =>
      match l with
      | [] => None
      | c :: l1 =>
          if c <=? Z.of_nat nstmts then
            match read_ids nstmts (Z.to_nat c) l1 with
            | Some (ids, _ :: l2) => match read_groups nstmts n' l2 with Some gs => Some (ids :: gs) | None => None end
            | _ => None
            end
          else None
      end
  end.

(** lib/pluto.c:891-919: [Some None]: more groups than statements, nothing is
    forced. *)
Definition read_fst (nstmts : nat) (l : list Z) : option (option (list (list nat))) :=
  match l with
  | [] => None
  | ncomps :: l1 =>
      if ncomps >? Z.of_nat nstmts then Some None
      else match read_groups nstmts (Z.to_nat ncomps) l1 with Some gs => Some (Some gs) | None => None end
  end.

(** lib/pluto.c:928-934: the last row of the transformation of a statement in
    group [i]. *)
Definition force_row (nvar npar : nat) (i : Z) (r : list Z) : list Z :=
  repeat 0 (nvar + npar) ++ i :: skipn (S (nvar + npar)) r.
Definition force_stmt (nvar npar : nat) (i : Z) (st : stmt) : stmt :=
  set_trans st (mkMat (mncols (s_trans st))
    (map_nth (mnrows (s_trans st) - 1) (force_row nvar npar i) (mrows (s_trans st)))).

(** lib/pluto.c:926-936: all groups in order. *)
Definition force_groups (nvar npar : nat) (gs : list (list nat)) (stmts : list stmt) : list stmt :=
  fold_left (fun ss ig => fold_left (fun ss id => map_nth id (force_stmt nvar npar (Z.of_nat (fst ig))) ss) (snd ig) ss)
    (combine (seq 0 (length gs)) gs) stmts.

(** lib/pluto.c:921-938: one more level for every statement. *)
Definition force_level (gs : list (list nat)) (pr : prog) : prog :=
  let stmts := map (fun st => stmt_add_hyperplane st H_SCALAR (mnrows (s_trans st))) (p_stmts pr) in
  prog_add_hyperplane (set_stmts pr (force_groups (p_nvar pr) (p_npar pr) gs stmts)) (length (p_hprops pr)) H_SCALAR.

(** lib/pluto.c:864-872 [get_loop_type]. *)
Definition get_loop_type (st : stmt) (level : nat) : hyptype :=
  if existsb (fun v => 0 <? v) (firstn (mncols (s_trans st) - 1) (nth level (mrows (s_trans st)) [])) then H_LOOP else H_SCALAR.

(** lib/pluto.c:971-978: coefficients of the original loops are read, the
    others are 0. *)
Fixpoint read_coefs (n : nat) (orig : list bool) (l : list Z) : option (list Z * list Z) :=
  match n with
  | O => Some ([], l)
  | S n' =>
      if hd false orig then
        match l with
        | [] => None
        | v :: l' => match read_coefs n' (tl orig) l' with Some (vs, r) => Some (v :: vs, r) | None => None end
        end
      else match read_coefs n' (tl orig) l with Some (vs, r) => Some (0 :: vs, r) | None => None end
  end.

(** lib/pluto.c:959-995: [n] rows of one statement, in polylib format; the
    coefficients of the parameters are read and ignored. *)
Fixpoint read_rows (nvar npar n : nat) (cols : Z) (st : stmt) (l : list Z) : option (stmt * list Z) :=
  match n with
  | O => Some (st, l)
  | S n' =>
      if cols =? Z.of_nat (1 + s_dim_orig st + npar + 1) then
        match l with
        | 0 :: l1 =>
            match read_coefs nvar (s_orig st) l1 with
            | Some (vs, l2) =>
                match read_numbers npar l2 with
                | Some (_, c :: l3) =>
                    let k := mnrows (s_trans st) in
                    let st1 := append_row st H_UNKNOWN (vs ++ repeat 0 npar ++ [c]) in
                    let st2 := set_hyp st1 (map_nth k (fun _ => get_loop_type st1 k) (s_hyp st1)) in
                    read_rows nvar npar n' cols st2 l3
                | _ => None
                end
            | None => None
            end
        | _ => None
        end
      else None
  end.

(** lib/pluto.c:954-1004: all statements; the second component is [rows] as the
    last statement left it.  The flags go to stmt->tile, which nothing reads;
    with a tiling depth of 0 the flag stored there has no value. *)
Fixpoint read_stmts (nvar npar : nat) (depth : Z) (stmts : list stmt) (rows : nat) (l : list Z) : option (list stmt * nat) :=
  match stmts with
  | [] => Some ([], rows)
  | st :: stmts' =>
      match l with
      | n :: cols :: l1 =>
          match read_rows nvar npar (Z.to_nat n) cols st l1 with
          | Some (st', _ :: l2) =>
              match read_numbers (Z.to_nat depth) l2 with
              | Some (_, l3) =>
                  match read_stmts nvar npar depth stmts' (Z.to_nat n) l3 with
                  | Some (ss, r) => Some (st' :: ss, r)
                  | None => None
                  end
              | None => None
              end
          | _ => None
          end
      | _ => None
      end
  end.

(** lib/pluto.c:1007-1020: the new levels become levels of the program, [first]
    is the number of the first of them in the first statement; every statement
    overwrites the type of the level. *)
Section Force.
Variable is_emptyb : cst -> bool.

Fixpoint force_levels (first k : nat) (n : nat) (s : dstate) : option dstate :=
  match n with
  | O => Some s
  | S n' =>
      let level := (first + k)%nat in
      let pr := st_prog s in
      if forallb (fun st => (level <? mnrows (s_trans st))%nat) (p_stmts pr) then
        let ht := fold_left (fun _ st => get_loop_type st level) (p_stmts pr) H_UNKNOWN in
        let pr1 := prog_add_hyperplane pr (length (p_hprops pr)) ht in
        force_levels first (S k) n'
          (ddg_update (mkState (fst (dep_satisfaction_update is_emptyb pr1 (length (p_hprops pr1) - 1))) (st_adj s) (st_num s) (st_max s)))
      else None
  end.

(** lib/pluto.c:874-1026 [precut] at depth 0, with the contents of the two files
    if they exist; [Some None]: it returns false and changes nothing. *)
Definition precut (fst_file precut_file : option (list Z)) (s : dstate) : option (option dstate) :=
  let pr := st_prog s in
  match fst_file with
  | Some l =>
      match read_fst (length (p_stmts pr)) l with
      | None => None
      | Some None => Some None
      | Some (Some gs) =>
          let pr1 := force_level gs pr in
          Some (Some (ddg_update (mkState (fst (dep_satisfaction_update is_emptyb pr1 (length (p_hprops pr1) - 1)))
                                    (st_adj s) (st_num s) (st_max s))))
      end
  | None =>
      match precut_file with
      | None => Some None
      | Some (n :: depth :: l) =>
          if n =? Z.of_nat (length (p_stmts pr)) then
            match read_stmts (p_nvar pr) (p_npar pr) depth (p_stmts pr) 0 l with
            | Some (ss, rows) =>
                let pr1 := set_stmts pr ss in
                if (rows <=? nrows0 pr1)%nat
                then match force_levels (nrows0 pr1 - rows) 0 rows (mkState pr1 (st_adj s) (st_num s) (st_max s)) with
                     | Some s' => Some (Some s')
                     | None => None
                     end
                else None
            | None => None
            end
          else None
      | Some _ => None
      end
  end.

Variable isl_emptyb : cst -> bool.
Variable kernel : matrix -> matrix.
Variable solve : prog -> cst -> option point.

(** lib/pluto.c:1492-1850 [pluto_auto_transform] with the files; without them it
    is [DriverModel.auto_transform]. *)
Definition auto_transform_forced (fst_file precut_file : option (list Z)) (o : options) (fuse : fusion) (fuel : nat) (pr : prog)
  : option (Z * prog) :=
  if (length (p_stmts pr) =? 0)%nat then Some (0, mkProg (p_nvar pr) (p_npar pr) []
                                         (map (fun d => set_sat d false (d_level d)) (p_deps pr)) (p_hprops pr))
  else
    let pr0 := clear_schedules pr in
    let s0 := compute_scc (mkState pr0 (graph_of pr0) 0 []) in
    let pr1 := set_hprops (normalize_domains (st_prog s0)) [] in
    let s1 := mkState pr1 (st_adj s0) (st_num s0) (st_max s0) in
    match precut fst_file precut_file s1 with
    | None => None
    | Some r =>
        let s2 := match r with
                  | Some s => s
                  | None => match fuse with SmartFuse => fst (cut_scc_dim_based is_emptyb s1) | _ => s1 end
                  end in
        match drive is_emptyb isl_emptyb kernel solve o fuse fuel 0 EAGER s2 with
        | None => None
        | Some (Continue s _) => Some (0, denormalize_domains (st_prog s))
        | Some (Failed s) => Some (1, restore_schedules pr (denormalize_domains (st_prog s)))
        end
    end.
End Force.
