(** * Specification vocabulary: how CLooG reads its input file (C81) and how lists of
    names in clauses are read (C82).

    CLooG is not part of the repository; this file says what its input means.
    Nothing in it models code of Pluto. *)
From Coq Require Import Ascii String DecimalString ZArith List Bool Arith.
From Verif Require Import SpecLinear.
Import ListNotations.
Open Scope string_scope.
Open Scope Z_scope.

(** ** Characters, lines and words *)

(** The pieces of a text between the characters that satisfy [p]. *)
Fixpoint split_at (p : ascii -> bool) (s : string) : list string :=
  match s with
  | "" => [""]
  | String c r =>
      if p c then "" :: split_at p r
      else match split_at p r with [] => [String c ""] | w :: ws => String c w :: ws end
  end.

Definition newline : ascii := "010"%char.
Definition is_newline (c : ascii) : bool := Ascii.eqb c newline.
Definition is_blank (c : ascii) : bool := Ascii.eqb c " " || Ascii.eqb c "009".
Definition lines (s : string) : list string := split_at is_newline s.
Definition words (s : string) : list string := filter (fun w => negb (String.eqb w "")) (split_at is_blank s).

(** The words of the lines that are read: blank lines and lines that start with
    '#' are skipped. *)
Definition is_read (ws : list string) : bool :=
  match ws with
  | [] => false
  | w :: _ => negb (String.prefix "#" w)
  end.
Definition content (s : string) : list (list string) := filter is_read (map words (lines s)).

(** ** Numbers *)
Definition number (w : string) : option Z := option_map Z.of_int (NilZero.int_of_string w).
Fixpoint numbers (ws : list string) : option (list Z) :=
  match ws with
  | [] => Some []
  | w :: ws' => match number w, numbers ws' with Some z, Some l => Some (z :: l) | _, _ => None end
  end.
(** The decimal digits of a number. *)
Definition decimal (z : Z) : string := NilZero.string_of_int (Z.to_int z).

(** ** Sets: the number of rows and columns, then one row per line; the first number
    of a row is 0 for an equality and 1 for an inequality.  A union starts with a
    line with the number of its members. *)
Definition text := list (list string).
Fixpoint read_matrix (n nc : nat) (t : text) : option (list row * text) :=
  match n, t with
  | O, _ => Some ([], t)
  | S n', l :: t' =>
      match numbers l with
      | Some (e :: v) =>
          if (length v =? nc)%nat && ((e =? 0) || (e =? 1)) then
            match read_matrix n' nc t' with
            | Some (rs, u) => Some (mkRow (e =? 0) v :: rs, u)
            | None => None
            end
          else None
      | _ => None
      end
  | S _, [] => None
  end.
Definition read_poly (t : text) : option (cst * text) :=
  match t with
  | l :: t' =>
      match numbers l with
      | Some [a; b] =>
          if (0 <=? a) && (1 <=? b) then
            match read_matrix (Z.to_nat a) (Z.to_nat (b - 1)) t' with
            | Some (rs, u) => Some (mkCst (Z.to_nat (b - 1)) rs, u)
            | None => None
            end
          else None
      | _ => None
      end
  | [] => None
  end.
(** [n] things that [rd] reads, one after the other. *)
Fixpoint read_many {A} (rd : text -> option (A * text)) (n : nat) (t : text) : option (list A * text) :=
  match n with
  | O => Some ([], t)
  | S n' =>
      match rd t with
      | Some (c, u) => match read_many rd n' u with Some (cs, v) => Some (c :: cs, v) | None => None end
      | None => None
      end
  end.
Definition read_union (t : text) : option (list cst * text) :=
  match t with
  | l :: t' =>
      match numbers l with
      | Some [n] => read_many read_poly (Z.to_nat n) t'
      | _ => read_many read_poly 1 t
      end
  | [] => None
  end.

(** ** The file *)
Record cloog_input := mkInput {
  in_context : list cst;              (* conditions on the parameters *)
  in_params : option (list string);   (* names of the parameters; None: chosen by CLooG *)
  in_domains : list (list cst);       (* one union for each statement *)
  in_iters : option (list string);    (* names of the iterators *)
  in_scattering : list (list cst);    (* one union for each statement, or none at all *)
  in_names : option (list string) }.  (* names of the scattering dimensions *)

(** A flag, and if it is not 0, [n] names on one line. *)
Definition read_names (n : nat) (t : text) : option (option (list string) * text) :=
  match t with
  | l :: t' =>
      match numbers l with
      | Some [f] =>
          if f =? 0 then Some (None, t')
          else match n, t' with
               | O, _ => Some (Some [], t')
               | _, ws :: u => if (length ws =? n)%nat then Some (Some ws, u) else None
               | _, [] => None
               end
      | _ => None
      end
  | [] => None
  end.
(** A domain is followed by a line "0 0 0". *)
Definition read_domain (t : text) : option (list cst * text) :=
  match read_union t with
  | Some (d, l :: u) => match numbers l with Some [0; 0; 0] => Some (d, u) | _ => None end
  | _ => None
  end.
Definition read_count (t : text) : option (nat * text) :=
  match t with
  | l :: t' => match numbers l with Some [n] => if 0 <=? n then Some (Z.to_nat n, t') else None | _ => None end
  | [] => None
  end.
Definition width (l : list cst) : nat := match l with c :: _ => ncols c | [] => 0%nat end.
Definition first_width (l : list (list cst)) : nat := match l with u :: _ => width u | [] => 0%nat end.

(** The number of parameters is that of the context; the number of scattering
    dimensions is what the scattering has in addition to the domain. *)
Definition read_cloog (file : string) : option cloog_input :=
  match content file with
  | [lang] :: t1 =>
      if negb (String.eqb lang "c") then None else
      match read_union t1 with
      | Some (ctx, t2) =>
      match read_names (width ctx - 1) t2 with
      | Some (params, t3) =>
      match read_count t3 with
      | Some (n, t4) =>
      match read_many read_domain n t4 with
      | Some (doms, t5) =>
      match read_names 0 t5 with
      | Some (iters, t6) =>
      match read_count t6 with
      | Some (m, t7) =>
          if (m =? 0)%nat then match t7 with [] => Some (mkInput ctx params doms iters [] None) | _ => None end else
          match read_many read_union m t7 with
          | Some (scat, t8) =>
              match read_names (first_width scat - first_width doms) t8 with
              | Some (names, []) => Some (mkInput ctx params doms iters scat names)
              | _ => None
              end
          | None => None
          end
      | None => None end
      | None => None end
      | None => None end
      | None => None end
      | None => None end
      | None => None end
  | _ => None
  end.

(** ** Names *)

(** A word of the file that is not the start of a comment. *)
Fixpoint all_chars (p : ascii -> bool) (s : string) : bool :=
  match s with "" => true | String c r => p c && all_chars p r end.
Definition plain_word (w : string) : Prop :=
  w <> "" /\ all_chars (fun c => negb (is_newline c || is_blank c)) w = true /\ String.prefix "#" w = false.
Definition one_line (s : string) : Prop := all_chars (fun c => negb (is_newline c)) s = true.
(** The variable of loop level [k] (counted from 0) in the generated code. *)
Definition loop_name (k : nat) : string := "t" ++ decimal (Z.of_nat (k + 1)).

(** A list of names separated by commas and blanks, as in a clause of a pragma or a
    declaration. *)
Definition is_sep (c : ascii) : bool := Ascii.eqb c "," || is_blank c.
Definition clause_names (s : string) : list string := filter (fun w => negb (String.eqb w "")) (split_at is_sep s).
