(** * Model of what the tool writes for CLooG and around the generated code,
    /repo/tool/pluto_codegen_if.c. *)
From Coq Require Import Ascii String DecimalString ZArith List Bool Arith.
From Verif Require Import SpecLinear MathModel ConstraintsModel SpecProg ProgModel ExportModel LoopModel MarkModel SpecLib SolveModel.
Import ListNotations.
Open Scope string_scope.
Open Scope Z_scope.

(** "\n"; what "%d" and "%ld" print. *)
Definition nl : string := String "010" "".
Definition fmt_d (z : Z) : string := NilZero.string_of_int (Z.to_int z).
(** fprintf in a loop. *)
Fixpoint print_each {A} (f : A -> string) (l : list A) : string :=
  match l with
  | [] => ""
  | a :: l' => f a ++ print_each f l'
  end.

(** lib/constraints.c:696-702: one row. *)
Definition row_text (r : row) : string :=
  (if is_eq r then "0" else "1") ++ " " ++ print_each (fun v => fmt_d v ++ " ") (coef r) ++ nl.

(** lib/constraints.c:691-707 [pluto_constraints_print_polylib_without_num], one
    element of the list. *)
Definition poly_text (c : cst) : string :=
  fmt_d (Z.of_nat (nrows c)) ++ " " ++ fmt_d (Z.of_nat (ncols c + 1)) ++ nl ++ print_each row_text (rows c).

(** lib/constraints.c:709-718 [pluto_constraints_print_polylib]. *)
Definition polylib_text (l : clist) : string :=
  (if (2 <=? num_in_list l)%nat then fmt_d (Z.of_nat (num_in_list l)) ++ nl else "") ++ print_each poly_text l.

(** tool/pluto_codegen_if.c:93-97: the domain of statement [s]; [text]: stmt->text. *)
Definition domain_text (pr : prog) (texts : list string) (s : nat) : string :=
  "# S" ++ fmt_d (Z.of_nat (s + 1)) ++ " (" ++ nth s texts "" ++ ")" ++ nl ++
  polylib_text [s_domain (stmt_of pr s)] ++ "0 0 0" ++ nl ++ nl.

(** tool/pluto_codegen_if.c:107-113: the schedule of statement [s]. *)
Definition scattering_text (pr : prog) (s : nat) : string :=
  "# T(S" ++ fmt_d (Z.of_nat (s + 1)) ++ ")" ++ nl ++ polylib_text [stmt_get_schedule (stmt_of pr s)] ++ nl.

(** tool/pluto_codegen_if.c:62-125 [pluto_gen_cloog_file]; [ctx] is the set printed
    as context, [params] the names of the parameters, [version] PLUTO_VERSION.  The
    statements of the model always have a transformation matrix (trans != NULL). *)
Definition cloog_text (version : string) (params texts : list string) (ctx : clist) (pr : prog) : string :=
  let n := length (p_stmts pr) in
  "# CLooG script generated automatically by PLUTO " ++ version ++ nl ++
  "# language: C" ++ nl ++
  "c" ++ nl ++ nl ++
  polylib_text ctx ++
  nl ++ "1" ++ nl ++ print_each (fun w => w ++ " ") (firstn (p_npar pr) params) ++ nl ++ nl ++
  "# Number of statements" ++ nl ++ fmt_d (Z.of_nat n) ++ nl ++ nl ++
  print_each (domain_text pr texts) (seq 0 n) ++
  "# we want cloog to set the iterator names" ++ nl ++ "0" ++ nl ++ nl ++
  "# Number of scattering functions" ++ nl ++
  (if (1 <=? n)%nat then
     fmt_d (Z.of_nat n) ++ nl ++ nl ++
     print_each (scattering_text pr) (seq 0 n) ++
     "# we will set the scattering dimension names" ++ nl ++
     fmt_d (Z.of_nat (mnrows (s_trans (stmt_of pr 0)))) ++ nl ++
     print_each (fun i => "t" ++ fmt_d (Z.of_nat (i + 1)) ++ " ") (seq 0 (mnrows (s_trans (stmt_of pr 0)))) ++ nl
   else "0" ++ nl ++ nl).

(** Lines 76-80: the context is the intersection of param_context and
    codegen_context computed by isl ([rd], [inter]: see SolveModel.v). *)
Definition gen_cloog_file rd inter (version : string) (params texts : list string) (param_context codegen_context : clist) (pr : prog) : option string :=
  option_map (fun ctx => cloog_text version params texts ctx pr) (intersect_isl rd inter param_context codegen_context).

(** ** Levels for which CLooG optimizes control *)

(** First level in [from, from + n) with a property, otherwise from + n. *)
Fixpoint first_level (P : nat -> bool) (n from : nat) : nat :=
  match n with
  | O => from
  | S n' => if P from then from else first_level P n' (S from)
  end.
Definition is_h_loop (h : hyptype) : bool := match h with H_LOOP => true | _ => false end.

(** tool/pluto_codegen_if.c:32-59 [get_first_point_loop]; [orig]: stmt->type == ORIG.
    [None]: the index last_tile_dim + 1 is negative. *)
Definition get_first_point_loop (pr : prog) (orig : bool) (st : stmt) : option nat :=
  let nh := length (p_hprops pr) in
  if orig then
    if s_ltd st + 1 <? 0 then None
    else
      let from := Z.to_nat (s_ltd st + 1) in
      let i := first_level (fun k => is_h_loop (nth k (s_hyp st) H_UNKNOWN)) (mnrows (s_trans st) - from) from in
      Some (if (i <? nh)%nat then i else 0%nat)
  else
    let i := first_level (fun k => negb (is_hyperplane_scalar st k)) nh 0 in
    Some (if (i <? nh)%nat then i else 0%nat).

(** What is stored in cloogOptions: -f and -l, or -fs and -ls for each statement.
    The values that CLooG uses otherwise are not part of /repo. *)
Inductive cloog_levels :=
| global_levels (f l : Z)
| stmt_levels (fs ls : list nat).

(** tool/pluto_codegen_if.c:240-259, in [pluto_gen_cloog_code]; [optf], [optl]:
    options->cloogf and cloogl; [argf], [argl]: the arguments; [orig]: the types of
    the statements. *)
Fixpoint all_first (pr : prog) (orig : list bool) (s : nat) (l : list stmt) : option (list nat) :=
  match l with
  | [] => Some []
  | st :: l' =>
      match get_first_point_loop pr (nth s orig true) st, all_first pr orig (S s) l' with
      | Some f, Some fs => Some ((f + 1)%nat :: fs)
      | _, _ => None
      end
  end.
Definition choose_levels (optf optl argf argl : Z) (tile : bool) (orig : list bool) (pr : prog) : option cloog_levels :=
  if (1 <=? optf) && (1 <=? optl) then Some (global_levels optf optl)
  else if (1 <=? argf) && (1 <=? argl) then Some (global_levels argf argl)
  else if tile then
    option_map (fun fs => stmt_levels fs (map (fun _ => length (p_hprops pr)) (p_stmts pr))) (all_first pr orig 0 (p_stmts pr))
  else Some (global_levels 1 (Z.of_nat (length (p_hprops pr)))).

(** ** Declarations *)

(** tool/pluto_codegen_if.c:128-160 [gen_stmt_macro] without the option --bee. *)
Definition macro_args (iters : list string) : string :=
  match iters with
  | [] => ""
  | w :: l => w ++ print_each (fun v => "," ++ v) l
  end.
Definition gen_stmt_macro (id : nat) (iters : list string) (body : string) : string :=
  "#define S" ++ fmt_d (Z.of_nat (id + 1)) ++ "(" ++ macro_args iters ++ ")" ++ String "009" "" ++ body ++ nl.

(** tool/pluto_codegen_if.c:178-185: the names in the declaration of the loop
    variables; [unroll]: hProps[i].unroll is set. *)
Definition iter_decl (unroll : nat -> bool) (i : nat) : string :=
  (if (i =? 0)%nat then "" else ", ") ++ "t" ++ fmt_d (Z.of_nat (i + 1)) ++
  (if unroll i then ", t" ++ fmt_d (Z.of_nat (i + 1)) ++ "t, newlb_t" ++ fmt_d (Z.of_nat (i + 1)) ++ ", newub_t" ++ fmt_d (Z.of_nat (i + 1))
   else "").
(** tool/pluto_codegen_if.c:176-193 in [generate_declarations]: the lists of names
    declared with "int" or "register int". *)
Definition declarations (pr : prog) (unroll : nat -> bool) (parallel : bool) : list string :=
  (if (1 <=? length (p_hprops pr))%nat then [print_each (iter_decl unroll) (seq 0 (length (p_hprops pr)))] else []) ++
  (if parallel then ["lb, ub, lbp, ubp, lb2, ub2"] else []) ++
  ["lbv, ubv"].

(** ** Private variables *)

(** tool/ast_transform.c:96-106: the string for a loop of the generated code,
    options->parallel being set; [None]: it does not fit into the 512 bytes. *)
Definition mark_private (pr : prog) (lp : ploop) : option string :=
  let s := "lbv,ubv" ++ print_each (fun d => ",t" ++ fmt_d (Z.of_nat (d + 1))) (private_vars pr lp) in
  if (String.length s <? 512)%nat then Some s else None.

(** s[strlen(s) - 1] = 0 *)
Fixpoint drop_last (s : string) : string :=
  match s with
  | "" => ""
  | String c "" => ""
  | String c r => String c (drop_last r)
  end.

(** tool/pluto_codegen_if.c:444-455, in [pluto_get_parallel_loop_list]: the string
    in the OpenScop loop extension; [vloops]: there are loops to vectorize; [None]:
    it does not fit into the 128 bytes. *)
Definition osl_private (pr : prog) (vloops : bool) (lp : ploop) : option string :=
  let s := (if vloops then "lbv, ubv" else "") ++ print_each (fun d => "t" ++ fmt_d (Z.of_nat (d + 1)) ++ ",") (private_vars pr lp) in
  if (String.length s <? 128)%nat then Some (drop_last s) else None.

(** tool/pluto_codegen_if.c:414-464 [pluto_get_parallel_loop_list]: loop variable,
    statements and private variables of the loops to parallelize (the order of the
    OpenScop list is not modelled). *)
Record osl_loop := mkOslLoop { ol_iter : string; ol_stmts : list nat; ol_private : string }.
Definition osl_parallel_loop (pr : prog) (vloops : bool) (lp : ploop) : option osl_loop :=
  option_map (mkOslLoop ("t" ++ fmt_d (Z.of_nat (l_depth lp + 1))) (map (fun s => s + 1)%nat (l_stmts lp))) (osl_private pr vloops lp).

(** tool/pluto_codegen_if.c:467-503 [pluto_get_vector_loop_list]. *)
Definition osl_vector_loops (pr : prog) : list osl_loop :=
  map (fun lp => mkOslLoop ("t" ++ fmt_d (Z.of_nat (l_depth lp + 1))) (map (fun s => s + 1)%nat (l_stmts lp)) "")
      (filter (loop_is_innermost pr) (get_parallel_loops pr)).
