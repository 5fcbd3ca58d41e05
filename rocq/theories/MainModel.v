(** * The command line: model of [main] in /repo/tool/main.cpp, up to the reading of the
    input, and of the names of its output files.

    getopt_long splits the command line; names of long options are taken in
    full (it also accepts unambiguous prefixes).  Arguments that are numbers are
    given as the integers they stand for: atoi and strtoul are not modelled, apart
    from the conversion to unsigned types. *)
From Coq Require Import ZArith List Bool String Ascii.
From Verif Require Import SpecMain.
Import ListNotations.
Open Scope Z_scope.

Definition upd (o : opts) (f : field) (v : Z) : opts := fun g => if field_beq f g then v else o g.
Definition nz (o : opts) (f : field) : bool := negb (o f =? 0).

(** lib/program.cpp:834-940 [pluto_options_alloc]. *)
Definition pluto_options_alloc : opts := fun f =>
  match f with
  | tile | intratileopt | parallel | diamondtile | unrolljam | cloogbacktrack | prevector | isldepaccesswise | islsolve | time => 1
  | ufactor | data_element_size => 8
  | ft | lt | cloogf | cloogl | codegen_context | coeff_bound => -1
  | cache_size => 1048576
  | fuse => kSmartFuse
  | _ => 0
  end.

(** tool/main.cpp:196-275: what the options of the table do.  [ToVar f v] stores [v] in
    [f]; [NoLast] stores 1 in the local variable nolastwriter; [Char c a]: handled
    as short option [c], with an argument if [a]. *)
Inductive action := ToVar (f : field) (v : Z) | NoLast | Char (c : ascii) (a : bool).
Definition options_of (b : build) : list (string * action) :=
  [("fast-lin-ind-check", ToVar flic 1); ("flic", ToVar flic 1); ("tile", ToVar tile 1); ("notile", ToVar tile 0);
   ("noparallel", ToVar parallel 0); ("intratileopt", ToVar intratileopt 1); ("nointratileopt", ToVar intratileopt 0);
   ("pet", ToVar pet 1); ("diamond-tile", ToVar diamondtile 1); ("nodiamond-tile", ToVar diamondtile 0);
   ("full-diamond-tile", ToVar fulldiamondtile 1); ("per-cc-obj", ToVar per_cc_obj 1); ("debug", ToVar debug 1);
   ("moredebug", ToVar moredebug 1); ("rar", ToVar rar 1); ("identity", ToVar identity 1); ("nofuse", ToVar fuse kNoFuse);
   ("maxfuse", ToVar fuse kMaximalFuse); ("smartfuse", ToVar fuse kSmartFuse); ("typedfuse", ToVar fuse kTypedFuse);
   ("hybridfuse", ToVar hybridcut 1); ("delayedcut", ToVar delayed_cut 1); ("parallel", ToVar parallel 1);
   ("parallelize", ToVar parallel 1); ("innerpar", ToVar innerpar 1); ("iss", ToVar iss 1); ("unrolljam", ToVar unrolljam 1);
   ("nounrolljam", ToVar unrolljam 0); ("bee", ToVar bee 1); ("ufactor", Char "u" true); ("prevector", ToVar prevector 1);
   ("noprevector", ToVar prevector 0); ("codegen-context", Char "c" true); ("coeff-bound", Char "C" true);
   ("cloogf", Char "F" true); ("cloogl", Char "L" true); ("cloogsh", ToVar cloogsh 1); ("nocloogbacktrack", ToVar cloogbacktrack 0);
   ("forceparallel", Char "p" true); ("ft", Char "f" true); ("lt", Char "l" true); ("multipar", ToVar multipar 1);
   ("second-level-tile", ToVar second_level_tile 1); ("determine-tile-size", ToVar find_tile_sizes 1);
   ("data-element-size", Char "D" true); ("cache-size", Char "S" true); ("version", Char "v" false); ("help", Char "h" false);
   ("indent", Char "i" false); ("silent", ToVar silent 1); ("lastwriter", ToVar lastwriter 1); ("nolastwriter", NoLast);
   ("nodepbound", ToVar nodepbound 1); ("scalpriv", ToVar scalpriv 1); ("isldep", ToVar isldep 1); ("candldep", ToVar candldep 1);
   ("isldepaccesswise", ToVar isldepaccesswise 1); ("isldepstmtwise", ToVar isldepaccesswise 0);
   ("isldepcoalesce", ToVar isldepcoalesce 1); ("readscop", ToVar readscop 1); ("pipsolve", ToVar pipsolve 1)]%string
  ++ (if has_glpk b then [("glpk", ToVar glpk 1)]%string else [])
  ++ (if has_gurobi b then [("gurobi", ToVar gurobi 1)]%string else [])
  ++ (if has_glpk b || has_gurobi b then
        [("lp", ToVar lp 1); ("dfp", ToVar dfp 1); ("ilp", ToVar ilp 1); ("lpcolor", ToVar lpcolour 1); ("clusterscc", ToVar scc_cluster 1)]%string
      else [])
  ++ [("islsolve", ToVar islsolve 1); ("time", ToVar time 1)]%string.

(** The variables of the loop in tool/main.cpp:278-370; [r_files]: the arguments that are no
    options, in order. *)
Record reading := mkReading { r_opts : opts; r_nolast : bool; r_out : option string; r_files : list string }.
Definition with_opt (r : reading) (f : field) (v : Z) : reading := mkReading (upd (r_opts r) f v) (r_nolast r) (r_out r) (r_files r).

(** tool/main.cpp:286-369: the cases of the switch that can be reached.
    data_element_size is unsigned int and cache_size uint64_t
    (include/pluto/pluto.h:138-141), and they are compared with 0 after the
    conversion. *)
Definition handle_char (c : ascii) (v : Z) (r : reading) : Z + reading :=
  match c with
  | "D"%char => let n := v mod 2 ^ 32 in if n <=? 0 then inl 2 else inr (with_opt r data_element_size n)
  | "F"%char => inr (with_opt r cloogf v)
  | "L"%char => inr (with_opt r cloogl v)
  | "S"%char => let n := v mod 2 ^ 64 in if n <=? 0 then inl 2 else inr (with_opt r cache_size n)
  | "b"%char => inr (with_opt r bee 1)
  | "c"%char => inr (with_opt r codegen_context v)
  | "C"%char => if v <=? 0 then inl 2 else inr (with_opt r coeff_bound v)
  | "f"%char => inr (with_opt r ft v)
  | "h"%char => inl 2
  | "i"%char => inr r
  | "l"%char => inr (with_opt r lt v)
  | "p"%char => inr (with_opt r forceparallel v)
  | "q"%char => inr (with_opt r silent 1)
  | "u"%char => inr (with_opt r ufactor v)
  | "v"%char => inl 3
  | _ => inl 4
  end.
(** tool/main.cpp:279: the short options, -o apart. *)
Definition short_options : list ascii := ["b"; "h"; "i"; "q"; "v"; "f"; "l"; "F"; "L"; "c"]%char.
Definition step (b : build) (a : arg) (r : reading) : Z + reading :=
  match a with
  | Long name v =>
      match find (fun p => String.eqb (fst p) name) (options_of b) with
      | Some (_, ToVar f x) => inr (with_opt r f x)
      | Some (_, NoLast) => inr (mkReading (r_opts r) true (r_out r) (r_files r))
      | Some (_, Char c _) => handle_char c v r
      | None => inl 4
      end
  | Short c v => if existsb (Ascii.eqb c) short_options then handle_char c v r else inl 4
  | Output n => inr (mkReading (r_opts r) (r_nolast r) (Some n) (r_files r))
  | File n => inr (mkReading (r_opts r) (r_nolast r) (r_out r) (r_files r ++ [n]))
  end.
Fixpoint read_args (b : build) (args : list arg) (r : reading) : Z + reading :=
  match args with
  | [] => inr r
  | a :: l => match step b a r with inl e => inl e | inr r' => read_args b l r' end
  end.
Definition start : reading := mkReading pluto_options_alloc false None [].

(** tool/main.cpp:383-440: options are made consistent. *)
Definition turn (c : bool) (f : field) (v : Z) (o : opts) : opts := if c then upd o f v else o.
Definition basic_checks (nolast : bool) (o0 : opts) : Z + opts :=
  if nz o0 isldep && nz o0 candldep then inl 1 else
  let o1 := turn (negb (nz o0 isldep) && negb (nz o0 candldep)) isldep 1 o0 in
  if nz o1 lastwriter && nz o1 candldep then inl 1 else
  if nz o1 second_level_tile && nz o1 find_tile_sizes then inl 1 else
  let o2 := turn (nz o1 lastwriter && nolast) lastwriter 0 o1 in
  let o3 := turn ((o2 diamondtile =? 1) && (o2 tile =? 0)) diamondtile 0 o2 in
  let full := (o3 fulldiamondtile =? 1) && (o3 tile =? 0) in
  let o4 := turn full fulldiamondtile 0 (turn full diamondtile 0 o3) in
  let o5 := turn ((o4 multipar =? 1) && (o4 parallel =? 0)) parallel 1 o4 in
  inr (turn (nz o5 hybridcut && negb (o5 fuse =? kTypedFuse)) fuse kTypedFuse o5).
(** tool/main.cpp:442-484: only if built with an LP solver. *)
Definition lp_options (o0 : opts) : opts :=
  let o1 := turn (nz o0 lp && negb (nz o0 glpk || nz o0 gurobi)) glpk 1 o0 in
  let o2 := turn (((o1 fuse =? kTypedFuse) || nz o1 delayed_cut) && negb (nz o1 dfp)) dfp 1 o1 in
  let o3 := turn (nz o2 dfp && negb (nz o2 ilp)) lp 1 o2 in
  let o4 := turn (nz o3 dfp && negb (nz o3 glpk || nz o3 gurobi)) glpk 1 o3 in
  let mip := nz o4 glpk || nz o4 gurobi in
  turn mip pipsolve 0 (turn mip islsolve 0 o4).
(** tool/main.cpp:486-539. *)
Definition late_checks (o0 : opts) : Z + opts :=
  let o1 := turn (nz o0 pipsolve) islsolve 0 o0 in
  if nz o1 dfp && negb (nz o1 glpk || nz o1 gurobi) then inl 1 else
  if (o1 fuse =? kTypedFuse) && negb (nz o1 dfp) then inl 1 else
  if nz o1 delayed_cut && negb (nz o1 dfp) then inl 1 else
  let o2 := turn (nz o1 dfp && negb (nz o1 lastwriter)) lastwriter 1 o1 in
  let o3 := turn ((o2 fuse =? kTypedFuse) && nz o2 dfp && negb (nz o2 scc_cluster)) scc_cluster 1 o2 in
  if nz o3 dfp && nz o3 per_cc_obj then inl 1 else inr o3.
(** tool/main.cpp:383-539. *)
Definition make_consistent (b : build) (nolast : bool) (o : opts) : Z + opts :=
  match basic_checks nolast o with
  | inl e => inl e
  | inr o1 => late_checks (if has_glpk b || has_gurobi b then lp_options o1 else o1)
  end.

(** tool/main.cpp:182-540; the source is the first argument that is no option. *)
Definition main_options (b : build) (args : list arg) : outcome :=
  match args with
  | [] => Exit 1
  | _ =>
      match read_args b args start with
      | inl e => Exit e
      | inr r =>
          match r_files r with
          | [] => Exit 5
          | src :: _ =>
              match make_consistent b (r_nolast r) (r_opts r) with
              | inl e => Exit e
              | inr o => Run o src (r_out r)
              end
          end
      end
  end.

(** lib/pluto.c:341-397: the solver called by [pluto_prog_constraints_lexmin]; [None]:
    none is called, and there is no solution. *)
Definition solver_called (b : build) (o : opts) : option solver :=
  if nz o islsolve then Some Isl
  else if nz o glpk || nz o lp || nz o dfp || nz o gurobi then
    if nz o glpk then (if has_glpk b then Some Glpk else None)
    else if nz o gurobi then (if has_gurobi b then Some Gurobi else None)
    else None
  else Some Pip.

(** ** Names of output files *)
Open Scope string_scope.
Open Scope nat_scope.
(** basename of libgen.h, for paths that do not end in a slash. *)
Fixpoint basename (s : string) : string :=
  match s with
  | EmptyString => EmptyString
  | String c r => if existsb (Ascii.eqb "/") (list_ascii_of_string r) then basename r
                  else if Ascii.eqb c "/" then r else s
  end.
(** strcmp(s + strlen(s) - 2, ".c"), if the string is that long. *)
Definition ends_in_c (s : string) : bool :=
  (2 <=? String.length s) && String.eqb (substring (String.length s - 2) 2 s) ".c".
Definition without_c (s : string) : string := if ends_in_c s then substring 0 (String.length s - 2) s else s.
(** tool/main.cpp:719-743: the name of the output, and the size of the buffer it is
    built in. *)
Definition out_name (src : string) (out : option string) : string * nat :=
  match out with
  | None => let bname := basename src in (without_c bname ++ ".pluto.c", String.length bname + String.length ".pluto.c" + 1)
  | Some n => (n, String.length n + 1)
  end.
(** tool/main.cpp:745-756: the name of the CLooG file, the size of its buffer, and the
    longest string in the buffer on the way. *)
Definition cloog_name (src : string) (out : option string) : string * nat * nat :=
  let bname := basename (match out with None => src | Some n => n end) in
  let name := without_c bname ++ ".pluto.cloog" in
  (name, if ends_in_c bname then String.length bname - 2 + String.length ".pluto.cloog" + 1 else String.length bname + String.length ".pluto.cloog" + 1,
   Nat.max (String.length bname) (String.length name)).
