(** * The command line: what users say and what must come out. *)
From Coq Require Import ZArith List Bool String Ascii.
Import ListNotations.
Open Scope Z_scope.

(** The members of struct plutoOptions (include/pluto/pluto.h:49-245) that the tool sets;
    strings are left out. *)
Inductive field :=
| flic | tile | intratileopt | pet | diamondtile | fulldiamondtile | per_cc_obj | debug | moredebug | rar | identity | fuse
| hybridcut | delayed_cut | parallel | innerpar | iss | unrolljam | bee | ufactor | prevector | codegen_context | coeff_bound
| cloogf | cloogl | cloogsh | cloogbacktrack | forceparallel | ft | lt | multipar | second_level_tile | find_tile_sizes
| data_element_size | cache_size | silent | lastwriter | nodepbound | scalpriv | isldep | candldep | isldepaccesswise
| isldepcoalesce | readscop | pipsolve | islsolve | glpk | gurobi | lp | dfp | ilp | lpcolour | scc_cluster | time.
Scheme Equality for field.

Definition opts := field -> Z.
Definition on (o : opts) (f : field) : Prop := o f <> 0.
Definition off (o : opts) (f : field) : Prop := o f = 0.

(** include/pluto/pluto.h:30-43 [fusionType]. *)
Definition kNoFuse := 0. Definition kMaximalFuse := 1. Definition kSmartFuse := 2. Definition kTypedFuse := 3.

(** How the tool was built: with GLPK, with Gurobi. *)
Record build := mkBuild { has_glpk : bool; has_gurobi : bool }.

(** An argument as getopt_long gives it: a long option or a short one, with the
    integer its argument stands for (ignored by options without argument), the
    option -o, or a file name. *)
Inductive arg := Long (name : string) (v : Z) | Short (c : ascii) (v : Z) | Output (name : string) | File (name : string).

(** The tool ends with an exit code, or goes on with options, a source file and a
    name for the output. *)
Inductive outcome := Exit (code : Z) | Run (o : opts) (src : string) (out : option string).

(** What goes together. *)
Record consistent (b : build) (o : opts) : Prop := {
  one_analysis : (on o isldep /\ off o candldep) \/ (off o isldep /\ on o candldep);
  one_tile_level : on o find_tile_sizes -> off o second_level_tile;
  diamonds_are_tiles : on o diamondtile \/ on o fulldiamondtile -> on o tile;
  many_parallel : on o multipar -> on o parallel;
  hybrid_is_typed : on o hybridcut -> o fuse = kTypedFuse;
  typed_is_dfp : o fuse = kTypedFuse \/ on o delayed_cut -> on o dfp;
  typed_is_clustered : o fuse = kTypedFuse -> on o scc_cluster;
  dfp_analysis : on o dfp -> on o lastwriter;
  dfp_objective : on o dfp -> off o per_cc_obj;
  dfp_relaxed : on o dfp -> on o lp \/ on o ilp;
  lp_needs_solver : on o lp \/ on o dfp -> on o glpk \/ on o gurobi;
  mip_alone : on o glpk \/ on o gurobi -> off o islsolve /\ off o pipsolve;
  pip_alone : on o pipsolve -> off o islsolve;
  solvers_built : has_glpk b = false -> has_gurobi b = false -> off o glpk /\ off o gurobi /\ off o lp /\ off o dfp;
  sizes : 0 < o data_element_size < 2 ^ 32 /\ 0 < o cache_size < 2 ^ 64 /\ (0 < o coeff_bound \/ o coeff_bound = -1)
}.

(** Options that exclude each other, among those given. *)
Definition conflicting (b : build) (o : opts) : Prop :=
  (on o isldep /\ on o candldep) \/ (on o lastwriter /\ on o candldep) \/ (on o second_level_tile /\ on o find_tile_sizes) \/
  let dfp_asked := o fuse = kTypedFuse \/ on o hybridcut \/ on o delayed_cut \/ on o dfp in
  if (has_glpk b || has_gurobi b)%bool then dfp_asked /\ on o per_cc_obj else dfp_asked.

(** The solver of the constraints on transformations. *)
Inductive solver := Isl | Pip | Glpk | Gurobi.
Definition available (b : build) (s : solver) : bool := match s with Glpk => has_glpk b | Gurobi => has_gurobi b | _ => true end.

(** What the options mean, after the help text (tool/main.cpp:42-168) and, for names that
    it leaves out, their wording: [(name, (f, v))] asks for the value [v] of [f]. *)
Definition switches : list (string * (field * Z)) :=
  [("pet", (pet, 1)); ("isldep", (isldep, 1)); ("candldep", (candldep, 1)); ("isldepaccesswise", (isldepaccesswise, 1));
   ("isldepstmtwise", (isldepaccesswise, 0)); ("isldepcoalesce", (isldepcoalesce, 1)); ("lastwriter", (lastwriter, 1));
   ("islsolve", (islsolve, 1)); ("pipsolve", (pipsolve, 1)); ("glpk", (glpk, 1)); ("gurobi", (gurobi, 1)); ("lp", (lp, 1));
   ("dfp", (dfp, 1)); ("ilp", (ilp, 1)); ("lpcolor", (lpcolour, 1)); ("clusterscc", (scc_cluster, 1));
   ("tile", (tile, 1)); ("notile", (tile, 0)); ("intratileopt", (intratileopt, 1)); ("nointratileopt", (intratileopt, 0));
   ("second-level-tile", (second_level_tile, 1)); ("determine-tile-size", (find_tile_sizes, 1));
   ("parallel", (parallel, 1)); ("parallelize", (parallel, 1)); ("noparallel", (parallel, 0));
   ("diamond-tile", (diamondtile, 1)); ("nodiamond-tile", (diamondtile, 0)); ("full-diamond-tile", (fulldiamondtile, 1));
   ("per-cc-obj", (per_cc_obj, 1)); ("prevector", (prevector, 1)); ("noprevector", (prevector, 0)); ("multipar", (multipar, 1));
   ("innerpar", (innerpar, 1)); ("nofuse", (fuse, kNoFuse)); ("maxfuse", (fuse, kMaximalFuse)); ("smartfuse", (fuse, kSmartFuse));
   ("typedfuse", (fuse, kTypedFuse)); ("hybridfuse", (hybridcut, 1)); ("delayedcut", (delayed_cut, 1)); ("iss", (iss, 1));
   ("nocloogbacktrack", (cloogbacktrack, 0)); ("cloogsh", (cloogsh, 1)); ("rar", (rar, 1)); ("unrolljam", (unrolljam, 1));
   ("nounrolljam", (unrolljam, 0)); ("readscop", (readscop, 1)); ("bee", (bee, 1)); ("silent", (silent, 1)); ("debug", (debug, 1));
   ("moredebug", (moredebug, 1)); ("identity", (identity, 1)); ("flic", (flic, 1)); ("fast-lin-ind-check", (flic, 1));
   ("nodepbound", (nodepbound, 1)); ("scalpriv", (scalpriv, 1)); ("time", (time, 1))]%string.
(** Options with a number. *)
Definition numbers : list (string * field) :=
  [("ufactor", ufactor); ("codegen-context", codegen_context); ("coeff-bound", coeff_bound); ("cloogf", cloogf); ("cloogl", cloogl);
   ("forceparallel", forceparallel); ("ft", ft); ("lt", lt); ("data-element-size", data_element_size); ("cache-size", cache_size)]%string.
Definition short_switches : list (ascii * field) := [("b"%char, bee); ("q"%char, silent)].
Definition short_numbers : list (ascii * field) :=
  [("f"%char, ft); ("l"%char, lt); ("F"%char, cloogf); ("L"%char, cloogl); ("c"%char, codegen_context)].
(** The argument asks for the value [v] of [f]; sizes in range. *)
Definition asks (a : arg) (f : field) (v : Z) : Prop :=
  match a with
  | Long n x => In (n, (f, v)) switches \/ (In (n, f) numbers /\ v = x /\ (f = data_element_size -> 0 <= x < 2 ^ 32) /\ (f = cache_size -> 0 <= x < 2 ^ 64))
  | Short c x => (In (c, f) short_switches /\ v = 1) \/ (In (c, f) short_numbers /\ v = x)
  | _ => False
  end.
(** The argument is about [f]. *)
Definition mentions (a : arg) (f : field) : Prop :=
  match a with
  | Long n _ => (exists v, In (n, (f, v)) switches) \/ In (n, f) numbers
  | Short c _ => In (c, f) short_switches \/ In (c, f) short_numbers
  | _ => False
  end.
(** The defaults named in the help text. *)
Definition defaults : list (field * Z) :=
  [(pet, 0); (lastwriter, 0); (rar, 0); (islsolve, 1); (dfp, 0); (lpcolour, 0); (scc_cluster, 0); (tile, 0); (intratileopt, 1); (second_level_tile, 0);
   (cache_size, 2 ^ 20); (data_element_size, 8); (parallel, 0); (diamondtile, 1); (prevector, 1); (multipar, 0); (innerpar, 0);
   (fuse, kSmartFuse); (cloogbacktrack, 1); (cloogsh, 0); (unrolljam, 1); (ufactor, 8); (silent, 0)].
