(** * C92: fusion structures forced by the user. *)
From Coq Require Import ZArith QArith List Bool Lia Arith.
From Verif Require Import SpecLinear SpecMatrix VecProofs MathModel ConstraintsModel FMProofs EditProofs SpecGraph GraphModel SpecProg SpecDriver SpecLoop
  FrameworkModel FrameworkProofs DepProofs LexProofs ProgModel DriverModel HypProofs KeepProofs DriverProofs PadProofs AutoProofs
  SpecForce ForceModel ForceProofs ForceProofs2 ForceProofs3 ProgProofs Checkers ExProg PropFramework PropDriver PropAuto PropFlow.
Import ListNotations.
Open Scope Z_scope.

(** Without files, or with a .fst that asks for more groups than there are
    statements, the search is the usual one. *)
Theorem C92_no_file : forall is_emptyb isl_emptyb kernel solve o fuse fuel pr,
  auto_transform_forced is_emptyb isl_emptyb kernel solve None None o fuse fuel pr =
    auto_transform is_emptyb isl_emptyb kernel solve o fuse fuel pr /\
  forall ngroups rest other, Z.of_nat (length (p_stmts (st_prog (start_state pr)))) < ngroups ->
    auto_transform_forced is_emptyb isl_emptyb kernel solve (Some (ngroups :: rest)) other o fuse fuel pr =
    auto_transform is_emptyb isl_emptyb kernel solve o fuse fuel pr.
Proof.
  intros. split.
  - reflexivity.
  - intros ngroups rest other H. unfold auto_transform_forced, auto_transform, auto_search. cbv zeta. destruct (_ =? 0)%nat; [reflexivity|].
    fold (start_state pr). unfold precut, read_fst. rewrite Z.gtb_ltb. destruct (Z.ltb_spec (Z.of_nat (length (p_stmts (st_prog (start_state pr))))) ngroups); [|lia]. reflexivity.
Qed.
Print Assumptions C92_no_file.

Section Thms.
Variables (is_emptyb isl_emptyb : cst -> bool) (kernel : matrix -> matrix) (solve : prog -> cst -> option point) (o : options) (fuse : fusion) (fuel : nat).

Lemma forced_run pr fst_file pre s2 r : (length (p_stmts pr) <> 0)%nat -> precut is_emptyb fst_file pre (start_state pr) = Some (Some s2) ->
  auto_transform_forced is_emptyb isl_emptyb kernel solve fst_file pre o fuse fuel pr = Some r ->
  exists z, (exists m, drive is_emptyb isl_emptyb kernel solve o fuse fuel 0 EAGER s2 = Some (Continue z m) /\ r = (0, denormalize_domains (st_prog z))) \/
            (drive is_emptyb isl_emptyb kernel solve o fuse fuel 0 EAGER s2 = Some (Failed z) /\ fst r = 1).
Proof.
  intros NE P H. unfold auto_transform_forced in H. destruct (Nat.eqb_spec (length (p_stmts pr)) 0); [lia|]. cbv zeta in H. fold (start_state pr) in H. rewrite P in H.
  destruct (drive _ _ _ _ _ _ _ _ _ _) as [[z m|z]|]; [|injection H as <-; exists z; right; auto|discriminate]. injection H as <-. eauto.
Qed.
End Thms.

(** The groups of a .fst file run one after the other, whatever the search
    does: the first entry of the timestamp of every iteration is the number of
    the group. *)
Theorem C92_groups_kept : forall is_emptyb isl_emptyb kernel solve o fuse fuel pr gs rest other pr',
  input_ok pr -> groups_of (length (p_stmts pr)) gs ->
  auto_transform_forced is_emptyb isl_emptyb kernel solve (Some (fst_text gs ++ rest)) other o fuse fuel pr = Some (0, pr') ->
  (forall s g i p, in_group gs s g -> length i = s_dim (stmt_of pr s) -> length p = p_npar pr ->
     hd_error (timestamp (stmt_of pr' s) i p) = Some (Z.of_nat g)) /\
  (forall s g t h i j p, in_group gs s g -> in_group gs t h -> (g < h)%nat ->
     length i = s_dim (stmt_of pr s) -> length j = s_dim (stmt_of pr t) -> length p = p_npar pr ->
     lexlt (timestamp (stmt_of pr' s) i p) (timestamp (stmt_of pr' t) j p)).
Proof.
  intros is_emptyb isl_emptyb kernel solve o fuse fuel pr gs rest other pr' IN GR H.
  assert (forall s g, in_group gs s g -> (s < length (p_stmts pr))%nat) as LT.
  { intros s g [G1 G2]. destruct GR as (_ & _ & AL). apply AL. apply in_concat. exists (fst (nth g gs ([], 0))). split; auto. apply in_map. apply nth_In. auto. }
  assert (forall s g i p, in_group gs s g -> length i = s_dim (stmt_of pr s) -> length p = p_npar pr ->
     hd_error (timestamp (stmt_of pr' s) i p) = Some (Z.of_nat g)) as K.
  { intros s g i p G Li Lp. pose proof (LT s g G) as Hs.
    destruct (forced_run is_emptyb isl_emptyb kernel solve o fuse fuel pr _ _ _ _ ltac:(lia) (precut_fst is_emptyb pr IN gs GR rest other) H) as (z & [(m & Dr & E)|[_ E]]); [|discriminate].
    injection E as ->.
    destruct (final_time is_emptyb isl_emptyb kernel solve o pr IN fuse fuel _ z m (fst_on is_emptyb pr IN gs) Dr s i p Hs Li Lp) as [l ->].
    rewrite fst_rows by auto. cbn [map app hd_error]. f_equal. rewrite (gval_group gs s g (proj1 (proj2 GR)) G).
    apply const_row_aff.
    - rewrite app_length, repeat_length. pose proof (start_orig_first pr IN (stmt_of (st_prog (start_state pr)) s)) as O.
      destruct O as [O _]; [apply stmt_of_in; rewrite (start_n pr IN); auto|]. rewrite (start_dim pr IN) in O. rewrite (input_simple pr IN s Hs) in Li. lia.
    - rewrite (start_par pr IN). auto. }
  split; [exact K|]. intros s g t h i j p G1 G2 L Li Lj Lp. pose proof (K s g i p G1 Li Lp) as E1. pose proof (K t h j p G2 Lj Lp) as E2.
  destruct (timestamp (stmt_of pr' s) i p) as [|a l]; [discriminate|]. destruct (timestamp (stmt_of pr' t) j p) as [|b k]; [discriminate|].
  injection E1 as ->. injection E2 as ->. cbn. left. lia.
Qed.
Print Assumptions C92_groups_kept.

(** If no dependence goes from a later to an earlier group, the result is legal.
    Missing: nothing checks that, see the next theorem. *)
Theorem C92_groups_legal_partial : forall is_emptyb isl_emptyb kernel solve o fuse fuel pr gs rest other pr',
  exact_empty is_emptyb -> solver_sound solve -> input_ok pr -> groups_of (length (p_stmts pr)) gs ->
  (forall d, In d (p_deps pr) -> d_rar d = false -> forall g h, in_group gs (d_src d) g -> in_group gs (d_dst d) h -> (g <= h)%nat) ->
  auto_transform_forced is_emptyb isl_emptyb kernel solve (Some (fst_text gs ++ rest)) other o fuse fuel pr = Some (0, pr') ->
  same_program pr pr' /\
  (forall d, In d (p_deps pr) -> d_rar d = false -> forall s t p, instance pr d s t p ->
     lexlt (timestamp (stmt_of pr' (d_src d)) s p) (timestamp (stmt_of pr' (d_dst d)) t p)) /\
  (forall s i j p, (s < length (p_stmts pr))%nat ->
     length i = s_dim (stmt_of pr s) -> length j = s_dim (stmt_of pr s) -> length p = p_npar pr ->
     timestamp (stmt_of pr' s) i p = timestamp (stmt_of pr' s) j p -> i = j).
Proof.
  intros is_emptyb isl_emptyb kernel solve o fuse fuel pr gs rest other pr' EX SOL IN GR DG H.
  destruct (Nat.eq_dec (length (p_stmts pr)) 0) as [Z|NE].
  - unfold auto_transform_forced in H. rewrite Z in H. cbn [Nat.eqb] in H. injection H as <-. pose proof (input_deps pr IN) as D.
    assert (p_deps pr = []) as Ed by (destruct (p_deps pr) as [|d l] eqn:Ed; auto; destruct (D d); [rewrite Ed; simpl; auto|lia]).
    split; [|split].
    + split; [cbn; auto|]. split; [auto|]. split; [intros; lia|]. cbn. rewrite Ed. constructor.
    + rewrite Ed. intros d [].
    + intros; lia.
  - destruct (forced_run is_emptyb isl_emptyb kernel solve o fuse fuel pr _ _ _ _ NE (precut_fst is_emptyb pr IN gs GR rest other) H) as (z & [(m & Dr & E)|[_ E]]); [|discriminate].
    injection E as ->.
    destruct (drive_success is_emptyb isl_emptyb kernel solve o EX (sound_keeps solve SOL) fuse fuel pr _ z m IN (fst_good is_emptyb pr IN gs GR EX DG) Dr) as (A & _ & B & C). auto.
Qed.
Print Assumptions C92_groups_legal_partial.

(** Flags that say whether to tile a group have no effect. *)
Theorem C92_flags_without_effect : forall is_emptyb isl_emptyb kernel solve o fuse fuel pr gs gs' rest rest' other,
  input_ok pr -> groups_of (length (p_stmts pr)) gs -> map fst gs = map fst gs' ->
  auto_transform_forced is_emptyb isl_emptyb kernel solve (Some (fst_text gs ++ rest)) other o fuse fuel pr =
  auto_transform_forced is_emptyb isl_emptyb kernel solve (Some (fst_text gs' ++ rest')) other o fuse fuel pr.
Proof.
  intros is_emptyb isl_emptyb kernel solve o fuse fuel pr gs gs' rest rest' other IN GR E.
  assert (groups_of (length (p_stmts pr)) gs') as GR'.
  { destruct GR as (A & B & C). unfold groups_of. rewrite <- E. split; auto. intros g Hg X. apply (in_map fst) in Hg. rewrite <- E in Hg.
    apply in_map_iff in Hg as (y & Ey & Hy). apply (A y Hy). congruence. }
  unfold auto_transform_forced. destruct (length (p_stmts pr) =? 0)%nat; [reflexivity|]. cbv zeta. fold (start_state pr).
  rewrite (precut_fst is_emptyb pr IN gs GR rest other), (precut_fst is_emptyb pr IN gs' GR' rest' other). unfold fst_state. rewrite E. reflexivity.
Qed.
Print Assumptions C92_flags_without_effect.

(** Rows of a .precut file without coefficients for parameters are the first
    levels of the result. *)
Theorem C92_rows_kept_partial : forall is_emptyb isl_emptyb kernel solve o fuse fuel pr k depth xs rest pr',
  input_ok pr -> rows_for pr k depth xs ->
  (forall s r, (s < length (p_stmts pr))%nat -> In r (rows_of xs s) -> f_pars r = repeat 0 (p_npar pr)) ->
  auto_transform_forced is_emptyb isl_emptyb kernel solve None (Some (precut_text (p_npar pr) depth xs ++ rest)) o fuse fuel pr = Some (0, pr') ->
  forall s i p, (s < length (p_stmts pr))%nat -> length i = s_dim (stmt_of pr s) -> length p = p_npar pr ->
  exists l, timestamp (stmt_of pr' s) i p = map (fun r => frow_value r i p) (rows_of xs s) ++ l.
Proof.
  intros is_emptyb isl_emptyb kernel solve o fuse fuel pr k depth xs rest pr' IN [LX HX] ZP H s i p Hs Li Lp.
  destruct (precut_rows_ok is_emptyb pr IN k depth xs LX HX ltac:(lia) rest) as (ty & Lt & E).
  destruct (forced_run is_emptyb isl_emptyb kernel solve o fuse fuel pr _ _ _ _ ltac:(lia) E H) as (z & [(m & Dr & Ez)|[_ Ez]]); [|discriminate].
  injection Ez as ->. set (h := fun k => nth k ty H_UNKNOWN) in *.
  destruct (final_time is_emptyb isl_emptyb kernel solve o pr IN fuse fuel _ z m (rows_on is_emptyb pr IN k depth xs LX HX ltac:(lia) h) Dr s i p Hs Li Lp) as [l ->].
  exists l. f_equal. rewrite (rows_rows is_emptyb pr IN k depth xs HX h s Hs). rewrite map_map. apply map_ext_in. intros r Hr.
  assert (length (rows_of xs s) = k) as Lk by (specialize (HX s Hs); unfold rows_of; destruct (nth s xs _) as [[[d r'] num] fl]; apply HX).
  pose proof Hr as Hr'. apply (In_nth _ _ dummy_frow) in Hr' as (j & Lj & Ej).
  pose proof (row_value pr IN k depth xs LX HX ltac:(lia) s j i (repeat 0 (p_nvar (st_prog (start_state pr)) - length i)) p Hs ltac:(lia)) as V. cbv beta in V.
  rewrite Ej in V. rewrite <- V; auto.
  - rewrite (nth_indep _ [] (frow_row (p_nvar (st_prog (start_state pr))) (p_npar (st_prog (start_state pr))) dummy_frow)) by (rewrite map_length; auto).
    rewrite (List.map_nth (frow_row _ _)), Ej. reflexivity.
  - apply (ZP s); auto.
  - rewrite repeat_length. destruct (start_orig_first pr IN (stmt_of (st_prog (start_state pr)) s)) as [O _]; [apply stmt_of_in; rewrite (start_n pr IN); auto|].
    rewrite (start_dim pr IN) in O. rewrite (input_simple pr IN s Hs) in Li. lia.
Qed.
Print Assumptions C92_rows_kept_partial.

(** If in addition the rows do not contradict the dependences, the result is
    legal. *)
Theorem C92_rows_legal_partial : forall is_emptyb isl_emptyb kernel solve o fuse fuel pr k depth xs rest pr',
  exact_empty is_emptyb -> solver_sound solve -> input_ok pr -> (length (p_stmts pr) <> 0)%nat -> rows_for pr k depth xs ->
  (forall s r, (s < length (p_stmts pr))%nat -> In r (rows_of xs s) -> f_pars r = repeat 0 (p_npar pr)) ->
  rows_fit pr k (rows_of xs) ->
  auto_transform_forced is_emptyb isl_emptyb kernel solve None (Some (precut_text (p_npar pr) depth xs ++ rest)) o fuse fuel pr = Some (0, pr') ->
  same_program pr pr' /\
  (forall d, In d (p_deps pr) -> d_rar d = false -> forall s t p, instance pr d s t p ->
     lexlt (timestamp (stmt_of pr' (d_src d)) s p) (timestamp (stmt_of pr' (d_dst d)) t p)) /\
  (forall s i j p, (s < length (p_stmts pr))%nat ->
     length i = s_dim (stmt_of pr s) -> length j = s_dim (stmt_of pr s) -> length p = p_npar pr ->
     timestamp (stmt_of pr' s) i p = timestamp (stmt_of pr' s) j p -> i = j).
Proof.
  intros is_emptyb isl_emptyb kernel solve o fuse fuel pr k depth xs rest pr' EX SOL IN NE [LX HX] ZP RF H.
  destruct (precut_rows_ok is_emptyb pr IN k depth xs LX HX NE rest) as (ty & Lt & E).
  destruct (forced_run is_emptyb isl_emptyb kernel solve o fuse fuel pr _ _ _ _ NE E H) as (z & [(m & Dr & Ez)|[_ Ez]]); [|discriminate].
  injection Ez as ->. set (h := fun k => nth k ty H_UNKNOWN) in *.
  destruct (drive_success is_emptyb isl_emptyb kernel solve o EX (sound_keeps solve SOL) fuse fuel pr _ z m IN (rows_good is_emptyb pr IN k depth xs LX HX NE h EX ZP RF) Dr) as (A & _ & B & C). auto.
Qed.
Print Assumptions C92_rows_legal_partial.

(** for i: S0; for i: S1, where S0 (i) feeds S1 (i). *)
Definition fc_dom : cst := mkCst 3 [ge [1;0;0]; ge [-1;1;0]].
Definition fc_stmt (c : Z) : stmt := mkStmt 1 1 [true] fc_dom (mkMat 3 [[0;0;c];[1;0;0]]) [H_SCALAR;H_LOOP] 0 0 [] [] None 0 (-1) (-1).
Definition fc_prog : prog := mkProg 1 1 [fc_stmt 0; fc_stmt 1]
  [ex_dep 0 1 false (mkCst 4 [eq [1;-1;0;0]; ge [1;0;0;0]; ge [-1;0;1;0]])] [H_SCALAR; H_LOOP].
Definition fc_solve (_ : prog) (c : cst) : option point := find (memb c) [[0;0; 1;0; 1;0]].
Lemma fc_sound : solver_sound fc_solve.
Proof. intros pr c x _ H. apply find_some in H as [_ H]. apply memb_ok. auto. Qed.
Lemma fc_input : input_ok fc_prog.
Proof.
  split; [split|].
  - intros st [<-|[<-|[]]]; repeat (split; [first [reflexivity|wf]|]); simpl; intuition (subst; first [wf|reflexivity]).
  - intros d [<-|[]]; (split; [simpl; lia|split; [simpl; lia|split; [wf|split; [reflexivity|split; [wf|reflexivity]]]]]).
  - intros st [<-|[<-|[]]]; (split; [reflexivity|split; [simpl; lia|reflexivity]]).
Qed.

(** A .fst that puts S1 before S0 is obeyed, and the search reports success
    with a schedule that runs S1 (0) before S0 (0). *)
Definition fc_wrong : list (list nat * Z) := [([1%nat], 0); ([0%nat], 0)].
Lemma fc_wrong_groups : groups_of (length (p_stmts fc_prog)) fc_wrong.
Proof. split; [intros g [<-|[<-|[]]]; discriminate|]. split; [repeat constructor; simpl; intuition lia|]. intros s; simpl; lia. Qed.

Theorem C92_groups_refuted : exists is_emptyb isl_emptyb kernel solve o fuse fuel pr gs pr',
  exact_empty is_emptyb /\ solver_sound solve /\ kernel_ok kernel /\ input_ok pr /\ groups_of (length (p_stmts pr)) gs /\
  auto_transform_forced is_emptyb isl_emptyb kernel solve (Some (fst_text gs)) None o fuse fuel pr = Some (0, pr') /\
  exists d s t p, In d (p_deps pr) /\ d_rar d = false /\ instance pr d s t p /\
    lexlt (timestamp (stmt_of pr' (d_dst d)) t p) (timestamp (stmt_of pr' (d_src d)) s p).
Proof.
  destruct C12_oracle_exists as [f F]. exists (dec_empty f), (fun _ => false), jac_kernel, fc_solve, ex_opts, SmartFuse, 10%nat, fc_prog, fc_wrong.
  eexists. split; [exact (dec_empty_exact f F)|]. split; [exact fc_sound|]. split; [apply jac_kernel_ok|]. split; [exact fc_input|]. split; [exact fc_wrong_groups|].
  split; [vm_compute; reflexivity|].
  exists (nth 0 (p_deps fc_prog) (ex_dep 0 0 false fc_dom)), [0], [0], [0]. split; [left; reflexivity|]. split; [reflexivity|]. split.
  - split; [reflexivity|]. split; [reflexivity|]. split; [reflexivity|]. apply memb_ok. reflexivity.
  - cbn. lia.
Qed.
Print Assumptions C92_groups_refuted.

(** Coefficients of parameters in a .precut are dropped: the row n + i for S0
    and S1 becomes i. *)
Definition fc_rows (pn : Z) : list (nat * list frow * Z * list Z) :=
  [(1%nat, [mkFrow [1] [pn] 0], 0, []); (1%nat, [mkFrow [1] [pn] 0], 0, [])].
Lemma fc_rows_for pn : rows_for fc_prog 1 0 (fc_rows pn).
Proof.
  split; [reflexivity|]. intros s Hs. destruct s as [|[|s]]; [| |simpl in Hs; lia]; cbn;
    (repeat (split; [reflexivity|])); intros r [<-|[]]; split; reflexivity.
Qed.

Theorem C92_rows_refuted : exists is_emptyb isl_emptyb kernel solve o fuse fuel pr k depth xs pr',
  exact_empty is_emptyb /\ solver_sound solve /\ kernel_ok kernel /\ input_ok pr /\ rows_for pr k depth xs /\
  auto_transform_forced is_emptyb isl_emptyb kernel solve None (Some (precut_text (p_npar pr) depth xs)) o fuse fuel pr = Some (0, pr') /\
  exists s i p, (s < length (p_stmts pr))%nat /\ length i = s_dim (stmt_of pr s) /\ length p = p_npar pr /\
    forall l, timestamp (stmt_of pr' s) i p <> map (fun r => frow_value r i p) (rows_of xs s) ++ l.
Proof.
  destruct C12_oracle_exists as [f F]. exists (dec_empty f), (fun _ => false), jac_kernel, fc_solve, ex_opts, SmartFuse, 10%nat, fc_prog, 1%nat, 0%nat, (fc_rows 1).
  eexists. split; [exact (dec_empty_exact f F)|]. split; [exact fc_sound|]. split; [apply jac_kernel_ok|]. split; [exact fc_input|]. split; [apply fc_rows_for|].
  split; [vm_compute; reflexivity|]. exists 0%nat, [0], [1]. split; [simpl; lia|]. split; [reflexivity|]. split; [reflexivity|]. intros l. cbn. discriminate.
Qed.
Print Assumptions C92_rows_refuted.

(** The hypotheses are met: the same program with the groups in the right order,
    and with the row i. *)
Definition fc_right : list (list nat * Z) := [([0%nat], 1); ([1%nat], 0)].
Example C92_groups_met : exists is_emptyb isl_emptyb kernel solve o fuse fuel pr',
  exact_empty is_emptyb /\ solver_sound solve /\ groups_of (length (p_stmts fc_prog)) fc_right /\
  (forall d, In d (p_deps fc_prog) -> d_rar d = false -> forall g h, in_group fc_right (d_src d) g -> in_group fc_right (d_dst d) h -> (g <= h)%nat) /\
  auto_transform_forced is_emptyb isl_emptyb kernel solve (Some (fst_text fc_right ++ [])) None o fuse fuel fc_prog = Some (0, pr').
Proof.
  destruct C12_oracle_exists as [f F]. exists (dec_empty f), (fun _ => false), jac_kernel, fc_solve, ex_opts, SmartFuse, 10%nat.
  eexists. split; [exact (dec_empty_exact f F)|]. split; [exact fc_sound|]. split.
  { split; [intros g [<-|[<-|[]]]; discriminate|]. split; [repeat constructor; simpl; intuition lia|]. intros s; simpl; lia. }
  split; [|vm_compute; reflexivity].
  intros d [<-|[]] _ g h [A1 A2] [B1 B2]. destruct g as [|g]; [lia|]. destruct g as [|g]; cbn in *; [intuition discriminate|lia].
Qed.
Example C92_rows_met : exists is_emptyb isl_emptyb kernel solve o fuse fuel pr',
  exact_empty is_emptyb /\ solver_sound solve /\ rows_for fc_prog 1 0 (fc_rows 0) /\ rows_fit fc_prog 1 (rows_of (fc_rows 0)) /\
  auto_transform_forced is_emptyb isl_emptyb kernel solve None (Some (precut_text 1 0 (fc_rows 0) ++ [])) o fuse fuel fc_prog = Some (0, pr').
Proof.
  destruct C12_oracle_exists as [f F]. exists (dec_empty f), (fun _ => false), jac_kernel, fc_solve, ex_opts, SmartFuse, 10%nat.
  eexists. split; [exact (dec_empty_exact f F)|]. split; [exact fc_sound|]. split; [apply fc_rows_for|]. split; [|vm_compute; reflexivity].
  intros d [<-|[]] _ value. left. intros k Hk s t p (L1 & L2 & L3 & M).
  assert (k = 0%nat) as -> by lia. destruct s as [|s0 [|]]; try discriminate. destruct t as [|t0 [|]]; try discriminate. destruct p as [|p0 [|]]; try discriminate.
  destruct M as [_ M]. specialize (M (eq [1;-1;0;0]) (or_introl eq_refl)).
  cbv -[Z.add Z.mul Z.le] in M. unfold value. cbv -[Z.add Z.mul Z.le]. lia.
Qed.
