(** * Theorems: dependences computed with isl (C73). *)
From Coq Require Import ZArith List Bool Lia Arith Permutation ClassicalDescription.
From Verif Require Import SpecLinear MathModel ConstraintsModel SpecProg SpecFlow SpecExec SpecOsl OslModel SpecDeps DepsModel ExecProofs ExecProofs2 PropExec
  DepsProofs DepsProofs2 DepsProofs3 DepsProofs4.
Import ListNotations.
Open Scope Z_scope.

(** C73.  Whatever the options (lastwriter, rar, isldepcoalesce, isldepaccesswise)
    and however isl represents its results: two instances of the program that access
    a common cell, one of them writing it, are connected by a chain of the
    dependences extracted, in the order of the input program. *)
Theorem C73_covers : forall flow co rd lastwriter rar coalesce accesswise with_rar reads writes sched pr ra wa p orig xs,
  isl_correct flow reads writes sched -> coalesce_ok co -> remove_divs_ok rd ->
  accesses_of pr ra s_reads reads p -> accesses_of pr wa s_writes writes p ->
  all_instances pr p orig -> scheduled sched (any_access reads writes) p orig -> length p = p_npar pr ->
  all_deps rd accesswise with_rar (p_stmts pr) (compute_deps_isl flow co lastwriter rar coalesce reads writes sched) = Some xs ->
  p_deps pr = map to_dep xs ->
  forall x y, before orig x y -> conflict pr ra wa p x y -> depends pr p x y.
Proof.
  intros flow co rd lw rar cl accw wr reads writes sched pr ra wa p orig xs FL CO RD AR AW ALL ORD LP X DP.
  exact (deps_cover_all flow co lw rar cl reads writes sched CO FL pr ra wa p orig rd accw wr xs RD X DP LP AR AW ORD ALL).
Qed.
Print Assumptions C73_covers.

(** Without lastwriter one dependence is enough; with it, it is enough for
    instances between which the cell is not written. *)
Theorem C73_direct : forall flow co rd lastwriter rar coalesce accesswise with_rar reads writes sched pr ra wa p orig xs,
  isl_correct flow reads writes sched -> coalesce_ok co -> remove_divs_ok rd ->
  accesses_of pr ra s_reads reads p -> accesses_of pr wa s_writes writes p ->
  all_instances pr p orig -> scheduled sched (any_access reads writes) p orig -> length p = p_npar pr ->
  all_deps rd accesswise with_rar (p_stmts pr) (compute_deps_isl flow co lastwriter rar coalesce reads writes sched) = Some xs ->
  p_deps pr = map to_dep xs ->
  let rdl (z : inst) := cells (ra (fst z)) (s_reads (stmt_of pr (fst z))) (snd z) p in
  let wrl (z : inst) := cells (wa (fst z)) (s_writes (stmt_of pr (fst z))) (snd z) p in
  forall x y l, before orig x y ->
    (In l (wrl x) /\ (In l (rdl y) \/ In l (wrl y))) \/ (In l (rdl x) /\ In l (wrl y)) ->
    (lastwriter = true -> forall z, before orig x z -> before orig z y -> ~ In l (wrl z)) ->
    exists d, In d (p_deps pr) /\ d_rar d = false /\ d_src d = fst x /\ d_dst d = fst y /\ instance pr d (snd x) (snd y) p.
Proof.
  intros flow co rd lw rar cl accw wr reads writes sched pr ra wa p orig xs FL CO RD AR AW ALL ORD LP X DP rdl wrl x y l B K U.
  exact (direct_single flow co lw rar cl reads writes sched CO FL pr ra wa p orig rd accw wr xs RD X DP LP AR AW ORD ALL x y l B K U).
Qed.
Print Assumptions C73_direct.

(** Each dependence relates only instances with a conflict, in the order of the
    input program (input dependences: instances that read a common cell); under
    lastwriter, no write of the cell lies in between.  Partial: the existentially
    quantified variables of isl's result must be removable without loss. *)
Theorem C73_only_conflicts_partial : forall flow co rd lastwriter rar coalesce accesswise with_rar reads writes sched pr ra wa p orig xs,
  isl_correct flow reads writes sched -> coalesce_ok co -> remove_divs_ok rd ->
  accesses_of pr ra s_reads reads p -> accesses_of pr wa s_writes writes p ->
  all_instances pr p orig -> scheduled sched (any_access reads writes) p orig -> length p = p_npar pr ->
  let ds := compute_deps_isl flow co lastwriter rar coalesce reads writes sched in
  all_deps rd accesswise with_rar (p_stmts pr) ds = Some xs ->
  (forall u, In u [i_raw ds; i_war ds; i_waw ds; i_rar ds] -> typed pr u /\ divs_exact rd u) ->
  let rdl (z : inst) := cells (ra (fst z)) (s_reads (stmt_of pr (fst z))) (snd z) p in
  let wrl (z : inst) := cells (wa (fst z)) (s_writes (stmt_of pr (fst z))) (snd z) p in
  forall dx s t, In dx xs -> instance pr (to_dep dx) s t p ->
    let x := (x_src dx, s) in let y := (x_dst dx, t) in
    before orig x y /\ exists l,
      (x_type dx = D_RAR -> In l (rdl x) /\ In l (rdl y)) /\
      (x_type dx = D_RAW -> In l (wrl x) /\ In l (rdl y)) /\
      (x_type dx <> D_RAR -> conflict pr ra wa p x y /\
        (lastwriter = true -> forall z, before orig x z -> before orig z y -> ~ In l (wrl z))).
Proof.
  intros flow co rd lw rar cl accw wr reads writes sched pr ra wa p orig xs FL CO RD AR AW ALL ORD LP ds X TY rdl wrl dx s t I IN x y.
  destruct (all_deps_inv flow co lw rar cl reads writes sched rd accw wr (p_stmts pr) xs dx X I) as (ty & u & b & K & Ib & E).
  assert (Iu : In u [i_raw ds; i_war ds; i_waw ds; i_rar ds]) by (unfold kind_of in K; fold ds in K; cbn; intuition subst; auto).
  destruct (TY u Iu) as [T DE].
  pose proof (instance_rel pr rd accw ty u b dx s t p RD Ib E T DE IN LP) as R.
  destruct (extract_dep_inv rd accw (p_stmts pr) RD _ _ _ E) as (E1 & E2 & _ & _ & _ & TT & _).
  assert (XE : x = (n_stmt (b_src b), s)) by (unfold x; now rewrite E1).
  assert (YE : y = (n_stmt (b_dst b), t)) by (unfold y; now rewrite E2).
  assert (RC : forall a i l, reads a i p l -> In l (rdl (n_stmt a, i))) by (intros a i l H; now apply AR in H).
  assert (WC : forall a i l, writes a i p l -> In l (wrl (n_stmt a, i))) by (intros a i l H; now apply AW in H).
  assert (G : forall l, any_access reads writes (b_src b) s p l -> any_access reads writes (b_dst b) t p l ->
            sooner sched (b_src b) s (b_dst b) t p ->
            before orig x y /\ (free_of lw sched writes (b_src b) s (b_dst b) t p l ->
              lw = true -> forall z, before orig x z -> before orig z y -> ~ In l (wrl z))).
  { intros l A1 A2 S. split; [rewrite XE, YE; apply (ORD _ _ _ _ _ _ A1 A2); exact S|].
    intros U LW [zs zi] B1 B2 IZ. destruct (before_in _ _ _ B1) as [_ Iz]. apply ALL in Iz.
    destruct (proj2 AW zs zi l Iz IZ) as (c & Ec & Wc). subst zs.
    assert (Ac : any_access reads writes c zi p l) by now right.
    apply (U LW c zi Wc).
    - apply (ORD _ _ _ _ _ _ A1 Ac). now rewrite <- XE.
    - apply (ORD _ _ _ _ _ _ Ac A2). now rewrite <- YE. }
  assert (CF : forall l, (In l (wrl x) /\ (In l (rdl y) \/ In l (wrl y))) \/ (In l (rdl x) /\ In l (wrl y)) -> conflict pr ra wa p x y) by (intros l H; exists l; exact H).
  unfold kind_of in K. destruct K as [[-> ->]|[[-> ->]|[[-> ->]|[-> ->]]]].
  - destruct (raw_sound flow co lw rar cl reads writes sched CO FL _ _ _ _ _ R) as (l & W & RR & S & U).
    destruct (G l (or_intror W) (or_introl RR) S) as [B UU]. split; auto. exists l.
    apply WC in W. apply RC in RR. rewrite <- XE in W. rewrite <- YE in RR.
    split; [intros Q; destruct TT as [TT|[TT _]]; congruence|]. split; [auto|]. intros _. split; [apply (CF l); tauto|auto].
  - destruct (war_sound flow co lw rar cl reads writes sched CO FL _ _ _ _ _ R) as (l & W & RR & S & U).
    destruct (G l W (or_intror RR) S) as [B UU]. split; auto. exists l.
    assert (Wx : In l (rdl x) \/ In l (wrl x)) by (rewrite XE; destruct W; [left|right]; auto).
    apply WC in RR. rewrite <- YE in RR.
    split; [intros Q; destruct TT as [TT|[TT _]]; congruence|].
    split; [|intros _; split; [apply (CF l); tauto|auto]].
    intros Q. exfalso. revert E Q. clear. unfold extract_dep.
    destruct (_ && _); [|discriminate]. destruct (_ =? _)%nat; [|discriminate]. destruct accw.
    + destruct (n_acc (b_src (rd b))) as [xa|]; [|discriminate]. destruct (n_acc (b_dst (rd b))) as [ya|]; [|discriminate].
      unfold dep_accesses. destruct (fst xa && fst ya);
        repeat match goal with |- context [match access_index ?a ?b ?c with _ => _ end] => destruct (access_index a b c); try discriminate end;
        intros E; injection E as <-; discriminate.
    + intros E; injection E as <-. discriminate.
  - destruct (waw_sound flow co lw rar cl reads writes sched CO FL _ _ _ _ _ R) as (l & W & RR & S & U).
    destruct (G l (or_intror W) (or_intror RR) S) as [B UU]. split; auto. exists l.
    apply WC in W. apply WC in RR. rewrite <- XE in W. rewrite <- YE in RR.
    split; [intros Q; destruct TT as [TT|[TT _]]; congruence|].
    split; [|intros _; split; [apply (CF l); tauto|auto]].
    intros Q. exfalso. revert E Q. clear. unfold extract_dep.
    destruct (_ && _); [|discriminate]. destruct (_ =? _)%nat; [|discriminate]. destruct accw.
    + destruct (n_acc (b_src (rd b))) as [xa|]; [|discriminate]. destruct (n_acc (b_dst (rd b))) as [ya|]; [|discriminate].
      unfold dep_accesses.
        repeat match goal with |- context [match access_index ?a ?b ?c with _ => _ end] => destruct (access_index a b c); try discriminate end;
        intros E; injection E as <-; discriminate.
    + intros E; injection E as <-. discriminate.
  - destruct (rar_sound flow co lw rar cl reads writes sched FL _ _ _ _ _ R) as (l & W & RR & S).
    destruct (G l (or_introl W) (or_introl RR) S) as [B UU]. split; auto. exists l.
    apply RC in W. apply RC in RR. rewrite <- XE in W. rewrite <- YE in RR.
    split; [auto|]. split; intros Q; destruct TT as [TT|[_ TT]]; congruence.
Qed.
Print Assumptions C73_only_conflicts_partial.

(** Access-wise: the recorded type and accesses are right (dependences between
    writes that isl returns among those from reads to writes are reclassified). *)
Theorem C73_accesses_partial : forall flow co rd lastwriter rar coalesce with_rar reads writes sched pr ra wa p xs,
  isl_correct flow reads writes sched -> coalesce_ok co -> remove_divs_ok rd ->
  names_access pr ra s_reads false reads p -> names_access pr wa s_writes true writes p -> length p = p_npar pr ->
  let ds := compute_deps_isl flow co lastwriter rar coalesce reads writes sched in
  all_deps rd true with_rar (p_stmts pr) ds = Some xs ->
  (forall u, In u [i_raw ds; i_war ds; i_waw ds; i_rar ds] -> typed pr u /\ divs_exact rd u) ->
  let acl (w : bool) (z : inst) := if w then cells (wa (fst z)) (s_writes (stmt_of pr (fst z))) (snd z) p
                                   else cells (ra (fst z)) (s_reads (stmt_of pr (fst z))) (snd z) p in
  forall dx s t, In dx xs -> instance pr (to_dep dx) s t p ->
    exists ws ks wd kd l, x_sacc dx = Some (ws, ks) /\ x_dacc dx = Some (wd, kd) /\
      nth_error (acl ws (x_src dx, s)) ks = Some l /\ nth_error (acl wd (x_dst dx, t)) kd = Some l /\
      x_type dx = match ws, wd with true, false => D_RAW | false, true => D_WAR | true, true => D_WAW | false, false => D_RAR end.
Proof.
  intros flow co rd lw rar cl wr reads writes sched pr ra wa p xs FL CO RD AR AW LP ds X TY acl dx s t I IN.
  destruct (all_deps_inv flow co lw rar cl reads writes sched rd true wr (p_stmts pr) xs dx X I) as (ty & u & b & K & Ib & E).
  assert (Iu : In u [i_raw ds; i_war ds; i_waw ds; i_rar ds]) by (unfold kind_of in K; fold ds in K; cbn; intuition subst; auto).
  destruct (TY u Iu) as [T DE].
  pose proof (instance_rel pr rd true ty u b dx s t p RD Ib E T DE IN LP) as R.
  destruct (extract_dep_inv rd true (p_stmts pr) RD _ _ _ E) as (E1 & E2 & _ & _ & _ & _ & _).
  assert (EX : exists sa da, n_acc (b_src b) = Some sa /\ n_acc (b_dst b) = Some da /\
    dep_accesses (nth (n_stmt (b_src b)) (p_stmts pr) dummy_stmt) (nth (n_stmt (b_dst b)) (p_stmts pr) dummy_stmt) ty sa da =
      match x_sacc dx, x_dacc dx with Some x, Some y => Some (x_type dx, x, y) | _, _ => None end /\ x_sacc dx <> None /\ x_dacc dx <> None).
  { revert E. unfold extract_dep. destruct (RD b) as (-> & -> & _). destruct (_ && _); [|discriminate]. destruct (_ =? _)%nat; [|discriminate].
    destruct (n_acc (b_src b)) as [xa|]; [|discriminate]. destruct (n_acc (b_dst b)) as [ya|]; [|discriminate].
    destruct (dep_accesses _ _ ty xa ya) as [[[t' a1] a2]|] eqn:DA; [|discriminate]. intros E. injection E as <-. cbn.
    exists xa, ya. split; auto. split; auto. split; [exact DA|]. split; discriminate. }
  destruct EX as (sa & da & NS & ND & DA & N1 & N2).
  destruct (x_sacc dx) as [xa|] eqn:XA; [|congruence]. destruct (x_dacc dx) as [ya|] eqn:YA; [|congruence]. clear N1 N2.
  assert (RC : forall a i l, reads a i p l -> exists k, n_acc a = Some (false, k) /\ nth_error (acl false (n_stmt a, i)) k = Some l) by (intros a i l H; now apply AR in H).
  assert (WC : forall a i l, writes a i p l -> exists k, n_acc a = Some (true, k) /\ nth_error (acl true (n_stmt a, i)) k = Some l) by (intros a i l H; now apply AW in H).
  rewrite E1, E2. unfold access_index, dep_accesses in DA.
  unfold kind_of in K. destruct K as [[-> ->]|[[-> ->]|[[-> ->]|[-> ->]]]].
  - destruct (raw_sound flow co lw rar cl reads writes sched CO FL _ _ _ _ _ R) as (l & W & RR & _).
    destruct (WC _ _ _ W) as (k1 & Q1 & C1). destruct (RC _ _ _ RR) as (k2 & Q2 & C2). rewrite NS in Q1. rewrite ND in Q2. injection Q1 as ->. injection Q2 as ->.
    unfold access_index in DA. cbn [fst snd andb] in DA. repeat (destruct (_ <? _)%nat in DA; [|discriminate]).
    injection DA as <- <- <-. exists true, k1, false, k2, l. auto.
  - destruct (war_sound flow co lw rar cl reads writes sched CO FL _ _ _ _ _ R) as (l & W & RR & _).
    destruct (WC _ _ _ RR) as (k2 & Q2 & C2). destruct W as [W|W].
    + destruct (RC _ _ _ W) as (k1 & Q1 & C1). rewrite NS in Q1. rewrite ND in Q2. injection Q1 as ->. injection Q2 as ->.
      unfold access_index in DA. cbn [fst snd andb] in DA. repeat (destruct (_ <? _)%nat in DA; [|discriminate]).
      injection DA as <- <- <-. exists false, k1, true, k2, l. auto.
    + destruct (WC _ _ _ W) as (k1 & Q1 & C1). rewrite NS in Q1. rewrite ND in Q2. injection Q1 as ->. injection Q2 as ->.
      unfold access_index in DA. cbn [fst snd andb] in DA. repeat (destruct (_ <? _)%nat in DA; [|discriminate]).
      injection DA as <- <- <-. exists true, k1, true, k2, l. auto.
  - destruct (waw_sound flow co lw rar cl reads writes sched CO FL _ _ _ _ _ R) as (l & W & RR & _).
    destruct (WC _ _ _ W) as (k1 & Q1 & C1). destruct (WC _ _ _ RR) as (k2 & Q2 & C2). rewrite NS in Q1. rewrite ND in Q2. injection Q1 as ->. injection Q2 as ->.
    unfold access_index in DA. cbn [fst snd andb] in DA. repeat (destruct (_ <? _)%nat in DA; [|discriminate]).
    injection DA as <- <- <-. exists true, k1, true, k2, l. auto.
  - destruct (rar_sound flow co lw rar cl reads writes sched FL _ _ _ _ _ R) as (l & W & RR & _).
    destruct (RC _ _ _ W) as (k1 & Q1 & C1). destruct (RC _ _ _ RR) as (k2 & Q2 & C2). rewrite NS in Q1. rewrite ND in Q2. injection Q1 as ->. injection Q2 as ->.
    unfold access_index in DA. cbn [fst snd andb] in DA. repeat (destruct (_ <? _)%nat in DA; [|discriminate]).
    injection DA as <- <- <-. exists false, k1, false, k2, l. auto.
Qed.
Print Assumptions C73_accesses_partial.

(** The array of dependences has exactly as many elements as are extracted. *)
Theorem C73_count : forall rd accesswise with_rar stmts ds xs,
  all_deps rd accesswise with_rar stmts ds = Some xs -> length xs = all_deps_count with_rar ds.
Proof.
  intros rd accw wr stmts ds xs. unfold all_deps, all_deps_count. rewrite !map_count_concat.
  destruct (extract_deps rd accw stmts D_RAW (i_raw ds)) as [x1|] eqn:X1; [|discriminate].
  destruct (extract_deps rd accw stmts D_WAR (i_war ds)) as [x2|] eqn:X2; [|discriminate].
  destruct (extract_deps rd accw stmts D_WAW (i_waw ds)) as [x3|] eqn:X3; [|discriminate].
  destruct (if wr then extract_deps rd accw stmts D_RAR (i_rar ds) else Some []) as [x4|] eqn:X4; [|discriminate].
  intros E. injection E as <-. rewrite !app_length.
  assert (L : forall ty u y, extract_deps rd accw stmts ty u = Some y -> length y = length (concat u)).
  { intros ty u y Q. apply (all_rows_in _ _ _ Q). }
  rewrite (L _ _ _ X1), (L _ _ _ X2), (L _ _ _ X3). destruct wr; [rewrite (L _ _ _ X4)|injection X4 as <-; cbn]; lia.
Qed.
Print Assumptions C73_count.

(** The access relations and schedules built for isl from OpenScop describe the
    program that is read from it: same instances, cells, names and order. *)
Theorem C73_osl_accesses : forall npar ns os pr p accesswise,
  (forall o, In o os -> exists dim A, stmt_form npar o dim A /\ length A = ns) ->
  all_rows (osl_to_stmt ns) os = Some (p_stmts pr) -> length p = npar ->
  exists reads writes, osl_entries accesswise true os = Some reads /\ osl_entries accesswise false os = Some writes /\
    accesses_of pr (arrays os is_read) s_reads (entries_amap reads) p /\
    accesses_of pr (arrays os is_write) s_writes (entries_amap writes) p /\
    (accesswise = true -> names_access pr (arrays os is_read) s_reads false (entries_amap reads) p /\
                          names_access pr (arrays os is_write) s_writes true (entries_amap writes) p) /\
    forall orig, all_instances pr p orig -> follows_times pr p orig ->
      (forall x y, runs pr p x -> runs pr p y -> time_of pr p x = time_of pr p y -> x = y) ->
      scheduled (osl_smap os) (any_access (entries_amap reads) (entries_amap writes)) p orig.
Proof.
  intros npar ns os pr p accw F S LP.
  destruct (osl_entries_exist npar ns os F accw true) as (reads & R). destruct (osl_entries_exist npar ns os F accw false) as (writes & W).
  exists reads, writes. split; auto. split; auto.
  pose proof (osl_accesses npar ns os pr F S accw true reads p R LP) as AR.
  pose proof (osl_accesses npar ns os pr F S accw false writes p W LP) as AW.
  split; [exact AR|]. split; [exact AW|]. split.
  - intros ->. split; [exact (osl_names npar ns os pr F S true reads p R LP)|exact (osl_names npar ns os pr F S false writes p W LP)].
  - intros orig ALL FT DT. apply (osl_scheduled npar ns os pr F S); auto.
    intros a i l [H|H]; [apply AR in H|apply AW in H]; apply H.
Qed.
Print Assumptions C73_osl_accesses.

(** Together: a program read from OpenScop with the dependences computed by isl;
    a correct transformation of it computes the same memory. *)
Theorem C73_same_result : forall flow co rd lastwriter rar coalesce accesswise with_rar npar ns os reads writes pr r xs,
  (forall o, In o os -> exists dim A, stmt_form npar o dim A /\ length A = ns) ->
  all_rows (osl_to_stmt ns) os = Some (p_stmts pr) -> p_npar pr = npar ->
  osl_entries accesswise true os = Some reads -> osl_entries accesswise false os = Some writes ->
  isl_correct flow (entries_amap reads) (entries_amap writes) (osl_smap os) -> coalesce_ok co -> remove_divs_ok rd ->
  all_deps rd accesswise with_rar (p_stmts pr)
    (compute_deps_isl flow co lastwriter rar coalesce (entries_amap reads) (entries_amap writes) (osl_smap os)) = Some xs ->
  p_deps pr = map to_dep xs ->
  correct_transformation pr r ->
  exists E, carries pr r E /\
  forall (V : Type) p (body body' : nat -> point -> list V -> list V) orig new m,
    length p = npar ->
    (forall s i, runs pr p (s, i) -> body' s (E s i p) = body s i) ->
    all_instances pr p orig -> follows_times pr p orig ->
    (forall x y, runs pr p x -> runs pr p y -> time_of pr p x = time_of pr p y -> x = y) ->
    all_instances r p new -> follows_times r p new ->
    forall c, run (step_of r (arrays os is_read) (arrays os is_write) body' p) new m c =
              run (step_of pr (arrays os is_read) (arrays os is_write) body p) orig m c.
Proof.
  intros flow co rd lw rar cl accw wr npar ns os reads writes pr r xs F S NP R W FL CO RD X DP CT.
  destruct (C74_same_result pr r CT) as (E & C & H). exists E. split; [exact C|].
  intros V p body body' orig new m LP B A FT DT A' FT'.
  destruct (C73_osl_accesses npar ns os pr p accw F S LP) as (reads' & writes' & R' & W' & AR & AW & _ & SC).
  rewrite R in R'. injection R' as <-. rewrite W in W'. injection W' as <-.
  apply (H V p (arrays os is_read) (arrays os is_write) body body' orig new m); auto.
  - congruence.
  - intros x y B1 K.
    refine (C73_covers flow co rd lw rar cl accw wr _ _ _ pr (arrays os is_read) (arrays os is_write) p orig xs FL CO RD AR AW A (SC orig A FT DT) _ X DP x y B1 K).
    congruence.
Qed.
Print Assumptions C73_same_result.

(** for i = 0..2: x = f(x), read from OpenScop; last writers only, statement-wise. *)
Definition met_access : osl_rel := mkRel 1 1 0 0 [[0; -1; 0; 7]].
Definition met_osl : list osl_stmt :=
  [mkOslStmt [mkRel 1 0 0 0 [[1; 1; 0]; [1; -1; 2]]] (mkRel 1 1 0 0 [[0; -1; 1; 0]]) [(T_WRITE, 7%nat, met_access); (T_READ, 7%nat, met_access)]].
Definition met_name := mkName 0 None.
Definition met_map (rs : list row) : umap := [[mkBmap met_name met_name 1 1 0 0 rs]].
Definition met_cons : umap := met_map [mkRow false [1; 0; 0]; mkRow true [-1; 1; -1]; mkRow false [0; -1; 2]].
Definition met_pairs : umap := met_map [mkRow false [1; 0; 0]; mkRow false [-1; 1; -1]; mkRow false [0; -1; 2]].
Definition inhabited_map (a : amap) : Prop := exists n i p l, a n i p l.
Definition holds_dec (P : Prop) : bool := if excluded_middle_informative P then true else false.
Definition met_flow (sink must may : amap) (_ : smap) : umap * umap :=
  if holds_dec (inhabited_map sink) then
    if holds_dec (inhabited_map must) then (met_cons, if holds_dec (inhabited_map may) then met_cons else [])
    else ([], if holds_dec (inhabited_map may) then met_pairs else [])
  else ([], []).
Definition met_rd (b : bmap) : bmap :=
  if (b_ndiv b =? 0)%nat then b else mkBmap (b_src b) (b_dst b) (b_nin b) (b_nout b) 0 (b_npar b) [].
Definition met_dep ty : xdep := mkXdep 0 0 ty (mkCst 3 [mkRow true [-1; 1; -1]; mkRow false [1; 0; 0]; mkRow false [0; -1; 2]]) None None.
Definition met_xs : list xdep := map met_dep [D_RAW; D_WAR; D_WAW; D_RAR].
Definition met_prog : prog :=
  mkProg 1 0 (match all_rows (osl_to_stmt 1) met_osl with Some l => l | None => [] end) (map to_dep met_xs) [H_LOOP].

Lemma met_rd_ok : remove_divs_ok met_rd.
Proof.
  intros b. unfold met_rd. destruct (Nat.eqb_spec (b_ndiv b) 0) as [Z0|Z0]; cbn.
  - do 7 (split; [auto|]). auto.
  - do 6 (split; [reflexivity|]). split; [intros; lia|]. intros s t p (L1 & L2 & L3 & _). repeat split; auto.
    exists []. split; auto. intros r [].
Qed.

Lemma met_rel rs a s b t p : umap_rel (met_map rs) a s b t p <->
  a = met_name /\ b = met_name /\ exists x y, s = [x] /\ t = [y] /\ p = [] /\ forall r, In r rs -> holds [x; y] r.
Proof.
  unfold met_map, umap_rel. split.
  - intros (m & c & [<-|[]] & [<-|[]] & <- & <- & L1 & L2 & L3 & e & Le & H). cbn in L1, L2, L3, Le, H.
    destruct s as [|x [|? ?]]; try discriminate. destruct t as [|y [|? ?]]; try discriminate. destruct p; [|discriminate]. destruct e; [|discriminate].
    repeat split; auto. exists x, y. auto.
  - intros (-> & -> & x & y & -> & -> & -> & H). eexists. eexists. split; [now left|]. split; [now left|]. cbn. repeat split; auto.
    exists []. split; auto.
Qed.
Lemma met_cons_rel a s b t p : umap_rel met_cons a s b t p <->
  a = met_name /\ b = met_name /\ exists x, s = [x] /\ t = [x + 1] /\ p = [] /\ 0 <= x <= 1.
Proof.
  unfold met_cons. rewrite met_rel. split.
  - intros (-> & -> & x & y & -> & -> & -> & H). repeat split; auto. exists x.
    pose proof (H _ (or_introl eq_refl)) as H1. pose proof (H _ (or_intror (or_introl eq_refl))) as H2. pose proof (H _ (or_intror (or_intror (or_introl eq_refl)))) as H3.
    unfold holds, aff in *; cbn [is_eq coef app dot] in *. repeat split; auto; try lia. f_equal. lia.
  - intros (-> & -> & x & -> & -> & -> & H). repeat split; auto. exists x, (x + 1). repeat split; auto.
    intros r [<-|[<-|[<-|[]]]]; unfold holds, aff; cbn [is_eq coef app dot]; lia.
Qed.
Lemma met_pairs_rel a s b t p : umap_rel met_pairs a s b t p <->
  a = met_name /\ b = met_name /\ exists x y, s = [x] /\ t = [y] /\ p = [] /\ 0 <= x < y /\ y <= 2.
Proof.
  unfold met_pairs. rewrite met_rel. split.
  - intros (-> & -> & x & y & -> & -> & -> & H). repeat split; auto. exists x, y.
    pose proof (H _ (or_introl eq_refl)) as H1. pose proof (H _ (or_intror (or_introl eq_refl))) as H2. pose proof (H _ (or_intror (or_intror (or_introl eq_refl)))) as H3.
    unfold holds, aff in *; cbn [is_eq coef app dot] in *. repeat split; auto; try lia.
  - intros (-> & -> & x & y & -> & -> & -> & H). repeat split; auto. exists x, y. repeat split; auto.
    intros r [<-|[<-|[<-|[]]]]; unfold holds, aff; cbn [is_eq coef app dot]; lia.
Qed.

(** The accesses to x. *)
Definition touches_x (acc : amap) : Prop := forall a i p l, acc a i p l <-> a = met_name /\ p = [] /\ l = (7%nat, [0]) /\ exists x, i = [x] /\ 0 <= x <= 2.
Definition loop_order (sched : smap) : Prop := forall x u, sched met_name [x] [] u <-> u = [x].

Lemma touches_inhabited acc : touches_x acc -> holds_dec (inhabited_map acc) = true.
Proof.
  intros T. unfold holds_dec. destruct (excluded_middle_informative _) as [|N]; auto. exfalso. apply N.
  exists met_name, [0], [], (7%nat, [0]). apply T. repeat split; auto. exists 0. split; [auto|lia].
Qed.
Lemma no_access_inhabited : holds_dec (inhabited_map no_access) = false.
Proof. unfold holds_dec. destruct (excluded_middle_informative _) as [(? & ? & ? & ? & [])|]; auto. Qed.

Lemma met_sooner sched x y : loop_order sched -> sooner sched met_name [x] met_name [y] [] <-> x < y.
Proof.
  intros S. split.
  - intros (u & v & H1 & H2 & H). apply S in H1. apply S in H2. subst. cbn in H. destruct H as [H|[_ []]]. exact H.
  - intros H. exists [x], [y]. repeat split; [now apply S|now apply S|]. cbn. auto.
Qed.

Lemma met_flow_ok reads writes sched : touches_x reads -> touches_x writes -> loop_order sched -> isl_correct met_flow reads writes sched.
Proof.
  intros TR TW LO sink must may I1 I2 I3.
  assert (C : forall X, In X [reads; writes; no_access] -> touches_x X \/ X = no_access) by (intros X [<-|[<-|[<-|[]]]]; auto).
  apply C in I1. apply C in I2. apply C in I3. clear C.
  assert (EQ : forall x, same_date sched met_name [x] met_name [x] []) by (intros x; exists [x]; split; now apply LO).
  unfold met_flow. destruct I1 as [T1| ->].
  2:{ rewrite no_access_inhabited. split; cbn.
      - intros a s b t p (? & ? & [] & _).
      - intros a s b t p (? & ? & [] & _).
      - intros a s b t p l _ []. }
  rewrite (touches_inhabited _ T1). destruct I2 as [T2| ->].
  - rewrite (touches_inhabited _ T2).
    assert (D : forall a s b t p, umap_rel met_cons a s b t p ->
      exists l, must a s p l /\ sink b t p l /\ sooner sched a s b t p /\ unmasked must sched a s b t p l).
    { intros a s b t p H. apply met_cons_rel in H. destruct H as (-> & -> & x & -> & -> & -> & H). exists (7%nat, [0]).
      repeat split.
      - apply T2. repeat split; auto. exists x. split; [auto|lia].
      - apply T1. repeat split; auto. exists (x + 1). split; [auto|lia].
      - apply met_sooner; auto. lia.
      - intros c u Hm S1 S2. apply T2 in Hm. destruct Hm as (-> & _ & _ & z & -> & Hz).
        apply met_sooner in S1; auto. apply met_sooner in S2; auto. lia. }
    assert (A : forall a s b t p l, must a s p l \/ may a s p l -> (must a s p l -> a = met_name /\ p = [] /\ l = (7%nat, [0]) /\ exists x, s = [x] /\ 0 <= x <= 2) ->
      (may a s p l -> a = met_name /\ p = [] /\ l = (7%nat, [0]) /\ exists x, s = [x] /\ 0 <= x <= 2) ->
      sink b t p l -> sooner sched a s b t p -> unmasked must sched a s b t p l ->
      exists a' s', same_date sched a' s' a s p /\ (must a' s' p l \/ may a' s' p l) /\ umap_rel met_cons a' s' b t p).
    { intros a s b t p l AA Q1 Q2 H2 S U. assert (HH : a = met_name /\ p = [] /\ l = (7%nat, [0]) /\ exists x, s = [x] /\ 0 <= x <= 2) by tauto.
      destruct HH as (-> & -> & -> & x & -> & Hx). apply T1 in H2. destruct H2 as (-> & _ & _ & y & -> & Hy).
      exists met_name, [x]. split; auto. split; auto. apply met_cons_rel. repeat split; auto. exists x.
      apply met_sooner in S; auto.
      assert (y = x + 1); [|subst; repeat split; auto; lia].
      destruct (Z.eq_dec y (x + 1)) as [|N]; auto. exfalso. apply (U met_name [x + 1]).
      - apply T2. repeat split; auto. exists (x + 1). split; [auto|lia].
      - apply met_sooner; auto. lia.
      - apply met_sooner; auto. lia. }
    destruct I3 as [T3| ->].
    + rewrite (touches_inhabited _ T3). split; cbn [fst snd].
      * exact D.
      * intros a s b t p H. destruct (D a s b t p H) as (l & H1 & H2 & H3 & H4). exists l. repeat split; auto.
        exists a, s. split; [|exact H3]. apply T3. now apply T2 in H1.
      * intros a s b t p l K H2 S U. destruct (A a s b t p l K) as (a' & s' & ? & ? & ?); auto; try (now apply T2); try (now apply T3).
        exists a', s'. auto.
    + rewrite no_access_inhabited. split; cbn [fst snd].
      * exact D.
      * intros a s b t p (? & ? & [] & _).
      * intros a s b t p l K H2 S U. destruct (A a s b t p l K) as (a' & s' & ? & ? & ?); auto; try (now apply T2); try (intros []).
        exists a', s'. auto.
  - rewrite no_access_inhabited. destruct I3 as [T3| ->].
    + rewrite (touches_inhabited _ T3). split; cbn [fst snd].
      * intros a s b t p (? & ? & [] & _).
      * intros a s b t p H. apply met_pairs_rel in H. destruct H as (-> & -> & x & y & -> & -> & -> & H). exists (7%nat, [0]).
        assert (may met_name [x] [] (7%nat, [0])) by (apply T3; repeat split; auto; exists x; split; [auto|lia]).
        assert (sooner sched met_name [x] met_name [y] []) by (apply met_sooner; auto; lia).
        repeat split; auto.
        -- apply T1. repeat split; auto. exists y. split; [auto|lia].
        -- intros c u [].
        -- exists met_name, [x]. auto.
      * intros a s b t p l [[]|K] H2 S U. exists a, s. apply T3 in K. destruct K as (-> & -> & -> & x & -> & Hx).
        apply T1 in H2. destruct H2 as (-> & _ & _ & y & -> & Hy). apply met_sooner in S; auto.
        split; [apply EQ|]. split; [right; apply T3; repeat split; auto; exists x; split; [auto|lia]|]. right. apply met_pairs_rel. repeat split; auto.
        exists x, y. repeat split; auto; lia.
    + rewrite no_access_inhabited. split; cbn [fst snd].
      * intros a s b t p (? & ? & [] & _).
      * intros a s b t p (? & ? & [] & _).
      * intros a s b t p l [[]|[]].
Qed.

Lemma met_form o : In o met_osl -> exists dim A, stmt_form 0 o dim A /\ length A = 1%nat.
Proof.
  intros [<-|[]]. exists 1%nat, [[1; 0]]. split; [|reflexivity]. split; [|split].
  - eexists. repeat split.
  - repeat split. cbn. apply Permutation_refl.
  - intros x [<-|[<-|[]]]; exists 1%nat, 7, []; repeat split; apply Permutation_refl.
Qed.

Lemma met_touches rd es : osl_entries false rd met_osl = Some es -> touches_x (entries_amap es).
Proof.
  intros E.
  assert (ES : es = [mkEntry met_name 7 1 (os_domain (nth 0 met_osl (mkOslStmt [] (mkRel 0 0 0 0 []) []))) [[-1; 0; 0]]]) by (destruct rd; cbn in E; injection E as <-; reflexivity).
  subst es. clear E. intros a i p l. unfold entries_amap, entry_rel, union_mem, rel_mem. split.
  - intros (e & [<-|[]] & <- & H1 & H2 & (c & [<-|[]] & H3 & H4) & H5 & H6). cbn in H1, H2, H3, H5.
    destruct i as [|x [|? ?]]; try discriminate. rewrite app_length in H3. cbn in H3. destruct p; [|cbn in H3; lia].
    destruct l as [u v]. cbn in H1, H5. subst u. destruct v as [|y [|? ?]]; try discriminate.
    pose proof (H6 _ (or_introl eq_refl)) as Q. pose proof (H4 _ (or_introl eq_refl)) as Q1. pose proof (H4 _ (or_intror (or_introl eq_refl))) as Q2.
    unfold osl_holds, aff in *. cbn [nth tl Z.eqb app dot fst snd] in Q, Q1, Q2. repeat split; auto.
    + do 2 f_equal. lia.
    + exists x. split; [auto|lia].
  - intros (-> & -> & -> & x & -> & H). eexists. split; [now left|]. split; [reflexivity|]. cbn [e_array e_dim e_dom e_eqs fst snd length]. split; [reflexivity|].
    split; [reflexivity|]. split; [|split; [reflexivity|]].
    + eexists. split; [now left|]. split; [reflexivity|]. intros r [<-|[<-|[]]]; unfold osl_holds, aff; cbn [nth tl Z.eqb app dot]; lia.
    + intros r [<-|[]]. unfold aff. cbn [app dot]. lia.
Qed.

Lemma met_order : loop_order (osl_smap met_osl).
Proof.
  intros x u. unfold osl_smap. split.
  - intros (o & eqs & E & Q & L & L2 & H). cbn in E. injection E as <-. cbn in Q. injection Q as <-.
    destruct u as [|y [|? ?]]; try discriminate. specialize (H _ (or_introl eq_refl)). unfold aff in H. cbn [app dot] in H. f_equal. lia.
  - intros ->. eexists. exists [[-1; 1; 0]]. split; [reflexivity|]. split; [reflexivity|]. split; [reflexivity|]. split; [reflexivity|].
    intros r [<-|[]]. unfold aff. cbn [app dot]. lia.
Qed.

Example C73_met : exists reads writes,
  osl_entries false true met_osl = Some reads /\ osl_entries false false met_osl = Some writes /\
  all_rows (osl_to_stmt 1) met_osl = Some (p_stmts met_prog) /\
  isl_correct met_flow (entries_amap reads) (entries_amap writes) (osl_smap met_osl) /\ coalesce_ok (fun u => u) /\ remove_divs_ok met_rd /\
  all_deps met_rd false true (p_stmts met_prog)
    (compute_deps_isl met_flow (fun u => u) true true true (entries_amap reads) (entries_amap writes) (osl_smap met_osl)) = Some met_xs /\
  p_deps met_prog = map to_dep met_xs /\
  accesses_of met_prog (arrays met_osl is_read) s_reads (entries_amap reads) [] /\
  (* the chain of dependences for the instances 0 and 2 *)
  conflict met_prog (arrays met_osl is_read) (arrays met_osl is_write) [] (0%nat, [0]) (0%nat, [2]) /\
  depends met_prog [] (0%nat, [0]) (0%nat, [2]).
Proof.
  destruct (C73_osl_accesses 0 1 met_osl met_prog [] false met_form eq_refl eq_refl) as (reads & writes & R & W & AR & AW & _ & SC).
  exists reads, writes. split; [exact R|]. split; [exact W|]. split; [reflexivity|].
  assert (TR : touches_x (entries_amap reads)) by (eapply met_touches; eauto).
  assert (TW : touches_x (entries_amap writes)) by (eapply met_touches; eauto).
  assert (FL : isl_correct met_flow (entries_amap reads) (entries_amap writes) (osl_smap met_osl)) by (apply met_flow_ok; auto; apply met_order).
  assert (CO : coalesce_ok (fun u => u)) by (intros u a s b t p; tauto).
  assert (X : all_deps met_rd false true (p_stmts met_prog)
    (compute_deps_isl met_flow (fun u => u) true true true (entries_amap reads) (entries_amap writes) (osl_smap met_osl)) = Some met_xs).
  { unfold compute_deps_isl, met_flow. rewrite no_access_inhabited, (touches_inhabited _ TR), (touches_inhabited _ TW). reflexivity. }
  split; auto. split; auto. split; [apply met_rd_ok|]. split; [exact X|]. split; [reflexivity|]. split; [exact AR|].
  assert (K : conflict met_prog (arrays met_osl is_read) (arrays met_osl is_write) [] (0%nat, [0]) (0%nat, [2])).
  { exists (7%nat, [0]). left. split; [now left|]. left. now left. }
  split; [exact K|].
  assert (IT : forall i, iteration (stmt_of met_prog 0) i [] <-> exists x, i = [x] /\ 0 <= x <= 2).
  { intros i. split.
    - intros (L & M & H). cbn in L. destruct i as [|x [|? ?]]; try discriminate. exists x. split; auto.
      pose proof (H _ (or_introl eq_refl)) as Q1. pose proof (H _ (or_intror (or_introl eq_refl))) as Q2.
      unfold holds, aff in *. cbn [is_eq coef nth tl Z.eqb app dot] in Q1, Q2. lia.
    - intros (x & -> & H). split; [reflexivity|]. split; [reflexivity|]. intros r [<-|[<-|[]]]; unfold holds, aff; cbn [is_eq coef nth tl Z.eqb app dot]; lia. }
  assert (RN : forall z, runs met_prog [] z <-> exists x, z = (0%nat, [x]) /\ 0 <= x <= 2).
  { intros [s i]. unfold runs. cbn [fst snd]. split.
    - intros (L & H). cbn in L. assert (s = 0%nat) as -> by lia. apply IT in H. destruct H as (x & -> & H). eauto.
    - intros (x & E & H). injection E as -> ->. split; [cbn; lia|]. apply IT. eauto. }
  set (orig := [(0%nat, [0]); (0%nat, [1]); (0%nat, [2])] : list inst).
  assert (ALL : all_instances met_prog [] orig).
  { split.
    - repeat constructor; cbn; intuition congruence.
    - intros z. rewrite RN. split.
      + intros [<-|[<-|[<-|[]]]]; eexists; (split; [reflexivity|lia]).
      + intros (x & -> & H). assert (x = 0 \/ x = 1 \/ x = 2) as [-> | [-> | ->]] by lia; cbn; auto. }
  assert (TI : forall x, time_of met_prog [] (0%nat, [x]) = [x]).
  { intros x. unfold time_of, timestamp. cbn [fst snd]. change (mrows (s_trans (stmt_of met_prog 0))) with [[1; 0]]. cbn [map]. unfold aff. cbn [app dot]. f_equal. lia. }
  refine (C73_covers met_flow (fun u => u) met_rd true true true false true _ _ _ met_prog _ _ [] orig met_xs FL CO met_rd_ok AR AW ALL _ eq_refl X eq_refl _ _ _ K).
  - apply SC; auto.
    + intros x y Ix Iy L. apply ALL in Ix. apply ALL in Iy. apply RN in Ix. apply RN in Iy. destruct Ix as (u & -> & Hu). destruct Iy as (v & -> & Hv).
      rewrite !TI in L. cbn in L. assert (u = 0 \/ u = 1 \/ u = 2) as [-> | [-> | ->]] by lia; assert (v = 0 \/ v = 1 \/ v = 2) as [-> | [-> | ->]] by lia; try lia;
        apply before_pairs; cbn; auto.
    + intros x y Ix Iy L. apply RN in Ix. apply RN in Iy. destruct Ix as (u & -> & Hu). destruct Iy as (v & -> & Hv). rewrite !TI in L. congruence.
  - apply before_pairs. cbn. auto.
Qed.

Example C73_met_typed : typed met_prog met_cons /\ divs_exact met_rd met_cons /\ instance met_prog (to_dep (met_dep D_RAW)) [1] [2] [].
Proof.
  split; [|split].
  - intros b [<-|[]]. repeat split.
  - intros b [<-|[]] s t p H. exact H.
  - repeat split. intros r [<-|[<-|[<-|[]]]]; unfold holds, aff; cbn [is_eq coef app dot]; lia.
Qed.
