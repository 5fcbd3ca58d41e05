(** * Forced rows. *)
From Coq Require Import ZArith List Bool Arith Lia.
From Verif Require Import SpecLinear SpecMatrix VecProofs MathModel ConstraintsModel SimplifyProofs FMProofs EditProofs FarkasProofs
  RankProofs MatrixProofs SpecGraph GraphModel GraphProofs GraphProofs2
  SpecProg SpecDriver SpecLoop FrameworkModel FrameworkProofs SumProofs DepProofs LexProofs ProgModel ProgProofs DriverModel HypProofs KeepProofs DriverProofs PadProofs
  AutoProofs SpecForce ForceModel ForceProofs.
Import ListNotations.
Open Scope Z_scope.

(** ** Dependences do not look at the padding *)

Definition blind (pr : prog) : Prop :=
  forall d, In d (p_deps pr) -> forall s t p,
    length s = s_dim (stmt_of pr (d_src d)) -> length t = s_dim (stmt_of pr (d_dst d)) ->
    mem (d_poly d) (s ++ t ++ p) ->
    mem (d_poly d) (zp pr (d_src d) (firstn (dim0 pr (d_src d)) s) ++ zp pr (d_dst d) (firstn (dim0 pr (d_dst d)) t) ++ p).

Lemma simple_blind pr : simple pr -> deps_in pr -> blind pr.
Proof.
  intros S D d Hd s t p Ls Lt M. destruct (D d Hd) as [D1 D2]. rewrite (S _ D1) in Ls. rewrite (S _ D2) in Lt.
  rewrite !firstn_all2 by lia. rewrite !zp_simple; auto.
Qed.
Lemma set_deps_blind pr f : blind pr -> (forall d, In d (p_deps pr) -> d_src (f d) = d_src d /\ d_dst (f d) = d_dst d /\ d_poly (f d) = d_poly d) ->
  blind (set_deps pr (map f (p_deps pr))).
Proof.
  intros B H d' Hd'. cbn [set_deps p_deps] in Hd'. apply in_map_iff in Hd' as (d & <- & Hd). destruct (H d Hd) as (-> & -> & ->). apply (B d Hd).
Qed.

Lemma pad1_blind pr sid : cleared pr -> (sid < length (p_stmts pr))%nat -> blind pr ->
  blind (sink_statement pr sid (s_dim (stmt_of pr sid)) 0).
Proof.
  intros C Hs B. pose proof (c_wf _ C) as W. set (k := s_dim (stmt_of pr sid)). set (q := sink_statement pr sid k 0).
  assert (forall s, (dim0 pr s <= s_dim (stmt_of pr s))%nat) as D by (intros; apply cleared_dim0; auto).
  assert (forall s, s_dim (stmt_of q s) = (s_dim (stmt_of pr s) + if (s =? sid)%nat then 1 else 0)%nat) as Dm.
  { intros s. unfold q. rewrite sink_stmt by auto. destruct (Nat.eqb_spec s sid) as [->|N]; cbn; lia. }
  assert (forall s, dim0 q s = dim0 pr s) as D0.
  { intros s. unfold dim0, q. rewrite sink_stmt by auto. destruct (Nat.eqb_spec s sid) as [->|]; auto. }
  assert (forall s x, length x = s_dim (stmt_of q s) -> exists v x0, x = widen sid k s v x0 /\ length x0 = s_dim (stmt_of pr s) /\ firstn (dim0 pr s) x = firstn (dim0 pr s) x0) as SP.
  { intros s x L. rewrite Dm in L. unfold widen. destruct (Nat.eqb_spec s sid) as [->|N].
    - destruct (exists_last (l := x)) as (x0 & v & ->); [intros ->; cbn in L; lia|]. rewrite app_length in L. cbn in L.
      exists v, x0. split; [symmetry; apply insert_end; unfold k; lia|]. split; [lia|]. rewrite firstn_app.
      specialize (D sid). replace (dim0 pr sid - length x0)%nat with 0%nat by lia. cbn. apply app_nil_r.
    - exists 0, x. split; auto. split; [lia|auto]. }
  intros d' Hd'. change (p_deps q) with (map (dep_add_dim sid k (p_stmts (stmt_add_dim pr sid k None H_SCALAR))) (p_deps pr)) in Hd'.
  apply in_map_iff in Hd' as (d & <- & Hd). set (d' := dep_add_dim _ _ _ d).
  assert (d_src d' = d_src d) as Es by (unfold d', dep_add_dim; destruct (_ =? _)%nat, (_ =? _)%nat; auto).
  assert (d_dst d' = d_dst d) as Ed by (unfold d', dep_add_dim; destruct (_ =? _)%nat, (_ =? _)%nat; auto).
  intros s t p. rewrite Es, Ed, !D0. intros Ls Lt M.
  destruct (SP _ s Ls) as (v & s0 & E1 & L1 & F1). destruct (SP _ t Lt) as (w & t0 & E2 & L2 & F2). rewrite F1, F2.
  destruct (dep_add_poly pr sid k None H_SCALAR d) as [EP _]. unfold d' in *. rewrite EP in *. rewrite E1, E2 in M.
  destruct (proj2 W d Hd) as (_ & _ & Wp & _).
  apply poly_add_mem in M; auto. apply (B d Hd) in M; auto.
  unfold q, k. rewrite !sink_zp by (auto; rewrite firstn_length, ?L1, ?L2; apply Nat.le_min_r). fold k.
  apply poly_add_mem; auto; apply zp_length; rewrite firstn_length, ?L1, ?L2; apply Nat.le_min_r.
Qed.

Lemma pad_domain_blind pr sid : cleared pr -> (sid < length (p_stmts pr))%nat -> blind pr -> blind (pad_domain pr sid).
Proof.
  intros C Hs B. unfold pad_domain. set (f := fun q => _).
  assert (forall n, (n <= p_nvar pr - s_dim (stmt_of pr sid))%nat -> padok pr (Nat.iter n f pr) /\
    s_dim (stmt_of (Nat.iter n f pr) sid) = (n + s_dim (stmt_of pr sid))%nat /\ blind (Nat.iter n f pr)) as K.
  { induction n as [|n IH]; intros Hn.
    - cbn. split; auto using padok_refl.
    - destruct IH as (I1 & I2 & I3); [lia|]. cbn [Nat.iter nat_rect]. change (nat_rect _ pr _ n) with (Nat.iter n f pr).
      set (q := Nat.iter n f pr) in *. unfold f at 1 2 3. pose proof (po_ag _ _ I1) as A.
      assert (sid < length (p_stmts q))%nat as Hq by (rewrite (ag_n _ _ A); auto).
      split; [|split].
      + eapply padok_trans; [exact I1|]. apply pad1_ok; auto. apply (po_cl _ _ I1). rewrite I2, (ag_var _ _ A). lia.
      + rewrite sink_stmt, Nat.eqb_refl by auto. cbn. lia.
      + apply pad1_blind; auto. apply I1. }
  apply (K _ (Nat.le_refl _)).
Qed.
Lemma pad_all_blind pr n : cleared pr -> (n <= length (p_stmts pr))%nat -> blind pr -> blind (fold_left pad_domain (seq 0 n) pr).
Proof.
  intros C L B. induction n as [|n IH]; [exact B|].
  rewrite seq_S, fold_left_app. cbn [fold_left Nat.add].
  destruct (pad_all_ok pr n C ltac:(lia)) as [P _]. apply pad_domain_blind; [apply P| |apply IH; lia]. rewrite (ag_n _ _ (po_ag _ _ P)). lia.
Qed.
Lemma normalize_blind pr : cleared pr -> simple pr -> deps_in pr -> blind (normalize_domains pr).
Proof.
  intros C Si DI. unfold normalize_domains. set (pr1 := if (1 <=? p_npar pr)%nat then _ else _). cbv zeta. set (pr2 := fold_left pad_domain _ pr1).
  pose proof (simple_blind pr Si DI) as B0.
  assert (blind pr1 /\ padok pr pr1) as [B1 P1].
  { unfold pr1. destruct (1 <=? p_npar pr)%nat eqn:E; [|split; auto; apply padok_refl; auto]. split.
    - apply set_deps_blind; auto.
    - apply bpoly_ok; auto.
    intros d Hdd (A & Bb & Wp & Cp & _). destruct (context_wf pr (c_wf _ C) Si) as [X1 X2].
    unfold bounding_with_context. cbn [ncols]. split; auto. split; [cbn; lia|]. cbn [rows ncols]. intros r Hr.
    apply in_app_or in Hr as [Hr|Hr]; [apply Wp; auto|]. apply in_map_iff in Hr as (r0 & <- & Hr). cbn [coef].
    rewrite app_length, repeat_length. rewrite (proj2 X1 r0 Hr), X2. lia. }
  assert (blind pr2) as B2 by (apply pad_all_blind; auto; [apply P1|rewrite (ag_n _ _ (po_ag _ _ P1)); auto]).
  set (pr3 := set_deps pr2 _).
  assert (pr3 = pr2) as ->.
  { unfold pr3. apply set_deps_id. intros d. rewrite normalize_fold_id. destruct d; reflexivity. }
  apply set_deps_blind; auto.
Qed.

Lemma start_blind pr : input_ok pr -> blind (st_prog (start_state pr)).
Proof.
  intros IN. unfold start_state. cbv zeta. unfold compute_scc. cbn [st_prog st_adj].
  destruct (GraphModel.ddg_compute_scc _ _ _ _) as [scc num]. cbn [st_prog st_adj st_num st_max].
  fold (with_scc (clear_schedules pr) (fun i => nth i scc 0)).
  destruct (clear_cleared pr (fun i => nth i scc 0) IN) as [CL SI].
  apply (normalize_blind _ CL SI). intros d Hd.
  destruct (proj2 (c_wf _ CL) d Hd) as (A & B & _). auto.
Qed.

(** ** Adding several levels at once *)

Definition ltype (n : nat) (r : list Z) : hyptype := if existsb (fun v => 0 <? v) (firstn (n - 1) r) then H_LOOP else H_SCALAR.
Definition addrows (n : nat) (rs : list (list Z)) (st : stmt) : stmt := fold_left (fun st r => append_row st (ltype n r) r) rs st.

Definition apps (n : nat) (h : nat -> hyptype) (rs : nat -> list (list Z)) (k : nat) (pr : prog) : prog :=
  mkProg (p_nvar pr) (p_npar pr) (map (fun s => addrows n (firstn k (rs s)) (stmt_of pr s)) (seq 0 (length (p_stmts pr))))
    (p_deps pr) (p_hprops pr ++ map h (seq 0 k)).
Lemma apps_n n h rs k pr : length (p_stmts (apps n h rs k pr)) = length (p_stmts pr).
Proof. cbn. rewrite map_length, seq_length. auto. Qed.
Lemma apps_stmt n h rs k pr s : (s < length (p_stmts pr))%nat -> stmt_of (apps n h rs k pr) s = addrows n (firstn k (rs s)) (stmt_of pr s).
Proof. intros H. unfold stmt_of at 1, apps. cbn. rewrite nth_map_seq; auto. Qed.
Lemma apps_0 n h rs pr : apps n h rs 0 pr = pr.
Proof.
  unfold apps. cbn [seq map firstn]. rewrite app_nil_r. destruct pr as [a b st d hp]. cbn. f_equal.
  change (map (fun s => stmt_of (mkProg a b st d hp) s) (seq 0 (length (p_stmts (mkProg a b st d hp)))) = st).
  rewrite <- (map_stmts_seq (fun s => s) (mkProg a b st d hp)). apply map_id.
Qed.
Lemma firstn_S_nth {A} (l : list A) k d : (k < length l)%nat -> firstn (S k) l = firstn k l ++ [nth k l d].
Proof. revert k. induction l as [|a l IH]; intros [|k] H; cbn in *; try lia; auto. rewrite (IH k) by lia. reflexivity. Qed.
Lemma apps_S n h rs k pr : (forall s, (s < length (p_stmts pr))%nat -> (k < length (rs s))%nat) ->
  apps n h rs (S k) pr = app_level (apps n h rs k pr) (h k) (fun s => ltype n (nth k (rs s) [])) (fun s => nth k (rs s) []).
Proof.
  intros L. unfold app_level. rewrite apps_n. unfold apps at 1. cbn [p_nvar p_npar p_deps p_hprops apps].
  rewrite seq_S, map_app, app_assoc. cbn [map Nat.add]. f_equal.
  apply map_ext_in. intros s Hs. apply in_seq in Hs. rewrite apps_stmt by lia.
  rewrite (firstn_S_nth _ _ []) by (apply L; lia). unfold addrows. rewrite fold_left_app. reflexivity.
Qed.
Lemma addrows_rows n rs : forall st, mrows (s_trans (addrows n rs st)) = mrows (s_trans st) ++ rs.
Proof.
  induction rs as [|r rs IH]; intros st; cbn [addrows fold_left]; [rewrite app_nil_r; auto|].
  unfold addrows in IH. rewrite IH, append_row_rows, <- app_assoc. reflexivity.
Qed.
Lemma apps_frame n h rs k pr : (forall s, (s < length (p_stmts pr))%nat -> (k <= length (rs s))%nat) -> frame pr (apps n h rs k pr).
Proof.
  induction k as [|k IH]; intros L; [rewrite apps_0; apply frame_refl|].
  rewrite apps_S by auto. eapply frame_trans; [apply IH; intros s Hs; specialize (L s Hs); lia|apply app_level_frame].
Qed.

(** ** Reading .precut *)

Definition frow_row (nv np : nat) (r : frow) : list Z :=
  (f_loops r ++ repeat 0 (nv - length (f_loops r))) ++ repeat 0 np ++ [f_const r].

Lemma read_numbers_text l rest : read_numbers (length l) (l ++ rest) = Some (l, rest).
Proof. induction l as [|a l IH]; cbn; auto. rewrite IH. auto. Qed.
Lemma read_coefs_false n l : read_coefs n (repeat false n) l = Some (repeat 0 n, l).
Proof. induction n as [|n IH]; cbn; auto. rewrite IH. auto. Qed.
Lemma read_coefs_text l m rest : read_coefs (length l + m) (repeat true (length l) ++ repeat false m) (l ++ rest) = Some (l ++ repeat 0 m, rest).
Proof. induction l as [|a l IH]; cbn [length app repeat Nat.add]; [apply read_coefs_false|]. cbn [read_coefs hd tl app]. rewrite IH. auto. Qed.

Lemma append_row_type st ht r : length (s_hyp st) = mnrows (s_trans st) ->
  set_hyp (append_row st H_UNKNOWN r) (map_nth (mnrows (s_trans st)) (fun _ => ht) (s_hyp (append_row st H_UNKNOWN r))) = append_row st ht r.
Proof.
  intros H. rewrite append_row_hyp by auto. rewrite map_nth_end by auto.
  unfold set_hyp, append_row, set_trans. cbn [stmt_add_hyperplane s_dim s_dim_orig s_orig s_domain s_trans s_hyp s_scc s_cc s_reads s_writes s_evict s_num_tiled s_ftd s_ltd].
  f_equal. symmetry. apply insert_at_end. auto.
Qed.

Lemma read_rows_text nv np d rs : forall st rest, (d <= nv)%nat ->
  (forall r, In r rs -> length (f_loops r) = d /\ length (f_pars r) = np) ->
  s_dim_orig st = d -> s_orig st = repeat true d ++ repeat false (nv - d) -> mncols (s_trans st) = (nv + np + 1)%nat -> length (s_hyp st) = mnrows (s_trans st) ->
  read_rows nv np (length rs) (Z.of_nat (1 + d + np + 1)) st (flat_map frow_text rs ++ rest) =
  Some (addrows (nv + np + 1) (map (frow_row nv np) rs) st, rest).
Proof.
  induction rs as [|r rs IH]; intros st rest Hd H So Sg NC SH; cbn [length flat_map map read_rows]; [reflexivity|].
  rewrite So, Z.eqb_refl. destruct (H r) as [H1 H2]; [simpl; auto|]. unfold frow_text at 1. cbn [app].
  rewrite <- !app_assoc. rewrite Sg. pose proof (read_coefs_text (f_loops r) (nv - d) (f_pars r ++ [f_const r] ++ flat_map frow_text rs ++ rest)) as E.
  rewrite H1 in E. replace (d + (nv - d))%nat with nv in E by lia. rewrite E. rewrite <- H2 at 1. rewrite read_numbers_text. cbn [app].
  set (row := f_loops r ++ repeat 0 (nv - d)).
  assert ((row ++ repeat 0 np ++ [f_const r]) = frow_row nv np r) as ER by (unfold frow_row; rewrite H1; auto).
  rewrite ER. unfold get_loop_type. rewrite append_row_rows, append_row_ncols, NC.
  rewrite app_nth2 by (unfold mnrows; lia). unfold mnrows at 2. rewrite Nat.sub_diag. cbn [nth].
  fold (ltype (nv + np + 1) (frow_row nv np r)). rewrite append_row_type by auto.
  rewrite IH; auto; try (intros; apply H; simpl; auto).
  rewrite append_row_hyp by auto. unfold mnrows. rewrite append_row_rows, !app_length. cbn. unfold mnrows in SH. lia.
Qed.

Lemma read_stmts_text nv np depth K (sts : list stmt) : forall (xs : list (nat * list frow * Z * list Z)) r0 rest,
  length xs = length sts ->
  (forall i st x, nth_error sts i = Some st -> nth_error xs i = Some x -> let '(d, rs, num, flags) := x in
     (d <= nv)%nat /\ (forall r, In r rs -> length (f_loops r) = d /\ length (f_pars r) = np) /\ length rs = K /\ length flags = depth /\
     s_dim_orig st = d /\ s_orig st = repeat true d ++ repeat false (nv - d) /\ mncols (s_trans st) = (nv + np + 1)%nat /\ length (s_hyp st) = mnrows (s_trans st)) ->
  read_stmts nv np (Z.of_nat depth) sts r0
    (flat_map (fun x => let '(dim, rs, num, flags) := x in
     Z.of_nat (length rs) :: Z.of_nat (1 + dim + np + 1) :: flat_map frow_text rs ++ num :: flags) xs ++ rest) =
  Some (map (fun sx => let '(st, (_, rs, _, _)) := sx in addrows (nv + np + 1) (map (frow_row nv np) rs) st) (combine sts xs),
        if (length sts =? 0)%nat then r0 else K).
Proof.
  induction sts as [|st sts IH]; intros [|x xs] r0 rest L H; cbn [length] in L; try lia; [reflexivity|].
  destruct x as [[[d rs] num] flags]. cbn [read_stmts flat_map combine map app].
  destruct (H 0%nat st (d, rs, num, flags) eq_refl eq_refl) as (H1 & H2 & H3 & H4 & H5 & H6 & H7 & H8).
  rewrite !Nat2Z.id. rewrite <- !app_assoc. rewrite (read_rows_text nv np d) by auto. cbn [app].
  rewrite <- H4 at 1. rewrite <- app_assoc || idtac. rewrite read_numbers_text.
  rewrite (IH xs) by (try lia; intros i st' x' E1 E2; apply (H (S i) st' x' E1 E2)).
  cbn [length Nat.eqb]. rewrite H3. destruct (length sts =? 0)%nat; auto.
Qed.

(** ** The levels of the program *)

Section Levels.
Variable is_emptyb : cst -> bool.

Definition sethp (h : list hyptype) (s : dstate) : dstate := mkState (set_hprops (st_prog s) h) (st_adj s) (st_num s) (st_max s).
Definition step (k : nat) (s : dstate) : dstate :=
  ddg_update (mkState (fst (dep_satisfaction_update is_emptyb (st_prog s) k)) (st_adj s) (st_num s) (st_max s)).
Lemma step_sethp k h s : step k (sethp h s) = sethp h (step k s).
Proof. destruct s as [[a b c d e] x y z]. reflexivity. Qed.
Lemma levels_sethp n : forall k h s, update_levels is_emptyb k n (sethp h s) = sethp h (update_levels is_emptyb k n s).
Proof.
  unfold update_levels. induction n as [|n IH]; intros k h s; cbn [seq fold_left]; [reflexivity|].
  fold (step k (sethp h s)). fold (step k s). rewrite step_sethp. apply IH.
Qed.

Lemma force_levels_ok K n : forall k s, length (p_hprops (st_prog s)) = k ->
  (forall st, In st (p_stmts (st_prog s)) -> mnrows (s_trans st) = K) -> (k + n <= K)%nat ->
  exists types, length types = n /\
    force_levels is_emptyb 0 k n s = Some (sethp (p_hprops (st_prog s) ++ types) (update_levels is_emptyb k n s)).
Proof.
  induction n as [|n IH]; intros k s L R B; cbn [force_levels Nat.add].
  - exists []. split; auto. rewrite app_nil_r. destruct s as [[a b c d e] x y z]. reflexivity.
  - assert (forallb (fun st => (k <? mnrows (s_trans st))%nat) (p_stmts (st_prog s)) = true) as ->.
    { apply forallb_forall. intros st Hst. rewrite (R st Hst). apply Nat.ltb_lt. lia. }
    set (ht := fold_left _ _ _). set (pr1 := prog_add_hyperplane _ _ _).
    assert (pr1 = set_hprops (st_prog s) (p_hprops (st_prog s) ++ [ht])) as E1.
    { unfold pr1, prog_add_hyperplane. rewrite insert_at_end by auto. auto. }
    rewrite E1. cbn [set_hprops p_hprops]. rewrite app_length, L. cbn [length]. replace (k + 1 - 1)%nat with k by lia.
    change (ddg_update _) with (step k (sethp (p_hprops (st_prog s) ++ [ht]) s)).
    destruct (IH (S k) (step k (sethp (p_hprops (st_prog s) ++ [ht]) s))) as (ty & Lt & E).
    + cbn. rewrite app_length, L. cbn. lia.
    + cbn. exact R.
    + lia.
    + exists (ht :: ty). split; [cbn; lia|]. rewrite E. f_equal. rewrite step_sethp, levels_sethp.
      change (p_hprops (st_prog (sethp (p_hprops (st_prog s) ++ [ht]) (step k s)))) with (p_hprops (st_prog s) ++ [ht]).
      rewrite <- app_assoc. cbn [app].
      unfold update_levels at 2. cbn [seq fold_left]. fold (step k s). fold (update_levels is_emptyb (S k) n (step k s)).
      generalize (update_levels is_emptyb (S k) n (step k s)). intros [[a b c d e] x y z]. reflexivity.
Qed.
End Levels.
