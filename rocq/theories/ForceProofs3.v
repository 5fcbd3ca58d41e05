(** * What a forced fusion structure leads to. *)
From Coq Require Import ZArith List Bool Arith Lia.
From Verif Require Import SpecLinear SpecMatrix VecProofs MathModel ConstraintsModel SimplifyProofs FMProofs EditProofs FarkasProofs
  RankProofs MatrixProofs SpecGraph GraphModel GraphProofs GraphProofs2
  SpecProg SpecDriver SpecLoop FrameworkModel FrameworkProofs SumProofs DepProofs LexProofs ProgModel ProgProofs DriverModel HypProofs KeepProofs DriverProofs PadProofs
  AutoProofs SpecForce ForceModel ForceProofs ForceProofs2.
Import ListNotations.
Open Scope Z_scope.

Section Main.
Variables (is_emptyb isl_emptyb : cst -> bool) (kernel : matrix -> matrix) (solve : prog -> cst -> option point) (o : options).
Variable pr : prog.
Hypothesis IN : input_ok pr.
Let s1 := start_state pr.
Let P := st_prog s1.
Let n := length (p_stmts pr).

Lemma start_sound : sound P.
Proof. destruct (start_inv pr IN) as [I _]. split; apply I. Qed.
Lemma start_n : length (p_stmts P) = n.
Proof. destruct (start_inv pr IN) as [_ A]. apply (ag_n _ _ A). Qed.
Lemma start_hprops : p_hprops P = [].
Proof. reflexivity. Qed.
Lemma start_rows s : (s < n)%nat -> mrows (s_trans (stmt_of P s)) = [].
Proof.
  intros H. pose proof (wf_nrows P s (proj1 start_sound)) as E. rewrite start_n, start_hprops in E. specialize (E H). unfold mnrows in E.
  destruct (mrows _); auto. discriminate.
Qed.
Lemma start_orig_first : orig_first P.
Proof. destruct (start_inv pr IN) as [I _]. apply I. Qed.
Lemma start_dim s : s_dim_orig (stmt_of P s) = dim0 pr s.
Proof. destruct (start_inv pr IN) as [_ A]. apply (ag_dim0 _ _ A). Qed.
Lemma start_par : p_npar P = p_npar pr.
Proof. destruct (start_inv pr IN) as [_ A]. apply (ag_par _ _ A). Qed.

(** The first entries of the final timestamps are those of the start. *)
Lemma final_time fuse fuel s2 z m : on s1 s2 ->
  drive is_emptyb isl_emptyb kernel solve o fuse fuel 0 EAGER s2 = Some (Continue z m) ->
  forall u x p, (u < n)%nat -> length x = s_dim (stmt_of pr u) -> length p = p_npar pr ->
  exists l, timestamp (stmt_of (denormalize_domains (st_prog z)) u) x p =
    map (fun r => aff r ((x ++ repeat 0 (p_nvar P - length x)) ++ p)) (mrows (s_trans (stmt_of (st_prog s2) u))) ++ l.
Proof.
  intros (S2 & F2 & _) Dr u x p Hu Lx Lp.
  pose proof (on_drive is_emptyb isl_emptyb kernel solve o fuse fuel 0 EAGER s2 _ S2 Dr) as (S3 & F3 & G3).
  assert (frame P (st_prog z)) as F by (eapply frame_trans; eauto).
  assert (orig_first (st_prog z)) as OF by (eapply frame_orig_first; [exact F|apply start_orig_first]).
  rewrite (end_time pr (st_prog z) IN (proj1 S3) (proj2 S3) OF F u x p Hu Lx Lp).
  destruct (G3 u) as [l El]. unfold timestamp. rewrite El, map_app. unfold zp.
  destruct F as (F1 & _ & Fn & _).
  rewrite (proj2 S3) by (apply stmt_of_in; rewrite Fn, start_n; auto). rewrite F1. eauto.
Qed.

(** ** Groups *)

Variable gs : list (list nat * Z).
Hypothesis GR : groups_of n gs.

Definition fst_state : dstate :=
  let pr1 := force_level (map fst gs) P in
  ddg_update (mkState (fst (dep_satisfaction_update is_emptyb pr1 (length (p_hprops pr1) - 1))) (st_adj s1) (st_num s1) (st_max s1)).

Lemma precut_fst rest pre : precut is_emptyb (Some (fst_text gs ++ rest)) pre s1 = Some (Some fst_state).
Proof.
  unfold precut. fold P. rewrite start_n. destruct (groups_fit n gs GR) as [L1 L2]. rewrite read_fst_text by auto. reflexivity.
Qed.

Lemma fst_prog : force_level (map fst gs) P = app_level P H_SCALAR (fun _ => H_SCALAR) (fun s => const_row P (gval (map fst gs) s)).
Proof. apply force_level_app. apply start_sound. Qed.
Lemma s1_eta : s1 = mkState P (st_adj s1) (st_num s1) (st_max s1).
Proof. reflexivity. Qed.

Lemma fst_on : on s1 fst_state.
Proof.
  unfold fst_state. cbv zeta. rewrite s1_eta at 1. rewrite fst_prog.
  eapply on_trans; [apply (on_app P (st_adj s1) (st_num s1) (st_max s1) H_SCALAR (fun _ => H_SCALAR) (fun s => const_row P (gval (map fst gs) s)) start_sound)|].
  - intros; apply const_row_length.
  - apply on_update_graph. apply (on_app P (st_adj s1) (st_num s1) (st_max s1)); [apply start_sound|]. intros; apply const_row_length.
Qed.
Lemma fst_rows u : (u < n)%nat -> mrows (s_trans (stmt_of (st_prog fst_state) u)) = [const_row P (gval (map fst gs) u)].
Proof.
  intros Hu. unfold fst_state. cbv zeta. rewrite fst_prog. cbn [ddg_update st_prog dep_satisfaction_update fst].
  change (stmt_of (set_deps ?q _) u) with (stmt_of q u). rewrite app_level_stmt by (rewrite start_n; auto).
  rewrite append_row_rows, start_rows by auto. reflexivity.
Qed.

Hypothesis EX : exact_empty is_emptyb.

Lemma fst_good :
  (forall d, In d (p_deps pr) -> d_rar d = false -> forall g h, in_group gs (d_src d) g -> in_group gs (d_dst d) h -> (g <= h)%nat) ->
  good EAGER s1 fst_state.
Proof.
  intros H. destruct (start_inv pr IN) as [I A]. fold s1 in I. pose proof fst_on as (_ & F & _). split; [|exact F].
  unfold fst_state. cbv zeta. rewrite fst_prog. set (q := app_level _ _ _ _). apply inv_ddg_update.
  assert (length (p_hprops q) - 1 < length (p_hprops q))%nat as HL by (unfold q; cbn [p_hprops app_level]; rewrite app_length; cbn; lia).
  refine (proj1 (inv_update EAGER is_emptyb EX q (st_adj s1) (st_num s1) (st_max s1) _ _ HL)).
  apply inv_app; [exact I| |].
  - intros s Hs. rewrite const_row_length. rewrite (proj2 start_sound _ (stmt_of_in P s Hs)). auto.
  - intros d Hd Hr. right. intros s t p (L1 & L2 & L3 & _).
    destruct (proj2 (proj1 start_sound) d Hd) as (D1 & D2 & _).
    rewrite (proj2 start_sound _ (stmt_of_in P _ D1)) in L1. rewrite (proj2 start_sound _ (stmt_of_in P _ D2)) in L2.
    rewrite !const_row_aff by auto.
    destruct (Forall2_in_r _ _ _ d (ag_dep _ _ A) Hd) as (d0 & Hd0 & E1 & E2 & E3 & _).
    rewrite start_n in D1, D2.
    assert (forall u, (u < n)%nat -> exists g, in_group gs u g) as EG.
    { intros u Hu. destruct GR as (_ & _ & AL). apply AL in Hu. apply in_concat in Hu as (l & Hl & Hu). apply in_map_iff in Hl as (x & <- & Hx).
      apply (In_nth _ _ ([], 0)) in Hx as (g & Hg & Ex). exists g. split; auto. rewrite Ex. auto. }
    destruct (EG _ D1) as [g Hg], (EG _ D2) as [h Hh]. destruct GR as (_ & ND & _).
    rewrite (gval_group gs _ g ND Hg), (gval_group gs _ h ND Hh). apply inj_le.
    rewrite E1 in Hg. rewrite E2 in Hh. apply (H d0 Hd0); auto; congruence.
Qed.
End Main.

(** ** Rows *)

Section Rows.
Variables (is_emptyb isl_emptyb : cst -> bool) (kernel : matrix -> matrix) (solve : prog -> cst -> option point) (o : options).
Variable pr : prog.
Hypothesis IN : input_ok pr.
Let s1 := start_state pr.
Let P := st_prog s1.
Let n := length (p_stmts pr).
Variables (K depth : nat) (xs : list (nat * list frow * Z * list Z)).
Notation rows_at := (rows_of xs).
Hypothesis LX : length xs = n.
Hypothesis HX : forall s, (s < n)%nat -> let '(d, rs, num, flags) := nth s xs (0%nat, [], 0, []) in
  d = s_dim (stmt_of pr s) /\ length rs = K /\ length flags = depth /\
  forall r, In r rs -> length (f_loops r) = d /\ length (f_pars r) = p_npar pr.
Hypothesis NE : (n <> 0)%nat.

Let nc := (p_nvar P + p_npar P + 1)%nat.
Let rs (s : nat) : list (list Z) := map (frow_row (p_nvar P) (p_npar P)) (rows_at s).

Lemma rs_length s : (s < n)%nat -> length (rs s) = K.
Proof. intros H. unfold rs, rows_at. rewrite map_length. specialize (HX s H). destruct (nth s xs _) as [[[d r] num] fl]. apply HX. Qed.

Lemma precut_rows_ok rest : exists types, length types = K /\
  precut is_emptyb None (Some (precut_text (p_npar pr) depth xs ++ rest)) s1 =
  Some (Some (update_levels is_emptyb 0 K (mkState (apps nc (fun k => nth k types H_UNKNOWN) rs K P) (st_adj s1) (st_num s1) (st_max s1)))).
Proof.
  unfold precut, precut_text. cbn [app]. fold P. rewrite LX. pose proof (start_n pr IN) as N1. fold s1 P n in N1. rewrite N1, Z.eqb_refl.
  rewrite <- (start_par pr IN). fold s1 P.
  rewrite (read_stmts_text (p_nvar P) (p_npar P) depth K (p_stmts P) xs).
  2: congruence.
  2:{ intros i st x E1 E2. assert (i < n)%nat as Hi by (rewrite <- N1; apply nth_error_Some; congruence).
      specialize (HX i Hi). rewrite (nth_error_nth xs i _ E2) in HX. destruct x as [[[d r] num] fl]. destruct HX as (X1 & X2 & X3 & X4).
      assert (In st (p_stmts P)) as Hst by (eapply nth_error_In; eauto).
      assert (stmt_of P i = st) as Es by (unfold stmt_of; erewrite nth_error_nth; eauto).
      pose proof (start_dim pr IN i) as Dm. fold s1 P in Dm. rewrite Es in Dm.
      destruct (start_orig_first pr IN st Hst) as [O1 O2].
      destruct (proj1 (proj1 (start_sound pr IN)) st Hst) as (W1 & W2 & W3 & W4 & W5 & _).
      assert (d = s_dim_orig st) as Ed by (rewrite X1, Dm; apply (input_simple pr IN); auto).
      rewrite (proj2 (start_sound pr IN) st Hst) in W2. fold s1 P in O1, O2, W2, W4, W5. rewrite <- (start_par pr IN) in X4. fold s1 P in X4. rewrite Ed in *.
      split; [exact O1|]. split; [exact X4|]. split; [exact X2|]. split; [exact X3|]. split; [auto|]. split; [exact O2|]. split; [exact W2|]. congruence. }
  rewrite N1. destruct (Nat.eqb_spec n 0) as [|_]; [lia|].
  set (ss := map _ (combine (p_stmts P) xs)). set (P1 := set_stmts P ss).
  assert (length ss = n) as Ls by (unfold ss; rewrite map_length, combine_length; lia).
  assert (forall s, (s < n)%nat -> stmt_of P1 s = addrows nc (rs s) (stmt_of P s)) as E1.
  { intros s Hs. unfold P1, stmt_of. cbn [set_stmts p_stmts]. unfold ss.
    match goal with |- nth s (map ?F ?l) _ = _ => set (FF := F) end.
    rewrite (nth_indep _ dummy_stmt (FF (dummy_stmt, (0%nat, [], 0, [])))) by (rewrite map_length, combine_length; lia). rewrite (List.map_nth FF).
    rewrite combine_nth by lia. unfold FF. unfold rs, rows_at. destruct (nth s xs _) as [[[d r] num] fl]. reflexivity. }
  assert (forall s, (s < n)%nat -> mnrows (s_trans (stmt_of P1 s)) = K) as E2.
  { intros s Hs. rewrite E1 by auto. unfold mnrows. rewrite addrows_rows, app_length, rs_length by auto. pose proof (start_rows pr IN s Hs) as R. fold s1 P in R. rewrite R. auto. }
  assert (nrows0 P1 = K) as E3 by (apply E2; lia). rewrite E3, Nat.leb_refl, Nat.sub_diag.
  destruct (force_levels_ok is_emptyb K K 0 (mkState P1 (st_adj s1) (st_num s1) (st_max s1))) as (ty & Lt & E).
  - reflexivity.
  - intros st Hst. cbn [st_prog] in Hst. apply in_stmt_of in Hst as (s & Hs & <-). apply E2. cbn [P1 set_stmts p_stmts] in Hs. lia.
  - lia.
  - exists ty. split; auto. rewrite E. do 2 f_equal. rewrite <- levels_sethp. f_equal. unfold sethp. cbn [st_prog st_adj st_num st_max]. f_equal.
    change (p_hprops P1) with (@nil hyptype). cbn [app]. unfold apps, P1, set_hprops, set_stmts. cbn [p_nvar p_npar p_stmts p_deps p_hprops].
    f_equal.
    + rewrite N1. apply (nth_ext _ _ dummy_stmt dummy_stmt); [rewrite map_length, seq_length; auto|]. intros s Hs. rewrite Ls in Hs.
      rewrite nth_map_seq by auto. rewrite firstn_all2 by (rewrite rs_length; auto). apply (E1 s Hs).
    + change (p_hprops P) with (@nil hyptype). cbn [app]. rewrite <- Lt. symmetry. apply map_nth_seq.
Qed.

Variable h : nat -> hyptype.
Definition rows_state : dstate := update_levels is_emptyb 0 K (mkState (apps nc h rs K P) (st_adj s1) (st_num s1) (st_max s1)).

Lemma row_length s k : (s < n)%nat -> (k < K)%nat -> length (nth k (rs s) []) = nc.
Proof.
  intros Hs Hk. assert (In (nth k (rs s) []) (rs s)) as I by (apply nth_In; rewrite rs_length; auto).
  unfold rs in I |- *. apply in_map_iff in I as (r & <- & Hr). unfold rows_at in Hr. specialize (HX s Hs). destruct (nth s xs _) as [[[d r0] num] fl]. cbn in Hr.
  destruct HX as (X1 & _ & _ & X4). destruct (X4 r Hr) as [Y1 Y2]. unfold frow_row, nc. rewrite !app_length, !repeat_length. cbn [length].
  destruct (start_orig_first pr IN (stmt_of P s)) as [O1 _]. { apply stmt_of_in. unfold P, s1. rewrite (start_n pr IN). auto. }
  unfold P, s1 in O1. rewrite (start_dim pr IN) in O1. rewrite <- (input_simple pr IN) in O1 by auto. unfold P, s1. lia.
Qed.

Lemma apps_on k : (k <= K)%nat ->
  on s1 (mkState (apps nc h rs k P) (st_adj s1) (st_num s1) (st_max s1)).
Proof.
  induction k as [|k IH]; intros L.
  - rewrite apps_0. apply on_refl. apply (start_sound pr IN).
  - pose proof (start_n pr IN) as N1. fold s1 P n in N1.
    rewrite apps_S by (intros s Hs; rewrite rs_length; lia). eapply on_trans; [apply IH; lia|]. apply on_app; [apply IH; lia|].
    intros s Hs. rewrite apps_n, N1 in Hs. rewrite row_length by (auto; lia). reflexivity.
Qed.
Lemma rows_on : on s1 rows_state.
Proof. eapply on_trans; [apply apps_on; apply Nat.le_refl|]. apply on_levels. apply apps_on. lia. Qed.
Lemma levels_stmts k m s : p_stmts (st_prog (update_levels is_emptyb k m s)) = p_stmts (st_prog s).
Proof. unfold update_levels. revert k s. induction m as [|m IH]; intros k s; cbn [seq fold_left]; auto. rewrite IH. reflexivity. Qed.
Lemma rows_rows u : (u < n)%nat -> mrows (s_trans (stmt_of (st_prog rows_state) u)) = rs u.
Proof.
  intros Hu. unfold rows_state, stmt_of. rewrite levels_stmts. cbn [st_prog]. fold (stmt_of (apps nc h rs K P) u).
  rewrite apps_stmt by (unfold P, s1; rewrite (start_n pr IN); auto). rewrite addrows_rows. pose proof (start_rows pr IN u Hu) as R. fold s1 P in R. rewrite R.
  cbn [app]. apply firstn_all2. rewrite rs_length; auto.
Qed.

(** Value of a row on an iteration, without its parameters. *)
Lemma row_value u k x y p : (u < n)%nat -> (k < K)%nat -> f_pars (nth k (rows_at u) dummy_frow) = repeat 0 (p_npar pr) ->
  length x = s_dim (stmt_of pr u) -> (length x + length y)%nat = p_nvar P -> length p = p_npar pr ->
  aff (nth k (rs u) []) ((x ++ y) ++ p) = frow_value (nth k (rows_at u) dummy_frow) x p.
Proof.
  intros Hu Hk Zp Lx Ly Lp. pose proof (rs_length u Hu) as L. unfold rs in *. rewrite map_length in L.
  rewrite (nth_indep _ [] (frow_row (p_nvar P) (p_npar P) dummy_frow)) by (rewrite map_length; lia). rewrite (List.map_nth (frow_row (p_nvar P) (p_npar P))).
  set (r := nth k (rows_at u) dummy_frow) in *.
  assert (length (f_loops r) = length x) as Ll.
  { assert (In r (rows_at u)) as Ir by (apply nth_In; lia). unfold rows_at in Ir. specialize (HX u Hu). destruct (nth u xs _) as [[[d r0] num] fl]. cbn in Ir.
    destruct HX as (X1 & _ & _ & X4). destruct (X4 r Ir) as [Y1 _]. congruence. }
  unfold frow_row, frow_value, aff. rewrite Zp. rewrite (dot_zero_all (repeat 0 _) p) by (intros w Hw; apply repeat_spec in Hw; auto).
  rewrite <- !app_assoc. rewrite dot_app by auto. rewrite dot_app by (rewrite repeat_length; lia).
  rewrite dot_app by (rewrite repeat_length; unfold P, s1; rewrite (start_par pr IN); auto).
  rewrite !(dot_zero_all (repeat 0 _)) by (intros w Hw; apply repeat_spec in Hw; auto). cbn [dot]. lia.
Qed.

Hypothesis EX : exact_empty is_emptyb.
Hypothesis ZP : forall s r, (s < n)%nat -> In r (rows_at s) -> f_pars r = repeat 0 (p_npar pr).

Lemma rows_good : rows_fit pr K rows_at -> good EAGER s1 rows_state.
Proof.
  intros RF. destruct (start_inv pr IN) as [I A]. fold s1 P in I, A. pose proof rows_on as (_ & F & _). split; [|exact F].
  pose proof (start_n pr IN) as N1. fold s1 P n in N1. pose proof (start_sound pr IN) as SO. fold s1 P in SO.
  pose proof (start_blind pr IN) as BL. fold s1 P in BL.
  (* values on the padded iterations *)
  assert (forall d, In d (p_deps P) -> exists d0, In d0 (p_deps pr) /\ d_rar d = d_rar d0 /\ d_src d = d_src d0 /\ d_dst d = d_dst d0 /\
    forall s t p, instance P d s t p -> exists x y, instance pr d0 x y p /\
      forall k, (k < K)%nat ->
        aff (nth k (rs (d_src d)) []) (s ++ p) = frow_value (nth k (rows_at (d_src d)) dummy_frow) x p /\
        aff (nth k (rs (d_dst d)) []) (t ++ p) = frow_value (nth k (rows_at (d_dst d)) dummy_frow) y p) as VAL.
  { intros d Hd. destruct (Forall2_in_r _ _ _ d (ag_dep _ _ A) Hd) as (d0 & Hd0 & E1 & E2 & E3 & E4).
    destruct (proj2 (proj1 SO) d Hd) as (D1 & D2 & _). rewrite N1 in D1, D2.
    exists d0. split; auto. split; auto. split; auto. split; auto. intros s t p (L1 & L2 & L3 & M).
    assert (forall u, (u < n)%nat -> (dim0 pr u <= p_nvar P)%nat) as DD.
    { intros u Hu. destruct (start_orig_first pr IN (stmt_of P u)) as [O1 _]. { apply (stmt_of_in P). rewrite N1. auto. }
      unfold P, s1 in O1. rewrite (start_dim pr IN) in O1. exact O1. }
    pose proof (L1) as L1'. pose proof L2 as L2'. rewrite (proj2 SO _ (stmt_of_in P _ ltac:(rewrite N1; exact D1))) in L1'. rewrite (proj2 SO _ (stmt_of_in P _ ltac:(rewrite N1; exact D2))) in L2'.
    pose proof (BL d Hd s t p L1 L2 M) as M'.
    assert (forall u, dim0 P u = dim0 pr u) as D0 by (intros u; apply (start_dim pr IN)). rewrite !D0 in M'.
    exists (firstn (dim0 pr (d_src d)) s), (firstn (dim0 pr (d_dst d)) t).
    assert (length (firstn (dim0 pr (d_src d)) s) = dim0 pr (d_src d)) as Lx by (rewrite firstn_length; specialize (DD _ D1); lia).
    assert (length (firstn (dim0 pr (d_dst d)) t) = dim0 pr (d_dst d)) as Ly by (rewrite firstn_length; specialize (DD _ D2); lia).
    pose proof (input_simple pr IN) as SI.
    assert (length p = p_npar pr) as Lp by (rewrite L3; apply (start_par pr IN)).
    split.
    - rewrite E1, E2 in *. split; [rewrite Lx; symmetry; apply (SI _ D1)|]. split; [rewrite Ly; symmetry; apply (SI _ D2)|]. split; [auto|].
      apply (E4 _ _ _ Lx Ly Lp) in M'. rewrite !zp_simple in M' by (auto; exact SI). exact M'.
    - intros k Hk.
      assert (forall u w, (u < n)%nat -> length w = p_nvar P -> aff (nth k (rs u) []) (w ++ p) = frow_value (nth k (rows_at u) dummy_frow) (firstn (dim0 pr u) w) p) as RV.
      { intros u w Hu Lw. rewrite <- (firstn_skipn (dim0 pr u) w) at 1. specialize (DD u Hu). apply row_value; auto.
        - apply (ZP u); auto. apply nth_In. pose proof (rs_length u Hu) as X. unfold rs in X. rewrite map_length in X. lia.
        - rewrite firstn_length, (SI u Hu). lia.
        - rewrite firstn_length, skipn_length. lia. }
      split; apply RV; auto. }
  assert (forall k, (k <= K)%nat -> inv EAGER (mkState (apps nc h rs k P) (st_adj s1) (st_num s1) (st_max s1))) as IK.
  { induction k as [|k IH]; intros L.
    - rewrite apps_0. exact I.
    - specialize (IH ltac:(lia)). rewrite apps_S by (intros s Hs; rewrite rs_length; lia).
      assert (forall s, (s < n)%nat -> (k <= length (rs s))%nat) as LR by (intros s Hs; rewrite rs_length; auto; lia).
      assert (frame P (apps nc h rs k P)) as FK by (apply apps_frame; intros s Hs; apply LR; lia).
      apply inv_app; auto.
      + intros s Hs. rewrite apps_n, N1 in Hs. rewrite row_length by (auto; lia). 
        rewrite (i_pad _ _ IH _ (stmt_of_in (apps nc h rs k P) s ltac:(rewrite apps_n, N1; exact Hs))). reflexivity.
      + intros d Hd Hr. change (In d (p_deps P)) in Hd. destruct (VAL d Hd) as (d0 & Hd0 & R0 & S0 & T0 & V).
        destruct (proj2 (proj1 SO) d Hd) as (D1 & D2 & _). rewrite N1 in D1, D2.
        assert (forall s t p, instance (apps nc h rs k P) d s t p -> instance P d s t p) as IP.
        { intros s t p Ii. apply (frame_instance P _ d d s t p FK (same_dep_refl d)). auto. }
        destruct (RF d0 Hd0 ltac:(congruence)) as [WK|(l & Hl & ST & WK)].
        * right. intros s t p Ii. destruct (V s t p (IP s t p Ii)) as (x & y & J & VV). destruct (VV k ltac:(lia)) as [-> ->]. rewrite S0, T0. apply (WK k ltac:(lia)); auto.
        * destruct (le_lt_dec k l) as [Lk|Lk].
          -- right. intros s t p Ii. destruct (V s t p (IP s t p Ii)) as (x & y & J & VV). destruct (VV k ltac:(lia)) as [-> ->]. rewrite S0, T0.
             destruct (Nat.eq_dec k l) as [->|Nk]; [apply Z.lt_le_incl; apply ST; auto|]. apply (WK k ltac:(lia)); auto.
          -- left. cbn [ord]. exists l.
             assert (forall j s t p, (j < k)%nat -> distance (apps nc h rs k P) d j s t p = aff (nth j (rs (d_dst d)) []) (t ++ p) - aff (nth j (rs (d_src d)) []) (s ++ p)) as DI.
             { intros j s t p Hj. unfold distance, theta. rewrite !apps_stmt by (rewrite N1; auto). rewrite !addrows_rows.
               rewrite (start_rows pr IN (d_src d) D1 : mrows (s_trans (stmt_of P (d_src d))) = []), (start_rows pr IN (d_dst d) D2 : mrows (s_trans (stmt_of P (d_dst d))) = []).
               cbn [app]. rewrite !nth_firstn_lt by auto. reflexivity. }
             split; [cbn [p_hprops apps]; rewrite app_length, map_length, seq_length; lia|]. split.
             ++ intros s t p Ii. rewrite DI by auto. destruct (V s t p (IP s t p Ii)) as (x & y & J & VV). destruct (VV l ltac:(lia)) as [-> ->]. rewrite S0, T0. specialize (ST x y p J). cbv beta zeta in ST. lia.
             ++ intros j Hj s t p Ii. rewrite DI by lia. destruct (V s t p (IP s t p Ii)) as (x & y & J & VV). destruct (VV j ltac:(lia)) as [-> ->]. rewrite S0, T0. specialize (WK j Hj x y p J). cbv beta zeta in WK. lia. }
  unfold rows_state. apply (update_levels_good EAGER is_emptyb EX).
  - apply IK. lia.
  - intros k Hk. cbn [st_prog apps p_hprops]. rewrite app_length, map_length, seq_length. lia.
Qed.
End Rows.
