(** * The automatic transformation from its input to its result. *)
From Coq Require Import ZArith List Bool Arith Lia.
From Verif Require Import SpecLinear SpecMatrix VecProofs MathModel ConstraintsModel SimplifyProofs FMProofs EditProofs FarkasProofs
  RankProofs MatrixProofs SpecGraph GraphModel GraphProofs GraphProofs2
  SpecProg SpecDriver FrameworkModel FrameworkProofs SumProofs DepProofs LexProofs ProgModel ProgProofs DriverModel HypProofs KeepProofs DriverProofs PadProofs.
Import ListNotations.
Open Scope Z_scope.

Definition simple (pr : prog) : Prop := forall s, (s < length (p_stmts pr))%nat -> s_dim (stmt_of pr s) = dim0 pr s.

Lemma zp_simple pr s x : simple pr -> (s < length (p_stmts pr))%nat -> length x = dim0 pr s -> zp pr s x = x.
Proof. intros H Hs L. unfold zp. rewrite (H s Hs), L, Nat.sub_diag. apply app_nil_r. Qed.

Definition deps_in (pr : prog) : Prop :=
  forall d, In d (p_deps pr) -> (d_src d < length (p_stmts pr))%nat /\ (d_dst d < length (p_stmts pr))%nat.

Lemma agree_same a b : agree a b -> simple a -> simple b -> deps_in a -> same_program a b.
Proof.
  intros A SA SB DA. destruct A as [A1 A2 A3 A4 A5 A6 A7]. split; [auto|]. split; [auto|]. split.
  - intros s Hs. assert (s_dim (stmt_of b s) = s_dim (stmt_of a s)) as E by (rewrite SA, SB by lia; apply A4). split; [auto|].
    intros i p Li Lp. rewrite SA in Li by auto. specialize (A5 s i p Hs Li Lp). specialize (A6 s i p Hs Li Lp).
    rewrite (zp_simple a s i), (zp_simple b s i) in A5, A6 by (auto; rewrite ?A4; auto; lia). split; [|auto].
    unfold iteration. rewrite E, A5. tauto.
  - assert (forall d, In d (p_deps a) -> (d_src d < length (p_stmts a))%nat /\ (d_dst d < length (p_stmts a))%nat) as D by auto.
    clear DA. revert A7 D. generalize (p_deps a) (p_deps b). intros l l' H. induction H as [|d d' l l' H _ IH]; intros D; constructor.
    + destruct (D d) as [D1 D2]; [simpl; auto|]. destruct H as (H1 & H2 & H3 & H4). split; [auto|]. split; [auto|]. split; [auto|].
      intros s t p. unfold instance. rewrite H1, H2, A3. rewrite (SB (d_src d)), (SB (d_dst d)), (SA (d_src d)), (SA (d_dst d)), !A4 by lia.
      split; intros (L1 & L2 & L3 & M); (split; [auto|split; [auto|split; [auto|]]]); specialize (H4 s t p L1 L2 L3);
        rewrite (zp_simple a), (zp_simple a (d_dst d)), (zp_simple b), (zp_simple b (d_dst d)) in H4 by (auto; rewrite ?A4; auto; lia); tauto.
    + apply IH. intros d0 H0. apply D. simpl; auto.
Qed.

(** ** The state before the first round *)

Lemma clear_stmt pr s : (s < length (p_stmts pr))%nat ->
  stmt_of (clear_schedules pr) s = set_hyp (set_trans (stmt_of pr s) (mkMat (s_dim (stmt_of pr s) + p_npar pr + 1) [])) [].
Proof.
  intros H. unfold stmt_of, clear_schedules. cbn [p_stmts].
  match goal with |- nth s (map ?f _) _ = _ => rewrite (nth_indep _ dummy_stmt (f dummy_stmt)) by (rewrite map_length; auto); rewrite (List.map_nth f) end.
  reflexivity.
Qed.
Lemma clear_n pr : length (p_stmts (clear_schedules pr)) = length (p_stmts pr).
Proof. apply map_length. Qed.

Lemma clear_frame pr : frame pr (clear_schedules pr).
Proof.
  split; [reflexivity|]. split; [reflexivity|]. split; [apply clear_n|]. split.
  - intros s. destruct (le_lt_dec (length (p_stmts pr)) s) as [L|L].
    + unfold stmt_of. rewrite !nth_overflow; auto. apply same_stmt_refl. rewrite clear_n. auto.
    + rewrite clear_stmt by auto. unfold same_stmt; cbn; auto 10.
  - apply Forall2_map_in. intros d _. repeat split.
Qed.

Lemma clear_cleared pr f : input_ok pr -> cleared (with_scc (clear_schedules pr) f) /\ simple (with_scc (clear_schedules pr) f).
Proof.
  intros [[W1 W2] Hi]. set (q := with_scc (clear_schedules pr) f).
  assert (length (p_stmts q) = length (p_stmts pr)) as N by (unfold q; rewrite with_scc_nstmts; apply clear_n).
  assert (forall s, (s < length (p_stmts pr))%nat -> stmt_of q s = set_scc (set_hyp (set_trans (stmt_of pr s) (mkMat (s_dim (stmt_of pr s) + p_npar pr + 1) [])) []) (f s)) as E.
  { intros s Hs. unfold q. rewrite with_scc_stmt by (rewrite clear_n; auto). rewrite clear_stmt; auto. }
  assert (frame pr q) as F by (eapply frame_trans; [apply clear_frame|apply with_scc_frame]).
  split; [constructor|].
  - split; [|exact (frame_deps_wf _ _ F W2)]. intros st Hst. apply in_stmt_of in Hst as (s & Hs & <-). rewrite N in Hs.
    rewrite E by auto. destruct (W1 _ (stmt_of_in pr s Hs)) as (A & B & C & D & G & K).
    unfold wf_cols. cbn [set_scc set_hyp set_trans s_orig s_dim s_trans s_domain s_reads s_writes mncols]. change (p_npar q) with (p_npar pr).
    split; [auto|]. split; [auto|]. split; [intros r []|]. auto.
  - intros s Hs. rewrite N in Hs. unfold dim0. rewrite E by auto. destruct (Hi _ (stmt_of_in pr s Hs)) as (A & B & C).
    cbn [set_scc set_hyp set_trans s_orig s_dim s_trans s_hyp s_dim_orig mrows]. change (p_nvar q) with (p_nvar pr).
    split; [lia|]. split; [auto|]. split; [auto|]. rewrite C, A, Nat.sub_diag. cbn. rewrite app_nil_r. auto.
  - intros s Hs. rewrite N in Hs. unfold dim0. rewrite E by auto. destruct (Hi _ (stmt_of_in pr s Hs)) as (A & B & C). exact A.
Qed.

Definition start_state (pr : prog) : dstate :=
  let pr0 := clear_schedules pr in
  let s0 := compute_scc (mkState pr0 (graph_of pr0) 0 []) in
  mkState (set_hprops (normalize_domains (st_prog s0)) []) (st_adj s0) (st_num s0) (st_max s0).

Lemma start_inv pr : input_ok pr -> inv EAGER (start_state pr) /\ agree pr (st_prog (start_state pr)).
Proof.
  intros IN. unfold start_state. cbv zeta. set (pr0 := clear_schedules pr).
  assert (length (p_stmts pr0) = length (p_stmts pr)) as N0 by apply clear_n.
  pose proof (clear_frame pr) as F0. fold pr0 in F0.
  assert (forall d, In d (p_deps pr0) -> wf_dep pr0 d) as WD0 by (apply (frame_deps_wf _ _ F0); apply IN).
  assert (ddeps_ok (length (p_stmts pr0)) (map to_ddep (p_deps pr0))) as OK.
  { intros dd Hd. apply in_map_iff in Hd as (d & <- & Hd). destruct (WD0 d Hd) as (A & B & _). cbn. auto. }
  destruct (ddg_create_count _ _ OK) as [WG _]. fold (graph_of pr0) in WG.
  unfold compute_scc. cbn [st_prog st_adj].
  pose proof (scc_correct (length (p_stmts pr0)) (graph_of pr0) (repeat 0%nat (length (p_stmts pr0))) (repeat 0 (length (p_stmts pr0))) WG (repeat_length _ _)) as C.
  destruct (GraphModel.ddg_compute_scc _ _ _ _) as [scc num]. destruct C as (C1 & C2 & _ & _ & C5). cbn [st_prog st_adj st_num st_max].
  fold (with_scc pr0 (fun i => nth i scc 0)). set (q := with_scc pr0 (fun i => nth i scc 0)).
  destruct (clear_cleared pr (fun i => nth i scc 0) IN) as [CL SI]. fold pr0 q in CL, SI.
  assert (length (p_stmts q) = length (p_stmts pr)) as Nq by (unfold q; rewrite with_scc_nstmts; auto).
  pose proof (with_scc_frame pr0 (fun i => nth i scc 0)) as F1. fold q in F1.
  destruct (normalize_ok q CL SI) as [[P1 P2 P3 P4] P5]. set (z := normalize_domains q) in *.
  assert (length (p_stmts z) = length (p_stmts pr)) as Nz by (rewrite (ag_n _ _ P2); auto).
  assert (agree pr z) as AG. { eapply agree_trans; [|exact P2]. apply frame_agree. eapply frame_trans; eauto. }
  assert (agree z (set_hprops z [])) as AZ.
  { constructor; auto; try (intros; tauto). apply Forall2_refl_in. intros d. unfold dep_agree. intuition. }
  split; [|eapply agree_trans; eauto].
  destruct P1 as [[W1 W2] W3].
  constructor; cbn [st_prog st_adj st_num st_max].
  - split; [|exact W2]. intros st Hst. change (In st (p_stmts z)) in Hst. destruct (W1 st Hst) as (A & B & Cc & D & E & G).
    apply in_stmt_of in Hst as (s & Hs & <-). destruct (W3 s Hs) as (_ & R & H & _).
    split; [exact A|]. split; [exact B|]. split; [exact Cc|]. split; [unfold mnrows; rewrite R; reflexivity|]. split; [rewrite H; reflexivity|].
    split; [exact D|]. split; [exact E|exact G].
  - intros st Hst. change (In st (p_stmts z)) in Hst. apply in_stmt_of in Hst as (s & Hs & <-). rewrite P5 by (rewrite Nq; lia).
    symmetry. apply (ag_var _ _ P2).
  - intros st Hst. change (In st (p_stmts z)) in Hst. apply in_stmt_of in Hst as (s & Hs & <-). destruct (W3 s Hs) as (R & _ & _ & O).
    change (p_nvar (set_hprops z [])) with (p_nvar z). unfold dim0 in *. split; [lia|]. rewrite O. do 2 f_equal.
    rewrite P5 by (rewrite Nq; lia). rewrite (ag_var _ _ P2). auto.
  - change (p_stmts (set_hprops z [])) with (p_stmts z). rewrite Nz. rewrite N0 in WG. auto.
  - intros u Hu. change (p_stmts (set_hprops z [])) with (p_stmts z) in Hu. change (scc_of (set_hprops z []) u) with (scc_of z u).
    rewrite P3. unfold scc_of, q. rewrite with_scc_stmt by lia. cbn. apply C2. lia.
  - rewrite map_length, seq_length. auto.
  - intros d Hd Hr. change (In d (p_deps z)) in Hd.
    assert (exists d0, In d0 (p_deps q) /\ d_sat d = d_sat d0 /\ d_src d = d_src d0 /\ d_dst d = d_dst d0 /\ d_rar d = d_rar d0) as (d0 & H0 & E1 & E2 & E3 & E4).
    { pose proof (ag_dep _ _ P2) as D2. unfold sat_kept in P4. clear - P4 D2 Hd. revert P4 D2 Hd. generalize (p_deps q) (p_deps z). intros l l' H.
      induction H as [|a b l l' H _ IH]; intros D2 Hd; [destruct Hd|]. inversion D2 as [|? ? ? ? Y1 Y2]; subst. destruct Y1 as (X1 & X2 & X3 & _).
      destruct Hd as [<-|Hd]; [exists a; simpl; auto 10|]. destruct (IH Y2 Hd) as (d0 & I & J). exists d0. simpl; auto. }
    assert (d_sat d0 = false) as S0. { change (In d0 (p_deps pr0)) in H0. unfold pr0, clear_schedules in H0. cbn in H0. apply in_map_iff in H0 as (x & <- & _). auto. }
    split; cbn [st_prog st_adj]; [congruence|]. right. split; [intros k Hk; cbn in Hk; lia|].
    assert (edge (graph_of pr0) (d_src d) (d_dst d)) as ED.
    { apply ddg_create_edge; auto. exists (to_ddep d0). split. apply in_map. exact H0. cbn. repeat split; congruence. }
    split; auto. change (scc_of (set_hprops z [])) with (scc_of z). rewrite !P3. destruct (WD0 d0 H0) as (B1 & B2 & _).
    unfold scc_of, q. rewrite !with_scc_stmt by (rewrite ?E2, ?E3; auto). cbn. apply C5. auto.
Qed.

(** ** Cuts between components *)
Section CutEffect.
Variable is_emptyb : cst -> bool.
Hypothesis EX : exact_empty is_emptyb.
Variables (pr : prog) (f : stmt -> Z).
Hypothesis W : wf_prog pr.
Hypothesis P : padded pr.
Hypothesis NE : p_stmts pr <> [].
Let c := fun u => f (stmt_of pr u).
Let q := add_scalar_level pr f.
Let k := length (p_hprops pr).

Lemma last_level : (nrows0 q - 1)%nat = k.
Proof.
  assert (0 < length (p_stmts pr))%nat as L by (destruct (p_stmts pr); [congruence|cbn; lia]).
  unfold nrows0, q. rewrite scalar_level_app, app_level_stmt by auto. unfold mnrows. rewrite append_row_rows, app_length. cbn [length].
  pose proof (wf_nrows pr 0 W L). unfold mnrows, k in *. lia.
Qed.

Lemma scalar_wf : wf_prog q.
Proof.
  unfold q. rewrite scalar_level_app. apply app_level_wf; auto. intros s Hs. rewrite const_row_length.
  rewrite (P _ (stmt_of_in pr s Hs)). auto.
Qed.

Lemma scalar_app : scalar_appended pr q c.
Proof.
  unfold q. rewrite scalar_level_app. split; [reflexivity|]. intros u i p Hu Li Lp. rewrite app_level_stmt by auto.
  rewrite append_timestamp. do 2 f_equal. rewrite (P _ (stmt_of_in pr u Hu)) in Li. apply const_row_aff; auto.
Qed.

Lemma scalar_distance d s t p : wf_dep pr d -> instance pr d s t p -> distance q d k s t p = c (d_dst d) - c (d_src d).
Proof.
  intros (D1 & D2 & _) (L1 & L2 & L3 & _). unfold q, k. rewrite scalar_level_app.
  rewrite (P _ (stmt_of_in pr _ D1)) in L1. rewrite (P _ (stmt_of_in pr _ D2)) in L2.
  unfold distance. rewrite !app_level_stmt by auto.
  rewrite <- (wf_nrows pr (d_dst d)) at 1 by auto. rewrite <- (wf_nrows pr (d_src d)) by auto. rewrite !append_theta_new.
  rewrite !const_row_aff by auto. reflexivity.
Qed.

Lemma scalar_strict d : wf_dep pr d -> (strict_at q d k <-> c (d_src d) < c (d_dst d) \/ forall s t p, ~ instance pr d s t p).
Proof.
  intros WD. assert (frame pr q) as F by (unfold q; rewrite scalar_level_app; apply app_level_frame).
  assert (forall s t p, instance q d s t p <-> instance pr d s t p) as II by (intros; apply (frame_instance pr q d d); auto using same_dep_refl).
  split.
  - intros H. destruct (Z_lt_le_dec (c (d_src d)) (c (d_dst d))) as [L|L]; auto. right. intros s t p I. pose proof (H s t p (proj2 (II s t p) I)) as D.
    rewrite scalar_distance in D by auto. lia.
  - intros H s t p I. apply II in I. rewrite scalar_distance by auto. destruct H as [H|H]; [lia|]. destruct (H s t p I).
Qed.

Hypothesis MONO : forall d, In d (p_deps pr) -> d_rar d = false -> d_sat d = false -> c (d_src d) <= c (d_dst d).

Lemma update_effect d : In d (p_deps pr) -> cut_effect pr c d (update_dep is_emptyb q k d).
Proof.
  intros Hd. assert (wf_dep pr d) as WD by (apply W; auto).
  assert (wf_dep q d) as WD' by (apply scalar_wf; unfold q; rewrite scalar_level_app; auto).
  assert (k < length (p_hprops q))%nat as Hk by (unfold q; rewrite scalar_level_app; cbn; rewrite app_length; cbn; unfold k; lia).
  destruct (update_same is_emptyb q k d) as (E1 & E2 & E3 & E4 & _).
  split; [auto|]. split; [auto|]. split; [auto|]. split; [auto|]. unfold update_dep. split.
  - intros Sa. rewrite Sa. auto.
  - intros Sa Hr. split; [auto|]. rewrite Sa. pose proof (sat_test_spec is_emptyb EX q d scalar_wf WD' k Hk) as T.
    rewrite <- scalar_strict by auto. rewrite <- T. destruct (dep_satisfaction_test is_emptyb q d k); cbn; [tauto|]. rewrite Sa. tauto.
Qed.

Lemma keep_effect s : st_prog s = pr ->
  let '(s', n) := keep_if_useful is_emptyb s q in
  (n = 0%nat /\ p_hprops (st_prog s') = p_hprops pr /\ (forall u, s_trans (stmt_of (st_prog s') u) = s_trans (stmt_of pr u)) /\
   Forall2 (fun d d' => same_dep d d' /\ (d_rar d = false -> d' = d)) (p_deps pr) (p_deps (st_prog s')))
  \/ ((1 <= n)%nat /\ scalar_appended pr (st_prog s') c /\ Forall2 (cut_effect pr c) (p_deps pr) (p_deps (st_prog s'))).
Proof.
  intros Es. unfold keep_if_useful. rewrite last_level. unfold dep_satisfaction_update.
  set (n := length (filter _ _)). destruct (1 <=? n)%nat eqn:En.
  - right. apply Nat.leb_le in En. split; [auto|]. cbn [ddg_update st_prog]. split.
    + destruct scalar_app as [A B]. split; [exact A|exact B].
    + cbn [set_deps p_deps]. replace (p_deps q) with (p_deps pr) by (unfold q; rewrite scalar_level_app; auto).
      apply Forall2_map_in. apply update_effect.
  - left. apply Nat.leb_gt in En. split; [lia|]. cbn [st_prog]. unfold q. rewrite scalar_level_app.
    destruct (drop_app pr H_SCALAR (fun _ => H_SCALAR) (fun s => const_row pr (f (stmt_of pr s))) (update_dep is_emptyb q k) W) as (D1 & D2 & D3 & D4).
    { intros d; apply update_same. }
    unfold q in D1, D2, D3, D4. rewrite scalar_level_app in D1, D2, D3, D4. cbn [p_deps app_level].
    split; [exact D2|]. split; [intros u; apply D4|]. rewrite D3. apply Forall2_map_in. intros d Hd. split; [apply update_same|].
    intros Hr. unfold update_dep. destruct (d_sat d) eqn:Sa; auto.
    destruct (dep_satisfaction_test is_emptyb _ d k) eqn:T; auto. exfalso.
    assert (In d (filter (fun d => negb (d_sat d) && negb (d_rar d) && dep_satisfaction_test is_emptyb q d k) (p_deps q))) as J.
    { apply filter_In. unfold q. rewrite scalar_level_app. split; auto. rewrite Sa, Hr, T. auto. }
    fold n in En. unfold n in En. destruct (filter _ _); [destruct J|cbn in En; lia].
Qed.
End CutEffect.

(** Component numbers never decrease along unsatisfied dependences after the
    components have been computed. *)
Lemma scc_mono pr n m : wf_prog pr ->
  let s := compute_scc (mkState pr (graph_of pr) n m) in
  forall d, In d (p_deps pr) -> d_rar d = false -> d_sat d = false ->
  0 <= s_scc (stmt_of (st_prog s) (d_src d)) /\ s_scc (stmt_of (st_prog s) (d_src d)) <= s_scc (stmt_of (st_prog s) (d_dst d)) < Z.of_nat (st_num s) /\
  length (st_max s) = st_num s.
Proof.
  intros W s d Hd Hr Hs.
  assert (ddeps_ok (length (p_stmts pr)) (map to_ddep (p_deps pr))) as OK.
  { intros dd Hdd. apply in_map_iff in Hdd as (e & <- & He). destruct (proj2 W e He) as (A & B & _). cbn. auto. }
  destruct (ddg_create_count _ _ OK) as [WG _]. fold (graph_of pr) in WG.
  unfold s, compute_scc. cbn [st_prog st_adj].
  pose proof (scc_correct (length (p_stmts pr)) (graph_of pr) (repeat 0%nat (length (p_stmts pr))) (repeat 0 (length (p_stmts pr))) WG (repeat_length _ _)) as C.
  destruct (GraphModel.ddg_compute_scc _ _ _ _) as [scc num]. destruct C as (C1 & C2 & _ & _ & C5). cbn [st_prog st_adj st_num st_max].
  fold (with_scc pr (fun i => nth i scc 0)). destruct (proj2 W d Hd) as (D1 & D2 & _). rewrite !with_scc_stmt by auto. cbn [set_scc s_scc].
  rewrite map_length, seq_length. assert (edge (graph_of pr) (d_src d) (d_dst d)) as ED.
  { apply ddg_create_edge; auto. exists (to_ddep d). split. apply in_map. exact Hd. cbn. auto. }
  pose proof (C2 _ D1). pose proof (C2 _ D2). pose proof (C5 _ _ ED). lia.
Qed.

(** The state whose components have just been computed. *)
Definition fresh (pr : prog) (n : nat) (m : list Z) : dstate := compute_scc (mkState pr (graph_of pr) n m).
Definition comp (s : dstate) (u : nat) : Z := s_scc (stmt_of (st_prog s) u).

Lemma reach_chain pr : wf_prog pr -> forall u v, reach (graph_of pr) u v <-> dep_chain pr u v.
Proof.
  intros W.
  assert (ddeps_ok (length (p_stmts pr)) (map to_ddep (p_deps pr))) as OK.
  { intros dd Hdd. apply in_map_iff in Hdd as (e & <- & He). destruct (proj2 W e He) as (A & B & _). cbn. auto. }
  intros u v. split.
  - induction 1 as [u|u v w E _ IH]; [constructor|]. apply ddg_create_edge in E; auto. destruct E as (dd & Hd & Hr & Hs & <- & <-).
    apply in_map_iff in Hd as (d & <- & Hd). cbn in *. eapply chain_step; eauto.
  - induction 1 as [u|d w Hd Hr Hs _ IH]; [constructor|]. econstructor; [|exact IH]. apply ddg_create_edge; auto.
    exists (to_ddep d). split; [apply in_map; exact Hd|]. cbn. auto.
Qed.

Lemma fresh_comp pr n m : wf_prog pr ->
  let s := fresh pr n m in
  (forall u, (u < length (p_stmts pr))%nat -> 0 <= comp s u < Z.of_nat (st_num s)) /\
  (forall u v, (u < length (p_stmts pr))%nat -> (v < length (p_stmts pr))%nat ->
     (comp s u = comp s v <-> dep_chain pr u v /\ dep_chain pr v u)) /\
  (forall u v, (u < length (p_stmts pr))%nat -> (v < length (p_stmts pr))%nat -> dep_chain pr u v -> comp s u <= comp s v) /\
  (forall k, (k < st_num s)%nat ->
     (forall u, (u < length (p_stmts pr))%nat -> comp s u = Z.of_nat k -> Z.of_nat (s_dim_orig (stmt_of pr u)) <= nth k (st_max s) 0) /\
     exists u, (u < length (p_stmts pr))%nat /\ comp s u = Z.of_nat k /\ nth k (st_max s) 0 = Z.of_nat (s_dim_orig (stmt_of pr u))).
Proof.
  intros W s.
  assert (ddeps_ok (length (p_stmts pr)) (map to_ddep (p_deps pr))) as OK.
  { intros dd Hdd. apply in_map_iff in Hdd as (e & <- & He). destruct (proj2 W e He) as (A & B & _). cbn. auto. }
  destruct (ddg_create_count _ _ OK) as [WG _]. fold (graph_of pr) in WG.
  unfold s, fresh, comp, compute_scc. cbn [st_prog st_adj].
  pose proof (scc_correct (length (p_stmts pr)) (graph_of pr) (repeat 0%nat (length (p_stmts pr))) (repeat 0 (length (p_stmts pr))) WG (repeat_length _ _)) as C.
  destruct (GraphModel.ddg_compute_scc _ _ _ _) as [scc num]. destruct C as (C1 & C2 & C3 & C4 & C5). cbn [st_prog st_adj st_num st_max].
  fold (with_scc pr (fun i => nth i scc 0)).
  split; [|split; [|split]].
  - intros u Hu. rewrite with_scc_stmt by auto. apply C2; auto.
  - intros u v Hu Hv. rewrite !with_scc_stmt by auto. cbn [set_scc s_scc]. rewrite <- !reach_chain by auto. apply C4; auto.
  - intros u v Hu Hv H. rewrite !with_scc_stmt by auto. cbn [set_scc s_scc]. apply reach_chain in H; auto.
    clear - H C5. induction H as [u|u v w E _ IH]; [lia|]. specialize (C5 _ _ E). lia.
  - intros k Hk. rewrite nth_map_seq by auto.
    destruct (max_dim_spec scc (map s_dim_orig (p_stmts pr)) (Z.of_nat k)) as [M1 M2]; [rewrite map_length; auto|].
    assert (forall u, (u < length (p_stmts pr))%nat -> nth u (map s_dim_orig (p_stmts pr)) 0%nat = s_dim_orig (stmt_of pr u)) as ND.
    { intros u Hu. unfold stmt_of. rewrite <- List.map_nth with (f := s_dim_orig). apply nth_indep. rewrite map_length. auto. }
    split.
    + intros u Hu E. rewrite with_scc_stmt in E by auto. cbn [set_scc s_scc] in E. rewrite <- ND by auto. apply M1; auto. lia.
    + destruct M2 as [M2|(u & Hu & E & M2)].
      * exfalso. destruct (C3 k Hk) as (u & Hu & E). specialize (M1 u ltac:(lia) E). lia.
      * exists u. rewrite C1 in Hu. rewrite with_scc_stmt by auto. cbn [set_scc s_scc]. rewrite <- ND by auto. auto.
Qed.

Lemma dim_counts_step : forall l cur count k, (S k < length l)%nat ->
  nth (S k) (dim_counts cur count l) 0 = nth k (dim_counts cur count l) 0 + (if nth (S k) l 0 =? nth k l 0 then 0 else 1).
Proof.
  assert (forall l cur count, l <> [] -> nth 0 (dim_counts cur count l) 0 = count + (if nth 0 l 0 =? cur then 0 else 1)) as H0.
  { intros [|m l] cur count H; [congruence|]. simpl. rewrite (Z.eqb_sym m cur). destruct (cur =? m); simpl; lia. }
  induction l as [|m l IH]; intros cur count k Hk; [simpl in Hk; lia|]. cbn [dim_counts].
  destruct (Z.eqb_spec cur m) as [->|N]; (destruct k as [|k]; cbn [nth]; [rewrite H0; [reflexivity|destruct l; simpl in Hk; [lia|discriminate]]|apply IH; simpl in Hk; lia]).
Qed.

Lemma fresh_prog pr n m : exists g, st_prog (fresh pr n m) = with_scc pr g.
Proof. destruct (compute_scc_prog (mkState pr (graph_of pr) n m)) as (g & E). exists g. exact E. Qed.

Lemma scalar_appended_frame a a' b c : frame a a' -> (forall u, s_trans (stmt_of a' u) = s_trans (stmt_of a u)) -> p_hprops a' = p_hprops a ->
  scalar_appended a' b c -> scalar_appended a b c.
Proof.
  intros (F1 & F2 & F3 & F4 & _) T H [A B]. split; [congruence|]. intros u i p Hu Li Lp. rewrite B.
  - unfold timestamp. rewrite T. auto.
  - congruence.
  - destruct (F4 u) as (-> & _). auto.
  - congruence.
Qed.
Lemma cut_effect_frame a a' c d d' : frame a a' -> cut_effect a' c d d' -> cut_effect a c d d'.
Proof.
  intros F (E1 & E2 & E3 & E4 & E5 & E6). split; [auto|]. split; [auto|]. split; [auto|]. split; [auto|]. split; [auto|].
  intros Sa Hr. destruct (E6 Sa Hr) as [G1 G2]. split; [auto|]. rewrite G2. split; (intros [H|H]; [left; auto|right]); intros s t p I; apply (H s t p).
  - apply (frame_instance a a' d d); auto using same_dep_refl.
  - apply (frame_instance a a' d d) in I; auto using same_dep_refl.
Qed.

Section FreshCuts.
Variable is_emptyb : cst -> bool.
Hypothesis EX : exact_empty is_emptyb.
Variables (pr : prog) (n : nat) (m : list Z).
Hypothesis W : wf_prog pr.
Hypothesis P : padded pr.
Hypothesis NE : p_stmts pr <> [].
Let s := fresh pr n m.

Definition cut_result (s' : dstate) (k : nat) (c : nat -> Z) : Prop :=
  (k = 0%nat /\ not_cut pr (st_prog s')) \/
  ((1 <= k)%nat /\ scalar_appended pr (st_prog s') c /\ Forall2 (cut_effect pr c) (p_deps pr) (p_deps (st_prog s'))).

Lemma fresh_facts : wf_prog (st_prog s) /\ padded (st_prog s) /\ p_stmts (st_prog s) <> [] /\ frame pr (st_prog s) /\
  (forall u, s_trans (stmt_of (st_prog s) u) = s_trans (stmt_of pr u)) /\ p_hprops (st_prog s) = p_hprops pr /\ p_deps (st_prog s) = p_deps pr.
Proof.
  destruct (fresh_prog pr n m) as (g & E). fold s in E. rewrite E. split; [apply with_scc_wf; auto|].
  split; [eapply frame_padded; eauto; apply with_scc_frame|]. split.
  - intros H. apply (f_equal (@length _)) in H. rewrite with_scc_nstmts in H. destruct (p_stmts pr); [congruence|discriminate].
  - split; [apply with_scc_frame|]. split; [apply with_scc_trans|]. auto.
Qed.

Lemma fresh_mono f : (forall u v, 0 <= comp s u -> comp s u <= comp s v < Z.of_nat (st_num s) -> length (st_max s) = st_num s -> f (stmt_of (st_prog s) u) <= f (stmt_of (st_prog s) v)) ->
  forall d, In d (p_deps (st_prog s)) -> d_rar d = false -> d_sat d = false -> f (stmt_of (st_prog s) (d_src d)) <= f (stmt_of (st_prog s) (d_dst d)).
Proof.
  intros H d Hd Hr Hs. destruct fresh_facts as (_ & _ & _ & _ & _ & _ & E). rewrite E in Hd.
  destruct (scc_mono pr n m W d Hd Hr Hs) as (A & B & C). apply H; auto.
Qed.

Lemma keep_fresh f : (forall u v, 0 <= comp s u -> comp s u <= comp s v < Z.of_nat (st_num s) -> length (st_max s) = st_num s -> f (stmt_of (st_prog s) u) <= f (stmt_of (st_prog s) v)) ->
  let '(s', k) := keep_if_useful is_emptyb s (add_scalar_level (st_prog s) f) in cut_result s' k (fun u => f (stmt_of (st_prog s) u)).
Proof.
  intros M. destruct fresh_facts as (W' & P' & N' & F & T & H & D).
  pose proof (keep_effect is_emptyb EX (st_prog s) f W' P' N' (fresh_mono f M) s eq_refl) as K.
  destruct (keep_if_useful _ _ _) as [s' k]. destruct K as [(K1 & K2 & K3 & K4)|(K1 & K2 & K3)]; [left|right].
  - split; [auto|]. split; [congruence|]. split; [intros u; rewrite K3; auto|]. rewrite <- D. clear - K4.
    induction K4 as [|d d' l l' [(_ & _ & H & _) H'] _ IH]; constructor; auto.
  - split; [auto|]. split; [eapply scalar_appended_frame; eauto|]. rewrite <- D. clear - K3 F. induction K3; constructor; auto. eapply cut_effect_frame; eauto.
Qed.

Lemma cut_all_fresh : let '(s', k) := cut_all_sccs is_emptyb s in
  (st_num s = 1%nat /\ s' = s) \/
  (st_num s <> 1%nat /\ scalar_appended pr (st_prog s') (comp s) /\ Forall2 (cut_effect pr (comp s)) (p_deps pr) (p_deps (st_prog s'))).
Proof.
  unfold cut_all_sccs. destruct (Nat.eqb_spec (st_num s) 1) as [E|E]; [left; auto|].
  destruct fresh_facts as (W' & P' & N' & F & T & H & D). cbv zeta. rewrite last_level by auto. unfold dep_satisfaction_update.
  right. split; [auto|]. cbn [ddg_update st_prog]. split.
  - eapply scalar_appended_frame; eauto. destruct (scalar_app (st_prog s) s_scc P') as [A B]. split; [exact A|exact B].
  - cbn [set_deps p_deps]. replace (p_deps (add_scalar_level (st_prog s) s_scc)) with (p_deps pr) by (rewrite scalar_level_app; auto).
    apply Forall2_map_in. intros d Hd. eapply cut_effect_frame; eauto. rewrite <- D in Hd.
    apply (update_effect is_emptyb EX (st_prog s) s_scc W' P'); auto. apply fresh_mono. intros u v _ X _. apply X.
Qed.

Lemma cut_between_fresh i j : let '(s', k) := cut_between_sccs is_emptyb s i j in
  (k = 0%nat /\ s' = s) \/ cut_result s' k (fun u => if comp s u <? j then 0 else 1).
Proof.
  unfold cut_between_sccs. destruct (negb _); [left; auto|].
  pose proof (keep_fresh (fun st => if s_scc st <? j then 0 else 1)) as K. destruct (keep_if_useful _ _ _) as [s' k]. right. apply K.
  intros u v _ H _. unfold comp in H. destruct (Z.ltb_spec (s_scc (stmt_of (st_prog s) u)) j), (Z.ltb_spec (s_scc (stmt_of (st_prog s) v)) j); lia.
Qed.

Lemma cut_dim_fresh : let '(s', k) := cut_scc_dim_based is_emptyb s in
  (k = 0%nat /\ s' = s) \/
  exists c : Z -> Z, c 0 = 0 /\ (forall q, 0 <= q -> q + 1 < Z.of_nat (st_num s) ->
      c (q + 1) = c q + (if nth (Z.to_nat (q + 1)) (st_max s) 0 =? nth (Z.to_nat q) (st_max s) 0 then 0 else 1)) /\
    cut_result s' k (fun u => c (comp s u)).
Proof.
  unfold cut_scc_dim_based. destruct (st_num s =? 1)%nat; [left; auto|]. cbv zeta.
  set (c := fun q => nth (Z.to_nat q) (dim_counts (nth 0 (st_max s) 0) 0 (st_max s)) 0).
  pose proof (keep_fresh (fun st => c (s_scc st))) as K. unfold c in K at 1 2 3.
  destruct (keep_if_useful _ _ _) as [s' k]. right.
  assert (length (st_max s) = st_num s) as LM.
  { unfold s, fresh, compute_scc. destruct (GraphModel.ddg_compute_scc _ _ _ _). cbn. rewrite map_length, seq_length. auto. }
  exists c. split; [|split].
  - unfold c. change (Z.to_nat 0) with 0%nat. destruct (st_max s) as [|m0 l]; [reflexivity|]. simpl. rewrite Z.eqb_refl. reflexivity.
  - intros q H1 H2. unfold c. rewrite Z2Nat.inj_add by lia. rewrite Nat.add_1_r. apply dim_counts_step. lia.
  - apply K. intros u v A B _. unfold comp, c in *. destruct (dim_counts_mono (st_max s) (nth 0 (st_max s) 0) 0) as (_ & _ & C). apply C. lia.
Qed.
End FreshCuts.

(** ** Full rank and one-to-one schedules *)

Lemma span_orth n B v x : wfv n B -> length v = n -> length x = n -> in_span n B v -> (forall b, In b B -> dot b x = 0) -> dot v x = 0.
Proof.
  intros W Lv Lx (d & cs & Hd & Lc & E) H.
  assert (dot x (map (Z.mul d) v) = 0) as K.
  { rewrite E. apply (dot_lincomb_zero n x cs B); auto. intros u Hu. rewrite dot_comm. auto. }
  rewrite dot_map_mul_r in K. rewrite dot_comm. nia.
Qed.

Lemma dot_self_zero x : dot x x = 0 -> forall v, In v x -> v = 0.
Proof.
  assert (forall y, 0 <= dot y y) as P by (induction y; cbn; [lia|nia]).
  induction x as [|a x IH]; cbn; intros H v Hv; [destruct Hv|]. specialize (P x). destruct Hv as [<-|Hv]; [nia|]. apply IH; auto. nia.
Qed.

Lemma rank_kernel n vs : wfv n vs -> has_rank n vs n <-> (forall x, length x = n -> (forall v, In v vs -> dot v x = 0) -> forall c, In c x -> c = 0).
Proof.
  intros W. split.
  - intros (B & LB & WB & IB & S1 & S2) x Lx Hx. apply dot_self_zero.
    apply (span_orth n B); auto. apply basis_spans; auto.
    intros b Hb. apply (span_orth n vs); auto.
  - intros H. destruct (le_lt_dec n (length vs)) as [L|L].
    + pose proof (rank_ok (mkMat n vs) W L) as R. cbn [mncols mrows] in R. pose proof (has_rank_le _ _ _ R) as Rl.
      destruct (Nat.eq_dec (matrix_get_rank (mkMat n vs)) n) as [E|N]; [rewrite E in R; auto|]. exfalso.
      destruct R as (B & LB & WB & IB & S1 & S2).
      destruct (homogeneous_nontrivial B n WB) as (x & Lx & (v & Hv & Nv) & Hx); [lia|].
      apply Nv. apply (H x Lx); auto. intros w Hw. apply (span_orth n B); auto.
    + exfalso. destruct (homogeneous_nontrivial vs n W L) as (x & Lx & (v & Hv & Nv) & Hx). apply Nv. apply (H x Lx); auto.
Qed.

Lemma zip_sub_zero : forall a b, length a = length b -> (forall c, In c (zip_with Z.sub a b) -> c = 0) -> a = b.
Proof.
  induction a as [|x a IH]; destruct b as [|y b]; cbn; intros L H; try discriminate; auto.
  f_equal. specialize (H (x - y) (or_introl eq_refl)). lia. apply IH; [lia|]. intros c Hc. apply H. auto.
Qed.

Lemma aff_split n r i p : (n <= length i)%nat -> length r = S (length (i ++ p)) ->
  aff r (i ++ p) = dot (firstn n r) (firstn n i) + aff (skipn n r) (skipn n i ++ p).
Proof.
  intros L Lr. unfold aff. rewrite <- (firstn_skipn n r) at 1. rewrite <- (firstn_skipn n i) at 1. rewrite <- !app_assoc.
  rewrite app_length in Lr. apply dot_app. rewrite !firstn_length. lia.
Qed.

Lemma complete_injective pr st : mncols (s_trans st) = (s_dim st + p_npar pr + 1)%nat -> wf_mat (s_trans st) ->
  (s_dim_orig st <= s_dim st)%nat -> complete st <-> one_to_one pr st.
Proof.
  intros C W L. unfold complete. set (n := s_dim_orig st) in *. set (vs := map (firstn n) (mrows (s_trans st))).
  assert (wfv n vs) as Wv.
  { intros v Hv. apply in_map_iff in Hv as (r & <- & Hr). rewrite firstn_length, (W r Hr), C. lia. }
  assert (forall i j p, length i = s_dim st -> length j = s_dim st -> length p = p_npar pr -> skipn n i = skipn n j ->
    (timestamp st i p = timestamp st j p <-> forall v, In v vs -> dot v (zip_with Z.sub (firstn n i) (firstn n j)) = 0)) as K.
  { intros i j p Li Lj Lp E. unfold timestamp.
    assert (forall r, In r (mrows (s_trans st)) -> (aff r (i ++ p) = aff r (j ++ p) <-> dot (firstn n r) (zip_with Z.sub (firstn n i) (firstn n j)) = 0)) as Kr.
    { intros r Hr. rewrite dot_sub_r by (rewrite !firstn_length; lia).
      rewrite (aff_split n r i p), (aff_split n r j p) by (rewrite ?app_length, ?(W r Hr), ?C; lia). rewrite E. lia. }
    split.
    - intros H v Hv. apply in_map_iff in Hv as (r & <- & Hr). apply Kr; auto. clear - H Hr.
      revert Hr H. generalize (mrows (s_trans st)). induction l as [|a l IH]; intros Hr H; [destruct Hr|]. cbn in H; injection H as H1 H2. destruct Hr as [<-|Hr]; auto.
    - intros H. apply map_ext_in. intros r Hr. apply Kr; auto. apply H. unfold vs. apply in_map; auto. }
  rewrite (rank_kernel n vs Wv). split.
  - intros H i j p Li Lj Lp E T. pose proof (proj1 (K i j p Li Lj Lp E) T) as T'.
    assert (firstn n i = firstn n j) as F.
    { apply zip_sub_zero. rewrite !firstn_length. lia. apply H; auto. rewrite zip_with_length; rewrite !firstn_length; lia. }
    rewrite <- (firstn_skipn n i). rewrite F. unfold n. rewrite E. apply firstn_skipn.
  - intros H x Lx Hx. set (z := repeat 0 (s_dim st - n)). set (i := x ++ z). set (j := repeat 0 n ++ z). set (p := repeat 0 (p_npar pr)).
    assert (skipn n i = z) as Si by (unfold i; rewrite skipn_app, skipn_all2, Lx, Nat.sub_diag by lia; auto).
    assert (skipn n j = z) as Sj by (unfold j; rewrite skipn_app, skipn_all2, repeat_length, Nat.sub_diag by (rewrite repeat_length; lia); auto).
    assert (firstn n i = x) as Fi by (unfold i; rewrite firstn_app, firstn_all2, Lx, Nat.sub_diag by lia; cbn; apply app_nil_r).
    assert (firstn n j = repeat 0 n) as Fj by (unfold j; rewrite firstn_app, firstn_all2, repeat_length, Nat.sub_diag by (rewrite repeat_length; lia); cbn; apply app_nil_r).
    assert (i = j) as E.
    { apply (H i j p).
      - unfold i, z. rewrite app_length, repeat_length. lia.
      - unfold j, z. rewrite app_length, !repeat_length. lia.
      - apply repeat_length.
      - change (skipn n i = skipn n j). congruence.
      - apply K.
        + unfold i, z. rewrite app_length, repeat_length. lia.
        + unfold j, z. rewrite app_length, !repeat_length. lia.
        + apply repeat_length.
        + congruence.
        + intros v Hv. rewrite Fi, Fj, dot_sub_r by (rewrite repeat_length; auto). rewrite Hx by auto.
          rewrite (dot_comm v), dot_zero_all; [lia|]. intros w Hw. apply repeat_spec in Hw. auto. }
    rewrite E in Fi. rewrite Fi in Fj. intros c Hc. rewrite Fj in Hc. apply repeat_spec in Hc. auto.
Qed.

Lemma full_rank_injective pr : (forall st, In st (p_stmts pr) -> wf_cols pr st /\ (s_dim_orig st <= s_dim st)%nat) ->
  transformations_full_ranked pr = true <-> forall st, In st (p_stmts pr) -> one_to_one pr st.
Proof.
  intros W. rewrite full_ranked_spec.
  - split; intros H st Hs; specialize (H st Hs); destruct (W st Hs) as [(A & B & C & _) D]; apply (complete_injective pr st); auto.
  - intros st Hs. destruct (W st Hs) as [(A & B & C & _) D]. split; auto. lia.
Qed.

(** ** The result *)

Lemma unpad_hprops n : forall pos sid pr, p_hprops (unpad_domain n pos sid pr) = p_hprops pr.
Proof. induction n; intros; cbn [unpad_domain]; auto. destruct (nth _ _ _); auto. rewrite IHn. auto. Qed.
Lemma denormalize_hprops pr : p_hprops (denormalize_domains pr) = p_hprops pr.
Proof.
  unfold denormalize_domains. generalize (seq 0 (length (p_stmts pr))) as l. intros l. revert pr.
  induction l as [|a l IH]; intros pr; cbn [fold_left]; auto. rewrite IH. cbn [set_stmts p_hprops]. apply unpad_hprops.
Qed.

Section End.
Variables (is_emptyb isl_emptyb : cst -> bool) (kernel : matrix -> matrix) (solve : prog -> cst -> option point) (o : options).
Hypothesis EX : exact_empty is_emptyb.
Hypothesis SOL : lexmin_hkeeps solve.

Lemma input_simple pr : input_ok pr -> simple pr.
Proof. intros [_ H] s Hs. apply H. apply stmt_of_in; auto. Qed.

Lemma end_ok0 pr z : input_ok pr -> wf_prog z -> padded z -> orig_first z -> frame (st_prog (start_state pr)) z ->
  let q := denormalize_domains z in
  agree pr q /\ simple q /\ same_time z q /\ agree z q.
Proof.
  intros IN W P O F q. destruct (start_inv pr IN) as [_ A].
  assert (unpadded z (length (p_stmts z)) q) as U.
  { apply denormalize_ok. apply wsh_of. apply wf_prog_shapes; auto. intros k Hk. pose proof (stmt_of_in _ k Hk) as In.
    destruct (O _ In) as [O1 O2]. split; [exact O1|]. split; [apply P; auto|]. exact O2. }
  split; [|split; [|split]].
  - eapply agree_trans; [exact A|]. eapply agree_trans; [apply frame_agree; exact F|]. apply U.
  - intros k Hk. rewrite (ag_n _ _ (u_ag _ _ _ U)) in Hk. apply (u_done _ _ _ U). auto.
  - apply U.
  - apply U.
Qed.

Lemma end_time pr z : input_ok pr -> wf_prog z -> padded z -> orig_first z -> frame (st_prog (start_state pr)) z ->
  forall u x p, (u < length (p_stmts pr))%nat -> length x = s_dim (stmt_of pr u) -> length p = p_npar pr ->
    timestamp (stmt_of (denormalize_domains z) u) x p = timestamp (stmt_of z u) (zp z u x) p.
Proof.
  intros IN W P O F. destruct (end_ok0 pr z IN W P O F) as (A & SI & T & AF). pose proof (input_simple pr IN) as SP.
  intros u x p Hu Lx Lp. rewrite SP in Lx by auto. rewrite <- (ag_dim0 _ _ A u) in Lx.
  rewrite <- T.
  - rewrite zp_simple; auto. rewrite (ag_n _ _ A). auto.
  - rewrite <- (ag_n _ _ AF), (ag_n _ _ A). auto.
  - rewrite <- (ag_dim0 _ _ AF). auto.
  - rewrite <- (ag_par _ _ AF), (ag_par _ _ A). auto.
Qed.

Lemma end_ok md pr s : input_ok pr -> inv md s -> frame (st_prog (start_state pr)) (st_prog s) ->
  let q := denormalize_domains (st_prog s) in
  agree pr q /\ simple q /\ same_time (st_prog s) q /\ agree (st_prog s) q.
Proof. intros IN I F. apply end_ok0; auto; apply I. Qed.

Lemma input_deps pr : input_ok pr -> deps_in pr.
Proof. intros [[_ H] _] d Hd. destruct (H d Hd) as (A & B & _). auto. Qed.

Lemma second_inv pr fuse : input_ok pr ->
  good EAGER (start_state pr) (match fuse with SmartFuse => fst (cut_scc_dim_based is_emptyb (start_state pr)) | _ => start_state pr end).
Proof.
  intros IN. destruct (start_inv pr IN) as [I _]. destruct fuse; try (apply good_refl; auto). apply cut_dim_good; auto.
Qed.

(** Whatever the search starts with, as long as it fits the dependences. *)
Lemma end_success md pr z : input_ok pr -> inv md z -> frame (st_prog (start_state pr)) (st_prog z) ->
  transformations_full_ranked (st_prog z) = true -> deps_satisfaction_check (st_prog z) = true ->
  same_program pr (denormalize_domains (st_prog z)) /\
  (forall s i p, (s < length (p_stmts pr))%nat -> length i = s_dim (stmt_of pr s) -> length p = p_npar pr ->
     length (timestamp (stmt_of (denormalize_domains (st_prog z)) s) i p) = length (p_hprops (denormalize_domains (st_prog z)))) /\
  (forall d, In d (p_deps pr) -> d_rar d = false -> forall s t p, instance pr d s t p ->
     lexlt (timestamp (stmt_of (denormalize_domains (st_prog z)) (d_src d)) s p) (timestamp (stmt_of (denormalize_domains (st_prog z)) (d_dst d)) t p)) /\
  (forall s i j p, (s < length (p_stmts pr))%nat -> length i = s_dim (stmt_of pr s) -> length j = s_dim (stmt_of pr s) -> length p = p_npar pr ->
     timestamp (stmt_of (denormalize_domains (st_prog z)) s) i p = timestamp (stmt_of (denormalize_domains (st_prog z)) s) j p -> i = j).
Proof.
  intros IN I F' FR DS.
    destruct (end_ok _ pr z IN I F') as (A & SI & T & AF). pose proof (inv_satisfied_legal _ z I DS) as L.
    pose proof (input_simple pr IN) as SP. pose proof (input_deps pr IN) as DI.
    pose proof (end_time pr (st_prog z) IN (i_wf _ _ I) (i_pad _ _ I) (i_orig _ _ I) F') as TT.
    split; [|split; [|split]].
    + apply agree_same; auto.
    + intros u i p Hu Li Lp. rewrite TT by auto. rewrite timestamp_length, denormalize_hprops. apply wf_nrows. apply I.
      rewrite <- (ag_n _ _ AF), (ag_n _ _ A). auto.
    + intros d Hd Hr x y p Inst. destruct (DI d Hd) as [D1 D2]. destruct Inst as (Lx & Ly & Lp & M). rewrite !TT by auto.
      assert (agree pr (st_prog z)) as AS by (eapply agree_trans; [exact A|apply agree_sym; exact AF]).
      destruct (Forall2_in_l _ _ _ d (ag_dep _ _ AS) Hd) as (d' & Hd' & E1 & E2 & E3 & E4).
      rewrite SP in Lx, Ly by auto. specialize (E4 x y p Lx Ly Lp). rewrite (zp_simple pr), (zp_simple pr (d_dst d)) in E4 by auto.
      rewrite <- E1, <- E2. apply (L d' Hd'); [congruence|]. unfold instance. rewrite E1, E2.
      assert (forall u, (u < length (p_stmts pr))%nat -> (dim0 pr u <= s_dim (stmt_of (st_prog z) u))%nat) as DD.
      { intros u Hu. rewrite (i_pad _ _ I) by (apply stmt_of_in; rewrite (ag_n _ _ AS); auto).
        rewrite <- (ag_dim0 _ _ AS). apply (i_orig _ _ I). apply stmt_of_in. rewrite (ag_n _ _ AS). auto. }
      split; [apply zp_length; rewrite Lx; auto|]. split; [apply zp_length; rewrite Ly; auto|]. split; [rewrite (ag_par _ _ AS); auto|]. apply E4. auto.
    + intros u x y p Hu Lx Ly Lp E1. rewrite !TT in E1 by auto.
      assert (agree pr (st_prog z)) as AS by (eapply agree_trans; [exact A|apply agree_sym; exact AF]).
      assert (u < length (p_stmts (st_prog z)))%nat as Hu' by (rewrite (ag_n _ _ AS); auto).
      pose proof (stmt_of_in _ u Hu') as Hin. pose proof (i_pad _ _ I _ Hin) as Pd. destruct (i_orig _ _ I _ Hin) as [Od _].
      assert (one_to_one (st_prog z) (stmt_of (st_prog z) u)) as O.
      { apply (full_rank_injective (st_prog z)); auto. intros st Hst. destruct (i_orig _ _ I _ Hst) as [Od' _]. rewrite (i_pad _ _ I _ Hst). split; auto.
        apply (wf_prog_shapes _ (i_wf _ _ I)). auto. }
      rewrite SP in Lx, Ly by auto. rewrite <- (ag_dim0 _ _ AS u) in Lx, Ly. unfold dim0 in Lx, Ly.
      apply O in E1.
      * unfold zp in E1. rewrite Lx, Ly in E1. apply app_inv_tail in E1. auto.
      * apply zp_length. lia.
      * apply zp_length. lia.
      * rewrite (ag_par _ _ AS). auto.
      * unfold zp. rewrite !skipn_app, Lx, Ly. rewrite (skipn_all2 x), (skipn_all2 y) by lia. auto.
Qed.

Lemma drive_success fuse fuel pr s2 z m : input_ok pr -> good EAGER (start_state pr) s2 ->
  drive is_emptyb isl_emptyb kernel solve o fuse fuel 0 EAGER s2 = Some (Continue z m) ->
  same_program pr (denormalize_domains (st_prog z)) /\
  (forall s i p, (s < length (p_stmts pr))%nat -> length i = s_dim (stmt_of pr s) -> length p = p_npar pr ->
     length (timestamp (stmt_of (denormalize_domains (st_prog z)) s) i p) = length (p_hprops (denormalize_domains (st_prog z)))) /\
  (forall d, In d (p_deps pr) -> d_rar d = false -> forall s t p, instance pr d s t p ->
     lexlt (timestamp (stmt_of (denormalize_domains (st_prog z)) (d_src d)) s p) (timestamp (stmt_of (denormalize_domains (st_prog z)) (d_dst d)) t p)) /\
  (forall s i j p, (s < length (p_stmts pr))%nat -> length i = s_dim (stmt_of pr s) -> length j = s_dim (stmt_of pr s) -> length p = p_npar pr ->
     timestamp (stmt_of (denormalize_domains (st_prog z)) s) i p = timestamp (stmt_of (denormalize_domains (st_prog z)) s) j p -> i = j).
Proof.
  intros IN G2 Dr. destruct (drive_good isl_emptyb kernel solve o SOL is_emptyb EX fuse fuel 0 EAGER s2 _ (proj1 G2) Dr) as [[I F] [FR DS]].
  eapply end_success; eauto. eapply frame_trans; [apply G2|exact F].
Qed.

Lemma auto_success fuse fuel pr pr' : input_ok pr ->
  auto_transform is_emptyb isl_emptyb kernel solve o fuse fuel pr = Some (0, pr') ->
  same_program pr pr' /\
  (forall s i p, (s < length (p_stmts pr))%nat -> length i = s_dim (stmt_of pr s) -> length p = p_npar pr ->
     length (timestamp (stmt_of pr' s) i p) = length (p_hprops pr')) /\
  (forall d, In d (p_deps pr) -> d_rar d = false -> forall s t p, instance pr d s t p ->
     lexlt (timestamp (stmt_of pr' (d_src d)) s p) (timestamp (stmt_of pr' (d_dst d)) t p)) /\
  (forall s i j p, (s < length (p_stmts pr))%nat -> length i = s_dim (stmt_of pr s) -> length j = s_dim (stmt_of pr s) -> length p = p_npar pr ->
     timestamp (stmt_of pr' s) i p = timestamp (stmt_of pr' s) j p -> i = j).
Proof.
  intros IN H. unfold auto_transform, auto_search in H. destruct (Nat.eqb_spec (length (p_stmts pr)) 0) as [E|E].
  - injection H as <-. pose proof (input_deps pr IN) as D.
    assert (p_deps pr = []) as Ed by (destruct (p_deps pr) as [|d l] eqn:Ed; auto; destruct (D d); [rewrite Ed; simpl; auto|lia]).
    split; [|split; [|split]].
    + split; [cbn; auto|]. split; [auto|]. split; [intros; lia|]. cbn. rewrite Ed. constructor.
    + intros; lia.
    + rewrite Ed. intros d [].
    + intros; lia.
  - cbv zeta in H. fold (start_state pr) in H. pose proof (second_inv pr fuse IN) as G2.
    set (s2 := match fuse with SmartFuse => _ | _ => _ end) in *.
    destruct (drive _ _ _ _ _ _ _ _ _ _) as [[s m|s]|] eqn:Dr; [|discriminate|discriminate].
    injection H as <-. eapply drive_success; eauto.
Qed.

Lemma end_failure md pr z : input_ok pr -> inv md z -> frame (st_prog (start_state pr)) (st_prog z) ->
  same_program pr (restore_schedules pr (denormalize_domains (st_prog z))) /\ p_hprops (restore_schedules pr (denormalize_domains (st_prog z))) = p_hprops pr /\
  (forall s, (s < length (p_stmts pr))%nat -> s_trans (stmt_of (restore_schedules pr (denormalize_domains (st_prog z))) s) = s_trans (stmt_of pr s) /\ s_hyp (stmt_of (restore_schedules pr (denormalize_domains (st_prog z))) s) = s_hyp (stmt_of pr s)).
Proof.
  intros IN I F'.
  destruct (end_ok _ pr z IN I F') as (A & SI & T & AF). set (q := denormalize_domains (st_prog z)) in *.
  assert (forall u, (u < length (p_stmts q))%nat -> stmt_of (restore_schedules pr q) u = set_hyp (set_trans (stmt_of q u) (s_trans (stmt_of pr u))) (s_hyp (stmt_of pr u))) as Es.
  { intros u Hu. unfold restore_schedules, stmt_of at 1. cbn [set_hprops set_stmts p_stmts]. rewrite nth_map_seq; auto. }
  assert (frame q (restore_schedules pr q)) as FR.
  { split; [reflexivity|]. split; [reflexivity|]. split; [cbn; rewrite map_length, seq_length; auto|]. split; [|apply Forall2_same_refl].
    intros u. destruct (le_lt_dec (length (p_stmts q)) u) as [L|L].
    - unfold stmt_of. rewrite !nth_overflow; auto. apply same_stmt_refl. cbn. rewrite map_length, seq_length. auto.
    - rewrite Es by auto. unfold same_stmt; cbn; auto 10. }
  split; [|split].
  - apply agree_same; auto using input_simple, input_deps. eapply agree_trans; [exact A|apply frame_agree; exact FR].
    intros u Hu. destruct FR as (_ & _ & L & S & _). rewrite L in Hu. unfold dim0. destruct (S u) as (-> & -> & _). apply SI. auto.
  - reflexivity.
  - intros u Hu. rewrite Es by (rewrite (ag_n _ _ A); auto). cbn. auto.
Qed.
Lemma drive_failure fuse fuel pr s2 z : input_ok pr -> good EAGER (start_state pr) s2 ->
  drive is_emptyb isl_emptyb kernel solve o fuse fuel 0 EAGER s2 = Some (Failed z) ->
  same_program pr (restore_schedules pr (denormalize_domains (st_prog z))) /\ p_hprops (restore_schedules pr (denormalize_domains (st_prog z))) = p_hprops pr /\
  (forall s, (s < length (p_stmts pr))%nat -> s_trans (stmt_of (restore_schedules pr (denormalize_domains (st_prog z))) s) = s_trans (stmt_of pr s) /\ s_hyp (stmt_of (restore_schedules pr (denormalize_domains (st_prog z))) s) = s_hyp (stmt_of pr s)).
Proof.
  intros IN G2 Dr. destruct (drive_good isl_emptyb kernel solve o SOL is_emptyb EX fuse fuel 0 EAGER s2 _ (proj1 G2) Dr) as [[I F] _].
  eapply end_failure; eauto. eapply frame_trans; [apply G2|exact F].
Qed.

Lemma auto_failure fuse fuel pr pr' : input_ok pr ->
  auto_transform is_emptyb isl_emptyb kernel solve o fuse fuel pr = Some (1, pr') ->
  same_program pr pr' /\ p_hprops pr' = p_hprops pr /\
  (forall s, (s < length (p_stmts pr))%nat -> s_trans (stmt_of pr' s) = s_trans (stmt_of pr s) /\ s_hyp (stmt_of pr' s) = s_hyp (stmt_of pr s)).
Proof.
  intros IN H. unfold auto_transform, auto_search in H. destruct (Nat.eqb_spec (length (p_stmts pr)) 0) as [E|E]; [discriminate|].
  cbv zeta in H. fold (start_state pr) in H. pose proof (second_inv pr fuse IN) as G2.
  set (s2 := match fuse with SmartFuse => _ | _ => _ end) in *.
  destruct (drive _ _ _ _ _ _ _ _ _ _) as [[s m|s]|] eqn:Dr; [discriminate| |discriminate].
  injection H as <-. eapply drive_failure; eauto.
Qed.
End End.

