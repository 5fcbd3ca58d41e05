(** * Tiling: second level, padding, complete pass. *)
From Coq Require Import ZArith List Bool Lia Arith.
From Verif Require Import SpecLinear MathModel ConstraintsModel VecProofs EditProofs MatrixProofs SpecProg SpecTile
  RankProofs SumProofs FrameworkModel ProgModel DepProofs SimplifyProofs LexProofs ProgProofs TileModel TileProofs TileProofs2.
Import ListNotations.
Open Scope Z_scope.

Lemma in_band_In b s : in_band b s = true -> In s (b_stmts b).
Proof. intros E. apply existsb_exists in E as (x & Hx & E). apply Nat.eqb_eq in E. subst x. auto. Qed.
Lemma In_in_band b s : In s (b_stmts b) -> in_band b s = true.
Proof. intros H. apply existsb_exists. exists s. split; auto. apply Nat.eqb_refl. Qed.

Lemma nth_tile_times st k l i p j : (j < length l)%nat -> nth j (tile_times st k l i p) 0 = tile_time st (k + j) (nth j l 0) i p.
Proof.
  revert k j; induction l; intros k j Hj; simpl in Hj; [lia|]. destruct j; cbn [tile_times nth].
  - rewrite Nat.add_0_r. reflexivity.
  - rewrite IHl by lia. replace (S k + j)%nat with (k + S j)%nat by lia. reflexivity.
Qed.

Section Again.
Variables (pr : prog) (b : band).
Hypothesis W : wf_core pr.
Hypothesis HB : wf_band pr b.
Let pr' := tile_band pr b.
Lemma HT : tiled pr pr' b.
Proof. exact (proj2 (tile_band_tiled pr b W HB)). Qed.

Lemma again_stamp_len s i p : (s < length (p_stmts pr))%nat -> in_band b s = true ->
  length (tile_stamp pr b s i p) = (mnrows (s_trans (stmt_of pr s)) + length (b_sizes b))%nat.
Proof.
  intros Hs E. unfold tile_stamp. rewrite E. destruct HB as (_ & _ & H). destruct (H s (in_band_In _ _ E)) as [_ H'].
  rewrite !app_length, tile_times_length, firstn_length, skipn_length, timestamp_length. lia.
Qed.
Lemma again_nrows s : (s < length (p_stmts pr))%nat -> in_band b s = true ->
  mnrows (s_trans (stmt_of pr' s)) = (mnrows (s_trans (stmt_of pr s)) + length (b_sizes b))%nat.
Proof.
  intros Hs E. set (i := repeat 0 (s_dim (stmt_of pr s))). set (p := repeat 0 (p_npar pr)).
  rewrite <- (again_stamp_len s i p Hs E), <- (tiled_time pr pr' b HT s i p), timestamp_length; auto.
  apply repeat_length. apply repeat_length.
Qed.

Lemma again_band b2 : same_levels b b2 -> wf_band pr' b2.
Proof.
  intros (E1 & E2 & E3 & E4). destruct HB as (H1 & H2 & H3). split; [rewrite E1; auto|]. split; [auto|].
  rewrite E1, E2, E3. intros s Hs. destruct (H3 s Hs) as [X Y]. pose proof HT as (T1 & _). split; [lia|].
  rewrite again_nrows by (auto using In_in_band). lia.
Qed.

Lemma again_theta s i p k : (s < length (p_stmts pr))%nat -> in_band b s = true ->
  length i = s_dim (stmt_of pr s) -> length p = p_npar pr -> (k < b_first b + length (b_sizes b))%nat ->
  theta (stmt_of pr' s) k (tile_point pr b s i p) p =
  if (k <? b_first b)%nat then theta (stmt_of pr s) k i p
  else tile_time (stmt_of pr s) k (nth (k - b_first b) (b_sizes b) 0) i p.
Proof.
  intros Hs E Li Lp Hk. destruct HB as (H1 & H2 & H3). destruct (H3 s (in_band_In _ _ E)) as [X Y].
  rewrite <- timestamp_nth by (rewrite again_nrows by auto; lia).
  rewrite (tiled_time pr pr' b HT s i p Hs Li Lp). unfold tile_stamp. rewrite E.
  destruct (Nat.ltb_spec k (b_first b)).
  - rewrite app_nth1 by (rewrite firstn_length, timestamp_length; lia). rewrite nth_firstn_lt by auto. apply timestamp_nth. lia.
  - rewrite app_nth2 by (rewrite firstn_length, timestamp_length; lia).
    rewrite firstn_length, timestamp_length, Nat.min_l by lia.
    rewrite app_nth1 by (rewrite tile_times_length; lia). rewrite nth_tile_times by lia. f_equal. lia.
Qed.

Lemma again_loop s k : (s < length (p_stmts pr))%nat -> in_band b s = true -> (k < b_first b + length (b_sizes b))%nat ->
  loop_level (stmt_of pr' s) k = loop_level (stmt_of pr s) k.
Proof.
  intros Hs E Hk. destruct (tile_band_types pr b W HB s Hs) as [A _]. apply A. rewrite E. auto.
Qed.

Lemma again_safe b2 d d' : same_levels b b2 -> In d (p_deps pr) -> band_safe pr b d ->
  d_src d' = d_src d -> d_dst d' = d_dst d ->
  (forall x y p, instance pr' d' x y p <->
       exists s t, instance pr d s t p /\ x = tile_point pr b (d_src d) s p /\ y = tile_point pr b (d_dst d) t p) ->
  band_safe pr' b2 d'.
Proof.
  intros (Q1 & Q2 & Q3 & Q4) Hd SF E1 E2 E3. destruct (proj2 W d Hd) as (S1 & S2 & _).
  unfold band_safe. rewrite E1, E2. unfold in_band. rewrite Q1, Q2, Q3. fold (in_band b (d_src d)) (in_band b (d_dst d)).
  destruct SF as [N|[SP|(B1 & B2 & TO)]]; auto; right; [left|right].
  - intros x y p I. apply E3 in I as (s & t & I & -> & ->). pose proof I as (L1 & L2 & L3 & _).
    rewrite E1, E2, !(tiled_time pr pr' b HT) by auto. rewrite !stamp_firstn by auto. apply SP; auto.
  - split; auto. split; auto.
    assert (forall k, (b_first b <= k < b_first b + length (b_sizes b))%nat -> 1 <= nth (k - b_first b) (b_sizes b) 0) as SZ.
    { intros k Hk. destruct HB as (_ & H2 & _). apply H2. apply nth_In. lia. }
    intros x y p I. apply E3 in I as (s & t & I & -> & ->). pose proof I as (L1 & L2 & L3 & _).
      intros Z k Hk. unfold keeps_tiles, distance in *. rewrite E1, E2 in *. rewrite !again_theta by (auto; lia).
      rewrite (proj2 (Nat.ltb_ge _ _)) by lia.
      destruct (TO s t p I) with (k := k) as [D|(j & J1 & J2 & J3 & J4)]; auto.
      * intros j Hj. specialize (Z j Hj). unfold distance. rewrite !again_theta in Z by (auto; lia).
        rewrite (proj2 (Nat.ltb_lt _ _)) in Z by lia. auto.
      * left. pose proof (tile_time_le pr d k _ s t p (SZ k Hk) D). split; [lia|]. rewrite !again_loop by (auto; lia).
        destruct D as [_ [Q|Q]]; auto. right. pose proof (SZ k Hk). unfold tile_time.
        destruct (loop_level (stmt_of pr (d_src d)) k), (loop_level (stmt_of pr (d_dst d)) k); auto. apply Z.div_pos; lia.
      * right. exists j. rewrite !again_loop by (auto; lia). split; [auto|]. split; [auto|]. split; [auto|].
        rewrite !again_theta by (auto; lia). rewrite (proj2 (Nat.ltb_ge _ _)) by lia. unfold tile_time. rewrite J2, J3. exact J4.
Qed.
End Again.

Lemma tile_band_keeps_types pr b : wf_core pr -> wf_band pr b -> (forall s, (s < length (p_stmts pr))%nat -> types_ok (stmt_of pr s)) ->
  forall s, (s < length (p_stmts (tile_band pr b)))%nat -> types_ok (stmt_of (tile_band pr b) s).
Proof.
  intros W HB TO s Hs. destruct (tile_band_tiled pr b W HB) as [_ (T1 & _)]. rewrite T1 in Hs.
  apply (tile_band_types pr b W HB s Hs). auto.
Qed.

(** A band disjoint from the tiled ones is kept. *)
Lemma keep_bands l pr b2 : wf_core pr -> disjoint_bands l -> Forall (wf_band pr) l ->
  (forall d, In d (p_deps pr) -> d_rar d = false -> Forall (fun b => band_safe pr b d) l) ->
  (forall b s, In b l -> in_band b s = true -> in_band b2 s = false) -> wf_band pr b2 ->
  (forall d, In d (p_deps pr) -> d_rar d = false -> band_safe pr b2 d) ->
  wf_band (fold_left tile_band l pr) b2 /\
  forall d, In d (p_deps (fold_left tile_band l pr)) -> d_rar d = false -> band_safe (fold_left tile_band l pr) b2 d.
Proof.
  revert pr. induction l as [|b l IH]; intros pr W D F SF DJ WB SB; cbn [fold_left]; auto.
  inversion D as [|x y D1 D2]; subst. inversion F as [|x y F1 F2]; subst.
  destruct (tile_band_tiled pr b W F1) as [W1 T]. set (pr1 := tile_band pr b) in *.
  pose proof T as (T1 & T2 & T3 & T4 & T5 & T6).
  apply IH; auto.
  - apply Forall_forall. intros b' Hb'. eapply tiled_other_band; eauto.
    apply (proj1 (Forall_forall _ _) D1 b' Hb'). apply (proj1 (Forall_forall _ _) F2 b' Hb').
  - intros d' Hd' Hr. destruct (Forall2_in_r _ _ _ _ T6 Hd') as (d & Hd & B1 & B2 & B3 & B4 & B5 & B6).
    rewrite B3 in Hr. specialize (SF d Hd Hr). inversion SF as [|x y S1 S2]; subst.
    apply Forall_forall. intros b' Hb'. eapply (tiled_other_safe pr pr1 b); eauto.
    apply (proj1 (Forall_forall _ _) D1 b' Hb'). apply (proj1 (Forall_forall _ _) S2 b' Hb').
  - intros b' s Hb'. apply (DJ b' s). simpl; auto.
  - eapply tiled_other_band; eauto. intros s. apply (DJ b s). simpl; auto.
  - intros d' Hd' Hr. destruct (Forall2_in_r _ _ _ _ T6 Hd') as (d & Hd & B1 & B2 & B3 & B4 & B5 & B6).
    rewrite B3 in Hr. specialize (SF d Hd Hr). inversion SF as [|x y S1 S2]; subst.
    eapply (tiled_other_safe pr pr1 b); eauto. intros s. apply (DJ b s). simpl; auto.
Qed.

Lemma same_levels_in b b2 s : same_levels b b2 -> in_band b2 s = in_band b s.
Proof. intros (E & _). unfold in_band. rewrite E. auto. Qed.

Lemma again_bands bands bands2 pr : wf_core pr -> disjoint_bands bands -> Forall (wf_band pr) bands ->
  (forall d, In d (p_deps pr) -> d_rar d = false -> Forall (fun b => band_safe pr b d) bands) ->
  Forall2 same_levels bands bands2 ->
  let q := fold_left tile_band bands pr in
  Forall (wf_band q) bands2 /\
  (forall d, In d (p_deps q) -> d_rar d = false -> Forall (fun b => band_safe q b d) bands2).
Proof.
  revert pr bands2. induction bands as [|b l IH]; intros pr bands2 W D F SF S2; inversion S2 as [|x b2 y l2 SL SL2]; subst.
  { cbn. split; auto. }
  cbn [fold_left]. inversion D as [|x y D1 D2]; subst. inversion F as [|x y F1 F2]; subst.
  destruct (tile_band_tiled pr b W F1) as [W1 T]. set (pr1 := tile_band pr b) in *.
  pose proof T as (T1 & T2 & T3 & T4 & T5 & T6).
  assert (Forall (wf_band pr1) l) as WL.
  { apply Forall_forall. intros b' Hb'. eapply tiled_other_band; eauto.
    apply (proj1 (Forall_forall _ _) D1 b' Hb'). apply (proj1 (Forall_forall _ _) F2 b' Hb'). }
  assert (forall d', In d' (p_deps pr1) -> d_rar d' = false -> Forall (fun b0 => band_safe pr1 b0 d') l) as SL1.
  { intros d' Hd' Hr. destruct (Forall2_in_r _ _ _ _ T6 Hd') as (d & Hd & B1 & B2 & B3 & B4 & B5 & B6).
    rewrite B3 in Hr. specialize (SF d Hd Hr). inversion SF as [|x y S1 S2']; subst.
    apply Forall_forall. intros b' Hb'. eapply (tiled_other_safe pr pr1 b); eauto.
    apply (proj1 (Forall_forall _ _) D1 b' Hb'). apply (proj1 (Forall_forall _ _) S2' b' Hb'). }
  destruct (IH pr1 l2 W1 D2 WL SL1 SL2) as [I1 I2].
  destruct (keep_bands l pr1 b2 W1 D2 WL SL1) as [K1 K2].
  - intros b' s Hb' Hs. rewrite (same_levels_in b b2 s SL). destruct (in_band b s) eqn:E; auto.
    rewrite (proj1 (Forall_forall _ _) D1 b' Hb' s E) in Hs. discriminate.
  - apply again_band; auto.
  - intros d' Hd' Hr. destruct (Forall2_in_r _ _ _ _ T6 Hd') as (d & Hd & B1 & B2 & B3 & B4 & B5 & B6).
    rewrite B3 in Hr. specialize (SF d Hd Hr). inversion SF; subst. eapply again_safe; eauto.
  - cbv zeta. split. constructor; auto. intros d Hd Hr. constructor; auto.
Qed.

(** ** Padding and types *)
Definition padded (q q' : prog) : Prop :=
  length (p_stmts q') = length (p_stmts q) /\ p_npar q' = p_npar q /\ p_deps q' = p_deps q /\
  (forall s, (s < length (p_stmts q))%nat ->
     let st := stmt_of q s in let st' := stmt_of q' s in
     s_dim st' = s_dim st /\ s_domain st' = s_domain st /\ s_reads st' = s_reads st /\ s_writes st' = s_writes st /\
     (mnrows (s_trans st) <= mnrows (s_trans st'))%nat /\
     (forall i p, timestamp st' i p = timestamp st i p ++ repeat 0 (mnrows (s_trans st') - mnrows (s_trans st))) /\
     types_ok st' /\
     (types_ok st -> forall k, (k < mnrows (s_trans st))%nat -> loop_level st' k = loop_level st k)) /\
  (forall s s', (s < length (p_stmts q))%nat -> (s' < length (p_stmts q))%nat ->
     mnrows (s_trans (stmt_of q' s)) = mnrows (s_trans (stmt_of q' s'))).

Lemma add_hyps_iter n q : let q' := Nat.iter n (fun q => prog_add_hyperplane q (length (p_hprops q)) H_UNKNOWN) q in
  p_stmts q' = p_stmts q /\ p_deps q' = p_deps q /\ p_npar q' = p_npar q /\ p_nvar q' = p_nvar q.
Proof. induction n; cbn [Nat.iter nat_rect]; cbv zeta; [auto|]. exact IHn. Qed.

Lemma sink_all_eq q : p_npar (sink_all q) = p_npar q /\ p_deps (sink_all q) = p_deps q /\ p_nvar (sink_all q) = p_nvar q /\
  p_stmts (sink_all q) = map (fun st => Nat.iter (max_nrows (p_stmts q) - mnrows (s_trans st)) (fun st => sink_transformation st (mnrows (s_trans st))) st) (p_stmts q).
Proof. unfold sink_all. destruct (add_hyps_iter (max_nrows (p_stmts q) - length (p_hprops q)) (set_stmts q (map (fun st =>
    Nat.iter (max_nrows (p_stmts q) - mnrows (s_trans st)) (fun st => sink_transformation st (mnrows (s_trans st))) st) (p_stmts q)))) as (A & B & C & D).
  cbv zeta. rewrite A, B, C, D. cbn. auto. Qed.

Definition detected (st : stmt) : stmt :=
  set_hyp st (map (fun k => if is_hyperplane_loop st k then H_LOOP else H_SCALAR) (seq 0 (mnrows (s_trans st)))).

Lemma detected_loop st k : (k < mnrows (s_trans st))%nat -> loop_level (detected st) k = is_hyperplane_loop st k.
Proof.
  intros Hk. unfold loop_level, detected. cbn [s_hyp set_hyp]. rewrite nth_map_seq by auto. destruct (is_hyperplane_loop st k); auto.
Qed.
Lemma hyperplane_loop_false st k : is_hyperplane_loop st k = false <->
  forall j, (j < s_dim st)%nat -> nth j (nth k (mrows (s_trans st)) []) 0 = 0.
Proof.
  unfold is_hyperplane_loop, is_hyperplane_scalar. rewrite Bool.negb_false_iff, forallb_forall. split.
  - intros H j Hj. apply Z.eqb_eq. apply H. apply in_seq. lia.
  - intros H j Hj. apply in_seq in Hj. apply Z.eqb_eq. apply H. lia.
Qed.

Lemma scatter_padded q : wf_core q -> padded q (detect_types_stmtwise (detect_types (sink_all q))) /\
  wf_core (detect_types_stmtwise (detect_types (sink_all q))).
Proof.
  intros W. set (q' := detect_types_stmtwise (detect_types (sink_all q))). set (M := max_nrows (p_stmts q)).
  destruct (sink_all_eq q) as (A & B & C & D).
  set (snk := fun st => Nat.iter (M - mnrows (s_trans st)) (fun st => sink_transformation st (mnrows (s_trans st))) st).
  assert (p_stmts q' = map (fun st => detected (snk st)) (p_stmts q)) as ES.
  { unfold q', detect_types_stmtwise. cbn [p_stmts set_stmts detect_types set_hprops]. rewrite D, map_map. reflexivity. }
  assert (p_deps q' = p_deps q) as ED by exact B.
  assert (p_npar q' = p_npar q) as EN by exact A.
  assert (length (p_stmts q') = length (p_stmts q)) as EL by (rewrite ES, map_length; auto).
  assert (forall s, (s < length (p_stmts q))%nat -> stmt_of q' s = detected (snk (stmt_of q s))) as EST.
  { intros s Hs. unfold stmt_of. rewrite ES. rewrite (nth_indep _ dummy_stmt (detected (snk dummy_stmt))) by (rewrite map_length; auto).
    apply (List.map_nth (fun st => detected (snk st))). }
  assert (forall st, In st (p_stmts q) -> mnrows (s_trans (snk st)) = M) as EM.
  { intros st Hst. pose proof (max_nrows_le _ _ Hst) as LE. fold M in LE. unfold snk.
    destruct (sink_iter (M - mnrows (s_trans st)) st) as (_ & _ & _ & _ & _ & _ & R & _). unfold mnrows at 1. rewrite R, app_length, repeat_length. unfold mnrows in *; lia. }
  assert (padded q q') as P.
  { split; [auto|]. split; [auto|]. split; [auto|]. split.
    - intros s Hs. rewrite EST by auto. pose proof (stmt_of_in q s Hs) as Hin. set (st := stmt_of q s) in *. cbv zeta.
      pose proof (max_nrows_le _ _ Hin) as LE. fold M in LE.
      destruct (sink_iter (M - mnrows (s_trans st)) st) as (R1 & R2 & R3 & R4 & R5 & R6 & R7 & R8).
      change (Nat.iter (M - mnrows (s_trans st)) (fun st : stmt => sink_transformation st (mnrows (s_trans st))) st) with (snk st) in *.
      specialize (EM _ Hin).
      assert (types_ok (detected (snk st))) as TD.
      { intros k Hk. change (s_trans (detected (snk st))) with (s_trans (snk st)) in *. rewrite detected_loop by auto.
        exact (hyperplane_loop_false (snk st) k). }
      change (s_dim (detected (snk st))) with (s_dim (snk st)). change (s_domain (detected (snk st))) with (s_domain (snk st)).
      change (s_reads (detected (snk st))) with (s_reads (snk st)). change (s_writes (detected (snk st))) with (s_writes (snk st)).
      change (s_trans (detected (snk st))) with (s_trans (snk st)). rewrite EM.
      split; [auto|]. split; [auto|]. split; [auto|]. split; [auto|]. split; [auto|]. split; [|split; [auto|]].
      + intros i p. unfold timestamp. change (s_trans (detected (snk st))) with (s_trans (snk st)). rewrite R7, map_app. f_equal.
        generalize (M - mnrows (s_trans st))%nat. intros n. clear. induction n; simpl; f_equal; auto. apply aff_zero.
      + intros TO k Hk. apply Bool.eq_true_iff_eq. rewrite <- !Bool.not_false_iff_true.
        rewrite (TD k) by (change (s_trans (detected (snk st))) with (s_trans (snk st)); lia). rewrite (TO k Hk).
        change (s_dim (detected (snk st))) with (s_dim (snk st)). change (s_trans (detected (snk st))) with (s_trans (snk st)).
        rewrite R1, R7, app_nth1 by auto. tauto.
    - intros s s' Hs Hs'. rewrite !EST by auto. unfold detected. cbn [set_hyp s_trans]. rewrite !EM by (apply stmt_of_in; auto). auto. }
  split; auto.
  destruct W as [W1 W2]. split.
  - intros st' Hst'. rewrite ES in Hst'. apply in_map_iff in Hst' as (st & <- & Hst). destruct (W1 st Hst) as ((X1 & X2 & X3 & X4 & X5 & X6) & X7).
    destruct (sink_iter (M - mnrows (s_trans st)) st) as (R1 & R2 & R3 & R4 & R5 & R6 & R7 & R8).
    change (Nat.iter (M - mnrows (s_trans st)) (fun st : stmt => sink_transformation st (mnrows (s_trans st))) st) with (snk st) in *.
    split.
    + unfold wf_cols. unfold detected. cbn [set_hyp s_trans s_dim s_domain s_reads s_writes s_orig]. rewrite EN, R1, R2, R3, R4, R5, R6.
      repeat (split; [assumption|]). split; [|auto]. intros r Hr. rewrite R6. rewrite R7 in Hr. apply in_app_iff in Hr as [Hr|Hr]; [exact (X3 r Hr)|].
      apply repeat_spec in Hr. subst. apply repeat_length.
    + unfold detected. cbn [set_hyp s_hyp s_trans]. rewrite map_length, seq_length. reflexivity.
  - rewrite ED. intros d Hd. destruct (W2 d Hd) as (Y1 & Y2 & Y3 & Y4). rewrite EL, EN.
    split; [auto|]. split; [auto|]. split; [auto|]. destruct P as (_ & _ & _ & P & _).
    destruct (P _ Y1) as (-> & _). destruct (P _ Y2) as (-> & _). exact Y4.
Qed.

Lemma lexlt_extend a b x y : lexlt a b -> lexlt (a ++ x) (b ++ y).
Proof. revert b; induction a; destruct b; simpl; try tauto. intros [H|[H1 H2]]; auto. Qed.

Section Pad.
Variables q q' : prog.
Hypothesis W : wf_core q.
Hypothesis P : padded q q'.

Lemma padded_instance' d s t p : (d_src d < length (p_stmts q))%nat -> (d_dst d < length (p_stmts q))%nat ->
  instance q' d s t p <-> instance q d s t p.
Proof.
  intros S1 S2. destruct P as (_ & P2 & _ & P4 & _). unfold instance.
  destruct (P4 _ S1) as (-> & _). destruct (P4 _ S2) as (-> & _). rewrite P2. tauto.
Qed.
Lemma padded_instance d s t p : In d (p_deps q) -> instance q' d s t p <-> instance q d s t p.
Proof.
  intros Hd. destruct (proj2 W d Hd) as (S1 & S2 & _). destruct P as (_ & P2 & _ & P4 & _). unfold instance.
  destruct (P4 _ S1) as (-> & _). destruct (P4 _ S2) as (-> & _). rewrite P2. tauto.
Qed.

Lemma padded_legal : legal q -> legal q'.
Proof.
  intros L d Hd Hr s t p I. pose proof P as (_ & _ & P3 & P4 & _). rewrite P3 in Hd. rewrite padded_instance in I by auto.
  destruct (proj2 W d Hd) as (S1 & S2 & _). destruct (P4 _ S1) as (_ & _ & _ & _ & _ & -> & _). destruct (P4 _ S2) as (_ & _ & _ & _ & _ & -> & _).
  apply lexlt_extend. apply L; auto.
Qed.

Lemma padded_wf_band b : wf_band q b -> wf_band q' b.
Proof.
  intros (A & B & C). pose proof P as (P1 & _ & _ & P4 & _). split; [auto|]. split; [auto|]. intros s Hs. destruct (C s Hs) as [X Y].
  destruct (P4 s X) as (_ & _ & _ & _ & Z & _). split; lia.
Qed.

Lemma padded_theta s k i p : (s < length (p_stmts q))%nat -> (k < mnrows (s_trans (stmt_of q s)))%nat ->
  theta (stmt_of q' s) k i p = theta (stmt_of q s) k i p.
Proof.
  intros Hs Hk. pose proof P as (_ & _ & _ & P4 & _). destruct (P4 s Hs) as (_ & _ & _ & _ & Z & T & _).
  rewrite <- !timestamp_nth by lia. rewrite T, app_nth1 by (rewrite timestamp_length; auto). auto.
Qed.

Lemma padded_safe b d : (forall s, (s < length (p_stmts q))%nat -> types_ok (stmt_of q s)) ->
  wf_band q b -> In d (p_deps q) -> band_safe q b d -> band_safe q' b d.
Proof.
  intros TO (_ & _ & HB) Hd SF. destruct (proj2 W d Hd) as (S1 & S2 & _). pose proof P as (_ & _ & _ & P4 & _).
  destruct (P4 _ S1) as (_ & _ & _ & _ & Z1 & T1 & _ & LL1). destruct (P4 _ S2) as (_ & _ & _ & _ & Z2 & T2 & _ & LL2).
  specialize (LL1 (TO _ S1)). specialize (LL2 (TO _ S2)).
  destruct SF as [N|[SP|(B1 & B2 & TL)]]; [left; auto|right; left|right; right].
  - intros s t p I. rewrite padded_instance in I by auto. rewrite T1, T2, !firstn_app. apply lexlt_extend. apply SP; auto.
  - split; auto. split; auto. destruct (HB _ (in_band_In _ _ B1)) as [_ R1]. destruct (HB _ (in_band_In _ _ B2)) as [_ R2].
      intros s t p I Z k Hk. rewrite padded_instance in I by auto.
      unfold keeps_tiles, distance in *. rewrite LL1, LL2, !padded_theta by (auto; lia).
      destruct (TL s t p I) with (k := k) as [D|(j & J1 & J2 & J3 & J4)]; auto.
      * intros j Hj. specialize (Z j Hj). rewrite !padded_theta in Z by (auto; lia). exact Z.
      * right. exists j. rewrite LL1, LL2, !padded_theta by (auto; lia). auto.
Qed.
End Pad.

(** ** The complete pass *)
Lemma fold_types bands pr : wf_core pr -> disjoint_bands bands -> Forall (wf_band pr) bands ->
  (forall s, (s < length (p_stmts pr))%nat -> types_ok (stmt_of pr s)) ->
  let q := fold_left tile_band bands pr in forall s, (s < length (p_stmts q))%nat -> types_ok (stmt_of q s).
Proof.
  revert pr. induction bands as [|b l IH]; intros pr W D F TO; cbn [fold_left]; auto.
  inversion D as [|x y D1 D2]; subst. inversion F as [|x y F1 F2]; subst.
  destruct (tile_band_tiled pr b W F1) as [W1 T].
  apply IH; auto.
  - apply Forall_forall. intros b' Hb'. eapply tiled_other_band; eauto.
    apply (proj1 (Forall_forall _ _) D1 b' Hb'). apply (proj1 (Forall_forall _ _) F2 b' Hb').
  - apply tile_band_keeps_types; auto.
Qed.

Lemma scattering_tiled pr bands : wf_core pr -> disjoint_bands bands -> Forall (wf_band pr) bands ->
  wf_core (tile_scattering_dims pr bands) /\ tiled_all pr (tile_scattering_dims pr bands) bands.
Proof.
  intros W D F. destruct (tile_bands_tiled bands pr W D F) as (A1 & A2 & A3 & A4 & A5).
  destruct (scatter_padded _ A1) as [P W']. unfold tile_scattering_dims. set (q := fold_left tile_band bands pr) in *.
  set (q' := detect_types_stmtwise _) in *. split; [exact W'|]. pose proof P as (P1 & P2 & P3 & P4 & P5).
  split; [lia|]. split; [lia|]. split; [intros; apply P5; lia|]. split.
  - intros s Hs. destruct (A4 s Hs) as (B1 & B2 & B3). destruct (P4 s) as (Q1 & Q2 & Q3 & Q4 & Q5 & Q6 & _); [lia|].
    cbv zeta in *. split; [lia|]. split.
    + intros x p Lp. rewrite <- B2 by auto. unfold iteration. rewrite Q1, Q2. tauto.
    + exists (mnrows (s_trans (stmt_of q' s)) - mnrows (s_trans (stmt_of q s)))%nat. intros i p Li Lp.
      destruct (B3 i p Li Lp) as (C1 & C2 & C3). rewrite Q6, C1, Q3, Q4. auto.
  - rewrite P3. eapply Forall2_impl_in; [|exact A5]. cbv beta. intros d d' Hin (B1 & B2 & B3 & B4 & B5 & B6).
    repeat (split; [assumption|]). intros x y p. rewrite <- B6.
    destruct (proj2 W d Hin) as (S1 & S2 & _). apply padded_instance'; auto; lia.
Qed.

Lemma scattering_legal pr bands : wf_core pr -> disjoint_bands bands -> Forall (wf_band pr) bands ->
  (forall d, In d (p_deps pr) -> d_rar d = false -> Forall (fun b => band_safe pr b d) bands) ->
  legal pr -> legal (tile_scattering_dims pr bands).
Proof.
  intros W D F SF L. destruct (tile_bands_tiled bands pr W D F) as (A1 & _).
  destruct (scatter_padded _ A1) as [P W']. unfold tile_scattering_dims. eapply padded_legal; [exact A1|exact P|].
  apply tile_bands_legal; auto.
Qed.

(** What is needed to tile the same levels again holds after the pass. *)
Lemma scattering_again pr bands bands2 : wf_core pr -> disjoint_bands bands -> Forall (wf_band pr) bands ->
  (forall d, In d (p_deps pr) -> d_rar d = false -> Forall (fun b => band_safe pr b d) bands) ->
  (forall s, (s < length (p_stmts pr))%nat -> types_ok (stmt_of pr s)) ->
  Forall2 same_levels bands bands2 ->
  let q := tile_scattering_dims pr bands in
  disjoint_bands bands2 /\ Forall (wf_band q) bands2 /\
  (forall d, In d (p_deps q) -> d_rar d = false -> Forall (fun b => band_safe q b d) bands2) /\
  (forall s, (s < length (p_stmts q))%nat -> types_ok (stmt_of q s)).
Proof.
  intros W D F SF TO SL. destruct (tile_bands_tiled bands pr W D F) as (A1 & _).
  destruct (scatter_padded _ A1) as [P W']. destruct (again_bands bands bands2 pr W D F SF SL) as [G1 G2].
  pose proof (fold_types bands pr W D F TO) as TQ. cbv zeta in *. unfold tile_scattering_dims.
  set (q := fold_left tile_band bands pr) in *. set (q' := detect_types_stmtwise _) in *.
  split; [|split; [|split]].
  - clear - D SL. induction SL as [|b b2 l l2 S SL IH]. constructor. inversion D as [|x y D1 D2]; subst. constructor; [|apply IH; auto].
    clear - D1 S SL. induction SL as [|c c2 l l2 C SL IH]; constructor; inversion D1; subst; auto.
    intros s. rewrite (same_levels_in b b2 s S), (same_levels_in c c2 s C). auto.
  - apply Forall_forall. intros b Hb. apply (padded_wf_band q); auto. apply (proj1 (Forall_forall _ _) G1 b Hb).
  - intros d Hd Hr. pose proof P as (_ & _ & P3 & _). rewrite P3 in Hd. apply Forall_forall. intros b Hb.
    apply (padded_safe q); auto. apply (proj1 (Forall_forall _ _) G1 b Hb). apply (proj1 (Forall_forall _ _) (G2 d Hd Hr) b Hb).
  - intros s Hs. pose proof P as (P1 & _ & _ & P4 & _). rewrite P1 in Hs. destruct (P4 s Hs) as (_ & _ & _ & _ & _ & _ & T & _). auto.
Qed.

(** ** Two levels of tiles *)
Lemma band_of_in bands b s : disjoint_bands bands -> In b bands -> in_band b s = true -> band_of bands s = b.
Proof.
  intros D. induction D as [|c l D1 D2 IH]; intros Hb Hs; [destruct Hb|]. rewrite band_of_cons. destruct Hb as [->|Hb].
  - rewrite Hs. auto.
  - destruct (in_band c s) eqn:E; auto. rewrite (proj1 (Forall_forall _ _) D1 b Hb s E) in Hs. discriminate.
Qed.

Lemma band_of_cases bands s : In (band_of bands s) bands /\ in_band (band_of bands s) s = true \/
  (band_of bands s = mkBand [] 0 [] /\ forall b, In b bands -> in_band b s = false).
Proof.
  unfold band_of. destruct (find _ bands) eqn:E.
  - left. apply find_some in E. auto.
  - right. split; auto. intros b Hb. apply (find_none _ _ E b Hb).
Qed.

Lemma band_of_same bands bands2 s : Forall2 same_levels bands bands2 -> in_band (band_of bands s) s = true ->
  same_levels (band_of bands s) (band_of bands2 s).
Proof.
  intros F. induction F as [|b b2 l l2 SL F IH]; intros H; [discriminate|]. rewrite !band_of_cons in *.
  rewrite (same_levels_in b b2 s SL). destruct (in_band b s) eqn:E; auto.
Qed.
Lemma band_of_same_none bands bands2 s : Forall2 same_levels bands bands2 -> (forall b, In b bands -> in_band b s = false) ->
  band_of bands2 s = mkBand [] 0 [].
Proof.
  intros F. induction F as [|b b2 l l2 SL F IH]; intros H; [reflexivity|]. rewrite band_of_cons.
  rewrite (same_levels_in b b2 s SL), H by (simpl; auto). apply IH. intros; apply H; simpl; auto.
Qed.

Lemma disjoint_again bands bands2 : disjoint_bands bands -> Forall2 same_levels bands bands2 -> disjoint_bands bands2.
Proof.
  intros D SL. induction SL as [|b b2 l l2 S SL IH]. constructor. inversion D as [|x y D1 D2]; subst. constructor; [|apply IH; auto].
  clear - D1 S SL. induction SL as [|c c2 l l2 C SL IH]; constructor; inversion D1; subst; auto.
  intros s. rewrite (same_levels_in b b2 s S), (same_levels_in c c2 s C). auto.
Qed.

Lemma fold_loop bands pr : wf_core pr -> disjoint_bands bands -> Forall (wf_band pr) bands ->
  forall s k, (s < length (p_stmts pr))%nat -> let b := band_of bands s in (k < b_first b + length (b_sizes b))%nat ->
  loop_level (stmt_of (fold_left tile_band bands pr) s) k = loop_level (stmt_of pr s) k.
Proof.
  revert pr. induction bands as [|b l IH]; intros pr W D F s k Hs; cbn [fold_left]; auto. cbv zeta. intros Hk.
  inversion D as [|x y D1 D2]; subst. inversion F as [|x y F1 F2]; subst.
  destruct (tile_band_tiled pr b W F1) as [W1 T]. pose proof T as (T1 & T2 & T3 & T4 & T5 & T6).
  assert (Forall (wf_band (tile_band pr b)) l) as F'.
  { apply Forall_forall. intros b' Hb'. eapply tiled_other_band; eauto.
    apply (proj1 (Forall_forall _ _) D1 b' Hb'). apply (proj1 (Forall_forall _ _) F2 b' Hb'). }
  rewrite band_of_cons in Hk. destruct (in_band b s) eqn:E.
  - destruct (tile_bands_tiled l _ W1 D2 F') as (_ & _ & _ & A4 & _).
    assert (forall q, wf_core q -> Forall (wf_band q) l -> (s < length (p_stmts q))%nat -> stmt_of (fold_left tile_band l q) s = stmt_of q s) as ST.
    { clear - D1 D2 E. induction D2 as [|c l' E1 E2 IH]; intros q Wq Fq Hs; auto. cbn [fold_left].
      inversion Fq as [|x y Q1 Q2]; subst. inversion D1 as [|x y R1 R2]; subst.
      destruct (tile_band_tiled q c Wq Q1) as [Wc Tc]. pose proof Tc as (U1 & U2 & U3 & U4 & _).
      rewrite IH; auto.
      - apply Forall_forall. intros b' Hb'. eapply tiled_other_band; eauto.
        apply (proj1 (Forall_forall _ _) E1 b' Hb'). apply (proj1 (Forall_forall _ _) Q2 b' Hb').
      - lia. }
    rewrite ST by (auto; lia). apply again_loop; auto.
  - rewrite IH; auto. rewrite T4 by auto. auto. lia.
Qed.

Lemma tile_coords_again st st1 f sizes sizes2 x i p : length sizes2 = length sizes ->
  (forall T, In T sizes -> 1 <= T) -> (forall T, In T sizes2 -> 1 <= T) ->
  (forall k, (f <= k < f + length sizes)%nat -> loop_level st1 k = loop_level st k) ->
  (forall k, (f <= k < f + length sizes)%nat -> theta st1 k x p = tile_time st k (nth (k - f) sizes 0) i p) ->
  tile_coords st1 f sizes2 x p = tile_coords st f (zip_with Z.mul sizes sizes2) i p.
Proof.
  revert f sizes2. induction sizes as [|T l IH]; intros f [|R l2] HL P1 P2 LL TH; try discriminate; auto.
  cbn [zip_with tile_coords]. simpl in HL. rewrite (IH (S f) l2); try lia.
  - f_equal. rewrite LL by (simpl; lia). destruct (loop_level st f) eqn:E; auto. f_equal.
    rewrite TH by (simpl; lia). unfold tile_time. rewrite E, Nat.sub_diag. cbn [nth].
    assert (1 <= T) by (apply P1; simpl; auto). assert (1 <= R) by (apply P2; simpl; auto). apply Z.div_div; lia.
  - intros; apply P1; simpl; auto.
  - intros; apply P2; simpl; auto.
  - intros k Hk. apply LL. simpl; lia.
  - intros k Hk. rewrite TH by (simpl; lia). replace (k - f)%nat with (S (k - S f)) by lia. reflexivity.
Qed.

Section Two.
Variables (pr : prog) (bands bands2 : list band).
Hypothesis W : wf_core pr.
Hypothesis D : disjoint_bands bands.
Hypothesis F : Forall (wf_band pr) bands.
Hypothesis TO : forall s, (s < length (p_stmts pr))%nat -> types_ok (stmt_of pr s).
Hypothesis SL : Forall2 same_levels bands bands2.
Let q := tile_scattering_dims pr bands.

Lemma two_nrows b s : In b bands -> In s (b_stmts b) ->
  (b_first b + length (b_sizes b) <= mnrows (s_trans (stmt_of q s)))%nat.
Proof.
  intros Hb Hs. destruct (scattering_tiled pr bands W D F) as [_ (A1 & A2 & A3 & A4 & A5)].
  destruct (proj1 (Forall_forall _ _) F b Hb) as (_ & _ & HB). destruct (HB s Hs) as [X Y].
  destruct (A4 s X) as (_ & _ & n & B). fold q in B. pose proof (In_in_band b s Hs) as E. rewrite (band_of_in bands b s D Hb E) in B.
  destruct (B (repeat 0 (s_dim (stmt_of pr s))) (repeat 0 (p_npar pr))) as [T _]; [apply repeat_length..|].
  apply (f_equal (@length Z)) in T. rewrite timestamp_length, app_length in T. unfold tile_stamp in T. rewrite E in T.
  rewrite !app_length, firstn_length, skipn_length, tile_times_length, timestamp_length in T. lia.
Qed.

Lemma two_wf : Forall (wf_band q) bands2.
Proof.
  destruct (scattering_tiled pr bands W D F) as [_ (A1 & _)]. fold q in A1.
  assert (forall b, In b bands -> wf_band pr b /\ forall s, In s (b_stmts b) -> (b_first b + length (b_sizes b) <= mnrows (s_trans (stmt_of q s)))%nat) as K.
  { intros b Hb. split. apply (proj1 (Forall_forall _ _) F b Hb). intros. apply two_nrows; auto. }
  clear F D TO. clearbody q. induction SL as [|b b2 l l2 S SL' IH]; constructor.
  - destruct (K b) as [(K1 & K2 & K3) K4]. simpl; auto. destruct S as (E1 & E2 & E3 & E4).
    split; [rewrite E1; auto|]. split; [auto|]. rewrite E1, E2, E3. intros s Hs. split. destruct (K3 s Hs). lia. auto.
  - apply IH; auto. intros; apply K; simpl; auto.
Qed.

Lemma two_loop s k : (s < length (p_stmts pr))%nat -> in_band (band_of bands s) s = true ->
  let b := band_of bands s in (k < b_first b + length (b_sizes b))%nat ->
  loop_level (stmt_of q s) k = loop_level (stmt_of pr s) k.
Proof.
  intros Hs E b Hk. destruct (tile_bands_tiled bands pr W D F) as (A1 & A2 & _).
  destruct (scatter_padded _ A1) as [(P1 & P2 & P3 & P4 & P5) _]. unfold q, tile_scattering_dims.
  destruct (P4 s) as (_ & _ & _ & _ & _ & _ & _ & LL); [lia|].
  assert (k < mnrows (s_trans (stmt_of (fold_left tile_band bands pr) s)))%nat as Hk'.
  { destruct (tile_bands_tiled bands pr W D F) as (_ & _ & _ & A4 & _). destruct (A4 s Hs) as (_ & _ & B). fold b in B.
    destruct (B (repeat 0 (s_dim (stmt_of pr s))) (repeat 0 (p_npar pr))) as [T _]; [apply repeat_length..|].
    apply (f_equal (@length Z)) in T. rewrite timestamp_length in T. unfold tile_stamp in T. fold b in E. rewrite E in T.
    rewrite !app_length, firstn_length, skipn_length, tile_times_length, timestamp_length in T.
    destruct (band_of_cases bands s) as [[C _]|[C _]]; fold b in C.
    - destruct (proj1 (Forall_forall _ _) F b C) as (_ & _ & HB). destruct (HB s (in_band_In _ _ E)). lia.
    - rewrite C in E. discriminate. }
  rewrite LL; auto.
  - apply fold_loop; auto.
  - apply (fold_types bands pr W D F TO). lia.
Qed.

Lemma two_levels : forall s x p, (s < length (p_stmts pr))%nat -> length p = p_npar pr ->
  let st := stmt_of pr s in let b := band_of bands s in let b2 := band_of bands2 s in
  (iteration (stmt_of (tile_scattering_dims q bands2) s) x p <->
   exists i, iteration st i p /\
     x = tile_coords st (b_first b) (zip_with Z.mul (b_sizes b) (b_sizes b2)) i p ++ tile_coords st (b_first b) (b_sizes b) i p ++ i).
Proof.
  intros s x p Hs Lp st b b2. destruct (scattering_tiled pr bands W D F) as [Wq (A1 & A2 & A3 & A4 & A5)]. fold q in Wq, A1, A2, A3, A4, A5.
  destruct (scattering_tiled q bands2 Wq (disjoint_again _ _ D SL) two_wf) as [_ (B1 & B2 & B3 & B4 & B5)].
  destruct (A4 s Hs) as (C1 & C2 & n & C3). destruct (B4 s) as (E1 & E2 & _); [lia|]. cbv zeta in *. fold b in C1, C2, C3. fold b2 in E1, E2.
  rewrite E2 by lia. fold st in C2, C3.
  assert (forall i, length i = s_dim st -> tile_point q b2 s (tile_point pr b s i p) p =
    tile_coords st (b_first b) (zip_with Z.mul (b_sizes b) (b_sizes b2)) i p ++ tile_coords st (b_first b) (b_sizes b) i p ++ i) as K.
  { intros i Li. destruct (band_of_cases bands s) as [[C Hb]|[C Hb]]; fold b in C.
    - fold b in Hb. pose proof (band_of_same bands bands2 s SL Hb) as S. fold b b2 in S.
      unfold tile_point at 1. rewrite (same_levels_in b b2 s S), Hb. destruct S as (S1 & S2 & S3 & S4). rewrite S2.
      rewrite (tile_coords_again st (stmt_of q s) (b_first b) (b_sizes b) (b_sizes b2) _ i p S3).
      + f_equal. unfold tile_point. rewrite Hb. reflexivity.
      + apply (proj1 (Forall_forall _ _) F b C).
      + exact S4.
      + intros k Hk. apply two_loop; auto. fold b. lia.
      + intros k Hk. destruct (C3 i p Li Lp) as (T & _).
        destruct (proj1 (Forall_forall _ _) F b C) as (_ & _ & HB). destruct (HB s (in_band_In _ _ Hb)) as [_ HR].
        pose proof (two_nrows b s C (in_band_In _ _ Hb)).
        rewrite <- timestamp_nth by lia. rewrite T. unfold tile_stamp. rewrite Hb. fold st in HR |- *.
        rewrite <- !app_assoc. rewrite app_nth2 by (rewrite firstn_length, timestamp_length; lia).
        rewrite firstn_length, timestamp_length, Nat.min_l by lia.
        rewrite app_nth1 by (rewrite tile_times_length; lia). rewrite nth_tile_times by lia. f_equal. lia.
    - assert (b2 = mkBand [] 0 []) as C' by (apply (band_of_same_none bands); auto). rewrite C, C'. reflexivity. }
  split.
  - intros (y & I & ->). apply C2 in I; auto. destruct I as (i & I & ->). exists i. split; auto. apply K. apply I.
  - intros (i & I & ->). exists (tile_point pr b s i p). split. apply C2; eauto. symmetry. apply K. apply I.
Qed.
End Two.
