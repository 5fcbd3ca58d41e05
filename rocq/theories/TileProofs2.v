(** * Tiling: legality. *)
From Coq Require Import ZArith List Bool Lia Arith.
From Verif Require Import SpecLinear MathModel ConstraintsModel VecProofs EditProofs MatrixProofs SpecProg SpecTile
  RankProofs SumProofs FrameworkModel ProgModel DepProofs SimplifyProofs LexProofs ProgProofs TileModel TileProofs.
Import ListNotations.
Open Scope Z_scope.

Lemma div_le_self c T : 1 <= T -> 0 <= c -> c / T <= c.
Proof. intros. apply Z.div_le_upper_bound; nia. Qed.
Lemma div_ge_self c T : 1 <= T -> c <= 0 -> c <= c / T.
Proof. intros. apply Z.div_le_lower_bound; nia. Qed.

Section Legal.
Variables (pr pr' : prog) (b : band).
Hypothesis W : wf_core pr.
Hypothesis HB : wf_band pr b.
Hypothesis HT : tiled pr pr' b.

Lemma tile_time_le d k T s t p : 1 <= T -> keeps_tiles pr d k s t p ->
  tile_time (stmt_of pr (d_src d)) k T s p <= tile_time (stmt_of pr (d_dst d)) k T t p.
Proof.
  intros H1 [D KM]. unfold distance in D. unfold tile_time.
  destruct (loop_level (stmt_of pr (d_src d)) k), (loop_level (stmt_of pr (d_dst d)) k).
  - apply Z.div_le_mono; lia.
  - destruct KM as [KM|KM]; [discriminate|].
    apply Z.le_trans with (theta (stmt_of pr (d_dst d)) k t p / T). apply Z.div_le_mono; lia. apply div_le_self; auto.
  - destruct KM as [KM|KM]; [discriminate|].
    apply Z.le_trans with (theta (stmt_of pr (d_src d)) k s p / T). apply div_ge_self; auto. apply Z.div_le_mono; lia.
  - lia.
Qed.

Lemma tile_times_lex d s t p sizes k : instance pr d s t p -> (forall T, In T sizes -> 1 <= T) ->
  (forall j, (k <= j < k + length sizes)%nat -> keeps_tiles pr d j s t p \/
      exists j', (k <= j' < j)%nat /\ loop_level (stmt_of pr (d_src d)) j' = false /\
        loop_level (stmt_of pr (d_dst d)) j' = false /\ 0 < distance pr d j' s t p) ->
  lexlt (tile_times (stmt_of pr (d_src d)) k sizes s p) (tile_times (stmt_of pr (d_dst d)) k sizes t p) \/
  tile_times (stmt_of pr (d_src d)) k sizes s p = tile_times (stmt_of pr (d_dst d)) k sizes t p.
Proof.
  intros I. revert k. induction sizes as [|T l IH]; intros k HS HD; cbn [tile_times]; auto.
  assert (keeps_tiles pr d k s t p) as D0.
  { destruct (HD k) as [H|(j & H & _)]. simpl; lia. auto. lia. }
  assert (tile_time (stmt_of pr (d_src d)) k T s p <= tile_time (stmt_of pr (d_dst d)) k T t p) as LE.
  { apply tile_time_le; auto. apply HS; simpl; auto. }
  destruct (Z.eq_dec (tile_time (stmt_of pr (d_src d)) k T s p) (tile_time (stmt_of pr (d_dst d)) k T t p)) as [EQ|NE].
  2: { left. simpl. left. lia. }
  destruct (IH (S k)) as [L|E].
  - intros; apply HS; simpl; auto.
  - intros j Hj. destruct (HD j) as [H|(j' & H1 & H2 & H3 & H4)]; auto. simpl; lia.
    destruct (Nat.eq_dec j' k) as [->|Hne].
    + exfalso. unfold tile_time in EQ. rewrite H2, H3 in EQ. unfold distance in H4. lia.
    + right. exists j'. split; auto. lia.
  - left. simpl. right. auto.
  - right. congruence.
Qed.

Lemma stamp_firstn s i p : (s < length (p_stmts pr))%nat -> firstn (b_first b) (tile_stamp pr b s i p) = firstn (b_first b) (timestamp (stmt_of pr s) i p).
Proof.
  intros Hs. unfold tile_stamp. destruct (in_band b s) eqn:E; auto.
  apply existsb_exists in E as (x & Hx & E). apply Nat.eqb_eq in E. subst x.
  destruct HB as (_ & _ & HB3). destruct (HB3 s Hx) as (_ & Hr).
  rewrite firstn_app. rewrite firstn_length. unfold timestamp at 2. rewrite map_length. unfold mnrows in Hr.
  rewrite Nat.min_l by lia. rewrite Nat.sub_diag. cbn [firstn]. rewrite app_nil_r. apply firstn_all2. rewrite firstn_length. lia.
Qed.

Lemma tiled_time s i p : (s < length (p_stmts pr))%nat -> length i = s_dim (stmt_of pr s) -> length p = p_npar pr ->
  timestamp (stmt_of pr' s) (tile_point pr b s i p) p = tile_stamp pr b s i p.
Proof.
  intros Hs Li Lp. destruct HT as (A1 & A2 & A3 & A4 & A5 & A6). destruct (in_band b s) eqn:E.
  - apply A5; auto.
  - rewrite A4 by auto. unfold tile_point, tile_stamp. rewrite E. reflexivity.
Qed.

Lemma tiled_dep_in d d' : In (d, d') (combine (p_deps pr) (p_deps pr')) ->
  In d (p_deps pr) /\ In d' (p_deps pr').
Proof. intros H. split; [eapply in_combine_l; eauto|eapply in_combine_r; eauto]. Qed.

(** The order of the instances of one dependence. *)
Lemma tile_respected d s t p : In d (p_deps pr) -> band_safe pr b d -> respected pr d -> instance pr d s t p ->
  lexlt (tile_stamp pr b (d_src d) s p) (tile_stamp pr b (d_dst d) t p).
Proof.
  intros Hd SF RS I. destruct (proj2 W d Hd) as (S1 & S2 & _).
  destruct SF as [[N1 N2]|[SP|(B1 & B2 & TO)]].
  - unfold tile_stamp. rewrite N1, N2. apply RS; auto.
  - apply (lexlt_prefix (b_first b)). rewrite !stamp_firstn by auto. apply SP; auto.
  - unfold tile_stamp. rewrite B1, B2.
    assert (forall s', in_band b s' = true -> (b_first b + length (b_sizes b) <= mnrows (s_trans (stmt_of pr s')))%nat) as HR.
    { intros s' E. apply existsb_exists in E as (x & Hx & E). apply Nat.eqb_eq in E. subst x. destruct HB as (_ & _ & HB3). apply HB3; auto. }
    pose proof (HR _ B1) as R1. pose proof (HR _ B2) as R2. specialize (RS s t p I).
    set (ts := timestamp (stmt_of pr (d_src d)) s p) in *. set (tt := timestamp (stmt_of pr (d_dst d)) t p) in *.
    assert (length ts = mnrows (s_trans (stmt_of pr (d_src d)))) as L1 by (unfold ts, timestamp; rewrite map_length; auto).
    assert (length tt = mnrows (s_trans (stmt_of pr (d_dst d)))) as L2 by (unfold tt, timestamp; rewrite map_length; auto).
    rewrite lexlt_app by (rewrite !firstn_length; lia).
    rewrite <- (firstn_skipn (b_first b) ts), <- (firstn_skipn (b_first b) tt) in RS.
    rewrite lexlt_app in RS by (rewrite !firstn_length; lia). destruct RS as [RS|[EQ RS]]; auto.
    right. split; auto.
    assert (forall k, (k < b_first b)%nat -> distance pr d k s t p = 0) as D0.
    { intros k Hk. unfold distance. rewrite <- !timestamp_nth by lia. fold ts tt.
      rewrite <- (nth_firstn_lt (b_first b) ts k 0), <- (nth_firstn_lt (b_first b) tt k 0) by auto. rewrite EQ. lia. }
    rewrite lexlt_app by (rewrite !tile_times_length; auto).
    destruct (tile_times_lex d s t p (b_sizes b) (b_first b) I) as [L|E]; auto.
    destruct HB as (_ & HB2 & _). auto.
Qed.

Lemma tiled_legal_dep d d' : In d (p_deps pr) -> band_safe pr b d -> respected pr d ->
  d_src d' = d_src d -> d_dst d' = d_dst d ->
  (forall x y p, instance pr' d' x y p <->
       exists s t, instance pr d s t p /\ x = tile_point pr b (d_src d) s p /\ y = tile_point pr b (d_dst d) t p) ->
  respected pr' d'.
Proof.
  intros Hd SF RS E1 E2 E3 x y p I. apply E3 in I as (s & t & I & -> & ->).
  destruct (proj2 W d Hd) as (S1 & S2 & _). pose proof I as (L1 & L2 & L3 & _).
  rewrite E1, E2, !tiled_time by auto. apply tile_respected; auto.
Qed.

(** A band that shares no statement with the tiled one keeps its properties. *)
Lemma tiled_other_band b2 : (forall s, in_band b s = true -> in_band b2 s = false) -> wf_band pr b2 -> wf_band pr' b2.
Proof.
  intros D (A1 & A2 & A3). destruct HT as (T1 & T2 & T3 & T4 & T5 & T6).
  split; [auto|]. split; [auto|]. intros s Hs. destruct (A3 s Hs) as [X Y]. rewrite T1. split; auto.
  rewrite T4; auto. destruct (in_band b s) eqn:E; auto. apply D in E. unfold in_band in E.
  assert (existsb (Nat.eqb s) (b_stmts b2) = true) by (apply existsb_exists; exists s; rewrite Nat.eqb_refl; auto). congruence.
Qed.

Lemma tiled_other_safe b2 d d' : In d (p_deps pr) ->
  (forall s, in_band b s = true -> in_band b2 s = false) -> band_safe pr b d -> band_safe pr b2 d ->
  d_src d' = d_src d -> d_dst d' = d_dst d ->
  (forall x y p, instance pr' d' x y p <->
       exists s t, instance pr d s t p /\ x = tile_point pr b (d_src d) s p /\ y = tile_point pr b (d_dst d) t p) ->
  band_safe pr' b2 d'.
Proof.
  intros Hd D SF SF2 E1 E2 E3. destruct (proj2 W d Hd) as (S1 & S2 & _).
  destruct HT as (T1 & T2 & T3 & T4 & T5 & T6).
  assert (forall s, in_band b2 s = true -> in_band b s = false) as D'.
  { intros s H. destruct (in_band b s) eqn:E; auto. apply D in E. congruence. }
  unfold band_safe. rewrite E1, E2.
  destruct SF2 as [N|[SP|(B1 & B2 & TO)]]; auto.
  - destruct (in_band b2 (d_src d)) eqn:F1, (in_band b2 (d_dst d)) eqn:F2; auto.
    + (* both ends in b2, separated *)
      right; left. intros x y p I. apply E3 in I as (s & t & I & -> & ->). pose proof I as (L1 & L2 & L3 & _).
      rewrite E1, E2. rewrite !T4 by auto. unfold tile_point. rewrite !D' by auto. apply SP; auto.
    + right; left. destruct SF as [[N1 N2]|[SP1|(B1 & B2 & _)]].
      * intros x y p I. apply E3 in I as (s & t & I & -> & ->). rewrite E1, E2, !T4 by auto. unfold tile_point. rewrite N1, N2. apply SP; auto.
      * intros x y p I. apply E3 in I as (s & t & I & -> & ->). pose proof I as (L1 & L2 & L3 & _).
        rewrite E1, E2, !tiled_time by auto.
        destruct (Nat.le_gt_cases (b_first b2) (b_first b)) as [LE|GT].
        -- pose proof (SP s t p I) as Q.
           rewrite <- (Nat.min_l (b_first b2) (b_first b)) in * by auto.
           rewrite <- !firstn_firstn. rewrite !stamp_firstn by auto. rewrite !firstn_firstn. exact Q.
        -- pose proof (SP1 s t p I) as Q. apply (lexlt_prefix (b_first b)).
           rewrite !firstn_firstn. rewrite Nat.min_l by lia. rewrite !stamp_firstn by auto. exact Q.
      * exfalso. rewrite D in F1 by auto. discriminate.
    + right; left. destruct SF as [[N1 N2]|[SP1|(B1 & B2 & _)]].
      * intros x y p I. apply E3 in I as (s & t & I & -> & ->). rewrite E1, E2, !T4 by auto. unfold tile_point. rewrite N1, N2. apply SP; auto.
      * intros x y p I. apply E3 in I as (s & t & I & -> & ->). pose proof I as (L1 & L2 & L3 & _).
        rewrite E1, E2, !tiled_time by auto.
        destruct (Nat.le_gt_cases (b_first b2) (b_first b)) as [LE|GT].
        -- pose proof (SP s t p I) as Q.
           rewrite <- (Nat.min_l (b_first b2) (b_first b)) in * by auto.
           rewrite <- !firstn_firstn. rewrite !stamp_firstn by auto. rewrite !firstn_firstn. exact Q.
        -- pose proof (SP1 s t p I) as Q. apply (lexlt_prefix (b_first b)).
           rewrite !firstn_firstn. rewrite Nat.min_l by lia. rewrite !stamp_firstn by auto. exact Q.
      * exfalso. rewrite D in F2 by auto. discriminate.
  - right; right. split; auto. split; auto.
    assert (forall x y p, instance pr' d' x y p <-> instance pr d x y p) as II.
    { intros x y p. rewrite E3. split.
      - intros (s & t & I & -> & ->). unfold tile_point. rewrite !D' by auto. auto.
      - intros I. exists x, y. unfold tile_point. rewrite !D' by auto. auto. }
    unfold tilable_on, keeps_tiles, distance. rewrite !E1, !E2, !T4 by auto.
    intros s t p I. rewrite II in I. apply TO; auto.
Qed.
End Legal.

(** ** All bands *)
Definition tiled_bands (pr pr' : prog) (bands : list band) : Prop :=
  wf_core pr' /\ length (p_stmts pr') = length (p_stmts pr) /\ p_npar pr' = p_npar pr /\
  (forall s, (s < length (p_stmts pr))%nat ->
     let b := band_of bands s in
     s_dim (stmt_of pr' s) = (num_loops (stmt_of pr s) (b_first b) (b_sizes b) + s_dim (stmt_of pr s))%nat /\
     (forall x p, length p = p_npar pr ->
        (iteration (stmt_of pr' s) x p <-> exists i, iteration (stmt_of pr s) i p /\ x = tile_point pr b s i p)) /\
     forall i p, length i = s_dim (stmt_of pr s) -> length p = p_npar pr ->
        timestamp (stmt_of pr' s) (tile_point pr b s i p) p = tile_stamp pr b s i p /\
        map (access_val (tile_point pr b s i p) p) (s_reads (stmt_of pr' s)) = map (access_val i p) (s_reads (stmt_of pr s)) /\
        map (access_val (tile_point pr b s i p) p) (s_writes (stmt_of pr' s)) = map (access_val i p) (s_writes (stmt_of pr s))) /\
  Forall2 (fun d d' =>
     d_src d' = d_src d /\ d_dst d' = d_dst d /\ d_rar d' = d_rar d /\ d_sat d' = d_sat d /\ d_level d' = d_level d /\
     forall x y p, instance pr' d' x y p <->
       exists s t, instance pr d s t p /\ x = tile_point pr (band_of bands (d_src d)) (d_src d) s p /\
                   y = tile_point pr (band_of bands (d_dst d)) (d_dst d) t p)
    (p_deps pr) (p_deps pr').

Lemma band_of_none bands s : (forall b, In b bands -> in_band b s = false) -> band_of bands s = mkBand [] 0 [].
Proof.
  intros H. unfold band_of. destruct (find _ bands) eqn:E; auto. apply find_some in E as [E1 E2].
  rewrite H in E2 by auto. discriminate.
Qed.
Lemma band_of_cons b l s : band_of (b :: l) s = if in_band b s then b else band_of l s.
Proof. unfold band_of; cbn [find]. destruct (in_band b s); auto. Qed.

Lemma tile_bands_tiled bands pr : wf_core pr -> disjoint_bands bands -> Forall (wf_band pr) bands ->
  tiled_bands pr (fold_left tile_band bands pr) bands.
Proof.
  revert pr. induction bands as [|b l IH]; intros pr W D F; cbn [fold_left].
  - split; [auto|]. split; [auto|]. split; [auto|]. split.
    + intros s Hs. cbn. split; [auto|]. split.
      * intros x p Lp. split. intros I; exists x; auto. intros (i & I & ->); auto.
      * intros i p Li Lp. auto.
    + apply Forall2_diag. intros d Hd. repeat (split; [reflexivity|]). intros x y p. split.
      * intros I. exists x, y. auto.
      * intros (s & t & I & -> & ->). exact I.
  - inversion D as [|x y D1 D2]; subst. inversion F as [|x y F1 F2]; subst.
    destruct (tile_band_tiled pr b W F1) as [W1 T]. set (pr1 := tile_band pr b) in *.
    assert (Forall (wf_band pr1) l) as F'.
    { apply Forall_forall. intros b' Hb'. eapply tiled_other_band; eauto.
      apply (proj1 (Forall_forall _ _) D1 b' Hb'). apply (proj1 (Forall_forall _ _) F2 b' Hb'). }
    destruct (IH pr1 W1 D2 F') as (A1 & A2 & A3 & A4 & A5). set (pr2 := fold_left tile_band l pr1) in *.
    pose proof T as (T1 & T2 & T3 & T4 & T5 & T6).
    assert (forall s, in_band b s = true -> band_of l s = mkBand [] 0 []) as BO.
    { intros s Hs. apply band_of_none. intros b' Hb'. apply (proj1 (Forall_forall _ _) D1 b' Hb'); auto. }
    assert (forall s i p, tile_point pr1 (band_of l s) s (tile_point pr b s i p) p = tile_point pr (band_of (b :: l) s) s i p) as TP.
    { intros s i p. rewrite band_of_cons. destruct (in_band b s) eqn:E.
      - rewrite BO by auto. reflexivity.
      - unfold tile_point at 2. rewrite E. unfold tile_point. rewrite T4 by auto. reflexivity. }
    split; [auto|]. split; [lia|]. split; [lia|]. split.
    + intros s Hs. destruct (A4 s ltac:(lia)) as (B1 & B2 & B3). cbv zeta in *.
      rewrite band_of_cons. destruct (in_band b s) eqn:E.
      * rewrite (BO s E) in *. destruct (T5 s Hs E) as (C1 & C2 & C3).
        cbn [b_first b_sizes num_loops] in B1. rewrite Nat.add_0_l in B1. rewrite B1.
        split; [exact C1|]. split.
        -- intros x p Lp. rewrite B2 by lia. split.
           ++ intros (i & I & ->). apply C2 in I; auto.
           ++ intros I. exists x. split; auto. apply C2; auto.
        -- intros i p Li Lp. destruct (C3 i p Li Lp) as (X1 & X2 & X3).
           destruct (B3 (tile_point pr b s i p) p) as (Y1 & Y2 & Y3).
           { rewrite C1. unfold tile_point. rewrite E, app_length, tile_coords_length. lia. }
           { lia. }
           unfold tile_point at 1, tile_stamp at 1 in Y1. cbn [in_band b_stmts existsb] in Y1.
           unfold tile_point at 1 in Y2. unfold tile_point at 1 in Y3. cbn [in_band b_stmts existsb] in Y2, Y3.
           rewrite Y1, Y2, Y3. auto.
      * rewrite (T4 s E) in *. rewrite T2 in *.
        assert (forall b' i p, tile_point pr1 b' s i p = tile_point pr b' s i p) as Q by (intros; unfold tile_point; rewrite T4; auto).
        assert (forall b' i p, tile_stamp pr1 b' s i p = tile_stamp pr b' s i p) as Q' by (intros; unfold tile_stamp; rewrite T4; auto).
        split; [auto|]. split.
        -- intros x p Lp. rewrite B2 by auto. split; intros (i & I & ->); exists i; rewrite ?Q; auto.
        -- intros i p Li Lp. specialize (B3 i p Li Lp). rewrite Q, Q' in B3. auto.
    + eapply Forall2_trans'; [|exact T6|exact A5].
      cbv beta. intros d d1 d2 (B1 & B2 & B3 & B4 & B5 & B6) (C1 & C2 & C3 & C4 & C5 & C6).
      rewrite C1, C2, C3, C4, C5. repeat (split; [assumption|]). intros x y p. rewrite C6, B1, B2. split.
      * intros (s & t & I & -> & ->). apply B6 in I as (s0 & t0 & I & -> & ->). exists s0, t0. rewrite !TP. auto.
      * intros (s & t & I & -> & ->). exists (tile_point pr b (d_src d) s p), (tile_point pr b (d_dst d) t p).
        rewrite !TP. split; auto. apply B6. exists s, t. auto.
Qed.

Lemma Forall2_in_r {A B} (R : A -> B -> Prop) l l' y : Forall2 R l l' -> In y l' -> exists x, In x l /\ R x y.
Proof.
  intros F. induction F; simpl; intros H0; [contradiction|]. destruct H0 as [->|H0].
  - eauto.
  - destruct (IHF H0) as (z & Hz & Rz). eauto.
Qed.

Lemma tile_bands_legal bands pr : wf_core pr -> disjoint_bands bands -> Forall (wf_band pr) bands ->
  (forall d, In d (p_deps pr) -> d_rar d = false -> Forall (fun b => band_safe pr b d) bands) ->
  legal pr -> legal (fold_left tile_band bands pr).
Proof.
  revert pr. induction bands as [|b l IH]; intros pr W D F SF L; cbn [fold_left]; auto.
  inversion D as [|x y D1 D2]; subst. inversion F as [|x y F1 F2]; subst.
  destruct (tile_band_tiled pr b W F1) as [W1 T]. set (pr1 := tile_band pr b) in *.
  assert (Forall (wf_band pr1) l) as F'.
  { apply Forall_forall. intros b' Hb'. eapply tiled_other_band; eauto.
    apply (proj1 (Forall_forall _ _) D1 b' Hb'). apply (proj1 (Forall_forall _ _) F2 b' Hb'). }
  pose proof T as (T1 & T2 & T3 & T4 & T5 & T6).
  apply IH; auto.
  - intros d' Hd' Hr. destruct (Forall2_in_r _ _ _ _ T6 Hd') as (d & Hd & B1 & B2 & B3 & B4 & B5 & B6).
    rewrite B3 in Hr. specialize (SF d Hd Hr). inversion SF as [|x y S1 S2]; subst.
    apply Forall_forall. intros b' Hb'. eapply (tiled_other_safe pr pr1 b); eauto.
    apply (proj1 (Forall_forall _ _) D1 b' Hb'). apply (proj1 (Forall_forall _ _) S2 b' Hb').
  - intros d' Hd' Hr. destruct (Forall2_in_r _ _ _ _ T6 Hd') as (d & Hd & B1 & B2 & B3 & B4 & B5 & B6).
    rewrite B3 in Hr. specialize (SF d Hd Hr). inversion SF as [|x y S1 S2]; subst.
    eapply (tiled_legal_dep pr pr1 b); eauto.
Qed.

(** ** Padding and types *)
Lemma sink_iter n st : let st' := Nat.iter n (fun st => sink_transformation st (mnrows (s_trans st))) st in
  s_dim st' = s_dim st /\ s_domain st' = s_domain st /\ s_reads st' = s_reads st /\ s_writes st' = s_writes st /\
  s_orig st' = s_orig st /\ mncols (s_trans st') = mncols (s_trans st) /\
  mrows (s_trans st') = mrows (s_trans st) ++ repeat (repeat 0 (mncols (s_trans st))) n /\
  (length (s_hyp st) = mnrows (s_trans st) -> s_hyp st' = s_hyp st ++ repeat H_SCALAR n).
Proof.
  induction n as [|n IH]; cbn [Nat.iter nat_rect]; cbv zeta.
  - simpl. rewrite !app_nil_r. repeat (split; [reflexivity|]). auto.
  - cbv zeta in IH. set (q := nat_rect _ _ _ n) in *. change (Nat.iter n (fun st => sink_transformation st (mnrows (s_trans st))) st) with q in IH.
    destruct IH as (A & B & C & D & E & F & G & H). unfold sink_transformation. cbn [set_hyp set_trans s_dim s_domain s_reads s_writes s_orig s_trans s_hyp].
    repeat (split; [assumption|]). cbn [matrix_add_row mrows]. split.
    + unfold mnrows. rewrite insert_at_end, G, F, <- app_assoc. f_equal. symmetry. apply repeat_cons.
    + intros HL. rewrite (H HL). replace (mnrows (s_trans q)) with (length (s_hyp st ++ repeat H_SCALAR n)).
      * rewrite insert_at_end, <- app_assoc. f_equal. symmetry. apply repeat_cons.
      * unfold mnrows. rewrite G, !app_length, !repeat_length. unfold mnrows in HL. lia.
Qed.
