(** * Diamond tiling: the whole program, one and two levels of tiles. *)
From Coq Require Import ZArith List Bool Lia Arith Permutation.
From Verif Require Import SpecLinear MathModel ConstraintsModel VecProofs EditProofs MatrixProofs SpecProg SpecTile
  RankProofs SumProofs FrameworkModel ProgModel DepProofs SimplifyProofs LexProofs ProgProofs TileModel TileProofs TileProofs2 TileProofs3
  SpecDiamond DiamondModel DiamondProofs.
Import ListNotations.
Open Scope Z_scope.

Lemma all_some_ok {A} (d : A) (l : list (option A)) : (forall k, (k < length l)%nat -> exists x, nth k l None = Some x) ->
  exists r, all_some l = Some r /\ length r = length l /\ forall k, (k < length l)%nat -> nth k l None = Some (nth k r d).
Proof.
  induction l as [|o l IH]; intros H; simpl.
  - exists []. split; auto. split; auto. intros; lia.
  - destruct (H 0%nat) as [x Hx]; [simpl; lia|]. simpl in Hx. subst o.
    destruct IH as (r & -> & L & R). { intros k Hk. apply (H (S k)). simpl; lia. }
    exists (x :: r). split; auto. split; [simpl; lia|]. intros [|k] Hk; auto. apply R. lia.
Qed.
Lemma all_some_nth {A} (d : A) (l : list (option A)) r : all_some l = Some r ->
  length r = length l /\ forall k, (k < length l)%nat -> nth k l None = Some (nth k r d).
Proof.
  revert r. induction l as [|o l IH]; intros r; simpl.
  - intros E; inversion E; subst. split; auto. intros; simpl in *; lia.
  - destruct o as [x|]; [|discriminate]. destruct (all_some l) as [r'|]; [|discriminate]. intros E; inversion E; subst.
    destruct (IH r' eq_refl) as [A1 A2]. split; [simpl; lia|]. intros [|k] Hk; auto. simpl. apply A2. simpl in *; lia.
Qed.

(** The statements of the rescheduled program. *)
Lemma resched_some pos q r x : diamond_tile_reschedule pos q = Some (r, x) ->
  length (p_stmts r) = length (p_stmts q) /\ p_npar r = p_npar q /\ p_nvar r = p_nvar q /\ p_deps r = p_deps q /\ p_hprops r = p_hprops q /\
  x = existsb (fun st => match s_evict st with Some _ => true | None => false end) (p_stmts q) /\
  forall s, (s < length (p_stmts q))%nat -> reschedule_stmt (nth s pos 0%nat) (stmt_of q s) = Some (stmt_of r s).
Proof.
  unfold diamond_tile_reschedule. destruct (all_some _) as [l|] eqn:E; [|discriminate]. intros H; inversion H; subst.
  apply (all_some_nth dummy_stmt) in E as [E1 E2]. rewrite map_length, seq_length in *. cbn [set_stmts p_stmts p_npar p_nvar p_deps p_hprops].
  do 6 (split; [auto|]). intros s Hs. specialize (E2 s Hs). etransitivity; [|exact E2].
  rewrite (nth_indep _ None (reschedule_stmt (nth 0 pos 0%nat) (stmt_of q 0))) by (rewrite map_length, seq_length; auto).
  rewrite (List.map_nth (fun k => reschedule_stmt (nth k pos 0%nat) (stmt_of q k))), seq_nth by auto. reflexivity.
Qed.
Lemma resched_exists pos q : (forall s, (s < length (p_stmts q))%nat -> exists st, reschedule_stmt (nth s pos 0%nat) (stmt_of q s) = Some st) ->
  exists r x, diamond_tile_reschedule pos q = Some (r, x).
Proof.
  intros H. unfold diamond_tile_reschedule.
  destruct (all_some_ok dummy_stmt (map (fun k => reschedule_stmt (nth k pos 0%nat) (stmt_of q k)) (seq 0 (length (p_stmts q))))) as (l & -> & _).
  - intros k Hk. rewrite map_length, seq_length in Hk. rewrite (nth_indep _ None (reschedule_stmt (nth 0 pos 0%nat) (stmt_of q 0))) by (rewrite map_length, seq_length; auto).
    rewrite (List.map_nth (fun k => reschedule_stmt (nth k pos 0%nat) (stmt_of q k))), seq_nth by auto. apply H. auto.
  - eauto.
Qed.

(** ** The exchange of rows *)
Lemma resched_stmt_some pos st st' : reschedule_stmt pos st = Some st' ->
  (s_evict st = None /\ st' = st) \/
  exists e, let fl := (s_dim st - s_dim_orig st)%nat in let r := nth (fl + pos) (mrows (s_trans st)) [] in
    s_evict st = Some e /\ (fl + length e = mncols (s_trans st))%nat /\ (fl + pos < mnrows (s_trans st))%nat /\
    st' = set_evict (set_trans st (mkMat (mncols (s_trans st)) (set_nth (fl + pos) (firstn fl r ++ e) (mrows (s_trans st))))) (Some (skipn fl r)).
Proof.
  unfold reschedule_stmt. destruct (s_evict st) as [e|]; [|intros E; inversion E; auto].
  destruct (_ && _)%bool eqn:E; [|discriminate]. apply andb_true_iff in E as [E1 E2]. apply Nat.eqb_eq in E1. apply Nat.ltb_lt in E2.
  intros H; inversion H. right. exists e. cbv zeta. auto.
Qed.

Lemma resched_involution pos st st' : wf_mat (s_trans st) -> reschedule_stmt pos st = Some st' -> reschedule_stmt pos st' = Some st.
Proof.
  intros WM H. destruct (resched_stmt_some _ _ _ H) as [[E ->]|(e & E1 & E2 & E3 & ->)].
  - exact H.
  - set (fl := (s_dim st - s_dim_orig st)%nat) in *. set (r := nth (fl + pos) (mrows (s_trans st)) []) in *.
    assert (length r = mncols (s_trans st)) as Lr by (apply WM; apply nth_In; exact E3).
    unfold reschedule_stmt. cbn [set_evict set_trans s_evict s_dim s_dim_orig s_trans mncols mrows]. fold fl.
    rewrite skipn_length. replace (fl + (length r - fl) =? mncols (s_trans st))%nat with true by (symmetry; apply Nat.eqb_eq; lia).
    unfold mnrows. cbn [mrows]. rewrite set_nth_length. unfold mnrows in E3. rewrite (proj2 (Nat.ltb_lt _ _) E3). cbn [andb]. f_equal.
    rewrite nth_set_nth_eq by exact E3.
    rewrite firstn_app, firstn_firstn, Nat.min_id, firstn_length, Nat.min_l by lia. rewrite Nat.sub_diag. cbn [firstn]. rewrite app_nil_r, firstn_skipn.
    rewrite set_nth_set. unfold r. rewrite set_nth_same.
    rewrite skipn_app, firstn_length, Nat.min_l by (fold r; lia). rewrite Nat.sub_diag. cbn [skipn].
    rewrite (skipn_all2 (firstn fl _)) by (rewrite firstn_length; lia). cbn [app]. rewrite <- E1.
    destruct st as [a1 a2 a3 a4 [a5 a5'] a6 a7 a8 a9 a10 a11 a12 a13 a14]. reflexivity.
Qed.

Lemma permutation_set_nth {A} (v d : A) k l : (k < length l)%nat -> Permutation (v :: l) (nth k l d :: set_nth k v l).
Proof.
  revert k. induction l as [|x l IH]; intros [|k] H; simpl in *; try lia.
  - apply perm_swap.
  - etransitivity; [apply perm_swap|]. etransitivity; [apply perm_skip; apply (IH k); lia|]. apply perm_swap.
Qed.

Section Diamond.
Variables (pr0 : prog) (bands : list band) (es : list eviction) (pr : prog) (pos : list nat).
Hypothesis W : wf_core pr0.
Hypothesis D : disjoint_bands bands.
Hypothesis F : Forall (wf_band pr0) bands.
Hypothesis HE : Forall (evicts_in pr0 bands) es.
Hypothesis EV : evicted pr0 es (pr, pos).
Hypothesis HO : forall s, (s < length (p_stmts pr0))%nat -> s_evict (stmt_of pr0 s) = None /\ (s_dim_orig (stmt_of pr0 s) = s_dim (stmt_of pr0 s))%nat.
Hypothesis HL : forall b s, In b bands -> In s (b_stmts b) -> num_loops (stmt_of pr0 s) (b_first b) (b_sizes b) = length (b_sizes b).
Let n := length (p_stmts pr0).

Lemma dm_len : length (p_stmts pr) = n /\ p_npar pr = p_npar pr0 /\ p_deps pr = p_deps pr0.
Proof. destruct EV as (A & B & C & _). auto. Qed.

Lemma dm_wf_band b : In b bands -> wf_band pr b.
Proof.
  intros Hb. destruct (proj1 (Forall_forall _ _) F b Hb) as (A & B & C). split; [auto|]. split; [auto|].
  intros s Hs. destruct (C s Hs) as [C1 C2]. destruct dm_len as (-> & _). split; [exact C1|].
  destruct (ev_dim pr0 bands es pr pos D HE EV s C1) as (_ & _ & _ & _ & _ & _ & _ & ->). exact C2.
Qed.
Lemma dm_wf_bands : Forall (wf_band pr) bands.
Proof. apply Forall_forall. exact dm_wf_band. Qed.
Lemma dm_wf : wf_core pr.
Proof. eapply ev_wf; eauto. Qed.

Lemma num_loops_hyp st st' k l : s_hyp st' = s_hyp st -> num_loops st' k l = num_loops st k l.
Proof. intros E. revert k. induction l; intros k; cbn [num_loops]; auto. unfold loop_level. rewrite E, IHl. reflexivity. Qed.

Lemma dm_num s : (s < n)%nat -> let b := band_of bands s in num_loops (stmt_of pr s) (b_first b) (b_sizes b) = length (b_sizes b).
Proof.
  intros Hs b. destruct (ev_dim pr0 bands es pr pos D HE EV s Hs) as (_ & _ & _ & _ & _ & E & _).
  rewrite (num_loops_hyp _ _ _ _ E). destruct (band_of_cases bands s) as [[H1 H2]|[H _]]; [fold b in H1, H2|fold b in H].
  - apply HL; auto. apply in_band_In. auto.
  - rewrite H. reflexivity.
Qed.

Lemma iter_eq s : (s < n)%nat -> forall i p, iteration (stmt_of pr s) i p <-> iteration (stmt_of pr0 s) i p.
Proof.
  intros Hs i p. destruct (ev_dim pr0 bands es pr pos D HE EV s Hs) as (E1 & E2 & _). unfold iteration. rewrite E1, E2. tauto.
Qed.

(** One level of tiles. *)
Let q := tile_scattering_dims pr bands.

Lemma dm_grown s : (s < n)%nat -> grown bands pr s (length (b_sizes (band_of bands s))) (stmt_of q s).
Proof.
  intros Hs. destruct dm_len as (L1 & L2 & L3). destruct (scattering_tiled pr bands dm_wf D dm_wf_bands) as [Wq (T1 & T2 & T3 & T4 & T5)]. fold q in Wq, T1, T2, T3, T4, T5.
  destruct (scattering_rows pr bands dm_wf D dm_wf_bands s) as (R1 & R2 & R3); [lia|]. fold q in R1, R2, R3.
  destruct (T4 s) as (A1 & A2 & z & A3); [lia|]. cbv zeta in *. rewrite (dm_num s Hs) in *.
  destruct (proj1 dm_wf (stmt_of pr s)) as ((_ & M1 & _) & _); [apply stmt_of_in; lia|].
  destruct (proj1 Wq (stmt_of q s)) as ((_ & M2 & _) & _); [apply stmt_of_in; lia|].
  split; [auto|]. split; [auto|]. split; [auto|]. split; [rewrite M1, M2, A1, T2; lia|]. split; [|exact R3].
  destruct (A3 (repeat 0 (s_dim (stmt_of pr s))) (repeat 0 (p_npar pr))) as [TS _]; [apply repeat_length..|].
  apply (f_equal (@length Z)) in TS. rewrite timestamp_length, app_length, repeat_length in TS. unfold tile_stamp in TS.
  destruct (band_of_cases bands s) as [[B1 B2]|[B1 B2]].
  - rewrite B2, !app_length, firstn_length, skipn_length, tile_times_length, timestamp_length in TS.
    destruct (dm_wf_band _ B1) as (_ & _ & C). destruct (C s (in_band_In _ _ B2)). lia.
  - rewrite B1 in *. cbn [in_band b_stmts existsb b_sizes length] in *. rewrite timestamp_length in TS. lia.
Qed.

Lemma dm_point_one s i p : tile_point pr (band_of bands s) s i p = diamond_point pr (band_of bands s) [b_sizes (band_of bands s)] s i p.
Proof. unfold tile_point, diamond_point. cbn [map concat]. rewrite app_nil_r. reflexivity. Qed.

Lemma diamond_one : exists r x, diamond_tile_reschedule pos q = Some (r, x) /\ rescheduled pr0 pr bands r (fun b => [b_sizes b]).
Proof.
  destruct dm_len as (L1 & L2 & L3). destruct (scattering_tiled pr bands dm_wf D dm_wf_bands) as [Wq (T1 & T2 & T3 & T4 & T5)]. fold q in Wq, T1, T2, T3, T4, T5.
  destruct (resched_exists pos q) as (r & x & E).
  { intros s Hs. destruct (reschedule_ok pr0 bands es pr pos W D HE EV HO s _ _ ltac:(lia) (dm_grown s ltac:(lia))) as (st2 & E & _). eauto. }
  exists r, x. split; [exact E|]. destruct (resched_some _ _ _ _ E) as (R1 & R2 & _ & R3 & _ & _ & R4).
  assert (forall s, (s < n)%nat -> s_dim (stmt_of r s) = s_dim (stmt_of q s) /\ s_domain (stmt_of r s) = s_domain (stmt_of q s) /\
    exists z, forall i p, length i = s_dim (stmt_of pr0 s) -> length p = p_npar pr0 ->
      timestamp (stmt_of r s) (tile_point pr (band_of bands s) s i p) p = diamond_stamp pr0 pr (band_of bands s) [b_sizes (band_of bands s)] s i p ++ repeat 0 z) as ST.
  { intros s Hs. destruct (reschedule_ok pr0 bands es pr pos W D HE EV HO s _ _ ltac:(lia) (dm_grown s Hs)) as (st2 & E2 & X1 & X2 & _ & _ & X5 & X6).
    rewrite R4 in E2 by lia. inversion E2; subst st2. clear E2. split; [auto|]. split; [auto|].
    destruct (T4 s) as (A1 & A2 & z & A3); [lia|]. cbv zeta in *. exists z. intros i p Li Lp.
    destruct (ev_dim pr0 bands es pr pos D HE EV s Hs) as (Ed & _).
    destruct (A3 i p) as [TS _]; [lia|lia|]. unfold tile_point, tile_stamp in *. unfold diamond_stamp.
    destruct (in_band (band_of bands s) s) eqn:B.
    - cbn [map concat]. rewrite app_nil_r, <- !app_assoc in *. apply X5; auto.
      + rewrite tile_coords_length. apply dm_num; auto.
      + apply tile_times_length.
    - apply (X6 _ i); auto. destruct (ev_cases pr0 bands es pr pos D HE EV s Hs) as [Q|(h & _ & Q & _)]; [auto|congruence]. }
  split; [lia|]. split; [lia|]. split.
  - intros s Hs b. destruct (ST s Hs) as (Y1 & Y2 & z & Y3). split.
    + intros y p Lp. destruct (T4 s) as (_ & A2 & _); [lia|]. cbv zeta in A2.
      assert (iteration (stmt_of r s) y p <-> iteration (stmt_of q s) y p) as -> by (unfold iteration; rewrite Y1, Y2; tauto).
      rewrite A2 by lia. split; intros (i & I & ->); exists i; (split; [apply (iter_eq s Hs); auto|]); unfold b; rewrite dm_point_one; reflexivity.
    + exists z. intros i p Li Lp. rewrite <- Y3 by auto. unfold b. rewrite dm_point_one. reflexivity.
  - intros L SF. apply (diamond_legal pr0 bands es pr pos W D F HE EV r (fun b => [b_sizes b])); auto.
    + intros b Hb l [<-|[]]. split; auto. apply (proj1 (Forall_forall _ _) F b Hb).
    + intros s i p Hs Li Lp. destruct (ST s Hs) as (_ & _ & z & Y3). exists (repeat 0 z). rewrite <- Y3 by auto. rewrite dm_point_one. reflexivity.
    + rewrite R3, <- L3. eapply Forall2_impl_in; [|exact T5]. cbv beta. intros d d' Hd (B1 & B2 & B3 & _ & _ & B6).
      rewrite L3 in Hd. destruct (proj2 W d Hd) as (S1 & S2 & _).
      split; [auto|]. split; [auto|]. split; [auto|]. intros x' y' p I.
      assert (instance q d' x' y' p) as I'.
      { destruct I as (I1 & I2 & I3 & I4). rewrite B1, B2 in *. destruct (ST _ S1) as (Y1 & _). destruct (ST _ S2) as (Y2 & _).
        unfold instance. rewrite B1, B2, <- Y1, <- Y2, <- R2. auto. }
      apply B6 in I' as (s & t & I0 & -> & ->). exists s, t. rewrite <- !dm_point_one. split; auto.
      apply (ev_instance pr0 bands es pr pos W D HE EV); auto.
Qed.

(** Two levels of tiles. *)
Variable sizes2 : band -> list Z.
Hypothesis HS2 : forall b, In b bands -> length (sizes2 b) = length (b_sizes b) /\ forall T, In T (sizes2 b) -> 1 <= T.
Hypothesis TO : forall s, (s < length (p_stmts pr))%nat -> types_ok (stmt_of pr s).
Let bands2 := map (fun b => mkBand (b_stmts b) (b_first b) (sizes2 b)) bands.
Let q2 := tile_scattering_dims q bands2.

Lemma dm_same : Forall2 same_levels bands bands2.
Proof.
  unfold bands2. clear - HS2. induction bands as [|b l IH]; cbn [map]; constructor.
  - destruct (HS2 b) as [A B]; [simpl; auto|]. do 3 (split; [auto|]). auto.
  - apply IH. intros b' Hb'. apply HS2. simpl; auto.
Qed.

Lemma num_loops_ext st st' l l' k : length l' = length l -> (forall j, (k <= j < k + length l)%nat -> loop_level st' j = loop_level st j) ->
  num_loops st' k l' = num_loops st k l.
Proof.
  revert l' k. induction l as [|T l IH]; intros [|T' l'] k E H; try discriminate; auto. cbn [num_loops].
  rewrite H by (simpl; lia). rewrite (IH l'); auto. intros j Hj. apply H. simpl; lia.
Qed.

Lemma tile_times_ext st st1 f sizes sz2 x i p : length sz2 = length sizes ->
  (forall T, In T sizes -> 1 <= T) -> (forall T, In T sz2 -> 1 <= T) ->
  (forall k, (f <= k < f + length sizes)%nat -> loop_level st1 k = loop_level st k) ->
  (forall k, (f <= k < f + length sizes)%nat -> theta st1 k x p = tile_time st k (nth (k - f) sizes 0) i p) ->
  tile_times st1 f sz2 x p = tile_times st f (zip_with Z.mul sizes sz2) i p.
Proof.
  revert f sz2. induction sizes as [|T l IH]; intros f [|R l2] E P1 P2 LL TH; try discriminate; auto.
  cbn [zip_with tile_times]. simpl in E. rewrite (IH (S f) l2); try lia.
  - f_equal. unfold tile_time. rewrite LL by (simpl; lia). rewrite TH by (simpl; lia). unfold tile_time. rewrite Nat.sub_diag. cbn [nth].
    destruct (loop_level st f) eqn:Q; auto.
    assert (1 <= T) by (apply P1; simpl; auto). assert (1 <= R) by (apply P2; simpl; auto). apply Z.div_div; lia.
  - intros; apply P1; simpl; auto.
  - intros; apply P2; simpl; auto.
  - intros k Hk. apply LL. simpl; lia.
  - intros k Hk. rewrite TH by (simpl; lia). replace (k - f)%nat with (S (k - S f)) by lia. reflexivity.
Qed.

Lemma zip_length {A B C} (g : A -> B -> C) l l' : length l = length l' -> length (zip_with g l l') = length l.
Proof. revert l'; induction l; intros [|y l'] E; try discriminate; simpl; auto. Qed.

Let two (b : band) : list (list Z) := [zip_with Z.mul (b_sizes b) (sizes2 b); b_sizes b].

Lemma dm_two s : (s < n)%nat -> in_band (band_of bands s) s = true -> let b := band_of bands s in
  In b bands /\ band_of bands2 s = mkBand (b_stmts b) (b_first b) (sizes2 b) /\
  num_loops (stmt_of q s) (b_first b) (sizes2 b) = length (b_sizes b) /\
  forall i p, length i = s_dim (stmt_of pr s) -> length p = p_npar pr ->
    tile_coords (stmt_of q s) (b_first b) (sizes2 b) (tile_point pr b s i p) p = tile_coords (stmt_of pr s) (b_first b) (zip_with Z.mul (b_sizes b) (sizes2 b)) i p /\
    tile_times (stmt_of q s) (b_first b) (sizes2 b) (tile_point pr b s i p) p = tile_times (stmt_of pr s) (b_first b) (zip_with Z.mul (b_sizes b) (sizes2 b)) i p.
Proof.
  intros Hs E b. destruct dm_len as (L1 & L2 & L3).
  assert (In b bands) as Hb by (destruct (band_of_cases bands s) as [[H _]|[H _]]; auto; unfold b in *; rewrite H in E; discriminate).
  split; [auto|]. destruct (HS2 b Hb) as [S1 S2].
  assert (forall k, (b_first b <= k < b_first b + length (b_sizes b))%nat -> loop_level (stmt_of q s) k = loop_level (stmt_of pr s) k) as LL.
  { intros k Hk. apply (two_loop pr bands dm_wf D dm_wf_bands TO); auto. lia. fold b. lia. }
  split.
  { apply (band_of_in bands2).
    - apply (disjoint_again bands); auto. apply dm_same.
    - unfold bands2. apply (in_map (fun b => mkBand (b_stmts b) (b_first b) (sizes2 b))). auto.
    - exact E. }
  split.
  { rewrite (num_loops_ext (stmt_of pr s) _ (b_sizes b)); auto. apply dm_num; auto. }
  intros i p Li Lp.
  assert (forall k, (b_first b <= k < b_first b + length (b_sizes b))%nat ->
    theta (stmt_of q s) k (tile_point pr b s i p) p = tile_time (stmt_of pr s) k (nth (k - b_first b) (b_sizes b) 0) i p) as TH.
  { intros k Hk. destruct (scattering_tiled pr bands dm_wf D dm_wf_bands) as [_ (T1 & T2 & T3 & T4 & T5)].
    destruct (T4 s) as (_ & _ & z & C3); [lia|]. fold q in C3. fold b in C3. destruct (C3 i p Li Lp) as (T & _).
    destruct (dm_wf_band b Hb) as (_ & _ & HB). destruct (HB s (in_band_In _ _ E)) as [_ HR].
    pose proof (two_nrows pr bands dm_wf D dm_wf_bands b s Hb (in_band_In _ _ E)) as HN. fold q in HN.
    rewrite <- timestamp_nth by lia. rewrite T. unfold tile_stamp. fold b in E. rewrite E.
    rewrite <- !app_assoc. rewrite app_nth2 by (rewrite firstn_length, timestamp_length; lia).
    rewrite firstn_length, timestamp_length, Nat.min_l by lia.
    rewrite app_nth1 by (rewrite tile_times_length; lia). rewrite nth_tile_times by lia. f_equal. lia. }
  split.
  - apply tile_coords_again; auto. apply (dm_wf_band b Hb).
  - apply tile_times_ext; auto. apply (dm_wf_band b Hb).
Qed.

Lemma dm_two_wf : Forall (wf_band q) bands2.
Proof. apply (two_wf pr bands bands2 dm_wf D dm_wf_bands dm_same). Qed.

Lemma dm_grown2 s : (s < n)%nat -> grown bands pr s (2 * length (b_sizes (band_of bands s))) (stmt_of q2 s).
Proof.
  intros Hs. destruct dm_len as (L1 & L2 & L3).
  destruct (scattering_tiled pr bands dm_wf D dm_wf_bands) as [Wq (T1 & T2 & _)]. fold q in Wq, T1, T2.
  destruct (scattering_tiled q bands2 Wq (disjoint_again _ _ D dm_same) dm_two_wf) as [Wq2 (U1 & U2 & U3 & U4 & U5)]. fold q2 in Wq2, U1, U2, U3, U4, U5.
  destruct (scattering_rows q bands2 Wq (disjoint_again _ _ D dm_same) dm_two_wf s) as (R1 & R2 & R3); [lia|]. fold q2 in R1, R2, R3.
  destruct (dm_grown s Hs) as (G1 & G2 & G3 & G4 & G5 & G6).
  destruct (proj1 dm_wf (stmt_of pr s)) as ((_ & M1 & _) & _); [apply stmt_of_in; lia|].
  destruct (proj1 Wq2 (stmt_of q2 s)) as ((_ & M2 & _) & _); [apply stmt_of_in; lia|].
  destruct (U4 s) as (A1 & _ & z & A3); [lia|]. cbv zeta in *.
  destruct (A3 (repeat 0 (s_dim (stmt_of q s))) (repeat 0 (p_npar q))) as [TS _]; [apply repeat_length..|].
  apply (f_equal (@length Z)) in TS. rewrite timestamp_length, app_length, repeat_length in TS. unfold tile_stamp in TS.
  destruct (in_band (band_of bands s) s) eqn:B.
  - destruct (dm_two s Hs B) as (B1 & B2 & B3 & _). rewrite B2 in *. cbn [b_first b_sizes b_stmts] in *. rewrite B3 in *.
    destruct (HS2 _ B1) as [S1 _]. rewrite S1 in *.
    change (in_band {| b_stmts := b_stmts (band_of bands s); b_first := b_first (band_of bands s); b_sizes := sizes2 (band_of bands s) |} s)
      with (in_band (band_of bands s) s) in TS. rewrite B in TS.
    rewrite !app_length, firstn_length, skipn_length, tile_times_length, timestamp_length, S1 in TS.
    split; [congruence|]. split; [congruence|]. split; [lia|]. split; [lia|].
    destruct (proj1 (Forall_forall _ _) F _ B1) as (_ & _ & H). destruct (H s (in_band_In _ _ B)).
    destruct (ev_dim pr0 bands es pr pos D HE EV s Hs) as (_ & _ & _ & _ & _ & _ & _ & N0). split; [lia|].
    intros l Hl. replace (l + 2 * length (b_sizes (band_of bands s)))%nat with (l + length (b_sizes (band_of bands s)) + length (b_sizes (band_of bands s)))%nat by lia.
    rewrite R3 by lia. rewrite G6 by auto. rewrite app_assoc, <- repeat_app. f_equal. f_equal. lia.
  - assert (band_of bands s = mkBand [] 0 []) as C by (destruct (band_of_cases bands s) as [[_ H]|[H _]]; auto; congruence).
    assert (band_of bands2 s = mkBand [] 0 []) as C'.
    { apply (band_of_same_none bands); [apply dm_same|]. intros b Hb. destruct (in_band b s) eqn:Q; auto.
      pose proof (band_of_in bands b s D Hb Q) as Q'. rewrite Q', Q in B. discriminate. }
    rewrite C, C' in *. cbn [b_first b_sizes b_stmts num_loops length in_band existsb] in *. rewrite timestamp_length in TS.
    split; [congruence|]. split; [congruence|]. split; [lia|]. split; [lia|]. split; [lia|].
    intros l Hl. rewrite C in Hl. cbn [b_first] in Hl. assert (0 <= l < mnrows (s_trans (stmt_of q s)))%nat as Hl' by lia. specialize (G6 l Hl). specialize (R3 l Hl').
    change (2 * 0)%nat with 0%nat. rewrite Nat.add_0_r in *. cbn [repeat app] in *. congruence.
Qed.

Lemma dm_point_two s i p : (s < n)%nat -> length i = s_dim (stmt_of pr s) -> length p = p_npar pr ->
  tile_point q (band_of bands2 s) s (tile_point pr (band_of bands s) s i p) p = diamond_point pr (band_of bands s) (two (band_of bands s)) s i p.
Proof.
  intros Hs Li Lp. unfold diamond_point. destruct (in_band (band_of bands s) s) eqn:B.
  - destruct (dm_two s Hs B) as (B1 & B2 & B3 & B4). destruct (B4 i p Li Lp) as [C _]. rewrite B2. unfold tile_point at 1. cbn [b_first b_sizes].
    change (in_band {| b_stmts := b_stmts (band_of bands s); b_first := b_first (band_of bands s); b_sizes := sizes2 (band_of bands s) |} s)
      with (in_band (band_of bands s) s). rewrite B, C. unfold tile_point. rewrite B. cbn [two map concat]. rewrite app_nil_r, app_assoc. reflexivity.
  - unfold tile_point at 2. rewrite B. unfold tile_point.
    assert (band_of bands2 s = mkBand [] 0 []) as C'.
    { apply (band_of_same_none bands); [apply dm_same|]. intros b Hb. destruct (in_band b s) eqn:Q; auto.
      pose proof (band_of_in bands b s D Hb Q) as Q'. rewrite Q', Q in B. discriminate. }
    rewrite C'. reflexivity.
Qed.

Lemma dm_stamp_two s : (s < n)%nat -> exists z, forall i p, length i = s_dim (stmt_of pr s) -> length p = p_npar pr ->
  timestamp (stmt_of q2 s) (diamond_point pr (band_of bands s) (two (band_of bands s)) s i p) p = diamond_stamp pr pr (band_of bands s) (two (band_of bands s)) s i p ++ repeat 0 z.
Proof.
  intros Hs. destruct dm_len as (L1 & L2 & L3).
  destruct (scattering_tiled pr bands dm_wf D dm_wf_bands) as [Wq (T1 & T2 & T3 & T4 & T5)]. fold q in Wq, T1, T2, T3, T4, T5.
  destruct (scattering_tiled q bands2 Wq (disjoint_again _ _ D dm_same) dm_two_wf) as [Wq2 (U1 & U2 & U3 & U4 & U5)]. fold q2 in Wq2, U1, U2, U3, U4, U5.
  destruct (T4 s) as (A1 & _ & z1 & A3); [lia|]. destruct (U4 s) as (B1 & _ & z2 & B3); [lia|]. cbv zeta in *.
  exists (z1 + z2)%nat. intros i p Li Lp. rewrite <- dm_point_two by auto.
  destruct (A3 i p Li Lp) as [E1 _].
  destruct (B3 (tile_point pr (band_of bands s) s i p) p) as [E2 _].
  { rewrite A1. unfold tile_point. destruct (in_band (band_of bands s) s) eqn:Q.
    - rewrite app_length, tile_coords_length. lia.
    - rewrite dm_num by auto. destruct (band_of_cases bands s) as [[_ H]|[H _]]; [congruence|]. rewrite H. simpl. lia. }
  { lia. }
  rewrite E2. clear E2. unfold tile_stamp at 1. unfold diamond_stamp. destruct (in_band (band_of bands s) s) eqn:B.
  - destruct (dm_two s Hs B) as (C1 & C2 & C3 & C4). destruct (C4 i p Li Lp) as [_ C5]. rewrite C2. cbn [b_first b_sizes].
    change (in_band {| b_stmts := b_stmts (band_of bands s); b_first := b_first (band_of bands s); b_sizes := sizes2 (band_of bands s) |} s)
      with (in_band (band_of bands s) s). rewrite B, C5, E1. unfold tile_stamp. rewrite B. cbn [two map concat]. rewrite app_nil_r.
    destruct (dm_wf_band _ C1) as (_ & _ & H). destruct (H s (in_band_In _ _ B)) as [_ HR].
    set (f := b_first (band_of bands s)) in *. set (ts := timestamp (stmt_of pr s) i p).
    assert (length (firstn f ts) = f) as LF by (rewrite firstn_length; unfold ts; rewrite timestamp_length; lia).
    rewrite repeat_app. rewrite <- !app_assoc.
    rewrite firstn_app, LF, Nat.sub_diag. cbn [firstn]. rewrite app_nil_r, firstn_firstn, Nat.min_id. f_equal. f_equal.
    rewrite skipn_app, LF, Nat.sub_diag. cbn [skipn]. rewrite (skipn_all2 (firstn f ts)) by lia. cbn [app]. rewrite <- !app_assoc. reflexivity.
  - assert (band_of bands2 s = mkBand [] 0 []) as C'.
    { apply (band_of_same_none bands); [apply dm_same|]. intros b Hb. destruct (in_band b s) eqn:Q; auto.
      pose proof (band_of_in bands b s D Hb Q) as Q'. rewrite Q', Q in B. discriminate. }
    rewrite C'. cbn [in_band b_stmts existsb]. rewrite E1. unfold tile_stamp. rewrite B, repeat_app, app_assoc. reflexivity.
Qed.

Lemma diamond_two : exists r x, diamond_tile_reschedule pos q2 = Some (r, x) /\ rescheduled pr0 pr bands r two.
Proof.
  destruct dm_len as (L1 & L2 & L3). destruct (scattering_tiled pr bands dm_wf D dm_wf_bands) as [Wq (T1 & T2 & T3 & T4 & T5)]. fold q in Wq, T1, T2, T3, T4, T5.
  destruct (scattering_tiled q bands2 Wq (disjoint_again _ _ D dm_same) dm_two_wf) as [Wq2 (U1 & U2 & U3 & U4 & U5)]. fold q2 in Wq2, U1, U2, U3, U4, U5.
  destruct (resched_exists pos q2) as (r & x & E).
  { intros s Hs. destruct (reschedule_ok pr0 bands es pr pos W D HE EV HO s _ _ ltac:(lia) (dm_grown2 s ltac:(lia))) as (st2 & E & _). eauto. }
  exists r, x. split; [exact E|]. destruct (resched_some _ _ _ _ E) as (R1 & R2 & _ & R3 & _ & _ & R4).
  assert (forall s, (s < n)%nat -> s_dim (stmt_of r s) = s_dim (stmt_of q2 s) /\ s_domain (stmt_of r s) = s_domain (stmt_of q2 s) /\
    exists z, forall i p, length i = s_dim (stmt_of pr0 s) -> length p = p_npar pr0 ->
      timestamp (stmt_of r s) (diamond_point pr (band_of bands s) (two (band_of bands s)) s i p) p = diamond_stamp pr0 pr (band_of bands s) (two (band_of bands s)) s i p ++ repeat 0 z) as ST.
  { intros s Hs. destruct (reschedule_ok pr0 bands es pr pos W D HE EV HO s _ _ ltac:(lia) (dm_grown2 s Hs)) as (st2 & E2 & X1 & X2 & _ & _ & X5 & X6).
    rewrite R4 in E2 by lia. inversion E2; subst st2. clear E2. split; [auto|]. split; [auto|].
    destruct (dm_stamp_two s Hs) as [z A3]. exists z. intros i p Li Lp.
    destruct (ev_dim pr0 bands es pr pos D HE EV s Hs) as (Ed & _).
    specialize (A3 i p ltac:(lia) ltac:(lia)). unfold diamond_point, diamond_stamp in *.
    destruct (in_band (band_of bands s) s) eqn:B.
    - destruct (dm_two s Hs B) as (C1 & C2 & C3 & C4). destruct (HS2 _ C1) as [S1 _].
      rewrite <- (app_assoc (firstn _ _)), <- (app_assoc (concat _)) in A3. rewrite <- (app_assoc (firstn _ _)), <- (app_assoc (concat _)). apply X5; auto.
      + cbn [two map concat]. rewrite app_nil_r, app_length, !tile_coords_length. rewrite dm_num by auto.
        rewrite (num_loops_ext (stmt_of pr s) (stmt_of pr s) (b_sizes (band_of bands s))); [rewrite dm_num by auto; lia|apply zip_length; auto|auto].
      + cbn [two map concat]. rewrite app_nil_r, app_length, !tile_times_length, zip_length by auto. lia.
    - apply (X6 _ i); auto. destruct (ev_cases pr0 bands es pr pos D HE EV s Hs) as [Q|(h & _ & Q & _)]; [auto|congruence]. }
  assert (forall s, (s < n)%nat -> forall y p, length p = p_npar pr0 ->
    (iteration (stmt_of q2 s) y p <-> exists i, iteration (stmt_of pr0 s) i p /\ y = diamond_point pr (band_of bands s) (two (band_of bands s)) s i p)) as IT.
  { intros s Hs y p Lp. destruct (T4 s) as (_ & A2 & _); [lia|]. destruct (U4 s) as (_ & B2 & _); [lia|]. cbv zeta in *.
    rewrite B2 by lia. split.
    - intros (x1 & I & ->). apply A2 in I as (i & I & ->); [|lia]. exists i. split; [apply (iter_eq s Hs); auto|]. apply dm_point_two; auto. apply I. lia.
    - intros (i & I & ->). exists (tile_point pr (band_of bands s) s i p). split.
      + apply A2; [lia|]. exists i. split; auto. apply (iter_eq s Hs). auto.
      + symmetry. apply dm_point_two; auto. apply (iter_eq s Hs) in I. apply I. lia. }
  split; [lia|]. split; [lia|]. split.
  - intros s Hs b. destruct (ST s Hs) as (Y1 & Y2 & z & Y3). split.
    + intros y p Lp. transitivity (iteration (stmt_of q2 s) y p); [unfold iteration; rewrite Y1, Y2; tauto|]. apply (IT s Hs y p Lp).
    + exists z. intros i p Li Lp. apply Y3; auto.
  - intros L SF. apply (diamond_legal pr0 bands es pr pos W D F HE EV r two); auto.
    + intros b Hb l [<-|[<-|[]]].
      * destruct (HS2 b Hb) as [S1 S2]. split; [apply zip_length; auto|]. destruct (proj1 (Forall_forall _ _) F b Hb) as (_ & P & _).
        revert P S2 S1. generalize (b_sizes b) (sizes2 b). clear. intros l. induction l as [|a l IH]; intros [|c l'] P1 P2 E T HT; try discriminate; simpl in *; try tauto.
        destruct HT as [<-|HT]; [|apply (IH l'); auto].
        assert (1 <= a) by auto. assert (1 <= c) by auto. nia.
      * split; auto. apply (proj1 (Forall_forall _ _) F b Hb).
    + intros s i p Hs Li Lp. destruct (ST s Hs) as (_ & _ & z & Y3). exists (repeat 0 z). apply Y3; auto.
    + assert (Forall2 (fun d d2 => d_src d2 = d_src d /\ d_dst d2 = d_dst d /\ d_rar d2 = d_rar d /\
        forall x y p, instance q2 d2 x y p -> exists s t, instance pr d s t p /\
          x = tile_point q (band_of bands2 (d_src d)) (d_src d) (tile_point pr (band_of bands (d_src d)) (d_src d) s p) p /\
          y = tile_point q (band_of bands2 (d_dst d)) (d_dst d) (tile_point pr (band_of bands (d_dst d)) (d_dst d) t p) p) (p_deps pr) (p_deps q2)) as FF.
      { eapply Forall2_trans'; [|exact T5|exact U5].
        cbv beta. intros d d1 d2 (B1 & B2 & B3 & _ & _ & B6) (C1 & C2 & C3 & _ & _ & C6).
        split; [congruence|]. split; [congruence|]. split; [congruence|]. intros x' y' p I.
        apply C6 in I as (s1 & t1 & I & -> & ->). apply B6 in I as (s & t & I & -> & ->). exists s, t. rewrite B1, B2. auto. }
      rewrite R3, <- L3. eapply Forall2_impl_in; [|exact FF]. cbv beta. intros d d' Hd (B1 & B2 & B3 & B6).
      rewrite L3 in Hd. destruct (proj2 W d Hd) as (S1 & S2 & _).
      split; [auto|]. split; [auto|]. split; [auto|]. intros x' y' p I.
      assert (instance q2 d' x' y' p) as I'.
      { destruct I as (I1 & I2 & I3 & I4). rewrite B1, B2 in *. destruct (ST _ S1) as (Y1 & _). destruct (ST _ S2) as (Y2 & _).
        unfold instance. rewrite B1, B2, <- Y1, <- Y2, <- R2. auto. }
      apply B6 in I' as (s & t & I0 & -> & ->). exists s, t. pose proof I0 as (J1 & J2 & J3 & _).
      split; [apply (ev_instance pr0 bands es pr pos W D HE EV); auto|]. split; apply dm_point_two; auto.
Qed.
End Diamond.
