(** * The bands to be tiled are disjoint and safe to tile. *)
From Coq Require Import ZArith List Bool Lia Arith.
From Verif Require Import SpecLinear MathModel ConstraintsModel VecProofs EditProofs MatrixProofs SpecProg SpecTile SpecLoop
  RankProofs SumProofs FrameworkModel ProgModel DepProofs SimplifyProofs LexProofs ProgProofs TileModel TileProofs TileProofs2 TileProofs3
  LoopModel LoopProofs LoopProofs2 LoopProofs3.
Import ListNotations.
Open Scope Z_scope.

Lemma lexlt_at m a b : (m < length a)%nat -> (m < length b)%nat -> (forall i, (i < m)%nat -> 0 <= nth i b 0 - nth i a 0) -> 0 < nth m b 0 - nth m a 0 -> lexlt a b.
Proof.
  revert a b. induction m as [|m IH]; intros [|x a] [|y b] La Lb H P; cbn in *; try lia.
  destruct (Z.eq_dec x y) as [->|N].
  - right. split; auto. apply IH; try lia. intros i Hi. apply (H (S i)). lia.
  - left. specialize (H 0%nat ltac:(lia)). cbn in H. lia.
Qed.

Lemma timestamp_len pr s i p : wf_levels pr -> (s < length (p_stmts pr))%nat -> length (timestamp (stmt_of pr s) i p) = length (p_hprops pr).
Proof. intros W H. unfold timestamp. rewrite map_length. apply (proj2 W); auto. Qed.
Lemma timestamp_at pr s k i p : wf_levels pr -> (s < length (p_stmts pr))%nat -> (k < length (p_hprops pr))%nat ->
  nth k (timestamp (stmt_of pr s) i p) 0 = theta (stmt_of pr s) k i p.
Proof.
  intros W H Hk. unfold timestamp, theta. pose proof (proj2 W s H) as R. unfold mnrows in R.
  rewrite (nth_indep _ 0 ((fun r => aff r (i ++ p)) [])) by (rewrite map_length; lia).
  rewrite (List.map_nth (fun r => aff r (i ++ p))). auto.
Qed.

(** Enough for an order by the levels before [a]. *)
Lemma separated_at pr d a : wf_levels pr -> In d (p_deps pr) -> (a <= length (p_hprops pr))%nat ->
  (forall s t p, instance pr d s t p -> exists m, (m < a)%nat /\ (forall i, (i < m)%nat -> 0 <= distance pr d i s t p) /\ 0 < distance pr d m s t p) ->
  separated_before pr d a.
Proof.
  intros W Hd Ha H s t p I. destruct (H s t p I) as (m & Hm & A & B). destruct (proj2 (proj1 W) d Hd) as (D1 & D2 & _).
  assert (forall l i, (i < a)%nat -> nth i (firstn a l) 0 = nth i l 0) as NF.
  { clear. intros l. revert a. induction l as [|x l IH]; intros [|a] [|i] Hi; cbn; auto; try lia. apply IH. lia. }
  apply (lexlt_at m).
  - rewrite firstn_length, timestamp_len; auto. lia.
  - rewrite firstn_length, timestamp_len; auto. lia.
  - intros i Hi. rewrite !NF by lia. rewrite !timestamp_at by (auto; lia). apply (A i); auto.
  - rewrite !NF by lia. rewrite !timestamp_at by (auto; lia). apply B.
Qed.

Section Safe.
Variable pr : prog.
Hypothesis W : wf_levels pr.
Hypothesis PL : plain_levels pr.
Hypothesis UN : uniform pr.
Hypothesis INF : forall d, In d (p_deps pr) -> d_rar d = false -> info_ok pr d.
Hypothesis LV : leveled pr.

Let TO : forall s, (s < length (p_stmts pr))%nat -> types_ok (stmt_of pr s).
Proof. intros s Hs. apply PL; auto. Qed.

Lemma distance_const d j s t p : In d (p_deps pr) -> instance pr d s t p -> (j < length (p_hprops pr))%nat ->
  loop_level (stmt_of pr (d_src d)) j = false -> loop_level (stmt_of pr (d_dst d)) j = false ->
  distance pr d j s t p = row_const (stmt_of pr (d_dst d)) j - row_const (stmt_of pr (d_src d)) j.
Proof.
  intros Hd (L1 & L2 & L3 & _) Hj A B. destruct (proj2 (proj1 W) d Hd) as (D1 & D2 & _). unfold distance.
  rewrite !(const_value pr W PL); auto.
Qed.

(** A dependence with one end in the loop is ordered before it. *)
Lemma one_end lp d : In lp (get_all_loops pr) -> In d (p_deps pr) -> d_rar d = false ->
  (In (d_src d) (l_stmts lp) /\ ~ In (d_dst d) (l_stmts lp) \/ ~ In (d_src d) (l_stmts lp) /\ In (d_dst d) (l_stmts lp)) ->
  separated_before pr d (l_depth lp).
Proof.
  intros HL Hd R E. destruct (all_loops_ok pr lp HL) as (LP1 & _). destruct (all_loops_class pr W PL UN lp HL) as [C1 C2].
  destruct (proj2 (proj1 W) d Hd) as (D1 & D2 & _).
  destruct (fused_cases pr W PL (l_depth lp) (d_src d) (d_dst d)) as [F|(j & Hj & A & B & C)]; auto; try lia.
  { exfalso. destruct E as [[E1 E2]|[E1 E2]].
    - apply E2. apply (C2 (d_src d)); auto.
    - apply E1. apply (C2 (d_dst d)); auto. apply fused_sym; auto. }
  apply separated_at; auto. lia. intros s t p I. destruct (LV d Hd R) as (L & O1 & O2 & O3).
  destruct (Nat.lt_ge_cases L (l_depth lp)) as [X|X].
  - exists L. split; auto. split; [intros i Hi; apply O3; auto|apply O2; auto].
  - exists j. split; auto. split; [intros i Hi; apply O3; auto; lia|].
    assert (0 <= distance pr d j s t p) by (apply O3; auto; lia). rewrite (distance_const d j s t p) in *; auto; lia.
Qed.

Definition good_band (b : pband) : Prop :=
  In (pb_loop b) (get_all_loops pr) /\ (1 <= pb_width b)%nat /\ (l_depth (pb_loop b) + pb_width b <= length (p_hprops pr))%nat /\
  ((pb_width b = 1%nat /\ loop_is_parallel pr (pb_loop b) = true) \/
   (forall k d, (l_depth (pb_loop b) <= k < l_depth (pb_loop b) + pb_width b)%nat -> In d (p_deps pr) -> stops_band pr (pb_loop b) k d = false)).

Lemma good_tilable b d : good_band b -> In d (p_deps pr) -> d_rar d = false ->
  In (d_src d) (l_stmts (pb_loop b)) -> In (d_dst d) (l_stmts (pb_loop b)) ->
  tilable_on pr d (l_depth (pb_loop b)) (l_depth (pb_loop b) + pb_width b).
Proof.
  intros (G1 & G2 & G3 & G4) Hd R H1 H2 s t p I Z k Hk. pose proof (all_loops_ok pr _ G1) as LP.
  pose proof (all_loops_class pr W PL UN _ G1) as [C1 C2]. pose proof (C1 _ H1) as N1. pose proof (C1 _ H2) as N2.
  assert (fused pr (l_depth (pb_loop b)) (d_src d) (d_dst d)) as FU by (apply C2; auto).
  destruct G4 as [[G4 PA]|ST].
  - left. assert (k = l_depth (pb_loop b)) as -> by lia.
    assert (distance pr d (l_depth (pb_loop b)) s t p = 0) as D.
    { apply (parallel_sound pr (pb_loop b) (info_sound pr INF) ltac:(lia) PA d Hd R H1 H2 s t p I Z). }
    split; [lia|]. left. apply (UN (d_src d) (d_dst d)); auto. lia.
  - pose proof (band_levels pr W TO INF LV (pb_loop b) (pb_width b) d LP G3 (fun k H => ST k d H Hd) Hd R H1 H2 s t p I Z) as BL.
    destruct (bool_dec (loop_level (stmt_of pr (d_src d)) k) (loop_level (stmt_of pr (d_dst d)) k)) as [E|E].
    + destruct (BL k Hk) as [A|A]; [left; split; auto|right; auto].
    + destruct (fused_cases pr W PL k (d_src d) (d_dst d)) as [F|(j & Hj & A & B & C)]; auto; try lia.
      { exfalso. apply E. apply UN; auto. lia. }
      destruct (Nat.lt_ge_cases j (l_depth (pb_loop b))) as [X|X].
      { exfalso. specialize (Z j X). rewrite (distance_const d j s t p) in Z; auto; lia. }
      right. destruct (BL j ltac:(lia)) as [D|(j' & J1 & J2)].
      * exists j. split; [lia|]. split; auto. split; auto. rewrite (distance_const d j s t p) in *; auto; lia.
      * exists j'. split; [lia|]. auto.
Qed.

Lemma good_wf sizes b : good_band b -> length (sizes b) = pb_width b -> (forall T, In T (sizes b) -> 1 <= T) -> wf_band pr (with_sizes sizes b).
Proof.
  intros (G1 & G2 & G3 & G4) L S. destruct (all_loops_ok pr _ G1) as (LP1 & LP2 & LP3 & LP4). unfold wf_band, with_sizes. cbn [b_stmts b_sizes b_first].
  split; auto. split; auto. intros s Hs. destruct (LP4 s Hs) as [A _]. split; auto. rewrite (proj2 W) by auto. lia.
Qed.

Lemma in_with sizes b s : in_band (with_sizes sizes b) s = true <-> In s (l_stmts (pb_loop b)).
Proof. unfold in_band, with_sizes. cbn. fold (stmt_is_member_of s (l_stmts (pb_loop b))). apply member_In. Qed.
Lemma in_with_false sizes b s : in_band (with_sizes sizes b) s = false <-> ~ In s (l_stmts (pb_loop b)).
Proof. rewrite <- (in_with sizes). destruct (in_band _ s); split; intros H; auto; try discriminate. exfalso; auto. Qed.

Lemma good_safe sizes b d : good_band b -> length (sizes b) = pb_width b -> In d (p_deps pr) -> d_rar d = false -> band_safe pr (with_sizes sizes b) d.
Proof.
  intros G L Hd R. unfold band_safe. destruct (in_band (with_sizes sizes b) (d_src d)) eqn:E1, (in_band (with_sizes sizes b) (d_dst d)) eqn:E2.
  - right. right. apply in_with in E1, E2. split; auto. split; auto. cbn [b_first b_sizes with_sizes]. rewrite L. apply good_tilable; auto.
  - right. left. apply in_with in E1. apply in_with_false in E2. cbn. apply one_end; auto. apply G.
  - right. left. apply in_with in E2. apply in_with_false in E1. cbn. apply one_end; auto. apply G.
  - left. auto.
Qed.

(** ** Collecting the bands *)
Lemma collect_ok keep loops : (forall lp, In lp loops -> In lp (get_all_loops pr)) -> exists l, collect_bands pr keep loops = Some l.
Proof.
  induction loops as [|lp ls IH]; intros H; cbn; [eauto|].
  pose proof (band_no_abort pr INF LV lp (all_loops_ok pr lp (H lp (or_introl eq_refl)))) as NA.
  destruct IH as (l & ->); [intros; apply H; simpl; auto|]. destruct (get_permutable_band pr lp); [congruence|eauto|eauto].
Qed.

Definition from_loop (b : pband) : Prop := get_permutable_band pr (pb_loop b) = BandFound b.

Lemma found_from lp b : get_permutable_band pr lp = BandFound b -> pb_loop b = lp.
Proof. unfold get_permutable_band. destruct (peel pr lp _); [|discriminate]. destruct (_ =? 1)%nat; [discriminate|]. intros [= <-]; auto. Qed.

Lemma collect_In keep loops l : collect_bands pr keep loops = Some l -> forall b, In b l <-> In (pb_loop b) loops /\ from_loop b /\ keep b = true.
Proof.
  revert l. induction loops as [|lp ls IH]; intros l; cbn.
  - intros [= <-] b. cbn. tauto.
  - destruct (get_permutable_band pr lp) as [| |b0] eqn:E; [discriminate| |]; destruct (collect_bands pr keep ls) as [l0|]; try discriminate; intros [= <-] b; specialize (IH l0 eq_refl b).
    + rewrite IH. split; [tauto|]. intros ([H|H] & F & K); auto. unfold from_loop in F. rewrite <- H in F. congruence.
    + assert (forall c, from_loop c -> lp = pb_loop c -> c = b0) as U by (intros c F Q; unfold from_loop in F; rewrite <- Q in F; congruence).
      assert (pb_loop b0 = lp) as P0 by (apply found_from; auto).
      assert (from_loop b0) as F0 by (unfold from_loop; rewrite P0; auto).
      destruct (keep b0) eqn:K0; cbn; rewrite IH; split.
      * intros [<-|H]; [rewrite P0; auto|tauto].
      * intros ([H|H] & F & K); [left; symmetry; apply U; auto|auto].
      * tauto.
      * intros ([H|H] & F & K); auto. rewrite (U b F H) in K. congruence.
Qed.

Lemma collect_apart keep loops l : collect_bands pr keep loops = Some l -> ForallOrdPairs apart loops ->
  ForallOrdPairs (fun b b' => apart (pb_loop b) (pb_loop b')) l.
Proof.
  revert l. induction loops as [|lp ls IH]; intros l; cbn.
  - intros [= <-] _. constructor.
  - destruct (get_permutable_band pr lp) as [| |b0] eqn:E; [discriminate| |]; destruct (collect_bands pr keep ls) as [l0|] eqn:C; try discriminate; intros [= <-] F;
      inversion F as [|x r F1 F2]; subst; auto. destruct (keep b0); auto. constructor; auto.
    rewrite Forall_forall in *. intros b Hb. rewrite (found_from lp b0 E). apply F1. apply (collect_In keep ls l0 C b); auto.
Qed.

Lemma fop_filter {A} (P : A -> A -> Prop) f l : ForallOrdPairs P l -> ForallOrdPairs P (filter f l).
Proof.
  induction 1 as [|x r H F IH]; cbn; [constructor|]. destruct (f x); auto. constructor; auto.
  rewrite Forall_forall in *. intros y Hy. apply filter_In in Hy as [Hy _]. auto.
Qed.
Lemma fop_weaken {A} (P Q : A -> A -> Prop) l : ForallOrdPairs P l -> (forall x y, In x l -> In y l -> P x y -> Q x y) -> ForallOrdPairs Q l.
Proof.
  induction 1 as [|x r H F IH]; intros K; constructor.
  - rewrite Forall_forall in *. intros y Hy. apply K; simpl; auto.
  - apply IH. intros; apply K; simpl; auto.
Qed.

Definition share_none (b b' : pband) : Prop := forall s, In s (l_stmts (pb_loop b)) -> ~ In s (l_stmts (pb_loop b')).

Lemma from_good b : In (pb_loop b) (get_all_loops pr) -> from_loop b -> good_band b /\ (2 <= pb_width b)%nat /\
  exists s, In s (l_stmts (pb_loop b)) /\ loop_level (stmt_of pr s) (l_depth (pb_loop b) + pb_width b - 1) = true.
Proof.
  intros H F. pose proof (all_loops_ok pr _ H) as LP. destruct (band_found pr _ _ LP F) as (_ & A & B & C & D).
  split; [|split; auto].
  - split; auto. split; [lia|]. split; auto.
  - unfold is_depth_scalar in C. 
    assert (exists s, In s (l_stmts (pb_loop b)) /\ is_hyperplane_scalar (stmt_of pr s) (l_depth (pb_loop b) + pb_width b - 1) = false) as (s & S1 & S2).
    { revert C. generalize (l_stmts (pb_loop b)). clear. induction l as [|x l IH]; cbn; [discriminate|].
      destruct (is_hyperplane_scalar (stmt_of pr x) _) eqn:E; cbn; [|eauto]. intros H. destruct (IH H) as (s & A & B). eauto. }
    exists s. split; auto. destruct LP as (_ & _ & _ & LP4). destruct (LP4 s S1) as [N _].
    rewrite scalar_level in S2; auto. destruct (loop_level _ _); auto. rewrite (proj2 W) by auto. lia.
Qed.

Lemma bands_result keep l : collect_bands pr keep (get_all_loops pr) = Some l ->
  Forall good_band (get_dominator_bands l) /\ ForallOrdPairs share_none (get_dominator_bands l).
Proof.
  intros C. split.
  - rewrite Forall_forall. intros b Hb. apply filter_In in Hb as [Hb _]. apply (collect_In _ _ _ C) in Hb as (H & F & _). apply from_good; auto.
  - eapply fop_weaken; [apply fop_filter, (collect_apart _ _ _ C); apply loops_under_apart|].
    intros b b' Hb Hb' AP s S1 S2. apply filter_In in Hb as [Hb Nb]. apply filter_In in Hb' as [Hb' Nb'].
    pose proof (proj1 (proj1 (collect_In _ _ _ C b) Hb)) as B1. pose proof (proj1 (proj1 (collect_In _ _ _ C b') Hb')) as B2.
    rewrite negb_true_iff in Nb, Nb'. destruct (Nat.lt_trichotomy (l_depth (pb_loop b)) (l_depth (pb_loop b'))) as [X|[X|X]].
    + assert (existsb (is_band_dominated b') l = true); [|congruence]. apply existsb_exists. exists b. split; auto.
      unfold is_band_dominated. rewrite (proj2 (Nat.ltb_lt _ _) X). rewrite (proj2 (subset_In _ _)); auto.
      intros t Ht. apply (nested pr W PL UN (pb_loop b) (pb_loop b') s); auto; lia.
    + apply (AP X s); auto.
    + assert (existsb (is_band_dominated b) l = true); [|congruence]. apply existsb_exists. exists b'. split; auto.
      unfold is_band_dominated. rewrite (proj2 (Nat.ltb_lt _ _) X). rewrite (proj2 (subset_In _ _)); auto.
      intros t Ht. apply (nested pr W PL UN (pb_loop b') (pb_loop b) s); auto; lia.
Qed.

(** ** The one-dimensional bands *)
Lemma not_innermost lp s k : In s (l_stmts lp) -> (s < length (p_stmts pr))%nat -> (l_depth lp < k < length (p_hprops pr))%nat -> loop_level (stmt_of pr s) k = true -> loop_is_innermost pr lp = false.
Proof.
  intros Hs Hn Hk L. unfold loop_is_innermost, get_loops_under.
  destruct (loops_under_complete pr (length (p_hprops pr) - S (l_depth lp)) (l_stmts lp) (S (l_depth lp)) s k) as (x & A & _); auto; try lia.
  - rewrite loop_is_level; auto. rewrite (proj2 W) by auto. lia.
  - destruct (loops_under pr _ _ _); [destruct A|auto].
Qed.

Lemma loop_hd lp : In lp (get_all_loops pr) -> In (hd 0%nat (l_stmts lp)) (l_stmts lp).
Proof. intros H. destruct (all_loops_ok pr lp H) as (_ & N & _). destruct (l_stmts lp); [congruence|simpl; auto]. Qed.

Lemma dominated l1 l2 s : In l1 (get_all_loops pr) -> In l2 (get_all_loops pr) -> In s (l_stmts l1) -> In s (l_stmts l2) ->
  (l_depth l2 < l_depth l1)%nat -> is_loop_dominated pr l1 l2 = true.
Proof.
  intros H1 H2 S1 S2 LT. unfold is_loop_dominated. rewrite (proj2 (Nat.ltb_lt _ _) LT). cbn [andb]. apply forallb_forall. intros i Hi. apply in_seq in Hi.
  pose proof (loop_hd l1 H1) as A. pose proof (loop_hd l2 H2) as B.
  destruct (all_loops_class pr W PL UN l2 H2) as [C1 C2]. destruct (all_loops_ok pr l2 H2) as (D1 & _ & _ & D).
  assert (In (hd 0%nat (l_stmts l1)) (l_stmts l2)) as A2 by (apply (nested pr W PL UN l2 l1 s); auto; lia).
  set (x := hd 0%nat (l_stmts l1)) in *. set (y := hd 0%nat (l_stmts l2)) in *.
  destruct (is_hyperplane_scalar (stmt_of pr x) i) eqn:E1, (is_hyperplane_scalar (stmt_of pr y) i) eqn:E2; cbn; auto.
  assert (fused pr (l_depth l2) x y) as F by (apply C2; auto).
  pose proof (C1 _ A2) as Nx. pose proof (C1 _ B) as Ny.
  destruct (Nat.eq_dec i (l_depth l2)) as [->|N].
  { destruct (D y B) as [_ Q]. unfold is_hyperplane_loop in Q. rewrite E2 in Q. discriminate. }
  assert (fused pr (S i) x y) as F' by (eapply fused_le; [|exact F]; lia). apply (fused_S pr W PL) in F' as [_ F']; auto; try lia.
  rewrite scalar_level in E1 by (auto; rewrite (proj2 W); auto; lia). rewrite scalar_level in E2 by (auto; rewrite (proj2 W); auto; lia).
  apply negb_true_iff in E1, E2. apply Z.eqb_eq. apply F'; auto.
Qed.

Lemma fop_snoc' {A} (P : A -> A -> Prop) l x : ForallOrdPairs P l -> (forall y, In y l -> P y x) -> ForallOrdPairs P (l ++ [x]).
Proof. intros F H. apply fop_app; auto. constructor; constructor. intros y z Hy [<-|[]]; auto. Qed.

Definition one_dim (b : pband) : Prop := pb_width b = 1%nat.

Lemma add_parallel_result bands : (forall b, In b bands -> In (pb_loop b) (get_all_loops pr) /\ from_loop b) ->
  Forall good_band bands -> ForallOrdPairs share_none bands ->
  Forall good_band (add_parallel_bands pr bands) /\ ForallOrdPairs share_none (add_parallel_bands pr bands).
Proof.
  intros FR G S. unfold add_parallel_bands.
  assert (forall rest done bs, ForallOrdPairs apart (done ++ rest) ->
    (forall lp, In lp rest -> In lp (get_all_loops pr) /\ loop_is_parallel pr lp = true) ->
    (forall b, In b bs -> In (pb_loop b) (get_all_loops pr) /\ (from_loop b \/ In (pb_loop b) done)) ->
    Forall good_band bs -> ForallOrdPairs share_none bs ->
    let bs' := fold_left (fun bs lp => if loop_is_innermost pr lp && negb (existsb (fun b => is_loop_dominated pr lp (pb_loop b)) bs)
      then bs ++ [mkPband lp 1] else bs) rest bs in Forall good_band bs' /\ ForallOrdPairs share_none bs') as H.
  { induction rest as [|lp rest IH]; intros dn bs AP RP FB GB SB; cbn [fold_left]; auto.
    destruct (RP lp (or_introl eq_refl)) as [HL PA]. pose proof (all_loops_ok pr lp HL) as (LP1 & LP2 & LP3 & LP4).
    destruct (loop_is_innermost pr lp) eqn:IN; cbn [andb].
    2: { apply (IH (dn ++ [lp])); auto; [rewrite <- app_assoc; auto|intros; apply RP; simpl; auto|].
         intros b Hb. destruct (FB b Hb) as [A B]. split; auto. rewrite in_app_iff. tauto. }
    destruct (existsb _ bs) eqn:DM; cbn [negb].
    { apply (IH (dn ++ [lp])); auto; [rewrite <- app_assoc; auto|intros; apply RP; simpl; auto|].
      intros b Hb. destruct (FB b Hb) as [A B]. split; auto. rewrite in_app_iff. tauto. }
    apply (IH (dn ++ [lp])).
    - rewrite <- app_assoc. auto.
    - intros; apply RP; simpl; auto.
    - intros b Hb. apply in_app_or in Hb as [Hb|[<-|[]]].
      + destruct (FB b Hb) as [A B]. split; auto. rewrite in_app_iff. tauto.
      + cbn. split; auto. right. apply in_or_app. simpl; auto.
    - rewrite Forall_app. split; auto. constructor; auto. unfold good_band. cbn. split; auto. split; auto. split; [lia|]. left; auto.
    - apply fop_snoc'; auto. intros b Hb s S1 S2. cbn in S2. destruct (FB b Hb) as [A B].
      destruct (all_loops_ok pr _ A) as (BP1 & BP2 & BP3 & BP4).
      destruct (LP4 s S2) as [Ns _].
      destruct (Nat.lt_trichotomy (l_depth (pb_loop b)) (l_depth lp)) as [X|[X|X]].
      + assert (existsb (fun b => is_loop_dominated pr lp (pb_loop b)) bs = true); [|congruence]. apply existsb_exists. exists b. split; auto.
        apply (dominated lp (pb_loop b) s); auto.
      + destruct B as [B|B].
        * destruct (from_good b A B) as ((_ & _ & G3 & _) & W2 & t & T1 & T2).
          assert (pb_loop b = lp) as E by (apply (fop_unique (pb_loop b) lp (get_all_loops pr) s); auto; apply loops_under_apart).
          rewrite E in *. destruct (LP4 t T1) as [Nt _].
          rewrite (not_innermost lp t (l_depth lp + pb_width b - 1)) in IN; auto; [discriminate|lia].
        * clear - AP B X S1 S2. rewrite <- (firstn_skipn 0 dn) in AP. apply in_split in B as (d1 & d2 & E). cbn in AP. subst dn.
          rewrite <- app_assoc in AP. cbn in AP. induction d1 as [|z d1 IHd]; cbn in AP.
          -- inversion AP as [|? ? F _]; subst. rewrite Forall_forall in F. apply (F lp) with (s := s); auto. apply in_or_app. simpl; auto.
          -- inversion AP; subst. auto.
      + destruct (BP4 s S1) as [_ Q]. rewrite loop_is_level in Q by (auto; rewrite (proj2 W); auto).
        rewrite (not_innermost lp s (l_depth (pb_loop b))) in IN; auto; try lia. }
  apply (H (get_parallel_loops pr) [] bands); auto.
  - cbn. apply fop_filter. apply loops_under_apart.
  - intros lp Hl. apply filter_In in Hl. auto.
  - intros b Hb. destruct (FR b Hb). auto.
Qed.

Lemma outermost_bands_ok : exists bands, get_outermost_permutable_bands pr = Some bands /\ Forall good_band bands /\ ForallOrdPairs share_none bands.
Proof.
  unfold get_outermost_permutable_bands. destruct (collect_ok (fun _ => true) (get_all_loops pr)) as (l & C); auto. rewrite C. cbn.
  exists (get_dominator_bands l). split; auto. apply (bands_result _ _ C).
Qed.

Lemma bands_to_tile_ok : exists bands, bands_to_tile pr = Some bands /\ Forall good_band bands /\ ForallOrdPairs share_none bands.
Proof.
  unfold bands_to_tile, get_outermost_permutable_bands. destruct (collect_ok (fun _ => true) (get_all_loops pr)) as (l & C); auto. rewrite C. cbn.
  exists (add_parallel_bands pr (get_dominator_bands l)). split; auto. destruct (bands_result _ _ C). apply add_parallel_result; auto.
  intros b Hb. apply filter_In in Hb as [Hb _]. apply (collect_In _ _ _ C) in Hb. tauto.
Qed.

Lemma sized_disjoint sizes bands : ForallOrdPairs share_none bands -> disjoint_bands (map (with_sizes sizes) bands).
Proof.
  induction 1 as [|b r H F IH]; cbn; constructor; auto. rewrite Forall_forall in *. intros b' Hb. apply in_map_iff in Hb as (c & <- & Hc).
  intros s Hs. apply in_with in Hs. apply in_with_false. apply H; auto.
Qed.
End Safe.
