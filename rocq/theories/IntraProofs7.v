(** * Proofs: reordering the loops of innermost bands that are not tiled. *)
From Coq Require Import ZArith List Bool Lia Arith Permutation.
From Verif Require Import SpecLinear MathModel ConstraintsModel VecProofs EditProofs MatrixProofs ListProofs SpecProg SpecTile SpecLoop
  RankProofs SumProofs FrameworkModel ProgModel DepProofs SimplifyProofs LexProofs ProgProofs TileModel TileProofs TileProofs2 TileProofs3
  LoopModel LoopProofs LoopProofs2 LoopProofs3 LoopProofs4 LoopProofs5 WaveProofs WaveProofs2 IntraModel IntraProofs IntraProofs2 IntraProofs3 IntraProofs4 IntraProofs5 IntraProofs6.
Import ListNotations.
Open Scope Z_scope.

(** ** Computing the satisfaction of dependences twice *)
Lemma fold_updates f ls : forall q, fold_left (fun q l => fst (dep_satisfaction_update f q l)) ls q =
  set_deps q (map (fun d => fold_left (fun d l => update_dep f q l d) ls d) (p_deps q)).
Proof.
  induction ls as [|k ls IH]; intros q; cbn [fold_left].
  - rewrite map_id. destruct q; reflexivity.
  - rewrite IH. cbn [dep_satisfaction_update fst]. unfold set_deps. cbn. f_equal. rewrite map_map. apply map_ext. intros d. reflexivity.
Qed.

Definition core (d d' : dep) : Prop :=
  d_src d = d_src d' /\ d_dst d = d_dst d' /\ d_rar d = d_rar d' /\ d_poly d = d_poly d' /\ d_bpoly d = d_bpoly d' /\ d_dirs d = d_dirs d'.

Lemma updates_core f q ls : forall d d', core d d' -> d_sat d = d_sat d' -> d_level d = d_level d' ->
  let u := fold_left (fun d l => update_dep f q l d) ls d in let u' := fold_left (fun d l => update_dep f q l d) ls d' in
  core u u' /\ d_sat u = d_sat u' /\ d_level u = d_level u' /\ d_satvec u = d_satvec d /\ d_satvec u' = d_satvec d' /\ core u d.
Proof.
  induction ls as [|k ls IH]; intros d d' C S L; cbn [fold_left]; cbv zeta in *.
  - split; auto. split; auto. split; auto. split; auto. split; auto. repeat split.
  - assert (update_dep f q k d = d \/ update_dep f q k d = set_sat d true (Z.of_nat k)) as U1.
    { unfold update_dep. destruct (d_sat d); auto. destruct (dep_satisfaction_test f q d k); auto. }
    assert (update_dep f q k d' = if d_sat d' then d' else if dep_satisfaction_test f q d k then set_sat d' true (Z.of_nat k) else d') as U2.
    { unfold update_dep. assert (dep_satisfaction_test f q d' k = dep_satisfaction_test f q d k) as ->; auto.
      destruct d, d'. destruct C as (C1 & C2 & C3 & C4 & C5 & C6). cbn in *. subst. reflexivity. }
    destruct (IH (update_dep f q k d) (update_dep f q k d')) as (A1 & A2 & A3 & A4 & A5 & A6).
    + rewrite U2. unfold update_dep. rewrite S. destruct (d_sat d'); auto. destruct (dep_satisfaction_test f q d k); auto.
    + rewrite U2. unfold update_dep. rewrite S. destruct (d_sat d') eqn:E; [congruence|]. destruct (dep_satisfaction_test f q d k); [reflexivity|congruence].
    + rewrite U2. unfold update_dep. rewrite S. destruct (d_sat d'); auto. destruct (dep_satisfaction_test f q d k); auto.
    + split; auto. split; auto. split; auto. split; [|split].
      * rewrite A4. destruct U1 as [->| ->]; reflexivity.
      * rewrite A5, U2. destruct (d_sat d'); auto. destruct (dep_satisfaction_test f q d k); reflexivity.
      * destruct U1 as [E|E]; rewrite E in *; auto.
Qed.

Lemma satisfaction_again f q : compute_dep_satisfaction f (compute_dep_satisfaction f q) = compute_dep_satisfaction f q.
Proof.
  unfold compute_dep_satisfaction. rewrite !fold_updates. unfold dep_satisfaction_reset, set_deps. cbn. f_equal. rewrite !map_map. apply map_ext.
  intros d. set (n := length (p_hprops q)).
  match goal with |- context [fold_left (fun d l => update_dep f ?Q l d) _ (set_sat d _ _)] => set (Q1 := Q) end.
  set (u := fold_left (fun d l => update_dep f Q1 l d) (seq 0 n) (set_sat d false (-1))).
  match goal with |- set_satvec n ?x = _ => set (u' := x) end.
  destruct (updates_core f Q1 (seq 0 n) (set_sat d false (-1)) (set_sat (set_satvec n u) false (-1))) as (A1 & A2 & A3 & A4 & A5 & A6); try reflexivity.
  { destruct (updates_core f Q1 (seq 0 n) (set_sat d false (-1)) (set_sat d false (-1))) as (_ & _ & _ & _ & _ & B); [repeat split|reflexivity|reflexivity|].
    fold u in B. unfold core in *. unfold set_satvec. destruct (d_rar u) eqn:RU; cbn in *; rewrite ?RU in *; intuition congruence. }
  fold u in A1, A2, A3, A4, A6. change (fold_left (fun d l => update_dep f Q1 l d) (seq 0 n) (set_sat (set_satvec n u) false (-1))) with u' in A1, A2, A3, A5.
  clearbody u u'. unfold set_satvec in *. destruct A1 as (B1 & B2 & B3 & B4 & B5 & B6). destruct A6 as (C1 & C2 & C3 & C4 & C5 & C6).
  destruct u, u', d. cbn in *. subst. destruct d_rar1; cbn in *; subst; reflexivity.
Qed.

(** ** Moving a loop among loops *)
Definition lmove_ok (pr : prog) (l : list nat) (a e : nat) : Prop :=
  forall d, In d (p_deps pr) -> d_rar d = false ->
   (In (d_src d) l -> In (d_dst d) l -> exists L, ordered_at pr d L /\ ((L < a)%nat \/ (e < L)%nat \/ forall k, (a <= k <= e)%nat -> weak_at pr d k)) /\
   (~ (In (d_src d) l <-> In (d_dst d) l) -> exists L, (L < a)%nat /\ ordered_at pr d L).

Section Moved.
Variables (pr q : prog) (l : list nat) (a e : nat).
Hypothesis W : wf_levels pr.
Hypothesis LR : forall s, In s l -> (s < length (p_stmts pr))%nat.
Hypothesis AE : (a <= e < length (p_hprops pr))%nat.
Hypothesis M : moved pr q l a e.

Lemma lm_dist_eq d k : (k < a)%nat \/ (~ In (d_src d) l /\ ~ In (d_dst d) l) ->
  forall s t p, distance q d k s t p = distance pr d k s t p.
Proof. intros [H|[H1 H2]] s t p; [apply (mo_distance_lt pr q l a e); auto|apply (mo_distance_out pr q l a e); auto]. Qed.

Lemma lm_ordered d L : (L < a)%nat \/ (~ In (d_src d) l /\ ~ In (d_dst d) l) -> ordered_at pr d L -> ordered_at q d L.
Proof.
  intros C (O1 & O2 & O3). split; [rewrite (mo_hyps pr q l a e M); auto|]. split.
  - intros s t p I. apply (mo_instance pr q l a e) in I; auto. rewrite lm_dist_eq by auto. auto.
  - intros j Hj s t p I. apply (mo_instance pr q l a e) in I; auto. rewrite lm_dist_eq; [apply O3; auto|]. destruct C; [left; lia|auto].
Qed.
Lemma lm_weak d k : ~ In (d_src d) l /\ ~ In (d_dst d) l -> weak_at pr d k -> weak_at q d k.
Proof. intros C O s t p I. apply (mo_instance pr q l a e) in I; auto. rewrite lm_dist_eq by auto. auto. Qed.

Lemma lm_leveled : lmove_ok pr l a e -> leveled pr -> leveled q.
Proof.
  intros MO LV d Hd R. rewrite (mo_deps pr q l a e M) in Hd. destruct (MO d Hd R) as [M1 M2].
  destruct (in_dec Nat.eq_dec (d_src d) l) as [I1|I1], (in_dec Nat.eq_dec (d_dst d) l) as [I2|I2].
  - destruct (M1 I1 I2) as (L & O & C). destruct (Nat.lt_ge_cases L a) as [X|X]; [exists L; apply lm_ordered; auto|].
    destruct O as (O1 & O2 & O3). exists (mvi a e L). split; [rewrite (mo_hyps pr q l a e M); apply mvi_bound; auto|]. split.
    + intros s t p I. apply (mo_instance pr q l a e) in I; auto. rewrite (mo_distance_in pr q l a e), mv_mvi by (auto; lia). auto.
    + intros j Hj s t p I. apply (mo_instance pr q l a e) in I; auto. rewrite (mo_distance_in pr q l a e) by auto.
      destruct (Nat.lt_ge_cases j a) as [Y|Y]. { rewrite mv_lt by lia. apply O3; auto. lia. }
      destruct (Nat.le_gt_cases j e) as [Z|Z].
      * assert (a <= mv a e j <= e)%nat as B by (apply mv_in; lia). destruct C as [C|[C|C]]; [lia|apply O3; auto; lia|apply C; auto].
      * rewrite mv_gt by lia. assert (e < L)%nat as EL. { destruct (Nat.le_gt_cases L e) as [Q|Q]; auto. exfalso. unfold mvi in Hj. destruct (Nat.ltb_spec a L), (Nat.leb_spec L e); cbn [andb] in Hj; try (destruct (Nat.eqb_spec L a)); lia. }
        assert (mvi a e L = L) as EM by (unfold mvi; destruct (Nat.ltb_spec a L), (Nat.leb_spec L e); cbn [andb]; try (destruct (Nat.eqb_spec L a)); lia). rewrite EM in Hj. apply O3; auto.
  - destruct M2 as (L & L1 & O); [tauto|]. exists L. apply lm_ordered; auto.
  - destruct M2 as (L & L1 & O); [tauto|]. exists L. apply lm_ordered; auto.
  - destruct (LV d Hd R) as [L O]. exists L. apply lm_ordered; auto.
Qed.

Lemma ordered_min d L L' : ordered_at pr d L -> ordered_at pr d L' -> ordered_at pr d (Nat.min L L').
Proof. intros O O'. destruct (Nat.min_spec L L') as [[_ ->]|[_ ->]]; auto. Qed.

Lemma lm_other l2 a2 e2 : (forall s, In s l2 -> ~ In s l) -> lmove_ok pr l a e -> lmove_ok pr l2 a2 e2 -> lmove_ok q l2 a2 e2.
Proof.
  intros DJ MO MO2 d Hd R. rewrite (mo_deps pr q l a e M) in Hd. destruct (MO2 d Hd R) as [A1 A2]. destruct (MO d Hd R) as [M1 M2]. split.
  - intros I1 I2. assert (~ In (d_src d) l /\ ~ In (d_dst d) l) as N by (split; apply DJ; auto). destruct (A1 I1 I2) as (L & O & C). exists L.
    split; [apply lm_ordered; auto|]. destruct C as [C|[C|C]]; auto. right. right. intros k Hk. apply lm_weak; auto.
  - intros N. destruct (A2 N) as (L & L1 & O).
    destruct (in_dec Nat.eq_dec (d_src d) l) as [I1|I1], (in_dec Nat.eq_dec (d_dst d) l) as [I2|I2].
    + exfalso. apply N. split; intros X; exfalso; apply DJ in X; auto.
    + destruct M2 as (L' & L2 & O'); [tauto|]. exists (Nat.min L L'). split; [lia|]. apply lm_ordered; [left; lia|]. apply ordered_min; auto.
    + destruct M2 as (L' & L2 & O'); [tauto|]. exists (Nat.min L L'). split; [lia|]. apply lm_ordered; [left; lia|]. apply ordered_min; auto.
    + exists L. split; auto. apply lm_ordered; auto.
Qed.

(** The moved levels are loops. *)
Hypothesis PL : plain_levels pr.
Hypothesis LO : forall s k, In s l -> (a <= k <= e)%nat -> loop_level (stmt_of pr s) k = true.

Lemma lm_level s k : loop_level (stmt_of q s) k = loop_level (stmt_of pr s) k.
Proof. unfold loop_level. destruct (mo_same pr q l a e M s) as (_ & _ & _ & _ & -> & _). auto. Qed.
Lemma lm_scalar_row s k : loop_level (stmt_of pr s) k = false -> nth k (mrows (s_trans (stmt_of q s))) [] = nth k (mrows (s_trans (stmt_of pr s))) [].
Proof.
  intros H. destruct (in_dec Nat.eq_dec s l) as [I|I]; [|rewrite (mo_out pr q l a e M s I); auto].
  rewrite (mo_row pr q l a e) by auto. destruct (Nat.lt_ge_cases k a) as [Y|Y]; [rewrite mv_lt by lia; auto|].
  destruct (Nat.le_gt_cases k e) as [Z|Z]; [rewrite LO in H by auto; discriminate|]. rewrite mv_gt by lia. auto.
Qed.

Lemma lm_plain : plain_levels q.
Proof.
  intros s Hs. rewrite (mo_len pr q l a e M) in Hs. destruct (PL s Hs) as [T C]. destruct (mo_same pr q l a e M s) as (E1 & _). split.
  - intros k Hk. rewrite (proj2 (mo_wf pr q l a e W LR AE M)) in Hk by (rewrite (mo_len pr q l a e M); auto). rewrite (mo_hyps pr q l a e M) in Hk.
    rewrite lm_level, E1. destruct (in_dec Nat.eq_dec s l) as [I|I].
    + rewrite (mo_row pr q l a e) by auto. rewrite <- (T (mv a e k)) by (rewrite (proj2 W) by auto; apply mv_bound; auto).
      destruct (Nat.lt_ge_cases k a) as [Y|Y]; [rewrite mv_lt by lia; tauto|]. destruct (Nat.le_gt_cases k e) as [Z|Z]; [|rewrite mv_gt by lia; tauto].
      rewrite !LO; auto; [tauto|]. apply mv_in; lia.
    + rewrite (mo_out pr q l a e M s I). apply T. rewrite (proj2 W) by auto. auto.
  - intros k Hk LV. rewrite (mo_hyps pr q l a e M) in Hk. rewrite lm_level in LV. specialize (C k Hk LV). unfold constant_level, theta in *.
    rewrite E1, (mo_npar pr q l a e M), lm_scalar_row by auto. exact C.
Qed.

Lemma lm_uniform : uniform pr -> uniform q.
Proof.
  intros UN s t k Hs Ht Hk FU. rewrite (mo_len pr q l a e M) in Hs, Ht. rewrite (mo_hyps pr q l a e M) in Hk. rewrite !lm_level. apply UN; auto.
  destruct (mo_same pr q l a e M s) as (E1 & _). destruct (mo_same pr q l a e M t) as (E2 & _).
  intros j Hj L1 L2 i i' p Li Li' Lp. specialize (FU j Hj). rewrite !lm_level in FU. specialize (FU L1 L2 i i' p).
  rewrite E1, E2, (mo_npar pr q l a e M) in FU. specialize (FU Li Li' Lp). unfold theta in *. rewrite !lm_scalar_row in FU by auto. exact FU.
Qed.
End Moved.

(** ** The loops of an innermost band *)
Section Untiled.
Variable q : prog.
Hypothesis W : wf_levels q.
Hypothesis PL : plain_levels q.
Hypothesis UN : uniform q.
Hypothesis LV : leveled q.
Hypothesis INF : forall d, In d (p_deps q) -> d_rar d = false -> info_ok q d.
Let H := length (p_hprops q).

Lemma un_types s : (s < length (p_stmts q))%nat -> types_ok (stmt_of q s).
Proof. intros Hs. apply PL; auto. Qed.

(** Statements with different constants at a level are ordered there. *)
Lemma un_differ d j : In d (p_deps q) -> d_rar d = false -> (j < H)%nat -> loop_level (stmt_of q (d_src d)) j = false ->
  loop_level (stmt_of q (d_dst d)) j = false -> row_const (stmt_of q (d_src d)) j <> row_const (stmt_of q (d_dst d)) j ->
  exists L, (L <= j)%nat /\ ordered_at q d L.
Proof.
  intros Hd R Hj L1 L2 NE. destruct (proj2 (proj1 W) d Hd) as (S1 & S2 & _). destruct (LV d Hd R) as (L & O1 & O2 & O3).
  destruct (Nat.le_gt_cases L j) as [X|X]; [exists L; split; auto; split; auto|]. exists j. split; auto. split; [fold H; lia|]. split; [|intros; apply O3; lia].
  intros s t p I. specialize (O3 j X s t p I). rewrite (distance_const q W PL d j s t p) in *; auto; lia.
Qed.
Lemma un_class stmts k d : class q stmts k -> (k <= H)%nat -> In d (p_deps q) -> d_rar d = false -> ~ (In (d_src d) stmts <-> In (d_dst d) stmts) ->
  exists L, (L < k)%nat /\ ordered_at q d L.
Proof.
  intros [C1 C2] Hk Hd R N. destruct (proj2 (proj1 W) d Hd) as (S1 & S2 & _).
  destruct (fused_cases q W PL k (d_src d) (d_dst d)) as [F|(j & Hj & A & A' & C)]; auto.
  - exfalso. apply N. split; intros X; [apply (C2 (d_src d)); auto|apply (C2 (d_dst d)); auto; apply fused_sym; auto].
  - destruct (un_differ d j) as (L & X & O); auto; [lia|]. exists L. split; auto. lia.
Qed.

Lemma first_scalar_le st n d k : (d <= k < d + n)%nat -> is_hyperplane_scalar st k = true -> (first_scalar st n d <= k)%nat.
Proof.
  revert d. induction n as [|n IH]; intros d Hk S; [lia|]. cbn [first_scalar]. destruct (is_hyperplane_scalar st d) eqn:E; [lia|].
  destruct (Nat.eq_dec d k) as [->|]; [congruence|]. apply IH; auto. lia.
Qed.
Lemma first_scalar_gt st n d : (0 < n)%nat -> is_hyperplane_scalar st d = false -> (d < first_scalar st n d)%nat.
Proof. destruct n as [|n]; [lia|]. intros _ E. cbn [first_scalar]. rewrite E. pose proof (first_scalar_ge st n (S d)). lia. Qed.

Lemma fold_min_ge (g : nat -> Z) l m x : x <= m -> (forall s, In s l -> x <= g s) -> x <= fold_left (fun ld s => Z.min ld (g s)) l m.
Proof. revert m. induction l as [|s l IH]; cbn; intros m Hm A; auto. apply IH; auto. specialize (A s (or_introl eq_refl)). lia. Qed.

Lemma band_loop_ok b g lp : good_band q b -> is_band_innermost q b 0 0 = true -> In g (fuse_per_stmt_bands q (l_depth (pb_loop b)) 0 (l_stmts (pb_loop b))) ->
  In lp (get_loops_under q g (l_depth (pb_loop b))) ->
  let e := Z.to_nat (last_depth q lp) in
  NoDup (l_stmts lp) /\ (forall s, In s (l_stmts lp) -> In s g /\ In s (l_stmts (pb_loop b)) /\ (s < length (p_stmts q))%nat) /\ (l_depth (pb_loop b) <= l_depth lp <= e)%nat /\ (e < H)%nat /\
  lmove_ok q (l_stmts lp) (l_depth lp) e /\ (forall s k, In s (l_stmts lp) -> (l_depth lp <= k <= e)%nat -> loop_level (stmt_of q s) k = true).
Proof.
  intros GB IB Hg Hl e. pose proof GB as (G1 & G2 & G3 & G4). pose proof (all_loops_ok q _ G1) as (A1 & A2 & A3 & A4).
  pose proof (all_loops_class q W PL UN _ G1) as C. set (l := l_stmts (pb_loop b)) in *. set (fd := l_depth (pb_loop b)) in *.
  assert (forall s, In s l -> (s < length (p_stmts q))%nat) as LR by (intros s Hs; apply C; auto).
  assert (NoDup g /\ forall s, In s g <-> In s l) as [NG GI].
  { destruct (fuse_groups q fd 0 l) as (K1 & K2 & K3); auto. destruct (K2 g Hg) as [K4 K5]. split; auto. intros s. split; [intros X; apply K5; auto|].
    intros Hs. destruct (K1 s Hs) as (g' & Hg' & X). destruct g as [|t g0] eqn:Eg.
    - exfalso. destruct (loops_under_basic _ _ _ _ _ Hl) as (_ & NE & I & _). destruct (l_stmts lp) as [|t r]; [congruence|]. destruct (I t (or_introl eq_refl)) as [[] _].
    - destruct (K5 t (or_introl eq_refl)) as [It Q]. apply (Q s Hs). reflexivity. }
  assert (class q g fd) as CG. { split; [intros s Hs; apply LR; apply GI; auto|]. intros s t Hs Ht. rewrite GI. apply C; auto. apply GI; auto. }
  destruct (loops_under_basic _ _ _ _ _ Hl) as (B1 & B2 & B3 & B4). fold H in B1, G3.
  assert (class q (l_stmts lp) (l_depth lp)) as CL. { apply (loops_class q W PL UN _ g fd lp) in Hl; auto. fold H. lia. }
  assert (forall s, In s (l_stmts lp) -> In s g /\ In s l /\ (s < length (p_stmts q))%nat) as SI.
  { intros s Hs. destruct (B3 s Hs) as [X _]. split; auto. apply GI in X. auto. }
  set (a := l_depth lp) in *.
  assert (forall s k, In s l -> (k < H)%nat -> is_hyperplane_loop (stmt_of q s) k = loop_level (stmt_of q s) k /\ is_hyperplane_scalar (stmt_of q s) k = negb (loop_level (stmt_of q s) k)) as UR.
  { intros s k Hs Hk. apply (uni_row q W PL); auto. }
  assert (a < fd + pb_width b)%nat as AW.
  { destruct (Nat.lt_ge_cases a (fd + pb_width b)) as [X|X]; auto. exfalso. destruct (l_stmts lp) as [|s r] eqn:E; [congruence|].
    destruct (B3 s (or_introl eq_refl)) as [Sg Lv]. destruct (SI s (or_introl eq_refl)) as (_ & Sl & Sn).
    unfold is_band_innermost in IB. rewrite forallb_forall in IB. specialize (IB s Sl). rewrite forallb_forall in IB. specialize (IB a).
    rewrite in_seq in IB. fold fd in IB. pose proof (proj2 W s Sn) as NR. fold H in NR. specialize (IB ltac:(lia)). rewrite Lv in IB. discriminate. }
  assert (forall s, In s (l_stmts lp) -> is_hyperplane_scalar (stmt_of q s) a = false) as SA.
  { intros s Hs. destruct (SI s Hs) as (_ & Sl & Sn). destruct (UR s a Sl ltac:(lia)) as [X1 X2]. rewrite X2. destruct (B3 s Hs) as [_ Lv]. rewrite <- X1, Lv. auto. }
  assert (Z.of_nat a <= last_depth q lp <= Z.of_nat (fd + pb_width b) - 1) as LD.
  { split.
    - unfold last_depth. apply fold_min_ge; [fold H; lia|]. intros s Hs. destruct (SI s Hs) as (_ & Sl & Sn). rewrite (proj2 W s Sn). fold H a.
      pose proof (first_scalar_gt (stmt_of q s) (H - a) a ltac:(lia) (SA s Hs)). unfold pred_unsigned. destruct (Nat.eqb_spec (first_scalar (stmt_of q s) (H - a) a) 0); lia.
    - destruct (Nat.eq_dec (fd + pb_width b) H) as [E|E]. { pose proof (last_depth_le q lp) as LQ. fold H in LQ. lia. }
      destruct (l_stmts lp) as [|s r] eqn:Es; [congruence|]. assert (In s (l_stmts lp)) as Hs by (rewrite Es; simpl; auto).
      pose proof (fold_min_in (fun s => pred_unsigned (first_scalar (stmt_of q s) (mnrows (s_trans (stmt_of q s)) - l_depth lp) (l_depth lp)))
         (l_stmts lp) (Z.of_nat (length (p_hprops q)) - 1) s Hs) as Q. change (fold_left _ _ _) with (last_depth q lp) in Q. cbn beta in Q. fold a in Q.
      destruct (SI s (or_introl eq_refl)) as (_ & Sl & Sn). rewrite (proj2 W s Sn) in Q. fold H in Q.
      assert (is_hyperplane_scalar (stmt_of q s) (fd + pb_width b) = true) as SC.
      { destruct (UR s (fd + pb_width b)%nat Sl ltac:(lia)) as [X1 X2]. rewrite X2, <- X1. unfold is_band_innermost in IB. rewrite forallb_forall in IB.
        specialize (IB s Sl). rewrite forallb_forall in IB. apply IB. fold fd. rewrite in_seq, (proj2 W s Sn). fold H. lia. }
      pose proof (first_scalar_le (stmt_of q s) (H - a) a (fd + pb_width b) ltac:(lia) SC). unfold pred_unsigned in Q.
      pose proof (first_scalar_ge (stmt_of q s) (H - a) a).
      destruct (Nat.eqb_spec (first_scalar (stmt_of q s) (H - a) a) 0) as [Z|Z]; [|lia].
      pose proof (first_scalar_gt (stmt_of q s) (H - a) a ltac:(lia) (SA s ltac:(simpl; auto))). lia. }
  assert (a <= e <= fd + pb_width b - 1)%nat as EB by (unfold e; lia).
  assert (forall s k, In s (l_stmts lp) -> (a <= k <= e)%nat -> loop_level (stmt_of q s) k = true) as LO.
  { intros s k Hs Hk. destruct (SI s Hs) as (_ & Sl & Sn). destruct (UR s k Sl ltac:(lia)) as [_ X].
    destruct (loop_level (stmt_of q s) k) eqn:E; auto. exfalso.
    assert (is_hyperplane_scalar (stmt_of q s) k = false) as F; [|rewrite F in X; discriminate].
    pose proof (fold_min_in (fun s => pred_unsigned (first_scalar (stmt_of q s) (mnrows (s_trans (stmt_of q s)) - l_depth lp) (l_depth lp)))
       (l_stmts lp) (Z.of_nat (length (p_hprops q)) - 1) s Hs) as Q. change (fold_left _ _ _) with (last_depth q lp) in Q. cbn beta in Q. fold a in Q.
    rewrite (proj2 W s Sn) in Q. fold H in Q. pose proof (first_scalar_gt (stmt_of q s) (H - a) a ltac:(lia) (SA s Hs)) as FG. unfold pred_unsigned in Q.
    destruct (Nat.eqb_spec (first_scalar (stmt_of q s) (H - a) a) 0) as [Z|Z]; [lia|]. apply (first_scalar_not (stmt_of q s) (H - a) a). unfold e in Hk. lia. }
  split; [apply B4; auto|]. split; auto. split; [lia|]. split; [lia|]. split; auto.
  intros d Hd R. split; [|intros N; apply (un_class (l_stmts lp)); auto; fold H; lia].
  intros I1 I2. destruct (SI _ I1) as (_ & J1 & N1). destruct (SI _ I2) as (_ & J2 & N2).
  destruct (level_ordered q INF LV d Hd R) as (SAT & L & EL & O). exists L. split; auto.
  destruct G4 as [[G4 PA]|ST].
  - destruct (Nat.lt_ge_cases L a) as [X|X]; auto. destruct (Nat.lt_ge_cases e L) as [Y|Y]; auto. right. right. intros k Hk. assert (k = L) as -> by lia.
    intros s t p I. destruct O as (_ & O & _). specialize (O s t p I). lia.
  - destruct (Nat.lt_ge_cases L a) as [X|X]; auto. destruct (Nat.lt_ge_cases e L) as [Y|Y]; auto. right. right. intros k Hk.
    destruct (is_depth_scalar q (pb_loop b) L) eqn:SC.
    + exfalso. assert (loop_level (stmt_of q (d_src d)) L = false) as F; [|rewrite LO in F by auto; discriminate].
      eapply depth_scalar_lev; eauto; intros; try (apply un_types; auto); try (fold H; lia).
    + specialize (ST k d). fold fd in ST. specialize (ST ltac:(lia) Hd). unfold stops_band in ST. rewrite R, SAT, EL, Nat2Z.id, SC in ST.
      rewrite (proj2 (dep_in_loop_In (pb_loop b) d)) in ST by auto. fold fd in ST. rewrite (proj2 (Z.ltb_ge _ _)) in ST by lia. cbn in ST.
      apply (dir_weak q INF d k) in ST; auto. fold H. lia.
Qed.
End Untiled.
