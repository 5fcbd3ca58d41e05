(** * Loops and bands: dependence information, parallel loops, permutable bands. *)
From Coq Require Import ZArith List Bool Lia Arith.
From Verif Require Import SpecLinear MathModel ConstraintsModel VecProofs EditProofs MatrixProofs SpecProg SpecTile SpecLoop
  RankProofs SumProofs FrameworkModel ProgModel DepProofs SimplifyProofs LexProofs ProgProofs TileModel TileProofs TileProofs2 TileProofs3
  LoopModel LoopProofs.
Import ListNotations.
Open Scope Z_scope.

(** What directions, satisfaction levels and satvec say. *)
Definition info_ok (pr : prog) (d : dep) : Prop :=
  ((d_sat d = true /\ exists j, d_level d = Z.of_nat j /\ (j < length (p_hprops pr))%nat /\ strict_at pr d j /\
      forall i, (i < j)%nat -> ~ strict_at pr d i)
   \/ (d_sat d = false /\ d_level d = -1 /\ forall i, (i < length (p_hprops pr))%nat -> ~ strict_at pr d i)) /\
  (forall k, (k < length (p_hprops pr))%nat ->
      match nth k (d_dirs d) DEP_ZERO with
      | DEP_ZERO => zero_at pr d k
      | DEP_PLUS => weak_at pr d k /\ ~ zero_at pr d k
      | DEP_MINUS => neg_at pr d k /\ ~ zero_at pr d k
      | DEP_STAR => ~ weak_at pr d k /\ ~ neg_at pr d k
      end) /\
  (length (d_satvec d) = length (p_hprops pr) /\
     forall k, (k < length (p_hprops pr))%nat ->
       (nth k (d_satvec d) false = true <-> ~ zero_at pr d k /\ forall i, (i < k)%nat -> ~ strict_at pr d i)).

Definition wf_levels (pr : prog) : Prop :=
  wf_core pr /\ forall s, (s < length (p_stmts pr))%nat -> mnrows (s_trans (stmt_of pr s)) = length (p_hprops pr).

Lemma wf_prog_levels pr : wf_prog pr -> wf_levels pr.
Proof.
  intros [W1 W2]. assert (wf_core pr) as C.
  { split.
    - intros st Hs. destruct (W1 st Hs) as (A & B & C & D & E & F & G & H). split; [|congruence]. unfold wf_cols; tauto.
    - intros d Hd. destruct (W2 d Hd) as (A & B & C & D & _). auto. }
  split; auto. intros s Hs. assert (In (stmt_of pr s) (p_stmts pr)) as I by (apply nth_In; auto). apply (W1 _ I).
Qed.

(** The bounding polyhedra do not matter. *)
Definition same_b (d : dep) : dep :=
  mkDep (d_src d) (d_dst d) (d_rar d) (d_poly d) (d_poly d) (d_sat d) (d_level d) (d_satvec d) (d_dirs d).
Definition fix_b (pr : prog) : prog := set_deps pr (map same_b (p_deps pr)).

Lemma fix_b_wf pr : wf_levels pr -> wf_prog (fix_b pr).
Proof.
  intros [[W1 W2] W3]. split.
  - intros st Hs. destruct (W1 st Hs) as ((A & B & C & D & E & F) & H). cbn in Hs. apply (In_nth _ _ dummy_stmt) in Hs as (s & L & <-).
    specialize (W3 s L). unfold stmt_of in W3. unfold wf_stmt. cbn [fix_b set_deps p_npar p_hprops]. split; [auto|]. split; [auto|]. split; [auto|]. split; [auto|]. split; [congruence|]. auto.
  - intros d Hd. cbn in Hd. apply in_map_iff in Hd as (d0 & <- & Hd). destruct (W2 d0 Hd) as (A & B & C & D). unfold wf_dep. cbn. auto 10.
Qed.

Section Info.
Variable f : cst -> bool.
Hypothesis EX : exact_empty f.

Definition computed (pr : prog) : prog := compute_dep_satisfaction f (compute_dep_directions f pr).

Lemma update_fix pr k : fst (dep_satisfaction_update f (fix_b pr) k) = fix_b (fst (dep_satisfaction_update f pr k)).
Proof.
  unfold dep_satisfaction_update, fix_b. cbn [fst set_deps p_deps p_nvar p_npar p_stmts p_hprops]. unfold set_deps. cbn. f_equal.
  rewrite !map_map. apply map_ext. intros d. unfold update_dep. cbn [same_b d_sat]. destruct (d_sat d) eqn:E; auto.
  change (dep_satisfaction_test f _ (same_b d) k) with (dep_satisfaction_test f pr d k). destruct (dep_satisfaction_test f pr d k); auto.
Qed.
Lemma fold_fix l pr : fold_left (fun q level => fst (dep_satisfaction_update f q level)) l (fix_b pr) =
  fix_b (fold_left (fun q level => fst (dep_satisfaction_update f q level)) l pr).
Proof. revert pr; induction l as [|k l IH]; intros pr; cbn [fold_left]; auto. rewrite update_fix. apply IH. Qed.

Lemma computed_fix pr : computed (fix_b pr) = fix_b (computed pr).
Proof.
  unfold computed. assert (compute_dep_directions f (fix_b pr) = fix_b (compute_dep_directions f pr)) as ->.
  { unfold compute_dep_directions, fix_b, set_deps. cbn. f_equal. rewrite !map_map. apply map_ext. intros d. reflexivity. }
  generalize (compute_dep_directions f pr) as q. intros q. unfold compute_dep_satisfaction.
  assert (dep_satisfaction_reset (fix_b q) = fix_b (dep_satisfaction_reset q)) as ->.
  { unfold dep_satisfaction_reset, fix_b, set_deps. cbn. f_equal. rewrite !map_map. apply map_ext. reflexivity. }
  change (length (p_hprops (fix_b q))) with (length (p_hprops q)). rewrite fold_fix.
  set (r := fold_left _ _ _). unfold fix_b, set_deps. cbn. f_equal. rewrite !map_map. apply map_ext. intros d. unfold set_satvec. cbn [same_b d_rar].
  destruct (d_rar d); reflexivity.
Qed.

Lemma computed_stmts pr : p_stmts (computed pr) = p_stmts pr /\ p_hprops (computed pr) = p_hprops pr /\ p_npar (computed pr) = p_npar pr /\ p_nvar (computed pr) = p_nvar pr.
Proof.
  unfold computed, compute_dep_satisfaction. cbn [set_deps p_stmts p_hprops p_npar p_nvar].
  assert (forall l q, let r := fold_left (fun q level => fst (dep_satisfaction_update f q level)) l q in
    p_stmts r = p_stmts q /\ p_hprops r = p_hprops q /\ p_npar r = p_npar q /\ p_nvar r = p_nvar q) as H.
  { induction l as [|k l IH]; intros q; cbn [fold_left]; auto. destruct (IH (fst (dep_satisfaction_update f q k))) as (A & B & C & D). cbv zeta in *.
    rewrite A, B, C, D. auto. }
  destruct (H (seq 0 (length (p_hprops (compute_dep_directions f pr)))) (dep_satisfaction_reset (compute_dep_directions f pr))) as (A & B & C & D).
  cbv zeta in *. rewrite A, B, C, D. auto.
Qed.
Lemma computed_stmt pr s : stmt_of (computed pr) s = stmt_of pr s.
Proof. unfold stmt_of. rewrite (proj1 (computed_stmts pr)). auto. Qed.

Lemma same_dep_info pr q d : p_hprops q = p_hprops pr -> p_npar q = p_npar pr -> (forall s, stmt_of q s = stmt_of pr s) ->
  (forall k, (strict_at q d k <-> strict_at pr d k) /\ (weak_at q d k <-> weak_at pr d k) /\ (zero_at q d k <-> zero_at pr d k) /\ (neg_at q d k <-> neg_at pr d k)).
Proof.
  intros H1 H2 H3 k. unfold strict_at, weak_at, zero_at, neg_at, instance, distance. rewrite H2, !H3. tauto.
Qed.

Lemma computed_deps pr : Forall2 same_dep (p_deps pr) (p_deps (computed pr)).
Proof.
  assert (forall l q, Forall2 same_dep (p_deps q) (p_deps (fold_left (fun q level => fst (dep_satisfaction_update f q level)) l q))) as H.
  { assert (forall l, Forall2 same_dep l l) as R by (induction l; constructor; auto; repeat split).
    assert (forall a b c, Forall2 same_dep a b -> Forall2 same_dep b c -> Forall2 same_dep a c) as T.
    { intros a b c F. revert c. induction F; intros c G; inversion G; subst; constructor; auto. eapply same_dep_trans; eauto. }
    induction l as [|k l IH]; intros q; cbn [fold_left]; auto. eapply T; [|apply IH].
    cbn. generalize (p_deps q). intros m. induction m as [|d m IHm]; cbn; constructor; auto.
    unfold update_dep. destruct (d_sat d); [repeat split|]. destruct (dep_satisfaction_test f q d k); repeat split. }
  unfold computed, compute_dep_satisfaction. cbn [set_deps p_deps]. set (r := fold_left _ _ _).
  assert (Forall2 same_dep (p_deps pr) (p_deps r)) as F.
  { unfold r. assert (forall a b c, Forall2 same_dep a b -> Forall2 same_dep b c -> Forall2 same_dep a c) as T.
    { intros a b c F. revert c. induction F; intros c G; inversion G; subst; constructor; auto. eapply same_dep_trans; eauto. }
    eapply T; [|apply H]. cbn. rewrite map_map. clear r H T. generalize (p_deps pr). intros m. induction m; cbn; constructor; auto. repeat split. }
  revert F. generalize (p_deps r). intros l F. induction F as [|d d' a b S F IH]; cbn; constructor; auto.
  eapply same_dep_trans; [exact S|]. unfold set_satvec. destruct (d_rar d') eqn:E; [repeat split|]. unfold same_dep. cbn. auto.
Qed.

Lemma computed_info pr d : wf_levels pr -> In d (p_deps (computed pr)) -> d_rar d = false -> info_ok (computed pr) d.
Proof.
  intros W Hd R. pose proof (fix_b_wf pr W) as WF.
  assert (In (same_b d) (p_deps (computed (fix_b pr)))) as Hb by (rewrite computed_fix; cbn; apply in_map; auto).
  apply In_nth_error in Hb as (i & Hi).
  assert (exists d0, nth_error (p_deps (fix_b pr)) i = Some d0) as (d0 & H0).
  { destruct (nth_error (p_deps (fix_b pr)) i) eqn:E; eauto. apply nth_error_None in E.
    assert (length (p_deps (computed (fix_b pr))) = length (p_deps (fix_b pr))) as L by (symmetry; pose proof (computed_deps (fix_b pr)) as Q; clear - Q; induction Q; cbn; congruence).
    assert (nth_error (p_deps (computed (fix_b pr))) i = None) by (apply nth_error_None; lia). congruence. }
  destruct (directions_spec f EX (fix_b pr) i d0 WF H0) as (d1 & H1 & S1 & _ & _ & _ & D1).
  assert (wf_prog (compute_dep_directions f (fix_b pr))) as Wq.
  { apply set_deps_wf; auto. intros d' Hd'. apply in_map_iff in Hd' as (d2 & <- & Hd2). exists d2. split; auto. repeat split. }
  destruct (compute_sat_spec f EX (compute_dep_directions f (fix_b pr)) i d1 Wq H1) as (d2 & H2 & S2 & DD & L & V).
  fold (computed (fix_b pr)) in H2. rewrite Hi in H2. injection H2 as <-.
  set (q := compute_dep_directions f (fix_b pr)) in *.
  change (length (p_hprops q)) with (length (p_hprops pr)) in *. change (length (p_hprops (fix_b pr))) with (length (p_hprops pr)) in *.
  destruct (computed_stmts pr) as (C1 & C2 & C3 & C4).
  assert (forall k, (strict_at (computed pr) d k <-> strict_at q d1 k) /\ (weak_at (computed pr) d k <-> weak_at (fix_b pr) d0 k) /\
     (zero_at (computed pr) d k <-> zero_at (fix_b pr) d0 k) /\ (neg_at (computed pr) d k <-> neg_at (fix_b pr) d0 k) /\ (strict_at q d1 k <-> strict_at (fix_b pr) d0 k)) as EQ.
  { intros k. destruct (same_dep_info pr (computed pr) d C2 C3 (computed_stmt pr) k) as (A1 & A2 & A3 & A4). rewrite A1, A2, A3, A4.
    assert (same_dep d0 (same_b d)) as SD by (eapply same_dep_trans; eauto).
    assert (forall x, (strict_at pr x k <-> strict_at (fix_b pr) x k) /\ (weak_at pr x k <-> weak_at (fix_b pr) x k) /\ (zero_at pr x k <-> zero_at (fix_b pr) x k) /\ (neg_at pr x k <-> neg_at (fix_b pr) x k)) as FB by (intros x; repeat split; intros Q; exact Q).
    change (strict_at pr d k) with (strict_at pr (same_b d) k). change (weak_at pr d k) with (weak_at pr (same_b d) k).
    change (zero_at pr d k) with (zero_at pr (same_b d) k). change (neg_at pr d k) with (neg_at pr (same_b d) k).
    rewrite (same_dep_strict pr _ _ k SD), (same_dep_weak pr _ _ k SD), (same_dep_zero pr _ _ k SD).
    assert (strict_at q d1 k <-> strict_at (fix_b pr) d0 k) as Q1 by (change (strict_at q d1 k) with (strict_at (fix_b pr) d1 k); apply same_dep_strict; auto).
    destruct (FB d0) as (B1 & B2 & B3 & B4). rewrite Q1, B1, B2, B3.
    split; [tauto|]. split; [tauto|]. split; [tauto|]. split; [|tauto].
    rewrite <- B4. unfold neg_at. split; intros Q s t p I.
    - rewrite <- (same_dep_distance pr d0 (same_b d)) by auto. apply Q. apply (same_dep_instance pr d0 (same_b d)); auto.
    - rewrite (same_dep_distance pr d0 (same_b d)) by auto. apply Q. apply (same_dep_instance pr d0 (same_b d)); auto. }
  assert (forall k, strict_at (computed pr) d k <-> strict_at q d1 k) as EQ1 by (intros; apply EQ).
  cbn [same_b d_dirs d_sat d_level d_satvec] in *.
  split; [|split].
  - rewrite C2. destruct L as [(A & j & B & C & D & E)|(A & B & C)].
    + left. split; auto. exists j. split; auto. split; auto. split; [apply EQ1; auto|]. intros i' Hi'. rewrite EQ1. auto.
    + right. split; auto. split; auto. intros i' Hi'. rewrite EQ1. auto.
  - rewrite C2. intros k Hk. rewrite DD. specialize (D1 k Hk). destruct (EQ k) as (_ & E2 & E3 & E4 & _).
    destruct (nth k (d_dirs d1) DEP_ZERO); rewrite ?E2, ?E3, ?E4; auto.
  - rewrite C2. destruct V as [V1 V2]. { destruct S2 as (_ & _ & X & _). cbn in X. congruence. }
    split; auto. intros k Hk. rewrite V2 by auto. destruct (EQ k) as (_ & _ & E3 & _). specialize (D1 k Hk).
    rewrite E3. split.
    + intros [N S]. split; [|intros i' Hi'; rewrite EQ1; auto]. destruct (nth k (d_dirs d1) DEP_ZERO); try tauto.
      intros Z. destruct D1 as [D1 _]. apply D1. intros x y p I. rewrite (Z x y p I). lia.
    + intros [N S]. split; [|intros i' Hi'; rewrite <- EQ1; auto]. intros Z. rewrite Z in D1. auto.
Qed.
End Info.

(** ** Parallel loops *)
Definition satvec_sound (pr : prog) : Prop :=
  forall d k, In d (p_deps pr) -> d_rar d = false -> (k < length (p_hprops pr))%nat ->
    nth k (d_satvec d) false = false -> not_carried pr d k.

Lemma info_sound pr : (forall d, In d (p_deps pr) -> d_rar d = false -> info_ok pr d) -> satvec_sound pr.
Proof.
  intros H d k Hd R Hk E s t p I Z. destruct (H d Hd R) as (_ & D & V1 & V2). specialize (V2 k Hk). specialize (D k Hk).
  destruct (Z.eq_dec (distance pr d k s t p) 0) as [|N]; auto. exfalso.
  enough (nth k (d_satvec d) false = true) by congruence. apply V2. split.
  - intros Q. apply N. apply Q; auto.
  - intros i Hi Q. specialize (Q s t p I). rewrite Z in Q by auto. lia.
Qed.

Lemma parallel_sound pr lp : satvec_sound pr -> (l_depth lp < length (p_hprops pr))%nat ->
  loop_is_parallel pr lp = true -> parallel_level pr (l_stmts lp) (l_depth lp).
Proof.
  intros S L P d Hd R H1 H2. unfold loop_is_parallel in P. rewrite forallb_forall in P. specialize (P d Hd). rewrite R in P. cbn in P.
  apply S; auto. rewrite (proj2 (dep_in_loop_In lp d)) in P by auto. cbn in P. destruct (nth (l_depth lp) (d_satvec d) false); auto; discriminate.
Qed.
