(** * Proofs: the whole reordering of loops inside tiles. *)
From Coq Require Import ZArith List Bool Lia Arith Permutation.
From Verif Require Import SpecLinear MathModel ConstraintsModel VecProofs EditProofs MatrixProofs ListProofs SpecProg SpecTile SpecLoop
  RankProofs SumProofs FrameworkModel ProgModel DepProofs SimplifyProofs LexProofs ProgProofs TileModel TileProofs TileProofs2 TileProofs3
  LoopModel LoopProofs LoopProofs2 LoopProofs3 LoopProofs4 LoopProofs5 WaveProofs WaveProofs2 IntraModel IntraProofs IntraProofs2 IntraProofs3 IntraProofs4 IntraProofs5.
Import ListNotations.
Open Scope Z_scope.

Lemma move_down_perm {A} (d : A) i j l : (i <= j < length l)%nat -> Permutation (move_down d i j l) l.
Proof.
  intros H. unfold move_down. rewrite perm_insert. pose proof (perm_insert i (nth i l d) (remove_at i l)) as P. rewrite insert_remove' in P by lia. symmetry. exact P.
Qed.

Section Optimize.
Variables (q : prog) (sizes : pband -> list Z) (bands : list pband) (L : nat).
Hypothesis IS : istate q sizes bands L.
Hypothesis HL : (1 <= L)%nat.
Let W := is_wf _ _ _ _ IS.
Let H := length (p_hprops q).

(** The program [p] after moving loops of the statements [done]. *)
Record ostate (p : prog) (done : list nat) : Prop := {
  os_wf : wf_levels p; os_legal : legal p;
  os_len : length (p_stmts p) = length (p_stmts q); os_npar : p_npar p = p_npar q; os_deps : p_deps p = p_deps q; os_hprops : p_hprops p = p_hprops q;
  os_out : forall s, ~ In s done -> stmt_of p s = stmt_of q s;
  os_done : forall s, In s done -> exists b, In b bands /\ In s (l_stmts (pb_loop b));
  os_trans : forall s, (s < length (p_stmts q))%nat -> exists r, stmt_of p s = set_trans (stmt_of q s) (mkMat (mncols (s_trans (stmt_of q s))) r) /\
    Permutation r (mrows (s_trans (stmt_of q s)));
  os_rows : forall b s k, In b bands -> In s (l_stmts (pb_loop b)) -> (k < l_depth (pb_loop b) + L * pb_width b)%nat ->
    nth k (mrows (s_trans (stmt_of p s))) [] = nth k (mrows (s_trans (stmt_of q s))) [];
  os_move : forall S a e, (a <= H)%nat -> (forall s, In s S -> ~ In s done) -> move_ok q S a e -> move_ok p S a e;
  os_wave : forall b d, In b bands -> In d (p_deps q) -> d_rar d = false ->
    wave_safe q (l_stmts (pb_loop b)) (l_depth (pb_loop b)) (l_depth (pb_loop b) + pb_width b) d ->
    wave_safe p (l_stmts (pb_loop b)) (l_depth (pb_loop b)) (l_depth (pb_loop b) + pb_width b) d }.

Lemma os_init : ostate q [].
Proof.
  split; auto; try (apply IS).
  - intros s [].
  - intros s Hs. exists (mrows (s_trans (stmt_of q s))). split; auto. destruct (stmt_of q s) as [? ? ? ? [? ?]]. reflexivity.
Qed.

Lemma os_more p done done' : ostate p done -> (forall s, In s done -> In s done') -> (forall s, In s done' -> exists b, In b bands /\ In s (l_stmts (pb_loop b))) -> ostate p done'.
Proof. intros O I J. destruct O as [A1 A2 A3 A4 A5 A6 A7 A8 A9 A10 A11 A12]. split; auto. intros S a e A B. apply A11; auto. intros s Hs X. exact (B s Hs (I s X)). Qed.

Lemma share_or b b2 : In b bands -> In b2 bands -> b = b2 \/ forall s, In s (l_stmts (pb_loop b)) -> ~ In s (l_stmts (pb_loop b2)).
Proof.
  intros Hb Hb2. pose proof (is_share _ _ _ _ IS) as S. destruct (ForallOrdPairs_In S b b2 Hb Hb2) as [->|[X|X]]; auto.
  right. intros s H1 H2. exact (X s H2 H1).
Qed.

Lemma os_step p done p' S a e b : ostate p done -> In b bands -> (forall s, In s S -> In s (l_stmts (pb_loop b)) /\ ~ In s done) ->
  (l_depth (pb_loop b) + L * pb_width b <= a)%nat -> (a <= e < H)%nat -> move_ok q S a e -> moved p p' S a e -> ostate p' (S ++ done).
Proof.
  intros O Hb SB Ha He MO M. pose proof (os_hprops _ _ O) as EH.
  assert (move_ok p S a e) as MP. { apply (os_move _ _ O); auto; [lia|]. intros s Hs. apply SB; auto. }
  destruct (is_bstate _ _ _ _ IS b Hb) as [B _]. pose proof (os_wf _ _ O) as WP.
  assert (forall s, In s S -> (s < length (p_stmts p))%nat) as LR. { intros s Hs. rewrite (os_len _ _ O). apply (bs_class _ _ _ B). apply SB; auto. }
  assert (a <= e < length (p_hprops p))%nat as AE by (rewrite EH; exact He).
  pose proof M as (M1 & M2 & M3 & M4 & M5 & M6).
  assert (wf_levels p') as WP' by (apply (mo_wf p p' S a e); auto).
  split; auto.
  - apply (mo_legal p p' S a e); auto. apply (os_legal _ _ O).
  - rewrite M1. apply (os_len _ _ O).
  - rewrite M2. apply (os_npar _ _ O).
  - rewrite M3. apply (os_deps _ _ O).
  - rewrite M4. auto.
  - intros s Hs. rewrite M5 by (intros X; apply Hs; apply in_or_app; auto). apply (os_out _ _ O). intros X; apply Hs; apply in_or_app; auto.
  - intros s Hs. apply in_app_or in Hs as [Hs|Hs]; [|apply (os_done _ _ O); auto]. exists b. split; auto. apply SB; auto.
  - intros s Hs. destruct (os_trans _ _ O s Hs) as (r & E & P). destruct (in_dec Nat.eq_dec s S) as [I|I].
    + rewrite M6, E by auto. cbn [s_trans set_trans mrows mncols]. exists (move_down [] a e r). split; [reflexivity|].
      rewrite <- P. apply move_down_perm. rewrite (Permutation_length P). change (length (mrows (s_trans (stmt_of q s)))) with (mnrows (s_trans (stmt_of q s))).
      rewrite (proj2 W s Hs). fold H. lia.
    + rewrite M5 by auto. eauto.
  - intros b2 s k Hb2 Hs Hk. destruct (in_dec Nat.eq_dec s S) as [I|I].
    + assert (b = b2) as <-. { destruct (share_or b b2 Hb Hb2) as [|X]; auto. destruct (X s); auto. apply SB; auto. }
      rewrite M6 by auto. cbn [s_trans set_trans mrows].
      assert (nth k (move_down [] a e (mrows (s_trans (stmt_of p s)))) [] = nth k (mrows (s_trans (stmt_of p s))) []) as ->; [|apply (os_rows _ _ O b); auto].
      specialize (LR s I). pose proof (proj2 WP s LR) as NR. unfold mnrows in NR. rewrite move_down_nth by lia. rewrite mv_lt by lia. auto.
    + rewrite M5 by auto. apply (os_rows _ _ O b2); auto.
  - intros S2 a2 e2 A2 DJ Mq. apply (mo_other p p' S a e); auto.
    + intros s Hs X. apply (DJ s Hs). apply in_or_app; auto.
    + rewrite EH. auto.
    + apply (os_move _ _ O); auto. intros s Hs X. apply (DJ s Hs). apply in_or_app; auto.
  - intros b2 d Hb2 Hd R WS. apply (os_wave _ _ O) in WS; auto. rewrite <- (os_deps _ _ O) in Hd.
    destruct (mo_ends p WP d Hd) as [E1 E2]. destruct (is_bstate _ _ _ _ IS b2 Hb2) as [B2 _]. pose proof (bs_range _ _ _ B2) as R2. fold H in R2.
    destruct WS as [N|[SP|(I1 & I2 & P)]]; [left; exact N| |].
    + destruct (in_dec Nat.eq_dec (d_src d) S) as [J1|J1], (in_dec Nat.eq_dec (d_dst d) S) as [J2|J2].
      * destruct (share_or b b2 Hb Hb2) as [<-|X].
        -- right. left. apply (mo_separated p p' S a e); auto. lia.
        -- left. split; apply X; apply SB; auto.
      * right. left. assert (separated_before p d a) as SA by (apply (proj2 (MP d Hd R)); tauto).
        pose proof (proj1 (separated_distance p d (l_depth (pb_loop b2)) WP E1 E2 ltac:(rewrite EH; fold H; lia)) SP) as SPx; clear SP; rename SPx into SP. pose proof (proj1 (separated_distance p d a WP E1 E2 ltac:(rewrite EH; fold H; lia)) SA) as SAx; clear SA; rename SAx into SA.
        apply separated_distance; rewrite ?M1, ?M4, ?EH; auto; [fold H; lia|]. intros s t x I. apply (mo_instance p p' S a e) in I; auto.
        destruct (SP s t x I) as (m & X1 & X2 & X3). destruct (SA s t x I) as (m' & Y1 & Y2 & Y3).
        assert (m = m') as <-. { destruct (Nat.lt_trichotomy m m') as [X|[X|X]]; auto; [rewrite Y2 in X3|rewrite X2 in Y3]; lia. }
        exists m. split; auto. split; [intros j Hj|]; rewrite (mo_distance_lt p p' S a e); auto. lia.
      * right. left. assert (separated_before p d a) as SA by (apply (proj2 (MP d Hd R)); tauto).
        pose proof (proj1 (separated_distance p d (l_depth (pb_loop b2)) WP E1 E2 ltac:(rewrite EH; fold H; lia)) SP) as SPx; clear SP; rename SPx into SP. pose proof (proj1 (separated_distance p d a WP E1 E2 ltac:(rewrite EH; fold H; lia)) SA) as SAx; clear SA; rename SAx into SA.
        apply separated_distance; rewrite ?M1, ?M4, ?EH; auto; [fold H; lia|]. intros s t x I. apply (mo_instance p p' S a e) in I; auto.
        destruct (SP s t x I) as (m & X1 & X2 & X3). destruct (SA s t x I) as (m' & Y1 & Y2 & Y3).
        assert (m = m') as <-. { destruct (Nat.lt_trichotomy m m') as [X|[X|X]]; auto; [rewrite Y2 in X3|rewrite X2 in Y3]; lia. }
        exists m. split; auto. split; [intros j Hj|]; rewrite (mo_distance_lt p p' S a e); auto. lia.
      * right. left. pose proof (proj1 (separated_distance p d (l_depth (pb_loop b2)) WP E1 E2 ltac:(rewrite EH; fold H; lia)) SP) as SPx; clear SP; rename SPx into SP.
        apply separated_distance; rewrite ?M1, ?M4, ?EH; auto; [fold H; lia|]. intros s t x I. apply (mo_instance p p' S a e) in I; auto.
        destruct (SP s t x I) as (m & X1 & X2 & X3). exists m. split; auto. split; [intros j Hj|]; rewrite (mo_distance_out p p' S a e); auto.
    + right. right. split; auto. split; auto. intros s t x I Z k Hk. apply (mo_instance p p' S a e) in I; auto. destruct (share_or b b2 Hb Hb2) as [<-|X].
      * assert (k < a)%nat by nia. rewrite (mo_distance_lt p p' S a e) by auto. apply P; auto. intros j Hj. rewrite <- (mo_distance_lt p p' S a e); auto. nia.
      * assert (~ In (d_src d) S) as Y1. { intros Y. apply (X (d_src d)); auto. apply SB; auto. }
        assert (~ In (d_dst d) S) as Y2. { intros Y. apply (X (d_dst d)); auto. apply SB; auto. }
        rewrite (mo_distance_out p p' S a e) by auto. apply P; auto. intros j Hj. rewrite <- (mo_distance_out p p' S a e); auto.
Qed.

(** Moving one loop. *)
Lemma os_innermost p done lp ll b : ostate p done -> In b bands -> NoDup (l_stmts lp) ->
  (forall s, In s (l_stmts lp) -> In s (l_stmts (pb_loop b)) /\ ~ In s done) ->
  (l_depth (pb_loop b) + L * pb_width b <= l_depth lp)%nat -> (l_depth lp <= ll - 1 < H)%nat -> move_ok q (l_stmts lp) (l_depth lp) (ll - 1) ->
  ostate (make_innermost_loop p lp ll true) (l_stmts lp ++ done).
Proof.
  intros O Hb ND SB A E MO. apply (os_step p done _ (l_stmts lp) (l_depth lp) (ll - 1) b); auto.
  pose proof (make_moved p lp ll true (os_wf _ _ O) ND) as M. cbn [innermost_to] in M. apply M.
  - intros s Hs. rewrite (os_len _ _ O). destruct (is_bstate _ _ _ _ IS b Hb) as [B _]. apply (bs_class _ _ _ B). apply SB; auto.
  - rewrite (os_hprops _ _ O). exact E.
Qed.

(** The groups of a band. *)
Lemma os_groups score b gs : In b bands -> is_band_innermost q b L 0 = true ->
  (forall g, In g gs -> In g (fuse_per_stmt_bands q (l_depth (pb_loop b)) (L * pb_width b) (l_stmts (pb_loop b)))) ->
  ForallOrdPairs (fun g g' => forall s, In s g -> ~ In s g') gs ->
  forall p r done, ostate p done -> (forall g s, In g gs -> In s g -> ~ In s done) ->
  ostate (fst (fold_left (optimize_group score b L) gs (p, r))) (concat gs ++ done).
Proof.
  intros Hb IB. destruct (is_bstate _ _ _ _ IS b Hb) as [B _]. induction gs as [|g gs IH]; intros GS D p r done O N; [exact O|].
  inversion D as [|x y D1 D2]; subst. cbn [fold_left concat].
  destruct (group_class q L b W (is_plain _ _ _ _ IS) (is_uniform _ _ _ _ IS) B g HL (GS g (or_introl eq_refl))) as (GC & GN & GL).
  assert (exists r' p', optimize_group score b L (p, r) g = (p', r') /\ ostate p' (g ++ done)) as (r' & p' & E & O').
  { assert (forall s, In s (g ++ done) -> exists b, In b bands /\ In s (l_stmts (pb_loop b))) as GB.
    { intros s Hs. apply in_app_or in Hs as [Hs|Hs]; [eauto|apply (os_done _ _ O); auto]. }
    assert (ostate p (g ++ done)) as O1. { apply (os_more p done); auto. intros; apply in_or_app; auto. }
    unfold optimize_group. cbn [fst]. destruct (best_loop _ _) as [lp|] eqn:BL; [|eauto]. destruct (loop_is_innermost p lp); [eauto|].
    apply best_loop_In in BL. rewrite (get_loops_under_ext p q) in BL; [|apply (os_hprops _ _ O)|intros s Hs; apply (os_out _ _ O); apply (N g); simpl; auto].
    destruct (Nat.eqb_spec L 0); [lia|]. cbn [negb].
    destruct (tile_loop_ok q L b W (is_plain _ _ _ _ IS) (is_uniform _ _ _ _ IS) (is_legal _ _ _ _ IS) B g lp HL IB (GS g (or_introl eq_refl)) BL) as (A1 & A2 & A3 & A4 & A5).
    do 2 eexists. split; [reflexivity|]. apply (os_more _ (l_stmts lp ++ done)); auto.
    - apply (os_innermost p done lp _ b); auto.
      + intros s Hs. destruct (A2 s Hs) as [X Y]. split; auto. apply (N g); simpl; auto.
      + apply A3.
      + fold H in A4. lia.
    - intros s Hs. apply in_app_or in Hs as [Hs|Hs]; apply in_or_app; auto. left. apply A2; auto. }
  rewrite E. eapply os_more; [apply (IH (fun g' Hg => GS g' (or_intror Hg)) D2 p' r' (g ++ done) O')| |].
  - intros g' s Hg' Hs X. apply in_app_or in X as [X|X]; [|apply (N g' s); simpl; auto]. rewrite Forall_forall in D1. exact (D1 g' Hg' s X Hs).
  - intros s Hs. rewrite <- app_assoc. rewrite !in_app_iff in *. tauto.
  - intros s Hs. rewrite <- app_assoc in Hs. rewrite !in_app_iff in Hs. destruct Hs as [Hs|[Hs|Hs]]; [eauto| |apply (os_done _ _ O); auto].
    apply in_concat in Hs as (g' & Hg' & Hs).
    destruct (group_class q L b W (is_plain _ _ _ _ IS) (is_uniform _ _ _ _ IS) B g' HL (GS g' (or_intror Hg'))) as (_ & _ & X). eauto.
Qed.

Lemma fold_max_ge (loops : list ploop) m lp : In lp loops -> (l_depth lp <= fold_left (fun m lp => if (m <? l_depth lp)%nat then l_depth lp else m) loops m)%nat.
Proof.
  assert (forall loops m, (m <= fold_left (fun m lp => if (m <? l_depth lp)%nat then l_depth lp else m) loops m)%nat) as G.
  { induction loops0 as [|a r IH]; intros m0; cbn [fold_left]; auto. etransitivity; [|apply IH]. destruct (Nat.ltb_spec m0 (l_depth a)); lia. }
  revert m. induction loops as [|a r IH]; intros m; cbn [fold_left]; [intros []|]. intros [<-|X]; auto. etransitivity; [|apply G]. destruct (Nat.ltb_spec m (l_depth a)); lia.
Qed.
Lemma fold_max_lt (loops : list ploop) m K : (m < K)%nat -> (forall lp, In lp loops -> (l_depth lp < K)%nat) ->
  (fold_left (fun m lp => if (m <? l_depth lp)%nat then l_depth lp else m) loops m < K)%nat.
Proof.
  revert m. induction loops as [|a r IH]; intros m Hm A; cbn [fold_left]; auto. apply IH; [|intros; apply A; simpl; auto]. destruct (m <? l_depth a)%nat; auto. apply A; simpl; auto.
Qed.

(** One band. *)
Lemma os_band score b p done : satvecs_ok q -> In b bands -> ostate p done -> (forall s, In s (l_stmts (pb_loop b)) -> ~ In s done) ->
  ostate (fst (intra_tile_optimize_band score p b L)) (l_stmts (pb_loop b) ++ done).
Proof.
  intros SV Hb O N. destruct (is_bstate _ _ _ _ IS b Hb) as [B _].
  assert (forall s, In s (l_stmts (pb_loop b)) -> stmt_of p s = stmt_of q s) as EX by (intros s Hs; apply (os_out _ _ O); auto).
  assert (forall s, In s (l_stmts (pb_loop b) ++ done) -> exists b, In b bands /\ In s (l_stmts (pb_loop b))) as GB.
  { intros s Hs. apply in_app_or in Hs as [Hs|Hs]; [eauto|apply (os_done _ _ O); auto]. }
  assert (ostate p (l_stmts (pb_loop b) ++ done)) as O1. { apply (os_more p done); auto. intros; apply in_or_app; auto. }
  unfold intra_tile_optimize_band. rewrite (band_innermost_ext p q) by auto. destruct (is_band_innermost q b L 0) eqn:IB.
  - rewrite (fuse_ext p q) by auto. set (gs := fuse_per_stmt_bands _ _ _ _).
    assert (forall g s, In g gs -> In s g -> In s (l_stmts (pb_loop b))) as GI.
    { intros g s Hg Hs. destruct (group_class q L b W (is_plain _ _ _ _ IS) (is_uniform _ _ _ _ IS) B g HL Hg) as (_ & _ & X). auto. }
    eapply os_more; [refine (os_groups score b gs Hb IB (fun g Hg => Hg) _ p false done O _)| |]; auto.
    + destruct (fuse_groups q (l_depth (pb_loop b)) (L * pb_width b)%nat (l_stmts (pb_loop b))) as (_ & _ & D); [apply (bs_nodup _ _ _ B)| | | |exact D].
      * intros s Hs. apply (fused_in_band_iff q L b); auto; try (apply IS). apply fused_refl; auto; try (apply IS); first [apply (bs_class _ _ _ B); auto|pose proof (bs_range _ _ _ B); nia].
      * intros s t Hs Ht X. apply (fused_in_band_iff q L b) in X; auto; try (apply IS). apply (fused_in_band_iff q L b); auto; try (apply IS). apply fused_sym; auto.
      * intros s t u Hs Ht Hu X Y. apply (fused_in_band_iff q L b) in X, Y; auto; try (apply IS). apply (fused_in_band_iff q L b); auto; try (apply IS).
        apply (fused_trans q W (is_plain _ _ _ _ IS) (is_uniform _ _ _ _ IS) _ s t u); auto; first [apply (bs_class _ _ _ B); auto|pose proof (bs_range _ _ _ B); nia].
    + intros g s Hg Hs. apply N. apply (GI g); auto.
    + intros s Hs. apply in_app_or in Hs as [Hs|Hs]; apply in_or_app; auto. left. apply in_concat in Hs as (g & Hg & Hs). eauto.
  - destruct (Nat.eqb_spec L 0); [lia|]. unfold make_parallel_loop_innermost.
    rewrite (get_loops_under_ext p q) by (auto; apply (os_hprops _ _ O)). set (loops := get_loops_under q _ _). set (inn := fold_left _ loops _).
    destruct (best_loop _ _) as [lp|] eqn:BL; [|exact O1]. destruct (loop_is_innermost p lp); [exact O1|]. cbn [fst].
    apply best_loop_In in BL. apply filter_In in BL as [Hl PA]. unfold loop_is_parallel in PA. rewrite (os_deps _ _ O) in PA. fold (loop_is_parallel q lp) in PA.
    assert (forall lp, In lp loops -> (l_depth lp < H)%nat) as LB. { intros x Hx. destruct (loops_under_basic _ _ _ _ _ Hx) as (X & _). fold H in X. pose proof (bs_range _ _ _ B) as BR. fold H in BR. lia. }
    assert (l_depth lp <= inn < H)%nat as LI.
    { split; [apply fold_max_ge; auto|]. apply fold_max_lt; auto. pose proof (bs_range _ _ _ B) as R. fold H in R. pose proof (bs_width _ _ _ B). nia. }
    destruct (parallel_loop_ok q L b W (is_plain _ _ _ _ IS) (is_legal _ _ _ _ IS) B lp inn SV Hl PA LI) as (A1 & A2 & A3 & A4).
    eapply os_more; [apply (os_innermost p done lp (inn + 1) b)| |]; auto; try lia.
    + rewrite Nat.add_sub. exact A4.
    + intros s Hs. apply in_app_or in Hs as [Hs|Hs]; apply in_or_app; auto.
Qed.

(** All bands. *)
Lemma os_bands score : satvecs_ok q -> ostate (fst (intra_tile_optimize_bands score L bands q)) (flat_map (fun b => l_stmts (pb_loop b)) bands).
Proof.
  intros SV. unfold intra_tile_optimize_bands.
  assert (forall bs p r done, (forall b, In b bs -> In b bands) -> ForallOrdPairs share_none bs -> ostate p done ->
    (forall b s, In b bs -> In s (l_stmts (pb_loop b)) -> ~ In s done) ->
    ostate (fst (fold_left (fun (a : prog * bool) b => let '(q, r) := intra_tile_optimize_band score (fst a) b L in (q, snd a || r)) bs (p, r)))
      (flat_map (fun b => l_stmts (pb_loop b)) bs ++ done)) as K.
  { induction bs as [|b bs IH]; intros p r done BB SH O N; [exact O|]. inversion SH as [|x y D1 D2]; subst. cbn [fold_left fst snd flat_map].
    pose proof (os_band score b p done SV (BB b (or_introl eq_refl)) O (fun s Hs => N b s (or_introl eq_refl) Hs)) as O1.
    destruct (intra_tile_optimize_band score p b L) as [p' r']. cbn [fst] in O1.
    eapply os_more; [apply (IH p' (r || r') _ (fun b' Hb' => BB b' (or_intror Hb')) D2 O1)| |].
    - intros b' s Hb' Hs X. apply in_app_or in X as [X|X]; [|apply (N b' s); simpl; auto]. rewrite Forall_forall in D1. exact (D1 b' Hb' s X Hs).
    - intros s Hs. rewrite <- app_assoc. rewrite !in_app_iff in *. tauto.
    - intros s Hs. rewrite <- app_assoc in Hs. rewrite !in_app_iff in Hs. destruct Hs as [Hs|[Hs|Hs]].
      + exists b. split; auto. apply BB; simpl; auto.
      + apply in_flat_map in Hs as (b' & Hb' & Hs). exists b'. split; auto. apply BB; simpl; auto.
      + apply (os_done _ _ O); auto. }
  specialize (K bands q false [] (fun b Hb => Hb) (is_share _ _ _ _ IS) os_init (fun b s _ _ X => X)). rewrite app_nil_r in K. exact K.
Qed.
End Optimize.
