(** * Proofs: reordering the loops of all untiled bands; summaries. *)
From Coq Require Import ZArith List Bool Lia Arith Permutation.
From Verif Require Import SpecLinear MathModel ConstraintsModel VecProofs EditProofs MatrixProofs ListProofs SpecProg SpecTile SpecLoop
  RankProofs SumProofs FrameworkModel ProgModel DepProofs SimplifyProofs LexProofs ProgProofs TileModel TileProofs TileProofs2 TileProofs3
  LoopModel LoopProofs LoopProofs2 LoopProofs3 LoopProofs4 LoopProofs5 WaveProofs WaveProofs2 IntraModel IntraProofs IntraProofs2 IntraProofs3 IntraProofs4 IntraProofs5 IntraProofs6 IntraProofs7.
Import ListNotations.
Open Scope Z_scope.

Section Untiled.
Variable q : prog.
Hypothesis W : wf_levels q.
Hypothesis PL : plain_levels q.
Hypothesis UN : uniform q.
Hypothesis LV : leveled q.
Hypothesis INF : forall d, In d (p_deps q) -> d_rar d = false -> info_ok q d.
Variable bands : list pband.
Hypothesis GD : Forall (good_band q) bands.
Hypothesis SH : ForallOrdPairs share_none bands.
Let H := length (p_hprops q).

Record ustate (p : prog) (done : list nat) : Prop := {
  us_wf : wf_levels p; us_plain : plain_levels p; us_uniform : uniform p; us_leveled : leveled p;
  us_len : length (p_stmts p) = length (p_stmts q); us_npar : p_npar p = p_npar q; us_deps : p_deps p = p_deps q; us_hprops : p_hprops p = p_hprops q;
  us_out : forall s, ~ In s done -> stmt_of p s = stmt_of q s;
  us_trans : forall s, (s < length (p_stmts q))%nat -> exists r, stmt_of p s = set_trans (stmt_of q s) (mkMat (mncols (s_trans (stmt_of q s))) r) /\
    Permutation r (mrows (s_trans (stmt_of q s)));
  us_rows : forall b s k, In b bands -> In s (l_stmts (pb_loop b)) -> (k < l_depth (pb_loop b))%nat ->
    nth k (mrows (s_trans (stmt_of p s))) [] = nth k (mrows (s_trans (stmt_of q s))) [];
  us_scalar : forall s k, loop_level (stmt_of q s) k = false -> nth k (mrows (s_trans (stmt_of p s))) [] = nth k (mrows (s_trans (stmt_of q s))) [];
  us_move : forall S a e, (forall s, In s S -> ~ In s done) -> lmove_ok q S a e -> lmove_ok p S a e }.

Lemma us_init : ustate q [].
Proof.
  split; auto. intros s Hs. exists (mrows (s_trans (stmt_of q s))). split; auto. destruct (stmt_of q s) as [? ? ? ? [? ?]]. reflexivity.
Qed.
Lemma us_more p done done' : ustate p done -> (forall s, In s done -> In s done') -> ustate p done'.
Proof.
  intros O I. destruct O as [A1 A2 A3 A4 A5 A6 A7 A8 A9 A10 A11 A12 A13]. split; auto. intros S a e B. apply A13. intros s Hs X. exact (B s Hs (I s X)).
Qed.
Lemma us_share b b2 : In b bands -> In b2 bands -> b = b2 \/ forall s, In s (l_stmts (pb_loop b)) -> ~ In s (l_stmts (pb_loop b2)).
Proof.
  intros Hb Hb2. destruct (ForallOrdPairs_In SH b b2 Hb Hb2) as [->|[X|X]]; auto. right. intros s H1 H2. exact (X s H2 H1).
Qed.

Lemma us_step p done p' S a e b : ustate p done -> In b bands -> (forall s, In s S -> In s (l_stmts (pb_loop b)) /\ (s < length (p_stmts q))%nat /\ ~ In s done) ->
  (l_depth (pb_loop b) <= a)%nat -> (a <= e < H)%nat -> lmove_ok q S a e ->
  (forall s k, In s S -> (a <= k <= e)%nat -> loop_level (stmt_of q s) k = true) -> moved p p' S a e -> ustate p' (S ++ done).
Proof.
  intros O Hb SB Ha He MO LO M. pose proof (us_hprops _ _ O) as EH. pose proof (us_wf _ _ O) as WP.
  assert (lmove_ok p S a e) as MP. { apply (us_move _ _ O); auto. intros s Hs. apply SB; auto. }
  assert (forall s, In s S -> (s < length (p_stmts p))%nat) as LR. { intros s Hs. rewrite (us_len _ _ O). apply SB; auto. }
  assert (a <= e < length (p_hprops p))%nat as AE by (rewrite EH; exact He).
  assert (forall s k, In s S -> (a <= k <= e)%nat -> loop_level (stmt_of p s) k = true) as LP.
  { intros s k Hs Hk. rewrite (us_out _ _ O); auto. apply SB; auto. }
  pose proof M as (M1 & M2 & M3 & M4 & M5 & M6).
  split.
  - apply (mo_wf p p' S a e); auto.
  - apply (lm_plain p p' S a e); auto. apply (us_plain _ _ O).
  - apply (lm_uniform p p' S a e); auto. apply (us_uniform _ _ O).
  - apply (lm_leveled p p' S a e); auto. apply (us_leveled _ _ O).
  - rewrite M1. apply (us_len _ _ O).
  - rewrite M2. apply (us_npar _ _ O).
  - rewrite M3. apply (us_deps _ _ O).
  - rewrite M4. auto.
  - intros s Hs. rewrite M5 by (intros X; apply Hs; apply in_or_app; auto). apply (us_out _ _ O). intros X; apply Hs; apply in_or_app; auto.
  - intros s Hs. destruct (us_trans _ _ O s Hs) as (r & E & P). destruct (in_dec Nat.eq_dec s S) as [I|I].
    + rewrite M6, E by auto. cbn [s_trans set_trans mrows mncols]. exists (move_down [] a e r). split; [reflexivity|].
      rewrite <- P. apply move_down_perm. rewrite (Permutation_length P). change (length (mrows (s_trans (stmt_of q s)))) with (mnrows (s_trans (stmt_of q s))).
      rewrite (proj2 W s Hs). fold H. lia.
    + rewrite M5 by auto. eauto.
  - intros b2 s k Hb2 Hs Hk. destruct (in_dec Nat.eq_dec s S) as [I|I].
    + assert (b = b2) as <-. { destruct (us_share b b2 Hb Hb2) as [|X]; auto. destruct (X s); auto. apply SB; auto. }
      rewrite M6 by auto. cbn [s_trans set_trans mrows].
      assert (nth k (move_down [] a e (mrows (s_trans (stmt_of p s)))) [] = nth k (mrows (s_trans (stmt_of p s))) []) as ->; [|apply (us_rows _ _ O b); auto].
      specialize (LR s I). pose proof (proj2 WP s LR) as NR. unfold mnrows in NR. rewrite move_down_nth by lia. rewrite mv_lt by lia. auto.
    + rewrite M5 by auto. apply (us_rows _ _ O b2); auto.
  - intros s k LF. transitivity (nth k (mrows (s_trans (stmt_of p s))) []); [|apply (us_scalar _ _ O); exact LF].
    apply (lm_scalar_row p p' S a e); auto. destruct (Nat.lt_ge_cases s (length (p_stmts q))) as [X|X].
    + destruct (us_trans _ _ O s X) as (r & E & _). unfold loop_level. rewrite E. exact LF.
    + assert (stmt_of p s = stmt_of q s) as ->; [|exact LF]. unfold stmt_of. rewrite !nth_overflow; auto. rewrite (us_len _ _ O); auto.
  - intros S2 a2 e2 DJ Mq. apply (lm_other p p' S a e); auto.
    + intros s Hs X. apply (DJ s Hs). apply in_or_app; auto.
    + apply (us_move _ _ O); auto. intros s Hs X. apply (DJ s Hs). apply in_or_app; auto.
Qed.

Lemma last_depth_ext p lp : p_hprops p = p_hprops q -> (forall s, In s (l_stmts lp) -> stmt_of p s = stmt_of q s) -> last_depth p lp = last_depth q lp.
Proof.
  intros E1 E2. unfold last_depth. rewrite E1. generalize (Z.of_nat (length (p_hprops q)) - 1) as m.
  assert (forall l m, (forall s, In s l -> stmt_of p s = stmt_of q s) ->
    fold_left (fun ld s => let st := stmt_of p s in Z.min ld (pred_unsigned (first_scalar st (mnrows (s_trans st) - l_depth lp) (l_depth lp)))) l m =
    fold_left (fun ld s => let st := stmt_of q s in Z.min ld (pred_unsigned (first_scalar st (mnrows (s_trans st) - l_depth lp) (l_depth lp)))) l m) as K; [|intros; apply K; auto].
  induction l as [|s l IH]; intros m E; cbn [fold_left]; auto. cbv zeta. rewrite (E s) by (simpl; auto). apply IH. intros; apply E; simpl; auto.
Qed.

Lemma us_groups score b gs : In b bands -> is_band_innermost q b 0 0 = true ->
  (forall g, In g gs -> In g (fuse_per_stmt_bands q (l_depth (pb_loop b)) 0 (l_stmts (pb_loop b)))) ->
  ForallOrdPairs (fun g g' => forall s, In s g -> ~ In s g') gs ->
  forall p r done, ustate p done -> (forall g s, In g gs -> In s g -> ~ In s done) ->
  ustate (fst (fold_left (optimize_group score b 0) gs (p, r))) (concat gs ++ done).
Proof.
  intros Hb IB. pose proof (proj1 (Forall_forall _ _) GD b Hb) as GB. induction gs as [|g gs IH]; intros GS D p r done O N; [exact O|].
  inversion D as [|x y D1 D2]; subst. cbn [fold_left concat].
  assert (exists r' p', optimize_group score b 0 (p, r) g = (p', r') /\ ustate p' (g ++ done)) as (r' & p' & E & O').
  { assert (ustate p (g ++ done)) as O1. { apply (us_more p done); auto. intros; apply in_or_app; auto. }
    unfold optimize_group. cbn [fst]. destruct (best_loop _ _) as [lp|] eqn:BL; [|eauto]. destruct (loop_is_innermost p lp); [eauto|].
    apply best_loop_In in BL. rewrite (get_loops_under_ext p q) in BL; [|apply (us_hprops _ _ O)|intros s Hs; apply (us_out _ _ O); apply (N g); simpl; auto].
    rewrite Nat.mul_0_l, Nat.add_0_r in BL. cbn [Nat.eqb negb].
    destruct (band_loop_ok q W PL UN LV INF b g lp GB IB (GS g (or_introl eq_refl)) BL) as (A1 & A2 & A3 & A4 & A5 & A6).
    do 2 eexists. split; [reflexivity|]. apply (us_more _ (l_stmts lp ++ done)); auto.
    - assert (innermost_to p lp (l_depth (pb_loop b) + (0 + 1) * pb_width b) false = Z.to_nat (last_depth q lp)) as EI.
      { cbn [innermost_to]. f_equal. apply last_depth_ext; [apply (us_hprops _ _ O)|]. intros s Hs. apply (us_out _ _ O). apply (N g); simpl; auto. apply A2; auto. }
      apply (us_step p done _ (l_stmts lp) (l_depth lp) (Z.to_nat (last_depth q lp)) b); auto.
      + intros s Hs. destruct (A2 s Hs) as (X & Y & Z). split; auto. split; auto. apply (N g); simpl; auto.
      + apply A3.
      + fold H in A4. lia.
      + pose proof (make_moved p lp (l_depth (pb_loop b) + (0 + 1) * pb_width b) false (us_wf _ _ O) A1) as M. cbv zeta in M. rewrite EI in M. apply M.
        * intros s Hs. rewrite (us_len _ _ O). apply A2; auto.
        * rewrite (us_hprops _ _ O). lia.
    - intros s Hs. apply in_app_or in Hs as [Hs|Hs]; apply in_or_app; auto. left. apply A2; auto. }
  rewrite E. eapply us_more; [apply (IH (fun g' Hg => GS g' (or_intror Hg)) D2 p' r' (g ++ done) O')|].
  - intros g' s Hg' Hs X. apply in_app_or in X as [X|X]; [|apply (N g' s); simpl; auto]. rewrite Forall_forall in D1. exact (D1 g' Hg' s X Hs).
  - intros s Hs. rewrite <- app_assoc. rewrite !in_app_iff in *. tauto.
Qed.

Lemma us_band score b p done : In b bands -> ustate p done -> (forall s, In s (l_stmts (pb_loop b)) -> ~ In s done) ->
  ustate (fst (intra_tile_optimize_band score p b 0)) (l_stmts (pb_loop b) ++ done).
Proof.
  intros Hb O N. pose proof (proj1 (Forall_forall _ _) GD b Hb) as GB. pose proof GB as (G1 & G2 & G3 & G4).
  pose proof (all_loops_ok q _ G1) as (A1 & A2 & A3 & A4).
  assert (forall s, In s (l_stmts (pb_loop b)) -> stmt_of p s = stmt_of q s) as EX by (intros s Hs; apply (us_out _ _ O); auto).
  assert (ustate p (l_stmts (pb_loop b) ++ done)) as O1. { apply (us_more p done); auto. intros; apply in_or_app; auto. }
  unfold intra_tile_optimize_band. rewrite (band_innermost_ext p q) by auto. destruct (is_band_innermost q b 0 0) eqn:IB; [|exact O1].
  rewrite (fuse_ext p q) by auto. rewrite Nat.mul_0_l. set (gs := fuse_per_stmt_bands _ _ _ _).
  destruct (fuse_groups q (l_depth (pb_loop b)) 0 (l_stmts (pb_loop b))) as (K1 & K2 & K3); auto. fold gs in K1, K2, K3.
  eapply us_more; [refine (us_groups score b gs Hb IB (fun g Hg => Hg) K3 p false done O _)|].
  - intros g s Hg Hs. apply N. apply (K2 g Hg); auto.
  - intros s Hs. apply in_app_or in Hs as [Hs|Hs]; apply in_or_app; auto. left. apply in_concat in Hs as (g & Hg & Hs). apply (K2 g Hg); auto.
Qed.

Lemma us_bands score : ustate (fst (intra_tile_optimize_bands score 0 bands q)) (flat_map (fun b => l_stmts (pb_loop b)) bands).
Proof.
  unfold intra_tile_optimize_bands.
  assert (forall bs p r done, (forall b, In b bs -> In b bands) -> ForallOrdPairs share_none bs -> ustate p done ->
    (forall b s, In b bs -> In s (l_stmts (pb_loop b)) -> ~ In s done) ->
    ustate (fst (fold_left (fun (a : prog * bool) b => let '(q, r) := intra_tile_optimize_band score (fst a) b 0 in (q, snd a || r)) bs (p, r)))
      (flat_map (fun b => l_stmts (pb_loop b)) bs ++ done)) as K.
  { induction bs as [|b bs IH]; intros p r done BB S O N; [exact O|]. inversion S as [|x y D1 D2]; subst. cbn [fold_left fst snd flat_map].
    pose proof (us_band score b p done (BB b (or_introl eq_refl)) O (fun s Hs => N b s (or_introl eq_refl) Hs)) as O1.
    destruct (intra_tile_optimize_band score p b 0) as [p' r']. cbn [fst] in O1.
    eapply us_more; [apply (IH p' (r || r') _ (fun b' Hb' => BB b' (or_intror Hb')) D2 O1)|].
    - intros b' s Hb' Hs X. apply in_app_or in X as [X|X]; [|apply (N b' s); simpl; auto]. rewrite Forall_forall in D1. exact (D1 b' Hb' s X Hs).
    - intros s Hs. rewrite <- app_assoc. rewrite !in_app_iff in *. tauto. }
  specialize (K bands q false [] (fun b Hb => Hb) SH us_init (fun b s _ _ X => X)). rewrite app_nil_r in K. exact K.
Qed.
End Untiled.

(** If the function reports no change there is none. *)
Lemma intra_no_change score L bands pr : snd (intra_tile_optimize_bands score L bands pr) = false -> fst (intra_tile_optimize_bands score L bands pr) = pr.
Proof.
  assert (forall b p, snd (intra_tile_optimize_band score p b L) = false -> fst (intra_tile_optimize_band score p b L) = p) as B.
  { intros b p. unfold intra_tile_optimize_band. destruct (is_band_innermost p b L 0).
    - assert (forall gs a, snd (fold_left (optimize_group score b L) gs a) = false -> fold_left (optimize_group score b L) gs a = a) as G.
      { assert (forall gs a, snd a = true -> snd (fold_left (optimize_group score b L) gs a) = true) as T.
        { induction gs as [|g gs IH]; intros a A; cbn [fold_left]; auto. apply IH. unfold optimize_group. destruct (best_loop _ _); auto. destruct (loop_is_innermost _ _); auto. }
        induction gs as [|g gs IH]; intros a A; cbn [fold_left] in *; auto.
        assert (optimize_group score b L a g = a \/ snd (optimize_group score b L a g) = true) as [E|E].
        { unfold optimize_group. destruct (best_loop _ _); auto. destruct (loop_is_innermost _ _); auto. }
        - rewrite E in *. apply IH; auto.
        - rewrite T in A by auto. discriminate. }
      intros A. rewrite G by auto. auto.
    - destruct (L =? 0)%nat; auto. unfold make_parallel_loop_innermost. destruct (best_loop _ _); auto. destruct (loop_is_innermost _ _); auto. discriminate. }
  unfold intra_tile_optimize_bands.
  set (step := fun (a : prog * bool) b => let '(q, r) := intra_tile_optimize_band score (fst a) b L in (q, snd a || r)).
  assert (forall bs a, snd a = true -> snd (fold_left step bs a) = true) as T.
  { induction bs as [|b bs IH]; intros a A; cbn [fold_left]; auto. apply IH. unfold step. destruct (intra_tile_optimize_band _ _ _ _). cbn. rewrite A. auto. }
  assert (forall bs p, snd (fold_left step bs (p, false)) = false -> fst (fold_left step bs (p, false)) = p) as K; [|apply K].
  induction bs as [|b bs IH]; intros p A; cbn [fold_left] in *; auto.
  specialize (B b p). unfold step at 2 in A. unfold step at 2. cbn [fst snd orb] in *. destruct (intra_tile_optimize_band score p b L) as [p' [|]]; cbn in *.
  - rewrite T in A by auto. discriminate.
  - rewrite B in * by auto. apply IH; auto.
Qed.
