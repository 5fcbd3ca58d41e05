(** * Proofs about the framework "dfp" with clustered components. *)
From Coq Require Import ZArith List Bool Arith Lia.
From Verif Require Import SpecLinear SpecMatrix VecProofs MathModel ConstraintsModel EditProofs FarkasProofs RankProofs SpecGraph GraphModel GraphProofs SpecProg SpecDriver SpecDfp
  FrameworkModel FrameworkProofs DepProofs ProgModel ProgProofs DriverModel HypProofs DriverProofs PadProofs AutoProofs DfpModel DfpProofs DfpProofs2 DfpProofs3 FcgModel ClusterModel.
Import ListNotations.
Open Scope Z_scope.

Lemma stmts_in s i u : In u (scc_stmts s i) <-> (u < length (p_stmts (st_prog s)))%nat /\ s_scc (stmt_of (st_prog s) u) = Z.of_nat i.
Proof. unfold scc_stmts. rewrite filter_In, in_seq, Z.eqb_eq. intuition lia. Qed.

(** ** The constraints from the colouring *)

(** What the constraints say about loop [k] of statement [u] in component [j]. *)
Definition cluster_rule (s : dstate) (col : list Z) (c j u k : nat) (x : point) : Prop :=
  let pr := st_prog s in
  if nth j (st_max s) 0 <? Z.of_nat c then
    if nth k (s_orig (stmt_of pr u)) false then 0 <= hcoef pr x u k else hcoef pr x u k = 0
  else if (nth (scc_offset s j + k) col 0 =? Z.of_nat c) && nth k (s_orig (stmt_of pr u)) false then 1 <= hcoef pr x u k
  else hcoef pr x u k = 0.

Lemma cluster_constraints_spec s col c base : wf_cst base -> ncols base = cst_width (st_prog s) ->
  wf_cst (cluster_constraints s col c base) /\ ncols (cluster_constraints s col c base) = cst_width (st_prog s) /\
  ((forall j, (j < st_num s)%nat -> (scc_dim s j <= p_nvar (st_prog s))%nat) ->
   forall x, mem (cluster_constraints s col c base) x <->
     mem base x /\ forall j, In j (seq 0 (st_num s)) -> forall u, In u (scc_stmts s j) -> forall k, In k (seq 0 (scc_dim s j)) -> cluster_rule s col c j u k x).
Proof.
  intros W N. unfold cluster_constraints. set (pr := st_prog s) in *.
  destruct (fold_cond (fun acc j =>
      fold_left (fun acc u =>
          let var k := (p_npar pr + 1 + u * (p_nvar pr + 1) + k)%nat in
          let orig k := nth k (s_orig (stmt_of pr u)) false in
          fold_left (fun acc k =>
              if nth j (st_max s) 0 <? Z.of_nat c then
                if orig k then add_lb acc (var k) 0 else set_last (var k) 1 (add_equality acc)
              else if (nth (scc_offset s j + k) col 0 =? Z.of_nat c) && orig k then add_lb acc (var k) 1
              else set_last (var k) 1 (add_equality acc)) (seq 0 (scc_dim s j)) acc)
        (scc_stmts s j) acc)
    (fun j x => forall u, In u (scc_stmts s j) -> forall k, In k (seq 0 (scc_dim s j)) -> cluster_rule s col c j u k x) (cst_width pr)
    (fun j => (scc_dim s j <= p_nvar pr)%nat)) with (l := seq 0 (st_num s)) (c := base) as (A1 & A2 & A3); auto.
  - intros c0 j W0 N0.
    destruct (fold_cond (fun acc u =>
          let var k := (p_npar pr + 1 + u * (p_nvar pr + 1) + k)%nat in
          let orig k := nth k (s_orig (stmt_of pr u)) false in
          fold_left (fun acc k =>
              if nth j (st_max s) 0 <? Z.of_nat c then
                if orig k then add_lb acc (var k) 0 else set_last (var k) 1 (add_equality acc)
              else if (nth (scc_offset s j + k) col 0 =? Z.of_nat c) && orig k then add_lb acc (var k) 1
              else set_last (var k) 1 (add_equality acc)) (seq 0 (scc_dim s j)) acc)
      (fun u x => forall k, In k (seq 0 (scc_dim s j)) -> cluster_rule s col c j u k x) (cst_width pr)
      (fun u => (u < length (p_stmts pr))%nat /\ (scc_dim s j <= p_nvar pr)%nat)) with (l := scc_stmts s j) (c := c0) as (B1 & B2 & B3); auto.
    + intros c1 u W1 N1. cbv zeta.
      destruct (fold_cond (fun acc k =>
              if nth j (st_max s) 0 <? Z.of_nat c then
                if nth k (s_orig (stmt_of pr u)) false then add_lb acc (p_npar pr + 1 + u * (p_nvar pr + 1) + k) 0
                else set_last (p_npar pr + 1 + u * (p_nvar pr + 1) + k) 1 (add_equality acc)
              else if (nth (scc_offset s j + k) col 0 =? Z.of_nat c) && nth k (s_orig (stmt_of pr u)) false then add_lb acc (p_npar pr + 1 + u * (p_nvar pr + 1) + k) 1
              else set_last (p_npar pr + 1 + u * (p_nvar pr + 1) + k) 1 (add_equality acc))
        (fun k x => cluster_rule s col c j u k x) (cst_width pr)
        (fun k => (u < length (p_stmts pr))%nat /\ (k < p_nvar pr)%nat)) with (l := seq 0 (scc_dim s j)) (c := c1) as (C1 & C2 & C3); auto.
      * intros c2 k W2 N2. unfold cluster_rule. fold pr.
        destruct (lb_wf c2 (p_npar pr + 1 + u * (p_nvar pr + 1) + k) 0 W2) as [X Y].
        destruct (lb_wf c2 (p_npar pr + 1 + u * (p_nvar pr + 1) + k) 1 W2) as [X1 Y1].
        destruct (eq0_wf c2 (p_npar pr + 1 + u * (p_nvar pr + 1) + k) W2) as [X2 Y2].
        destruct (_ <? _); [destruct (nth k (s_orig (stmt_of pr u)) false)|destruct (_ && _)];
          (split; [assumption|]; split; [congruence|]; intros [Hu Hk] x);
          first [apply add_lb_mem|apply eq0_mem]; rewrite N2; unfold cst_width; nia.
      * split; [exact C1|]. split; [exact C2|]. intros [Hu Hd] x. apply C3. intros k Hk. split; [exact Hu|]. apply in_seq in Hk. lia.
    + split; [exact B1|]. split; [exact B2|]. intros Hd x.
      refine (B3 _ x). intros u Hu. apply stmts_in in Hu as [Hu _]. split; [exact Hu|exact Hd].
  - split; [exact A1|]. split; [exact A2|]. intros D x. refine (A3 _ x). intros j Hj. apply in_seq in Hj. apply D. lia.
Qed.

Lemma fold_rows_incl {A} (f : cst -> A -> cst) : (forall c a, incl (rows c) (rows (f c a)) /\ ncols (f c a) = ncols c) ->
  forall l c, incl (rows c) (rows (fold_left f l c)) /\ ncols (fold_left f l c) = ncols c.
Proof.
  intros H l. induction l as [|a l IH]; intros c; cbn [fold_left]; [split; [intros r; auto|auto]|].
  destruct (IH (f c a)) as [A1 A2], (H c a) as [B1 B2]. split; [eapply incl_tran; eauto|congruence].
Qed.
Lemma lb_incl c v b : incl (rows c) (rows (add_lb c v b)) /\ ncols (add_lb c v b) = ncols c.
Proof.
  unfold add_lb, add_inequality, add_zero_row, set_last. cbn [rows ncols]. rewrite app_length. cbn [length]. rewrite !map_nth_length, app_length. cbn [length].
  rewrite !map_nth_end by (rewrite ?app_length; cbn; lia). cbn [rows ncols]. split; [|auto]. apply incl_appl, incl_refl.
Qed.
Lemma eq0_incl c v : incl (rows c) (rows (set_last v 1 (add_equality c))) /\ ncols (set_last v 1 (add_equality c)) = ncols c.
Proof. rewrite eq0_row. cbn [rows ncols]. split; [apply incl_appl, incl_refl|auto]. Qed.
Lemma cluster_constraints_incl s col c base :
  incl (rows base) (rows (cluster_constraints s col c base)) /\ ncols (cluster_constraints s col c base) = ncols base.
Proof.
  unfold cluster_constraints. apply fold_rows_incl. intros c0 j. apply fold_rows_incl. intros c1 u. apply fold_rows_incl. intros c2 k.
  destruct (_ <? _); [destruct (nth _ _ _)|destruct (_ && _)]; first [apply lb_incl|apply eq0_incl].
Qed.

(** ** Every step keeps the invariant of the lazy search *)

Section Steps.
Variables (is_emptyb : cst -> bool) (solve : prog -> cst -> option point).
Variables (build : dstate -> list Z -> nat -> fcg) (refresh : dstate -> fcg -> nat -> nat -> option fcg).
Variables (o : options) (fuse : fusion) (delayed_cut : bool).
Hypothesis EX : exact_empty is_emptyb.
Hypothesis SOL : solver_sound solve.
Local Notation inv := (inv LAZY).
Local Notation good := (good LAZY).

Lemma cut_around_good scc js : forall s, inv s -> good s (cut_around is_emptyb fuse scc js s).
Proof.
  induction js as [|j l IH]; intros s I; cbn [cut_around]; [apply good_refl; auto|].
  destruct (j =? scc)%nat; [apply IH; auto|].
  destruct ((j <? scc)%nat && _).
  - destruct fuse.
    + pose proof (cut_all_good LAZY is_emptyb EX s I) as G. eapply good_trans; [exact G|]. apply IH. apply G.
    + pose proof (cut_between_good LAZY is_emptyb EX s (Z.of_nat j) (Z.of_nat scc) I) as G. cbv zeta.
      destruct (find _ _); [|exact G]. eapply good_trans; [exact G|]. apply cut_between_good; auto. apply G.
    + pose proof (cut_between_good LAZY is_emptyb EX s (Z.of_nat j) (Z.of_nat scc) I) as G. cbv zeta.
      destruct (find _ _); [|exact G]. eapply good_trans; [exact G|]. apply cut_between_good; auto. apply G.
  - destruct (sccs_direct_connected s (Z.of_nat scc) (Z.of_nat j)); [|apply IH; auto].
    destruct fuse; [apply cut_all_good; auto|apply cut_between_good; auto|apply cut_between_good; auto].
Qed.

Lemma colour_cluster_good c i k : inv (k_state k) -> good (k_state k) (k_state (snd (colour_scc_cluster is_emptyb fuse delayed_cut c i k))).
Proof.
  intros I. unfold colour_scc_cluster. cbv zeta. destruct (_ <? _); [apply good_refl; auto|].
  destruct (_ =? _).
  - cbn [snd k_state]. destruct delayed_cut; [apply good_refl; auto|apply cut_around_good; auto].
  - destruct (find _ _); apply good_refl; auto.
Qed.

Lemma cluster_distributed_good i k k' : inv (k_state k) -> cluster_distributed is_emptyb refresh i k = Some k' -> good (k_state k) (k_state k').
Proof.
  intros I H. unfold cluster_distributed in H. destruct (_ && _); [|injection H as <-; apply good_refl; auto].
  cbv zeta in H. destruct (update_graph _ _ _ _ _ _); [|discriminate]. injection H as <-. apply distribute_good; auto.
Qed.
Lemma cluster_retry_good c i k b k' : inv (k_state k) -> cluster_retry is_emptyb refresh fuse delayed_cut c i k = Some (b, k') -> good (k_state k) (k_state k').
Proof.
  intros I H. unfold cluster_retry in H. cbv zeta in H. pose proof (cut_before_good is_emptyb fuse EX i _ I) as G. set (s := cut_before _ _ _ _) in *.
  destruct (refreshed _ _ _ _ _) as [g|]; [|discriminate]. pose proof (colour_cluster_good c i (mkK s (k_col k) g (k_rebuild k) (k_done k)) ltac:(apply G)) as G2.
  injection H as H. rewrite H in G2. cbn [snd k_state] in G2. eapply good_trans; eauto.
Qed.
Lemma precise_good pr a n m : inv (mkState pr a n m) ->
  good (mkState pr a n m) (mkState (compute_dep_directions is_emptyb (compute_dep_satisfaction_precise is_emptyb pr)) a n m).
Proof.
  intros I. destruct (inv_precise LAZY is_emptyb EX pr a n m eq_refl I) as [I5 F5]. destruct (inv_directions is_emptyb _ a n m I5) as [I6 F6].
  split; [exact I6|]. cbn [st_prog]. eapply frame_trans; eauto.
Qed.
Lemma cluster_precise_good c i k b k' : inv (k_state k) -> cluster_precise is_emptyb build fuse delayed_cut c i k = (b, k') -> good (k_state k) (k_state k').
Proof.
  intros I H. unfold cluster_precise in H. cbv zeta in H. destruct (k_state k) as [pr a n m]. cbn [st_prog st_adj st_num st_max] in *.
  pose proof (precise_good pr a n m I) as G. match type of G with good _ ?x => set (s1 := x) in * end.
  pose proof (colour_cluster_good c i (mkK s1 (k_col k) (build s1 (k_col k) c) false (k_done k)) ltac:(apply G)) as G2. rewrite H in G2. cbn [snd k_state] in G2.
  eapply good_trans; eauto.
Qed.
Lemma rebuild_cluster_good c k : inv (k_state k) -> good (k_state k) (k_state (rebuild_cluster build c k)).
Proof.
  intros I. unfold rebuild_cluster. cbv zeta. cbn [k_state]. destruct (k_state k) as [pr a n m].
  destruct (inv_compute_scc LAZY _ (inv_ddg_update LAZY _ I)) as [I4 F4]. split; [exact I4|exact F4].
Qed.
Definition before_rebuild (s : dstate) : dstate := match fuse with NoFuse => fst (cut_all_sccs is_emptyb s) | _ => s end.
Lemma before_rebuild_good s : inv s -> good s (before_rebuild s).
Proof. intros I. unfold before_rebuild. destruct fuse; [apply cut_all_good; auto|apply good_refl; auto|apply good_refl; auto]. Qed.

Lemma cluster_loop_good fuel c : forall n i k k', inv (k_state k) ->
  cluster_loop is_emptyb build refresh fuse delayed_cut fuel c n i k = KDone k' -> good (k_state k) (k_state k').
Proof.
  induction fuel as [|f IH]; intros n i k k' I H; cbn [cluster_loop] in H; [discriminate|].
  destruct (n <=? i)%nat; [injection H as <-; apply good_refl; auto|].
  destruct (_ || _); [apply IH in H; auto|].
  destruct (cluster_distributed _ _ i k) as [k1|] eqn:E1; [|discriminate]. apply cluster_distributed_good in E1; auto.
  eapply good_trans; [exact E1|]. destruct E1 as [I1 _]. clear k I.
  pose proof (colour_cluster_good c i k1 I1) as G2. destruct (colour_scc_cluster _ _ _ c i k1) as [[|] k2]; cbn [snd] in G2.
  { apply IH in H; [|apply G2]. eapply good_trans; [exact G2|exact H]. }
  eapply good_trans; [exact G2|]. destruct G2 as [I2 _]. clear k1 I1.
  destruct (k_rebuild k2 || (i =? 0)%nat).
  - cbv zeta in H. fold (before_rebuild (k_state k2)) in H. pose proof (before_rebuild_good _ I2) as G3. set (s2 := before_rebuild _) in *.
    set (ks := mkK s2 _ _ _ _) in H. pose proof (rebuild_cluster_good c ks (proj1 G3)) as G4. apply IH in H; [|apply G4].
    eapply good_trans; [exact G3|]. eapply good_trans; [exact G4|exact H].
  - destruct (cluster_retry _ _ _ _ c i k2) as [[[|] k3]|] eqn:E3; [| |discriminate]; apply cluster_retry_good in E3; auto.
    + apply IH in H; [|apply E3]. eapply good_trans; [exact E3|exact H].
    + eapply good_trans; [exact E3|]. destruct E3 as [I3 _].
      destruct (cluster_precise _ _ _ _ c i k3) as [[|] k4] eqn:E4; [|discriminate]. apply cluster_precise_good in E4; auto.
      apply IH in H; [|apply E4]. eapply good_trans; [exact E4|exact H].
Qed.

(** A level found with constraints that include the bounds. *)
Lemma shift_gen pr0 s1 base sol : inv s1 -> frame pr0 (st_prog s1) -> wf_cst base -> ncols base = cst_width pr0 ->
  incl (rows (get_coeff_bounding_constraints o pr0)) (rows base) ->
  prog_constraints_lexmin solve (st_prog s1) (cst_add base (get_permutability_constraints o (fun _ => false) (st_prog s1))) = Some sol ->
  good s1 (mkState (add_hyperplane_from_ilp_solution (st_prog s1) sol) (st_adj s1) (st_num s1) (st_max s1)) /\
  mem base sol /\ zpadding_zero (st_prog s1) sol.
Proof.
  intros I F C1 C2 C3 H. destruct s1 as [pr a n m]. cbn [st_prog st_adj st_num st_max] in *.
  pose proof (frame_width _ _ F) as Wd.
  assert (wf_orig pr) as Ho by (apply orig_first_wf; apply (i_orig _ _ I)).
  destruct (bounding_wf o pr0) as [B1 B2].
  assert (forall x, mem base x -> mem (get_coeff_bounding_constraints o pr0) x) as C3'.
  { intros x [L M]. split; [congruence|]. intros r Hr. apply M. apply C3. auto. }
  destruct (perm_cst_wf o (fun _ => false) pr) as [P1 P2].
  destruct (DriverProofs.cst_add_wf _ _ C1 P1 ltac:(congruence)) as [We Ne].
  assert (mem (cst_add base (get_permutability_constraints o (fun _ => false) pr)) sol /\ zpadding_zero pr sol) as [Ms Zs].
  { apply (lexmin_sound pr Ho) with (solve := solve); auto.
    - intros st Hst. apply (orig_first_mask pr st (i_orig _ _ I) Hst).
    - congruence.
    - cbn [cst_add rows]. intros X. apply app_eq_nil in X as [X _].
      assert (rows (get_coeff_bounding_constraints o pr0) = []) as E by (destruct (rows (get_coeff_bounding_constraints o pr0)) as [|r l]; [auto|]; specialize (C3 r (or_introl eq_refl)); rewrite X in C3; destruct C3).
      assert (mem (get_coeff_bounding_constraints o pr0) (repeat (-1) (cst_width pr0 - 1))) as M.
      { split; [rewrite repeat_length, B2; unfold cst_width; lia|]. rewrite E. intros r []. }
      apply bounding_mem in M as (_ & M & _). specialize (M (-1)). enough (0 <= -1) by lia. apply M.
      replace (cst_width pr0 - 1)%nat with (S (cst_width pr0 - 2)) by (unfold cst_width; lia). left. auto. }
  apply cst_add_mem in Ms as [Mc Mp]; [|congruence].
  pose proof (C3' _ Mc) as Mb. apply bounding_mem in Mb as (Lb & Nb & _).
  split; [|auto]. rewrite hyperplane_app. pose proof (i_wf _ _ I) as W. pose proof (i_pad _ _ I) as P. cbn [st_prog] in W, P.
  split; [|apply app_level_frame]. apply inv_app; auto.
  - intros s Hs. rewrite hyp_row_length. rewrite (P _ (stmt_of_in pr s Hs)). auto.
  - intros d Hd Hr. destruct (i_dep _ _ I d Hd Hr) as [S _]. cbn [st_prog] in S. destruct (d_sat d) eqn:Sa; [left; auto|right].
    intros s t p In. assert (wf_dep pr d) as (D1 & D2 & _) by (apply W; auto).
    pose proof In as (L3 & L4 & L5 & _). rewrite (P _ (stmt_of_in pr _ D1)) in L3. rewrite (P _ (stmt_of_in pr _ D2)) in L4.
    rewrite !hyp_row_aff by (auto; congruence).
    pose proof Hd as Hd0. apply In_nth_error in Hd0 as [i Hi].
    exact (perm_sound_int o (fun _ => false) pr sol i d W P Zs Mp Hi eq_refl Sa Hr s t p In).
Qed.

Lemma cluster_shift_spec c k k' : inv (k_state k) -> cluster_shift is_emptyb solve o delayed_cut c k = Some k' ->
  exists s1 sol, good (k_state k) s1 /\ (s1 = k_state k \/ s1 = cut_smart is_emptyb (k_state k)) /\
    k_state k' = mkState (add_hyperplane_from_ilp_solution (st_prog s1) sol) (st_adj s1) (st_num s1) (st_max s1) /\
    good s1 (k_state k') /\ k_col k' = k_col k /\
    mem (cluster_constraints (k_state k) (k_col k) c (get_coeff_bounding_constraints o (st_prog (k_state k)))) sol /\ zpadding_zero (st_prog s1) sol.
Proof.
  intros I H. unfold cluster_shift in H. cbv zeta in H. set (coeff := cluster_constraints _ _ _ _) in *.
  destruct (bounding_wf o (st_prog (k_state k))) as [B1 B2].
  destruct (cluster_constraints_spec (k_state k) (k_col k) c _ B1 B2) as (C1 & C2 & _).
  destruct (cluster_constraints_incl (k_state k) (k_col k) c (get_coeff_bounding_constraints o (st_prog (k_state k)))) as [C3 _]. fold coeff in C1, C2, C3.
  destruct (prog_constraints_lexmin solve (st_prog (k_state k)) _) as [sol|] eqn:E.
  - injection H as <-. exists (k_state k), sol. cbn [k_state k_col]. destruct (shift_gen _ _ _ _ I (frame_refl _) C1 C2 C3 E) as (A & B & C).
    split; [apply good_refl; auto|]. split; [auto|]. split; [reflexivity|]. auto.
  - destruct delayed_cut; [|discriminate]. pose proof (cut_smart_good LAZY is_emptyb EX _ I) as G. set (s1 := cut_smart is_emptyb (k_state k)) in *.
    destruct (prog_constraints_lexmin solve (st_prog s1) _) as [sol|] eqn:E2; [|discriminate]. injection H as <-. exists s1, sol. cbn [k_state k_col].
    destruct (shift_gen _ _ _ _ (proj1 G) (proj2 G) C1 C2 C3 E2) as (A & B & C). split; [exact G|]. split; [auto|]. split; [reflexivity|]. auto.
Qed.

Lemma cluster_level_good fuel c k k' : inv (k_state k) -> cluster_level is_emptyb solve build refresh o fuse delayed_cut fuel c k = KDone k' -> good (k_state k) (k_state k').
Proof.
  intros I H. unfold cluster_level in H. cbv zeta in H. destruct (cluster_loop _ _ _ _ _ _ _ _ _ _) as [k1| |] eqn:E1; [|discriminate|discriminate]. apply cluster_loop_good in E1; auto.
  destruct (cluster_shift _ _ _ _ _ _) as [k2|] eqn:E2; [|discriminate]. apply cluster_shift_spec in E2 as (s1 & sol & G1 & _ & S2 & G2 & _); [|apply E1].
  injection H as <-. cbn [k_state] in *.
  eapply good_trans; [exact E1|]. eapply good_trans; [exact G1|]. eapply good_trans; [exact G2|]. destruct G2 as [I2 _]. rewrite S2 in *. cbn [st_prog st_adj st_num st_max] in *.
  rewrite hyperplane_app in *. destruct G1 as [I1 _]. pose proof (i_wf _ _ I1) as W1.
  set (q := app_level _ _ _ _) in *. assert ((nrows0 q - 1 < length (p_hprops q))%nat) as HL by (apply last_level_lt; auto).
  destruct (inv_update LAZY is_emptyb EX q _ _ _ _ I2 HL) as [I3 F3]. split; [exact I3|exact F3].
Qed.

Lemma cluster_levels_good fuel l : forall k k', inv (k_state k) -> cluster_levels is_emptyb solve build refresh o fuse delayed_cut fuel l k = KDone k' -> good (k_state k) (k_state k').
Proof.
  induction l as [|c l IH]; intros k k' I H; cbn [cluster_levels] in H; [injection H as <-; apply good_refl; auto|].
  destruct (cluster_level _ _ _ _ _ _ _ _ _ _) as [k1| |] eqn:E; [|discriminate|discriminate]. apply cluster_level_good in E; auto. apply IH in H; [|apply E]. eapply good_trans; eauto.
Qed.

Lemma cluster_search_good fuel s k : inv s -> cluster_search is_emptyb solve build refresh o fuse delayed_cut fuel s = KDone k -> good s (k_state k).
Proof.
  intros I H. unfold cluster_search in H. cbv zeta in H. set (s1 := match fuse with NoFuse => _ | _ => _ end) in H.
  assert (good s s1) as G.
  { unfold s1. destruct fuse; try (apply good_refl; auto). destruct (inv_compute_scc LAZY s I) as [A B].
    eapply good_trans; [split; [exact A|exact B]|]. apply cut_all_good; auto. }
  apply cluster_levels_good in H; [|apply G]. eapply good_trans; eauto.
Qed.
End Steps.
