(** * Levels that the search starts with stay in front; forced groups. *)
From Coq Require Import ZArith List Bool Arith Lia.
From Verif Require Import SpecLinear SpecMatrix VecProofs MathModel ConstraintsModel SimplifyProofs FMProofs EditProofs FarkasProofs
  RankProofs MatrixProofs SpecGraph GraphModel GraphProofs GraphProofs2
  SpecProg SpecDriver FrameworkModel FrameworkProofs SumProofs DepProofs LexProofs ProgModel ProgProofs DriverModel HypProofs KeepProofs DriverProofs PadProofs
  AutoProofs SpecForce ForceModel.
Import ListNotations.
Open Scope Z_scope.

(** ** The search only appends levels *)

Definition grows (a b : prog) : Prop :=
  forall s, exists l, mrows (s_trans (stmt_of b s)) = mrows (s_trans (stmt_of a s)) ++ l.
Lemma grows_same a b : (forall s, s_trans (stmt_of b s) = s_trans (stmt_of a s)) -> grows a b.
Proof. intros H s. exists []. rewrite H, app_nil_r. auto. Qed.
Lemma grows_trans a b c : grows a b -> grows b c -> grows a c.
Proof. intros A B s. destruct (A s) as [l E], (B s) as [k F]. exists (l ++ k). rewrite F, E, app_assoc. auto. Qed.

Definition sound (pr : prog) : Prop := wf_prog pr /\ padded pr.
(** From [a] the search has gone on to [b]. *)
Definition on (a b : dstate) : Prop :=
  sound (st_prog b) /\ frame (st_prog a) (st_prog b) /\ grows (st_prog a) (st_prog b).
Lemma on_refl s : sound (st_prog s) -> on s s.
Proof. intros H. split; auto. split; [apply frame_refl|]. apply grows_same; auto. Qed.
Lemma on_trans a b c : on a b -> on b c -> on a c.
Proof. intros (_ & F & G) (S & F' & G'). split; auto. split; [eapply frame_trans; eauto|eapply grows_trans; eauto]. Qed.

Lemma on_app pr a n m h ht row : sound pr ->
  (forall s, (s < length (p_stmts pr))%nat -> length (row s) = (p_nvar pr + p_npar pr + 1)%nat) ->
  on (mkState pr a n m) (mkState (app_level pr h ht row) a n m).
Proof.
  intros [W P] L. pose proof (app_level_frame pr h ht row) as F. split; [split|split; auto]; cbn [st_prog].
  - apply app_level_wf; auto. intros s Hs. rewrite (P _ (stmt_of_in pr s Hs)). auto.
  - eapply frame_padded; eauto.
  - intros s. destruct (le_lt_dec (length (p_stmts pr)) s) as [G|G].
    + exists []. unfold stmt_of. rewrite !nth_overflow; auto. cbn. rewrite map_length, seq_length. auto.
    + rewrite app_level_stmt by auto. rewrite append_row_rows. eauto.
Qed.
Lemma on_flags pr a n m a' n' m' f : sound pr -> (forall d, same_dep d (f d)) ->
  on (mkState pr a n m) (mkState (set_deps pr (map f (p_deps pr))) a' n' m').
Proof.
  intros [W P] H. pose proof (set_deps_frame pr f H) as F. split; [split|split; auto]; cbn [st_prog].
  - apply set_deps_wf; auto. intros d' Hd. apply in_map_iff in Hd as (d & <- & Hd). eauto.
  - exact P.
  - apply grows_same. auto.
Qed.
Lemma on_compute_scc s : sound (st_prog s) -> on s (compute_scc s).
Proof.
  intros [W P]. destruct s as [pr a n m]. cbn [st_prog] in *. unfold compute_scc. cbn [st_prog st_adj].
  destruct (GraphModel.ddg_compute_scc _ _ _ _) as [scc num].
  fold (with_scc pr (fun i => nth i scc 0)). pose proof (with_scc_frame pr (fun i => nth i scc 0)) as F.
  split; [split|split; auto]; cbn [st_prog].
  - apply with_scc_wf; auto.
  - eapply frame_padded; eauto.
  - apply grows_same. apply with_scc_trans.
Qed.

Section Search.
Variables (is_emptyb isl_emptyb : cst -> bool) (kernel : matrix -> matrix) (solve : prog -> cst -> option point) (o : options).

Lemma on_update_graph pr a n m k : sound pr ->
  on (mkState pr a n m) (ddg_update (mkState (fst (dep_satisfaction_update is_emptyb pr k)) a n m)).
Proof. intros S. apply on_flags; auto. intros d. apply update_same. Qed.

Lemma on_scalar pr a n m f : sound pr -> on (mkState pr a n m) (mkState (add_scalar_level pr f) a n m).
Proof. intros S. rewrite scalar_level_app. apply on_app; auto. intros; apply const_row_length. Qed.

Lemma on_keep s f : sound (st_prog s) -> on s (fst (keep_if_useful is_emptyb s (add_scalar_level (st_prog s) f))).
Proof.
  intros S. destruct s as [pr a n m]. cbn [st_prog] in *. pose proof (on_scalar pr a n m f S) as O1.
  unfold keep_if_useful. cbn [st_adj st_num st_max].
  set (q := add_scalar_level pr f) in *. set (k := (nrows0 q - 1)%nat).
  pose proof (on_update_graph q a n m k (proj1 O1)) as O2.
  destruct (dep_satisfaction_update is_emptyb q k) as [pr2 c] eqn:E. cbn [fst] in O2.
  destruct (1 <=? c)%nat; cbn [fst]; [eapply on_trans; eauto|].
  unfold dep_satisfaction_update in E. injection E as <- <-. unfold q in *. rewrite scalar_level_app in *. set (z := app_level _ _ _ _) in *.
  change (p_deps z) with (p_deps pr).
  destruct (drop_app pr H_SCALAR (fun _ => H_SCALAR) (fun s => const_row pr (f (stmt_of pr s))) (update_dep is_emptyb z k) (proj1 S)) as (D1 & D2 & D3 & D4).
  { intros d; apply update_same. }
  fold z in D1, D2, D3, D4. split; [split|split; [exact D1|]]; cbn [st_prog].
  - split; [|exact (frame_deps_wf _ _ D1 (proj2 (proj1 S)))].
    intros st Hst. apply in_stmt_of in Hst as (s & Hs & <-). destruct D1 as (_ & F2 & F3 & F4 & _). rewrite F3 in Hs.
    destruct (proj1 (proj1 S) _ (stmt_of_in pr s Hs)) as (A1 & A2 & A3 & A4 & A5 & A6 & A7 & A8).
    destruct (F4 s) as (E1 & E2 & E3 & E4 & E5 & E6). destruct (D4 s) as (T1 & T2 & T3).
    unfold wf_stmt. rewrite E1, E3, E4, E5, E6, T1, T2, D2, F2. auto 10.
  - eapply frame_padded; [exact D1|apply S].
  - apply grows_same. intros s. apply D4.
Qed.

Lemma on_cut_between s i j : sound (st_prog s) -> on s (fst (cut_between_sccs is_emptyb s i j)).
Proof. intros S. unfold cut_between_sccs. destruct (negb _); [apply on_refl; auto|]. apply on_keep; auto. Qed.
Lemma on_cut_all s : sound (st_prog s) -> on s (fst (cut_all_sccs is_emptyb s)).
Proof.
  intros S. unfold cut_all_sccs. destruct (st_num s =? 1)%nat; [apply on_refl; auto|].
  destruct s as [pr a n m]. cbn [st_prog st_adj st_num st_max] in *. pose proof (on_scalar pr a n m s_scc S) as O1.
  pose proof (on_update_graph _ a n m (nrows0 (add_scalar_level pr s_scc) - 1) (proj1 O1)) as O2.
  destruct (dep_satisfaction_update is_emptyb _ _) as [pr2 c]. cbn [fst] in *. eapply on_trans; eauto.
Qed.
Lemma on_cut_dim s : sound (st_prog s) -> on s (fst (cut_scc_dim_based is_emptyb s)).
Proof. intros S. unfold cut_scc_dim_based. destruct (st_num s =? 1)%nat; [apply on_refl; auto|]. apply on_keep; auto. Qed.
Lemma on_far_smart l : forall s, sound (st_prog s) -> on s (cut_far_smart is_emptyb l s).
Proof.
  induction l as [|[i j] l IH]; intros s I; cbn [cut_far_smart]; [apply on_refl; auto|].
  destruct (_ <=? _)%nat; [|apply on_cut_all; auto].
  destruct (sccs_direct_connected _ _ _); [|apply IH; auto].
  eapply on_trans; [apply on_cut_between; auto|]. apply IH. apply on_cut_between; auto.
Qed.
Lemma on_cut_smart s : sound (st_prog s) -> on s (cut_smart is_emptyb s).
Proof.
  intros I. unfold cut_smart. destruct (_ =? _)%nat; [apply on_refl; auto|].
  destruct (transformations_full_ranked _); [apply on_cut_all; auto|].
  pose proof (on_cut_dim s I) as G1. destruct (cut_scc_dim_based is_emptyb s) as [s1 k1]. cbn [fst] in G1.
  destruct (1 <=? k1)%nat; auto.
  pose proof (on_cut_between s1 (half_up (st_num s1) - 1) (half_up (st_num s1)) (proj1 G1)) as G2.
  destruct (cut_between_sccs is_emptyb s1 _ _) as [s2 k2]. cbn [fst] in G2.
  destruct (1 <=? k2)%nat; [eapply on_trans; eauto|].
  eapply on_trans; [exact G1|]. eapply on_trans; [exact G2|]. apply on_far_smart. apply G2.
Qed.
Lemma on_far_conservative l : forall s, sound (st_prog s) -> on s (cut_far_conservative is_emptyb l s).
Proof.
  induction l as [|[i j] l IH]; intros s I; cbn [cut_far_conservative]; [apply on_refl; auto|].
  destruct (_ <=? _)%nat; [|apply on_cut_all; auto].
  pose proof (on_cut_between s (Z.of_nat i) (Z.of_nat j) I) as G.
  destruct (cut_between_sccs is_emptyb s _ _) as [s1 k]. cbn [fst] in G.
  destruct (1 <=? k)%nat; auto. eapply on_trans; [exact G|]. apply IH. apply G.
Qed.
Lemma on_cut_conservative s : sound (st_prog s) -> on s (cut_conservative is_emptyb s).
Proof.
  intros I. unfold cut_conservative.
  pose proof (on_cut_dim s I) as G1. destruct (cut_scc_dim_based is_emptyb s) as [s1 k1]. cbn [fst] in G1.
  destruct (1 <=? k1)%nat; auto.
  pose proof (on_cut_between s1 (half_up (st_num s1) - 1) (half_up (st_num s1)) (proj1 G1)) as G2.
  destruct (cut_between_sccs is_emptyb s1 _ _) as [s2 k2]. cbn [fst] in G2.
  destruct (1 <=? k2)%nat; [eapply on_trans; eauto|].
  eapply on_trans; [exact G1|]. eapply on_trans; [exact G2|]. apply on_far_conservative. apply G2.
Qed.

Lemma on_find mode base n : forall pr a k m, sound pr ->
  on (mkState pr a k m) (mkState (fst (find_hyperplanes isl_emptyb kernel solve o mode n base pr)) a k m).
Proof.
  induction n as [|n IH]; intros pr a k m S; cbn [find_hyperplanes]; [apply on_refl; auto|].
  destruct (if (_ =? 0)%nat then None else _) as [sol|]; [|apply on_refl; auto].
  rewrite hyperplane_app. set (pr1 := app_level _ _ _ _).
  assert (on (mkState pr a k m) (mkState pr1 a k m)) as O1 by (apply on_app; auto; intros; apply hyp_row_length).
  specialize (IH pr1 a k m (proj1 O1)). destruct (find_hyperplanes _ _ _ _ _ _ _ pr1) as [pr' c]. cbn [fst] in *. eapply on_trans; eauto.
Qed.

Lemma on_levels first n : forall s, sound (st_prog s) -> on s (update_levels is_emptyb first n s).
Proof.
  unfold update_levels. revert first. induction n as [|n IH]; intros first s S; cbn [seq fold_left]; [apply on_refl; auto|].
  destruct s as [pr a k m]. cbn [st_prog st_adj st_num st_max] in *.
  pose proof (on_update_graph pr a k m first S) as O1. eapply on_trans; [exact O1|]. apply IH. apply O1.
Qed.

Lemma on_precise pr a n m : sound pr ->
  on (mkState pr a n m) (mkState (compute_dep_satisfaction_precise is_emptyb pr) a n m).
Proof. intros S. apply on_flags; auto. intros; apply precise_same. Qed.

Definition out_on (s : dstate) (r : outcome) : Prop := match r with Continue s' _ => on s s' | Failed s' => on s s' end.
Lemma on_round fuse depth mode s0 : sound (st_prog s0) -> out_on s0 (round is_emptyb isl_emptyb kernel solve o fuse depth mode s0).
Proof.
  intros I0. unfold round.
  set (s := match fuse with NoFuse => fst (cut_all_sccs is_emptyb (compute_scc s0)) | _ => s0 end).
  assert (on s0 s) as G0.
  { unfold s. destruct fuse; try apply on_refl; auto. pose proof (on_compute_scc s0 I0) as A.
    eapply on_trans; [exact A|]. apply on_cut_all. apply A. }
  clearbody s. destruct s as [pr a k m]. cbn [st_prog st_adj st_num st_max].
  pose proof (on_find mode (cst_add (get_permutability_constraints o (fun _ => false) pr) (get_coeff_bounding_constraints o pr)) (num_sols_left pr) pr a k m (proj1 G0)) as FP.
  fold (find_permutable_hyperplanes isl_emptyb kernel solve o mode (num_sols_left pr) pr) in FP.
  destruct (find_permutable_hyperplanes _ _ _ _ _ _ _) as [pr1 nsols]. cbn [fst] in FP.
  assert (on s0 (mkState pr1 a k m)) as G1 by (eapply on_trans; eauto).
  set (r := if (1 <=? nsols)%nat then _ else _).
  assert (out_on s0 r) as R.
  { unfold r. destruct (1 <=? nsols)%nat.
    - cbn. eapply on_trans; [exact G1|]. apply on_levels. apply G1.
    - pose proof (on_compute_scc (mkState pr1 a k m) (proj1 G1)) as F2. set (s2 := compute_scc _) in *.
      assert (on s0 s2) as G2 by (eapply on_trans; eauto).
      destruct (1 <=? _)%nat.
      + cbn. eapply on_trans; [exact G2|]. pose proof (proj1 G2) as S2. destruct fuse.
        * apply on_cut_all; auto.
        * apply on_cut_smart; auto.
        * destruct (_ <=? depth)%nat; [apply on_cut_all; auto|apply on_cut_conservative; auto].
      + destruct mode; [exact G2|]. destruct (negb _); exact G2. }
  clearbody r. destruct r as [s' mode'|s']; auto. cbn in *. destruct mode'; auto.
  destruct s' as [pr' a' k' m']. cbn [st_prog st_adj st_num st_max].
  eapply on_trans; [exact R|]. apply on_precise. apply R.
Qed.

Lemma on_drive fuse fuel : forall depth mode s r, sound (st_prog s) ->
  drive is_emptyb isl_emptyb kernel solve o fuse fuel depth mode s = Some r -> out_on s r.
Proof.
  induction fuel as [|fuel IH]; intros depth mode s r I E; cbn [drive] in E; [discriminate|].
  pose proof (on_round fuse depth mode s I) as R.
  destruct (round _ _ _ _ _ _ _ _ _) as [s' mode'|s'].
  - destruct (transformations_full_ranked (st_prog s') && deps_satisfaction_check (st_prog s')).
    + injection E as <-. auto.
    + cbn in R. apply IH in E; [|apply R]. destruct r; cbn in *; eapply on_trans; eauto.
  - injection E as <-. auto.
Qed.
End Search.

(** ** The level of the groups *)

Definition gval (gs : list (list nat)) (s : nat) : Z :=
  fold_left (fun v ig => if existsb (Nat.eqb s) (snd ig) then Z.of_nat (fst ig) else v) (combine (seq 0 (length gs)) gs) 0.

Lemma map_nth_map_seq {B} (G : nat -> B) F n id :
  map_nth id F (map G (seq 0 n)) = map (fun s => if (s =? id)%nat then F (G s) else G s) (seq 0 n).
Proof.
  assert (forall a, map_nth id F (map G (seq a n)) = map (fun s => if (s =? a + id)%nat then F (G s) else G s) (seq a n)) as K; [|apply (K 0%nat)].
  revert id. induction n as [|n IH]; intros id a; cbn [seq map].
  - destruct id; reflexivity.
  - destruct id as [|id].
    + rewrite Nat.add_0_r, Nat.eqb_refl. cbn. f_equal. apply map_ext_in. intros s Hs. apply in_seq in Hs. destruct (Nat.eqb_spec s a); auto. lia.
    + rewrite map_nth_S, IH. destruct (Nat.eqb_spec a (a + S id)); [lia|]. f_equal. apply map_ext. intros s. rewrite <- plus_n_Sm. auto.
Qed.

Section Level.
Variable pr : prog.
Hypothesis SO : sound pr.
Let nv := p_nvar pr.
Let np := p_npar pr.
Let G (f : nat -> Z) (s : nat) : stmt := append_row (stmt_of pr s) H_SCALAR (const_row pr (f s)).
Let n := length (p_stmts pr).

Lemma force_one f s v : force_stmt nv np v (G f s) = append_row (stmt_of pr s) H_SCALAR (const_row pr v).
Proof.
  unfold force_stmt, G. rewrite append_row_ncols. unfold mnrows. rewrite append_row_rows, app_length. cbn [length]. rewrite Nat.add_sub.
  rewrite map_nth_end by auto. unfold force_row, const_row. fold nv np.
  rewrite skipn_all2 by (rewrite app_length, repeat_length; cbn; lia).
  assert (forall r, append_row (stmt_of pr s) H_SCALAR r = set_trans (stmt_add_hyperplane (stmt_of pr s) H_SCALAR (mnrows (s_trans (stmt_of pr s))))
    (mkMat (mncols (s_trans (stmt_of pr s))) (mrows (s_trans (stmt_of pr s)) ++ [r]))) as E.
  { intros r. unfold append_row. cbn [stmt_add_hyperplane s_trans matrix_add_row mncols mrows]. f_equal. f_equal. unfold mnrows.
    rewrite insert_at_end by auto. rewrite map_nth_end by auto. auto. }
  rewrite !E. reflexivity.
Qed.

Lemma force_ids ids : forall f v,
  fold_left (fun ss id => map_nth id (force_stmt nv np v) ss) ids (map (G f) (seq 0 n)) =
  map (G (fun s => if existsb (Nat.eqb s) ids then v else f s)) (seq 0 n).
Proof.
  induction ids as [|id ids IH]; intros f v; cbn [fold_left existsb]; [reflexivity|].
  rewrite map_nth_map_seq. rewrite (map_ext _ (G (fun s => if (s =? id)%nat then v else f s))).
  - rewrite IH. apply map_ext. intros s. unfold G. do 2 f_equal. destruct (Nat.eqb_spec s id), (existsb _ ids); auto.
  - intros s. destruct (Nat.eqb_spec s id) as [->|N].
    + rewrite force_one. unfold G. rewrite Nat.eqb_refl. auto.
    + unfold G. destruct (Nat.eqb_spec s id); [lia|]. auto.
Qed.

Lemma force_all l : forall f,
  fold_left (fun ss ig => fold_left (fun ss id => map_nth id (force_stmt nv np (Z.of_nat (fst ig))) ss) (snd ig) ss) l (map (G f) (seq 0 n)) =
  map (G (fun s => fold_left (fun v ig => if existsb (Nat.eqb s) (snd ig) then Z.of_nat (fst ig) else v) l (f s))) (seq 0 n).
Proof.
  induction l as [|[i ids] l IH]; intros f; cbn [fold_left fst snd]; [reflexivity|]. rewrite force_ids, IH. reflexivity.
Qed.

Lemma force_level_app gs : force_level gs pr = app_level pr H_SCALAR (fun _ => H_SCALAR) (fun s => const_row pr (gval gs s)).
Proof.
  unfold force_level, app_level, prog_add_hyperplane, set_stmts, set_hprops. cbn [p_nvar p_npar p_deps p_hprops p_stmts].
  f_equal; [|apply insert_at_end; auto]. unfold force_groups. fold nv np.
  assert (map (fun st => stmt_add_hyperplane st H_SCALAR (mnrows (s_trans st))) (p_stmts pr) = map (G (fun _ => 0)) (seq 0 n)) as ->.
  { rewrite map_stmts_seq. apply map_ext_in. intros s Hs. apply in_seq in Hs. unfold G, append_row.
    destruct (proj1 (proj1 SO) _ (stmt_of_in pr s ltac:(lia))) as (_ & NC & _).
    assert (mncols (s_trans (stmt_of pr s)) = (nv + np + 1)%nat) as NC'.
    { rewrite NC. rewrite (proj2 SO _ (stmt_of_in pr s ltac:(lia))). reflexivity. }
    unfold stmt_add_hyperplane at 1. unfold set_trans. cbn [stmt_add_hyperplane s_dim s_dim_orig s_orig s_domain s_hyp s_scc s_cc s_reads s_writes s_evict s_num_tiled s_ftd s_ltd s_trans].
    f_equal. unfold matrix_add_row. cbn [mncols mrows]. unfold mnrows. f_equal. rewrite insert_at_end by auto. rewrite map_nth_end by auto.
    f_equal. f_equal. rewrite NC'. unfold const_row. fold nv np. rewrite repeat_snoc. f_equal. lia. }
  rewrite force_all. apply map_ext. intros s. reflexivity.
Qed.
End Level.

(** ** Reading .fst *)

Lemma read_ids_text n ids rest : (forall s, In s ids -> (s < n)%nat) ->
  read_ids n (length ids) (map Z.of_nat ids ++ rest) = Some (ids, rest).
Proof.
  induction ids as [|a ids IH]; intros H; cbn [length map app read_ids]; [reflexivity|].
  assert (a < n)%nat by (apply H; simpl; auto).
  destruct (Z.leb_spec (Z.of_nat a) (Z.of_nat n - 1)); [|lia]. destruct (Z.leb_spec 0 (Z.of_nat a)); [|lia]. cbn [andb].
  rewrite IH by (intros; apply H; simpl; auto). rewrite Nat2Z.id. auto.
Qed.
Lemma read_groups_text n gs rest : (forall g, In g gs -> (length (fst g) <= n)%nat /\ forall s, In s (fst g) -> (s < n)%nat) ->
  read_groups n (length gs) (flat_map (fun g => Z.of_nat (length (fst g)) :: map Z.of_nat (fst g) ++ [snd g]) gs ++ rest) = Some (map fst gs).
Proof.
  induction gs as [|[ids v] gs IH]; intros H; cbn [length flat_map map fst snd read_groups]; [reflexivity|].
  destruct (H (ids, v)) as [H1 H2]; [simpl; auto|]. cbn [fst] in H1, H2. cbn [app].
  destruct (Z.leb_spec (Z.of_nat (length ids)) (Z.of_nat n)); [|lia]. rewrite Nat2Z.id. rewrite <- !app_assoc.
  rewrite read_ids_text by auto. cbn [app]. rewrite IH by (intros; apply H; simpl; auto). auto.
Qed.
Lemma read_fst_text n gs rest : (length gs <= n)%nat -> (forall g, In g gs -> (length (fst g) <= n)%nat /\ forall s, In s (fst g) -> (s < n)%nat) ->
  read_fst n (fst_text gs ++ rest) = Some (Some (map fst gs)).
Proof.
  intros L H. unfold read_fst, fst_text. cbn [app]. rewrite Z.gtb_ltb. destruct (Z.ltb_spec (Z.of_nat n) (Z.of_nat (length gs))); [lia|].
  rewrite Nat2Z.id, read_groups_text; auto.
Qed.

Lemma groups_fit n gs : groups_of n gs ->
  (length gs <= n)%nat /\ (forall g, In g gs -> (length (fst g) <= n)%nat /\ forall s, In s (fst g) -> (s < n)%nat).
Proof.
  intros (NE & ND & AL).
  assert (length (concat (map fst gs)) <= n)%nat as LC.
  { rewrite <- (seq_length n 0). apply NoDup_incl_length; auto. intros s Hs. apply in_seq. apply AL in Hs. lia. }
  split.
  - clear ND AL. enough (length gs <= length (concat (map fst gs)))%nat by lia. clear LC. induction gs as [|g gs IH]; cbn [map concat length]; [lia|].
    rewrite app_length. assert (fst g <> []) by (apply NE; simpl; auto). assert (forall x, In x gs -> fst x <> []) as NE' by (intros; apply NE; simpl; auto).
    specialize (IH NE'). destruct (fst g); [congruence|]. cbn. lia.
  - intros g Hg. apply in_split in Hg as (a & b & ->). rewrite map_app, concat_app in *. cbn [map concat] in *. split.
    + rewrite !app_length in LC. lia.
    + intros s Hs. apply AL. apply in_or_app. right. apply in_or_app. auto.
Qed.

Lemma nodup_disjoint {A} (l l' : list A) x : NoDup (l ++ l') -> In x l -> ~ In x l'.
Proof.
  induction l as [|a l IH]; intros ND H; [destruct H|]. cbn in ND. inversion ND as [|? ? N1 N2]; subst. destruct H as [->|H]; auto.
  intros H'. apply N1. apply in_or_app. auto.
Qed.
Lemma nodup_right {A} (l l' : list A) : NoDup (l ++ l') -> NoDup l'.
Proof. induction l as [|a l IH]; cbn; auto. intros ND. inversion ND; auto. Qed.
Lemma existsb_in s l : existsb (Nat.eqb s) l = true <-> In s l.
Proof.
  rewrite existsb_exists. split; [intros (x & H & E); apply Nat.eqb_eq in E; congruence|]. intros H. exists s. rewrite Nat.eqb_refl. auto.
Qed.

Lemma gval_group (gs : list (list nat * Z)) s g : NoDup (concat (map fst gs)) -> in_group gs s g -> gval (map fst gs) s = Z.of_nat g.
Proof.
  intros ND (Hg & Hs). unfold gval. rewrite map_length. set (F := fun v ig => if existsb (Nat.eqb s) (snd ig) then Z.of_nat (fst ig) else v).
  assert (forall l a v, ~ In s (concat l) -> fold_left F (combine (seq a (length l)) l) v = v) as K0.
  { induction l as [|x l IH]; intros a v N; cbn [length seq combine fold_left]; [reflexivity|]. cbn [concat] in N. rewrite IH by (intros H; apply N; apply in_or_app; auto).
    unfold F. cbn [fst snd]. destruct (existsb (Nat.eqb s) x) eqn:E; auto. exfalso. apply N. apply in_or_app. left. apply existsb_in. auto. }
  enough (forall a v, fold_left F (combine (seq a (length gs)) (map fst gs)) v = Z.of_nat (a + g)) as K by (rewrite K; auto).
  revert g Hg Hs. induction gs as [|x gs IH]; intros g Hg Hs a v; cbn [length] in Hg; [lia|].
  cbn [map length seq combine fold_left concat] in *.
  destruct g as [|g]; cbn [nth] in Hs.
  - rewrite <- (map_length fst gs). rewrite K0 by (eapply nodup_disjoint; eauto). unfold F. cbn [fst snd].
    rewrite (proj2 (existsb_in s (fst x)) Hs). f_equal. lia.
  - rewrite (IH (nodup_right _ _ ND) g ltac:(lia) Hs). f_equal. lia.
Qed.
