(** * The driver with diamond tiling. *)
From Coq Require Import ZArith QArith List Bool Lia Arith Sorted.
From Verif Require Import SpecLinear SpecMatrix MathModel ConstraintsModel VecProofs EditProofs FarkasProofs SumProofs RankProofs MatrixProofs SpecProg SpecTile SpecLoop SpecDriver SpecGraph GraphModel FrameworkModel
  FrameworkProofs HypProofs ProgModel SimplifyProofs DepProofs ProgProofs DriverModel DriverProofs GrowProofs TileModel TileProofs IssProofs LoopModel LoopProofs LoopProofs2 LoopProofs3 LoopProofs4 DiamondModel DiamondProofs IntraModel SpecCone ConeModel ConeProofs ConeProofs2 ConeProofs3.
Import ListNotations.
Open Scope Z_scope.

(** ** Evictions *)
Lemma evict_band_rows h pos l q ps q' ps' : NoDup l -> evict_band (q, ps) l pos (map h l) = Some (q', ps') ->
  frame q q' /\ p_hprops q' = p_hprops q /\ p_deps q' = p_deps q /\
  forall s k i p, theta (stmt_of q' s) k i p = (if in_dec Nat.eq_dec s l then if (k =? pos)%nat then aff (h s) (i ++ p) else theta (stmt_of q s) k i p else theta (stmt_of q s) k i p).
Proof.
  intros ND E. apply evict_band_map in E as (A1 & A2 & A3 & A4 & A5 & A6 & A7 & A8); auto.
  split; [|split; [auto|split; [auto|]]].
  - split; [auto|]. split; [auto|]. split; [auto|]. split; [|rewrite A3; apply Forall2_same_refl].
    intros s. destruct (in_dec Nat.eq_dec s l) as [Hs|Hs].
    + destruct (A7 s Hs) as [X _]. apply evict_same in X. tauto.
    + destruct (A8 s Hs) as [-> _]. apply same_stmt_refl.
  - intros s k i p. destruct (in_dec Nat.eq_dec s l) as [Hs|Hs]; [|destruct (A8 s Hs) as [-> _]; auto].
    destruct (A7 s Hs) as [X _]. apply evict_stmt_some in X as (_ & X1 & X2). rewrite X2. unfold theta. cbn [s_trans set_evict set_trans mrows].
    destruct (Nat.eqb_spec k pos) as [->|N]; [rewrite nth_set_nth_eq; auto|]. rewrite nth_set_nth_neq; auto.
Qed.

Definition evictions_for (pr : prog) (d : dep) (e : list nat * nat * list (list Z)) : Prop :=
  exists h, NoDup (fst (fst e)) /\ snd e = map h (fst (fst e)) /\
    ((In (d_src d) (fst (fst e)) <-> In (d_dst d) (fst (fst e))) -> In (d_src d) (fst (fst e)) -> hyps_weak pr h d).
Definition evicts_from (K : nat) (e : list nat * nat * list (list Z)) : Prop :=
  exists h : nat -> list Z, NoDup (fst (fst e)) /\ snd e = map h (fst (fst e)) /\ (K <= snd (fst e))%nat.

Lemma evict_bands_weak pr d es : Forall (evictions_for pr d) es -> (forall e, In e es -> (In (d_src d) (fst (fst e)) <-> In (d_dst d) (fst (fst e)))) ->
  forall q ps q' ps', frame pr q -> evict_bands (q, ps) es = Some (q', ps') -> weak_all q d -> weak_all q' d.
Proof.
  induction 1 as [|[[l pos] hs] es (h & ND & E1 & E3) _ IH]; intros CL q ps q' ps' F H WA; cbn [evict_bands fst snd] in *.
  - injection H as <- <-. auto.
  - destruct (evict_band (q, ps) l pos hs) as [[q1 ps1]|] eqn:EB; [|discriminate]. subst hs.
    destruct (evict_band_rows _ _ _ _ _ _ _ ND EB) as (F1 & HP & _ & TH).
    apply (IH (fun e He => CL e (or_intror He)) q1 ps1 q' ps'); [eapply frame_trans; eauto|auto|].
    intros k Hk s t p I. rewrite HP in Hk. apply (frame_instance q q1 d d) in I; auto using DepProofs.same_dep_refl.
    specialize (WA k Hk s t p I). specialize (CL (l, pos, map h l) (or_introl eq_refl)). cbn [fst snd] in CL. specialize (E3 CL).
    unfold distance in *. rewrite !TH.
    destruct (in_dec Nat.eq_dec (d_dst d) l) as [I1|I1], (in_dec Nat.eq_dec (d_src d) l) as [I2|I2]; try (exfalso; tauto); auto.
    destruct (Nat.eqb_spec k pos); auto. apply (frame_instance pr q d d) in I; auto using DepProofs.same_dep_refl.
    specialize (E3 I2 s t p I). lia.
Qed.

Lemma evict_bands_ordered K d es L : Forall (evicts_from K) es -> (L < K)%nat ->
  forall q ps q' ps', evict_bands (q, ps) es = Some (q', ps') -> ordered_at q d L -> ordered_at q' d L.
Proof.
  intros Fa HL. induction Fa as [|[[l pos] hs] es (h & ND & E1 & E2) _ IH]; intros q ps q' ps' H OA; cbn [evict_bands fst snd] in *.
  - injection H as <- <-. auto.
  - destruct (evict_band (q, ps) l pos hs) as [[q1 ps1]|] eqn:EB; [|discriminate]. subst hs.
    destruct (evict_band_rows _ _ _ _ _ _ _ ND EB) as (F1 & HP & _ & TH). apply (IH q1 ps1 q' ps'); auto.
    destruct OA as (O1 & O2 & O3).
    assert (forall j s t p, (j < K)%nat -> distance q1 d j s t p = distance q d j s t p) as DE.
    { intros j s t p Hj. unfold distance. rewrite !TH. rewrite (proj2 (Nat.eqb_neq j pos)) by lia.
      destruct (in_dec Nat.eq_dec (d_dst d) l), (in_dec Nat.eq_dec (d_src d) l); auto. }
    split; [congruence|]. split.
    + intros s t p I. rewrite DE by auto. apply O2. apply (frame_instance q q1 d d) in I; auto using DepProofs.same_dep_refl.
    + intros j Hj s t p I. rewrite DE by lia. apply O3; auto. apply (frame_instance q q1 d d) in I; auto using DepProofs.same_dep_refl.
Qed.

(** ** Recomputing the flags keeps the invariant *)
Lemma recompute_inv f md pr a k m : exact_empty f -> inv md (mkState pr a k m) ->
  inv md (mkState (recompute f pr) a k m) /\ frame pr (recompute f pr).
Proof.
  intros EX I. destruct (recompute_same f pr) as (R1 & R2 & R3 & R4 & R5).
  assert (forall s, stmt_of (recompute f pr) s = stmt_of pr s) as SO by (intros s; unfold stmt_of; rewrite R1; auto).
  assert (frame pr (recompute f pr)) as F.
  { split; [auto|]. split; [auto|]. split; [congruence|]. split; auto. intros s. rewrite SO. apply same_stmt_refl. }
  split; auto. destruct I as [I1 I2 I3 I4 I5 I6 I7]. cbn [st_prog st_adj st_num st_max] in *.
  constructor; cbn [st_prog st_adj st_num st_max].
  - split; [|exact (frame_deps_wf _ _ F (proj2 I1))]. intros st Hst. rewrite R1 in Hst. unfold wf_stmt. rewrite R3, R4. apply I1. auto.
  - eapply frame_padded; eauto.
  - eapply frame_orig_first; eauto.
  - rewrite R1. auto.
  - intros u Hu. unfold scc_of. rewrite SO. rewrite R1 in Hu. apply I5; auto.
  - auto.
  - intros d' Hd' Hr. destruct (Forall2_in_r _ _ _ d' R5 Hd') as (d & Hd & SD). pose proof SD as (D1 & D2 & D3 & _).
    assert (d_rar d = false) as Hr0 by congruence. destruct (I7 d Hd Hr0) as [_ B]. cbn [st_prog st_adj] in B.
    assert (forall s, s_trans (stmt_of (recompute f pr) s) = s_trans (stmt_of pr s)) as T by (intros s; rewrite SO; auto).
    assert (ord md (recompute f pr) d' <-> ord md pr d) as EO by (symmetry; apply ord_frame; auto).
    assert (weak_all (recompute f pr) d' <-> weak_all pr d) as EW by (symmetry; apply weak_all_frame; auto).
    assert (wf_prog (recompute f pr)) as W'.
    { split; [|exact (frame_deps_wf _ _ F (proj2 I1))]. intros st Hst. rewrite R1 in Hst. unfold wf_stmt. rewrite R3, R4. apply I1. auto. }
    split; cbn [st_prog st_adj].
    + intros Sa. destruct B as [B|(Wk & _)]; [apply EO; auto|].
      destruct (computed_info f EX pr d' (wf_prog_levels _ I1) Hd' Hr) as ([(_ & j & _ & J1 & J2 & _)|(X & _)] & _); [|congruence].
      assert (ordered_at (recompute f pr) d' j) as OA.
      { split; [exact J1|]. split; [exact J2|]. intros i Hi. apply EW in Wk. apply Wk. change (j < length (p_hprops (recompute f pr)))%nat in J1. lia. }
      destruct md; [exists j; auto|]. apply (ordered_at_respected _ _ j); auto. apply W'; auto.
    + rewrite D1, D2. unfold scc_of. rewrite !SO. destruct B as [B|(Wk & E & S)]; [left; apply EO; auto|right; split; [apply EW; auto|auto]].
Qed.

Lemma diamond_bands_none solve lexmin o full base bands : forall a en a' en',
  diamond_bands solve lexmin o full base bands a en = Some (a', en') -> (en = true -> en' = true) /\ (en' = false -> a' = a).
Proof.
  induction bands as [|b bands IH]; intros a en a' en' H; cbn [diamond_bands] in H.
  - injection H as <- <-. auto.
  - destruct (diamond_band _ _ _ _ _ _ _) as [[pos hs]|]; [|apply (IH _ _ _ _ H)].
    destruct (evict_band _ _ _ _) as [a1|]; [|discriminate]. destruct (IH _ _ _ _ H) as [A B]. split; auto.
    intros E. rewrite A in E by auto. discriminate.
Qed.

Lemma not_found f solve lexmin o full pr pos pr2 pos2 : pluto_diamond_tile f solve lexmin o full pr pos = Some (pr2, pos2, false) ->
  pr2 = recompute f pr /\ pos2 = pos.
Proof.
  unfold pluto_diamond_tile. destruct (get_outermost_permutable_bands _) as [bands|]; [|discriminate].
  destruct (diamond_bands _ _ _ _ _ _ _ _) as [[[q ps] en]|] eqn:D; [|discriminate]. intros H. injection H as H1 H2 H3. subst en ps.
  apply diamond_bands_none in D as [_ D]. specialize (D eq_refl). injection D as -> ->. auto.
Qed.

(** ** The round that changes rows *)
Lemma const_theta pr s k i p : wf_prog pr -> padded pr -> (s < length (p_stmts pr))%nat -> (k < length (p_hprops pr))%nat ->
  (forall j, (j < p_nvar pr + p_npar pr)%nat -> nth j (nth k (mrows (s_trans (stmt_of pr s))) []) 0 = 0) ->
  length i = p_nvar pr -> length p = p_npar pr -> theta (stmt_of pr s) k i p = row_const (stmt_of pr s) k.
Proof.
  intros W P Hs Hk Z Li Lp. pose proof (stmt_of_in pr s Hs) as Hin. destruct (proj1 W _ Hin) as (A1 & A2 & A3 & A4 & _). unfold mnrows in A4.
  set (r := nth k (mrows (s_trans (stmt_of pr s))) []) in *.
  assert (length r = (p_nvar pr + p_npar pr + 1)%nat) as L by (unfold r; rewrite <- A4 in Hk; rewrite (A3 _ (nth_In _ _ Hk)), A2, (P _ Hin); auto).
  unfold theta, row_const, mget. fold r. rewrite A2, (P _ Hin).
  assert (r = const_row pr (nth (p_nvar pr + p_npar pr) r 0)) as E.
  { apply (list_ext_nth 0); [rewrite const_row_length; auto|]. intros j Hj. rewrite L in Hj. destruct (Nat.eq_dec j (p_nvar pr + p_npar pr)) as [->|N].
    - unfold const_row. rewrite app_nth2 by (rewrite repeat_length; lia). rewrite repeat_length, Nat.sub_diag. reflexivity.
    - rewrite Z, const_row_nth by lia. auto. }
  rewrite E at 1. rewrite const_row_aff by auto. f_equal. lia.
Qed.

Section Round.
Variables (is_emptyb isl_emptyb : cst -> bool) (kernel : matrix -> matrix) (solve : prog -> cst -> option point) (lexmin : cst -> option point) (o : options) (full : bool).
Hypothesis EX : exact_empty is_emptyb.
Hypothesis SOL : solver_sound solve.
Hypothesis LM : lexmin_ok lexmin.

Lemma sols_left_nvar pr : orig_first pr -> (num_sols_left pr <= p_nvar pr)%nat.
Proof.
  intros O. unfold num_sols_left.
  assert (forall l m, (forall st, In st l -> In st (p_stmts pr)) -> (m <= p_nvar pr)%nat ->
    (fold_left (fun m st => Nat.max m (s_dim_orig st - num_ind_hyps st)) l m <= p_nvar pr)%nat) as G; [|apply G; auto; lia].
  induction l as [|st l IH]; intros m I Hm; cbn [fold_left]; auto. apply IH; [intros; apply I; simpl; auto|].
  destruct (O st (I st (or_introl eq_refl))). lia.
Qed.

Lemma found_good pr a k m pr1 nsols pos pr2 pos2 : inv EAGER (mkState pr a k m) -> constant_levels pr ->
  (forall s, (s < length (p_stmts pr))%nat -> (1 <= s_dim_orig (stmt_of pr s))%nat) ->
  find_permutable_hyperplanes isl_emptyb kernel solve o EAGER (num_sols_left pr) pr = (pr1, nsols) -> (2 <= nsols)%nat ->
  pluto_diamond_tile is_emptyb solve lexmin o full pr1 pos = Some (pr2, pos2, true) ->
  inv EAGER (mkState pr2 a k m) /\ frame pr pr2 /\ p_hprops pr2 = p_hprops pr1.
Proof.
  intros I CL DM FH NS PD. destruct I as [W P O GR SC MX DI]. cbn [st_prog st_adj st_num st_max] in *.
  assert (grown o true pr pr1 nsols /\ (nsols <= num_sols_left pr)%nat) as [G NL].
  { unfold find_permutable_hyperplanes in FH.
    pose proof (find_grown isl_emptyb kernel solve o SOL EAGER pr (num_sols_left pr) pr W P O (frame_refl pr) eq_refl W P) as H. cbv zeta in H.
    rewrite FH in H. auto. }
  pose proof (sols_left_nvar pr O) as NV.
  destruct (grown_facts _ _ _ _ _ G W P) as (W1 & F1 & DP & HL & SCC & ROWS).
  pose proof (frame_padded _ _ F1 P) as P1. pose proof (frame_orig_first _ _ F1 O) as O1.
  assert (padding_free pr1) as RP.
  { apply (grown_pad _ _ _ _ _ G W P). intros s j0 j Hs Hj _. destruct (Nat.lt_ge_cases j0 (length (p_hprops pr))) as [L|L]; [apply CL; auto; lia|].
    rewrite (nth_overflow (mrows (s_trans (stmt_of pr s)))); [destruct j; auto|]. rewrite <- (wf_nrows pr s W Hs) in L. auto. }
  assert (length (p_stmts pr1) = length (p_stmts pr)) as N1 by apply F1.
  assert (p_nvar pr1 = p_nvar pr) as V1 by apply F1. assert (p_npar pr1 = p_npar pr) as Q1 by apply F1.
  set (K := length (p_hprops pr)) in *. set (n := length (p_stmts pr1)) in *.
  assert (forall s j0 j, (s < n)%nat -> (j0 < K)%nat -> (j < p_nvar pr1 + p_npar pr1)%nat -> nth j (nth j0 (mrows (s_trans (stmt_of pr1 s))) []) 0 = 0) as CZ.
  { intros s j0 j Hs Hk Hj. rewrite ROWS by lia. apply CL; lia. }
  assert (forall s, (s < n)%nat -> s_dim (stmt_of pr1 s) = p_nvar pr1) as SD by (intros s Hs; apply P1, stmt_of_in; auto).
  assert (forall s j0, (s < n)%nat -> (j0 < K)%nat -> is_hyperplane_loop (stmt_of pr1 s) j0 = false) as C0.
  { intros s j0 Hs Hk. unfold is_hyperplane_loop. apply negb_false_iff. apply scalar_iff. rewrite SD by auto. intros j Hj. apply CZ; auto. lia. }
  assert (forall s, (s < n)%nat -> is_hyperplane_loop (stmt_of pr1 s) K = true) as C1.
  { intros s Hs. destruct nsols as [|c]; [lia|].
    destruct (grown_first o true pr pr1 c s eq_refl G W P ltac:(lia)) as (j & Hj & Nz).
    { apply constant_needs; auto; [lia|apply DM; lia]. }
    unfold is_hyperplane_loop. apply negb_true_iff. destruct (is_hyperplane_scalar (stmt_of pr1 s) K) eqn:E; auto. exfalso. apply Nz.
    rewrite scalar_iff in E. apply E. rewrite SD by auto. lia. }
  assert (forall d s t p, In d (p_deps pr1) -> instance pr1 d s t p -> forall j0, (j0 < K)%nat ->
    distance pr1 d j0 s t p = row_const (stmt_of pr1 (d_dst d)) j0 - row_const (stmt_of pr1 (d_src d)) j0) as DC.
  { intros d s t p Hd (L1 & L2 & L3 & _) j0 Hk. destruct (proj2 W1 d Hd) as (D1 & D2 & _). fold n in D1, D2. rewrite SD in L1, L2 by auto.
    unfold distance. rewrite !const_theta; auto; try lia; intros j Hj; apply CZ; auto. }
  assert (forall d, In d (p_deps pr1) -> d_rar d = false ->
    (exists L, (L < K)%nat /\ ordered_at pr1 d L) \/
    (weak_all pr1 d /\ edge a (d_src d) (d_dst d) /\ scc_of pr (d_src d) <= scc_of pr (d_dst d) /\ d_sat d = false /\
     forall j0, (j0 < K)%nat -> row_const (stmt_of pr1 (d_src d)) j0 = row_const (stmt_of pr1 (d_dst d)) j0)) as DEPS.
  { intros d Hd Hr. pose proof Hd as Hd0. rewrite DP in Hd0. destruct (proj2 W d Hd0) as (D1 & D2 & _).
    assert (forall j0 s t p, (j0 < K)%nat -> distance pr1 d j0 s t p = distance pr d j0 s t p) as DE.
    { intros j0 s t p Hk. unfold distance, theta. rewrite !ROWS by auto. auto. }
    assert (ord EAGER pr d -> exists L, (L < K)%nat /\ ordered_at pr1 d L) as OO.
    { intros (L & O1' & O2' & O3'). exists L. split; auto. split; [lia|]. split.
      - intros s t p In'. rewrite DE by auto. apply O2'. apply (frame_instance pr pr1 d d) in In'; auto using DepProofs.same_dep_refl.
      - intros j0 Hj s t p In'. rewrite DE by (fold K in O1'; lia). apply O3'; auto. apply (frame_instance pr pr1 d d) in In'; auto using DepProofs.same_dep_refl. }
    destruct (DI d Hd0 Hr) as [A B]. cbn [st_prog st_adj] in A, B.
    destruct (d_sat d) eqn:Sa; [left; apply OO; auto|]. destruct B as [B|(B1 & B2 & B3)]; [left; auto|].
    pose proof (grown_weak _ _ _ _ _ d G W P Hd0 Hr Sa B1) as WA.
    destruct (forallb (fun j0 => row_const (stmt_of pr1 (d_src d)) j0 =? row_const (stmt_of pr1 (d_dst d)) j0) (seq 0 K)) eqn:FB.
    - right. split; auto. split; auto. split; auto. split; auto. intros j0 Hk. rewrite forallb_forall in FB. apply Z.eqb_eq, FB, in_seq. lia.
    - left. assert (exists j0, (j0 < K)%nat /\ row_const (stmt_of pr1 (d_src d)) j0 <> row_const (stmt_of pr1 (d_dst d)) j0) as (j0 & Hk & Ne).
      { destruct (existsb (fun j0 => negb (row_const (stmt_of pr1 (d_src d)) j0 =? row_const (stmt_of pr1 (d_dst d)) j0)) (seq 0 K)) eqn:E.
        - apply existsb_exists in E as (j0 & Hj & E). apply in_seq in Hj. exists j0. split; [lia|]. apply negb_true_iff, Z.eqb_neq in E. auto.
        - exfalso. assert (forallb (fun j0 => row_const (stmt_of pr1 (d_src d)) j0 =? row_const (stmt_of pr1 (d_dst d)) j0) (seq 0 K) = true); [|congruence].
          apply forallb_forall. intros x Hx. destruct (_ =? _) eqn:Q; auto. exfalso.
          assert (existsb (fun j0 => negb (row_const (stmt_of pr1 (d_src d)) j0 =? row_const (stmt_of pr1 (d_dst d)) j0)) (seq 0 K) = true); [|congruence].
          apply existsb_exists. exists x. rewrite Q. auto. }
      exists j0. split; auto. split; [lia|]. split.
      + intros s t p In'. pose proof (WA j0 ltac:(lia) s t p In') as X. rewrite DC in X |- * by auto. lia.
      + intros i Hi. apply WA. lia. }
  assert (forall s t, In t (class pr1 (seq 0 n) 0 K s) -> (t < n)%nat /\ forall j0, (j0 < K)%nat -> row_const (stmt_of pr1 t) j0 = row_const (stmt_of pr1 s) j0) as CI.
  { intros s t Ht. apply filter_In in Ht as [A B]. apply in_seq in A. split; [lia|]. intros j0 Hk. rewrite forallb_forall in B. apply Z.eqb_eq, B, in_seq. lia. }
  assert (forall d s, (s < n)%nat -> (d_src d < n)%nat -> (d_dst d < n)%nat ->
    (forall j0, (j0 < K)%nat -> row_const (stmt_of pr1 (d_src d)) j0 = row_const (stmt_of pr1 (d_dst d)) j0) ->
    (In (d_src d) (class pr1 (seq 0 n) 0 K s) <-> In (d_dst d) (class pr1 (seq 0 n) 0 K s))) as CE.
  { intros d s Hs H1 H2 Eq. unfold class. rewrite !filter_In, !forallb_forall, !in_seq.
    split; intros [_ X]; (split; [lia|]); intros j0 Hj; specialize (X j0 Hj); apply in_seq in Hj; [rewrite <- Eq by lia|rewrite Eq by lia]; auto. }
  assert (forall d s j0, In d (p_deps pr1) -> d_rar d = false -> (s < n)%nat ->
    In (d_src d) (class pr1 (seq 0 n) 0 K s) -> In (d_dst d) (class pr1 (seq 0 n) 0 K s) -> (K <= j0 < length (p_hprops pr1))%nat -> weak_at pr1 d j0) as WK.
  { intros d s j0 Hd Hr Hs A B Hk. destruct (DEPS d Hd Hr) as [(L & HLt & O1' & O2' & O3')|(WA & _)]; [|apply WA; lia].
    intros x y p In'. exfalso. specialize (O2' x y p In'). rewrite DC in O2' by auto.
    rewrite (proj2 (CI _ _ A) L HLt), (proj2 (CI _ _ B) L HLt) in O2'. lia. }
  assert (forall bands b, get_outermost_permutable_bands (recompute is_emptyb pr1) = Some bands -> In b bands ->
    exists s, (s < n)%nat /\ pb_loop b = mkPloop K (class pr1 (seq 0 n) 0 K s)) as BD.
  { intros bands b Hb Hin. apply (first_bands is_emptyb pr1 K EX W1 ltac:(lia) C0 C1 WK bands Hb b Hin). }
  apply pass_spec in PD as (bands & q & es & B1 & B2 & B3 & B4 & B5 & B6); auto; try lia.
  2:{ intros _ bands b Hb Hin. rewrite V1. destruct (BD bands b Hb Hin) as (s & _ & E).
      assert (Forall (band_fine false pr1) bands) as BF by (eapply outermost_fine; eauto; discriminate).
      rewrite Forall_forall in BF. destruct (BF b Hin) as (_ & _ & _ & X & _). rewrite E in X. cbn [l_depth] in X. lia. }
  cbv iota in B3.
  assert (forall d0 d, same_dep d0 d -> In d0 (p_deps pr1) -> d_rar d0 = false -> d_sat d0 = false -> Forall (evictions_for pr1 d) es) as EV.
  { intros d0 d SDp Hd0 Hr Hs. eapply Forall_impl; [|exact B6]. intros [[l ps] hs] (b & h & Hb & E1 & E2 & DR & _). cbn [fst snd] in *.
    destruct (BD bands b B1 Hb) as (s & Hs' & Eb). exists h. cbn [fst snd]. split.
    - rewrite E1, Eb. cbn [l_stmts]. apply NoDup_filter, seq_NoDup.
    - split; [congruence|].
      intros Iff Hsrc x y p In'. pose proof SDp as (S1 & S2 & S3 & S4 & S5). rewrite S1, S2 in *. rewrite E1 in *.
      destruct DR as (_ & _ & DR & _). apply (DR d0 Hd0 Hr Hs Hsrc (proj1 Iff Hsrc) x y p).
      apply (same_dep_instance pr1 d0 d); auto. }
  assert (Forall (evicts_from K) es) as EK.
  { eapply Forall_impl; [|exact B6]. intros [[l ps] hs] (b & h & Hb & E1 & E2 & DR & _). cbn [fst snd] in *.
    destruct (BD bands b B1 Hb) as (s & Hs' & Eb). exists h. cbn [fst snd]. split.
    - rewrite E1, Eb. cbn [l_stmts]. apply NoDup_filter, seq_NoDup.
    - split; [congruence|]. destruct DR as (R & _). rewrite Eb in R. cbn [l_depth] in R. lia. }
  set (r := recompute is_emptyb pr1) in *.
  destruct (recompute_same is_emptyb pr1) as (R1 & R2 & R3 & R4 & R5). fold r in R1, R2, R3, R4, R5.
  assert (frame pr1 r) as Fr.
  { split; [auto|]. split; [auto|]. split; [congruence|]. split; auto. intros s. unfold stmt_of. rewrite R1. apply same_stmt_refl. }
  assert (forall s, stmt_of r s = stmt_of pr1 s) as SO by (intros s; unfold stmt_of; rewrite R1; auto).
  assert (wf_prog r) as Wr.
  { split; [|exact (frame_deps_wf _ _ Fr (proj2 W1))]. intros st Hst. rewrite R1 in Hst. unfold wf_stmt. rewrite R3, R4. apply W1. auto. }
  pose proof (evq_frame _ _ B5) as Fq. pose proof (evq_wf _ _ Wr (frame_padded _ _ Fr P1) B5) as Wq.
  assert (forall s, s_scc (stmt_of q s) = s_scc (stmt_of pr s)) as SQ.
  { intros s. rewrite <- SCC, <- SO. destruct B5 as (_ & _ & _ & _ & _ & B5). destruct (B5 s) as [->|(ps & h & E & _)]; auto.
    apply evict_stmt_some in E as (_ & _ & ->). reflexivity. }
  assert (frame pr q) as F by (eapply frame_trans; [exact F1|eapply frame_trans; eauto]).
  assert (frame q pr2) as F2. { subst pr2. apply set_deps_frame. intros d. repeat split. }
  assert (frame pr pr2) as F3 by (eapply frame_trans; eauto).
  assert (p_hprops pr2 = p_hprops pr1) as HP2. { subst pr2. cbn. destruct B5 as (_ & _ & _ & -> & _). auto. }
  split; [|split; auto].
  constructor; cbn [st_prog st_adj st_num st_max].
  - subst pr2. apply set_deps_wf; auto. intros d' Hd'. apply in_map_iff in Hd' as (d & <- & Hd). exists d. split; auto. repeat split.
  - eapply frame_padded; eauto.
  - eapply frame_orig_first; eauto.
  - replace (length (p_stmts pr2)) with (length (p_stmts pr)) by (symmetry; apply F3). auto.
  - intros u Hu. replace (length (p_stmts pr2)) with (length (p_stmts pr)) in Hu by (symmetry; apply F3).
    replace (scc_of pr2 u) with (scc_of pr u); [apply SC; auto|]. unfold scc_of. subst pr2. rewrite <- SQ. reflexivity.
  - auto.
  - intros d2 Hd2 Hr2. subst pr2. apply in_map_iff in Hd2 as (d' & <- & Hd'). change (d_rar d' = false) in Hr2.
    rewrite (proj1 (proj2 (proj2 B5))) in Hd'. destruct (Forall2_in_r _ _ _ d' R5 Hd') as (d0 & Hd0 & SDp). pose proof SDp as (S1 & S2 & S3 & S4 & S5).
    assert (d_rar d0 = false) as Hr0 by congruence. split; [cbn; discriminate|]. cbn [st_prog st_adj].
    destruct (DEPS d0 Hd0 Hr0) as [(L & HLt & OA)|(WA & Ed & Sc & Sa & Eq)].
    + left. exists L. cut (ordered_at q d' L); [auto|].
      apply (evict_bands_ordered K d' es L EK HLt r pos q pos2 B2).
      destruct OA as (X1 & X2 & X3). split; [rewrite R4; auto|]. split.
      * intros s t p In'. unfold distance. rewrite S1, S2, !SO. apply X2. apply (frame_instance pr1 r d0 d'); auto.
      * intros j Hj s t p In'. unfold distance. rewrite S1, S2, !SO. apply (X3 j Hj). apply (frame_instance pr1 r d0 d'); auto.
    + right. split; [|split].
      * cut (weak_all q d'); [auto|]. apply (evict_bands_weak pr1 d' es (EV d0 d' SDp Hd0 Hr0 Sa)) with (q := r) (ps := pos) (ps' := pos2); auto.
        { intros e He. rewrite Forall_forall in B6. destruct (B6 e He) as (b & h & Hb & E1 & _). destruct (BD bands b B1 Hb) as (s & Hs' & Eb).
          rewrite E1, Eb. cbn [l_stmts]. rewrite S1, S2. destruct (proj2 W1 d0 Hd0) as (D1 & D2 & _). apply CE; auto. }
        apply (weak_all_frame pr1 r d0 d'); auto. intros s. rewrite SO. auto.
      * cbn [set_sat d_src d_dst]. rewrite S1, S2. auto.
      * cbn [set_sat d_src d_dst]. rewrite S1, S2. unfold scc_of in *. cbn [st_prog]. rewrite <- !SQ in Sc. exact Sc.
Qed.
End Round.
