(** * The whole search with diamond tiling. *)
From Coq Require Import ZArith QArith List Bool Lia Arith Sorted.
From Verif Require Import SpecLinear SpecMatrix MathModel ConstraintsModel VecProofs EditProofs FarkasProofs SumProofs RankProofs MatrixProofs SpecProg SpecTile SpecLoop SpecDriver SpecGraph GraphModel FrameworkModel
  FrameworkProofs HypProofs KeepProofs ProgModel SimplifyProofs DepProofs ProgProofs DriverModel DriverProofs PadProofs AutoProofs GrowProofs TileModel TileProofs IssProofs LoopModel LoopProofs LoopProofs2 LoopProofs3 LoopProofs4 DiamondModel DiamondProofs IntraModel SpecCone ConeModel ConeProofs ConeProofs2 ConeProofs3 ConeProofs4.
Import ListNotations.
Open Scope Z_scope.

(** ** From the driver's last state to the result *)
Lemma finish md pr s : input_ok pr -> inv md s -> frame (st_prog (start_state pr)) (st_prog s) ->
  transformations_full_ranked (st_prog s) = true -> deps_satisfaction_check (st_prog s) = true ->
  let pr' := denormalize_domains (st_prog s) in
  same_program pr pr' /\
  (forall s i p, (s < length (p_stmts pr))%nat -> length i = s_dim (stmt_of pr s) -> length p = p_npar pr ->
     length (timestamp (stmt_of pr' s) i p) = length (p_hprops pr')) /\
  (forall d, In d (p_deps pr) -> d_rar d = false -> forall s t p, instance pr d s t p ->
     lexlt (timestamp (stmt_of pr' (d_src d)) s p) (timestamp (stmt_of pr' (d_dst d)) t p)) /\
  (forall s i j p, (s < length (p_stmts pr))%nat -> length i = s_dim (stmt_of pr s) -> length j = s_dim (stmt_of pr s) -> length p = p_npar pr ->
     timestamp (stmt_of pr' s) i p = timestamp (stmt_of pr' s) j p -> i = j).
Proof.
  intros IN I F' FR DS pr'. unfold pr'. clear pr'.
      destruct (end_ok _ pr s IN I F') as (A & SI & T & AF). pose proof (inv_satisfied_legal _ s I DS) as L.
      pose proof (input_simple pr IN) as SP. pose proof (input_deps pr IN) as DI.
      assert (forall u x p, (u < length (p_stmts pr))%nat -> length x = s_dim (stmt_of pr u) -> length p = p_npar pr ->
        timestamp (stmt_of (denormalize_domains (st_prog s)) u) x p = timestamp (stmt_of (st_prog s) u) (zp (st_prog s) u x) p) as TT.
      { intros u x p Hu Lx Lp. rewrite SP in Lx by auto. rewrite <- (ag_dim0 _ _ A u) in Lx.
        rewrite <- T.
        - rewrite zp_simple; auto. rewrite (ag_n _ _ A). auto.
        - rewrite <- (ag_n _ _ AF), (ag_n _ _ A). auto.
        - rewrite <- (ag_dim0 _ _ AF). auto.
        - rewrite <- (ag_par _ _ AF), (ag_par _ _ A). auto. }
      split; [|split; [|split]].
      + apply agree_same; auto.
      + intros u i p Hu Li Lp. rewrite TT by auto. rewrite timestamp_length, denormalize_hprops. apply wf_nrows. apply I.
        rewrite <- (ag_n _ _ AF), (ag_n _ _ A). auto.
      + intros d Hd Hr x y p Inst. destruct (DI d Hd) as [D1 D2]. destruct Inst as (Lx & Ly & Lp & M). rewrite !TT by auto.
        assert (agree pr (st_prog s)) as AS by (eapply agree_trans; [exact A|apply agree_sym; exact AF]).
        destruct (Forall2_in_l _ _ _ d (ag_dep _ _ AS) Hd) as (d' & Hd' & E1 & E2 & E3 & E4).
        rewrite SP in Lx, Ly by auto. specialize (E4 x y p Lx Ly Lp). rewrite (zp_simple pr), (zp_simple pr (d_dst d)) in E4 by auto.
        rewrite <- E1, <- E2. apply (L d' Hd'); [congruence|]. unfold instance. rewrite E1, E2.
        assert (forall u, (u < length (p_stmts pr))%nat -> (dim0 pr u <= s_dim (stmt_of (st_prog s) u))%nat) as DD.
        { intros u Hu. rewrite (i_pad _ _ I) by (apply stmt_of_in; rewrite (ag_n _ _ AS); auto).
          rewrite <- (ag_dim0 _ _ AS). apply (i_orig _ _ I). apply stmt_of_in. rewrite (ag_n _ _ AS). auto. }
        split; [apply zp_length; rewrite Lx; auto|]. split; [apply zp_length; rewrite Ly; auto|]. split; [rewrite (ag_par _ _ AS); auto|]. apply E4. auto.
      + intros u x y p Hu Lx Ly Lp E1. rewrite !TT in E1 by auto.
        assert (agree pr (st_prog s)) as AS by (eapply agree_trans; [exact A|apply agree_sym; exact AF]).
        assert (u < length (p_stmts (st_prog s)))%nat as Hu' by (rewrite (ag_n _ _ AS); auto).
        pose proof (stmt_of_in _ u Hu') as Hin. pose proof (i_pad _ _ I _ Hin) as Pd. destruct (i_orig _ _ I _ Hin) as [Od _].
        assert (one_to_one (st_prog s) (stmt_of (st_prog s) u)) as O.
        { apply (full_rank_injective (st_prog s)); auto. intros st Hst. destruct (i_orig _ _ I _ Hst) as [Od' _]. rewrite (i_pad _ _ I _ Hst). split; auto.
          apply (wf_prog_shapes _ (i_wf _ _ I)). auto. }
        rewrite SP in Lx, Ly by auto. rewrite <- (ag_dim0 _ _ AS u) in Lx, Ly. unfold dim0 in Lx, Ly.
        apply O in E1.
        * unfold zp in E1. rewrite Lx, Ly in E1. apply app_inv_tail in E1. auto.
        * apply zp_length. lia.
        * apply zp_length. lia.
        * rewrite (ag_par _ _ AS). auto.
        * unfold zp. rewrite !skipn_app, Lx, Ly. rewrite (skipn_all2 x), (skipn_all2 y) by lia. auto.
Qed.

(** ** Rounds *)
Section Search.
Variables (is_emptyb isl_emptyb : cst -> bool) (kernel : matrix -> matrix) (solve : prog -> cst -> option point) (lexmin : cst -> option point) (o : options) (full : bool).
Hypothesis EX : exact_empty is_emptyb.
Hypothesis SOL : solver_sound solve.
Hypothesis LM : lexmin_ok lexmin.

Lemma round_start_good md fuse s : inv md s -> good md s (round_start is_emptyb fuse s).
Proof.
  intros I0. unfold round_start. destruct fuse; try apply good_refl; auto. destruct (inv_compute_scc md s I0) as [A B].
  eapply good_trans; [split; [exact A|exact B]|]. apply cut_all_good; auto.
Qed.

Definition out_good_d (s : dstate) (r : doutcome) : Prop :=
  match r with DContinue d m => good m s (dd_state d) | DFailed d => good LAZY s (dd_state d) end.

Lemma round_d_good fuse depth mode d r : inv mode (dd_state d) ->
  (forall s, (s < length (p_stmts (st_prog (dd_state d))))%nat -> (1 <= s_dim_orig (stmt_of (st_prog (dd_state d)) s))%nat) ->
  round_d is_emptyb isl_emptyb kernel solve lexmin o full fuse depth mode d = Some r ->
  (forall d' m, r = DContinue d' m -> dd_found d = false -> dd_found d' = true -> mode = EAGER /\ constant_levels (st_prog (round_start is_emptyb fuse (dd_state d)))) ->
  out_good_d (dd_state d) r.
Proof.
  intros I DM E H. unfold round_d in E. cbv zeta in E. pose proof (round_start_good mode fuse _ I) as G0.
  destruct (round_start is_emptyb fuse (dd_state d)) as [pr a k m] eqn:RS. cbn [st_prog st_adj st_num st_max] in *.
  destruct (find_permutable_hyperplanes _ _ _ _ _ _ _) as [pr1 nsols] eqn:FH.
  destruct ((2 <=? nsols)%nat && negb (dd_found d))%bool eqn:C.
  - apply andb_true_iff in C as [C1 C2]. apply Nat.leb_le in C1. apply negb_true_iff in C2.
    destruct (pluto_diamond_tile _ _ _ _ _ _ _) as [[[pr2 pos2] found]|] eqn:PD; [|discriminate]. injection E as <-. cbn [out_good_d dd_state].
    pose proof (find_permutable_good mode isl_emptyb kernel solve o (sound_keeps _ SOL) mode (num_sols_left pr) pr a k m (proj1 G0)) as FP. rewrite FH in FP. destruct FP as (I1 & F1 & L1).
    assert (inv mode (mkState pr2 a k m) /\ frame pr pr2 /\ p_hprops pr2 = p_hprops pr1) as (I2 & F2 & HP).
    { destruct found.
      - destruct (H _ _ eq_refl C2 eq_refl) as [-> CL].
        eapply found_good; eauto; [apply G0|]. intros s Hs. destruct (proj2 G0) as (_ & _ & N & SS & _). cbn [st_prog] in *. rewrite N in Hs. specialize (DM s Hs).
        destruct (SS s) as (_ & X & _). lia.
      - apply not_found in PD as [-> _].
        destruct (recompute_inv is_emptyb mode pr1 a k m EX I1) as [I2 F2]. split; auto. split; [eapply frame_trans; eauto|].
        destruct (recompute_same is_emptyb pr1) as (_ & _ & _ & R & _). exact R. }
    assert (good mode (dd_state d) (mkState pr2 a k m)) as G2 by (eapply good_trans; [exact G0|]; split; auto).
    assert (good mode (dd_state d) (update_levels is_emptyb (nrows0 pr2 - nsols) nsols (mkState pr2 a k m))) as G3.
    { eapply good_trans; [exact G2|]. apply update_levels_good; [exact EX|apply G2|]. cbn [st_prog].
      intros j Hj. unfold nrows0 in Hj. destruct (le_lt_dec (length (p_stmts pr2)) 0) as [L|L].
      + unfold stmt_of in Hj. rewrite nth_overflow in Hj by auto. cbn in Hj. rewrite HP. lia.
      + rewrite wf_nrows in Hj; auto. rewrite HP in *. lia. apply (i_wf _ _ I2). }
    destruct (update_levels _ _ _ _) as [pr' a' k' m'] eqn:U. cbn [st_prog st_adj st_num st_max]. destruct mode; auto.
    destruct (inv_precise LAZY is_emptyb EX pr' a' k' m' eq_refl (proj1 G3)) as [I3 F3].
    eapply good_trans; [exact G3|]. split; auto.
  - injection E as <-. pose proof (round_good isl_emptyb kernel solve o (sound_keeps _ SOL) is_emptyb EX fuse depth mode _ I) as R.
    destruct (round _ _ _ _ _ _ _ _ _); exact R.
Qed.

Lemma start_d_state fuse pr : dd_state (start_d is_emptyb fuse pr) = match fuse with SmartFuse => fst (cut_scc_dim_based is_emptyb (start_state pr)) | _ => start_state pr end.
Proof. destruct fuse; reflexivity. Qed.

Lemma drive_d_good fuse pr : input_ok pr -> (forall s, (s < length (p_stmts pr))%nat -> (1 <= s_dim_orig (stmt_of pr s))%nat) ->
  (forall depth mode d d' mode', round_begins is_emptyb isl_emptyb kernel solve lexmin o full fuse pr depth mode d -> dd_found d = false ->
     round_d is_emptyb isl_emptyb kernel solve lexmin o full fuse depth mode d = Some (DContinue d' mode') -> dd_found d' = true ->
     mode = EAGER /\ constant_levels (st_prog (round_start is_emptyb fuse (dd_state d)))) ->
  forall fuel depth mode d r, round_begins is_emptyb isl_emptyb kernel solve lexmin o full fuse pr depth mode d ->
  good mode (start_state pr) (dd_state d) ->
  drive_d is_emptyb isl_emptyb kernel solve lexmin o full fuse fuel depth mode d = Some (Some r) ->
  out_good_d (start_state pr) r /\ match r with
    | DContinue d' _ => transformations_full_ranked (st_prog (dd_state d')) = true /\ deps_satisfaction_check (st_prog (dd_state d')) = true
    | DFailed _ => True
    end.
Proof.
  intros IN DM H. destruct (start_inv pr IN) as [_ A0].
  induction fuel as [|fuel IH]; intros depth mode d r B G E; cbn [drive_d] in E; [discriminate|].
  destruct (round_d _ _ _ _ _ _ _ _ _ _ _) as [r0|] eqn:R; [|discriminate].
  assert (out_good_d (dd_state d) r0) as OG.
  { apply (round_d_good _ _ _ _ _ (proj1 G)) in R as OG; auto.
    - intros s Hs. destruct (proj2 G) as (_ & _ & N & SS & _). rewrite N in Hs. destruct (SS s) as (_ & X & _).
      rewrite (ag_n _ _ A0) in Hs. specialize (DM s Hs). pose proof (ag_dim0 _ _ A0 s) as Y. unfold dim0 in Y. lia.
    - intros d' m -> F1 F2. eapply H; eauto. }
  destruct r0 as [d' mode'|d'].
  - cbn [out_good_d] in OG. assert (good mode' (start_state pr) (dd_state d')) as G' by (split; [apply OG|eapply frame_trans; [apply G|apply OG]]).
    destruct (transformations_full_ranked _ && deps_satisfaction_check _) eqn:T.
    + injection E as <-. split; auto. apply andb_true_iff in T. auto.
    + apply (IH (Datatypes.S depth) mode' d'); auto. econstructor; eauto.
  - injection E as <-. split; auto. cbn in *. split; [apply OG|eapply frame_trans; [apply G|apply OG]].
Qed.

Lemma auto_success_d fuse fuel pr pr' pos : input_ok pr -> (forall s, (s < length (p_stmts pr))%nat -> (1 <= s_dim_orig (stmt_of pr s))%nat) ->
  (forall depth mode d d' mode', round_begins is_emptyb isl_emptyb kernel solve lexmin o full fuse pr depth mode d -> dd_found d = false ->
     round_d is_emptyb isl_emptyb kernel solve lexmin o full fuse depth mode d = Some (DContinue d' mode') -> dd_found d' = true ->
     mode = EAGER /\ constant_levels (st_prog (round_start is_emptyb fuse (dd_state d)))) ->
  auto_transform_d is_emptyb isl_emptyb kernel solve lexmin o full fuse fuel pr = Some (pr', pos) ->
  same_program pr pr' /\
  (forall s i p, (s < length (p_stmts pr))%nat -> length i = s_dim (stmt_of pr s) -> length p = p_npar pr ->
     length (timestamp (stmt_of pr' s) i p) = length (p_hprops pr')) /\
  (forall d, In d (p_deps pr) -> d_rar d = false -> forall s t p, instance pr d s t p ->
     lexlt (timestamp (stmt_of pr' (d_src d)) s p) (timestamp (stmt_of pr' (d_dst d)) t p)) /\
  (forall s i j p, (s < length (p_stmts pr))%nat -> length i = s_dim (stmt_of pr s) -> length j = s_dim (stmt_of pr s) -> length p = p_npar pr ->
     timestamp (stmt_of pr' s) i p = timestamp (stmt_of pr' s) j p -> i = j).
Proof.
  intros IN DM H E. unfold auto_transform_d, auto_search_d in E.
  destruct (drive_d _ _ _ _ _ _ _ _ _ _ _ _) as [[[d m|d]|]|] eqn:D; try discriminate. injection E as <- <-.
  apply (drive_d_good _ _ IN DM H) in D.
  - destruct D as [[I F] [FR DS]]. apply (finish m); auto.
  - constructor.
  - rewrite start_d_state. apply second_inv; auto.
Qed.
End Search.
