(** * Proofs about typed fusion. *)
From Coq Require Import ZArith List Bool Arith Lia.
From Verif Require Import SpecLinear SpecMatrix VecProofs MathModel ConstraintsModel SpecGraph GraphModel SpecProg SpecDriver SpecDfp
  FrameworkModel FrameworkProofs ProgModel ProgProofs DriverModel DriverProofs AutoProofs DfpModel DfpProofs DfpProofs2 DfpProofs3 FcgModel ClusterModel ClusterProofs TypedModel.
Import ListNotations.
Open Scope Z_scope.

(** ** The search keeps the order of dependent instances *)

Section Steps.
Variable is_emptyb : cst -> bool.
Variable solve : prog -> cst -> option point.
Variable build : dstate -> list bool -> list bool -> list Z -> nat -> fcg * fcg * list bool.
Variable refresh : dstate -> fcg -> nat -> fcg.
Variable o : options.
Variables (lpcolour hybridcut delayed_cut : bool).
Hypothesis EX : exact_empty is_emptyb.
Hypothesis SOL : solver_sound solve.
Notation inv := (inv LAZY).
Notation good := (good LAZY).
Notation st t := (k_state (t_k t)).

Lemma cut_from_good i s : inv s -> good s (cut_from_predecessor is_emptyb i s).
Proof.
  unfold cut_from_predecessor. generalize (rev (seq 0 i)). intros l. revert s. induction l as [|k l IH]; intros s I; cbn [fold_left]; [apply good_refl; auto|].
  destruct (scc_edge s k i); [|apply IH; auto]. pose proof (cut_between_good LAZY is_emptyb EX s (Z.of_nat k) (Z.of_nat i) I) as G.
  eapply good_trans; [exact G|]. apply IH. apply G.
Qed.
Lemma greedy_state c i t t' : try_greedy c i t = Some t' -> st t' = st t.
Proof. unfold try_greedy. cbv zeta. destruct (colour_scc_cluster_greedy _ _ _ _ _ _ _) as [[col m]|]; [|discriminate]. intros H. injection H as <-. reflexivity. Qed.
Lemma colour_typed_good c i t : inv (st t) -> good (st t) (st (snd (colour_typed is_emptyb refresh lpcolour hybridcut delayed_cut c i t))).
Proof.
  intros I. unfold colour_typed. cbv zeta. destruct (_ <? _); [apply good_refl; auto|].
  destruct (_ =? _). { cbn [snd]. destruct delayed_cut; [apply good_refl; auto|]. cbn [with_state t_k k_state]. apply cut_around_good; auto. }
  destruct (_ && _ && _).
  - destruct (try_greedy c i t) as [t'|] eqn:E; [cbn [snd]; rewrite (greedy_state _ _ _ _ E); apply good_refl; auto|].
    set (t1 := with_update _ _ _). assert (good (st t) (st t1)) as G by (apply cut_from_good; auto).
    destruct (try_greedy c i t1) as [t'|] eqn:E1; cbn [snd]; [rewrite (greedy_state _ _ _ _ E1)|]; exact G.
  - destruct (try_vertices _ _ _ _ _ _ _ _ _ _); cbn [snd with_colours t_k k_state]; apply good_refl; auto.
Qed.
Lemma scalar_good i s : inv s ->
  good s (mkState (add_scalar_level (st_prog s) (fun st => if s_scc st <? Z.of_nat i then 0 else 1)) (st_adj s) (st_num s) (st_max s)).
Proof.
  intros I. destruct s as [pr a n m]. cbn [st_prog st_adj st_num st_max]. split.
  - apply inv_scalar; auto. intros u v _ _ H. unfold scc_of in H.
    destruct (Z.ltb_spec (s_scc (stmt_of pr u)) (Z.of_nat i)), (Z.ltb_spec (s_scc (stmt_of pr v)) (Z.of_nat i)); lia.
  - cbn [st_prog]. rewrite scalar_level_app. apply app_level_frame.
Qed.
Lemma typed_distributed_good i t : inv (st t) -> good (st t) (st (typed_distributed is_emptyb refresh i t)).
Proof.
  intros I. unfold typed_distributed. cbv zeta. destruct (_ && _); [|apply good_refl; auto]. cbn [with_state t_k k_state]. apply distribute_good; auto.
Qed.
Lemma typed_separate_good i was t : inv (st t) -> good (st t) (st (typed_separate is_emptyb refresh hybridcut i was t)).
Proof.
  intros I. unfold typed_separate. cbv zeta. destruct (_ && _ && _); [|apply good_refl; auto].
  destruct (scc_edge _ _ _); cbn [with_update with_state t_k k_state]; [apply cut_between_good; auto|apply scalar_good; auto].
Qed.
Lemma typed_rebuild_good c t : inv (st t) -> good (st t) (st (typed_rebuild build c t)).
Proof.
  intros I. unfold typed_rebuild, with_build. cbv zeta. cbn [t_k k_state]. destruct (st t) as [pr a n m].
  destruct (inv_compute_scc LAZY _ (inv_ddg_update LAZY _ I)) as [I4 F4]. split; [exact I4|exact F4].
Qed.
Lemma typed_retry_good c i t b t' : inv (st t) -> typed_retry is_emptyb refresh lpcolour hybridcut delayed_cut c i t = (b, t') -> good (st t) (st t').
Proof.
  intros I H. unfold typed_retry in H. pose proof (cut_before_good is_emptyb MaxFuse EX i _ I) as G. set (t1 := with_update _ _ _) in H.
  assert (good (st t) (st t1)) as G1 by exact G. eapply good_trans; [exact G1|]. pose proof (colour_typed_good c i t1 (proj1 G1)) as G2. rewrite H in G2. exact G2.
Qed.
Lemma typed_precise_good c i t b t' : inv (st t) -> typed_precise is_emptyb build refresh lpcolour hybridcut delayed_cut c i t = (b, t') -> good (st t) (st t').
Proof.
  intros I H. unfold typed_precise in H. cbv zeta in H. set (t1 := with_build _ _ _) in H.
  assert (good (st t) (st t1)) as G1.
  { subst t1. cbn [with_build with_state t_k k_state]. destruct (st t) as [pr a n m]. cbn [st_prog st_adj st_num st_max]. apply precise_good; auto. }
  eapply good_trans; [exact G1|]. pose proof (colour_typed_good c i t1 (proj1 G1)) as G2. rewrite H in G2. exact G2.
Qed.
Lemma typed_loop_good fuel c : forall n i was t t', inv (st t) ->
  typed_loop is_emptyb build refresh lpcolour hybridcut delayed_cut fuel c n i was t = TDone t' -> good (st t) (st t').
Proof.
  induction fuel as [|f IH]; intros n i was t t' I H; cbn [typed_loop] in H; [discriminate|].
  destruct (n <=? i)%nat; [injection H as <-; apply good_refl; auto|].
  destruct (_ || _); [apply IH in H; auto|].
  pose proof (typed_distributed_good i t I) as G1. set (t0 := typed_distributed _ _ _ _) in *.
  pose proof (typed_separate_good i was t0 (proj1 G1)) as G2. set (t1 := typed_separate _ _ _ _ _ _) in *.
  eapply good_trans; [exact G1|]. eapply good_trans; [exact G2|]. destruct G2 as [I1 _].
  pose proof (colour_typed_good c i t1 I1) as G3. destruct (colour_typed _ _ _ _ _ c i t1) as [[|] t2]; cbn [snd] in G3.
  { apply IH in H; [|apply G3]. eapply good_trans; [exact G3|exact H]. }
  eapply good_trans; [exact G3|]. destruct G3 as [I2 _]. destruct (_ || _).
  - pose proof (typed_rebuild_good c t2 I2) as G4. apply IH in H; [|apply G4]. eapply good_trans; [exact G4|exact H].
  - destruct (typed_retry _ _ _ _ _ c i t2) as [[|] t3] eqn:E3; apply typed_retry_good in E3; auto.
    + apply IH in H; [|apply E3]. eapply good_trans; [exact E3|exact H].
    + eapply good_trans; [exact E3|]. destruct E3 as [I3 _].
      destruct (typed_precise _ _ _ _ _ _ c i t3) as [[|] t4] eqn:E4; [|discriminate]. apply typed_precise_good in E4; auto.
      apply IH in H; [|apply E4]. eapply good_trans; [exact E4|exact H].
Qed.
Lemma typed_level_good fuel c t t' : inv (st t) ->
  typed_level is_emptyb solve build refresh o lpcolour hybridcut delayed_cut fuel c t = TDone t' -> good (st t) (st t').
Proof.
  intros I H. unfold typed_level in H. cbv zeta in H. destruct (typed_loop _ _ _ _ _ _ _ _ _ _ _ _) as [t1| |] eqn:E1; [|discriminate|discriminate]. apply typed_loop_good in E1; auto.
  cbn [t_k k_state] in E1.
  destruct (cluster_shift _ _ _ _ _ _) as [k2|] eqn:E2; [|discriminate]. apply cluster_shift_spec in E2 as (s1 & sol & G1 & _ & S2 & G2 & _); auto; [|apply E1].
  injection H as <-. cbn [t_k k_state] in *.
  eapply good_trans; [exact E1|]. eapply good_trans; [exact G1|]. eapply good_trans; [exact G2|]. destruct G2 as [I2 _]. rewrite S2 in *. cbn [st_prog st_adj st_num st_max] in *.
  rewrite hyperplane_app in *. destruct G1 as [I1 _]. pose proof (i_wf _ _ I1) as W1.
  set (q := app_level _ _ _ _) in *. assert ((nrows0 q - 1 < length (p_hprops q))%nat) as HL by (apply last_level_lt; auto).
  destruct (inv_update LAZY is_emptyb EX q _ _ _ _ I2 HL) as [I3 F3]. split; [exact I3|exact F3].
Qed.
Lemma typed_levels_good fuel l : forall t t', inv (st t) ->
  typed_levels is_emptyb solve build refresh o lpcolour hybridcut delayed_cut fuel l t = TDone t' -> good (st t) (st t').
Proof.
  induction l as [|c l IH]; intros t t' I H; cbn [typed_levels] in H; [injection H as <-; apply good_refl; auto|].
  destruct (typed_level _ _ _ _ _ _ _ _ _ _ _) as [t1| |] eqn:E; [|discriminate|discriminate]. apply typed_level_good in E; auto. apply IH in H; [|apply E]. eapply good_trans; eauto.
Qed.
Lemma typed_search_good fuel sten s t : inv s -> typed_search is_emptyb solve build refresh o lpcolour hybridcut delayed_cut fuel sten s = TDone t -> good s (st t).
Proof. intros I H. unfold typed_search in H. cbv zeta in H. apply typed_levels_good in H; auto. Qed.

Lemma typed_success fuel sten pr pr' : input_ok pr -> p_stmts pr <> [] ->
  typed_transform is_emptyb solve build refresh o lpcolour hybridcut delayed_cut fuel sten pr = Transformed pr' false ->
  same_program pr pr' /\
  (forall s i p, (s < length (p_stmts pr))%nat -> length i = s_dim (stmt_of pr s) -> length p = p_npar pr ->
     length (timestamp (stmt_of pr' s) i p) = length (p_hprops pr')) /\
  (forall d, In d (p_deps pr) -> d_rar d = false -> forall s t p, instance pr d s t p ->
     lexlt (timestamp (stmt_of pr' (d_src d)) s p) (timestamp (stmt_of pr' (d_dst d)) t p) \/
     (timestamp (stmt_of pr' (d_src d)) s p = timestamp (stmt_of pr' (d_dst d)) t p /\ depends pr (d_dst d) (d_src d))).
Proof.
  intros IN NE H. unfold typed_transform in H. change (dfp_start pr) with (start_state pr) in H.
  destruct (start_inv pr IN) as [I0 A0]. apply inv_lazy in I0.
  destruct (typed_search _ _ _ _ _ _ _ _ _ _) as [t| |] eqn:ES; [|discriminate|discriminate].
  pose proof (typed_search_good fuel sten _ _ I0 ES) as [I1 F1]. cbv zeta in H.
  destruct (introduce_skew _ _ _ _) as [[pr1 b]|] eqn:EK; [|discriminate]. injection H as E1 E2. subst b.
  destruct (search_tail is_emptyb solve o EX pr _ pr1 pr' IN NE I1 F1 EK E1) as (A & B & C & _). auto.
Qed.
End Steps.
