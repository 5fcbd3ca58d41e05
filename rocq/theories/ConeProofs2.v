(** * Proofs about a whole pass of diamond tiling. *)
From Coq Require Import ZArith QArith List Bool Lia Arith Sorted.
From Verif Require Import SpecLinear SpecMatrix MathModel ConstraintsModel VecProofs EditProofs FarkasProofs SumProofs SpecProg SpecTile SpecDriver SpecGraph GraphModel FrameworkModel
  FrameworkProofs HypProofs ProgModel SimplifyProofs DepProofs ProgProofs DriverModel DriverProofs TileModel TileProofs IssProofs LoopModel LoopProofs LoopProofs2 LoopProofs3 LoopProofs4 DiamondModel DiamondProofs IntraModel SpecCone ConeModel ConeProofs.
Import ListNotations.
Open Scope Z_scope.

(** ** The bands of the pass *)
Lemma outermost_fine f full pr bands : get_outermost_permutable_bands (recompute f pr) = Some bands ->
  (full = true -> forall b, In b bands -> (pb_width b <= p_nvar pr)%nat) -> Forall (band_fine full pr) bands.
Proof.
  intros H NV. unfold get_outermost_permutable_bands in H. destruct (collect_bands _ _ _) as [l|] eqn:C; [|discriminate]. cbn in H. injection H as <-.
  apply Forall_forall. intros b Hb. pose proof (fun X => NV X b Hb) as NB. unfold get_dominator_bands in Hb. apply filter_In in Hb as [Hb _].
  apply (collect_In _ _ _ _ C) in Hb as (A & B & _). pose proof (all_loops_ok _ _ A) as LP. unfold from_loop in B.
  apply band_found in B as (_ & B2 & B3 & _); auto. destruct LP as (_ & _ & _ & LP).
  destruct (computed_stmts f pr) as (C1 & C2 & _). unfold computed in C1, C2. fold (recompute f pr) in C1, C2.
  split; [apply (all_loops_sorted _ _ A)|]. split; [|split; auto; split; [rewrite <- C2; auto|auto]].
  intros s Hs. rewrite <- C1. apply LP; auto.
Qed.

Section Whole.
Variables (is_emptyb : cst -> bool) (solve : prog -> cst -> option point) (lexmin : cst -> option point) (o : options) (full : bool).
Hypothesis SOL : solver_sound solve.
Hypothesis LM : lexmin_ok lexmin.

Lemma recompute_same pr : let pr1 := recompute is_emptyb pr in
  p_stmts pr1 = p_stmts pr /\ p_nvar pr1 = p_nvar pr /\ p_npar pr1 = p_npar pr /\ p_hprops pr1 = p_hprops pr /\ Forall2 same_dep (p_deps pr) (p_deps pr1).
Proof.
  destruct (computed_stmts is_emptyb pr) as (C1 & C2 & C3 & C4). repeat (split; [assumption|]). exact (computed_deps is_emptyb pr).
Qed.

Lemma pass_spec pr pos pr2 pos2 found : wf_prog pr -> padded pr -> orig_first pr -> padding_free pr ->
  (2 <= p_nvar pr)%nat ->
  (full = true -> forall bands b, get_outermost_permutable_bands (recompute is_emptyb pr) = Some bands -> In b bands -> (pb_width b <= p_nvar pr)%nat) ->
  pluto_diamond_tile is_emptyb solve lexmin o full pr pos = Some (pr2, pos2, found) ->
  exists bands q es, get_outermost_permutable_bands (recompute is_emptyb pr) = Some bands /\
    evict_bands (recompute is_emptyb pr, pos) es = Some (q, pos2) /\ pr2 = (if found then dep_satisfaction_reset q else q) /\
    (found = true <-> es <> []) /\ evq (recompute is_emptyb pr) q /\
    Forall (fun e => exists b h, In b bands /\ fst (fst e) = l_stmts (pb_loop b) /\ snd e = map h (l_stmts (pb_loop b)) /\
      diamond_rows pr full (l_stmts (pb_loop b)) (l_depth (pb_loop b)) (pb_width b) (snd (fst e)) h /\
      (forall s j, (p_nvar pr <= j < p_nvar pr + p_npar pr)%nat -> nth j (h s) 0 = 0)) es.
Proof.
  intros W P O RP N1 N2 H. unfold pluto_diamond_tile in H. destruct (get_outermost_permutable_bands _) as [bands|] eqn:G; [|discriminate].
  destruct (diamond_bands _ _ _ _ _ _ _ _) as [[[q ps] en]|] eqn:D; [|discriminate]. injection H as <- <- <-.
  apply (diamond_bands_good solve lexmin o full SOL LM pr (recompute is_emptyb pr) (recompute_same pr) W P O RP N1) in D
    as (E & es & E1 & E2 & E3); [|eapply outermost_fine; eauto; intros X b; apply (N2 X); auto|apply evq_refl|auto].
  exists bands, q, es. split; auto. split; auto. split; auto. split; [|auto]. rewrite E2. split; [intros [X|X]; [discriminate|auto]|auto].
Qed.
End Whole.
