(** * Proofs: wavefronts of tiles. *)
From Coq Require Import ZArith List Bool Lia Arith.
From Verif Require Import SpecLinear MathModel ConstraintsModel VecProofs EditProofs MatrixProofs ListProofs SpecProg FrameworkModel FrameworkProofs LexProofs ProgModel ProgProofs.
From Verif Require Import DepProofs SpecTile TileModel TileProofs TileProofs2 TileProofs3 SpecLoop LoopModel LoopProofs LoopProofs2 LoopProofs3 LoopProofs4 LoopProofs5 WaveProofs.
Import ListNotations.
Open Scope Z_scope.

Section Computed.
Variables (f : cst -> bool) (pr : prog).
Let q := computed f pr.

Lemma cq_separated d d' a : same_dep d d' -> separated_before pr d a -> separated_before q d' a.
Proof.
  intros S H s t p I. pose proof S as (A & B & _). unfold q. rewrite !cq_stmt, A, B. apply H. apply (cq_instance f pr d d'); auto.
Qed.
Lemma cq_band_safe b d d' : same_dep d d' -> band_safe pr b d -> band_safe q b d'.
Proof.
  intros S H. pose proof S as (A & B & _). unfold band_safe. rewrite A, B. destruct H as [H|[H|(H1 & H2 & H3)]]; auto.
  - right. left. apply (cq_separated d); auto.
  - right. right. split; auto. split; auto. intros s t p I Z k Hk. destruct (H3 s t p) with (k := k) as [KT|(j & J1 & J2 & J3 & J4)]; auto.
    + apply (cq_instance f pr d d'); auto.
    + intros j Hj. rewrite <- (cq_distance f pr d d'); auto.
    + left. unfold keeps_tiles in *. fold q. unfold q. rewrite !cq_stmt, (cq_distance f pr d d'), A, B by auto. exact KT.
    + right. exists j. unfold q. rewrite !cq_stmt, (cq_distance f pr d d'), A, B by auto. auto.
Qed.
Lemma cq_wf_band b : wf_band pr b -> wf_band q b.
Proof. intros (A & B & C). split; auto. split; auto. intros s Hs. unfold q. rewrite cq_stmt, cq_stmts. auto. Qed.
End Computed.

Lemma computed_satvecs f pr : exact_empty f -> wf_levels pr -> satvecs_ok (computed f pr).
Proof.
  intros EX W. assert (forall d, In d (p_deps (computed f pr)) -> d_rar d = false -> info_ok (computed f pr) d) as INF by (intros; apply computed_info; auto).
  split; [apply info_sound; auto|]. intros d Hd R. destruct (INF d Hd R) as (_ & _ & V & _). exact V.
Qed.

(** The state after tiling all bands (once). *)
Definition tiled_state (q : prog) (sizes : pband -> list Z) (bands : list pband) : Prop :=
  let bs := map (with_sizes sizes) bands in
  wf_levels q /\ (forall s, (s < length (p_stmts q))%nat -> types_ok (stmt_of q s)) /\ disjoint_bands bs /\ Forall (wf_band q) bs /\
  (forall d, In d (p_deps q) -> d_rar d = false -> Forall (fun b => band_safe q b d) bs) /\ Forall (all_loops q) bands /\ legal q.

Lemma same_levels_sizes sizes sizes2 bands : (forall b, In b bands -> length (sizes b) = length (sizes2 b) /\ forall T, In T (sizes2 b) -> 1 <= T) ->
  Forall2 same_levels (map (with_sizes sizes) bands) (map (with_sizes sizes2) bands).
Proof.
  induction bands as [|b l IH]; intros H; cbn; constructor.
  - destruct (H b (or_introl eq_refl)) as [X Y]. split; [reflexivity|]. split; [reflexivity|]. split; [cbn; auto|exact Y].
  - apply IH. intros; apply H; simpl; auto.
Qed.

Lemma tile_state q sizes sizes2 bands : tiled_state q sizes bands ->
  (forall b, In b bands -> length (sizes b) = pb_width b /\ length (sizes2 b) = pb_width b /\ forall T, In T (sizes2 b) -> 1 <= T) ->
  tiled_state (tile_scattering_dims q (map (with_sizes sizes) bands)) sizes2 bands.
Proof.
  intros (W & TO & D & F & SF & AL & L) SZ. set (bs := map (with_sizes sizes) bands) in *. set (bs2 := map (with_sizes sizes2) bands).
  assert (Forall2 same_levels bs bs2) as SL. { apply same_levels_sizes. intros b Hb. destruct (SZ b Hb) as (X & Y & Z). split; [congruence|auto]. }
  destruct (scattering_again q bs bs2 (proj1 W) D F SF TO SL) as (D2 & F2 & SF2 & TO2).
  split; [apply scattering_levels; auto|]. split; auto. split; auto. split; auto. split; auto. split; [|apply scattering_legal; auto; apply W].
  rewrite Forall_forall in *. intros b Hb s k Hs Hk. rewrite (two_loop q bs (proj1 W) D); auto.
  - apply (AL b Hb); auto.
  - apply Forall_forall; auto.
  - destruct (F (with_sizes sizes b)) as (_ & _ & X). { apply in_map; auto. } apply X; auto.
  - rewrite (band_of_in bs (with_sizes sizes b) s D); [apply In_in_band; auto|apply in_map; auto|apply In_in_band; auto].
  - rewrite (band_of_in bs (with_sizes sizes b) s D); [|apply in_map; auto|apply In_in_band; auto]. cbn. destruct (SZ b Hb) as (X & _). lia.
Qed.

Lemma state_computed f q sizes bands : tiled_state q sizes bands -> tiled_state (computed f q) sizes bands.
Proof.
  intros (W & TO & D & F & SF & AL & L). split; [apply cq_wf; auto|]. split; [intros s; rewrite cq_stmts, cq_stmt; auto|]. split; auto.
  rewrite Forall_forall in F, AL. split; [|split; [|split]].
  - apply Forall_forall. intros b Hb. apply cq_wf_band; auto.
  - intros d' Hd' R. destruct (cq_dep f q d' Hd') as (d & Hd & S). apply Forall_forall. intros b Hb. apply (cq_band_safe f q _ d); auto.
    rewrite (cq_rar d d') in R by auto. specialize (SF d Hd R). rewrite Forall_forall in SF. auto.
  - apply Forall_forall. intros b Hb s k Hs Hk. rewrite cq_stmt. apply (AL b Hb); auto.
  - apply cq_legal; auto.
Qed.

(** Wavefronts of the tile loops. *)
Lemma wave_state mp q sizes bands : satvecs_ok q -> tiled_state q sizes bands -> ForallOrdPairs share_none bands ->
  (forall b, In b bands -> length (sizes b) = pb_width b /\ (1 <= pb_width b)%nat /\ l_stmts (pb_loop b) <> []) ->
  let r := fst (create_tile_schedule mp false q bands) in
  wf_levels r /\ legal r /\ satvecs_ok r /\ Forall (pband_ok q) bands.
Proof.
  intros SV (W & TO & D & F & SF & AL & L) SN SZ. cbv zeta.
  assert (Forall (pband_ok q) bands) as P.
  { rewrite Forall_forall in *. intros b Hb. destruct (SZ b Hb) as (X & Y & Z).
    assert (wf_band q (with_sizes sizes b)) as WB by (apply F; apply in_map; auto).
    apply (safe_pband _ sizes); auto.
    - intros s Hs. apply TO. apply WB; auto.
    - intros d Hd R. specialize (SF d Hd R). rewrite Forall_forall in SF. apply SF. apply in_map; auto. }
  destruct (schedule_legal mp bands q W SN P L) as [R1 R2]. split; auto. split; auto. split; auto.
  apply schedule_satvecs; auto.
Qed.
