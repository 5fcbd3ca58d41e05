(** * Theorems: reordering of loops inside tiles (C63) and everything done after
    the transformation has been found (C64). *)
From Coq Require Import ZArith QArith List Bool Lia Arith Permutation.
From Verif Require Import SpecLinear MathModel ConstraintsModel VecProofs EditProofs MatrixProofs SpecProg SpecTile SpecLoop SpecIntra
  RankProofs SumProofs FrameworkModel ProgModel DepProofs SimplifyProofs LexProofs ProgProofs TileModel TileProofs TileProofs2 TileProofs3
  LoopModel LoopProofs LoopProofs2 LoopProofs3 LoopProofs4 LoopProofs5 WaveProofs WaveProofs2 SpecFlow FlowProofs IntraModel IntraProofs IntraProofs2 IntraProofs3
  IntraProofs4 IntraProofs5 IntraProofs6 IntraProofs7 IntraProofs8 Checkers ExProg PropFramework PropAuto PropTile PropLoop PropWave.
Import ListNotations.
Open Scope Z_scope.

Lemma cq_wave f pr b d d' : same_dep d d' -> wave_safe pr (l_stmts (pb_loop b)) (l_depth (pb_loop b)) (l_depth (pb_loop b) + pb_width b) d ->
  wave_safe (computed f pr) (l_stmts (pb_loop b)) (l_depth (pb_loop b)) (l_depth (pb_loop b) + pb_width b) d'.
Proof.
  intros S H. pose proof S as (A & B & _). unfold wave_safe. rewrite A, B. destruct H as [H|[H|(H1 & H2 & H3)]]; auto.
  - right. left. apply (cq_separated f pr d); auto.
  - right. right. split; auto. split; auto. intros s t p I Z k Hk. rewrite (cq_distance f pr d d') by auto. apply H3; auto.
    + apply (cq_instance f pr d d'); auto.
    + intros j Hj. rewrite <- (cq_distance f pr d d'); auto.
Qed.
Lemma cq_pband f pr b : pband_ok pr b -> pband_ok (computed f pr) b.
Proof.
  intros ((A1 & A2 & A3 & A4) & B & C). split; [|split].
  - split; auto. split; [rewrite cq_stmts; auto|]. split; auto. rewrite cq_hprops. auto.
  - intros s k Hs Hk. rewrite cq_stmt. auto.
  - intros d' Hd' R. destruct (cq_dep f pr d' Hd') as (d & Hd & S). apply (cq_wave f pr b d d' S). apply C; auto. rewrite <- (cq_rar d d' S). auto.
Qed.

(** What tiling leaves. *)
Lemma tiled_istate f pr bands sizes sizes2 (second : bool) : exact_empty f -> wf_levels pr -> plain_levels pr -> uniform pr -> leveled pr ->
  bands_to_tile (computed f pr) = Some bands ->
  (forall b, In b bands -> length (sizes b) = pb_width b /\ length (sizes2 b) = pb_width b /\ (forall T, In T (sizes b ++ sizes2 b) -> 1 <= T)) ->
  let q1 := tile_scattering_dims (computed f pr) (map (with_sizes sizes) bands) in
  let q2 := if second then tile_scattering_dims q1 (map (with_sizes sizes2) bands) else q1 in
  istate q2 sizes2 bands (if second then 2 else 1) /\ satvecs_ok (computed f q2) /\
  ((forall b, In b bands -> all_loops pr b) -> Forall (all_loops q2) bands) /\ flows pr q2.
Proof.
  intros EX W PL UN LV E SZ q1 q2.
  pose proof (cq_wf f pr W) as W'. pose proof (cq_plain f pr PL) as PL'. pose proof (cq_uniform f pr UN) as UN'. pose proof (cq_leveled f pr LV) as LV'.
  assert (forall d, In d (p_deps (computed f pr)) -> d_rar d = false -> info_ok (computed f pr) d) as INF by (intros; apply computed_info; auto).
  destruct (bands_to_tile_ok (computed f pr) W' PL' UN' INF LV') as (bands' & E' & G & S). rewrite E in E'. injection E' as <-.
  assert (forall b, In b bands -> length (sizes b) = pb_width b /\ forall T, In T (sizes b) -> 1 <= T) as Z1.
  { intros b Hb. destruct (SZ b Hb) as (X & _ & Y). split; auto. intros T HT. apply Y. apply in_or_app; auto. }
  assert (forall b, In b bands -> length (sizes2 b) = pb_width b /\ forall T, In T (sizes2 b) -> 1 <= T) as Z2.
  { intros b Hb. destruct (SZ b Hb) as (_ & X & Y). split; auto. intros T HT. apply Y. apply in_or_app; auto. }
  assert (istate (computed f pr) sizes bands 0) as I0 by (apply istate_init; auto).
  assert (istate q1 sizes2 bands 1) as I1 by (apply (pass_istate (computed f pr) sizes sizes2 bands 0 I0 Z2)).
  assert (istate q2 sizes2 bands (if second then 2 else 1)%nat) as I2.
  { unfold q2. destruct second; auto. apply (pass_istate q1 sizes2 sizes2 bands 1 I1 Z2). }
  split; auto. split; [apply computed_satvecs; auto; apply I2|]. split.
  2: { apply (flows_trans _ (computed f pr)); [apply flows_reordered, reordered_computed, reordered_refl|].
    assert (flows (computed f pr) q1) as F1. { apply flows_tiled; [apply W'|apply sized_disjoint; auto|apply (is_bands _ _ _ _ I0)]. }
    unfold q2. destruct second; auto. eapply flows_trans; [exact F1|]. apply flows_tiled; [apply (is_wf _ _ _ _ I1)|apply sized_disjoint; auto|apply (is_bands _ _ _ _ I1)]. }
  intros AL. rewrite Forall_forall in G.
  assert (tiled_state (computed f pr) sizes bands) as T0.
  { split; auto. split; [intros s Hs; apply PL'; auto|]. split; [apply sized_disjoint; auto|]. split; [|split; [|split]].
    - apply (is_bands _ _ _ _ I0).
    - apply (is_safe _ _ _ _ I0).
    - apply Forall_forall. intros b Hb s k Hs Hk. rewrite cq_stmt. apply (AL b Hb); auto.
    - apply (is_legal _ _ _ _ I0). }
  assert (tiled_state q1 sizes2 bands) as T1.
  { apply tile_state; auto. intros b Hb. destruct (Z1 b Hb). destruct (Z2 b Hb). auto. }
  unfold q2. destruct second; [|apply T1]. assert (tiled_state (tile_scattering_dims q1 (map (with_sizes sizes2) bands)) sizes2 bands) as T2; [|apply T2].
  apply tile_state; auto. intros b Hb. destruct (Z2 b Hb). auto.
Qed.

Lemma ostate_reordered q bands L p done : ostate q bands L p done -> levels_reordered q p.
Proof.
  intros O. split; [apply O|]. split; [apply (os_npar _ _ _ _ _ O)|]. split; [apply (os_hprops _ _ _ _ _ O)|]. split; [rewrite (os_deps _ _ _ _ _ O); auto|].
  intros s Hs. destruct (os_trans _ _ _ _ _ O s Hs) as (r & -> & P). do 5 (split; [reflexivity|]). exact P.
Qed.

(** What is done inside the tiles: the result [p] and, if loops have been moved,
    the recomputed dependence information. *)
Definition inside (f : cst -> bool) (score : prog -> ploop -> Z) (levels : nat) (bands : list pband) (pr : prog) : prog :=
  let '(q, r) := intra_tile_optimize_bands score levels bands pr in if r then recompute f q else q.

Lemma inside_ok f score q sizes bands L : exact_empty f -> istate q sizes bands L -> (1 <= L)%nat -> satvecs_ok q ->
  let p := inside f score L bands q in
  wf_levels p /\ legal p /\ satvecs_ok p /\ levels_reordered q p /\
  (forall b s k, In b bands -> In s (l_stmts (pb_loop b)) -> (k < l_depth (pb_loop b) + L * pb_width b)%nat -> same_level q p s k) /\
  (forall s, ~ some_member (map (fun b => l_stmts (pb_loop b)) bands) s -> stmt_of p s = stmt_of q s) /\
  (Forall (all_loops q) bands -> Forall (pband_ok p) bands /\ Forall (all_loops p) bands).
Proof.
  intros EX IS HL SV p. pose proof (os_bands q sizes bands L IS HL score SV) as O. pose proof (intra_no_change score L bands q) as NC.
  unfold inside in p. destruct (intra_tile_optimize_bands score L bands q) as [p0 r] eqn:E. cbn [fst snd] in *.
  assert (forall s, stmt_of p s = stmt_of p0 s) as ES. { intros s. unfold p. destruct r; auto. apply cq_stmt. }
  assert (Forall (all_loops q) bands -> Forall (pband_ok p0) bands /\ Forall (all_loops p0) bands) as PB.
  { intros AL. rewrite Forall_forall in AL. split; apply Forall_forall; intros b Hb.
    - destruct (is_bstate _ _ _ _ IS b Hb) as [B LS]. pose proof (bs_range _ _ _ B) as R. pose proof (bs_width _ _ _ B) as WI. pose proof (is_wf _ _ _ _ IS) as W.
      assert (pband_ok q b) as P.
      { apply (safe_pband q sizes); auto.
        - intros s Hs. apply (is_plain _ _ _ _ IS). apply (bs_class _ _ _ B); auto.
        - apply (bs_nonempty _ _ _ B).
        - pose proof (is_bands _ _ _ _ IS) as F. rewrite Forall_forall in F. apply F. apply in_map; auto.
        - intros d Hd Rr. pose proof (is_safe _ _ _ _ IS d Hd Rr) as F. rewrite Forall_forall in F. apply F. apply in_map; auto. }
      destruct P as ((P1 & P2 & P3 & P4) & P5 & P6). split; [|split].
      + split; auto. split; [intros s Hs; rewrite (os_len _ _ _ _ _ O); auto|]. split; auto. rewrite (os_hprops _ _ _ _ _ O). auto.
      + intros s k Hs Hk. destruct (os_trans _ _ _ _ _ O s (P2 s Hs)) as (rr & EQ & PE).
        assert (is_hyperplane_scalar (stmt_of p0 s) k = is_hyperplane_scalar (stmt_of q s) k) as ->.
        { unfold is_hyperplane_scalar. assert (s_dim (stmt_of p0 s) = s_dim (stmt_of q s)) as -> by (rewrite EQ; auto).
          apply forallb_ext_in. intros j Hj. unfold mget. rewrite (os_rows _ _ _ _ _ O b s k Hb Hs) by nia. auto. }
        rewrite P5 by auto. unfold loop_level. rewrite EQ. auto.
      + intros d Hd Rr. rewrite (os_deps _ _ _ _ _ O) in Hd. apply (os_wave _ _ _ _ _ O); auto.
    - intros s k Hs Hk. destruct (is_bstate _ _ _ _ IS b Hb) as [B LS]. destruct (os_trans _ _ _ _ _ O s) as (rr & EQ & PE); [apply (bs_class _ _ _ B); auto|].
      unfold loop_level. rewrite EQ. apply (AL b Hb s k); auto. }
  split; [unfold p; destruct r; [apply cq_wf|]; apply (os_wf _ _ _ _ _ O)|].
  split; [unfold p; destruct r; [apply (cq_legal f p0)|]; apply (os_legal _ _ _ _ _ O)|].
  split. { unfold p. destruct r; [apply computed_satvecs; auto; apply (os_wf _ _ _ _ _ O)|]. rewrite NC by auto. auto. }
  split. { unfold p. destruct r; [apply reordered_computed|]; apply (ostate_reordered q bands L p0 _ O). }
  split. { intros b s k Hb Hs Hk. unfold same_level. rewrite ES. apply (os_rows _ _ _ _ _ O b); auto. }
  split. { intros s N. rewrite ES. apply (os_out _ _ _ _ _ O). intros X. apply N. apply in_flat_map in X as (b & Hb & Hs). exists (l_stmts (pb_loop b)). split; auto.
    apply in_map_iff. eauto. }
  intros AL. destruct (PB AL) as [X Y]. unfold p. destruct r; auto. rewrite Forall_forall in X, Y. split; apply Forall_forall; intros b Hb; [apply cq_pband; auto|].
  intros s k Hs Hk. cbn [recompute]. change (recompute f p0) with (computed f p0). rewrite cq_stmt. apply (Y b Hb); auto.
Qed.

Definition sizes_ok (bands : list pband) (sizes sizes2 : pband -> list Z) : Prop :=
  forall b, In b bands -> length (sizes b) = pb_width b /\ length (sizes2 b) = pb_width b /\ (forall T, In T (sizes b ++ sizes2 b) -> 1 <= T).

(** ** C63 *)

(** Reordering loops inside tiles, for any way of scoring loops: the tile loops
    of all bands and the statements outside of bands stay as they are, the other
    levels are only reordered, the order of dependent iterations is kept and
    loops reported parallel are parallel. *)
Theorem C63_inside_tiles : forall f score pr, exact_empty f ->
  wf_levels pr -> plain_levels pr -> uniform pr -> leveled pr ->
  exists bands, bands_to_tile (info f pr) = Some bands /\
  forall sizes sizes2 second multipar innerpar, sizes_ok bands sizes sizes2 ->
  exists q r,
    pluto_tile f score sizes sizes2 (mkTileOptions second false false multipar innerpar) (info f pr) = Some q /\
    pluto_tile f score sizes sizes2 (mkTileOptions second true false multipar innerpar) (info f pr) = Some r /\
    legal r /\ levels_reordered q r /\
    (forall b s k, In b bands -> In s (l_stmts (pb_loop b)) -> (k < l_depth (pb_loop b) + (if second then 2 else 1) * pb_width b)%nat -> same_level q r s k) /\
    (forall s, ~ some_member (map (fun b => l_stmts (pb_loop b)) bands) s -> stmt_of r s = stmt_of q s) /\
    (forall lp, In lp (get_all_loops r) -> loop_is_parallel r lp = true -> parallel_level r (l_stmts lp) (l_depth lp)).
Proof.
  intros f score pr EX W PL UN LV. change (info f pr) with (computed f pr).
  pose proof (cq_wf f pr W) as W'. pose proof (cq_plain f pr PL) as PL'. pose proof (cq_uniform f pr UN) as UN'. pose proof (cq_leveled f pr LV) as LV'.
  assert (forall d, In d (p_deps (computed f pr)) -> d_rar d = false -> info_ok (computed f pr) d) as INF by (intros; apply computed_info; auto).
  destruct (bands_to_tile_ok (computed f pr) W' PL' UN' INF LV') as (bands & E & _). exists bands. split; auto.
  intros sizes sizes2 second mp ip SZ. destruct (tiled_istate f pr bands sizes sizes2 second EX W PL UN LV E SZ) as (I & SV & _ & _).
  set (q1 := tile_scattering_dims (computed f pr) (map (with_sizes sizes) bands)) in *.
  set (q2 := if second then tile_scattering_dims q1 (map (with_sizes sizes2) bands) else q1) in *.
  set (L := if second then 2%nat else 1%nat) in *. apply (computed_istate f) in I.
  destruct (inside_ok f score (computed f q2) sizes2 bands L EX I ltac:(unfold L; destruct second; lia) SV) as (A1 & A2 & A3 & A4 & A5 & A6 & _).
  exists (computed f q2), (inside f score L bands (computed f q2)). unfold pluto_tile. rewrite E. cbn [o_second_level o_intratileopt o_parallel].
  split; [reflexivity|]. split; [reflexivity|]. split; auto. split; auto. split; auto. split; auto.
  intros lp Hl P. apply parallel_sound; auto; [apply A3|apply (all_loops_ok _ _ Hl)].
Qed.
Print Assumptions C63_inside_tiles.

Lemma untiled_ok f score pr bands : exact_empty f -> wf_levels pr -> plain_levels pr -> uniform pr -> leveled pr ->
  get_outermost_permutable_bands (computed f pr) = Some bands ->
  let r := inside f score 0 bands (computed f pr) in
  wf_levels r /\ plain_levels r /\ uniform r /\ leveled r /\ satvecs_ok r /\ levels_reordered pr r /\
  (forall b s k, In b bands -> In s (l_stmts (pb_loop b)) -> (k < l_depth (pb_loop b))%nat -> same_level pr r s k) /\
  (forall s k, loop_level (stmt_of pr s) k = false -> same_level pr r s k) /\
  (forall s, ~ some_member (map (fun b => l_stmts (pb_loop b)) bands) s -> stmt_of r s = stmt_of pr s) /\
  (exists p, r = computed f p /\ wf_levels p /\ plain_levels p /\ uniform p /\ leveled p /\ forall s k, loop_level (stmt_of p s) k = loop_level (stmt_of pr s) k).
Proof.
  intros EX W PL UN LV E r.
  pose proof (cq_wf f pr W) as W'. pose proof (cq_plain f pr PL) as PL'. pose proof (cq_uniform f pr UN) as UN'. pose proof (cq_leveled f pr LV) as LV'.
  assert (forall d, In d (p_deps (computed f pr)) -> d_rar d = false -> info_ok (computed f pr) d) as INF by (intros; apply computed_info; auto).
  destruct (outermost_bands_ok (computed f pr) W' PL' UN' INF LV') as (bands' & E' & G & S). rewrite E in E'. injection E' as <-.
  pose proof (us_bands (computed f pr) W' PL' UN' LV' INF bands G S score) as O. pose proof (intra_no_change score 0 bands (computed f pr)) as NC.
  unfold inside in r. destruct (intra_tile_optimize_bands score 0 bands (computed f pr)) as [p0 x] eqn:EI. cbn [fst snd] in *.
  assert (exists p, r = computed f p /\ (p = p0 \/ p = pr)) as (p & Er & Ep).
  { unfold r. destruct x; [exists p0; auto|]. exists pr. rewrite NC by auto. auto. }
  assert (forall s, stmt_of r s = stmt_of p0 s) as ES. { intros s. unfold r. destruct x; auto. apply (cq_stmt f p0). }
  assert (levels_reordered pr p0) as LRo.
  { split; [rewrite (us_len _ _ _ _ O), cq_stmts; auto|]. split; [rewrite (us_npar _ _ _ _ O), cq_npar; auto|]. split; [rewrite (us_hprops _ _ _ _ O), cq_hprops; auto|].
    split; [rewrite (us_deps _ _ _ _ O), computed_dep_data; auto|]. intros s Hs. destruct (us_trans _ _ _ _ O s) as (rr & -> & P); [rewrite cq_stmts; auto|].
    rewrite cq_stmt in *. do 5 (split; [reflexivity|]). exact P. }
  assert (forall s k, loop_level (stmt_of p0 s) k = loop_level (stmt_of pr s) k) as LL.
  { intros s k. destruct (Nat.lt_ge_cases s (length (p_stmts pr))) as [X|X].
    - destruct (us_trans _ _ _ _ O s) as (rr & -> & P); [rewrite cq_stmts; auto|]. rewrite cq_stmt. reflexivity.
    - unfold stmt_of. rewrite !nth_overflow; auto. rewrite (us_len _ _ _ _ O), cq_stmts; auto. }
  assert (wf_levels p /\ plain_levels p /\ uniform p /\ leveled p /\ (forall s k, loop_level (stmt_of p s) k = loop_level (stmt_of pr s) k)) as (P1 & P2 & P3 & P4 & P5).
  { destruct Ep as [->| ->]; [|auto]. split; [apply O|]. split; [apply (us_plain _ _ _ _ O)|]. split; [apply (us_uniform _ _ _ _ O)|]. split; [apply (us_leveled _ _ _ _ O)|auto]. }
  split; [rewrite Er; apply cq_wf; auto|]. split; [rewrite Er; apply cq_plain; auto|]. split; [rewrite Er; apply cq_uniform; auto|].
  split; [rewrite Er; apply cq_leveled; auto|]. split; [rewrite Er; apply computed_satvecs; auto|].
  split; [unfold r; destruct x; [apply reordered_computed|]; auto|].
  split; [intros b s k Hb Hs Hk; unfold same_level; rewrite ES, (us_rows _ _ _ _ O b) by auto; rewrite cq_stmt; auto|].
  split; [intros s k LF; unfold same_level; rewrite ES, (us_scalar _ _ _ _ O) by (rewrite cq_stmt; auto); rewrite cq_stmt; auto|].
  split. { intros s N. rewrite ES, (us_out _ _ _ _ O), cq_stmt; auto. intros X. apply N. apply in_flat_map in X as (b & Hb & Hs). exists (l_stmts (pb_loop b)). split; auto.
    apply in_map_iff. eauto. }
  exists p. do 5 (split; [assumption|]). assumption.
Qed.

(** The same without tiling: only loops of innermost bands are reordered among
    themselves. *)
Theorem C63_untiled : forall f score pr, exact_empty f ->
  wf_levels pr -> plain_levels pr -> uniform pr -> leveled pr ->
  exists bands r, get_outermost_permutable_bands (info f pr) = Some bands /\
    pluto_intra_tile_optimize f score (info f pr) = Some r /\
    legal r /\ levels_reordered pr r /\ leveled r /\
    (forall b s k, In b bands -> In s (l_stmts (pb_loop b)) -> (k < l_depth (pb_loop b))%nat -> same_level pr r s k) /\
    (forall s k, loop_level (stmt_of pr s) k = false -> same_level pr r s k) /\
    (forall s, ~ some_member (map (fun b => l_stmts (pb_loop b)) bands) s -> stmt_of r s = stmt_of pr s) /\
    (forall lp, In lp (get_all_loops r) -> loop_is_parallel r lp = true -> parallel_level r (l_stmts lp) (l_depth lp)).
Proof.
  intros f score pr EX W PL UN LV. change (info f pr) with (computed f pr).
  pose proof (cq_wf f pr W) as W'. pose proof (cq_plain f pr PL) as PL'. pose proof (cq_uniform f pr UN) as UN'. pose proof (cq_leveled f pr LV) as LV'.
  assert (forall d, In d (p_deps (computed f pr)) -> d_rar d = false -> info_ok (computed f pr) d) as INF by (intros; apply computed_info; auto).
  destruct (outermost_bands_ok (computed f pr) W' PL' UN' INF LV') as (bands & E & G & S). exists bands.
  exists (inside f score 0 bands (computed f pr)). split; auto. split; [unfold pluto_intra_tile_optimize, inside; rewrite E; destruct (intra_tile_optimize_bands _ _ _ _); reflexivity|].
  destruct (untiled_ok f score pr bands EX W PL UN LV E) as (A1 & A2 & A3 & A4 & A5 & A6 & A7 & A8 & A9 & _).
  split. { apply leveled_legal; auto. } do 5 (split; [assumption|]).
  intros lp Hl P. apply parallel_sound; auto; [apply A5|apply (all_loops_ok _ _ Hl)].
Qed.
Print Assumptions C63_untiled.

(** ** C64 *)

(** The bands wavefronts are made of. *)
Definition wavefront_bands (f : cst -> bool) (score : prog -> ploop -> Z) (tile : bool) (o : tile_options) (pr : prog) : option (list pband) :=
  if tile then bands_to_tile (info f pr)
  else match (if o_intratileopt o then pluto_intra_tile_optimize f score (info f pr) else Some (info f pr)) with
       | Some r => get_outermost_permutable_bands r
       | None => None
       end.

Lemma post_transform_full : forall f score pr tile o sizes sizes2, exact_empty f ->
  wf_levels pr -> plain_levels pr -> uniform pr -> leveled pr -> o_innerpar o = false ->
  (tile = true -> forall bands, bands_to_tile (info f pr) = Some bands -> sizes_ok bands sizes sizes2) ->
  (o_parallel o = true -> forall bands b s k, wavefront_bands f score tile o pr = Some bands -> In b bands -> In s (l_stmts (pb_loop b)) ->
     (l_depth (pb_loop b) <= k < l_depth (pb_loop b) + pb_width b)%nat -> loop_level (stmt_of pr s) k = true) ->
  exists r, post_transform f score sizes sizes2 tile o pr = Some r /\ wf_levels r /\ legal r /\
    (exists E, carries pr r E) /\ (distinct_times pr -> distinct_times r) /\
    (forall lp, In lp (get_all_loops r) -> loop_is_parallel r lp = true -> parallel_level r (l_stmts lp) (l_depth lp)).
Proof.
  intros f score pr tile o sizes sizes2 EX W PL UN LV IP SZ AL. unfold wavefront_bands in AL. change (info f pr) with (computed f pr) in *.
  pose proof (cq_wf f pr W) as W'. pose proof (cq_plain f pr PL) as PL'. pose proof (cq_uniform f pr UN) as UN'. pose proof (cq_leveled f pr LV) as LV'.
  assert (forall d, In d (p_deps (computed f pr)) -> d_rar d = false -> info_ok (computed f pr) d) as INF by (intros; apply computed_info; auto).
  unfold post_transform. change (recompute f pr) with (computed f pr). destruct tile.
  - destruct (bands_to_tile_ok (computed f pr) W' PL' UN' INF LV') as (bands & E & _ & SH). specialize (SZ eq_refl bands E).
    destruct o as [second intra par mp ip]. cbn [o_parallel o_innerpar o_intratileopt] in *. subst ip.
    destruct (tiled_istate f pr bands sizes sizes2 second EX W PL UN LV E SZ) as (I & SV & LA & FL0).
    unfold pluto_tile. rewrite E. cbn [o_second_level o_intratileopt o_parallel o_multipar o_innerpar].
    set (q1 := tile_scattering_dims (computed f pr) (map (with_sizes sizes) bands)) in *.
    set (q2 := if second then tile_scattering_dims q1 (map (with_sizes sizes2) bands) else q1) in *.
    set (L := if second then 2%nat else 1%nat) in *. change (recompute f q2) with (computed f q2). apply (computed_istate f) in I.
    set (q4 := if intra then inside f score L bands (computed f q2) else computed f q2).
    change (if intra then let '(q, r) := intra_tile_optimize_bands score L bands (computed f q2) in if r then recompute f q else q else computed f q2) with q4.
    assert (flows pr (computed f q2)) as FL1 by (eapply flows_trans; [exact FL0|]; apply flows_reordered, reordered_computed, reordered_refl).
    assert (wf_levels q4 /\ legal q4 /\ satvecs_ok q4 /\ flows pr q4 /\ (Forall (all_loops (computed f q2)) bands -> Forall (pband_ok q4) bands /\ Forall (all_loops q4) bands)) as (A1 & A2 & A3 & FL4 & A4).
    { unfold q4. destruct intra.
      - destruct (inside_ok f score (computed f q2) sizes2 bands L EX I ltac:(unfold L; destruct second; lia) SV) as (A1 & A2 & A3 & A4 & A5 & A6 & A7).
        do 3 (split; [assumption|]). split; [|auto]. eapply flows_trans; [exact FL1|]. apply flows_reordered; auto.
      - split; [apply I|]. split; [apply (is_legal _ _ _ _ I)|]. split; auto. split; auto. intros AQ. split; auto. rewrite Forall_forall in *. intros b Hb.
        destruct (is_bstate _ _ _ _ I b Hb) as [B LS]. apply (safe_pband _ sizes2); auto.
        + apply I.
        + intros s Hs. apply (is_plain _ _ _ _ I). apply (bs_class _ _ _ B); auto.
        + apply (bs_width _ _ _ B).
        + apply (bs_nonempty _ _ _ B).
        + pose proof (is_bands _ _ _ _ I) as F. rewrite Forall_forall in F. apply F. apply in_map; auto.
        + intros d Hd Rr. pose proof (is_safe _ _ _ _ I d Hd Rr) as F. rewrite Forall_forall in F. apply F. apply in_map; auto. }
    exists (if par then fst (create_tile_schedule mp false q4 bands) else q4). split; [reflexivity|].
    assert (wf_levels (if par then fst (create_tile_schedule mp false q4 bands) else q4) /\ legal (if par then fst (create_tile_schedule mp false q4 bands) else q4) /\ satvecs_ok (if par then fst (create_tile_schedule mp false q4 bands) else q4) /\
      flows pr (if par then fst (create_tile_schedule mp false q4 bands) else q4)) as (B0 & B1 & B2 & FL5 & FL6).
    { destruct par; auto. specialize (AL eq_refl bands).
      assert (forall b, In b bands -> all_loops pr b) as AP. { intros b Hb s k Hs Hk. apply (AL b s k); auto. }
      specialize (LA AP). assert (Forall (all_loops (computed f q2)) bands) as LA'.
      { rewrite Forall_forall in *. intros b Hb s k Hs Hk. rewrite cq_stmt. apply (LA b Hb); auto. }
      destruct (A4 LA') as [C1 C2]. split; [apply schedule_legal; auto|]. split; [apply schedule_legal; auto|]. split; [apply schedule_satvecs; auto|].
      eapply flows_trans; [exact FL4|]. apply flows_schedule; auto. }
    split; auto. split; auto. split; auto. split; auto. intros lp Hl P. apply parallel_sound; auto; [apply B2|apply (all_loops_ok _ _ Hl)].
  - destruct (outermost_bands_ok (computed f pr) W' PL' UN' INF LV') as (bands & E & _).
    assert (exists p, (if o_intratileopt o then pluto_intra_tile_optimize f score (computed f pr) else Some (computed f pr)) = Some (computed f p) /\
       wf_levels p /\ plain_levels p /\ uniform p /\ leveled p /\ (forall s k, loop_level (stmt_of p s) k = loop_level (stmt_of pr s) k) /\ flows pr p) as (p & EP & P1 & P2 & P3 & P4 & P5 & FLP).
    { destruct (o_intratileopt o); [|exists pr; do 6 (split; [auto|]); apply flows_reordered, reordered_refl]. destruct (untiled_ok f score pr bands EX W PL UN LV E) as (_ & _ & _ & _ & _ & LR & _ & _ & _ & p & Q & R1 & R2 & R3 & R4 & R5).
      exists p. split; [|do 5 (split; [assumption|]); rewrite Q in LR; apply flows_reordered, (reordered_uncomputed f); exact LR]. rewrite <- Q. unfold pluto_intra_tile_optimize, inside. rewrite E. destruct (intra_tile_optimize_bands _ _ _ _); reflexivity. }
    rewrite EP in *. pose proof (computed_satvecs f p EX P1) as SV.
    destruct (o_parallel o).
    + unfold computed at 1 2. rewrite satisfaction_again. fold (computed f p). rewrite IP.
      destruct (wavefront_of_loops f p (o_multipar o) EX P1 P2 P3 P4) as (bs & EB & K). change (info f p) with (computed f p) in *. rewrite EB in *.
      eexists. split; [reflexivity|].
      destruct K as (K0 & K1 & [E2 C2] & DT2 & K2). { intros b Hb s k Hs Hk. rewrite P5. apply (AL eq_refl bs b s k); auto. }
      split; [exact K0|]. split; [exact K1|]. destruct FLP as [[E1 C1] FLQ]. split; [exists (after E2 E1); exact (carries_trans _ _ _ _ _ C1 C2)|]. split; [auto|exact K2].
    + exists (computed f p). split; auto. split; [apply cq_wf; auto|]. split; [apply (cq_legal f p); apply leveled_legal; auto|]. destruct (flows_trans _ _ _ FLP (flows_computed f p)) as [F1 F2]. split; [exact F1|]. split; [exact F2|].
      intros lp Hl P. apply parallel_sound; auto; [apply SV|apply (all_loops_ok _ _ Hl)].
Qed.
(** Tiling (once or twice), reordering of loops and wavefronts, in any
    combination: the final order respects all dependences and the loops reported
    parallel are parallel. *)
Theorem C64_post_transform : forall f score pr tile o sizes sizes2, exact_empty f ->
  wf_levels pr -> plain_levels pr -> uniform pr -> leveled pr -> o_innerpar o = false ->
  (tile = true -> forall bands, bands_to_tile (info f pr) = Some bands -> sizes_ok bands sizes sizes2) ->
  (o_parallel o = true -> forall bands b s k, wavefront_bands f score tile o pr = Some bands -> In b bands -> In s (l_stmts (pb_loop b)) ->
     (l_depth (pb_loop b) <= k < l_depth (pb_loop b) + pb_width b)%nat -> loop_level (stmt_of pr s) k = true) ->
  exists r, post_transform f score sizes sizes2 tile o pr = Some r /\ legal r /\
    (exists E, carries pr r E) /\ (distinct_times pr -> distinct_times r) /\
    (forall lp, In lp (get_all_loops r) -> loop_is_parallel r lp = true -> parallel_level r (l_stmts lp) (l_depth lp)).
Proof.
  intros f score pr tile o sizes sizes2 EX W PL UN LV IP SZ AL.
  destruct (post_transform_full f score pr tile o sizes sizes2 EX W PL UN LV IP SZ AL) as (r & R & _ & K). exists r. split; [exact R|exact K].
Qed.
Print Assumptions C64_post_transform.

(** The hypotheses of the theorems hold; preferring outer loops as innermost
    loops exchanges the two loops (inside tiles, if there are tiles). *)
Definition outer_score (_ : prog) (lp : ploop) : Z := - Z.of_nat (l_depth lp).
Example C63_met : wf_levels wave_prog /\ plain_levels wave_prog /\ uniform wave_prog /\ leveled wave_prog /\
  exists f, exact_empty f /\ bands_to_tile (info f wave_prog) = Some [wave_pband] /\ sizes_ok [wave_pband] (fun _ => [2; 2]) (fun _ => [2; 2]) /\
  (exists r, pluto_tile f outer_score (fun _ => [2; 2]) (fun _ => [2; 2]) (mkTileOptions false true false false false) (info f wave_prog) = Some r /\
     mrows (s_trans (stmt_of r 0)) = [[1;0;0;0;0];[0;1;0;0;0];[0;0;0;1;0];[0;0;1;0;0]]) /\
  (exists r, pluto_intra_tile_optimize f outer_score (info f wave_prog) = Some r /\ mrows (s_trans (stmt_of r 0)) = [[0;1;0];[1;0;0]]).
Proof.
  split; [exact wave_wf|]. split; [apply wave_plain|]. split; [apply wave_plain|]. split; [exact wave_leveled|].
  destruct C12_oracle_exists as [f F]. exists (dec_empty f). split; [apply dec_empty_exact; auto|]. split; [vm_compute; reflexivity|].
  split. { intros b [<-|[]]. split; auto. split; auto. intros T HT. cbn in HT. intuition lia. }
  split; eexists; (split; [vm_compute; reflexivity|reflexivity]).
Qed.

Example C64_met : exists f, exact_empty f /\
  (forall tile, wavefront_bands f outer_score tile (mkTileOptions false true true false false) wave_prog = Some [wave_pband]) /\
  (forall s k, In s [0%nat] -> (k < 2)%nat -> loop_level (stmt_of wave_prog s) k = true) /\
  (exists r, post_transform f outer_score (fun _ => [2; 2]) (fun _ => [2; 2]) true (mkTileOptions false true true false false) wave_prog = Some r /\
     mrows (s_trans (stmt_of r 0)) = [[1;1;0;0;0];[0;1;0;0;0];[0;0;0;1;0];[0;0;1;0;0]] /\ get_parallel_loops r = [mkPloop 1 [0%nat]]) /\
  (exists r, post_transform f outer_score (fun _ => []) (fun _ => []) false (mkTileOptions false true true false false) wave_prog = Some r /\
     mrows (s_trans (stmt_of r 0)) = [[1;1;0];[1;0;0]] /\ get_parallel_loops r = [mkPloop 1 [0%nat]]).
Proof.
  destruct C12_oracle_exists as [f F]. exists (dec_empty f). split; [apply dec_empty_exact; auto|].
  split; [intros [|]; vm_compute; reflexivity|]. split. { intros s k [<-|[]] Hk. destruct k as [|[|k]]; [reflexivity|reflexivity|lia]. }
  split; eexists; (split; [vm_compute; reflexivity|split; reflexivity]).
Qed.
