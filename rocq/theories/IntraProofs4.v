(** * Proofs: what tiling keeps of the bands, as needed to reorder loops inside tiles. *)
From Coq Require Import ZArith List Bool Lia Arith.
From Verif Require Import SpecLinear MathModel ConstraintsModel VecProofs EditProofs MatrixProofs ListProofs SpecProg SpecTile SpecLoop
  RankProofs SumProofs FrameworkModel ProgModel DepProofs SimplifyProofs LexProofs ProgProofs TileModel TileProofs TileProofs2 TileProofs3
  LoopModel LoopProofs LoopProofs2 LoopProofs3 LoopProofs4 LoopProofs5 WaveProofs WaveProofs2 IntraModel IntraProofs2 IntraProofs3.
Import ListNotations.
Open Scope Z_scope.

(** Equal constants on the levels [m] .. [k]-1. *)
Definition agree (pr : prog) (m k s t : nat) : Prop :=
  forall j, (m <= j < k)%nat -> loop_level (stmt_of pr s) j = false -> loop_level (stmt_of pr t) j = false ->
    row_const (stmt_of pr s) j = row_const (stmt_of pr t) j.

Lemma fused_agree pr k s t : wf_levels pr -> plain_levels pr -> (s < length (p_stmts pr))%nat -> (t < length (p_stmts pr))%nat ->
  (k <= length (p_hprops pr))%nat -> (fused pr k s t <-> agree pr 0 k s t).
Proof.
  intros W PL Hs Ht Hk. split.
  - intros F j Hj L1 L2. set (i := repeat 0 (s_dim (stmt_of pr s))). set (i' := repeat 0 (s_dim (stmt_of pr t))). set (p := repeat 0 (p_npar pr)).
    assert (length i = s_dim (stmt_of pr s)) as Li by apply repeat_length. assert (length i' = s_dim (stmt_of pr t)) as Li' by apply repeat_length.
    assert (length p = p_npar pr) as Lp by apply repeat_length.
    rewrite <- (const_value pr W PL s j i p), <- (const_value pr W PL t j i' p) by (auto; lia). apply F; auto. lia.
  - intros A j Hj L1 L2 i i' p Li Li' Lp. rewrite !(const_value pr W PL) by (auto; lia). apply A; auto. lia.
Qed.

(** A band of a program whose bands have been tiled [L] times. *)
Record bstate (q : prog) (L : nat) (b : pband) : Prop := {
  bs_nodup : NoDup (l_stmts (pb_loop b));
  bs_nonempty : l_stmts (pb_loop b) <> [];
  bs_width : (1 <= pb_width b)%nat;
  bs_range : (l_depth (pb_loop b) + (L + 1) * pb_width b <= length (p_hprops q))%nat;
  bs_class : class q (l_stmts (pb_loop b)) (l_depth (pb_loop b));
  bs_period : forall s j, In s (l_stmts (pb_loop b)) -> (l_depth (pb_loop b) <= j < l_depth (pb_loop b) + L * pb_width b)%nat ->
    loop_level (stmt_of q s) (j + pb_width b) = loop_level (stmt_of q s) j /\
    (loop_level (stmt_of q s) j = false -> row_const (stmt_of q s) (j + pb_width b) = row_const (stmt_of q s) j);
  bs_shift : forall s t k, In s (l_stmts (pb_loop b)) -> In t (l_stmts (pb_loop b)) ->
    (l_depth (pb_loop b) + L * pb_width b <= k < length (p_hprops q))%nat -> agree q (l_depth (pb_loop b) + L * pb_width b) k s t ->
    loop_level (stmt_of q s) k = loop_level (stmt_of q t) k;
  bs_point : forall d s t p, In d (p_deps q) -> d_rar d = false -> In (d_src d) (l_stmts (pb_loop b)) -> In (d_dst d) (l_stmts (pb_loop b)) ->
    instance q d s t p -> (forall k, (k < l_depth (pb_loop b))%nat -> distance q d k s t p = 0) ->
    forall k, (l_depth (pb_loop b) + L * pb_width b <= k < l_depth (pb_loop b) + (L + 1) * pb_width b)%nat ->
      0 <= distance q d k s t p \/
      exists j, (l_depth (pb_loop b) + L * pb_width b <= j < k)%nat /\ loop_level (stmt_of q (d_src d)) j = false /\
        loop_level (stmt_of q (d_dst d)) j = false /\ 0 < distance q d j s t p }.

Record istate (q : prog) (sizes : pband -> list Z) (bands : list pband) (L : nat) : Prop := {
  is_wf : wf_levels q; is_plain : plain_levels q; is_uniform : uniform q; is_legal : legal q;
  is_share : ForallOrdPairs share_none bands;
  is_bands : Forall (wf_band q) (map (with_sizes sizes) bands);
  is_safe : forall d, In d (p_deps q) -> d_rar d = false -> Forall (fun b => band_safe q b d) (map (with_sizes sizes) bands);
  is_bstate : forall b, In b bands -> bstate q L b /\ length (sizes b) = pb_width b }.

(** Before tiling. *)
Lemma istate_init pr sizes bands : wf_levels pr -> plain_levels pr -> uniform pr -> (forall d, In d (p_deps pr) -> d_rar d = false -> info_ok pr d) ->
  leveled pr -> Forall (good_band pr) bands -> ForallOrdPairs share_none bands ->
  (forall b, In b bands -> length (sizes b) = pb_width b /\ forall T, In T (sizes b) -> 1 <= T) -> istate pr sizes bands 0.
Proof.
  intros W PL UN INF LV G S SZ. rewrite Forall_forall in G. split; auto.
  - apply leveled_legal; auto.
  - apply Forall_forall. intros x Hx. apply in_map_iff in Hx as (b & <- & Hb). destruct (SZ b Hb). apply good_wf; auto.
  - intros d Hd R. apply Forall_forall. intros x Hx. apply in_map_iff in Hx as (b & <- & Hb). destruct (SZ b Hb). apply good_safe; auto.
  - intros b Hb. split; [|apply SZ; auto]. pose proof (G b Hb) as GB. pose proof GB as (G1 & G2 & G3 & G4).
    pose proof (all_loops_ok pr _ G1) as (A1 & A2 & A3 & A4). pose proof (all_loops_class pr W PL UN _ G1) as C. split; auto; try lia.
    + intros s t k Hs Ht Hk A. rewrite Nat.mul_0_l, Nat.add_0_r in *. destruct C as [C1 C2].
      apply UN; auto; try lia. apply fused_agree; auto; try lia. intros j Hj. destruct (Nat.lt_ge_cases j (l_depth (pb_loop b))) as [X|X]; [|apply A; lia].
      assert (fused pr (l_depth (pb_loop b)) s t) as FU by (apply C2; auto). apply fused_agree in FU; auto; try lia. apply FU; lia.
    + intros d s t p Hd R I1 I2 I Z k Hk. rewrite Nat.mul_0_l, Nat.add_0_r in *.
      destruct (good_tilable pr W PL UN INF LV b d GB Hd R I1 I2 s t p I Z k) as [K|K]; [lia|left; apply K|right; exact K].
Qed.

Section Pass.
Variables (q : prog) (sizes sizes2 : pband -> list Z) (bands : list pband) (L : nat).
Hypothesis S : istate q sizes bands L.
Hypothesis SZ2 : forall b, In b bands -> length (sizes2 b) = pb_width b /\ forall T, In T (sizes2 b) -> 1 <= T.
Let bs := map (with_sizes sizes) bands.
Let q' := tile_scattering_dims q bs.
Let n := length (p_stmts q).
Let H := length (p_hprops q).
Let H' := length (p_hprops q').
Let bof := band_of bs.

Let W : wf_levels q. Proof. apply S. Qed.
Let PL : plain_levels q. Proof. apply (is_plain _ _ _ _ S). Qed.
Let UN : uniform q. Proof. apply (is_uniform _ _ _ _ S). Qed.
Let D : disjoint_bands bs. Proof. apply sized_disjoint. apply (is_share _ _ _ _ S). Qed.
Let F : Forall (wf_band q) bs. Proof. apply S. Qed.
Let W' : wf_levels q'. Proof. apply ps_wf; auto. Qed.
Let PL' : plain_levels q'. Proof. apply ps_plain; auto. Qed.
Let LN : length (p_stmts q') = n. Proof. apply ps_len; auto. Qed.

Lemma pb_of b s : In b bands -> In s (l_stmts (pb_loop b)) -> bof s = with_sizes sizes b /\ in_band (bof s) s = true /\ (s < n)%nat.
Proof.
  intros Hb Hs. assert (in_band (with_sizes sizes b) s = true) as E by (apply in_with; auto).
  assert (bof s = with_sizes sizes b) as Q by (apply band_of_in; auto; apply in_map; auto). rewrite Q. split; auto. split; auto.
  destruct (is_bstate _ _ _ _ S b Hb) as [B _]. apply (proj1 (bs_class _ _ _ B)); auto.
Qed.
Lemma pb_base b s k : In b bands -> In s (l_stmts (pb_loop b)) ->
  base (bof s) s k = if (k <? l_depth (pb_loop b) + pb_width b)%nat then k else (k - pb_width b)%nat.
Proof.
  intros Hb Hs. destruct (pb_of b s Hb Hs) as (E1 & E2 & _). unfold base. rewrite E2, E1. cbn [with_sizes b_first b_sizes].
  destruct (is_bstate _ _ _ _ S b Hb) as [_ ->]. auto.
Qed.
Lemma pb_base_lt b s k : In b bands -> In s (l_stmts (pb_loop b)) -> (k < l_depth (pb_loop b) + pb_width b)%nat -> base (bof s) s k = k.
Proof. intros Hb Hs Hk. rewrite (pb_base b) by auto. rewrite (proj2 (Nat.ltb_lt _ _) Hk). auto. Qed.
Lemma pb_cases s : (exists b, In b bands /\ In s (l_stmts (pb_loop b))) \/
  ((forall b, In b bands -> ~ In s (l_stmts (pb_loop b))) /\ forall k, base (bof s) s k = k).
Proof.
  destruct (band_of_cases bs s) as [[C E]|[C E]].
  - left. apply in_map_iff in C as (b & Q & Hb). exists b. split; auto. rewrite <- Q in E. apply in_with in E. auto.
  - right. split.
    + intros b Hb Hs. apply (in_with sizes) in Hs. rewrite E in Hs by (apply in_map; auto). discriminate.
    + intros k. unfold base, bof. rewrite C. reflexivity.
Qed.

Lemma pb_rows b : In b bands -> (H + pb_width b <= H')%nat.
Proof.
  intros Hb. destruct (is_bstate _ _ _ _ S b Hb) as [B SZ]. destruct (l_stmts (pb_loop b)) as [|s r] eqn:E; [destruct (bs_nonempty _ _ _ B E)|].
  assert (In s (l_stmts (pb_loop b))) as Hs by (rewrite E; simpl; auto). destruct (pb_of b s Hb Hs) as (E1 & E2 & Hn).
  pose proof (ps_fold_rows q bs W D F s Hn) as R. cbv zeta in R. fold (bof s) in R. rewrite E2, E1 in R. cbn [with_sizes b_sizes] in R. rewrite SZ in R.
  destruct (ps_pad q bs W D F s Hn) as (_ & _ & z & m & P). pose proof (proj2 W' s ltac:(rewrite LN; auto)) as R'. unfold mnrows in *. fold q' in P. rewrite P, app_length in R'.
  unfold H'. unfold H. lia.
Qed.

Lemma pb_loop' s k : (s < n)%nat -> (k < H')%nat ->
  loop_level (stmt_of q' s) k = if (base (bof s) s k <? H)%nat then loop_level (stmt_of q s) (base (bof s) s k) else false.
Proof. apply ps_loop; auto. Qed.
Lemma pb_const s k : (s < n)%nat -> (k < H')%nat -> loop_level (stmt_of q' s) k = false ->
  row_const (stmt_of q' s) k = if (base (bof s) s k <? H)%nat then row_const (stmt_of q s) (base (bof s) s k) else 0.
Proof. apply ps_const; auto. Qed.

(** Statements of different bands differ before both bands start. *)
Lemma pb_differ b s t : In b bands -> In s (l_stmts (pb_loop b)) -> ~ In t (l_stmts (pb_loop b)) -> (t < n)%nat ->
  exists m, (m <= l_depth (pb_loop b))%nat /\ (forall j, (j <= m)%nat -> base (bof s) s j = j /\ base (bof t) t j = j) /\ (m < H)%nat /\
    loop_level (stmt_of q s) m = false /\ loop_level (stmt_of q t) m = false /\ row_const (stmt_of q s) m <> row_const (stmt_of q t) m /\ (m < l_depth (pb_loop b))%nat.
Proof.
  intros Hb Hs Nt Ht. destruct (is_bstate _ _ _ _ S b Hb) as [B _]. destruct (pb_of b s Hb Hs) as (_ & _ & Hn). pose proof (bs_range _ _ _ B) as R. fold H in R.
  destruct (pb_cases t) as [(b' & Hb' & Ht')|[N E]].
  - destruct (is_bstate _ _ _ _ S b' Hb') as [B' _].
    assert (~ In s (l_stmts (pb_loop b'))) as Ns.
    { intros X. destruct (pb_of b s Hb Hs) as (Q1 & _). destruct (pb_of b' s Hb' X) as (Q2 & _). apply Nt. rewrite Q1 in Q2. injection Q2 as -> _ _. auto. }
    set (m := Nat.min (l_depth (pb_loop b)) (l_depth (pb_loop b'))).
    destruct (fused_cases q W PL m s t) as [FU|(j & Hj & A & B0 & C)]; auto; [fold H; lia| |].
    + exfalso. destruct (Nat.le_ge_cases (l_depth (pb_loop b)) (l_depth (pb_loop b'))) as [X|X].
      * apply Nt. apply (proj2 (bs_class _ _ _ B) s t); auto. unfold m in FU. rewrite Nat.min_l in FU by auto. auto.
      * apply Ns. apply (proj2 (bs_class _ _ _ B') t s); auto. apply fused_sym. unfold m in FU. rewrite Nat.min_r in FU by auto. auto.
    + exists j. split; [lia|]. split.
      * intros i Hi. rewrite (pb_base b s i), (pb_base b' t i) by auto. pose proof (bs_width _ _ _ B'). pose proof (bs_width _ _ _ B).
        rewrite !(proj2 (Nat.ltb_lt _ _)) by lia. auto.
      * split; [lia|]. repeat (split; [assumption|]). lia.
  - destruct (fused_cases q W PL (l_depth (pb_loop b)) s t) as [FU|(j & Hj & A & B0 & C)]; auto; [fold H; lia| |].
    + exfalso. apply Nt. apply (proj2 (bs_class _ _ _ B) s t); auto.
    + exists j. split; [lia|]. split.
      * intros i Hi. rewrite (pb_base b s i), (E i) by auto. pose proof (bs_width _ _ _ B). rewrite !(proj2 (Nat.ltb_lt _ _)) by lia. auto.
      * split; [lia|]. repeat (split; [assumption|]). lia.
Qed.

Lemma pb_uniform_base s t k : (s < n)%nat -> (t < n)%nat -> (k < H')%nat -> (forall j, (j <= k)%nat -> base (bof t) t j = base (bof s) s j) ->
  (forall j, (j < base (bof s) s k)%nat -> exists j', (j' < k)%nat /\ base (bof s) s j' = j) ->
  agree q' 0 k s t -> loop_level (stmt_of q' s) k = loop_level (stmt_of q' t) k.
Proof.
  intros Hs Ht Hk SB OT A. rewrite !pb_loop' by auto. rewrite SB by auto. destruct (Nat.ltb_spec (base (bof s) s k) H) as [X|X]; auto.
  apply UN; auto. apply fused_agree; auto; [fold H; lia|]. intros j Hj L1 L2. destruct (OT j ltac:(lia)) as (j' & J1 & J2).
  assert (loop_level (stmt_of q' s) j' = false) as E1 by (rewrite pb_loop', J2, (proj2 (Nat.ltb_lt _ _)) by (auto; lia); auto).
  assert (loop_level (stmt_of q' t) j' = false) as E2 by (rewrite pb_loop', SB, J2, (proj2 (Nat.ltb_lt _ _)) by (auto; lia); auto).
  specialize (A j' ltac:(lia) E1 E2). rewrite !pb_const in A by (auto; lia). rewrite SB, J2, (proj2 (Nat.ltb_lt _ _)) in A by lia. auto.
Qed.

Lemma pb_uniform_apart b s t k : In b bands -> In s (l_stmts (pb_loop b)) -> ~ In t (l_stmts (pb_loop b)) -> (t < n)%nat -> (k < H')%nat ->
  agree q' 0 k s t -> loop_level (stmt_of q' s) k = loop_level (stmt_of q' t) k.
Proof.
  intros Hb Hs Nt Ht Hk A. destruct (pb_differ b s t Hb Hs Nt Ht) as (m & M1 & M2 & M3 & M4 & M5 & M6 & M7). destruct (pb_of b s Hb Hs) as (_ & _ & Hn).
  destruct (Nat.lt_ge_cases m k) as [X|X].
  - exfalso. apply M6. destruct (M2 m (le_n m)) as [E1 E2].
    assert (loop_level (stmt_of q' s) m = false) as L1 by (rewrite pb_loop', E1, (proj2 (Nat.ltb_lt _ _)) by (auto; lia); auto).
    assert (loop_level (stmt_of q' t) m = false) as L2 by (rewrite pb_loop', E2, (proj2 (Nat.ltb_lt _ _)) by (auto; lia); auto).
    specialize (A m ltac:(lia) L1 L2). rewrite !pb_const in A by (auto; lia). rewrite E1, E2, (proj2 (Nat.ltb_lt _ _)) in A by lia. auto.
  - apply pb_uniform_base; auto.
    + intros j Hj. destruct (M2 j ltac:(lia)) as [-> ->]. auto.
    + intros j Hj. destruct (M2 k X) as [E _]. rewrite E in Hj. exists j. split; auto. apply M2. lia.
Qed.

Lemma pb_uniform : uniform q'.
Proof.
  intros s t k Hs Ht Hk FU. rewrite LN in Hs, Ht. apply fused_agree in FU; auto; try (rewrite LN; auto); try lia. fold H' in Hk.
  destruct (pb_cases s) as [(b & Hb & Is)|[Ns Es]].
  - destruct (in_dec Nat.eq_dec t (l_stmts (pb_loop b))) as [It|It]; [|apply (pb_uniform_apart b); auto].
    apply pb_uniform_base; auto.
    + intros j Hj. rewrite !(pb_base b) by auto. auto.
    + intros j. rewrite (pb_base b) by auto. intros Hj. pose proof (pb_rows b Hb). destruct (is_bstate _ _ _ _ S b Hb) as [B _]. pose proof (bs_width _ _ _ B).
      destruct (Nat.lt_ge_cases j (l_depth (pb_loop b) + pb_width b)) as [X|X].
      * exists j. rewrite (pb_base b) by auto. rewrite (proj2 (Nat.ltb_lt _ _) X). split; auto. revert Hj. destruct (Nat.ltb_spec k (l_depth (pb_loop b) + pb_width b)); lia.
      * exists (j + pb_width b)%nat. rewrite (pb_base b) by auto. rewrite (proj2 (Nat.ltb_ge _ _)) by lia. split; [|lia].
        revert Hj. destruct (Nat.ltb_spec k (l_depth (pb_loop b) + pb_width b)); lia.
  - destruct (pb_cases t) as [(b & Hb & It)|[Nt Et]].
    + symmetry. apply (pb_uniform_apart b); auto. intros j Hj L1 L2. symmetry. apply FU; auto.
    + apply pb_uniform_base; auto.
      * intros j Hj. rewrite Es, Et. auto.
      * intros j. rewrite Es. intros Hj. exists j. auto.
Qed.

Lemma pb_class b : In b bands -> class q' (l_stmts (pb_loop b)) (l_depth (pb_loop b)).
Proof.
  intros Hb. destruct (is_bstate _ _ _ _ S b Hb) as [B _]. destruct (bs_class _ _ _ B) as [C1 C2]. pose proof (bs_range _ _ _ B) as R. fold H in R.
  pose proof (bs_width _ _ _ B) as WI. pose proof (pb_rows b Hb) as RW. split; [intros s Hs; rewrite LN; apply C1; auto|].
  intros s t Hs Ht. rewrite LN in Ht. pose proof (C1 s Hs) as Hn. fold n in Hn. split.
  - intros It. apply fused_agree; auto; try (rewrite LN; auto). { fold H'. lia. }
    assert (fused q (l_depth (pb_loop b)) s t) as FU by (apply C2; auto). apply fused_agree in FU; auto; [|fold H; lia].
    assert (forall x j, In x (l_stmts (pb_loop b)) -> (j < l_depth (pb_loop b))%nat -> base (bof x) x j = j) as EB by (intros; apply (pb_base_lt b); auto; lia).
    intros j Hj L1 L2. rewrite !pb_const, !EB by (auto; lia). rewrite pb_loop', EB in L1, L2 by (auto; lia).
    rewrite (proj2 (Nat.ltb_lt j H)) in * by lia. apply FU; auto.
  - intros FU. destruct (in_dec Nat.eq_dec t (l_stmts (pb_loop b))) as [It|It]; auto. exfalso.
    apply fused_agree in FU; auto; try (rewrite LN; auto). 2: { fold H'. lia. }
    destruct (pb_differ b s t Hb Hs It Ht) as (m & M1 & M2 & M3 & M4 & M5 & M6 & M7). apply M6. destruct (M2 m (le_n m)) as [E1 E2].
    assert (loop_level (stmt_of q' s) m = false) as L1 by (rewrite pb_loop', E1, (proj2 (Nat.ltb_lt _ _)) by (auto; lia); auto).
    assert (loop_level (stmt_of q' t) m = false) as L2 by (rewrite pb_loop', E2, (proj2 (Nat.ltb_lt _ _)) by (auto; lia); auto).
    specialize (FU m ltac:(lia) L1 L2). rewrite !pb_const in FU by (auto; lia). rewrite E1, E2, (proj2 (Nat.ltb_lt _ _)) in FU by lia. auto.
Qed.

Lemma pb_bstate b : In b bands -> bstate q' (L + 1) b.
Proof.
  intros Hb. destruct (is_bstate _ _ _ _ S b Hb) as [B SZ]. pose proof (bs_range _ _ _ B) as R. fold H in R.
  pose proof (bs_width _ _ _ B) as WI. pose proof (pb_rows b Hb) as RW. pose proof (proj1 (bs_class _ _ _ B)) as C1. fold n in C1.
  set (f := l_depth (pb_loop b)) in *. set (w := pb_width b) in *. split.
  - apply (bs_nodup _ _ _ B).
  - apply (bs_nonempty _ _ _ B).
  - exact WI.
  - fold H' f w. lia.
  - apply pb_class; auto.
  - fold f w. intros s j Hs Hj. pose proof (C1 s Hs) as Hn.
    assert (base (bof s) s (j + w) = j) as E1 by (rewrite (pb_base b) by auto; fold f w; rewrite (proj2 (Nat.ltb_ge _ _)) by lia; lia).
    assert (j < H)%nat as JH by lia.
    assert (loop_level (stmt_of q' s) (j + w) = loop_level (stmt_of q s) j) as L1 by (rewrite pb_loop', E1, (proj2 (Nat.ltb_lt _ _)) by (auto; lia); auto).
    assert (loop_level (stmt_of q s) j = false -> row_const (stmt_of q' s) (j + w) = row_const (stmt_of q s) j) as K1.
    { intros X. rewrite pb_const, E1, (proj2 (Nat.ltb_lt _ _)) by (auto; try lia; congruence). auto. }
    rewrite L1. destruct (Nat.lt_ge_cases j (f + w)) as [X|X].
    + assert (base (bof s) s j = j) as E2 by (rewrite (pb_base b) by auto; fold f w; rewrite (proj2 (Nat.ltb_lt _ _)) by lia; lia).
      assert (loop_level (stmt_of q' s) j = loop_level (stmt_of q s) j) as L2 by (rewrite pb_loop', E2, (proj2 (Nat.ltb_lt _ _)) by (auto; lia); auto).
      rewrite L2. split; auto. intros Y. rewrite (pb_const s j), E2, (proj2 (Nat.ltb_lt _ _)) by (auto; try lia; congruence). auto.
    + assert (base (bof s) s j = j - w)%nat as E2 by (rewrite (pb_base b) by auto; fold f w; rewrite (proj2 (Nat.ltb_ge _ _)) by lia; lia).
      assert (loop_level (stmt_of q' s) j = loop_level (stmt_of q s) (j - w)) as L2 by (rewrite pb_loop', E2, (proj2 (Nat.ltb_lt _ _)) by (auto; lia); auto).
      destruct (bs_period _ _ _ B s (j - w)%nat Hs) as [P1 P2]; [fold f w; lia|]. fold w in P1, P2. replace (j - w + w)%nat with j in P1, P2 by lia.
      rewrite L2. split; auto. intros Y. rewrite (pb_const s j), E2, (proj2 (Nat.ltb_lt _ _)) by (auto; try lia; congruence). rewrite K1 by congruence. auto.
  - fold f w. intros s t k Hs Ht Hk A. pose proof (C1 s Hs) as Hn. pose proof (C1 t Ht) as Hm. fold H' in Hk.
    assert (forall s, In s (l_stmts (pb_loop b)) -> forall j, (f + w <= j)%nat -> base (bof s) s j = (j - w)%nat) as EB.
    { intros x Hx j Hj. rewrite (pb_base b) by auto. fold f w. rewrite (proj2 (Nat.ltb_ge _ _)) by lia. auto. }
    rewrite !pb_loop', !EB by (auto; lia). destruct (Nat.ltb_spec (k - w) H) as [X|X]; auto.
    apply (bs_shift _ _ _ B); auto; fold f w; [fold H; lia|]. intros j Hj L1 L2.
    assert (loop_level (stmt_of q' s) (j + w) = false) as M1.
    { rewrite pb_loop', EB by (auto; lia). replace (j + w - w)%nat with j by lia. rewrite (proj2 (Nat.ltb_lt _ _)) by lia. auto. }
    assert (loop_level (stmt_of q' t) (j + w) = false) as M2.
    { rewrite pb_loop', EB by (auto; lia). replace (j + w - w)%nat with j by lia. rewrite (proj2 (Nat.ltb_lt _ _)) by lia. auto. }
    specialize (A (j + w)%nat ltac:(lia) M1 M2). rewrite !pb_const, !EB in A by (auto; lia). replace (j + w - w)%nat with j in A by lia.
    rewrite (proj2 (Nat.ltb_lt _ _)) in A by lia. auto.
  - fold f w. intros d' x y p Hd' R' I1 I2 I Z k Hk.
    destruct (scattering_tiled q bs (proj1 W) D F) as [_ (A1 & A2 & A3 & A4 & A5)]. fold q' in A5.
    destruct (Forall2_in_r _ _ _ d' A5 Hd') as (d & Hd & B1 & B2 & B3 & B4 & B5 & B6). rewrite B1 in I1. rewrite B2 in I2. rewrite B3 in R'.
    apply B6 in I as (s & t & I & -> & ->). pose proof I as (L1 & L2 & L3 & _).
    pose proof (C1 _ I1) as N1. pose proof (C1 _ I2) as N2.
    assert (forall s i, In s (l_stmts (pb_loop b)) -> length i = s_dim (stmt_of q s) -> forall j, (j < H')%nat ->
      (j < f -> theta (stmt_of q' s) j (tile_point q (bof s) s i p) p = theta (stmt_of q s) j i p)%nat /\
      (f + w <= j -> j - w < H -> theta (stmt_of q' s) j (tile_point q (bof s) s i p) p = theta (stmt_of q s) (j - w) i p)%nat) as TH.
    { intros u i Hu Li j Hj. pose proof (C1 u Hu) as Nu. destruct (pb_of b u Hb Hu) as (E1 & E2 & _).
      pose proof (ps_time q bs W D F u j i p Nu Hj Li L3) as PT. fold (bof u) q' H in PT. rewrite (pb_base b) in PT by auto. fold f w in PT.
      rewrite E2 in PT. assert (b_first (bof u) = f /\ b_sizes (bof u) = sizes b) as [X1 X2] by (rewrite E1; auto). rewrite X1, X2 in PT. cbn [with_sizes b_first b_sizes] in PT. rewrite SZ in PT. fold f w in PT. cbn [andb] in PT.
      split; [intros X|intros X Y]; rewrite PT.
      - destruct (Nat.ltb_spec j (f + w)); [|lia]. destruct (Nat.ltb_spec j H); [|lia]. destruct (Nat.leb_spec f j); [lia|]. reflexivity.
      - destruct (Nat.ltb_spec j (f + w)); [lia|]. rewrite andb_false_r. destruct (Nat.ltb_spec (j - w) H); [|lia]. reflexivity. }
    assert (forall j, (j < f)%nat -> distance q' d' j (tile_point q (bof (d_src d)) (d_src d) s p) (tile_point q (bof (d_dst d)) (d_dst d) t p) p = distance q d j s t p) as DA.
    { intros j Hj. unfold distance. rewrite B1, B2. destruct (TH _ s I1 L1 j ltac:(lia)) as [-> _]; auto. destruct (TH _ t I2 L2 j ltac:(lia)) as [-> _]; auto. }
    assert (forall j, (f + w <= j)%nat -> (j < H')%nat -> (j - w < H)%nat -> distance q' d' j (tile_point q (bof (d_src d)) (d_src d) s p) (tile_point q (bof (d_dst d)) (d_dst d) t p) p = distance q d (j - w) s t p) as DB.
    { intros j Hj Y X. unfold distance. rewrite B1, B2. destruct (TH _ s I1 L1 j Y) as [_ ->]; auto. destruct (TH _ t I2 L2 j Y) as [_ ->]; auto. }
    destruct (bs_point _ _ _ B d s t p Hd R' I1 I2 I) with (k := (k - w)%nat) as [K|(j & J1 & J2 & J3 & J4)].
    + fold f. intros j Hj. rewrite <- DA by auto. apply Z. auto.
    + fold f w. lia.
    + left. fold bof. rewrite DB by lia. auto.
    + fold f w in J1. right. exists (j + w)%nat. split; [lia|]. fold bof. rewrite DB by lia. replace (j + w - w)%nat with j by lia. rewrite B1, B2.
      rewrite !pb_loop', !(pb_base b) by (auto; lia). fold f w. rewrite !(proj2 (Nat.ltb_ge (j + w) _)) by lia. replace (j + w - w)%nat with j by lia.
      rewrite (proj2 (Nat.ltb_lt j H)) by lia. auto.
Qed.

Lemma pass_istate : istate q' sizes2 bands (L + 1).
Proof.
  assert (forall b, In b bands -> length (sizes b) = length (sizes2 b) /\ forall T, In T (sizes2 b) -> 1 <= T) as SE.
  { intros b Hb. destruct (SZ2 b Hb) as [X Y]. destruct (is_bstate _ _ _ _ S b Hb) as [_ Z]. split; [congruence|auto]. }
  pose proof (same_levels_sizes sizes sizes2 bands SE) as SL. fold bs in SL.
  destruct (scattering_again q bs _ (proj1 W) D F (is_safe _ _ _ _ S) (fun s Hs => proj1 (PL s Hs)) SL) as (D2 & F2 & SF2 & TO2).
  split; auto.
  - apply pb_uniform.
  - apply scattering_legal; auto; [apply W|apply (is_safe _ _ _ _ S)|apply (is_legal _ _ _ _ S)].
  - apply (is_share _ _ _ _ S).
  - intros b Hb. split; [apply pb_bstate; auto|apply SZ2; auto].
Qed.
End Pass.

(** Recomputing the dependence information. *)
Lemma computed_istate f q sizes bands L : istate q sizes bands L -> istate (computed f q) sizes bands L.
Proof.
  intros S. split.
  - apply cq_wf, S.
  - apply cq_plain, (is_plain _ _ _ _ S).
  - apply cq_uniform, (is_uniform _ _ _ _ S).
  - apply cq_legal, (is_legal _ _ _ _ S).
  - apply S.
  - apply Forall_forall. intros b Hb. apply cq_wf_band. apply (proj1 (Forall_forall _ _) (is_bands _ _ _ _ S) b Hb).
  - intros d' Hd' R. destruct (cq_dep f q d' Hd') as (d & Hd & E). apply Forall_forall. intros b Hb. apply (cq_band_safe f q _ d); auto.
    rewrite (cq_rar d d') in R by auto. apply (proj1 (Forall_forall _ _) (is_safe _ _ _ _ S d Hd R) b Hb).
  - intros b Hb. destruct (is_bstate _ _ _ _ S b Hb) as [B SZ]. split; auto. destruct B as [B1 B2 B3 B4 B5 B6 B7 B8].
    split; auto; unfold class, fused, agree in *; rewrite ?cq_hprops, ?cq_stmts; try setoid_rewrite cq_stmt; auto.
    + setoid_rewrite cq_npar. auto.
    + intros d' s t p Hd' R I1 I2 I Z k Hk. destruct (cq_dep f q d' Hd') as (d & Hd & E). pose proof E as (E1 & E2 & E3 & _).
      rewrite E1 in *. rewrite E2 in *. rewrite E3 in R. apply (cq_instance f q d d') in I; auto.
      destruct (B8 d s t p Hd R I1 I2 I) with (k := k) as [K|(j & J1 & J2 & J3 & J4)]; auto.
      * intros j Hj. rewrite <- (cq_distance f q d d') by auto. auto.
      * left. rewrite (cq_distance f q d d') by auto. auto.
      * right. exists j. rewrite (cq_distance f q d d') by auto. auto.
Qed.
