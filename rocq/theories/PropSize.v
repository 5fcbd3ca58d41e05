(** * Properties of the choice of tile sizes: C56, C62. *)
From Coq Require Import ZArith QArith List Bool Lia Arith.
From Verif Require Import SpecLinear MathModel ConstraintsModel VecProofs EditProofs MatrixProofs SpecProg SpecTile SpecLoop
  FrameworkModel ProgModel DepProofs ProgProofs TileModel TileProofs TileProofs2 TileProofs3
  LoopModel LoopProofs LoopProofs2 LoopProofs3 LoopProofs4 LoopProofs5 WaveProofs WaveProofs2 TileSizeModel SizeProofs
  Checkers ExProg PropFramework PropAuto PropTile PropLoop PropWave.
Import ListNotations.
Open Scope Z_scope.

(** ** C56 *)

(** [r] is a positive multiple of [f], and no other positive multiple is closer
    to [num]. *)
Definition nearest_positive_multiple (num f r : Z) : Prop :=
  (exists k, 1 <= k /\ r = k * f) /\ forall k, 1 <= k -> Z.abs (r - num) <= Z.abs (k * f - num).

(** Tile sizes and factors that fit: the sum fits into 32 bits. *)
Theorem C56_rounded : forall num f, 1 <= f <= 2 ^ 31 -> 0 <= num -> num + f < 2 ^ 32 ->
  exists r, round_tile_size num f = Some r /\ nearest_positive_multiple num f r.
Proof.
  intros num f Hf Hn Hb. destruct (round_tile_size num f) as [r|] eqn:E; [|exfalso; apply (round_defined num f); [lia|auto]].
  exists r. split; auto. destruct (round_spec num f r Hf Hn Hb E) as (A & _ & B). split; auto.
Qed.
Print Assumptions C56_rounded.

(** Larger sizes wrap around: the result is 0. *)
Theorem C56_large_refuted : exists num f, 1 <= f /\ f <= num < 2 ^ 32 /\
  exists r, round_tile_size num f = Some r /\ r = 0 /\ ~ nearest_positive_multiple num f r.
Proof.
  exists (2 ^ 32 - 1), 2. split; [lia|]. split; [lia|]. exists 0. split; [reflexivity|]. split; [reflexivity|].
  intros [(k & K1 & K2) _]. lia.
Qed.
Print Assumptions C56_large_refuted.

(** For a factor above 2^31 the test 2 * r < factor wraps as well: the size is
    rounded down although the next multiple is closer. *)
Theorem C56_large_factor_refuted : exists num f, 1 <= f < 2 ^ 32 /\ f <= num < 2 ^ 32 /\
  exists r, round_tile_size num f = Some r /\ ~ nearest_positive_multiple num f r.
Proof.
  exists (2 ^ 32 - 1), (2 ^ 31 + 1). split; [lia|]. split; [lia|]. eexists. split; [vm_compute; reflexivity|].
  intros [(k & K1 & K2) B]. assert (k = 1 \/ 2 <= k) as [->|] by lia; [|lia]. specialize (B 2 ltac:(lia)). vm_compute in B. congruence.
Qed.
Print Assumptions C56_large_factor_refuted.

Example C56_met : round_tile_size 44 8 = Some 48 /\ round_tile_size 43 8 = Some 40 /\ round_tile_size 3 8 = Some 8.
Proof. repeat split; reflexivity. Qed.

(** ** C62.  Automatic tile sizes *)

(** If the selection returns sizes, there is one for each level of the band, at
    least one and representable; it is one of the fixed sizes or a positive
    multiple of the unroll factor. *)
Theorem C62_automatic : forall conv ufactor pr diamond best loop_reuse root b sizes,
  (forall q, 0 <= conv q < 2 ^ 30) -> 1 <= ufactor <= 2 ^ 30 ->
  find_tile_sizes conv pr diamond best loop_reuse ufactor root b = Some sizes ->
  length sizes = pb_width b /\
  forall T, In T sizes -> 1 <= T < 2 ^ 31 /\ (T = 32 \/ T = 512 \/ T = 42 \/ exists k, 1 <= k /\ T = k * ufactor).
Proof.
  intros conv uf pr di best lr root b l CV UF E. destruct (find_sizes_good conv CV uf UF pr di best lr root b l E) as [A B].
  split; auto. rewrite Forall_forall in B. auto.
Qed.
Print Assumptions C62_automatic.

(** It returns sizes if all loops from the band on inwards are in the band and
    one of them is parallel. *)
Theorem C62_automatic_defined : forall conv ufactor pr diamond best loop_reuse root b,
  (forall q, 0 <= conv q < 2 ^ 30) -> 1 <= ufactor <= 2 ^ 30 -> (1 <= pb_width b)%nat ->
  (forall k, In k best -> (k < pb_width b)%nat) ->
  let loops := get_loops_under pr (l_stmts (pb_loop b)) (l_depth (pb_loop b)) in
  (forall lp, In lp loops -> (l_depth lp < l_depth (pb_loop b) + pb_width b)%nat) ->
  (exists lp, In lp loops /\ forall s, In s (l_stmts lp) -> loop_is_parallel_for_stmt pr lp s = true) ->
  find_tile_sizes conv pr diamond best loop_reuse ufactor root b <> None.
Proof. intros. apply find_sizes_defined; auto. lia. Qed.
Print Assumptions C62_automatic_defined.

(** If no loop of the band is parallel, an array of flags is read behind its end. *)
Theorem C62_no_parallel_loop_refuted : exists f pr b, exact_empty f /\ wf_levels pr /\ leveled pr /\
  bands_to_tile (info f pr) = Some [b] /\
  forall conv best loop_reuse ufactor root, find_tile_sizes conv (info f pr) false best loop_reuse ufactor root b = None.
Proof.
  destruct C12_oracle_exists as [f F]. exists (dec_empty f), wave_prog, wave_pband. split; [apply dec_empty_exact; auto|].
  split; [exact wave_wf|]. split; [exact wave_leveled|]. split; [vm_compute; reflexivity|].
  intros conv best lr uf root. unfold find_tile_sizes, find_tile_sizes_band.
  change (pb_width wave_pband =? 1)%nat with false. cbv iota.
  destruct (vectorizable_dims _ _ _) as [vec|] eqn:V; auto. apply vec_length in V. rewrite repeat_length in V. cbv zeta.
  assert (par_loop_depth (info (dec_empty f) wave_prog) wave_pband = 2%nat) as -> by (vm_compute; reflexivity).
  rewrite V. reflexivity.
Qed.
Print Assumptions C62_no_parallel_loop_refuted.

(** for i, j, k with the dependence (0, 1, -1): the band is i, j, and the reuse of
    loop k is written behind the end of the array. *)
Definition below_dep : dep := ex_dep 0 0 false
  (mkCst 7 ([eq [-1;0;0;1;0;0;0]; eq [0;-1;0;0;1;0;-1]; eq [0;0;-1;0;0;1;1]] ++ box6)).
Definition below_prog : prog := mkProg 3 0 [loops3] [below_dep] [H_LOOP; H_LOOP; H_LOOP].
Definition below_band : pband := mkPband (mkPloop 0 [0%nat]) 2.
Lemma below_ok : wf_levels below_prog /\ plain_levels below_prog /\ uniform below_prog /\ leveled below_prog.
Proof.
  destruct (loops3_prog [below_dep]) as (A & B & C).
  { intros d [<-|[]]. split; [reflexivity|split; [reflexivity|split; [wf|reflexivity]]]. }
  split; [exact A|]. split; [exact B|]. split; [exact C|].
  intros d [<-|[]] _. exists 1%nat. split; [simpl; lia|]. split; [|intros j Hj; destruct j as [|j]; [|lia]].
  all: intros s t p I; instance_cases; unfold distance, theta, aff; cbn -[Z.mul Z.add Z.sub]; lia.
Qed.

Theorem C62_loop_below_refuted : exists f pr b, exact_empty f /\ wf_levels pr /\ leveled pr /\
  bands_to_tile (info f pr) = Some [b] /\
  forall conv loop_reuse ufactor root, find_tile_sizes conv (info f pr) false [] loop_reuse ufactor root b = None.
Proof.
  destruct C12_oracle_exists as [f F]. exists (dec_empty f), below_prog, below_band. split; [apply dec_empty_exact; auto|].
  split; [apply below_ok|]. split; [apply below_ok|]. split; [vm_compute; reflexivity|]. intros conv lr uf root.
  unfold find_tile_sizes, find_tile_sizes_band. change (pb_width below_band =? 1)%nat with false. cbv iota.
  change (pb_width below_band) with 2%nat. cbn [vectorizable_dims repeat]. cbv zeta.
  assert (par_loop_depth (info (dec_empty f) below_prog) below_band = 0%nat) as -> by (vm_compute; reflexivity).
  cbn [length Nat.leb].
  assert (has_wavefront (info (dec_empty f) below_prog) below_band = false) as -> by (vm_compute; reflexivity). cbn [andb].
  assert (get_loops_under (info (dec_empty f) below_prog) (l_stmts (pb_loop below_band)) (l_depth (pb_loop below_band))
    = [mkPloop 2 [0%nat]; mkPloop 1 [0%nat]; mkPloop 0 [0%nat]]) as -> by (vm_compute; reflexivity).
  reflexivity.
Qed.
Print Assumptions C62_loop_below_refuted.

(** for i, j: a[i][j] = f(a[i][j-1]) with 6 uses of reuse along j. *)
Example C62_automatic_met : exists f, exact_empty f /\
  bands_to_tile (info f par_prog) = Some [mkPband (mkPloop 0 [0%nat]) 2] /\
  find_tile_sizes (fun q => Z.min (Qnum q / Zpos (Qden q)) 1000) (info f par_prog) false []
    (fun lp => if (l_depth lp =? 1)%nat then 6#1 else 3#1) 8 13 (mkPband (mkPloop 0 [0%nat]) 2) = Some [32; 80].
Proof.
  destruct C12_oracle_exists as [f F]. exists (dec_empty f). split; [apply dec_empty_exact; auto|]. split; vm_compute; reflexivity.
Qed.

(** ** C62.  Tile sizes from the file *)

(** The loop levels of a band get the numbers of the file in order; when they
    run out the old sizes stay.  Then follow the numbers for the second level of
    tiles, one for each level; if there are not enough of them, all are 8.  (If
    exactly one number is missing, the result depends on how the file ends.) *)
Theorem C62_file : forall nums newline is_loop n sizes ratios s r,
  length ratios = length sizes -> (n <= length sizes)%nat ->
  read_tile_sizes (Some (nums, newline)) is_loop n sizes ratios = (s, r) ->
  let before i := length (filter is_loop (seq 0 i)) in
  (forall j, (j < n)%nat -> is_loop j = true -> nth j s 0 = nth (before j) nums (nth j sizes 0)) /\
  ((before n + n <= length nums)%nat -> forall j, (j < n)%nat -> nth j r 0 = nth (before n + j) nums 0) /\
  ((before n <= length nums)%nat -> (S (length nums) < before n + n)%nat ->
     newline = true \/ (before n < length nums)%nat -> forall j, (j < n)%nat -> nth j r 0 = 8).
Proof.
  intros nums nl il n sizes ratios s r L1 L2 E before.
  destruct (read_tile_sizes_spec nums nl il n sizes ratios s r L1 L2 E) as (_ & _ & A & _ & _ & _ & B & C). auto.
Qed.
Print Assumptions C62_file.

Example C62_file_met : read_tile_sizes (Some ([16; 24; 2; 3; 4], true)) (fun i => negb (i =? 1)%nat) 3 [32;32;32;32] [8;8;8;8]
  = ([16; 42; 24; 32], [2; 3; 4; 8]).
Proof. reflexivity. Qed.

(** A file that lacks one number and ends with a newline is accepted: the last
    level keeps the size of the band before it (here 7), without a warning. *)
Example C62_file_one_missing :
  read_tile_sizes (Some ([16; 24], true)) (fun _ => true) 3 [7;7;7] [8;8;8] = ([16; 24; 7], [8; 8; 8]).
Proof. reflexivity. Qed.

Lemma lookup_sizes (l : list (pband * (list Z * list Z))) : NoDup (map fst l) ->
  exists f, Forall (fun x => f (fst x) = snd x) l.
Proof.
  assert (forall a b : pband, {a = b} + {a <> b}) as dec by (repeat decide equality).
  induction l as [|[b a] l IH]; cbn; intros N; [exists (fun _ => ([], [])); constructor|].
  inversion N; subst. destruct IH as [f Hf]; auto. exists (fun x => if dec x b then a else f x). constructor.
  - cbn. destruct (dec b b); congruence.
  - rewrite Forall_forall in *. intros [b' a'] Hx. cbn. destruct (dec b' b) as [->|]; [|apply (Hf _ Hx)].
    exfalso. apply H1. apply in_map_iff. exists (b, a'). auto.
Qed.

Lemma distinct_bands pr bands : Forall (good_band pr) bands -> ForallOrdPairs share_none bands -> NoDup bands.
Proof.
  intros G S. induction S as [|b l SN S IH]; constructor; inversion G; subst; auto.
  intros H. rewrite Forall_forall in SN. specialize (SN b H). destruct H1 as (L & _). destruct (all_loops_ok _ _ L) as (_ & A & _).
  destruct (l_stmts (pb_loop b)) as [|s ss] eqn:E; [congruence|]. apply (SN s); rewrite E; simpl; auto.
Qed.

(** Tiling with the file, one or two levels: if the numbers in the file are at
    least one, all dependences stay respected. *)
Theorem C62_tiling_legal : forall f pr file, exact_empty f ->
  wf_levels pr -> plain_levels pr -> uniform pr -> leveled pr ->
  (forall nums newline T, file = Some (nums, newline) -> In T nums -> 1 <= T) ->
  exists bands, bands_to_tile (info f pr) = Some bands /\
    let once := tile_scattering_file (info f pr) file false bands in
    legal once /\ legal (tile_scattering_file once file true bands).
Proof.
  intros f pr file EX W PL UN LV FP.
  destruct (C30_tiling_legal f pr EX W PL UN LV) as (bands & E & TL). exists bands. split; auto.
  pose proof (cq_wf f pr W) as W'. pose proof (cq_plain f pr PL) as PL'. pose proof (cq_uniform f pr UN) as UN'. pose proof (cq_leveled f pr LV) as LV'.
  assert (forall d, In d (p_deps (computed f pr)) -> d_rar d = false -> info_ok (computed f pr) d) as INF by (intros; apply computed_info; auto).
  destruct (bands_to_tile_ok (computed f pr) W' PL' UN' INF LV') as (bands' & E' & G & S).
  change (info f pr) with (computed f pr) in *. rewrite E in E'. injection E' as <-.
  pose proof (distinct_bands _ _ G S) as ND. rewrite Forall_forall in G.
  assert (forall q, (length (p_hprops (computed f pr)) <= length (p_hprops q))%nat ->
    let l := file_tile_sizes q file bands in map fst l = bands /\
    forall b s r, In (b, (s, r)) l -> length s = pb_width b /\ length r = pb_width b /\ (forall T, In T (s ++ r) -> 1 <= T)) as SZ.
  { intros q Hq. apply (sizes_of_bands_spec q file (length (p_hprops q))); try apply repeat_length.
    - intros T HT. apply in_app_or in HT as [HT|HT]; apply repeat_spec in HT; lia.
    - intros nums nl F T HT. apply (FP nums nl T F HT).
    - intros b Hb. destruct (G b Hb) as (_ & _ & B & _). lia. }
  assert (forall q second, (length (p_hprops (computed f pr)) <= length (p_hprops q))%nat ->
    exists sizes, (forall b, In b bands -> length (sizes b) = pb_width b /\ forall T, In T (sizes b) -> 1 <= T) /\
      sized_bands second (file_tile_sizes q file bands) = map (with_sizes sizes) bands) as FN.
  { intros q second Hq. destruct (SZ q Hq) as [M P]. destruct (lookup_sizes (file_tile_sizes q file bands)) as [g Hg]; [rewrite M; auto|].
    exists (fun b => if second then snd (g b) else fst (g b)). rewrite Forall_forall in Hg. split.
    - intros b Hb. rewrite <- M in Hb. apply in_map_iff in Hb as ([b' [s r]] & <- & Hb). rewrite (Hg _ Hb). cbn [fst snd].
      destruct (P b' s r Hb) as (P1 & P2 & P3). destruct second; (split; [auto|]); intros T HT; apply P3, in_or_app; auto.
    - unfold sized_bands. rewrite <- M at 2. rewrite map_map. apply map_ext_in. intros x Hx. unfold with_sizes. rewrite (Hg x Hx). reflexivity. }
  cbv zeta. unfold tile_scattering_file. destruct (FN (computed f pr) false (le_n _)) as (s1 & S1 & ->).
  destruct (TL s1 S1) as (_ & _ & L1 & L2). split; auto.
  set (once := tile_scattering_dims _ _) in *.
  assert (length (p_hprops (computed f pr)) <= length (p_hprops once))%nat as HP by apply scattering_hprops.
  destruct (FN once true HP) as (s2 & S2 & ->). apply L2.
  clear - S1 S2. assert (forall b, In b bands -> In b bands) as I by auto. revert I. generalize bands at 1 3 4. intros l I.
  induction l as [|b l IH]; cbn; constructor; [|apply IH; intros; apply I; simpl; auto].
  destruct (S1 b) as [A1 A2]; [apply I; simpl; auto|]. destruct (S2 b) as [B1 B2]; [apply I; simpl; auto|].
  split; [reflexivity|]. split; [reflexivity|]. split; [cbn; congruence|]. exact B2.
Qed.
Print Assumptions C62_tiling_legal.

Example C62_tiling_met : exists f, exact_empty f /\ wf_levels below_prog /\ plain_levels below_prog /\ uniform below_prog /\
  leveled below_prog /\ bands_to_tile (info f below_prog) = Some [below_band] /\
  map b_sizes (sized_bands false (file_tile_sizes (info f below_prog) (Some ([16; 24; 2; 3], true)) [below_band])) = [[16; 24]] /\
  map b_sizes (sized_bands true (file_tile_sizes (info f below_prog) (Some ([16; 24; 2; 3], true)) [below_band])) = [[2; 3]].
Proof.
  destruct C12_oracle_exists as [f F]. exists (dec_empty f). split; [apply dec_empty_exact; auto|].
  do 4 (split; [apply below_ok|]). repeat split; vm_compute; reflexivity.
Qed.
