(** * C31, C32, C33 and C34: schedules and remappings. *)
From Coq Require Import ZArith List Bool Lia Arith.
From Verif Require Import SpecLinear SpecMatrix MathModel ConstraintsModel VecProofs EditProofs MatrixProofs SpecProg SpecTile ProgModel
  FrameworkModel LexProofs ProgProofs TileModel TileProofs TileProofs2 TileProofs3 ExportModel ExportProofs ExportProofs2 SpecExport RemapProofs RemapProofs2 FlowProofs Checkers ExProg PropFramework PropTile PropAuto.
Import ListNotations.
Open Scope Z_scope.

(** ** C31.  The schedule relation of a statement *)
Theorem C31_schedule_exact : forall pr st i p t, wf_cols pr st -> length i = s_dim st -> length p = p_npar pr ->
  length t = mnrows (s_trans st) ->
  (mem (stmt_get_schedule st) (t ++ i ++ p) <-> t = timestamp st i p).
Proof.
  intros pr st i p t (_ & A & B & _) Li Lp Lt. rewrite schedule_mem; [reflexivity|auto|auto|rewrite app_length; lia].
Qed.
Print Assumptions C31_schedule_exact.

Example C31_met : exists st i p t, In st (p_stmts ex_prog) /\ wf_cols ex_prog st /\ (2 <= length t)%nat /\
  mem (stmt_get_schedule st) (t ++ i ++ p) /\ ~ mem (stmt_get_schedule st) ((7 :: tl t) ++ i ++ p).
Proof.
  exists (stmt_of ex_prog 0), [2; 3], [10], (timestamp (stmt_of ex_prog 0) [2; 3] [10]). 
  assert (wf_cols ex_prog (stmt_of ex_prog 0)) as W by (apply ex_core; apply stmt_of_in; simpl; lia).
  split; [apply stmt_of_in; simpl; lia|]. split; [exact W|]. split; [vm_compute; lia|].
  split; [apply (C31_schedule_exact ex_prog); auto|]. intros H. apply (C31_schedule_exact ex_prog) in H; auto. vm_compute in H. discriminate H.
Qed.

(** ** C32.  Domains without tile iterators, tile constraints in the schedule *)

(** What a statement looks like when its first [s_dim - s_dim_orig] iterators are
    tile iterators. *)
Definition has_tiles (pr : prog) : Prop :=
  forall st, In st (p_stmts pr) -> wf_cols pr st /\ (s_dim_orig st <= s_dim st)%nat.

Lemma has_tiles_shape pr : has_tiles pr -> forall s, (s < length (p_stmts pr))%nat -> let st := stmt_of pr s in
  wf_mat (s_trans st) /\ mncols (s_trans st) = ncols (s_domain st) /\ wf_cst (s_domain st) /\
  (s_dim st + p_npar pr + 1 = ncols (s_domain st))%nat /\ (s_dim_orig st <= s_dim st)%nat.
Proof.
  intros H s Hs st. destruct (H _ (stmt_of_in pr s Hs)) as ((_ & A & B & C & D & _) & E). fold st in A, B, C, D, E.
  split; [auto|]. split; [lia|]. split; [auto|]. split; [lia|auto].
Qed.

(** An iteration of the new domain and a time are related iff a tile contains the
    iteration and runs it at this time. *)
Theorem C32_relation_kept : forall pr s i p t, has_tiles pr -> (s < length (p_stmts pr))%nat ->
  let st := stmt_of pr s in let st' := stmt_of (snd (schedules pr)) s in
  length i = s_dim_orig st -> length p = p_npar pr -> length t = mnrows (s_trans st) ->
  s_dim st' = s_dim_orig st /\
  (iteration st' i p /\ exported (nth s (fst (schedules pr)) (mkCst 0 [])) (projected pr s) i p t <->
   exists tile, iteration st (tile ++ i) p /\ t = timestamp st (tile ++ i) p).
Proof.
  intros pr s i p t H Hs st st' Li Lp Lt. pose proof (has_tiles_shape pr H) as HS.
  destruct (schedules_exact pr HS s Hs) as [PJ X]. fold st in PJ, X. fold st' in X.
  destruct (HS s Hs) as (W1 & W2 & W3 & W4 & W5). fold st in W1, W2, W3, W4, W5.
  destruct (proj2 (proj2 (schedules_spec pr HS)) s Hs) as (c & pr' & _ & _ & _ & A4 & _). fold st st' in A4.
  split; [exact A4|]. unfold iteration, exported. split.
  - intros [[_ D] (tile & LT & M)]. exists tile.
    destruct (proj1 (X t tile i p Lt LT Li Lp) (conj M D)) as [Y1 Y2]. rewrite app_length, <- app_assoc. split; [split; [lia|exact Y1]|exact Y2].
  - intros (tile & [L D] & E). rewrite app_length in L. rewrite <- app_assoc in D.
    assert (length tile = projected pr s) as LT by lia.
    destruct (proj2 (X t tile i p Lt LT Li Lp) (conj D E)) as [Y1 Y2]. split; [split; [lia|exact Y2]|]. exists tile. auto.
Qed.
Print Assumptions C32_relation_kept.

Lemma dinv_tiles pr q N : (forall st, In st (p_stmts pr) -> s_dim_orig st = s_dim st) -> wf_core q -> dinv pr q N -> has_tiles q.
Proof.
  intros O W (L & P & I) st Hst. split; [apply W; auto|]. destruct (In_nth _ _ dummy_stmt Hst) as (s & Hs & E).
  destruct (I s) as (n & (D1 & D2 & _) & _); [lia|]. unfold stmt_of in *. rewrite E in *.
  rewrite D2, D1, O; [lia|]. apply nth_In. lia.
Qed.

Lemma dinv_restored pr q N s : wf_core pr -> (forall st, In st (p_stmts pr) -> s_dim_orig st = s_dim st) -> wf_core q -> dinv pr q N ->
  (s < length (p_stmts pr))%nat -> s_domain (stmt_of (snd (schedules q)) s) = s_domain (stmt_of pr s).
Proof.
  intros W O Wq I Hs. pose proof (dinv_tiles pr q N O Wq I) as HT. destruct I as (L & P & I).
  destruct (proj2 (proj2 (schedules_spec q (has_tiles_shape q HT))) s) as (c & pr' & A1 & _ & _ & _ & _ & A6 & _); [lia|].
  rewrite A6. destruct (I s Hs) as (n & D & _). 
  destruct (has_tiles_shape q HT s ltac:(lia)) as (W1 & W2 & W3 & W4 & W5).
  destruct (proj1 W _ (stmt_of_in pr s Hs)) as ((_ & _ & _ & _ & NC & _) & _).
  apply (normalize_domain pr q s c pr' n); auto; [lia|rewrite P; auto|apply O, stmt_of_in; auto|lia].
Qed.

(** A tiled program: the domains of the original program come back, and an iteration
    is related to one time only, the time that tiling gives it. *)
Theorem C32_tiled : forall pr bands, wf_core pr -> disjoint_bands bands -> Forall (wf_band pr) bands ->
  (forall st, In st (p_stmts pr) -> s_dim_orig st = s_dim st) ->
  let q := tile_scattering_dims pr bands in
  forall s, (s < length (p_stmts pr))%nat ->
  s_domain (stmt_of (snd (schedules q)) s) = s_domain (stmt_of pr s) /\
  exists n, forall i p t, iteration (stmt_of pr s) i p -> length p = p_npar pr -> length t = mnrows (s_trans (stmt_of q s)) ->
  (exported (nth s (fst (schedules q)) (mkCst 0 [])) (projected q s) i p t <->
   t = tile_stamp pr (band_of bands s) s i p ++ repeat 0 n).
Proof.
  intros pr bands W D F O q s Hs. destruct (scattering_tiled pr bands W D F) as [Wq (A1 & A2 & _ & A4 & _)]. fold q in Wq, A1, A2, A4.
  assert (exists N, dinv pr q N) as (N & DI).
  { apply (dinv_scattering pr bands pr []); [apply dinv_init; auto|]. intros b Hb. apply (proj1 (Forall_forall _ _) F) in Hb.
    destruct Hb as (_ & B2 & B3). split; [intros x Hx; apply B3; auto|auto]. }
  pose proof (dinv_restored pr q N s W O Wq DI Hs) as R. split; [exact R|].
  destruct (A4 s Hs) as (C1 & C2 & n & C3). cbv zeta in *. exists n. intros i p t I Lp Lt.
  assert (length i = s_dim_orig (stmt_of q s)) as Li.
  { rewrite (proj1 I). destruct (proj2 (proj2 DI) s Hs) as (m & (_ & D2 & _) & _). rewrite D2, O; auto. apply stmt_of_in; auto. }
  destruct (C32_relation_kept q s i p t (dinv_tiles pr q N O Wq DI) ltac:(lia) Li ltac:(lia) Lt) as [E X].
  assert (iteration (stmt_of (snd (schedules q)) s) i p) as I'.
  { split; [rewrite E; auto|]. rewrite R. apply I. }
  destruct (tile_point_split pr (band_of bands s) s i p) as (tl & TL).
  destruct (C3 i p (proj1 I) Lp) as [C4 _]. split.
  - intros H. destruct (proj1 X (conj I' H)) as (tile & It & ->). apply C2 in It; auto. destruct It as (i0 & J1 & J2).
    destruct (tile_point_split pr (band_of bands s) s i0 p) as (tl' & TL'). rewrite TL' in J2.
    apply (f_equal (@rev Z)) in J2. rewrite !rev_app_distr in J2. apply app_inj_len in J2; [|rewrite !rev_length, (proj1 I), (proj1 J1); auto].
    destruct J2 as [J2 J3]. apply (f_equal (@rev Z)) in J2, J3. rewrite !rev_involutive in J2, J3. subst i0 tl'. rewrite <- TL'. exact C4.
  - intros ->. apply (fun H => proj2 (proj2 X H)). exists tl. rewrite <- TL. split; [|symmetry; exact C4]. apply C2; eauto.
Qed.
Print Assumptions C32_tiled.

(** Two levels of tiles. *)
Theorem C32_two_levels : forall pr bands bands2, wf_core pr -> disjoint_bands bands -> Forall (wf_band pr) bands ->
  (forall s, (s < length (p_stmts pr))%nat -> types_ok (stmt_of pr s)) -> Forall2 same_levels bands bands2 ->
  (forall st, In st (p_stmts pr) -> s_dim_orig st = s_dim st) ->
  let q := tile_scattering_dims pr bands in let q2 := tile_scattering_dims q bands2 in
  forall s, (s < length (p_stmts pr))%nat ->
  s_domain (stmt_of (snd (schedules q2)) s) = s_domain (stmt_of pr s) /\
  exists n, forall i p t, iteration (stmt_of pr s) i p -> length p = p_npar pr -> length t = mnrows (s_trans (stmt_of q2 s)) ->
  (exported (nth s (fst (schedules q2)) (mkCst 0 [])) (projected q2 s) i p t <->
   t = tile_stamp q (band_of bands2 s) s (tile_point pr (band_of bands s) s i p) p ++ repeat 0 n).
Proof.
  intros pr bands bands2 W D F TO SL O q q2 s Hs. destruct (scattering_tiled pr bands W D F) as [Wq (A1 & A2 & _ & A4 & _)]. fold q in Wq, A1, A2, A4.
  assert (forall b s', In b bands2 -> In s' (b_stmts b) -> (s' < length (p_stmts pr))%nat) as IB.
  { clear - F SL. revert F. induction SL as [|b b2 l l2 S SL IH]; intros F c s' Hc Hs'; [contradiction|]. inversion F as [|? ? F1 F2]; subst.
    destruct Hc as [<-|Hc]; [|eauto]. destruct S as (S1 & _). rewrite S1 in Hs'. destruct F1 as (_ & _ & F3). apply F3; auto. }
  assert (forall b T, In b bands2 -> In T (b_sizes b) -> 1 <= T) as IT.
  { clear - SL. induction SL as [|b b2 l l2 S SL IH]; intros c T Hc; [contradiction|]. destruct Hc as [<-|Hc]; [|eauto]. apply S. }
  pose proof (disjoint_again _ _ D SL) as D2.
  pose proof (two_wf pr bands bands2 W D F SL) as F2. fold q in F2.
  destruct (scattering_tiled q bands2 Wq D2 F2) as [Wq2 (B1 & B2 & _ & B4 & _)]. fold q2 in Wq2, B1, B2, B4.
  assert (exists N, dinv pr q2 N) as (N & DI).
  { destruct (dinv_scattering pr bands pr [] (dinv_init pr W)) as (N1 & D1).
    - intros b Hb. apply (proj1 (Forall_forall _ _) F) in Hb. destruct Hb as (_ & X2 & X3). split; [intros x Hx; apply X3; auto|auto].
    - apply (dinv_scattering pr bands2 q N1 D1). intros b Hb. split; eauto. }
  pose proof (dinv_restored pr q2 N s W O Wq2 DI Hs) as R. split; [exact R|].
  destruct (A4 s Hs) as (C1 & C2 & m & C3). destruct (B4 s) as (E1 & E2 & n & E3); [lia|]. cbv zeta in *. exists n. intros i p t I Lp Lt.
  assert (length i = s_dim_orig (stmt_of q2 s)) as Li.
  { rewrite (proj1 I). destruct (proj2 (proj2 DI) s Hs) as (k & (_ & X2 & _) & _). rewrite X2, O; auto. apply stmt_of_in; auto. }
  destruct (C32_relation_kept q2 s i p t (dinv_tiles pr q2 N O Wq2 DI) ltac:(lia) Li ltac:(lia) Lt) as [E X].
  assert (iteration (stmt_of (snd (schedules q2)) s) i p) as I'.
  { split; [rewrite E; auto|]. rewrite R. apply I. }
  set (x := tile_point pr (band_of bands s) s i p).
  assert (iteration (stmt_of q s) x p) as Ix by (apply C2; eauto).
  destruct (E3 x p (proj1 Ix) ltac:(lia)) as [C4 _].
  assert (forall y, exists tl, tile_point q (band_of bands2 s) s (tile_point pr (band_of bands s) s y p) p = tl ++ y) as TP.
  { intros y. destruct (tile_point_split pr (band_of bands s) s y p) as (a & Ea).
    destruct (tile_point_split q (band_of bands2 s) s (tile_point pr (band_of bands s) s y p) p) as (c & Ec). exists (c ++ a). rewrite Ec, Ea, app_assoc. reflexivity. }
  split.
  - intros H. destruct (proj1 X (conj I' H)) as (tile & It & ->). apply E2 in It; [|lia]. destruct It as (x0 & J1 & J2).
    apply C2 in J1; [|lia]. destruct J1 as (i0 & J1 & ->).
    destruct (TP i0) as (tl' & TL'). rewrite TL' in J2.
    apply (f_equal (@rev Z)) in J2. rewrite !rev_app_distr in J2. apply app_inj_len in J2; [|rewrite !rev_length, (proj1 I), (proj1 J1); auto].
    destruct J2 as [J2 J3]. apply (f_equal (@rev Z)) in J2, J3. rewrite !rev_involutive in J2, J3. subst i0 tl'. rewrite <- TL'. exact C4.
  - intros ->. apply (fun H => proj2 (proj2 X H)). destruct (TP i) as (tl & TL). exists tl. unfold x. rewrite <- TL. split; [|symmetry; exact C4]. apply E2; [lia|]. eauto.
Qed.
Print Assumptions C32_two_levels.

(** The input program of PropAuto: statement S1 has one loop only. *)
Example C32_met : wf_core in_prog /\ disjoint_bands [ex_band] /\ Forall (wf_band in_prog) [ex_band] /\
  Forall2 same_levels [ex_band] [ex_band2] /\
  (forall s, (s < length (p_stmts in_prog))%nat -> types_ok (stmt_of in_prog s)) /\
  (forall st, In st (p_stmts in_prog) -> s_dim_orig st = s_dim st) /\
  let q := tile_scattering_dims in_prog [ex_band] in
  has_tiles q /\ projected q 0 = 2%nat /\ projected q 1 = 1%nat /\
  s_domain (stmt_of q 0) <> s_domain (stmt_of in_prog 0) /\
  iteration (stmt_of in_prog 0) [40; 33] [100] /\ iteration (stmt_of in_prog 1) [70] [100] /\
  exported (nth 0 (fst (schedules q)) (mkCst 0 [])) 2 [40; 33] [100] [1; 2; 40; 33; 0] /\
  exported (nth 1 (fst (schedules q)) (mkCst 0 [])) 1 [70] [100] [2; 0; 70; 0; 1].
Proof.
  assert (wf_core in_prog) as W.
  { split.
    - intros st [<-|[<-|[]]]; (split; [|reflexivity]); repeat (split; [first [reflexivity|wf]|]); simpl; intuition (subst; first [wf|reflexivity]).
    - intros d [<-|[<-|[<-|[<-|[]]]]]; (split; [simpl; lia|split; [simpl; lia|split; [wf|reflexivity]]]). }
  assert (disjoint_bands [ex_band]) as D by repeat constructor.
  assert (Forall (wf_band in_prog) [ex_band]) as F.
  { constructor; [|constructor]. split; [repeat constructor; simpl; intuition lia|]. split; [simpl; intuition lia|].
    intros s [<-|[<-|[]]]; simpl; unfold mnrows; simpl; lia. }
  assert (forall st, In st (p_stmts in_prog) -> s_dim_orig st = s_dim st) as O by (intros st [<-|[<-|[]]]; reflexivity).
  split; [exact W|]. split; [exact D|]. split; [exact F|].
  split; [constructor; [|constructor]; repeat (split; [reflexivity|]); simpl; intuition lia|]. split.
  { intros s Hs. destruct s as [|[|s]]; [| |simpl in Hs; lia]; intros k Hk; unfold mnrows in Hk; simpl in Hk;
      destruct k as [|[|[|k]]]; try lia; simpl.
    all: split; [try discriminate; intros _ [|[|j]]; simpl; auto; lia | intros H; try reflexivity; exfalso].
    all: try (specialize (H 0%nat ltac:(lia)); simpl in H; lia). all: specialize (H 1%nat ltac:(lia)); simpl in H; lia. }
  split; [exact O|]. split.
  { destruct (dinv_scattering in_prog [ex_band] in_prog [] (dinv_init in_prog W)) as (N & DI).
    - intros b [<-|[]]. split; [intros s [<-|[<-|[]]]; simpl; lia|simpl; intuition lia].
    - apply (dinv_tiles in_prog _ N O); auto. apply scattering_tiled; auto. }
  split; [vm_compute; reflexivity|]. split; [vm_compute; reflexivity|]. split; [vm_compute; discriminate|].
  split; [split; [reflexivity|inset]|]. split; [split; [reflexivity|inset]|].
  split; [exists [1; 2]|exists [2]]; (split; [reflexivity|]); inset.
Qed.

(** ** C33.  The remapping maps times back to iterations *)

(** The exact divisors are the coordinates of [D]; the function returns them
    truncated to 32 bits. *)
Theorem C33_remapping : forall pr st m divs, wf_cols pr st -> small_coefs st -> stmt_get_remapping st = Some (m, divs) ->
  exists D, remaps (p_npar pr) st m D /\ divs = map wrap32 D.
Proof.
  intros pr st m divs (_ & A & B & _ & C & _) S E. pose proof (remapping_spec st (p_npar pr) B A C S) as R. rewrite E in R. exact R.
Qed.
Print Assumptions C33_remapping.

(** There is a remapping iff different iterations have different times. *)
Theorem C33_full_rank : forall pr st, wf_cols pr st -> small_coefs st ->
  (stmt_get_remapping st <> None <-> one_to_one (p_npar pr) st).
Proof.
  intros pr st (_ & A & B & _ & C & _) S. pose proof (remapping_spec st (p_npar pr) B A C S) as R.
  destruct (stmt_get_remapping st) as [[m divs]|].
  - destruct R as (D & R & _). split; [intros _; apply (remaps_inj _ _ _ _ R)|discriminate].
  - split; [intros N; contradiction|intros O; contradiction].
Qed.
Print Assumptions C33_full_rank.

(** Skewed and scaled: t = (2i + 4j + N, 3j - 1, i). *)
Definition remap_stmt : stmt := mkStmt 2 2 [true;true] ex_dom0 (mkMat 4 [[2;4;1;0]; [0;3;0;-1]; [1;0;0;0]]) [H_LOOP;H_LOOP;H_LOOP] 0 0
  [] [mkMat 4 [[1;1;0;0]; [0;1;2;5]]] None 0 (-1) (-1).
Lemma remap_stmt_ok : wf_cols ex_prog remap_stmt /\ small_coefs remap_stmt.
Proof.
  split; [repeat (split; [first [reflexivity|wf]|]); simpl; intuition (subst; first [wf|reflexivity])|].
  intros r [<-|[<-|[<-|[]]]] [|[|j]] Hj; simpl in *; lia.
Qed.
Example C33_met : wf_cols ex_prog remap_stmt /\ small_coefs remap_stmt /\
  stmt_get_remapping remap_stmt = Some (mkMat 5 [[3;-4;0;-3;-4]; [0;1;0;0;1]; [0;0;0;1;0]; [0;0;0;0;1]], [6;3;1;1]) /\
  wf_cols ex_prog (set_trans remap_stmt (mkMat 4 [[1;2;0;0]; [2;4;1;0]])) /\
  stmt_get_remapping (set_trans remap_stmt (mkMat 4 [[1;2;0;0]; [2;4;1;0]])) = None.
Proof.
  destruct remap_stmt_ok as [A B]. split; [exact A|]. split; [exact B|]. split; [vm_compute; reflexivity|].
  split; [|vm_compute; reflexivity]. repeat (split; [first [reflexivity|wf]|]); simpl; intuition (subst; first [wf|reflexivity]).
Qed.

(** The divisors are stored in 32 bits: for t = (65536 i + j, i + 65536 j) the exact
    divisor of [j] is 2^32 - 1, and -1 is returned. *)
Theorem C33_int_divisor_refuted : exists pr st m divs, wf_cols pr st /\ small_coefs st /\ one_to_one (p_npar pr) st /\
  stmt_get_remapping st = Some (m, divs) /\ ~ remaps (p_npar pr) st m divs.
Proof.
  set (st := mkStmt 2 2 [true;true] (mkCst 3 []) (mkMat 3 [[65536;1;0]; [1;65536;0]]) [H_LOOP;H_LOOP] 0 0 [] [] None 0 (-1) (-1)).
  exists (mkProg 2 0 [st] [] [H_LOOP; H_LOOP]), st.
  assert (wf_cols (mkProg 2 0 [st] [] [H_LOOP; H_LOOP]) st) as W.
  { repeat (split; [first [reflexivity|wf]|]); simpl; intuition (subst; first [wf|reflexivity]). }
  assert (small_coefs st) as S by (intros r [<-|[<-|[]]] [|[|j]] Hj; simpl in *; lia).
  assert (exists m divs, stmt_get_remapping st = Some (m, divs) /\ nth 1 divs 0 = -1) as (m & divs & K & N).
  { eexists _, _. split; [vm_compute; reflexivity|reflexivity]. }
  exists m, divs. split; [exact W|]. split; [exact S|]. split.
  { apply (C33_full_rank _ _ W S). rewrite K. discriminate. }
  split; [exact K|]. intros (_ & _ & _ & L & P & _). assert (0 < nth 1 divs 0) as H by (apply P, nth_In; rewrite L; simpl; lia). lia.
Qed.
Print Assumptions C33_int_divisor_refuted.

(** A coefficient of an iterator that does not fit into 32 bits is lost when its
    column is moved: the remapping is refused although it exists. *)
Theorem C33_large_coefficient_refuted : exists pr st, wf_cols pr st /\ one_to_one (p_npar pr) st /\ stmt_get_remapping st = None.
Proof.
  set (st := mkStmt 1 1 [true] (mkCst 2 []) (mkMat 2 [[4294967296; 0]]) [H_LOOP] 0 0 [] [] None 0 (-1) (-1)).
  exists (mkProg 1 0 [st] [] [H_LOOP]), st. split.
  { repeat (split; [first [reflexivity|wf]|]); simpl; intuition (subst; first [wf|reflexivity]). }
  split; [|vm_compute; reflexivity]. intros x y p Lx Ly Lp T. simpl in Lx, Ly, Lp. destruct x as [|x [|]], y as [|y [|]], p; try discriminate.
  apply (f_equal (fun l => nth 0 l 0)) in T. unfold timestamp, aff in T. cbn -[Z.mul Z.add] in T. f_equal. lia.
Qed.
Print Assumptions C33_large_coefficient_refuted.

(** ** C34.  Access functions in terms of times *)
Theorem C34_new_access : forall pr st acc m divs D, wf_cols pr st -> small_coefs st -> wf_mat acc -> mncols acc = (s_dim st + p_npar pr + 1)%nat ->
  stmt_get_remapping st = Some (m, divs) -> remaps (p_npar pr) st m D ->
  let L := fold_left Z.lcm D 1 in fits32 L ->
  exists newacc, get_new_access_func acc st = Some (newacc, repeat L (mnrows acc)) /\ 0 < L /\
    mnrows newacc = mnrows acc /\ mncols newacc = (mnrows (s_trans st) + p_npar pr + 1)%nat /\
    forall x p, length x = s_dim st -> length p = p_npar pr ->
      access_val (timestamp st x p) p newacc = map (Z.mul L) (access_val x p acc).
Proof.
  intros pr st acc m divs D W S WA CA E R L F. destruct (C33_remapping pr st m divs W S E) as (D' & R' & DW).
  rewrite (remaps_unique _ _ _ _ _ R' R) in DW.
  destruct (new_access st (p_npar pr) acc m divs D E R DW F WA CA) as (na & A1 & A2 & A3 & A4 & A5).
  exists na. split; [exact A1|]. split; [exact A2|]. split; [exact A3|]. split; [exact A4|].
  intros x p Lx Lp. specialize (A5 x p Lx Lp). unfold mat_vec in A5. unfold access_val, aff.
  transitivity (map (fun r => dot r (timestamp st x p ++ p ++ [1])) (mrows na)); [apply map_ext; intros r; rewrite <- app_assoc; reflexivity|].
  rewrite A5. f_equal. apply map_ext. intros r. rewrite <- app_assoc. reflexivity.
Qed.
Print Assumptions C34_new_access.

Example C34_met : exists m divs D, wf_cols ex_prog remap_stmt /\ small_coefs remap_stmt /\
  stmt_get_remapping remap_stmt = Some (m, divs) /\ remaps 1 remap_stmt m D /\ fold_left Z.lcm D 1 = 6 /\ fits32 (fold_left Z.lcm D 1) /\
  wf_mat (mkMat 4 [[1;1;0;0]; [0;1;2;5]]) /\
  option_map snd (get_new_access_func (mkMat 4 [[1;1;0;0]; [0;1;2;5]]) remap_stmt) = Some [6; 6].
Proof.
  destruct C33_met as (A & B & C & _). eexists _, _, [6;3;1;1]. split; [exact A|]. split; [exact B|]. split; [exact C|]. split.
  - destruct (C33_remapping ex_prog _ _ _ A B C) as (D & R & E). pose proof R as (_ & _ & _ & L & P & _). 
    replace [6;3;1;1] with D; [exact R|]. cbn [remap_stmt s_dim p_npar ex_prog Nat.add] in L.
    destruct R as (_ & _ & _ & _ & _ & R). specialize (R [1;1] [1] eq_refl eq_refl). cbn -[Z.mul Z.add wrap32] in R.
    destruct D as [|d0 [|d1 [|d2 [|d3 [|]]]]]; try discriminate L. cbn -[Z.mul Z.add wrap32] in R. injection R as R0 R1 R2 R3.
    cbn in R0, R1, R2, R3. repeat f_equal; lia.
  - split; [reflexivity|]. split; [vm_compute; split; [discriminate|reflexivity]|]. split; [wf|]. vm_compute. reflexivity.
Qed.
