(** * Theorems: tiling (C24, C25). *)
From Coq Require Import ZArith List Bool Lia Arith.
From Verif Require Import SpecLinear MathModel ConstraintsModel VecProofs EditProofs MatrixProofs SpecProg SpecTile
  FrameworkModel ProgModel LexProofs ProgProofs TileModel TileProofs TileProofs2 TileProofs3 Checkers ExProg PropFramework.
Import ListNotations.
Open Scope Z_scope.

Lemma app_inj_len {A} (a b c d : list A) : a ++ b = c ++ d -> length a = length c -> a = c /\ b = d.
Proof. revert c; induction a; destruct c; simpl; intros; try lia; auto. injection H as -> H. destruct (IHa _ H); auto. subst; auto. Qed.

(** ** C24.  Tiling partitions the iterations *)

(** Tiling one band: iterations, times, accesses and dependence instances of the
    tiled program (see [tiled] in SpecTile.v). *)
Theorem C24_tile_band : forall pr b, wf_core pr -> wf_band pr b -> tiled pr (tile_band pr b) b.
Proof. intros pr b W HB. apply (tile_band_tiled pr b W HB). Qed.
Print Assumptions C24_tile_band.

(** Every iteration is in exactly one tile, the one whose coordinates are the
    floors of the schedule functions divided by the tile sizes. *)
Theorem C24_exactly_one_tile : forall pr b s i c p,
  wf_core pr -> wf_band pr b -> In s (b_stmts b) -> length p = p_npar pr ->
  let st := stmt_of pr s in
  length c = num_loops st (b_first b) (b_sizes b) ->
  (iteration (stmt_of (tile_band pr b) s) (c ++ i) p <->
   iteration st i p /\ c = tile_coords st (b_first b) (b_sizes b) i p).
Proof.
  intros pr b s i c p W HB Hs Lp st Lc. destruct (tile_band_tiled pr b W HB) as [_ (_ & _ & _ & _ & T & _)].
  destruct HB as (_ & _ & H3). destruct (H3 s Hs) as [Hn _].
  destruct (T s Hn (In_in_band b s Hs)) as (_ & A & _). rewrite A by auto.
  unfold tile_point. rewrite (In_in_band b s Hs). fold st. split.
  - intros (j & I & E). apply app_inj_len in E as [E1 E2]; [|rewrite tile_coords_length; exact Lc]. subst. auto.
  - intros [I ->]. exists i. auto.
Qed.
Print Assumptions C24_exactly_one_tile.

(** The complete tiling pass over several bands. *)
Theorem C24_tiling : forall pr bands,
  wf_core pr -> disjoint_bands bands -> Forall (wf_band pr) bands ->
  tiled_all pr (tile_scattering_dims pr bands) bands.
Proof. intros pr bands W D F. apply (scattering_tiled pr bands W D F). Qed.
Print Assumptions C24_tiling.

(** Two levels of tiles: the outer tiles have the products of the sizes. *)
Theorem C24_two_levels : forall pr bands bands2,
  wf_core pr -> disjoint_bands bands -> Forall (wf_band pr) bands ->
  (forall s, (s < length (p_stmts pr))%nat -> types_ok (stmt_of pr s)) ->
  Forall2 same_levels bands bands2 ->
  forall s x p, (s < length (p_stmts pr))%nat -> length p = p_npar pr ->
  let st := stmt_of pr s in let b := band_of bands s in let b2 := band_of bands2 s in
  (iteration (stmt_of (tile_scattering_dims (tile_scattering_dims pr bands) bands2) s) x p <->
   exists i, iteration st i p /\
     x = tile_coords st (b_first b) (zip_with Z.mul (b_sizes b) (b_sizes b2)) i p ++
         tile_coords st (b_first b) (b_sizes b) i p ++ i).
Proof. intros pr bands bands2 W D F TO SL. exact (two_levels pr bands bands2 W D F TO SL). Qed.
Print Assumptions C24_two_levels.

(** The example program: both statements in one band of two loops. *)
Definition ex_band : band := mkBand [0; 1]%nat 0 [32; 16].
Definition ex_band2 : band := mkBand [0; 1]%nat 0 [8; 8].
Lemma ex_core : wf_core ex_prog.
Proof.
  split.
  - intros st [<-|[<-|[]]]; (split; [|reflexivity]); repeat (split; [first [reflexivity|wf]|]); simpl; intuition (subst; first [wf|reflexivity]).
  - intros d [<-|[<-|[<-|[<-|[]]]]]; (split; [simpl; lia|split; [simpl; lia|split; [wf|reflexivity]]]).
Qed.
Lemma ex_band_wf : wf_band ex_prog ex_band.
Proof.
  split; [repeat constructor; simpl; intuition lia|]. split; [simpl; intuition lia|].
  intros s [<-|[<-|[]]]; simpl; unfold mnrows; simpl; lia.
Qed.
Lemma ex_types : forall s, (s < length (p_stmts ex_prog))%nat -> types_ok (stmt_of ex_prog s).
Proof.
  intros s Hs. destruct s as [|[|s]]; [| |simpl in Hs; lia]; intros k Hk; unfold mnrows in Hk; simpl in Hk;
    destruct k as [|[|[|k]]]; try lia; simpl.
  all: split; [try discriminate; intros _ [|[|j]]; simpl; auto; lia | intros H; try reflexivity; exfalso].
  all: try (specialize (H 0%nat ltac:(lia)); simpl in H; lia).
Qed.
Example C24_met :
  wf_core ex_prog /\ disjoint_bands [ex_band] /\ Forall (wf_band ex_prog) [ex_band] /\
  (forall s, (s < length (p_stmts ex_prog))%nat -> types_ok (stmt_of ex_prog s)) /\ Forall2 same_levels [ex_band] [ex_band2] /\
  iteration (stmt_of (tile_band ex_prog ex_band) 0) [1; 2; 40; 3] [100] /\
  ~ iteration (stmt_of (tile_band ex_prog ex_band) 0) [1; 3; 40; 3] [100] /\
  timestamp (stmt_of (tile_scattering_dims ex_prog [ex_band]) 0) [1; 2; 40; 3] [100] = [1; 2; 40; 43; 0] /\
  timestamp (stmt_of (tile_scattering_dims ex_prog [ex_band]) 1) [1; 2; 40; 0] [100] = [1; 2; 40; 40; 1] /\
  iteration (stmt_of (tile_scattering_dims (tile_scattering_dims ex_prog [ex_band]) [ex_band2]) 0) [0; 0; 1; 2; 40; 3] [100].
Proof.
  split; [exact ex_core|]. split; [repeat constructor|]. split; [constructor; [apply ex_band_wf|constructor]|].
  split; [exact ex_types|]. split; [constructor; [|constructor]; repeat (split; [reflexivity|]); simpl; intuition lia|].
  split; [split; [vm_compute; reflexivity|inset]|]. split; [intros [_ H]; revert H; inset|].
  split; [vm_compute; reflexivity|]. split; [vm_compute; reflexivity|]. split; [vm_compute; reflexivity|inset].
Qed.

(** ** C25.  Tiling keeps dependent iterations in order *)
Theorem C25_tiling_legal : forall pr bands,
  wf_core pr -> disjoint_bands bands -> Forall (wf_band pr) bands ->
  (forall d, In d (p_deps pr) -> d_rar d = false -> Forall (fun b => band_safe pr b d) bands) ->
  legal pr -> legal (tile_scattering_dims pr bands).
Proof. exact scattering_legal. Qed.
Print Assumptions C25_tiling_legal.

(** Two levels of tiles. *)
Theorem C25_two_levels_legal : forall pr bands bands2,
  wf_core pr -> disjoint_bands bands -> Forall (wf_band pr) bands ->
  (forall s, (s < length (p_stmts pr))%nat -> types_ok (stmt_of pr s)) ->
  Forall2 same_levels bands bands2 ->
  (forall d, In d (p_deps pr) -> d_rar d = false -> Forall (fun b => band_safe pr b d) bands) ->
  legal pr -> legal (tile_scattering_dims (tile_scattering_dims pr bands) bands2).
Proof.
  intros pr bands bands2 W D F TO SL SF L.
  destruct (scattering_again pr bands bands2 W D F SF TO SL) as (A & B & C & _).
  destruct (scattering_tiled pr bands W D F) as [W' _].
  apply scattering_legal; auto. apply scattering_legal; auto.
Qed.
Print Assumptions C25_two_levels_legal.

(** A permutable band whose levels are loops of all its statements is safe. *)
Theorem C25_permutable_safe : forall pr b d,
  in_band b (d_src d) = true -> in_band b (d_dst d) = true ->
  permutable_on pr d (b_first b) (b_first b + length (b_sizes b)) ->
  (forall k, (b_first b <= k < b_first b + length (b_sizes b))%nat ->
     loop_level (stmt_of pr (d_src d)) k = loop_level (stmt_of pr (d_dst d)) k) ->
  band_safe pr b d.
Proof.
  intros pr b d H1 H2 P K. right. right. split; [auto|]. split; [auto|].
  intros s t p I Z k Hk. left. split; [apply (P s t p I Z k Hk)|auto].
Qed.
Print Assumptions C25_permutable_safe.

Lemma ex_order : forall d s t p, In d (p_deps ex_prog) -> d_rar d = false -> instance ex_prog d s t p ->
    (0 <= distance ex_prog d 0 s t p /\ 0 <= distance ex_prog d 1 s t p) /\
    lexlt (timestamp (stmt_of ex_prog (d_src d)) s p) (timestamp (stmt_of ex_prog (d_dst d)) t p).
Proof.
  intros d s t p Hd R (L1 & L2 & L3 & M).
    destruct s as [|s1 [|s2 [|]]], t as [|t1 [|t2 [|]]], p as [|n [|]];
      destruct Hd as [<-|[<-|[<-|[<-|[]]]]]; try discriminate.
    all: destruct M as [_ M]; apply Forall_forall in M; cbn in M.
    all: repeat match goal with M : Forall _ (_ :: _) |- _ => inversion M; clear M; subst end.
    all: unfold holds, aff, distance, theta, timestamp in *; cbn -[Z.mul Z.add Z.sub] in *; unfold aff; cbn -[Z.mul Z.add Z.sub]; lia.
Qed.
Lemma ex_safe : forall d, In d (p_deps ex_prog) -> d_rar d = false -> band_safe ex_prog ex_band d.
Proof.
  intros d Hd R. apply C25_permutable_safe.
  - destruct Hd as [<-|[<-|[<-|[<-|[]]]]]; reflexivity.
  - destruct Hd as [<-|[<-|[<-|[<-|[]]]]]; reflexivity.
  - intros s t p I _ k Hk. simpl in Hk. destruct (ex_order d s t p Hd R I) as [[K1 K2] _]. destruct k as [|[|]]; auto; lia.
  - intros k Hk. simpl in Hk. destruct Hd as [<-|[<-|[<-|[<-|[]]]]]; destruct k as [|[|]]; try reflexivity; simpl; lia.
Qed.
Example C25_met :
  legal ex_prog /\ (forall d, In d (p_deps ex_prog) -> d_rar d = false -> Forall (fun b => band_safe ex_prog b d) [ex_band]) /\
  legal (tile_scattering_dims (tile_scattering_dims ex_prog [ex_band]) [ex_band2]).
Proof.
  assert (legal ex_prog) as L by (intros d Hd R s t p I; apply (ex_order d s t p Hd R I)).
  assert (forall d, In d (p_deps ex_prog) -> d_rar d = false -> Forall (fun b => band_safe ex_prog b d) [ex_band]) as SF.
  { intros d Hd R. constructor; [apply ex_safe; auto|constructor]. }
  split; [exact L|]. split; [exact SF|].
  destruct C24_met as (A & B & C & D & E & _). apply C25_two_levels_legal; assumption.
Qed.

(** Permutability alone is not enough when a level of the band is a loop of one
    statement and a constant of another: S1 has the constant 5 at a level where S3
    has the loop j + 5.  All distances are non-negative, but the constant is
    compared with tile numbers after tiling. *)
Definition mix_s1 : stmt := mkStmt 1 1 [true] (mkCst 3 [ge [1;0;0]; ge [-1;1;-1]]) (mkMat 3 [[1;0;0]; [0;0;5]; [0;0;0]])
  [H_LOOP; H_SCALAR; H_SCALAR] 0 0 [] [] None 0 (-1) (-1).
Definition mix_s3 : stmt := mkStmt 2 2 [true;true] ex_dom0 (mkMat 4 [[1;0;0;0]; [0;1;0;5]; [0;0;0;1]])
  [H_LOOP; H_LOOP; H_SCALAR] 0 0 [] [] None 0 (-1) (-1).
(** columns i i' j' N 1 *)
Definition mix_prog : prog := mkProg 2 1 [mix_s1; mix_s3]
  [ex_dep 0 1 false (mkCst 5 [eq [1;-1;0;0;0]; ge [1;0;0;0;0]; ge [-1;0;0;1;-1]; ge [0;0;1;0;0]; ge [0;0;-1;1;-1]])]
  [H_LOOP; H_LOOP; H_SCALAR].
Theorem C25_mixed_levels_refuted : exists pr b,
  wf_core pr /\ wf_band pr b /\ (forall s, (s < length (p_stmts pr))%nat -> in_band b s = true /\ types_ok (stmt_of pr s)) /\
  legal pr /\
  (forall d, In d (p_deps pr) -> permutable_on pr d (b_first b) (b_first b + length (b_sizes b))) /\
  ~ legal (tile_scattering_dims pr [b]).
Proof.
  exists mix_prog, (mkBand [0; 1]%nat 0 [32; 32]).
  assert (forall d s t p, In d (p_deps mix_prog) -> instance mix_prog d s t p ->
    (0 <= distance mix_prog d 0 s t p /\ 0 <= distance mix_prog d 1 s t p) /\
    lexlt (timestamp (stmt_of mix_prog (d_src d)) s p) (timestamp (stmt_of mix_prog (d_dst d)) t p)) as K.
  { intros d s t p [<-|[]] (L1 & L2 & L3 & M).
    destruct s as [|s1 [|]], t as [|t1 [|t2 [|]]], p as [|n [|]]; try discriminate.
    all: destruct M as [_ M]; apply Forall_forall in M; cbn in M.
    all: repeat match goal with M : Forall _ (_ :: _) |- _ => inversion M; clear M; subst end.
    all: unfold holds, aff, distance, theta, timestamp in *; cbn -[Z.mul Z.add Z.sub] in *; unfold aff; cbn -[Z.mul Z.add Z.sub]; lia. }
  split; [|split; [|split; [|split; [|split]]]].
  - split.
    + intros st [<-|[<-|[]]]; (split; [|reflexivity]); repeat (split; [first [reflexivity|wf]|]); simpl; intuition (subst; first [wf|reflexivity]).
    + intros d [<-|[]]; (split; [simpl; lia|split; [simpl; lia|split; [wf|reflexivity]]]).
  - split; [repeat constructor; simpl; intuition lia|]. split; [simpl; intuition lia|].
    intros s [<-|[<-|[]]]; simpl; unfold mnrows; simpl; lia.
  - intros s Hs. destruct s as [|[|s]]; [| |simpl in Hs; lia]; (split; [reflexivity|]); intros k Hk; unfold mnrows in Hk; simpl in Hk;
      destruct k as [|[|[|k]]]; try lia; simpl.
    all: split; [try discriminate; intros _ [|[|j]]; simpl; auto; lia | intros H; try reflexivity; exfalso].
    all: try (specialize (H 0%nat ltac:(lia)); simpl in H; lia).
    specialize (H 1%nat ltac:(lia)); simpl in H; lia.
  - intros d Hd R s t p I. apply (K d s t p Hd I).
  - intros d Hd s t p I _ k Hk. simpl in Hk. destruct (K d s t p Hd I) as [[K1 K2] _]. destruct k as [|[|]]; auto; lia.
  - intros L. set (q := tile_scattering_dims mix_prog [mkBand [0; 1]%nat 0 [32; 32]]) in *.
    set (d := nth 0 (p_deps q) (ex_dep 0 0 false (mkCst 1 []))).
    assert (In d (p_deps q)) as Hd by (vm_compute; left; reflexivity).
    assert (d_rar d = false) as R by (vm_compute; reflexivity).
    specialize (L d Hd R [0; 3] [0; 0; 3; 0] [100]).
    assert (instance q d [0; 3] [0; 0; 3; 0] [100]) as I by
      (split; [vm_compute; reflexivity|split; [vm_compute; reflexivity|split; [vm_compute; reflexivity|inset]]]).
    specialize (L I).
    assert (timestamp (stmt_of q (d_src d)) [0; 3] [100] = [0; 5; 3; 5; 0]) as E1 by (vm_compute; reflexivity).
    assert (timestamp (stmt_of q (d_dst d)) [0; 0; 3; 0] [100] = [0; 0; 3; 5; 1]) as E2 by (vm_compute; reflexivity).
    rewrite E1, E2 in L. simpl in L. lia.
Qed.
Print Assumptions C25_mixed_levels_refuted.
