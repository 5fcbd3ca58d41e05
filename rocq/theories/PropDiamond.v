(** * Theorems: diamond tiling (C27). *)
From Coq Require Import ZArith QArith List Bool Lia Arith Permutation.
From Verif Require Import SpecLinear MathModel ConstraintsModel VecProofs EditProofs MatrixProofs SpecProg SpecTile SpecLoop SpecDiamond
  RankProofs SumProofs FrameworkModel ProgModel DepProofs SimplifyProofs LexProofs ProgProofs TileModel TileProofs TileProofs2 TileProofs3
  LoopModel DiamondModel DiamondProofs DiamondProofs2 Checkers ExProg PropFramework PropAuto PropTile PropLoop PropWave.
Import ListNotations.
Open Scope Z_scope.

(** Rescheduling twice gives back the program. *)
Theorem C27_involution : forall pos pr r x,
  (forall s, (s < length (p_stmts pr))%nat -> wf_mat (s_trans (stmt_of pr s))) ->
  diamond_tile_reschedule pos pr = Some (r, x) -> diamond_tile_reschedule pos r = Some (pr, x).
Proof.
  intros pos pr r x W E. destruct (resched_some _ _ _ _ E) as (R1 & R2 & R3 & R4 & R5 & R6 & R7).
  destruct (resched_exists pos r) as (r' & x' & E').
  { intros s Hs. rewrite R1 in Hs. exists (stmt_of pr s). apply resched_involution; auto. }
  rewrite E'. destruct (resched_some _ _ _ _ E') as (Q1 & Q2 & Q3 & Q4 & Q5 & Q6 & Q7). f_equal. f_equal.
  - assert (p_stmts r' = p_stmts pr) as EP.
    { apply (nth_ext _ _ dummy_stmt dummy_stmt); [lia|]. intros s Hs. fold (stmt_of r' s). fold (stmt_of pr s).
      specialize (Q7 s ltac:(lia)). rewrite (resched_involution _ _ _ (W s ltac:(lia)) (R7 s ltac:(lia))) in Q7. congruence. }
    destruct r', pr; cbn in *. congruence.
  - rewrite Q6, R6. assert (forall s, (s < length (p_stmts pr))%nat ->
      match s_evict (stmt_of r s) with Some _ => true | None => false end = match s_evict (stmt_of pr s) with Some _ => true | None => false end) as K.
    { intros s Hs. destruct (resched_stmt_some _ _ _ (R7 s Hs)) as [[_ ->]|(e & K1 & _ & _ & ->)]; auto. rewrite K1. reflexivity. }
    set (g := fun st : stmt => match s_evict st with Some _ => true | None => false end) in *.
    assert (map g (p_stmts r) = map g (p_stmts pr)) as EM.
    { apply (nth_ext _ _ (g dummy_stmt) (g dummy_stmt)); [rewrite !map_length; auto|]. intros s Hs. rewrite map_length in Hs.
      rewrite !List.map_nth. apply K. lia. }
    clear - EM. revert EM. generalize (p_stmts pr). induction (p_stmts r) as [|a l IH]; intros [|b l'] EM; try discriminate; auto.
    simpl in *. inversion EM. rewrite H0. f_equal. apply IH. auto.
Qed.
Print Assumptions C27_involution.

(** Rescheduling changes no iteration, dependence, access or other row; the
    evicted hyperplane and the columns of the original iterators of one row change
    places, so that no hyperplane gets lost. *)
Theorem C27_exchange : forall pos pr r x, diamond_tile_reschedule pos pr = Some (r, x) ->
  length (p_stmts r) = length (p_stmts pr) /\ p_deps r = p_deps pr /\
  forall s, (s < length (p_stmts pr))%nat ->
    let st := stmt_of pr s in let st' := stmt_of r s in let fl := (s_dim st - s_dim_orig st)%nat in
    s_dim st' = s_dim st /\ s_domain st' = s_domain st /\ s_reads st' = s_reads st /\ s_writes st' = s_writes st /\
    (s_evict st = None -> st' = st) /\
    forall e, s_evict st = Some e ->
      (forall k, k <> (fl + nth s pos 0%nat)%nat -> nth k (mrows (s_trans st')) [] = nth k (mrows (s_trans st)) []) /\
      nth (fl + nth s pos 0%nat) (mrows (s_trans st')) [] = firstn fl (nth (fl + nth s pos 0%nat) (mrows (s_trans st)) []) ++ e /\
      exists e', s_evict st' = Some e' /\
        (wf_mat (s_trans st) -> Permutation (e :: map (skipn fl) (mrows (s_trans st))) (e' :: map (skipn fl) (mrows (s_trans st')))).
Proof.
  intros pos pr r x E. destruct (resched_some _ _ _ _ E) as (R1 & R2 & R3 & R4 & R5 & R6 & R7).
  split; [auto|]. split; [auto|]. intros s Hs. cbv zeta.
  destruct (resched_stmt_some _ _ _ (R7 s Hs)) as [[E0 ->]|(e & E0 & E1 & E2 & ->)].
  - do 4 (split; [reflexivity|]). split; [auto|]. intros e E'. congruence.
  - do 4 (split; [reflexivity|]). split; [intros; congruence|]. intros e' E'. rewrite E0 in E'. inversion E'; subst e'. clear E'.
    cbn [set_evict set_trans s_trans mrows s_evict]. set (fl := (s_dim (stmt_of pr s) - s_dim_orig (stmt_of pr s))%nat) in *.
    split; [|split].
    + intros k Hk. apply nth_set_nth_neq. auto.
    + apply nth_set_nth_eq. exact E2.
    + eexists. split; [reflexivity|]. intros WM. rewrite map_set_nth'.
      assert (length (nth (fl + nth s pos 0%nat) (mrows (s_trans (stmt_of pr s))) []) = mncols (s_trans (stmt_of pr s))) as LR by (apply WM; apply nth_In; exact E2).
      set (row := nth (fl + nth s pos 0%nat) (mrows (s_trans (stmt_of pr s))) []) in *.
      replace (skipn fl (firstn fl row ++ e)) with e.
      2: { rewrite skipn_app, firstn_length, Nat.min_l, Nat.sub_diag by lia. rewrite (skipn_all2 (firstn fl row)) by (rewrite firstn_length; lia). reflexivity. }
      replace (skipn fl row) with (nth (fl + nth s pos 0%nat) (map (skipn fl) (mrows (s_trans (stmt_of pr s)))) (skipn fl [])).
      * apply permutation_set_nth. rewrite map_length. exact E2.
      * rewrite List.map_nth. reflexivity.
Qed.
Print Assumptions C27_exchange.

(** Without tiling, rescheduling restores the schedule that was there before the
    hyperplanes were replaced. *)
Theorem C27_restore : forall pr0 pos0 bands es pr pos,
  wf_core pr0 -> disjoint_bands bands -> Forall (evicts_in pr0 bands) es -> length pos0 = length (p_stmts pr0) ->
  (forall s, (s < length (p_stmts pr0))%nat -> s_evict (stmt_of pr0 s) = None /\ (s_dim_orig (stmt_of pr0 s) = s_dim (stmt_of pr0 s))%nat) ->
  evict_bands (pr0, pos0) es = Some (pr, pos) ->
  exists r x, diamond_tile_reschedule pos pr = Some (r, x) /\
    forall s, (s < length (p_stmts pr0))%nat -> s_trans (stmt_of r s) = s_trans (stmt_of pr0 s) /\ s_domain (stmt_of r s) = s_domain (stmt_of pr0 s).
Proof.
  intros pr0 pos0 bands es pr pos W D HE L0 HO E. pose proof (evict_bands_evicted _ _ _ _ _ L0 E) as EV.
  pose proof EV as (L1 & _). cbn [fst] in L1.
  assert (forall s, (s < length (p_stmts pr0))%nat -> exists st, reschedule_stmt (nth s pos 0%nat) (stmt_of pr s) = Some st /\
    s_trans st = s_trans (stmt_of pr0 s) /\ s_domain st = s_domain (stmt_of pr0 s)) as K.
  { intros s Hs. destruct (HO s Hs) as [O1 O2].
    destruct (ev_cases pr0 bands es pr pos D HE EV s Hs) as [->|(h & B1 & B2 & B3 & B4 & B5 & B6 & B7)].
    - exists (stmt_of pr0 s). unfold reschedule_stmt. rewrite O1. auto.
    - rewrite B7. set (k := nth s pos 0%nat) in *.
      destruct (proj1 W _ (stmt_of_in pr0 s Hs)) as ((_ & M & C & _) & _).
      assert (length (nth k (mrows (s_trans (stmt_of pr0 s))) []) = mncols (s_trans (stmt_of pr0 s))) as LE by (apply C; apply nth_In; exact B6).
      unfold reschedule_stmt. cbn [set_evict set_trans s_evict s_dim s_dim_orig s_trans mncols mrows]. rewrite O2, Nat.sub_diag. cbn [Nat.add].
      rewrite LE, Nat.eqb_refl. unfold mnrows in *. cbn [mrows]. rewrite set_nth_length, (proj2 (Nat.ltb_lt _ _) B6). cbn [andb firstn app].
      eexists. split; [reflexivity|]. cbn [set_evict set_trans s_trans s_domain]. split; [|reflexivity].
      rewrite set_nth_set, set_nth_same. destruct (s_trans (stmt_of pr0 s)). reflexivity. }
  destruct (resched_exists pos pr) as (r & x & ER).
  { intros s Hs. rewrite L1 in Hs. destruct (K s Hs) as (st & K1 & _). eauto. }
  exists r, x. split; [auto|]. intros s Hs. destruct (K s Hs) as (st & K1 & K2).
  destruct (resched_some _ _ _ _ ER) as (_ & _ & _ & _ & _ & _ & R7). rewrite (R7 s ltac:(lia)) in K1. inversion K1 as [K3]. rewrite K3. exact K2.
Qed.
Print Assumptions C27_restore.

(** Diamond tiling as a whole: hyperplanes are replaced, the bands are tiled and
    the program is rescheduled.  If all levels of the bands are loops, the tiles
    are those of the new hyperplanes and every tile runs in the original order. *)
Theorem C27_diamond_tiling : forall pr0 pos0 bands es pr pos,
  wf_core pr0 -> disjoint_bands bands -> Forall (wf_band pr0) bands -> Forall (evicts_in pr0 bands) es -> length pos0 = length (p_stmts pr0) ->
  (forall s, (s < length (p_stmts pr0))%nat -> s_evict (stmt_of pr0 s) = None /\ (s_dim_orig (stmt_of pr0 s) = s_dim (stmt_of pr0 s))%nat) ->
  (forall b s, In b bands -> In s (b_stmts b) -> num_loops (stmt_of pr0 s) (b_first b) (b_sizes b) = length (b_sizes b)) ->
  evict_bands (pr0, pos0) es = Some (pr, pos) ->
  exists r x, diamond_tile_reschedule pos (tile_scattering_dims pr bands) = Some (r, x) /\
    rescheduled pr0 pr bands r (fun b => [b_sizes b]).
Proof.
  intros pr0 pos0 bands es pr pos W D F HE L0 HO HL E.
  apply (diamond_one pr0 bands es pr pos); auto. eapply evict_bands_evicted; eauto.
Qed.
Print Assumptions C27_diamond_tiling.

(** The same with two levels of tiles (--second-level-tile). *)
Theorem C27_diamond_two_levels : forall pr0 pos0 bands es pr pos sizes2,
  wf_core pr0 -> disjoint_bands bands -> Forall (wf_band pr0) bands -> Forall (evicts_in pr0 bands) es -> length pos0 = length (p_stmts pr0) ->
  (forall s, (s < length (p_stmts pr0))%nat -> s_evict (stmt_of pr0 s) = None /\ (s_dim_orig (stmt_of pr0 s) = s_dim (stmt_of pr0 s))%nat) ->
  (forall b s, In b bands -> In s (b_stmts b) -> num_loops (stmt_of pr0 s) (b_first b) (b_sizes b) = length (b_sizes b)) ->
  evict_bands (pr0, pos0) es = Some (pr, pos) ->
  (forall s, (s < length (p_stmts pr))%nat -> types_ok (stmt_of pr s)) ->
  (forall b, In b bands -> length (sizes2 b) = length (b_sizes b) /\ forall T, In T (sizes2 b) -> 1 <= T) ->
  exists r x,
    diamond_tile_reschedule pos (tile_scattering_dims (tile_scattering_dims pr bands) (map (fun b => mkBand (b_stmts b) (b_first b) (sizes2 b)) bands)) = Some (r, x) /\
    rescheduled pr0 pr bands r (fun b => [zip_with Z.mul (b_sizes b) (sizes2 b); b_sizes b]).
Proof.
  intros pr0 pos0 bands es pr pos sizes2 W D F HE L0 HO HL E TO S2.
  apply (diamond_two pr0 bands es pr pos); auto. eapply evict_bands_evicted; eauto.
Qed.
Print Assumptions C27_diamond_two_levels.

(** A stencil in one dimension, scheduled with t and t + i; the first hyperplane
    is replaced with t - i. *)
Definition st_stmt : stmt := mkStmt 2 2 [true;true] wave_dom (mkMat 3 [[1;0;0];[1;1;0]]) [H_LOOP;H_LOOP] 0 0 [] [] None 0 (-1) (-1).
Definition st_prog : prog := mkProg 2 0 [st_stmt] [wave_dep 1 0; wave_dep 1 1; wave_dep 1 (-1)] [H_LOOP; H_LOOP].
Definition st_band : band := mkBand [0%nat] 0 [4;4].
Definition st_evict : eviction := ([0%nat], 0%nat, [[1;-1;0]]).

Example C27_met :
  wf_core st_prog /\ disjoint_bands [st_band] /\ Forall (wf_band st_prog) [st_band] /\ Forall (evicts_in st_prog [st_band]) [st_evict] /\
  (forall s, (s < length (p_stmts st_prog))%nat -> s_evict (stmt_of st_prog s) = None /\ (s_dim_orig (stmt_of st_prog s) = s_dim (stmt_of st_prog s))%nat) /\
  (forall b s, In b [st_band] -> In s (b_stmts b) -> num_loops (stmt_of st_prog s) (b_first b) (b_sizes b) = length (b_sizes b)) /\
  legal st_prog /\
  exists pr pos r, evict_bands (st_prog, [0%nat]) [st_evict] = Some (pr, pos) /\
    (forall s, (s < length (p_stmts pr))%nat -> types_ok (stmt_of pr s)) /\
    (forall d, In d (p_deps st_prog) -> d_rar d = false -> Forall (fun b => band_safe pr b d) [st_band]) /\
    diamond_tile_reschedule pos (tile_scattering_dims pr [st_band]) = Some (r, true) /\
    timestamp (stmt_of r 0) (diamond_point pr st_band [[4;4]] 0 [5;2] []) [] = [0; 1; 5; 7].
Proof.
  split.
  { split.
    - intros st [<-|[]]; (split; [|reflexivity]); repeat (split; [first [reflexivity|wf]|]); simpl; tauto.
    - intros d [<-|[<-|[<-|[]]]]; (split; [simpl; lia|split; [simpl; lia|split; [wf|reflexivity]]]). }
  split; [repeat constructor|]. split.
  { constructor; [|constructor]. split; [repeat constructor; simpl; tauto|]. split; [simpl; intros T [<-|[<-|[]]]; lia|].
    intros s [<-|[]]. split; [simpl; lia|vm_compute; lia]. }
  split.
  { constructor; [|constructor]. exists st_band. split; [simpl; auto|]. split; [apply incl_refl|]. split; [simpl; lia|].
    intros s h [<-|[]] [<-|[]]. reflexivity. }
  split; [intros s Hs; destruct s; [split; reflexivity|simpl in Hs; lia]|].
  split; [intros b s [<-|[]] [<-|[]]; reflexivity|]. split.
  { intros d [<-|[<-|[<-|[]]]] _ s t p I; instance_cases; unfold timestamp, aff; cbn -[Z.mul Z.add Z.sub]; lia. }
  eexists. eexists. eexists. split; [vm_compute; reflexivity|]. split.
  { intros s Hs. destruct s as [|s]; [|simpl in Hs; lia]. intros k Hk. unfold mnrows in Hk; simpl in Hk. destruct k as [|[|k]]; try lia;
    (split; [discriminate|intros H; exfalso; specialize (H 0%nat ltac:(simpl; lia)); simpl in H; lia]). }
  split.
  { intros d [<-|[<-|[<-|[]]]] _; (constructor; [|constructor]); right; right; (split; [reflexivity|]); (split; [reflexivity|]);
    intros s t p I _ k Hk; left; (split; [|left; simpl in Hk; destruct k as [|[|k]]; [reflexivity|reflexivity|lia]]);
    match type of I with instance _ ?d _ _ _ => assert (instance st_prog d s t p) as J by exact I end; clear I;
    rename J into I; instance_cases; unfold distance, theta, aff; simpl in Hk; (destruct k as [|[|k]]; [| |lia]); cbn -[Z.mul Z.add Z.sub]; lia. }
  split; [vm_compute; reflexivity|vm_compute; reflexivity].
Qed.

(** With a level of the band that is no loop the wrong row is exchanged: the row
    is found from the number of tile iterators, but the tiles take one row for
    every level of the band.  Here all assumptions except the one on the levels
    hold, and the points of the tiles do not run in the original order. *)
Theorem C27_scalar_in_band_refuted : exists pr0 bands es pr pos r x,
  wf_core pr0 /\ disjoint_bands bands /\ Forall (wf_band pr0) bands /\ Forall (evicts_in pr0 bands) es /\
  (forall s, (s < length (p_stmts pr0))%nat -> s_evict (stmt_of pr0 s) = None /\ (s_dim_orig (stmt_of pr0 s) = s_dim (stmt_of pr0 s))%nat) /\
  evict_bands (pr0, [0%nat]) es = Some (pr, pos) /\
  diamond_tile_reschedule pos (tile_scattering_dims pr bands) = Some (r, x) /\
  ~ rescheduled pr0 pr bands r (fun b => [b_sizes b]).
Proof.
  exists (mkProg 2 0 [mkStmt 2 2 [true;true] wave_dom (mkMat 3 [[1;0;0];[0;0;0];[1;1;0]]) [H_LOOP;H_SCALAR;H_LOOP] 0 0 [] [] None 0 (-1) (-1)] [] [H_LOOP; H_SCALAR; H_LOOP]),
    [mkBand [0%nat] 0 [4;1;4]], [st_evict].
  eexists. eexists. eexists. eexists. split.
  { split.
    - intros st [<-|[]]; (split; [|reflexivity]); repeat (split; [first [reflexivity|wf]|]); simpl; tauto.
    - intros d []. }
  split; [repeat constructor|]. split.
  { constructor; [|constructor]. split; [repeat constructor; simpl; tauto|]. split; [simpl; intros T [<-|[<-|[<-|[]]]]; lia|].
    intros s [<-|[]]. split; [simpl; lia|vm_compute; lia]. }
  split.
  { constructor; [|constructor]. exists (mkBand [0%nat] 0 [4;1;4]). split; [simpl; auto|]. split; [apply incl_refl|]. split; [simpl; lia|].
    intros s h [<-|[]] [<-|[]]. reflexivity. }
  split; [intros s Hs; destruct s; [split; reflexivity|simpl in Hs; lia]|].
  split; [vm_compute; reflexivity|]. split; [vm_compute; reflexivity|].
  intros (_ & _ & H & _). destruct (H 0%nat) as (_ & z & K); [simpl; lia|]. specialize (K [5;2] [] eq_refl eq_refl).
  apply (f_equal (fun l => nth 2 l 0)) in K. vm_compute in K. discriminate.
Qed.
Print Assumptions C27_scalar_in_band_refuted.
