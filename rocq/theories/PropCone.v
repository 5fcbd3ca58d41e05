(** * Theorems: diamond tiles found by the tool (C76). *)
From Coq Require Import ZArith List Bool Lia Arith.
From Verif Require Import SpecLinear SpecMatrix MathModel ConstraintsModel VecProofs EditProofs RankProofs MatrixProofs SpecProg SpecDriver SpecTile SpecLoop SpecDiamond
  FrameworkModel ProgModel DepProofs ProgProofs SimplifyProofs DriverModel DriverProofs PadProofs AutoProofs TileModel TileProofs LoopModel LoopProofs LoopProofs2 LoopProofs3 LoopProofs4 LoopProofs5 DiamondModel DiamondProofs DiamondProofs2 IntraModel
  SpecCone ConeModel ConeProofs ConeProofs2 ConeProofs3 ConeProofs4 ConeProofs5 ConeProofs6
  Checkers ExProg PropFramework PropDriver PropAuto PropTile PropLoop PropWave PropIntra PropFlow.
Import ListNotations.
Open Scope Z_scope.

(** ** One pass

    Whatever the bands, the pass changes one row of all statements of a band or
    nothing of it.  The new rows do not reverse a dependence that is not yet
    satisfied, the row that was there is kept, and the faces along which the
    tiles start together are strictly inside the cone of the new row and the
    others. *)
Theorem C76_pass : forall is_emptyb solve lexmin o full pr pos pr2 pos2 found,
  solver_sound solve -> lexmin_ok lexmin ->
  wf_prog pr -> padded pr -> orig_first pr -> padding_free pr -> (2 <= p_nvar pr)%nat -> length pos = length (p_stmts pr) ->
  (full = true -> forall bands b, get_outermost_permutable_bands (recompute is_emptyb pr) = Some bands -> In b bands -> (pb_width b <= p_nvar pr)%nat) ->
  pluto_diamond_tile is_emptyb solve lexmin o full pr pos = Some (pr2, pos2, found) ->
  p_nvar pr2 = p_nvar pr /\ p_npar pr2 = p_npar pr /\ p_hprops pr2 = p_hprops pr /\ Forall2 same_dep (p_deps pr) (p_deps pr2) /\
  length (p_stmts pr2) = length (p_stmts pr) /\
  exists bands changed, get_outermost_permutable_bands (recompute is_emptyb pr) = Some bands /\ (found = true <-> changed <> []) /\
    (forall b k h, In (b, k, h) changed -> In b bands /\ diamond_rows pr full (l_stmts (pb_loop b)) (l_depth (pb_loop b)) (pb_width b) k h) /\
    forall s, (s < length (p_stmts pr))%nat -> let st := stmt_of pr s in let st2 := stmt_of pr2 s in
      (st2 = st /\ nth s pos2 0%nat = nth s pos 0%nat /\ forall b k h, In (b, k, h) changed -> ~ In s (l_stmts (pb_loop b))) \/
      exists b k h, In (b, k, h) changed /\ In s (l_stmts (pb_loop b)) /\ nth s pos2 0%nat = k /\ s_evict st = None /\
        st2 = set_evict (set_trans st (mkMat (mncols (s_trans st)) (set_nth k (h s) (mrows (s_trans st))))) (Some (nth k (mrows (s_trans st)) [])).
Proof.
  intros is_emptyb solve lexmin o full pr pos pr2 pos2 found SOL LM W P O RP NV LP NB H.
  destruct (pass_spec is_emptyb solve lexmin o full SOL LM pr pos pr2 pos2 found W P O RP NV NB H) as (bands & q & es & G & E & E2 & FO & EV & FA).
  destruct (recompute_same is_emptyb pr) as (R1 & R2 & R3 & R4 & R5).
  assert (forall s, stmt_of (recompute is_emptyb pr) s = stmt_of pr s) as SO by (intros; unfold stmt_of; rewrite R1; auto).
  destruct EV as (V1 & V2 & V3 & V4 & V5 & _).
  assert (p_nvar pr2 = p_nvar q /\ p_npar pr2 = p_npar q /\ p_hprops pr2 = p_hprops q /\ p_stmts pr2 = p_stmts q /\ Forall2 same_dep (p_deps q) (p_deps pr2)) as (Q1 & Q2 & Q3 & Q4 & Q5).
  { subst pr2. destruct found; cbn; repeat (split; auto).
    - clear. induction (p_deps q) as [|d l IH]; cbn; constructor; auto. unfold same_dep. destruct d; cbn; auto.
    - apply Forall2_same_refl. }
  pose proof (outermost_fine is_emptyb full pr bands G (fun X b => NB X bands b G)) as BF. rewrite Forall_forall in BF, FA.
  assert (forall s, stmt_of pr2 s = stmt_of q s) as SQ by (intros; unfold stmt_of; rewrite Q4; auto).
  apply evict_bands_each in E as (B1 & B2 & B3); [| |congruence].
  2:{ apply Forall_forall. intros e He. destruct (FA e He) as (b & h & X1 & X2 & X3 & _). destruct (BF b X1) as (S & _). split; [rewrite X2|exists h; congruence].
      clear - S. induction S as [|a l S IH HF]; constructor; auto. intros X. rewrite Forall_forall in HF. specialize (HF a X). lia. }
  split; [congruence|]. split; [congruence|]. split; [congruence|].
  split. { eapply Forall2_same_trans; [exact R5|]. rewrite <- V3. exact Q5. }
  split; [congruence|]. rewrite R1 in *.
  set (ok := fun e (x : pband * nat * (nat -> list Z)) => let '(b, k, h) := x in e = (l_stmts (pb_loop b), k, map h (l_stmts (pb_loop b))) /\
    In b bands /\ diamond_rows pr full (l_stmts (pb_loop b)) (l_depth (pb_loop b)) (pb_width b) k h).
  assert (exists ch, Forall2 ok es ch) as [ch FC].
  { clear - FA. induction es as [|e es IH]; [exists []; constructor|]. destruct IH as [ch IH]; [intros; apply FA; right; auto|].
    destruct (FA e (or_introl eq_refl)) as (b & h & X1 & X2 & X3 & X4 & _). exists ((b, snd (fst e), h) :: ch). constructor; auto. unfold ok. split; auto. destruct e as [[l k] hs]. cbn in *. congruence. }
  exists bands, ch. split; auto. split. { rewrite FO. clear - FC. inversion FC; subst; split; intros X Y; try discriminate; contradiction. }
  split. { intros b k h I. destruct (Forall2_in_r _ _ _ _ FC I) as (e & _ & _ & X). exact X. }
  intros s Hs st st2. unfold st, st2. rewrite SQ. destruct (B3 s Hs) as [(C1 & C2 & C3)|(l & k & h & C1 & C2 & C3 & C4)].
  - left. rewrite C1, SO. split; auto. split; auto. intros b k h I. destruct (Forall2_in_r _ _ _ _ FC I) as (e & He & X & _). specialize (C3 e He). rewrite X in C3. exact C3.
  - right. destruct (Forall2_in_l _ _ _ _ FC C1) as ([[b k'] h'] & I & X & _). injection X as X1 X2 X3; subst l k'. rewrite SO in C4.
    apply evict_stmt_some in C4 as (Y1 & _ & Y2). exists b, k, h'. split; auto. split; auto. split; auto. split; auto. rewrite Y2.
    assert (h s = h' s) as ->; auto. clear - X3 C2. induction (l_stmts (pb_loop b)) as [|a l IH]; [destruct C2|]. cbn in X3. injection X3 as X Y. destruct C2 as [->|C2]; auto.
Qed.
Print Assumptions C76_pass.

(** ** The whole search

    The full statement (every transformation found with diamond tiling runs
    dependent iterations in order) is refuted below.  It holds if every statement has a loop
    and rows are replaced only while the search has found nothing but constant
    levels (the band is outermost), in the first of the two modes. *)
Theorem C76_auto_legal_partial : forall is_emptyb isl_emptyb kernel solve lexmin o full fuse fuel pr pr' pos,
  exact_empty is_emptyb -> solver_sound solve -> lexmin_ok lexmin -> input_ok pr ->
  (forall s, (s < length (p_stmts pr))%nat -> (1 <= s_dim_orig (stmt_of pr s))%nat) ->
  (forall depth mode d d' mode', round_begins is_emptyb isl_emptyb kernel solve lexmin o full fuse pr depth mode d -> dd_found d = false ->
     round_d is_emptyb isl_emptyb kernel solve lexmin o full fuse depth mode d = Some (DContinue d' mode') -> dd_found d' = true ->
     mode = EAGER /\ constant_levels (st_prog (round_start is_emptyb fuse (dd_state d)))) ->
  auto_transform_d is_emptyb isl_emptyb kernel solve lexmin o full fuse fuel pr = Some (pr', pos) ->
  same_program pr pr' /\
  (forall s i p, (s < length (p_stmts pr))%nat -> length i = s_dim (stmt_of pr s) -> length p = p_npar pr ->
     length (timestamp (stmt_of pr' s) i p) = length (p_hprops pr')) /\
  (forall d, In d (p_deps pr) -> d_rar d = false -> forall s t p, instance pr d s t p ->
     lexlt (timestamp (stmt_of pr' (d_src d)) s p) (timestamp (stmt_of pr' (d_dst d)) t p)) /\
  (forall s i j p, (s < length (p_stmts pr))%nat -> length i = s_dim (stmt_of pr s) -> length j = s_dim (stmt_of pr s) -> length p = p_npar pr ->
     timestamp (stmt_of pr' s) i p = timestamp (stmt_of pr' s) j p -> i = j).
Proof. intros. eapply (auto_success_d is_emptyb isl_emptyb kernel solve lexmin o full); eauto. Qed.
Print Assumptions C76_auto_legal_partial.

(** With maximal or partial fusion nothing precedes the first round, and once
    rows are replaced no later round replaces rows. *)
Theorem C76_first_round_partial : forall is_emptyb isl_emptyb kernel solve lexmin o full fuel pr pr' pos d m,
  exact_empty is_emptyb -> solver_sound solve -> lexmin_ok lexmin -> input_ok pr ->
  (forall s, (s < length (p_stmts pr))%nat -> (1 <= s_dim_orig (stmt_of pr s))%nat) ->
  round_d is_emptyb isl_emptyb kernel solve lexmin o full MaxFuse 0 EAGER (start_d is_emptyb MaxFuse pr) = Some (DContinue d m) -> dd_found d = true ->
  auto_transform_d is_emptyb isl_emptyb kernel solve lexmin o full MaxFuse fuel pr = Some (pr', pos) ->
  same_program pr pr' /\
  (forall s i p, (s < length (p_stmts pr))%nat -> length i = s_dim (stmt_of pr s) -> length p = p_npar pr ->
     length (timestamp (stmt_of pr' s) i p) = length (p_hprops pr')) /\
  (forall d, In d (p_deps pr) -> d_rar d = false -> forall s t p, instance pr d s t p ->
     lexlt (timestamp (stmt_of pr' (d_src d)) s p) (timestamp (stmt_of pr' (d_dst d)) t p)) /\
  (forall s i j p, (s < length (p_stmts pr))%nat -> length i = s_dim (stmt_of pr s) -> length j = s_dim (stmt_of pr s) -> length p = p_npar pr ->
     timestamp (stmt_of pr' s) i p = timestamp (stmt_of pr' s) j p -> i = j).
Proof.
  intros is_emptyb isl_emptyb kernel solve lexmin o full fuel pr pr' pos d m EX SOL LM IN DM R0 F0 E.
  eapply C76_auto_legal_partial; eauto.
  assert (forall depth mode d0, round_begins is_emptyb isl_emptyb kernel solve lexmin o full MaxFuse pr depth mode d0 ->
    (depth = 0%nat /\ mode = EAGER /\ d0 = start_d is_emptyb MaxFuse pr) \/ dd_found d0 = true) as K.
  { induction 1 as [|depth mode d0 d1 mode1 B IH R _]; auto. right. destruct IH as [(-> & -> & ->)|IH].
    - rewrite R0 in R. injection R as <- <-. auto.
    - unfold round_d in R. destruct (find_permutable_hyperplanes _ _ _ _ _ _ _) as [p1 n1]. rewrite IH, andb_false_r in R.
      destruct (round _ _ _ _ _ _ _ _ _); [|discriminate]. injection R as <- <-. auto. }
  intros depth mode d0 d1 mode1 B FF R FT. destruct (K _ _ _ B) as [(-> & -> & ->)|X]; [|congruence]. split; auto.
  intros s k j _ Hk _. cbn in Hk. lia.
Qed.
Print Assumptions C76_first_round_partial.

(** A decision of emptiness that searches points with coordinates -2..2 one
    coordinate after the other. *)
Fixpoint add_last (v : Z) (r : list Z) : list Z :=
  match r with [] => [] | [x] => [x + v] | x :: r' => x :: add_last v r' end.
Definition subst_first (c : cst) (v : Z) : cst :=
  mkCst (ncols c - 1) (map (fun r => mkRow (is_eq r) (match coef r with [] => [] | a :: l => add_last (a * v) l end)) (rows c)).
Fixpoint first_some (g : Z -> option point) (l : list Z) : option point :=
  match l with [] => None | v :: l' => match g v with Some x => Some (v :: x) | None => first_some g l' end end.
Fixpoint search (n : nat) (c : cst) : option point :=
  if negb (memb (elim_all n c) []) then None
  else match n with O => Some [] | S k => first_some (fun v => search k (subst_first c v)) [0;1;-1;2;-2] end.
Definition dfs_empty (f : cst -> bool) (c : cst) : bool :=
  if negb (memb (elim_all (ncols c - 1) c) []) then true
  else match search (ncols c - 1) c with Some x => if memb c x then false else f c | None => f c end.
Lemma dfs_empty_exact f : exact_empty f -> exact_empty (dfs_empty f).
Proof.
  intros F c W. unfold dfs_empty. pose proof (dec_empty_exact f F c W) as D. unfold dec_empty in D.
  destruct (memb (elim_all (ncols c - 1) c) []) eqn:R; cbn [negb] in *; auto.
  destruct (search (ncols c - 1) c) as [x|]; [|apply (F c W)]. destruct (memb c x) eqn:M; [|apply (F c W)].
  exists x. apply memb_ok. auto.
Qed.

(** for t, i: a[t][i] = f(a[t-1][i-1], a[t-1][i], a[t-1][i+1]): the search finds
    t and t + i; diamond tiling replaces t by t - i. *)
Definition jac_lexmin (c : cst) : option point := find (memb c) [[2;1;-1;0;2;1]].

Example C76_met : solver_sound jac_solve /\ lexmin_ok jac_lexmin /\ input_ok jac_prog /\
  (forall s, (s < length (p_stmts jac_prog))%nat -> (1 <= s_dim_orig (stmt_of jac_prog s))%nat) /\
  exists f, exact_empty f /\
  (exists d m, round_d f (fun _ => false) jac_kernel jac_solve jac_lexmin ex_opts false MaxFuse 0 EAGER (start_d f MaxFuse jac_prog) = Some (DContinue d m) /\ dd_found d = true) /\
  exists q, auto_transform_d f (fun _ => false) jac_kernel jac_solve jac_lexmin ex_opts false MaxFuse 10 jac_prog = Some (q, [0%nat]) /\
    mrows (s_trans (stmt_of q 0)) = [[1;-1;0];[1;1;0]] /\ s_evict (stmt_of q 0) = Some [1;0;0].
Proof.
  split. { intros pr c x _ H. apply find_some in H as [_ H]. apply memb_ok. auto. }
  split. { intros c x _ H. apply find_some in H as [_ H]. apply memb_ok. auto. }
  split; [apply C66_met|].
  split. { intros [|s] Hs; cbn in *; lia. }
  destruct C12_oracle_exists as [f F]. exists (dfs_empty f). split; [apply dfs_empty_exact; auto|].
  split. { eexists. eexists. split; [vm_compute; reflexivity|reflexivity]. }
  eexists. split; [vm_compute; reflexivity|]. split; reflexivity.
Qed.

(** ** Tiling

    The tiles are formed with the new rows and executed in the order of the old
    ones.  That order is the right one if the program with the old rows put back
    runs dependent iterations in order, which the search does not ensure (see
    C76_tiled_refuted). *)
Theorem C76_tiled_partial : forall f score sizes sizes2 q pos bands,
  exact_empty f -> wf_levels q -> plain_levels q -> uniform q -> leveled q ->
  (forall s, (s < length (p_stmts q))%nat -> s_dim_orig (stmt_of q s) = s_dim (stmt_of q s)) -> length pos = length (p_stmts q) ->
  bands_to_tile (info f q) = Some bands ->
  (forall b, In b bands -> length (sizes b) = pb_width b /\ forall T, In T (sizes b) -> 1 <= T) ->
  (forall b s k, In b bands -> In s (l_stmts (pb_loop b)) -> (l_depth (pb_loop b) <= k < l_depth (pb_loop b) + pb_width b)%nat -> loop_level (stmt_of q s) k = true) ->
  (forall s e, (s < length (p_stmts q))%nat -> s_evict (stmt_of q s) = Some e -> length e = mncols (s_trans (stmt_of q s)) /\
     exists b, In b bands /\ In s (l_stmts (pb_loop b)) /\ (l_depth (pb_loop b) <= nth s pos 0%nat < l_depth (pb_loop b) + pb_width b)%nat) ->
  legal (put_back pos q) ->
  exists r r0, pluto_tile_d f score sizes sizes2 (mkTileOptions false false false false false) pos (info f q) = Some r /\ legal r /\
    p_stmts r = p_stmts r0 /\ p_npar r = p_npar r0 /\ rescheduled (put_back pos (info f q)) (info f q) (map (with_sizes sizes) bands) r0 (fun b => [b_sizes b]).
Proof.
  intros f score sizes sizes2 q pos bands EX W PL UN LV HO LP BT SZ HL HB LG.
  destruct (C30_tiling_legal f q EX W PL UN LV) as (bands' & BT' & K). rewrite BT in BT'. injection BT' as <-. destruct (K sizes SZ) as (D & WB & _ & _).
  pose proof (cq_wf f q W) as W'. change (computed f q) with (info f q) in W'.
  pose proof (cq_stmts f q) as CS. pose proof (cq_npar f q) as CN. pose proof (cq_stmt f q) as CT. change (computed f q) with (info f q) in *.
  set (pr := info f q) in *. set (bs := map (with_sizes sizes) bands) in *.
  destruct (tiled_one pr pos bs) as (r0 & x & R & RS); auto.
  - apply W'.
  - congruence.
  - intros s e Hs E. rewrite CS in Hs. rewrite CT in *. destruct (HB s e Hs E) as (Le & b & B1 & B2 & B3). split; auto. exists (with_sizes sizes b). split; [apply in_map; auto|].
    split; auto. cbn. rewrite (proj1 (SZ b B1)). auto.
  - intros s Hs. rewrite CS in Hs. rewrite CT. auto.
  - intros b' s k Hb Hs Hk. apply in_map_iff in Hb as (b & <- & Hb). rewrite CT. cbn in *. rewrite (proj1 (SZ b Hb)) in Hk. apply (HL b); auto.
  - assert (legal (put_back pos pr)) as LG'.
    { apply (same_legal (put_back pos q)); [|exact CN|exact (computed_deps f q)|exact LG].
      unfold put_back. cbn [set_stmts p_stmts]. rewrite CS. apply map_ext. intros s. rewrite CT. auto. }
    assert (legal r0) as L0.
    { apply RS; auto. intros d Hd Hr. unfold bs. apply Forall_forall. intros b' Hb. apply in_map_iff in Hb as (b & <- & Hb). cbn in Hd.
      pose proof (cq_plain f q PL) as PL'. pose proof (cq_uniform f q UN) as UN'. pose proof (cq_leveled f q LV) as LV'. change (computed f q) with pr in *.
      assert (forall d, In d (p_deps pr) -> d_rar d = false -> info_ok pr d) as INF by (intros; apply computed_info; auto).
      destruct (bands_to_tile_ok pr W' PL' UN' INF LV') as (bands' & E & G & S). rewrite BT in E. injection E as <-. rewrite Forall_forall in G.
      apply good_safe; auto. apply SZ; auto. }
    destruct (resched_recompute f pos _ _ _ R) as (r' & R' & S1 & S2 & S3).
    unfold pluto_tile_d. fold pr. rewrite BT. cbn [o_second_level o_intratileopt o_parallel]. fold bs. rewrite R'.
    assert (legal r') as L1 by (apply (same_legal r0); auto).
    eexists. exists r0. split; [reflexivity|]. destruct x.
    + pose proof (recompute_same f r') as (T1 & _ & T3 & _ & T5). split; [apply (same_legal r'); auto|]. split; [congruence|]. split; [congruence|auto].
    + split; auto.
Qed.
Print Assumptions C76_tiled_partial.

Definition jac_diamond : prog := mkProg 2 0
  [mkStmt 2 2 [true;true] wave_dom (mkMat 3 [[1;-1;0];[1;1;0]]) [H_LOOP;H_LOOP] 0 0 [mkMat 3 [[1;0;-1];[0;1;-1]]] [mkMat 3 [[1;0;0];[0;1;0]]] (Some [1;0;0]) 0 (-1) (-1)]
  [wave_dep 1 (-1); wave_dep 1 0; wave_dep 1 1] [H_LOOP; H_LOOP].

Example C76_tiled_met : wf_levels jac_diamond /\ plain_levels jac_diamond /\ uniform jac_diamond /\ leveled jac_diamond /\ legal (put_back [0%nat] jac_diamond) /\
  exists f, exact_empty f /\ bands_to_tile (info f jac_diamond) = Some [wave_pband] /\
  exists r, pluto_tile_d f outer_score (fun _ => [2;2]) (fun _ => [2;2]) (mkTileOptions false false false false false) [0%nat] (info f jac_diamond) = Some r /\
    mrows (s_trans (stmt_of r 0)) = [[1;0;0;0;0];[0;1;0;0;0];[0;0;1;0;0];[0;0;1;1;0]] /\ s_evict (stmt_of r 0) = Some [1;-1;0].
Proof.
  split. { split; [split|].
    - intros st [<-|[]]. split; [|reflexivity]. repeat (split; [first [reflexivity|wf]|]); simpl; intuition (subst; first [wf|reflexivity]).
    - intros d [<-|[<-|[<-|[]]]]; (split; [simpl; lia|split; [simpl; lia|split; [wf|reflexivity]]]).
    - intros [|s] Hs; [reflexivity|simpl in Hs; lia]. }
  assert (plain_levels jac_diamond /\ uniform jac_diamond) as [A B].
  { apply plain_loops.
    - intros s Hs. simpl in Hs. destruct s; [|lia]. intros k Hk. unfold mnrows in Hk. simpl in Hk. destruct k as [|[|k]]; try lia; (split; [discriminate|]; intros H; exfalso);
        specialize (H 0%nat ltac:(simpl; lia)); simpl in H; lia.
    - intros s k Hs Hk. simpl in Hs, Hk. destruct s; [|lia]. destruct k as [|[|k]]; [reflexivity|reflexivity|lia]. }
  split; [exact A|]. split; [exact B|].
  split. { intros d [<-|[<-|[<-|[]]]] _; [exists 0%nat|exists 0%nat|exists 1%nat]; (split; [simpl; lia|split; [|intros j Hj; destruct j as [|j]; try lia]]).
    all: intros s t p I; instance_cases; unfold distance, theta, aff; cbn -[Z.mul Z.add Z.sub]; lia. }
  split. { intros d [<-|[<-|[<-|[]]]] _ s t p I; instance_cases; unfold timestamp, aff; cbn -[Z.mul Z.add Z.sub]; left; lia. }
  destruct C12_oracle_exists as [f F]. exists (dfs_empty f). split; [apply dfs_empty_exact; auto|].
  split; [vm_compute; reflexivity|]. eexists. split; [vm_compute; reflexivity|]. split; reflexivity.
Qed.

(** ** Programs for which the statements fail

    for t, i, j, k: a[t][i][j][k] = f(a[t-1][0][2j][2k]).  The first round finds
    the band t, i, and no row that suits diamond tiles.  The second round finds
    j and k; as these are two rows, the pass runs again, takes the band t, i
    again and, since the dependence now counts as satisfied (by t), replaces t
    by t - 4 i, which runs dependent iterations in the wrong order.  The last
    round counts the dependence as satisfied again. *)
Definition f4_dom : cst := mkCst 6 [ge [1;0;0;0;0;0]; ge [-1;0;0;0;1;0]; ge [0;1;0;0;0;0]; ge [0;-1;0;0;1;0]; ge [0;0;1;0;0;0]; ge [0;0;-1;0;1;0]; ge [0;0;0;1;0;0]; ge [0;0;0;-1;1;0]].
Definition f4_stmt : stmt := mkStmt 4 4 [true;true;true;true] f4_dom (mkMat 6 [[1;0;0;0;0;0];[0;1;0;0;0;0];[0;0;1;0;0;0];[0;0;0;1;0;0]]) [H_LOOP;H_LOOP;H_LOOP;H_LOOP] 0 0
  [mkMat 6 [[1;0;0;0;0;-1];[0;0;0;0;0;0];[0;0;2;0;0;0];[0;0;0;2;0;0]]] [mkMat 6 [[1;0;0;0;0;0];[0;1;0;0;0;0];[0;0;1;0;0;0];[0;0;0;1;0;0]]] None 0 (-1) (-1).
Definition f4_poly : cst := mkCst 10
 [eq [1;0;0;0;-1;0;0;0;0;1]; eq [0;1;0;0;0;0;0;0;0;0]; eq [0;0;1;0;0;0;-2;0;0;0]; eq [0;0;0;1;0;0;0;-2;0;0];
  ge [1;0;0;0;0;0;0;0;0;0]; ge [0;0;0;0;-1;0;0;0;1;0]; ge [0;0;0;0;0;1;0;0;0;0]; ge [0;0;0;0;0;-1;0;0;1;0];
  ge [0;0;0;0;0;0;1;0;0;0]; ge [0;0;-1;0;0;0;0;0;1;0]; ge [0;0;0;0;0;0;0;1;0;0]; ge [0;0;0;-1;0;0;0;0;1;0]].
Definition f4_prog : prog := mkProg 4 1 [f4_stmt] [ex_dep 0 0 false f4_poly] [H_LOOP;H_LOOP;H_LOOP;H_LOOP].
Definition f4_kernel (m : matrix) : matrix :=
  match mrows m with
  | [] => mkMat (mncols m) (map (fun i => set_nth i 1 (repeat 0 (mncols m))) (seq 0 (mncols m)))
  | _ => if matrix_eq_dec m (mkMat 4 [[1;0;0;0]]) then mkMat 3 [[0;0;0];[1;0;0];[0;1;0];[0;0;1]]
         else if matrix_eq_dec m (mkMat 4 [[1;0;0;0];[0;1;0;0]]) then mkMat 2 [[0;0];[0;0];[1;0];[0;1]]
         else if matrix_eq_dec m (mkMat 4 [[1;0;0;0];[0;1;0;0];[0;0;1;0]]) then mkMat 1 [[0];[0];[0];[1]]
         else mkMat 1 (repeat [0] (mncols m))
  end.
Definition f4_solve (_ : prog) (c : cst) : option point := find (memb c) [[0;0;0;0;0;1;0]; [0;1;0;0;0;1;0]; [0;0;0;1;0;0;0]; [0;0;1;0;0;0;0]; [1;0;0;0;1;0;0]].
Definition f4_lexmin (c : cst) : option point := find (memb c) [[0;0;1;-4;0;0;0;1;4;1;1]].
Definition f4_opts : options := mkOpts false false (-1) false.

Lemma f4_kernel_ok : kernel_ok f4_kernel /\ kernel_complete f4_kernel.
Proof.
  split.
  - intros m W. unfold f4_kernel. destruct (mrows m) as [|r0 l] eqn:E.
    + split; [|split].
      * intros r Hr. cbn in *. apply in_map_iff in Hr as (i & <- & Hi). rewrite set_nth_length. apply repeat_length.
      * unfold mnrows. cbn. rewrite map_length, seq_length. reflexivity.
      * intros r j [].
    + rewrite <- E. destruct (matrix_eq_dec m (mkMat 4 [[1;0;0;0]])) as [->|N1]; [|destruct (matrix_eq_dec m (mkMat 4 [[1;0;0;0];[0;1;0;0]])) as [->|N2];
        [|destruct (matrix_eq_dec m (mkMat 4 [[1;0;0;0];[0;1;0;0];[0;0;1;0]])) as [->|N3]]].
      * split; [wf|]. split; [reflexivity|]. intros r [|[|[|j]]] Hr Hj; simpl in Hj; try lia; cbn in Hr; intuition (subst; reflexivity).
      * split; [wf|]. split; [reflexivity|]. intros r [|[|[|j]]] Hr Hj; simpl in Hj; try lia; cbn in Hr; intuition (subst; reflexivity).
      * split; [wf|]. split; [reflexivity|]. intros r [|[|[|j]]] Hr Hj; simpl in Hj; try lia; cbn in Hr; intuition (subst; reflexivity).
      * split; [|split].
        -- intros r Hr. apply repeat_spec in Hr. subst r. reflexivity.
        -- unfold mnrows. simpl. apply repeat_length.
        -- intros r j Hr Hj. simpl in Hj. assert (j = 0%nat) as -> by lia. simpl.
           rewrite dot_comm. apply RankProofs.dot_zero_all. intros v Hv. apply in_map_iff in Hv as (w & <- & Hw). apply repeat_spec in Hw. subst w. reflexivity.
  - intros m _. unfold f4_kernel. destruct (mrows m) eqn:E; [|repeat (destruct (matrix_eq_dec _ _); [simpl; discriminate|]); simpl; discriminate].
    cbn. intros N. rewrite N. exists []. split; [reflexivity|]. split; [intros b []|]. split; [|split; intros v []].
    intros cs Hc _ c Hin. destruct cs; [destruct Hin|discriminate].
Qed.

Theorem C76_auto_legal_refuted : exists is_emptyb isl_emptyb kernel solve lexmin o fuel pr q pos,
  exact_empty is_emptyb /\ solver_sound solve /\ lexmin_ok lexmin /\ kernel_ok kernel /\ kernel_complete kernel /\ input_ok pr /\
  (forall s, (s < length (p_stmts pr))%nat -> (1 <= s_dim_orig (stmt_of pr s))%nat) /\
  auto_transform_d is_emptyb isl_emptyb kernel solve lexmin o false MaxFuse fuel pr = Some (q, pos) /\
  (forall d, In d (p_deps q) -> d_sat d = true) /\ ~ legal q.
Proof.
  destruct C12_oracle_exists as [f F]. exists (dfs_empty f), (fun _ => false), f4_kernel, f4_solve, f4_lexmin, f4_opts, 10%nat, f4_prog. eexists. eexists.
  split; [apply dfs_empty_exact; auto|].
  split. { intros pr c x _ H. apply find_some in H as [_ H]. apply memb_ok. auto. }
  split. { intros c x _ H. apply find_some in H as [_ H]. apply memb_ok. auto. }
  split; [apply f4_kernel_ok|]. split; [apply f4_kernel_ok|].
  split. { split; [split|].
    - intros st [<-|[]]; repeat (split; [first [reflexivity|wf]|]); simpl; intuition (subst; first [wf|reflexivity]).
    - intros d [<-|[]]; (split; [simpl; lia|split; [simpl; lia|split; [wf|split; [reflexivity|split; [wf|reflexivity]]]]]).
    - intros st [<-|[]]; (split; [reflexivity|split; [simpl; lia|reflexivity]]). }
  split. { intros [|s] Hs; cbn in *; lia. }
  split; [vm_compute; reflexivity|]. split. { intros d [<-|[]]. reflexivity. }
  intros L. match type of L with legal ?r => set (rr := r) in L; pose proof (L (nth 0 (p_deps rr) (ex_dep 0 0 false f4_dom)) (or_introl eq_refl) eq_refl [0;0;0;0] [1;1;0;0] [1]) as C end.
  assert (instance rr (nth 0 (p_deps rr) (ex_dep 0 0 false f4_dom)) [0;0;0;0] [1;1;0;0] [1]) as I.
  { split; [reflexivity|]. split; [reflexivity|]. split; [reflexivity|]. apply memb_ok. reflexivity. }
  specialize (C I). unfold rr in C. cbn in C. intuition lia.
Qed.
Print Assumptions C76_auto_legal_refuted.

(** for t, i: S0; S1 where S1 (t,i) needs S0 (t,i) and S0 (t,i+1), and S0 (t,i) needs
    S1 (t-1,i), S1 (t-2,i) and S1 (t-1,i-1).  The search finds the rows
    (t, t + i) and (t + 1, t + i + 1); diamond tiling replaces the first by t - i for
    both.  The transformed program is legal, but inside the tiles the rows t and
    t + 1 are used again, and S0 (t+1, i) runs at the time of S1 (t, i). *)
Definition f2_dom : cst := mkCst 4 [ge [1;0;0;0]; ge [-1;0;1;0]; ge [0;1;0;0]; ge [0;-1;1;0]].
Definition f2_stmt : stmt := mkStmt 2 2 [true;true] f2_dom (mkMat 4 [[1;0;0;0];[0;1;0;0]]) [H_LOOP;H_LOOP] 0 0 [] [] None 0 (-1) (-1).
Definition f2_poly (a b : Z) : cst := mkCst 6
 [eq [1;0;-1;0;0;a]; eq [0;1;0;-1;0;b];
  ge [1;0;0;0;0;0]; ge [0;0;-1;0;1;0];
  ge (if b <? 0 then [0;0;0;1;0;0] else [0;1;0;0;0;0]); ge (if b <? 0 then [0;-1;0;0;1;0] else [0;0;0;-1;1;0])].
Definition f2_prog : prog := mkProg 2 1 [f2_stmt; f2_stmt]
  [ex_dep 0 1 false (f2_poly 0 (-1)); ex_dep 0 1 false (f2_poly 0 0); ex_dep 1 0 false (f2_poly 1 0); ex_dep 1 0 false (f2_poly 2 0); ex_dep 1 0 false (f2_poly 1 1)] [H_LOOP;H_LOOP].
Definition f2_solve (_ : prog) (c : cst) : option point := find (memb c) [[0;0;0;2;0;0;2;1]; [0;1;0;1;0;0;1;1]; [0;1;1;1;0;1;1;1]].
Definition f2_lexmin (c : cst) : option point := find (memb c) [[0;2;1;-1;0;1;-1;0;1;1;1;1]].

Theorem C76_tiled_refuted : exists is_emptyb isl_emptyb kernel solve lexmin o fuel pr q pos,
  exact_empty is_emptyb /\ solver_sound solve /\ lexmin_ok lexmin /\ kernel_ok kernel /\ kernel_complete kernel /\ input_ok pr /\
  auto_transform_d is_emptyb isl_emptyb kernel solve lexmin o false MaxFuse fuel pr = Some (q, pos) /\ legal q /\
  exists score sizes bands r, bands_to_tile (info is_emptyb q) = Some bands /\ sizes_ok bands sizes sizes /\
    pluto_tile_d is_emptyb score sizes sizes (mkTileOptions false false false false false) pos (info is_emptyb q) = Some r /\ ~ legal r.
Proof.
  destruct C12_oracle_exists as [f F]. exists (dfs_empty f), (fun _ => false), jac_kernel, f2_solve, f2_lexmin, f4_opts, 10%nat, f2_prog. eexists. eexists.
  pose proof (dfs_empty_exact f F) as EX. split; [exact EX|].
  assert (solver_sound f2_solve) as SS. { intros pr c x _ H. apply find_some in H as [_ H]. apply memb_ok. auto. }
  assert (lexmin_ok f2_lexmin) as LM. { intros c x _ H. apply find_some in H as [_ H]. apply memb_ok. auto. }
  split; [exact SS|]. split; [exact LM|]. split; [apply jac_kernel_ok|]. split; [apply jac_kernel_ok|].
  assert (input_ok f2_prog) as IN.
  { split; [split|].
    - intros st [<-|[<-|[]]]; repeat (split; [first [reflexivity|wf]|]); simpl; intuition (subst; first [wf|reflexivity]).
    - intros d [<-|[<-|[<-|[<-|[<-|[]]]]]]; (split; [simpl; lia|split; [simpl; lia|split; [wf|split; [reflexivity|split; [wf|reflexivity]]]]]).
    - intros st [<-|[<-|[]]]; (split; [reflexivity|split; [simpl; lia|reflexivity]]). }
  split; [exact IN|]. split; [vm_compute; reflexivity|]. split.
  - match goal with |- legal ?q => assert (auto_transform_d (dfs_empty f) (fun _ => false) jac_kernel f2_solve f2_lexmin f4_opts false MaxFuse 10 f2_prog = Some (q, [0%nat;0%nat])) as Q by (vm_compute; reflexivity) end.
    assert (exists d m, round_d (dfs_empty f) (fun _ => false) jac_kernel f2_solve f2_lexmin f4_opts false MaxFuse 0 EAGER (start_d (dfs_empty f) MaxFuse f2_prog) = Some (DContinue d m) /\ dd_found d = true) as (d0 & m0 & R0 & F0)
      by (eexists; eexists; split; [vm_compute; reflexivity|reflexivity]).
    assert (forall s, (s < length (p_stmts f2_prog))%nat -> (1 <= s_dim_orig (stmt_of f2_prog s))%nat) as DM by (intros [|[|s]] Hs; cbn in Hs |- *; lia).
    destruct (C76_first_round_partial _ _ _ _ _ _ _ _ _ _ _ _ _ EX SS LM IN DM R0 F0 Q) as ((_ & _ & _ & D) & _ & L & _). clear Q R0 F0.
    intros d Hd R s t p I. destruct (Forall2_in_r _ _ _ d D Hd) as (d1 & H1 & -> & -> & E & K). apply (L d1 H1); [congruence|]. apply K. exact I.
  - exists outer_score, (fun _ => [2; 2]), [mkPband (mkPloop 0 [0%nat; 1%nat]) 2]. eexists. split; [vm_compute; reflexivity|].
    split. { intros b [<-|[]]. split; auto. split; auto. intros T HT. cbn in HT. intuition lia. }
    split; [vm_compute; reflexivity|]. intros L.
    match type of L with legal ?r => set (rr := r) in L; pose proof (L (nth 2 (p_deps rr) (ex_dep 0 0 false f2_dom)) (or_intror (or_intror (or_introl eq_refl))) eq_refl [0;0;0;0] [0;0;1;0] [1]) as C end.
    assert (instance rr (nth 2 (p_deps rr) (ex_dep 0 0 false f2_dom)) [0;0;0;0] [0;0;1;0] [1]) as I.
    { split; [reflexivity|]. split; [reflexivity|]. split; [reflexivity|]. apply memb_ok. reflexivity. }
    specialize (C I). unfold rr in C. cbn in C. intuition lia.
Qed.
Print Assumptions C76_tiled_refuted.
