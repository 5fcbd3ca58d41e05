(** * Theorems: from the input program to the final one (C66). *)
From Coq Require Import ZArith QArith List Bool Lia Arith Permutation.
From Verif Require Import SpecLinear SpecMatrix MathModel ConstraintsModel VecProofs EditProofs MatrixProofs SpecProg SpecDriver SpecTile SpecLoop SpecIntra SpecFlow
  RankProofs SumProofs FrameworkModel ProgModel DepProofs SimplifyProofs LexProofs ProgProofs DriverModel DriverProofs AutoProofs GrowProofs AutoProofs2 KeepProofs
  TileModel TileProofs LoopModel LoopProofs LoopProofs2 LoopProofs4 WaveProofs FlowProofs IntraModel
  Checkers ExProg PropFramework PropDriver PropAuto PropTile PropLoop PropWave PropIntra.
Import ListNotations.
Open Scope Z_scope.

(** The program the search ends with in its normal mode is the one returned, and
    it has all that the passes after the search rely on. *)
Theorem C66_search_result : forall is_emptyb isl_emptyb kernel solve o fuse fuel pr s,
  exact_empty is_emptyb -> solver_sound solve -> kernel_ok kernel -> kernel_complete kernel -> input_ok pr -> p_stmts pr <> [] ->
  auto_search is_emptyb isl_emptyb kernel solve o fuse fuel pr = Some (Continue s EAGER) ->
  exists q, auto_transform is_emptyb isl_emptyb kernel solve o fuse fuel pr = Some (0, q) /\
    wf_levels q /\ plain_levels q /\ leveled q /\
    ((forall st, In st (p_stmts pr) -> s_dim st = p_nvar pr) -> uniform q).
Proof.
  intros is_emptyb isl_emptyb kernel solve o fuse fuel pr s EX SOL KO KC IN NE H.
  exists (denormalize_domains (st_prog s)). split; [unfold auto_transform; rewrite H; destruct (p_stmts pr); [congruence|reflexivity]|].
  apply (eager_result is_emptyb isl_emptyb kernel solve o EX (sound_keeps _ SOL) KO KC fuse fuel pr s IN H).
Qed.
Print Assumptions C66_search_result.

Lemma end_to_end_full : forall is_emptyb isl_emptyb kernel solve o fuse fuel pr s q,
  exact_empty is_emptyb -> solver_sound solve -> kernel_ok kernel -> kernel_complete kernel ->
  input_ok pr -> p_stmts pr <> [] -> (forall st, In st (p_stmts pr) -> s_dim st = p_nvar pr) ->
  auto_search is_emptyb isl_emptyb kernel solve o fuse fuel pr = Some (Continue s EAGER) ->
  auto_transform is_emptyb isl_emptyb kernel solve o fuse fuel pr = Some (0, q) ->
  forall score tile po sizes sizes2, o_innerpar po = false ->
  (tile = true -> forall bands, bands_to_tile (info is_emptyb q) = Some bands -> sizes_ok bands sizes sizes2) ->
  (o_parallel po = true -> forall bands b s k, wavefront_bands is_emptyb score tile po q = Some bands -> In b bands -> In s (l_stmts (pb_loop b)) ->
     (l_depth (pb_loop b) <= k < l_depth (pb_loop b) + pb_width b)%nat -> loop_level (stmt_of q s) k = true) ->
  exists r, post_transform is_emptyb score sizes sizes2 tile po q = Some r /\
    wf_levels r /\ correct_transformation pr r /\
    (forall lp, In lp (get_all_loops r) -> loop_is_parallel r lp = true -> parallel_level r (l_stmts lp) (l_depth lp)).
Proof.
  intros is_emptyb isl_emptyb kernel solve o fuse fuel pr s q EX SOL KO KC IN NE D H Q score tile po sizes sizes2 IP SZ AL.
  destruct (C66_search_result is_emptyb isl_emptyb kernel solve o fuse fuel pr s EX SOL KO KC IN NE H) as (q' & Q' & W & PL & LV & UN).
  rewrite Q in Q'. injection Q' as <-.
  destruct (post_transform_full is_emptyb score q tile po sizes sizes2 EX W PL (UN D) LV IP SZ AL) as (r & R & WR & L & FL & DT & P).
  exists r. split; [exact R|]. split; [exact WR|]. split; [|exact P].
  destruct (C15_auto_transform_legal _ isl_emptyb kernel solve o fuse fuel pr q EX SOL IN Q) as (SP & _ & _ & INJ).
  destruct FL as [E FL]. apply (carries_correct pr r (after E here)); auto.
  - apply (carries_trans pr q r); [apply carries_same; [exact SP|]|exact FL].
    exact (auto_dim0 _ isl_emptyb kernel solve o EX (sound_keeps _ SOL) fuse fuel pr q IN Q).
  - apply DT. intros u i j p Hu Hp I J T.
    destruct SP as (N & NP & SP & _). rewrite N in Hu. rewrite NP in Hp. destruct (SP u Hu) as [DM _]. unfold iteration in I, J. rewrite DM in I, J.
    apply (INJ u i j p Hu (proj1 I) (proj1 J) Hp T).
Qed.

(** The whole way from the input to the program handed to code generation, for
    programs whose statements are nested equally deep: search, tiling (once,
    twice or not at all), reordering of loops and wavefronts.

    Missing from the full property: statements of different depths (false in
    general, C66_mixed_depth_refuted), wavefronts over bands with constant levels
    (false in general, C66_wavefront_refuted), --innerpar (false in general,
    C26_innerpar_refuted) and searches that end in the lazy mode. *)
Theorem C66_end_to_end_partial : forall is_emptyb isl_emptyb kernel solve o fuse fuel pr s q,
  exact_empty is_emptyb -> solver_sound solve -> kernel_ok kernel -> kernel_complete kernel ->
  input_ok pr -> p_stmts pr <> [] -> (forall st, In st (p_stmts pr) -> s_dim st = p_nvar pr) ->
  auto_search is_emptyb isl_emptyb kernel solve o fuse fuel pr = Some (Continue s EAGER) ->
  auto_transform is_emptyb isl_emptyb kernel solve o fuse fuel pr = Some (0, q) ->
  forall score tile po sizes sizes2, o_innerpar po = false ->
  (tile = true -> forall bands, bands_to_tile (info is_emptyb q) = Some bands -> sizes_ok bands sizes sizes2) ->
  (o_parallel po = true -> forall bands b s k, wavefront_bands is_emptyb score tile po q = Some bands -> In b bands -> In s (l_stmts (pb_loop b)) ->
     (l_depth (pb_loop b) <= k < l_depth (pb_loop b) + pb_width b)%nat -> loop_level (stmt_of q s) k = true) ->
  exists r, post_transform is_emptyb score sizes sizes2 tile po q = Some r /\
    correct_transformation pr r /\
    (forall lp, In lp (get_all_loops r) -> loop_is_parallel r lp = true -> parallel_level r (l_stmts lp) (l_depth lp)).
Proof.
  intros is_emptyb isl_emptyb kernel solve o fuse fuel pr s q EX SOL KO KC IN NE D H Q score tile po sizes sizes2 IP SZ AL.
  destruct (end_to_end_full is_emptyb isl_emptyb kernel solve o fuse fuel pr s q EX SOL KO KC IN NE D H Q score tile po sizes sizes2 IP SZ AL) as (r & R & _ & K).
  exists r. split; [exact R|exact K].
Qed.
Print Assumptions C66_end_to_end_partial.

(** for t, i: a[t][i] = f(a[t-1][i-1], a[t-1][i], a[t-1][i+1]): the search finds
    t and t + i, which are tiled, exchanged inside the tiles and turned into a
    wavefront of tiles. *)
Definition jac_prog : prog :=
  mkProg 2 0 [mkStmt 2 2 [true;true] wave_dom (mkMat 3 [[1;0;0];[0;1;0]]) [H_LOOP;H_LOOP] 0 0 [mkMat 3 [[1;0;-1];[0;1;-1]]] [mkMat 3 [[1;0;0];[0;1;0]]] None 0 (-1) (-1)]
    [wave_dep 1 (-1); wave_dep 1 0; wave_dep 1 1] [H_LOOP; H_LOOP].
Definition jac_kernel (m : matrix) : matrix :=
  match mrows m with
  | [] => mkMat (mncols m) (map (fun i => set_nth i 1 (repeat 0 (mncols m))) (seq 0 (mncols m)))
  | _ => if matrix_eq_dec m (mkMat 2 [[1;0]]) then mkMat 1 [[0];[1]] else mkMat 1 (repeat [0] (mncols m))
  end.
Definition jac_solve (_ : prog) (c : cst) : option point := find (memb c) [[1;0;1;0]; [2;1;1;0]].
Definition jac_opts : tile_options := mkTileOptions false true true false false.

Lemma jac_kernel_ok : kernel_ok jac_kernel /\ kernel_complete jac_kernel.
Proof.
  split.
  - intros m W. unfold jac_kernel. destruct (mrows m) as [|r0 l] eqn:E.
    + split; [|split].
      * intros r Hr. cbn in *. apply in_map_iff in Hr as (i & <- & Hi). rewrite set_nth_length. apply repeat_length.
      * unfold mnrows. cbn. rewrite map_length, seq_length. reflexivity.
      * intros r j [].
    + rewrite <- E. destruct (matrix_eq_dec m (mkMat 2 [[1;0]])) as [->|N].
      * split; [wf|]. split; [reflexivity|]. intros r [|j] [<-|[]] Hj; [reflexivity|simpl in Hj; lia].
      * split; [|split].
        -- intros r Hr. apply repeat_spec in Hr. subst r. reflexivity.
        -- unfold mnrows. simpl. apply repeat_length.
        -- intros r j Hr Hj. simpl in Hj. assert (j = 0%nat) as -> by lia. simpl.
           rewrite dot_comm. apply RankProofs.dot_zero_all. intros v Hv. apply in_map_iff in Hv as (w & <- & Hw). apply repeat_spec in Hw. subst w. reflexivity.
  - intros m _. unfold jac_kernel. destruct (mrows m) eqn:E; [|destruct (matrix_eq_dec _ _); simpl; discriminate].
    cbn. intros N. rewrite N. exists []. split; [reflexivity|]. split; [intros b []|]. split; [|split; intros v []].
    intros cs Hc _ c Hin. destruct cs; [destruct Hin|discriminate].
Qed.

Example C66_met : kernel_ok jac_kernel /\ kernel_complete jac_kernel /\ solver_sound jac_solve /\ input_ok jac_prog /\ p_stmts jac_prog <> [] /\
  (forall st, In st (p_stmts jac_prog) -> s_dim st = p_nvar jac_prog) /\
  exists f, exact_empty f /\
  (exists s, auto_search f (fun _ => false) jac_kernel jac_solve ex_opts MaxFuse 10 jac_prog = Some (Continue s EAGER)) /\
  exists q, auto_transform f (fun _ => false) jac_kernel jac_solve ex_opts MaxFuse 10 jac_prog = Some (0, q) /\
    mrows (s_trans (stmt_of q 0)) = [[1;0;0];[1;1;0]] /\
    bands_to_tile (info f q) = Some [wave_pband] /\ sizes_ok [wave_pband] (fun _ => [2; 2]) (fun _ => [2; 2]) /\
    wavefront_bands f outer_score true jac_opts q = Some [wave_pband] /\ (forall k, (k < 2)%nat -> loop_level (stmt_of q 0) k = true) /\
    exists r, post_transform f outer_score (fun _ => [2; 2]) (fun _ => [2; 2]) true jac_opts q = Some r /\
      mrows (s_trans (stmt_of r 0)) = [[1;1;0;0;0];[0;1;0;0;0];[0;0;1;1;0];[0;0;1;0;0]] /\ get_parallel_loops r = [mkPloop 1 [0%nat]].
Proof.
  split; [apply jac_kernel_ok|]. split; [apply jac_kernel_ok|].
  split. { intros pr c x _ H. apply find_some in H as [_ H]. apply memb_ok. auto. }
  split. { split; [split|].
    - intros st [<-|[]]; repeat (split; [first [reflexivity|wf]|]); simpl; intuition (subst; first [wf|reflexivity]).
    - intros d [<-|[<-|[<-|[]]]]; (split; [simpl; lia|split; [simpl; lia|split; [wf|split; [reflexivity|split; [wf|reflexivity]]]]]).
    - intros st [<-|[]]; (split; [reflexivity|split; [simpl; lia|reflexivity]]). }
  split; [discriminate|]. split; [intros st [<-|[]]; reflexivity|].
  destruct C12_oracle_exists as [f F]. exists (dec_empty f). split; [apply dec_empty_exact; auto|].
  split; [eexists; vm_compute; reflexivity|]. eexists. split; [vm_compute; reflexivity|]. split; [reflexivity|]. split; [vm_compute; reflexivity|].
  split. { intros b [<-|[]]. split; auto. split; auto. intros T HT. cbn in HT. intuition lia. }
  split; [vm_compute; reflexivity|]. split; [intros [|[|k]] Hk; [reflexivity|reflexivity|lia]|].
  eexists. split; [vm_compute; reflexivity|]. split; reflexivity.
Qed.

(** Statements of different depths.

    for t { for j: S0; S1; for j: S2 } with j = 0..2, where S1 needs all S0 of
    the same t and all S2 of the same t need S1.  The search (the solver below
    answers with the lexicographic minima) fuses everything: the second level is
    j for S0, the constant 2 for S1 and j + 2 for S2, and the levels are tiled
    together.  With tiles of size 2, S1 runs at tile 2 but S2 (j = 0) at tile 1:
    S2 runs before S1. *)
Definition mix_dom : cst := mkCst 3 [ge [1;0;0]; ge [-1;0;2]; ge [0;1;0]; ge [0;-1;2]].
Definition mix_deep (c : Z) : stmt := mkStmt 2 2 [true;true] mix_dom (mkMat 3 [[1;0;0];[0;0;c];[0;1;0]]) [H_LOOP;H_SCALAR;H_LOOP] 0 0 [] [] None 0 (-1) (-1).
Definition mix_flat : stmt := mkStmt 1 1 [true] (mkCst 2 [ge [1;0]; ge [-1;2]]) (mkMat 2 [[1;0];[0;1];[0;0]]) [H_LOOP;H_SCALAR;H_SCALAR] 0 0 [] [] None 0 (-1) (-1).
Definition mix_prog : prog := mkProg 2 0 [mix_deep 0; mix_flat; mix_deep 2]
  [ex_dep 0 1 false (mkCst 4 [eq [1;0;-1;0]; ge [1;0;0;0]; ge [-1;0;0;2]; ge [0;1;0;0]; ge [0;-1;0;2]]);
   ex_dep 1 2 false (mkCst 4 [eq [1;-1;0;0]; ge [1;0;0;0]; ge [-1;0;0;2]; ge [0;0;1;0]; ge [0;0;-1;2]])] [H_LOOP; H_SCALAR; H_LOOP].
Definition mix_solve (_ : prog) (c : cst) : option point := find (memb c) [[0; 0;1;0; 1;0; 0;1;0]; [2; 1;0;0; 0;2; 1;0;2]].

Theorem C66_mixed_depth_refuted : exists is_emptyb isl_emptyb kernel solve o fuse fuel pr s q,
  exact_empty is_emptyb /\ solver_sound solve /\ kernel_ok kernel /\ kernel_complete kernel /\ input_ok pr /\
  auto_search is_emptyb isl_emptyb kernel solve o fuse fuel pr = Some (Continue s EAGER) /\
  auto_transform is_emptyb isl_emptyb kernel solve o fuse fuel pr = Some (0, q) /\ legal q /\
  exists score sizes bands r, bands_to_tile (info is_emptyb q) = Some bands /\ sizes_ok bands sizes sizes /\
    post_transform is_emptyb score sizes sizes true (mkTileOptions false false false false false) q = Some r /\ ~ legal r.
Proof.
  destruct C12_oracle_exists as [f F]. exists (dec_empty f), (fun _ => false), jac_kernel, mix_solve, ex_opts, MaxFuse, 10%nat, mix_prog.
  eexists. eexists. pose proof (dec_empty_exact f F) as EX. split; [exact EX|].
  assert (solver_sound mix_solve) as SS. { intros pr c x _ H. apply find_some in H as [_ H]. apply memb_ok. auto. }
  split; [exact SS|].
  split; [apply jac_kernel_ok|]. split; [apply jac_kernel_ok|].
  assert (input_ok mix_prog) as IN.
  { split; [split|].
    - intros st [<-|[<-|[<-|[]]]]; repeat (split; [first [reflexivity|wf]|]); simpl; intuition (subst; first [wf|reflexivity]).
    - intros d [<-|[<-|[]]]; (split; [simpl; lia|split; [simpl; lia|split; [wf|split; [reflexivity|split; [wf|reflexivity]]]]]).
    - intros st [<-|[<-|[<-|[]]]]; (split; [reflexivity|split; [simpl; lia|reflexivity]]). }
  split; [exact IN|]. split; [vm_compute; reflexivity|]. split; [vm_compute; reflexivity|]. split.
  - match goal with |- legal ?q => assert (auto_transform (dec_empty f) (fun _ => false) jac_kernel mix_solve ex_opts MaxFuse 10 mix_prog = Some (0, q)) as Q by (vm_compute; reflexivity) end.
    destruct (C15_auto_transform_legal _ _ _ _ _ _ _ _ _ EX SS IN Q) as ((_ & _ & _ & D) & _ & L & _). clear Q.
    intros d Hd R s t p I. destruct (Forall2_in_r _ _ _ d D Hd) as (d0 & H0 & -> & -> & E & K). apply (L d0 H0); [congruence|]. apply K. exact I.
  - exists outer_score, (fun _ => [2; 2]), [mkPband (mkPloop 0 [0%nat; 1%nat; 2%nat]) 2]. eexists. split; [vm_compute; reflexivity|].
    split. { intros b [<-|[]]. split; auto. split; auto. intros T HT. cbn in HT. intuition lia. }
    split; [vm_compute; reflexivity|]. intros L.
    match type of L with legal ?r => set (rr := r) in L; pose proof (L (nth 1 (p_deps rr) (ex_dep 0 0 false mix_dom)) (or_intror (or_introl eq_refl)) eq_refl [0;0] [0;1;0;0] []) as C end.
    assert (instance rr (nth 1 (p_deps rr) (ex_dep 0 0 false mix_dom)) [0;0] [0;1;0;0] []) as I.
    { split; [reflexivity|]. split; [reflexivity|]. split; [reflexivity|]. apply memb_ok. reflexivity. }
    specialize (C I). unfold rr in C. cbn in C. intuition lia.
Qed.
Print Assumptions C66_mixed_depth_refuted.

(** Wavefronts over a band with a constant level, with default options except
    --parallel: for i { for j: S0; for j: S1 }, where S0 (i,j) feeds S0 (i+1,j)
    and S1 (i,n-j).  The search finds i, separates S0 from S1, and finds j.  The
    band has all three levels, and the wavefront i + j runs S1 (0,0) before
    S0 (0,n). *)
Definition cut_dom : cst := mkCst 4 [ge [1;0;0;0]; ge [-1;0;1;0]; ge [0;1;0;0]; ge [0;-1;1;0]].
Definition cut_stmt (c : Z) : stmt := mkStmt 2 2 [true;true] cut_dom (mkMat 4 [[1;0;0;0];[0;0;0;c];[0;1;0;0]]) [H_LOOP;H_SCALAR;H_LOOP] 0 0 [] [] None 0 (-1) (-1).
Definition cut_prog : prog := mkProg 2 1 [cut_stmt 0; cut_stmt 1]
  [ex_dep 0 0 false (mkCst 6 [eq [-1;0;1;0;0;-1]; eq [0;-1;0;1;0;0]; ge [1;0;0;0;0;0]; ge [0;0;-1;0;1;0]; ge [0;1;0;0;0;0]; ge [0;-1;0;0;1;0]]);
   ex_dep 0 1 false (mkCst 6 [eq [-1;0;1;0;0;0]; eq [0;1;0;1;-1;0]; ge [1;0;0;0;0;0]; ge [-1;0;0;0;1;0]; ge [0;1;0;0;0;0]; ge [0;-1;0;0;1;0]])] [H_LOOP; H_SCALAR; H_LOOP].
Definition cut_solve (_ : prog) (c : cst) : option point := find (memb c) [[0;1; 0;1;0; 0;1;0]; [0;0; 1;0;0; 1;0;0]].

Theorem C66_wavefront_refuted : exists is_emptyb isl_emptyb kernel solve o fuel pr s q,
  exact_empty is_emptyb /\ solver_sound solve /\ kernel_ok kernel /\ kernel_complete kernel /\ input_ok pr /\
  (forall st, In st (p_stmts pr) -> s_dim st = p_nvar pr) /\
  auto_search is_emptyb isl_emptyb kernel solve o SmartFuse fuel pr = Some (Continue s EAGER) /\
  auto_transform is_emptyb isl_emptyb kernel solve o SmartFuse fuel pr = Some (0, q) /\ legal q /\
  exists score sizes r,
    post_transform is_emptyb score sizes sizes false (mkTileOptions false false true false false) q = Some r /\ ~ legal r.
Proof.
  destruct C12_oracle_exists as [f F]. exists (dec_empty f), (fun _ => false), jac_kernel, cut_solve, ex_opts, 10%nat, cut_prog.
  eexists. eexists. pose proof (dec_empty_exact f F) as EX. split; [exact EX|].
  assert (solver_sound cut_solve) as SS. { intros pr c x _ H. apply find_some in H as [_ H]. apply memb_ok. auto. }
  split; [exact SS|].
  split; [apply jac_kernel_ok|]. split; [apply jac_kernel_ok|].
  assert (input_ok cut_prog) as IN.
  { split; [split|].
    - intros st [<-|[<-|[]]]; repeat (split; [first [reflexivity|wf]|]); simpl; intuition (subst; first [wf|reflexivity]).
    - intros d [<-|[<-|[]]]; (split; [simpl; lia|split; [simpl; lia|split; [wf|split; [reflexivity|split; [wf|reflexivity]]]]]).
    - intros st [<-|[<-|[]]]; (split; [reflexivity|split; [simpl; lia|reflexivity]]). }
  split; [exact IN|]. split; [intros st [<-|[<-|[]]]; reflexivity|]. split; [vm_compute; reflexivity|]. split; [vm_compute; reflexivity|]. split.
  - match goal with |- legal ?q => assert (auto_transform (dec_empty f) (fun _ => false) jac_kernel cut_solve ex_opts SmartFuse 10 cut_prog = Some (0, q)) as Q by (vm_compute; reflexivity) end.
    destruct (C15_auto_transform_legal _ _ _ _ _ _ _ _ _ EX SS IN Q) as ((_ & _ & _ & D) & _ & L & _). clear Q.
    intros d Hd R s t p I. destruct (Forall2_in_r _ _ _ d D Hd) as (d0 & H0 & -> & -> & E & K). apply (L d0 H0); [congruence|]. apply K. exact I.
  - exists outer_score, (fun _ => []). eexists. split; [vm_compute; reflexivity|]. intros L.
    match type of L with legal ?r => set (rr := r) in L; pose proof (L (nth 1 (p_deps rr) (ex_dep 0 0 false mix_dom)) (or_intror (or_introl eq_refl)) eq_refl [0;1] [0;0] [1]) as C end.
    assert (instance rr (nth 1 (p_deps rr) (ex_dep 0 0 false mix_dom)) [0;1] [0;0] [1]) as I.
    { split; [reflexivity|]. split; [reflexivity|]. split; [reflexivity|]. apply memb_ok. reflexivity. }
    specialize (C I). unfold rr in C. cbn in C. intuition lia.
Qed.
Print Assumptions C66_wavefront_refuted.
