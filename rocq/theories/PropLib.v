(** * Theorems: schedules handed to callers of the library (C75). *)
From Coq Require Import ZArith List Bool Lia Arith.
From Verif Require Import SpecLinear SpecMatrix MathModel ConstraintsModel VecProofs SpecProg SpecDriver SpecTile SpecLoop SpecIntra SpecExec SpecOsl OslModel SpecDeps DepsModel DepsProofs
  SpecFlow SpecLib FrameworkModel ProgModel ProgProofs DriverModel AutoProofs2 TileModel LoopModel LoopProofs2 WaveProofs FlowProofs IntraModel ExportModel LibModel LibProofs
  Checkers ExProg PropFramework PropAuto PropTile PropLoop PropWave PropIntra PropFlow PropExport PropDeps.
Import ListNotations.
Open Scope Z_scope.

(** The calls of the library that the theorems cover.

    - emptiness tests, solver and integer kernels are right, and isl's removal of
      existentially quantified variables loses no element;
    - the arguments are as isl makes them, there is a statement, and all statements
      have [n] dimensions;
    - the search succeeds in its normal mode, --innerpar is off, tile sizes are
      positive and wavefronts are made of loops;
    - the entries of the schedules fit 32 bits. *)
Definition covered (is_emptyb isl_emptyb : cst -> bool) (kernel : matrix -> matrix) (solve : prog -> cst -> option point)
    (o : options) (fuse : fusion) (fuel : nat) (score : prog -> ploop -> Z) (tile : bool) (po : tile_options) (sizes sizes2 : pband -> list Z)
    (rds : bset -> bset) (rd : bmap -> bmap) (accesswise : bool) (acc : nat -> list matrix * list matrix) (ds : list iset) (deps : umap) : Prop :=
  exact_empty is_emptyb /\ solver_sound solve /\ kernel_ok kernel /\ kernel_complete kernel /\
  remove_divs_set_ok rds /\ remove_divs_ok rd /\ (forall b, shaped_map b -> shaped_map (rd b)) /\
  ds <> [] /\ exists npar n, isl_args ds deps npar /\ accesses_shaped ds npar acc /\ (forall d b, In d ds -> In b (is_sets d) -> bs_dim b = n) /\
  exists pr s q, prog_from_isl rds rd accesswise acc ds deps = Some pr /\
    auto_search is_emptyb isl_emptyb kernel solve o fuse fuel pr = Some (Continue s EAGER) /\
    auto_transform is_emptyb isl_emptyb kernel solve o fuse fuel pr = Some (0, q) /\
    o_innerpar po = false /\
    (tile = true -> forall bands, bands_to_tile (info is_emptyb q) = Some bands -> sizes_ok bands sizes sizes2) /\
    (o_parallel po = true -> forall bands b s k, wavefront_bands is_emptyb score tile po q = Some bands -> In b bands -> In s (l_stmts (pb_loop b)) ->
       (l_depth (pb_loop b) <= k < l_depth (pb_loop b) + pb_width b)%nat -> loop_level (stmt_of q s) k = true) /\
    (forall r, post_transform is_emptyb score sizes sizes2 tile po q = Some r -> entries_fit r).

(** A caller who passes domains and dependences gets schedules under which every
    iteration has one date, no two iterations of a statement have the same date and
    dependent iterations keep their order; the existentially quantified variables
    that isl drops from domains and dependences do no harm.

    Missing from the full property: the restrictions of C66_end_to_end_partial
    (statements of one depth, no lazy mode, wavefronts over loops only, no
    --innerpar), and the entries of the schedules must fit 32 bits (false in
    general, C75_large_shift_refuted). *)
Theorem C75_library_partial : forall is_emptyb isl_emptyb kernel solve o fuse fuel score tile po sizes sizes2 rds rd accesswise acc ds deps,
  covered is_emptyb isl_emptyb kernel solve o fuse fuel score tile po sizes sizes2 rds rd accesswise acc ds deps ->
  exists ms, pluto_transform is_emptyb isl_emptyb kernel solve o fuse fuel score tile po sizes sizes2 rds rd accesswise acc ds deps = Some (Some ms) /\
    valid_schedules ds deps ms.
Proof.
  intros is_emptyb isl_emptyb kernel solve o fuse fuel score tile po sizes sizes2 rds rd accw acc ds deps
    (EX & SOL & KO & KC & RDS & RD & SH & ND & npar & n & IA & AC & DIM & pr & s & q & PR & H & Q & IP & SZ & AL & FT).
  pose proof (lib_input rds rd accw acc ds deps npar pr RDS RD SH IA AC PR) as IN.
  unfold pluto_transform, schedule_prog. rewrite PR, Q.
  assert (p_stmts pr <> []) as NE.
  { destruct (lib_stmts rds rd accw acc ds deps pr PR) as [X _]; destruct (extract_stmts_spec _ _ _ _ X) as (L & _). intros ES. rewrite ES in L. destruct ds; [congruence|discriminate]. }
  assert (forall st, In st (p_stmts pr) -> s_dim st = n) as DN.
  { intros st I. destruct (lib_stmt rds rd accw acc ds deps pr PR st I) as (d & u & b & Hd & _ & Eb & _ & D & _). rewrite D. apply (DIM d); auto. rewrite Eb. now left. }
  assert (p_nvar pr = n) as NV.
  { destruct (lib_stmts rds rd accw acc ds deps pr PR) as [_ (_ & _ & _ & -> & _)].
    assert (forall l' k, (forall st, In st l' -> s_dim st = n) -> fold_left (fun n st => Nat.max n (s_dim st)) l' k = match l' with [] => k | _ => Nat.max k n end) as G.
    { induction l' as [|a l' IH]; intros k Hl; [reflexivity|]. cbn [fold_left]. rewrite IH by (intros; apply Hl; now right). rewrite (Hl a) by now left. destruct l'; lia. }
    rewrite G by exact DN. destruct (p_stmts pr); [congruence|lia]. }
  destruct (end_to_end_full is_emptyb isl_emptyb kernel solve o fuse fuel pr s q EX SOL KO KC IN NE ltac:(intros; rewrite NV; auto) H Q score tile po sizes sizes2 IP SZ AL)
    as (r & R & WR & CT & _).
  rewrite R. eexists. split; [reflexivity|].
  apply (transformation_valid rds rd accw acc ds deps npar pr r); auto.
  intros st I. split; [apply WR; auto|]. destruct CT as (E & (L & _ & _ & DO & _) & _). destruct (In_nth _ _ dummy_stmt I) as (u & Hu & Eu).
  destruct (DO u) as [D1 D2]; [lia|]. unfold stmt_of in *. rewrite Eu in *. rewrite D1. destruct IN as [_ IN].
  destruct (IN (nth u (p_stmts pr) dummy_stmt)) as [D3 _]; [apply nth_In; lia|]. lia.
Qed.
Print Assumptions C75_library_partial.

(** isl's operation that drops existentially quantified variables, in its crudest
    correct form. *)
Definition drop_divs_set (b : bset) : bset := match bs_ndiv b with O => b | _ => mkBset (bs_dim b) 0 (bs_npar b) [] end.
Definition drop_divs (b : bmap) : bmap := match b_ndiv b with O => b | _ => mkBmap (b_src b) (b_dst b) (b_nin b) (b_nout b) 0 (b_npar b) [] end.
Lemma drop_divs_ok : remove_divs_set_ok drop_divs_set /\ remove_divs_ok drop_divs /\ forall b, shaped_map b -> shaped_map (drop_divs b).
Proof.
  split; [|split].
  - intros b. unfold drop_divs_set. destruct (bs_ndiv b) eqn:E; cbn; [auto 6|]. repeat (split; [auto; intros _ r []|]).
    intros i p (L1 & L2 & _). split; [auto|]. split; [auto|]. exists []. split; [reflexivity|intros r []].
  - intros b. unfold drop_divs. destruct (b_ndiv b) eqn:E; cbn; [auto 9|]. repeat (split; [auto; discriminate|]).
    intros s t p (L1 & L2 & L3 & _). split; [auto|]. split; [auto|]. split; [auto|]. exists []. split; [reflexivity|intros r []].
  - intros b. unfold drop_divs. destruct (b_ndiv b) eqn:E; auto. intros _ r [].
Qed.

(** When the search for a transformation fails the caller gets NULL: never the
    schedules of the program as it was left, which may have rows missing. *)
Theorem C75_failure : forall is_emptyb isl_emptyb kernel solve o fuse fuel score tile po sizes sizes2 rds rd accesswise acc ds deps pr s,
  ds <> [] -> prog_from_isl rds rd accesswise acc ds deps = Some pr ->
  auto_search is_emptyb isl_emptyb kernel solve o fuse fuel pr = Some (Failed s) ->
  pluto_transform is_emptyb isl_emptyb kernel solve o fuse fuel score tile po sizes sizes2 rds rd accesswise acc ds deps = Some None.
Proof.
  intros is_emptyb isl_emptyb kernel solve o fuse fuel score tile po sizes sizes2 rds rd accw acc ds deps pr s ND PR H.
  assert (length (p_stmts pr) <> 0)%nat as NE.
  { destruct (lib_stmts rds rd accw acc ds deps pr PR) as [X _]; destruct (extract_stmts_spec _ _ _ _ X) as (L & _). intros ES. destruct ds; [congruence|]. cbn in L. lia. }
  unfold pluto_transform, schedule_prog, auto_transform. rewrite PR, (proj2 (Nat.eqb_neq _ _) NE), H. reflexivity.
Qed.
Print Assumptions C75_failure.

(** ** The schedules of programs given by their accesses *)

(** [pluto_schedule]: the dependences are those that isl computes from the accesses,
    all of them taken as flow dependences; the program with the returned schedules
    still accesses every cell in the order it needs.  With lastwriter the order of
    accesses with writes in between follows from chains of dependences. *)
Theorem C75_schedule_partial : forall flow co uni lastwriter rar coalesce reads writes sched
    is_emptyb isl_emptyb kernel solve o fuse fuel score tile po sizes sizes2 rds rd accesswise acc ds,
  isl_correct flow reads writes sched -> coalesce_ok co -> union_ok uni -> dates_differ sched (any_access reads writes) ->
  (lastwriter = true -> finitely_written writes) ->
  (forall a i p l, any_access reads writes a i p l -> in_domain ds (n_stmt a) i p) ->
  (lastwriter = true -> coalesce = false) ->
  let d := compute_deps_isl flow co lastwriter rar coalesce reads writes sched in
  covered is_emptyb isl_emptyb kernel solve o fuse fuel score tile po sizes sizes2 rds rd accesswise acc ds (uni (uni (i_raw d) (i_war d)) (i_waw d)) ->
  exists ms, pluto_schedule is_emptyb isl_emptyb kernel solve o fuse fuel score tile po sizes sizes2
      flow co uni lastwriter rar coalesce reads writes sched rds rd accesswise acc ds = Some (Some ms) /\
    keeps_memory ds reads writes sched ms.
Proof.
  intros flow co uni lw rar cl reads writes sched is_emptyb isl_emptyb kernel solve o fuse fuel score tile po sizes sizes2 rds rd accw acc ds
    FL CO UN DD FW DO LC d CV.
  destruct (C75_library_partial _ _ _ _ _ _ _ _ _ _ _ _ _ _ _ _ _ _ CV) as (ms & T & V). exists ms. split.
  - unfold pluto_schedule. assert (lw && cl = false) as -> by (destruct lw; [rewrite LC; auto|reflexivity]). exact T.
  - exact (memory_kept flow co uni lw rar cl reads writes sched ds ms FL CO UN DD FW DO V).
Qed.
Print Assumptions C75_schedule_partial.

(** With both options the library dereferences NULL, whatever the program is. *)
Theorem C75_null_refuted : forall is_emptyb isl_emptyb kernel solve o fuse fuel score tile po sizes sizes2 flow co uni rar reads writes sched rds rd accesswise acc ds,
  pluto_schedule is_emptyb isl_emptyb kernel solve o fuse fuel score tile po sizes sizes2 flow co uni true rar true reads writes sched rds rd accesswise acc ds = None.
Proof. reflexivity. Qed.
Print Assumptions C75_null_refuted.

(** ** Names *)

(** With the default of isldepaccesswise, a dependence between iterations named S_d, as
    the documentation of the interface and its tests name them, makes the library
    stop at an assertion. *)
Theorem C75_default_names_refuted : forall is_emptyb isl_emptyb kernel solve o fuse fuel score tile po sizes sizes2 rds rd acc ds deps b,
  remove_divs_ok rd -> In b (concat deps) -> n_acc (b_src b) = None ->
  pluto_transform is_emptyb isl_emptyb kernel solve o fuse fuel score tile po sizes sizes2 rds rd true acc ds deps = None.
Proof.
  intros is_emptyb isl_emptyb kernel solve o fuse fuel score tile po sizes sizes2 rds rd acc ds deps b RD Ib N.
  unfold pluto_transform, prog_from_isl. destruct (extract_stmts rds acc ds) as [stmts|]; [|reflexivity].
  destruct (extract_deps rd true stmts D_RAW deps) as [xs|] eqn:X; [|reflexivity]. exfalso.
  destruct (all_rows_in _ _ _ X) as (A & _). destruct (A b Ib) as (x & E & _). revert E. unfold extract_dep.
  destruct (RD b) as (-> & _). rewrite N. destruct (_ && _); [|discriminate]. destruct (_ =? _)%nat; discriminate.
Qed.
Print Assumptions C75_default_names_refuted.

(** ** Examples *)
(** The stencil of C66_met, as a caller passes it. *)
Definition jac_ds : list iset := [mkIset (Some 0%nat) [mkBset 2 0 0 (rows wave_dom)]].
Definition jac_map (a b : Z) : bmap := mkBmap (mkName 0 None) (mkName 0 None) 2 2 0 0 (rows (d_poly (wave_dep a b))).
Definition jac_deps : umap := [[jac_map 1 (-1); jac_map 1 0; jac_map 1 1]].
Definition no_acc : nat -> list matrix * list matrix := fun _ => ([], []).

Lemma jac_args : isl_args jac_ds jac_deps 0.
Proof.
  split.
  - constructor; [intros []|constructor].
  - intros d b [<-|[]] [<-|[]]. split; [reflexivity|]. intros r Hr. cbn in Hr. intuition (subst; reflexivity).
  - intros b [<-|[<-|[<-|[]]]]; (split; [reflexivity|]; intros r Hr; cbn in Hr; intuition (subst; reflexivity)).
Qed.

Example C75_met : in_domain jac_ds 0 [1; 1] [] /\ umap_rel jac_deps (mkName 0 None) [1; 2] (mkName 0 None) [2; 1] [] /\
  exists f, covered f (fun _ => false) jac_kernel jac_solve ex_opts MaxFuse 10 outer_score true jac_opts (fun _ => [2; 2]) (fun _ => [2; 2])
    drop_divs_set drop_divs false no_acc jac_ds jac_deps /\
  exists ms, pluto_transform f (fun _ => false) jac_kernel jac_solve ex_opts MaxFuse 10 outer_score true jac_opts (fun _ => [2; 2]) (fun _ => [2; 2])
    drop_divs_set drop_divs false no_acc jac_ds jac_deps = Some (Some ms) /\ map im_out ms = [4%nat] /\ map im_hidden ms = [2%nat].
Proof.
  split. { exists (mkIset (Some 0%nat) [mkBset 2 0 0 (rows wave_dom)]), (mkBset 2 0 0 (rows wave_dom)). split; [now left|]. split; [reflexivity|]. split; [now left|].
    split; [reflexivity|]. split; [reflexivity|]. exists []. split; [reflexivity|]. intros r Hr. cbn in Hr. intuition (subst; vm_compute; first [reflexivity|discriminate]). }
  split. { eexists _, (jac_map 1 (-1)). split; [now left|]. split; [now left|]. split; [reflexivity|]. split; [reflexivity|].
    split; [reflexivity|]. split; [reflexivity|]. split; [reflexivity|]. exists []. split; [reflexivity|]. intros r Hr. cbn in Hr. intuition (subst; vm_compute; first [reflexivity|discriminate]). }
  destruct C12_oracle_exists as [f F]. exists (dec_empty f). split.
  { split; [apply dec_empty_exact; auto|]. split. { intros pr c x _ H. apply find_some in H as [_ H]. apply memb_ok. auto. }
    split; [apply jac_kernel_ok|]. split; [apply jac_kernel_ok|]. split; [apply drop_divs_ok|]. split; [apply drop_divs_ok|]. split; [apply drop_divs_ok|].
    split; [discriminate|]. exists 0%nat, 2%nat. split; [apply jac_args|]. split; [intros d s b _ _ _ a []|]. split; [intros d b [<-|[]] [<-|[]]; reflexivity|].
    eexists. eexists. eexists. split; [vm_compute; reflexivity|]. split; [vm_compute; reflexivity|]. split; [vm_compute; reflexivity|]. split; [reflexivity|].
    split. { intros _ bands B. vm_compute in B. injection B as <-. intros b [<-|[]]. split; auto. split; auto. intros T HT. cbn in HT. intuition lia. }
    split. { intros _ bands b s k B Ib Is Hk. vm_compute in B. injection B as <-. destruct Ib as [<-|[]]. cbn in Hk, Is. destruct Is as [<-|[]].
      destruct k as [|[|k]]; [reflexivity|reflexivity|lia]. }
    intros r R. vm_compute in R. injection R as <-. intros c row v Hc Hr Hv. vm_compute in Hc. destruct Hc as [<-|[]].
    cbn in Hr. repeat (destruct Hr as [<-|Hr]; [cbn in Hv; unfold fits32; lia|]). destruct Hr. }
  eexists. split; [vm_compute; reflexivity|]. split; reflexivity.
Qed.

(** A solver that finds nothing. *)
Example C75_failure_met : exists f pr s, exact_empty f /\ solver_sound (fun _ _ => None) /\
  prog_from_isl drop_divs_set drop_divs false no_acc jac_ds jac_deps = Some pr /\
  auto_search f (fun _ => false) jac_kernel (fun _ _ => None) ex_opts MaxFuse 10 pr = Some (Failed s).
Proof.
  destruct C12_oracle_exists as [f F]. exists (dec_empty f). eexists. eexists. split; [apply dec_empty_exact; auto|].
  split; [intros pr c x _ H; discriminate H|]. split; [vm_compute; reflexivity|vm_compute; reflexivity].
Qed.

(** for (i = 0; i <= 2; i++) x = f(x), with the dependences of isl under lastwriter. *)
Definition x_ds : list iset := [mkIset (Some 0%nat) [mkBset 1 0 0 [ge [1; 0]; ge [-1; 2]]]].
Definition x_access : amap := fun a i p l => a = met_name /\ p = [] /\ l = (7%nat, [0]) /\ exists x, i = [x] /\ 0 <= x <= 2.
Definition x_sched : smap := fun a i p u => a = met_name /\ u = i.
Definition x_acc : nat -> list matrix * list matrix := fun _ => ([mkMat 2 [[0; 0]]], [mkMat 2 [[0; 0]]]).
Definition x_solve (_ : prog) (c : cst) : option point := find (memb c) [[1; 1; 0]].
Definition plain_opts : tile_options := mkTileOptions false false false false false.

Example C75_schedule_met : isl_correct met_flow x_access x_access x_sched /\ coalesce_ok (fun u => u) /\ union_ok (@app _) /\
  dates_differ x_sched (any_access x_access x_access) /\ finitely_written x_access /\
  (forall a i p l, any_access x_access x_access a i p l -> in_domain x_ds (n_stmt a) i p) /\
  sooner x_sched met_name [0] met_name [2] [] /\
  exists f, let d := compute_deps_isl met_flow (fun u => u) true false false x_access x_access x_sched in
  covered f (fun _ => false) jac_kernel x_solve ex_opts MaxFuse 10 outer_score false plain_opts (fun _ => []) (fun _ => [])
    drop_divs_set drop_divs false x_acc x_ds ((i_raw d ++ i_war d) ++ i_waw d).
Proof.
  assert (touches_x x_access) as T by (intros a i p l; reflexivity).
  assert (loop_order x_sched) as LO by (intros x u; unfold x_sched; intuition).
  split; [apply met_flow_ok; auto|]. split; [intros u a s b t p; tauto|].
  split. { intros u v a s b t p. unfold umap_rel. split.
    - intros (m & c & Im & K). apply in_app_iff in Im. destruct Im; [left|right]; eauto.
    - intros [(m & c & Im & K)|(m & c & Im & K)]; exists m, c; rewrite in_app_iff; auto. }
  split. { split.
    - intros a s p l u v _ [_ ->] [_ ->]. reflexivity.
    - intros a s b t p l l' A B (u & [-> ->] & [-> E]). auto. }
  split. { intros p l. exists [(met_name, [0]); (met_name, [1]); (met_name, [2])]. intros c u (-> & _ & _ & x & -> & Hx).
    assert (x = 0 \/ x = 1 \/ x = 2) as [-> | [-> | ->]] by lia; cbn; auto. }
  split. { intros a i p l K. assert (x_access a i p l) as (-> & -> & _ & x & -> & Hx) by (destruct K; auto).
    eexists. eexists. split; [now left|]. split; [reflexivity|]. split; [now left|]. split; [reflexivity|]. split; [reflexivity|].
    exists []. split; [reflexivity|]. intros r [<-|[<-|[]]]; unfold holds, aff; cbn [is_eq coef app dot ge]; lia. }
  split; [apply met_sooner; auto; lia|].
  destruct C12_oracle_exists as [f F]. exists (dec_empty f). intros d.
  assert (i_raw d = met_cons /\ i_war d = met_cons /\ i_waw d = met_cons) as (-> & -> & ->).
  { subst d. unfold compute_deps_isl, met_flow. cbn [i_raw i_war i_waw]. rewrite (touches_inhabited _ T). auto. }
  split; [apply dec_empty_exact; auto|]. split. { intros pr c x _ H. apply find_some in H as [_ H]. apply memb_ok. auto. }
  split; [apply jac_kernel_ok|]. split; [apply jac_kernel_ok|]. split; [apply drop_divs_ok|]. split; [apply drop_divs_ok|]. split; [apply drop_divs_ok|].
  split; [discriminate|]. exists 0%nat, 1%nat.
  split. { split.
    - constructor; [intros []|constructor].
    - intros s b [<-|[]] [<-|[]]. split; [reflexivity|]. intros r Hr. cbn in Hr. intuition (subst; reflexivity).
    - intros b [<-|[<-|[<-|[]]]]; (split; [reflexivity|]; intros r Hr; cbn in Hr; intuition (subst; reflexivity)). }
  split. { intros s n b [<-|[]] _ [<-|[]] a Ha. cbn in Ha. destruct Ha as [<-|[<-|[]]]; (split; [wf|reflexivity]). }
  split; [intros s b [<-|[]] [<-|[]]; reflexivity|].
  eexists. eexists. eexists. split; [vm_compute; reflexivity|]. split; [vm_compute; reflexivity|]. split; [vm_compute; reflexivity|]. split; [reflexivity|].
  split; [intros X; discriminate X|]. split; [intros X; discriminate X|].
  intros r R. vm_compute in R. injection R as <-. intros c row v Hc Hr Hv. vm_compute in Hc. destruct Hc as [<-|[]].
  cbn in Hr. repeat (destruct Hr as [<-|Hr]; [cbn in Hv; unfold fits32; lia|]). destruct Hr.
Qed.

(** ** Large shifts

    for (i = 2^32; ; i++) S0(i);  for (j = 0; ; j++) S1(j);  S1(j) needs S0(j + 2^32).
    The search shifts S1 by 2^32, which isl_mat_set_element_si cuts to 0: S1(0) gets a
    date before that of S0(2^32). *)
Definition far : Z := 4294967296.
Definition far_ds : list iset := [mkIset (Some 0%nat) [mkBset 1 0 0 [ge [1; -far]]]; mkIset (Some 1%nat) [mkBset 1 0 0 [ge [1; 0]]]].
Definition far_deps : umap := [[mkBmap (mkName 0 None) (mkName 1 None) 1 1 0 0 [eq [-1; 1; far]; ge [0; 1; 0]]]].
Definition far_solve (_ : prog) (c : cst) : option point := find (memb c) [[0; 1; 0; 1; far]].
Definition far_options : options := mkOpts false false (-1) false.
Fixpoint far_box (n : nat) : list point :=
  match n with O => [[]] | S k => flat_map (fun x => map (fun v => v :: x) [0; 1; 2; far; far + 1]) (far_box k) end.
Definition far_empty (f : cst -> bool) (c : cst) : bool :=
  if negb (memb (elim_all (ncols c - 1) c) []) then true else if existsb (memb c) (far_box (ncols c - 1)) then false else f c.
Lemma far_empty_exact f : exact_empty f -> exact_empty (far_empty f).
Proof.
  intros F c W. pose proof (dec_empty_exact f F c W) as D. unfold dec_empty in D. unfold far_empty.
  destruct (memb (elim_all (ncols c - 1) c) []); cbn [negb] in *; [|exact D].
  destruct (existsb (memb c) (far_box (ncols c - 1))) eqn:B; [|apply (F c W)].
  apply existsb_exists in B as (x & _ & B). exists x. apply memb_ok. auto.
Qed.

Theorem C75_large_shift_refuted : exists f ms, exact_empty f /\ solver_sound far_solve /\ kernel_ok jac_kernel /\ kernel_complete jac_kernel /\
  isl_args far_ds far_deps 0 /\
  pluto_transform f (fun _ => false) jac_kernel far_solve far_options MaxFuse 10 outer_score false plain_opts (fun _ => []) (fun _ => [])
    drop_divs_set drop_divs false no_acc far_ds far_deps = Some (Some ms) /\
  umap_rel far_deps (mkName 0 None) [far] (mkName 1 None) [0] [] /\ in_domain far_ds 0 [far] [] /\ in_domain far_ds 1 [0] [] /\
  date ms 0 [far] [] [far; 0] /\ date ms 1 [0] [] [0; 1] /\ lexlt [0; 1] [far; 0] /\ ~ valid_schedules far_ds far_deps ms.
Proof.
  destruct C12_oracle_exists as [f F]. exists (far_empty f). eexists. split; [apply far_empty_exact; auto|].
  split. { intros pr c x _ H. apply find_some in H as [_ H]. apply memb_ok. auto. }
  split; [apply jac_kernel_ok|]. split; [apply jac_kernel_ok|].
  split. { split.
    - repeat constructor; cbn; intuition discriminate.
    - intros s b [<-|[<-|[]]] [<-|[]]; (split; [reflexivity|]; intros r Hr; cbn in Hr; intuition (subst; reflexivity)).
    - intros b [<-|[]]; (split; [reflexivity|]; intros r Hr; cbn in Hr; intuition (subst; reflexivity)). }
  split; [vm_compute; reflexivity|].
  match goal with |- ?A /\ ?B /\ ?C /\ ?D /\ ?E /\ ?G /\ ~ ?V => assert (A /\ B /\ C /\ D /\ E) as (HA & HB & HC & HD & HE) end.
  - split. { eexists. eexists. split; [now left|]. split; [now left|]. split; [reflexivity|]. split; [reflexivity|].
      split; [reflexivity|]. split; [reflexivity|]. split; [reflexivity|]. exists []. split; [reflexivity|]. intros r Hr. cbn in Hr. intuition (subst; vm_compute; first [reflexivity|discriminate]). }
    split. { eexists. eexists. split; [now left|]. split; [reflexivity|]. split; [now left|]. split; [reflexivity|]. split; [reflexivity|]. exists []. split; [reflexivity|].
      intros r Hr. cbn in Hr. intuition (subst; vm_compute; first [reflexivity|discriminate]). }
    split. { eexists. eexists. split; [right; now left|]. split; [reflexivity|]. split; [now left|]. split; [reflexivity|]. split; [reflexivity|]. exists []. split; [reflexivity|].
      intros r Hr. cbn in Hr. intuition (subst; vm_compute; first [reflexivity|discriminate]). }
    split.
    + eexists. split; [reflexivity|]. split; [reflexivity|]. split; [reflexivity|]. split; [reflexivity|]. exists []. split; [reflexivity|].
      intros r Hr. cbn in Hr. intuition (subst; vm_compute; first [reflexivity|discriminate]).
    + eexists. split; [reflexivity|]. split; [reflexivity|]. split; [reflexivity|]. split; [reflexivity|]. exists []. split; [reflexivity|].
      intros r Hr. cbn in Hr. intuition (subst; vm_compute; first [reflexivity|discriminate]).
  - repeat (split; [assumption|]). split; [left; reflexivity|]. intros V.
    pose proof (vs_order _ _ _ V _ _ _ _ _ _ _ HA HB HC HD HE) as L. cbn in L. destruct L as [L|[L _]]; [|discriminate]. vm_compute in L. discriminate.
Qed.
Print Assumptions C75_large_shift_refuted.
