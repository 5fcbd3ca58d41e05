(** * Theorems: wavefront schedules (C26). *)
From Coq Require Import ZArith QArith List Bool Lia Arith Permutation.
From Verif Require Import SpecLinear MathModel ConstraintsModel VecProofs EditProofs MatrixProofs SpecProg SpecTile SpecLoop
  RankProofs SumProofs FrameworkModel ProgModel DepProofs SimplifyProofs LexProofs ProgProofs TileModel TileProofs TileProofs2 TileProofs3
  LoopModel LoopProofs LoopProofs2 LoopProofs3 LoopProofs4 LoopProofs5 WaveProofs WaveProofs2 SpecFlow SpecIntra FlowProofs Checkers ExProg PropFramework PropAuto PropTile PropLoop.
Import ListNotations.
Open Scope Z_scope.

(** One band.  The outermost level becomes the sum of itself and of the next
    level that is a loop for all statements (of all such levels with --multipar);
    nothing else changes.  The order of dependent iterations is kept, and the
    added levels carry no dependence among the statements any more. *)
Theorem C26_wavefront : forall multipar pr b q r,
  let l := l_stmts (pb_loop b) in let first := l_depth (pb_loop b) in let inner := common_loops pr l (S first) (pb_width b - 1) in
  wf_levels pr -> wave_band pr l first (pb_width b) -> (forall s, In s l -> types_ok (stmt_of pr s)) ->
  (forall d, In d (p_deps pr) -> d_rar d = false -> wave_safe pr l first (first + pb_width b) d) ->
  legal pr -> create_tile_schedule_band multipar false pr b = (q, r) ->
  legal q /\ (r = false -> q = pr) /\
  (r = true <-> loop_is_parallel pr (pb_loop b) = false /\ inner <> []) /\
  (r = true ->
     let ks := if multipar then inner else firstn 1 inner in
     (forall s i p, In s l ->
        theta (stmt_of q s) first i p = theta (stmt_of pr s) first i p + zsum (map (fun k => theta (stmt_of pr s) k i p) ks)) /\
     (forall s k i p, (s < length (p_stmts pr))%nat -> k <> first \/ ~ In s l -> theta (stmt_of q s) k i p = theta (stmt_of pr s) k i p) /\
     (forall s, (s < length (p_stmts pr))%nat -> s_domain (stmt_of q s) = s_domain (stmt_of pr s) /\ s_dim (stmt_of q s) = s_dim (stmt_of pr s) /\
        s_reads (stmt_of q s) = s_reads (stmt_of pr s) /\ s_writes (stmt_of q s) = s_writes (stmt_of pr s)) /\
     map (fun d => set_sv d []) (p_deps q) = map (fun d => set_sv d []) (p_deps pr) /\
     (forall k, In k ks -> parallel_level q l k)).
Proof.
  intros mp pr b q r l first inner W B TO SF L E. destruct (band_step mp pr b W B (types_levels _ _ _ _ W B TO)) as [K EQ]. fold l first in K, EQ.
  rewrite E in EQ. set (ks := summed mp pr l first (pb_width b)) in *.
  assert (ks = if mp then inner else firstn 1 inner) as KS by reflexivity.
  assert ((length ks =? 0)%nat = true <-> inner = []) as KE.
  { rewrite Nat.eqb_eq, length_zero_iff_nil, KS. destruct mp; [tauto|]. destruct inner; cbn; split; congruence. }
  destruct (loop_is_parallel pr (pb_loop b)) eqn:PA; cbn [orb] in EQ.
  { injection EQ as -> ->. split; auto. split; auto. split; [|discriminate]. split; [discriminate|]. intros [X _]. discriminate. }
  destruct (length ks =? 0)%nat eqn:LZ.
  { injection EQ as -> ->. split; auto. split; auto. split; [|discriminate]. split; [discriminate|]. intros [_ X]. exfalso. apply X. apply KE. auto. }
  injection EQ as -> ->. destruct B as (B1 & B2 & B3 & B4).
  assert (forall k, In k ks -> (first < k < length (p_hprops pr))%nat) as K1 by (intros k Hk; specialize (K k Hk); fold first in B4; lia).
  assert (forall k, In k ks -> (k < first + pb_width b)%nat) as K2 by (intros k Hk; apply K; auto).
  assert (first < length (p_hprops pr))%nat as F by (unfold first; lia).
  pose proof (dep_step_sv first ks b) as G.
  split; [apply (wv_legal pr) with (last := (first + pb_width b)%nat); auto; lia|].
  split; [discriminate|]. split.
  { split; auto. intros _. split; auto. intros X. apply KE in X. discriminate. }
  intros _. cbv zeta. rewrite <- KS. split; [|split; [|split; [|split]]].
  - intros s i p Hs. rewrite wv_first; auto.
  - intros s k i p Hs N. destruct (Nat.eq_dec k first) as [->|Nk].
    + rewrite wv_out by (try tauto; auto). auto.
    + apply (wv_stmt pr l first ks (dep_step first ks b)); auto.
  - intros s Hs. destruct (wv_stmt pr l first ks (dep_step first ks b) W B1 B2 F K1 s Hs) as (_ & _ & _ & A4 & _ & A6 & _ & A8 & A9 & _). auto.
  - cbn. rewrite map_map. apply map_ext. intros d. destruct (G d) as [v ->]. reflexivity.
  - intros k Hk. apply (wv_parallel pr) with (last := (first + pb_width b)%nat) (ks := ks); auto. lia.
Qed.
Print Assumptions C26_wavefront.

(** Tiling followed by wavefronts of tiles, as done for --tile --parallel: with
    all the levels of the bands being loops the final schedule respects all
    dependences, and the loops reported parallel can be run in parallel. *)
Theorem C26_tile_and_wavefront : forall f pr multipar, exact_empty f ->
  wf_levels pr -> plain_levels pr -> uniform pr -> leveled pr ->
  exists bands, bands_to_tile (info f pr) = Some bands /\
  forall sizes sizes2,
    (forall b, In b bands -> length (sizes b) = pb_width b /\ length (sizes2 b) = pb_width b /\
       (forall T, In T (sizes b ++ sizes2 b) -> 1 <= T) /\
       forall s k, In s (l_stmts (pb_loop b)) -> (l_depth (pb_loop b) <= k < l_depth (pb_loop b) + pb_width b)%nat -> loop_level (stmt_of pr s) k = true) ->
  let once := tile_scattering_dims (info f pr) (map (with_sizes sizes) bands) in
  let twice := tile_scattering_dims once (map (with_sizes sizes2) bands) in
  forall q, q = once \/ q = twice ->
    let r := fst (create_tile_schedule multipar false (info f q) bands) in
    legal r /\ (exists E, carries pr r E) /\ (distinct_times pr -> distinct_times r) /\
    (forall lp, In lp (get_all_loops r) -> loop_is_parallel r lp = true -> parallel_level r (l_stmts lp) (l_depth lp)).
Proof.
  intros f pr mp EX W PL UN LV. change (info f pr) with (computed f pr).
  pose proof (cq_wf f pr W) as W'. pose proof (cq_plain f pr PL) as PL'. pose proof (cq_uniform f pr UN) as UN'. pose proof (cq_leveled f pr LV) as LV'.
  assert (forall d, In d (p_deps (computed f pr)) -> d_rar d = false -> info_ok (computed f pr) d) as INF by (intros; apply computed_info; auto).
  destruct (bands_to_tile_ok (computed f pr) W' PL' UN' INF LV') as (bands & E & G & S). exists bands. split; auto.
  intros sizes sizes2 SZ once twice q Q. rewrite Forall_forall in G.
  assert (tiled_state (computed f pr) sizes bands) as T0.
  { split; auto. split; [intros s Hs; apply PL'; auto|]. split; [apply sized_disjoint; auto|]. split; [|split; [|split]].
    - apply Forall_forall. intros x Hx. apply in_map_iff in Hx as (b & <- & Hb). destruct (SZ b Hb) as (X & _ & Y & _). apply good_wf; auto.
      intros T HT. apply Y. apply in_or_app; auto.
    - intros d Hd R. apply Forall_forall. intros x Hx. apply in_map_iff in Hx as (b & <- & Hb). destruct (SZ b Hb). apply good_safe; auto.
    - apply Forall_forall. intros b Hb s k Hs Hk. rewrite cq_stmt. apply (SZ b Hb); auto.
    - apply leveled_legal; auto. }
  assert (tiled_state once sizes2 bands) as T1.
  { apply tile_state; auto. intros b Hb. destruct (SZ b Hb) as (X & Y & Z & _). split; auto. split; auto. intros; apply Z. apply in_or_app; auto. }
  assert (tiled_state twice sizes2 bands) as T2.
  { apply tile_state; auto. intros b Hb. destruct (SZ b Hb) as (X & Y & Z & _). split; auto. split; auto. intros; apply Z. apply in_or_app; auto. }
  assert (tiled_state (computed f q) sizes2 bands) as T by (apply state_computed; destruct Q as [->| ->]; auto).
  assert (wf_levels q) as Wq by (destruct Q as [->| ->]; [apply T1|apply T2]).
  destruct (wave_state mp (computed f q) sizes2 bands (computed_satvecs f q EX Wq) T S) as (R1 & R2 & R3 & R4).
  { intros b Hb. destruct (SZ b Hb) as (X & Y & _). destruct (G b Hb) as (G1 & G2 & _). split; auto. split; auto. apply (all_loops_ok _ _ G1). }
  assert (flows pr (fst (create_tile_schedule mp false (computed f q) bands))) as [FL DT].
  { assert (forall a, flows a (computed f a)) as FC by (intros; apply flows_reordered, reordered_computed, reordered_refl).
    assert (flows (computed f pr) once) as F1 by (apply flows_tiled; apply T0).
    assert (flows once twice) as F2 by (apply flows_tiled; apply T1).
    assert (flows pr q) as FQ by (destruct Q as [->| ->]; eauto using flows_trans).
    eapply flows_trans; [exact FQ|]. eapply flows_trans; [apply FC|]. apply flows_schedule; auto; apply T. }
  cbv zeta. change (info f q) with (computed f q). split; auto. split; auto. split; auto. intros lp Hl P. apply parallel_sound; auto; [apply R3|apply (all_loops_ok _ _ Hl)].
Qed.
Print Assumptions C26_tile_and_wavefront.

(** The same for the loops of an untiled program (--parallel without --tile). *)
Lemma wavefront_of_loops : forall f pr multipar, exact_empty f ->
  wf_levels pr -> plain_levels pr -> uniform pr -> leveled pr ->
  exists bands, get_outermost_permutable_bands (info f pr) = Some bands /\
  ((forall b, In b bands -> forall s k, In s (l_stmts (pb_loop b)) -> (l_depth (pb_loop b) <= k < l_depth (pb_loop b) + pb_width b)%nat ->
      loop_level (stmt_of pr s) k = true) ->
   let r := fst (create_tile_schedule multipar false (info f pr) bands) in
   wf_levels r /\ legal r /\ (exists E, carries pr r E) /\ (distinct_times pr -> distinct_times r) /\
   (forall lp, In lp (get_all_loops r) -> loop_is_parallel r lp = true -> parallel_level r (l_stmts lp) (l_depth lp))).
Proof.
  intros f pr mp EX W PL UN LV. change (info f pr) with (computed f pr).
  pose proof (cq_wf f pr W) as W'. pose proof (cq_plain f pr PL) as PL'. pose proof (cq_uniform f pr UN) as UN'. pose proof (cq_leveled f pr LV) as LV'.
  assert (forall d, In d (p_deps (computed f pr)) -> d_rar d = false -> info_ok (computed f pr) d) as INF by (intros; apply computed_info; auto).
  destruct (outermost_bands_ok (computed f pr) W' PL' UN' INF LV') as (bands & E & G & S). exists bands. split; auto.
  intros AL. rewrite Forall_forall in G. set (sizes := fun b : pband => repeat 1 (pb_width b)).
  assert (forall b, In b bands -> length (sizes b) = pb_width b) as SZ by (intros; apply repeat_length).
  assert (tiled_state (computed f pr) sizes bands) as T.
  { split; auto. split; [intros s Hs; apply PL'; auto|]. split; [apply sized_disjoint; auto|]. split; [|split; [|split]].
    - apply Forall_forall. intros x Hx. apply in_map_iff in Hx as (b & <- & Hb). apply good_wf; auto. intros T HT. apply repeat_spec in HT. lia.
    - intros d Hd R. apply Forall_forall. intros x Hx. apply in_map_iff in Hx as (b & <- & Hb). apply good_safe; auto.
    - apply Forall_forall. intros b Hb s k Hs Hk. rewrite cq_stmt. apply (AL b Hb); auto.
    - apply leveled_legal; auto. }
  destruct (wave_state mp (computed f pr) sizes bands (computed_satvecs f pr EX W) T S) as (R1 & R2 & R3 & R4).
  { intros b Hb. destruct (G b Hb) as (G1 & G2 & _). split; auto. split; auto. apply (all_loops_ok _ _ G1). }
  assert (flows pr (fst (create_tile_schedule mp false (computed f pr) bands))) as [FL DT].
  { eapply flows_trans; [apply flows_reordered, (reordered_computed f), reordered_refl|]. apply flows_schedule; auto; apply T. }
  split; auto. split; auto. split; auto. split; auto. intros lp Hl P. apply parallel_sound; auto; [apply R3|apply (all_loops_ok _ _ Hl)].
Qed.
Theorem C26_wavefront_of_loops : forall f pr multipar, exact_empty f ->
  wf_levels pr -> plain_levels pr -> uniform pr -> leveled pr ->
  exists bands, get_outermost_permutable_bands (info f pr) = Some bands /\
  ((forall b, In b bands -> forall s k, In s (l_stmts (pb_loop b)) -> (l_depth (pb_loop b) <= k < l_depth (pb_loop b) + pb_width b)%nat ->
      loop_level (stmt_of pr s) k = true) ->
   let r := fst (create_tile_schedule multipar false (info f pr) bands) in
   legal r /\ (exists E, carries pr r E) /\ (distinct_times pr -> distinct_times r) /\
   (forall lp, In lp (get_all_loops r) -> loop_is_parallel r lp = true -> parallel_level r (l_stmts lp) (l_depth lp))).
Proof.
  intros f pr mp EX W PL UN LV. destruct (wavefront_of_loops f pr mp EX W PL UN LV) as (bands & E & H). exists bands. split; [exact E|].
  intros AL. exact (proj2 (H AL)).
Qed.
Print Assumptions C26_wavefront_of_loops.

(** for i, j: a[i][j] = f(a[i-1][j], a[i][j-1]). *)
Definition wave_dom : cst := mkCst 3 [ge [1;0;0]; ge [-1;0;9]; ge [0;1;0]; ge [0;-1;9]].
Definition wave_stmt : stmt := mkStmt 2 2 [true;true] wave_dom (mkMat 3 [[1;0;0];[0;1;0]]) [H_LOOP;H_LOOP] 0 0 [] [] None 0 (-1) (-1).
Definition wave_dep (a b : Z) : dep :=
  ex_dep 0 0 false (mkCst 5 [eq [-1;0;1;0;-a]; eq [0;-1;0;1;-b]; ge [1;0;0;0;0]; ge [0;1;0;0;0]; ge [0;0;-1;0;9]; ge [0;0;0;-1;9]]).
Definition wave_prog : prog := mkProg 2 0 [wave_stmt] [wave_dep 1 0; wave_dep 0 1] [H_LOOP; H_LOOP].
Definition wave_pband : pband := mkPband (mkPloop 0 [0%nat]) 2.

Lemma wave_wf : wf_levels wave_prog.
Proof.
  split; [split|].
  - intros st [<-|[]]; (split; [|reflexivity]); repeat (split; [first [reflexivity|wf]|]); simpl; tauto.
  - intros d [<-|[<-|[]]]; (split; [simpl; lia|split; [simpl; lia|split; [wf|reflexivity]]]).
  - intros s Hs. destruct s as [|s]; [reflexivity|simpl in Hs; lia].
Qed.
Lemma wave_types : forall s, (s < 1)%nat -> types_ok (stmt_of wave_prog s).
Proof.
  intros s Hs. destruct s; [|lia]. intros k Hk. unfold mnrows in Hk. simpl in Hk. destruct k as [|[|k]]; try lia; (split; [discriminate|]; intros H; exfalso).
  specialize (H 0%nat ltac:(simpl; lia)); simpl in H; lia. specialize (H 1%nat ltac:(simpl; lia)); simpl in H; lia.
Qed.
Lemma wave_plain : plain_levels wave_prog /\ uniform wave_prog.
Proof.
  apply plain_loops; [exact wave_types|]. intros s k Hs Hk. simpl in Hs, Hk. destruct s; [|lia]. destruct k as [|[|k]]; [reflexivity|reflexivity|lia].
Qed.
Lemma wave_leveled : leveled wave_prog.
Proof.
  intros d [<-|[<-|[]]] _; [exists 0%nat|exists 1%nat]; (split; [simpl; lia|split; [|intros j Hj; destruct j as [|j]; try lia]]).
  all: intros s t p I; instance_cases; unfold distance, theta, aff; cbn -[Z.mul Z.add Z.sub]; lia.
Qed.

(** The hypotheses of the three theorems hold: loops i, j become i + j, j, loop j
    is parallel and no loop was before. *)
Example C26_met : wf_levels wave_prog /\ plain_levels wave_prog /\ uniform wave_prog /\ leveled wave_prog /\
  exists f, exact_empty f /\ bands_to_tile (info f wave_prog) = Some [wave_pband] /\
  get_outermost_permutable_bands (info f wave_prog) = Some [wave_pband] /\
  wave_band (info f wave_prog) [0%nat] 0 2 /\
  (forall d, In d (p_deps (info f wave_prog)) -> d_rar d = false -> wave_safe (info f wave_prog) [0%nat] 0 2 d) /\
  get_parallel_loops (info f wave_prog) = [] /\
  (let r := fst (create_tile_schedule false false (info f wave_prog) [wave_pband]) in
   mrows (s_trans (stmt_of r 0)) = [[1;1;0];[0;1;0]] /\ get_parallel_loops r = [mkPloop 1 [0%nat]]) /\
  (let q := tile_scattering_dims (info f wave_prog) [with_sizes (fun _ => [2; 2]) wave_pband] in
   let r := fst (create_tile_schedule false false (info f q) [wave_pband]) in
   mrows (s_trans (stmt_of r 0)) = [[1;1;0;0;0];[0;1;0;0;0];[0;0;1;0;0];[0;0;0;1;0]] /\ get_parallel_loops r = [mkPloop 1 [0%nat]]).
Proof.
  split; [exact wave_wf|]. split; [apply wave_plain|]. split; [apply wave_plain|]. split; [exact wave_leveled|].
  destruct C12_oracle_exists as [f F]. exists (dec_empty f). split; [apply dec_empty_exact; auto|]. split; [vm_compute; reflexivity|].
  split; [vm_compute; reflexivity|]. split.
  { split; [repeat constructor; simpl; tauto|]. split; [intros s [<-|[]]; simpl; lia|]. split; [lia|]. simpl. lia. }
  split. { intros d Hd R. right. right. remember (p_deps (info (dec_empty f) wave_prog)) as ds eqn:Q. vm_compute in Q. subst ds.
    destruct Hd as [<-|[<-|[]]]; (split; [left; reflexivity|split; [left; reflexivity|]]); intros s t p I _ k Hk;
    (assert (instance wave_prog (wave_dep 1 0) s t p \/ instance wave_prog (wave_dep 0 1) s t p) as J by (first [left; exact I|right; exact I]));
    clear I; destruct J as [I|I]; instance_cases; (destruct k as [|[|k]]; [| |lia]); unfold distance, theta, aff; cbn -[Z.mul Z.add Z.sub]; lia. }
  split; [vm_compute; reflexivity|]. split; split; vm_compute; reflexivity.
Qed.

(** ** Where it fails *)

(** With --innerpar the schedule is left alone but the dependence information is
    updated as if the wavefront had been made: a loop is reported parallel that
    carries a dependence. *)
Theorem C26_innerpar_refuted : exists pr f bands lp, exact_empty f /\
  wf_levels pr /\ plain_levels pr /\ uniform pr /\ leveled pr /\ bands_to_tile (info f pr) = Some bands /\
  (forall b, In b bands -> forall s k, In s (l_stmts (pb_loop b)) -> (l_depth (pb_loop b) <= k < l_depth (pb_loop b) + pb_width b)%nat ->
      loop_level (stmt_of pr s) k = true) /\
  let r := fst (create_tile_schedule false true (info f pr) bands) in
  p_stmts r = p_stmts pr /\ In lp (get_all_loops r) /\ loop_is_parallel r lp = true /\ ~ parallel_level r (l_stmts lp) (l_depth lp).
Proof.
  destruct C12_oracle_exists as [f F]. exists wave_prog, (dec_empty f), [wave_pband], (mkPloop 1 [0%nat]).
  split; [apply dec_empty_exact; auto|]. split; [exact wave_wf|]. split; [apply wave_plain|]. split; [apply wave_plain|]. split; [exact wave_leveled|].
  split; [vm_compute; reflexivity|]. split.
  { intros b [<-|[]] s k [<-|[]] Hk. simpl in Hk. destruct k as [|[|k]]; [reflexivity|reflexivity|lia]. }
  cbv zeta. remember (fst (create_tile_schedule false true (info (dec_empty f) wave_prog) [wave_pband])) as q eqn:Q. vm_compute in Q.
  split; [subst q; reflexivity|]. split; [subst q; vm_compute; auto|]. split; [subst q; vm_compute; reflexivity|]. intros P.
  set (d := nth 1 (p_deps q) (ex_dep 0 0 false (mkCst 1 []))).
  assert (In d (p_deps q)) as Hd by (subst q; vm_compute; right; left; reflexivity).
  specialize (P d Hd ltac:(subst q; reflexivity) ltac:(subst q; left; reflexivity) ltac:(subst q; left; reflexivity) [0;0] [0;1] []).
  assert (instance q d [0;0] [0;1] []) as I by
    (subst q; split; [vm_compute; reflexivity|split; [vm_compute; reflexivity|split; [vm_compute; reflexivity|inset]]]).
  specialize (P I). assert (distance q d 1 [0;0] [0;1] [] = 1) as E by (subst q; vm_compute; reflexivity). cbn [l_depth] in P. rewrite E in P.
  enough (1 = 0) by lia. apply P. intros j Hj. assert (j = 0)%nat as -> by lia. subst q. vm_compute. reflexivity.
Qed.
Print Assumptions C26_innerpar_refuted.

(** for i { for j S0; for j S1 }: the band has a constant level between its
    loops.  A dependence S0 (i,j) -> S1 (i,j-1) is ordered by this level, the sum
    of the loops reverses it. *)
Definition mid_stmt (c : Z) : stmt :=
  mkStmt 2 2 [true;true] wave_dom (mkMat 3 [[1;0;0];[0;0;c];[0;1;0]]) [H_LOOP;H_SCALAR;H_LOOP] 0 0 [] [] None 0 (-1) (-1).
Definition mid_prog : prog := mkProg 2 0 [mid_stmt 0; mid_stmt 1]
  [wave_dep 1 0; ex_dep 0 1 false (mkCst 5 [eq [-1;0;1;0;0]; eq [0;-1;0;1;1]; ge [1;0;0;0;0]; ge [0;0;0;1;0]; ge [0;0;-1;0;9]; ge [0;-1;0;0;9]])]
  [H_LOOP; H_SCALAR; H_LOOP].
Definition mid_pband : pband := mkPband (mkPloop 0 [0; 1]%nat) 3.

Theorem C26_scalar_in_band_refuted : exists pr f b, exact_empty f /\
  wf_levels pr /\ plain_levels pr /\ uniform pr /\ leveled pr /\
  bands_to_tile (info f pr) = Some [b] /\ get_outermost_permutable_bands (info f pr) = Some [b] /\
  ~ legal (fst (create_tile_schedule false false (info f pr) [b])) /\
  (let q := tile_scattering_dims (info f pr) [with_sizes (fun _ => [2; 1; 2]) b] in
   ~ legal (fst (create_tile_schedule false false (info f q) [b]))).
Proof.
  destruct C12_oracle_exists as [f F]. exists mid_prog, (dec_empty f), mid_pband. split; [apply dec_empty_exact; auto|].
  split; [|split; [|split; [|split]]].
  - split; [split|].
    + intros st [<-|[<-|[]]]; (split; [|reflexivity]); repeat (split; [first [reflexivity|wf]|]); simpl; tauto.
    + intros d [<-|[<-|[]]]; (split; [simpl; lia|split; [simpl; lia|split; [wf|reflexivity]]]).
    + intros s Hs. destruct s as [|[|s]]; [reflexivity|reflexivity|simpl in Hs; lia].
  - intros s Hs. destruct s as [|[|s]]; [| |simpl in Hs; lia]; split.
    1,3: intros k Hk; unfold mnrows in Hk; simpl in Hk; destruct k as [|[|[|k]]]; try lia;
        (split; [try discriminate; intros _ [|[|j]]; simpl; auto; lia|intros H; try reflexivity; exfalso]);
        first [specialize (H 0%nat ltac:(simpl; lia)); simpl in H; lia|specialize (H 1%nat ltac:(simpl; lia)); simpl in H; lia].
    all: intros k Hk L; destruct k as [|[|[|k]]]; try discriminate; try (simpl in Hk; lia); intros i i' p p' Li Li' Lp Lp';
        destruct i as [|i1 [|i2 [|]]], i' as [|i1' [|i2' [|]]], p as [|], p' as [|]; try discriminate; unfold theta, aff; cbn -[Z.mul]; lia.
  - intros s t k Hs Ht Hk _. simpl in Hs, Ht, Hk. destruct s as [|[|s]]; destruct t as [|[|t]]; try lia; destruct k as [|[|[|k]]]; try lia; reflexivity.
  - intros d [<-|[<-|[]]] _; [exists 0%nat|exists 1%nat]; (split; [simpl; lia|split; [|intros j Hj; destruct j as [|j]; try lia]]).
    all: intros s t p I; instance_cases; unfold distance, theta, aff; cbn -[Z.mul Z.add Z.sub]; lia.
  - split; [vm_compute; reflexivity|]. split; [vm_compute; reflexivity|]. split.
    + intros L. remember (fst (create_tile_schedule false false (info (dec_empty f) mid_prog) [mid_pband])) as q eqn:Q. vm_compute in Q.
      set (d := nth 1 (p_deps q) (ex_dep 0 0 false (mkCst 1 []))).
      assert (In d (p_deps q)) as Hd by (subst q; vm_compute; right; left; reflexivity).
      specialize (L d Hd ltac:(subst q; reflexivity) [0;1] [0;0] []).
      assert (instance q d [0;1] [0;0] []) as I by
        (subst q; split; [vm_compute; reflexivity|split; [vm_compute; reflexivity|split; [vm_compute; reflexivity|inset]]]).
      specialize (L I).
      assert (timestamp (stmt_of q (d_src d)) [0;1] [] = [1;0;1]) as E1 by (subst q; vm_compute; reflexivity).
      assert (timestamp (stmt_of q (d_dst d)) [0;0] [] = [0;1;0]) as E2 by (subst q; vm_compute; reflexivity).
      rewrite E1, E2 in L. simpl in L. lia.
    + intros qt L.
      remember (fst (create_tile_schedule false false (info (dec_empty f) qt) [mid_pband])) as q eqn:Q. unfold qt in Q. clear qt. vm_compute in Q.
      set (d := nth 1 (p_deps q) (ex_dep 0 0 false (mkCst 1 []))).
      assert (In d (p_deps q)) as Hd by (subst q; vm_compute; right; left; reflexivity).
      specialize (L d Hd ltac:(subst q; reflexivity) [0;1;0;2] [0;0;0;1] []).
      assert (instance q d [0;1;0;2] [0;0;0;1] []) as I by
        (subst q; split; [vm_compute; reflexivity|split; [vm_compute; reflexivity|split; [vm_compute; reflexivity|inset]]]).
      specialize (L I).
      assert (timestamp (stmt_of q (d_src d)) [0;1;0;2] [] = [1;0;1;0;0;2]) as E1 by (subst q; vm_compute; reflexivity).
      assert (timestamp (stmt_of q (d_dst d)) [0;0;0;1] [] = [0;1;0;0;1;1]) as E2 by (subst q; vm_compute; reflexivity).
      rewrite E1, E2 in L. simpl in L. lia.
Qed.
Print Assumptions C26_scalar_in_band_refuted.
