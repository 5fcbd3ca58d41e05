(** * Theorems: loops and bands of the transformed program (C29, C30, C55, C60).

    Dependence information is recomputed before loops and bands are looked for
    (tool/main.cpp and lib/plutolib.c call [compute_dep_directions] and
    [compute_dep_satisfaction]); [info f pr] is the program [pr] with this
    information, [f] is the emptiness test. *)
From Coq Require Import ZArith QArith List Bool Lia Arith Permutation.
From Verif Require Import SpecLinear MathModel ConstraintsModel VecProofs EditProofs MatrixProofs SpecProg SpecTile SpecLoop
  RankProofs SumProofs FrameworkModel ProgModel DepProofs SimplifyProofs LexProofs ProgProofs TileModel TileProofs TileProofs2 TileProofs3
  LoopModel LoopProofs LoopProofs2 LoopProofs3 LoopProofs4 LoopProofs5 Checkers ExProg PropFramework PropAuto PropTile.
Import ListNotations.
Open Scope Z_scope.

Definition info (f : cst -> bool) (pr : prog) : prog := compute_dep_satisfaction f (compute_dep_directions f pr).

(** ** C60.  The loops *)

(** Every level that is a loop of a statement belongs to exactly one of the
    loops, and loops contain nothing else. *)
Theorem C60_loops_partition : forall pr, wf_levels pr ->
  (forall s, (s < length (p_stmts pr))%nat -> types_ok (stmt_of pr s)) ->
  (forall lp, In lp (get_all_loops pr) -> l_stmts lp <> [] /\ NoDup (l_stmts lp) /\
     forall s, In s (l_stmts lp) -> (s < length (p_stmts pr))%nat /\ (l_depth lp < length (p_hprops pr))%nat /\
       loop_level (stmt_of pr s) (l_depth lp) = true) /\
  (forall s k, (s < length (p_stmts pr))%nat -> (k < length (p_hprops pr))%nat -> loop_level (stmt_of pr s) k = true ->
     exists lp, In lp (get_all_loops pr) /\ l_depth lp = k /\ In s (l_stmts lp) /\
       forall lp', In lp' (get_all_loops pr) -> l_depth lp' = k -> In s (l_stmts lp') -> lp' = lp).
Proof.
  intros pr W TO. split.
  - intros lp H. destruct (all_loops_ok pr lp H) as (A & B & C & D). split; auto. split; auto. intros s Hs. destruct (D s Hs) as [E F].
    split; auto. split; auto. rewrite <- loop_is_level; auto. rewrite (proj2 W); auto.
  - intros s k Hs Hk L.
    destruct (loops_under_complete pr (length (p_hprops pr) - 0) (seq 0 (length (p_stmts pr))) 0 s k) as (lp & A & B & C).
    + apply in_seq. lia.
    + lia.
    + rewrite loop_is_level; auto. rewrite (proj2 W); auto.
    + exists lp. split; auto. split; auto. split; auto. intros lp' A' B' C'.
      apply (fop_unique lp' lp (get_all_loops pr) s); auto; [apply loops_under_apart|congruence].
Qed.
Print Assumptions C60_loops_partition.

(** When fused statements have loops at the same levels, a loop contains all
    statements that no outer constant level separates from its statements. *)
Theorem C60_loop_statements : forall pr lp s t, wf_levels pr -> plain_levels pr -> uniform pr ->
  In lp (get_all_loops pr) -> In s (l_stmts lp) -> (t < length (p_stmts pr))%nat ->
  (In t (l_stmts lp) <-> fused pr (l_depth lp) s t).
Proof. intros pr lp s t W PL UN H Hs Ht. apply (all_loops_class pr W PL UN lp H); auto. Qed.
Print Assumptions C60_loop_statements.

(** The loops immediately inside of a loop are the loops of its statements at the
    next level. *)
Theorem C60_inner_loops : forall pr lp, wf_levels pr ->
  (forall s, (s < length (p_stmts pr))%nat -> types_ok (stmt_of pr s)) -> In lp (get_all_loops pr) ->
  forall l, In l (get_loops_immediately_inner pr lp) ->
    l_depth l = S (l_depth lp) /\ l_stmts l <> [] /\
    forall s, In s (l_stmts l) <-> In s (l_stmts lp) /\ loop_level (stmt_of pr s) (S (l_depth lp)) = true.
Proof.
  intros pr lp W TO HL l Hl. unfold get_loops_immediately_inner in Hl. apply filter_In in Hl as [Hl E]. apply Nat.eqb_eq in E.
  destruct (all_loops_ok pr lp HL) as (LP1 & LP2 & LP3 & LP4).
  unfold get_loops_under in Hl. destruct (loops_under_basic _ _ _ _ _ Hl) as (B1 & B2 & B3 & _).
  split; auto. split; auto. intros s. rewrite <- E. split.
  - intros Hs. destruct (B3 s Hs) as [X Y]. split; auto. rewrite <- loop_is_level; auto; [apply TO; apply LP4; auto|rewrite (proj2 W); [lia|apply LP4; auto]].
  - intros [Hs L]. destruct (LP4 s Hs) as [Ns Ls].
    destruct (length (p_hprops pr) - l_depth lp)%nat as [|n] eqn:N; [lia|]. cbn [loops_under] in Hl.
    assert (existsb (fun s => is_hyperplane_loop (stmt_of pr s) (l_depth lp)) (l_stmts lp) = true) as EX by (apply existsb_exists; eauto).
    rewrite EX in Hl. apply in_app_or in Hl as [Hl|[<-|[]]]; [|cbn in E; lia].
    destruct n as [|n]; [destruct Hl|]. cbn [loops_under] in Hl.
    assert (existsb (fun s => is_hyperplane_loop (stmt_of pr s) (S (l_depth lp))) (l_stmts lp) = true) as EX2.
    { apply existsb_exists. exists s. split; auto. rewrite loop_is_level, <- E; auto. rewrite (proj2 W); auto; lia. }
    rewrite EX2 in Hl. apply in_app_or in Hl as [Hl|[<-|[]]].
    + apply loops_under_basic in Hl. lia.
    + cbn in *. apply filter_In. split; auto. rewrite scalar_level, L; auto. rewrite (proj2 W); auto. lia.
Qed.
Print Assumptions C60_inner_loops.

(** ** The example program *)
Lemma ex_wf_levels : wf_levels ex_prog.
Proof. split; [exact ex_core|]. intros s Hs. destruct s as [|[|s]]; [reflexivity|reflexivity|simpl in Hs; lia]. Qed.
Lemma ex_plain : plain_levels ex_prog.
Proof.
  intros s Hs. split; [apply ex_types; auto|]. intros k Hk L. destruct s as [|[|s]]; [| |simpl in Hs; lia];
    destruct k as [|[|[|k]]]; try discriminate; try (simpl in Hk; lia); intros i i' p p' Li Li' Lp Lp';
    destruct i as [|i1 [|i2 [|]]], i' as [|i1' [|i2' [|]]], p as [|n [|]], p' as [|n' [|]]; try discriminate;
    unfold theta, aff; cbn -[Z.mul]; lia.
Qed.
Lemma ex_uniform : uniform ex_prog.
Proof. intros s t k Hs Ht Hk _. destruct s as [|[|s]], t as [|[|t]]; try (simpl in Hs, Ht; lia); destruct k as [|[|[|k]]]; try reflexivity; simpl in Hk; lia. Qed.
Lemma ex_leveled : leveled ex_prog.
Proof.
  intros d Hd R. destruct Hd as [<-|[<-|[<-|[<-|[]]]]]; try discriminate; [exists 0%nat|exists 1%nat|exists 2%nat].
  all: split; [simpl; lia|]; split; [|intros j Hj].
  all: try lia.
  all: intros s t p (L1 & L2 & L3 & M).
  all: destruct s as [|s1 [|s2 [|]]], t as [|t1 [|t2 [|]]], p as [|n [|]]; try discriminate.
  all: destruct M as [_ M]; apply Forall_forall in M; cbn in M.
  all: repeat match goal with M : Forall _ (_ :: _) |- _ => inversion M; clear M; subst end.
  all: try (destruct j as [|[|j]]; try lia).
  all: unfold holds, aff, distance, theta in *; cbn -[Z.mul Z.add Z.sub] in *; unfold aff; cbn -[Z.mul Z.add Z.sub]; lia.
Qed.

Definition show_loop (l : ploop) : nat * list nat := (l_depth l, l_stmts l).
Definition show_band (b : pband) : nat * nat * list nat := (l_depth (pb_loop b), pb_width b, l_stmts (pb_loop b)).

Example C60_met : wf_levels ex_prog /\ plain_levels ex_prog /\ uniform ex_prog /\
  map show_loop (get_all_loops ex_prog) = [(1, [0; 1]); (0, [0; 1])]%nat /\
  map show_loop (get_loops_immediately_inner ex_prog (mkPloop 0 [0; 1]%nat)) = [(1, [0; 1])]%nat.
Proof. split; [exact ex_wf_levels|]. split; [exact ex_plain|]. split; [exact ex_uniform|]. split; vm_compute; reflexivity. Qed.

(** ** C29.  Loops reported parallel are parallel *)
Theorem C29_parallel : forall f pr lp, exact_empty f -> wf_levels pr ->
  In lp (get_all_loops (info f pr)) -> loop_is_parallel (info f pr) lp = true ->
  parallel_level (info f pr) (l_stmts lp) (l_depth lp).
Proof.
  intros f pr lp EX W HL P. apply parallel_sound; auto; [|apply (all_loops_ok _ lp HL)].
  apply info_sound. intros d Hd R. apply (computed_info f EX pr d W Hd R).
Qed.
Print Assumptions C29_parallel.

Lemma existsb_ext' {A} (f g : A -> bool) l : (forall x, f x = g x) -> existsb f l = existsb g l.
Proof. intros H. induction l; cbn; auto. rewrite H, IHl. auto. Qed.
Lemma regroup_ext f g l : (forall s, f s = g s) -> regroup f l = regroup g l.
Proof.
  intros H. unfold regroup. generalize (@nil (list nat)) as gs. induction l as [|s l IH]; intros gs; cbn; auto. rewrite IH. f_equal.
  induction gs as [|h gs IHg]; cbn; auto. rewrite !H, IHg. auto.
Qed.

(** The loops are those of the given schedule, for the given dependences. *)
Theorem C29_same_program : forall f pr,
  get_all_loops (info f pr) = get_all_loops pr /\
  (forall l k, parallel_level (info f pr) l k <-> parallel_level pr l k).
Proof.
  intros f pr. split.
  - unfold get_all_loops, get_loops_under. change (info f pr) with (computed f pr). rewrite cq_stmts, cq_hprops.
    assert (forall n l d, loops_under (computed f pr) n l d = loops_under pr n l d) as E; [|apply E].
    induction n as [|n IH]; intros l d; cbn [loops_under]; auto.
    assert (forall s, stmt_of (computed f pr) s = stmt_of pr s) as ST by (intros s; apply cq_stmt).
    rewrite (existsb_ext' _ (fun s => is_hyperplane_loop (stmt_of pr s) d)) by (intros; rewrite ST; auto).
    rewrite (filter_ext _ (fun s => negb (is_hyperplane_scalar (stmt_of pr s) d))) by (intros; rewrite ST; auto).
    rewrite (regroup_ext _ (fun s => row_const (stmt_of pr s) d)) by (intros; rewrite ST; auto).
    rewrite IH. destruct (existsb _ l); auto. induction (regroup _ l) as [|g gs IHg]; cbn; auto. rewrite IH, IHg. auto.
  - intros l k. unfold parallel_level. pose proof (computed_deps f pr) as F. change (info f pr) with (computed f pr). split.
    + intros H d Hd R H1 H2. assert (exists d', In d' (p_deps (computed f pr)) /\ same_dep d d') as (d' & Hd' & S).
      { clear - F Hd. induction F as [|x y l l' S F IH]; [destruct Hd|]. destruct Hd as [<-|Hd]; [exists y; simpl; auto|].
        destruct (IH Hd) as (d' & A & B). exists d'. simpl; auto. }
      pose proof S as (A & B & C & _). intros s t p I Z. rewrite <- (cq_distance f pr d d') by auto.
      apply (H d' Hd'); try congruence. { apply (cq_instance f pr d d'); auto. } intros j Hj. rewrite (cq_distance f pr d d') by auto. auto.
    + intros H d' Hd R H1 H2. destruct (cq_dep f pr d' Hd) as (d & H0 & S). pose proof S as (A & B & C & _). intros s t p I Z.
      rewrite (cq_distance f pr d d') by auto. apply (H d H0); try congruence. { apply (cq_instance f pr d d'); auto. }
      intros j Hj. rewrite <- (cq_distance f pr d d') by auto. auto.
Qed.
Print Assumptions C29_same_program.

(** A loop is reported parallel if all dependences among its statements have
    distance 0 there or are ordered by one outer level. *)
Theorem C29_reported : forall f pr lp, exact_empty f -> wf_levels pr ->
  In lp (get_all_loops (info f pr)) ->
  (loop_is_parallel (info f pr) lp = true <->
   forall d, In d (p_deps (info f pr)) -> d_rar d = false -> In (d_src d) (l_stmts lp) -> In (d_dst d) (l_stmts lp) ->
     ~ ~ (zero_at (info f pr) d (l_depth lp) \/ exists i, (i < l_depth lp)%nat /\ strict_at (info f pr) d i)).
Proof.
  intros f pr lp EX W HL. destruct (all_loops_ok _ lp HL) as (LP1 & _). unfold loop_is_parallel. rewrite forallb_forall. split.
  - intros H d Hd R H1 H2 N. specialize (H d Hd). rewrite R, (proj2 (dep_in_loop_In lp d)) in H by auto. cbn in H.
    destruct (computed_info f EX pr d W Hd R) as (_ & _ & _ & V). specialize (V (l_depth lp) LP1).
    enough (nth (l_depth lp) (d_satvec d) false = true) as E by (rewrite E in H; discriminate).
    apply V. split; [intros Z; apply N; auto|]. intros i Hi S. apply N. right. eauto.
  - intros H d Hd. destruct (d_rar d) eqn:R; auto. cbn. destruct (dep_in_loop lp d) eqn:D; auto. apply dep_in_loop_In in D as [H1 H2]. cbn.
    destruct (nth (l_depth lp) (d_satvec d) false) eqn:E; auto. exfalso.
    destruct (computed_info f EX pr d W Hd R) as (_ & _ & _ & V). apply (V (l_depth lp) LP1) in E as [E1 E2].
    apply (H d Hd R H1 H2). intros [Z|(i & Hi & S)]; [auto|apply (E2 i Hi S)].
Qed.
Print Assumptions C29_reported.

(** Parallel for one statement: its dependences on itself are not carried. *)
Theorem C29_parallel_for_stmt : forall f pr lp s, exact_empty f -> wf_levels pr ->
  In lp (get_all_loops (info f pr)) -> loop_is_parallel_for_stmt (info f pr) lp s = true ->
  parallel_level (info f pr) [s] (l_depth lp).
Proof.
  intros f pr lp s EX W HL P d Hd R [H1|[]] [H2|[]].
  assert (satvec_sound (info f pr)) as S by (apply info_sound; intros; apply (computed_info f EX pr); auto).
  apply S; auto; [apply (all_loops_ok _ lp HL)|]. unfold loop_is_parallel_for_stmt in P. rewrite forallb_forall in P. specialize (P d Hd).
  rewrite R, <- H1, <- H2, !Nat.eqb_refl in P. cbn in P. destruct (nth (l_depth lp) (d_satvec d) false); auto; discriminate.
Qed.
Print Assumptions C29_parallel_for_stmt.

(** for i, j: a[i][j] = f(a[i][j-1]): loop i is parallel, loop j is not. *)
Definition par_prog : prog := mkProg 2 0
  [mkStmt 2 2 [true;true] (mkCst 3 [ge [1;0;0]; ge [-1;0;9]; ge [0;1;0]; ge [0;-1;9]]) (mkMat 3 [[1;0;0];[0;1;0]]) [H_LOOP;H_LOOP] 0 0 [] [] None 0 (-1) (-1)]
  [ex_dep 0 0 false (mkCst 5 [eq [1;0;-1;0;0]; eq [0;1;0;-1;1]; ge [1;0;0;0;0]; ge [-1;0;0;0;9]; ge [0;1;0;0;0]; ge [0;-1;0;0;8]])]
  [H_LOOP; H_LOOP].
Example C29_met : wf_levels par_prog /\ exists f, exact_empty f /\
  map show_loop (get_all_loops (info f par_prog)) = [(1, [0]); (0, [0])]%nat /\
  map (loop_is_parallel (info f par_prog)) (get_all_loops (info f par_prog)) = [false; true] /\
  map (loop_is_parallel (info f ex_prog)) (get_all_loops (info f ex_prog)) = [false; false].
Proof.
  split.
  - split; [|intros s Hs; destruct s as [|s]; [reflexivity|simpl in Hs; lia]]. split.
    + intros st [<-|[]]; (split; [|reflexivity]); repeat (split; [first [reflexivity|wf]|]); simpl; intuition (subst; first [wf|reflexivity]).
    + intros d [<-|[]]; (split; [simpl; lia|split; [simpl; lia|split; [wf|reflexivity]]]).
  - destruct C12_oracle_exists as [f F]. exists (dec_empty f). split; [apply dec_empty_exact; auto|]. split; [|split]; vm_compute; reflexivity.
Qed.

(** ** C30.  Permutable bands *)

(** If some level orders each dependence and no earlier one reverses it, as for
    the schedules of the hyperplane search, then no assertion fails. *)
Theorem C30_no_abort : forall f pr lp, exact_empty f -> wf_levels pr ->
  leveled pr -> In lp (get_all_loops (info f pr)) ->
  get_permutable_band (info f pr) lp <> BandAbort.
Proof.
  intros f pr lp EX W LV H. apply band_no_abort; auto.
  - intros d Hd R. apply (computed_info f EX pr d W Hd R).
  - apply (cq_leveled f pr LV).
  - apply all_loops_ok; auto.
Qed.
Print Assumptions C30_no_abort.

(** The levels of the band are consecutive levels that start with the loop, and a
    dependence among its statements that is not ordered before the band has no
    negative distance inside except behind a constant level of the band that
    orders it. *)
Theorem C30_band : forall f pr lp b, exact_empty f -> wf_levels pr ->
  (forall s, (s < length (p_stmts pr))%nat -> types_ok (stmt_of pr s)) ->
  leveled pr -> In lp (get_all_loops (info f pr)) ->
  get_permutable_band (info f pr) lp = BandFound b ->
  pb_loop b = lp /\ (2 <= pb_width b)%nat /\ (l_depth lp + pb_width b <= length (p_hprops pr))%nat /\
  forall d, In d (p_deps (info f pr)) -> d_rar d = false -> In (d_src d) (l_stmts lp) -> In (d_dst d) (l_stmts lp) ->
  forall s t p, instance (info f pr) d s t p -> (forall k, (k < l_depth lp)%nat -> distance (info f pr) d k s t p = 0) ->
  forall k, (l_depth lp <= k < l_depth lp + pb_width b)%nat -> 0 <= distance (info f pr) d k s t p \/
    exists j, (l_depth lp <= j < k)%nat /\ loop_level (stmt_of pr (d_src d)) j = false /\
      loop_level (stmt_of pr (d_dst d)) j = false /\ 0 < distance (info f pr) d j s t p.
Proof.
  intros f pr lp b EX W TO LV HL F. change (info f pr) with (computed f pr) in *.
  assert (forall s, (s < length (p_stmts (computed f pr)))%nat -> types_ok (stmt_of (computed f pr) s)) as TO'.
  { intros s Hs. rewrite cq_stmts in Hs. rewrite cq_stmt. auto. }
  assert (forall d, In d (p_deps (computed f pr)) -> d_rar d = false -> info_ok (computed f pr) d) as INF by (intros; apply computed_info; auto).
  pose proof (all_loops_ok _ lp HL) as LP. destruct (band_found (computed f pr) lp b LP F) as (A & B & C & _ & D).
  rewrite cq_hprops in C. split; auto. split; auto. split; auto.
  intros d Hd R H1 H2 s t p I Z k Hk.
  pose proof (band_levels (computed f pr) (cq_wf f pr W) TO' INF (cq_leveled f pr LV) lp (pb_width b) d LP ltac:(rewrite cq_hprops; auto)
    (fun k H => D k d H Hd) Hd R H1 H2 s t p I Z k Hk) as [L|(j & J1 & J2 & J3 & J4)]; [auto|]. right. exists j. rewrite cq_stmt in J2, J3. auto.
Qed.
Print Assumptions C30_band.

(** Without constant levels in the band, its levels may be reordered. *)
Theorem C30_reorder : forall f pr lp b, exact_empty f -> wf_levels pr ->
  (forall s, (s < length (p_stmts pr))%nat -> types_ok (stmt_of pr s)) ->
  leveled pr -> In lp (get_all_loops (info f pr)) ->
  get_permutable_band (info f pr) lp = BandFound b ->
  (forall s k, In s (l_stmts lp) -> (l_depth lp <= k < l_depth lp + pb_width b)%nat -> loop_level (stmt_of pr s) k = true) ->
  forall sigma, reorders (length (p_hprops pr)) (l_depth lp) (l_depth lp + pb_width b) sigma ->
  forall d, In d (p_deps (info f pr)) -> d_rar d = false -> In (d_src d) (l_stmts lp) -> In (d_dst d) (l_stmts lp) ->
  forall s t p, instance (info f pr) d s t p ->
    lexlt (permute_rows sigma (timestamp (stmt_of pr (d_src d)) s p)) (permute_rows sigma (timestamp (stmt_of pr (d_dst d)) t p)).
Proof.
  intros f pr lp b EX W TO LV HL F AL sigma RO d Hd R H1 H2 s t p I.
  destruct (C30_band f pr lp b EX W TO LV HL F) as (_ & _ & C & D). specialize (D d Hd R H1 H2 s t p I).
  destruct (all_loops_ok _ lp HL) as (_ & _ & _ & LP). change (info f pr) with (computed f pr) in *.
  pose proof (proj1 (LP _ H1)) as N1. pose proof (proj1 (LP _ H2)) as N2. rewrite cq_stmts in N1, N2.
  apply (lexlt_reorder (length (p_hprops pr)) (l_depth lp) (l_depth lp + pb_width b)); auto; try lia.
  - apply timestamp_len; auto.
  - apply timestamp_len; auto.
  - intros E k Hk. rewrite !timestamp_at by (auto; lia).
    assert (0 <= distance (computed f pr) d k s t p) as Q.
    { destruct D with (k := k) as [Q|(j & J1 & J2 & _)]; auto.
      - intros j Hj. unfold distance. rewrite !cq_stmt. rewrite <- !timestamp_at by (auto; lia).
        rewrite (firstn_eq_nth _ _ _ E j Hj). lia.
      - rewrite AL in J2 by (auto; lia). discriminate. }
    unfold distance in Q. rewrite !cq_stmt in Q. lia.
  - pose proof (leveled_legal (computed f pr) (cq_wf f pr W) (cq_leveled f pr LV) d Hd R s t p I) as Q. rewrite !cq_stmt in Q. auto.
Qed.
Print Assumptions C30_reorder.

(** All the bands that are tiled: no assertion fails, they are bands of the
    program, share no statements, and tiling them with any tile sizes, once or
    twice, keeps all dependent iterations in order. *)
Theorem C30_tiling_legal : forall f pr, exact_empty f -> wf_levels pr -> plain_levels pr -> uniform pr -> leveled pr ->
  exists bands, bands_to_tile (info f pr) = Some bands /\
  forall sizes, (forall b, In b bands -> length (sizes b) = pb_width b /\ forall T, In T (sizes b) -> 1 <= T) ->
    let bs := map (with_sizes sizes) bands in
    disjoint_bands bs /\ Forall (wf_band (info f pr)) bs /\
    legal (tile_scattering_dims (info f pr) bs) /\
    forall bs2, Forall2 same_levels bs bs2 ->
      legal (tile_scattering_dims (tile_scattering_dims (info f pr) bs) bs2).
Proof.
  intros f pr EX W PL UN LV. change (info f pr) with (computed f pr).
  pose proof (cq_wf f pr W) as W'. pose proof (cq_plain f pr PL) as PL'. pose proof (cq_uniform f pr UN) as UN'. pose proof (cq_leveled f pr LV) as LV'.
  assert (forall d, In d (p_deps (computed f pr)) -> d_rar d = false -> info_ok (computed f pr) d) as INF by (intros; apply computed_info; auto).
  destruct (bands_to_tile_ok (computed f pr) W' PL' UN' INF LV') as (bands & E & G & S). exists bands. split; auto.
  intros sizes SZ bs.
  assert (disjoint_bands bs) as D by (apply sized_disjoint; auto).
  assert (Forall (wf_band (computed f pr)) bs) as WB.
  { unfold bs. rewrite Forall_forall in *. intros x Hx. apply in_map_iff in Hx as (b & <- & Hb). destruct (SZ b Hb). apply good_wf; auto. }
  assert (forall d, In d (p_deps (computed f pr)) -> d_rar d = false -> Forall (fun b => band_safe (computed f pr) b d) bs) as SF.
  { intros d Hd R. unfold bs. rewrite Forall_forall in *. intros x Hx. apply in_map_iff in Hx as (b & <- & Hb). destruct (SZ b Hb). apply good_safe; auto. }
  pose proof (leveled_legal _ W' LV') as LG. pose proof (proj1 W') as WC.
  split; auto. split; auto. split; [apply C25_tiling_legal; auto|].
  intros bs2 SL. apply C25_two_levels_legal; auto. intros s Hs. apply PL'; auto.
Qed.
Print Assumptions C30_tiling_legal.

Example C30_met : wf_levels ex_prog /\ plain_levels ex_prog /\ uniform ex_prog /\ leveled ex_prog /\ exists f, exact_empty f /\
  get_permutable_band (info f ex_prog) (mkPloop 0 [0; 1]%nat) = BandFound (mkPband (mkPloop 0 [0; 1]%nat) 2) /\
  option_map (map show_band) (bands_to_tile (info f ex_prog)) = Some [(0, 2, [0; 1])]%nat.
Proof.
  split; [exact ex_wf_levels|]. split; [exact ex_plain|]. split; [exact ex_uniform|]. split; [exact ex_leveled|].
  destruct C12_oracle_exists as [f F]. exists (dec_empty f). split; [apply dec_empty_exact; auto|]. split; vm_compute; reflexivity.
Qed.

(** *** Schedules for which the statement fails *)

(** for i, j, k with one dependence (i,j,k) -> (i+a, j+1-a, k-1), a in 0..1.  No
    single level orders all its instances, so it counts as unsatisfied and is
    ignored: the band of all three loops is reported. *)
Definition dom3 : cst := mkCst 4 [ge [1;0;0;0]; ge [-1;0;0;9]; ge [0;1;0;0]; ge [0;-1;0;9]; ge [0;0;1;0]; ge [0;0;-1;9]].
Definition loops3 : stmt := mkStmt 3 3 [true;true;true] dom3 (mkMat 4 [[1;0;0;0];[0;1;0;0];[0;0;1;0]]) [H_LOOP;H_LOOP;H_LOOP] 0 0 [] [] None 0 (-1) (-1).
Definition box6 : list row := [ge [1;0;0;0;0;0;0]; ge [0;1;0;0;0;0;0]; ge [0;0;1;0;0;0;0]; ge [0;0;0;-1;0;0;9]; ge [0;0;0;0;-1;0;9]; ge [0;0;0;0;0;-1;9];
  ge [-1;0;0;0;0;0;9]; ge [0;-1;0;0;0;0;9]; ge [0;0;-1;0;0;0;9]; ge [0;0;0;1;0;0;0]; ge [0;0;0;0;1;0;0]; ge [0;0;0;0;0;1;0]].
Definition collective_prog : prog := mkProg 3 0 [loops3]
  [ex_dep 0 0 false (mkCst 7 ([ge [-1;0;0;1;0;0;0]; ge [1;0;0;-1;0;0;1]; eq [-1;-1;0;1;1;0;-1]; eq [0;0;1;0;0;-1;-1]] ++ box6))]
  [H_LOOP; H_LOOP; H_LOOP].

Ltac instance_cases := 
  match goal with
  | I : instance _ _ ?s ?t ?p |- _ =>
      let L1 := fresh in let L2 := fresh in let L3 := fresh in let M := fresh "M" in destruct I as (L1 & L2 & L3 & M);
      destruct p as [|]; [|discriminate]; clear L3;
      repeat (destruct s as [|? s]; try discriminate); repeat (destruct t as [|? t]; try discriminate);
      destruct M as [_ M]; apply Forall_forall in M; cbn in M;
      repeat match goal with M : Forall _ (_ :: _) |- _ => inversion M; clear M; subst end;
      unfold holds, aff in *; cbn -[Z.mul Z.add Z.sub] in *
  end.

Lemma plain_loops pr : (forall s, (s < length (p_stmts pr))%nat -> types_ok (stmt_of pr s)) ->
  (forall s k, (s < length (p_stmts pr))%nat -> (k < length (p_hprops pr))%nat -> loop_level (stmt_of pr s) k = true) -> plain_levels pr /\ uniform pr.
Proof.
  intros TO L. split.
  - intros s Hs. split; auto. intros k Hk E. rewrite L in E by auto. discriminate.
  - intros s t k Hs Ht Hk _. rewrite !L by auto. auto.
Qed.
Lemma loops3_types : types_ok loops3.
Proof.
  intros k Hk. unfold mnrows in Hk. simpl in Hk. destruct k as [|[|[|k]]]; try lia; (split; [discriminate|]; intros H; exfalso).
  specialize (H 0%nat ltac:(simpl; lia)); simpl in H; lia. specialize (H 1%nat ltac:(simpl; lia)); simpl in H; lia. specialize (H 2%nat ltac:(simpl; lia)); simpl in H; lia.
Qed.
Lemma loops3_prog ds : (forall d, In d ds -> d_src d = 0%nat /\ d_dst d = 0%nat /\ wf_cst (d_poly d) /\ ncols (d_poly d) = 7%nat) ->
  let pr := mkProg 3 0 [loops3] ds [H_LOOP; H_LOOP; H_LOOP] in wf_levels pr /\ plain_levels pr /\ uniform pr.
Proof.
  intros H pr. split; [split; [split|]|].
  - intros st [<-|[]]; (split; [|reflexivity]); repeat (split; [first [reflexivity|wf]|]); simpl; tauto.
  - intros d Hd. destruct (H d Hd) as (A & B & C & D). rewrite A, B. split; [simpl; lia|]. split; [simpl; lia|]. split; auto.
  - intros s Hs. destruct s as [|s]; [reflexivity|simpl in Hs; lia].
  - apply plain_loops; intros s; [|intros k]; intros Hs; (destruct s as [|s]; [|simpl in Hs; lia]); [exact loops3_types|].
    intros Hk. simpl in Hk. destruct k as [|[|[|k]]]; [reflexivity|reflexivity|reflexivity|lia].
Qed.

Theorem C30_collective_refuted : exists pr f lp b, exact_empty f /\ wf_levels pr /\ plain_levels pr /\ uniform pr /\ legal pr /\
  In lp (get_all_loops (info f pr)) /\ get_permutable_band (info f pr) lp = BandFound b /\
  (forall s k, In s (l_stmts lp) -> (l_depth lp <= k < l_depth lp + pb_width b)%nat -> loop_level (stmt_of pr s) k = true) /\
  bands_to_tile (info f pr) = Some [b] /\
  (exists d, In d (p_deps pr) /\ d_rar d = false /\ ~ permutable_on pr d (l_depth lp) (l_depth lp + pb_width b)) /\
  ~ legal (tile_scattering_dims (info f pr) [with_sizes (fun _ => [2; 2; 2]) b]).
Proof.
  destruct C12_oracle_exists as [f F].
  exists collective_prog, (dec_empty f), (mkPloop 0 [0%nat]), (mkPband (mkPloop 0 [0%nat]) 3).
  split; [apply dec_empty_exact; auto|].
  destruct (loops3_prog (p_deps collective_prog)) as (A & B & C).
  { intros d [<-|[]]. split; [reflexivity|]. split; [reflexivity|]. split; [wf|reflexivity]. }
  split; [exact A|]. split; [exact B|]. split; [exact C|]. split.
  { intros d [<-|[]] _ s t p I. instance_cases. unfold timestamp, aff; cbn -[Z.mul Z.add Z.sub]. lia. }
  split; [vm_compute; auto|]. split; [vm_compute; reflexivity|]. split.
  { intros s k [<-|[]] Hk. simpl in Hk. destruct k as [|[|[|k]]]; [reflexivity|reflexivity|reflexivity|lia]. }
  split; [vm_compute; reflexivity|]. split.
  { eexists. split; [left; reflexivity|]. split; [reflexivity|]. intros P.
    specialize (P [0;0;2] [0;1;1] []). assert (instance collective_prog (ex_dep 0 0 false (mkCst 7 ([ge [-1;0;0;1;0;0;0]; ge [1;0;0;-1;0;0;1]; eq [-1;-1;0;1;1;0;-1]; eq [0;0;1;0;0;-1;-1]] ++ box6))) [0;0;2] [0;1;1] []) as I.
    { split; [reflexivity|]. split; [reflexivity|]. split; [reflexivity|]. inset. }
    specialize (P I ltac:(simpl; intros; lia) 2%nat ltac:(simpl; lia)). vm_compute in P. auto. }
  intros L. remember (tile_scattering_dims (info (dec_empty f) collective_prog) [with_sizes (fun _ => [2; 2; 2]) (mkPband (mkPloop 0 [0%nat]) 3)]) as q eqn:Q.
  vm_compute in Q.
  set (d := nth 0 (p_deps q) (ex_dep 0 0 false (mkCst 1 []))).
  assert (In d (p_deps q)) as Hd by (subst q; vm_compute; left; reflexivity).
  assert (d_rar d = false) as R by (subst q; vm_compute; reflexivity).
  specialize (L d Hd R [0;0;1;0;0;2] [0;0;0;0;1;1] []).
  assert (instance q d [0;0;1;0;0;2] [0;0;0;0;1;1] []) as I by
    (subst q; split; [vm_compute; reflexivity|split; [vm_compute; reflexivity|split; [vm_compute; reflexivity|inset]]]).
  specialize (L I).
  assert (timestamp (stmt_of q (d_src d)) [0;0;1;0;0;2] [] = [0;0;1;0;0;2]) as E1 by (subst q; vm_compute; reflexivity).
  assert (timestamp (stmt_of q (d_dst d)) [0;0;0;0;1;1] [] = [0;0;0;0;1;1]) as E2 by (subst q; vm_compute; reflexivity).
  rewrite E1, E2 in L. simpl in L. lia.
Qed.
Print Assumptions C30_collective_refuted.

(** for i, j with S0; S1 in the body and a dependence S0 (i,j) -> S1 (i+a, j-a), a
    in 0..1.  It is satisfied by the constant level, so it does not stop the
    band, although this level comes after the loops. *)
Definition two_dom : cst := mkCst 3 [ge [1;0;0]; ge [-1;0;9]; ge [0;1;0]; ge [0;-1;9]].
Definition two_stmt (c : Z) : stmt := mkStmt 2 2 [true;true] two_dom (mkMat 3 [[1;0;0];[0;1;0];[0;0;c]]) [H_LOOP;H_LOOP;H_SCALAR] 0 0 [] [] None 0 (-1) (-1).
Definition after_prog : prog := mkProg 2 0 [two_stmt 0; two_stmt 1]
  [ex_dep 0 1 false (mkCst 5 [ge [-1;0;1;0;0]; ge [1;0;-1;0;1]; eq [-1;-1;1;1;0]; ge [1;0;0;0;0]; ge [0;1;0;0;0]; ge [0;0;-1;0;9]; ge [0;0;0;1;0]; ge [-1;0;0;0;9]; ge [0;-1;0;0;9]])]
  [H_LOOP; H_LOOP; H_SCALAR].

Theorem C30_scalar_after_refuted : exists pr f lp b, exact_empty f /\ wf_levels pr /\ plain_levels pr /\ uniform pr /\ legal pr /\
  (forall d, In d (p_deps pr) -> exists k, (k < length (p_hprops pr))%nat /\ strict_at pr d k) /\
  In lp (get_all_loops (info f pr)) /\ get_permutable_band (info f pr) lp = BandFound b /\
  (forall s k, In s (l_stmts lp) -> (l_depth lp <= k < l_depth lp + pb_width b)%nat -> loop_level (stmt_of pr s) k = true) /\
  bands_to_tile (info f pr) = Some [b] /\
  (exists d, In d (p_deps pr) /\ d_rar d = false /\ ~ permutable_on pr d (l_depth lp) (l_depth lp + pb_width b)) /\
  ~ legal (tile_scattering_dims (info f pr) [with_sizes (fun _ => [2; 2]) b]).
Proof.
  destruct C12_oracle_exists as [f F].
  exists after_prog, (dec_empty f), (mkPloop 0 [0; 1]%nat), (mkPband (mkPloop 0 [0; 1]%nat) 2).
  split; [apply dec_empty_exact; auto|]. split; [|split; [|split; [|split; [|split]]]].
  - split; [split|].
    + intros st [<-|[<-|[]]]; (split; [|reflexivity]); repeat (split; [first [reflexivity|wf]|]); simpl; tauto.
    + intros d [<-|[]]; (split; [simpl; lia|split; [simpl; lia|split; [wf|reflexivity]]]).
    + intros s Hs. destruct s as [|[|s]]; [reflexivity|reflexivity|simpl in Hs; lia].
  - intros s Hs. destruct s as [|[|s]]; [| |simpl in Hs; lia]; split.
    1,3: intros k Hk; unfold mnrows in Hk; simpl in Hk; destruct k as [|[|[|k]]]; try lia;
        (split; [try discriminate; intros _ [|[|j]]; simpl; auto; lia|intros H; try reflexivity; exfalso]);
        first [specialize (H 0%nat ltac:(simpl; lia)); simpl in H; lia|specialize (H 1%nat ltac:(simpl; lia)); simpl in H; lia].
    all: intros k Hk L; destruct k as [|[|[|k]]]; try discriminate; try (simpl in Hk; lia); intros i i' p p' Li Li' Lp Lp';
        destruct i as [|i1 [|i2 [|]]], i' as [|i1' [|i2' [|]]], p as [|], p' as [|]; try discriminate; unfold theta, aff; cbn -[Z.mul]; lia.
  - intros s t k Hs Ht Hk _. destruct s as [|[|s]], t as [|[|t]]; try (simpl in Hs, Ht; lia); destruct k as [|[|[|k]]]; try reflexivity; simpl in Hk; lia.
  - intros d [<-|[]] _ s t p I. instance_cases. unfold timestamp, aff; cbn -[Z.mul Z.add Z.sub]. lia.
  - intros d [<-|[]]. exists 2%nat. split; [simpl; lia|]. intros s t p I. instance_cases. unfold distance, theta, aff; cbn -[Z.mul Z.add Z.sub]. lia.
  - split; [vm_compute; auto|]. split; [vm_compute; reflexivity|]. split.
    { intros s k [<-|[<-|[]]] Hk; simpl in Hk; (destruct k as [|[|k]]; [reflexivity|reflexivity|lia]). }
    split; [vm_compute; reflexivity|]. split.
    { eexists. split; [left; reflexivity|]. split; [reflexivity|]. intros P. specialize (P [0;1] [1;0] []).
      match type of P with instance ?q ?d ?a ?b ?c -> _ => assert (instance q d a b c) as I end.
      { split; [reflexivity|]. split; [reflexivity|]. split; [reflexivity|]. inset. }
      specialize (P I ltac:(simpl; intros; lia) 1%nat ltac:(simpl; lia)). vm_compute in P. auto. }
    intros L. remember (tile_scattering_dims (info (dec_empty f) after_prog) [with_sizes (fun _ => [2; 2]) (mkPband (mkPloop 0 [0; 1]%nat) 2)]) as q eqn:Q.
    vm_compute in Q.
    set (d := nth 0 (p_deps q) (ex_dep 0 0 false (mkCst 1 []))).
    assert (In d (p_deps q)) as Hd by (subst q; vm_compute; left; reflexivity).
    assert (d_rar d = false) as R by (subst q; vm_compute; reflexivity).
    specialize (L d Hd R [0;1;0;2] [0;0;1;1] []).
    assert (instance q d [0;1;0;2] [0;0;1;1] []) as I by
      (subst q; split; [vm_compute; reflexivity|split; [vm_compute; reflexivity|split; [vm_compute; reflexivity|inset]]]).
    specialize (L I).
    assert (timestamp (stmt_of q (d_src d)) [0;1;0;2] [] = [0;1;0;2;0]) as E1 by (subst q; vm_compute; reflexivity).
    assert (timestamp (stmt_of q (d_dst d)) [0;0;1;1] [] = [0;0;1;1;1]) as E2 by (subst q; vm_compute; reflexivity).
    rewrite E1, E2 in L. simpl in L. lia.
Qed.
Print Assumptions C30_scalar_after_refuted.

(** for i, j, k with the dependence (i,j,k) -> (i+a, j+1-2a, k+1), a in 0..1: legal
    and satisfied at level 2; the band of the loop j has no level and the
    assertion in pluto_is_depth_scalar fails. *)
Definition abort_prog : prog := mkProg 3 0 [loops3]
  [ex_dep 0 0 false (mkCst 7 ([ge [-1;0;0;1;0;0;0]; ge [1;0;0;-1;0;0;1]; eq [-2;-1;0;2;1;0;-1]; eq [0;0;-1;0;0;1;-1]] ++ box6))]
  [H_LOOP; H_LOOP; H_LOOP].
Theorem C30_abort_refuted : exists pr f lp, exact_empty f /\ wf_levels pr /\ plain_levels pr /\ uniform pr /\ legal pr /\
  (forall d, In d (p_deps pr) -> exists k, (k < length (p_hprops pr))%nat /\ strict_at pr d k) /\
  In lp (get_all_loops (info f pr)) /\ get_permutable_band (info f pr) lp = BandAbort /\ bands_to_tile (info f pr) = None.
Proof.
  destruct C12_oracle_exists as [f F].
  exists abort_prog, (dec_empty f), (mkPloop 1 [0%nat]).
  split; [apply dec_empty_exact; auto|].
  destruct (loops3_prog (p_deps abort_prog)) as (A & B & C).
  { intros d [<-|[]]. split; [reflexivity|]. split; [reflexivity|]. split; [wf|reflexivity]. }
  split; [exact A|]. split; [exact B|]. split; [exact C|]. split; [|split].
  - intros d [<-|[]] _ s t p I. instance_cases. unfold timestamp, aff; cbn -[Z.mul Z.add Z.sub]. lia.
  - intros d [<-|[]]. exists 2%nat. split; [simpl; lia|]. intros s t p I. instance_cases. unfold distance, theta, aff; cbn -[Z.mul Z.add Z.sub]. lia.
  - split; [vm_compute; auto|]. split; vm_compute; reflexivity.
Qed.
Print Assumptions C30_abort_refuted.

(** ** C55.  Dominating loops and bands *)

(** No returned band lies inside of another returned band, and every given band is
    returned or lies inside of a returned one. *)
Theorem C55_dominator_bands : forall bands,
  let inside b1 b2 := (forall s, In s (l_stmts (pb_loop b1)) -> In s (l_stmts (pb_loop b2))) /\
    ((l_depth (pb_loop b2) < l_depth (pb_loop b1))%nat \/
     (l_depth (pb_loop b1) = l_depth (pb_loop b2) /\ (pb_width b1 < pb_width b2)%nat)) in
  (forall b1 b2, In b1 (get_dominator_bands bands) -> In b2 (get_dominator_bands bands) -> ~ inside b1 b2) /\
  (forall b, In b bands -> exists r, In r (get_dominator_bands bands) /\ (b = r \/ inside b r)) /\
  (forall b, In b (get_dominator_bands bands) -> In b bands).
Proof. exact dominator_bands_ok. Qed.
Print Assumptions C55_dominator_bands.

Theorem C55_dominating_loops : forall f pr, wf_levels pr -> plain_levels pr -> uniform pr ->
  let inside l1 l2 := (l_depth l2 < l_depth l1)%nat /\ forall s, In s (l_stmts l1) -> In s (l_stmts l2) in
  let q := info f pr in
  (forall l1 l2, In l1 (get_dom_parallel_loops q) -> In l2 (get_dom_parallel_loops q) -> ~ inside l1 l2) /\
  (forall lp, In lp (get_all_loops q) -> loop_is_parallel q lp = true ->
     exists r, In r (get_dom_parallel_loops q) /\ (lp = r \/ inside lp r)) /\
  (forall lp, In lp (get_dom_parallel_loops q) -> In lp (get_all_loops q) /\ loop_is_parallel q lp = true) /\
  (forall l1 l2, In l1 (get_outermost_loops q) -> In l2 (get_outermost_loops q) -> ~ inside l1 l2) /\
  (forall lp, In lp (get_all_loops q) -> exists r, In r (get_outermost_loops q) /\ (lp = r \/ inside lp r)) /\
  (forall lp, In lp (get_outermost_loops q) -> In lp (get_all_loops q)).
Proof.
  intros f pr W PL UN inside q.
  pose proof (cq_wf f pr W) as W'. pose proof (cq_plain f pr PL) as PL'. pose proof (cq_uniform f pr UN) as UN'.
  destruct (not_dominated_ok q W' PL' UN' (get_parallel_loops q)) as (A & B & C).
  { intros lp H. apply filter_In in H. tauto. }
  destruct (not_dominated_ok q W' PL' UN' (get_all_loops q)) as (D & E & G). { auto. }
  split; [exact A|]. split.
  { intros lp H P. apply B. apply filter_In. auto. }
  split.
  { intros lp H. apply C in H. apply filter_In in H. auto. }
  split; [exact D|]. split; [exact E|exact G].
Qed.
Print Assumptions C55_dominating_loops.

(** When a level is a loop of one statement and a constant of a fused one, a loop
    can be dropped for a loop that does not contain it. *)
Definition drop_a : stmt := mkStmt 1 1 [true] (mkCst 2 [ge [1;0]; ge [-1;9]]) (mkMat 2 [[0;5];[1;0];[0;0]]) [H_SCALAR;H_LOOP;H_SCALAR] 0 0 [] [] None 0 (-1) (-1).
Definition drop_b : stmt := mkStmt 2 2 [true;true] two_dom (mkMat 3 [[1;0;0];[0;0;0];[0;1;0]]) [H_LOOP;H_SCALAR;H_LOOP] 0 0 [] [] None 0 (-1) (-1).
Definition drop_prog : prog := mkProg 2 0 [drop_a; drop_b]
  [ex_dep 1 1 false (mkCst 5 [eq [1;0;-1;0;1]; eq [0;1;0;-1;0]; ge [1;0;0;0;0]; ge [-1;0;0;0;8]; ge [0;1;0;0;0]; ge [0;-1;0;0;9]])]
  [H_LOOP; H_LOOP; H_LOOP].
Theorem C55_mixed_levels_refuted : exists pr f lp, exact_empty f /\ wf_levels pr /\ plain_levels pr /\ legal pr /\
  In lp (get_all_loops (info f pr)) /\ loop_is_parallel (info f pr) lp = true /\
  forall r, In r (get_dom_parallel_loops (info f pr)) -> forall s, In s (l_stmts lp) -> ~ In s (l_stmts r).
Proof.
  destruct C12_oracle_exists as [f F].
  exists drop_prog, (dec_empty f), (mkPloop 2 [1%nat]).
  split; [apply dec_empty_exact; auto|]. split; [|split; [|split]].
  - split; [split|].
    + intros st [<-|[<-|[]]]; (split; [|reflexivity]); repeat (split; [first [reflexivity|wf]|]); simpl; tauto.
    + intros d [<-|[]]; (split; [simpl; lia|split; [simpl; lia|split; [wf|reflexivity]]]).
    + intros s Hs. destruct s as [|[|s]]; [reflexivity|reflexivity|simpl in Hs; lia].
  - intros s Hs. destruct s as [|[|s]]; [| |simpl in Hs; lia]; split.
    1,3: intros k Hk; unfold mnrows in Hk; simpl in Hk; destruct k as [|[|[|k]]]; try lia;
        (split; [try discriminate; intros _ [|[|j]]; simpl; auto; lia|intros H; try reflexivity; exfalso]);
        first [specialize (H 0%nat ltac:(simpl; lia)); simpl in H; lia|specialize (H 1%nat ltac:(simpl; lia)); simpl in H; lia].
    all: intros k Hk L; destruct k as [|[|[|k]]]; try discriminate; try (simpl in Hk; lia); intros i i' p p' Li Li' Lp Lp';
        destruct i as [|i1 [|i2 [|]]], i' as [|i1' [|i2' [|]]], p as [|], p' as [|]; try discriminate; unfold theta, aff; cbn -[Z.mul]; lia.
  - intros d [<-|[]] _ s t p I. instance_cases. unfold timestamp, aff; cbn -[Z.mul Z.add Z.sub]. lia.
  - split; [vm_compute; auto|]. split; [vm_compute; reflexivity|].
    assert (map show_loop (get_dom_parallel_loops (info (dec_empty f) drop_prog)) = [(1, [0])]%nat) as E by (vm_compute; reflexivity).
    intros r Hr s [<-|[]] S. apply (in_map show_loop) in Hr. rewrite E in Hr. destruct Hr as [Hr|[]]. unfold show_loop in Hr. injection Hr as _ Hr.
    rewrite <- Hr in S. destruct S as [S|[]]. discriminate.
Qed.
Print Assumptions C55_mixed_levels_refuted.

Example C55_met : wf_levels par_prog /\ plain_levels par_prog /\ uniform par_prog /\ exists f,
  exact_empty f /\
  map show_loop (get_dom_parallel_loops (info f par_prog)) = [(0, [0])]%nat /\
  map show_loop (get_outermost_loops (info f ex_prog)) = [(0, [0; 1])]%nat /\
  map show_band (get_dominator_bands [mkPband (mkPloop 1 [0; 1]%nat) 2; mkPband (mkPloop 0 [1; 0; 2]%nat) 2; mkPband (mkPloop 1 [2; 3]%nat) 2]) =
    [(0, 2, [1; 0; 2]); (1, 2, [2; 3])]%nat.
Proof.
  split; [exact (proj1 C29_met)|]. destruct (plain_loops par_prog) as [A B].
  - intros s Hs. destruct s as [|s]; [|simpl in Hs; lia]. intros k Hk; unfold mnrows in Hk; simpl in Hk; destruct k as [|[|k]]; try lia; (split; [discriminate|intros H; exfalso]).
    specialize (H 0%nat ltac:(simpl; lia)); simpl in H; lia. specialize (H 1%nat ltac:(simpl; lia)); simpl in H; lia.
  - intros s k Hs Hk. destruct s as [|s]; [|simpl in Hs; lia]. destruct k as [|[|k]]; [reflexivity|reflexivity|simpl in Hk; lia].
  - split; [exact A|]. split; [exact B|]. destruct C12_oracle_exists as [f F]. exists (dec_empty f).
    split; [apply dec_empty_exact; auto|]. split; [|split]; vm_compute; reflexivity.
Qed.
