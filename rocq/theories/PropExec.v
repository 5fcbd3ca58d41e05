(** * Theorems: the transformed program computes the same result (C74). *)
From Coq Require Import ZArith List Bool Permutation Lia.
From Verif Require Import SpecLinear SpecMatrix MathModel ConstraintsModel VecProofs EditProofs MatrixProofs SpecProg SpecDriver SpecTile SpecLoop SpecIntra SpecFlow
  SpecExec ExecProofs ExecProofs2 RankProofs SumProofs FrameworkModel ProgModel DepProofs SimplifyProofs LexProofs ProgProofs DriverModel DriverProofs AutoProofs GrowProofs AutoProofs2
  TileModel TileProofs LoopModel LoopProofs LoopProofs2 LoopProofs4 WaveProofs FlowProofs IntraModel
  Checkers ExProg PropFramework PropDriver PropAuto PropTile PropLoop PropWave PropIntra PropFlow.
Import ListNotations.
Open Scope Z_scope.

(** C74.  [r] is a correct transformation of [pr] and the dependences of [pr]
    order all conflicting instances.  Then running the instances of [r] in any
    order that follows its timestamps leaves the same value in every memory cell
    as running [pr] in its original order, whatever the statements compute. *)
Theorem C74_same_result : forall pr r, correct_transformation pr r ->
  exists E, carries pr r E /\
  forall V p ra wa (body body' : nat -> point -> list V -> list V) orig new m,
    length p = p_npar pr ->
    (forall s i, runs pr p (s, i) -> body' s (E s i p) = body s i) ->
    all_instances pr p orig -> deps_cover pr ra wa p orig ->
    all_instances r p new -> follows_times r p new ->
    forall c, run (step_of r ra wa body' p) new m c = run (step_of pr ra wa body p) orig m c.
Proof.
  intros pr r (E & C & _ & L). exists E. split; [exact C|].
  intros V p ra wa body body' orig new m LP B A DC A' F.
  apply carried_run with (E := E); auto.
  intros x y Bf K. pose proof (DC x y Bf K) as D.
  destruct (before_in _ _ _ Bf) as [Ix Iy].
  apply F; try (apply (proj2 A'), (moved_runs pr r E p C LP), (proj2 A); assumption).
  clear - D L. induction D as [d s t I R J X Y|x y z _ IH1 _ IH2].
  - apply (L d I R s t p J).
  - eapply lexlt_trans; eauto.
Qed.
Print Assumptions C74_same_result.

(** The same with parallel loops: the iterations of the levels marked parallel
    may run in any order. *)
Theorem C74_parallel : forall pr r, correct_transformation pr r ->
  exists E, carries pr r E /\
  forall V p ra wa (body body' : nat -> point -> list V -> list V) orig new m marks,
    length p = p_npar pr ->
    (forall s i, runs pr p (s, i) -> body' s (E s i p) = body s i) ->
    all_instances pr p orig -> deps_cover pr ra wa p orig ->
    (forall ls k, In (ls, k) marks -> parallel_level r ls k) ->
    all_instances r p new -> follows_times_parallel r p marks new ->
    forall c, run (step_of r ra wa body' p) new m c = run (step_of pr ra wa body p) orig m c.
Proof.
  intros pr r (E & C & _ & L). exists E. split; [exact C|].
  intros V p ra wa body body' orig new m marks LP B A DC PM A' F.
  apply carried_run with (E := E); auto.
  intros x y Bf K. pose proof (DC x y Bf K) as D. clear Bf K.
  induction D as [d s t I R J X Y|x y z _ IH1 _ IH2].
  - apply F; try (apply (proj2 A'), (moved_runs pr r E p C LP); assumption).
    + apply (L d I R s t p J).
    + intros ls k Im. destruct C as (_ & _ & _ & _ & F2).
      destruct (In_nth _ _ d I) as (n & Ln & En). 
      assert (G : exists d', In d' (p_deps r) /\ d_src d' = d_src d /\ d_dst d' = d_dst d /\ d_rar d' = d_rar d /\
        forall s t p, instance pr d s t p -> instance r d' (E (d_src d) s p) (E (d_dst d) t p) p).
      { clear - F2 I. induction F2 as [|a b l l' (H1 & H2 & H3 & H4) F2 IH]; [easy|].
        destruct I as [->|I]; [exists b; split; [now left|auto]|].
        destruct (IH I) as (d' & I' & H). exists d'. split; [now right|exact H]. }
      destruct G as (d' & I' & E1 & E2 & E3 & G).
      apply (not_concurrent r p ls k d'); auto; cbn; try congruence.
      now apply G.
  - eapply before_trans; [apply (proj1 A')|exact IH1|exact IH2].
Qed.
Print Assumptions C74_parallel.

(** The whole tool: search, tiling, wavefronts and moving loops inside tiles
    (conditions as in C66_end_to_end_partial), the iterations of any of the loops
    found parallel running in any order: same memory as the input program.  What
    is missing is what is missing in C66_end_to_end_partial. *)
Theorem C74_tool_partial : forall is_emptyb isl_emptyb kernel solve o fuse fuel pr s q,
  exact_empty is_emptyb -> solver_sound solve -> kernel_ok kernel -> kernel_complete kernel ->
  input_ok pr -> p_stmts pr <> [] -> (forall st, In st (p_stmts pr) -> s_dim st = p_nvar pr) ->
  auto_search is_emptyb isl_emptyb kernel solve o fuse fuel pr = Some (Continue s EAGER) ->
  auto_transform is_emptyb isl_emptyb kernel solve o fuse fuel pr = Some (0, q) ->
  forall score tile po sizes sizes2, o_innerpar po = false ->
  (tile = true -> forall bands, bands_to_tile (info is_emptyb q) = Some bands -> sizes_ok bands sizes sizes2) ->
  (o_parallel po = true -> forall bands b s k, wavefront_bands is_emptyb score tile po q = Some bands -> In b bands -> In s (l_stmts (pb_loop b)) ->
     (l_depth (pb_loop b) <= k < l_depth (pb_loop b) + pb_width b)%nat -> loop_level (stmt_of q s) k = true) ->
  exists r E, post_transform is_emptyb score sizes sizes2 tile po q = Some r /\ carries pr r E /\
  forall V p ra wa (body body' : nat -> point -> list V -> list V) orig new m lps,
    length p = p_npar pr ->
    (forall s i, runs pr p (s, i) -> body' s (E s i p) = body s i) ->
    all_instances pr p orig -> deps_cover pr ra wa p orig ->
    (forall lp, In lp lps -> In lp (get_all_loops r) /\ loop_is_parallel r lp = true) ->
    all_instances r p new -> follows_times_parallel r p (map (fun lp => (l_stmts lp, l_depth lp)) lps) new ->
    forall c, run (step_of r ra wa body' p) new m c = run (step_of pr ra wa body p) orig m c.
Proof.
  intros is_emptyb isl_emptyb kernel solve o fuse fuel pr s q EX SOL KO KC IN NE D H Q score tile po sizes sizes2 IP SZ AL.
  destruct (C66_end_to_end_partial is_emptyb isl_emptyb kernel solve o fuse fuel pr s q EX SOL KO KC IN NE D H Q score tile po sizes sizes2 IP SZ AL)
    as (r & R & CT & PL).
  destruct (C74_parallel pr r CT) as (E & C & X). exists r, E. split; [exact R|]. split; [exact C|].
  intros V p ra wa body body' orig new m lps LP B A DC LPS A' F.
  apply (X V p ra wa body body' orig new m (map (fun lp => (l_stmts lp, l_depth lp)) lps)); auto.
  intros ls k I. apply in_map_iff in I. destruct I as (lp & E1 & I). injection E1 as <- <-.
  destruct (LPS lp I). now apply PL.
Qed.
Print Assumptions C74_tool_partial.

(** for i = 0..2 { S0: a[i] = f(a[i-1]); S1: b[i] = g(a[i]) } and the program that
    runs all of S0 first and then the iterations of S1 in parallel. *)
Definition run_dom : cst := mkCst 2 [ge [1;0]; ge [-1;2]].
Definition run_stmt (tr : list (list Z)) (rd wr : list Z) : stmt :=
  mkStmt 1 1 [true] run_dom (mkMat 2 tr) [H_LOOP;H_SCALAR] 0 0 [mkMat 2 [rd]] [mkMat 2 [wr]] None 0 (-1) (-1).
Definition run_deps : list dep :=
  [ex_dep 0 0 false (mkCst 3 [eq [1;-1;1]; ge [1;0;0]; ge [0;-1;2]]); ex_dep 0 1 false (mkCst 3 [eq [1;-1;0]; ge [1;0;0]; ge [-1;0;2]])].
Definition run_prog : prog := mkProg 1 0 [run_stmt [[1;0];[0;0]] [1;-1] [1;0]; run_stmt [[1;0];[0;1]] [1;0] [1;0]] run_deps [H_LOOP; H_SCALAR].
Definition run_split : prog := mkProg 1 0 [run_stmt [[0;0];[1;0]] [1;-1] [1;0]; run_stmt [[0;1];[1;0]] [1;0] [1;0]] run_deps [H_SCALAR; H_LOOP].
Definition run_orig : list inst := [(0%nat,[0]); (1%nat,[0]); (0%nat,[1]); (1%nat,[1]); (0%nat,[2]); (1%nat,[2])].
Definition run_new : list inst := [(0%nat,[0]); (0%nat,[1]); (0%nat,[2]); (1%nat,[2]); (1%nat,[0]); (1%nat,[1])].

Fixpoint pairs {A} (l : list A) : list (A * A) :=
  match l with [] => [] | x :: l' => map (pair x) l' ++ pairs l' end.
Lemma before_pairs {A} (l : list A) x y : before l x y <-> In (x, y) (pairs l).
Proof.
  induction l as [|a l IH]; cbn.
  - split; [intros (u & v & w & E); destruct u; discriminate|intros []].
  - rewrite in_app_iff, <- IH. split.
    + intros (u & v & w & E). destruct u as [|b u]; cbn in E; injection E as -> E.
      * left. apply in_map. rewrite E. apply in_app_iff. right. now left.
      * right. now exists u, v, w.
    + intros [I|B]; [|now apply before_cons].
      apply in_map_iff in I. destruct I as (z & Ez & I). injection Ez as -> ->. apply in_split in I. destruct I as (v & w & ->).
      now exists [], v, w.
Qed.

Lemma run_iterations (st : stmt) i : s_dim st = 1%nat -> s_domain st = run_dom -> iteration st i [] <-> i = [0] \/ i = [1] \/ i = [2].
Proof.
  intros D DM. unfold iteration. rewrite D, DM. split.
  - intros [L M]. destruct i as [|a [|b i]]; try discriminate. destruct M as [_ M].
    pose proof (M _ (or_introl eq_refl)) as M1. pose proof (M _ (or_intror (or_introl eq_refl))) as M2.
    unfold holds, aff in M1, M2. cbn -[Z.mul Z.add] in M1, M2.
    assert (H : a = 0 \/ a = 1 \/ a = 2) by lia. destruct H as [->|[->| ->]]; auto.
  - intros [->|[->| ->]]; (split; [reflexivity|inset]).
Qed.

Lemma run_all (pr : prog) l : p_stmts pr = p_stmts run_prog \/ p_stmts pr = p_stmts run_split -> Permutation run_orig l -> all_instances pr [] l.
Proof.
  intros S P. split.
  - apply (Permutation_NoDup P). repeat constructor; cbn; intuition discriminate.
  - intros x. assert (R : runs pr [] x <-> In x run_orig).
    { destruct x as [s i]. unfold runs. cbn [fst snd].
      assert (L : length (p_stmts pr) = 2%nat) by (destruct S as [-> | ->]; reflexivity). rewrite L.
      assert (ST : (s < 2)%nat -> s_dim (stmt_of pr s) = 1%nat /\ s_domain (stmt_of pr s) = run_dom).
      { intros Hs. unfold stmt_of. destruct S as [-> | ->]; destruct s as [|[|s]]; try lia; split; reflexivity. }
      split.
      - intros [Hs I]. destruct (ST Hs) as [D DM]. apply run_iterations in I; auto.
        destruct s as [|[|s]]; try lia; destruct I as [->|[->| ->]]; cbn; tauto.
      - intros I. cbn in I. assert (Hs : (s < 2)%nat) by (decompose [or] I; try contradiction; match goal with H : _ = (s, i) |- _ => injection H as <- <- end; lia).
        split; auto. destruct (ST Hs) as [D DM]. apply run_iterations; auto. decompose [or] I; try contradiction; match goal with H : _ = (s, i) |- _ => injection H as <- <- end; auto. }
    rewrite R. split; apply Permutation_in; [now apply Permutation_sym|exact P].
Qed.

Lemma run_correct : correct_transformation run_prog run_split.
Proof.
  exists (fun _ i _ => i). split; [|split].
  - split; [reflexivity|]. split; [reflexivity|]. split; [|split].
    + intros s p Hs Hp. split; [|split; [intros i; exists []; reflexivity|split]]; auto.
      * intros x. cbn in Hs. destruct s as [|[|s]]; try lia; (split; [intros I; exists x; auto|intros (i & I & ->); auto]).
      * intros i _. cbn in Hs. destruct s as [|[|s]]; try lia; split; reflexivity.
    + intros s Hs. cbn in Hs. destruct s as [|[|s]]; try lia; (split; [reflexivity|cbn; lia]).
    + constructor; [|constructor; [|constructor]]; (split; [reflexivity|split; [reflexivity|split; [reflexivity|intros s t p I; exact I]]]).
  - intros s i j p Hs Hp I J T. cbn in Hs, Hp. destruct p; [|discriminate].
    destruct s as [|[|s]]; try lia; apply run_iterations in I, J; auto;
      destruct I as [->|[->| ->]], J as [->|[->| ->]]; auto; discriminate.
  - intros d [<-|[<-|[]]] _ s t p I; instance_cases; unfold timestamp, aff; cbn -[Z.mul Z.add Z.sub]; lia.
Qed.

Lemma run_cover : deps_cover run_prog (fun _ => [7%nat]) (fun s => [(7 + s)%nat]) [] run_orig.
Proof.
  intros x y Bf K. apply before_pairs in Bf. cbn in Bf.
  decompose [or] Bf; clear Bf; try contradiction; match goal with H : _ = (x, y) |- _ => injection H as <- <- end;
    first [ exfalso; destruct K as (l & K); vm_compute in K; decompose [or and] K; try contradiction; congruence
          | match goal with |- depends _ _ (?s, ?i) (?t, ?j) =>
              apply (depends_one run_prog [] (nth t run_deps (ex_dep 0 0 false run_dom)) i j);
              [cbn; tauto | reflexivity | split; [reflexivity|split; [reflexivity|split; [reflexivity|inset]]] |
               split; [cbn; lia|apply run_iterations; auto] | split; [cbn; lia|apply run_iterations; auto]] end ].
Qed.

Example C74_met : correct_transformation run_prog run_split /\
  all_instances run_prog [] run_orig /\ all_instances run_split [] run_new /\
  deps_cover run_prog (fun _ => [7%nat]) (fun s => [(7 + s)%nat]) [] run_orig /\
  parallel_level run_split [1%nat] 1 /\ follows_times_parallel run_split [] [([1%nat], 1%nat)] run_new /\
  ~ follows_times run_split [] run_new.
Proof.
  split; [apply run_correct|]. split; [apply run_all; auto|].
  split. { apply run_all; [auto|]. apply NoDup_Permutation; try (repeat constructor; cbn; intuition discriminate). intros x. cbn. tauto. }
  split; [apply run_cover|].
  split. { intros d [<-|[<-|[]]] _; cbn; intros A B; exfalso; destruct A as [A|[]]; discriminate. }
  split.
  - intros x y Ix Iy L NC. apply before_pairs. specialize (NC _ _ (or_introl eq_refl)).
    cbn in Ix, Iy. decompose [or] Ix; clear Ix; try contradiction; subst; decompose [or] Iy; clear Iy; try contradiction; subst;
      first [ cbn; tauto | exfalso; vm_compute in L; decompose [or and] L; congruence
            | exfalso; apply NC; split; [cbn; auto|split; [cbn; auto|split; [reflexivity|vm_compute; discriminate]]] ].
  - intros F. assert (B : before run_new (1%nat,[1]) (1%nat,[2])).
    { apply F; [cbn; tauto|cbn; tauto|]. vm_compute. right. split; auto. }
    apply before_pairs in B. cbn in B. decompose [or] B; try contradiction; discriminate.
Qed.
