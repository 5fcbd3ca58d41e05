(** * C97: which components count as stencils. *)
From Coq Require Import ZArith QArith List Bool Lia Lqa Arith Classical ClassicalDescription.
From Verif Require Import SpecLinear SpecMatrix VecProofs MathModel ConstraintsModel FrameworkModel FrameworkProofs SpecProg SpecTile SpecDriver SpecCone SpecCc SpecStencil
  ProgModel DriverModel DriverProofs HypProofs PadProofs AutoProofs LoopModel ConeModel ConeProofs StencilModel StencilProofs StencilProofs2 DepProofs ProgProofs
  Checkers ExProg PropFramework PropAuto PropCone PropDfp PropCc.
Import ListNotations.
Open Scope Z_scope.

(** Given the face found, the answer is exact: yes if and only if there are
    hyperplanes off the face along which dependent iterations are at most 10 apart,
    but none along which they are not apart at all. *)
Theorem C97_iff : forall solve lexmin o pr scc faces f,
  lexmin_exact lexmin -> wf_prog pr -> padded pr -> o_nodepbound o = false ->
  (forall d, scc_dep pr scc d -> exists y, qmem (d_bpoly d) y) -> (exists d, scc_dep pr scc d) ->
  scc_face solve o scc pr = Some faces -> mrows faces = map f (scc_stmts pr scc) ->
  (is_scc_stencil solve lexmin o scc pr = Some true <-> stencil pr scc f) /\
  (is_scc_stencil solve lexmin o scc pr = Some false <-> ~ stencil pr scc f).
Proof.
  intros solve lexmin o pr scc faces f LM W P ND NE [d0 Hd0] F E. unfold is_scc_stencil. rewrite F, ND, E.
  assert (scc_deps pr scc <> []) as DE by (apply scc_deps_in in Hd0; intros X; rewrite X in Hd0; contradiction).
  destruct (scc_bound_spec pr scc DE) as (b & Eb & _). destruct (scc_lower_spec pr scc DE) as (l & El & _). rewrite Eb, El.
  pose proof (sys_iff pr scc f b l W P NE DE Eb El lexmin LM) as I.
  destruct (lexmin _) as [sol|].
  - assert (stencil pr scc f <-> nth (p_npar pr) sol 0 <> 0) as ->.
    { rewrite <- I. split; [intros (x & X & N); injection X as <-; auto|eauto]. }
    destruct (Z.eqb_spec (nth (p_npar pr) sol 0) 0) as [Z0|Z0]; cbn [negb]; split; split; intros H; try discriminate; try tauto; reflexivity.
  - assert (~ stencil pr scc f) as N. { intros H. apply I in H as (x & X & _). discriminate. }
    split; split; intros H; try discriminate; try tauto; reflexivity.
Qed.
Print Assumptions C97_iff.

(** A component that is called a stencil has a face: every statement has one loop
    such that these loops run dependent iterations strictly one after the other;
    and seen from it the component is a stencil. *)
Theorem C97_stencil : forall solve lexmin o pr scc,
  solver_sound solve -> lexmin_exact lexmin -> wf_prog pr -> padded pr -> orig_first pr ->
  (forall d, scc_dep pr scc d -> exists y, qmem (d_bpoly d) y) ->
  is_scc_stencil solve lexmin o scc pr = Some true ->
  exists f, (forall s, in_scc pr scc s -> one_loop (p_nvar pr) (f s)) /\
    (forall d, scc_dep pr scc d -> hyps_strict pr f d) /\ stencil pr scc f.
Proof.
  intros solve lexmin o pr scc SOL LM W P O NE E. pose proof E as E'. unfold is_scc_stencil in E'.
  destruct (scc_face solve o scc pr) as [faces|] eqn:F; [|discriminate]. destruct (o_nodepbound o) eqn:ND; [discriminate|].
  destruct (face_spec solve o pr scc SOL O faces W P F) as (f & Ef & O1 & _ & S). exists f. split; [auto|]. split; [auto|].
  assert (exists d, scc_dep pr scc d) as DE.
  { unfold get_dep_distance_bounding_constraints_for_scc in E'. destruct (scc_deps pr scc) as [|d l] eqn:D; [discriminate|].
    exists d. apply scc_deps_in. rewrite D. simpl. auto. }
  apply (C97_iff solve lexmin o pr scc faces f LM W P ND NE DE F Ef). auto.
Qed.
Print Assumptions C97_stencil.

Lemma zdist w a b : (- inject_Z w <= inject_Z a - inject_Z b <= inject_Z w)%Q <-> - w <= a - b <= w.
Proof.
  assert (inject_Z a - inject_Z b == inject_Z (a - b))%Q as -> by (unfold Z.sub, Qminus; rewrite inject_Z_plus, inject_Z_opp; reflexivity).
  rewrite <- inject_Z_opp, <- !Zle_Qle. reflexivity.
Qed.

(** For integer iterations: along some hyperplanes that use no loop of the face
    dependent iterations are at most 10 apart, in either direction. *)
Theorem C97_close : forall solve lexmin o pr scc,
  solver_sound solve -> lexmin_exact lexmin -> wf_prog pr -> padded pr -> orig_first pr ->
  (forall d, scc_dep pr scc d -> d_bpoly d = d_poly d /\ exists s t p, instance pr d s t p) ->
  is_scc_stencil solve lexmin o scc pr = Some true ->
  exists f h, (forall d, scc_dep pr scc d -> hyps_strict pr f d) /\
    (forall s, in_scc pr scc s -> one_loop (p_nvar pr) (f s) /\
      (forall j, (j < p_nvar pr)%nat -> nth j (f s) 0 <> 0 -> nth j (h s) 0 = 0) /\ exists j, (j < p_nvar pr)%nat /\ nth j (h s) 0 > 0) /\
    forall d, scc_dep pr scc d -> forall s t p, instance pr d s t p -> Z.abs (aff (h (d_dst d)) t - aff (h (d_src d)) s) <= 10.
Proof.
  intros solve lexmin o pr scc SOL LM W P O NE E.
  assert (forall d, scc_dep pr scc d -> forall s t p, instance pr d s t p ->
    length s = p_nvar pr /\ length t = p_nvar pr /\ length p = p_npar pr /\ qmem (d_bpoly d) (zpoint s ++ zpoint t ++ zpoint p)) as Q.
  { intros d Hd s t p (L1 & L2 & L3 & M). destruct (NE d Hd) as [B _]. assert (wf_dep pr d) as (D1 & D2 & _) by (apply W; apply Hd).
    rewrite (P _ (stmt_of_in pr _ D1)) in L1. rewrite (P _ (stmt_of_in pr _ D2)) in L2. split; [auto|]. split; [auto|]. split; [auto|].
    rewrite <- !zpoint_app. apply qmem_zpoint. rewrite B. auto. }
  destruct (C97_stencil solve lexmin o pr scc SOL LM W P O) as (f & F1 & F2 & (h & w & Hw & H1 & H2) & _); auto.
  { intros d Hd. destruct (NE d Hd) as (_ & s & t & p & I). destruct (Q d Hd s t p I) as (_ & _ & _ & M). eauto. }
  exists f, h. split; [auto|]. split.
  - intros s Hs. destruct (H1 s Hs) as (_ & _ & A & j & Hj & B). split; [auto|]. split; [auto|]. exists j. split; [auto|lia].
  - intros d Hd s t p I. destruct (Q d Hd s t p I) as (L1 & L2 & L3 & M).
    destruct (H2 d Hd (zpoint s) (zpoint t) (zpoint p)) as [A B]; rewrite ?zpoint_length; auto.
    assert (forall g x, hval (zpoint g) (zpoint x) == inject_Z (aff g x))%Q as HV.
    { intros g x. unfold hval, aff. rewrite <- qqdot_zpoint, zpoint_app. reflexivity. }
    rewrite !HV in A, B. pose proof (proj1 (zdist _ _ _) (conj A B)). lia.
Qed.
Print Assumptions C97_close.

(** The test ends with an answer, if dependence distances are bounded (no
    --nodepbound) and the solver finds least points. *)
Theorem C97_answers_partial : forall solve lexmin o pr scc,
  solver_least solve -> wf_prog pr -> orig_first pr -> o_nodepbound o = false -> (exists s, in_scc pr scc s) ->
  exists b, is_scc_stencil solve lexmin o scc pr = Some b.
Proof.
  intros solve lexmin o pr scc SL W O ND HS. unfold is_scc_stencil.
  assert (solver_sound solve) as SOL by (intros q c x Wc Hx; apply (SL q c x Wc Hx)).
  destruct (scc_face solve o scc pr) as [faces|] eqn:F; [|eauto]. rewrite ND.
  assert (scc_deps pr scc <> []) as DE.
  { intros X. rewrite (no_deps_no_face solve o pr scc SOL O SL W HS) in F; [discriminate|].
    intros d Hd. apply scc_deps_in in Hd. rewrite X in Hd. contradiction. }
  destruct (scc_bound_spec pr scc DE) as (b & Eb & _). destruct (scc_lower_spec pr scc DE) as (l & El & _). rewrite Eb, El.
  destruct (lexmin _); eauto.
Qed.
Print Assumptions C97_answers_partial.

(** ** A solver as required exists *)
Lemma least_point n : forall (Q : list Z -> Prop), (forall x, Q x -> length x = n /\ forall v, In v x -> 0 <= v) -> (exists x, Q x) ->
  exists x, Q x /\ forall y, Q y -> y = x \/ lexlt x y.
Proof.
  induction n as [|n IH]; intros Q H [x0 H0].
  - exists x0. split; [auto|]. intros y Hy. left. destruct (H x0 H0) as [L0 _]. destruct (H y Hy) as [L _]. destruct x0, y; try discriminate. auto.
  - assert (forall m x, Q x -> Z.to_nat (hd 0 x) = m -> exists x', Q x' /\ forall y, Q y -> hd 0 x' <= hd 0 y) as MIN.
    { intros m. induction m as [m IHm] using lt_wf_ind. intros x Hx E.
      destruct (classic (exists y, Q y /\ hd 0 y < hd 0 x)) as [(y & Hy & L)|N].
      - apply (IHm (Z.to_nat (hd 0 y))) with (x := y); auto. destruct (H y Hy) as [Ly Py]. destruct y as [|a y]; [discriminate|]. cbn [hd] in *.
        specialize (Py a (or_introl eq_refl)). lia.
      - exists x. split; [auto|]. intros y Hy. destruct (Z_le_gt_dec (hd 0 x) (hd 0 y)); auto. exfalso. apply N. exists y. split; [auto|lia]. }
    destruct (MIN _ x0 H0 eq_refl) as (x1 & H1 & M1). clear MIN. destruct (H x1 H1) as [L1 _]. destruct x1 as [|a x1]; [discriminate|]. cbn [hd] in M1.
    destruct (IH (fun x => Q (a :: x))) as (x & Hx & Mx); [|eauto|].
    { intros x Hx. destruct (H _ Hx) as [L P]. cbn in L. split; [lia|]. intros v Hv. apply P. simpl. auto. }
    exists (a :: x). split; [auto|]. intros y Hy. specialize (M1 y Hy). destruct (H y Hy) as [Ly _]. destruct y as [|b y]; [discriminate|]. cbn [hd] in M1.
    destruct (Z.eq_dec a b) as [<-|N]; [|right; cbn [lexlt]; lia]. destruct (Mx y Hy) as [->|X]; [auto|]. right. cbn [lexlt]. auto.
Qed.

Lemma lexlt_anti x : forall y, lexlt x y -> ~ lexlt y x.
Proof. induction x as [|a x IH]; intros [|b y] H K; cbn [lexlt] in *; try tauto. destruct H as [H|[-> H]], K as [K|[E K]]; try lia. eapply IH; eauto. Qed.

Theorem C97_oracle_exists : exists lexmin, lexmin_exact lexmin.
Proof.
  pose (P := fun c x => mem c x /\ forall y, mem c y -> y = x \/ lexlt x y).
  exists (fun c => match excluded_middle_informative (exists! x, P c x) with left H => Some (proj1_sig (constructive_definite_description _ H)) | right _ => None end).
  intros c W NN. destruct (excluded_middle_informative _) as [H|H].
  - exact (proj2_sig (constructive_definite_description _ H)).
  - intros y My. apply H. destruct (least_point (ncols c - 1) (mem c)) as (x & Hx & Mx); [|eauto|].
    + intros x Hx. split; [destruct Hx; lia|exact (NN x Hx)].
    + exists x. split; [split; auto|]. intros x' [Hx' Mx']. destruct (Mx x' Hx') as [|X]; [auto|]. destruct (Mx' x Hx) as [|X']; [auto|]. exfalso. eapply lexlt_anti; eauto.
Qed.
Print Assumptions C97_oracle_exists.

(** ** Examples

    for t, i: a[t][i] = f(a[t-1][i-1], a[t-1][i], a[t-1][i+1]). *)
Definition uni_prog (l : list (Z * Z)) : prog := mkProg 2 1 [dfp_stmt] (map (fun p => ex_dep 0 0 false (uni_dep (fst p) (snd p))) l) [H_LOOP; H_LOOP].
Lemma uni_prog_ok l : wf_prog (uni_prog l) /\ padded (uni_prog l) /\ orig_first (uni_prog l).
Proof.
  split; [split|].
  - intros st [<-|[]]. repeat (split; [first [reflexivity|wf]|]). simpl. intros a [].
  - intros d Hd. cbn [uni_prog p_deps] in Hd. apply in_map_iff in Hd as (p & <- & _). split; [cbn; lia|]. split; [cbn; lia|].
    split; [apply uni_wf|]. split; [reflexivity|]. split; [apply uni_wf|reflexivity].
  - split; [intros st [<-|[]]; reflexivity|]. intros st [<-|[]]. repeat split; simpl; auto.
Qed.

(** Along a hyperplane all pairs have the same distance. *)
Lemma uni_short l h a b c w di dj : h 0%nat = [a; b; c] -> - w <= a * di + b * dj <= w -> short (uni_prog l) h w (ex_dep 0 0 false (uni_dep di dj)).
Proof.
  intros E H s t p Ls Lt Lp [_ M]. cbn [uni_prog p_nvar p_npar] in *. cbn [ex_dep d_bpoly d_src d_dst] in *. rewrite !E.
  destruct s as [|s0 [|s1 [|]]]; try discriminate. destruct t as [|t0 [|t1 [|]]]; try discriminate. destruct p as [|p0 [|]]; try discriminate.
  pose proof (M (eq [-1;0;1;0;0;-di]) ltac:(simpl; tauto)) as H1. pose proof (M (eq [0;-1;0;1;0;-dj]) ltac:(simpl; tauto)) as H2.
  unfold qholds, qaff in H1, H2. cbn [is_eq coef eq app qdot] in H1, H2.
  unfold hval, zpoint. cbn [map app qqdot].
  assert (t0 == s0 + inject_Z di)%Q as E1. { rewrite inject_Z_opp in H1. unfold inject_Z in *. lra. }
  assert (t1 == s1 + inject_Z dj)%Q as E2. { rewrite inject_Z_opp in H2. unfold inject_Z in *. lra. }
  destruct H as [Ha Hb]. rewrite Zle_Qle in Ha, Hb. rewrite inject_Z_opp, inject_Z_plus, !inject_Z_mult in Ha. rewrite inject_Z_plus, !inject_Z_mult in Hb.
  match goal with |- (_ <= ?e <= _)%Q => setoid_replace e with (inject_Z a * inject_Z di + inject_Z b * inject_Z dj)%Q end; [split; assumption|].
  rewrite E1, E2. ring.
Qed.

Lemma short_at l h a b c w di dj s t p : h 0%nat = [a; b; c] -> mem (uni_dep di dj) (s ++ t ++ p) -> length s = 2%nat -> length t = 2%nat -> length p = 1%nat ->
  short (uni_prog l) h w (ex_dep 0 0 false (uni_dep di dj)) -> - w <= a * di + b * dj <= w.
Proof.
  intros E M Ls Lt Lp H. specialize (H (zpoint s) (zpoint t) (zpoint p)). rewrite !zpoint_length in H. specialize (H Ls Lt Lp).
  rewrite <- !zpoint_app in H. specialize (H (proj2 (qmem_zpoint _ _) M)). cbn [ex_dep d_src d_dst] in H. rewrite !E in H.
  assert (forall g x, hval (zpoint g) (zpoint x) == inject_Z (aff g x))%Q as HV.
  { intros g x. unfold hval, aff. rewrite <- qqdot_zpoint, zpoint_app. reflexivity. }
  destruct H as [A B]. rewrite !HV in A, B. destruct (proj1 (zdist _ _ _) (conj A B)) as [A' B']. clear A B. rename A' into A, B' into B.
  destruct s as [|s0 [|s1 [|]]]; try discriminate. destruct t as [|t0 [|t1 [|]]]; try discriminate. destruct p as [|p0 [|]]; try discriminate.
  destruct M as [_ M]. pose proof (M (eq [-1;0;1;0;0;-di]) ltac:(simpl; tauto)) as H1. pose proof (M (eq [0;-1;0;1;0;-dj]) ltac:(simpl; tauto)) as H2.
  unfold holds, aff in H1, H2. cbn [is_eq coef eq app dot] in H1, H2. unfold aff in A, B. cbn [app dot] in A, B. nia.
Qed.

Definition jac_prog1 : prog := uni_prog [(1, -1); (1, 0); (1, 1)].
Definition jac_face (_ : nat) : list Z := [1; 0; 0; 0].
Definition face_solve : prog -> cst -> option point := first_of [[0; 0; 0; 1; 0]].

Lemma in_scc0 l s : in_scc (uni_prog l) 0 s -> s = 0%nat.
Proof. intros [H _]. cbn in H. lia. Qed.
Lemma scc_dep0 l d : scc_dep (uni_prog l) 0 d <-> exists p, In p l /\ d = ex_dep 0 0 false (uni_dep (fst p) (snd p)).
Proof.
  split.
  - intros (H & _). cbn [uni_prog p_deps] in H. apply in_map_iff in H as (p & <- & Hp). eauto.
  - intros (p & Hp & ->). split; [apply in_map_iff; eauto|]. split; [reflexivity|]. split; reflexivity.
Qed.

Lemma jac_face_found : exists faces, scc_face face_solve ex_opts 0 jac_prog1 = Some faces /\ mrows faces = map jac_face (scc_stmts jac_prog1 0).
Proof. eexists. split; vm_compute; reflexivity. Qed.

Lemma jac_stencil : stencil jac_prog1 0 jac_face.
Proof.
  split.
  - exists (fun _ => [0; 1; 0]), 1. split; [lia|]. split.
    + intros s Hs. split; [reflexivity|]. split; [intros v [<-|[<-|[<-|[]]]]; lia|]. split.
      * intros [|[|j]] Hj N; cbn in Hj, N |- *; try lia.
      * exists 1%nat. split; [cbn; lia|cbn; lia].
    + intros d Hd. apply scc_dep0 in Hd as (p & [<-|[<-|[<-|[]]]] & ->); (eapply uni_short; [reflexivity|cbn; lia]).
  - intros (h & H1 & H2). destruct (H1 0%nat) as (L & NN & Z0 & j & Hj & V); [split; [cbn; lia|reflexivity]|]. cbn [jac_prog1 uni_prog p_nvar] in L, Z0, Hj.
    destruct (h 0%nat) as [|a [|b [|c [|]]]] eqn:E; try discriminate.
    pose proof (Z0 0%nat ltac:(lia) ltac:(cbn; lia)) as A0. cbn [nth] in A0. subst a.
    specialize (H2 (ex_dep 0 0 false (uni_dep 1 1)) ltac:(apply scc_dep0; exists (1, 1); split; [simpl; tauto|reflexivity])).
    apply (short_at _ h 0 b c 0 1 1 [0;0] [1;1] [5] E) in H2; try reflexivity; [|apply memb_ok; reflexivity].
    destruct j as [|[|j]]; cbn [nth] in V; lia.
Qed.

Lemma uni_nonempty l : Forall (fun p => exists s t n, length s = 2%nat /\ length t = 2%nat /\ mem (uni_dep (fst p) (snd p)) (s ++ t ++ [n])) l ->
  forall d, scc_dep (uni_prog l) 0 d -> d_bpoly d = d_poly d /\ exists s t p, instance (uni_prog l) d s t p.
Proof.
  intros H d Hd. apply scc_dep0 in Hd as (p & Hp & ->). rewrite Forall_forall in H. destruct (H p Hp) as (s & t & n & Ls & Lt & M).
  split; [reflexivity|]. exists s, t, [n]. split; [exact Ls|]. split; [exact Lt|]. split; [reflexivity|exact M].
Qed.
Lemma jac_nonempty : forall d, scc_dep jac_prog1 0 d -> d_bpoly d = d_poly d /\ exists s t p, instance jac_prog1 d s t p.
Proof.
  apply uni_nonempty. constructor; [|constructor; [|constructor; [|constructor]]].
  - exists [0;1], [1;0], 5. split; [reflexivity|]. split; [reflexivity|]. apply memb_ok. reflexivity.
  - exists [0;1], [1;1], 5. split; [reflexivity|]. split; [reflexivity|]. apply memb_ok. reflexivity.
  - exists [0;1], [1;2], 5. split; [reflexivity|]. split; [reflexivity|]. apply memb_ok. reflexivity.
Qed.
Lemma nonempty_q pr scc : wf_prog pr -> padded pr -> (forall d, scc_dep pr scc d -> d_bpoly d = d_poly d /\ exists s t p, instance pr d s t p) ->
  forall d, scc_dep pr scc d -> exists y, qmem (d_bpoly d) y.
Proof.
  intros _ _ H d Hd. destruct (H d Hd) as (B & s & t & p & _ & _ & _ & M). exists (zpoint (s ++ t ++ p)). apply qmem_zpoint. rewrite B. auto.
Qed.

(** It is called a stencil, with any solver that is right. *)
Example C97_met : exists lexmin faces, lexmin_exact lexmin /\ wf_prog jac_prog1 /\ padded jac_prog1 /\ orig_first jac_prog1 /\ solver_sound face_solve /\
  o_nodepbound ex_opts = false /\ (forall d, scc_dep jac_prog1 0 d -> d_bpoly d = d_poly d /\ exists s t p, instance jac_prog1 d s t p) /\
  (exists d, scc_dep jac_prog1 0 d) /\ scc_face face_solve ex_opts 0 jac_prog1 = Some faces /\ mrows faces = map jac_face (scc_stmts jac_prog1 0) /\
  is_scc_stencil face_solve lexmin ex_opts 0 jac_prog1 = Some true.
Proof.
  destruct C97_oracle_exists as [lexmin LM]. destruct jac_face_found as (faces & F & E). destruct (uni_prog_ok [(1, -1); (1, 0); (1, 1)]) as (W & P & O).
  exists lexmin, faces. split; [auto|]. split; [exact W|]. split; [exact P|]. split; [exact O|]. split; [apply first_of_sound|]. split; [reflexivity|].
  split; [exact jac_nonempty|].
  assert (exists d, scc_dep jac_prog1 0 d) as DE by (exists (ex_dep 0 0 false (uni_dep 1 0)); apply scc_dep0; exists (1, 0); split; [simpl; tauto|reflexivity]).
  split; [exact DE|]. split; [exact F|]. split; [exact E|].
  apply (C97_iff face_solve lexmin ex_opts jac_prog1 0 faces jac_face LM W P eq_refl (nonempty_q _ _ W P jac_nonempty) DE F E). exact jac_stencil.
Qed.

(** for t, i: a[t][i] = f(a[t-1][i]) is none: i is parallel. *)
Definition par_prog1 : prog := uni_prog [(1, 0)].
Example C97_parallel_met : forall lexmin, lexmin_exact lexmin -> is_scc_stencil face_solve lexmin ex_opts 0 par_prog1 = Some false.
Proof.
  intros lexmin LM. destruct (uni_prog_ok [(1, 0)]) as (W & P & O).
  assert (forall d, scc_dep par_prog1 0 d -> d_bpoly d = d_poly d /\ exists s t p, instance par_prog1 d s t p) as NE.
  { apply uni_nonempty. constructor; [|constructor]. exists [0;1], [1;1], 5. split; [reflexivity|]. split; [reflexivity|]. apply memb_ok. reflexivity. }
  assert (exists d, scc_dep par_prog1 0 d) as DE by (exists (ex_dep 0 0 false (uni_dep 1 0)); apply scc_dep0; exists (1, 0); split; [simpl; tauto|reflexivity]).
  assert (exists faces, scc_face face_solve ex_opts 0 par_prog1 = Some faces /\ mrows faces = map jac_face (scc_stmts par_prog1 0)) as (faces & F & E).
  { eexists. split; vm_compute; reflexivity. }
  apply (C97_iff face_solve lexmin ex_opts par_prog1 0 faces jac_face LM W P eq_refl (nonempty_q _ _ W P NE) DE F E).
  intros [_ N]. apply N. exists (fun _ => [0; 1; 0]). split.
  - intros s Hs. split; [reflexivity|]. split; [intros v [<-|[<-|[<-|[]]]]; lia|]. split.
    + intros [|[|j]] Hj NZ; cbn in Hj, NZ |- *; try lia.
    + exists 1%nat. split; cbn; lia.
  - intros d Hd. apply scc_dep0 in Hd as (p & [<-|[]] & ->); (eapply uni_short; [reflexivity|cbn; lia]).
Qed.

(** ** What does not hold

    for i, j: a[i][j] = f(a[i-1][j-1], a[i-1][j-20]).  Seen from the loop j, which
    runs dependent iterations one after the other, the component is a stencil:
    along i they are 1 apart.  But the face that is found is i, and along j they
    are 20 apart, so that the component is not called a stencil. *)
Definition far_prog : prog := uni_prog [(1, 1); (1, 20)].
Definition far_asked : cst := Eval vm_compute in
  compact_cst far_prog (cst_add (get_feautrier_schedule_constraints ex_opts far_prog (scc_stmts far_prog 0)) (get_coeff_bounding_constraints ex_opts far_prog)).
Definition far_least : point := [0; 0; 0; 1; 0].
Lemma far_solve_least : solver_least (solve_one far_asked far_least).
Proof.
  apply solve_one_least; [apply memb_ok; reflexivity|]. intros y [L H].
  do 5 (destruct y as [|? y]; [discriminate|]). destruct y; [|discriminate].
  assert (Forall (holds [z; z0; z1; z2; z3]) (rows far_asked)) as HF by (apply Forall_forall; exact H).
  clear L H. unfold far_asked in HF. cbn [rows] in HF.
  repeat match goal with HF : Forall _ (_ :: _) |- _ => apply Forall_cons_iff in HF as [? HF] end.
  repeat match goal with HF : Forall _ [] |- _ => clear HF end.
  repeat match goal with H : holds _ _ |- _ => cbv -[Z.add Z.mul Z.le Z.ge] in H end.
  assert ((z = 0 /\ z0 = 0 /\ z1 = 0 /\ z2 = 1 /\ z3 = 0) \/ lexlt far_least [z; z0; z1; z2; z3]) as K.
  { unfold far_least. cbn [lexlt]. lia. }
  destruct K as [K|K]; auto. left. destruct K as (-> & -> & -> & -> & ->). reflexivity.
Qed.

Definition far_face (_ : nat) : list Z := [0; 1; 0; 0].
Lemma far_nonempty : forall d, scc_dep far_prog 0 d -> d_bpoly d = d_poly d /\ exists s t p, instance far_prog d s t p.
Proof.
  apply uni_nonempty. constructor; [|constructor; [|constructor]].
  - exists [0;1], [1;2], 50. split; [reflexivity|]. split; [reflexivity|]. apply memb_ok. reflexivity.
  - exists [0;1], [1;21], 50. split; [reflexivity|]. split; [reflexivity|]. apply memb_ok. reflexivity.
Qed.
Lemma far_one s : in_scc far_prog 0 s -> one_loop (p_nvar far_prog) (far_face s).
Proof. intros _. exists 1%nat. split; [cbn; lia|]. split; [cbn; lia|]. intros [|[|i]] Hi N; cbn in Hi, N |- *; lia. Qed.
Lemma far_strict d : scc_dep far_prog 0 d -> hyps_strict far_prog far_face d.
Proof.
  intros Hd s t p I. apply scc_dep0 in Hd as (q & [<-|[<-|[]]] & ->); destruct I as (L1 & L2 & L3 & [_ M]); cbn in L1, L2, L3; cbn [ex_dep d_src d_dst d_poly far_face] in *;
    destruct s as [|s0 [|s1 [|]]]; try discriminate; destruct t as [|t0 [|t1 [|]]]; try discriminate; destruct p as [|p0 [|]]; try discriminate.
  - pose proof (M (eq [0;-1;0;1;0;-1]) ltac:(simpl; tauto)) as H2. unfold holds, aff, far_face in *. cbn [is_eq coef eq app dot] in *. lia.
  - pose proof (M (eq [0;-1;0;1;0;-20]) ltac:(simpl; tauto)) as H2. unfold holds, aff, far_face in *. cbn [is_eq coef eq app dot] in *. lia.
Qed.
Lemma far_stencil : stencil far_prog 0 far_face.
Proof.
  split.
  - exists (fun _ => [1; 0; 0]), 1. split; [lia|]. split.
    + intros s Hs. split; [reflexivity|]. split; [intros v [<-|[<-|[<-|[]]]]; lia|]. split.
      * intros [|[|j]] Hj N; cbn in Hj, N |- *; try lia.
      * exists 0%nat. split; cbn; lia.
    + intros d Hd. apply scc_dep0 in Hd as (p & [<-|[<-|[]]] & ->); (eapply uni_short; [reflexivity|cbn; lia]).
  - intros (h & H1 & H2). destruct (H1 0%nat) as (L & NN & Z0 & j & Hj & V); [split; [cbn; lia|reflexivity]|]. cbn [far_prog uni_prog p_nvar] in L, Z0, Hj.
    destruct (h 0%nat) as [|a [|b [|c [|]]]] eqn:E; try discriminate.
    pose proof (Z0 1%nat ltac:(lia) ltac:(cbn; lia)) as A0. cbn [nth] in A0. subst b.
    specialize (H2 (ex_dep 0 0 false (uni_dep 1 1)) ltac:(apply scc_dep0; exists (1, 1); split; [simpl; tauto|reflexivity])).
    apply (short_at _ h a 0 c 0 1 1 [0;0] [1;1] [5] E) in H2; try reflexivity; [|apply memb_ok; reflexivity].
    destruct j as [|[|j]]; cbn [nth] in V; lia.
Qed.
Lemma far_not_stencil : ~ stencil far_prog 0 jac_face.
Proof.
  intros [(h & w & Hw & H1 & H2) _]. destruct (H1 0%nat) as (L & NN & Z0 & j & Hj & V); [split; [cbn; lia|reflexivity]|]. cbn [far_prog uni_prog p_nvar] in L, Z0, Hj.
  destruct (h 0%nat) as [|a [|b [|c [|]]]] eqn:Eh; try discriminate.
  pose proof (Z0 0%nat ltac:(lia) ltac:(cbn; lia)) as A0. cbn [nth] in A0. subst a.
  specialize (H2 (ex_dep 0 0 false (uni_dep 1 20)) ltac:(apply scc_dep0; exists (1, 20); split; [simpl; tauto|reflexivity])).
  assert (mem (uni_dep 1 20) ([0;0] ++ [1;20] ++ [50])) as M by (apply memb_ok; reflexivity).
  pose proof (short_at [(1, 1); (1, 20)] h 0 b c w 1 20 [0;0] [1;20] [50] Eh M eq_refl eq_refl eq_refl H2) as K. clear - K V Hj Hw.
  destruct j as [|[|j]]; cbn [nth] in V; lia.
Qed.
Lemma far_face_found : exists faces, scc_face (solve_one far_asked far_least) ex_opts 0 far_prog = Some faces /\ mrows faces = map jac_face (scc_stmts far_prog 0).
Proof. eexists. split; vm_compute; reflexivity. Qed.

Theorem C97_complete_refuted : exists solve o pr f,
  solver_least solve /\ wf_prog pr /\ padded pr /\ orig_first pr /\ o_nodepbound o = false /\
  (forall d, scc_dep pr 0 d -> d_bpoly d = d_poly d /\ exists s t p, instance pr d s t p) /\
  (forall s, in_scc pr 0 s -> one_loop (p_nvar pr) (f s)) /\ (forall d, scc_dep pr 0 d -> hyps_strict pr f d) /\ stencil pr 0 f /\
  forall lexmin, lexmin_exact lexmin -> is_scc_stencil solve lexmin o 0 pr = Some false.
Proof.
  destruct (uni_prog_ok [(1, 1); (1, 20)]) as (W & P & O).
  exists (solve_one far_asked far_least), ex_opts, far_prog, far_face.
  split; [exact far_solve_least|]. split; [exact W|]. split; [exact P|]. split; [exact O|]. split; [reflexivity|]. split; [exact far_nonempty|].
  split; [exact far_one|]. split; [exact far_strict|]. split; [exact far_stencil|].
  intros lexmin LM. destruct far_face_found as (faces & F & E).
  assert (exists d, scc_dep far_prog 0 d) as DE by (exists (ex_dep 0 0 false (uni_dep 1 1)); apply scc_dep0; exists (1, 1); split; [simpl; tauto|reflexivity]).
  exact (proj2 (proj2 (C97_iff (solve_one far_asked far_least) lexmin ex_opts far_prog 0 faces jac_face LM W P eq_refl (nonempty_q _ _ W P far_nonempty) DE F E)) far_not_stencil).
Qed.
Print Assumptions C97_complete_refuted.

Example C97_answers_met : exists solve pr, solver_least solve /\ wf_prog pr /\ orig_first pr /\ o_nodepbound ex_opts = false /\ (exists s, in_scc pr 0 s) /\ exists d, scc_dep pr 0 d.
Proof.
  exists (solve_one far_asked far_least), far_prog. destruct (uni_prog_ok [(1, 1); (1, 20)]) as (W & P & O).
  split; [exact far_solve_least|]. split; [exact W|]. split; [exact O|]. split; [reflexivity|]. split; [exists 0%nat; split; [cbn; lia|reflexivity]|].
  exists (ex_dep 0 0 false (uni_dep 1 1)). apply scc_dep0. exists (1, 1). split; [simpl; tauto|reflexivity].
Qed.

(** With --nodepbound the test dereferences a null pointer for every component
    that has a face. *)
Theorem C97_nodepbound_refuted : exists o, o_nodepbound o = true /\ solver_sound face_solve /\ wf_prog jac_prog1 /\ padded jac_prog1 /\ orig_first jac_prog1 /\
  forall lexmin, is_scc_stencil face_solve lexmin o 0 jac_prog1 = None.
Proof.
  exists (mkOpts false true 4 false). destruct (uni_prog_ok [(1, -1); (1, 0); (1, 1)]) as (W & P & O). split; [reflexivity|]. split; [apply first_of_sound|].
  split; [exact W|]. split; [exact P|]. split; [exact O|]. intros lexmin. unfold is_scc_stencil.
  assert (exists faces, scc_face face_solve (mkOpts false true 4 false) 0 jac_prog1 = Some faces) as (faces & ->) by (eexists; vm_compute; reflexivity).
  reflexivity.
Qed.
Print Assumptions C97_nodepbound_refuted.
