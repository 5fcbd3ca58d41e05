(** * Theorems: constraints on hyperplanes and satisfaction of dependences (C08-C14). *)
From Coq Require Import ZArith QArith List Bool Lia Lqa.
From Coq Require Import ClassicalDescription.
From Verif Require Import SpecLinear MathModel VecProofs ConstraintsModel SpecProg FrameworkModel FrameworkProofs DepProofs Checkers ExProg.
Import ListNotations.
Open Scope Z_scope.

(** ** The example program meets the common hypotheses *)
Lemma ex_prog_ok : wf_prog ex_prog /\ padded ex_prog.
Proof.
  split; [split|].
  - intros st [<-|[<-|[]]]; repeat (split; [first [reflexivity|wf]|]); simpl; intuition (subst; first [wf|reflexivity]).
  - intros d [<-|[<-|[<-|[<-|[]]]]]; (split; [simpl; lia|split; [simpl; lia|split; [wf|split; [reflexivity|split; [wf|reflexivity]]]]]).
  - intros st [<-|[<-|[]]]; reflexivity.
Qed.

Definition ex_opts : options := mkOpts false false 4 false.
Definition ex_rar_opts : options := mkOpts true false 4 false.

(** u = 0, w = 1; S0: i; S1: i. *)
Definition ex_sol : point := [0; 1; 1; 0; 0; 1; 0; 0].

(** ** C08 *)
Theorem C08_permutability_sound : forall o skip pr c i d,
  wf_prog pr -> padded pr -> zpadding_zero pr c ->
  mem (get_permutability_constraints o skip pr) c ->
  nth_error (p_deps pr) i = Some d -> skip i = false -> d_sat d = false -> d_rar d = false ->
  forall s t p, instance pr d s t p ->
    aff (zhyp pr c (d_src d)) s <= aff (zhyp pr c (d_dst d)) t.
Proof. exact perm_sound_int. Qed.
Print Assumptions C08_permutability_sound.

(** The same for the rational solutions of the relaxed problem. *)
Theorem C08_permutability_sound_rational : forall o skip pr c i d,
  wf_prog pr -> padded pr -> padding_zero pr c ->
  qmem (get_permutability_constraints o skip pr) c ->
  nth_error (p_deps pr) i = Some d -> skip i = false -> d_sat d = false -> d_rar d = false ->
  preserves pr d 0 c.
Proof.
  intros o skip pr c i d W P Z M Hi Sk Sa Ra.
  apply (proj1 (perm_cst_spec o skip pr c)) in M as [_ M].
  specialize (M i d Hi). unfold selected in M. rewrite Sk, Sa, Ra, andb_false_r in M.
  apply (dep_cst_sound o pr d c); auto. apply padded_dep_intro; auto. eapply nth_error_In; eauto.
Qed.
Print Assumptions C08_permutability_sound_rational.

(** Per component: the system of one SCC constrains the dependences inside it. *)
Theorem C08_scc_permutability_sound : forall o id pr g c d,
  wf_prog pr -> padded pr -> zpadding_zero pr c ->
  get_scc_permutability_constraints o id pr = Some g -> mem g c ->
  In d (p_deps pr) -> d_sat d = false -> d_rar d = false ->
  s_scc (stmt_of pr (d_src d)) = id -> s_scc (stmt_of pr (d_dst d)) = id ->
  forall s t p, instance pr d s t p ->
    aff (zhyp pr c (d_src d)) s <= aff (zhyp pr c (d_dst d)) t.
Proof.
  intros o id pr g c d W P Z E M Hd Sa Ra S1 S2 s t p In.
  pose proof (scc_cst_spec o id pr (zpoint c)) as H. cbv zeta in H. rewrite E in H.
  apply qmem_zpoint in M. apply (proj1 H) in M as [_ M]. specialize (M d Hd Sa).
  rewrite S1, S2, !Z.eqb_refl in M. specialize (M eq_refl).
  assert (padded_dep pr d) as PD by (apply padded_dep_intro; auto).
  apply dep_cst_sound in M as [M _]; auto; [|apply zpadding; auto].
  pose proof (preserves_int pr d 0 c PD P (M Ra) s t p In). lia.
Qed.
Print Assumptions C08_scc_permutability_sound.

Theorem C08_cc_permutability_sound : forall o id pr g c d,
  wf_prog pr -> padded pr -> zpadding_zero pr c ->
  get_cc_permutability_constraints o id pr = Some g -> mem g c ->
  In d (p_deps pr) -> d_sat d = false -> d_rar d = false ->
  s_cc (stmt_of pr (d_src d)) = id -> s_cc (stmt_of pr (d_dst d)) = id ->
  forall s t p, instance pr d s t p ->
    aff (zhyp pr c (d_src d)) s <= aff (zhyp pr c (d_dst d)) t.
Proof.
  intros o id pr g c d W P Z E M Hd Sa Ra S1 S2 s t p In.
  pose proof (cc_cst_spec o id pr (zpoint c)) as H. cbv zeta in H. rewrite E in H.
  apply qmem_zpoint in M. apply (proj1 H) in M as [_ M]. specialize (M d Hd Sa).
  rewrite S1, S2, !Z.eqb_refl in M. specialize (M eq_refl).
  assert (padded_dep pr d) as PD by (apply padded_dep_intro; auto).
  apply dep_cst_sound in M as [M _]; auto; [|apply zpadding; auto].
  pose proof (preserves_int pr d 0 c PD P (M Ra) s t p In). lia.
Qed.
Print Assumptions C08_cc_permutability_sound.

Example C08_ex :
  wf_prog ex_prog /\ padded ex_prog /\ zpadding_zero ex_prog ex_sol /\
  mem (get_permutability_constraints ex_opts (fun _ => false) ex_prog) ex_sol /\
  ~ mem (get_permutability_constraints ex_opts (fun _ => false) ex_prog) [0; 1; 0; 1; 0; 0; 0; 0] /\
  instance ex_prog (ex_dep 0 0 false ex_d0) [1; 3] [2; 2] [7] /\
  get_scc_permutability_constraints ex_opts 0 ex_prog <> None /\
  get_scc_permutability_constraints ex_opts 5 ex_prog = None.
Proof.
  split; [apply ex_prog_ok|split; [apply ex_prog_ok|split; [|split; [inset|split; [inset|split; [|split]]]]]].
  - intros [|[|s]] [|[|k]]; simpl; intros; try lia; try discriminate; reflexivity.
  - repeat (split; [reflexivity|]). inset.
  - vm_compute. discriminate.
  - reflexivity.
Qed.

(** ** C09 *)
Theorem C09_bounding_function : forall o skip pr c i d,
  wf_prog pr -> padded pr -> zpadding_zero pr c ->
  mem (get_permutability_constraints o skip pr) c ->
  nth_error (p_deps pr) i = Some d -> skip i = false -> d_sat d = false ->
  (o_rar o = true \/ d_rar d = false) -> o_nodepbound o = false ->
  forall s t p, length s = p_nvar pr -> length t = p_nvar pr -> length p = p_npar pr ->
    mem (d_bpoly d) (s ++ t ++ p) ->
    aff (zhyp pr c (d_dst d)) t - aff (zhyp pr c (d_src d)) s <= zbound pr c p.
Proof. exact bound_sound_int. Qed.
Print Assumptions C09_bounding_function.

(** With --rar also the input dependence between iterations of S1 is bounded
    (distance 1 <= u.N + w = 1). *)
Example C09_ex :
  mem (get_permutability_constraints ex_rar_opts (fun _ => false) ex_prog) ex_sol /\
  ~ mem (get_permutability_constraints ex_rar_opts (fun _ => false) ex_prog) [0; 0; 1; 0; 0; 1; 0; 0] /\
  zpadding_zero ex_prog ex_sol /\
  nth_error (p_deps ex_prog) 3 = Some (ex_dep 1 1 true ex_d3) /\
  mem ex_d3 ([3; 0] ++ [4; 0] ++ [9]) /\ zbound ex_prog ex_sol [9] = 1.
Proof.
  split; [inset|split; [inset|split; [apply C08_ex|split; [reflexivity|split; [inset|reflexivity]]]]].
Qed.

(** ** C10 *)
Theorem C10_permutability_complete : forall o skip pr c,
  wf_prog pr -> padded pr -> S (length c) = cst_width pr -> padding_zero pr c ->
  (forall i d, nth_error (p_deps pr) i = Some d -> skip i = false -> d_sat d = false ->
     (d_rar d = false -> (exists x, qmem (d_poly d) x) /\ preserves pr d 0 c) /\
     (o_nodepbound o = false -> (o_rar o = true \/ d_rar d = false) ->
        (exists x, qmem (d_bpoly d) x) /\ bounded_by pr d c)) ->
  qmem (get_permutability_constraints o skip pr) c.
Proof. exact perm_complete. Qed.
Print Assumptions C10_permutability_complete.

(** The hyperplanes i + j and i of S0 and S1 preserve and bound all dependences
    when only the second dependence (distance 1) is considered. *)
Example C10_ex : exists c,
  S (length c) = cst_width ex_prog /\ padding_zero ex_prog c /\
  let d := ex_dep 0 0 false ex_d1 in
  (exists x, qmem (d_poly d) x) /\ preserves ex_prog d 0 c /\ bounded_by ex_prog d c /\
  (exists x, qmem (d_bpoly d) x).
Proof.
  exists (zpoint [0; 1; 1; 1; 0; 1; 0; 0]). split; [reflexivity|split; [|cbv zeta; split; [|split; [|split]]]].
  - apply zpadding. intros [|[|s]] [|[|k]]; simpl; intros; try lia; try discriminate; reflexivity.
  - exists (zpoint [0; 0; 0; 1; 4]). inset.
  - intros s t p Hs Ht Hp Hm. destruct s as [|s0 [|s1 [|]]]; try discriminate.
    destruct t as [|t0 [|t1 [|]]]; try discriminate. destruct p as [|p0 [|]]; try discriminate.
    pose proof (proj2 Hm (eq [1;0;-1;0;0;0]) ltac:(simpl; tauto)) as H1.
    pose proof (proj2 Hm (eq [0;1;0;-1;0;1]) ltac:(simpl; tauto)) as H2.
    unfold qholds, qaff in H1, H2. cbn [is_eq coef eq app qdot] in H1, H2. unfold hval, hyp_of. cbn -[Qmult Qplus]. unfold inject_Z in *. lra.
  - intros s t p Hs Ht Hp Hm. destruct s as [|s0 [|s1 [|]]]; try discriminate.
    destruct t as [|t0 [|t1 [|]]]; try discriminate. destruct p as [|p0 [|]]; try discriminate.
    pose proof (proj2 Hm (eq [1;0;-1;0;0;0]) ltac:(simpl; tauto)) as H1.
    pose proof (proj2 Hm (eq [0;1;0;-1;0;1]) ltac:(simpl; tauto)) as H2.
    unfold qholds, qaff in H1, H2. cbn [is_eq coef eq app qdot] in H1, H2. unfold hval, hyp_of, bound_val. cbn -[Qmult Qplus]. unfold inject_Z in *. lra.
  - exists (zpoint [0; 0; 0; 1; 4]). inset.
Qed.

(** ** C11 *)
Theorem C11_feautrier_sound : forall o pr sl c d,
  wf_prog pr -> padded pr -> zpadding_zero pr c ->
  mem (get_feautrier_schedule_constraints o pr sl) c ->
  In d (p_deps pr) -> In (d_src d) sl -> In (d_dst d) sl -> d_rar d = false ->
  forall s t p, instance pr d s t p ->
    aff (zhyp pr c (d_src d)) s + 1 <= aff (zhyp pr c (d_dst d)) t.
Proof. exact feautrier_sound_int. Qed.
Print Assumptions C11_feautrier_sound.

Theorem C11_feautrier_complete : forall o pr sl c,
  wf_prog pr -> padded pr -> S (length c) = cst_width pr -> padding_zero pr c ->
  (forall d, In d (p_deps pr) -> In (d_src d) sl -> In (d_dst d) sl -> d_rar d = false ->
     (exists x, qmem (d_poly d) x) /\ preserves pr d 1 c) ->
  qmem (get_feautrier_schedule_constraints o pr sl) c.
Proof. exact feautrier_complete. Qed.
Print Assumptions C11_feautrier_complete.

(** 2i + j satisfies both dependences of S0 strongly, i + j does not. *)
Example C11_ex :
  mem (get_feautrier_schedule_constraints ex_opts ex_prog [0%nat]) [0; 0; 2; 1; 0; 0; 0; 0] /\
  ~ mem (get_feautrier_schedule_constraints ex_opts ex_prog [0%nat]) [0; 0; 1; 1; 0; 0; 0; 0] /\
  zpadding_zero ex_prog [0; 0; 2; 1; 0; 0; 0; 0] /\
  mem (get_feautrier_schedule_constraints ex_opts ex_prog [0%nat; 1%nat]) [0; 0; 2; 1; 0; 2; 0; 1].
Proof.
  split; [inset|split; [inset|split; [|inset]]].
  intros [|[|s]] [|[|k]]; simpl; intros; try lia; try discriminate; reflexivity.
Qed.

(** ** The emptiness oracle

    The theorems below hold for every exact test for integer points.  Such a
    test exists (the proof uses the standard library's excluded middle and
    definite description; isl_set_is_empty is one). *)
Theorem C12_oracle_exists : exists f, exact_empty f.
Proof.
  exists (fun c => if excluded_middle_informative (exists x, mem c x) then false else true).
  intros c _. destruct (excluded_middle_informative (exists x, mem c x)) as [H|H]; auto.
  intros x Hx. apply H. exists x; auto.
Qed.
Print Assumptions C12_oracle_exists.

(** ** C12 *)
Theorem C12_satisfaction_test : forall f pr d k,
  exact_empty f -> wf_prog pr -> wf_dep pr d -> (k < length (p_hprops pr))%nat ->
  (dep_satisfaction_test f pr d k = true <->
   forall s t p, instance pr d s t p -> distance pr d k s t p > 0).
Proof.
  intros f pr d k EX Wp Wd Hk. rewrite (sat_test_spec f EX pr d Wp Wd k Hk). unfold strict_at.
  split; intros H s t p Hi; specialize (H s t p Hi); lia.
Qed.
Print Assumptions C12_satisfaction_test.

Lemma ex_dist0 k s t p : instance ex_prog (ex_dep 0 0 false ex_d0) s t p ->
  distance ex_prog (ex_dep 0 0 false ex_d0) k s t p = match k with 0%nat => 1 | _ => 0 end.
Proof.
  intros (Hs & Ht & Hp & Hm). simpl in Hs, Ht, Hp.
  destruct s as [|s0 [|s1 [|]]]; try discriminate. destruct t as [|t0 [|t1 [|]]]; try discriminate. destruct p as [|p0 [|]]; try discriminate.
  pose proof (proj2 Hm (eq [1;0;-1;0;0;1]) ltac:(simpl; tauto)) as H1.
  pose proof (proj2 Hm (eq [0;1;0;-1;0;-1]) ltac:(simpl; tauto)) as H2.
  unfold holds, aff in H1, H2. cbn [is_eq coef eq app dot] in H1, H2.
  unfold distance, theta, aff. destruct k as [|[|[|k]]]; cbn [ex_dep d_src d_dst stmt_of p_stmts ex_prog nth s_trans ex_s0 ex_s1 mrows app dot]; try lia.
  destruct k; cbn [dot nth]; lia.
Qed.

Example C12_ex : forall f, exact_empty f ->
  dep_satisfaction_test f ex_prog (ex_dep 0 0 false ex_d0) 0 = true /\
  dep_satisfaction_test f ex_prog (ex_dep 0 0 false ex_d0) 1 = false.
Proof.
  intros f EX. destruct ex_prog_ok as [W _].
  assert (wf_dep ex_prog (ex_dep 0 0 false ex_d0)) as Wd by (apply W; simpl; auto). split.
  - apply C12_satisfaction_test; auto. simpl; lia. intros s t p Hi. rewrite ex_dist0; auto. lia.
  - destruct (dep_satisfaction_test f ex_prog (ex_dep 0 0 false ex_d0) 1) eqn:E; auto.
    pose proof (proj1 (C12_satisfaction_test f ex_prog (ex_dep 0 0 false ex_d0) 1 EX W Wd ltac:(simpl; lia)) E) as E'. clear E. rename E' into E.
    specialize (E [1; 3] [2; 2] [7] (proj1 (proj2 (proj2 (proj2 (proj2 (proj2 C08_ex))))))).
    vm_compute in E. discriminate.
Qed.

(** ** C13 *)
Theorem C13_direction : forall f pr d k,
  exact_empty f -> wf_prog pr -> wf_dep pr d -> (k < length (p_hprops pr))%nat ->
  let all (P : Z -> Prop) := forall s t p, instance pr d s t p -> P (distance pr d k s t p) in
  match get_dep_direction f pr d k with
  | DEP_ZERO => all (fun x => x = 0)
  | DEP_PLUS => all (fun x => x >= 0) /\ ~ all (fun x => x = 0)
  | DEP_MINUS => all (fun x => x <= 0) /\ ~ all (fun x => x = 0)
  | DEP_STAR => ~ all (fun x => x >= 0) /\ ~ all (fun x => x <= 0)
  end.
Proof.
  intros f pr d k EX Wp Wd Hk. cbv zeta. pose proof (direction_spec f EX pr d Wp Wd k Hk) as H.
  assert (weak_at pr d k <-> forall s t p, instance pr d s t p -> distance pr d k s t p >= 0) as E.
  { unfold weak_at; split; intros X s t p Hi; specialize (X s t p Hi); lia. }
  destruct (get_dep_direction f pr d k); rewrite ?E in H; auto.
Qed.
Print Assumptions C13_direction.

Theorem C13_all_directions : forall f pr i d,
  exact_empty f -> wf_prog pr -> nth_error (p_deps pr) i = Some d ->
  exists d', nth_error (p_deps (compute_dep_directions f pr)) i = Some d' /\ same_dep d d' /\
    d_sat d' = d_sat d /\ d_level d' = d_level d /\ length (d_dirs d') = length (p_hprops pr) /\
    forall k, (k < length (p_hprops pr))%nat ->
      match nth k (d_dirs d') DEP_ZERO with
      | DEP_ZERO => zero_at pr d k
      | DEP_PLUS => weak_at pr d k /\ ~ zero_at pr d k
      | DEP_MINUS => neg_at pr d k /\ ~ zero_at pr d k
      | DEP_STAR => ~ weak_at pr d k /\ ~ neg_at pr d k
      end.
Proof. intros f pr i d EX. exact (directions_spec f EX pr i d). Qed.
Print Assumptions C13_all_directions.

Example C13_ex : forall f, exact_empty f ->
  get_dep_direction f ex_prog (ex_dep 0 0 false ex_d0) 0 = DEP_PLUS /\
  get_dep_direction f ex_prog (ex_dep 0 0 false ex_d0) 1 = DEP_ZERO.
Proof.
  intros f EX. destruct ex_prog_ok as [W _].
  assert (wf_dep ex_prog (ex_dep 0 0 false ex_d0)) as Wd by (apply W; simpl; auto).
  pose proof (proj1 (proj2 (proj2 (proj2 (proj2 (proj2 C08_ex)))))) as I. split.
  - pose proof (C13_direction f ex_prog (ex_dep 0 0 false ex_d0) 0 EX W Wd ltac:(simpl; lia)) as H. cbv zeta in H.
    destruct (get_dep_direction f ex_prog (ex_dep 0 0 false ex_d0) 0); auto.
    + destruct H as [H _]. specialize (H _ _ _ I). vm_compute in H. elim H; auto.
    + specialize (H _ _ _ I). vm_compute in H. discriminate.
    + destruct H as [H _]. elim H. intros s t p Hi. rewrite ex_dist0; auto. lia.
  - pose proof (C13_direction f ex_prog (ex_dep 0 0 false ex_d0) 1 EX W Wd ltac:(simpl; lia)) as H. cbv zeta in H.
    destruct (get_dep_direction f ex_prog (ex_dep 0 0 false ex_d0) 1); auto; destruct H as [_ H]; elim H;
      intros s t p Hi; rewrite ex_dist0; auto; lia.
Qed.

(** ** C14 *)
Theorem C14_update : forall f pr k i d,
  exact_empty f -> wf_prog pr -> (k < length (p_hprops pr))%nat -> nth_error (p_deps pr) i = Some d ->
  exists d', nth_error (p_deps (fst (dep_satisfaction_update f pr k))) i = Some d' /\ same_dep d d' /\
    (d_sat d = true -> d' = d) /\
    (d_sat d = false -> (d_sat d' = true <-> strict_at pr d k) /\
       (d_sat d' = true -> d_level d' = Z.of_nat k) /\ (d_sat d' = false -> d' = d)).
Proof. intros f pr k i d EX. exact (update_spec f EX pr k i d). Qed.
Print Assumptions C14_update.

Theorem C14_update_count : forall f pr k,
  exact_empty f -> wf_prog pr -> (k < length (p_hprops pr))%nat ->
  snd (dep_satisfaction_update f pr k) =
  length (filter (fun dd => negb (d_rar (fst dd)) && negb (d_sat (fst dd)) && d_sat (snd dd))
            (combine (p_deps pr) (p_deps (fst (dep_satisfaction_update f pr k))))).
Proof. exact update_count. Qed.
Print Assumptions C14_update_count.

(** Recomputation from scratch, after the directions: first strong level,
    satvec. *)
Theorem C14_recompute : forall f pr i d,
  exact_empty f -> wf_prog pr -> nth_error (p_deps pr) i = Some d ->
  exists d', nth_error (p_deps (compute_dep_satisfaction f (compute_dep_directions f pr))) i = Some d' /\ same_dep d d' /\
  ((d_sat d' = true /\ exists j, d_level d' = Z.of_nat j /\ (j < length (p_hprops pr))%nat /\ strict_at pr d j /\
      forall i, (i < j)%nat -> ~ strict_at pr d i)
   \/ (d_sat d' = false /\ d_level d' = -1 /\ forall i, (i < length (p_hprops pr))%nat -> ~ strict_at pr d i)) /\
  (d_rar d = false -> length (d_satvec d') = length (p_hprops pr) /\
     forall k, (k < length (p_hprops pr))%nat ->
       (nth k (d_satvec d') false = true <-> ~ zero_at pr d k /\ forall i, (i < k)%nat -> ~ strict_at pr d i)).
Proof.
  intros f pr i d EX Wp Hi. destruct (directions_spec f EX pr i d Wp Hi) as (d1 & H1 & S1 & _ & _ & _ & D1).
  assert (wf_prog (compute_dep_directions f pr)) as Wq.
  { apply set_deps_wf; auto. intros d' Hd. apply in_map_iff in Hd as (d0 & <- & Hd0). exists d0. split; auto. repeat split. }
  destruct (compute_sat_spec f EX (compute_dep_directions f pr) i d1 Wq H1) as (d2 & H2 & S2 & _ & L & V).
  exists d2. split; auto. split; [apply (same_dep_trans d d1 d2); auto|].
  change (length (p_hprops (compute_dep_directions f pr))) with (length (p_hprops pr)) in *.
  assert (forall j, strict_at (compute_dep_directions f pr) d1 j <-> strict_at pr d j) as ST.
  { intros j. change (strict_at (compute_dep_directions f pr) d1 j) with (strict_at pr d1 j). apply same_dep_strict; auto. }
  split.
  - destruct L as [(A & j & B & C & D & F)|(A & B & C)].
    + left. split; auto. exists j. split; auto. split; auto. split; [apply ST; auto|]. intros i' Hi'. rewrite <- ST. auto.
    + right. split; auto. split; auto. intros i' Hi'. rewrite <- ST. auto.
  - intros R. destruct V as [V1 V2]. { destruct S1 as (_ & _ & X & _). congruence. }
    split; auto. intros k Hk. rewrite (V2 k Hk). split.
    + intros [A B]. split; [|intros i' Hi'; rewrite <- ST; auto].
      specialize (D1 k Hk). destruct (nth k (d_dirs d1) DEP_ZERO); try tauto.
      intros Z. destruct D1 as [D1 _]. apply D1. intros s t p I. rewrite (Z s t p I). lia.
    + intros [A B]. split; [|intros i' Hi'; rewrite ST; auto].
      intros E. specialize (D1 k Hk). rewrite E in D1. auto.
Qed.
Print Assumptions C14_recompute.

(** Precise satisfaction: instance by instance. *)
Theorem C14_precise : forall f pr d,
  exact_empty f -> wf_prog pr -> wf_dep pr d ->
  let d' := precise_dep f pr d in
  let n := length (p_hprops pr) in
  (d_sat d' = true -> forall s t p, instance pr d s t p -> exists k, (k < n)%nat /\ 0 < distance pr d k s t p) /\
  (d_sat d' = false -> (0 < n)%nat ->
     exists s t p, instance pr d s t p /\ forall k, (k < n)%nat -> distance pr d k s t p <= 0) /\
  length (d_satvec d') = n /\
  (forall k, (k < n)%nat -> (nth k (d_satvec d') false = true <->
     exists s t p, instance pr d s t p /\ (forall j, (j < k)%nat -> distance pr d j s t p <= 0) /\
       0 < distance pr d k s t p)) /\
  (d_level d' = -1 /\ (forall j, (j < n)%nat -> nth j (d_satvec d') false = false) \/
   exists j, d_level d' = Z.of_nat j /\ (j < n)%nat /\ nth j (d_satvec d') false = true /\
     forall i, (j < i < n)%nat -> nth i (d_satvec d') false = false).
Proof. intros f pr d EX Wp Wd. exact (precise_dep_spec f EX pr d Wp Wd). Qed.
Print Assumptions C14_precise.

(** The first dependence of the example is satisfied at level 0, and stays so. *)
Example C14_ex : forall f, exact_empty f ->
  exists d', nth_error (p_deps (fst (dep_satisfaction_update f ex_prog 0))) 0 = Some d' /\ d_sat d' = true /\ d_level d' = 0.
Proof.
  intros f EX. destruct ex_prog_ok as [W _].
  destruct (C14_update f ex_prog 0 0 (ex_dep 0 0 false ex_d0) EX W ltac:(simpl; lia) eq_refl) as (d' & H & _ & _ & K).
  destruct (K eq_refl) as (K1 & K2 & _). exists d'. split; auto.
  assert (d_sat d' = true) as E. { apply K1. intros s t p Hi. rewrite ex_dist0; auto. lia. }
  split; auto. 
Qed.
