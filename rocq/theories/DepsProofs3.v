(** * Proofs: the dependences extracted relate only conflicting iterations. *)
From Coq Require Import ZArith List Bool Lia Arith.
From Verif Require Import SpecLinear MathModel ConstraintsModel SpecProg SpecExec SpecOsl OslModel SpecDeps DepsModel ExecProofs ExecProofs2 DepsProofs.
Import ListNotations.
Open Scope Z_scope.

Section Sound.
Variables (flow : amap -> amap -> amap -> smap -> umap * umap) (co : umap -> umap) (lw rar cl : bool)
  (reads writes : amap) (sched : smap).
Hypothesis CO : coalesce_ok co.
Hypothesis FL : isl_correct flow reads writes sched.
Let d := compute_deps_isl flow co lw rar cl reads writes sched.
Let fl sink must may := flow_ok sink must may sched (umap_rel (fst (flow sink must may sched))) (umap_rel (snd (flow sink must may sched))).

Definition free_of (w : amap) a s b t p l := lw = true -> unmasked w sched a s b t p l.

Lemma raw_sound a s b t p : umap_rel (i_raw d) a s b t p ->
  exists l, writes a s p l /\ reads b t p l /\ sooner sched a s b t p /\ free_of writes a s b t p l.
Proof.
  unfold d, compute_deps_isl, free_of. destruct lw; cbn; rewrite (coal_rel co cl CO); intros R.
  - assert (F : fl reads writes no_access) by (apply FL; cbn; tauto). apply (flow_must _ _ _ _ _ _ F) in R.
    destruct R as (l & ? & ? & ? & ?). exists l. tauto.
  - assert (F : fl reads no_access writes) by (apply FL; cbn; tauto). apply (flow_may _ _ _ _ _ _ F) in R.
    destruct R as (l & [[]|?] & ? & ? & ? & _). exists l. repeat split; auto. discriminate.
Qed.

Lemma war_sound a s b t p : umap_rel (i_war d) a s b t p ->
  exists l, any_access reads writes a s p l /\ writes b t p l /\ sooner sched a s b t p /\ free_of writes a s b t p l.
Proof.
  unfold d, compute_deps_isl, free_of, any_access. destruct lw; cbn; rewrite (coal_rel co cl CO); intros R.
  - assert (F : fl writes writes reads) by (apply FL; cbn; tauto). apply (flow_may _ _ _ _ _ _ F) in R.
    destruct R as (l & ? & ? & ? & ? & _). exists l. tauto.
  - assert (F : fl writes no_access reads) by (apply FL; cbn; tauto). apply (flow_may _ _ _ _ _ _ F) in R.
    destruct R as (l & [[]|?] & ? & ? & ? & _). exists l. repeat split; auto. discriminate.
Qed.

Lemma waw_sound a s b t p : umap_rel (i_waw d) a s b t p ->
  exists l, writes a s p l /\ writes b t p l /\ sooner sched a s b t p /\ free_of writes a s b t p l.
Proof.
  unfold d, compute_deps_isl, free_of. destruct lw; cbn; rewrite (coal_rel co cl CO); intros R.
  - assert (F : fl writes writes reads) by (apply FL; cbn; tauto). apply (flow_must _ _ _ _ _ _ F) in R.
    destruct R as (l & ? & ? & ? & ?). exists l. tauto.
  - assert (F : fl writes no_access writes) by (apply FL; cbn; tauto). apply (flow_may _ _ _ _ _ _ F) in R.
    destruct R as (l & [[]|?] & ? & ? & ? & _). exists l. repeat split; auto. discriminate.
Qed.

Lemma rar_sound a s b t p : umap_rel (i_rar d) a s b t p ->
  exists l, reads a s p l /\ reads b t p l /\ sooner sched a s b t p.
Proof.
  unfold d, compute_deps_isl. destruct lw, rar; cbn; try (intros (? & ? & [] & _)); intros R.
  - assert (F : fl reads reads no_access) by (apply FL; cbn; tauto). apply (flow_must _ _ _ _ _ _ F) in R.
    destruct R as (l & ? & ? & ? & ?). exists l. tauto.
  - assert (F : fl reads no_access reads) by (apply FL; cbn; tauto). apply (flow_may _ _ _ _ _ _ F) in R.
    destruct R as (l & [[]|?] & ? & ? & ? & _). exists l. repeat split; auto.
Qed.

(** A relation of type [ty] between accesses of the recorded kinds. *)
Definition kind_of (ty : dep_type) (u : umap) : Prop :=
  (ty = D_RAW /\ u = i_raw d) \/ (ty = D_WAR /\ u = i_war d) \/ (ty = D_WAW /\ u = i_waw d) \/ (ty = D_RAR /\ u = i_rar d).

Lemma all_deps_inv rd accw wr stmts xs x : all_deps rd accw wr stmts d = Some xs -> In x xs ->
  exists ty u b, kind_of ty u /\ In b (concat u) /\ extract_dep rd accw stmts ty b = Some x.
Proof.
  unfold all_deps. intros X I.
  destruct (extract_deps rd accw stmts D_RAW (i_raw d)) as [x1|] eqn:X1; [|discriminate].
  destruct (extract_deps rd accw stmts D_WAR (i_war d)) as [x2|] eqn:X2; [|discriminate].
  destruct (extract_deps rd accw stmts D_WAW (i_waw d)) as [x3|] eqn:X3; [|discriminate].
  destruct (if wr then extract_deps rd accw stmts D_RAR (i_rar d) else Some []) as [x4|] eqn:X4; [|discriminate].
  injection X as <-. rewrite !in_app_iff in I.
  assert (G : forall ty u y, extract_deps rd accw stmts ty u = Some y -> In x y -> exists b, In b (concat u) /\ extract_dep rd accw stmts ty b = Some x).
  { intros ty u y E Iy. apply (all_rows_in _ _ _ E). exact Iy. }
  unfold kind_of. destruct I as [I|[I|[I|I]]].
  - destruct (G _ _ _ X1 I) as (b & ? & ?). exists D_RAW, (i_raw d), b. tauto.
  - destruct (G _ _ _ X2 I) as (b & ? & ?). exists D_WAR, (i_war d), b. tauto.
  - destruct (G _ _ _ X3 I) as (b & ? & ?). exists D_WAW, (i_waw d), b. tauto.
  - destruct wr; [|injection X4 as <-; destruct I]. destruct (G _ _ _ X4 I) as (b & ? & ?). exists D_RAR, (i_rar d), b. tauto.
Qed.

Lemma instance_rel (pr : prog) rd accw ty u b x s t p : remove_divs_ok rd -> In b (concat u) ->
  extract_dep rd accw (p_stmts pr) ty b = Some x -> typed pr u -> divs_exact rd u -> instance pr (to_dep x) s t p ->
  length p = p_npar pr -> umap_rel u (b_src b) s (b_dst b) t p.
Proof.
  intros RD I E T DE (L1 & L2 & L3 & M) LP. apply in_concat in I. destruct I as (m & Im & Ib).
  exists m, b. split; auto. split; auto. split; auto. split; auto. apply DE; [apply in_concat; eauto|].
  destruct (extract_dep_inv rd accw (p_stmts pr) RD _ _ _ E) as (E1 & E2 & E3 & _). cbn in L1, L2, M. rewrite E1 in L1. rewrite E2 in L2. rewrite E3 in M.
  destruct (RD b) as (_ & _ & N1 & N2 & N3 & N4 & _).
  destruct (T b) as (T1 & T2 & T3); [apply in_concat; eauto|].
  apply bmap_poly; auto. rewrite N1, N2, N3, T1, T2, T3. auto.
Qed.
End Sound.
