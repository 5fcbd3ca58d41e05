(** * Proofs: the dependences extracted cover all conflicts. *)
From Coq Require Import ZArith List Bool Lia Arith.
From Verif Require Import SpecLinear MathModel ConstraintsModel SpecProg SpecExec SpecOsl OslModel SpecDeps DepsModel ExecProofs ExecProofs2.
Import ListNotations.
Open Scope Z_scope.

Lemma all_rows_in {A B} (f : A -> option B) l ys : all_rows f l = Some ys ->
  (forall x, In x l -> exists y, f x = Some y /\ In y ys) /\ (forall y, In y ys -> exists x, In x l /\ f x = Some y) /\ length ys = length l.
Proof.
  revert ys. induction l as [|x l IH]; intros ys H; cbn in H.
  - injection H as <-. split; [intros x []|]. split; [intros y []|reflexivity].
  - destruct (f x) as [y|] eqn:F; [|discriminate]. destruct (all_rows f l) as [ys'|]; [|discriminate]. injection H as <-.
    destruct (IH ys' eq_refl) as (I1 & I2 & I3). split; [|split].
    + intros z [->|I]; [exists y; split; [auto|now left]|]. destruct (I1 z I) as (w & Fw & Iw). exists w. split; auto. now right.
    + intros z [->|I]; [exists x; split; [now left|auto]|]. destruct (I2 z I) as (w & Iw & Fw). exists w. split; auto. now right.
    + cbn. now rewrite I3.
Qed.

Lemma before_irrefl {A} (l : list A) x : NoDup l -> ~ before l x x.
Proof.
  intros N (u & v & w & E). rewrite E in N. apply NoDup_remove_2 in N. apply N. apply in_app_iff. right. apply in_app_iff. right. now left.
Qed.

Lemma between_in {A} (l : list A) u x v y w z : NoDup l -> l = u ++ x :: v ++ y :: w -> before l x z -> before l z y -> In z v.
Proof.
  intros N E B1 B2. destruct (before_in _ _ _ B1) as [_ Iz]. rewrite E in Iz.
  assert (NN : forall a b, before l a b -> before l b a -> False).
  { intros a b Ba Bb. apply (before_irrefl l a N). eapply before_trans; eauto. }
  apply in_app_iff in Iz. destruct Iz as [I|[<-|I]].
  - exfalso. apply (NN x z B1). apply in_split in I. destruct I as (u1 & u2 & ->).
    exists u1, u2, (v ++ y :: w). rewrite E, <- app_assoc. reflexivity.
  - exfalso. now apply (before_irrefl l x N).
  - apply in_app_iff in I. destruct I as [I|[<-|I]]; auto.
    + exfalso. now apply (before_irrefl l y N).
    + exfalso. apply (NN z y B2). apply in_split in I. destruct I as (u1 & u2 & ->).
      exists (u ++ x :: v), u1, u2. rewrite E, <- app_assoc. reflexivity.
Qed.

Section Extract.
Variables (rd : bmap -> bmap) (accw : bool) (stmts : list stmt).
Hypothesis RD : remove_divs_ok rd.

Lemma bmap_poly b s t p : b_ndiv b = 0%nat -> bmap_mem b s t p <-> length s = b_nin b /\ length t = b_nout b /\ length p = b_npar b /\ mem (bmap_to_constraints b) (s ++ t ++ p).
Proof.
  intros Z. unfold bmap_mem, mem. cbn. split.
  - intros (L1 & L2 & L3 & e & Le & H). repeat split; auto.
    + rewrite !app_length. lia.
    + rewrite Z in Le. apply length_zero_iff_nil in Le. subst e. cbn in H. intros r I. apply H.
      apply in_app_iff in I. destruct I as [I|I]; apply filter_In in I; tauto.
  - intros (L1 & L2 & L3 & _ & H). repeat split; auto. exists []. split; [now rewrite Z|]. cbn. intros r I. apply H.
    apply in_app_iff. destruct (is_eq r) eqn:Q; [left|right]; apply filter_In; split; auto. now rewrite Q.
Qed.

Lemma extract_dep_inv ty b x : extract_dep rd accw stmts ty b = Some x ->
  x_src x = n_stmt (b_src b) /\ x_dst x = n_stmt (b_dst b) /\ x_poly x = bmap_to_constraints (rd b) /\
  (n_stmt (b_src b) < length stmts)%nat /\ (n_stmt (b_dst b) < length stmts)%nat /\
  (x_type x = ty \/ x_type x <> D_RAR /\ ty <> D_RAR) /\
  ncols (x_poly x) = (s_dim (nth (n_stmt (b_src b)) stmts dummy_stmt) + s_dim (nth (n_stmt (b_dst b)) stmts dummy_stmt) +
     (ncols (s_domain (nth (n_stmt (b_src b)) stmts dummy_stmt)) - s_dim (nth (n_stmt (b_src b)) stmts dummy_stmt)))%nat.
Proof.
  unfold extract_dep. destruct (RD b) as (-> & -> & _).
  destruct (Nat.ltb_spec (n_stmt (b_src b)) (length stmts)); [|discriminate].
  destruct (Nat.ltb_spec (n_stmt (b_dst b)) (length stmts)); [|discriminate]. cbn [andb].
  destruct (Nat.eqb_spec (ncols (bmap_to_constraints (rd b)))
    (s_dim (nth (n_stmt (b_src b)) stmts dummy_stmt) + s_dim (nth (n_stmt (b_dst b)) stmts dummy_stmt) +
     (ncols (s_domain (nth (n_stmt (b_src b)) stmts dummy_stmt)) - s_dim (nth (n_stmt (b_src b)) stmts dummy_stmt)))); [|discriminate].
  destruct accw.
  - destruct (n_acc (b_src b)) as [xa|]; [|discriminate]. destruct (n_acc (b_dst b)) as [ya|]; [|discriminate].
    destruct (dep_accesses _ _ _ _ _) as [[[ty' sa] da]|] eqn:DA; [|discriminate].
    intros E; injection E as <-; cbn [x_src x_dst x_type x_poly]. repeat split; auto.
    unfold dep_accesses in DA.
    destruct ty; try discriminate; try destruct (fst xa && fst ya);
      repeat match type of DA with context [match access_index ?a ?b ?c with _ => _ end] => destruct (access_index a b c); try discriminate end;
      injection DA as <- <- <-; auto; right; split; discriminate.
  - intros E; injection E as <-; cbn [x_src x_dst x_type x_poly]. repeat split; auto.
Qed.

Lemma extract_covers ty u xs a s b t p : extract_deps rd accw stmts ty u = Some xs -> umap_rel u a s b t p ->
  exists x, In x xs /\ x_src x = n_stmt a /\ x_dst x = n_stmt b /\ mem (x_poly x) (s ++ t ++ p) /\
    (ty <> D_RAR -> x_type x <> D_RAR) /\ (n_stmt a < length stmts)%nat /\ (n_stmt b < length stmts)%nat.
Proof.
  intros X (m & c & Im & Ic & Ea & Eb & M). destruct (all_rows_in _ _ _ X) as (F & _).
  destruct (F c) as (x & Fx & Ix); [apply in_concat; eauto|]. exists x. split; auto.
  destruct (extract_dep_inv _ _ _ Fx) as (-> & -> & -> & L1 & L2 & T & _). subst a b. repeat split; auto.
  - destruct (RD c) as (_ & _ & _ & _ & _ & Z & _ & K). apply K in M. apply (bmap_poly _ s t p Z) in M. apply M.
  - destruct (RD c) as (_ & _ & _ & _ & _ & Z & _ & K). apply K in M. apply (bmap_poly _ s t p Z) in M. apply M.
  - intros N. destruct T as [->|[T _]]; auto.
Qed.

Lemma map_count_concat u : map_count u = length (concat u).
Proof.
  unfold map_count. assert (G : forall n, fold_left (fun n m => (n + length m)%nat) u n = (n + length (concat u))%nat).
  { induction u as [|m u IH]; intros n; cbn; [lia|]. rewrite IH, app_length. lia. }
  apply G.
Qed.
End Extract.

Lemma coal_rel (co : umap -> umap) (cl : bool) : coalesce_ok co ->
  forall u a s b t p, umap_rel (if cl then co u else u) a s b t p <-> umap_rel u a s b t p.
Proof. intros CO u a s b t p. destruct cl; [apply CO|tauto]. Qed.

Section Cover.
Variables (flow : amap -> amap -> amap -> smap -> umap * umap) (co : umap -> umap) (lw rar cl : bool)
  (reads writes : amap) (sched : smap).
Hypothesis CO : coalesce_ok co.
Hypothesis FL : isl_correct flow reads writes sched.
Let fl sink must may := flow_ok sink must may sched (umap_rel (fst (flow sink must may sched))) (umap_rel (snd (flow sink must may sched))).
Let d := compute_deps_isl flow co lw rar cl reads writes sched.

Local Notation coal_rel := (coal_rel co cl CO).

Definition linked (a : aname) (s : point) (b : aname) (t p : point) : Prop :=
  umap_rel (i_raw d) a s b t p \/ umap_rel (i_war d) a s b t p \/ umap_rel (i_waw d) a s b t p.

(** A source that no write masks is linked to the sink. *)
Lemma direct_link a s b t p l :
  (writes a s p l /\ (reads b t p l \/ writes b t p l)) \/ (reads a s p l /\ writes b t p l) ->
  sooner sched a s b t p -> (lw = true -> unmasked writes sched a s b t p l) ->
  exists a' s', same_date sched a' s' a s p /\ any_access reads writes a' s' p l /\ linked a' s' b t p.
Proof.
  intros K S U. unfold linked, d, compute_deps_isl. destruct lw.
  - assert (F1 : fl reads writes no_access) by (apply FL; cbn; tauto).
    assert (F2 : fl writes writes reads) by (apply FL; cbn; tauto). specialize (U eq_refl).
    assert (W : (writes a s p l \/ reads a s p l) -> writes b t p l ->
      exists a' s', same_date sched a' s' a s p /\ any_access reads writes a' s' p l /\
        (umap_rel (fst (flow writes writes reads sched)) a' s' b t p \/ umap_rel (snd (flow writes writes reads sched)) a' s' b t p)).
    { intros A B. destruct (flow_all _ _ _ _ _ _ F2 a s b t p l A B S U) as (a' & s' & SD & AC & R).
      exists a', s'. split; auto. split; auto. destruct AC; [right|left]; auto. }
    destruct K as [[A [B|B]]|[A B]].
    + destruct (flow_all _ _ _ _ _ _ F1 a s b t p l (or_introl A) B S U) as (a' & s' & SD & AC & R).
      exists a', s'. split; auto. split; [destruct AC as [AC|[]]; right; auto|]. left. cbn. apply coal_rel.
      destruct R as [R|R]; auto. destruct (flow_may _ _ _ _ _ _ F1 _ _ _ _ _ R) as (? & _ & _ & _ & _ & ? & ? & [] & _).
    + destruct (W (or_introl A) B) as (a' & s' & SD & AC & R). exists a', s'. split; auto. split; auto. right. cbn. rewrite !coal_rel. tauto.
    + destruct (W (or_intror A) B) as (a' & s' & SD & AC & R). exists a', s'. split; auto. split; auto. right. cbn. rewrite !coal_rel. tauto.
  - assert (F1 : fl reads no_access writes) by (apply FL; cbn; tauto).
    assert (F2 : fl writes no_access reads) by (apply FL; cbn; tauto).
    assert (F3 : fl writes no_access writes) by (apply FL; cbn; tauto).
    assert (NM : unmasked no_access sched a s b t p l) by (intros ? ? []).
    assert (P : forall sink may, flow_ok sink no_access may sched (umap_rel (fst (flow sink no_access may sched))) (umap_rel (snd (flow sink no_access may sched))) ->
      may a s p l -> sink b t p l -> exists a' s', same_date sched a' s' a s p /\ may a' s' p l /\ umap_rel (snd (flow sink no_access may sched)) a' s' b t p).
    { intros sink may F A B. destruct (flow_all _ _ _ _ _ _ F a s b t p l (or_intror A) B S NM) as (a' & s' & SD & AC & R).
      exists a', s'. split; auto. destruct AC as [[]|AC]. split; auto. destruct R as [R|R]; auto.
      destruct (flow_must _ _ _ _ _ _ F _ _ _ _ _ R) as (? & [] & _). }
    unfold any_access. destruct K as [[A [B|B]]|[A B]].
    + destruct (P _ _ F1 A B) as (a' & s' & SD & AC & R). exists a', s'. split; auto. split; auto. left. cbn. now apply coal_rel.
    + destruct (P _ _ F3 A B) as (a' & s' & SD & AC & R). exists a', s'. split; auto. split; auto. right. right. cbn. now apply coal_rel.
    + destruct (P _ _ F2 A B) as (a' & s' & SD & AC & R). exists a', s'. split; auto. split; auto. right. left. cbn. now apply coal_rel.
Qed.

Variables (pr : prog) (ra wa : nat -> list nat) (p : point) (orig : list inst).
Variables (rd : bmap -> bmap) (accw wr : bool) (xs : list xdep).
Hypothesis RD : remove_divs_ok rd.
Hypothesis X : all_deps rd accw wr (p_stmts pr) d = Some xs.
Hypothesis DEPS : p_deps pr = map to_dep xs.
Hypothesis LP : length p = p_npar pr.
Hypothesis AR : accesses_of pr ra s_reads reads p.
Hypothesis AW : accesses_of pr wa s_writes writes p.
Hypothesis ORD : scheduled sched (any_access reads writes) p orig.
Hypothesis ALL : all_instances pr p orig.

Lemma access_runs a i l : any_access reads writes a i p l -> runs pr p (n_stmt a, i).
Proof. intros [A|A]; [apply AR in A|apply AW in A]; tauto. Qed.

(** One dependence of the program between two instances. *)
Definition single (x y : inst) : Prop :=
  exists dd, In dd (p_deps pr) /\ d_rar dd = false /\ d_src dd = fst x /\ d_dst dd = fst y /\ instance pr dd (snd x) (snd y) p.

Lemma linked_single a s b t : linked a s b t p -> runs pr p (n_stmt a, s) -> runs pr p (n_stmt b, t) ->
  single (n_stmt a, s) (n_stmt b, t).
Proof.
  intros L R1 R2. unfold all_deps in X.
  destruct (extract_deps rd accw (p_stmts pr) D_RAW (i_raw d)) as [x1|] eqn:X1; [|discriminate].
  destruct (extract_deps rd accw (p_stmts pr) D_WAR (i_war d)) as [x2|] eqn:X2; [|discriminate].
  destruct (extract_deps rd accw (p_stmts pr) D_WAW (i_waw d)) as [x3|] eqn:X3; [|discriminate].
  destruct (if wr then extract_deps rd accw (p_stmts pr) D_RAR (i_rar d) else Some []) as [x4|]; [|discriminate].
  injection X as <-.
  assert (G : exists x, In x (x1 ++ x2 ++ x3 ++ x4) /\ x_src x = n_stmt a /\ x_dst x = n_stmt b /\ mem (x_poly x) (s ++ t ++ p) /\ x_type x <> D_RAR).
  { destruct L as [L|[L|L]].
    - destruct (extract_covers rd accw (p_stmts pr) RD _ _ _ _ _ _ _ _ X1 L) as (x & I & E1 & E2 & M & N & _).
      exists x. rewrite !in_app_iff. split; [tauto|]. split; auto. split; auto. split; auto. now apply N.
    - destruct (extract_covers rd accw (p_stmts pr) RD _ _ _ _ _ _ _ _ X2 L) as (x & I & E1 & E2 & M & N & _).
      exists x. rewrite !in_app_iff. split; [tauto|]. split; auto. split; auto. split; auto. now apply N.
    - destruct (extract_covers rd accw (p_stmts pr) RD _ _ _ _ _ _ _ _ X3 L) as (x & I & E1 & E2 & M & N & _).
      exists x. rewrite !in_app_iff. split; [tauto|]. split; auto. split; auto. split; auto. now apply N. }
  destruct G as (x & I & E1 & E2 & M & N).
  exists (to_dep x). cbn. split; [rewrite DEPS; now apply in_map|]. split; [destruct (x_type x); congruence|].
  split; auto. split; auto. split; [|split; [|split; auto]]; cbn; rewrite ?E1, ?E2; [apply R1|apply R2].
Qed.

Lemma names_of x l : runs pr p x ->
  (In l (cells (ra (fst x)) (s_reads (stmt_of pr (fst x))) (snd x) p) -> exists a, n_stmt a = fst x /\ reads a (snd x) p l) /\
  (In l (cells (wa (fst x)) (s_writes (stmt_of pr (fst x))) (snd x) p) -> exists a, n_stmt a = fst x /\ writes a (snd x) p l).
Proof. destruct x as [s i]. cbn. intros R. split; intros I; [now apply AR|now apply AW]. Qed.

(** The unmasked case, for instances. *)
Lemma direct_single x y l : before orig x y ->
  let rdl z := cells (ra (fst z)) (s_reads (stmt_of pr (fst z))) (snd z) p in
  let wrl z := cells (wa (fst z)) (s_writes (stmt_of pr (fst z))) (snd z) p in
  (In l (wrl x) /\ (In l (rdl y) \/ In l (wrl y))) \/ (In l (rdl x) /\ In l (wrl y)) ->
  (lw = true -> forall z, before orig x z -> before orig z y -> ~ In l (wrl z)) ->
  single x y.
Proof.
  intros B rdl wrl K U. destruct (before_in _ _ _ B) as [Ix Iy].
  assert (Rx : runs pr p x) by now apply ALL. assert (Ry : runs pr p y) by now apply ALL.
  assert (G : exists a b, n_stmt a = fst x /\ n_stmt b = fst y /\
    ((writes a (snd x) p l /\ (reads b (snd y) p l \/ writes b (snd y) p l)) \/ (reads a (snd x) p l /\ writes b (snd y) p l))).
  { destruct (names_of x l Rx) as [X1 X2]. destruct (names_of y l Ry) as [Y1 Y2]. unfold rdl, wrl in K.
    destruct K as [[A [C|C]]|[A C]].
    - destruct (X2 A) as (a & Ea & Wa). destruct (Y1 C) as (b & Eb & Wb). exists a, b. tauto.
    - destruct (X2 A) as (a & Ea & Wa). destruct (Y2 C) as (b & Eb & Wb). exists a, b. tauto.
    - destruct (X1 A) as (a & Ea & Wa). destruct (Y2 C) as (b & Eb & Wb). exists a, b. tauto. }
  destruct G as (a & b & Ea & Eb & G). clear K.
  assert (Aa : any_access reads writes a (snd x) p l) by (unfold any_access; tauto).
  assert (Ab : any_access reads writes b (snd y) p l) by (unfold any_access; tauto).
  assert (XE : x = (n_stmt a, snd x)) by (rewrite Ea; now destruct x).
  assert (YE : y = (n_stmt b, snd y)) by (rewrite Eb; now destruct y).
  assert (S : sooner sched a (snd x) b (snd y) p).
  { destruct (ORD _ _ _ _ _ _ Aa Ab) as [S _]. apply S. now rewrite <- XE, <- YE. }
  assert (UM : lw = true -> unmasked writes sched a (snd x) b (snd y) p l).
  { intros E c u W S1 S2. assert (Ac : any_access reads writes c u p l) by now right.
    apply (U E (n_stmt c, u)).
    - rewrite XE. apply (proj1 (ORD _ _ _ _ _ _ Aa Ac)). exact S1.
    - rewrite YE. apply (proj1 (ORD _ _ _ _ _ _ Ac Ab)). exact S2.
    - unfold wrl. cbn. now apply AW in W. }
  destruct (direct_link a (snd x) b (snd y) p l G S UM) as (a' & s' & SD & Aa' & L).
  destruct (ORD _ _ _ _ _ _ Aa' Aa) as [_ SI]. apply SI in SD.
  rewrite XE, YE, <- SD. apply linked_single; auto.
  - rewrite SD, <- XE. exact Rx.
  - rewrite <- YE. exact Ry.
Qed.

Lemma single_depends x y : runs pr p x -> runs pr p y -> single x y -> depends pr p x y.
Proof.
  destruct x as [a s], y as [b t]. intros R1 R2 (dd & I & RR & E1 & E2 & IN). cbn in *. subst a b. now apply depends_one.
Qed.

Lemma cover_ind n : forall u x v y w, (length v < n)%nat -> orig = u ++ x :: v ++ y :: w -> conflict pr ra wa p x y -> depends pr p x y.
Proof.
  induction n as [|n IH]; intros u x v y w Lv E (l & K); [lia|].
  destruct (in_dec loc_eq_dec l (concat (map (fun z : inst => cells (wa (fst z)) (s_writes (stmt_of pr (fst z))) (snd z) p) v))) as [I|I].
  - apply in_concat in I. destruct I as (c & Ic & Il). apply in_map_iff in Ic. destruct Ic as (z & <- & Iz).
    apply in_split in Iz. destruct Iz as (v1 & v2 & ->).
    rewrite app_length in Lv. cbn in Lv.
    apply depends_chain with z.
    + apply (IH u x v1 z (v2 ++ y :: w)); [lia| |].
      * rewrite E, <- app_assoc. reflexivity.
      * exists l. tauto.
    + apply (IH (u ++ x :: v1) z v2 y w); [lia| |].
      * rewrite E, <- !app_assoc. cbn. now rewrite <- ?app_assoc.
      * exists l. tauto.
  - assert (B : before orig x y) by now exists u, v, w. destruct (before_in _ _ _ B) as [Ix Iy].
    apply single_depends; [now apply ALL|now apply ALL|]. apply direct_single with l; auto.
    intros _ z B1 B2 Iz. apply I. apply in_concat. eexists. split; [|exact Iz].
    apply (in_map (fun z : inst => cells (wa (fst z)) (s_writes (stmt_of pr (fst z))) (snd z) p)).
    apply (between_in orig u x v y w); auto. apply ALL.
Qed.

Theorem deps_cover_all : deps_cover pr ra wa p orig.
Proof. intros x y (u & v & w & E) K. apply (cover_ind (S (length v)) u x v y w); auto. Qed.
End Cover.
