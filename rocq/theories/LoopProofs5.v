(** * Programs with recomputed dependence information; dominating loops and bands. *)
From Coq Require Import ZArith List Bool Lia Arith Permutation.
From Verif Require Import SpecLinear MathModel ConstraintsModel VecProofs EditProofs MatrixProofs SpecProg SpecTile SpecLoop
  RankProofs SumProofs FrameworkModel ProgModel DepProofs SimplifyProofs LexProofs ProgProofs TileModel TileProofs TileProofs2 TileProofs3
  LoopModel LoopProofs LoopProofs2 LoopProofs3 LoopProofs4.
Import ListNotations.
Open Scope Z_scope.

Section Info.
Variable f : cst -> bool.
Variable pr : prog.
Let q := computed f pr.

Lemma cq_stmts : p_stmts q = p_stmts pr. Proof. apply computed_stmts. Qed.
Lemma cq_hprops : p_hprops q = p_hprops pr. Proof. apply computed_stmts. Qed.
Lemma cq_npar : p_npar q = p_npar pr. Proof. apply computed_stmts. Qed.
Lemma cq_stmt s : stmt_of q s = stmt_of pr s. Proof. apply computed_stmt. Qed.

Lemma cq_dep d' : In d' (p_deps q) -> exists d, In d (p_deps pr) /\ same_dep d d'.
Proof. intros H. destruct (Forall2_in_r _ _ _ d' (computed_deps f pr) H) as (d & A & B). eauto. Qed.

Lemma cq_instance d d' s t p : same_dep d d' -> instance q d' s t p <-> instance pr d s t p.
Proof. intros (A & B & C & D & E). unfold instance. rewrite !cq_stmt, cq_npar, A, B, D. tauto. Qed.
Lemma cq_distance d d' k s t p : same_dep d d' -> distance q d' k s t p = distance pr d k s t p.
Proof. intros (A & B & C & D & E). unfold distance. rewrite !cq_stmt, A, B. auto. Qed.
Lemma cq_rar d d' : same_dep d d' -> d_rar d' = d_rar d.
Proof. intros (A & B & C & D & E). auto. Qed.

Lemma cq_wf : wf_levels pr -> wf_levels q.
Proof.
  intros [[W1 W2] W3]. unfold wf_levels, wf_core, wf_cols. setoid_rewrite cq_stmts. setoid_rewrite cq_stmt. setoid_rewrite cq_npar. setoid_rewrite cq_hprops.
  split; [split|]; auto. intros d Hd. destruct (cq_dep d Hd) as (d0 & H0 & (A & B & C & D & E)). destruct (W2 d0 H0) as (X & Y & Z & T).
  rewrite A, B, D. auto.
Qed.
Lemma cq_plain : plain_levels pr -> plain_levels q.
Proof.
  intros H. unfold plain_levels, constant_level. setoid_rewrite cq_stmts. setoid_rewrite cq_stmt. setoid_rewrite cq_hprops. setoid_rewrite cq_npar. exact H.
Qed.
Lemma cq_uniform : uniform pr -> uniform q.
Proof.
  intros H. unfold uniform, fused. setoid_rewrite cq_stmts. setoid_rewrite cq_stmt. setoid_rewrite cq_hprops. setoid_rewrite cq_npar. exact H.
Qed.
Lemma cq_leveled : leveled pr -> leveled q.
Proof.
  intros H d' Hd R. destruct (cq_dep d' Hd) as (d & H0 & S). destruct (H d H0) as (L & A & B & C). rewrite <- (cq_rar d d'); auto.
  exists L. split; [rewrite cq_hprops; auto|]. split.
  - intros s t p I. rewrite (cq_distance d d'); auto. apply B. apply (cq_instance d d'); auto.
  - intros j Hj s t p I. rewrite (cq_distance d d'); auto. apply (C j Hj). apply (cq_instance d d'); auto.
Qed.
Lemma cq_legal : legal pr <-> legal q.
Proof.
  split; intros H d Hd R.
  - destruct (cq_dep d Hd) as (d0 & H0 & S). pose proof S as (A & B & C & _). rewrite C in R. intros s t p I.
    rewrite !cq_stmt, A, B. apply (H d0 H0 R). apply (cq_instance d0 d); auto.
  - pose proof (computed_deps f pr) as F. change (computed f pr) with q in F.
    assert (exists d', In d' (p_deps q) /\ same_dep d d') as (d' & Hd' & S).
    { clear - F Hd. induction F as [|x y l l' S F IH]; [destruct Hd|]. destruct Hd as [<-|Hd]; [exists y; simpl; auto|].
      destruct (IH Hd) as (d' & A & B). exists d'. simpl; auto. }
    pose proof S as (A & B & C & _). intros s t p I. rewrite <- A, <- B, <- !cq_stmt. apply (H d' Hd'); [congruence|]. apply (cq_instance d d'); auto.
Qed.
End Info.

Lemma leveled_legal pr : wf_levels pr -> leveled pr -> legal pr.
Proof.
  intros W L d Hd R s t p I. destruct (L d Hd R) as (k & A & B & C). destruct (proj2 (proj1 W) d Hd) as (D1 & D2 & _).
  apply (lexlt_at k); rewrite ?timestamp_len; auto.
  - intros i Hi. rewrite !timestamp_at by (auto; lia). apply (C i Hi); auto.
  - rewrite !timestamp_at by auto. apply B; auto.
Qed.

(** ** Dominators *)
Section Dom.
Context {A : Type} (dom : A -> A -> bool) (l : list A) (P : A -> Prop).
Hypothesis HP : forall x, In x l -> P x.
Hypothesis TR : forall x y z, P x -> P y -> P z -> dom x y = true -> dom y z = true -> dom x z = true.
Variable rank : A -> nat.
Hypothesis RK : forall x y, P x -> P y -> dom x y = true -> (rank y < rank x)%nat.

Definition undominated : list A := filter (fun x => negb (existsb (dom x) l)) l.
Lemma undominated_cover x : In x l -> exists y, In y undominated /\ (x = y \/ dom x y = true).
Proof.
  remember (rank x) as n eqn:E. revert x E. induction n as [n IH] using lt_wf_ind. intros x E Hx.
  destruct (existsb (dom x) l) eqn:D.
  - apply existsb_exists in D as (y & Hy & D). destruct (IH (rank y)) with (x := y) as (z & Hz & K); auto. { subst. apply RK; auto. }
    exists z. split; auto. right. pose proof (proj1 (filter_In _ _ _) Hz) as [Hz' _]. destruct K as [->|K]; auto. apply (TR x y z); auto.
  - exists x. split; auto. apply filter_In. split; auto. rewrite D. auto.
Qed.
Lemma undominated_anti x y : In x undominated -> In y undominated -> dom x y = false.
Proof.
  intros Hx Hy. apply filter_In in Hx as [Hx N]. apply filter_In in Hy as [Hy _]. apply negb_true_iff in N.
  destruct (dom x y) eqn:D; auto. assert (existsb (dom x) l = true); [|congruence]. apply existsb_exists. eauto.
Qed.
End Dom.

Section DomLoops.
Variable pr : prog.
Hypothesis W : wf_levels pr.
Hypothesis PL : plain_levels pr.
Hypothesis UN : uniform pr.
Let TO : forall s, (s < length (p_stmts pr))%nat -> types_ok (stmt_of pr s).
Proof. intros s Hs. apply PL; auto. Qed.

Definition inside (l1 l2 : ploop) : Prop := (l_depth l2 < l_depth l1)%nat /\ forall s, In s (l_stmts l1) -> In s (l_stmts l2).

Lemma dominated_inside l1 l2 : In l1 (get_all_loops pr) -> In l2 (get_all_loops pr) ->
  (is_loop_dominated pr l1 l2 = true <-> inside l1 l2).
Proof.
  intros H1 H2. pose proof (loop_hd pr l1 H1) as A. pose proof (loop_hd pr l2 H2) as B. split.
  - unfold is_loop_dominated. rewrite andb_true_iff, Nat.ltb_lt, forallb_forall. intros [LT F]. split; auto.
    set (x := hd 0%nat (l_stmts l1)) in *. set (y := hd 0%nat (l_stmts l2)) in *.
    destruct (all_loops_class pr W PL UN l2 H2) as [C1 C2]. destruct (all_loops_class pr W PL UN l1 H1) as [D1 D2].
    pose proof (D1 _ A) as Nx. pose proof (C1 _ B) as Ny. destruct (all_loops_ok pr l2 H2) as (Q & _).
    assert (In x (l_stmts l2)) as HX.
    { apply (C2 y x); auto.
      destruct (fused_cases pr W PL (l_depth l2) y x) as [FU|(j & Hj & E1 & E2 & E3)]; auto; try lia.
      exfalso. specialize (F j). rewrite in_seq in F. specialize (F ltac:(lia)).
      rewrite !scalar_level, E1, E2 in F by (auto; rewrite (proj2 W); auto; lia). cbn in F. apply Z.eqb_eq in F. congruence. }
    intros s Hs. apply (nested pr W PL UN l2 l1 x); auto. lia.
  - intros [LT S]. apply (dominated pr W PL UN l1 l2 (hd 0%nat (l_stmts l1))); auto.
Qed.

Lemma not_dominated_ok loops : (forall lp, In lp loops -> In lp (get_all_loops pr)) ->
  (forall l1 l2, In l1 (not_dominated pr loops) -> In l2 (not_dominated pr loops) -> ~ inside l1 l2) /\
  (forall lp, In lp loops -> exists r, In r (not_dominated pr loops) /\ (lp = r \/ inside lp r)) /\
  (forall lp, In lp (not_dominated pr loops) -> In lp loops).
Proof.
  intros H. split; [|split].
  - intros l1 l2 H1 H2 I. pose proof (proj1 (proj1 (filter_In _ _ _) H1)) as K1. pose proof (proj1 (proj1 (filter_In _ _ _) H2)) as K2.
    apply dominated_inside in I; auto. pose proof (undominated_anti (is_loop_dominated pr) loops l1 l2 H1 H2) as E. congruence.
  - intros lp Hl. destruct (undominated_cover (is_loop_dominated pr) loops (fun lp => In lp (get_all_loops pr)) H) with (rank := l_depth) (x := lp) as (r & Hr & K); auto.
    + intros x y z Px Py Pz D1 D2. apply dominated_inside in D1, D2; auto. apply dominated_inside; auto. destruct D1, D2. split; [lia|auto].
    + intros x y Px Py D. apply dominated_inside in D; auto. apply D.
    + exists r. split; auto. destruct K as [K|K]; auto. right. apply dominated_inside; auto. apply H. apply (proj1 (filter_In _ _ _) Hr).
  - intros lp Hl. apply filter_In in Hl. tauto.
Qed.
End DomLoops.

Definition band_inside (b1 b2 : pband) : Prop :=
  (forall s, In s (l_stmts (pb_loop b1)) -> In s (l_stmts (pb_loop b2))) /\
  ((l_depth (pb_loop b2) < l_depth (pb_loop b1))%nat \/
   (l_depth (pb_loop b1) = l_depth (pb_loop b2) /\ (pb_width b1 < pb_width b2)%nat)).
Lemma band_dominated_iff b1 b2 : is_band_dominated b1 b2 = true <-> band_inside b1 b2.
Proof. unfold is_band_dominated, band_inside. rewrite andb_true_iff, orb_true_iff, andb_true_iff, !Nat.ltb_lt, Nat.eqb_eq, subset_In. tauto. Qed.

Lemma dominator_bands_ok bands :
  (forall b1 b2, In b1 (get_dominator_bands bands) -> In b2 (get_dominator_bands bands) -> ~ band_inside b1 b2) /\
  (forall b, In b bands -> exists r, In r (get_dominator_bands bands) /\ (b = r \/ band_inside b r)) /\
  (forall b, In b (get_dominator_bands bands) -> In b bands).
Proof.
  split; [|split].
  - intros b1 b2 H1 H2 I. apply band_dominated_iff in I. pose proof (undominated_anti is_band_dominated bands b1 b2 H1 H2). congruence.
  - intros b Hb. set (M := fold_right Nat.max 0%nat (map pb_width bands)).
    assert (forall c, In c bands -> (pb_width c <= M)%nat) as HM.
    { unfold M. clear. induction bands as [|x r IH]; cbn; [tauto|]. intros c [<-|H]; [lia|]. specialize (IH c H). lia. }
    destruct (undominated_cover is_band_dominated bands (fun c => (pb_width c <= M)%nat) HM) with
      (rank := fun c => (l_depth (pb_loop c) * S M + (M - pb_width c))%nat) (x := b) as (r & Hr & K); auto.
    + intros x y z _ _ _ D1 D2. apply band_dominated_iff in D1, D2. apply band_dominated_iff. destruct D1 as [S1 D1], D2 as [S2 D2]. split; auto. lia.
    + intros x y Px Py D. apply band_dominated_iff in D as [_ [D|[D1 D2]]].
      * apply Nat.lt_le_trans with (l_depth (pb_loop y) * S M + S M)%nat; [lia|]. replace (l_depth (pb_loop y) * S M + S M)%nat with (S (l_depth (pb_loop y)) * S M)%nat by lia.
        pose proof (Nat.mul_le_mono_r (S (l_depth (pb_loop y))) (l_depth (pb_loop x)) (S M) D). lia.
      * rewrite D1. lia.
    + exists r. split; auto. destruct K as [K|K]; auto. right. apply band_dominated_iff; auto.
  - intros b Hb. apply filter_In in Hb. tauto.
Qed.
