(** * Proofs: reordering instances that do not conflict keeps the memory. *)
From Coq Require Import ZArith List Bool Permutation Lia.
From Verif Require Import SpecLinear MathModel SpecProg SpecExec.
Import ListNotations.

Lemma store_same {V} (m : memory V) l v : store m l v l = v.
Proof. unfold store. destruct (loc_eq_dec l l); congruence. Qed.
Lemma store_other {V} (m : memory V) l v l' : l' <> l -> store m l v l' = m l'.
Proof. unfold store. destruct (loc_eq_dec l' l); congruence. Qed.

Lemma store_all_notin {V} ls : forall (vs : list V) m l, ~ In l ls -> store_all m ls vs l = m l.
Proof.
  induction ls as [|a ls IH]; intros [|v vs] m l N; cbn; auto.
  rewrite IH by (intro; apply N; now right). apply store_other. intro; apply N; subst; now left.
Qed.

Lemma store_all_ext {V} ls : forall (vs : list V) m m' l, m l = m' l -> store_all m ls vs l = store_all m' ls vs l.
Proof.
  induction ls as [|a ls IH]; intros [|v vs] m m' l H; cbn; auto.
  apply IH. unfold store. destruct (loc_eq_dec l a); auto.
Qed.

Lemma run_instance_out {V} body rl wl (m : memory V) l : ~ In l wl -> run_instance body rl wl m l = m l.
Proof. apply store_all_notin. Qed.

Lemma run_instance_ext {V} body rl wl (m m' : memory V) l :
  (forall c, In c rl -> m c = m' c) -> m l = m' l -> run_instance body rl wl m l = run_instance body rl wl m' l.
Proof.
  intros R L. unfold run_instance. replace (map m' rl) with (map m rl) by (apply map_ext_in; auto).
  now apply store_all_ext.
Qed.

(** The two instances have no cell in common that one of them writes. *)
Definition apart (r1 w1 r2 w2 : list loc) : Prop :=
  (forall c, In c w1 -> ~ In c r2 /\ ~ In c w2) /\ (forall c, In c w2 -> ~ In c r1 /\ ~ In c w1).

Lemma run_instance_commute {V} b1 r1 w1 b2 r2 w2 (m : memory V) l : apart r1 w1 r2 w2 ->
  run_instance b2 r2 w2 (run_instance b1 r1 w1 m) l = run_instance b1 r1 w1 (run_instance b2 r2 w2 m) l.
Proof.
  intros [A1 A2].
  destruct (in_dec loc_eq_dec l w1) as [I1|I1].
  - destruct (A1 _ I1) as [_ N2]. rewrite run_instance_out by exact N2.
    apply run_instance_ext; [|symmetry; now apply run_instance_out].
    intros c Ic. symmetry. apply run_instance_out. intro K. exact (proj1 (A2 _ K) Ic).
  - rewrite (run_instance_out b1 r1 w1) by exact I1.
    destruct (in_dec loc_eq_dec l w2) as [I2|I2].
    + apply run_instance_ext; [|now apply run_instance_out].
      intros c Ic. apply run_instance_out. intro K. exact (proj1 (A1 _ K) Ic).
    + rewrite !run_instance_out by auto. reflexivity.
Qed.

Section Run.
Context {V : Type}.
Variables (rd wr : inst -> list loc) (body : inst -> list V -> list V).
Let step (x : inst) (m : memory V) : memory V := run_instance (body x) (rd x) (wr x) m.

Lemma step_ext x m m' : (forall l, m l = m' l) -> forall l, step x m l = step x m' l.
Proof. intros H l. apply run_instance_ext; auto. Qed.

Lemma run_ext l : forall m m', (forall c, m c = m' c) -> forall c, run step l m c = run step l m' c.
Proof.
  induction l as [|x l IH]; intros m m' H c; cbn; auto.
  apply IH. intros d. now apply step_ext.
Qed.

Lemma run_app l1 l2 m : run step (l1 ++ l2) m = run step l2 (run step l1 m).
Proof. revert m. induction l1; intros m; cbn; auto. Qed.

Definition clash (x y : inst) : Prop :=
  exists l, (In l (wr x) /\ (In l (rd y) \/ In l (wr y))) \/ (In l (rd x) /\ In l (wr y)).

Lemma not_clash_apart x y : ~ clash x y -> apart (rd x) (wr x) (rd y) (wr y).
Proof.
  intros N. split; intros c Ic; split; intro K; apply N; exists c; cbn; auto.
Qed.

Lemma run_move u : forall a m, (forall x, In x u -> ~ clash x a) ->
  forall c, run step (u ++ [a]) m c = run step (a :: u) m c.
Proof.
  induction u as [|x u IH]; intros a m H c; [reflexivity|].
  cbn [app run]. rewrite IH by (intros; apply H; now right).
  cbn [run]. apply run_ext. intros d. apply run_instance_commute. apply not_clash_apart, H. now left.
Qed.

Lemma before_cons {A} (x : A) l a b : before l a b -> before (x :: l) a b.
Proof. intros (u & v & w & ->). now exists (x :: u), v, w. Qed.
Lemma before_in {A} (l : list A) a b : before l a b -> In a l /\ In b l.
Proof. intros (u & v & w & ->). split; apply in_app_iff; right; [now left | right; apply in_app_iff; right; now left]. Qed.
Lemma before_tail {A} (x : A) l a b : before (x :: l) a b -> ~ In x l -> b <> x /\ (a <> x -> before l a b).
Proof.
  intros (u & v & w & E) N. destruct u as [|y u]; cbn in E; injection E as -> E.
  - split; [|congruence]. intros ->. apply N. rewrite E. apply in_app_iff. right. now left.
  - split.
    + intros ->. apply N. rewrite E. apply in_app_iff. right. right. apply in_app_iff. right. now left.
    + intros _. now exists u, v, w.
Qed.
Lemma before_insert {A} (u w : list A) x a b : before (u ++ w) a b -> before (u ++ x :: w) a b.
Proof.
  revert w. induction u as [|y u IH]; intros w H; cbn in *; [now apply before_cons|].
  destruct H as (u1 & v1 & w1 & E). destruct u1 as [|z u1]; cbn in E; injection E as -> E.
  - assert (Ib : In b (u ++ w)) by (rewrite E; apply in_app_iff; right; now left).
    assert (Ib' : In b (u ++ x :: w)) by (rewrite in_app_iff in *; cbn; tauto).
    apply in_split in Ib'. destruct Ib' as (v & w' & ->). now exists [], v, w'.
  - apply before_cons, IH. now exists u1, v1, w1.
Qed.

Lemma run_reorder l2 : forall l1 m, NoDup l1 -> Permutation l1 l2 ->
  (forall x y, before l1 x y -> clash x y -> before l2 x y) ->
  forall c, run step l1 m c = run step l2 m c.
Proof.
  induction l2 as [|a l2 IH]; intros l1 m N P H c.
  - apply Permutation_sym, Permutation_nil in P. now subst.
  - assert (Ia : In a l1) by (eapply Permutation_in; [apply Permutation_sym, P | now left]).
    apply in_split in Ia. destruct Ia as (u & w & ->).
    assert (N2 : NoDup (a :: l2)) by (eapply Permutation_NoDup; eauto).
    inversion N2 as [|? ? Na _]; subst.
    assert (P' : Permutation (u ++ w) l2).
    { apply Permutation_cons_inv with a. etransitivity; [|exact P]. apply Permutation_middle. }
    assert (Nuw : NoDup (u ++ w) /\ ~ In a (u ++ w)) by (split; [eapply NoDup_remove_1 | eapply NoDup_remove_2]; eauto).
    replace (u ++ a :: w) with ((u ++ [a]) ++ w) by (rewrite <- app_assoc; reflexivity).
    rewrite run_app.
    assert (M : forall d, run step (u ++ [a]) m d = run step (a :: u) m d).
    { apply run_move. intros x Ix K.
      assert (B : before (a :: l2) x a).
      { apply H; auto. apply in_split in Ix. destruct Ix as (u1 & u2 & ->). exists u1, u2, w. rewrite <- app_assoc. reflexivity. }
      apply before_tail in B; auto. now apply (proj1 B). }
    rewrite (run_ext w _ _ M). cbn [run]. rewrite <- run_app.
    apply IH; try tauto.
    intros x y B K.
    assert (B2 : before (a :: l2) x y) by (apply H; auto; now apply before_insert).
    apply before_tail in B2; auto. apply B2. intros ->. apply before_in in B. tauto.
Qed.
End Run.
