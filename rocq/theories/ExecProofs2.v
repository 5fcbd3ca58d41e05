(** * Proofs: a correct transformation computes the same result. *)
From Coq Require Import ZArith List Bool Permutation Lia.
From Verif Require Import SpecLinear MathModel SpecProg SpecLoop SpecFlow SpecExec ExecProofs LexProofs.
Import ListNotations.
Open Scope Z_scope.

Definition moved (E : nat -> point -> point -> point) (p : point) (x : inst) : inst := (fst x, E (fst x) (snd x) p).

Lemma NoDup_of_map {A B} (f : A -> B) l : NoDup (map f l) -> NoDup l.
Proof.
  induction l as [|a l IH]; intros N; constructor; inversion N; subst; auto.
  intro I. apply H1. now apply in_map.
Qed.

Lemma before_map_inv {A B} (f : A -> B) l x y : (forall a b, In a l -> In b l -> f a = f b -> a = b) ->
  In x l -> In y l -> before (map f l) (f x) (f y) -> before l x y.
Proof.
  intros J Ix Iy (u & v & w & E).
  apply map_eq_app in E. destruct E as (l1 & l2 & -> & <- & E).
  destruct l2 as [|x' l2]; [discriminate|]. cbn in E. injection E as Ex E.
  apply map_eq_app in E. destruct E as (l3 & l4 & -> & <- & E).
  destruct l4 as [|y' l4]; [discriminate|]. cbn in E. injection E as Ey E.
  assert (x' = x). { apply J; auto. apply in_app_iff. right. now left. }
  assert (y' = y). { apply J; auto. apply in_app_iff. right. right. apply in_app_iff. right. now left. }
  subst. now exists l1, l3, l4.
Qed.

Lemma before_trans {A} (l : list A) x y z : NoDup l -> before l x y -> before l y z -> before l x z.
Proof.
  intros N (u & v & w & E) (u' & v' & w' & E').
  assert (P : u ++ x :: v ++ y :: w = (u ++ x :: v) ++ y :: w) by (rewrite <- app_assoc; reflexivity).
  rewrite P in E. rewrite E in E', N.
  assert (Q : u ++ x :: v = u' /\ w = v' ++ z :: w').
  { clear - E' N. revert u' E' N. generalize (u ++ x :: v) as a. intros a. induction a as [|b a IH]; intros u' E' N.
    - destruct u' as [|c u']; cbn in E'; [injection E' as E2; split; auto|].
      injection E' as E1 E2. exfalso. inversion N as [|? ? K _]. apply K. rewrite E2. apply in_app_iff. right. now left.
    - destruct u' as [|c u']; cbn in E'; injection E' as E1 E2.
      + exfalso. cbn in N. inversion N; subst. apply H1. apply in_app_iff. right. now left.
      + subst c. cbn in N. inversion N; subst. destruct (IH u' E2 H2) as [-> ->]. split; auto. }
  destruct Q as [<- ->]. exists u, (v ++ y :: v'), w'. rewrite E, <- !app_assoc. cbn. now rewrite <- ?app_assoc.
Qed.

Section Carry.
Variables (pr r : prog) (E : nat -> point -> point -> point) (p : point).
Hypothesis C : carries pr r E.
Hypothesis LP : length p = p_npar pr.

Lemma moved_runs x : runs pr p x -> runs r p (moved E p x).
Proof.
  destruct C as (N & _ & C1 & _). intros [A B]. destruct (C1 _ _ A LP) as (S & _ & _).
  split; cbn; [now rewrite N|]. apply S. eauto.
Qed.

Lemma moved_onto y : runs r p y -> exists x, runs pr p x /\ y = moved E p x.
Proof.
  destruct C as (N & _ & C1 & _). intros [A B]. rewrite N in A. destruct (C1 _ _ A LP) as (S & _ & _).
  apply S in B. destruct B as (i & I & Ei). exists (fst y, i). split; [split; auto|].
  destruct y as [s x]. unfold moved. cbn in *. now rewrite Ei.
Qed.

Lemma moved_inj x y : runs pr p x -> runs pr p y -> moved E p x = moved E p y -> x = y.
Proof.
  destruct C as (N & _ & C1 & _). intros [A B] [A' B'] EQ. unfold moved in EQ. injection EQ as E1 E2.
  destruct x as [s i], y as [t j]. cbn in *. subst t. destruct (C1 _ _ A LP) as (_ & _ & J & _). f_equal. now apply J.
Qed.

Lemma unmove l : (forall y, In y l -> runs r p y) -> exists l0, l = map (moved E p) l0 /\ (forall x, In x l0 -> runs pr p x).
Proof.
  induction l as [|y l IH]; intros H.
  - exists []. split; auto. intros x [].
  - destruct IH as (l0 & -> & R); [intros; apply H; now right|].
    destruct (moved_onto y) as (x & Rx & ->); [apply H; now left|].
    exists (x :: l0). split; auto. intros z [<-|I]; auto.
Qed.

Lemma moved_cells ra wa x : runs pr p x ->
  cells (ra (fst x)) (s_reads (stmt_of r (fst x))) (E (fst x) (snd x) p) p = cells (ra (fst x)) (s_reads (stmt_of pr (fst x))) (snd x) p /\
  cells (wa (fst x)) (s_writes (stmt_of r (fst x))) (E (fst x) (snd x) p) p = cells (wa (fst x)) (s_writes (stmt_of pr (fst x))) (snd x) p.
Proof.
  destruct C as (N & _ & C1 & _). intros [A B]. destruct (C1 _ _ A LP) as (_ & _ & _ & S). destruct (S _ B) as [S1 S2].
  unfold cells. now rewrite S1, S2.
Qed.

Context {V : Type}.
Variables (ra wa : nat -> list nat) (body body' : nat -> point -> list V -> list V).
Hypothesis B : forall s i, runs pr p (s, i) -> body' s (E s i p) = body s i.

Lemma run_moved l : (forall x, In x l -> runs pr p x) -> forall m,
  run (step_of r ra wa body' p) (map (moved E p) l) m = run (step_of pr ra wa body p) l m.
Proof.
  induction l as [|x l IH]; intros H m; [reflexivity|].
  cbn [map run]. rewrite IH by (intros; apply H; now right). f_equal.
  assert (R : runs pr p x) by (apply H; now left).
  destruct (moved_cells ra wa x R) as [K1 K2]. destruct x as [s i]. unfold moved, step_of. cbn in *.
  now rewrite K1, K2, (B s i R).
Qed.

Theorem carried_run orig new m :
  all_instances pr p orig -> all_instances r p new ->
  (forall x y, before orig x y -> conflict pr ra wa p x y -> before new (moved E p x) (moved E p y)) ->
  forall c, run (step_of r ra wa body' p) new m c = run (step_of pr ra wa body p) orig m c.
Proof.
  intros [N1 A1] [N2 A2] H c.
  destruct (unmove new) as (l0 & -> & R0); [intros y I; now apply A2|].
  rewrite run_moved by exact R0. symmetry.
  assert (J : forall a b, In a l0 -> In b l0 -> moved E p a = moved E p b -> a = b) by (intros; apply moved_inj; auto).
  set (rd := fun z : inst => cells (ra (fst z)) (s_reads (stmt_of pr (fst z))) (snd z) p).
  set (wr := fun z : inst => cells (wa (fst z)) (s_writes (stmt_of pr (fst z))) (snd z) p).
  set (bd := fun z : inst => body (fst z) (snd z)).
  assert (S : forall l m, run (step_of pr ra wa body p) l m = run (fun x m => run_instance (bd x) (rd x) (wr x) m) l m).
  { clear. induction l as [|[s i] l IH]; intros m; cbn; auto. }
  rewrite !S.
  assert (IN : forall x, In x orig <-> In x l0).
  { intros x. split; intro I.
    - apply A1 in I. assert (K : In (moved E p x) (map (moved E p) l0)) by (apply A2; now apply moved_runs).
      apply in_map_iff in K. destruct K as (x' & Ex & Ix). apply moved_inj in Ex; auto. now subst.
    - apply A1. now apply R0. }
  apply run_reorder; auto.
  - apply NoDup_Permutation; auto. now apply NoDup_of_map in N2.
  - intros x y Bf K. destruct (before_in _ _ _ Bf) as [Ix Iy]. apply before_map_inv with (f := moved E p); try (apply IN); auto.
Qed.
End Carry.

Lemma time_nth pr p x k : nth k (time_of pr p x) 0 = theta (stmt_of pr (fst x)) k (snd x) p.
Proof.
  unfold time_of, timestamp, theta. destruct (Nat.lt_ge_cases k (length (mrows (s_trans (stmt_of pr (fst x)))))) as [L|L].
  - rewrite nth_indep with (d' := aff [] (snd x ++ p)) by now rewrite map_length.
    now rewrite List.map_nth with (f := fun r => aff r (snd x ++ p)).
  - rewrite !nth_overflow; auto. now rewrite map_length.
Qed.

Lemma firstn_nth_eq {A} (l l' : list A) d k j : firstn k l = firstn k l' -> (j < k)%nat -> nth j l d = nth j l' d.
Proof.
  revert l l' j. induction k; intros l l' j H L; [lia|].
  destruct l as [|a l], l' as [|b l']; cbn in H; try discriminate; auto.
  injection H as -> H. destruct j; cbn; auto. apply IHk; auto. lia.
Qed.

Lemma not_concurrent r p ls k d' x y : parallel_level r ls k -> In d' (p_deps r) -> d_rar d' = false ->
  fst x = d_src d' -> fst y = d_dst d' -> instance r d' (snd x) (snd y) p -> ~ concurrent r p ls k x y.
Proof.
  intros PL I R S T K (I1 & I2 & F & D). apply D. rewrite S in I1. rewrite T in I2.
  pose proof (PL d' I R I1 I2 _ _ _ K) as ZZ.
  rewrite !time_nth. unfold distance in ZZ. rewrite S, T. cut (forall a b : Z, b - a = 0 -> a = b); [intros CU; apply CU|lia].
  apply ZZ. intros j Lj. rewrite <- S, <- T, <- !time_nth. rewrite (firstn_nth_eq _ _ 0 k j F Lj). lia.
Qed.
