(** * From the calculus on lists of references to the specification. *)
From Coq Require Import List Arith Bool Lia Permutation.
From Verif Require Import SpecOwn OwnModel OwnProofs OwnProofs2.
Import ListNotations.

Lemma sane_okh h : sane h -> okh h (live h) [] (bad h).
Proof. intros [N F]. split; [|split; [|split; [|split]]]; auto. intros d []. Qed.

Lemma okh_sane h A D B : okh h A D B -> sane h.
Proof.
  intros [P [N [F _]]]. split.
  - eapply Permutation_NoDup; [apply Permutation_sym|]; eauto.
  - intros n I. apply F. eapply Permutation_in; eauto.
Qed.

Lemma split_args (ts : list nat) : forall l, NoDup l -> NoDup ts -> incl ts l ->
  exists F, Permutation l (ts ++ F) /\ forall n, In n F <-> In n l /\ ~ In n ts.
Proof.
  induction ts as [|t ts IH]; intros l N T I.
  - exists l. split; [apply Permutation_refl|]. cbn. tauto.
  - inversion T as [|? ? T1 T2]; subst. assert (It : In t l) by (apply I; now left).
    apply in_split in It. destruct It as [l1 [l2 ->]].
    assert (P : Permutation (l1 ++ t :: l2) (t :: l1 ++ l2)) by (apply Permutation_sym, Permutation_middle).
    assert (N2 := Permutation_NoDup P N). inversion N2 as [|? ? N3 N4]; subst.
    destruct (IH (l1 ++ l2) N4 T2) as [F [P1 H1]].
    + intros x Ix. assert (J := I x (or_intror Ix)). apply (Permutation_in x P) in J. destruct J as [<-|J]; [contradiction|auto].
    + exists F. split.
      * eapply perm_trans; [exact P|]. cbn. now apply perm_skip.
      * intros n. rewrite H1. split.
        -- intros [J K]. split.
           ++ apply (Permutation_in n (Permutation_sym P)). now right.
           ++ intros [<-|J1]; [contradiction|auto].
        -- intros [J K]. apply (Permutation_in n P) in J. split.
           ++ destruct J as [<-|J]; auto. destruct K. now left.
           ++ intros J1. apply K. now right.
Qed.

Lemma owned_split h ts : sane h -> owned h (map Some ts) ->
  exists F, Permutation (live h) (ts ++ F) /\ forall n, In n F <-> In n (live h) /\ ~ In (Some n) (map Some ts).
Proof.
  intros [N _] [I U].
  assert (T : NoDup ts).
  { apply NoDup_nth_error. intros i j Li E. destruct (nth_error ts i) as [n|] eqn:Ei.
    - apply (U i j n); rewrite nth_error_map; [now rewrite Ei|now rewrite <- E].
    - apply nth_error_Some in Li. congruence. }
  destruct (split_args ts (live h) N T) as [F [P H]].
  - intros n In1. apply I. now apply in_map.
  - exists F. split; auto. intros n. rewrite H.
    assert (X : In (Some n) (map Some ts) <-> In n ts); [|tauto].
    rewrite in_map_iff. split; [intros [m [E J]]; now inversion E; subst|intros J; exists n; auto].
Qed.

Lemma handed_of h h' args res F D B :
  (forall n, In n F <-> In n (live h) /\ ~ In (Some n) args) -> okh h' (res_list res ++ F) D B -> handed_over h args res h'.
Proof.
  intros H K. split; [eapply okh_sane; eauto|]. intros n. destruct K as [P _]. split.
  - intros I. apply (Permutation_in n P) in I. apply in_app_or in I. destruct I as [I|I].
    + right. destruct res; [destruct I as [<-|[]]|destruct I]. auto.
    + left. now apply H.
  - intros I. apply (Permutation_in n (Permutation_sym P)). apply in_or_app. destruct I as [I| ->].
    + right. now apply H.
    + left. now left.
Qed.

(** Running a function of the calculus on owned arguments. *)
Lemma run_owned X (m : M X) h ts Q :
  sane h -> owned h (map Some ts) ->
  (forall A, wp m (ts ++ A) [] (bad h) (Q A)) ->
  exists F A' D' B', (forall n, In n F <-> In n (live h) /\ ~ In (Some n) (map Some ts)) /\
    Q F (fst (m h)) A' D' B' /\ okh (snd (m h)) A' D' B'.
Proof.
  intros S O W. destruct (owned_split h ts S O) as [F [P H]].
  destruct (W F h) as [A' [D' [B' [q K]]]].
  - eapply okh_perm; [exact P|]. now apply sane_okh.
  - exists F, A', D', B'. auto.
Qed.

Lemma run_eats m h ts : sane h -> owned h (map Some ts) -> eats m ts -> clean h (map Some ts) None (snd (m h)).
Proof.
  intros S O E. destruct (run_owned unit m h ts (fun A _ A' D' B' => A' = A /\ D' = [] /\ B' = bad h) S O) as [F [A' [D' [B' [H [[-> [-> ->]] K]]]]]].
  - intros A. apply E.
  - split.
    + apply (handed_of _ _ _ _ F [] (bad h)); auto.
    + now destruct K as [_ [_ [_ [_ ->]]]].
Qed.

Lemma run_keeps m h n : sane h -> In n (live h) -> keeps m n -> clean h [] None (snd (m h)).
Proof.
  intros S I E. destruct (E (live h) [] (bad h) I h (sane_okh h S)) as [A' [D' [B' [[-> [-> ->]] K]]]].
  split.
  - apply (handed_of _ _ _ _ (live h) [] (bad h)); auto. intros k. cbn. tauto.
  - now destruct K as [_ [_ [_ [_ ->]]]].
Qed.

(** The same with one more reference, which is kept. *)
Lemma run_owned_c X (m : M X) h c ts Q :
  sane h -> owned h (Some c :: map Some ts) ->
  (forall A, In c A -> wp m (ts ++ A) [] (bad h) (Q A)) ->
  exists F A' D' B', (forall n, In n F <-> In n (live h) /\ ~ In (Some n) (map Some ts)) /\
    Q F (fst (m h)) A' D' B' /\ okh (snd (m h)) A' D' B'.
Proof.
  intros Sh [I U] W.
  assert (O : owned h (map Some ts)).
  { split.
    - intros n J. apply I. now right.
    - intros i j n E1 E2. assert (K := U (S i) (S j) n E1 E2). lia. }
  destruct (owned_split h ts Sh O) as [F [P H]].
  destruct (W F) with (h := h) as [A' [D' [B' [q K]]]].
  - apply H. split; [apply I; now left|]. intros J. apply In_nth_error in J. destruct J as [j J].
    assert (K := U 0 (S j) c eq_refl J). lia.
  - eapply okh_perm; [exact P|]. now apply sane_okh.
  - exists F, A', D', B'. auto.
Qed.

Lemma okh_B h A D B : okh h A D B -> bad h = B.
Proof. now intros [_ [_ [_ [_ ->]]]]. Qed.
