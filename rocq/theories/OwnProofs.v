(** * Proofs about references: a small calculus over the list of owned references. *)
From Coq Require Import List Arith Bool Lia Permutation.
From Verif Require Import SpecOwn OwnModel.
Import ListNotations.

(** Owned references, references known to be spent, recorded lines. *)
Definition okh (h : heap) (A D B : list nat) : Prop :=
  Permutation (live h) A /\ NoDup A /\ (forall n, In n A -> n < fresh h) /\
  (forall d, In d D -> d < fresh h /\ ~ In d A) /\ bad h = B.

Definition wp {X} (m : M X) (A D B : list nat) (Q : X -> list nat -> list nat -> list nat -> Prop) : Prop :=
  forall h, okh h A D B -> exists A' D' B', Q (fst (m h)) A' D' B' /\ okh (snd (m h)) A' D' B'.

Lemma okh_perm h A A' D B : Permutation A A' -> okh h A D B -> okh h A' D B.
Proof.
  intros P [H1 [H2 [H3 [H4 H5]]]]. split; [|split; [|split; [|split]]]; auto.
  - eapply Permutation_trans; eauto.
  - eapply Permutation_NoDup; eauto.
  - intros n I. apply H3. eapply Permutation_in; [apply Permutation_sym|]; eauto.
  - intros d I. destruct (H4 d I) as [F N]. split; auto. intros I'. apply N.
    eapply Permutation_in; [apply Permutation_sym|]; eauto.
Qed.

Lemma okh_sub h A D D' B : incl D' D -> okh h A D B -> okh h A D' B.
Proof. intros I [H1 [H2 [H3 [H4 H5]]]]. split; [|split; [|split; [|split]]]; auto. Qed.

Lemma wp_perm X (m : M X) A A' D B Q : Permutation A A' -> wp m A' D B Q -> wp m A D B Q.
Proof. intros P H h K. apply H. eapply okh_perm; eauto. Qed.

Lemma wp_sub X (m : M X) A D D' B Q : incl D' D -> wp m A D' B Q -> wp m A D B Q.
Proof. intros P H h K. apply H. eapply okh_sub; eauto. Qed.

Lemma wp_ret X (x : X) A D B (Q : X -> list nat -> list nat -> list nat -> Prop) : Q x A D B -> wp (ret x) A D B Q.
Proof. intros H h K. exists A, D, B. auto. Qed.

Lemma wp_bind X Y (m : M X) (k : X -> M Y) A D B Q :
  wp m A D B (fun x A' D' B' => wp (k x) A' D' B' Q) -> wp (bind m k) A D B Q.
Proof.
  intros H h K. unfold bind. destruct (H h K) as [A' [D' [B' [H1 H2]]]].
  destruct (m h) as [x h']. cbn in *. apply H1; auto.
Qed.

Lemma wp_mono X (m : M X) A D B (Q R : X -> list nat -> list nat -> list nat -> Prop) :
  wp m A D B Q -> (forall x A' D' B', Q x A' D' B' -> R x A' D' B') -> wp m A D B R.
Proof. intros H I h K. destruct (H h K) as [A' [D' [B' [H1 H2]]]]. exists A', D', B'. auto. Qed.

Lemma wp_give A D B (Q : ref -> list nat -> list nat -> list nat -> Prop) :
  (forall n, (forall m, In m A -> m < n) -> ~ In n A -> Q (Some n) (n :: A) D B) -> wp give A D B Q.
Proof.
  intros H h [H1 [H2 [H3 [H4 H5]]]]. cbn. exists (fresh h :: A), D, B. split.
  - apply H; auto. intros I. apply H3 in I. lia.
  - split; [|split; [|split; [|split]]]; cbn; auto.
    + constructor; auto. intros I. apply H3 in I. lia.
    + intros n [<-|I]; [lia|]. apply H3 in I. lia.
    + intros d I. destruct (H4 d I) as [F N]. split; [lia|]. intros [E|I']; [lia|auto].
Qed.

Lemma is_live_in h n : is_live h n = true <-> In n (live h).
Proof.
  unfold is_live. rewrite existsb_exists. split.
  - intros [m [I E]]. apply Nat.eqb_eq in E. subst; auto.
  - intros I. exists n. split; auto. apply Nat.eqb_refl.
Qed.

Lemma wp_look line n A D B (Q : unit -> list nat -> list nat -> list nat -> Prop) :
  In n A -> Q tt A D B -> wp (look line (Some n)) A D B Q.
Proof.
  intros I H h K. cbn. assert (L : is_live h n = true).
  { apply is_live_in. destruct K as [P _]. eapply Permutation_in; [apply Permutation_sym|]; eauto. }
  rewrite L. exists A, D, B. auto.
Qed.

Lemma wp_look_null line A D B (Q : unit -> list nat -> list nat -> list nat -> Prop) :
  Q tt A D B -> wp (look line None) A D B Q.
Proof. intros H h K. exists A, D, B. auto. Qed.

Lemma okh_bad h A D B line : okh h A D B -> okh (mkHeap (live h) (fresh h) (bad h ++ [line])) A D (B ++ [line]).
Proof. intros [H1 [H2 [H3 [H4 H5]]]]. split; [|split; [|split; [|split]]]; cbn; auto. now rewrite H5. Qed.

Lemma dead_not_live h A D B n : okh h A D B -> In n D -> is_live h n = false.
Proof.
  intros [H1 [H2 [H3 [H4 H5]]]] I. destruct (is_live h n) eqn:E; auto.
  apply is_live_in in E. destruct (H4 n I) as [_ N]. destruct N. eapply Permutation_in; eauto.
Qed.

Lemma wp_look_dead line n A D B (Q : unit -> list nat -> list nat -> list nat -> Prop) :
  In n D -> Q tt A D (B ++ [line]) -> wp (look line (Some n)) A D B Q.
Proof.
  intros I H h K. cbn. rewrite (dead_not_live _ _ _ _ _ K I). exists A, D, (B ++ [line]). split; auto.
  now apply okh_bad.
Qed.

Lemma wp_take_dead line n A D B (Q : unit -> list nat -> list nat -> list nat -> Prop) :
  In n D -> Q tt A D (B ++ [line]) -> wp (take line (Some n)) A D B Q.
Proof.
  intros I H h K. cbn. rewrite (dead_not_live _ _ _ _ _ K I). exists A, D, (B ++ [line]). split; auto.
  now apply okh_bad.
Qed.

Lemma drop_perm n A A' : NoDup A -> Permutation A (n :: A') -> Permutation (drop n A) A'.
Proof.
  intros N P. apply NoDup_Permutation.
  - unfold drop. now apply NoDup_filter.
  - assert (K := Permutation_NoDup P N). now inversion K.
  - intros x. unfold drop. rewrite filter_In. assert (K := Permutation_NoDup P N). inversion K as [|? ? N1 N2]; subst.
    split.
    + intros [I E]. apply (Permutation_in x P) in I. destruct I as [->|I]; auto.
      rewrite Nat.eqb_refl in E. discriminate.
    + intros I. split.
      * apply (Permutation_in x (Permutation_sym P)). now right.
      * destruct (Nat.eqb_spec n x); auto. subst. contradiction.
Qed.

Lemma wp_take line n A A' D B (Q : unit -> list nat -> list nat -> list nat -> Prop) :
  Permutation A (n :: A') -> Q tt A' (n :: D) B -> wp (take line (Some n)) A D B Q.
Proof.
  intros P H h K. apply (okh_perm _ _ _ _ _ P) in K. destruct K as [H1 [H2 [H3 [H4 H5]]]].
  assert (L : is_live h n = true).
  { apply is_live_in. eapply Permutation_in; [apply Permutation_sym; eauto|]. now left. }
  cbn. rewrite L. cbn. exists A', (n :: D), B. split; auto. inversion H2 as [|? ? N1 N2]; subst.
  split; [|split; [|split; [|split]]]; cbn; auto.
  - apply drop_perm; auto. eapply Permutation_NoDup; [apply Permutation_sym|]; eauto.
  - intros m I. apply H3. now right.
  - intros d [<-|I].
    + split; auto. apply H3. now left.
    + destruct (H4 d I) as [F N]. split; auto. intros I'. apply N. now right.
Qed.

Lemma wp_take_null line A D B (Q : unit -> list nat -> list nat -> list nat -> Prop) :
  Q tt A D B -> wp (take line None) A D B Q.
Proof. intros H h K. exists A, D, B. auto. Qed.

Lemma wp_deref line n A D B (Q : unit -> list nat -> list nat -> list nat -> Prop) :
  In n A -> Q tt A D B -> wp (deref line (Some n)) A D B Q.
Proof. intros I H. unfold deref. now apply wp_look. Qed.

Lemma wp_deref_null line A D B (Q : unit -> list nat -> list nat -> list nat -> Prop) :
  Q tt A D (B ++ [line]) -> wp (deref line None) A D B Q.
Proof. intros H h K. exists A, D, (B ++ [line]). split; auto. now apply okh_bad. Qed.

Lemma wp_ctx_free line n A A' D B (Q : unit -> list nat -> list nat -> list nat -> Prop) :
  Permutation A (n :: A') -> (forall m, In m A' -> m < n) -> Q tt A' (n :: D) B -> wp (ctx_free line (Some n)) A D B Q.
Proof.
  intros P L H h K.
  destruct (wp_take line n A A' D B (fun _ A1 D1 B1 => A1 = A' /\ D1 = n :: D /\ B1 = B) P
              (conj eq_refl (conj eq_refl eq_refl)) h K) as [A1 [D1 [B1 [[-> [-> ->]] K1]]]].
  cbn [ctx_free fst snd]. destruct (existsb (fun m => n <? m) (live (snd (take line (Some n) h)))) eqn:E.
  - apply existsb_exists in E. destruct E as [m [I E]]. apply Nat.ltb_lt in E.
    destruct K1 as [P1 _]. apply (Permutation_in m P1) in I. apply L in I. lia.
  - exists A', (n :: D), B. auto.
Qed.

(** References of the context are left. *)
Lemma wp_ctx_free_left line n m A A' D B (Q : unit -> list nat -> list nat -> list nat -> Prop) :
  Permutation A (n :: A') -> In m A' -> n < m -> Q tt A' (n :: D) (B ++ [line]) -> wp (ctx_free line (Some n)) A D B Q.
Proof.
  intros P I L H h K.
  destruct (wp_take line n A A' D B (fun _ A1 D1 B1 => A1 = A' /\ D1 = n :: D /\ B1 = B) P
              (conj eq_refl (conj eq_refl eq_refl)) h K) as [A1 [D1 [B1 [[-> [-> ->]] K1]]]].
  cbn [ctx_free fst snd]. destruct (existsb (fun m => n <? m) (live (snd (take line (Some n) h)))) eqn:E.
  - exists A', (n :: D), (B ++ [line]). split; auto. now apply okh_bad.
  - assert (X : existsb (fun m => n <? m) (live (snd (take line (Some n) h))) = true); [|congruence].
    apply existsb_exists. exists m. split; [|now apply Nat.ltb_lt].
    destruct K1 as [P1 _]. apply (Permutation_in m (Permutation_sym P1)). auto.
Qed.

(** Loops. *)
Lemma wp_each X (l : list X) f A D (g : X -> list nat) : forall B,
  (forall x B, In x l -> wp (f x) A D B (fun _ A' D' B' => A' = A /\ D' = D /\ B' = B ++ g x)) ->
  wp (each l f) A D B (fun _ A' D' B' => A' = A /\ D' = D /\ B' = B ++ flat_map g l).
Proof.
  induction l as [|x l IH]; intros B H; cbn [each flat_map].
  - apply wp_ret. now rewrite app_nil_r.
  - apply wp_bind. eapply wp_mono; [apply H; now left|]. cbn. intros _ A' D' B' [-> [-> ->]].
    rewrite app_assoc. apply IH. intros y B' I. apply H. now right.
Qed.

Lemma flat_map_nil X (l : list X) : flat_map (fun _ => @nil nat) l = [].
Proof. induction l; auto. Qed.

Lemma wp_each0 X (l : list X) f A D B :
  (forall x B, In x l -> wp (f x) A D B (fun _ A' D' B' => A' = A /\ D' = D /\ B' = B)) ->
  wp (each l f) A D B (fun _ A' D' B' => A' = A /\ D' = D /\ B' = B).
Proof.
  intros H. eapply wp_mono; [apply (wp_each X l f A D (fun _ => []))|].
  - intros x B0 I. eapply wp_mono; [apply H; auto|]. cbn. intros _ A' D' B' [-> [-> ->]]. now rewrite app_nil_r.
  - cbn. intros _ A' D' B' [-> [-> ->]]. now rewrite flat_map_nil, app_nil_r.
Qed.

Lemma wp_replace X (l : list X) f A D : forall B n,
  (forall x n B, In x l -> wp (f x (Some n)) (n :: A) D B (fun r A' D' B' => exists n', r = Some n' /\ A' = n' :: A /\ D' = D /\ B' = B)) ->
  wp (replace l f (Some n)) (n :: A) D B (fun r A' D' B' => exists n', r = Some n' /\ A' = n' :: A /\ D' = D /\ B' = B).
Proof.
  induction l as [|x l IH]; intros B n H; cbn [replace].
  - apply wp_ret. eauto.
  - apply wp_bind. eapply wp_mono; [apply H; now left|]. cbn. intros r A' D' B' [n' [-> [-> [-> ->]]]].
    apply IH. intros y m B' I. apply H. now right.
Qed.

Lemma wp_foreach X line n (l : list X) f A D B (g : X -> list nat) :
  In n A ->
  (forall x e B, In x l -> (forall m, In m A -> m < e) -> wp (f x (Some e)) (e :: A) D B (fun _ A' D' B' => A' = A /\ D' = D /\ B' = B ++ g x)) ->
  wp (foreach line (Some n) l f) A D B (fun _ A' D' B' => A' = A /\ D' = D /\ B' = B ++ flat_map g l).
Proof.
  intros I H. unfold foreach. apply wp_bind. apply wp_look; auto. apply wp_each. intros x B0 Ix.
  apply wp_bind. apply wp_give. intros e L N. apply H; auto.
Qed.

Lemma wp_foreach0 X line n (l : list X) f A D B :
  In n A ->
  (forall x e B, In x l -> (forall m, In m A -> m < e) -> wp (f x (Some e)) (e :: A) D B (fun _ A' D' B' => A' = A /\ D' = D /\ B' = B)) ->
  wp (foreach line (Some n) l f) A D B (fun _ A' D' B' => A' = A /\ D' = D /\ B' = B).
Proof.
  intros I H. unfold foreach. apply wp_bind. apply wp_look; auto. apply wp_each0. intros x B0 Ix.
  apply wp_bind. apply wp_give. intros e L N. apply H; auto.
Qed.

(** Functions that take their arguments and return nothing, or a new reference. *)
Definition eats (m : M unit) (args : list nat) : Prop :=
  forall A D B, wp m (args ++ A) D B (fun _ A' D' B' => A' = A /\ D' = D /\ B' = B).
Definition gives (m : M ref) (args keeps : list nat) : Prop :=
  forall A D B, incl keeps A -> wp m (args ++ A) D B (fun r A' D' B' => exists n, r = Some n /\ A' = n :: A /\ D' = D /\ B' = B).

Lemma wp_post_perm X (m : M X) A D B (Q : X -> list nat -> list nat -> list nat -> Prop) :
  wp m A D B (fun x A' D' B' => exists A1 D1, Permutation A' A1 /\ incl D1 D' /\ Q x A1 D1 B') -> wp m A D B Q.
Proof.
  intros H h K. destruct (H h K) as [A' [D' [B' [[A1 [D1 [P [I q]]]] K1]]]].
  exists A1, D1, B'. split; auto. eapply okh_perm; eauto. eapply okh_sub; eauto.
Qed.

Lemma pull_skip (x y : nat) l r : Permutation l (x :: r) -> Permutation (y :: l) (x :: y :: r).
Proof. intros H. eapply perm_trans; [apply perm_skip; exact H|apply perm_swap]. Qed.

Ltac pull :=
  match goal with
  | |- Permutation (?x :: ?l) (?x :: _) => apply Permutation_refl
  | |- Permutation (?y :: ?l) (?x :: _) => eapply pull_skip; pull
  end.
Ltac inl := first [assumption | cbn; tauto | (cbn; repeat (first [left; reflexivity | right]); assumption) | (repeat (first [apply in_eq | apply in_cons]); assumption)].
Ltac sink := intros ? ?; cbn in *; tauto.
Ltac step1 :=
  lazymatch goal with
  | |- wp (bind _ _) _ _ _ _ => apply wp_bind
  | |- wp (ret _) _ _ _ _ => apply wp_ret
  | |- wp give _ _ _ _ => apply wp_give; let n := fresh "n" in let L := fresh "L" in let N := fresh "N" in intros n L N
  | |- wp (look _ None) _ _ _ _ => apply wp_look_null
  | |- wp (look _ (Some _)) _ _ _ _ => apply wp_look; [solve [inl]|]
  | |- wp (take _ None) _ _ _ _ => apply wp_take_null
  | |- wp (take _ (Some _)) _ _ _ _ => eapply wp_take; [pull|]
  | |- wp (deref _ None) _ _ _ _ => apply wp_deref_null
  | |- wp (deref _ (Some _)) _ _ _ _ => apply wp_deref; [solve [inl]|]
  | |- wp (call _ _ _) _ _ _ _ => unfold call
  | |- wp (copy _ _) _ _ _ _ => unfold copy
  | |- wp (each (_ :: _) _) _ _ _ _ => cbn [each]
  | |- wp (each [] _) _ _ _ _ => cbn [each]
  | |- wp (if nulls ?l then ?a else ?b) ?A ?D ?B ?Q =>
      lazymatch eval cbv in (nulls l) with
      | true => change (wp a A D B Q)
      | false => change (wp b A D B Q)
      end
  end.
Ltac steps := repeat (cbn beta; step1).
Lemma eats_post (m : M unit) args :
  (forall A D B, wp m (args ++ A) D B (fun _ A' D' B' => Permutation A' A /\ incl D D' /\ B' = B)) -> eats m args.
Proof.
  intros H A D B. apply wp_post_perm. eapply wp_mono; [apply H|]. cbn. intros _ A' D' B' [P [I ->]].
  exists A, D. auto.
Qed.

Lemma gives_post (m : M ref) args keeps :
  (forall A D B, incl keeps A -> wp m (args ++ A) D B (fun r A' D' B' => exists n, r = Some n /\ Permutation A' (n :: A) /\ incl D D' /\ B' = B)) ->
  gives m args keeps.
Proof.
  intros H A D B I. apply wp_post_perm. eapply wp_mono; [apply H; auto|]. cbn.
  intros r A' D' B' [n [-> [P [I1 ->]]]]. exists (n :: A), D. repeat split; auto. exists n. auto.
Qed.

Lemma wp_eats m n A A' D B (Q : unit -> list nat -> list nat -> list nat -> Prop) :
  eats m [n] -> Permutation A (n :: A') -> Q tt A' D B -> wp m A D B Q.
Proof.
  intros H P q. eapply wp_perm; [exact P|]. eapply wp_mono; [apply H|]. cbn. intros [] A1 D1 B1 [-> [-> ->]]. auto.
Qed.

Lemma wp_eats0 m A D B (Q : unit -> list nat -> list nat -> list nat -> Prop) : eats m [] -> Q tt A D B -> wp m A D B Q.
Proof. intros H q. eapply wp_mono; [apply H|]. cbn. intros [] A1 D1 B1 [-> [-> ->]]. auto. Qed.

(** Functions that keep their arguments. *)
Definition keeps (m : M unit) (n : nat) : Prop :=
  forall A D B, In n A -> wp m A D B (fun _ A' D' B' => A' = A /\ D' = D /\ B' = B).
Lemma wp_keeps m n A D B (Q : unit -> list nat -> list nat -> list nat -> Prop) : keeps m n -> In n A -> Q tt A D B -> wp m A D B Q.
Proof. intros H I q. eapply wp_mono; [apply H; auto|]. cbn. intros [] A1 D1 B1 [-> [-> ->]]. auto. Qed.

Ltac done1 := repeat split; auto using Permutation_refl, incl_refl, incl_tl, perm_swap;
  repeat (first [assumption | apply incl_refl | apply incl_tl]).
Ltac dn := done1.
Ltac close := match goal with
  | |- exists A1 D1, Permutation _ A1 /\ incl D1 _ /\ _ => eexists _, _; split; [apply Permutation_refl|split; [|repeat split; reflexivity]]; repeat (first [apply incl_refl | apply incl_tl])
  end.

Lemma keeps_post m n :
  (forall A D B, In n A -> wp m A D B (fun _ A' D' B' => Permutation A' A /\ incl D D' /\ B' = B)) -> keeps m n.
Proof.
  intros H A D B I. apply wp_post_perm. eapply wp_mono; [apply H; auto|]. cbn. intros _ A' D' B' [P [I1 ->]].
  exists A, D. auto.
Qed.

Lemma wp_each_keep X (l : list X) f A D B (Q : unit -> list nat -> list nat -> list nat -> Prop) :
  (forall x B, In x l -> wp (f x) A D B (fun _ A' D' B' => Permutation A' A /\ incl D D' /\ B' = B)) ->
  Q tt A D B -> wp (each l f) A D B Q.
Proof.
  intros H q. eapply wp_mono; [apply wp_each0|].
  - intros x B0 I. apply wp_post_perm. eapply wp_mono; [apply H; auto|]. cbn. intros _ A' D' B' [P [I1 ->]].
    exists A, D. auto.
  - cbn. intros [] A' D' B' [-> [-> ->]]. auto.
Qed.

Lemma wp_replace_keep X (l : list X) f A A0 D B n (Q : ref -> list nat -> list nat -> list nat -> Prop) :
  Permutation A (n :: A0) ->
  (forall x n B, In x l -> wp (f x (Some n)) (n :: A0) D B (fun r A' D' B' => exists n', r = Some n' /\ Permutation A' (n' :: A0) /\ incl D D' /\ B' = B)) ->
  (forall n', Q (Some n') (n' :: A0) D B) -> wp (replace l f (Some n)) A D B Q.
Proof.
  intros P H q. eapply wp_perm; [exact P|]. eapply wp_mono; [apply wp_replace|].
  - intros x m B0 I. apply wp_post_perm. eapply wp_mono; [apply H; auto|]. cbn.
    intros r A' D' B' [n' [-> [P1 [I1 ->]]]]. exists (n' :: A0), D. repeat split; auto. exists n'. auto.
  - cbn. intros r A' D' B' [n' [-> [-> [-> ->]]]]. auto.
Qed.

Lemma wp_foreach_keep X line n (l : list X) f A D B (Q : unit -> list nat -> list nat -> list nat -> Prop) :
  In n A -> (forall x e, In x l -> eats (f x (Some e)) [e]) -> Q tt A D B -> wp (foreach line (Some n) l f) A D B Q.
Proof.
  intros I H q. eapply wp_mono; [apply wp_foreach0; auto|].
  - intros x e B0 Ix L. apply (H x e Ix A D B0).
  - cbn. intros [] A' D' B' [-> [-> ->]]. auto.
Qed.

Lemma wp_gives m n ks A A' D B (Q : ref -> list nat -> list nat -> list nat -> Prop) :
  gives m [n] ks -> Permutation A (n :: A') -> incl ks A' -> (forall n', Q (Some n') (n' :: A') D B) -> wp m A D B Q.
Proof.
  intros H P I q. eapply wp_perm; [exact P|]. eapply wp_mono; [apply H; auto|]. cbn.
  intros r A1 D1 B1 [n' [-> [-> [-> ->]]]]. auto.
Qed.

Lemma wp_gives0 m ks A D B (Q : ref -> list nat -> list nat -> list nat -> Prop) :
  gives m [] ks -> incl ks A -> (forall n', Q (Some n') (n' :: A) D B) -> wp m A D B Q.
Proof.
  intros H I q. eapply wp_mono; [apply H; auto|]. cbn.
  intros r A1 D1 B1 [n' [-> [-> [-> ->]]]]. auto.
Qed.

(** ** The functions *)

Lemma read_cells_keeps line m r c : keeps (read_cells line (Some m) r c) m.
Proof.
  intros A D B I. unfold read_cells. apply wp_each_keep; [|auto].
  intros x B0 Ix. steps. dn.
Qed.

Lemma matrix_from_keeps m r c : keeps (matrix_from_isl_mat (Some m) r c) m.
Proof.
  intros A D B I. unfold matrix_from_isl_mat. steps. eapply wp_keeps; [apply read_cells_keeps|auto|]. dn.
Qed.

Lemma coefficient_keeps line a : keeps (coefficient line (Some a)) a.
Proof. apply keeps_post. intros A D B I. unfold coefficient. steps. dn. Qed.

Lemma coefficients_eats p s a : eats (coefficients p (Some s) (Some a)) [s; a].
Proof.
  apply eats_post. intros A D B. unfold coefficients. cbn [app].
  apply wp_bind. apply wp_each_keep.
  - intros x B0 _. eapply wp_keeps; [apply coefficient_keeps|cbn; auto|dn].
  - apply wp_bind. apply wp_each_keep.
    + intros x B0 _. eapply wp_keeps; [apply coefficient_keeps|cbn; auto|dn].
    + apply wp_bind. eapply wp_keeps; [apply coefficient_keeps|cbn; auto|]. steps. dn.
Qed.

Lemma wp_eats2 m n k A A' D B (Q : unit -> list nat -> list nat -> list nat -> Prop) :
  eats m [n; k] -> Permutation A (n :: k :: A') -> Q tt A' D B -> wp m A D B Q.
Proof.
  intros H P q. eapply wp_perm; [exact P|]. eapply wp_mono; [apply H|]. cbn. intros [] A1 D1 B1 [-> [-> ->]]. auto.
Qed.

Lemma aff_to_eats p s a : eats (aff_to_pluto_func p (Some s) (Some a)) [s; a].
Proof.
  apply eats_post. intros A D B. unfold aff_to_pluto_func. cbn [app].
  destruct (pc_div p) as [[]|]; steps; try (eapply wp_eats2; [apply coefficients_eats|apply Permutation_refl|]); dn.
Qed.

Lemma basic_set_to_keeps b s : keeps (basic_set_to b (Some s)) s.
Proof.
  apply keeps_post. intros A D B I. unfold basic_set_to. steps.
  eapply wp_keeps; [apply read_cells_keeps|inl|]. steps.
  eapply wp_keeps; [apply read_cells_keeps|inl|]. steps. dn.
Qed.

Lemma basic_map_to_arg_eats b s : eats (basic_map_to_arg b (Some s)) [s].
Proof.
  apply eats_post. intros A D B. unfold basic_map_to_arg. cbn [app]. steps.
  eapply wp_keeps; [apply read_cells_keeps|inl|]. steps.
  eapply wp_keeps; [apply read_cells_keeps|inl|]. steps. dn.
Qed.

Lemma basic_map_to_keeps b s : keeps (basic_map_to b (Some s)) s.
Proof.
  apply keeps_post. intros A D B I. unfold basic_map_to. steps.
  eapply wp_eats; [apply basic_map_to_arg_eats|pull|]. dn.
Qed.

Lemma basic_set_from_gives c b : gives (basic_set_from (Some c) b) [] [c].
Proof.
  apply gives_post. intros A D B I. assert (Ic : In c A) by (apply I; now left).
  unfold basic_set_from. cbn [app]. steps.
  eapply wp_replace_keep; [pull| |].
  - intros x m B0 _. steps. eexists. dn.
  - intros n'. steps. eapply wp_replace_keep; [pull| |].
    + intros x m B0 _. steps. eexists. dn.
    + intros n''. steps. eexists. dn.
Qed.

Lemma set_from_gives c l : gives (set_from (Some c) l) [] [c].
Proof.
  apply gives_post. intros A D B I. assert (Ic : In c A) by (apply I; now left).
  unfold set_from. cbn [app]. steps.
  eapply wp_replace_keep; [pull| |].
  - intros x m B0 _. steps. eapply wp_gives0; [apply basic_set_from_gives| |].
    + intros y [<-|[]]. inl.
    + intros n'. steps. eexists. dn.
  - intros n'. eexists. dn.
Qed.

Lemma basic_map_from_gives c b : gives (basic_map_from (Some c) b) [] [c].
Proof.
  apply gives_post. intros A D B I. assert (Ic : In c A) by (apply I; now left).
  unfold basic_map_from. cbn [app]. steps.
  eapply wp_replace_keep; [pull| |].
  - intros x m B0 _. steps. eexists. dn.
  - intros n'. steps. eapply wp_replace_keep; [pull| |].
    + intros x m B0 _. steps. eexists. dn.
    + intros n''. steps. eexists. dn.
Qed.

Lemma set_to_keeps l s : keeps (set_to l (Some s)) s.
Proof.
  intros A D B I. unfold set_to. steps. eapply wp_foreach_keep; auto.
  - intros b e _. apply eats_post. intros A1 D1 B1. cbn [app]. steps.
    eapply wp_keeps; [apply basic_set_to_keeps|inl|]. steps. dn.
  - destruct l; steps; auto.
Qed.

Lemma project_out_single_eats b r : eats (project_out_single b r) [].
Proof.
  apply eats_post. intros A D B. unfold project_out_single. cbn [app]. steps.
  eapply wp_gives0; [apply basic_set_from_gives|intros y [<-|[]]; inl|]. intros s. steps.
  eapply wp_keeps; [apply basic_set_to_keeps|inl|]. steps. eapply wp_ctx_free; [pull|auto|]. dn.
Qed.

Lemma lexmin_eats b neg e k : eats (lexmin b neg e k) [].
Proof.
  apply eats_post. intros A D B. unfold lexmin. cbn [app]. steps.
  eapply wp_gives0; [apply basic_set_from_gives|intros y [<-|[]]; inl|]. intros s. steps.
  destruct neg, e; steps; try (eapply wp_each_keep; [intros x B0 _; steps; dn|steps]);
    (eapply wp_ctx_free; [pull|auto|]; dn).
Qed.

Lemma intersection_eats a b r : eats (intersection a b r) [].
Proof.
  apply eats_post. intros A D B. unfold intersection. cbn [app]. steps.
  eapply wp_gives0; [apply set_from_gives|intros y [<-|[]]; inl|]. intros s. steps.
  eapply wp_gives0; [apply set_from_gives|intros y [<-|[]]; inl|]. intros s2. steps.
  eapply wp_keeps; [apply set_to_keeps|inl|]. steps. eapply wp_ctx_free; [pull|auto|]. dn.
Qed.

Lemma pieces_eats l line pw A D B (Q : unit -> list nat -> list nat -> list nat -> Prop) :
  In pw A -> Q tt A D B ->
  wp (foreach line (Some pw) l (fun p set => aff <- give;; aff_to_pluto_func p set aff)) A D B Q.
Proof.
  intros I q. apply wp_foreach_keep; auto. intros x e _. apply eats_post. intros A1 D1 B1. cbn [app]. steps.
  eapply wp_eats2; [apply aff_to_eats|apply perm_swap|]. dn.
Qed.

Lemma map_to_pluto_func_keeps dims m : keeps (map_to_pluto_func dims (Some m)) m.
Proof.
  intros A D B I. unfold map_to_pluto_func. steps. apply wp_each_keep; auto.
  intros ps B0 _. steps. apply pieces_eats; [inl|]. steps. dn.
Qed.

Lemma map_count_eats X (l : list X) m : eats (map_count l (Some m)) [m].
Proof.
  apply eats_post. intros A D B. unfold map_count. cbn [app]. steps. apply wp_foreach_keep; [inl| |].
  - intros x e _. apply eats_post. intros A1 D1 B1. cbn [app]. steps. dn.
  - steps. dn.
Qed.

Lemma stmt_lin_ind_eats flic p q oc cur orth : eats (stmt_lin_ind flic p q oc cur orth) [].
Proof.
  apply eats_post. intros A D B. unfold stmt_lin_ind. cbn [app]. steps.
  eapply wp_replace_keep; [pull| |].
  { intros x m B0 _. steps. eexists. dn. }
  intros h. steps. eapply wp_keeps; [apply matrix_from_keeps|inl|]. steps. destruct flic.
  - steps. apply wp_each_keep.
    + intros x B0 _. steps. dn.
    + steps. eapply wp_ctx_free; [pull|auto|]. dn.
  - eapply wp_gives0; [apply basic_set_from_gives|intros y [<-|[]]; inl|]. intros c. steps.
    apply wp_each_keep.
    + intros x B0 _. steps. eapply wp_gives0; [apply basic_set_from_gives|intros y [<-|[]]; inl|]. intros i. steps. dn.
    + steps. eapply wp_ctx_free; [pull|auto|]. dn.
Qed.

Lemma lin_ind_eats r c oc : eats (lin_ind r c oc) [].
Proof.
  apply eats_post. intros A D B. unfold lin_ind. cbn [app]. steps.
  eapply wp_replace_keep; [pull| |].
  { intros x m B0 _. steps. eexists. dn. }
  intros h. steps. eapply wp_keeps; [apply matrix_from_keeps|inl|]. steps. eapply wp_ctx_free; [pull|auto|]. dn.
Qed.

(** With a NULL context. *)
Lemma replace_null X (l : list X) f A D B (Q : ref -> list nat -> list nat -> list nat -> Prop) :
  (forall x B, wp (f x None) A D B (fun r A' D' B' => r = None /\ A' = A /\ D' = D /\ B' = B)) ->
  Q None A D B -> wp (replace l f None) A D B Q.
Proof.
  revert A D B. induction l as [|x l IH]; intros A D B H q; cbn [replace].
  - now apply wp_ret.
  - apply wp_bind. eapply wp_mono; [apply H|]. cbn. intros r A' D' B' [-> [-> [-> ->]]]. apply IH; auto.
Qed.

Lemma basic_set_from_null b A D B (Q : ref -> list nat -> list nat -> list nat -> Prop) :
  Q None A D B -> wp (basic_set_from None b) A D B Q.
Proof.
  intros q. unfold basic_set_from. steps. apply replace_null.
  - intros x B0. steps. auto.
  - steps. apply replace_null.
    + intros x B0. steps. auto.
    + steps. auto.
Qed.

Lemma set_from_null l A D B (Q : ref -> list nat -> list nat -> list nat -> Prop) :
  Q None A D B -> wp (set_from None l) A D B Q.
Proof.
  intros q. unfold set_from. steps. apply replace_null.
  - intros x B0. steps. apply basic_set_from_null. steps. auto.
  - auto.
Qed.

Lemma set_to_null l A D B (Q : unit -> list nat -> list nat -> list nat -> Prop) :
  Q tt A D (B ++ [179]) -> wp (set_to l None) A D B Q.
Proof.
  intros q. unfold set_to, foreach. steps. destruct l; steps; auto.
Qed.

Lemma union_null a b r A D B (Q : unit -> list nat -> list nat -> list nat -> Prop) :
  Q tt A D (B ++ [179]) -> wp (union a b r) A D B Q.
Proof.
  intros q. unfold union. steps. apply set_from_null. steps. apply set_from_null. steps. apply set_to_null. steps. auto.
Qed.

Lemma project_out_null a r A D B (Q : unit -> list nat -> list nat -> list nat -> Prop) :
  Q tt A D (B ++ [179]) -> wp (project_out a r) A D B Q.
Proof.
  intros q. unfold project_out. steps. apply set_from_null. steps. apply set_to_null. steps. auto.
Qed.
