(** * Proofs about references, continued: dependences, accesses, the entry points. *)
From Coq Require Import List Arith Bool Lia Permutation.
From Verif Require Import SpecOwn OwnModel OwnProofs.
Import ListNotations.

Lemma basic_map_extract_dep_eats acc b m : eats (basic_map_extract_dep acc b (Some m)) [m].
Proof.
  apply eats_post. intros A D B. unfold basic_map_extract_dep. cbn [app]. destruct b as [wr sh]. cbn [fst snd].
  destruct wr, acc; steps; (eapply wp_keeps; [apply basic_map_to_keeps|inl|]); steps; dn.
Qed.

Lemma map_extract_dep_eats acc l m : eats (map_extract_dep acc l (Some m)) [m].
Proof.
  apply eats_post. intros A D B. unfold map_extract_dep. cbn [app]. steps. apply wp_foreach_keep; [inl| |].
  - intros x e _. apply basic_map_extract_dep_eats.
  - steps. dn.
Qed.

Lemma extract_deps_keeps acc ms m : keeps (extract_deps acc ms (Some m)) m.
Proof.
  intros A D B I. unfold extract_deps. apply wp_foreach_keep; auto. intros x e _. apply map_extract_dep_eats.
Qed.

Lemma extract_stmt_eats l s : eats (extract_stmt l (Some s)) [s].
Proof.
  apply eats_post. intros A D B. unfold extract_stmt. cbn [app]. steps. apply wp_foreach_keep; [inl| |].
  - intros b e _. apply eats_post. intros A1 D1 B1. cbn [app]. steps.
    eapply wp_keeps; [apply basic_set_to_keeps|inl|]. steps. dn.
  - steps. dn.
Qed.

Lemma extract_stmts_keeps ds s : keeps (extract_stmts ds (Some s)) s.
Proof.
  intros A D B I. unfold extract_stmts. steps. apply wp_foreach_keep; auto. intros x e _. apply extract_stmt_eats.
Qed.

Lemma basic_map_extract_access_wp dims m A D B :
  wp (basic_map_extract_access dims (Some m)) (m :: A) D B (fun _ A' D' B' => A' = A /\ D' = D /\ B' = B ++ [535]).
Proof.
  apply wp_post_perm. unfold basic_map_extract_access. steps. apply wp_each_keep.
  - intros x B0 _. destruct x as [ps|]; steps; [|dn]. apply pieces_eats; [inl|]. steps. dn.
  - apply wp_bind. apply wp_look_dead; [cbn; auto|]. steps. exists A, D. dn.
Qed.

(** One line per basic map of the accesses. *)
Definition used (acc : accesses) : list nat := flat_map (fun m => flat_map (fun _ : list (option (list piece)) => [535]) (snd m)) acc.

Lemma map_extract_access_wp l m A D B :
  wp (map_extract_access l (Some m)) (m :: A) D B (fun _ A' D' B' => A' = A /\ D' = D /\ B' = B ++ flat_map (fun _ => [535]) l).
Proof.
  apply wp_post_perm. unfold map_extract_access. apply wp_bind. eapply wp_mono.
  - apply (wp_foreach _ 546 m l basic_map_extract_access (m :: A) D B (fun _ => [535])); [now left|].
    intros x e B0 _ _. apply basic_map_extract_access_wp.
  - cbn beta. intros _ A' D' B' [-> [-> ->]]. steps. exists A, D. dn.
Qed.

Lemma extract_accesses_wp rs ws r w A D B :
  In r A -> In w A ->
  wp (extract_accesses rs ws (Some r) (Some w)) A D B (fun _ A' D' B' => A' = A /\ D' = D /\ B' = B ++ used rs ++ used ws).
Proof.
  intros Ir Iw. unfold extract_accesses. steps. apply wp_foreach_keep; auto.
  { intros x e _. apply map_count_eats. }
  steps. apply wp_foreach_keep; auto.
  { intros x e _. apply map_count_eats. }
  steps. eapply wp_mono.
  { apply (wp_foreach _ 583 r rs (fun m => map_extract_access (snd m)) A D B (fun m => flat_map (fun _ => [535]) (snd m))); auto.
    intros x e B0 _ _. apply map_extract_access_wp. }
  cbn beta. intros _ A' D' B' [-> [-> ->]]. eapply wp_mono.
  { apply (wp_foreach _ 584 w ws (fun m => map_extract_access (snd m)) A D _ (fun m => flat_map (fun _ => [535]) (snd m))); auto.
    intros x e B0 _ _. apply map_extract_access_wp. }
  cbn beta. intros _ A' D' B' [-> [-> ->]]. repeat split; auto. now rewrite <- app_assoc.
Qed.

Lemma filter_stmt_wp line i acc all u A A0 D B (Q : ref -> list nat -> list nat -> list nat -> Prop) :
  In all A -> Permutation A (u :: A0) -> (forall u', Q (Some u') (u' :: A0) D B) ->
  wp (filter_stmt line i acc (Some all) (Some u)) A D B Q.
Proof.
  intros I P q. unfold filter_stmt. steps. eapply wp_replace_keep; [exact P| |auto].
  intros x m B0 _. unfold stmt_filter. steps. destruct (fst x =? i); steps; eexists; dn.
Qed.

Definition of_stmt (i : nat) (acc : accesses) : accesses := filter (fun m => fst m =? i) acc.
Definition uses (ds : sets) (rs ws : accesses) : list nat :=
  flat_map (fun i => used (of_stmt i rs) ++ used (of_stmt i ws)) (seq 0 (length ds)).

Lemma count_deps_wp (ms : maps) e A D B (Q : unit -> list nat -> list nat -> list nat -> Prop) :
  In e A -> Q tt A D B -> wp (foreach 372 (Some e) ms (fun m => map_count m)) A D B Q.
Proof. intros I q. apply wp_foreach_keep; auto. intros x r _. apply map_count_eats. Qed.

Lemma prog_from_wp acc ds ms rs ws d e r w A D B :
  wp (prog_from acc ds ms rs ws (Some d) (Some e) (Some r) (Some w)) (d :: e :: r :: w :: A) D B
     (fun _ A' D' B' => A' = A /\ D' = d :: e :: D /\ B' = B ++ uses ds rs ws).
Proof.
  apply wp_post_perm. unfold prog_from. apply wp_bind.
  eapply wp_keeps; [apply extract_stmts_keeps|inl|]. apply wp_bind. step1. apply wp_bind. apply wp_bind.
  eapply wp_mono.
  { apply (wp_each _ _ _ (e :: r :: w :: A) (d :: D) (fun i => used (of_stmt i rs) ++ used (of_stmt i ws))).
    intros i B0 _. apply wp_post_perm. steps.
    eapply filter_stmt_wp; [inl|pull|]. intros u. steps.
    eapply filter_stmt_wp; [inl|pull|]. intros v. steps.
    eapply wp_mono; [apply extract_accesses_wp; inl|]. cbn beta. intros _ A' D' B' [-> [-> ->]].
    steps. exists (e :: r :: w :: A), (d :: D). dn. }
  cbn beta. intros _ A' D' B' [-> [-> ->]]. steps. apply count_deps_wp; [inl|]. steps.
  eapply wp_keeps; [apply extract_deps_keeps|inl|]. steps.
  exists A, (d :: e :: D). split; [apply Permutation_refl|]. split; [intros x I; cbn in I |- *; tauto|dn].
Qed.

Lemma prog_from_wp0 acc ds ms d e A D B :
  wp (prog_from acc ds ms [] [] (Some d) (Some e) None None) (d :: e :: A) D B
     (fun _ A' D' B' => A' = A /\ D' = d :: e :: D /\ B' = B).
Proof.
  apply wp_post_perm. unfold prog_from. apply wp_bind.
  eapply wp_keeps; [apply extract_stmts_keeps|inl|]. steps. apply count_deps_wp; [inl|]. steps.
  eapply wp_keeps; [apply extract_deps_keeps|inl|]. steps.
  exists A, (d :: e :: D). split; [apply Permutation_refl|]. split; [intros x I; cbn in I |- *; tauto|dn].
Qed.

(** Only one kind of accesses: it is left. *)
Lemma prog_from_wp_one acc ds ms rs ws d e r w A D B :
  r = None \/ w = None ->
  wp (prog_from acc ds ms rs ws (Some d) (Some e) r w) (d :: e :: A) D B
     (fun _ A' D' B' => A' = A /\ D' = d :: e :: D /\ B' = B).
Proof.
  intros O. apply wp_post_perm. unfold prog_from. apply wp_bind.
  eapply wp_keeps; [apply extract_stmts_keeps|inl|]. steps.
  assert (E : (match r, w with Some _, Some _ => None | _, _ => Some tt end) = Some tt) by (destruct O as [->| ->]; [|destruct r]; auto).
  destruct r, w; try discriminate; steps; (apply count_deps_wp; [inl|]); steps;
  (eapply wp_keeps; [apply extract_deps_keeps|inl|]); steps;
  (exists A, (d :: e :: D); split; [apply Permutation_refl|]; split; [intros x I; cbn in I |- *; tauto|dn]).
Qed.

Lemma schedules_wp l k c s A D B :
  In c A ->
  wp (schedules_to_isl l k (Some c) (Some s)) (s :: A) D B (fun r A' D' B' => exists n, r = Some n /\ A' = n :: A /\ D' = s :: D /\ B' = B).
Proof.
  intros I. apply wp_post_perm. unfold schedules_to_isl. steps.
  eapply wp_replace_keep; [pull| |].
  - intros x m B0 _. steps. eapply wp_gives0; [apply basic_map_from_gives|intros y [<-|[]]; inl|]. intros b. steps.
    eapply wp_replace_keep; [pull| |].
    + intros j p B1 _. steps. eexists. dn.
    + intros p. steps. eexists. dn.
  - intros p. steps. eexists _, (s :: D). split; [apply Permutation_refl|]. split.
    + intros x J. cbn in J |- *. tauto.
    + exists p. dn.
Qed.

(** ** The entry points *)

Definition res_list (r : ref) : list nat := match r with Some n => [n] | None => [] end.
Definition is_some (r : ref) : bool := match r with Some _ => true | None => false end.

Lemma transform_wp acc ds ms rs ws r c d e x y A D B :
  In c A ->
  wp (transform (Some c) acc ds ms rs ws r (Some d) (Some e) (Some x) (Some y)) (d :: e :: x :: y :: A) D B
     (fun s A' D' B' => is_some s = found r /\ A' = res_list s ++ A /\ D' = D /\ B' = B ++ uses ds rs ws).
Proof.
  intros I. apply wp_post_perm. unfold transform. steps.
  eapply wp_perm; [|eapply wp_mono; [apply (prog_from_wp acc ds ms rs ws d e x y (n :: A))|]].
  - eapply perm_trans; [apply perm_swap|]. apply perm_skip. eapply perm_trans; [apply perm_swap|]. apply perm_skip.
    eapply perm_trans; [apply perm_swap|]. apply perm_skip. apply perm_swap.
  - cbn beta. intros _ A' D' B' [-> [-> ->]]. destruct (found r).
    + eapply wp_mono; [apply schedules_wp; auto|]. cbn beta. intros s A' D' B' [m [-> [-> [-> ->]]]].
      exists (m :: A), D. dn.
    + steps. exists A, D. dn.
Qed.

Lemma transform_wp_one acc ds ms rs ws r c d e x y A D B :
  In c A -> x = None \/ y = None ->
  wp (transform (Some c) acc ds ms rs ws r (Some d) (Some e) x y) (d :: e :: A) D B
     (fun s A' D' B' => is_some s = found r /\ A' = res_list s ++ A /\ D' = D /\ B' = B).
Proof.
  intros I O. apply wp_post_perm. unfold transform. steps.
  eapply wp_perm; [|eapply wp_mono; [apply (prog_from_wp_one acc ds ms rs ws d e x y (n :: A)); auto|]].
  - eapply perm_trans; [apply perm_swap|]. apply perm_skip. apply perm_swap.
  - cbn beta. intros _ A' D' B' [-> [-> ->]]. destruct (found r).
    + eapply wp_mono; [apply schedules_wp; auto|]. cbn beta. intros s A' D' B' [m [-> [-> [-> ->]]]].
      exists (m :: A), D. dn.
    + steps. exists A, D. dn.
Qed.

Lemma parallel_wp acc ds ms r c d e A D B :
  In c A ->
  wp (parallel_schedule_with_remapping (Some c) acc ds ms r (Some d) (Some e)) (d :: e :: A) D B
     (fun s A' D' B' => is_some s = found r /\ D' = d :: e :: D /\
        if found r then A' = res_list s ++ A /\ B' = B ++ [529]
        else exists n, (forall m, In m A -> m < n) /\ A' = n :: A /\ B' = B).
Proof.
  intros I. apply wp_post_perm. unfold parallel_schedule_with_remapping. steps.
  eapply wp_perm; [|eapply wp_mono; [apply (prog_from_wp0 acc ds ms d e (n :: A)); auto|]].
  - eapply perm_trans; [apply perm_swap|]. apply perm_skip. apply perm_swap.
  - cbn beta. intros _ A' D' B' [-> [-> ->]]. destruct (found r).
    + apply wp_bind. eapply wp_mono; [apply schedules_wp; auto|]. cbn beta. intros s A' D' B' [m [-> [-> [-> ->]]]].
      apply wp_bind. apply wp_take_dead; [now left|]. steps. exists (m :: A), (d :: e :: D). dn.
    + steps. exists (n :: A), (d :: e :: D). dn. exists n. dn. intros m Im. apply L. cbn. auto.
Qed.

Lemma schedule_and_wp acc ds ms r d e A D B :
  wp (schedule_and_get_remapping acc ds ms r (Some d) (Some e)) (d :: e :: A) D B
     (fun s A' D' B' => s = found r /\ A' = A /\ D' = d :: e :: D /\ B' = B).
Proof.
  unfold schedule_and_get_remapping. steps. eapply wp_mono; [apply prog_from_wp0|]. cbn beta.
  intros _ A' D' B' [-> [-> ->]]. steps. auto.
Qed.

Lemma schedule_str_wp acc ds ms r A D B :
  wp (schedule_str acc ds ms r) A D B
     (fun _ A' D' B' => if found r then A' = A /\ B' = B ++ [529; 592; 593]
                        else exists n, A' = n :: A /\ B' = B ++ [587; 591; 592; 593; 596]).
Proof.
  unfold schedule_str. steps.
  eapply wp_perm; [apply perm_swap|]. eapply wp_mono; [apply (parallel_wp acc ds ms r n n0 n1 (n :: A)); now left|].
  cbn beta. intros s A' D' B' [S1 [-> S2]]. destruct (found r) eqn:F.
  - destruct s as [s|]; [|discriminate]. destruct S2 as [-> ->]. cbn [res_list app]. steps.
    apply wp_take_dead; [inl|]. steps. apply wp_take_dead; [inl|]. steps.
    eapply wp_ctx_free; [pull|auto|]. split; auto. now rewrite <- !app_assoc.
  - destruct s as [s|]; [discriminate|]. destruct S2 as [k [L2 [-> ->]]]. steps.
    apply wp_look_dead; [inl|]. steps. apply wp_take_dead; [inl|]. steps. apply wp_take_dead; [inl|]. steps.
    apply wp_take_dead; [inl|]. steps.
    eapply (wp_ctx_free_left _ _ k); [pull|now left|apply L2; now left|]. exists k. split; auto. now rewrite <- !app_assoc.
Qed.

Lemma get_remapping_str_wp acc ds ms r A D B :
  wp (get_remapping_str acc ds ms r) A D B
     (fun _ A' D' B' => A' = A /\ B' = B ++ if found r then [] else [609]).
Proof.
  unfold get_remapping_str. steps.
  eapply wp_perm; [apply perm_swap|]. eapply wp_mono; [apply (schedule_and_wp acc ds ms r n0 n1 (n :: A))|].
  cbn beta. intros s A' D' B' [-> [-> [-> ->]]]. destruct (found r); steps; (eapply wp_ctx_free; [pull|auto|]).
  - split; auto. now rewrite app_nil_r.
  - auto.
Qed.

(** With coalescing and last writers two NULL pointers are dereferenced; with RAR
    dependences the RAR dependences are left. *)
Lemma pull_then (x : nat) l l' r : Permutation l (x :: l') -> Permutation l' r -> Permutation l (x :: r).
Proof. intros H K. eapply perm_trans; [exact H|]. now apply perm_skip. Qed.
Ltac perm := repeat (eapply pull_then; [pull|]); apply Permutation_refl.
Ltac proj := cbn [fst snd dr_raw dr_war dr_waw dr_rar dr_twar dr_twaw].

Lemma flow_wp line a b c d must may A D B :
  In a A -> In b A -> In c A -> In d A ->
  wp (flow line (Some a) (Some b) (Some c) (Some d) must may) A D B
     (fun r A' D' B' => is_some (fst r) = must /\ is_some (snd r) = may /\ A' = res_list (fst r) ++ res_list (snd r) ++ A /\ D' = D /\ B' = B).
Proof.
  intros I1 I2 I3 I4. apply wp_post_perm. unfold flow. steps.
  destruct must, may; steps; (eexists _, D; split; [|split; [|repeat split; try reflexivity]]);
    cbn [res_list app fst snd]; try perm; repeat (first [apply incl_refl | apply incl_tl]).
Qed.

Ltac fl := lazymatch goal with |- wp (flow _ _ _ _ _ _ _) _ _ _ _ => idtac end; eapply wp_mono; [apply flow_wp; (first [assumption | repeat (apply in_cons); assumption])|]; cbn beta;
  let F1 := fresh "F" in let F2 := fresh "F" in
  intros [[?|] [?|]] ? ? ? [F1 [F2 [-> [-> ->]]]]; try discriminate F1; try discriminate F2; clear F1 F2; cbn [res_list app fst snd].

Lemma compute_deps_wp lw rar co tr x y s e A D B :
  In x A -> In y A -> In s A -> In e A ->
  wp (compute_deps lw rar co tr (Some x) (Some y) (Some s) (Some e)) A D B
     (fun d A' D' B' => exists n1 n2 n3, dr_raw d = Some n1 /\ dr_war d = Some n2 /\ dr_waw d = Some n3 /\
        A' = n1 :: n2 :: n3 :: (res_list (dr_rar d) ++ res_list (dr_twar d) ++ res_list (dr_twaw d)) ++ A /\
        is_some (dr_rar d) = rar /\ is_some (dr_twar d) = (lw && tr)%bool /\ is_some (dr_twaw d) = (lw && tr)%bool /\
        D' = D /\ B' = B ++ if lw && co && negb tr then [692; 693] else []).
Proof.
  intros I1 I2 I3 I4. apply wp_post_perm. unfold compute_deps.
  destruct lw, rar, co, tr;
    repeat (first [fl | step1 | progress proj | progress cbn beta]);
    (eexists _, D; split; [|split; [|eexists _, _, _; repeat split; try reflexivity]];
     [cbn [res_list app dr_rar dr_twar dr_twaw]; perm|repeat (first [apply incl_refl | apply incl_tl])|..]);
    cbn [andb negb]; rewrite ?app_nil_r, <- ?app_assoc; reflexivity.
Qed.

Lemma schedule_wp acc lw rar co ds ms rs ws r c s x y A D B :
  In c A ->
  wp (schedule (Some c) acc lw rar co ds ms rs ws r (Some s) (Some x) (Some y)) (s :: x :: y :: A) D B
     (fun q A' D' B' => is_some q = found r /\
        (exists k, A' = res_list q ++ res_list k ++ A /\ is_some k = rar) /\
        B' = B ++ (if lw && co then [692; 693] else []) ++ uses ds rs ws).
Proof.
  intros I. apply wp_post_perm. unfold schedule. steps.
  eapply wp_mono; [apply compute_deps_wp; inl|]. cbn beta.
  intros d A' D' B' [n1 [n2 [n3 [E1 [E2 [E3 [-> [E4 [E5 [E6 [-> ->]]]]]]]]]]].
  rewrite E1, E2, E3. rewrite andb_false_r in E5, E6.
  destruct (dr_twar d); [discriminate|]. destruct (dr_twaw d); [discriminate|]. cbn [res_list app].
  rewrite app_nil_r. generalize dependent (dr_rar d). intros k Ek.
  assert (P : forall e, Permutation (n1 :: n2 :: n3 :: res_list k ++ e :: s :: x :: y :: A) (n1 :: n2 :: n3 :: e :: s :: x :: y :: res_list k ++ A)).
  { intros e. do 3 apply perm_skip. destruct k; cbn [res_list app]; [perm|apply Permutation_refl]. }
  eapply wp_perm; [apply P|]. steps.
  match goal with |- wp (transform _ _ _ _ _ _ _ (Some ?c0) (Some ?e0) _ _) (_ :: ?d0 :: _) _ _ _ =>
    eapply wp_perm; [|eapply wp_mono; [apply (transform_wp acc ds ms rs ws r c c0 e0 x y (d0 :: res_list k ++ A))|]] end.
  - perm.
  - right. apply in_or_app. auto.
  - cbn beta. intros q A' D' B' [F [-> [-> ->]]].
    destruct q as [q|]; cbn [res_list app]; steps; (eexists _, []; split; [apply Permutation_refl|split; [intros z []|]]);
      (split; [auto|split; [exists k; split; [reflexivity|auto]|]]);
      rewrite <- app_assoc; now destruct lw, co.
Qed.
