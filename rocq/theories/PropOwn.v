(** * C91: references to isl objects that are passed to the library. *)
From Coq Require Import List Arith Bool Lia Permutation.
From Verif Require Import SpecOwn OwnModel OwnProofs OwnProofs2 OwnProofs3.
Import ListNotations.

(** pluto_transform without accesses takes its arguments and returns one new reference, or
    NULL if no transformation was found; it uses nothing it has given away. *)
Theorem C91_transform : forall ctx domains dependences accesswise ds ms r h,
  sane h -> owned h [Some ctx; Some domains; Some dependences] ->
  let '(s, h') := transform (Some ctx) accesswise ds ms [] [] r (Some domains) (Some dependences) None None h in
  clean h [Some domains; Some dependences] s h' /\ (s = None <-> found r = false).
Proof.
  intros c d e acc ds ms r h S O.
  destruct (run_owned_c _ (transform (Some c) acc ds ms [] [] r (Some d) (Some e) None None) h c [d; e]
    (fun A s A' D' B' => is_some s = found r /\ A' = res_list s ++ A /\ D' = [] /\ B' = bad h) S O)
    as [F [A' [D' [B' [H [[E [-> [-> ->]]] K]]]]]].
  - intros A I. apply transform_wp_one; auto.
  - destruct (transform _ _ _ _ _ _ _ _ _ _ _ h) as [s h']. cbn [fst snd] in *. split; [split|].
    + eapply handed_of; eauto.
    + now apply okh_B in K.
    + rewrite <- E. destruct s; cbn; split; congruence.
Qed.
Print Assumptions C91_transform.

(** With accesses everything is released all the same.  One thing is wrong: a basic map is
    used (line 535 of lib/program.cpp) after it was given to isl_map_from_basic_map. *)
Theorem C91_transform_accesses_partial : forall ctx domains dependences reads writes accesswise ds ms rs ws r h,
  sane h -> owned h [Some ctx; Some domains; Some dependences; Some reads; Some writes] ->
  let '(s, h') := transform (Some ctx) accesswise ds ms rs ws r (Some domains) (Some dependences) (Some reads) (Some writes) h in
  handed_over h [Some domains; Some dependences; Some reads; Some writes] s h' /\ (s = None <-> found r = false) /\
  exists l, bad h' = bad h ++ l /\ forall line, In line l -> line = 535.
Proof.
  intros c d e x y acc ds ms rs ws r h S O.
  destruct (run_owned_c _ (transform (Some c) acc ds ms rs ws r (Some d) (Some e) (Some x) (Some y)) h c [d; e; x; y]
    (fun A s A' D' B' => is_some s = found r /\ A' = res_list s ++ A /\ D' = [] /\ B' = bad h ++ uses ds rs ws) S O)
    as [F [A' [D' [B' [H [[E [-> [-> ->]]] K]]]]]].
  - intros A I. now apply transform_wp.
  - destruct (transform _ _ _ _ _ _ _ _ _ _ _ h) as [s h']. cbn [fst snd] in *. split; [|split].
    + eapply handed_of; eauto.
    + rewrite <- E. destruct s; cbn; split; congruence.
    + exists (uses ds rs ws). split; [now apply okh_B in K|]. intros line I. unfold uses, used in I.
      apply in_flat_map in I. destruct I as [i [_ I]]. apply in_app_or in I.
      destruct I as [I|I]; apply in_flat_map in I; destruct I as [m [_ I]]; apply in_flat_map in I;
        destruct I as [b [_ [<-|[]]]]; auto.
Qed.
Print Assumptions C91_transform_accesses_partial.

Definition ex_sh := mkBshape 1 2 3.
Definition ex_heap := mkHeap [4; 3; 2; 1; 0] 5 [].
Definition ex_read : accesses := [(0, [[Some [mkPiece 1 1 None]; None]])].
Lemma ex_sane : sane ex_heap.
Proof. split; [repeat (constructor; [cbn; lia|]); constructor|]. cbn. intros n H. lia. Qed.
Lemma ex_owned l : NoDup l -> incl l [0; 1; 2; 3; 4] -> owned ex_heap (map Some l).
Proof.
  intros N I. split.
  - intros n J. apply in_map_iff in J. destruct J as [m [E J]]. inversion E; subst. apply I in J. cbn in *. tauto.
  - intros i j n E1 E2. rewrite nth_error_map in E1, E2.
    destruct (nth_error l i) as [a|] eqn:A1; [|discriminate]. destruct (nth_error l j) as [b|] eqn:A2; [|discriminate].
    cbn in E1, E2. apply (proj1 (NoDup_nth_error l) N); [apply nth_error_Some; congruence|congruence].
Qed.

Theorem C91_accesses_refuted : exists ctx domains dependences reads writes accesswise ds ms rs ws r h,
  sane h /\ owned h [Some ctx; Some domains; Some dependences; Some reads; Some writes] /\
  let '(s, h') := transform (Some ctx) accesswise ds ms rs ws r (Some domains) (Some dependences) (Some reads) (Some writes) h in
  bad h' <> bad h.
Proof.
  exists 0, 1, 2, 3, 4, false, [[ex_sh]], [], ex_read, [], (mkRun true [ex_sh] 1), ex_heap.
  split; [exact ex_sane|]. split.
  - apply (ex_owned [0; 1; 2; 3; 4]); [repeat (constructor; [cbn; lia|]); constructor|apply incl_refl].
  - vm_compute. discriminate.
Qed.
Print Assumptions C91_accesses_refuted.

(** If only the reads or only the writes are passed, they are never released. *)
Theorem C91_one_access_refuted : forall ctx domains dependences reads writes other accesswise ds ms rs ws r h,
  sane h -> owned h [Some ctx; Some domains; Some dependences; Some other] ->
  (reads = Some other /\ writes = None) \/ (reads = None /\ writes = Some other) ->
  let '(s, h') := transform (Some ctx) accesswise ds ms rs ws r (Some domains) (Some dependences) reads writes h in
  In other (live h') /\ s <> Some other.
Proof.
  intros c d e x y o acc ds ms rs ws r h S O X.
  assert (O1 : owned h [Some c; Some d; Some e]).
  { destruct O as [O1 O2]. split.
    - intros n I. apply O1. cbn in *. tauto.
    - intros i j n E1 E2. assert (L : forall k v, nth_error [Some c; Some d; Some e] k = Some v -> nth_error [Some c; Some d; Some e; Some o] k = Some v).
      { intros [|[|[|k]]] v; cbn; auto. destruct k; discriminate. }
      apply (O2 i j n); auto. }
  destruct (run_owned_c _ (transform (Some c) acc ds ms rs ws r (Some d) (Some e) x y) h c [d; e]
    (fun A s A' D' B' => is_some s = found r /\ A' = res_list s ++ A /\ D' = [] /\ B' = bad h) S O1)
    as [F [A' [D' [B' [H [[E [-> [-> ->]]] K]]]]]].
  - intros A I. apply transform_wp_one; auto. destruct X as [[_ ->]|[-> _]]; auto.
  - destruct (transform _ _ _ _ _ _ _ _ _ _ _ h) as [s h']. cbn [fst snd] in *.
    assert (IF : In o F).
    { apply H. destruct O as [O2 O3]. split; [apply O2; cbn; auto|]. intros [J|[J|[]]]; inversion J; subst.
      - assert (Z := O3 1 3 o eq_refl eq_refl). discriminate.
      - assert (Z := O3 2 3 o eq_refl eq_refl). discriminate. }
    destruct K as [P [N _]]. split.
    + apply (Permutation_in o (Permutation_sym P)). apply in_or_app. auto.
    + intros ->. cbn in N. inversion N; contradiction.
Qed.
Print Assumptions C91_one_access_refuted.

(** pluto_schedule: released are the arguments; the RAR dependences that option rar
    computes stay; with last writers and coalescing NULL is dereferenced. *)
Theorem C91_schedule_partial : forall ctx schedules reads writes accesswise lastwriter rar coalesce ds ms rs ws r h,
  sane h -> owned h [Some ctx; Some schedules; Some reads; Some writes] ->
  let '(s, h') := schedule (Some ctx) accesswise lastwriter rar coalesce ds ms rs ws r (Some schedules) (Some reads) (Some writes) h in
  (s = None <-> found r = false) /\
  (rar = false -> handed_over h [Some schedules; Some reads; Some writes] s h') /\
  (rar = true -> exists left, s <> Some left /\ In left (live h') /\ ~ (In left (live h) /\ ~ In (Some left) [Some schedules; Some reads; Some writes])) /\
  exists l, bad h' = bad h ++ (if (lastwriter && coalesce)%bool then [692; 693] else []) ++ l /\ forall line, In line l -> line = 535.
Proof.
  intros c d x y acc lw rar co ds ms rs ws r h S O.
  destruct (run_owned_c _ (schedule (Some c) acc lw rar co ds ms rs ws r (Some d) (Some x) (Some y)) h c [d; x; y]
    (fun A q A' D' B' => is_some q = found r /\ (exists k, A' = res_list q ++ res_list k ++ A /\ is_some k = rar) /\
        B' = bad h ++ (if lw && co then [692; 693] else []) ++ uses ds rs ws) S O)
    as [F [A' [D' [B' [H [[E [[k [-> Ek]] ->]] K]]]]]].
  - intros A I. now apply schedule_wp.
  - destruct (schedule _ _ _ _ _ _ _ _ _ _ _ _ _ h) as [s h']. cbn [fst snd] in *. split; [|split; [|split]].
    + rewrite <- E. destruct s; cbn; split; congruence.
    + intros ->. destruct k; [discriminate|]. cbn [res_list app] in K. eapply handed_of; eauto.
    + intros ->. destruct k as [k|]; [|discriminate]. exists k. destruct K as [P [N _]]. cbn [res_list] in *.
      assert (Ik : In k (res_list s ++ [k] ++ F)) by (apply in_or_app; right; now left).
      split; [|split].
      * intros ->. cbn in N. inversion N as [|? ? N1 _]. apply N1. now left.
      * apply (Permutation_in k (Permutation_sym P)). exact Ik.
      * intros J. apply H in J. apply NoDup_remove_2 with (l := res_list s) (l' := F) in N. apply N. apply in_or_app. auto.
    + exists (uses ds rs ws). split; [now apply okh_B in K|]. intros line I. unfold uses, used in I.
      apply in_flat_map in I. destruct I as [i [_ I]]. apply in_app_or in I.
      destruct I as [I|I]; apply in_flat_map in I; destruct I as [m [_ I]]; apply in_flat_map in I;
        destruct I as [b [_ [<-|[]]]]; auto.
Qed.
Print Assumptions C91_schedule_partial.

(** pluto_schedule_and_get_remapping is clean. *)
Theorem C91_schedule_and_get_remapping : forall domains dependences accesswise ds ms r h,
  sane h -> owned h [Some domains; Some dependences] ->
  let '(s, h') := schedule_and_get_remapping accesswise ds ms r (Some domains) (Some dependences) h in
  clean h [Some domains; Some dependences] None h' /\ s = found r.
Proof.
  intros d e acc ds ms r h S O.
  destruct (run_owned _ (schedule_and_get_remapping acc ds ms r (Some d) (Some e)) h [d; e]
    (fun A s A' D' B' => s = found r /\ A' = A /\ D' = [d; e] /\ B' = bad h) S O) as [F [A' [D' [B' [H [[E [-> [-> ->]]] K]]]]]].
  - intros A. apply schedule_and_wp.
  - destruct (schedule_and_get_remapping _ _ _ _ _ _ h) as [s h']. cbn [fst snd] in *. split; auto. split.
    + apply (handed_of _ _ _ None F [d; e] (bad h)); auto.
    + now apply okh_B in K.
Qed.
Print Assumptions C91_schedule_and_get_remapping.

(** pluto_parallel_schedule_with_remapping is never clean: after a success the space is
    released twice (line 529), after a failure it is not released. *)
Theorem C91_parallel_schedule_refuted : forall ctx domains dependences accesswise ds ms r h,
  sane h -> owned h [Some ctx; Some domains; Some dependences] ->
  let '(s, h') := parallel_schedule_with_remapping (Some ctx) accesswise ds ms r (Some domains) (Some dependences) h in
  ~ clean h [Some domains; Some dependences] s h' /\
  (found r = true -> bad h' = bad h ++ [529] /\ handed_over h [Some domains; Some dependences] s h') /\
  (found r = false -> s = None /\ exists left, In left (live h') /\ ~ In left (live h)).
Proof.
  intros c d e acc ds ms r h S O.
  destruct (run_owned_c _ (fun h0 => (fst (parallel_schedule_with_remapping (Some c) acc ds ms r (Some d) (Some e) h0), snd (parallel_schedule_with_remapping (Some c) acc ds ms r (Some d) (Some e) h0))) h c [d; e]
    (fun A s A' D' B' => is_some s = found r /\ D' = [d; e] /\
        if found r then A' = res_list s ++ A /\ B' = bad h ++ [529]
        else exists n, (forall m, In m A -> m < n) /\ A' = n :: A /\ B' = bad h) S O) as [F [A' [D' [B' [H [[E [-> X]] K]]]]]].
  - intros A I h0 K0. cbn [fst snd]. apply (parallel_wp acc ds ms r c d e A [] (bad h) I h0 K0).
  - cbn [fst snd] in *.
    destruct (parallel_schedule_with_remapping _ _ _ _ _ _ _ h) as [s h']. cbn [fst snd] in *. destruct (found r).
    + destruct X as [-> ->]. split; [|split; [|discriminate]].
      * intros [_ C]. apply okh_B in K. rewrite K in C. apply (f_equal (@length nat)) in C. rewrite app_length in C. cbn in C. lia.
      * intros _. split; [now apply okh_B in K|]. eapply handed_of; eauto.
    + destruct X as [n [L [-> ->]]]. destruct s; [discriminate|].
      assert (Z : In n (live h')) by (destruct K as [P _]; apply (Permutation_in n (Permutation_sym P)); now left).
      assert (Y : ~ (In n (live h) /\ ~ In (Some n) [Some d; Some e])).
      { intros J. apply H in J. apply L in J. lia. }
      split; [|split; [discriminate|]].
      * intros [[_ C] _]. apply C in Z. destruct Z as [Z|Z]; [contradiction|discriminate].
      * intros _. split; auto. exists n. split; auto. intros I. destruct K as [_ [_ [_ [D1 _]]]].
        apply Y. split; auto. intros [J|[J|[]]]; inversion J; subst.
        -- destruct (D1 n) as [_ D2]; [now left|]. apply D2. now left.
        -- destruct (D1 n) as [_ D2]; [now right; left|]. apply D2. now left.
Qed.
Print Assumptions C91_parallel_schedule_refuted.

(** pluto_schedule_str always releases domains and dependences a second time; after a
    failure it also uses the printer after isl freed it and frees the context while an
    object is left. *)
Theorem C91_schedule_str_refuted : forall accesswise ds ms r h,
  sane h ->
  bad (snd (schedule_str accesswise ds ms r h)) =
  bad h ++ if found r then [529; 592; 593] else [587; 591; 592; 593; 596].
Proof.
  intros acc ds ms r h S.
  destruct (schedule_str_wp acc ds ms r (live h) [] (bad h) h (sane_okh h S)) as [A' [D' [B' [q K]]]].
  apply okh_B in K. rewrite K. destruct (found r).
  - now destruct q as [_ ->].
  - now destruct q as [n [_ ->]].
Qed.
Print Assumptions C91_schedule_str_refuted.

(** pluto_get_remapping_str is clean if a transformation is found; otherwise it
    dereferences NULL. *)
Theorem C91_get_remapping_str_partial : forall accesswise ds ms r h,
  sane h ->
  let h' := snd (get_remapping_str accesswise ds ms r h) in
  (found r = true -> clean h [] None h') /\ (found r = false -> bad h' = bad h ++ [609]).
Proof.
  intros acc ds ms r h S. cbn zeta.
  destruct (get_remapping_str_wp acc ds ms r (live h) [] (bad h) h (sane_okh h S)) as [A' [D' [B' [[-> ->] K]]]].
  split; intros E; rewrite E, ?app_nil_r in K.
  - split; [|now apply okh_B in K]. apply (handed_of _ _ _ None (live h) D' (bad h)); auto. intros n. cbn. tauto.
  - now apply okh_B in K.
Qed.
Print Assumptions C91_get_remapping_str_partial.

(** The operations on constraints that use isl, and the constraints for linear
    independence, leave nothing behind in their contexts. *)
Theorem C91_operations : forall h,
  sane h ->
  (forall b res, clean h [] None (snd (project_out_single b res h))) /\
  (forall b negvar empty ndim, clean h [] None (snd (lexmin b negvar empty ndim h))) /\
  (forall l1 l2 res, clean h [] None (snd (intersection l1 l2 res h))) /\
  (forall flic p q ocols cur orth, clean h [] None (snd (stmt_lin_ind flic p q ocols cur orth h))) /\
  (forall rows cols ocols, clean h [] None (snd (lin_ind rows cols ocols h))).
Proof.
  intros h S. assert (O : owned h (map Some [])).
  { split; [intros n []|]. intros i j n E. destruct i; discriminate. }
  split; [|split; [|split; [|split]]]; intros; apply (run_eats _ h [] S O).
  - apply project_out_single_eats.
  - apply lexmin_eats.
  - apply intersection_eats.
  - apply stmt_lin_ind_eats.
  - apply lin_ind_eats.
Qed.
Print Assumptions C91_operations.

(** Conversions: what they are documented to keep stays with the caller, what they are
    documented to take is released. *)
Theorem C91_conversions : forall h n,
  sane h -> In n (live h) ->
  (forall b, clean h [] None (snd (basic_set_to b (Some n) h))) /\
  (forall b, clean h [] None (snd (basic_map_to b (Some n) h))) /\
  (forall l, clean h [] None (snd (set_to l (Some n) h))) /\
  (forall dims, clean h [] None (snd (map_to_pluto_func dims (Some n) h))) /\
  (forall rows cols, clean h [] None (snd (matrix_from_isl_mat (Some n) rows cols h))) /\
  (forall acc ms, clean h [] None (snd (extract_deps acc ms (Some n) h))) /\
  (forall acc l, clean h [Some n] None (snd (map_extract_dep acc l (Some n) h))) /\
  (forall l, clean h [Some n] None (snd (extract_stmt l (Some n) h))).
Proof.
  intros h n S I. assert (O : owned h (map Some [n])).
  { split; [intros m [E|[]]; now inversion E; subst|]. intros [|i] [|j] m E1 E2; auto; cbn in *; destruct i || destruct j; discriminate. }
  split; [|split; [|split; [|split; [|split; [|split; [|split]]]]]]; intros.
  - apply (run_keeps _ h n S I), basic_set_to_keeps.
  - apply (run_keeps _ h n S I), basic_map_to_keeps.
  - apply (run_keeps _ h n S I), set_to_keeps.
  - apply (run_keeps _ h n S I), map_to_pluto_func_keeps.
  - apply (run_keeps _ h n S I), matrix_from_keeps.
  - apply (run_keeps _ h n S I), extract_deps_keeps.
  - apply (run_eats _ h [n] S O), map_extract_dep_eats.
  - apply (run_eats _ h [n] S O), extract_stmt_eats.
Qed.
Print Assumptions C91_conversions.

(** pluto_constraints_union_isl and pluto_constraints_project_out_isl, which pass NULL as
    context, always end with the failing assertion of line 179. *)
Theorem C91_union_refuted : forall h,
  sane h ->
  (forall l1 l2 res, bad (snd (union l1 l2 res h)) = bad h ++ [179]) /\
  (forall l res, bad (snd (project_out l res h)) = bad h ++ [179]).
Proof.
  intros h S. split; intros.
  - destruct (union_null l1 l2 res (live h) [] (bad h) (fun _ A' D' B' => B' = bad h ++ [179]) eq_refl h (sane_okh h S)) as [A' [D' [B' [-> K]]]].
    now apply okh_B in K.
  - destruct (project_out_null l res (live h) [] (bad h) (fun _ A' D' B' => B' = bad h ++ [179]) eq_refl h (sane_okh h S)) as [A' [D' [B' [-> K]]]].
    now apply okh_B in K.
Qed.
Print Assumptions C91_union_refuted.

Example C91_met :
  sane ex_heap /\ owned ex_heap [Some 0; Some 1; Some 2; Some 3; Some 4] /\
  (let '(s, h') := transform (Some 0) true [[ex_sh]; [ex_sh; ex_sh]] [[(true, ex_sh)]; [(false, ex_sh)]] [] [] (mkRun true [ex_sh; ex_sh] 1)
                     (Some 1) (Some 2) None None ex_heap in
   live h' = match s with Some n => [n; 4; 3; 0] | None => [] end /\ bad h' = []) /\
  (let '(s, h') := schedule (Some 0) false true true true [[ex_sh]] [[(false, ex_sh)]] ex_read ex_read (mkRun false [] 1)
                     (Some 1) (Some 2) (Some 3) ex_heap in
   s = None /\ length (live h') = 3 /\ bad h' = [692; 693; 535; 535]) /\
  bad (snd (schedule_str false [[ex_sh]] [] (mkRun false [] 0) ex_heap)) = [587; 591; 592; 593; 596].
Proof.
  split; [exact ex_sane|]. split.
  - apply (ex_owned [0; 1; 2; 3; 4]); [repeat (constructor; [cbn; lia|]); constructor|apply incl_refl].
  - split; [vm_compute; split; reflexivity|]. split; [vm_compute; split; [reflexivity|split; reflexivity]|vm_compute; reflexivity].
Qed.
