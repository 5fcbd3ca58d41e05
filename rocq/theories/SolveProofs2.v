(** * Proofs: PolyLib, projections, affine functions, tests of vectors. *)
From Coq Require Import ZArith QArith Qround List Bool Lia Lqa.
From Verif Require Import SpecLinear MathModel ConstraintsModel SpecLib OslModel SpecProg SpecSolve SolveModel VecProofs Checkers OslProofs SolveProofs LoopModel ConeModel SpecMatrix.
Import ListNotations.
Open Scope Z_scope.

Lemma copy_list_eq : forall src dest, copy_list dest src = src.
Proof. induction src as [|s src IH]; intros [|d dest]; cbn; auto. rewrite IH. reflexivity. Qed.

(** ** PolyLib *)

Lemma to_polylib_mem n l x : (forall c, In c l -> ncols c = (n + 1)%nat) -> (pol_mem n (to_polylib l) x <-> umem l x).
Proof.
  intros N. unfold pol_mem, umem, to_polylib, mem. split.
  - intros (L & m & Hm & H). apply in_map_iff in Hm as (c & <- & Hc). exists c. split; auto. rewrite (N c Hc). split; [lia|].
    intros r Hr. specialize (H _ (in_map (fun r => (if is_eq r then 0 else 1) :: coef r) _ _ Hr)). unfold holds. cbn in H. destruct (is_eq r); auto.
  - intros (c & Hc & L & H). rewrite (N c Hc) in L. split; [lia|]. exists (mrows (to_matrix c)). split; [apply in_map_iff; eauto|].
    intros l' Hl. cbn in Hl. apply in_map_iff in Hl as (r & <- & Hr). specialize (H r Hr). unfold holds in H. cbn. destruct (is_eq r); auto.
Qed.
Lemma to_polylib_shaped n l : (forall c, In c l -> wf_cst c /\ ncols c = (n + 1)%nat) -> shaped_pol n (to_polylib l).
Proof.
  intros H m r Hm Hr. apply in_map_iff in Hm as (c & <- & Hc). cbn in Hr. apply in_map_iff in Hr as (q & <- & Hq).
  destruct (H c Hc) as [[_ W] N]. cbn. rewrite (W q Hq). lia.
Qed.
Lemma from_polylib_mem n p x : shaped_pol n p -> (umem (from_polylib n p) x <-> pol_mem n p x).
Proof.
  intros Sh. unfold umem, from_polylib, pol_mem, mem. split.
  - intros (c & Hc & L & H). apply in_map_iff in Hc as (m & <- & Hm). cbn in L, H. split; [lia|]. exists m. split; auto.
    intros r Hr. specialize (H _ (in_map (fun r => mkRow (nth 0 r 0 =? 0) (tl r)) _ _ Hr)). specialize (Sh m r Hm Hr).
    destruct r as [|t r]; [cbn in Sh; lia|]. unfold holds in H. cbn in H |- *. auto.
  - intros (L & m & Hm & H). exists (mkCst (n + 1) (map (fun r => mkRow (nth 0 r 0 =? 0) (tl r)) m)). split; [apply in_map_iff; eauto|].
    cbn. split; [lia|]. intros q Hq. apply in_map_iff in Hq as (r & <- & Hr). specialize (H r Hr). specialize (Sh m r Hm Hr).
    destruct r as [|t r]; [cbn in Sh; lia|]. unfold holds. cbn in H |- *. auto.
Qed.
Lemma from_polylib_wf n p c : shaped_pol n p -> In c (from_polylib n p) -> wf_cst c /\ ncols c = (n + 1)%nat.
Proof.
  intros Sh H. apply in_map_iff in H as (m & <- & Hm). split; [|reflexivity]. split; [cbn; lia|]. cbn.
  intros q Hq. apply in_map_iff in Hq as (r & <- & Hr). specialize (Sh m r Hm Hr). destruct r; cbn in *; lia.
Qed.

Lemma list_ok_dim n l : list_ok n l -> list_dim l = n.
Proof. intros [A B]. destruct l as [|c l]; [congruence|]. destruct (B c (or_introl eq_refl)). cbn. lia. Qed.

Lemma polylib_op_mem op P n l1 l2 : polylib_op_ok op P ->
  (forall a a' b b', (a <-> a') -> (b <-> b') -> (P a b <-> P a' b')) -> list_ok n l1 -> list_ok n l2 ->
  list_ok n (polylib_op op l1 l2) /\
  (forall x, length x = n -> (umem (polylib_op op l1 l2) x <-> P (umem l1 x) (umem l2 x))) /\
  (forall x, umem (polylib_op op l1 l2) x -> length x = n).
Proof.
  intros O PP A B. unfold polylib_op. rewrite (list_ok_dim n l1 A). destruct A as [A1 A2], B as [B1 B2].
  destruct (O n (to_polylib l1) (to_polylib l2)) as (C & D & E).
  1, 2: apply to_polylib_shaped; auto.
  1, 2: unfold to_polylib; intros X; apply map_eq_nil in X; auto.
  split; [|split].
  - split; [unfold from_polylib; intros X; apply map_eq_nil in X; auto|]. intros c Hc. apply (from_polylib_wf n _ c C Hc).
  - intros x L. rewrite from_polylib_mem by auto. rewrite E by auto.
    apply PP; apply to_polylib_mem; intros c Hc; [apply A2|apply B2]; auto.
  - intros x Hx. apply from_polylib_mem in Hx; auto. apply Hx.
Qed.

Lemma is_empty_iff n e l : exact_empty e -> list_ok n l -> (is_empty e l = true <-> forall x, ~ umem l x).
Proof.
  intros E [_ H]. induction l as [|c l IH]; cbn.
  - split; auto. intros _ x (c & [] & _).
  - destruct (H c (or_introl eq_refl)) as [W _]. specialize (E c W). destruct (e c) eqn:Ec; cbn.
    + rewrite IH by (intros d Hd; apply H; right; auto). split.
      * intros K x (d & [<-|Hd] & M); [apply (E x M)|]. apply (K x). exists d. auto.
      * intros K x (d & Hd & M). apply (K x). exists d. split; auto. right. auto.
    + split; [discriminate|]. intros K. exfalso. destruct E as [x M]. apply (K x).
      exists c. split; [left|]; auto.
Qed.

(** ** Projection *)

Lemma project_func_length nc start num : (start + num <= nc)%nat -> length (project_func nc start num) = (nc - num)%nat.
Proof. intros H. unfold project_func. rewrite map_length, app_length, !seq_length. lia. Qed.

Lemma qaff_unit n i (x : qpoint) : (i < n)%nat -> length x = n -> (qaff (set_nth i 1%Z (repeat 0%Z (n + 1))) x == nth i x 0)%Q.
Proof.
  unfold qaff. intros H L. revert n i H L. induction x as [|v x IH]; intros n i H L; cbn in L; subst n; [lia|].
  destruct i; cbn - [Qmult inject_Z].
  - rewrite qdot_repeat0_l. unfold inject_Z. ring.
  - rewrite (IH (length x) i); auto; [|lia]. unfold inject_Z. ring.
Qed.

Lemma drop_nth (x : qpoint) start num : (start + num <= length x)%nat ->
  firstn start x ++ skipn (start + num) x = map (fun i => nth i x 0%Q) (seq 0 start ++ seq (start + num) (length x - (start + num))).
Proof.
  intros H. rewrite map_app. f_equal.
  - apply (nth_ext _ _ 0%Q 0%Q); [rewrite firstn_length, map_length, seq_length; lia|]. intros k K. rewrite firstn_length in K.
    rewrite (nth_indep (map _ _) 0%Q (nth 0 x 0%Q)) by (rewrite map_length, seq_length; lia).
    rewrite (List.map_nth (fun i => nth i x 0%Q)), seq_nth by lia. cbn.
    rewrite <- (firstn_skipn start x) at 2. rewrite app_nth1; auto. rewrite firstn_length. lia.
  - apply (nth_ext _ _ 0%Q 0%Q); [rewrite skipn_length, map_length, seq_length; lia|]. intros k K. rewrite skipn_length in K.
    rewrite (nth_indep (map _ _) 0%Q (nth 0 x 0%Q)) by (rewrite map_length, seq_length; lia).
    rewrite (List.map_nth (fun i => nth i x 0%Q)), seq_nth by lia.
    rewrite <- (firstn_skipn (start + num) x) at 2. rewrite app_nth2; rewrite firstn_length; [|lia].
    f_equal. lia.
Qed.

Lemma removelast_map {A B} (f : A -> B) l : removelast (map f l) = map f (removelast l).
Proof. induction l as [|a [|b l] IH]; cbn in *; auto. f_equal. auto. Qed.
Lemma removelast_seq s n : removelast (seq s (S n)) = seq s n.
Proof. rewrite seq_S, removelast_last. reflexivity. Qed.

Lemma project_values nc start num (x : qpoint) : (start + num < nc)%nat -> S (length x) = nc ->
  Forall2 Qeq (map (fun r => qaff r x) (removelast (project_func nc start num))) (firstn start x ++ skipn (start + num) x).
Proof.
  intros H L. rewrite drop_nth by lia. unfold project_func.
  replace (nc - (start + num))%nat with (S (length x - (start + num))) by lia.
  rewrite removelast_map, removelast_app by discriminate. rewrite removelast_seq, map_map.
  assert (forall l, (forall i, In i l -> i < length x)%nat ->
    Forall2 Qeq (map (fun i => qaff (set_nth i 1%Z (repeat 0%Z nc)) x) l) (map (fun i => nth i x 0%Q) l)) as K.
  { induction l as [|i l IH]; intros Hl; cbn; constructor.
    - replace nc with (length x + 1)%nat by lia. apply qaff_unit; auto. apply Hl. left. auto.
    - apply IH. intros j Hj. apply Hl. right. auto. }
  apply K. intros i Hi. apply in_app_or in Hi as [Hi|Hi]; apply in_seq in Hi; lia.
Qed.

Lemma Forall2_Qeq_sym a b : Forall2 Qeq a b -> Forall2 Qeq b a.
Proof. induction 1; constructor; auto. symmetry. auto. Qed.
Lemma Forall2_Qeq_trans a b c : Forall2 Qeq a b -> Forall2 Qeq b c -> Forall2 Qeq a c.
Proof. intros H. revert c. induction H; intros c K; inversion K; subst; constructor; auto. etransitivity; eauto. Qed.
Lemma Forall2_Qeq_refl a : Forall2 Qeq a a.
Proof. induction a; constructor; auto. reflexivity. Qed.

Lemma project_func_last nc start num : (start + num < nc)%nat -> last (project_func nc start num) [] = repeat 0 (nc - 1) ++ [1].
Proof.
  intros H. unfold project_func. replace (nc - (start + num))%nat with (S (nc - (start + num) - 1)) by lia.
  rewrite seq_S, app_assoc, map_app. cbn [map]. rewrite last_last.
  replace (start + num + (nc - (start + num) - 1))%nat with (nc - 1)%nat by lia.
  replace nc with (S (nc - 1)) at 2 by lia. generalize (nc - 1)%nat as k. induction k; cbn; auto. rewrite <- IHk. reflexivity.
Qed.

Lemma qpol_of_cst c x : wf_cst c -> (qpol_mem (ncols c - 1) (mrows (to_matrix c)) x <-> qmem c x).
Proof.
  intros [W _]. unfold qpol_mem, qmem. cbn [to_matrix mrows]. split.
  - intros [L H]. split; [lia|]. intros r Hr. specialize (H _ (in_map (fun r => (if is_eq r then 0 else 1) :: coef r) _ _ Hr)).
    unfold qholds. cbn in H. destruct (is_eq r); auto.
  - intros [L H]. split; [lia|]. intros q Hq. apply in_map_iff in Hq as (r & <- & Hr). specialize (H r Hr). unfold qholds in H. cbn.
    destruct (is_eq r); auto.
Qed.
Lemma cst_of_qpol n m x : (forall r, In r m -> length r = (n + 2)%nat) ->
  (qmem (mkCst (n + 1) (map (fun r => mkRow (nth 0 r 0 =? 0) (tl r)) m)) x <-> qpol_mem n m x).
Proof.
  intros Sh. unfold qpol_mem, qmem. cbn [ncols rows]. split.
  - intros [L H]. split; [lia|]. intros r Hr. specialize (H _ (in_map (fun r => mkRow (nth 0 r 0 =? 0) (tl r)) _ _ Hr)). specialize (Sh r Hr).
    destruct r as [|t r]; [cbn in Sh; lia|]. unfold qholds in H. cbn in H |- *. auto.
  - intros [L H]. split; [lia|]. intros q Hq. apply in_map_iff in Hq as (r & <- & Hr). specialize (H r Hr). specialize (Sh r Hr).
    destruct r as [|t r]; [cbn in Sh; lia|]. unfold qholds. cbn in H |- *. auto.
Qed.

Lemma project_single_spec img start num c : image_ok img -> wf_cst c -> (start + num < ncols c)%nat ->
  exists c', project_out_single img start num c = Some c' /\ wf_cst c' /\ ncols c' = (ncols c - num)%nat /\
    forall y, qmem c' y <-> exists x, qmem c x /\ Forall2 Qeq y (firstn start x ++ skipn (start + num) x).
Proof.
  intros I W H. unfold project_out_single. destruct (Nat.eqb_spec num 0) as [->|N].
  - exists c. split; auto. split; auto. split; [lia|]. intros y. split.
    + intros M. exists y. split; auto. rewrite Nat.add_0_r, firstn_skipn. apply Forall2_Qeq_refl.
    + intros (x & M & E). rewrite Nat.add_0_r, firstn_skipn in E. destruct M as [L M]. split.
      * rewrite <- L. f_equal. clear - E. induction E; cbn; auto.
      * intros r Hr. specialize (M r Hr). unfold qholds in *.
        assert (qaff (coef r) y == qaff (coef r) x)%Q as X.
        { unfold qaff. generalize (coef r) as a. clear - E. induction E; intros a; cbn; [reflexivity|]. destruct a; [reflexivity|]. cbn. rewrite H, IHE. reflexivity. }
        destruct (is_eq r); rewrite X; auto.
  - replace (start + num - 1 <=? ncols c - 2)%nat with true by (symmetry; apply Nat.leb_le; lia).
    assert (PL : length (project_func (ncols c) start num) = (ncols c - num)%nat) by (apply project_func_length; lia).
    destruct (I (ncols c - 1)%nat (mrows (to_matrix c)) (project_func (ncols c) start num)) as [A B].
    + intros r Hr. cbn in Hr. apply in_map_iff in Hr as (q & <- & Hq). destruct W as [W1 W2]. cbn. rewrite (W2 q Hq). lia.
    + lia.
    + intros r Hr. apply in_map_iff in Hr as (i & <- & Hi). rewrite set_nth_length, repeat_length. lia.
    + apply project_func_last. lia.
    + rewrite PL in A, B. cbn [from_polylib map hd_error].
      eexists. split; [reflexivity|]. split; [|split].
      * split; [cbn; lia|]. cbn. intros q Hq. apply in_map_iff in Hq as (r & <- & Hr). specialize (A r Hr). destruct r; cbn in *; lia.
      * cbn. lia.
      * intros y. rewrite cst_of_qpol by (intros r Hr; rewrite (A r Hr); lia). rewrite B. split; intros (x & M & E).
        -- exists x. apply qpol_of_cst in M; auto. split; auto. eapply Forall2_Qeq_trans; [exact E|]. destruct M. apply project_values; lia.
        -- exists x. split; [apply qpol_of_cst; auto|]. eapply Forall2_Qeq_trans; [exact E|]. apply Forall2_Qeq_sym. destruct M. apply project_values; lia.
Qed.

(** ** Affine functions *)

Lemma num_si_int q z : (q == inject_Z z)%Q -> num_si q = z.
Proof. intros H. unfold num_si. rewrite (Qred_complete _ _ H). unfold inject_Z, Qred.
  pose proof (Z.ggcd_gcd z 1) as G. pose proof (Z.ggcd_correct_divisors z 1) as D.
  destruct (Z.ggcd z 1) as (g & aa & bb). cbn in G, D |- *. rewrite Z.gcd_1_r in G. subst g. lia.
Qed.

Lemma qsum_dot a x : Forall is_int a -> length a = length x -> (qsum a x == inject_Z (dot (map num_si a) x))%Q.
Proof.
  intros H. revert x. induction H as [|q a [z Hz] H IH]; intros [|v x] L; cbn; try discriminate L; [reflexivity|].
  rewrite IH by (cbn in L; lia). rewrite (num_si_int _ _ Hz), inject_Z_plus, inject_Z_mult, Hz. reflexivity.
Qed.

Lemma aff_func_value a i p : af_divs a = [] -> Forall is_int (af_in a) -> Forall is_int (af_par a) -> is_int (af_cst a) ->
  length (af_in a) = length i -> length (af_par a) = length p ->
  (inject_Z (aff (aff_to_func a) (i ++ p)) == iaff_val a i p)%Q.
Proof.
  intros D A B [z Hz] L1 L2. unfold aff_to_func, iaff_val, aff. rewrite D. cbn [fold_right].
  rewrite <- app_assoc. rewrite !dot_app by (rewrite map_length; auto).
  rewrite !inject_Z_plus, <- !qsum_dot by auto. cbn. rewrite (num_si_int _ _ Hz), Hz.
  rewrite !Z.add_0_r, Z.mul_1_r. ring.
Qed.

(** ** Tests of vectors *)

Lemma parallel_loop_ratio num den a : num <> 0 -> den <> 0 -> forall b, length a = length b ->
  (parallel_loop num den a b = true <-> map (Z.mul den) a = map (Z.mul num) b).
Proof.
  intros Hn Hd. induction a as [|x a IH]; intros [|y b] L; try discriminate L; cbn; [tauto|].
  injection L as L. destruct (Z.eqb_spec x 0) as [->|X], (Z.eqb_spec y 0) as [->|Y]; cbn.
  - rewrite IH by auto. rewrite !Z.mul_0_r. split; [intros ->; auto|intros E; injection E; auto].
  - split; [discriminate|]. intros E. injection E as E _. nia.
  - split; [discriminate|]. intros E. injection E as E _. nia.
  - destruct (Z.eqb_spec num 0); [lia|]. destruct (Z.eqb_spec (num * y) (den * x)) as [E|E]; cbn.
    + rewrite IH by auto. rewrite E. split; [intros ->; auto|intros K; injection K; auto].
    + split; [discriminate|]. intros K. injection K as K _. lia.
Qed.

Lemma parallel_loop_zero a : forall b, length a = length b -> Forall fits32 a -> Forall fits32 b ->
  (parallel_loop 0 0 a b = true <-> exists k l, k <> 0 /\ l <> 0 /\ map (Z.mul k) a = map (Z.mul l) b).
Proof.
  induction a as [|x a IH]; intros [|y b] L Fa Fb; try discriminate L; cbn.
  - split; auto. intros _. exists 1, 1. repeat split; lia.
  - injection L as L. inversion Fa as [|? ? Fx Fa']; subst. inversion Fb as [|? ? Fy Fb']; subst.
    destruct (Z.eqb_spec x 0) as [->|X], (Z.eqb_spec y 0) as [->|Y]; cbn.
    + rewrite IH by auto. split; intros (k & l & K & K' & E); exists k, l; repeat split; auto; [rewrite !Z.mul_0_r, E; auto|injection E; auto].
    + split; [discriminate|]. intros (k & l & K & K' & E). injection E as E _. nia.
    + split; [discriminate|]. intros (k & l & K & K' & E). injection E as E _. nia.
    + assert (forall z, fits32 z -> wrap32 z = z) as WI. { unfold fits32, wrap32. intros z Hz. rewrite Z.mod_small; lia. }
      rewrite !WI by auto. rewrite parallel_loop_ratio by auto. split.
      * intros E. exists y, x. repeat split; auto. rewrite E, (Z.mul_comm y x). auto.
      * intros (k & l & K & K' & E). injection E as E1 E2.
        apply (nth_ext _ _ 0 0); [rewrite !map_length; auto|]. intros i Hi. rewrite map_length in Hi.
        assert (nth i (map (Z.mul k) a) 0 = nth i (map (Z.mul l) b) 0) as E3 by (rewrite E2; auto).
        rewrite (nth_indep _ 0 (k * 0)), (List.map_nth (Z.mul k)) in E3 by (rewrite map_length; auto).
        rewrite (nth_indep (map (Z.mul l) b) 0 (l * 0)), (List.map_nth (Z.mul l)) in E3 by (rewrite map_length; lia).
        rewrite (nth_indep _ 0 (y * 0)), (List.map_nth (Z.mul y)) by (rewrite map_length; auto).
        rewrite (nth_indep (map (Z.mul x) b) 0 (x * 0)), (List.map_nth (Z.mul x)) by (rewrite map_length; lia).
        set (u := nth i a 0) in *. set (v := nth i b 0) in *.
        (* k x = l y, k u = l v : y u = x v *)
        apply (Z.mul_cancel_l _ _ k K). apply (Z.mul_cancel_l _ _ l K').
        replace (l * (k * (y * u))) with (l * y * (k * u)) by ring. rewrite <- E1, E3. ring.
Qed.

Lemma normal_fold f g n : forall s acc,
  (forall k, (k <= n)%nat -> fits32 (fold_left (fun acc j => acc + f j * g j) (seq s k) acc)) ->
  fold_left (fun acc j => wrap32 (acc + f j * g j)) (seq s n) acc = fold_left (fun acc j => acc + f j * g j) (seq s n) acc.
Proof.
  induction n as [|n IH]; intros s acc H; cbn; auto.
  assert (wrap32 (acc + f s * g s) = acc + f s * g s) as ->.
  { specialize (H 1%nat ltac:(lia)). cbn in H. unfold fits32, wrap32 in *. rewrite Z.mod_small; lia. }
  apply IH. intros k Hk. apply (H (S k)). lia.
Qed.
Lemma fold_dot (a : list Z) : forall b k acc, length a = length b -> (k <= length a)%nat ->
  fold_left (fun acc j => acc + nth j a 0 * nth j b 0) (seq 0 k) acc = acc + dot (firstn k a) b.
Proof.
  induction a as [|x a IH]; intros [|y b] k acc L Hk; try discriminate L.
  - destruct k; cbn in *; lia.
  - destruct k; [cbn; lia|]. cbn [seq fold_left]. rewrite <- seq_shift.
    assert (forall l acc, fold_left (fun acc j => acc + nth j (x :: a) 0 * nth j (y :: b) 0) (map S l) acc
      = fold_left (fun acc j => acc + nth j a 0 * nth j b 0) l acc) as ->.
    { induction l; intros; cbn in *; auto. }
    rewrite IH by (cbn in *; lia). cbn. lia.
Qed.

Lemma min_lexical_spec a : forall b, length a = length b ->
  (min_lexical a b = true <-> a = b \/ lexlt a b) /\ (min_lexical a b = false <-> lexlt b a).
Proof.
  induction a as [|x a IH]; intros [|y b] L; try discriminate L; cbn.
  - split; split; auto; try discriminate; try tauto.
  - injection L as L. destruct (IH b L) as [A B]. destruct (Z.ltb_spec y x), (Z.ltb_spec x y); [exfalso; lia| | |].
    + split; split; auto; try discriminate. intros [E|[?|[? ?]]]; [injection E; lia|lia|lia].
    + split; split; [intros _; right; left; auto|reflexivity|intros X; discriminate X|].
      intros [?|[? ?]]; exfalso; lia.
    + assert (x = y) as <- by lia. rewrite A, B. split; split.
      * intros [->|?]; auto.
      * intros [E|[?|[? ?]]]; [injection E; auto|lia|auto].
      * auto.
      * intros [?|[? ?]]; [lia|auto].
Qed.
