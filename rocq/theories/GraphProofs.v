(** * Depth first search and strongly connected components. *)
From Coq Require Import ZArith List Bool Arith Lia Permutation Sorting.
From Verif Require Import SpecLinear SpecGraph VecProofs MathModel GraphModel RankProofs MatrixProofs.
Import ListNotations.
Open Scope nat_scope.

(** ** Reachability *)
Lemma reach_trans g u v w : reach g u v -> reach g v w -> reach g u w.
Proof. induction 1; auto. intros. econstructor; eauto. Qed.
Lemma reach_edge g u v : edge g u v -> reach g u v.
Proof. intros. econstructor; eauto. constructor. Qed.
Lemma reach_snoc g u v w : reach g u v -> edge g v w -> reach g u w.
Proof. intros. eapply reach_trans; eauto. apply reach_edge; auto. Qed.

Lemma sc_refl g u : strongly_connected g u u.
Proof. split; constructor. Qed.
Lemma sc_sym g u v : strongly_connected g u v -> strongly_connected g v u.
Proof. intros [? ?]; split; auto. Qed.
Lemma sc_trans g u v w : strongly_connected g u v -> strongly_connected g v w -> strongly_connected g u w.
Proof. intros [? ?] [? ?]; split; eapply reach_trans; eauto. Qed.

Lemma truth_true z : truth z = true <-> z <> 0%Z.
Proof. unfold truth. rewrite negb_true_iff. destruct (Z.eqb_spec z 0); split; congruence || auto. Qed.

Lemma edge_lt n g u v : wf_graph n g -> edge g u v -> u < n /\ v < n.
Proof.
  intros [H1 H2] E. unfold edge, adj in E.
  assert (u < n) as Hu.
  { destruct (Nat.lt_ge_cases u n); auto. rewrite (nth_overflow g) in E by lia. destruct v; simpl in E; congruence. }
  split; auto. destruct (Nat.lt_ge_cases v n); auto.
  rewrite nth_overflow in E; [congruence|]. rewrite (H2 (nth u g [])); auto. apply nth_In. lia.
Qed.

Lemma reach_lt n g u v : wf_graph n g -> reach g u v -> u < n -> v < n.
Proof. intros W H. induction H; auto. intros _. apply IHreach. eapply edge_lt; eauto. Qed.

(** ** What one call of the search does.

    [new] is the list of vertices visited by the call, latest finished first. *)
Definition visited (st : dstate) (u : nat) : Prop := nth u (vn st) 0 <> 0.

Definition unvisited_count (n : nat) (st : dstate) : nat :=
  length (filter (fun u => nth u (vn st) 0 =? 0) (seq 0 n)).

(** [q] occurs before [p] in [l]; everything from [q] to [p] is reached from [q]. *)
Definition back_ok (g : list (list Z)) (l : list nat) : Prop :=
  forall l1 q l2 p l3, l = l1 ++ q :: l2 ++ p :: l3 -> edge g p q ->
    forall w, In w (l2 ++ [p]) -> reach g q w.

Definition sorted_desc (f : nat -> nat) (l : list nat) : Prop :=
  forall l1 a l2 b l3, l = l1 ++ a :: l2 ++ b :: l3 -> f b < f a.

Record dfs_res (n : nat) (g : list (list Z)) (st st' : dstate) (new : list nat) : Prop := {
  r_len : length (vn st') = n /\ length (fn st') = n;
  r_vis : forall u, visited st' u <-> visited st u \/ In u new;
  r_fresh : forall u, In u new -> u < n /\ ~ visited st u;
  r_nodup : NoDup new;
  r_closed : forall p q, In p new -> edge g p q -> visited st q \/ In q new;
  r_back : back_ok g new;
  r_fn_old : forall u, ~ In u new -> nth u (fn st') 0 = nth u (fn st) 0;
  r_fn_new : forall u, In u new -> dtime st < nth u (fn st') 0 <= dtime st';
  r_fn_sorted : sorted_desc (fun u => nth u (fn st') 0) new;
  r_time : dtime st <= dtime st'
}.

Lemma split_app_cases {A} (x y : list A) l1 a l2 : x ++ y = l1 ++ a :: l2 ->
  (exists l, x = l1 ++ a :: l /\ l2 = l ++ y) \/ (exists l, l1 = x ++ l /\ y = l ++ a :: l2).
Proof.
  revert l1. induction x as [|b x IH]; intros l1 H; simpl in H.
  - right. exists l1. auto.
  - destruct l1 as [|c l1]; simpl in H; injection H as -> H.
    + left. exists x. auto.
    + destruct (IH _ H) as [(l & -> & ->)|(l & -> & ->)].
      * left. exists l. auto.
      * right. exists l. auto.
Qed.

Lemma back_ok_nil g : back_ok g [].
Proof. intros l1 q l2 p l3 H. destruct l1; discriminate. Qed.

(** Concatenation of results of consecutive searches: no edge leads from the
    older part to the newer one. *)
Lemma back_ok_app g a b : back_ok g a -> back_ok g b ->
  (forall p q, In p b -> In q a -> ~ edge g p q) -> back_ok g (a ++ b).
Proof.
  intros Ha Hb Hab l1 q l2 p l3 E Ed w Hw.
  apply split_app_cases in E as [(l & -> & E)|(l & -> & ->)].
  - symmetry in E. apply split_app_cases in E as [(l' & -> & ->)|(l' & -> & ->)].
    + eapply (Ha l1 q l2 p l'); eauto.
    + exfalso. apply (Hab p q); auto.
      * apply in_or_app; right; simpl; auto.
      * apply in_or_app; right; simpl; auto.
  - eapply (Hb l q l2 p l3); eauto.
Qed.

Lemma back_ok_cons g v a : back_ok g a -> (forall w, In w a -> reach g v w) -> back_ok g (v :: a).
Proof.
  intros Ha Hv l1 q l2 p l3 E Ed w Hw.
  destruct l1 as [|x l1]; simpl in E; injection E as -> E.
  - subst a. apply Hv. apply in_app_iff in Hw. apply in_app_iff. simpl in *. intuition auto.
  - eapply (Ha l1 q l2 p l3); eauto.
Qed.

Lemma sorted_desc_app f a b : sorted_desc f a -> sorted_desc f b ->
  (forall x y, In x a -> In y b -> f y < f x) -> sorted_desc f (a ++ b).
Proof.
  intros Ha Hb Hab l1 p l2 q l3 E.
  apply split_app_cases in E as [(l & -> & E)|(l & -> & ->)].
  - symmetry in E. apply split_app_cases in E as [(l' & -> & ->)|(l' & -> & ->)].
    + eapply (Ha l1 p l2 q l'); eauto.
    + apply Hab; apply in_or_app; right; simpl; auto.
  - eapply (Hb l p l2 q l3); eauto.
Qed.

Lemma sorted_desc_ext f f' l : (forall x, In x l -> f x = f' x) -> sorted_desc f l -> sorted_desc f' l.
Proof.
  intros E H l1 p l2 q l3 ->. rewrite <- !E. eapply H; eauto.
  - apply in_or_app; right; simpl; auto.
  - apply in_or_app; right; simpl. right. apply in_or_app; right; simpl; auto.
Qed.

Lemma NoDup_app_intro {A} (a b : list A) : NoDup a -> NoDup b -> (forall x, In x a -> ~ In x b) -> NoDup (a ++ b).
Proof.
  induction a as [|x a IH]; simpl; auto. intros H Hb D. inversion H; subst. constructor.
  - rewrite in_app_iff. intros [X|X]; auto. exact (D x (or_introl eq_refl) X).
  - apply IH; auto.
Qed.

Lemma dfs_res_trans n g s0 s1 s2 a b :
  dfs_res n g s0 s1 a -> dfs_res n g s1 s2 b -> dfs_res n g s0 s2 (b ++ a).
Proof.
  intros A B. destruct A as [a1 a2 a3 a4 a5 a6 a7 a8 a9 a10], B as [b1 b2 b3 b4 b5 b6 b7 b8 b9 b10].
  assert (forall u, In u b -> ~ In u a) as D.
  { intros u Hb Ha. apply b3 in Hb as [_ Hb]. apply Hb. apply a2. auto. }
  assert (forall u, In u a -> nth u (fn s2) 0 = nth u (fn s1) 0) as Fa.
  { intros u Hu. apply b7. intros Hb. exact (D u Hb Hu). }
  constructor; auto.
  - intros u. rewrite b2, a2, in_app_iff. tauto.
  - intros u Hu. apply in_app_iff in Hu as [Hu|Hu]; auto. destruct (b3 u Hu) as [? H]. split; auto.
    intros V. apply H. apply a2; auto.
  - apply NoDup_app_intro; auto.
  - intros p q Hp E. apply in_app_iff in Hp as [Hp|Hp].
    + destruct (b5 p q Hp E) as [V|V]; [apply a2 in V as [V|V]|]; auto; right; apply in_app_iff; auto.
    + destruct (a5 p q Hp E) as [V|V]; auto. right; apply in_app_iff; auto.
  - apply back_ok_app; auto. intros p q Hp Hq E.
    destruct (b3 q Hq) as [_ N]. apply N. apply a2. destruct (a5 p q Hp E); auto.
  - intros u Hu. rewrite in_app_iff in Hu. rewrite b7 by tauto. apply a7; tauto.
  - intros u Hu. apply in_app_iff in Hu as [Hu|Hu].
    + specialize (b8 u Hu). lia.
    + rewrite Fa by auto. specialize (a8 u Hu). lia.
  - apply sorted_desc_app; auto.
    + eapply sorted_desc_ext; [|exact a9]. intros; symmetry; auto.
    + intros x y Hx Hy. rewrite (Fa y) by auto. specialize (a8 y Hy). specialize (b8 x Hx). lia.
  - lia.
Qed.

Lemma dfs_res_refl n g st st' : length (vn st) = n -> length (fn st) = n ->
  vn st' = vn st -> fn st' = fn st -> dtime st' = dtime st -> dfs_res n g st st' [].
Proof.
  intros L1 L2 E1 E2 E3. constructor; rewrite ?E1, ?E2, ?E3; auto; simpl; try tauto.
  - unfold visited. rewrite E1. tauto.
  - constructor.
  - apply back_ok_nil.
  - intros l1 a l2 b l3 H. destruct l1; discriminate.
Qed.

Lemma filter_length_lt {A} (f h : A -> bool) l x : (forall y, h y = true -> f y = true) ->
  In x l -> f x = true -> h x = false -> length (filter h l) < length (filter f l).
Proof.
  intros H. induction l as [|y l IH]; simpl; [tauto|]. intros Hx Hf Hh.
  assert (length (filter h l) <= length (filter f l)) as M.
  { clear - H. induction l; simpl; auto. destruct (h a) eqn:E.
    - rewrite (H a E). simpl; lia.
    - destruct (f a); simpl; lia. }
  destruct Hx as [->|Hx].
  - rewrite Hf, Hh. simpl. lia.
  - specialize (IH Hx Hf Hh). destruct (h y) eqn:E.
    + rewrite (H y E). simpl. lia.
    + destruct (f y); simpl; lia.
Qed.

Lemma filter_length_mono {A} (f h : A -> bool) l : (forall y, h y = true -> f y = true) ->
  length (filter h l) <= length (filter f l).
Proof.
  intros H. induction l; simpl; auto. destruct (h a) eqn:E.
  - rewrite (H a E). simpl; lia.
  - destruct (f a); simpl; lia.
Qed.

Lemma unvisited_mono n st st' : (forall u, visited st u -> visited st' u) ->
  unvisited_count n st' <= unvisited_count n st.
Proof.
  intros H. apply filter_length_mono. intros y. rewrite !Nat.eqb_eq. intros E.
  destruct (Nat.eq_dec (nth y (vn st) 0) 0); auto. exfalso. apply (H y); auto.
Qed.

Lemma unvisited_lt n st st' v : v < n -> ~ visited st v -> visited st' v ->
  (forall u, visited st u -> visited st' u) -> unvisited_count n st' < unvisited_count n st.
Proof.
  intros Hv N V H. apply filter_length_lt with (x := v).
  - intros y. rewrite !Nat.eqb_eq. intros E. destruct (Nat.eq_dec (nth y (vn st) 0) 0); auto.
    exfalso. apply (H y); auto.
  - apply in_seq. lia.
  - apply Nat.eqb_eq. unfold visited in N. lia.
  - apply Nat.eqb_neq. auto.
Qed.

Lemma dfs_vertex_spec n g : wf_graph n g -> forall fuel v st,
  length (vn st) = n -> length (fn st) = n -> v < n -> ~ visited st v ->
  unvisited_count n st <= fuel ->
  exists new, dfs_res n g st (dfs_vertex fuel n g v st) (v :: new) /\ (forall w, In w new -> reach g v w).
Proof.
  intros W. induction fuel as [|f IH]; intros v st L1 L2 Hv Nv Hc.
  - exfalso. unfold unvisited_count in Hc.
    assert (In v (filter (fun u => nth u (vn st) 0 =? 0) (seq 0 n))) as X.
    { apply filter_In. split; [apply in_seq; lia|]. apply Nat.eqb_eq. unfold visited in Nv. lia. }
    destruct (filter _ _); simpl in *; [tauto|lia].
  - cbn [dfs_vertex].
    set (t := S (dtime st)). set (st1 := mkD t (set_nth v t (vn st)) (fn st) (ccid st)).
    set (step := fun (st0 : dstate) (j : nat) => _).
    assert (forall u, visited st1 u <-> visited st u \/ u = v) as V1.
    { intros u. unfold visited, st1; cbn [vn]. destruct (Nat.eq_dec u v) as [->|N].
      - rewrite nth_set_nth_eq by lia. unfold t. intuition.
      - rewrite nth_set_nth_neq by auto. intuition. }
    assert (unvisited_count n st1 <= f) as C1.
    { assert (unvisited_count n st1 < unvisited_count n st); [|lia].
      apply unvisited_lt with (v := v); auto. apply V1; auto. intros; apply V1; auto. }
    assert (forall js s, (forall j, In j js -> j < n) -> length (vn s) = n -> length (fn s) = n ->
       unvisited_count n s <= f ->
       exists new, dfs_res n g s (fold_left step js s) new /\ (forall w, In w new -> reach g v w) /\
         forall j, In j js -> edge g v j -> visited (fold_left step js s) j) as Loop.
    { induction js as [|j js IHj]; intros s Hj Ls1 Ls2 Cs.
      - exists []. split; [|simpl; tauto]. apply dfs_res_refl; auto.
      - cbn [fold_left].
        assert (exists new, dfs_res n g s (step s j) new /\ (forall w, In w new -> reach g v w) /\
                 (edge g v j -> visited (step s j) j)) as (new1 & R1 & Re1 & E1).
        { unfold step. destruct (truth (adj g v j)) eqn:T.
          - apply truth_true in T. set (s' := mkD _ _ _ _).
            assert (dfs_res n g s s' []) as R0 by (apply dfs_res_refl; auto).
            destruct (Nat.eqb_spec (nth j (vn s') 0) 0) as [Z|Z].
            + destruct (IH j s') as (new & R & Re); auto.
              * apply Hj; simpl; auto.
              * exists (j :: new). split; [|split].
                -- replace (j :: new) with ((j :: new) ++ []) by apply app_nil_r.
                   eapply dfs_res_trans; eauto.
                -- intros w [<-|Hw]; [apply reach_edge; auto|]. econstructor; eauto.
                -- intros _. apply (r_vis _ _ _ _ _ R). simpl; auto.
            + exists []. split; [exact R0|split; [simpl; tauto|]]. intros _. exact Z.
          - exists []. split; [apply dfs_res_refl; auto|split; [simpl; tauto|]].
            intros E. exfalso. apply (proj2 (truth_true _)) in E. unfold edge in *. congruence. }
        destruct (IHj (step s j)) as (new2 & R2 & Re2 & E2).
        + intros; apply Hj; simpl; auto.
        + apply (r_len _ _ _ _ _ R1).
        + apply (r_len _ _ _ _ _ R1).
        + etransitivity; [|exact Cs]. apply unvisited_mono. intros u Hu. apply (r_vis _ _ _ _ _ R1); auto.
        + exists (new2 ++ new1). split; [eapply dfs_res_trans; eauto|split].
          * intros w Hw. apply in_app_iff in Hw as [Hw|Hw]; auto.
          * intros k [<-|Hk] Ek; auto. apply (r_vis _ _ _ _ _ R2). left. auto. }
    destruct (Loop (seq 0 n) st1) as (new & R & Re & E); auto.
    { intros j Hj. apply in_seq in Hj. lia. }
    { unfold st1; cbn [vn]. rewrite set_nth_length. auto. }
    set (st2 := fold_left step (seq 0 n) st1) in *.
    destruct R as [r1 r2 r3 r4 r5 r6 r7 r8 r9 r10].
    assert (~ In v new) as Nn.
    { intros X. apply r3 in X as [_ X]. apply X. apply V1. auto. }
    exists new. split; auto. constructor; cbn [vn fn dtime].
    + rewrite set_nth_length. auto.
    + intros u. unfold visited at 1; cbn [vn]. fold (visited st2 u). rewrite r2, V1. simpl. intuition.
    + intros u [<-|Hu]; auto. destruct (r3 u Hu) as [? X]. split; auto. intros Y. apply X. apply V1; auto.
    + constructor; auto.
    + intros p q [<-|Hp] Eq.
      * assert (visited st2 q) as V by (apply E; auto; apply in_seq; destruct (edge_lt n g v q); auto; lia).
        rewrite r2, V1 in V. simpl. intuition.
      * destruct (r5 p q Hp Eq) as [V|V]; [apply V1 in V as [V|V]|]; simpl; auto.
    + apply back_ok_cons; auto.
    + intros u Hu. simpl in Hu. rewrite nth_set_nth_neq by (intros ->; tauto). apply r7. tauto.
    + intros u [<-|Hu].
      * rewrite nth_set_nth_eq by lia. unfold st1, t in r10. cbn [dtime] in r10. lia.
      * assert (u <> v) by (intros ->; tauto). rewrite nth_set_nth_neq by auto.
        specialize (r8 u Hu). unfold st1, t in r8. cbn [dtime] in r8. lia.
    + replace (v :: new) with ([v] ++ new) by auto. apply sorted_desc_app.
      * intros l1 a l2 b l3 X. destruct l1 as [|? [|? ?]]; simpl in X; injection X as; try discriminate. destruct l2; discriminate.
      * eapply sorted_desc_ext; [|exact r9]. intros x Hx. cbn. rewrite nth_set_nth_neq; auto. intros ->; tauto.
      * intros x y [<-|[]] Hy. rewrite nth_set_nth_eq by lia.
        assert (y <> v) by (intros ->; tauto). rewrite nth_set_nth_neq by auto.
        specialize (r8 y Hy). lia.
    + unfold st1, t in r10. cbn [dtime] in r10. lia.
Qed.

(** ** The whole search *)
Lemma unvisited_le n st : unvisited_count n st <= n.
Proof. unfold unvisited_count. etransitivity; [apply filter_length_le|]. rewrite seq_length. auto. Qed.

Lemma dfs_spec n g fn0 cc0 : wf_graph n g -> length fn0 = n ->
  exists L, dfs_res n g (mkD 0 (repeat 0 n) fn0 cc0) (dfs n g fn0 cc0) L /\ forall u, u < n -> In u L.
Proof.
  intros W Lf. unfold dfs. set (init := mkD 0 (repeat 0 n) fn0 cc0).
  set (step := fun (st : dstate) (i : nat) => _).
  assert (forall js s, (forall j, In j js -> j < n) -> length (vn s) = n -> length (fn s) = n ->
     exists new, dfs_res n g s (fold_left step js s) new /\ forall j, In j js -> visited (fold_left step js s) j) as K.
  { induction js as [|j js IH]; intros s Hj L1 L2.
    - exists []. split; [apply dfs_res_refl; auto|simpl; tauto].
    - cbn [fold_left].
      assert (exists new, dfs_res n g s (step s j) new /\ visited (step s j) j) as (n1 & R1 & V1).
      { unfold step. destruct (Nat.eqb_spec (nth j (vn s) 0) 0) as [Z|Z].
        - destruct (dfs_vertex_spec n g W n j s) as (new & R & _); auto.
          + apply Hj; simpl; auto.
          + apply unvisited_le.
          + exists (j :: new). split; auto. apply (r_vis _ _ _ _ _ R). simpl; auto.
        - exists []. split; auto. apply dfs_res_refl; auto. }
      destruct (IH (step s j)) as (n2 & R2 & V2).
      + intros; apply Hj; simpl; auto.
      + apply (r_len _ _ _ _ _ R1).
      + apply (r_len _ _ _ _ _ R1).
      + exists (n2 ++ n1). split; [eapply dfs_res_trans; eauto|].
        intros k [<-|Hk]; auto. apply (r_vis _ _ _ _ _ R2); auto. }
  destruct (K (seq 0 n) init) as (L & R & V).
  - intros j Hj. apply in_seq in Hj. lia.
  - apply repeat_length.
  - auto.
  - exists L. split; auto. intros u Hu. specialize (V u ltac:(apply in_seq; lia)).
    apply (r_vis _ _ _ _ _ R) in V as [V|V]; auto. exfalso. apply V. unfold init; cbn [vn]. apply nth_repeat.
Qed.

(** Order of finishing and reachability. *)
Lemma two_in_list (l : list nat) a b : In a l -> In b l -> a <> b ->
  (exists l1 l2 l3, l = l1 ++ a :: l2 ++ b :: l3) \/ (exists l1 l2 l3, l = l1 ++ b :: l2 ++ a :: l3).
Proof.
  intros Ha Hb N. apply in_split in Ha as (x & y & ->).
  apply in_app_iff in Hb as [Hb|[Hb|Hb]].
  - apply in_split in Hb as (u & w & ->). right. exists u, w, y. rewrite <- app_assoc. auto.
  - congruence.
  - apply in_split in Hb as (u & w & ->). left. exists x, u, w. auto.
Qed.

Lemma sorted_desc_inj f l a b : sorted_desc f l -> In a l -> In b l -> f a = f b -> a = b.
Proof.
  intros S Ha Hb E. destruct (Nat.eq_dec a b) as [|N]; auto. exfalso.
  destruct (two_in_list l a b Ha Hb N) as [(l1 & l2 & l3 & X)|(l1 & l2 & l3 & X)]; apply S in X; lia.
Qed.

Lemma back_fn g f l p q w : sorted_desc f l -> back_ok g l -> In p l -> In q l -> In w l ->
  edge g p q -> f p < f q -> f p <= f w <= f q -> reach g q w.
Proof.
  intros S B Hp Hq Hw E Hpq Hf.
  destruct (Nat.eq_dec (f w) (f q)) as [X|X].
  { apply (sorted_desc_inj f l w q S Hw Hq) in X. subst. constructor. }
  assert (p <> q) by (intros ->; lia).
  destruct (two_in_list l p q Hp Hq ltac:(auto)) as [(l1 & l2 & l3 & Y)|(l1 & l2 & l3 & Y)].
  { apply S in Y. lia. }
  apply (B l1 q l2 p l3 Y E). subst l.
  apply in_app_iff in Hw as [Hw|[Hw|Hw]].
  - exfalso. apply in_split in Hw as (u & v & ->).
    assert (f q < f w); [|lia].
    apply (S u w v q (l2 ++ p :: l3)). rewrite <- app_assoc. auto.
  - subst. lia.
  - apply in_app_iff in Hw as [Hw|[Hw|Hw]].
    + apply in_or_app; auto.
    + subst. apply in_or_app; simpl; auto.
    + exfalso. apply in_split in Hw as (u & v & ->).
      assert (f w < f p); [|lia].
      apply (S (l1 ++ q :: l2) p u w v). rewrite <- app_assoc. auto.
Qed.

(** If x reaches y, some vertex strongly connected with x finishes no earlier than y. *)
Lemma finish_order n g f l : wf_graph n g -> sorted_desc f l -> back_ok g l -> (forall u, u < n -> In u l) ->
  forall x y, x < n -> reach g x y ->
  exists m, m < n /\ strongly_connected g x m /\ f y <= f m.
Proof.
  intros W S B A x y Hx R.
  (* generalise: walk along the path keeping the record holder *)
  assert (forall u v, reach g u v -> forall m, u < n -> m < n -> reach g x u -> strongly_connected g x m -> f u <= f m ->
     exists m', m' < n /\ strongly_connected g x m' /\ f v <= f m') as K.
  { induction 1 as [u|u v w E R' IH]; intros m Hu Hm Rx Sm Hf.
    - exists m. auto.
    - destruct (edge_lt n g u v W E) as [_ Hv].
      assert (reach g x v) as Rv by (eapply reach_snoc; eauto).
      destruct (Nat.le_gt_cases (f v) (f m)) as [C|C].
      + apply (IH m); auto.
      + apply (IH v); auto. split; auto.
        apply reach_trans with m; [|apply Sm].
        apply (back_fn g f l u v m); auto; lia. }
  apply (K x y R x); auto. constructor. apply sc_refl.
Qed.

(** Sorting by finish number. *)
Lemma insert_fn_perm f v l : Permutation (v :: l) (insert_fn f v l).
Proof.
  induction l as [|w l IH]; simpl; auto. destruct (f v <=? f w); auto.
  rewrite perm_swap. constructor. auto.
Qed.
Lemma sort_fn_perm f l : Permutation l (sort_fn f l).
Proof.
  induction l as [|v l IH]; simpl; auto. etransitivity; [|apply insert_fn_perm]. constructor. auto.
Qed.
Lemma insert_fn_sorted f v l : StronglySorted (fun a b => f a <= f b) l -> StronglySorted (fun a b => f a <= f b) (insert_fn f v l).
Proof.
  induction 1 as [|w l S IH F]; simpl; [repeat constructor|].
  destruct (Nat.leb_spec (f v) (f w)) as [C|C].
  - constructor; [constructor; auto|]. constructor; auto. eapply Forall_impl; [|exact F]. simpl; lia.
  - constructor; auto. eapply Permutation_Forall; [apply insert_fn_perm|]. constructor; auto. lia.
Qed.
Lemma sort_fn_sorted f l : StronglySorted (fun a b => f a <= f b) (sort_fn f l).
Proof. induction l; simpl; [constructor|]. apply insert_fn_sorted. auto. Qed.

Lemma rev_sorted (f : nat -> nat) l l1 a l2 b : StronglySorted (fun a b => f a <= f b) l -> rev l = l1 ++ a :: l2 -> In b l2 -> f b <= f a.
Proof.
  intros S E Hb. assert (l = rev l2 ++ a :: rev l1) as ->.
  { rewrite <- (rev_involutive l), E. rewrite rev_app_distr. simpl. rewrite <- app_assoc. auto. }
  clear E. apply in_rev in Hb. revert S. generalize (rev l1). induction (rev l2) as [|c r IH]; [destruct Hb|].
  intros l3 S. simpl in S. inversion S as [|? ? S' F]; subst. destruct Hb as [<-|Hb].
  - rewrite Forall_forall in F. apply F. apply in_or_app. simpl; auto.
  - eapply IH; eauto.
Qed.

(** Transposition. *)
Lemma transpose_wf n g : wf_graph n (graph_transpose n g).
Proof.
  unfold wf_graph, graph_transpose. rewrite map_length, seq_length. split; auto.
  intros r Hr. apply in_map_iff in Hr as (j & <- & _). rewrite map_length, seq_length. auto.
Qed.

Lemma nth_map_seq0 {A} (f : nat -> A) n i d : i < n -> nth i (map f (seq 0 n)) d = f i.
Proof.
  intros H. rewrite nth_indep with (d' := f 0) by (rewrite map_length, seq_length; auto).
  rewrite List.map_nth, seq_nth by auto. auto.
Qed.

Lemma transpose_adj n g u v : u < n -> v < n -> adj (graph_transpose n g) u v = adj g v u.
Proof. intros Hu Hv. unfold adj at 1, graph_transpose. rewrite !nth_map_seq0 by auto. auto. Qed.

Lemma transpose_edge n g u v : wf_graph n g -> edge (graph_transpose n g) u v <-> edge g v u.
Proof.
  intros W. split; intros E.
  - destruct (edge_lt n _ _ _ (transpose_wf n g) E). unfold edge in *. rewrite transpose_adj in E; auto.
  - destruct (edge_lt n _ _ _ W E). unfold edge in *. rewrite transpose_adj; auto.
Qed.

Lemma transpose_reach n g u v : wf_graph n g -> reach (graph_transpose n g) u v <-> reach g v u.
Proof.
  intros W. split; induction 1; try constructor.
  - rewrite transpose_edge in H by auto. eapply reach_snoc; eauto.
  - apply (transpose_edge n) in H; auto. eapply reach_snoc; eauto.
Qed.

Lemma mark_scc_nth num vns scc u : length vns = length scc -> u < length scc ->
  nth u (mark_scc num vns scc) 0%Z =
  if ((nth u scc 0 =? -1)%Z && negb (nth u vns 0 =? 0))%bool then Z.of_nat num else nth u scc 0%Z.
Proof.
  unfold mark_scc. revert vns u. induction scc as [|s scc IH]; intros [|v vns] u L Hu; simpl in *; try lia.
  destruct u; auto. apply IH; lia.
Qed.
Lemma mark_scc_length num vns scc : length vns = length scc -> length (mark_scc num vns scc) = length scc.
Proof. intros. unfold mark_scc. rewrite zip_with_length; auto. Qed.

(** ** The second search *)
Record scc_inv (n : nat) (g : list (list Z)) (st : dstate) (scc : list Z) (num : nat) : Prop := {
  i_len : length (vn st) = n /\ length (fn st) = n /\ length scc = n;
  i_closed : forall u w, visited st u -> edge g w u -> visited st w;
  i_id : forall u, u < n -> (visited st u -> (0 <= nth u scc 0 < Z.of_nat num)%Z) /\ (~ visited st u -> nth u scc 0%Z = (-1)%Z);
  i_same : forall u w, visited st u -> visited st w -> (nth u scc 0%Z = nth w scc 0%Z <-> strongly_connected g u w);
  i_all : forall k, k < num -> exists u, visited st u /\ nth u scc 0%Z = Z.of_nat k;
  i_topo : forall u w, visited st u -> edge g w u -> (nth w scc 0 <= nth u scc 0)%Z
}.

Lemma visited_dec st u : visited st u \/ ~ visited st u.
Proof. unfold visited. destruct (Nat.eq_dec (nth u (vn st) 0) 0); auto. Qed.

Lemma visited_lt st n u : length (vn st) = n -> visited st u -> u < n.
Proof. intros L V. destruct (Nat.lt_ge_cases u n); auto. exfalso. apply V. apply nth_overflow. lia. Qed.

Lemma dfs_for_scc_spec n g fns l : wf_graph n g ->
  sorted_desc (fun u => nth u fns 0) l -> back_ok g l -> (forall u, u < n -> In u l) -> length fns = n ->
  let '(scc, num) := dfs_for_scc n (graph_transpose n g) fns in
  exists st, scc_inv n g st scc num /\ forall u, u < n -> visited st u.
Proof.
  intros W S B A Lf. set (f := fun u => nth u fns 0). unfold dfs_for_scc.
  set (order := rev (sort_fn f (seq 0 n))). set (gT := graph_transpose n g).
  set (step := fun (acc : dstate * list Z * nat) (v : nat) => _).
  assert (forall done todo st scc num, order = done ++ todo ->
     scc_inv n g st scc num -> (forall u, In u done -> visited st u) ->
     let '(st', scc', num') := fold_left step todo (st, scc, num) in
     scc_inv n g st' scc' num' /\ forall u, In u order -> visited st' u) as K.
  { intros done todo. revert done. induction todo as [|r todo IH]; intros done st scc num Eo I D.
    - cbn [fold_left]. split; auto. rewrite Eo, app_nil_r. auto.
    - cbn [fold_left].
      assert (forall u, In u order -> u < n) as Olt.
      { intros u Hu. unfold order in Hu. apply in_rev in Hu.
        eapply Permutation_in in Hu; [|symmetry; apply sort_fn_perm]. apply in_seq in Hu. lia. }
      assert (r < n) as Hr by (apply Olt; rewrite Eo; apply in_or_app; simpl; auto).
      destruct I as [i1 i2 i3 i4 i5 i6]. destruct i1 as (L1 & L2 & L3).
      unfold step at 2. destruct (Nat.eqb_spec (nth r (vn st) 0) 0) as [Z|Z].
      2:{ apply (IH (done ++ [r])); [rewrite <- app_assoc; auto|constructor; auto|].
          intros u Hu. apply in_app_iff in Hu as [Hu|[<-|[]]]; auto. }
      destruct (dfs_vertex_spec n gT (transpose_wf n g) n r st) as (new & R & Re); auto.
      { apply unvisited_le. }
      set (st' := dfs_vertex n n gT r st) in *.
      set (scc' := mark_scc num (vn st') scc).
      pose proof (r_vis _ _ _ _ _ R) as V. pose proof (r_len _ _ _ _ _ R) as [L1' L2'].
      (* the visited set is closed under paths leading into it *)
      assert (forall u w, visited st u -> reach g w u -> visited st w) as Cl.
      { intros u w Hu Hw. induction Hw as [|w v u E _ IHw]; auto. apply (i2 v w); auto. }
      (* the vertices found are the strongly connected component of r *)
      assert (forall w, In w (r :: new) <-> strongly_connected g r w) as SC.
      { intros w. split.
        - intros Hw. assert (reach g w r) as Rw.
          { destruct Hw as [<-|Hw]; [constructor|]. apply Re in Hw. apply (proj1 (transpose_reach n g r w W)). auto. }
          destruct (r_fresh _ _ _ _ _ R w Hw) as [Hwn Hwv].
          destruct (finish_order n g f l W S B A w r Hwn Rw) as (m & Hm & Sm & Fm).
          assert (m = r) as ->.
          { assert (In m order) as Hmo.
            { unfold order. apply in_rev. rewrite rev_involutive. eapply Permutation_in; [apply sort_fn_perm|]. apply in_seq. lia. }
            rewrite Eo in Hmo. apply in_app_iff in Hmo as [Hmo|[Hmo|Hmo]]; auto.
            - exfalso. apply Hwv. apply (Cl m); auto. apply Sm.
            - assert (f m <= f r) by (eapply (rev_sorted f (sort_fn f (seq 0 n))); [apply sort_fn_sorted|exact Eo|auto]).
              apply (sorted_desc_inj f l); auto. unfold f in *. lia. }
          apply sc_sym; auto.
        - intros [Rrw Rwr].
          assert (forall u, In u (r :: new) -> forall z, reach gT u z -> ~ visited st z -> In z (r :: new)) as Cn.
          { intros u Hu z Hz. induction Hz as [|u v z E' Rz IH']; auto. intros Nz.
            destruct (r_closed _ _ _ _ _ R u v Hu E') as [X|X]; auto.
            exfalso. apply Nz. clear IH'.
            (* v visited before, z reachable from v in gT *)
            apply (Cl v); auto. apply (proj1 (transpose_reach n g v z W)). auto. }
          apply (Cn r); [simpl; auto|apply (proj2 (transpose_reach n g r w W)); auto|].
          intros Vw. apply (Cl w r) in Vw; auto. }
      assert (forall u, u < n -> nth u scc' 0%Z = if (nth u (vn st) 0 =? 0) then (if (nth u (vn st') 0 =? 0) then (-1)%Z else Z.of_nat num) else nth u scc 0%Z) as Es.
      { intros u Hu. unfold scc'. rewrite mark_scc_nth by lia. destruct (i3 u Hu) as [Ia Ib].
        destruct (Nat.eqb_spec (nth u (vn st) 0) 0) as [X|X].
        - rewrite Ib by (intros Y; apply Y; auto). rewrite Z.eqb_refl. cbn [andb].
          destruct (Nat.eqb_spec (nth u (vn st') 0) 0); auto.
        - specialize (Ia X). destruct (Z.eqb_spec (nth u scc 0%Z) (-1)); [lia|]. auto. }
      assert (forall u, visited st u -> nth u scc' 0%Z = nth u scc 0%Z) as E1.
      { intros u Hu. rewrite Es by (apply (visited_lt st n u L1 Hu)). destruct (Nat.eqb_spec (nth u (vn st) 0) 0); auto.
        exfalso; apply Hu; auto. }
      assert (forall u, In u (r :: new) -> nth u scc' 0%Z = Z.of_nat num) as E2.
      { intros u Hu. destruct (r_fresh _ _ _ _ _ R u Hu) as [Hun Huv]. rewrite Es by auto.
        destruct (Nat.eqb_spec (nth u (vn st) 0) 0) as [X|X]; [|exfalso; apply Huv; auto].
        destruct (Nat.eqb_spec (nth u (vn st') 0) 0) as [Y|Y]; auto.
        exfalso. assert (visited st' u) as Q by (apply V; auto). apply Q; auto. }
      apply (IH (done ++ [r])).
      { rewrite <- app_assoc. auto. }
      2:{ intros u Hu. apply V. apply in_app_iff in Hu as [Hu|[<-|[]]]; simpl; auto. }
      constructor.
      + unfold scc'. rewrite mark_scc_length by lia. auto.
      + intros u w Hu E. apply V. apply V in Hu as [Hu|Hu].
        * left. eapply i2; eauto.
        * apply (proj2 (transpose_edge n g u w W)) in E. destruct (r_closed _ _ _ _ _ R u w Hu E); auto.
      + intros u Hu. split.
        * intros Vu. apply V in Vu as [Vu|Vu].
          -- rewrite E1 by auto. apply (proj1 (i3 u Hu)) in Vu. lia.
          -- rewrite E2 by auto. lia.
        * intros Nu. rewrite Es by auto.
          destruct (Nat.eqb_spec (nth u (vn st) 0) 0) as [X|X].
          -- destruct (Nat.eqb_spec (nth u (vn st') 0) 0) as [Y|Y]; auto. exfalso. apply Nu. exact Y.
          -- exfalso. apply Nu. apply V. left. exact X.
      + intros u w Hu Hw. apply V in Hu as [Hu|Hu]; apply V in Hw as [Hw|Hw].
        * rewrite !E1 by auto. apply i4; auto.
        * rewrite E1, E2 by auto. split.
          -- intros X. exfalso. destruct (i3 u (visited_lt st n u L1 Hu)) as [Y _]. specialize (Y Hu). lia.
          -- intros [X1 X2]. exfalso. destruct (r_fresh _ _ _ _ _ R w Hw) as [_ Y]. apply Y. apply (Cl u); auto.
        * rewrite E2, E1 by auto. split.
          -- intros X. exfalso. destruct (i3 w (visited_lt st n w L1 Hw)) as [Y _]. specialize (Y Hw). lia.
          -- intros [X1 X2]. exfalso. destruct (r_fresh _ _ _ _ _ R u Hu) as [_ Y]. apply Y. apply (Cl w); auto.
        * rewrite !E2 by auto. split; auto. intros _. apply SC in Hu. apply SC in Hw.
          eapply sc_trans; [apply sc_sym; eauto|auto].
      + intros k Hk. destruct (Nat.eq_dec k num) as [->|N].
        * exists r. split; [apply V; simpl; auto|]. apply E2; simpl; auto.
        * destruct (i5 k ltac:(lia)) as (u & Hu & Eu). exists u. split; [apply V; auto|]. rewrite E1; auto.
      + intros u w Hu E. apply V in Hu as [Hu|Hu].
        * assert (visited st w) by (eapply i2; eauto). rewrite !E1 by auto. eapply i6; eauto.
        * rewrite (E2 u Hu). destruct (visited_dec st w) as [Vw|Vw].
          -- rewrite E1 by auto. destruct (i3 w (visited_lt st n w L1 Vw)) as [Y _]. specialize (Y Vw). lia.
          -- apply (proj2 (transpose_edge n g u w W)) in E. destruct (r_closed _ _ _ _ _ R u w Hu E) as [|X]; [tauto|].
             rewrite E2 by auto. lia. }
  change (rev (sort_fn (fun v : nat => nth v fns 0) (seq 0 n))) with order.
  specialize (K [] order (mkD 0 (repeat 0 n) fns (repeat 0%Z n)) (repeat (-1)%Z n) 0 eq_refl).
  destruct (fold_left step order _) as [[st' scc'] num'].
  destruct K as [I V].
  - assert (forall u, ~ visited (mkD 0 (repeat 0 n) fns (repeat 0%Z n)) u) as NV.
    { intros u X. apply X. cbn [vn]. apply nth_repeat. }
    constructor; try (intros; exfalso; eapply NV; eauto; fail).
    + cbn. rewrite !repeat_length. auto.
    + intros u Hu. split; [intros X; exfalso; eapply NV; eauto|]. intros _.
      rewrite nth_indep with (d' := (-1)%Z) by (rewrite repeat_length; auto). apply nth_repeat.
    + intros; lia.
  - simpl; tauto.
  - change (exists st, scc_inv n g st scc' num' /\ forall u, u < n -> visited st u).
    exists st'. split; auto. intros u Hu. apply V. unfold order. apply in_rev. rewrite rev_involutive.
    eapply Permutation_in; [apply sort_fn_perm|]. apply in_seq. lia.
Qed.

Lemma scc_correct n g fn0 cc0 : wf_graph n g -> length fn0 = n ->
  let '(scc, num) := ddg_compute_scc n g fn0 cc0 in
  length scc = n /\
  (forall u, u < n -> (0 <= nth u scc 0 < Z.of_nat num)%Z) /\
  (forall k, k < num -> exists u, u < n /\ nth u scc 0%Z = Z.of_nat k) /\
  (forall u v, u < n -> v < n -> (nth u scc 0%Z = nth v scc 0%Z <-> strongly_connected g u v)) /\
  (forall u v, edge g u v -> (nth u scc 0 <= nth v scc 0)%Z).
Proof.
  intros W Lf. unfold ddg_compute_scc.
  destruct (dfs_spec n g fn0 cc0 W Lf) as (L & R & A).
  destruct R as [r1 r2 r3 r4 r5 r6 r7 r8 r9 r10].
  pose proof (dfs_for_scc_spec n g (fn (dfs n g fn0 cc0)) L W r9 r6 A (proj2 r1)) as K.
  destruct (dfs_for_scc n (graph_transpose n g) (fn (dfs n g fn0 cc0))) as [scc num].
  destruct K as (st & I & V). destruct I as [i1 i2 i3 i4 i5 i6].
  split; [|split; [|split; [|split]]].
  - tauto.
  - intros u Hu. apply i3; auto.
  - intros k Hk. destruct (i5 k Hk) as (u & Vu & E). exists u. split; auto. eapply visited_lt; eauto. apply i1.
  - intros u v Hu Hv. apply i4; auto.
  - intros u v E. apply i6; auto. apply V. eapply edge_lt; eauto.
Qed.
