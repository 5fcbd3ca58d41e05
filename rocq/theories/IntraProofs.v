(** * Proofs: grouping of the statements of a band. *)
From Coq Require Import ZArith List Bool Lia Arith Permutation.
From Verif Require Import SpecLinear MathModel ConstraintsModel VecProofs EditProofs MatrixProofs ListProofs SpecProg SpecTile SpecLoop
  RankProofs SumProofs FrameworkModel ProgModel DepProofs SimplifyProofs LexProofs ProgProofs TileModel TileProofs TileProofs2 TileProofs3
  LoopModel LoopProofs LoopProofs2 LoopProofs3 LoopProofs4 LoopProofs5 WaveProofs WaveProofs2 IntraModel.
Import ListNotations.
Open Scope nat_scope.

Section Map.
Variable fz : nat -> nat -> bool.
Variable n : nat.
Hypothesis RF : forall i, i < n -> fz i i = true.
Hypothesis SY : forall i j, i < n -> j < n -> fz i j = true -> fz j i = true.
Hypothesis TR : forall i j k, i < n -> j < n -> k < n -> fz i j = true -> fz j k = true -> fz i k = true.

(** [R t] is the first position of group [t]. *)
Definition placed (R : nat -> nat) (total i : nat) (bm : list nat) (j : nat) : Prop :=
  (nth j bm 0 < total /\ fz (R (nth j bm 0)) j = true /\ R (nth j bm 0) <= j) \/
  (nth j bm 0 = j /\ i <= j /\ forall t, t < total -> fz (R t) j = false).
Definition reps (R : nat -> nat) (total i : nat) (bm : list nat) : Prop :=
  (forall t, t < total -> R t < i /\ nth (R t) bm 0 = t) /\
  (forall t t', t < t' -> t' < total -> R t < R t' /\ fz (R t) (R t') = false).
Definition minv (i : nat) (a : list nat * nat) : Prop :=
  length (fst a) = n /\ snd a <= i /\ exists R, reps R (snd a) i (fst a) /\ forall j, j < n -> placed R (snd a) i (fst a) j.

Lemma inner_spec i total (bm : list nat) : i < n -> total <= i -> length bm = n -> nth i bm 0 = total ->
  (forall j, i < j < n -> nth j bm 0 < total \/ nth j bm 0 = j) ->
  forall m, S i + m <= n ->
  let bm' := fold_left (fun bm j => if (nth i bm 0 =? nth j bm 0)%nat then bm else if fz i j then set_nth j (nth i bm 0) bm else bm) (seq (S i) m) bm in
  length bm' = n /\ forall j, j < n -> nth j bm' 0 = if (i <? j) && (j <? S i + m) && fz i j then total else nth j bm 0.
Proof.
  intros Hi Ht L E P. induction m as [|m IH]; intros Hm; cbv zeta.
  - cbn [seq fold_left]. split; auto. intros j Hj. destruct (Nat.ltb_spec i j), (Nat.ltb_spec j (S i + 0)); cbn [andb]; auto; lia.
  - rewrite seq_S, fold_left_app. cbn [fold_left]. destruct IH as [L' N]; [lia|]. cbv zeta in L', N.
    set (b := fold_left _ (seq (S i) m) bm) in *. set (k := S i + m) in *.
    assert (nth i b 0 = total) as Ei. { rewrite N by auto. rewrite Nat.ltb_irrefl. cbn [andb]. auto. }
    assert (nth k b 0 = nth k bm 0) as Ek. { rewrite N by (unfold k; lia). rewrite (Nat.ltb_irrefl k), andb_false_r. auto. }
    assert (nth k bm 0 <> total) as NK. { destruct (P k); unfold k in *; lia. }
    rewrite Ei, Ek. destruct (total =? nth k bm 0) eqn:Q; [apply Nat.eqb_eq in Q; congruence|].
    destruct (fz i k) eqn:F.
    + rewrite set_nth_length. split; auto. intros j Hj. destruct (Nat.eq_dec j k) as [->|NE].
      * rewrite nth_set_nth_eq by lia. rewrite F. assert (i <? k = true) as -> by (apply Nat.ltb_lt; unfold k; lia).
        assert (k <? S i + S m = true) as -> by (apply Nat.ltb_lt; unfold k; lia). reflexivity.
      * rewrite nth_set_nth_neq by auto. rewrite N by auto. destruct (Nat.ltb_spec i j); cbn [andb]; auto.
        destruct (Nat.ltb_spec j k), (Nat.ltb_spec j (S i + S m)); unfold k in *; cbn [andb]; auto; lia.
    + split; auto. intros j Hj. rewrite N by auto. destruct (Nat.eq_dec j k) as [->|NE].
      * rewrite F, !andb_false_r. reflexivity.
      * destruct (Nat.ltb_spec i j); cbn [andb]; auto.
        destruct (Nat.ltb_spec j k), (Nat.ltb_spec j (S i + S m)); unfold k in *; cbn [andb]; auto; lia.
Qed.

Lemma minv_step i a : i < n -> minv i a ->
  minv (S i) (if (nth i (fst a) 0 <? i)%nat then a else (map_inner fz n i (set_nth i (snd a) (fst a)), S (snd a))).
Proof.
  intros Hi (L & T & R & (R1 & R2) & PL). destruct a as [bm total]; cbn [fst snd] in *.
  destruct (Nat.ltb_spec (nth i bm 0) i) as [X|X].
  - split; auto. split; [cbn; lia|]. exists R. cbn [fst snd]. split.
    + split; auto. intros t Ht. destruct (R1 t Ht). split; auto; lia.
    + intros j Hj. destruct (PL j Hj) as [A|(A & B & C)]; [left; auto|]. right. split; auto. split; auto.
      destruct (Nat.eq_dec j i) as [E|E]; [subst|]; lia.
  - destruct (PL i Hi) as [A|(A & B & C)]; [lia|].
    set (R' := fun t => if t =? total then i else R t).
    assert (forall t, t < total -> R' t = R t) as RO. { intros t Ht. unfold R'. destruct (Nat.eqb_spec t total); auto; lia. }
    assert (R' total = i) as RT by (unfold R'; rewrite Nat.eqb_refl; auto).
    set (b0 := set_nth i total bm). assert (length b0 = n) as L0 by (unfold b0; rewrite set_nth_length; auto).
    assert (nth i b0 0 = total) as E0 by (unfold b0; apply nth_set_nth_eq; lia).
    assert (forall j, j <> i -> nth j b0 0 = nth j bm 0) as O0 by (intros; unfold b0; apply nth_set_nth_neq; auto).
    destruct (inner_spec i total b0 Hi T L0 E0) with (m := n - S i) as [L1 N1]; [|lia|].
    { intros j Hj. rewrite O0 by lia. destruct (PL j) as [Q|Q]; [lia| |]; tauto. }
    change (fold_left _ (seq (S i) (n - S i)) b0) with (map_inner fz n i b0) in L1, N1. set (b1 := map_inner fz n i b0) in *.
    assert (forall j, j < n -> nth j b1 0 = if (i <? j) && fz i j then total else nth j b0 0) as N2.
    { intros j Hj. rewrite N1 by auto. assert (j <? S i + (n - S i) = true) as -> by (apply Nat.ltb_lt; lia). rewrite andb_true_r. auto. }
    clear N1. split; auto. split; [cbn; lia|]. exists R'. cbn [fst snd]. split; [split|].
    + intros t Ht. destruct (Nat.eq_dec t total) as [->|NT].
      * rewrite RT. split; [lia|]. rewrite N2, Nat.ltb_irrefl by auto. cbn [andb]. auto.
      * rewrite RO by lia. destruct (R1 t ltac:(lia)) as [Q1 Q2]. split; [lia|]. rewrite N2 by lia.
        assert (i <? R t = false) as -> by (apply Nat.ltb_ge; lia). cbn [andb]. rewrite O0 by lia. auto.
    + intros t t' H1 H2. destruct (Nat.eq_dec t' total) as [->|NT].
      * rewrite RT, RO by lia. split; [apply R1; lia|]. apply C. lia.
      * rewrite !RO by lia. apply R2; lia.
    + intros j Hj. unfold placed. rewrite N2 by auto. destruct (Nat.eq_dec j i) as [->|NJ].
      * left. rewrite Nat.ltb_irrefl. cbn [andb]. rewrite E0, RT. split; [lia|]. split; auto.
      * destruct ((i <? j) && fz i j) eqn:F.
        -- apply andb_true_iff in F as [F1 F2]. apply Nat.ltb_lt in F1. left. rewrite RT. split; [lia|]. split; auto. lia.
        -- rewrite O0 by auto. destruct (PL j Hj) as [(P1 & P2 & P3)|(P1 & P2 & P3)].
           ++ left. rewrite RO by lia. split; [lia|]. auto.
           ++ right. split; auto. split; [lia|]. intros t Ht. destruct (Nat.eq_dec t total) as [->|NT].
              ** rewrite RT. destruct (fz i j) eqn:FF; auto. rewrite andb_true_r in F. apply Nat.ltb_ge in F. lia.
              ** rewrite RO by lia. apply P3. lia.
Qed.

Lemma band_map_inv : minv n (band_map fz n).
Proof.
  unfold band_map. assert (forall m, m <= n -> minv m (fold_left (fun a i => if (nth i (fst a) 0 <? i)%nat then a
    else (map_inner fz n i (set_nth i (snd a) (fst a)), S (snd a))) (seq 0 m) (seq 0 n, 0))) as H; [|apply H; auto].
  induction m as [|m IH]; intros Hm.
  - split; [apply seq_length|]. split; auto. exists (fun _ => 0). split; [split; intros; cbn in *; lia|].
    intros j Hj. right. unfold placed. cbn [fst snd seq fold_left]. rewrite seq_nth by auto. split; auto. split; [lia|]. intros; lia.
  - rewrite seq_S, fold_left_app. cbn [fold_left]. apply (minv_step m); [lia|]. apply IH. lia.
Qed.

(** The ids of fused positions are equal, those of others differ; ids appear in
    increasing order. *)
Lemma band_map_spec : let bm := fst (band_map fz n) in let total := snd (band_map fz n) in
  length bm = n /\ total <= n /\ (forall i, i < n -> nth i bm 0 < total) /\
  (forall t, t < total -> exists i, i < n /\ nth i bm 0 = t) /\
  (forall i t, i < n -> t < nth i bm 0 -> exists j, j < i /\ nth j bm 0 = t) /\
  (forall i j, i < n -> j < n -> (nth i bm 0 = nth j bm 0 <-> fz i j = true)).
Proof.
  destruct band_map_inv as (L & T & R & (R1 & R2) & PL). cbv zeta. set (bm := fst (band_map fz n)) in *. set (total := snd (band_map fz n)) in *.
  assert (forall j, j < n -> nth j bm 0 < total /\ fz (R (nth j bm 0)) j = true /\ R (nth j bm 0) <= j) as P.
  { intros j Hj. destruct (PL j Hj) as [A|(A & B & C)]; auto. lia. }
  split; auto. split; auto. split; [intros; apply P; auto|]. split; [intros t Ht; exists (R t); auto|]. split.
  - intros i t Hi Ht. destruct (P i Hi) as (A & B & C). exists (R t). destruct (R1 t) as [D E]; [lia|]. split; auto.
    destruct (R2 t (nth i bm 0)); auto. lia.
  - intros i j Hi Hj. destruct (P i Hi) as (A1 & B1 & C1). destruct (P j Hj) as (A2 & B2 & C2).
    assert (R (nth i bm 0) < n) as N1 by lia. assert (R (nth j bm 0) < n) as N2 by lia. split.
    + intros E. rewrite <- E in B2. apply (TR _ (R (nth i bm 0))); auto.
    + intros F. destruct (Nat.lt_trichotomy (nth i bm 0) (nth j bm 0)) as [H|[H|H]]; auto.
      * destruct (R2 _ _ H A2) as [_ Q]. rewrite (TR (R (nth i bm 0)) i (R (nth j bm 0))) in Q; auto; [discriminate|]. apply (TR _ j); auto.
      * destruct (R2 _ _ H A1) as [_ Q]. rewrite (TR (R (nth j bm 0)) j (R (nth i bm 0))) in Q; auto; [discriminate|]. apply (TR _ i); auto.
Qed.
End Map.

(** ** The groups *)
Lemma NoDup_map_inj_in {A B} (f : A -> B) l : (forall x y, In x l -> In y l -> f x = f y -> x = y) -> NoDup l -> NoDup (map f l).
Proof.
  intros H N. induction N as [|a l N1 N2 IH]; cbn; constructor.
  - intros Q. apply in_map_iff in Q as (b & E & Hb). rewrite (H b a) in Hb by (simpl; auto). auto.
  - apply IH. intros; apply H; simpl; auto.
Qed.

Section Groups.
Variable stmts : list nat.
Variable bm : list nat.
Let st i := nth i stmts 0.

Definition gstep (gs : list (list nat)) (i : nat) : list (list nat) :=
  if length gs <=? nth i bm 0 then gs ++ [[st i]] else map_nth (nth i bm 0) (fun g => g ++ [st i]) gs.

Lemma gfold m : (forall i t, i < m -> t < nth i bm 0 -> exists j, j < i /\ nth j bm 0 = t) ->
  let gs := fold_left gstep (seq 0 m) [] in
  (forall t, t < length gs <-> exists j, j < m /\ nth j bm 0 = t) /\
  (forall t, t < length gs -> nth t gs [] = map st (filter (fun j => nth j bm 0 =? t) (seq 0 m))).
Proof.
  induction m as [|m IH]; intros O; cbv zeta.
  - cbn. split; [|intros; lia]. intros t. split; [lia|]. intros (j & H & _). lia.
  - rewrite seq_S, fold_left_app. cbn [fold_left Nat.add]. destruct IH as [A B]. { intros i t Hi. apply O. lia. }
    cbv zeta in A, B. set (gs := fold_left gstep (seq 0 m) []) in *. unfold gstep. set (c := nth m bm 0).
    destruct (Nat.leb_spec (length gs) c) as [H|H].
    + assert (c = length gs) as EC.
      { destruct (Nat.eq_dec c (length gs)); auto. exfalso. destruct (O m (length gs)) as (j & J1 & J2); [lia|fold c; lia|].
        assert (length gs < length gs); [|lia]. apply A. exists j. auto. }
      rewrite app_length. cbn [length]. split.
      * intros t. split.
        -- intros Ht. destruct (Nat.eq_dec t c) as [->|N]; [exists m; auto|]. destruct (proj1 (A t)) as (j & J1 & J2); [lia|]. exists j. auto.
        -- intros (j & J1 & J2). destruct (Nat.eq_dec j m) as [->|N]; [fold c in J2; lia|]. assert (t < length gs); [|lia]. apply A. exists j. split; auto. lia.
      * intros t Ht. rewrite filter_app, map_app. cbn [filter]. fold c. destruct (Nat.eq_dec t c) as [->|N].
        -- rewrite EC at 1. rewrite app_nth2, Nat.sub_diag by lia. cbn [nth]. rewrite Nat.eqb_refl. cbn [map].
           assert (filter (fun j => nth j bm 0 =? c) (seq 0 m) = []) as ->; [|reflexivity].
           destruct (filter _ (seq 0 m)) as [|x r] eqn:F; auto. exfalso. assert (In x (x :: r)) as Hx by (simpl; auto). rewrite <- F in Hx.
           apply filter_In in Hx as [X1 X2]. apply in_seq in X1. apply Nat.eqb_eq in X2. assert (c < length gs); [|lia]. apply A. exists x. split; auto. lia.
        -- rewrite app_nth1 by lia. rewrite B by lia. destruct (Nat.eqb_spec c t); [lia|]. cbn [map]. rewrite app_nil_r. auto.
    + assert (length (map_nth c (fun g => g ++ [st m]) gs) = length gs) as LG by (apply map_nth_length). rewrite LG. split.
      * intros t. rewrite A. split; intros (j & J1 & J2).
        -- exists j. auto.
        -- destruct (Nat.eq_dec j m) as [->|N]; [|exists j; split; auto; lia]. fold c in J2. subst t. apply A. auto.
      * intros t Ht. rewrite map_nth_nth. rewrite filter_app, map_app. cbn [filter]. fold c. destruct (Nat.eqb_spec t c) as [->|N]; cbn [andb].
        -- rewrite Nat.eqb_refl, (proj2 (Nat.ltb_lt _ _) H). rewrite B by auto. reflexivity.
        -- destruct (Nat.eqb_spec c t); [congruence|]. cbn [map]. rewrite app_nil_r. apply B; auto.
Qed.
End Groups.

(** The groups split the statements into those fused with each other. *)
Lemma fuse_groups pr first n stmts : NoDup stmts ->
  (forall s, In s stmts -> fused_in_band pr first n s s = true) ->
  (forall s t, In s stmts -> In t stmts -> fused_in_band pr first n s t = true -> fused_in_band pr first n t s = true) ->
  (forall s t u, In s stmts -> In t stmts -> In u stmts -> fused_in_band pr first n s t = true -> fused_in_band pr first n t u = true -> fused_in_band pr first n s u = true) ->
  let gs := fuse_per_stmt_bands pr first n stmts in
  (forall s, In s stmts -> exists g, In g gs /\ In s g) /\
  (forall g, In g gs -> NoDup g /\ forall s, In s g -> In s stmts /\ forall t, In t stmts -> (In t g <-> fused_in_band pr first n s t = true)) /\
  ForallOrdPairs (fun g g' => forall s, In s g -> ~ In s g') gs.
Proof.
  intros ND RF SY TR. cbv zeta. unfold fuse_per_stmt_bands. set (fz := fun i j => _).
  set (N := length stmts) in *.
  assert (forall i, i < N -> In (nth i stmts 0) stmts) as IN by (intros; apply nth_In; auto).
  destruct (band_map_spec fz N) as (L & T & P1 & P2 & P3 & P4).
  { intros i Hi. apply RF; auto. } { intros i j Hi Hj. apply SY; auto. } { intros i j k Hi Hj Hk. apply TR; auto. }
  destruct (band_map fz N) as [bm total]. cbn [fst snd] in *.
  assert (forall s, In s stmts -> exists i, i < N /\ nth i stmts 0 = s) as PO by (intros s Hs; apply (In_nth stmts s 0); auto).
  assert (forall i j, i < N -> j < N -> nth i stmts 0 = nth j stmts 0 -> i = j) as INJ by (apply NoDup_nth; auto).
  destruct (Nat.eqb_spec total N) as [ET|NT].
  - (* as many groups as statements *)
    assert (forall i, i < N -> nth i bm 0 = i) as ID.
    { intros i. induction i as [i IH] using lt_wf_ind. intros Hi.
      destruct (Nat.lt_trichotomy (nth i bm 0) i) as [H|[H|H]]; auto.
      - exfalso. specialize (IH _ H ltac:(lia)).
        (* some id is missing *)
        assert (incl (seq 0 N) (map (fun j => nth j bm 0) (remove Nat.eq_dec i (seq 0 N)))) as IC.
        { intros t Ht. apply in_seq in Ht. destruct (P2 t) as (j & J1 & J2); [lia|]. apply in_map_iff.
          destruct (Nat.eq_dec j i) as [->|NJ].
          - exists (nth i bm 0). split; [congruence|]. apply in_in_remove; [lia|]. apply in_seq. lia.
          - exists j. split; auto. apply in_in_remove; auto. apply in_seq. lia. }
        apply NoDup_incl_length in IC; [|apply seq_NoDup]. rewrite map_length, seq_length in IC.
        pose proof (remove_length_lt Nat.eq_dec (seq 0 N) i ltac:(apply in_seq; lia)). rewrite seq_length in H0. lia.
      - destruct (P3 i i Hi H) as (j & J1 & J2). rewrite IH in J2; lia. }
    assert (forall s t, In s stmts -> In t stmts -> fused_in_band pr first n s t = true -> s = t) as FEQ.
    { intros s t Hs Ht F. destruct (PO s Hs) as (i & Hi & <-). destruct (PO t Ht) as (j & Hj & <-).
      apply (P4 i j Hi Hj) in F. rewrite !ID in F by auto. congruence. }
    split; [|split].
    + intros s Hs. exists [s]. split; [apply in_map_iff; eauto|simpl; auto].
    + intros g Hg. apply in_map_iff in Hg as (s & <- & Hs). split; [constructor; [simpl; tauto|constructor]|].
      intros x [<-|[]]. split; auto. intros t Ht. cbn. split; [intros [->|[]]; auto|]. intros F. left. apply FEQ; auto.
    + clear - ND. induction ND as [|s l H ND IH]; cbn; constructor; auto. apply Forall_forall. intros g Hg. apply in_map_iff in Hg as (t & <- & Ht).
      intros x [<-|[]] [<-|[]]. auto.
  - change (fold_left _ (seq 0 N) []) with (fold_left (gstep stmts bm) (seq 0 N) []). destruct (gfold stmts bm N P3) as [A B]. cbv zeta in A, B.
    set (gs := fold_left (gstep stmts bm) (seq 0 N) []) in *.
    assert (forall g, In g gs -> exists t, t < length gs /\ g = map (fun i => nth i stmts 0) (filter (fun j => nth j bm 0 =? t) (seq 0 N))) as GE.
    { intros g Hg. destruct (In_nth gs g [] Hg) as (t & Ht & <-). exists t. split; auto. }
    assert (forall t s, In s (map (fun i => nth i stmts 0) (filter (fun j => nth j bm 0 =? t) (seq 0 N))) <-> exists i, i < N /\ nth i bm 0 = t /\ nth i stmts 0 = s) as GI.
    { intros t s. rewrite in_map_iff. split.
      - intros (i & E & Hi). apply filter_In in Hi as [H1 H2]. apply in_seq in H1. apply Nat.eqb_eq in H2. exists i. split; auto. lia.
      - intros (i & H1 & H2 & H3). exists i. split; auto. apply filter_In. split; [apply in_seq; lia|apply Nat.eqb_eq; auto]. }
    split; [|split].
    + intros s Hs. destruct (PO s Hs) as (i & Hi & <-). assert (nth i bm 0 < length gs) as H by (apply A; exists i; auto).
      exists (nth (nth i bm 0) gs []). split; [apply nth_In; auto|]. rewrite B by auto. apply GI. exists i. auto.
    + intros g Hg. destruct (GE g Hg) as (t & Ht & ->). split.
      * apply NoDup_map_inj_in; [|apply NoDup_filter, seq_NoDup]. intros i j Hi Hj. apply filter_In in Hi as [Hi _], Hj as [Hj _]. apply in_seq in Hi, Hj. apply INJ; lia.
      * intros s Hs. apply GI in Hs as (i & Hi & E & <-). split; auto. intros u Hu. rewrite GI. destruct (PO u Hu) as (j & Hj & <-). etransitivity; [|exact (P4 i j Hi Hj)]. split.
        -- intros (k & Hk & Ek & Q). apply INJ in Q; auto. subst. auto.
        -- intros Q. exists j. split; auto. split; auto. lia.
    + assert (forall a b, a < b -> b < length gs -> forall s, In s (nth a gs []) -> ~ In s (nth b gs [])) as D.
      { intros a b Hab Hb s H1 H2. rewrite B in H1, H2 by lia. apply GI in H1 as (i & Hi & E1 & <-). apply GI in H2 as (j & Hj & E2 & Q).
        apply INJ in Q; auto. subst j. lia. }
      clear - D. clearbody gs. induction gs as [|g l IH]; constructor.
      * apply Forall_forall. intros h Hh. destruct (In_nth l h [] Hh) as (t & Ht & <-). apply (D 0 (S t)); cbn; lia.
      * apply IH. intros a b Hab Hb. apply (D (S a) (S b)); cbn; lia.
Qed.
