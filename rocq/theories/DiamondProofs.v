(** * Diamond tiling: rows, evicted hyperplanes and legality. *)
From Coq Require Import ZArith List Bool Lia Arith.
From Verif Require Import SpecLinear MathModel ConstraintsModel VecProofs EditProofs MatrixProofs SpecProg SpecTile
  RankProofs SumProofs FrameworkModel ProgModel DepProofs SimplifyProofs LexProofs ProgProofs TileModel TileProofs TileProofs2 TileProofs3
  SpecDiamond DiamondModel.
Import ListNotations.
Open Scope Z_scope.

(** ** What tiling keeps *)
Lemma tile_band_rows pr b s : wf_core pr -> wf_band pr b -> (s < length (p_stmts pr))%nat ->
  let st := stmt_of pr s in let st' := stmt_of (tile_band pr b) s in
  s_evict st' = s_evict st /\ s_dim_orig st' = s_dim_orig st /\
  (in_band b s = true -> forall l, (b_first b <= l < mnrows (s_trans st))%nat ->
     nth (l + length (b_sizes b)) (mrows (s_trans st')) [] =
     repeat 0 (num_loops st (b_first b) (b_sizes b)) ++ nth l (mrows (s_trans st)) []).
Proof.
  intros W HB Hs. destruct (tile_band_types pr b W HB s Hs) as (_ & _ & A & B & C). cbv zeta.
  split; [exact A|]. split; [exact B|]. intros E l Hl. specialize (C l Hl). unfold nl in C. rewrite E, firstn_all in C. exact C.
Qed.

Lemma fold_rows bands pr : wf_core pr -> disjoint_bands bands -> Forall (wf_band pr) bands ->
  forall s, (s < length (p_stmts pr))%nat ->
  let st := stmt_of pr s in let st' := stmt_of (fold_left tile_band bands pr) s in let b := band_of bands s in
  s_evict st' = s_evict st /\ s_dim_orig st' = s_dim_orig st /\
  forall l, (b_first b <= l < mnrows (s_trans st))%nat ->
     nth (l + length (b_sizes b)) (mrows (s_trans st')) [] =
     repeat 0 (num_loops st (b_first b) (b_sizes b)) ++ nth l (mrows (s_trans st)) [].
Proof.
  revert pr. induction bands as [|b l IH]; intros pr W D F s Hs; cbn [fold_left]; cbv zeta.
  - split; [auto|]. split; [auto|]. intros k Hk. cbn. rewrite Nat.add_0_r. reflexivity.
  - inversion D as [|x y D1 D2]; subst. inversion F as [|x y F1 F2]; subst.
    destruct (tile_band_tiled pr b W F1) as [W1 T]. pose proof T as (T1 & T2 & T3 & T4 & T5 & T6).
    assert (Forall (wf_band (tile_band pr b)) l) as F'.
    { apply Forall_forall. intros b' Hb'. eapply tiled_other_band; eauto.
      apply (proj1 (Forall_forall _ _) D1 b' Hb'). apply (proj1 (Forall_forall _ _) F2 b' Hb'). }
    destruct (IH _ W1 D2 F' s) as (A1 & A2 & A3); [lia|].
    destruct (tile_band_rows pr b s W F1 Hs) as (B1 & B2 & B3). cbv zeta in *.
    split; [congruence|]. split; [congruence|]. rewrite band_of_cons. destruct (in_band b s) eqn:E.
    + rewrite (band_of_none l s) in A3.
      2: { intros b' Hb'. apply (proj1 (Forall_forall _ _) D1 b' Hb'); auto. }
      cbn [b_first b_sizes num_loops length repeat app] in A3. intros k Hk. rewrite <- B3 by auto.
      replace (k + length (b_sizes b))%nat with (k + length (b_sizes b) + 0)%nat at 1 by lia. apply A3.
      assert (mnrows (s_trans (stmt_of (tile_band pr b) s)) = mnrows (s_trans (stmt_of pr s)) + length (b_sizes b))%nat as HN
        by (apply again_nrows; auto). lia.
    + rewrite T4 in A3 by auto. exact A3.
Qed.

Lemma scatter_rows q s : (s < length (p_stmts q))%nat ->
  let st := stmt_of q s in let st' := stmt_of (detect_types_stmtwise (detect_types (sink_all q))) s in
  s_evict st' = s_evict st /\ s_dim_orig st' = s_dim_orig st /\ exists z, mrows (s_trans st') = mrows (s_trans st) ++ z.
Proof.
  intros Hs. destruct (sink_all_eq q) as (A & B & C & D).
  set (snk := fun st => Nat.iter (max_nrows (p_stmts q) - mnrows (s_trans st)) (fun st => sink_transformation st (mnrows (s_trans st))) st).
  assert (stmt_of (detect_types_stmtwise (detect_types (sink_all q))) s = detected (snk (stmt_of q s))) as ->.
  { unfold stmt_of, detect_types_stmtwise. cbn [p_stmts set_stmts detect_types set_hprops]. rewrite D, map_map.
    rewrite (nth_indep _ dummy_stmt (detected (snk dummy_stmt))) by (rewrite map_length; auto).
    apply (List.map_nth (fun st => detected (snk st))). }
  cbv zeta. unfold detected. cbn [set_hyp s_evict s_dim_orig s_trans]. unfold snk.
  generalize (max_nrows (p_stmts q) - mnrows (s_trans (stmt_of q s)))%nat. intros n.
  split; [|split].
  - induction n; [reflexivity|]. cbn [Nat.iter nat_rect]. exact IHn.
  - induction n; [reflexivity|]. cbn [Nat.iter nat_rect]. exact IHn.
  - destruct (sink_iter n (stmt_of q s)) as (_ & _ & _ & _ & _ & _ & R & _). eexists. exact R.
Qed.

Lemma scattering_rows pr bands : wf_core pr -> disjoint_bands bands -> Forall (wf_band pr) bands ->
  forall s, (s < length (p_stmts pr))%nat ->
  let st := stmt_of pr s in let st' := stmt_of (tile_scattering_dims pr bands) s in let b := band_of bands s in
  s_evict st' = s_evict st /\ s_dim_orig st' = s_dim_orig st /\
  forall l, (b_first b <= l < mnrows (s_trans st))%nat ->
     nth (l + length (b_sizes b)) (mrows (s_trans st')) [] =
     repeat 0 (num_loops st (b_first b) (b_sizes b)) ++ nth l (mrows (s_trans st)) [].
Proof.
  intros W D F s Hs. destruct (fold_rows bands pr W D F s Hs) as (A1 & A2 & A3).
  destruct (tile_bands_tiled bands pr W D F) as (B1 & B2 & _).
  destruct (scatter_rows (fold_left tile_band bands pr) s) as (C1 & C2 & z & C3); [lia|].
  cbv zeta in *. unfold tile_scattering_dims. split; [congruence|]. split; [congruence|].
  intros l Hl. rewrite C3. rewrite app_nth1; auto.
  destruct (Nat.lt_ge_cases (l + length (b_sizes (band_of bands s))) (length (mrows (s_trans (stmt_of (fold_left tile_band bands pr) s))))); auto.
  exfalso. specialize (A3 l Hl). rewrite nth_overflow in A3 by auto.
  apply (f_equal (@length Z)) in A3. rewrite app_length in A3. simpl in A3.
  destruct (proj1 W _ (stmt_of_in pr s Hs)) as ((_ & M & C & _) & _).
  assert (length (nth l (mrows (s_trans (stmt_of pr s))) []) = mncols (s_trans (stmt_of pr s))) as L.
  { apply C. apply nth_In. unfold mnrows in Hl. lia. }
  lia.
Qed.

(** ** Eviction *)
Lemma stmt_of_set pr s st k : (s < length (p_stmts pr))%nat ->
  stmt_of (set_stmts pr (set_nth s st (p_stmts pr))) k = if (k =? s)%nat then st else stmt_of pr k.
Proof.
  intros Hs. unfold stmt_of. cbn [p_stmts set_stmts]. destruct (Nat.eqb_spec k s) as [->|N].
  - apply nth_set_nth_eq; auto.
  - apply nth_set_nth_neq; auto.
Qed.

(** What the evictions [es] have done to the statements of [pr0]. *)
Definition evicted (pr0 : prog) (es : list eviction) (a : prog * list nat) : Prop :=
  length (p_stmts (fst a)) = length (p_stmts pr0) /\ p_npar (fst a) = p_npar pr0 /\ p_deps (fst a) = p_deps pr0 /\
  p_hprops (fst a) = p_hprops pr0 /\ length (snd a) = length (p_stmts pr0) /\
  forall s, (s < length (p_stmts pr0))%nat ->
    stmt_of (fst a) s = stmt_of pr0 s \/
    exists l pos hs h, In (l, pos, hs) es /\ In s l /\ In h hs /\ evict_stmt pos h (stmt_of pr0 s) = Some (stmt_of (fst a) s) /\
      nth s (snd a) 0%nat = pos.

Lemma evict_band_ok pr0 es l0 pos hs0 : In (l0, pos, hs0) es -> forall l hs a a', incl l l0 -> incl hs hs0 ->
  evicted pr0 es a -> evict_band a l pos hs = Some a' -> evicted pr0 es a'.
Proof.
  intros He. induction l as [|s l IH]; intros [|h hs] a a' Hl Hh EV E; cbn [evict_band] in E; try congruence.
  destruct (evict_stmt pos h (stmt_of (fst a) s)) as [st|] eqn:ES; [|discriminate].
  assert (s < length (p_stmts (fst a)))%nat as Hs.
  { destruct (Nat.lt_ge_cases s (length (p_stmts (fst a)))); auto. exfalso. unfold stmt_of in ES. rewrite nth_overflow in ES by auto.
    unfold evict_stmt in ES. simpl in ES. discriminate. }
  eapply IH; [| |clear IH|exact E].
  { intros x Hx; apply Hl; simpl; auto. }
  { intros x Hx; apply Hh; simpl; auto. }
  destruct EV as (A1 & A2 & A3 & A4 & A5 & A6). cbn [fst snd].
  split; [cbn; rewrite set_nth_length; auto|]. split; [auto|]. split; [auto|]. split; [auto|]. split; [cbn [snd]; rewrite set_nth_length; auto|].
  cbn [fst snd]. intros k Hk. rewrite stmt_of_set by auto. destruct (Nat.eqb_spec k s) as [->|N].
  - right. exists l0, pos, hs0, h. split; [auto|]. split; [apply Hl; simpl; auto|]. split; [apply Hh; simpl; auto|]. split.
    + destruct (A6 s Hk) as [Q|(l1 & pos1 & hs1 & h1 & _ & _ & _ & Q & _)].
      * rewrite <- Q. exact ES.
      * exfalso. unfold evict_stmt in Q. destruct (s_evict (stmt_of pr0 s)); [discriminate|].
        destruct (_ <? _)%nat; [|discriminate]. inversion Q as [Q']. unfold evict_stmt in ES. rewrite <- Q' in ES. cbn in ES. discriminate.
    + apply nth_set_nth_eq. lia.
  - rewrite nth_set_nth_neq by auto. apply A6; auto.
Qed.

Lemma evict_bands_ok pr0 es0 : forall es a a', incl es es0 -> evicted pr0 es0 a -> evict_bands a es = Some a' -> evicted pr0 es0 a'.
Proof.
  induction es as [|[[l pos] hs] es IH]; intros a a' Hi EV E; cbn [evict_bands] in E.
  - congruence.
  - destruct (evict_band a l pos hs) as [a1|] eqn:E1; [|discriminate].
    eapply IH; [|eapply (evict_band_ok pr0 es0 l pos hs); [|apply incl_refl|apply incl_refl|exact EV|exact E1]|exact E].
    + intros x Hx; apply Hi; simpl; auto.
    + apply Hi; simpl; auto.
Qed.

Lemma evict_bands_evicted pr0 pos0 es pr pos : length pos0 = length (p_stmts pr0) -> evict_bands (pr0, pos0) es = Some (pr, pos) -> evicted pr0 es (pr, pos).
Proof.
  intros L E. eapply evict_bands_ok; [apply incl_refl| |exact E].
  do 4 (split; [reflexivity|]). split; [exact L|]. intros; left; reflexivity.
Qed.

(** The statement with a replaced hyperplane. *)
Lemma evict_stmt_some pos h st st' : evict_stmt pos h st = Some st' ->
  s_evict st = None /\ (pos < mnrows (s_trans st))%nat /\
  st' = set_evict (set_trans st (mkMat (mncols (s_trans st)) (set_nth pos h (mrows (s_trans st))))) (Some (nth pos (mrows (s_trans st)) [])).
Proof.
  unfold evict_stmt. destruct (s_evict st); [discriminate|]. destruct (Nat.ltb_spec pos (mnrows (s_trans st))); [|discriminate].
  intros E; inversion E. auto.
Qed.

Lemma in_set_nth {A} k (v : A) l x : In x (set_nth k v l) -> x = v \/ In x l.
Proof. revert k; induction l; intros [|k]; simpl; try tauto. intros [H|H]; auto. intros [H|H]; auto. apply IHl in H. tauto. Qed.

Section Evict.
Variables (pr0 : prog) (bands : list band) (es : list eviction) (pr : prog) (pos : list nat).
Hypothesis W : wf_core pr0.
Hypothesis D : disjoint_bands bands.
Hypothesis HE : Forall (evicts_in pr0 bands) es.
Hypothesis EV : evicted pr0 es (pr, pos).

Lemma ev_cases s : (s < length (p_stmts pr0))%nat ->
  stmt_of pr s = stmt_of pr0 s \/
  exists h, let b := band_of bands s in
    In b bands /\ in_band b s = true /\ (b_first b <= nth s pos 0 < b_first b + length (b_sizes b))%nat /\
    length h = mncols (s_trans (stmt_of pr0 s)) /\ s_evict (stmt_of pr0 s) = None /\
    (nth s pos 0 < mnrows (s_trans (stmt_of pr0 s)))%nat /\
    stmt_of pr s = set_evict (set_trans (stmt_of pr0 s) (mkMat (mncols (s_trans (stmt_of pr0 s)))
      (set_nth (nth s pos 0%nat) h (mrows (s_trans (stmt_of pr0 s)))))) (Some (nth (nth s pos 0%nat) (mrows (s_trans (stmt_of pr0 s))) [])).
Proof.
  intros Hs. destruct EV as (_ & _ & _ & _ & _ & C). destruct (C s Hs) as [E|(l & k & hs & h & H1 & H2 & H3 & H4 & H5)]; [left; exact E|right].
  cbn [fst snd] in *. destruct (proj1 (Forall_forall _ _) HE _ H1) as (b & Hb & Hl & Hp & Hh).
  assert (in_band b s = true) as HI by (apply In_in_band; auto).
  destruct (evict_stmt_some _ _ _ _ H4) as (S1 & S2 & S3).
  exists h. cbv zeta. rewrite (band_of_in bands b s D Hb HI), H5. split; [auto|]. split; [auto|]. split; [auto|]. split; [auto|]. auto.
Qed.

Lemma ev_dim s : (s < length (p_stmts pr0))%nat -> s_dim (stmt_of pr s) = s_dim (stmt_of pr0 s) /\ s_domain (stmt_of pr s) = s_domain (stmt_of pr0 s) /\
  s_reads (stmt_of pr s) = s_reads (stmt_of pr0 s) /\ s_writes (stmt_of pr s) = s_writes (stmt_of pr0 s) /\
  s_dim_orig (stmt_of pr s) = s_dim_orig (stmt_of pr0 s) /\ s_hyp (stmt_of pr s) = s_hyp (stmt_of pr0 s) /\
  mncols (s_trans (stmt_of pr s)) = mncols (s_trans (stmt_of pr0 s)) /\
  mnrows (s_trans (stmt_of pr s)) = mnrows (s_trans (stmt_of pr0 s)).
Proof.
  intros Hs. destruct (ev_cases s Hs) as [->|(h & _ & _ & _ & _ & _ & _ & ->)].
  - repeat (split; [reflexivity|]). reflexivity.
  - do 7 (split; [reflexivity|]). unfold mnrows. cbn. apply set_nth_length.
Qed.

Lemma ev_wf : wf_core pr.
Proof.
  destruct W as [W1 W2]. destruct EV as (E1 & E2 & E3 & _ & _ & _). cbn [fst snd] in *. split.
  - intros st Hst. apply (In_nth _ _ dummy_stmt) in Hst as (s & Hs & <-). fold (stmt_of pr s). rewrite E1 in Hs.
    destruct (W1 _ (stmt_of_in pr0 s Hs)) as (C & G). destruct (ev_cases s Hs) as [->|(h & _ & _ & _ & Lh & _ & _ & ->)].
    + split; [|auto]. destruct C as (C1 & C2 & C3). unfold wf_cols. rewrite E2. auto.
    + destruct C as (C1 & C2 & C3 & C4). split.
      * unfold wf_cols. rewrite E2. cbn [set_evict set_trans s_orig s_dim s_trans s_domain s_reads s_writes mncols].
        split; [auto|]. split; [auto|]. split; [|auto]. intros r Hr. cbn [mrows mncols] in *. apply in_set_nth in Hr as [->|Hr]; auto.
      * cbn [set_evict set_trans s_hyp s_trans]. unfold mnrows. cbn. rewrite set_nth_length. exact G.
  - intros d Hd. rewrite E3 in Hd. destruct (W2 d Hd) as (Y1 & Y2 & Y3 & Y4). rewrite E1, E2.
    destruct (ev_dim _ Y1) as (-> & _). destruct (ev_dim _ Y2) as (-> & _). auto.
Qed.

Lemma ev_instance d s t p : In d (p_deps pr0) -> instance pr d s t p <-> instance pr0 d s t p.
Proof.
  intros Hd. destruct (proj2 W d Hd) as (Y1 & Y2 & _). unfold instance. destruct EV as (_ & EN & _). cbn [fst] in EN. rewrite EN.
  destruct (ev_dim _ Y1) as (-> & _). destruct (ev_dim _ Y2) as (-> & _). tauto.
Qed.

Lemma map_set_nth' {A B} (g : A -> B) k v l : map g (set_nth k v l) = set_nth k (g v) (map g l).
Proof. revert k; induction l; intros [|k]; simpl; auto. f_equal; auto. Qed.
Lemma set_nth_set {A} k (v w : A) l : set_nth k v (set_nth k w l) = set_nth k v l.
Proof. revert k; induction l; intros [|k]; simpl; auto. f_equal; auto. Qed.
Lemma set_nth_same {A} k d (l : list A) : set_nth k (nth k l d) l = l.
Proof. revert k; induction l; intros [|k]; simpl; auto. f_equal; auto. Qed.
Lemma set_nth_firstn {A} k j (v : A) l : (j <= k)%nat -> firstn j (set_nth k v l) = firstn j l.
Proof. revert k j; induction l; intros [|k] [|j] H; simpl; auto; try lia. f_equal. apply IHl. lia. Qed.
Lemma set_nth_skipn {A} k j (v : A) l : (j <= k)%nat -> skipn j (set_nth k v l) = set_nth (k - j) v (skipn j l).
Proof. revert k j; induction l; intros [|k] [|j] H; simpl; auto; try lia. destruct (k - j)%nat; auto. apply IHl. lia. Qed.
Lemma set_nth_app {A} k (v : A) l l' : set_nth (length l + k) v (l ++ l') = l ++ set_nth k v l'.
Proof. induction l; simpl; auto. f_equal; auto. Qed.
Lemma set_nth_app1 {A} k (v : A) l l' : (k < length l)%nat -> set_nth k v (l ++ l') = set_nth k v l ++ l'.
Proof. revert k; induction l; intros [|k] H; simpl in *; auto; try lia. f_equal. apply IHl. lia. Qed.

(** Times before and after the eviction. *)
Lemma ev_stamp_firstn s i p k : (s < length (p_stmts pr0))%nat -> (k <= b_first (band_of bands s) \/ in_band (band_of bands s) s = false)%nat ->
  firstn k (timestamp (stmt_of pr s) i p) = firstn k (timestamp (stmt_of pr0 s) i p).
Proof.
  intros Hs Hk. destruct (ev_cases s Hs) as [->|(h & _ & B & P & _ & _ & _ & ->)]; auto.
  destruct Hk as [Hk|Hk]; [|congruence].
  unfold timestamp. cbn [set_evict set_trans s_trans mrows]. rewrite map_set_nth'. apply set_nth_firstn. lia.
Qed.

(** ** Rescheduling a tiled statement *)

(** [n] tile columns and rows were inserted. *)
Definition grown (s : nat) (n : nat) (st' : stmt) : Prop :=
  s_evict st' = s_evict (stmt_of pr s) /\ s_dim_orig st' = s_dim_orig (stmt_of pr s) /\
  s_dim st' = (n + s_dim (stmt_of pr s))%nat /\ mncols (s_trans st') = (n + mncols (s_trans (stmt_of pr s)))%nat /\
  (mnrows (s_trans (stmt_of pr s)) + n <= mnrows (s_trans st'))%nat /\
  forall l, (b_first (band_of bands s) <= l < mnrows (s_trans (stmt_of pr s)))%nat ->
    nth (l + n) (mrows (s_trans st')) [] = repeat 0 n ++ nth l (mrows (s_trans (stmt_of pr s))) [].

Lemma aff_repeat0 n r c x : length c = n -> aff (repeat 0 n ++ r) (c ++ x) = aff r x.
Proof.
  intros <-. unfold aff. rewrite <- app_assoc. induction c; simpl; auto.
Qed.

Hypothesis HO : forall s, (s < length (p_stmts pr0))%nat -> s_evict (stmt_of pr0 s) = None /\ (s_dim_orig (stmt_of pr0 s) = s_dim (stmt_of pr0 s))%nat.

Lemma reschedule_ok s n st' : (s < length (p_stmts pr0))%nat -> grown s n st' ->
  exists st2, reschedule_stmt (nth s pos 0%nat) st' = Some st2 /\
    s_dim st2 = s_dim st' /\ s_domain st2 = s_domain st' /\ s_reads st2 = s_reads st' /\ s_writes st2 = s_writes st' /\
    (forall c i p f X Z, length c = n -> f = b_first (band_of bands s) -> length X = n ->
       timestamp st' (c ++ i) p = firstn f (timestamp (stmt_of pr s) i p) ++ X ++ skipn f (timestamp (stmt_of pr s) i p) ++ Z ->
       timestamp st2 (c ++ i) p = firstn f (timestamp (stmt_of pr0 s) i p) ++ X ++ skipn f (timestamp (stmt_of pr0 s) i p) ++ Z) /\
    (forall c i p X, stmt_of pr s = stmt_of pr0 s -> timestamp st' c p = timestamp (stmt_of pr s) i p ++ X -> timestamp st2 c p = timestamp (stmt_of pr0 s) i p ++ X).
Proof.
  intros Hs (G1 & G2 & G3 & G4 & G5 & G6). destruct (HO s Hs) as [O1 O2].
  destruct (ev_dim s Hs) as (E1 & _ & _ & _ & E2 & _ & E3 & E4).
  destruct (ev_cases s Hs) as [E|(h & B1 & B2 & B3 & B4 & B5 & B6 & B7)].
  - exists st'. unfold reschedule_stmt. rewrite G1, E, O1. do 5 (split; [reflexivity|]). split; [auto|].
    intros c i p X E' TS. exact TS.
  - set (k := nth s pos 0%nat) in *. set (b := band_of bands s) in *.
    destruct (proj1 W _ (stmt_of_in pr0 s Hs)) as ((_ & M & C & _) & _).
    assert (length (nth k (mrows (s_trans (stmt_of pr0 s))) []) = mncols (s_trans (stmt_of pr0 s))) as LE by (apply C; apply nth_In; exact B6).
    assert (s_dim st' - s_dim_orig st' = n)%nat as FL by (rewrite G2, G3; lia).
    assert (s_evict st' = Some (nth k (mrows (s_trans (stmt_of pr0 s))) [])) as EE by (rewrite G1, B7; reflexivity).
    unfold reschedule_stmt. rewrite EE, FL, LE, G4, E3, Nat.eqb_refl. cbn [andb].
    rewrite (proj2 (Nat.ltb_lt _ _)) by lia.
    eexists. split; [reflexivity|]. do 4 (split; [reflexivity|]). split.
    + intros c i p f X Z Lc -> LX TS. unfold timestamp in *. cbn [set_evict set_trans s_trans mrows]. rewrite map_set_nth', TS.
      rewrite (Nat.add_comm n k), G6 by lia. rewrite firstn_app, repeat_length, Nat.sub_diag. cbn [firstn]. rewrite app_nil_r, firstn_all2 by (rewrite repeat_length; lia).
      rewrite <- app_assoc. rewrite aff_repeat0 by auto. rewrite B7. cbn [set_evict set_trans s_trans mrows]. rewrite map_set_nth'.
      set (T0 := map (fun r => aff r (i ++ p)) (mrows (s_trans (stmt_of pr0 s)))).
      assert (length T0 = mnrows (s_trans (stmt_of pr0 s))) as LT by (unfold T0; rewrite map_length; reflexivity).
      assert (aff (nth k (mrows (s_trans (stmt_of pr0 s))) []) (i ++ p) = nth k T0 0) as EV0.
      { unfold T0. rewrite (nth_indep _ 0 (aff [] (i ++ p))) by (rewrite map_length; exact B6).
        rewrite (List.map_nth (fun r => aff r (i ++ p))). reflexivity. }
      rewrite EV0. rewrite set_nth_firstn by lia. set (f := b_first b) in *.
      assert (length (firstn f T0) = f) as L1 by (rewrite firstn_length; lia).
      replace (k + n)%nat with (length (firstn f T0) + (length X + (k - f)))%nat by lia.
      rewrite set_nth_app, set_nth_app, set_nth_skipn by lia. f_equal. f_equal.
      rewrite set_nth_app1 by (rewrite set_nth_length, skipn_length; lia). f_equal.
      rewrite set_nth_set. replace (nth k T0 0) with (nth (k - f) (skipn f T0) 0).
      * apply set_nth_same.
      * rewrite nth_skipn. f_equal. lia.
    + intros c i p X E. exfalso. rewrite E in B7. apply (f_equal s_evict) in B7. rewrite O1 in B7. discriminate.
Qed.
End Evict.

(** ** Legality *)
Section Legality.
Variables (pr0 : prog) (bands : list band) (es : list eviction) (pr : prog) (pos : list nat).
Hypothesis W : wf_core pr0.
Hypothesis D : disjoint_bands bands.
Hypothesis F : Forall (wf_band pr0) bands.
Hypothesis HE : Forall (evicts_in pr0 bands) es.
Hypothesis EV : evicted pr0 es (pr, pos).
Variables (r : prog) (sizes : band -> list (list Z)).
Hypothesis HS : forall b, In b bands -> forall l, In l (sizes b) -> length l = length (b_sizes b) /\ forall T, In T l -> 1 <= T.
Let bd (s : nat) := band_of bands s.
Let pt (s : nat) (i p : point) := diamond_point pr (bd s) (sizes (bd s)) s i p.
Let stamp (s : nat) (i p : point) := diamond_stamp pr0 pr (bd s) (sizes (bd s)) s i p.
Hypothesis HT : forall s i p, (s < length (p_stmts pr0))%nat -> length i = s_dim (stmt_of pr0 s) -> length p = p_npar pr0 ->
  exists z, timestamp (stmt_of r s) (pt s i p) p = stamp s i p ++ z.
Hypothesis HD : Forall2 (fun d d' =>
     d_src d' = d_src d /\ d_dst d' = d_dst d /\ d_rar d' = d_rar d /\
     forall x y p, instance r d' x y p -> exists s t, instance pr0 d s t p /\ x = pt (d_src d) s p /\ y = pt (d_dst d) t p)
    (p_deps pr0) (p_deps r).
Hypothesis SF : forall d, In d (p_deps pr0) -> d_rar d = false -> Forall (fun b => band_safe pr b d) bands.
Hypothesis L : legal pr0.

Lemma dl_band s : in_band (bd s) s = true -> In (bd s) bands.
Proof. intros E. destruct (band_of_cases bands s) as [[H _]|[H _]]; auto. unfold bd in E. rewrite H in E. discriminate. Qed.

Lemma dl_first s : (s < length (p_stmts pr0))%nat -> in_band (bd s) s = true ->
  (b_first (bd s) + length (b_sizes (bd s)) <= mnrows (s_trans (stmt_of pr0 s)))%nat.
Proof.
  intros Hs E. destruct (proj1 (Forall_forall _ _) F _ (dl_band s E)) as (_ & _ & H). apply H. apply in_band_In. auto.
Qed.

Lemma dl_firstn s i p k : (s < length (p_stmts pr0))%nat -> (k <= b_first (bd s) \/ in_band (bd s) s = false)%nat ->
  firstn k (stamp s i p) = firstn k (timestamp (stmt_of pr s) i p).
Proof.
  intros Hs Hk. rewrite (ev_stamp_firstn pr0 bands es pr pos) by auto. unfold stamp, diamond_stamp.
  destruct (in_band (bd s) s) eqn:E; auto. destruct Hk as [Hk|Hk]; [|discriminate].
  pose proof (dl_first s Hs E). rewrite firstn_app, firstn_firstn, Nat.min_l by lia.
  rewrite firstn_length, timestamp_length. replace (k - _)%nat with 0%nat by lia. cbn [firstn]. apply app_nil_r.
Qed.

Lemma dl_concat d s t p b (ll : list (list Z)) : instance pr d s t p ->
  (forall l, In l ll -> length l = length (b_sizes b) /\ forall T, In T l -> 1 <= T) ->
  (forall j, (b_first b <= j < b_first b + length (b_sizes b))%nat -> keeps_tiles pr d j s t p \/
      exists j', (b_first b <= j' < j)%nat /\ loop_level (stmt_of pr (d_src d)) j' = false /\
        loop_level (stmt_of pr (d_dst d)) j' = false /\ 0 < distance pr d j' s t p) ->
  let A := concat (map (fun l => tile_times (stmt_of pr (d_src d)) (b_first b) l s p) ll) in
  let B := concat (map (fun l => tile_times (stmt_of pr (d_dst d)) (b_first b) l t p) ll) in
  length A = length B /\ (lexlt A B \/ A = B).
Proof.
  intros I HL K. induction ll as [|l ll IH]; cbn [map concat]; auto. cbv zeta in *.
  destruct IH as [IH1 IH2]; [intros; apply HL; simpl; auto|].
  destruct (HL l) as [L1 L2]; [simpl; auto|]. split; [rewrite !app_length, !tile_times_length; lia|].
  destruct (tile_times_lex pr d s t p l (b_first b) I) as [Q|Q]; auto.
  - rewrite L1. exact K.
  - left. apply lexlt_extend. auto.
  - rewrite Q. destruct IH2 as [IH2|IH2].
    + left. rewrite lexlt_app by auto. auto.
    + right. congruence.
Qed.

Lemma lexlt_firstn_app k a b x y : lexlt (firstn k a) (firstn k b) -> lexlt (a ++ x) (b ++ y).
Proof. intros H. apply lexlt_extend. apply (lexlt_prefix k). exact H. Qed.

Lemma diamond_legal : legal r.
Proof.
  intros d' Hd' Hr. destruct (Forall2_in_r _ _ _ _ HD Hd') as (d & Hd & B1 & B2 & B3 & B4).
  intros x y p I. apply B4 in I as (s & t & I & -> & ->). rewrite B1, B2. rewrite B3 in Hr.
  destruct (proj2 W d Hd) as (S1 & S2 & _). pose proof I as (I1 & I2 & I3 & _).
  destruct (HT _ s p S1 I1 I3) as [z1 ->]. destruct (HT _ t p S2 I2 I3) as [z2 ->].
  pose proof (SF d Hd Hr) as SFd. pose proof (L d Hd Hr s t p I) as Lt.
  pose proof (proj2 (ev_instance pr0 bands es pr pos W D HE EV d s t p Hd) I) as Ipr.
  assert (forall k, (k <= b_first (bd (d_src d)) \/ in_band (bd (d_src d)) (d_src d) = false)%nat ->
                    (k <= b_first (bd (d_dst d)) \/ in_band (bd (d_dst d)) (d_dst d) = false)%nat ->
                    separated_before pr d k -> lexlt (stamp (d_src d) s p ++ z1) (stamp (d_dst d) t p ++ z2)) as SEP.
  { intros k K1 K2 SP. apply (lexlt_firstn_app k). rewrite !dl_firstn by auto. apply (SP s t p Ipr). }
  destruct (in_band (bd (d_src d)) (d_src d)) eqn:E1, (in_band (bd (d_dst d)) (d_dst d)) eqn:E2.
  - pose proof (proj1 (Forall_forall _ _) SFd _ (dl_band _ E1)) as SF1.
    pose proof (proj1 (Forall_forall _ _) SFd _ (dl_band _ E2)) as SF2.
    assert (in_band (bd (d_src d)) (d_dst d) = true -> bd (d_dst d) = bd (d_src d)) as EB1
      by (intros H; apply (band_of_in bands _ _ D (dl_band _ E1) H)).
    assert (in_band (bd (d_dst d)) (d_src d) = true -> bd (d_src d) = bd (d_dst d)) as EB2
      by (intros H; apply (band_of_in bands _ _ D (dl_band _ E2) H)).
    destruct SF1 as [[X _]|[SP1|(_ & X & TB)]]; [congruence| |].
    + destruct SF2 as [[_ X]|[SP2|(X & _ & _)]]; [congruence| |].
      * destruct (Nat.le_ge_cases (b_first (bd (d_src d))) (b_first (bd (d_dst d)))); eapply SEP; eauto.
      * rewrite (EB2 X) in SP1. eapply SEP; [| |exact SP1]; left; rewrite ?(EB2 X); auto.
    + specialize (EB1 X). unfold stamp, diamond_stamp. rewrite EB1 in *. rewrite E1, X.
      pose proof (dl_first _ S1 E1) as R1. pose proof (dl_first _ S2) as R2. rewrite EB1 in R2. specialize (R2 X).
      set (b := bd (d_src d)) in *.
      set (ts := timestamp (stmt_of pr0 (d_src d)) s p) in *. set (tt := timestamp (stmt_of pr0 (d_dst d)) t p) in *.
      assert (length ts = mnrows (s_trans (stmt_of pr0 (d_src d)))) as L1 by (unfold ts; apply timestamp_length).
      assert (length tt = mnrows (s_trans (stmt_of pr0 (d_dst d)))) as L2 by (unfold tt; apply timestamp_length).
      apply lexlt_extend. rewrite lexlt_app by (rewrite !firstn_length; lia).
      rewrite <- (firstn_skipn (b_first b) ts), <- (firstn_skipn (b_first b) tt) in Lt.
      rewrite lexlt_app in Lt by (rewrite !firstn_length; lia). destruct Lt as [Lt|[EQ Lt]]; auto.
      right. split; auto.
      assert (forall k, (k < b_first b)%nat -> distance pr d k s t p = 0) as D0.
      { intros k Hk. unfold distance.
        assert (mnrows (s_trans (stmt_of pr (d_src d))) = mnrows (s_trans (stmt_of pr0 (d_src d)))) as N1
          by (apply (ev_dim pr0 bands es pr pos D HE EV _ S1)).
        assert (mnrows (s_trans (stmt_of pr (d_dst d))) = mnrows (s_trans (stmt_of pr0 (d_dst d)))) as N2
          by (apply (ev_dim pr0 bands es pr pos D HE EV _ S2)).
        rewrite <- !timestamp_nth by lia.
        rewrite <- (nth_firstn_lt (b_first b) (timestamp (stmt_of pr (d_dst d)) t p) k 0), <- (nth_firstn_lt (b_first b) (timestamp (stmt_of pr (d_src d)) s p) k 0) by auto.
        rewrite !(ev_stamp_firstn pr0 bands es pr pos D HE EV) by (auto; left; fold (bd (d_src d)); fold (bd (d_dst d)); rewrite ?EB1; fold b; lia).
        fold ts tt. rewrite EQ. lia. }
      specialize (TB s t p Ipr D0).
      destruct (dl_concat d s t p b (sizes b) Ipr (HS b (dl_band _ E1)) TB) as [LA [LX|EX]].
      * rewrite lexlt_app by auto. auto.
      * rewrite lexlt_app by auto. auto.
  - pose proof (proj1 (Forall_forall _ _) SFd _ (dl_band _ E1)) as [[X _]|[SP1|(_ & X & _)]]; [congruence| |].
    + apply (SEP _ (or_introl (le_n _)) (or_intror eq_refl) SP1).
    + assert (bd (d_dst d) = bd (d_src d)) as EB by (apply (band_of_in bands _ _ D (dl_band _ E1) X)). congruence.
  - pose proof (proj1 (Forall_forall _ _) SFd _ (dl_band _ E2)) as [[_ X]|[SP1|(X & _ & _)]]; [congruence| |].
    + apply (SEP _ (or_intror eq_refl) (or_introl (le_n _)) SP1).
    + assert (bd (d_src d) = bd (d_dst d)) as EB by (apply (band_of_in bands _ _ D (dl_band _ E2) X)). congruence.
  - unfold stamp, diamond_stamp. rewrite E1, E2. apply lexlt_extend. exact Lt.
Qed.
End Legality.
