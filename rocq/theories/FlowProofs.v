(** * Proofs: the passes after the transformation carry out the program. *)
From Coq Require Import ZArith List Bool Lia Arith Permutation.
From Verif Require Import SpecLinear MathModel ConstraintsModel VecProofs EditProofs MatrixProofs ListProofs SpecProg SpecTile SpecLoop SpecIntra SpecDriver SpecFlow
  FrameworkModel LexProofs ProgModel ProgProofs TileModel TileProofs TileProofs2 TileProofs3 LoopModel LoopProofs LoopProofs2 LoopProofs3 LoopProofs4 LoopProofs5 WaveProofs WaveProofs2 ExportModel ExportProofs2.
Import ListNotations.
Open Scope Z_scope.

Definition here (s : nat) (i p : point) : point := i.
Definition after (F E : nat -> point -> point -> point) (s : nat) (i p : point) : point := F s (E s i p) p.

Lemma carries_trans a b c E F : carries a b E -> carries b c F -> carries a c (after F E).
Proof.
  intros (A1 & A2 & A3 & A5 & A4) (B1 & B2 & B3 & B5 & B4). split; [congruence|]. split; [congruence|]. split; [|split].
  - intros s p Hs Hp. destruct (A3 s p Hs Hp) as (C1 & C0 & C2 & C3).
    destruct (B3 s p ltac:(congruence) ltac:(congruence)) as (D1 & D0 & D2 & D3). unfold after. split; [|split; [|split]].
    + intros x. rewrite D1. split.
      * intros (i & Hi & ->). apply C1 in Hi as (j & Hj & ->). eauto.
      * intros (i & Hi & ->). exists (E s i p). split; auto. apply C1. eauto.
    + intros i. destruct (C0 i) as (u & Eu). destruct (D0 (E s i p)) as (v & Ev). exists (v ++ u). rewrite Ev, Eu, app_assoc. reflexivity.
    + intros i j Hi Hj X. apply C2; auto. apply D2; auto; apply C1; eauto.
    + intros i Hi. destruct (C3 i Hi) as [<- <-]. apply D3. apply C1. eauto.
  - intros s Hs. destruct (A5 s Hs) as [X1 X2]. destruct (B5 s ltac:(congruence)) as [Y1 Y2]. split; [congruence|lia].
  - clear - A4 B4. revert B4. generalize (p_deps c) as lc. induction A4 as [|d d' l l' H A IH]; intros lc B4; inversion B4 as [|x y lx ly K B5]; subst; constructor; auto.
    destruct H as (H1 & H2 & H3 & H4). destruct K as (K1 & K2 & K3 & K4).
    split; [congruence|]. split; [congruence|]. split; [congruence|]. intros s t p I. unfold after.
    specialize (H4 s t p I). specialize (K4 _ _ _ H4). rewrite H1, H2 in K4. exact K4.
Qed.

Lemma carries_same a b : same_program a b -> (forall s, (s < length (p_stmts a))%nat -> s_dim_orig (stmt_of b s) = s_dim_orig (stmt_of a s)) -> carries a b here.
Proof.
  intros (A1 & A2 & A3 & A4) A5. split; auto. split; auto. split; [|split].
  - intros s p Hs Hp. destruct (A3 s Hs) as [D A]. unfold here. split; [|split; [|split]].
    + intros x. split.
      * intros I. exists x. split; auto. assert (length x = s_dim (stmt_of a s)) as L by (destruct I; congruence). apply (A x p L Hp). exact I.
      * intros (i & I & ->). assert (length i = s_dim (stmt_of a s)) as L by apply I. apply (A i p L Hp). exact I.
    + intros i. exists []. reflexivity.
    + auto.
    + intros i I. apply A; auto. apply I.
  - intros s Hs. split; [auto|]. destruct (A3 s Hs) as [-> _]. lia.
  - induction A4 as [|d d' l l' (H1 & H2 & H3 & H4) F IH]; constructor; auto. split; auto. split; auto. split; auto.
    intros s t p I. apply H4. exact I.
Qed.

(** ** Passes that change schedules and flags only *)
Definition dep_data (d : dep) := (d_src d, d_dst d, d_rar d, d_poly d).
Definition framed (a b : prog) : Prop :=
  length (p_stmts b) = length (p_stmts a) /\ p_npar b = p_npar a /\ map dep_data (p_deps b) = map dep_data (p_deps a) /\
  forall s, s_dim (stmt_of b s) = s_dim (stmt_of a s) /\ s_dim_orig (stmt_of b s) = s_dim_orig (stmt_of a s) /\ s_domain (stmt_of b s) = s_domain (stmt_of a s) /\
    s_reads (stmt_of b s) = s_reads (stmt_of a s) /\ s_writes (stmt_of b s) = s_writes (stmt_of a s).
Lemma framed_carries a b : framed a b -> carries a b here.
Proof.
  intros (A1 & A2 & A3 & A4). apply carries_same; [|intros s _; apply A4]. split; auto. split; auto. split.
  - intros s Hs. destruct (A4 s) as (B1 & _ & B2 & B3 & B4). split; auto. intros i p Hi Hp. unfold iteration. rewrite B1, B2, B3, B4. tauto.
  - assert (forall d d', dep_data d' = dep_data d -> d_src d' = d_src d /\ d_dst d' = d_dst d /\ d_rar d' = d_rar d /\
      forall s t p, instance b d' s t p <-> instance a d s t p) as X.
    { intros d d' H. injection H as H1 H2 H3 H4. split; auto. split; auto. split; auto. intros s t p. unfold instance. rewrite H1, H2, H4, A2.
      destruct (A4 (d_src d)) as (-> & _). destruct (A4 (d_dst d)) as (-> & _). tauto. }
    revert A3. generalize (p_deps b) as lb. generalize (p_deps a) as la. induction la as [|d l IH]; intros [|d' l'] E; try discriminate; constructor.
    + apply X. cbn in E. congruence.
    + apply IH. cbn in E. congruence.
Qed.
Lemma framed_refl a : framed a a.
Proof. repeat split; auto. Qed.
Lemma framed_trans a b c : framed a b -> framed b c -> framed a c.
Proof.
  intros (A1 & A2 & A3 & A4) (B1 & B2 & B3 & B4). split; [congruence|]. split; [congruence|]. split; [congruence|].
  intros s. destruct (A4 s) as (C1 & C2 & C3 & C4 & C5), (B4 s) as (D1 & D2 & D3 & D4 & D5). repeat split; congruence.
Qed.
Lemma reordered_framed a b : levels_reordered a b -> framed a b.
Proof.
  intros (A1 & A2 & _ & A3 & A4). split; auto. split; auto. split; auto. intros s. destruct (Nat.lt_ge_cases s (length (p_stmts a))) as [X|X].
  - destruct (A4 s X) as (B0 & B1 & B2 & B3 & B4 & _). repeat (split; [assumption|]). assumption.
  - unfold stmt_of. rewrite !nth_overflow by lia. repeat (split; [reflexivity|]). reflexivity.
Qed.

Lemma stamp_at st i p : timestamp st i p = map (fun k => theta st k i p) (seq 0 (mnrows (s_trans st))).
Proof.
  unfold timestamp, theta, mnrows. generalize (mrows (s_trans st)) as l. intros l.
  apply (nth_ext _ _ (aff [] (i ++ p)) (aff [] (i ++ p))); rewrite !map_length, ?seq_length; auto.
  intros n Hn. rewrite (List.map_nth (fun r => aff r (i ++ p))).
  rewrite (nth_indep (map _ (seq _ _)) _ ((fun k => aff (nth k l []) (i ++ p)) 0%nat)) by (rewrite map_length, seq_length; auto).
  rewrite (List.map_nth (fun k => aff (nth k l []) (i ++ p))). rewrite seq_nth; auto.
Qed.
Lemma map_eq_in {A B} (f g : A -> B) l : map f l = map g l -> forall x, In x l -> f x = g x.
Proof. induction l as [|a l IH]; cbn; intros E x []; subst; injection E; auto. Qed.
Lemma stamp_eq st i j p : timestamp st i p = timestamp st j p <-> forall k, (k < mnrows (s_trans st))%nat -> theta st k i p = theta st k j p.
Proof.
  rewrite !stamp_at. split.
  - intros E k Hk. apply (map_eq_in (fun k => theta st k i p) (fun k => theta st k j p) _ E). apply in_seq. lia.
  - intros H. apply map_ext_in. intros k Hk. apply in_seq in Hk. apply H. lia.
Qed.

Lemma reordered_distinct a b : levels_reordered a b -> distinct_times a -> distinct_times b.
Proof.
  intros R D s i j p Hs Hp I J T. pose proof (reordered_framed a b R) as (A1 & A2 & _ & A4). destruct (A4 s) as (B1 & _ & B2 & _).
  rewrite A1 in Hs. rewrite A2 in Hp. unfold iteration in I, J. rewrite B1, B2 in I, J. apply (D s i j p Hs Hp I J).
  destruct R as (_ & _ & _ & _ & R). destruct (R s Hs) as (_ & _ & _ & _ & _ & P). unfold timestamp in *. apply map_ext_in.
  intros r Hr. apply (map_eq_in (fun r => aff r (i ++ p)) (fun r => aff r (j ++ p)) _ T). apply (Permutation_in r (Permutation_sym P) Hr).
Qed.

(** ** Wavefronts *)
Lemma add_rows_dim_orig first ks : forall st, s_dim_orig (add_rows first ks st) = s_dim_orig st.
Proof. induction ks as [|k ks IH]; intros st; [reflexivity|]. rewrite add_rows_cons, IH. reflexivity. Qed.
Lemma band_framed mp pr b : wf_levels pr -> pband_ok pr b -> framed pr (fst (create_tile_schedule_band mp false pr b)).
Proof.
  intros W (B & TO & SF). destruct (band_step mp pr b W B TO) as [K E]. rewrite E. destruct (_ || _); [apply framed_refl|]. cbn [fst].
  destruct B as (B1 & B2 & B3 & B4). set (l := l_stmts (pb_loop b)) in *. set (first := l_depth (pb_loop b)) in *. set (ks := summed _ _ _ _ _) in *.
  split; [apply wv_nstmts; auto|]. split; [reflexivity|]. split.
  - cbn [waved p_deps set_deps set_stmts]. rewrite map_map. apply map_ext. intros d. destruct (dep_step_sv first ks b d) as [v ->]. reflexivity.
  - intros s. destruct (Nat.lt_ge_cases s (length (p_stmts pr))) as [X|X].
    + destruct (wv_stmt pr l first ks (dep_step first ks b) W B1 B2 ltac:(lia) ltac:(intros k Hk; specialize (K k Hk); lia) s X) as (_ & _ & _ & D1 & _ & D2 & _ & D3 & D4 & _).
      split; [exact D1|]. split; [|repeat (split; [assumption|]); assumption]. destruct (in_dec Nat.eq_dec s l) as [Y|Y]; [|rewrite wv_out; auto]. rewrite wv_in; auto. apply add_rows_dim_orig.
    + rewrite wv_out; [repeat (split; [reflexivity|]); reflexivity|]. intros Y. specialize (B2 s Y). lia.
Qed.

Lemma band_distinct mp pr b : wf_levels pr -> pband_ok pr b -> distinct_times pr -> distinct_times (fst (create_tile_schedule_band mp false pr b)).
Proof.
  intros W P D. pose proof (band_framed mp pr b W P) as F. destruct P as (B & TO & SF). revert F. destruct (band_step mp pr b W B TO) as [K E]. rewrite E. destruct (_ || _); [auto|]. cbn [fst].
  destruct B as (B1 & B2 & B3 & B4). set (l := l_stmts (pb_loop b)) in *. set (first := l_depth (pb_loop b)) in *. set (ks := summed _ _ _ _ _) in *.
  set (q := waved _ _ _ _ _). intros (A1 & A2 & _ & A4) s i j p Hs Hp I J T. rewrite A1 in Hs. rewrite A2 in Hp. destruct (A4 s) as (E1 & _ & E2 & _).
  unfold iteration in I, J. rewrite E1, E2 in I, J. apply (D s i j p Hs Hp I J).
  assert (forall k, In k ks -> (first < k < length (p_hprops pr))%nat) as KK by (intros k Hk; specialize (K k Hk); lia).
  destruct (wv_stmt pr l first ks (dep_step first ks b) W B1 B2 ltac:(lia) KK s Hs) as (_ & NR & _ & _ & _ & _ & _ & _ & _ & TH). fold q in NR, TH.
  destruct (wv_rows pr W s Hs) as [_ NP]. rewrite stamp_eq in T. rewrite NR, NP in T. apply stamp_eq. intros k Hk. rewrite NP in Hk.
  destruct (Nat.eq_dec k first) as [->|N]; [|rewrite <- !TH by auto; auto].
  destruct (in_dec Nat.eq_dec s l) as [X|X].
  - assert (map (fun k => theta (stmt_of pr s) k i p) ks = map (fun k => theta (stmt_of pr s) k j p) ks) as EQ.
    { apply map_ext_in. intros k' Hk'. specialize (KK k' Hk'). rewrite <- !TH by lia. apply T. lia. }
    specialize (T first Hk). unfold q in T. rewrite !wv_first in T; auto; try lia. cbn [map zsum fold_right] in T. rewrite EQ in T. lia.
  - specialize (T first Hk). unfold q in T. rewrite wv_out in T; auto.
Qed.

Lemma schedule_framed mp bands : forall pr, wf_levels pr -> ForallOrdPairs share_none bands -> Forall (pband_ok pr) bands -> legal pr ->
  framed pr (fst (create_tile_schedule mp false pr bands)) /\
  (distinct_times pr -> distinct_times (fst (create_tile_schedule mp false pr bands))).
Proof.
  induction bands as [|b l IH]; intros pr W S P L; [split; auto; apply framed_refl|]. rewrite schedule_cons.
  inversion S as [|x y S1 S2]; subst. inversion P as [|x y P1 P2]; subst.
  destruct (one_band mp pr b) as [W1 L1]; auto. destruct (IH (fst (create_tile_schedule_band mp false pr b))) as [F D]; auto.
  { rewrite Forall_forall in *. intros c Hc. apply other_band; auto. }
  pose proof (band_framed mp pr b W P1) as F1. split.
  - exact (framed_trans _ _ _ F1 F).
  - intros T. apply D. apply (band_distinct mp pr b W P1 T).
Qed.

(** ** Tiling *)
Definition tile_map (pr : prog) (bands : list band) (s : nat) (i p : point) : point := tile_point pr (band_of bands s) s i p.

Lemma tile_point_inj pr b s i j p : length i = length j -> tile_point pr b s i p = tile_point pr b s j p -> i = j.
Proof.
  unfold tile_point. destruct (in_band b s); auto. intros L E.
  rewrite <- (rev_involutive i), <- (rev_involutive j). f_equal. apply (f_equal (@rev Z)) in E. rewrite !rev_app_distr in E.
  assert (firstn (length i) (rev i ++ rev (tile_coords (stmt_of pr s) (b_first b) (b_sizes b) i p)) = rev i) as A
    by (rewrite firstn_app, rev_length, Nat.sub_diag, firstn_O, app_nil_r; apply firstn_all2; rewrite rev_length; lia).
  rewrite <- A, E, L, firstn_app, rev_length, Nat.sub_diag, firstn_O, app_nil_r. apply firstn_all2. rewrite rev_length. lia.
Qed.

Lemma tile_times_length st sizes i p : forall k, length (tile_times st k sizes i p) = length sizes.
Proof. induction sizes as [|T l IH]; intros k; cbn; auto. Qed.

Lemma tile_stamp_inj pr b s i j p : tile_stamp pr b s i p = tile_stamp pr b s j p -> timestamp (stmt_of pr s) i p = timestamp (stmt_of pr s) j p.
Proof.
  unfold tile_stamp. destruct (in_band b s); auto. intros E.
  assert (length (timestamp (stmt_of pr s) i p) = length (timestamp (stmt_of pr s) j p)) as L by (unfold timestamp; rewrite !map_length; auto).
  set (a := timestamp (stmt_of pr s) i p) in *. set (c := timestamp (stmt_of pr s) j p) in *.
  assert (forall (u v x y : list Z), length u = length x -> u ++ v = x ++ y -> u = x /\ v = y) as INV.
  { induction u as [|h u IH]; intros v [|h' x] y LL EE; cbn in *; try discriminate; auto. injection EE as -> EE. destruct (IH v x y) as [-> ->]; auto. }
  apply INV in E as [E1 E2]; [|rewrite !firstn_length; lia].
  apply INV in E2 as [_ E3]; [|rewrite !tile_times_length; auto].
  rewrite <- (firstn_skipn (b_first b) a), <- (firstn_skipn (b_first b) c). congruence.
Qed.

Lemma tile_point_split pr b s i p : exists tile, tile_point pr b s i p = tile ++ i.
Proof. unfold tile_point. destruct (in_band b s); [eauto|]. exists []. reflexivity. Qed.

Lemma tiled_carries pr q bands : tiled_all pr q bands -> (forall s, (s < length (p_stmts pr))%nat -> s_dim_orig (stmt_of q s) = s_dim_orig (stmt_of pr s)) -> carries pr q (tile_map pr bands) /\ (distinct_times pr -> distinct_times q).
Proof.
  intros (A1 & A2 & _ & A4 & A5) A6. split.
  - split; auto. split; auto. split; [|split].
    + intros s p Hs Hp. destruct (A4 s Hs) as (_ & B2 & n & B3). split; [intros x; apply B2; auto|]. split; [intros i; apply tile_point_split|]. split.
      * intros i j I J. apply tile_point_inj. destruct I as [-> _]. destruct J as [-> _]. auto.
      * intros i I. apply B3; auto. apply I.
    + intros s Hs. split; [auto|]. destruct (A4 s Hs) as (-> & _). lia.
    + induction A5 as [|d d' l l' (H1 & H2 & H3 & _ & _ & H6) F IH]; constructor; auto. split; auto. split; auto. split; auto.
      intros s t p I. apply H6. exists s, t. auto.
  - intros D s x y p Hs Hp I J T. rewrite A1 in Hs. rewrite A2 in Hp. destruct (A4 s Hs) as (_ & B2 & n & B3).
    apply B2 in I as (i & I & ->); auto. apply B2 in J as (j & J & ->); auto. f_equal. apply (D s i j p); auto.
    destruct (B3 i p (proj1 I) Hp) as [E1 _]. destruct (B3 j p (proj1 J) Hp) as [E2 _]. rewrite E1, E2 in T. apply app_inv_tail in T.
    eapply tile_stamp_inj; eauto.
Qed.

(** ** Sequences of passes *)
Definition flows (pr r : prog) : Prop := (exists E, carries pr r E) /\ (distinct_times pr -> distinct_times r).

Lemma flows_trans a b c : flows a b -> flows b c -> flows a c.
Proof. intros [[E A] B] [[F C] D]. split; auto. exists (after F E). eapply carries_trans; eauto. Qed.
Lemma flows_reordered a b : levels_reordered a b -> flows a b.
Proof.
  intros R. split; [|apply reordered_distinct; auto]. exists here. apply framed_carries. apply reordered_framed; auto.
Qed.
Lemma flows_tiled a bands : wf_core a -> disjoint_bands bands -> Forall (wf_band a) bands -> flows a (tile_scattering_dims a bands).
Proof.
  intros W D F. destruct (scattering_tiled a bands W D F) as [_ T]. destruct (tiled_carries _ _ _ T) as [C DT]; [|split; eauto].
  intros s Hs. destruct (dinv_scattering a bands a [] (dinv_init a W)) as (N & _ & _ & I).
  - intros b Hb. apply (proj1 (Forall_forall _ _) F) in Hb. destruct Hb as (_ & B2 & B3). split; [intros x Hx; apply B3; auto|auto].
  - destruct (I s Hs) as (n & (_ & X & _) & _). exact X.
Qed.
Lemma flows_schedule mp bands pr : wf_levels pr -> ForallOrdPairs share_none bands -> Forall (pband_ok pr) bands -> legal pr ->
  flows pr (fst (create_tile_schedule mp false pr bands)).
Proof. intros W S P L. destruct (schedule_framed mp bands pr W S P L) as [F D]. split; auto. exists here. apply framed_carries. exact F. Qed.

Lemma carries_correct pr r E : carries pr r E -> distinct_times r -> legal r -> correct_transformation pr r.
Proof.
  intros C D L. exists E. split; [exact C|]. split; [exact D|]. intros d Hd R s t p I. destruct C as (_ & _ & _ & _ & C).
  assert (exists d', In d' (p_deps r) /\ d_src d' = d_src d /\ d_dst d' = d_dst d /\ d_rar d' = d_rar d /\ instance r d' (E (d_src d) s p) (E (d_dst d) t p) p) as (d' & Hd' & A1 & A2 & A3 & A4).
  { clear - C Hd I. induction C as [|x y l l' (H1 & H2 & H3 & H4) F IH]; [destruct Hd|]. destruct Hd as [->|Hd].
    - exists y. split; [simpl; auto|]. auto.
    - destruct (IH Hd) as (d' & Hd' & K). exists d'. split; [simpl; auto|]. exact K. }
  assert (d_rar d' = false) as R' by congruence. specialize (L d' Hd' R' _ _ _ A4). rewrite A1, A2 in L. exact L.
Qed.

Lemma reordered_refl pr : levels_reordered pr pr.
Proof. do 4 (split; [reflexivity|]). intros s _. do 5 (split; [reflexivity|]). apply Permutation_refl. Qed.

Lemma computed_dep_data f pr : map (fun d => (d_src d, d_dst d, d_rar d, d_poly d)) (p_deps (computed f pr)) = map (fun d => (d_src d, d_dst d, d_rar d, d_poly d)) (p_deps pr).
Proof. pose proof (computed_deps f pr) as F. induction F as [|d d' a b S F IH]; cbn; auto. destruct S as (A & B & C & D & _). rewrite IH. congruence. Qed.

Lemma reordered_computed f pr q : levels_reordered pr q -> levels_reordered pr (computed f q).
Proof.
  intros (A & B & C & D & E). split; [rewrite cq_stmts; auto|]. split; [rewrite cq_npar; auto|]. split; [rewrite cq_hprops; auto|]. split; [rewrite computed_dep_data; auto|].
  intros s Hs. rewrite cq_stmt. auto.
Qed.

Lemma reordered_uncomputed f pr q : levels_reordered pr (computed f q) -> levels_reordered pr q.
Proof.
  intros (A & B & C & D & E). rewrite cq_stmts in A. rewrite cq_npar in B. rewrite cq_hprops in C. rewrite computed_dep_data in D. do 4 (split; [assumption|]).
  intros s Hs. specialize (E s Hs). rewrite cq_stmt in E. exact E.
Qed.
Lemma flows_computed f pr : flows pr (computed f pr).
Proof. apply flows_reordered, reordered_computed, reordered_refl. Qed.
