(** * Proofs: levels of a tiled program and of the program before tiling. *)
From Coq Require Import ZArith List Bool Lia Arith.
From Verif Require Import SpecLinear MathModel ConstraintsModel VecProofs EditProofs MatrixProofs ListProofs SpecProg SpecTile SpecLoop
  RankProofs SumProofs FrameworkModel ProgModel DepProofs SimplifyProofs LexProofs ProgProofs TileModel TileProofs TileProofs2 TileProofs3
  LoopModel LoopProofs LoopProofs2 LoopProofs3 LoopProofs4 LoopProofs5 WaveProofs WaveProofs2 IntraModel IntraProofs2.
Import ListNotations.
Open Scope Z_scope.

Lemma fold_other bands pr s : wf_core pr -> disjoint_bands bands -> Forall (wf_band pr) bands -> (forall b, In b bands -> in_band b s = false) ->
  stmt_of (fold_left tile_band bands pr) s = stmt_of pr s.
Proof.
  revert pr. induction bands as [|b l IH]; intros pr W D F N; cbn [fold_left]; auto.
  inversion D as [|x y D1 D2]; subst. inversion F as [|x y F1 F2]; subst.
  destruct (tile_band_tiled pr b W F1) as [W1 T]. pose proof T as (T1 & T2 & T3 & T4 & T5 & T6).
  rewrite IH; auto.
  - apply T4. apply N. simpl; auto.
  - apply Forall_forall. intros b' Hb'. eapply tiled_other_band; eauto.
    apply (proj1 (Forall_forall _ _) D1 b' Hb'). apply (proj1 (Forall_forall _ _) F2 b' Hb').
  - intros; apply N; simpl; auto.
Qed.

Lemma fold_one bands pr b s : wf_core pr -> disjoint_bands bands -> Forall (wf_band pr) bands -> In b bands -> in_band b s = true ->
  exists pr1, wf_core pr1 /\ wf_band pr1 b /\ length (p_stmts pr1) = length (p_stmts pr) /\ p_npar pr1 = p_npar pr /\ stmt_of pr1 s = stmt_of pr s /\
    stmt_of (fold_left tile_band bands pr) s = stmt_of (tile_band pr1 b) s.
Proof.
  revert pr. induction bands as [|c l IH]; intros pr W D F Hb Hs; cbn [fold_left]; [destruct Hb|].
  inversion D as [|x y D1 D2]; subst. inversion F as [|x y F1 F2]; subst.
  destruct (tile_band_tiled pr c W F1) as [W1 T]. pose proof T as (T1 & T2 & T3 & T4 & T5 & T6).
  assert (Forall (wf_band (tile_band pr c)) l) as F'.
  { apply Forall_forall. intros b' Hb'. eapply tiled_other_band; eauto.
    apply (proj1 (Forall_forall _ _) D1 b' Hb'). apply (proj1 (Forall_forall _ _) F2 b' Hb'). }
  destruct Hb as [->|Hb].
  - exists pr. do 5 (split; [auto|]). apply fold_other; auto. intros b' Hb'. apply (proj1 (Forall_forall _ _) D1 b' Hb'); auto.
  - destruct (IH (tile_band pr c) W1 D2 F' Hb Hs) as (pr1 & A1 & A2 & A3 & A4 & A5 & A6). exists pr1. split; auto. split; auto.
    split; [congruence|]. split; [congruence|]. split; auto. rewrite A5. apply T4.
    destruct (in_band c s) eqn:E; auto. rewrite (proj1 (Forall_forall _ _) D1 b Hb s E) in Hs. discriminate.
Qed.

(** The level of the program before tiling. *)
Definition base (b : band) (s k : nat) : nat :=
  if in_band b s then if (k <? b_first b + length (b_sizes b))%nat then k else (k - length (b_sizes b))%nat else k.

Lemma nth_repeat_lt {A} (a d : A) n k : (k < n)%nat -> nth k (repeat a n) d = a.
Proof. intros H. rewrite (nth_indep _ d a) by (rewrite repeat_length; auto). apply nth_repeat. Qed.
Lemma nth_repeat_nil {A} (x : A) n k d : nth k (repeat x n) d = x \/ nth k (repeat x n) d = d.
Proof. destruct (Nat.lt_ge_cases k n); [left; apply nth_repeat_lt; auto|right; apply nth_overflow; rewrite repeat_length; auto]. Qed.

Section Pass.
Variables (pr : prog) (bands : list band).
Hypothesis W : wf_levels pr.
Hypothesis PL : plain_levels pr.
Hypothesis D : disjoint_bands bands.
Hypothesis F : Forall (wf_band pr) bands.
Let q := tile_scattering_dims pr bands.
Let H := length (p_hprops pr).
Let n := length (p_stmts pr).
Let bof := band_of bands.

Lemma ps_len : length (p_stmts q) = n.
Proof. apply (scattering_tiled pr bands (proj1 W) D F). Qed.
Lemma ps_npar : p_npar q = p_npar pr.
Proof. apply (scattering_tiled pr bands (proj1 W) D F). Qed.
Lemma ps_wf : wf_levels q.
Proof. apply scattering_levels; auto. Qed.

Lemma ps_TO s : (s < n)%nat -> types_ok (stmt_of pr s).
Proof. intros Hs. apply PL; auto. Qed.

Lemma ps_band s : in_band (bof s) s = true -> In (bof s) bands /\ wf_band pr (bof s) /\ (b_first (bof s) + length (b_sizes (bof s)) <= H)%nat /\ (s < n)%nat.
Proof.
  intros E. destruct (band_of_cases bands s) as [[C _]|[C _]]; fold (bof s) in C.
  - split; auto. pose proof (proj1 (Forall_forall _ _) F _ C) as WB. split; auto. destruct WB as (_ & _ & X).
    destruct (X s (in_band_In _ _ E)) as [A B]. split; [|exact A]. rewrite (proj2 W) in B; auto.
  - rewrite C in E. discriminate.
Qed.

Lemma ps_fold_types s : (s < n)%nat -> types_ok (stmt_of (fold_left tile_band bands pr) s).
Proof.
  intros Hs. apply (fold_types bands pr (proj1 W) D F ps_TO). destruct (tile_bands_tiled bands pr (proj1 W) D F) as (_ & A & _). rewrite A. auto.
Qed.

(** Rows after padding. *)
Lemma ps_pad s : (s < n)%nat -> let st := stmt_of (fold_left tile_band bands pr) s in
  s_dim (stmt_of q s) = s_dim st /\ types_ok (stmt_of q s) /\
  exists z m, mrows (s_trans (stmt_of q s)) = mrows (s_trans st) ++ repeat (repeat 0 z) m.
Proof.
  intros Hs. destruct (tile_bands_tiled bands pr (proj1 W) D F) as (A1 & A2 & _). destruct (scatter_padded _ A1) as [(P1 & P2 & P3 & P4 & P5) _].
  destruct (P4 s ltac:(rewrite A2; exact Hs)) as (Q1 & _ & _ & _ & _ & _ & Q7 & _). unfold q, tile_scattering_dims. cbv zeta in *.
  set (g := fold_left tile_band bands pr) in *. split; auto. split; auto.
  destruct (sink_all_eq g) as (_ & _ & _ & E).
  unfold stmt_of, detect_types_stmtwise, detect_types. cbn [p_stmts set_stmts set_hprops]. rewrite E, map_map.
  match goal with |- context [nth s (map ?h0 (p_stmts g)) dummy_stmt] => set (h := h0) end.
  rewrite (nth_indep _ dummy_stmt (h dummy_stmt)) by (rewrite map_length; lia). rewrite (List.map_nth h). unfold h. cbn [s_trans set_hyp].
  set (st := nth s (p_stmts g) dummy_stmt). set (k := (_ - _)%nat). destruct (sink_iter k st) as (_ & _ & _ & _ & _ & _ & R & _). eauto.
Qed.

Lemma ps_fold_rows s : (s < n)%nat -> let st := stmt_of (fold_left tile_band bands pr) s in
  mnrows (s_trans st) = (H + if in_band (bof s) s then length (b_sizes (bof s)) else 0)%nat.
Proof.
  intros Hs. cbv zeta. destruct (tile_bands_tiled bands pr (proj1 W) D F) as (_ & A2 & A3 & A4 & _). destruct (A4 s Hs) as (_ & _ & B).
  destruct (B (repeat 0 (s_dim (stmt_of pr s))) (repeat 0 (p_npar pr))) as [T _]; [apply repeat_length..|].
  apply (f_equal (@length Z)) in T. rewrite timestamp_length in T. rewrite T. fold (bof s). unfold tile_stamp.
  destruct (in_band (bof s) s) eqn:E.
  - destruct (ps_band s E) as (_ & _ & X & _).
    rewrite !app_length, firstn_length, skipn_length, tile_times_length, timestamp_len by (auto; exact Hs). fold H. lia.
  - rewrite timestamp_len by (auto; exact Hs). fold H. lia.
Qed.

(** Kind of a level. *)
Lemma ps_loop s k : (s < n)%nat -> (k < length (p_hprops q))%nat ->
  loop_level (stmt_of q s) k = if (base (bof s) s k <? H)%nat then loop_level (stmt_of pr s) (base (bof s) s k) else false.
Proof.
  intros Hs Hk. destruct (ps_pad s Hs) as (P1 & P2 & z & m & P3). pose proof (ps_fold_rows s Hs) as FR. cbv zeta in *.
  set (st := stmt_of (fold_left tile_band bands pr) s) in *.
  assert (k < mnrows (s_trans (stmt_of q s)))%nat as Hk' by (rewrite (proj2 ps_wf) by (rewrite ps_len; auto); auto).
  assert (mnrows (s_trans st) <= k -> loop_level (stmt_of q s) k = false)%nat as PAD.
  { intros X. apply (P2 k Hk'). intros j Hj. rewrite P3, app_nth2 by (unfold mnrows in X; lia).
    destruct (nth_repeat_nil (repeat 0 z) m (k - length (mrows (s_trans st)))%nat []) as [-> | ->]; [|destruct j; auto].
    destruct (nth_repeat_nil 0 z j 0) as [-> | ->]; auto. }
  unfold base. destruct (in_band (bof s) s) eqn:E.
  - destruct (ps_band s E) as (B1 & B2 & B3 & _). destruct (Nat.ltb_spec k (b_first (bof s) + length (b_sizes (bof s)))) as [X|X].
    + rewrite (proj2 (Nat.ltb_lt k H)) by lia. apply (two_loop pr bands (proj1 W) D F ps_TO s k Hs E X).
    + destruct (Nat.ltb_spec (k - length (b_sizes (bof s))) H) as [Y|Y]; [|apply PAD; lia].
      destruct (fold_one bands pr (bof s) s (proj1 W) D F B1 E) as (pr1 & Q1 & Q2 & Q3 & Q4 & Q5 & Q6).
      assert (s < length (p_stmts pr1))%nat as Hs1 by (rewrite Q3; exact Hs).
      destruct (tile_band_types pr1 (bof s) Q1 Q2 s Hs1) as (_ & _ & _ & _ & RW). cbv beta in RW. rewrite E in RW. fold st in Q6. rewrite <- Q6, Q5 in RW.
      assert (mnrows (s_trans (stmt_of pr s)) = H) as RH by (apply W; auto).
      specialize (RW (k - length (b_sizes (bof s)))%nat ltac:(lia)).
      replace (k - length (b_sizes (bof s)) + length (b_sizes (bof s)))%nat with k in RW by lia.
      destruct (tile_band_tiled pr1 (bof s) Q1 Q2) as [_ (_ & _ & _ & _ & T5 & _)]. destruct (T5 s Hs1 E) as (SD & _). rewrite <- Q6, Q5 in SD.
      pose proof (ps_TO s Hs (k - length (b_sizes (bof s)))%nat ltac:(lia)) as T0. pose proof (P2 k Hk') as T1.
      rewrite P3, app_nth1 in T1 by (unfold mnrows in FR; lia). rewrite RW, P1, SD in T1. unfold nl in T1. rewrite E, Q5, firstn_all in T1.
      set (nn := num_loops _ _ _) in *. set (r := nth (k - _) _ []) in *.
      apply Bool.eq_true_iff_eq. rewrite <- !Bool.not_false_iff_true, T0, T1.
      enough ((forall j, (j < nn + s_dim (stmt_of pr s))%nat -> nth j (repeat 0 nn ++ r) 0 = 0) <-> (forall j, (j < s_dim (stmt_of pr s))%nat -> nth j r 0 = 0)) as K by tauto.
      split.
      * intros Z j Hj. specialize (Z (nn + j)%nat ltac:(lia)). rewrite app_nth2, repeat_length in Z by (rewrite repeat_length; lia).
        replace (nn + j - nn)%nat with j in Z by lia. auto.
      * intros Z j Hj. destruct (Nat.lt_ge_cases j nn) as [J|J].
        -- rewrite app_nth1 by (rewrite repeat_length; auto). apply nth_repeat_lt. auto.
        -- rewrite app_nth2, repeat_length by (rewrite repeat_length; auto). apply Z. lia.
  - assert (st = stmt_of pr s) as ES.
    { apply fold_other; auto; [apply W|]. intros b Hb. destruct (in_band b s) eqn:Q; auto. unfold bof in E.
      rewrite (band_of_in bands b s D Hb Q) in E. congruence. }
    destruct (Nat.ltb_spec k H) as [Y|Y]; [|apply PAD; lia].
    pose proof (P2 k Hk') as T1. rewrite P3, P1, app_nth1, ES in T1 by (unfold mnrows in FR; lia).
    pose proof (ps_TO s Hs k) as T0. rewrite (proj2 W s Hs) in T0. specialize (T0 Y).
    apply Bool.eq_true_iff_eq. rewrite <- !Bool.not_false_iff_true, T0, T1. tauto.
Qed.

(** Times. *)
Lemma ps_time s k i p : (s < n)%nat -> (k < length (p_hprops q))%nat -> length i = s_dim (stmt_of pr s) -> length p = p_npar pr ->
  theta (stmt_of q s) k (tile_point pr (bof s) s i p) p =
  if (base (bof s) s k <? H)%nat then
    (if in_band (bof s) s && (b_first (bof s) <=? k)%nat && (k <? b_first (bof s) + length (b_sizes (bof s)))%nat
     then tile_time (stmt_of pr s) k (nth (k - b_first (bof s)) (b_sizes (bof s)) 0) i p
     else theta (stmt_of pr s) (base (bof s) s k) i p)
  else 0.
Proof.
  intros Hs Hk Li Lp. destruct (scattering_tiled pr bands (proj1 W) D F) as [_ (A1 & A2 & A3 & A4 & A5)]. destruct (A4 s Hs) as (_ & _ & m & B).
  destruct (B i p Li Lp) as [T _]. fold q in T. fold (bof s) in T.
  rewrite <- (timestamp_at q s k) by (auto using ps_wf; rewrite ps_len; auto). rewrite T.
  pose proof (timestamp_len pr s i p W Hs) as LT. fold H in LT.
  assert (forall a, nth a (timestamp (stmt_of pr s) i p) 0 = if (a <? H)%nat then theta (stmt_of pr s) a i p else 0) as TA.
  { intros a. destruct (Nat.ltb_spec a H); [apply timestamp_at; auto|apply nth_overflow; lia]. }
  assert (forall l a, nth a (l ++ repeat 0 m) 0 = nth a l 0) as PZ.
  { intros l a. destruct (Nat.lt_ge_cases a (length l)); [apply app_nth1; auto|]. rewrite app_nth2, (nth_overflow l) by auto.
    destruct (nth_repeat_nil 0 m (a - length l)%nat 0) as [-> | ->]; auto. }
  rewrite PZ. unfold tile_stamp, base. destruct (in_band (bof s) s) eqn:E; cbn [andb]; [|rewrite TA; auto].
  destruct (ps_band s E) as (_ & _ & B3 & _).
  set (f := b_first (bof s)) in *. set (sz := b_sizes (bof s)) in *.
  destruct (Nat.leb_spec f k) as [X|X]; cbn [andb].
  - rewrite app_nth2 by (rewrite firstn_length; lia). rewrite firstn_length, Nat.min_l by lia.
    destruct (Nat.ltb_spec k (f + length sz)) as [Y|Y].
    + rewrite app_nth1 by (rewrite tile_times_length; lia). rewrite nth_tile_times by lia. rewrite (proj2 (Nat.ltb_lt k H)) by lia.
      replace (f + (k - f))%nat with k by lia. auto.
    + rewrite app_nth2, tile_times_length by (rewrite tile_times_length; lia). rewrite nth_skipn_add. replace (f + (k - f - length sz))%nat with (k - length sz)%nat by lia.
      apply TA.
  - rewrite app_nth1 by (rewrite firstn_length; lia). rewrite nth_firstn_lt by auto. rewrite (proj2 (Nat.ltb_lt k (f + length sz))) by lia. apply TA.
Qed.

Lemma ps_point_length s i p : (s < n)%nat -> length i = s_dim (stmt_of pr s) -> length p = p_npar pr ->
  length (tile_point pr (bof s) s i p) = s_dim (stmt_of q s).
Proof.
  intros Hs Li Lp. destruct (scattering_tiled pr bands (proj1 W) D F) as [_ (A1 & A2 & A3 & A4 & A5)]. destruct (A4 s Hs) as (SD & _). fold q in SD. fold (bof s) in SD.
  rewrite SD. unfold tile_point. destruct (in_band (bof s) s) eqn:E.
  - rewrite app_length, tile_coords_length. lia.
  - destruct (band_of_cases bands s) as [[_ C]|[C _]]; fold (bof s) in C; [congruence|]. rewrite C. cbn. auto.
Qed.

(** The value of a level that is no loop. *)
Lemma ps_value s k x p : (s < n)%nat -> (k < length (p_hprops q))%nat -> loop_level (stmt_of q s) k = false ->
  length x = s_dim (stmt_of q s) -> length p = p_npar pr ->
  theta (stmt_of q s) k x p = if (base (bof s) s k <? H)%nat then row_const (stmt_of pr s) (base (bof s) s k) else 0.
Proof.
  intros Hs Hk L Lx Lp. set (i := repeat 0 (s_dim (stmt_of pr s))). assert (length i = s_dim (stmt_of pr s)) as Li by apply repeat_length.
  destruct (ps_pad s Hs) as (_ & TQ & _).
  assert (k < mnrows (s_trans (stmt_of q s)))%nat as Hk' by (rewrite (proj2 ps_wf) by (rewrite ps_len; auto); auto).
  assert (theta (stmt_of q s) k x p = theta (stmt_of q s) k (tile_point pr (bof s) s i p) p) as ->.
  { pose proof (ps_point_length s i p Hs Li Lp) as LQ. pose proof (proj1 (TQ k Hk') L) as Z. revert Lx LQ Z. generalize (tile_point pr (bof s) s i p) as y.
    generalize (s_dim (stmt_of q s)) as m. unfold theta. generalize (nth k (mrows (s_trans (stmt_of q s))) []) as r. unfold aff. clear.
    intros r m. revert x r. induction m as [|m IH]; intros x r y Lx Ly Z.
    - destruct x, y; try discriminate. auto.
    - destruct x as [|x0 x], y as [|y0 y]; try discriminate. destruct r as [|r0 r]; auto. cbn [app dot].
      pose proof (Z 0%nat ltac:(lia)) as Z0. cbn in Z0. subst r0. f_equal. apply IH; [simpl in Lx; lia|simpl in Ly; lia|]. intros j Hj. apply (Z (S j)). lia. }
  rewrite ps_time by auto. rewrite ps_loop in L by auto. destruct (Nat.ltb_spec (base (bof s) s k) H) as [X|X]; auto.
  assert (theta (stmt_of pr s) (base (bof s) s k) i p = row_const (stmt_of pr s) (base (bof s) s k)) as C by (apply (const_value pr W PL); auto).
  destruct (in_band (bof s) s) eqn:E; cbn [andb]; auto. destruct (Nat.leb_spec (b_first (bof s)) k); cbn [andb]; auto.
  destruct (Nat.ltb_spec k (b_first (bof s) + length (b_sizes (bof s)))) as [Y|Y]; auto. unfold tile_time.
  assert (base (bof s) s k = k) as EB by (unfold base; rewrite E, (proj2 (Nat.ltb_lt _ _) Y); auto). rewrite EB in *. rewrite L. auto.
Qed.

Lemma ps_plain : plain_levels q.
Proof.
  intros s Hs. rewrite ps_len in Hs. destruct (ps_pad s Hs) as (_ & TQ & _). split; auto. intros k Hk L i i' p p' Li Li' Lp Lp'. rewrite ps_npar in *.
  rewrite !ps_value; auto.
Qed.
Lemma ps_const s k : (s < n)%nat -> (k < length (p_hprops q))%nat -> loop_level (stmt_of q s) k = false ->
  row_const (stmt_of q s) k = if (base (bof s) s k <? H)%nat then row_const (stmt_of pr s) (base (bof s) s k) else 0.
Proof.
  intros Hs Hk L. set (i := repeat 0 (s_dim (stmt_of q s))). set (p := repeat 0 (p_npar q)).
  assert (length i = s_dim (stmt_of q s)) as Li by apply repeat_length. assert (length p = p_npar q) as Lp by apply repeat_length.
  rewrite <- (const_value q ps_wf ps_plain s k i p); auto; [|rewrite ps_len; auto]. rewrite ps_npar in Lp. apply ps_value; auto.
Qed.
End Pass.
