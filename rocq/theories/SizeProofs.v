(** * Proofs about the choice of tile sizes. *)
From Coq Require Import ZArith QArith List Bool Lia Arith.
From Verif Require Import SpecLinear MathModel SpecProg SpecTile ProgModel TileModel LoopModel TileSizeModel VecProofs MatrixProofs
  LoopProofs.
Import ListNotations.
Open Scope Z_scope.

Lemma u32_small x : 0 <= x < 2 ^ 32 -> u32 x = x.
Proof. intros. unfold u32. apply Z.mod_small; auto. Qed.

(** ** Rounding *)
Lemma nearest_multiple_spec num f r :
  1 <= f <= 2 ^ 31 -> f <= num -> num + f < 2 ^ 32 -> nearest_multiple num f = Some r ->
  (exists k, 1 <= k /\ r = k * f) /\ num - f < r < num + f /\ forall k, 1 <= k -> Z.abs (r - num) <= Z.abs (k * f - num).
Proof.
  intros Hf Hn Hb. unfold nearest_multiple. replace (f =? 0) with false by (symmetry; apply Z.eqb_neq; lia).
  destruct (Z.eqb_spec f 1) as [->|F1]; [intros [= <-]|].
  { split; [exists num; lia|]. split; [lia|]. intros. rewrite Z.sub_diag. simpl. lia. }
  pose proof (Z.div_mod num f ltac:(lia)) as DM. pose proof (Z.mod_pos_bound num f ltac:(lia)) as MB.
  assert (1 <= num / f) as D1 by (apply Z.div_le_lower_bound; lia).
  assert (forall k, 1 <= k -> exists j, k * f - num = j * f - num mod f) as E.
  { intros k _. exists (k - num / f). rewrite DM at 1. ring. }
  assert (forall j, Z.min (num mod f) (f - num mod f) <= Z.abs (j * f - num mod f)) as MIN.
  { intros j. destruct (Z.le_gt_cases j 0).
    - assert (j * f <= 0) by (apply Z.mul_nonpos_nonneg; lia). lia.
    - assert (1 * f <= j * f) by (apply Z.mul_le_mono_nonneg_r; lia). lia. }
  destruct (Z.eqb_spec (num mod f) 0) as [R0|R0].
  { intros [= <-]. split; [exists (num / f); lia|]. split; [lia|]. intros. rewrite Z.sub_diag. simpl. lia. }
  rewrite (u32_small (2 * (num mod f))) by lia. rewrite (u32_small (num - num mod f)) by lia.
  destruct (Z.ltb_spec (2 * (num mod f)) f); intros [= <-].
  - split; [exists (num / f); lia|]. split; [lia|]. intros k Hk. destruct (E k Hk) as [j ->]. pose proof (MIN j). lia.
  - rewrite u32_small by lia. split; [exists (num / f + 1); lia|]. split; [lia|].
    intros k Hk. destruct (E k Hk) as [j ->]. pose proof (MIN j). lia.
Qed.

Lemma round_spec num f r :
  1 <= f <= 2 ^ 31 -> 0 <= num -> num + f < 2 ^ 32 -> round_tile_size num f = Some r ->
  (exists k, 1 <= k /\ r = k * f) /\ f <= r < num + f + 1 /\ forall k, 1 <= k -> Z.abs (r - num) <= Z.abs (k * f - num).
Proof.
  intros Hf Hn Hb. unfold round_tile_size. destruct (Z.ltb_spec num f).
  - intros [= <-]. split; [exists 1; lia|]. split; [lia|]. intros k Hk.
    assert (1 * f <= k * f) by (apply Z.mul_le_mono_nonneg_r; lia). lia.
  - intros E. destruct (nearest_multiple_spec num f r) as ((k & K1 & ->) & B & M); auto. split; [eauto|]. split; [|auto].
    assert (1 * f <= k * f) by (apply Z.mul_le_mono_nonneg_r; lia). lia.
Qed.

Lemma round_defined num f : f <> 0 -> round_tile_size num f <> None.
Proof.
  intros. unfold round_tile_size, nearest_multiple. destruct (num <? f); [discriminate|].
  destruct (Z.eqb_spec f 0); [congruence|]. destruct (f =? 1); [discriminate|]. cbv zeta.
  destruct (_ =? 0); [discriminate|]. destruct (_ <? f); discriminate.
Qed.

(** ** The model of tile sizes *)
Lemma all_some_spec {A} (l : list (option A)) r : all_some l = Some r -> l = map Some r.
Proof.
  revert r; induction l as [|[a|] l IH]; simpl; intros r E; try discriminate.
  - injection E as <-. reflexivity.
  - destruct (all_some l); [|discriminate]. injection E as <-. simpl. f_equal. auto.
Qed.
Lemma all_some_defined {A} (l : list (option A)) : (forall x, In x l -> x <> None) -> all_some l <> None.
Proof.
  induction l as [|[a|] l IH]; simpl; intros H; try discriminate.
  - destruct (all_some l); simpl; [discriminate|]. exfalso. apply IH; auto.
  - intros _. apply (H None); auto.
Qed.

Definition good_size (ufactor T : Z) : Prop :=
  1 <= T < 2 ^ 31 /\ (T = 32 \/ T = 512 \/ T = 42 \/ exists k, 1 <= k /\ T = k * ufactor).

Section Conv.
Variable conv : Q -> Z.
Hypothesis CV : forall q, 0 <= conv q < 2 ^ 30.
Variable ufactor : Z.
Hypothesis UF : 1 <= ufactor <= 2 ^ 30.

Lemma round_good q r : round_tile_size (conv q) ufactor = Some r -> good_size ufactor r.
Proof.
  intros E. pose proof (CV q). apply round_spec in E as (M & B & _); try lia. split; [lia|]. auto.
Qed.

Lemma infer_good reuse vdim par pipe root l :
  infer_tile_sizes conv reuse vdim par pipe ufactor root = Some l ->
  length l = length reuse /\ Forall (good_size ufactor) l.
Proof.
  unfold infer_tile_sizes. cbv zeta. destruct (_ <=? _)%nat; [discriminate|].
  destruct (round_tile_size _ _) as [ms|] eqn:R; [|discriminate]. intros E. apply all_some_spec in E.
  split.
  - apply (f_equal (@length _)) in E. rewrite !map_length, seq_length in E. auto.
  - apply Forall_forall. intros T HT.
    assert (In (Some T) (map Some l)) as H by (apply in_map; auto). rewrite <- E in H. apply in_map_iff in H as (i & H & _).
    repeat match goal with H : (if ?c then _ else _) = _ |- _ => destruct c end;
      try (injection H as <-; split; [lia|auto]).
    + injection H as <-. eapply round_good; eauto.
    + eapply round_good; eauto.
Qed.

Lemma dim_reuse_length lr first loops : forall arr r, dimensional_reuse lr first loops arr = Some r -> length r = length arr.
Proof.
  induction loops as [|lp l IH]; simpl; intros arr r E; [congruence|]. destruct (_ <? _)%nat; [|discriminate].
  rewrite (IH _ _ E). apply set_nth_length.
Qed.
Lemma dim_reuse_defined lr first loops : forall arr,
  (forall lp, In lp loops -> (l_depth lp - first < length arr)%nat) -> dimensional_reuse lr first loops arr <> None.
Proof.
  induction loops as [|lp l IH]; simpl; intros arr H; [discriminate|].
  rewrite (proj2 (Nat.ltb_lt _ _)) by auto. apply IH. intros lp' H'. rewrite set_nth_length. auto.
Qed.
Lemma vec_length d best : forall vec r, vectorizable_dims d best vec = Some r -> length r = length vec.
Proof.
  induction best as [|k l IH]; simpl; intros vec r E; [congruence|]. destruct (_ || _); [auto|].
  destruct (_ <? _)%nat; [|discriminate]. rewrite (IH _ _ E). apply set_nth_length.
Qed.
Lemma vec_defined d best : forall vec, (forall k, In k best -> (k < length vec)%nat) -> vectorizable_dims d best vec <> None.
Proof.
  induction best as [|k l IH]; simpl; intros vec H; [discriminate|]. destruct (_ || _); [apply IH; auto|].
  rewrite (proj2 (Nat.ltb_lt _ _)) by auto. apply IH. intros. rewrite set_nth_length. auto.
Qed.

Lemma find_band_good pr diamond best lr root b l :
  find_tile_sizes_band conv pr diamond best lr ufactor root b = Some l -> Forall (good_size ufactor) l.
Proof.
  unfold find_tile_sizes_band. destruct (_ =? 1)%nat.
  { intros [= <-]. constructor; auto. split; [lia|auto]. }
  destruct (vectorizable_dims _ _ _) as [vec|] eqn:V; [|discriminate]. cbv zeta.
  destruct (_ <=? _)%nat; [discriminate|]. destruct (_ && _).
  { intros [= <-]. repeat constructor; auto; lia. }
  destruct (dimensional_reuse _ _ _ _) as [reuse|] eqn:DR; [|discriminate].
  destruct (Qeq_bool _ _).
  - intros [= <-]. apply Forall_forall. intros T H. apply in_map_iff in H as (i & <- & _). destruct (nth i _ _); split; auto; lia.
  - intros E. eapply infer_good; eauto.
Qed.

Lemma find_sizes_good pr diamond best lr root b l :
  find_tile_sizes conv pr diamond best lr ufactor root b = Some l ->
  length l = pb_width b /\ Forall (good_size ufactor) l.
Proof.
  unfold find_tile_sizes. destruct (find_tile_sizes_band _ _ _ _ _ _ _ _) as [l0|] eqn:E; [|discriminate].
  destruct (Nat.eqb_spec (length l0) (pb_width b)) as [L|]; [|discriminate]. intros [= <-].
  split; [rewrite map_length, seq_length; auto|]. apply find_band_good in E. rewrite Forall_forall in E.
  apply Forall_forall. intros T H. apply in_map_iff in H as (i & <- & Hi). apply in_seq in Hi.
  destruct (is_loop_of_band _ _ _). apply E. apply nth_In. lia. split; [lia|auto].
Qed.
End Conv.

Lemma qmax_in l : l <> [] -> In (qmax_list l) l.
Proof.
  destruct l as [|a l]; [congruence|]. intros _. unfold qmax_list. cbn [hd].
  assert (forall l m k, In m k -> (forall x, In x l -> In x k) -> In (fold_left (fun m a => if Qlt_b m a then a else m) l m) k) as K.
  { induction l0 as [|b l0 IH]; cbn [fold_left]; intros m k Hm Hl; auto. apply IH; [|intros; apply Hl; simpl; auto].
    destruct (Qlt_b m b); auto. apply Hl; simpl; auto. }
  apply K; simpl; auto.
Qed.
Lemma min_in l v : l <> [] -> In (min_dim_reuse l v) l.
Proof.
  intros N. unfold min_dim_reuse.
  assert (forall l m k, In m k -> (forall x, In x l -> In x k) ->
    In (fold_left (fun m a => if Qlt_b 0 a && (v =? 0)%nat && Qlt_b a m then a else m) l m) k) as K.
  { induction l0 as [|b l0 IH]; cbn [fold_left]; intros m k Hm Hl; auto. apply IH; [|intros; apply Hl; simpl; auto].
    destruct (_ && _); auto. apply Hl; simpl; auto. }
  apply K; auto. apply qmax_in; auto.
Qed.
Lemma find_pos_lt q l : In q l -> (find_pos q l < length l)%nat.
Proof.
  induction l as [|a l IH]; simpl; [tauto|]. destruct (Qeq_bool a q) eqn:E; [lia|]. intros [->|H].
  - rewrite Qeq_bool_refl in E. discriminate.
  - apply IH in H. lia.
Qed.
Lemma min_reuse_dim_lt l v p : l <> [] -> (min_reuse_dim l v p < length l)%nat.
Proof.
  intros N. unfold min_reuse_dim. cbv zeta. pose proof (find_pos_lt _ _ (min_in l v N)).
  destruct (_ || _); auto. destruct (find _ _) as [i|] eqn:F; auto. apply find_some in F as [F _]. apply in_seq in F. lia.
Qed.

Lemma infer_defined conv reuse vdim par pipe ufactor root : ufactor <> 0 -> reuse <> [] ->
  infer_tile_sizes conv reuse vdim par pipe ufactor root <> None.
Proof.
  intros U N. unfold infer_tile_sizes. cbv zeta. pose proof (min_reuse_dim_lt reuse vdim par N) as L.
  rewrite (proj2 (Nat.leb_gt _ _)) by lia. destruct (round_tile_size _ _) as [ms|] eqn:R; [|exfalso; eapply round_defined; eauto].
  apply all_some_defined. intros x H. apply in_map_iff in H as (i & <- & _).
  repeat match goal with |- (if ?c then _ else _) <> _ => destruct c end; try discriminate. apply round_defined; auto.
Qed.

Lemma find_sizes_defined conv pr diamond best lr ufactor root b :
  ufactor <> 0 -> (1 <= pb_width b)%nat ->
  (forall k, In k best -> (k < pb_width b)%nat) ->
  (forall lp, In lp (get_loops_under pr (l_stmts (pb_loop b)) (l_depth (pb_loop b))) ->
     (l_depth lp < l_depth (pb_loop b) + pb_width b)%nat) ->
  (exists lp, In lp (get_loops_under pr (l_stmts (pb_loop b)) (l_depth (pb_loop b))) /\
     forall s, In s (l_stmts lp) -> loop_is_parallel_for_stmt pr lp s = true) ->
  (forall v, (0 <= conv v < 2 ^ 30)) -> 1 <= ufactor <= 2 ^ 30 ->
  find_tile_sizes conv pr diamond best lr ufactor root b <> None.
Proof.
  intros U Wd HB HL (lp & Hlp & HP) CV UF. unfold find_tile_sizes.
  assert (exists l, find_tile_sizes_band conv pr diamond best lr ufactor root b = Some l /\ length l = pb_width b) as (l & -> & L).
  2: { rewrite L, Nat.eqb_refl. discriminate. }
  unfold find_tile_sizes_band. destruct (Nat.eqb_spec (pb_width b) 1) as [->|W1]; [eexists; split; reflexivity|].
  destruct (vectorizable_dims _ _ _) as [vec|] eqn:V.
  2: { exfalso. eapply vec_defined; [|exact V]. intros. rewrite repeat_length. auto. }
  cbv zeta. pose proof (vec_length _ _ _ _ V) as VL. rewrite repeat_length in VL.
  assert (par_loop_depth pr b < pb_width b)%nat as PL.
  { unfold par_loop_depth. set (ls := get_loops_under _ _ _) in *. clearbody ls.
    assert (forall ls v, (forall lp, In lp ls -> (l_depth lp < l_depth (pb_loop b) + pb_width b)%nat) ->
      (v < pb_width b)%nat \/ (exists lp, In lp ls /\ forall s, In s (l_stmts lp) -> loop_is_parallel_for_stmt pr lp s = true) ->
      (fold_left (fun v lp => if forallb (loop_is_parallel_for_stmt pr lp) (l_stmts lp)
                              then (l_depth lp - l_depth (pb_loop b))%nat else v) ls v < pb_width b)%nat) as K.
    { clear - Wd. induction ls as [|a ls IH]; cbn [fold_left]; intros v HL H.
      - destruct H as [|(? & [] & _)]; auto.
      - apply IH; [intros; apply HL; simpl; auto|]. destruct (forallb _ _) eqn:F.
        + left. specialize (HL a (or_introl eq_refl)). lia.
        + destruct H as [|(lp & [<-|H] & P)]; auto.
          * exfalso. rewrite (proj2 (forallb_forall _ _)) in F; [discriminate|auto].
          * right; eauto. }
    apply K; eauto. }
  rewrite (proj2 (Nat.leb_gt _ _)) by lia. destruct (_ && (pb_width b =? 2)%nat) eqn:E2.
  { apply andb_prop in E2 as [_ E2]. apply Nat.eqb_eq in E2. rewrite E2. eexists; split; reflexivity. }
  destruct (dimensional_reuse _ _ _ _) as [reuse|] eqn:DR.
  2: { exfalso. eapply dim_reuse_defined; [|exact DR]. intros lp' H'. rewrite repeat_length. specialize (HL lp' H'). lia. }
  apply dim_reuse_length in DR. rewrite repeat_length in DR. destruct (Qeq_bool _ _).
  { eexists; split; [reflexivity|]. unfold zero_reuse_sizes. rewrite map_length, seq_length. auto. }
  destruct (infer_tile_sizes _ _ _ _ _ _ _) as [l|] eqn:I.
  - exists l. split; auto. apply infer_good in I as [-> _]; auto. destruct diamond; [rewrite set_nth_length|]; auto.
  - exfalso. eapply infer_defined; [exact U| |exact I]. intros N. apply (f_equal (@length _)) in N.
    destruct diamond; [rewrite set_nth_length in N|]; simpl in N; lia.
Qed.

(** ** Sizes from the file *)

(** Number of loops before level [i]. *)
Definition loops_before (is_loop : nat -> bool) (i : nat) : nat := length (filter is_loop (seq 0 i)).
Lemma loops_before_S is_loop i : loops_before is_loop (S i) = (loops_before is_loop i + (if is_loop i then 1 else 0))%nat.
Proof. unfold loops_before. rewrite seq_S, filter_app, app_length. cbn. destruct (is_loop i); auto. Qed.

Lemma scan_spec nl nums old : fst (scan nl (nums, false) old) = nth 0 nums old /\
  fst (snd (scan nl (nums, false) old)) = tl nums /\
  (snd (snd (scan nl (nums, false) old)) = true -> (length nums <= 1)%nat) /\
  (snd (snd (scan nl (nums, false) old)) = false -> nums <> []).
Proof. destruct nums as [|x [|y l]]; cbn; repeat split; auto; try discriminate; try lia. Qed.

Lemma nth_skipn' {A} k i (l : list A) d : nth i (skipn k l) d = nth (k + i) l d.
Proof. revert l; induction k; intros [|a l]; simpl; auto. destruct i; auto. Qed.
Lemma tl_skipn {A} k (l : list A) : tl (skipn k l) = skipn (S k) l.
Proof. revert l; induction k; intros [|a l]; simpl; auto. apply (IHk l). Qed.

Lemma read_first_spec nl is_loop nums old : forall n i arr st arr' st' i',
  length arr = length old -> (i + n <= length old)%nat ->
  fst st = skipn (loops_before is_loop i) nums ->
  (snd st = true -> (length nums <= loops_before is_loop i)%nat) ->
  (forall j, (j < i)%nat -> if is_loop j then nth j arr 0 = nth (loops_before is_loop j) nums (nth j old 0)
                            else nth j arr 0 = 42 \/ nth j arr 0 = nth j old 0) ->
  (forall j, (i <= j)%nat -> nth j arr 0 = nth j old 0) ->
  read_first nl is_loop n i arr st = (arr', st', i') ->
  length arr' = length old /\ (i <= i' <= i + n)%nat /\
  (i' < i + n -> (length nums <= loops_before is_loop i'))%nat /\
  fst st' = skipn (loops_before is_loop i') nums /\
  (snd st' = true -> (length nums <= loops_before is_loop i')%nat) /\
  (forall j, (j < i + n)%nat -> if is_loop j then nth j arr' 0 = nth (loops_before is_loop j) nums (nth j old 0)
                            else nth j arr' 0 = 42 \/ nth j arr' 0 = nth j old 0) /\
  (forall j, (i + n <= j)%nat -> nth j arr' 0 = nth j old 0).
Proof.
  induction n as [|n IH]; intros i arr st arr' st' i' L B F S A1 A2 E; cbn [read_first] in E.
  - injection E as <- <- <-. rewrite Nat.add_0_r. repeat split; auto; lia.
  - destruct st as [nums' eof]. cbn [fst snd] in F, S. subst nums'. cbn [snd] in E. destruct eof.
    + injection E as <- <- <-. specialize (S eq_refl). split; [auto|]. split; [lia|]. split; [auto|]. split; [auto|]. split; [auto|].
      split; [|intros; apply A2; lia]. intros j Hj. destruct (lt_dec j i); [apply A1; auto|]. rewrite A2 by lia.
      destruct (is_loop j); auto. rewrite (nth_overflow nums); auto. apply Nat.le_trans with (1 := S).
      clear - n0. assert (exists k, j = i + k)%nat as [k ->] by (exists (j - i)%nat; lia).
      induction k; [rewrite Nat.add_0_r; auto|]. rewrite Nat.add_succ_r, loops_before_S. lia.
    + destruct (is_loop i) eqn:LI.
      * destruct (scan nl _ _) as [v st1] eqn:SC.
        pose proof (scan_spec nl (skipn (loops_before is_loop i) nums) (nth i arr 0)) as (S1 & S2 & S3 & S4).
        rewrite SC in S1, S2, S3, S4. cbn [fst snd] in *.
        replace (i + Datatypes.S n)%nat with (Datatypes.S i + n)%nat by lia. replace (Nat.le i i') with (Nat.le i i') by auto.
        apply IH in E; clear IH.
        -- destruct E as (E1 & E2 & E3 & E4 & E5 & E6 & E7). split; [auto|]. split; [lia|]. split; [auto|]. split; auto.
        -- rewrite set_nth_length; auto.
        -- lia.
        -- rewrite S2, tl_skipn, loops_before_S, LI. f_equal. lia.
        -- intros Q. specialize (S3 Q). rewrite skipn_length in S3. rewrite loops_before_S, LI. lia.
        -- intros j Hj. destruct (Nat.eq_dec j i) as [->|N].
           ++ rewrite LI. rewrite nth_set_nth_eq by lia. rewrite S1, nth_skipn', Nat.add_0_r, A2 by lia. auto.
           ++ rewrite nth_set_nth_neq by auto. apply A1. lia.
        -- intros j Hj. rewrite nth_set_nth_neq by lia. apply A2. lia.
      * replace (i + Datatypes.S n)%nat with (Datatypes.S i + n)%nat by lia. apply IH in E; clear IH.
        -- destruct E as (E1 & E2 & E3 & E4 & E5 & E6 & E7). split; [auto|]. split; [lia|]. split; [auto|]. split; auto.
        -- rewrite set_nth_length; auto.
        -- lia.
        -- rewrite loops_before_S, LI, Nat.add_0_r. auto.
        -- discriminate.
        -- intros j Hj. destruct (Nat.eq_dec j i) as [->|N].
           ++ rewrite LI. rewrite nth_set_nth_eq by lia. auto.
           ++ rewrite nth_set_nth_neq by auto. apply A1. lia.
        -- intros j Hj. rewrite nth_set_nth_neq by lia. apply A2. lia.
Qed.

Lemma read_ratios_spec nl rest old : forall n i arr st arr' i',
  length arr = length old -> (i + n <= length old)%nat ->
  fst st = skipn i rest -> (snd st = true -> (length rest <= i)%nat) -> (snd st = false -> (i <= length rest)%nat) ->
  (forall j, (j < i)%nat -> nth j arr 0 = nth j rest (nth j old 0)) ->
  (forall j, (i <= j)%nat -> nth j arr 0 = nth j old 0) ->
  read_ratios nl n i arr st = (arr', i') ->
  length arr' = length old /\ (i <= i' <= i + n)%nat /\ (i' < i + n -> length rest <= i')%nat /\
  (i' = (i + n)%nat -> n <> 0%nat -> (i + n <= S (length rest))%nat) /\
  (forall j, (j < i')%nat -> nth j arr' 0 = nth j rest (nth j old 0)) /\
  (forall j, (i' <= j)%nat -> nth j arr' 0 = nth j old 0).
Proof.
  induction n as [|n IH]; intros i arr st arr' i' L B F S S' A1 A2 E; cbn [read_ratios] in E.
  - injection E as <- <-. repeat split; auto; try lia.
  - destruct st as [rest' eof]. cbn [fst snd] in F, S, S'. subst rest'. cbn [snd] in E. destruct eof.
    + injection E as <- <-. specialize (S eq_refl). repeat split; auto; lia.
    + destruct (scan nl _ _) as [v st1] eqn:SC.
      pose proof (scan_spec nl (skipn i rest) (nth i arr 0)) as (S1 & S2 & S3 & S4).
      rewrite SC in S1, S2, S3, S4. cbn [fst snd] in *.
      apply IH in E; clear IH.
      * destruct E as (E1 & E2 & E3 & E4 & E5 & E6). split; [auto|]. split; [lia|]. split; [intros; apply E3; lia|]. split; [|split; auto].
        intros Q _. destruct (Nat.eq_dec n 0) as [->|Hn]; [specialize (S' eq_refl); lia|]. specialize (E4 ltac:(lia) Hn). lia.
      * rewrite set_nth_length; auto.
      * lia.
      * rewrite S2, tl_skipn. auto.
      * intros Q. specialize (S3 Q). rewrite skipn_length in S3. lia.
      * intros Q. specialize (S4 Q). assert (length (skipn i rest) <> 0)%nat as K by (destruct (skipn i rest); simpl; congruence).
        rewrite skipn_length in K. lia.
      * intros j Hj. destruct (Nat.eq_dec j i) as [->|N].
        -- rewrite nth_set_nth_eq by lia. rewrite S1, nth_skipn', Nat.add_0_r, A2 by lia. auto.
        -- rewrite nth_set_nth_neq by auto. apply A1. lia.
      * intros j Hj. rewrite nth_set_nth_neq by lia. apply A2. lia.
Qed.

Lemma set_all_nth n v : forall a j, nth j (fold_left (fun a k => set_nth k v a) (seq 0 n) a) 0 =
  if (j <? n)%nat && (j <? length a)%nat then v else nth j a 0.
Proof.
  induction n; intros a j; [reflexivity|]. rewrite seq_S, fold_left_app. cbn [fold_left Nat.add].
  set (a' := fold_left _ (seq 0 n) a).
  assert (length a' = length a) as L by (unfold a'; clear; generalize (seq 0 n); intros l; revert a; induction l; cbn; intros; auto; rewrite IHl; apply set_nth_length).
  destruct (Nat.eq_dec j n) as [->|N].
  - destruct (lt_dec n (length a)).
    + rewrite nth_set_nth_eq by lia. rewrite !(proj2 (Nat.ltb_lt _ _)) by lia. auto.
    + rewrite !nth_overflow by (rewrite ?set_nth_length; lia). rewrite andb_comm, (proj2 (Nat.ltb_ge _ _)) by lia. reflexivity.
  - rewrite nth_set_nth_neq by auto. unfold a'. rewrite IHn.
    replace (j <? S n)%nat with (j <? n)%nat; auto. apply eq_iff_eq_true. rewrite !Nat.ltb_lt. lia.
Qed.
Lemma set_all_length n (v : Z) : forall a, length (fold_left (fun a k => set_nth k v a) (seq 0 n) a) = length a.
Proof. generalize (seq 0 n). intros l. induction l; cbn; intros; auto. rewrite IHl. apply set_nth_length. Qed.

Lemma read_tile_sizes_spec nums nl is_loop n sizes ratios s r :
  length ratios = length sizes -> (n <= length sizes)%nat ->
  read_tile_sizes (Some (nums, nl)) is_loop n sizes ratios = (s, r) ->
  length s = length sizes /\ length r = length sizes /\
  (forall j, (j < n)%nat -> is_loop j = true -> nth j s 0 = nth (loops_before is_loop j) nums (nth j sizes 0)) /\
  (forall j, (j < n)%nat -> is_loop j = false -> nth j s 0 = 42 \/ nth j s 0 = nth j sizes 0) /\
  (forall j, (n <= j)%nat -> nth j s 0 = nth j sizes 0) /\
  (forall j, nth j r 0 = 8 \/ nth j r 0 = nth j ratios 0 \/ In (nth j r 0) nums) /\
  ((loops_before is_loop n + n <= length nums)%nat -> forall j, (j < n)%nat -> nth j r 0 = nth (loops_before is_loop n + j) nums 0) /\
  ((loops_before is_loop n <= length nums)%nat -> (S (length nums) < loops_before is_loop n + n)%nat ->
     nl = true \/ (loops_before is_loop n < length nums)%nat -> forall j, (j < n)%nat -> nth j r 0 = 8).
Proof.
  intros LR Hn. unfold read_tile_sizes. destruct (read_first _ _ _ _ _ _) as [[s1 st] i] eqn:R1.
  pose proof (read_first_spec nl is_loop nums sizes n 0 sizes (nums, false) s1 st i eq_refl Hn eq_refl ltac:(discriminate)
    ltac:(intros; lia) ltac:(auto) R1) as (A1 & A2 & A3 & A4 & A5 & A6 & A7). cbn [Nat.add] in *.
  assert (P1 : forall j, (j < n)%nat -> is_loop j = true -> nth j s1 0 = nth (loops_before is_loop j) nums (nth j sizes 0)).
  { intros j Hj E. specialize (A6 j Hj). rewrite E in A6. auto. }
  assert (P2 : forall j, (j < n)%nat -> is_loop j = false -> nth j s1 0 = 42 \/ nth j s1 0 = nth j sizes 0).
  { intros j Hj E. specialize (A6 j Hj). rewrite E in A6. auto. }
  assert (MON : forall a b, (a <= b)%nat -> (loops_before is_loop a <= loops_before is_loop b)%nat).
  { intros a b Hab. induction Hab; auto. rewrite loops_before_S. lia. }
  destruct (Nat.ltb_spec i n) as [Hi|Hi].
  { intros [= <- <-]. specialize (A3 Hi). split; [auto|]. split; [auto|]. split; [auto|]. split; [auto|]. split; [auto|]. split; [auto|].
    pose proof (MON i n ltac:(lia)). split; [intros; lia|]. intros Q1 Q2 [->|Q3]; [|lia]. exfalso.
    assert (K : forall k i arr st, (snd st = true -> False) -> (fst st = [] -> True) -> (loops_before is_loop (i + k) <= loops_before is_loop i + length (fst st))%nat ->
      snd (read_first true is_loop k i arr st) = (i + k)%nat).
    { clear. induction k; intros i arr [l eof] H1 _ H2; cbn [read_first fst snd] in *; [lia|]. destruct eof; [exfalso; auto|].
      destruct (is_loop i) eqn:LI.
      - destruct l as [|x [|y l]]; cbn.
        + exfalso. cbn in H2. assert (loops_before is_loop (S i) <= loops_before is_loop (i + S k))%nat as Q.
          { clear. induction k; [rewrite Nat.add_1_r; auto|]. rewrite (Nat.add_succ_r i (S k)), (loops_before_S _ (i + S k)). lia. }
          rewrite loops_before_S, LI in Q. lia.
        + rewrite IHk; cbn [fst snd length] in *; try lia; auto. rewrite (loops_before_S is_loop i), LI. rewrite Nat.add_succ_r in H2. cbn [Nat.add]. lia.
        + rewrite IHk; cbn [fst snd length] in *; try lia; auto; try discriminate. rewrite (loops_before_S is_loop i), LI. rewrite Nat.add_succ_r in H2. cbn [Nat.add]. lia.
      - rewrite IHk; cbn [fst snd] in *; try lia; auto. rewrite (loops_before_S is_loop i), LI. rewrite Nat.add_succ_r in H2. cbn [Nat.add]. lia. }
    specialize (K n 0%nat sizes (nums, false) ltac:(discriminate) ltac:(auto) ltac:(cbn [Nat.add fst]; lia)). rewrite R1 in K. cbn in K. lia. }
  assert (i = n) by lia. subst i.
  destruct (read_ratios _ _ _ _ _) as [r1 i2] eqn:R2.
  set (L := loops_before is_loop n) in *.
  pose proof (read_ratios_spec nl (skipn L nums) ratios n 0 ratios st r1 i2 eq_refl ltac:(lia)) as RS.
  specialize (RS ltac:(rewrite A4; reflexivity) ltac:(intros Q; specialize (A5 Q); rewrite skipn_length; lia) ltac:(intros; lia)
    ltac:(intros; lia) ltac:(auto) R2). destruct RS as (B1 & B2 & B3 & B4 & B5 & B6). cbn [Nat.add] in *. rewrite skipn_length in B3, B4.
  intros [= <- <-]. split; [auto|]. split; [destruct (_ <? _)%nat; [rewrite set_all_length|]; congruence|].
  split; [auto|]. split; [auto|]. split; [auto|].
  assert (KEEP : forall j, nth j r1 0 = nth j ratios 0 \/ In (nth j r1 0) nums).
  { intros j. destruct (lt_dec j i2) as [Hj|Hj]; [|left; apply B6; lia]. rewrite B5 by auto. rewrite nth_skipn'.
    destruct (lt_dec (L + j) (length nums)); [right; apply nth_In; auto|left; apply nth_overflow; lia]. }
  split; [|split].
  - intros j. destruct (_ <? _)%nat; [|destruct (KEEP j); auto]. rewrite set_all_nth. destruct (_ && _); auto.
  - intros Q j Hj. destruct (Nat.ltb_spec i2 n); [specialize (B3 ltac:(lia)); lia|]. rewrite B5 by lia. rewrite nth_skipn'.
    apply nth_indep. lia.
  - intros Q1 Q2 _ j Hj. destruct (Nat.ltb_spec i2 n).
    + rewrite set_all_nth. rewrite !(proj2 (Nat.ltb_lt _ _)) by lia. auto.
    + specialize (B4 ltac:(lia) ltac:(lia)). lia.
Qed.

Lemma sizes_of_bands_spec pr file N : forall bands sizes ratios,
  length sizes = N -> length ratios = N -> (forall T, In T (sizes ++ ratios) -> 1 <= T) ->
  (forall nums nl, file = Some (nums, nl) -> forall T, In T nums -> 1 <= T) ->
  (forall b, In b bands -> (pb_width b <= N)%nat) ->
  map fst (sizes_of_bands pr file bands sizes ratios) = bands /\
  forall b s r, In (b, (s, r)) (sizes_of_bands pr file bands sizes ratios) ->
    length s = pb_width b /\ length r = pb_width b /\ (forall T, In T (s ++ r) -> 1 <= T).
Proof.
  induction bands as [|b bands IH]; intros sizes ratios L1 L2 P FP HW; cbn [sizes_of_bands]; [split; [reflexivity|intros ? ? ? []]|].
  destruct (read_tile_sizes _ _ _ _ _) as [s r] eqn:R.
  assert (length s = N /\ length r = N /\ forall T, In T (s ++ r) -> 1 <= T) as (A1 & A2 & A3).
  { destruct file as [[nums nl]|].
    - apply read_tile_sizes_spec in R as (R1 & R2 & R3 & R4 & R5 & R6 & _); [|congruence|rewrite L1; apply HW; simpl; auto].
      split; [congruence|]. split; [congruence|]. specialize (FP nums nl eq_refl).
      intros T HT. apply in_app_or in HT as [HT|HT]; apply (In_nth _ _ 0) in HT as (j & Hj & <-).
      + assert (1 <= nth j sizes 0) as O by (apply P, in_or_app; left; apply nth_In; lia).
        destruct (lt_dec j (pb_width b)) as [Hb|Hb]; [|rewrite R5 by lia; auto].
        destruct (is_loop_of_band pr b j) eqn:LB.
        * rewrite R3 by auto. set (k := loops_before _ _). destruct (lt_dec k (length nums)).
          apply FP. apply nth_In; auto. rewrite nth_overflow by lia. auto.
        * destruct (R4 j Hb LB) as [->| ->]; auto. lia.
      + assert (1 <= nth j ratios 0) as O by (apply P, in_or_app; right; apply nth_In; lia).
        destruct (R6 j) as [->|[->|H]]; auto. lia.
    - cbn in R. injection R as <- <-. auto. }
  destruct (IH s r A1 A2 A3 FP ltac:(intros; apply HW; simpl; auto)) as [I1 I2]. split; [cbn; f_equal; auto|].
  intros b' s' r' [E|H']; [|apply I2; auto]. injection E as <- <- <-.
  assert (pb_width b <= N)%nat by (apply HW; simpl; auto).
  split; [rewrite firstn_length; lia|]. split; [rewrite firstn_length; lia|]. intros T HT. apply A3.
  apply in_app_or in HT as [HT|HT]; apply in_or_app; [left|right].
  rewrite <- (firstn_skipn (pb_width b) s). apply in_or_app; auto.
  rewrite <- (firstn_skipn (pb_width b) r). apply in_or_app; auto.
Qed.

(** ** Number of hyperplanes after tiling *)
Lemma tile_step_hprops b pr s k n T : p_hprops (fst (tile_step b pr s k n T)) = p_hprops pr.
Proof. unfold tile_step. destruct (loop_level _ _); reflexivity. Qed.
Lemma tile_band_hprops b pr : p_hprops (tile_band pr b) = p_hprops pr.
Proof.
  unfold tile_band. assert (forall l a, p_hprops (fst (fold_left (tile_level b) l a)) = p_hprops (fst a)) as K; [|apply K].
  induction l as [|x l IH]; intros a; cbn [fold_left]; auto. rewrite IH. unfold tile_level.
  revert a. generalize (b_stmts b) as ss. induction ss as [|s ss IHs]; intros a; cbn [fold_left]; auto. rewrite IHs.
  destruct (tile_step _ _ _ _ _ _) as [q m] eqn:E. cbn [fst]. rewrite <- (tile_step_hprops b (fst a) s (fst x) (nth s (snd a) 0%nat) (snd x)), E. auto.
Qed.
Lemma scattering_hprops bs pr : (length (p_hprops pr) <= length (p_hprops (tile_scattering_dims pr bs)))%nat.
Proof.
  unfold tile_scattering_dims. cbn [detect_types_stmtwise detect_types set_stmts set_hprops p_hprops]. rewrite map_length, seq_length.
  assert (forall l q, p_hprops (fold_left tile_band l q) = p_hprops q) as K.
  { induction l; intros q; cbn [fold_left]; auto. rewrite IHl. apply tile_band_hprops. }
  rewrite <- (K bs pr) at 1. set (q := fold_left _ _ _). unfold sink_all. cbv zeta.
  set (q1 := set_stmts _ _). change (p_hprops q) with (p_hprops q1). generalize (max_nrows (p_stmts q) - length (p_hprops q1))%nat. intros n.
  induction n; auto. change (Nat.iter (S n) ?f q1) with (f (Nat.iter n f q1)). cbn [prog_add_hyperplane set_hprops p_hprops].
  etransitivity; [apply IHn|]. rewrite insert_at_length. lia.
Qed.
