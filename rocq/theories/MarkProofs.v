(** * Marks on the generated code: lemmas. *)
From Coq Require Import ZArith List Bool Lia Arith.
From Verif Require Import SpecLinear MathModel ConstraintsModel VecProofs SpecProg SpecTile SpecLoop SpecMark FrameworkModel TileModel ProgModel ProgProofs LexProofs
  LoopModel LoopProofs LoopProofs2 LoopProofs3 LoopProofs4 LoopProofs5 VectorModel MarkModel.
Import ListNotations.
Open Scope Z_scope.

(** ** Lexicographic order by the first difference *)
Lemma lex_first : forall a b : list Z, length a = length b -> a = b \/
  exists j, (j < length a)%nat /\ (forall i, (i < j)%nat -> nth i a 0 = nth i b 0) /\ nth j a 0 <> nth j b 0.
Proof.
  induction a as [|x a IH]; intros [|y b] L; try discriminate; auto. destruct (Z.eq_dec x y) as [->|N].
  - destruct (IH b) as [->|(j & J1 & J2 & J3)]; [simpl in L; lia|auto|]. right. exists (S j). simpl. split; [lia|]. split; auto.
    intros [|i] Hi; auto. apply J2. lia.
  - right. exists 0%nat. simpl. split; [lia|]. split; auto. lia.
Qed.
Lemma lexlt_at_first : forall (a b : list Z) j, length a = length b -> (j < length a)%nat -> (forall i, (i < j)%nat -> nth i a 0 = nth i b 0) ->
  nth j a 0 < nth j b 0 -> lexlt a b.
Proof.
  induction a as [|x a IH]; intros [|y b] j L Hj E H; try discriminate; simpl in *; try lia. destruct j as [|j]; [left; auto|]. right.
  split; [apply (E 0%nat); lia|]. apply (IH b j); auto; try lia. intros i Hi. apply (E (S i)). lia.
Qed.
Lemma lexlt_first : forall (a b : list Z) j, lexlt a b -> (j < length a)%nat -> (forall i, (i < j)%nat -> nth i a 0 = nth i b 0) ->
  nth j a 0 <= nth j b 0.
Proof.
  induction a as [|x a IH]; intros [|y b] j H Hj E; simpl in *; try lia; try tauto. destruct j as [|j]; [lia|]. destruct H as [H|[_ H]].
  - specialize (E 0%nat ltac:(lia)). simpl in E. lia.
  - apply (IH b j); auto; try lia. intros i Hi. apply (E (S i)). lia.
Qed.

Lemma nth_skipn (l : list Z) k i : nth i (skipn k l) 0 = nth (k + i) l 0.
Proof. revert l. induction k as [|k IH]; intros l; simpl; auto. destruct l; simpl; auto. destruct i; auto. Qed.
Lemma nth_firstn (l : list Z) k i : (i < k)%nat -> nth i (firstn k l) 0 = nth i l 0.
Proof. revert l i. induction k as [|k IH]; intros l i H; [lia|]. destruct l; simpl; auto. destruct i; auto. apply IH. lia. Qed.
Lemma nth_ext_Z (a b : list Z) : length a = length b -> (forall i, (i < length a)%nat -> nth i a 0 = nth i b 0) -> a = b.
Proof. intros L H. apply (nth_ext a b 0 0); auto. Qed.

Lemma jam_order k m u base base' ts tt : (k < m)%nat -> (m <= length ts)%nat -> length ts = length tt -> 1 <= u -> lexlt ts tt ->
  (firstn k ts = firstn k tt -> base = base' /\
    forall j, (k <= j < m)%nat -> nth j ts 0 <= nth j tt 0 \/ exists i, (k < i < j)%nat /\ nth i ts 0 < nth i tt 0) ->
  lexlt (jammed_time k m u base ts) (jammed_time k m u base' tt).
Proof.
  intros K M L U H C. unfold jammed_time.
  apply lexlt_app; [rewrite !firstn_length; lia|].
  destruct (lex_first (firstn k ts) (firstn k tt)) as [E|(j & J1 & J2 & J3)]; [rewrite !firstn_length; lia| |].
  2:{ left. rewrite firstn_length in J1. apply (lexlt_at_first _ _ j); auto; rewrite ?firstn_length; try lia.
      rewrite !nth_firstn in * by lia. assert (nth j ts 0 <= nth j tt 0); [|lia]. apply lexlt_first; auto; [lia|].
      intros i Hi. rewrite <- (nth_firstn ts k i), <- (nth_firstn tt k i) by lia. auto. }
  right. split; auto. destruct (C E) as [<- N]. clear C.
  pose proof (firstn_eq_nth k ts tt E) as E'.
  assert (nth k ts 0 <= nth k tt 0) as D by (apply lexlt_first; auto; lia).
  cbn [app lexlt]. destruct (Z.eq_dec ((nth k ts 0 - base) / u) ((nth k tt 0 - base) / u)) as [B|B].
  2:{ left. pose proof (Z.div_le_mono (nth k ts 0 - base) (nth k tt 0 - base) u ltac:(lia) ltac:(lia)). lia. }
  right. split; auto. apply lexlt_app; [rewrite !firstn_length, !skipn_length; lia|].
  destruct (lex_first (firstn (m - S k) (skipn (S k) ts)) (firstn (m - S k) (skipn (S k) tt))) as [G|(j & J1 & J2 & J3)];
    [rewrite !firstn_length, !skipn_length; lia| |].
  2:{ left. rewrite firstn_length, skipn_length in J1. apply (lexlt_at_first _ _ j); auto; rewrite ?firstn_length, ?skipn_length; try lia.
      assert (forall i, (i < j)%nat -> nth (S k + i) ts 0 = nth (S k + i) tt 0) as J4.
      { intros i Hi. specialize (J2 i Hi). rewrite !nth_firstn, !nth_skipn in J2 by lia. auto. }
      rewrite !nth_firstn, !nth_skipn in * by lia. clear J2.
      destruct (N (S k + j)%nat ltac:(lia)) as [Q|(i & I1 & I2)]; [lia|]. exfalso.
      specialize (J4 (i - S k)%nat ltac:(lia)). replace (S k + (i - S k))%nat with i in J4 by lia. lia. }
  right. split; auto. cbn [app lexlt]. destruct (Z.eq_dec (nth k ts 0) (nth k tt 0)) as [F|F]; [|left; lia]. right. split; auto.
  assert (forall i, (i < m)%nat -> nth i ts 0 = nth i tt 0) as A.
  { intros i Hi. destruct (lt_dec i k); [auto|]. destruct (Nat.eq_dec i k) as [->|]; auto.
    assert (nth (i - S k) (firstn (m - S k) (skipn (S k) ts)) 0 = nth (i - S k) (firstn (m - S k) (skipn (S k) tt)) 0) as Q by (rewrite G; auto).
    rewrite !nth_firstn, !nth_skipn in Q by lia. replace (S k + (i - S k))%nat with i in Q by lia. auto. }
  assert (firstn m ts = firstn m tt) as FM.
  { apply nth_ext_Z; [rewrite !firstn_length; lia|]. intros i Hi. rewrite firstn_length in Hi. rewrite !nth_firstn by lia. apply A. lia. }
  rewrite <- (firstn_skipn m ts), <- (firstn_skipn m tt), FM in H. apply lexlt_app in H; auto. destruct H as [H|[_ H]]; auto.
  exfalso. exact (lexlt_irrefl _ H).
Qed.

(** ** Filters *)
Lemma clast_filter_In ast k l a : In a (clast_filter ast k l) <-> In a ast /\ c_level a = k /\ incl (c_stmts a) l.
Proof.
  unfold clast_filter. rewrite filter_In, andb_true_iff, Nat.eqb_eq. unfold stmt_is_subset_of. rewrite forallb_forall.
  split; intros (A & B & C); split; auto; split; auto; intros s Hs; specialize (C s Hs).
  - unfold stmt_is_member_of in C. apply existsb_exists in C as (x & X & E). apply Nat.eqb_eq in E. subst. auto.
  - unfold stmt_is_member_of. apply existsb_exists. exists s. split; auto. apply Nat.eqb_refl.
Qed.

Lemma filter_loops_In keep : forall l r x, filter_loops keep l = Some r -> In x r -> In x l /\ keep x = Some true.
Proof.
  induction l as [|y l IH]; intros r x H X; simpl in H; [injection H as <-; destruct X|].
  destruct (keep y) as [b|] eqn:K; [|discriminate]. destruct (filter_loops keep l) as [r'|]; [|discriminate]. injection H as <-.
  destruct b; [destruct X as [<-|X]; [simpl; auto|]|]; destruct (IH r' x eq_refl X); simpl; auto.
Qed.

Lemma parallel_level_incl pr l l' k : incl l' l -> parallel_level pr l k -> parallel_level pr l' k.
Proof. intros I P d Hd R H1 H2. apply P; auto. Qed.

Section Prog.
Variable pr : prog.
Hypothesis W : wf_levels pr.
Hypothesis TO : forall s, (s < length (p_stmts pr))%nat -> types_ok (stmt_of pr s).
Hypothesis INF : forall d, In d (p_deps pr) -> d_rar d = false -> info_ok pr d.
Hypothesis LV : leveled pr.

(** ** Parallel bands *)
Lemma parallel_end_spec lp n : forall depth,
  (depth <= parallel_band_end pr lp n depth <= depth + n)%nat /\
  forall k d, (depth <= k < parallel_band_end pr lp n depth)%nat -> In d (p_deps pr) -> stops_parallel_band pr lp k d = false.
Proof using Type.
  induction n as [|n IH]; intros depth; cbn [parallel_band_end]; [split; [lia|intros; lia]|].
  destruct (existsb (stops_parallel_band pr lp depth) (p_deps pr)) eqn:E; [split; [lia|intros; lia]|].
  destruct (IH (S depth)) as [A B]. split; [lia|]. intros k d Hk Hd. destruct (Nat.eq_dec k depth) as [->|]; [|apply B; auto; lia].
  destruct (stops_parallel_band pr lp depth d) eqn:S; auto.
  assert (existsb (stops_parallel_band pr lp depth) (p_deps pr) = true); [|congruence]. apply existsb_exists. eauto.
Qed.
Lemma peel_parallel_le lp depth : (peel_parallel pr lp depth <= depth)%nat.
Proof using Type. induction depth as [|k IH]; cbn [peel_parallel]; auto. destruct (_ && _); lia. Qed.
Lemma peel_parallel_gt lp depth : is_depth_scalar pr lp (l_depth lp) = false -> (l_depth lp < depth)%nat -> (l_depth lp < peel_parallel pr lp depth)%nat.
Proof using Type.
  intros N. induction depth as [|k IH]; intros H; [lia|]. cbn [peel_parallel]. destruct (Nat.leb_spec (l_depth lp) k); cbn [andb]; [|lia].
  destruct (is_depth_scalar pr lp k) eqn:S; [|lia]. apply IH. destruct (Nat.eq_dec k (l_depth lp)) as [->|]; [congruence|lia].
Qed.

Lemma loop_not_scalar lp : is_loop_of pr lp -> is_depth_scalar pr lp (l_depth lp) = false.
Proof using Type.
  intros (A & B & C & D). unfold is_depth_scalar. destruct (l_stmts lp) as [|s l] eqn:E; [congruence|]. cbn [forallb].
  destruct (D s) as [_ Q]; [simpl; auto|]. unfold is_hyperplane_loop in Q. destruct (is_hyperplane_scalar (stmt_of pr s) (l_depth lp)); [discriminate|auto].
Qed.

Lemma parallel_band_ok lp : is_loop_of pr lp -> loop_is_parallel pr lp = true ->
  exists b, get_parallel_band pr lp = Some b /\ pb_loop b = lp /\ (1 <= pb_width b)%nat /\ (l_depth lp + pb_width b <= length (p_hprops pr))%nat /\
  forall k d, (l_depth lp <= k < l_depth lp + pb_width b)%nat -> In d (p_deps pr) -> stops_parallel_band pr lp k d = false.
Proof using Type.
  intros LP P. unfold get_parallel_band. pose proof (loop_not_scalar lp LP) as N. rewrite N. destruct LP as (LP1 & LP2 & LP3 & LP4).
  set (n := (length (p_hprops pr) - l_depth lp)%nat). destruct (parallel_end_spec lp n (l_depth lp)) as [A B].
  set (e := parallel_band_end pr lp n (l_depth lp)) in *.
  assert (l_depth lp < e)%nat as G.
  { unfold e. destruct n as [|n'] eqn:En; [unfold n in En; lia|]. cbn [parallel_band_end].
    destruct (existsb (stops_parallel_band pr lp (l_depth lp)) (p_deps pr)) eqn:E.
    - exfalso. apply existsb_exists in E as (d & Hd & S). unfold stops_parallel_band in S. rewrite !andb_true_iff in S. destruct S as [[[S1 S2] S3] S4].
      unfold loop_is_parallel in P. rewrite forallb_forall in P. specialize (P d Hd). apply negb_true_iff in S1. rewrite S1, S2, S4 in P. discriminate.
    - destruct (parallel_end_spec lp n' (S (l_depth lp))). lia. }
  pose proof (peel_parallel_le lp e) as PL. pose proof (peel_parallel_gt lp e N G) as PG.
  eexists. split; [reflexivity|]. cbn [pb_loop pb_width]. split; auto. split; [lia|]. split; [lia|].
  intros k d Hk Hd. apply B; auto. lia.
Qed.

Lemma parallel_band_levels lp w : is_loop_of pr lp -> (l_depth lp + w <= length (p_hprops pr))%nat ->
  (forall k d, (l_depth lp <= k < l_depth lp + w)%nat -> In d (p_deps pr) -> stops_parallel_band pr lp k d = false) ->
  forall k, (l_depth lp <= k < l_depth lp + w)%nat -> parallel_level pr (l_stmts lp) k.
Proof using INF LV.
  intros LP Hw S k Hk d Hd R H1 H2. specialize (S k d Hk Hd). unfold stops_parallel_band in S. rewrite R in S.
  rewrite (proj2 (dep_in_loop_In lp d)) in S by auto. cbn [negb andb] in S.
  destruct (INF d Hd R) as (SAT & _).
  destruct (d_level d <? Z.of_nat (l_depth lp)) eqn:E.
  - apply Z.ltb_lt in E. intros s t p I Z. exfalso. destruct SAT as [(_ & j & J1 & J2 & J3 & _)|(_ & J1 & J2)].
    + specialize (J3 s t p I). rewrite (Z j) in J3; lia.
    + destruct (LV d Hd R) as (L & L1 & L2 & _). apply (J2 L L1 L2).
  - cbn [negb andb] in S. apply (info_sound pr INF); auto; lia.
Qed.

Lemma parallel_bands_ok ls : (forall lp, In lp ls -> is_loop_of pr lp /\ loop_is_parallel pr lp = true) ->
  exists bs, parallel_bands pr ls = Some bs /\
    forall b, In b bs -> In (pb_loop b) ls /\ get_parallel_band pr (pb_loop b) = Some b.
Proof using Type.
  induction ls as [|lp ls IH]; intros H; cbn [parallel_bands]; [exists []; split; auto; intros b []|].
  destruct (H lp (or_introl eq_refl)) as [LP P]. destruct (parallel_band_ok lp LP P) as (b & E & B1 & B2 & _). rewrite E.
  destruct IH as (bs & -> & B); [intros x Hx; apply H; simpl; auto|]. rewrite (proj2 (Nat.eqb_neq _ _)) by lia.
  eexists. split; [reflexivity|]. intros c [<-|Hc]; [rewrite B1; simpl; auto|]. destruct (B c Hc). simpl; auto.
Qed.

Lemma inner_loop lp l : In l (get_loops_immediately_inner pr lp) -> l_depth l = S (l_depth lp) /\ incl (l_stmts l) (l_stmts lp) /\
  (is_loop_of pr lp -> is_loop_of pr l).
Proof using Type.
  intros H. unfold get_loops_immediately_inner in H. apply filter_In in H as [H E]. apply Nat.eqb_eq in E.
  unfold get_loops_under in H. destruct (loops_under_basic _ _ _ _ _ H) as (A & B & C & D). split; auto. split; [intros s Hs; apply C; auto|].
  intros (L1 & L2 & L3 & L4). split; [lia|]. split; auto. split; auto. intros s Hs. destruct (C s Hs) as [X Y]. split; auto. apply L4; auto.
Qed.

Lemma find_loop_spec ast b : forall n curr lp loops, find_parallel_loop pr ast b n curr = Some (lp, loops) ->
  (l_depth curr <= l_depth (pb_loop b) + pb_width b)%nat -> is_loop_of pr curr ->
  is_loop_of pr lp /\ incl (l_stmts lp) (l_stmts curr) /\ (l_depth curr <= l_depth lp <= l_depth (pb_loop b) + pb_width b)%nat /\
  loops = clast_filter ast (l_depth lp) (l_stmts lp) /\
  (clast_filter ast (l_depth curr) (l_stmts curr) <> [] -> lp = curr).
Proof using Type.
  induction n as [|n IH]; intros curr lp loops; cbn [find_parallel_loop]; [discriminate|].
  destruct (clast_filter ast (l_depth curr) (l_stmts curr)) as [|a l] eqn:F.
  - destruct (get_loops_immediately_inner pr curr) as [|l ls] eqn:I; [discriminate|].
    assert (In l (get_loops_immediately_inner pr curr)) as Hl by (rewrite I; simpl; auto). destruct (inner_loop curr l Hl) as (A & B & C).
    destruct (Nat.ltb_spec (l_depth (pb_loop b) + pb_width b) (l_depth l)) as [X|X]; [discriminate|].
    intros H D LP. destruct (IH l lp loops H X (C LP)) as (E1 & E2 & E3 & E4 & _). split; auto. split; [intros s Hs; auto|]. split; [lia|].
    split; auto. intros N; congruence.
  - intros H D LP. injection H as <- <-. rewrite <- F. split; auto. split; [apply incl_refl|]. split; [lia|]. auto.
Qed.

(** ** Private variables *)
Lemma max_depth_eq lp : is_loop_of pr lp -> max_depth pr lp = length (p_hprops pr).
Proof using W.
  intros (A & B & C & D). unfold max_depth. assert (forall s, In s (l_stmts lp) -> mnrows (s_trans (stmt_of pr s)) = length (p_hprops pr)) as E.
  { intros s Hs. apply (proj2 W). apply D; auto. }
  clear D C. destruct (l_stmts lp) as [|s l]; [congruence|]. clear B. cbn [fold_left].
  assert (forall m, m = length (p_hprops pr) -> (forall s, In s l -> mnrows (s_trans (stmt_of pr s)) = length (p_hprops pr)) ->
    fold_left (fun m s => if (m <? mnrows (s_trans (stmt_of pr s)))%nat then mnrows (s_trans (stmt_of pr s)) else m) l m = length (p_hprops pr)) as F.
  { clear. induction l as [|x l IH]; intros m Hm H; simpl; auto. apply IH; [|intros; apply H; simpl; auto].
    rewrite (H x (or_introl eq_refl)). destruct (_ <? _)%nat; auto. }
  apply F; [|intros; apply E; simpl; auto]. rewrite (E s (or_introl eq_refl)). destruct (Nat.ltb_spec 0 (length (p_hprops pr))); lia.
Qed.
Lemma private_In lp k : is_loop_of pr lp -> In k (private_vars pr lp) <-> (l_depth lp < k < length (p_hprops pr))%nat.
Proof using W. intros LP. unfold private_vars. rewrite max_depth_eq, in_seq by auto. destruct LP. lia. Qed.

(** ** Innermost loops *)
Lemma innermost_spec lp : is_loop_of pr lp -> loop_is_innermost pr lp = true ->
  forall s k, In s (l_stmts lp) -> (l_depth lp < k < length (p_hprops pr))%nat -> loop_level (stmt_of pr s) k = false.
Proof using W TO.
  intros LP H s k Hs Hk. destruct (loop_level (stmt_of pr s) k) eqn:E; auto.
  assert (loop_is_innermost pr lp = false); [|congruence]. unfold loop_is_innermost, get_loops_under. destruct LP as (_ & _ & _ & LP).
  destruct (loops_under_complete pr (length (p_hprops pr) - S (l_depth lp)) (l_stmts lp) (S (l_depth lp)) s k) as (x & A & _); auto; try lia.
  - rewrite loop_is_level; auto; [apply TO; apply LP; auto|]. rewrite (proj2 W) by (apply LP; auto). lia.
  - destruct (loops_under pr _ _ _); [destruct A|auto].
Qed.

(** ** Unroll and jam *)
Lemma collect_bands_In keep : forall loops bs b, collect_bands pr keep loops = Some bs -> In b bs ->
  exists lp, In lp loops /\ get_permutable_band pr lp = BandFound b /\ keep b = true.
Proof using Type.
  induction loops as [|lp ls IH]; intros bs b H Hb; cbn [collect_bands] in H; [injection H as <-; destruct Hb|].
  destruct (get_permutable_band pr lp) as [| |c] eqn:G; destruct (collect_bands pr keep ls) as [l|] eqn:C; try discriminate; injection H as <-.
  - destruct (IH l b eq_refl Hb) as (x & A & B). exists x. simpl; auto.
  - destruct (keep c) eqn:K; [destruct Hb as [<-|Hb]|].
    + exists lp. simpl; auto.
    + destruct (IH l b eq_refl Hb) as (x & A & B). exists x. simpl; auto.
    + destruct (IH l b eq_refl Hb) as (x & A & B). exists x. simpl; auto.
Qed.

Lemma jam_loop_safe b l m lp : In lp (get_all_loops pr) -> get_permutable_band pr lp = BandFound b -> In l (get_loops_under pr (l_stmts lp) (l_depth lp)) ->
  (forall s k, In s (l_stmts lp) -> (l_depth lp + pb_width b <= k < length (p_hprops pr))%nat -> loop_level (stmt_of pr s) k = false) ->
  forall st, incl st (l_stmts l) -> last_loop pr st m -> jam_safe pr st (l_depth l) m.
Proof using W TO INF LV.
  intros HL F Hl NB st IN [(s0 & S1 & S2 & S3) LL] u base U d Hd R H1 H2 s t p I ts tt.
  pose proof (all_loops_ok pr lp HL) as LP. destruct (band_found pr lp b LP F) as (B1 & B2 & B3 & _ & B5).
  unfold get_loops_under in Hl. destruct (loops_under_basic _ _ _ _ _ Hl) as (A1 & A2 & A3 & _).
  assert (forall s, In s st -> In s (l_stmts lp) /\ is_hyperplane_loop (stmt_of pr s) (l_depth l) = true) as ST by (intros x Hx; apply A3; auto).
  assert (forall s, In s st -> (s < length (p_stmts pr))%nat) as SN by (intros x Hx; apply LP; apply ST; auto).
  assert (forall s, In s st -> loop_level (stmt_of pr s) (l_depth l) = true) as SL.
  { intros x Hx. rewrite <- loop_is_level; [apply ST; auto|apply TO; apply SN; auto|rewrite (proj2 W) by auto; lia]. }
  assert (length ts = length (p_hprops pr)) as L1 by (apply timestamp_len; auto).
  assert (length tt = length (p_hprops pr)) as L2 by (apply timestamp_len; auto).
  assert (m <= l_depth lp + pb_width b)%nat as M1.
  { destruct (le_lt_dec m (l_depth lp + pb_width b)); auto. rewrite (NB s0 (m - 1)%nat) in S3; [discriminate|apply ST; auto|lia]. }
  assert (l_depth l < m)%nat as M2.
  { destruct (le_lt_dec m (l_depth l)) as [Q|]; auto. pose proof (SL s0 S1) as Y. rewrite (LL s0 (l_depth l) S1) in Y by lia. discriminate. }
  apply jam_order; auto; try lia; [apply (leveled_legal pr W LV d Hd R s t p I)|].
  intros E. split; [rewrite E; auto|]. intros j Hj. pose proof (firstn_eq_nth _ _ _ E) as E'.
  assert (forall k, (k < length (p_hprops pr))%nat -> distance pr d k s t p = nth k tt 0 - nth k ts 0) as DI.
  { intros k Hk. unfold ts, tt, distance. rewrite !timestamp_at; auto. }
  assert (forall k, (k < l_depth l)%nat -> distance pr d k s t p = 0) as Z by (intros k Hk; rewrite DI, (E' k Hk); lia).
  destruct (band_levels pr W TO INF LV lp (pb_width b) d LP B3 (fun k H => B5 k d H Hd) Hd R (proj1 (ST _ H1)) (proj1 (ST _ H2)) s t p I
    (fun k H => Z k ltac:(lia)) j ltac:(lia)) as [Q|(i & I1 & I2 & I3 & I4)].
  - left. rewrite DI in Q; lia.
  - right. exists i. rewrite DI in I4 by lia. split; [|lia]. destruct (lt_dec i (l_depth l)) as [X|X]; [rewrite (E' i X) in I4; lia|].
    destruct (Nat.eq_dec i (l_depth l)) as [->|]; [|lia]. rewrite (SL _ H1) in I2. discriminate.
Qed.
End Prog.
