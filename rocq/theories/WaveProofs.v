(** * Proofs: wavefronts (the tile schedule). *)
From Coq Require Import ZArith List Bool Lia Arith.
From Verif Require Import SpecLinear MathModel ConstraintsModel VecProofs EditProofs MatrixProofs ListProofs SpecProg FrameworkModel LexProofs ProgModel ProgProofs.
From Verif Require Import SpecTile TileModel TileProofs TileProofs2 TileProofs3 SpecLoop LoopModel LoopProofs LoopProofs2 LoopProofs3 LoopProofs4 LoopProofs5.
Import ListNotations.
Open Scope Z_scope.

Lemma zsum_nonneg l : (forall x, In x l -> 0 <= x) -> 0 <= zsum l.
Proof. induction l as [|a l IH]; cbn; intros H; [lia|]. pose proof (H a (or_introl eq_refl)). specialize (IH (fun x Hx => H x (or_intror Hx))). unfold zsum in IH. lia. Qed.
Lemma zsum_zero l : (forall x, In x l -> 0 <= x) -> zsum l = 0 -> forall x, In x l -> x = 0.
Proof.
  induction l as [|a l IH]; cbn; intros H E x Hx; [tauto|]. pose proof (H a (or_introl eq_refl)).
  pose proof (zsum_nonneg l (fun x Hx => H x (or_intror Hx))) as P. unfold zsum in P.
  destruct Hx as [<-|Hx]; [lia|]. apply IH; auto. unfold zsum. lia.
Qed.

(** ** One statement *)
Definition add_row (first k : nat) (st : stmt) : stmt :=
  set_trans st (mkMat (mncols (s_trans st)) (map_nth first (fun f => zip_with Z.add f (nth k (mrows (s_trans st)) [])) (mrows (s_trans st)))).

Lemma add_row_theta first k st j i p : wf_mat (s_trans st) -> (first < mnrows (s_trans st))%nat -> (k < mnrows (s_trans st))%nat ->
  theta (add_row first k st) j i p = if (j =? first)%nat then theta st first i p + theta st k i p else theta st j i p.
Proof.
  intros W F K. unfold theta, add_row. cbn [s_trans set_trans mrows]. rewrite map_nth_nth. unfold mnrows in *.
  rewrite (proj2 (Nat.ltb_lt _ _) F), andb_true_r. destruct (Nat.eqb_spec j first); auto. unfold aff. apply dot_add.
  rewrite !W; auto; apply nth_In; auto.
Qed.
Lemma add_row_wf first k st : wf_mat (s_trans st) -> (first < mnrows (s_trans st))%nat -> (k < mnrows (s_trans st))%nat ->
  wf_mat (s_trans (add_row first k st)) /\ mnrows (s_trans (add_row first k st)) = mnrows (s_trans st).
Proof.
  intros W F K. unfold wf_mat, add_row, mnrows in *. cbn [s_trans set_trans mrows mncols]. split; [|apply map_nth_length].
  intros r Hr. apply (In_nth _ _ []) in Hr as (j & Hj & <-). rewrite map_nth_length in Hj. rewrite map_nth_nth.
  destruct ((j =? first)%nat && _); [|apply W; apply nth_In; auto].
  rewrite zip_with_length; rewrite !W by (apply nth_In; auto); auto.
Qed.

Lemma add_rows_cons first k ks st : add_rows first (k :: ks) st = add_rows first ks (add_row first k st).
Proof. reflexivity. Qed.

Lemma add_rows_ok first ks : forall st, wf_mat (s_trans st) -> (first < mnrows (s_trans st))%nat ->
  (forall k, In k ks -> (first < k < mnrows (s_trans st))%nat) ->
  let st' := add_rows first ks st in
  wf_mat (s_trans st') /\ mnrows (s_trans st') = mnrows (s_trans st) /\ mncols (s_trans st') = mncols (s_trans st) /\
  s_dim st' = s_dim st /\ s_orig st' = s_orig st /\ s_domain st' = s_domain st /\ s_hyp st' = s_hyp st /\
  s_reads st' = s_reads st /\ s_writes st' = s_writes st /\
  (forall j i p, j <> first -> theta st' j i p = theta st j i p) /\
  (forall i p, theta st' first i p = theta st first i p + zsum (map (fun k => theta st k i p) ks)).
Proof.
  induction ks as [|k ks IH]; intros st W F K; cbv zeta.
  - cbn. do 9 (split; [first [exact W|reflexivity]|]). split; [auto|]. intros. lia.
  - rewrite add_rows_cons. pose proof (K k (or_introl eq_refl)) as Kk. destruct (add_row_wf first k st W F ltac:(lia)) as [W1 N1].
    destruct (IH (add_row first k st) W1) as (A1 & A2 & A3 & A4 & A5 & A6 & A7 & A8 & A9 & A10 & A11).
    { lia. } { intros j Hj. rewrite N1. apply K. simpl; auto. }
    split; [exact A1|]. split; [congruence|]. split; [exact A3|]. split; [exact A4|]. split; [exact A5|]. split; [exact A6|].
    split; [exact A7|]. split; [exact A8|]. split; [exact A9|]. split.
    + intros j i p Hj. rewrite A10 by auto. rewrite add_row_theta by (auto; lia). destruct (Nat.eqb_spec j first); congruence.
    + intros i p. rewrite A11. rewrite add_row_theta by (auto; lia). rewrite Nat.eqb_refl. cbn [map zsum fold_right]. unfold zsum.
      rewrite (map_ext_in _ (fun k => theta st k i p) ks); [lia|]. intros j Hj. rewrite add_row_theta by (auto; lia).
      destruct (Nat.eqb_spec j first); auto. specialize (K j (or_intror Hj)). lia.
Qed.

(** ** One band *)
Lemma set_nth_nth {A} pos (v d : A) l i : nth i (set_nth pos v l) d = if (i =? pos)%nat && (pos <? length l)%nat then v else nth i l d.
Proof.
  destruct (Nat.eqb_spec i pos) as [->|N]; [|apply nth_set_nth_neq; auto]. rewrite andb_true_l. destruct (Nat.ltb_spec pos (length l)).
  - apply nth_set_nth_eq; auto.
  - rewrite !nth_overflow; auto. rewrite set_nth_length; auto.
Qed.
Lemma shift_satvec_length first ks : forall v, length (shift_satvec first ks v) = length v.
Proof. induction ks as [|k ks IH]; intros v; cbn; auto. unfold shift_satvec in IH. rewrite IH, !set_nth_length. auto. Qed.

Lemma shift_satvec_nth first ks : (forall k, In k ks -> (first < k)%nat) -> forall v j, (first < length v)%nat ->
  nth j (shift_satvec first ks v) false =
  if (j =? first)%nat then nth first v false || existsb (fun k => nth k v false) ks
  else if existsb (Nat.eqb j) ks then false else nth j v false.
Proof.
  induction ks as [|k ks IH]; intros K v j F; cbn [shift_satvec fold_left existsb].
  - destruct (Nat.eqb_spec j first); subst; rewrite ?orb_false_r; auto.
  - assert (first < k)%nat as Kk by (apply K; simpl; auto).
    unfold shift_satvec in IH. rewrite IH; [|intros; apply K; simpl; auto|rewrite !set_nth_length; auto].
    set (v' := set_nth k false (set_nth first (nth first v false || nth k v false) v)).
    assert (forall i, nth i v' false = if (i =? k)%nat then false else if (i =? first)%nat then nth first v false || nth k v false else nth i v false) as NV.
    { intros i. unfold v'. rewrite !set_nth_nth. rewrite set_nth_length. destruct (Nat.eqb_spec i k).
      - subst. rewrite andb_true_l. destruct (k <? length v)%nat eqn:E; auto. destruct (Nat.eqb_spec k first); [lia|]. rewrite andb_false_l. apply nth_overflow. apply Nat.ltb_ge; auto.
      - rewrite andb_false_l. destruct (Nat.eqb_spec i first); auto. rewrite andb_true_l. rewrite (proj2 (Nat.ltb_lt _ _) F). auto. }
    rewrite !NV. destruct (Nat.eqb_spec j first).
    + destruct (Nat.eqb_spec first k); [lia|]. rewrite Nat.eqb_refl. rewrite <- orb_assoc. f_equal.
      destruct (nth k v false) eqn:NK; auto. cbn. clear - K NV NK n. induction ks as [|a ks IH]; cbn; auto.
      rewrite IH by (intros x [<-|Hx]; apply K; simpl; auto). f_equal. rewrite NV.
      destruct (Nat.eqb_spec a k); [subst; auto|]. destruct (Nat.eqb_spec a first); auto. specialize (K a (or_intror (or_introl eq_refl))). lia.
    + destruct (Nat.eqb_spec j k); cbn; [destruct (existsb _ ks); auto|]. auto.
Qed.

Lemma lexlt_distance pr d s t p : wf_levels pr -> (d_src d < length (p_stmts pr))%nat -> (d_dst d < length (p_stmts pr))%nat ->
  lexlt (timestamp (stmt_of pr (d_src d)) s p) (timestamp (stmt_of pr (d_dst d)) t p) <->
  exists m, (m < length (p_hprops pr))%nat /\ (forall j, (j < m)%nat -> distance pr d j s t p = 0) /\ 0 < distance pr d m s t p.
Proof.
  intros W H1 H2. pose proof (timestamp_len pr _ s p W H1) as L1. pose proof (timestamp_len pr _ t p W H2) as L2.
  pose proof (fun k => timestamp_at pr _ k s p W H1) as T1. pose proof (fun k => timestamp_at pr _ k t p W H2) as T2.
  unfold distance. set (a := timestamp _ s p) in *. set (b := timestamp _ t p) in *. clearbody a b. split.
  - intros H. assert (exists m, (m < length a)%nat /\ (m < length b)%nat /\ (forall j, (j < m)%nat -> nth j a 0 = nth j b 0) /\ nth m a 0 < nth m b 0) as (m & M1 & M2 & M3 & M4).
    { clear - H. revert b H. induction a as [|x a IH]; intros [|y b] H; cbn in H; try tauto. destruct H as [H|[-> H]].
      - exists 0%nat. cbn. repeat split; try lia. 
      - destruct (IH b H) as (m & A & B & C & D). exists (S m). cbn. split; [lia|]. split; [lia|]. split; [|auto]. intros [|j] Hj; auto. apply C. lia. }
    exists m. split; [lia|]. split.
    + intros j Hj. rewrite <- T1, <- T2 by lia. rewrite M3 by auto. lia.
    + rewrite <- T1, <- T2 by lia. lia.
  - intros (m & M1 & M2 & M3). apply (lexlt_at m); try lia.
    + intros j Hj. rewrite T1, T2 by lia. specialize (M2 j Hj). lia.
    + rewrite T1, T2 by lia. lia.
Qed.

Lemma separated_distance pr d a : wf_levels pr -> (d_src d < length (p_stmts pr))%nat -> (d_dst d < length (p_stmts pr))%nat -> (a <= length (p_hprops pr))%nat ->
  separated_before pr d a <->
  forall s t p, instance pr d s t p -> exists m, (m < a)%nat /\ (forall j, (j < m)%nat -> distance pr d j s t p = 0) /\ 0 < distance pr d m s t p.
Proof.
  intros W H1 H2 A. unfold separated_before. split; intros H s t p I; specialize (H s t p I);
  pose proof (timestamp_len pr _ s p W H1) as L1; pose proof (timestamp_len pr _ t p W H2) as L2;
  pose proof (fun k => timestamp_at pr _ k s p W H1) as T1; pose proof (fun k => timestamp_at pr _ k t p W H2) as T2;
  unfold distance in *; set (x := timestamp _ s p) in *; set (y := timestamp _ t p) in *; clearbody x y.
  - assert (exists m, (m < a)%nat /\ (forall j, (j < m)%nat -> nth j x 0 = nth j y 0) /\ nth m x 0 < nth m y 0) as (m & M1 & M3 & M4).
    { clear - H. revert x y H. induction a as [|a IH]; intros x y H; [destruct x, y; cbn in H; tauto|].
      destruct x as [|u x], y as [|v y]; cbn in H; try tauto. destruct H as [H|[-> H]].
      - exists 0%nat. cbn. repeat split; try lia.
      - destruct (IH x y H) as (m & B & C & D). exists (S m). cbn. split; [lia|]. split; [|auto]. intros [|j] Hj; auto. apply C. lia. }
    exists m. split; auto. split.
    + intros j Hj. rewrite <- T1, <- T2 by lia. rewrite M3 by auto. lia.
    + rewrite <- T1, <- T2 by lia. lia.
  - destruct H as (m & M1 & M2 & M3).
    assert (forall l i, (i < a)%nat -> nth i (firstn a l) 0 = nth i l 0) as NF.
    { clear. intros l. revert a. induction l as [|x l IH]; intros [|a] [|i] Hi; cbn; auto; try lia. apply IH. lia. }
    apply (lexlt_at m).
    + rewrite firstn_length. lia.
    + rewrite firstn_length. lia.
    + intros i Hi. rewrite !NF by lia. rewrite T1, T2 by lia. specialize (M2 i Hi). lia.
    + rewrite !NF by lia. rewrite T1, T2 by lia. lia.
Qed.

Section Wave.
Variable pr : prog.
Variables (l : list nat) (first : nat) (ks : list nat) (g : dep -> dep).
Hypothesis W : wf_levels pr.
Hypothesis ND : NoDup l.
Hypothesis LR : forall s, In s l -> (s < length (p_stmts pr))%nat.
Hypothesis F : (first < length (p_hprops pr))%nat.
Hypothesis K : forall k, In k ks -> (first < k < length (p_hprops pr))%nat.
Hypothesis G : forall d, exists v, g d = set_sv d v.

Definition waved : prog :=
  let pr1 := set_stmts pr (fold_left (fun ss s => map_nth s (add_rows first ks) ss) l (p_stmts pr)) in
  set_deps pr1 (map g (p_deps pr1)).

Lemma wv_nstmts : length (p_stmts waved) = length (p_stmts pr).
Proof.
  cbn. generalize (p_stmts pr) as ss. induction l as [|a l' IH]; intros ss; cbn; auto. inversion ND; subst. rewrite IH; auto.
  - apply map_nth_length.
  - intros; apply LR; simpl; auto.
Qed.
Lemma wv_in s : In s l -> stmt_of waved s = add_rows first ks (stmt_of pr s).
Proof. intros H. unfold stmt_of. cbn. apply fold_map_nth_in; auto. Qed.
Lemma wv_out s : ~ In s l -> stmt_of waved s = stmt_of pr s.
Proof. intros H. unfold stmt_of. cbn. apply fold_map_nth_notin; auto. Qed.

Lemma wv_rows s : (s < length (p_stmts pr))%nat -> wf_mat (s_trans (stmt_of pr s)) /\ mnrows (s_trans (stmt_of pr s)) = length (p_hprops pr).
Proof. intros H. split; [|apply (proj2 W); auto]. destruct (proj1 (proj1 W) (stmt_of pr s)) as [(_ & _ & A & _) _]; auto. apply nth_In; auto. Qed.

Lemma wv_stmt s : (s < length (p_stmts pr))%nat -> let st := stmt_of pr s in let st' := stmt_of waved s in
  wf_mat (s_trans st') /\ mnrows (s_trans st') = mnrows (s_trans st) /\ mncols (s_trans st') = mncols (s_trans st) /\
  s_dim st' = s_dim st /\ s_orig st' = s_orig st /\ s_domain st' = s_domain st /\ s_hyp st' = s_hyp st /\
  s_reads st' = s_reads st /\ s_writes st' = s_writes st /\
  (forall j i p, j <> first -> theta st' j i p = theta st j i p).
Proof.
  intros H. cbv zeta. destruct (wv_rows s H) as [A B]. destruct (in_dec Nat.eq_dec s l) as [I|I].
  - rewrite wv_in by auto. destruct (add_rows_ok first ks (stmt_of pr s) A) as (A1 & A2 & A3 & A4 & A5 & A6 & A7 & A8 & A9 & A10 & A11); try lia.
    { intros k Hk. specialize (K k Hk). lia. }
    repeat (split; [assumption|]). assumption.
  - rewrite wv_out by auto. repeat (split; [first [exact A|reflexivity]|]). auto.
Qed.
Lemma wv_first s i p : In s l -> theta (stmt_of waved s) first i p = zsum (map (fun k => theta (stmt_of pr s) k i p) (first :: ks)).
Proof.
  intros I. rewrite wv_in by auto. destruct (wv_rows s (LR s I)) as [A B].
  destruct (add_rows_ok first ks (stmt_of pr s) A) as (A1 & A2 & A3 & A4 & A5 & A6 & A7 & A8 & A9 & A10 & A11); try lia.
  { intros k Hk. specialize (K k Hk). lia. }
  rewrite A11. reflexivity.
Qed.

Lemma wv_dep d' : In d' (p_deps waved) <-> exists d v, In d (p_deps pr) /\ d' = g d /\ g d = set_sv d v.
Proof.
  cbn. rewrite in_map_iff. split.
  - intros (d & <- & H). destruct (G d) as [v E]. exists d, v. auto.
  - intros (d & v & A & -> & B). eauto.
Qed.

Lemma wv_wf : wf_levels waved.
Proof.
  assert (forall st, In st (p_stmts waved) -> exists s, (s < length (p_stmts pr))%nat /\ st = stmt_of waved s) as S.
  { intros st H. apply (In_nth _ _ dummy_stmt) in H as (s & Hs & <-). exists s. rewrite wv_nstmts in Hs. auto. }
  split; [split|].
  - intros st H. destruct (S st H) as (s & Hs & ->). destruct (wv_stmt s Hs) as (A1 & A2 & A3 & A4 & A5 & A6 & A7 & A8 & A9 & A10).
    destruct (proj1 (proj1 W) (stmt_of pr s)) as [(B1 & B2 & B3 & B4 & B5 & B6) B7]; [apply nth_In; auto|].
    unfold wf_cols. rewrite A3, A4, A5, A6, A7, A8, A9. split; [|congruence].
    repeat (split; [assumption|]). assumption.
  - intros d' H. apply wv_dep in H as (d & v & Hd & -> & ->). destruct (proj2 (proj1 W) d Hd) as (C1 & C2 & C3 & C4).
    cbn [d_src d_dst d_poly set_sv]. rewrite wv_nstmts. split; [auto|]. split; [auto|]. split; [auto|]. rewrite C4.
    destruct (wv_stmt _ C1) as (_ & _ & _ & -> & _). destruct (wv_stmt _ C2) as (_ & _ & _ & -> & _). reflexivity.
  - intros s Hs. rewrite wv_nstmts in Hs. destruct (wv_stmt s Hs) as (_ & -> & _). apply (proj2 W); auto.
Qed.

Lemma wv_instance d v s t p : In d (p_deps pr) -> instance waved (set_sv d v) s t p <-> instance pr d s t p.
Proof.
  intros Hd. destruct (proj2 (proj1 W) d Hd) as (C1 & C2 & _). unfold instance. cbn [d_src d_dst d_poly set_sv].
  destruct (wv_stmt _ C1) as (_ & _ & _ & -> & _). destruct (wv_stmt _ C2) as (_ & _ & _ & -> & _). reflexivity.
Qed.
Lemma wv_distance d v j s t p : In d (p_deps pr) -> j <> first -> distance waved (set_sv d v) j s t p = distance pr d j s t p.
Proof.
  intros Hd Hj. destruct (proj2 (proj1 W) d Hd) as (C1 & C2 & _). unfold distance. cbn [d_src d_dst set_sv].
  destruct (wv_stmt _ C1) as (_ & _ & _ & _ & _ & _ & _ & _ & _ & ->); auto. destruct (wv_stmt _ C2) as (_ & _ & _ & _ & _ & _ & _ & _ & _ & ->); auto.
Qed.
Lemma wv_distance_out d v j s t p : ~ In (d_src d) l -> ~ In (d_dst d) l -> distance waved (set_sv d v) j s t p = distance pr d j s t p.
Proof. intros H1 H2. unfold distance. cbn [d_src d_dst set_sv]. rewrite !wv_out by auto. auto. Qed.
Lemma wv_distance_first d v s t p : In (d_src d) l -> In (d_dst d) l ->
  distance waved (set_sv d v) first s t p = zsum (map (fun k => distance pr d k s t p) (first :: ks)).
Proof.
  intros H1 H2. unfold distance. cbn [d_src d_dst set_sv]. rewrite !wv_first by auto.
  generalize (first :: ks) as m. induction m as [|k m IH]; unfold zsum in *; cbn [map fold_right] in *; lia.
Qed.

Variable last : nat.
Hypothesis LA : forall k, In k ks -> (k < last)%nat.
Hypothesis FL : (first < last)%nat.

(** If the new outermost distance is 0, so are the summed distances. *)
Lemma wv_split d v s t p : In d (p_deps pr) -> In (d_src d) l -> In (d_dst d) l -> permutable_on pr d first last ->
  instance pr d s t p -> (forall j, (j < first)%nat -> distance pr d j s t p = 0) ->
  0 <= distance waved (set_sv d v) first s t p /\
  (distance waved (set_sv d v) first s t p = 0 -> forall k, In k (first :: ks) -> distance pr d k s t p = 0).
Proof.
  intros Hd H1 H2 P I Z. rewrite wv_distance_first by auto.
  assert (forall x, In x (map (fun k => distance pr d k s t p) (first :: ks)) -> 0 <= x) as N.
  { intros x Hx. apply in_map_iff in Hx as (k & <- & Hk). apply P; auto. destruct Hk as [<-|Hk]; [lia|]. specialize (K k Hk). specialize (LA k Hk). lia. }
  split; [apply zsum_nonneg; auto|]. intros E k Hk. apply (zsum_zero _ N E). apply in_map_iff. eauto.
Qed.

Lemma wv_legal : (forall d, In d (p_deps pr) -> d_rar d = false -> wave_safe pr l first last d) -> legal pr -> legal waved.
Proof.
  intros SF L d' Hd' R s t p I. apply wv_dep in Hd' as (d & v & Hd & -> & E). rewrite E in *. cbn [d_rar set_sv] in R.
  apply wv_instance in I; auto. destruct (proj2 (proj1 W) d Hd) as (C1 & C2 & _).
  apply lexlt_distance. { apply wv_wf. } { rewrite wv_nstmts; auto. } { rewrite wv_nstmts; auto. }
  pose proof (L d Hd R s t p I) as LX. apply lexlt_distance in LX as (m & M1 & M2 & M3); auto.
  change (length (p_hprops waved)) with (length (p_hprops pr)).
  destruct (SF d Hd R) as [[N1 N2]|[SP|(I1 & I2 & P)]].
  - exists m. rewrite wv_distance_out by auto. split; auto. split; auto. intros j Hj. rewrite wv_distance_out by auto. auto.
  - pose proof (proj1 (separated_distance pr d first W C1 C2 ltac:(lia)) SP) as SPx; clear SP; rename SPx into SP. destruct (SP s t p I) as (n & N1 & N2 & N3). exists n. split; [lia|]. split.
    + intros j Hj. rewrite wv_distance by (auto; lia). auto.
    + rewrite wv_distance by (auto; lia). auto.
  - destruct (Nat.lt_ge_cases m first) as [X|X].
    + exists m. split; auto. split.
      * intros j Hj. rewrite wv_distance by (auto; lia). auto.
      * rewrite wv_distance by (auto; lia). auto.
    + destruct (wv_split d v s t p Hd I1 I2 P I) as [S1 S2]. { intros; apply M2; lia. }
      destruct (Z.eq_dec (distance waved (set_sv d v) first s t p) 0) as [Z|Z].
      * specialize (S2 Z). exists m. assert (m <> first) as Nm. { intros ->. rewrite (S2 first) in M3 by (simpl; auto). lia. }
        split; auto. split.
        -- intros j Hj. destruct (Nat.eq_dec j first) as [->|]; [auto|]. rewrite wv_distance by auto. auto.
        -- rewrite wv_distance by auto. auto.
      * exists first. split; auto. split; [|lia]. intros j Hj. rewrite wv_distance by (auto; lia). apply M2. lia.
Qed.

(** The summed loops inside carry no dependence any more. *)
Lemma wv_parallel k : (forall d, In d (p_deps pr) -> d_rar d = false -> wave_safe pr l first last d) ->
  In k ks -> parallel_level waved l k.
Proof.
  intros SF Hk d' Hd' R H1 H2 s t p I Z. apply wv_dep in Hd' as (d & v & Hd & -> & E). rewrite E in *. cbn [d_rar d_src d_dst set_sv] in R, H1, H2.
  apply wv_instance in I; auto. destruct (proj2 (proj1 W) d Hd) as (C1 & C2 & _). pose proof (K k Hk) as Kk.
  assert (forall j, (j < first)%nat -> distance pr d j s t p = 0) as Z0.
  { intros j Hj. rewrite <- (wv_distance d v) by (auto; lia). apply Z. lia. }
  destruct (SF d Hd R) as [[N1 N2]|[SP|(I1 & I2 & P)]]; [tauto| |].
  - exfalso. pose proof (proj1 (separated_distance pr d first W C1 C2 ltac:(lia)) SP) as SPx; clear SP; rename SPx into SP. destruct (SP s t p I) as (n & N1 & N2 & N3). rewrite Z0 in N3; lia.
  - destruct (wv_split d v s t p Hd I1 I2 P I Z0) as [_ S2]. rewrite wv_distance by (auto; lia). apply S2; [|simpl; auto]. apply Z. lia.
Qed.

(** Another band stays safe. *)
Lemma wv_other l2 first2 last2 d : (forall s, In s l -> ~ In s l2) -> (forall s, In s l2 -> (s < length (p_stmts pr))%nat) ->
  (first2 <= length (p_hprops pr))%nat ->
  In d (p_deps pr) -> d_rar d = false -> wave_safe pr l first last d ->
  wave_safe pr l2 first2 last2 d -> wave_safe waved l2 first2 last2 (g d).
Proof.
  intros DJ LR2 F2 Hd R SF SF2. destruct (G d) as [v E]. rewrite E. destruct (proj2 (proj1 W) d Hd) as (C1 & C2 & _).
  destruct SF2 as [N|[SP|(I1 & I2 & P)]]; [left; exact N| |].
  - right. left. apply separated_distance. { apply wv_wf. } { rewrite wv_nstmts; auto. } { rewrite wv_nstmts; auto. } { exact F2. }
    pose proof SP as SP'. pose proof (proj1 (separated_distance pr d first2 W C1 C2 ltac:(lia)) SP) as SPx; clear SP; rename SPx into SP. intros s t p I. apply wv_instance in I; auto.
    destruct (SP s t p I) as (m & M1 & M2 & M3).
    destruct SF as [[N1 N2]|[SP1|(I1 & I2 & P)]].
    + exists m. rewrite wv_distance_out by auto. split; auto. split; auto. intros j Hj. rewrite wv_distance_out by auto. auto.
    + pose proof (proj1 (separated_distance pr d first W C1 C2 ltac:(lia)) SP1) as SP1x; clear SP1; rename SP1x into SP1. destruct (SP1 s t p I) as (n & N1 & N2 & N3).
      assert (n = m) as ->. { destruct (Nat.lt_trichotomy n m) as [X|[X|X]]; auto; [rewrite M2 in N3|rewrite N2 in M3]; lia. }
      exists m. split; auto. split.
      * intros j Hj. rewrite wv_distance by (auto; lia). auto.
      * rewrite wv_distance by (auto; lia). auto.
    + destruct (Nat.lt_ge_cases m first) as [X|X].
      * exists m. split; auto. split.
        -- intros j Hj. rewrite wv_distance by (auto; lia). auto.
        -- rewrite wv_distance by (auto; lia). auto.
      * destruct (wv_split d v s t p Hd I1 I2 P I) as [S1 S2]. { intros; apply M2; lia. }
        destruct (Z.eq_dec (distance waved (set_sv d v) first s t p) 0) as [Z|Z].
        -- specialize (S2 Z). exists m. assert (m <> first) as Nm. { intros ->. rewrite (S2 first) in M3 by (simpl; auto). lia. }
           split; auto. split.
           ++ intros j Hj. destruct (Nat.eq_dec j first) as [->|]; [auto|]. rewrite wv_distance by auto. auto.
           ++ rewrite wv_distance by auto. auto.
        -- exists first. split; [lia|]. split; [|lia]. intros j Hj. rewrite wv_distance by (auto; lia). apply M2. lia.
  - right. right. cbn [d_src d_dst set_sv]. split; auto. split; auto. intros s t p I Z k Hk. apply wv_instance in I; auto.
    assert (~ In (d_src d) l) by (intros X; apply (DJ _ X); auto). assert (~ In (d_dst d) l) by (intros X; apply (DJ _ X); auto).
    rewrite wv_distance_out by auto. apply P; auto. intros j Hj. rewrite <- (wv_distance_out d v) by auto. auto.
Qed.

(** ** The satisfaction vectors *)
Hypothesis GS : forall d, In d (p_deps pr) -> d_rar d = false ->
  g d = set_sv d (if existsb (Nat.eqb (d_src d)) l && existsb (Nat.eqb (d_dst d)) l then shift_satvec first ks (d_satvec d) else d_satvec d).
Hypothesis CT : forall j k, (first < j < k)%nat -> In k ks -> In j ks.

Definition satvecs_ok (pr : prog) : Prop :=
  satvec_sound pr /\ forall d, In d (p_deps pr) -> d_rar d = false -> length (d_satvec d) = length (p_hprops pr).

Lemma member_iff s m : existsb (Nat.eqb s) m = true <-> In s m.
Proof. rewrite existsb_exists. split; [intros (x & H & E); apply Nat.eqb_eq in E; subst; auto|intros H; exists s; rewrite Nat.eqb_refl; auto]. Qed.

Lemma wv_satvecs : (forall d, In d (p_deps pr) -> d_rar d = false -> wave_safe pr l first last d) -> satvecs_ok pr -> satvecs_ok waved.
Proof.
  intros SF [SS SL]. split.
  - intros d' k Hd' R Hk E s t p I Z. change (length (p_hprops waved)) with (length (p_hprops pr)) in Hk.
    apply wv_dep in Hd' as (d & v0 & Hd & -> & E0). assert (d_rar d = false) as R' by (rewrite E0 in R; exact R). rewrite (GS d Hd R') in *.
    clear v0 E0. match goal with |- distance waved (set_sv d ?x) _ _ _ _ = 0 => set (v := x) in * end. cbn [d_satvec set_sv] in E. apply wv_instance in I; auto.
    destruct (proj2 (proj1 W) d Hd) as (C1 & C2 & _). specialize (SL d Hd R').
    assert (separated_before pr d first -> (first <= k)%nat -> False) as NS.
    { intros SP Q. destruct (proj1 (separated_distance pr d first W C1 C2 ltac:(lia)) SP s t p I) as (n & N1 & N2 & N3).
      rewrite <- (wv_distance d v), Z in N3 by (auto; lia). lia. }
    assert ((first <= k)%nat -> forall j, (j < first)%nat -> distance pr d j s t p = 0) as Z0.
    { intros Q j Hj. rewrite <- (wv_distance d v) by (auto; lia). apply Z. lia. }
    assert (forall j, (j < first)%nat -> nth j v false = nth j (d_satvec d) false) as VL.
    { intros j Hj. unfold v. destruct (_ && _); auto. rewrite shift_satvec_nth; [|intros; apply K; auto|lia].
      destruct (Nat.eqb_spec j first); [lia|]. destruct (existsb (Nat.eqb j) ks) eqn:X; auto. apply member_iff in X. apply K in X. lia. }
    destruct (Nat.lt_ge_cases k first) as [Q|Q].
    { rewrite wv_distance by (auto; lia). apply (SS d k Hd R' Hk); auto. { rewrite <- VL by auto. exact E. }
      intros j Hj. rewrite <- (wv_distance d v) by (auto; lia). apply Z; auto. }
    specialize (Z0 Q). specialize (fun SP => NS SP Q).
    destruct (SF d Hd R') as [[N1 N2]|[SP|(I1 & I2 & P)]]; [|destruct (NS SP)|].
    + rewrite wv_distance_out by auto. assert (v = d_satvec d) as EV.
      { unfold v. destruct (existsb (Nat.eqb (d_src d)) l) eqn:X; auto. apply member_iff in X. tauto. }
      rewrite EV in E. apply (SS d k Hd R' Hk E); auto. intros j Hj. rewrite <- (wv_distance_out d v) by auto. apply Z; auto.
    + assert (v = shift_satvec first ks (d_satvec d)) as EV.
      { unfold v. rewrite (proj2 (member_iff _ _) I1), (proj2 (member_iff _ _) I2). auto. }
      assert (nth k v false = if (k =? first)%nat then nth first (d_satvec d) false || existsb (fun k => nth k (d_satvec d) false) ks
        else if existsb (Nat.eqb k) ks then false else nth k (d_satvec d) false) as EN.
      { rewrite EV. apply shift_satvec_nth; [intros; apply K; auto|lia]. }
      rewrite EN in E. destruct (wv_split d v s t p Hd I1 I2 P I Z0) as [_ S2]. destruct (Nat.eqb_spec k first) as [->|Nk].
      * apply orb_false_iff in E as [E1 E2]. assert (forall n j, (j < n)%nat -> j = first \/ In j ks -> distance pr d j s t p = 0) as A.
        { induction n as [|n IHn]; intros j Hj J; [lia|]. assert (nth j (d_satvec d) false = false) as Ej.
          { destruct J as [->|J]; auto. destruct (nth j (d_satvec d) false) eqn:X; auto. rewrite <- E2. symmetry. apply existsb_exists. eauto. }
          apply (SS d j Hd R'); auto. { destruct J as [->|J]; auto. apply K; auto. }
          intros i Hi. destruct (Nat.lt_trichotomy i first) as [X|[->|X]]; [auto|apply IHn; auto; lia|].
          destruct J as [->|J]; [lia|]. apply IHn; [lia|]. right. apply (CT i j); auto. }
        rewrite wv_distance_first by auto. assert (forall m, (forall k, In k m -> k = first \/ In k ks) -> zsum (map (fun k => distance pr d k s t p) m) = 0) as B.
        { induction m as [|a m IHm]; intros H; cbn; auto. unfold zsum in IHm. rewrite IHm by (intros; apply H; simpl; auto).
          rewrite (A (S a) a); [lia|lia|apply H; simpl; auto]. }
        apply B. intros j [<-|Hj]; auto.
      * rewrite wv_distance by auto. assert (forall j, In j (first :: ks) -> distance pr d j s t p = 0) as A by (apply S2; apply Z; lia).
        destruct (existsb (Nat.eqb k) ks) eqn:X. { apply A. right. apply member_iff; auto. }
        apply (SS d k Hd R' Hk E); auto. intros j Hj. destruct (Nat.eq_dec j first) as [->|Nj]; [apply A; simpl; auto|].
        rewrite <- (wv_distance d v) by auto. apply Z; auto.
  - intros d' Hd' R. apply wv_dep in Hd' as (d & v & Hd & -> & E). assert (d_rar d = false) as R' by (rewrite E in R; exact R).
    rewrite (GS d Hd R'). cbn [d_satvec set_sv]. destruct (_ && _); [rewrite shift_satvec_length|]; apply SL; auto.
Qed.
End Wave.

(** ** The function *)
Definition dep_step (first : nat) (ks : list nat) (b : pband) (d : dep) : dep :=
  if negb (d_rar d) && dep_in_loop (pb_loop b) d then set_sv d (shift_satvec first ks (d_satvec d)) else d.

Lemma dep_step_sv first ks b d : exists v, dep_step first ks b d = set_sv d v.
Proof. unfold dep_step. destruct (_ && _); eauto. exists (d_satvec d). destruct d; reflexivity. Qed.

Lemma dep_step_gs first ks b d : d_rar d = false -> dep_step first ks b d =
  set_sv d (if existsb (Nat.eqb (d_src d)) (l_stmts (pb_loop b)) && existsb (Nat.eqb (d_dst d)) (l_stmts (pb_loop b))
            then shift_satvec first ks (d_satvec d) else d_satvec d).
Proof.
  intros R. unfold dep_step. rewrite R. cbn [negb andb].
  change (dep_in_loop (pb_loop b) d) with (existsb (Nat.eqb (d_src d)) (l_stmts (pb_loop b)) && existsb (Nat.eqb (d_dst d)) (l_stmts (pb_loop b))).
  destruct (_ && _); auto. destruct d; reflexivity.
Qed.

(** The levels that are added to the first one. *)
Definition summed (multipar : bool) (pr : prog) (l : list nat) (first width : nat) : list nat :=
  let ks := common_loops pr l (S first) (width - 1) in if multipar then ks else firstn 1 ks.

(** The recorded kinds of the levels of a band are right. *)
Definition levels_typed (pr : prog) (l : list nat) (first width : nat) : Prop :=
  forall s k, In s l -> (first <= k < first + width)%nat -> is_hyperplane_scalar (stmt_of pr s) k = negb (loop_level (stmt_of pr s) k).

Lemma types_levels pr l first width : wf_levels pr -> wave_band pr l first width -> (forall s, In s l -> types_ok (stmt_of pr s)) -> levels_typed pr l first width.
Proof. intros W (B1 & B2 & B3 & B4) TO s k Hs Hk. apply scalar_level; auto. rewrite (proj2 W) by auto. lia. Qed.

Lemma loop_depths_common pr b : levels_typed pr (l_stmts (pb_loop b)) (l_depth (pb_loop b)) (pb_width b) ->
  loop_depths pr b = l_depth (pb_loop b) :: common_loops pr (l_stmts (pb_loop b)) (S (l_depth (pb_loop b))) (pb_width b - 1).
Proof.
  intros TO. unfold loop_depths, common_loops. f_equal. apply filter_ext_in. intros k Hk. apply in_seq in Hk.
  assert (forall m, (forall s, In s m -> In s (l_stmts (pb_loop b))) -> forallb (fun s => negb (is_hyperplane_scalar (stmt_of pr s) k)) m = forallb (fun s => loop_level (stmt_of pr s) k) m) as A; [|auto].
  induction m as [|s m IH]; intros H; cbn; auto. rewrite IH by (intros; apply H; simpl; auto). f_equal.
  assert (In s (l_stmts (pb_loop b))) as Hs by (apply H; simpl; auto). rewrite TO by (auto; lia). apply negb_involutive.
Qed.

Lemma band_step mp pr b : let l := l_stmts (pb_loop b) in let first := l_depth (pb_loop b) in
  wf_levels pr -> wave_band pr l first (pb_width b) -> levels_typed pr l first (pb_width b) ->
  let ks := summed mp pr l first (pb_width b) in
  (forall k, In k ks -> (first < k < first + pb_width b)%nat) /\
  create_tile_schedule_band mp false pr b =
    if loop_is_parallel pr (pb_loop b) || (length ks =? 0)%nat then (pr, false) else (waved pr l first ks (dep_step first ks b), true).
Proof.
  intros l first W (B1 & B2 & B3 & B4) TO ks.
  assert (forall k, In k (common_loops pr l (S first) (pb_width b - 1)) -> (first < k < first + pb_width b)%nat) as KC.
  { intros k Hk. apply filter_In in Hk as [Hk _]. apply in_seq in Hk. lia. }
  split.
  - intros k Hk. apply KC. unfold ks, summed in Hk. destruct mp; auto. rewrite <- (firstn_skipn 1). apply in_or_app. auto.
  - unfold create_tile_schedule_band. destruct (loop_is_parallel pr (pb_loop b)); auto. cbn [orb].
    rewrite loop_depths_common by exact TO.
    fold l first. cbn [length tl]. unfold ks, summed. set (c := common_loops pr l (S first) (pb_width b - 1)).
    assert ((if mp then c else firstn 1 c) = firstn (if mp then (S (length c) - 1)%nat else 1%nat) c) as E.
    { destruct mp; auto. rewrite firstn_all2; auto. lia. }
    rewrite E. destruct c as [|k0 c0].
    + destruct mp; reflexivity.
    + assert ((S (length (k0 :: c0)) <=? 1)%nat = false) as -> by (apply Nat.leb_gt; cbn; lia).
      set (m := firstn _ (k0 :: c0)). assert ((length m =? 0)%nat = false) as ->.
      { unfold m. destruct mp; cbn; auto. } reflexivity.
Qed.

(** ** All bands *)
Definition pband_ok (pr : prog) (b : pband) : Prop :=
  let l := l_stmts (pb_loop b) in let first := l_depth (pb_loop b) in
  wave_band pr l first (pb_width b) /\ levels_typed pr l first (pb_width b) /\
  (forall d, In d (p_deps pr) -> d_rar d = false -> wave_safe pr l first (first + pb_width b) d).

Lemma one_band mp pr b : wf_levels pr -> pband_ok pr b -> legal pr ->
  let q := fst (create_tile_schedule_band mp false pr b) in
  wf_levels q /\ legal q.
Proof.
  intros W (B & TO & SF) L. cbv zeta. destruct (band_step mp pr b W B TO) as [K E]. rewrite E. destruct (_ || _); [auto|]. cbn [fst].
  destruct B as (B1 & B2 & B3 & B4). split.
  - apply wv_wf; auto; [lia|intros k Hk; specialize (K k Hk); lia|apply dep_step_sv].
  - apply (wv_legal pr) with (last := (l_depth (pb_loop b) + pb_width b)%nat); auto; try lia.
    + intros k Hk; specialize (K k Hk); lia.
    + apply dep_step_sv.
    + intros k Hk. apply K; auto.
Qed.

Lemma other_band mp pr b b2 : wf_levels pr -> pband_ok pr b -> share_none b b2 -> pband_ok pr b2 ->
  pband_ok (fst (create_tile_schedule_band mp false pr b)) b2 /\
  forall s, In s (l_stmts (pb_loop b2)) -> stmt_of (fst (create_tile_schedule_band mp false pr b)) s = stmt_of pr s.
Proof.
  intros W (B & TO & SF) SN P2. destruct (band_step mp pr b W B TO) as [K E]. rewrite E. destruct (_ || _); [auto|]. cbn [fst].
  set (l := l_stmts (pb_loop b)) in *. set (first := l_depth (pb_loop b)) in *. set (ks := summed _ _ _ _ _) in *.
  destruct B as (B1 & B2 & B3 & B4). destruct P2 as ((D1 & D2 & D3 & D4) & TO2 & SF2). set (q := waved _ _ _ _ _).
  assert (forall s, In s (l_stmts (pb_loop b2)) -> stmt_of q s = stmt_of pr s) as ST.
  { intros s Hs. apply wv_out; auto. intros X. apply (SN s X Hs). }
  assert (length (p_stmts q) = length (p_stmts pr)) as LN by (apply wv_nstmts; auto).
  split; [|exact ST]. split; [|split].
  - split; auto. split; [intros s Hs; rewrite LN; auto|]. split; auto.
  - intros s k Hs Hk. rewrite ST by auto. auto.
  - intros d' Hd' R. unfold q in Hd'. apply wv_dep in Hd'; [|apply dep_step_sv]. destruct Hd' as (d & v & Hd & -> & Ev).
    assert (d_rar d = false) as R' by (rewrite Ev in R; exact R).
    apply (wv_other pr l first ks) with (last := (first + pb_width b)%nat); auto; try lia.
    + intros k Hk; specialize (K k Hk); lia.
    + apply dep_step_sv.
    + intros k Hk. apply K; auto.
Qed.

Lemma schedule_fst mp ip pr b r bands :
  create_tile_schedule mp ip pr (b :: bands) = fold_left (fun a b => let '(q, r) := create_tile_schedule_band mp ip (fst a) b in (q, snd a || r)) bands
    (create_tile_schedule_band mp ip pr b) /\
  fst (fold_left (fun a b => let '(q, r) := create_tile_schedule_band mp ip (fst a) b in (q, snd a || r)) bands (pr, r)) =
  fst (create_tile_schedule mp ip pr bands).
Proof.
  split.
  - unfold create_tile_schedule. cbn [fold_left fst snd]. destruct (create_tile_schedule_band mp ip pr b); auto.
  - unfold create_tile_schedule. generalize false as r'. revert pr r. induction bands as [|c l IH]; intros pr r r'; cbn [fold_left fst snd]; auto.
    destruct (create_tile_schedule_band mp ip pr c) as [q x]. apply IH.
Qed.
Lemma schedule_cons mp ip pr b bands : fst (create_tile_schedule mp ip pr (b :: bands)) =
  fst (create_tile_schedule mp ip (fst (create_tile_schedule_band mp ip pr b)) bands).
Proof.
  rewrite (proj1 (schedule_fst mp ip pr b false bands)). destruct (create_tile_schedule_band mp ip pr b) as [q r]. cbn [fst].
  apply (schedule_fst mp ip q b r bands).
Qed.

Lemma schedule_legal mp bands : forall pr, wf_levels pr -> ForallOrdPairs share_none bands -> Forall (pband_ok pr) bands -> legal pr ->
  wf_levels (fst (create_tile_schedule mp false pr bands)) /\ legal (fst (create_tile_schedule mp false pr bands)).
Proof.
  induction bands as [|b l IH]; intros pr W S P L; [auto|]. rewrite schedule_cons. inversion S; subst. inversion P; subst.
  destruct (one_band mp pr b) as [W1 L1]; auto. apply IH; auto. rewrite Forall_forall in *. intros c Hc. apply other_band; auto.
Qed.

Definition all_loops (pr : prog) (b : pband) : Prop :=
  forall s k, In s (l_stmts (pb_loop b)) -> (l_depth (pb_loop b) <= k < l_depth (pb_loop b) + pb_width b)%nat -> loop_level (stmt_of pr s) k = true.

Lemma common_all pr l a n : (forall s k, In s l -> (a <= k < a + n)%nat -> loop_level (stmt_of pr s) k = true) -> common_loops pr l a n = seq a n.
Proof.
  intros H. unfold common_loops. assert (forall m, (forall k, In k m -> (a <= k < a + n)%nat) -> filter (fun k => forallb (fun s => loop_level (stmt_of pr s) k) l) m = m) as A.
  { induction m as [|k m IH]; intros Hm; cbn; auto. rewrite (proj2 (forallb_forall _ _)).
    - rewrite IH; auto. intros; apply Hm; simpl; auto.
    - intros s Hs. apply H; auto. apply Hm; simpl; auto. }
  apply A. intros k Hk. apply in_seq in Hk. lia.
Qed.

Lemma one_band_satvecs mp pr b : wf_levels pr -> pband_ok pr b -> all_loops pr b -> satvecs_ok pr ->
  satvecs_ok (fst (create_tile_schedule_band mp false pr b)).
Proof.
  intros W (B & TO & SF) AL S. destruct (band_step mp pr b W B TO) as [K E]. rewrite E. destruct (_ || _); [auto|]. cbn [fst].
  destruct B as (B1 & B2 & B3 & B4). apply (wv_satvecs pr) with (last := (l_depth (pb_loop b) + pb_width b)%nat); auto; try lia.
  - intros k Hk; specialize (K k Hk); lia.
  - apply dep_step_sv.
  - intros k Hk. apply K; auto.
  - intros d Hd R. apply dep_step_gs; auto.
  - intros j k Hj Hk. unfold summed in *. rewrite common_all in * by (intros; apply AL; auto; lia).
    destruct mp; [apply in_seq in Hk; apply in_seq; lia|]. destruct (pb_width b - 1)%nat; cbn in *; [tauto|]. destruct Hk as [<-|[]]. lia.
Qed.

Lemma schedule_satvecs mp bands : forall pr, wf_levels pr -> ForallOrdPairs share_none bands -> Forall (pband_ok pr) bands -> legal pr ->
  Forall (all_loops pr) bands -> satvecs_ok pr -> satvecs_ok (fst (create_tile_schedule mp false pr bands)).
Proof.
  induction bands as [|b l IH]; intros pr W S P L A V; [auto|]. rewrite schedule_cons. inversion S; subst. inversion P; subst. inversion A; subst.
  destruct (one_band mp pr b) as [W1 L1]; auto. apply IH; auto.
  - rewrite Forall_forall in *. intros c Hc. apply other_band; auto.
  - rewrite Forall_forall in *. intros c Hc s k Hs Hk. destruct (other_band mp pr b c) as [_ X]; auto. rewrite X by auto. apply (H6 c Hc); auto.
  - apply one_band_satvecs; auto.
Qed.

(** ** The tile loops of tiled bands *)
Lemma scattering_levels pr bands : wf_levels pr -> disjoint_bands bands -> Forall (wf_band pr) bands -> wf_levels (tile_scattering_dims pr bands).
Proof.
  intros [W R] D F. split; [apply (scattering_tiled pr bands W D F)|].
  destruct (tile_bands_tiled bands pr W D F) as (A1 & A2 & _ & A4 & _).
  set (q := fold_left tile_band bands pr) in *. destruct (scatter_padded q A1) as [(P1 & P2 & P3 & P4 & P5) _].
  change (detect_types_stmtwise (detect_types (sink_all q))) with (tile_scattering_dims pr bands) in *.
  assert (p_hprops q = p_hprops pr) as HQ.
  { unfold q. clear - W D F. revert pr W F. induction bands as [|b l IH]; intros pr W F; cbn [fold_left]; auto.
    inversion D as [|x y D1 D2]; subst. inversion F as [|x y F1 F2]; subst. destruct (tile_band_tiled pr b W F1) as [W1 T].
    rewrite IH; auto; [apply T|]. rewrite Forall_forall in *. intros c Hc. destruct (F2 c Hc) as (X1 & X2 & X3).
    split; auto. split; auto. intros s Hs. destruct (X3 s Hs) as [Y1 Y2]. destruct T as (T1 & _ & _ & T4 & _). split; [lia|].
    rewrite T4; auto. destruct (in_band b s) eqn:Ib; auto. exfalso.
    specialize (D1 c Hc s Ib). rewrite In_in_band in D1 by auto. discriminate. }
  intros s Hs. rewrite P1 in Hs.
  assert (forall s, (s < length (p_stmts q))%nat -> mnrows (s_trans (stmt_of (tile_scattering_dims pr bands) s)) = max_nrows (p_stmts q)) as EM.
  { intros s0 Hs0. unfold tile_scattering_dims. fold q. unfold stmt_of, detect_types_stmtwise. cbn [p_stmts set_stmts detect_types set_hprops].
    destruct (sink_all_eq q) as (_ & _ & _ & ->). rewrite map_map.
    match goal with |- context [map ?f _] => rewrite (nth_indep _ dummy_stmt (f dummy_stmt)) by (rewrite map_length; auto); rewrite (List.map_nth f) end.
    fold (stmt_of q s0). cbn [s_trans set_hyp].
    destruct (sink_iter (max_nrows (p_stmts q) - mnrows (s_trans (stmt_of q s0))) (stmt_of q s0)) as (_ & _ & _ & _ & _ & _ & RR & _).
    unfold mnrows at 1. rewrite RR, app_length, repeat_length. pose proof (max_nrows_le _ _ (stmt_of_in q s0 Hs0)). unfold mnrows in *. lia. }
  rewrite EM by auto.
  assert (length (p_hprops pr) <= max_nrows (p_stmts q))%nat as GE.
  { rewrite <- (EM s Hs). destruct (P4 s Hs) as (_ & _ & _ & _ & X & _). assert (s < length (p_stmts pr))%nat as Hs' by lia.
    specialize (R s Hs'). destruct (A4 s Hs') as (_ & _ & B). 
    destruct (B (repeat 0 (s_dim (stmt_of pr s))) (repeat 0 (p_npar pr))) as [T _]; [apply repeat_length..|].
    apply (f_equal (@length Z)) in T. rewrite timestamp_length in T. unfold tile_stamp in T. rewrite <- R.
    destruct (in_band (band_of bands s) s) eqn:E.
    - rewrite !app_length, firstn_length, skipn_length, tile_times_length, timestamp_length in T. fold q in T. lia.
    - rewrite timestamp_length in T. fold q in T. lia. }
  unfold tile_scattering_dims. fold q. unfold detect_types_stmtwise, detect_types. cbn [p_hprops set_stmts set_hprops]. rewrite map_length, seq_length.
  unfold sink_all. set (M := max_nrows (p_stmts q)) in *. rewrite HQ.
  assert (forall n q0, length (p_hprops (Nat.iter n (fun q => prog_add_hyperplane q (length (p_hprops q)) H_UNKNOWN) q0)) = (n + length (p_hprops q0))%nat) as IT.
  { induction n as [|n IHn]; intros q0; cbn [Nat.iter nat_rect]; auto. cbn [prog_add_hyperplane p_hprops set_hprops]. rewrite insert_at_length.
    unfold Nat.iter in IHn. rewrite IHn. lia. }
  rewrite IT. cbn [p_hprops set_stmts]. rewrite HQ. lia.
Qed.

Lemma safe_pband q sizes b : wf_levels q -> (forall s, In s (l_stmts (pb_loop b)) -> types_ok (stmt_of q s)) ->
  (1 <= pb_width b)%nat -> length (sizes b) = pb_width b -> l_stmts (pb_loop b) <> [] -> wf_band q (with_sizes sizes b) -> all_loops q b ->
  (forall d, In d (p_deps q) -> d_rar d = false -> band_safe q (with_sizes sizes b) d) -> pband_ok q b.
Proof.
  intros W TO WI SZ NE (B1 & B2 & B3) AL SF. cbn [with_sizes b_stmts b_first b_sizes] in *.
  assert (wave_band q (l_stmts (pb_loop b)) (l_depth (pb_loop b)) (pb_width b)) as WB; [|split; [exact WB|split; [apply types_levels; auto|]]].
  - split; auto. split; [intros s Hs; apply B3; auto|]. split; auto.
    destruct (l_stmts (pb_loop b)) as [|s r] eqn:E; [congruence|]. destruct (B3 s (or_introl eq_refl)) as [X Y]. rewrite (proj2 W) in Y by auto. lia.
  - intros d Hd R. destruct (SF d Hd R) as [[N1 N2]|[SP|(I1 & I2 & T)]].
    + left. apply in_with_false in N1, N2. auto.
    + right. left. exact SP.
    + right. right. apply in_with in I1, I2. split; auto. split; auto. cbn [with_sizes b_first b_sizes] in T. rewrite SZ in T.
      intros s t p I Z k Hk. destruct (T s t p I Z k Hk) as [KT|(j & J1 & J2 & J3 & J4)]; [apply KT|].
      rewrite (AL _ j I1) in J2 by lia. discriminate.
Qed.
