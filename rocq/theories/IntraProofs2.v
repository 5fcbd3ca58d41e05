(** * Proofs: moving a loop inwards for a group of statements. *)
From Coq Require Import ZArith List Bool Lia Arith Permutation.
From Verif Require Import SpecLinear MathModel ConstraintsModel VecProofs EditProofs MatrixProofs ListProofs SpecProg SpecTile SpecLoop
  RankProofs SumProofs FrameworkModel ProgModel DepProofs SimplifyProofs LexProofs ProgProofs TileModel TileProofs TileProofs2 TileProofs3
  LoopModel LoopProofs LoopProofs2 LoopProofs3 LoopProofs4 LoopProofs5 WaveProofs WaveProofs2 IntraModel.
Import ListNotations.
Open Scope Z_scope.

(** Level [k] after the move is level [mv a e k] before it. *)
Definition mv (a e k : nat) : nat := if (a <=? k)%nat && (k <? e)%nat then S k else if (k =? e)%nat then a else k.
Definition mvi (a e m : nat) : nat := if (a <? m)%nat && (m <=? e)%nat then (m - 1)%nat else if (m =? a)%nat then e else m.

Lemma mv_mvi a e m : (a <= e)%nat -> mv a e (mvi a e m) = m.
Proof.
  intros H. unfold mv, mvi. destruct (Nat.ltb_spec a m), (Nat.leb_spec m e); cbn [andb];
    try (destruct (Nat.eqb_spec m a)); natb; lia.
Qed.
Lemma mv_lt a e k : (a <= e)%nat -> (k < a)%nat -> mv a e k = k.
Proof. intros. unfold mv. natb; lia. Qed.
Lemma mv_gt a e k : (a <= e)%nat -> (e < k)%nat -> mv a e k = k.
Proof. intros. unfold mv. natb; lia. Qed.
Lemma mv_in a e k : (a <= e)%nat -> (a <= k <= e)%nat -> (a <= mv a e k <= e)%nat.
Proof. intros. unfold mv. natb; lia. Qed.
Lemma mv_bound a e k n : (a <= e < n)%nat -> (k < n)%nat -> (mv a e k < n)%nat.
Proof. intros. unfold mv. natb; lia. Qed.
Lemma mvi_bound a e k n : (a <= e < n)%nat -> (k < n)%nat -> (mvi a e k < n)%nat.
Proof. intros. unfold mvi. natb; lia. Qed.

Lemma move_down_nth {A} (d : A) a e l k : (a <= e < length l)%nat -> nth k (move_down d a e l) d = nth (mv a e k) l d.
Proof.
  intros H. unfold move_down. assert (length (remove_at a l) = (length l - 1)%nat) as L by (apply remove_at_length; lia).
  destruct (Nat.lt_trichotomy k e) as [Q|[Q|Q]].
  - rewrite nth_insert_at_lt by lia. rewrite remove_at_nth by lia. unfold mv. natb; try lia; auto.
  - subst. rewrite nth_insert_at_eq by lia. unfold mv. natb; try lia; auto.
  - destruct k; [lia|]. rewrite nth_insert_at_ge by lia. rewrite remove_at_nth by lia. unfold mv. natb; try lia; auto.
Qed.
Lemma move_down_length {A} (d : A) a e l : (a <= e < length l)%nat -> length (move_down d a e l) = length l.
Proof. intros H. unfold move_down. rewrite insert_at_length, remove_at_length by lia. lia. Qed.
Lemma move_down_In {A} (d : A) a e l x : (a <= e < length l)%nat -> In x (move_down d a e l) -> In x l.
Proof.
  intros H Hx. destruct (In_nth _ _ d Hx) as (k & Hk & <-). rewrite move_down_length in Hk by auto. rewrite move_down_nth by auto.
  apply nth_In. apply mv_bound; auto.
Qed.

Lemma rotate_rows a e st : (a <= e < mnrows (s_trans st))%nat ->
  rotate_stmt a e st = set_trans st (mkMat (mncols (s_trans st)) (move_down [] a e (mrows (s_trans st)))).
Proof.
  intros H. unfold rotate_stmt. replace e with (a + (e - a))%nat at 2 by lia. rewrite <- swaps_move by (unfold mnrows in H; lia).
  assert (st = set_trans st (mkMat (mncols (s_trans st)) (mrows (s_trans st)))) as E by (destruct st as [? ? ? ? [? ?]]; reflexivity).
  rewrite E at 1. generalize (mrows (s_trans st)) as rs. clear. induction (seq a (e - a)) as [|k r IH]; intros rs; cbn [fold_left].
  - reflexivity.
  - rewrite <- IH. f_equal.
Qed.

(** The rows of the statements of [l] are moved, nothing else changes. *)
Definition moved (pr q : prog) (l : list nat) (a e : nat) : Prop :=
  length (p_stmts q) = length (p_stmts pr) /\ p_npar q = p_npar pr /\ p_deps q = p_deps pr /\ p_hprops q = p_hprops pr /\
  (forall s, ~ In s l -> stmt_of q s = stmt_of pr s) /\
  (forall s, In s l -> stmt_of q s = set_trans (stmt_of pr s) (mkMat (mncols (s_trans (stmt_of pr s))) (move_down [] a e (mrows (s_trans (stmt_of pr s)))))).

Lemma fold_map_length (f : stmt -> stmt) l ss : length (fold_left (fun ss s => map_nth s f ss) l ss) = length ss.
Proof. revert ss. induction l as [|s l IH]; intros ss; cbn; auto. rewrite IH. apply map_nth_length. Qed.

Lemma make_moved pr lp ll across : wf_levels pr -> NoDup (l_stmts lp) -> (forall s, In s (l_stmts lp) -> (s < length (p_stmts pr))%nat) ->
  let e := innermost_to pr lp ll across in (l_depth lp <= e < length (p_hprops pr))%nat ->
  moved pr (make_innermost_loop pr lp ll across) (l_stmts lp) (l_depth lp) e.
Proof.
  intros W ND LR e E. split; [apply fold_map_length|]. do 3 (split; [reflexivity|]). split.
  - intros s Hs. apply innermost_notin; auto.
  - intros s Hs. rewrite innermost_in by auto. apply rotate_rows. rewrite (proj2 W) by auto. exact E.
Qed.

(** When the move is allowed. *)
Definition move_ok (pr : prog) (l : list nat) (a e : nat) : Prop :=
  forall d, In d (p_deps pr) -> d_rar d = false ->
    (In (d_src d) l -> In (d_dst d) l -> permutable_on pr d a (S e) \/ not_carried pr d a) /\
    (~ (In (d_src d) l <-> In (d_dst d) l) -> separated_before pr d a).

Lemma lex_weak pr d s t p : wf_levels pr -> (d_src d < length (p_stmts pr))%nat -> (d_dst d < length (p_stmts pr))%nat ->
  (exists m, (m < length (p_hprops pr))%nat /\ (forall j, (j < m)%nat -> 0 <= distance pr d j s t p) /\ 0 < distance pr d m s t p) ->
  lexlt (timestamp (stmt_of pr (d_src d)) s p) (timestamp (stmt_of pr (d_dst d)) t p).
Proof.
  intros W H1 H2 (m & M1 & M2 & M3). pose proof (timestamp_len pr _ s p W H1) as L1. pose proof (timestamp_len pr _ t p W H2) as L2.
  apply (lexlt_at m); try lia.
  - intros j Hj. rewrite !timestamp_at by (auto; lia). specialize (M2 j Hj). exact M2.
  - rewrite !timestamp_at by (auto; lia). exact M3.
Qed.

Section Moved.
Variables (pr q : prog) (l : list nat) (a e : nat).
Hypothesis W : wf_levels pr.
Hypothesis LR : forall s, In s l -> (s < length (p_stmts pr))%nat.
Hypothesis AE : (a <= e < length (p_hprops pr))%nat.
Hypothesis M : moved pr q l a e.

Lemma mo_len : length (p_stmts q) = length (p_stmts pr). Proof. apply M. Qed.
Lemma mo_hyps : p_hprops q = p_hprops pr. Proof. apply M. Qed.
Lemma mo_deps : p_deps q = p_deps pr. Proof. apply M. Qed.
Lemma mo_npar : p_npar q = p_npar pr. Proof. apply M. Qed.
Lemma mo_out s : ~ In s l -> stmt_of q s = stmt_of pr s. Proof. apply M. Qed.

Lemma mo_rows s : In s l -> (a <= e < length (mrows (s_trans (stmt_of pr s))))%nat.
Proof. intros Hs. pose proof (proj2 W s (LR s Hs)). unfold mnrows in *. lia. Qed.

Lemma mo_row s k : In s l -> nth k (mrows (s_trans (stmt_of q s))) [] = nth (mv a e k) (mrows (s_trans (stmt_of pr s))) [].
Proof.
  intros Hs. destruct M as (_ & _ & _ & _ & _ & MI). rewrite MI by auto. cbn [set_trans s_trans mrows]. apply move_down_nth. apply mo_rows; auto.
Qed.
Lemma mo_theta s k i p : In s l -> theta (stmt_of q s) k i p = theta (stmt_of pr s) (mv a e k) i p.
Proof. intros Hs. unfold theta. rewrite mo_row by auto. auto. Qed.

Lemma mo_same s : let st := stmt_of pr s in let st' := stmt_of q s in
  s_dim st' = s_dim st /\ s_domain st' = s_domain st /\ s_reads st' = s_reads st /\ s_writes st' = s_writes st /\ s_hyp st' = s_hyp st /\
  mncols (s_trans st') = mncols (s_trans st).
Proof.
  cbv zeta. destruct (in_dec Nat.eq_dec s l) as [H|H]; [|rewrite mo_out by auto; repeat (split; [reflexivity|]); reflexivity].
  destruct M as (_ & _ & _ & _ & _ & MI). rewrite MI by auto. repeat (split; [reflexivity|]); reflexivity.
Qed.
Lemma mo_nrows s : (s < length (p_stmts pr))%nat -> mnrows (s_trans (stmt_of q s)) = length (p_hprops pr).
Proof.
  intros Hs. destruct (in_dec Nat.eq_dec s l) as [H|H]; [|rewrite mo_out by auto; apply W; auto].
  destruct M as (_ & _ & _ & _ & _ & MI). rewrite MI by auto. unfold mnrows. cbn [set_trans s_trans mrows]. rewrite move_down_length by (apply mo_rows; auto).
  apply (proj2 W); auto.
Qed.

Lemma mo_wf : wf_levels q.
Proof.
  destruct W as [[W1 W2] WR]. split; [split|].
  - intros st Hst. destruct (In_nth _ _ dummy_stmt Hst) as (s & Hs & <-). fold (stmt_of q s). rewrite mo_len in Hs.
    destruct (mo_same s) as (A1 & A2 & A3 & A4 & A5 & A6). pose proof (mo_nrows s Hs) as NR.
    destruct (W1 (stmt_of pr s) (stmt_of_in pr s Hs)) as ((X1 & X2 & X3 & X4 & X5 & X6) & X7).
    split; [|rewrite A5, NR, X7; auto].
    unfold wf_cols. rewrite A1, A2, A3, A4, A6, mo_npar. split; [|split; [auto|split; [|auto]]].
    + destruct (in_dec Nat.eq_dec s l) as [H|H]; [|rewrite mo_out by auto; auto]. destruct M as (_ & _ & _ & _ & _ & MI). rewrite MI by auto. exact X1.
    + destruct (in_dec Nat.eq_dec s l) as [H|H]; [|rewrite mo_out by auto; auto]. destruct M as (_ & _ & _ & _ & _ & MI). rewrite MI by auto.
      intros r Hr. cbn [set_trans s_trans mrows mncols] in *. apply move_down_In in Hr; [|apply mo_rows; auto]. apply X3; auto.
  - intros d Hd. rewrite mo_deps in Hd. destruct (W2 d Hd) as (Y1 & Y2 & Y3 & Y4). rewrite mo_len, mo_npar.
    destruct (mo_same (d_src d)) as (-> & _). destruct (mo_same (d_dst d)) as (-> & _). auto.
  - intros s Hs. rewrite mo_hyps. rewrite mo_len in Hs. apply mo_nrows; auto.
Qed.

Lemma mo_instance d s t p : instance q d s t p <-> instance pr d s t p.
Proof. unfold instance. rewrite mo_npar. destruct (mo_same (d_src d)) as (-> & _). destruct (mo_same (d_dst d)) as (-> & _). tauto. Qed.

Lemma mo_theta_lt s k i p : (k < a)%nat -> theta (stmt_of q s) k i p = theta (stmt_of pr s) k i p.
Proof.
  intros Hk. destruct (in_dec Nat.eq_dec s l) as [H|H]; [|rewrite mo_out; auto]. rewrite mo_theta, mv_lt by (auto; lia). auto.
Qed.
Lemma mo_distance_lt d k s t p : (k < a)%nat -> distance q d k s t p = distance pr d k s t p.
Proof. intros Hk. unfold distance. rewrite !mo_theta_lt by auto. auto. Qed.
Lemma mo_distance_in d k s t p : In (d_src d) l -> In (d_dst d) l -> distance q d k s t p = distance pr d (mv a e k) s t p.
Proof. intros H1 H2. unfold distance. rewrite !mo_theta by auto. auto. Qed.
Lemma mo_distance_out d k s t p : ~ In (d_src d) l -> ~ In (d_dst d) l -> distance q d k s t p = distance pr d k s t p.
Proof. intros H1 H2. unfold distance. rewrite !mo_out by auto. auto. Qed.

Lemma mo_ends d : In d (p_deps pr) -> (d_src d < length (p_stmts pr))%nat /\ (d_dst d < length (p_stmts pr))%nat.
Proof. intros H. destruct (proj2 (proj1 W) d H) as (A & B & _). auto. Qed.

Lemma mo_separated d c : In d (p_deps pr) -> (c <= a)%nat -> separated_before pr d c -> separated_before q d c.
Proof.
  intros Hd Hc S. destruct (mo_ends d Hd) as [E1 E2]. apply separated_distance; auto using mo_wf; rewrite ?mo_len, ?mo_hyps; auto; [lia|].
  intros s t p I. apply mo_instance in I. rewrite separated_distance in S by (auto; lia). destruct (S s t p I) as (m & M1 & M2 & M3).
  exists m. split; auto. split; [intros j Hj|]; rewrite mo_distance_lt by lia; auto.
Qed.

Lemma separated_le c c' d : In d (p_deps pr) -> (c <= c' <= length (p_hprops pr))%nat -> separated_before pr d c -> separated_before pr d c'.
Proof.
  intros Hd Hc S. destruct (mo_ends d Hd) as [E1 E2]. rewrite separated_distance in * by (auto; lia).
  intros s t p I. destruct (S s t p I) as (m & M1 & M2 & M3). exists m. split; [lia|auto].
Qed.

Lemma mo_legal : move_ok pr l a e -> legal pr -> legal q.
Proof.
  intros OK L d Hd R s t p I. rewrite mo_deps in Hd. destruct (OK d Hd R) as [K1 K2]. destruct (mo_ends d Hd) as [E1 E2].
  pose proof (mo_wf) as Wq. apply mo_instance in I. pose proof (L d Hd R s t p I) as LT. apply lexlt_distance in LT; auto.
  destruct LT as (m & M1 & M2 & M3).
  apply lex_weak; auto; rewrite ?mo_len, ?mo_hyps; auto.
  destruct (in_dec Nat.eq_dec (d_src d) l) as [Is|Is], (in_dec Nat.eq_dec (d_dst d) l) as [It|It].
  - destruct (Nat.lt_ge_cases m a) as [Q|Q].
    + exists m. split; auto. split; [intros j Hj|]; rewrite mo_distance_lt by lia; auto. rewrite M2; auto; lia.
    + exists (mvi a e m). split; [apply mvi_bound; auto|]. split; [|rewrite mo_distance_in, mv_mvi by (auto; lia); auto].
      intros j Hj. rewrite mo_distance_in by auto. destruct (Nat.lt_ge_cases j a) as [J|J]; [rewrite mv_lt, M2 by lia; lia|].
      destruct (Nat.lt_ge_cases e j) as [J'|J'].
      { rewrite mv_gt by lia. rewrite M2; [lia|]. unfold mvi in Hj. revert Hj. natb; lia. }
      destruct (K1 Is It) as [P|P].
      * apply P; auto; [intros k Hk; apply M2; lia|]. pose proof (mv_in a e j ltac:(lia) ltac:(lia)). lia.
      * assert (distance pr d a s t p = 0) as Z by (apply P; auto; intros; apply M2; lia).
        assert (m <> a) as NA by (intros ->; lia). unfold mv, mvi in *. revert Hj. natb; try lia; intros; rewrite ?M2 by lia; try lia.
        all: subst; rewrite ?Z; try lia.
  - specialize (K2 ltac:(tauto)). rewrite separated_distance in K2 by (auto; lia). destruct (K2 s t p I) as (j & J1 & J2 & J3).
    exists j. split; [lia|]. split; [intros i Hi|]; rewrite mo_distance_lt by lia; auto. rewrite J2; auto; lia.
  - specialize (K2 ltac:(tauto)). rewrite separated_distance in K2 by (auto; lia). destruct (K2 s t p I) as (j & J1 & J2 & J3).
    exists j. split; [lia|]. split; [intros i Hi|]; rewrite mo_distance_lt by lia; auto. rewrite J2; auto; lia.
  - exists m. split; auto. split; [intros j Hj|]; rewrite mo_distance_out by auto; auto. rewrite M2; auto; lia.
Qed.

(** Moves of disjoint groups do not disturb each other. *)
Lemma mo_other l2 a2 e2 : (forall s, In s l2 -> ~ In s l) -> (a2 <= length (p_hprops pr))%nat ->
  move_ok pr l a e -> move_ok pr l2 a2 e2 -> move_ok q l2 a2 e2.
Proof.
  intros DJ A2 OK OK2 d Hd R. rewrite mo_deps in Hd. destruct (OK d Hd R) as [K1 K2]. destruct (OK2 d Hd R) as [N1 N2]. split.
  - intros I1 I2. specialize (N1 I1 I2). pose proof (DJ _ I1) as O1. pose proof (DJ _ I2) as O2. destruct N1 as [P|P]; [left|right].
    + intros s t p I Z k Hk. apply mo_instance in I. rewrite mo_distance_out by auto. apply P; auto. intros j Hj. rewrite <- mo_distance_out by auto. auto.
    + intros s t p I Z. apply mo_instance in I. rewrite mo_distance_out by auto. apply P; auto. intros j Hj. rewrite <- mo_distance_out by auto. auto.
  - intros X. specialize (N2 X). destruct (mo_ends d Hd) as [E1 E2]. pose proof mo_wf as Wq.
    destruct (in_dec Nat.eq_dec (d_src d) l) as [Is|Is], (in_dec Nat.eq_dec (d_dst d) l) as [It|It].
    + exfalso. apply X. split; intros Y; exfalso; eapply DJ; eauto.
    + specialize (K2 ltac:(tauto)). destruct (Nat.le_ge_cases a2 a) as [Q|Q]; [apply mo_separated; auto|].
      pose proof (mo_separated d a Hd (le_n a) K2) as S. rewrite separated_distance in * by (rewrite ?mo_len, ?mo_hyps; auto; lia).
      intros s t p I. destruct (S s t p I) as (m & M1 & M2 & M3). exists m. split; [lia|auto].
    + specialize (K2 ltac:(tauto)). destruct (Nat.le_ge_cases a2 a) as [Q|Q]; [apply mo_separated; auto|].
      pose proof (mo_separated d a Hd (le_n a) K2) as S. rewrite separated_distance in * by (rewrite ?mo_len, ?mo_hyps; auto; lia).
      intros s t p I. destruct (S s t p I) as (m & M1 & M2 & M3). exists m. split; [lia|auto].
    + rewrite separated_distance in * by (rewrite ?mo_len, ?mo_hyps; auto; lia).
      intros s t p I. apply mo_instance in I. destruct (N2 s t p I) as (m & M1 & M2 & M3). exists m.
      split; auto. split; [intros j Hj|]; rewrite mo_distance_out by auto; auto.
Qed.
End Moved.
