(** * The automatic transformation in eager mode: shape of the result. *)
From Coq Require Import ZArith List Bool Arith Lia.
From Verif Require Import SpecLinear SpecMatrix VecProofs MathModel ConstraintsModel EditProofs FarkasProofs RankProofs MatrixProofs
  SpecGraph GraphModel GraphProofs GraphProofs2
  SpecProg SpecTile SpecLoop SpecDriver FrameworkModel FrameworkProofs SumProofs DepProofs LexProofs ProgModel ProgProofs DriverModel HypProofs KeepProofs DriverProofs
  PadProofs AutoProofs GrowProofs LoopProofs2.
Import ListNotations.
Open Scope Z_scope.

(** ** Types are kept when the padding is removed *)

Lemma remove_dim_hyp pr sid pos s : s_hyp (stmt_of (stmt_remove_dim pr sid pos) s) = s_hyp (stmt_of pr s).
Proof.
  unfold stmt_of, stmt_remove_dim. cbn [p_stmts set_stmts set_deps].
  destruct (le_lt_dec (length (p_stmts pr)) s) as [L|L].
  - rewrite !nth_overflow; auto. rewrite map_nth_length. auto.
  - rewrite map_nth_nth. destruct (Nat.eqb_spec s sid) as [->|]; cbn [andb]; auto. destruct (_ <? _)%nat; auto.
Qed.

Lemma map_nth_hyp pr sid f s : (forall st, s_hyp (f st) = s_hyp st) ->
  s_hyp (stmt_of (set_stmts pr (map_nth sid f (p_stmts pr))) s) = s_hyp (stmt_of pr s).
Proof.
  intros H. unfold stmt_of. cbn [p_stmts set_stmts]. destruct (le_lt_dec (length (p_stmts pr)) s) as [L|L].
  - rewrite !nth_overflow; auto. rewrite map_nth_length. auto.
  - rewrite map_nth_nth. destruct (Nat.eqb_spec s sid) as [->|]; cbn [andb]; auto. destruct (_ <? _)%nat; auto.
Qed.

Lemma unpad_hyp n : forall pos sid pr s, s_hyp (stmt_of (unpad_domain n pos sid pr) s) = s_hyp (stmt_of pr s).
Proof.
  induction n as [|n IH]; intros pos sid pr s; cbn [unpad_domain]; auto. destruct (nth _ _ _); [apply IH|].
  cbv zeta. rewrite IH. rewrite map_nth_hyp by auto. apply remove_dim_hyp.
Qed.

Lemma denormalize_hyp pr s : s_hyp (stmt_of (denormalize_domains pr) s) = s_hyp (stmt_of pr s).
Proof.
  unfold denormalize_domains. generalize (seq 0 (length (p_stmts pr))) as l. intros l. revert pr.
  induction l as [|a l IH]; intros pr; cbn [fold_left]; auto. rewrite IH. rewrite map_nth_hyp by auto. apply unpad_hyp.
Qed.

(** ** Rows from values *)

Lemma aff_zero r n : aff r (repeat 0 n) = nth n r 0.
Proof.
  unfold aff. revert r. induction n as [|n IH]; intros [|a r]; cbn; auto; try lia.
  - destruct r; cbn; lia.
  - rewrite IH. lia.
Qed.
Lemma aff_unit r n j : (j < n)%nat -> aff r (set_nth j 1 (repeat 0 n)) = nth j r 0 + nth n r 0.
Proof.
  unfold aff. revert r j. induction n as [|n IH]; intros [|a r] [|j] H; cbn; auto; try lia.
  - pose proof (aff_zero r n) as E. unfold aff in E. rewrite E. lia.
  - rewrite IH by lia. lia.
Qed.

(** Rows that agree on all points extended by zeros agree on the coefficients. *)
Lemma set_nth_app_l {A} j (v : A) a b : (j < length a)%nat -> set_nth j v (a ++ b) = set_nth j v a ++ b.
Proof. revert j. induction a as [|x a IH]; intros [|j] H; cbn in *; try lia; auto. f_equal. apply IH. lia. Qed.

Lemma rows_agree ra rb n z m : (forall x p, length x = n -> length p = m -> aff ra (x ++ p) = aff rb ((x ++ repeat 0 z) ++ p)) ->
  forall j, (j < n)%nat -> nth j ra 0 = nth j rb 0.
Proof.
  intros H j Hj.
  pose proof (H (repeat 0 n) (repeat 0 m) (repeat_length _ _) (repeat_length _ _)) as H0.
  rewrite <- !repeat_app, !aff_zero in H0.
  pose proof (H (set_nth j 1 (repeat 0 n)) (repeat 0 m)) as H1. rewrite set_nth_length, !repeat_length in H1. specialize (H1 eq_refl eq_refl).
  rewrite <- !set_nth_app_l in H1 by (rewrite ?app_length, ?repeat_length; lia). rewrite <- !repeat_app in H1.
  rewrite !aff_unit in H1 by lia. lia.
Qed.

Lemma aff_zero_coefs r x : (forall j, (j < length x)%nat -> nth j r 0 = 0) -> aff r x = nth (length x) r 0.
Proof.
  unfold aff. revert r. induction x as [|a x IH]; intros [|b r] H; cbn; auto; try lia.
  - destruct r; cbn; lia.
  - rewrite IH by (intros j Hj; apply (H (S j)); cbn; lia). specialize (H 0%nat ltac:(cbn; lia)). cbn in H. rewrite H. lia.
Qed.

Section Result.
Variables (F q : prog).
Hypothesis W : wf_prog F.
Hypothesis P : padded F.
Hypothesis O : orig_first F.
Hypothesis T : typed F.
Hypothesis U : unpadded F (length (p_stmts F)) q.
Hypothesis HH : forall s, s_hyp (stmt_of q s) = s_hyp (stmt_of F s).
Hypothesis HP : p_hprops q = p_hprops F.

Let N : length (p_stmts q) = length (p_stmts F) := ag_n _ _ (u_ag _ _ _ U).
Let NP : p_npar q = p_npar F := ag_par _ _ (u_ag _ _ _ U).

Lemma r_simple : simple q.
Proof. intros s Hs. apply (u_done _ _ _ U). rewrite <- N. auto. Qed.

Lemma r_dim s : (s < length (p_stmts F))%nat -> s_dim (stmt_of q s) = s_dim_orig (stmt_of F s) /\ (s_dim_orig (stmt_of F s) <= p_nvar F)%nat.
Proof.
  intros Hs. rewrite r_simple by lia. rewrite (ag_dim0 _ _ (u_ag _ _ _ U)). split; auto. apply O. apply stmt_of_in. auto.
Qed.

Lemma r_time s x p : (s < length (p_stmts F))%nat -> length x = s_dim (stmt_of q s) -> length p = p_npar F ->
  timestamp (stmt_of q s) x p = timestamp (stmt_of F s) (zp F s x) p.
Proof.
  intros Hs Lx Lp. destruct (r_dim s Hs) as [D _]. rewrite <- (u_time _ _ _ U) by (auto; unfold dim0; congruence).
  rewrite zp_simple; auto. apply r_simple. lia. rewrite <- r_simple by lia. auto.
Qed.

Lemma r_rows s : (s < length (p_stmts F))%nat -> mnrows (s_trans (stmt_of q s)) = length (p_hprops q).
Proof.
  intros Hs. rewrite HP, <- (wf_nrows F s W Hs).
  assert (length (repeat 0 (p_npar F)) = p_npar F) as Lp by apply repeat_length.
  pose proof (r_time s (repeat 0 (s_dim (stmt_of q s))) (repeat 0 (p_npar F)) Hs (repeat_length _ _) Lp) as E.
  apply (f_equal (@length Z)) in E. rewrite !timestamp_length in E. auto.
Qed.

Lemma r_theta s k x p : (s < length (p_stmts F))%nat -> length x = s_dim (stmt_of q s) -> length p = p_npar F ->
  theta (stmt_of q s) k x p = theta (stmt_of F s) k (zp F s x) p.
Proof.
  intros Hs Lx Lp. pose proof (r_time s x p Hs Lx Lp) as E. apply (f_equal (fun l => nth k l 0)) in E. rewrite !timestamp_nth in E.
  rewrite (r_rows s Hs), HP, (wf_nrows F s W Hs) in E. destruct (Nat.ltb_spec k (length (p_hprops F))); auto.
  unfold theta. rewrite !nth_overflow; auto. fold (mnrows (s_trans (stmt_of F s))). rewrite wf_nrows; auto.
  fold (mnrows (s_trans (stmt_of q s))). rewrite r_rows, HP; auto.
Qed.

Lemma r_coef s k j : (s < length (p_stmts F))%nat -> (j < s_dim (stmt_of q s))%nat ->
  nth j (nth k (mrows (s_trans (stmt_of q s))) []) 0 = nth j (nth k (mrows (s_trans (stmt_of F s))) []) 0.
Proof.
  intros Hs Hj. destruct (r_dim s Hs) as [D1 D2].
  apply (rows_agree _ _ (s_dim (stmt_of q s)) (s_dim (stmt_of F s) - s_dim (stmt_of q s)) (p_npar F)); auto.
  intros x p Lx Lp. pose proof (r_theta s k x p Hs Lx Lp) as E. unfold theta, zp in E. rewrite Lx in E. exact E.
Qed.

Lemma r_loop s k : loop_level (stmt_of q s) k = loop_level (stmt_of F s) k.
Proof. unfold loop_level. rewrite HH. auto. Qed.

Lemma r_types s : (s < length (p_stmts F))%nat -> types_ok (stmt_of q s).
Proof.
  intros Hs k Hk. rewrite r_rows, HP in Hk by auto. rewrite r_loop. destruct (T s k Hs Hk) as [_ T2 _ T4]. rewrite T2.
  destruct (r_dim s Hs) as [D1 D2]. split.
  - intros H j Hj. rewrite r_coef by auto. apply H. lia.
  - intros H j Hj. destruct (le_lt_dec (s_dim_orig (stmt_of F s)) j) as [L|L]; [apply T4; auto|].
    rewrite <- r_coef by (auto; lia). apply H. lia.
Qed.

Lemma r_plain : plain_levels q.
Proof.
  intros s Hs. rewrite N in Hs. split; [apply r_types; auto|]. intros k Hk L. rewrite HP in Hk. rewrite r_loop in L.
  destruct (T s k Hs Hk) as [T1 T2 _ _]. pose proof (proj1 T2 L) as Z. destruct (r_dim s Hs) as [D1 D2].
  intros i i' p p' Li Li' Lp Lp'. rewrite NP in Lp, Lp'. rewrite !r_theta by auto. unfold theta.
  assert (s_dim (stmt_of F s) = p_nvar F) as PD by (apply P; apply stmt_of_in; auto).
  assert (forall x y, length x = s_dim (stmt_of q s) -> length y = p_npar F ->
    aff (nth k (mrows (s_trans (stmt_of F s))) []) (zp F s x ++ y) = nth (p_nvar F + p_npar F) (nth k (mrows (s_trans (stmt_of F s))) []) 0) as A.
  { intros x y Lx Ly. assert (length (zp F s x ++ y) = (p_nvar F + p_npar F)%nat) as Lz by (unfold zp; rewrite !app_length, repeat_length; lia).
    rewrite aff_zero_coefs; rewrite Lz; auto. intros j Hj. destruct (le_lt_dec (p_nvar F) j); [apply T1; auto|apply Z; auto]. }
  rewrite !A; auto.
Qed.

Lemma r_levels : wf_levels q.
Proof.
  pose proof (u_wsh _ _ _ U) as [S1 S2]. split.
  - split; [|exact S2]. intros st Hst. split; [apply S1; auto|]. apply in_stmt_of in Hst as (s & Hs & <-). rewrite N in Hs.
    rewrite r_rows, HP, HH by auto. apply (proj1 W _ (stmt_of_in F s Hs)).
  - intros s Hs. apply r_rows. lia.
Qed.

Lemma r_instance d d' x y p : dep_agree F q d d' -> wf_dep F d -> instance q d' x y p ->
  instance F d (zp F (d_src d) x) (zp F (d_dst d) y) p /\
  (forall k, distance q d' k x y p = distance F d k (zp F (d_src d) x) (zp F (d_dst d) y) p).
Proof.
  intros (E1 & E2 & E3 & E4) (D1 & D2 & _) (L1 & L2 & L3 & M). rewrite E1 in L1. rewrite E2 in L2. rewrite NP in L3.
  destruct (r_dim _ D1) as [A1 A2]. destruct (r_dim _ D2) as [B1 B2].
  assert (forall s, (s < length (p_stmts F))%nat -> s_dim (stmt_of F s) = p_nvar F) as PD by (intros; apply P; apply stmt_of_in; auto).
  split.
  - split; [apply zp_length; rewrite PD; auto; lia|]. split; [apply zp_length; rewrite PD; auto; lia|]. split; auto.
    apply E4; [unfold dim0; lia|unfold dim0; lia|auto|].
    rewrite (zp_simple q (d_src d)), (zp_simple q (d_dst d)); auto using r_simple; try lia; rewrite <- r_simple; lia.
  - intros k. unfold distance. rewrite E1, E2. rewrite !r_theta by auto. auto.
Qed.

Lemma r_leveled : leveled F -> leveled q.
Proof.
  intros L d' Hd' Hr. destruct (Forall2_in_r _ _ _ d' (ag_dep _ _ (u_ag _ _ _ U)) Hd') as (d & Hd & A).
  assert (wf_dep F d) as WD by (apply W; auto). pose proof A as (E1 & E2 & E3 & _).
  destruct (L d Hd ltac:(congruence)) as (k & Hk & S1 & S2). exists k. split; [rewrite HP; auto|]. split.
  - intros x y p I. destruct (r_instance d d' x y p A WD I) as [J D]. rewrite D. apply S1; auto.
  - intros j Hj x y p I. destruct (r_instance d d' x y p A WD I) as [J D]. rewrite D. apply S2; auto.
Qed.
End Result.

Section Eager.
Variables (is_emptyb isl_emptyb : cst -> bool) (kernel : matrix -> matrix) (solve : prog -> cst -> option point) (o : options).
Hypothesis EX : exact_empty is_emptyb.
Hypothesis SOL : lexmin_keeps solve.
Hypothesis KO : kernel_ok kernel.
Hypothesis KC : kernel_complete kernel.

Lemma start_shape pr : input_ok pr -> shape (st_prog (start_state pr)).
Proof.
  intros IN. destruct (start_inv pr IN) as [I _].
  assert (p_hprops (st_prog (start_state pr)) = []) as H0 by reflexivity. split.
  - intros s k Hs Hk. rewrite H0 in Hk. cbn in Hk. lia.
  - intros D. exists 0%nat. split.
    + intros s Hs. pose proof (wf_nrows _ s (i_wf _ _ I) Hs) as E. rewrite H0 in E. unfold mnrows in E.
      destruct (mrows (s_trans (stmt_of (st_prog (start_state pr)) s))); [apply rank_nil|discriminate].
    + intros s t k _ _ Hk. rewrite H0 in Hk. cbn in Hk. lia.
Qed.

Lemma eager_result fuse fuel pr s : input_ok pr ->
  auto_search is_emptyb isl_emptyb kernel solve o fuse fuel pr = Some (Continue s EAGER) ->
  let q := denormalize_domains (st_prog s) in
  wf_levels q /\ plain_levels q /\ leveled q /\
  ((forall st, In st (p_stmts pr) -> s_dim st = p_nvar pr) -> uniform q).
Proof.
  intros IN H q. unfold auto_search in H. cbv zeta in H. fold (start_state pr) in H.
  pose proof (second_inv is_emptyb EX pr fuse IN) as G2. destruct (start_inv pr IN) as [I0 A0]. pose proof (start_shape pr IN) as S0.
  assert (shape (st_prog (match fuse with SmartFuse => fst (cut_scc_dim_based is_emptyb (start_state pr)) | _ => start_state pr end))) as S2.
  { destruct fuse; auto. apply (cut_dim_shape is_emptyb EAGER); auto. }
  set (s2 := match fuse with SmartFuse => _ | _ => _ end) in *.
  destruct (drive_good isl_emptyb kernel solve o SOL is_emptyb EX fuse fuel 0 EAGER s2 _ (proj1 G2) H) as [[I F] [FR DS]].
  pose proof (drive_shape is_emptyb isl_emptyb kernel solve o EX SOL KO KC fuse fuel 0 s2 s (proj1 G2) S2 H) as [T S].
  pose proof (inv_satisfied_leveled s I DS) as L.
  pose proof (i_wf _ _ I) as W. pose proof (i_pad _ _ I) as P. pose proof (i_orig _ _ I) as O.
  assert (unpadded (st_prog s) (length (p_stmts (st_prog s))) q) as U.
  { apply denormalize_ok. apply wsh_of. apply wf_prog_shapes; auto. intros k Hk. pose proof (stmt_of_in _ k Hk) as In.
    destruct (O _ In) as [O1 O2]. split; [exact O1|]. split; [apply P; auto|]. exact O2. }
  assert (forall u, s_hyp (stmt_of q u) = s_hyp (stmt_of (st_prog s) u)) as HH by (intros; apply denormalize_hyp).
  assert (p_hprops q = p_hprops (st_prog s)) as HP by apply denormalize_hprops.
  split; [apply (r_levels (st_prog s)); auto|]. split; [apply (r_plain (st_prog s)); auto|]. split; [apply (r_leveled (st_prog s)); auto|].
  intros D. assert (agree pr (st_prog s)) as AS.
  { eapply agree_trans; [exact A0|]. apply frame_agree. eapply frame_trans; [apply G2|exact F]. }
  destruct S as (c & _ & S).
  { intros u Hu. change (dim0 (st_prog s) u = p_nvar (st_prog s)). rewrite (ag_dim0 _ _ AS), (ag_var _ _ AS).
    rewrite (ag_n _ _ AS) in Hu. pose proof (stmt_of_in pr u Hu) as Hin. unfold dim0. destruct IN as [_ Hi]. destruct (Hi _ Hin) as (<- & _). auto. }
  intros u v k Hu Hv Hk _. unfold loop_level. rewrite !HH. rewrite HP in Hk. rewrite (ag_n _ _ (u_ag _ _ _ U)) in Hu, Hv. apply (S u v k); auto.
Qed.

Lemma auto_dim0 fuse fuel pr q : input_ok pr -> auto_transform is_emptyb isl_emptyb kernel solve o fuse fuel pr = Some (0, q) ->
  forall u, (u < length (p_stmts pr))%nat -> s_dim_orig (stmt_of q u) = s_dim_orig (stmt_of pr u).
Proof.
  intros IN H u Hu. unfold auto_transform, auto_search in H. destruct (Nat.eqb_spec (length (p_stmts pr)) 0) as [E|E]; [lia|].
  cbv zeta in H. fold (start_state pr) in H. pose proof (second_inv is_emptyb EX pr fuse IN) as G2.
  set (s2 := match fuse with SmartFuse => _ | _ => _ end) in *.
  destruct (drive _ _ _ _ _ _ _ _ _ _) as [[s m|s]|] eqn:Dr; [|discriminate|discriminate].
  injection H as <-. destruct (drive_good isl_emptyb kernel solve o SOL is_emptyb EX fuse fuel 0 EAGER s2 _ (proj1 G2) Dr) as [[I F] _].
  assert (frame (st_prog (start_state pr)) (st_prog s)) as F' by (eapply frame_trans; [apply G2|exact F]).
  destruct (end_ok _ pr s IN I F') as (A & _). apply (ag_dim0 _ _ A u).
Qed.
End Eager.
