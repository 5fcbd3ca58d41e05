(** * Tiling with diamonds. *)
From Coq Require Import ZArith List Bool Lia Arith.
From Verif Require Import SpecLinear SpecMatrix MathModel ConstraintsModel VecProofs EditProofs SpecProg SpecTile SpecLoop SpecDriver SpecDiamond FrameworkModel
  ProgModel DepProofs ProgProofs DriverModel DriverProofs TileModel TileProofs LoopModel LoopProofs LoopProofs2 LoopProofs3 LoopProofs4 LoopProofs5 WaveProofs2 DiamondModel DiamondProofs DiamondProofs2 IntraModel SpecCone ConeModel ConeProofs.
Import ListNotations.
Open Scope Z_scope.

Lemma put_back_len pos pr : length (p_stmts (put_back pos pr)) = length (p_stmts pr).
Proof. unfold put_back. cbn. rewrite map_length, seq_length. auto. Qed.
Lemma put_back_stmt_of pos pr s : (s < length (p_stmts pr))%nat -> stmt_of (put_back pos pr) s = put_back_stmt (nth s pos 0%nat) (stmt_of pr s).
Proof. intros Hs. unfold put_back, stmt_of at 1. cbn [set_stmts p_stmts]. rewrite nth_map_seq; auto. Qed.
Lemma put_back_dim k st : s_dim (put_back_stmt k st) = s_dim st /\ s_dim_orig (put_back_stmt k st) = s_dim_orig st /\ s_domain (put_back_stmt k st) = s_domain st /\
  s_hyp (put_back_stmt k st) = s_hyp st /\ mncols (s_trans (put_back_stmt k st)) = mncols (s_trans st) /\ mnrows (s_trans (put_back_stmt k st)) = mnrows (s_trans st) /\
  s_evict (put_back_stmt k st) = None /\ s_reads (put_back_stmt k st) = s_reads st /\ s_writes (put_back_stmt k st) = s_writes st.
Proof.
  unfold put_back_stmt. destruct (s_evict st) eqn:E; cbn; repeat (split; auto). unfold mnrows. cbn. apply set_nth_length.
Qed.

Section Tiled.
Variables (pr : prog) (pos : list nat) (bands : list band).
Hypothesis W : wf_core pr.
Hypothesis LP : length pos = length (p_stmts pr).
Hypothesis D : disjoint_bands bands.
Hypothesis F : Forall (wf_band pr) bands.
Hypothesis HB : forall s e, (s < length (p_stmts pr))%nat -> s_evict (stmt_of pr s) = Some e ->
  length e = mncols (s_trans (stmt_of pr s)) /\
  exists b, In b bands /\ In s (b_stmts b) /\ (b_first b <= nth s pos 0%nat < b_first b + length (b_sizes b))%nat.
Hypothesis HO : forall s, (s < length (p_stmts pr))%nat -> s_dim_orig (stmt_of pr s) = s_dim (stmt_of pr s).
Hypothesis HL : forall b s k, In b bands -> In s (b_stmts b) -> (b_first b <= k < b_first b + length (b_sizes b))%nat -> loop_level (stmt_of pr s) k = true.
Let n := length (p_stmts pr).
Let pr0 := put_back pos pr.

Definition the_evictions : list eviction :=
  map (fun s => ([s], nth s pos 0%nat, [nth (nth s pos 0%nat) (mrows (s_trans (stmt_of pr s))) []])) (filter (fun s => match s_evict (stmt_of pr s) with Some _ => true | None => false end) (seq 0 n)).

Lemma in_evictions s e : (s < n)%nat -> s_evict (stmt_of pr s) = Some e ->
  In ([s], nth s pos 0%nat, [nth (nth s pos 0%nat) (mrows (s_trans (stmt_of pr s))) []]) the_evictions.
Proof.
  intros Hs E. unfold the_evictions. apply (in_map (fun s => ([s], nth s pos 0%nat, [nth (nth s pos 0%nat) (mrows (s_trans (stmt_of pr s))) []]))).
  apply filter_In. rewrite E. split; auto. apply in_seq. lia.
Qed.

Lemma pos_row s e : (s < n)%nat -> s_evict (stmt_of pr s) = Some e -> (nth s pos 0%nat < mnrows (s_trans (stmt_of pr s)))%nat.
Proof.
  intros Hs E. destruct (HB s e Hs E) as (_ & b & B1 & B2 & B3). rewrite Forall_forall in F. destruct (F b B1) as (_ & _ & K). destruct (K s B2). lia.
Qed.

Lemma pb_wf : wf_core pr0.
Proof.
  destruct W as [W1 W2]. split.
  - intros st Hst. apply (In_nth _ _ dummy_stmt) in Hst as (s & Hs & <-). unfold pr0 in Hs. rewrite put_back_len in Hs. change (nth s (p_stmts pr0) dummy_stmt) with (stmt_of pr0 s).
    unfold pr0. rewrite put_back_stmt_of by auto. destruct (W1 _ (stmt_of_in pr s Hs)) as (C & H). pose proof (put_back_dim (nth s pos 0%nat) (stmt_of pr s)) as (A1 & A2 & A3 & A4 & A5 & A6 & _ & A8 & A9).
    rewrite A4, A6. split; auto. unfold wf_cols in *. rewrite A1, A3, A5, A8, A9. destruct C as (C1 & C2 & C3 & C4).
    split; [unfold put_back_stmt; destruct (s_evict (stmt_of pr s)); auto|]. split; [exact C2|]. split; [|exact C4].
    unfold put_back_stmt. destruct (s_evict (stmt_of pr s)) as [e|] eqn:E; auto. cbn [set_evict set_trans s_trans mrows mncols].
    intros r Hr. apply in_set_nth in Hr as [->|Hr]; auto. apply (HB s e Hs E).
  - intros d Hd. unfold pr0 in *. rewrite put_back_len. destruct (W2 d Hd) as (X1 & X2 & X3 & X4). repeat (split; auto).
    rewrite !put_back_stmt_of by auto. destruct (put_back_dim (nth (d_src d) pos 0%nat) (stmt_of pr (d_src d))) as (-> & _). destruct (put_back_dim (nth (d_dst d) pos 0%nat) (stmt_of pr (d_dst d))) as (-> & _). auto.
Qed.

Lemma pb_bands : Forall (wf_band pr0) bands.
Proof.
  rewrite Forall_forall in *. intros b Hb. destruct (F b Hb) as (A & B & C). split; auto. split; auto. intros s Hs. destruct (C s Hs) as [C1 C2].
  unfold pr0. rewrite put_back_len, put_back_stmt_of by auto. destruct (put_back_dim (nth s pos 0%nat) (stmt_of pr s)) as (_ & _ & _ & _ & _ & -> & _). auto.
Qed.

Lemma pb_evicts : Forall (evicts_in pr0 bands) the_evictions.
Proof.
  apply Forall_forall. intros x Hx. unfold the_evictions in Hx. apply in_map_iff in Hx as (s & <- & Hs). apply filter_In in Hs as [Hs E]. apply in_seq in Hs.
  destruct (s_evict (stmt_of pr s)) as [e|] eqn:E'; [|discriminate]. destruct (HB s e) as (_ & b & B1 & B2 & B3); auto; [unfold n in *; lia|].
  exists b. split; auto. split; [intros y [<-|[]]; auto|]. split; auto. intros s' h [<-|[]] [<-|[]]. unfold pr0. rewrite put_back_stmt_of by (unfold n in *; lia).
  destruct (put_back_dim (nth s pos 0%nat) (stmt_of pr s)) as (_ & _ & _ & _ & -> & _).
  destruct (proj1 W _ (stmt_of_in pr s ltac:(unfold n in *; lia))) as ((_ & _ & C & _) & _). apply C. apply nth_In. apply (pos_row s e); auto. unfold n in *; lia.
Qed.

Lemma pb_evicted : evicted pr0 the_evictions (pr, pos).
Proof.
  unfold evicted. cbn [fst snd]. unfold pr0. rewrite put_back_len. repeat (split; auto). intros s Hs. rewrite put_back_stmt_of by auto.
  destruct (s_evict (stmt_of pr s)) as [e|] eqn:E; [right|left; unfold put_back_stmt; rewrite E; auto].
  exists [s], (nth s pos 0%nat), [nth (nth s pos 0%nat) (mrows (s_trans (stmt_of pr s))) []], (nth (nth s pos 0%nat) (mrows (s_trans (stmt_of pr s))) []).
  split; [eapply in_evictions; eauto|]. split; [left; auto|]. split; [left; auto|]. split; auto.
  pose proof (pos_row s e Hs E) as R. unfold evict_stmt. destruct (put_back_dim (nth s pos 0%nat) (stmt_of pr s)) as (_ & _ & _ & _ & _ & -> & -> & _).
  rewrite (proj2 (Nat.ltb_lt _ _) R). f_equal. unfold put_back_stmt. rewrite E. cbn [set_evict set_trans s_trans mrows mncols].
  rewrite set_nth_set, set_nth_same, nth_set_nth_eq by exact R. destruct (stmt_of pr s) as [a1 a2 a3 a4 [t1 t2] a6 a7 a8 a9 a10 a11 a12 a13 a14]. cbn in *. subst a11. reflexivity.
Qed.

Lemma pb_loops b s : In b bands -> In s (b_stmts b) -> num_loops (stmt_of pr0 s) (b_first b) (b_sizes b) = length (b_sizes b).
Proof.
  intros Hb Hs. rewrite Forall_forall in F. destruct (F b Hb) as (_ & _ & C). destruct (C s Hs) as [C1 _].
  assert (forall l k, (forall j, (k <= j < k + length l)%nat -> loop_level (stmt_of pr s) j = true) -> num_loops (stmt_of pr0 s) k l = length l) as N.
  { induction l as [|x l IH]; intros k H; cbn [num_loops]; auto. unfold loop_level at 1. unfold pr0 at 1. rewrite put_back_stmt_of by auto. destruct (put_back_dim (nth s pos 0%nat) (stmt_of pr s)) as (_ & _ & _ & -> & _).
    fold (loop_level (stmt_of pr s) k). rewrite H by (cbn; lia). rewrite IH; auto. intros j Hj. apply H. cbn. lia. }
  apply N. intros j Hj. apply (HL b); auto.
Qed.

Lemma tiled_one : exists r x, diamond_tile_reschedule pos (tile_scattering_dims pr bands) = Some (r, x) /\ rescheduled pr0 pr bands r (fun b => [b_sizes b]).
Proof.
  apply (diamond_one pr0 bands the_evictions pr pos pb_wf D pb_bands pb_evicts pb_evicted).
  - intros s Hs. unfold pr0 in *. rewrite put_back_len in Hs. rewrite put_back_stmt_of by auto. destruct (put_back_dim (nth s pos 0%nat) (stmt_of pr s)) as (-> & -> & _ & _ & _ & _ & -> & _). auto.
  - exact pb_loops.
Qed.
End Tiled.

(** The statements do not depend on the recorded facts about dependences. *)
Lemma resched_recompute f pos q r x : diamond_tile_reschedule pos q = Some (r, x) ->
  exists r', diamond_tile_reschedule pos (recompute f q) = Some (r', x) /\ p_stmts r' = p_stmts r /\ p_npar r' = p_npar r /\ Forall2 same_dep (p_deps r) (p_deps r').
Proof.
  unfold diamond_tile_reschedule. pose proof (cq_stmts f q) as E. change (computed f q) with (recompute f q) in E.
  assert (forall k, stmt_of (recompute f q) k = stmt_of q k) as S by (intros; unfold stmt_of; rewrite E; auto).
  rewrite E. rewrite (map_ext (fun k => reschedule_stmt (nth k pos 0%nat) (stmt_of (recompute f q) k)) (fun k => reschedule_stmt (nth k pos 0%nat) (stmt_of q k))) by (intros; rewrite S; auto).
  destruct (all_some _) as [l|]; [|discriminate]. intros H. injection H as <- <-. eexists. split; [reflexivity|]. cbn. split; auto. split; [apply (cq_npar f q)|]. apply (computed_deps f q).
Qed.

Lemma same_legal a b : p_stmts b = p_stmts a -> p_npar b = p_npar a -> Forall2 same_dep (p_deps a) (p_deps b) -> legal a -> legal b.
Proof.
  intros E N FD L d' Hd' R s t p I. destruct (Forall2_in_r _ _ _ d' FD Hd') as (d & Hd & S). pose proof S as (E1 & E2 & E3 & E4 & E5).
  unfold stmt_of in *. rewrite E, E1, E2. apply (L d Hd); [congruence|]. unfold instance, stmt_of in *. rewrite E, N, E1, E2, E4 in I. exact I.
Qed.

(** What becomes of every statement. *)
Lemma evict_bands_each es : Forall (fun e => NoDup (fst (fst e)) /\ exists h, snd e = map h (fst (fst e))) es -> forall q ps q' ps',
  evict_bands (q, ps) es = Some (q', ps') -> length ps = length (p_stmts q) ->
  length (p_stmts q') = length (p_stmts q) /\ length ps' = length ps /\
  forall s, (s < length (p_stmts q))%nat ->
  (stmt_of q' s = stmt_of q s /\ nth s ps' 0%nat = nth s ps 0%nat /\ forall e, In e es -> ~ In s (fst (fst e))) \/
  (exists l k h, In (l, k, map h l) es /\ In s l /\ nth s ps' 0%nat = k /\ evict_stmt k (h s) (stmt_of q s) = Some (stmt_of q' s)).
Proof.
  induction 1 as [|[[l k] hs] es [ND (h & EH)] HF IH]; intros q ps q' ps' E L; cbn [evict_bands] in E.
  - injection E as <- <-. split; [auto|]. split; [auto|]. intros s Hs. left. auto.
  - cbn [fst snd] in ND, EH. subst hs. destruct (evict_band (q, ps) l k (map h l)) as [[q1 ps1]|] eqn:E1; [|discriminate].
    apply evict_band_map in E1 as (A1 & A2 & A3 & A4 & A5 & A6 & A7 & A8); auto.
    apply IH in E as (B1 & B2 & B3); [|lia]. split; [lia|]. split; [lia|]. intros s Hs. specialize (B3 s ltac:(lia)).
    destruct (in_dec Nat.eq_dec s l) as [Hl|Hl].
    + right. destruct (A7 s Hl) as [X Y]. specialize (Y ltac:(lia)). destruct B3 as [(C1 & C2 & C3)|(l' & k' & h' & C1 & C2 & C3 & C4)].
      * exists l, k, h. split; [left; auto|]. split; auto. split; [lia|]. congruence.
      * exfalso. apply evict_stmt_some in X as (_ & _ & X). apply evict_stmt_some in C4 as (C4 & _). rewrite X in C4. discriminate.
    + destruct (A8 s Hl) as [X Y]. destruct B3 as [(C1 & C2 & C3)|(l' & k' & h' & C1 & C2 & C3 & C4)].
      * left. split; [congruence|]. split; [congruence|]. intros e [<-|He]; auto.
      * right. exists l', k', h'. split; [right; auto|]. split; auto. split; auto. congruence.
Qed.
