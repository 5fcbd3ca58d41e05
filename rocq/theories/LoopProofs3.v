(** * Permutable bands: they may be tiled, and they share no statements. *)
From Coq Require Import ZArith List Bool Lia Arith.
From Verif Require Import SpecLinear MathModel ConstraintsModel VecProofs EditProofs MatrixProofs SpecProg SpecTile SpecLoop
  RankProofs SumProofs FrameworkModel ProgModel DepProofs SimplifyProofs LexProofs ProgProofs TileModel TileProofs TileProofs2 TileProofs3
  LoopModel LoopProofs LoopProofs2.
Import ListNotations.
Open Scope Z_scope.

Lemma scalar_level st k : types_ok st -> (k < mnrows (s_trans st))%nat -> is_hyperplane_scalar st k = negb (loop_level st k).
Proof.
  intros T Hk. specialize (T k Hk). destruct (loop_level st k) eqn:E; cbn.
  - destruct (is_hyperplane_scalar st k) eqn:S; auto. exfalso. enough (true = false) by discriminate. apply T. intros j Hj.
    rewrite scalar_iff in S. apply S; auto.
  - apply scalar_iff. intros j Hj. apply T; auto.
Qed.
Lemma loop_is_level st k : types_ok st -> (k < mnrows (s_trans st))%nat -> is_hyperplane_loop st k = loop_level st k.
Proof. intros T Hk. unfold is_hyperplane_loop. rewrite scalar_level by auto. apply negb_involutive. Qed.

(** The loops of the program. *)
Definition is_loop_of (pr : prog) (lp : ploop) : Prop :=
  (l_depth lp < length (p_hprops pr))%nat /\ l_stmts lp <> [] /\ NoDup (l_stmts lp) /\
  forall s, In s (l_stmts lp) -> (s < length (p_stmts pr))%nat /\ is_hyperplane_loop (stmt_of pr s) (l_depth lp) = true.

Lemma all_loops_ok pr lp : In lp (get_all_loops pr) -> is_loop_of pr lp.
Proof.
  intros H. unfold get_all_loops, get_loops_under in H. apply loops_under_basic in H as (A & B & C & D).
  split; [lia|]. split; auto. split; [apply D, seq_NoDup|]. intros s Hs. destruct (C s Hs) as [X Y]. apply in_seq in X. split; [lia|auto].
Qed.

Section Band.
Variable pr : prog.
Hypothesis W : wf_levels pr.
Hypothesis TO : forall s, (s < length (p_stmts pr))%nat -> types_ok (stmt_of pr s).
Hypothesis INF : forall d, In d (p_deps pr) -> d_rar d = false -> info_ok pr d.
Hypothesis LV : leveled pr.

Lemma band_end_spec lp n depth : (depth <= band_end pr lp n depth <= depth + n)%nat /\
  forall k d, (depth <= k < band_end pr lp n depth)%nat -> In d (p_deps pr) -> stops_band pr lp k d = false.
Proof.
  revert depth. induction n as [|n IH]; intros depth; cbn [band_end]. split; [lia|intros; lia].
  destruct (existsb (stops_band pr lp depth) (p_deps pr)) eqn:E. split; [lia|intros; lia].
  destruct (IH (S depth)) as [A B]. split; [lia|]. intros k d Hk Hd. destruct (Nat.eq_dec k depth) as [->|N]; [|apply B; auto; lia].
  destruct (stops_band pr lp depth d) eqn:S; auto. assert (existsb (stops_band pr lp depth) (p_deps pr) = true); [|congruence].
  apply existsb_exists. eauto.
Qed.

Lemma peel_spec lp depth e : peel pr lp depth = Some e ->
  (l_depth lp < e <= depth)%nat /\ is_depth_scalar pr lp (e - 1) = false.
Proof.
  induction depth as [|k IH]; cbn [peel]; [discriminate|]. destruct (Nat.ltb_spec k (l_depth lp)); [discriminate|].
  destruct (is_depth_scalar pr lp k) eqn:E.
  - intros H'. destruct (IH H') as [A B]. split; [lia|auto].
  - intros [= <-]. split; [lia|]. replace (S k - 1)%nat with k by lia. auto.
Qed.
Lemma peel_some lp depth : (l_depth lp < depth)%nat -> is_depth_scalar pr lp (l_depth lp) = false -> exists e, peel pr lp depth = Some e.
Proof.
  intros H S. induction depth as [|k IH]; [lia|]. cbn [peel]. rewrite (proj2 (Nat.ltb_ge _ _)) by lia.
  destruct (is_depth_scalar pr lp k) eqn:E; [|eauto]. apply IH. destruct (Nat.eq_dec k (l_depth lp)) as [->|]; [congruence|lia].
Qed.

Lemma depth_scalar_lev lp k s : is_depth_scalar pr lp k = true -> In s (l_stmts lp) -> (s < length (p_stmts pr))%nat -> (k < length (p_hprops pr))%nat ->
  loop_level (stmt_of pr s) k = false.
Proof.
  intros S Hs Hn Hk. unfold is_depth_scalar in S. rewrite forallb_forall in S. specialize (S s Hs).
  rewrite scalar_level in S; auto. destruct (loop_level (stmt_of pr s) k); auto. rewrite (proj2 W) by auto. auto.
Qed.

(** The satisfaction level orders the dependence. *)
Lemma level_ordered d : In d (p_deps pr) -> d_rar d = false ->
  d_sat d = true /\ exists L, d_level d = Z.of_nat L /\ ordered_at pr d L.
Proof.
  intros Hd R. destruct (LV d Hd R) as (L & L1 & L2 & L3). destruct (INF d Hd R) as (I & _).
  destruct I as [(A & j & B & C & D & E)|(_ & _ & N)]; [|exfalso; apply (N L); auto].
  split; auto. exists j. split; auto. split; auto. split; auto. intros i Hi. apply L3.
  destruct (Nat.le_gt_cases j L); [lia|]. exfalso. apply (E L); auto.
Qed.

Lemma dir_weak d k : In d (p_deps pr) -> d_rar d = false -> (k < length (p_hprops pr))%nat ->
  match nth k (d_dirs d) DEP_ZERO with DEP_STAR | DEP_MINUS => true | _ => false end = false <-> weak_at pr d k.
Proof.
  intros Hd R Hk. destruct (INF d Hd R) as (_ & D & _). specialize (D k Hk).
  assert (zero_at pr d k -> weak_at pr d k) as ZW by (intros Z s t p I; rewrite (Z s t p I); lia).
  destruct (nth k (d_dirs d) DEP_ZERO); split; intros H; auto; try discriminate.
  - destruct D as [D1 D2]. exfalso. apply D2. intros s t p I. specialize (D1 s t p I). specialize (H s t p I). lia.
  - destruct D; auto.
  - destruct D. contradiction.
Qed.

(** No negative component inside of the band, except behind a scalar level that
    orders the dependence. *)
Lemma band_levels lp n d : is_loop_of pr lp -> (l_depth lp + n <= length (p_hprops pr))%nat ->
  (forall k, (l_depth lp <= k < l_depth lp + n)%nat -> stops_band pr lp k d = false) ->
  In d (p_deps pr) -> d_rar d = false -> In (d_src d) (l_stmts lp) -> In (d_dst d) (l_stmts lp) ->
  forall s t p, instance pr d s t p -> (forall k, (k < l_depth lp)%nat -> distance pr d k s t p = 0) ->
  forall k, (l_depth lp <= k < l_depth lp + n)%nat -> 0 <= distance pr d k s t p \/
      exists j, (l_depth lp <= j < k)%nat /\ loop_level (stmt_of pr (d_src d)) j = false /\
        loop_level (stmt_of pr (d_dst d)) j = false /\ 0 < distance pr d j s t p.
Proof.
  intros (LP1 & LP2 & LP3 & LP4) Hn ST Hd R H1 H2 s t p I Z k Hk.
  destruct (level_ordered d Hd R) as (SA & L & EL & OL & OS & OW).
  destruct (LP4 _ H1) as [N1 _]. destruct (LP4 _ H2) as [N2 _].
  destruct (Nat.lt_ge_cases L (l_depth lp)) as [Lt|Ge].
  { exfalso. specialize (OS s t p I). rewrite Z in OS by auto. lia. }
  destruct (is_depth_scalar pr lp L) eqn:SC.
  - destruct (Nat.lt_trichotomy k L) as [X|[->|X]].
    + left. apply OW; auto.
    + left. specialize (OS s t p I). lia.
    + right. exists L. split; [lia|]. split; [eapply depth_scalar_lev; eauto|]. split; [eapply depth_scalar_lev; eauto|]. apply OS; auto.
  - left. specialize (ST k Hk). unfold stops_band in ST. rewrite R, SA, EL, Nat2Z.id, SC in ST.
    rewrite (proj2 (dep_in_loop_In lp d)) in ST by auto. rewrite (proj2 (Z.ltb_ge _ _)) in ST by lia. cbn in ST.
    apply (dir_weak d k) in ST; auto. lia.
Qed.

Lemma loop_not_scalar lp : is_loop_of pr lp -> is_depth_scalar pr lp (l_depth lp) = false.
Proof.
  intros (LP1 & LP2 & LP3 & LP4). destruct (is_depth_scalar pr lp (l_depth lp)) eqn:E; auto.
  destruct (l_stmts lp) as [|s l] eqn:S; [congruence|]. destruct (LP4 s) as [A B]; [simpl; auto|].
  unfold is_depth_scalar in E. rewrite S in E. cbn in E. unfold is_hyperplane_loop in B. destruct (is_hyperplane_scalar (stmt_of pr s) (l_depth lp)); discriminate.
Qed.

(** The assertions hold. *)
Lemma band_no_abort lp : is_loop_of pr lp -> get_permutable_band pr lp <> BandAbort.
Proof.
  intros LP. pose proof LP as (LP1 & LP2 & LP3 & LP4). unfold get_permutable_band.
  destruct (peel_some lp (band_end pr lp (length (p_hprops pr) - l_depth lp) (l_depth lp))) as (e & ->).
  - destruct (length (p_hprops pr) - l_depth lp)%nat as [|n] eqn:E; [lia|]. cbn [band_end].
    destruct (existsb (stops_band pr lp (l_depth lp)) (p_deps pr)) eqn:SB.
    + exfalso. apply existsb_exists in SB as (d & Hd & S). unfold stops_band in S. rewrite !andb_true_iff in S.
      destruct S as (((((S1 & S2) & S3) & S4) & S5) & S6). apply negb_true_iff in S1, S2, S4.
      destruct (level_ordered d Hd S1) as (_ & L & EL & OL & OS & OW). rewrite EL in S2. apply Z.ltb_ge in S2.
      assert (weak_at pr d (l_depth lp)) as WK.
      { destruct (Nat.eq_dec L (l_depth lp)) as [->|N]; [|apply OW; lia]. intros s t p I. specialize (OS s t p I). lia. }
      apply (dir_weak d (l_depth lp) Hd S1) in WK; auto. congruence.
    + destruct (band_end_spec lp n (S (l_depth lp))) as [A _]. lia.
  - apply loop_not_scalar; auto.
  - destruct (e - l_depth lp =? 1)%nat; discriminate.
Qed.

Lemma band_found lp b : is_loop_of pr lp -> get_permutable_band pr lp = BandFound b ->
  pb_loop b = lp /\ (2 <= pb_width b)%nat /\ (l_depth lp + pb_width b <= length (p_hprops pr))%nat /\
  is_depth_scalar pr lp (l_depth lp + pb_width b - 1) = false /\
  forall k d, (l_depth lp <= k < l_depth lp + pb_width b)%nat -> In d (p_deps pr) -> stops_band pr lp k d = false.
Proof.
  intros LP H. unfold get_permutable_band in H. destruct (peel pr lp _) as [e|] eqn:P; [|discriminate].
  apply peel_spec in P as [P1 P2]. destruct (Nat.eqb_spec (e - l_depth lp) 1); [discriminate|]. injection H as <-. cbn [pb_loop pb_width].
  destruct (band_end_spec lp (length (p_hprops pr) - l_depth lp) (l_depth lp)) as [A B]. destruct LP as (LP1 & _).
  split; auto. split; [lia|]. split; [lia|]. split; [replace (l_depth lp + (e - l_depth lp) - 1)%nat with (e - 1)%nat by lia; auto|].
  intros k d Hk Hd. apply B; auto. lia.
Qed.
End Band.

(** ** Fused statements *)
Section Uniform.
Variable pr : prog.
Hypothesis W : wf_levels pr.
Hypothesis PL : plain_levels pr.
Hypothesis UN : uniform pr.
Let n := length (p_stmts pr).

Lemma uni_row s k : (s < n)%nat -> (k < length (p_hprops pr))%nat ->
  is_hyperplane_loop (stmt_of pr s) k = loop_level (stmt_of pr s) k /\ is_hyperplane_scalar (stmt_of pr s) k = negb (loop_level (stmt_of pr s) k).
Proof.
  intros Hs Hk. destruct (PL s Hs) as [T _]. pose proof (proj2 W s Hs) as R.
  split; [apply loop_is_level|apply scalar_level]; auto; lia.
Qed.

(** The value of a level that is no loop is its constant. *)
Lemma const_value s k i p : (s < n)%nat -> (k < length (p_hprops pr))%nat -> loop_level (stmt_of pr s) k = false ->
  length i = s_dim (stmt_of pr s) -> length p = p_npar pr -> theta (stmt_of pr s) k i p = row_const (stmt_of pr s) k.
Proof.
  intros Hs Hk L Li Lp. destruct (PL s Hs) as [_ C]. 
  rewrite (C k Hk L i (repeat 0 (s_dim (stmt_of pr s))) p (repeat 0 (p_npar pr))); auto using repeat_length.
  unfold theta, row_const, mget. pose proof (proj2 W s Hs) as R.
  destruct (proj1 (proj1 W) (stmt_of pr s)) as ((_ & C1 & C2 & _) & _); [apply nth_In; auto|].
  assert (length (nth k (mrows (s_trans (stmt_of pr s))) []) = (s_dim (stmt_of pr s) + p_npar pr + 1)%nat) as LR.
  { rewrite <- C1. apply C2. apply nth_In. unfold mnrows in R. lia. }
  set (r := nth k (mrows (s_trans (stmt_of pr s))) []) in *. rewrite <- repeat_app. unfold aff. rewrite C1.
  set (m := (s_dim (stmt_of pr s) + p_npar pr)%nat) in *. replace (m + 1 - 1)%nat with m by lia. clearbody r m. clear - LR.
  revert r LR. induction m as [|m IH]; intros [|x r] LR; try discriminate; cbn.
  - destruct r; [cbn; lia|cbn in LR; lia].
  - rewrite IH by (cbn in LR; lia). lia.
Qed.

Lemma fused_refl k s : (s < n)%nat -> (k <= length (p_hprops pr))%nat -> fused pr k s s.
Proof. intros Hs Hk j Hj L1 L2 i i' p Li Li' Lp. rewrite !const_value; auto; lia. Qed.
Lemma fused_sym k s t : fused pr k s t -> fused pr k t s.
Proof. intros F j Hj L1 L2 i i' p Li Li' Lp. symmetry. apply F; auto. Qed.
Lemma fused_le k k' s t : (k <= k')%nat -> fused pr k' s t -> fused pr k s t.
Proof. intros H F j Hj. apply F. lia. Qed.
Lemma fused_S k s t : (s < n)%nat -> (t < n)%nat -> (k < length (p_hprops pr))%nat ->
  fused pr (S k) s t <-> fused pr k s t /\
    (loop_level (stmt_of pr s) k = false -> loop_level (stmt_of pr t) k = false -> row_const (stmt_of pr s) k = row_const (stmt_of pr t) k).
Proof.
  intros Hs Ht Hk. split.
  - intros F. split; [eapply fused_le; [|exact F]; lia|]. intros L1 L2.
    rewrite <- (const_value s k (repeat 0 (s_dim (stmt_of pr s))) (repeat 0 (p_npar pr))), <- (const_value t k (repeat 0 (s_dim (stmt_of pr t))) (repeat 0 (p_npar pr))); auto using repeat_length.
  - intros [F E] j Hj L1 L2 i i' p Li Li' Lp. destruct (Nat.eq_dec j k) as [->|N]; [|apply F; auto; lia].
    rewrite !const_value; auto.
Qed.
Lemma fused_trans k s t u : (s < n)%nat -> (t < n)%nat -> (u < n)%nat -> (k <= length (p_hprops pr))%nat -> fused pr k s t -> fused pr k t u -> fused pr k s u.
Proof.
  intros Hs Ht Hu. induction k as [|k IH]; intros Hk F1 F2. intros j Hj; lia.
  apply fused_S in F1 as [F1 E1]; auto. apply fused_S in F2 as [F2 E2]; auto. apply fused_S; auto. split; [apply IH; auto; lia|].
  intros L1 L2. assert (loop_level (stmt_of pr t) k = false) as L by (rewrite <- (UN s t k); auto). rewrite E1; auto.
Qed.

(** Not fused: some scalar level separates. *)
Lemma fused_cases k s t : (s < n)%nat -> (t < n)%nat -> (k <= length (p_hprops pr))%nat -> fused pr k s t \/
  exists j, (j < k)%nat /\ loop_level (stmt_of pr s) j = false /\ loop_level (stmt_of pr t) j = false /\ row_const (stmt_of pr s) j <> row_const (stmt_of pr t) j.
Proof.
  intros Hs Ht. induction k as [|k IH]; intros Hk. left. intros j Hj; lia.
  destruct IH as [F|(j & A & B & C & D)]; [lia| |right; exists j; auto 10].
  destruct (loop_level (stmt_of pr s) k) eqn:L1; [left; apply fused_S; auto; split; auto; congruence|].
  destruct (loop_level (stmt_of pr t) k) eqn:L2; [left; apply fused_S; auto; split; auto; congruence|].
  destruct (Z.eq_dec (row_const (stmt_of pr s) k) (row_const (stmt_of pr t) k)); [left; apply fused_S; auto|].
  right. exists k. auto.
Qed.

(** A loop contains exactly the statements fused with one of them. *)
Definition class (stmts : list nat) (depth : nat) : Prop :=
  (forall s, In s stmts -> (s < n)%nat) /\ forall s t, In s stmts -> (t < n)%nat -> (In t stmts <-> fused pr depth s t).

Lemma loops_class m stmts depth lp : (depth + m = length (p_hprops pr))%nat -> class stmts depth -> In lp (loops_under pr m stmts depth) ->
  class (l_stmts lp) (l_depth lp).
Proof.
  revert stmts depth. induction m as [|m IH]; intros stmts depth E C; cbn [loops_under]; [intros []|]. destruct C as [C1 C2].
  destruct (existsb _ stmts) eqn:X.
  - apply existsb_exists in X as (x & Hx & Lx).
    assert (forall s, In s stmts -> loop_level (stmt_of pr s) depth = true) as AL.
    { intros s Hs. rewrite <- (UN x s depth); auto; [|lia|apply C2; auto]. destruct (uni_row x depth) as [<- _]; auto. lia. }
    intros H. apply in_app_or in H as [H|[<-|[]]].
    + apply (IH stmts (S depth)); auto. lia. split; auto. intros s t Hs Ht. rewrite (C2 s t Hs Ht). rewrite fused_S by (auto; lia).
      split; [|tauto]. intros F. split; auto. rewrite AL by auto. discriminate.
    + cbn [l_stmts l_depth]. assert (filter (fun s => negb (is_hyperplane_scalar (stmt_of pr s) depth)) stmts = stmts) as ->; [|split; auto].
      assert (forall s, In s stmts -> negb (is_hyperplane_scalar (stmt_of pr s) depth) = true) as F.
      { intros s Hs. destruct (uni_row s depth) as [_ ->]; auto. lia. rewrite AL; auto. }
      clear - F. induction stmts as [|a l IH]; cbn; auto. rewrite F by (simpl; auto). f_equal. apply IH. intros; apply F; simpl; auto.
  - assert (forall s, In s stmts -> loop_level (stmt_of pr s) depth = false) as AL.
    { intros s Hs. destruct (loop_level (stmt_of pr s) depth) eqn:L; auto. assert (existsb (fun s => is_hyperplane_loop (stmt_of pr s) depth) stmts = true); [|congruence].
      apply existsb_exists. exists s. split; auto. destruct (uni_row s depth) as [-> _]; auto. lia. }
    intros H. apply in_flat_map in H as (g & Hg & H). apply regroup_In in Hg as (x & Hx & ->).
    refine (IH _ (S depth) _ _ H). lia. split.
    + intros s Hs. apply filter_In in Hs as [Hs _]. auto.
    + intros s t Hs Ht. apply filter_In in Hs as [Hs Es]. apply Z.eqb_eq in Es. rewrite filter_In, Z.eqb_eq, (C2 s t Hs Ht), fused_S by (auto; lia).
      split.
      * intros [F K]. split; auto. congruence.
      * intros [F K]. split; auto. rewrite <- Es. symmetry. apply K; auto. apply AL. apply (C2 s t); auto.
Qed.

Lemma all_loops_class lp : In lp (get_all_loops pr) -> class (l_stmts lp) (l_depth lp).
Proof.
  intros H. unfold get_all_loops, get_loops_under in H. refine (loops_class _ _ _ lp _ _ H). lia. split.
  - intros s Hs. apply in_seq in Hs. unfold n. lia.
  - intros s t Hs Ht. split; [intros _ j Hj; lia|]. intros _. apply in_seq. unfold n in *. lia.
Qed.

(** Loops that share a statement are nested. *)
Lemma nested l1 l2 s : In l1 (get_all_loops pr) -> In l2 (get_all_loops pr) -> In s (l_stmts l1) -> In s (l_stmts l2) ->
  (l_depth l1 <= l_depth l2)%nat -> forall t, In t (l_stmts l2) -> In t (l_stmts l1).
Proof.
  intros H1 H2 S1 S2 LE t Ht. destruct (all_loops_class l1 H1) as [A1 A2]. destruct (all_loops_class l2 H2) as [B1 B2].
  apply (A2 s t); auto. apply (fused_le (l_depth l1) (l_depth l2)); auto. apply (B2 s t); auto.
Qed.
End Uniform.
