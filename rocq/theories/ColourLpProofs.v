(** * Proofs about colouring guided by linear programs. *)
From Coq Require Import ZArith QArith List Bool Arith Lia Lqa.
From Verif Require Import SpecLinear VecProofs MathModel ConstraintsModel SpecProg SpecDriver SpecGraph SpecDfp SpecFcg SpecTyped SumProofs GraphModel GraphProofs
  FrameworkModel FrameworkProofs ProgModel ProgProofs DepProofs DriverModel DriverProofs HypProofs PadProofs DfpModel FcgModel FcgProofs FcgProofs2 FcgProofs3 ClusterModel TypedModel TypedProofs3 ColourLpModel.
Import ListNotations.
Open Scope Z_scope.

(** ** One row *)
Section Row.
Variable pr : prog.
Lemma fold_ones (l : list nat) : forall r k, nth k (fold_left (fun r j => set_nth j 1 r) l r) 0 = if existsb (Nat.eqb k) l && (k <? length r)%nat then 1 else nth k r 0.
Proof.
  induction l as [|a l IH]; intros r k; cbn [fold_left existsb]; [reflexivity|]. rewrite IH, set_nth_length.
  destruct (existsb (Nat.eqb k) l) eqn:E; cbn [andb orb].
  - rewrite orb_true_r. cbn [andb]. destruct (Nat.ltb_spec k (length r)); [reflexivity|]. rewrite !nth_overflow by (rewrite ?set_nth_length; lia). reflexivity.
  - rewrite orb_false_r. destruct (Nat.eqb_spec k a) as [->|N]; cbn [andb].
    + destruct (Nat.ltb_spec a (length r)); [apply nth_set_nth_eq; auto|]. rewrite !nth_overflow by (rewrite ?set_nth_length; lia). reflexivity.
    + apply nth_set_nth_neq; auto.
Qed.
Lemma fold_ones_length (l : list nat) : forall r, length (fold_left (fun r j => set_nth j 1 r) l r) = length r.
Proof. induction l as [|a l IH]; intros r; cbn; [auto|]. rewrite IH. apply set_nth_length. Qed.

Definition ones_row (w : nat) (cols : list nat) : list Z := set_nth (w - 1) (-1) (fold_left (fun r j => set_nth j 1 r) cols (repeat 0 w)).
Lemma ortho_ones u js : coef (ortho_row pr u js) = ones_row (cst_width pr) (map (coef_col pr u) js).
Proof.
  unfold ortho_row, ones_row. cbn [coef]. f_equal. generalize (repeat 0 (cst_width pr)). induction js as [|j js IH]; intros r; cbn; auto.
Qed.
Lemma ones_row_nth w cols k : (0 < w)%nat -> (k < w - 1)%nat -> nth k (ones_row w cols) 0 = if existsb (Nat.eqb k) cols then 1 else 0.
Proof.
  intros H Hk. unfold ones_row. rewrite nth_set_nth_neq by lia. rewrite fold_ones, repeat_length. rewrite (proj2 (Nat.ltb_lt k w)) by lia.
  rewrite andb_true_r. destruct (existsb _ _); [auto|]. apply nth_repeat.
Qed.
Lemma ones_row_last w cols : (0 < w)%nat -> nth (w - 1) (ones_row w cols) 0 = -1.
Proof. intros H. unfold ones_row. apply nth_set_nth_eq. rewrite fold_ones_length, repeat_length. lia. Qed.
Lemma ones_row_end w n cols : S n = w -> nth n (ones_row w cols) 0 = -1.
Proof. intros <-. replace n with (S n - 1)%nat at 1 by lia. apply ones_row_last. lia. Qed.
Lemma ones_row_length w cols : length (ones_row w cols) = w.
Proof. unfold ones_row. rewrite set_nth_length, fold_ones_length, repeat_length. auto. Qed.

Lemma qsum_nonneg n f : (forall i, (i < n)%nat -> (0 <= f i)%Q) -> (0 <= qsum n f)%Q.
Proof. induction n as [|n IH]; intros H; cbn; [lra|]. pose proof (H n ltac:(lia)). assert (0 <= qsum n f)%Q by (apply IH; intros; apply H; lia). lra. Qed.
Lemma qsum_ge n f k : (k < n)%nat -> (forall i, (i < n)%nat -> (0 <= f i)%Q) -> (f k <= qsum n f)%Q.
Proof.
  induction n as [|n IH]; intros Hk H; [lia|]. cbn. destruct (Nat.eq_dec k n) as [->|N].
  - pose proof (qsum_nonneg n f ltac:(intros; apply H; lia)). lra.
  - pose proof (H n ltac:(lia)). pose proof (IH ltac:(lia) ltac:(intros; apply H; lia)). lra.
Qed.

Lemma row_positive u js (x : qpoint) : S (length x) = cst_width pr -> (forall i, (i < length x)%nat -> (0 <= nth i x 0)%Q) ->
  qholds x (ortho_row pr u js) -> exists j, In j js /\ (0 < nth (coef_col pr u j) x 0)%Q.
Proof.
  intros L N H. unfold qholds in H. change (is_eq (ortho_row pr u js)) with false in H. cbv iota in H. rewrite ortho_ones in H.
  destruct (existsb (fun j => negb (Qle_bool (nth (coef_col pr u j) x 0%Q) 0%Q)) js) eqn:E.
  - apply existsb_exists in E as (j & Hj & E). exists j. split; auto. apply negb_true_iff in E. apply Qnot_le_lt. intros K. apply Qle_bool_iff in K. congruence.
  - exfalso. rewrite (qaff_sum _ x (length x)) in H by (rewrite ?ones_row_length; auto).
    rewrite (ones_row_end _ (length x)) in H by auto.
    rewrite qsum_zero in H; [unfold inject_Z in H; lra|]. intros i Hi. rewrite ones_row_nth by lia.
    destruct (existsb (Nat.eqb i) (map (coef_col pr u) js)) eqn:E1; [|ring]. apply existsb_exists in E1 as (k & Hk & E1). apply Nat.eqb_eq in E1. subst k.
    apply in_map_iff in Hk as (j & E2 & Hj). assert (nth i x 0 == 0)%Q as ->; [|ring].
    assert (negb (Qle_bool (nth (coef_col pr u j) x 0%Q) 0%Q) = false) as K.
    { destruct (negb _) eqn:K; auto. exfalso. assert (existsb (fun j => negb (Qle_bool (nth (coef_col pr u j) x 0%Q) 0%Q)) js = true); [|congruence]. apply existsb_exists. exists j. auto. }
    apply negb_false_iff, Qle_bool_iff in K. rewrite E2 in K. specialize (N i Hi). lra.
Qed.
Lemma row_holds u js j (x : qpoint) : S (length x) = cst_width pr -> (forall i, (i < length x)%nat -> (0 <= nth i x 0)%Q) ->
  In j js -> (coef_col pr u j < length x)%nat -> (1 <= nth (coef_col pr u j) x 0)%Q -> qholds x (ortho_row pr u js).
Proof.
  intros L N Hj Hc H. unfold qholds. change (is_eq (ortho_row pr u js)) with false. cbv iota. rewrite ortho_ones.
  rewrite (qaff_sum _ x (length x)) by (rewrite ?ones_row_length; auto).
  rewrite (ones_row_end _ (length x)) by auto. rewrite <- L.
  set (f := fun i => (inject_Z (nth i (ones_row (S (length x)) (map (coef_col pr u) js)) 0%Z) * nth i x 0)%Q).
  assert (f (coef_col pr u j) == nth (coef_col pr u j) x 0)%Q as F.
  { unfold f. rewrite ones_row_nth by lia.
    assert (existsb (Nat.eqb (coef_col pr u j)) (map (coef_col pr u) js) = true) as -> by (apply existsb_exists; exists (coef_col pr u j); split; [apply in_map; auto|apply Nat.eqb_refl]).
    change (inject_Z 1) with 1%Q. ring. }
  assert (f (coef_col pr u j) <= qsum (length x) f)%Q as K.
  { apply qsum_ge; [auto|]. intros i Hi. unfold f. rewrite ones_row_nth by lia. specialize (N i Hi). destruct (existsb _ _); [change (inject_Z 1) with 1%Q|change (inject_Z 0) with 0%Q]; lra. }
  change (inject_Z (-1)) with (-(1))%Q. lra.
Qed.
End Row.

(** ** The system *)
Section System.
Variables (o : options) (pr : prog) (col : list Z) (i : nat).
Hypothesis W : wf_prog pr.
Hypothesis PD : padded pr.
Definition members : list nat := filter (fun u => (s_scc (stmt_of pr u) =? Z.of_nat i) && negb (match plain_loops pr col u with [] => true | _ => false end)) (seq 0 (length (p_stmts pr))).
Lemma ortho_spec : match ortho_constraints pr col i with
  | None => members = []
  | Some c => members <> [] /\ c = mkCst (cst_width pr) (map (fun u => ortho_row pr u (plain_loops pr col u)) members)
  end.
Proof.
  unfold ortho_constraints. cbv zeta.
  assert (forall l, flat_map (fun u => if s_scc (stmt_of pr u) =? Z.of_nat i then match plain_loops pr col u with [] => [] | j :: js => [ortho_row pr u (j :: js)] end else []) l
    = map (fun u => ortho_row pr u (plain_loops pr col u)) (filter (fun u => (s_scc (stmt_of pr u) =? Z.of_nat i) && negb (match plain_loops pr col u with [] => true | _ => false end)) l)) as E.
  { induction l as [|u l IH]; [reflexivity|]. cbn [flat_map filter]. rewrite IH. destruct (_ =? _); cbn [andb]; [|reflexivity]. destruct (plain_loops pr col u) eqn:P; cbn [negb app map]; [reflexivity|rewrite P; reflexivity]. }
  rewrite E. fold members. destruct members as [|u l] eqn:M; cbn [map]; [reflexivity|]. split; [discriminate|reflexivity].
Qed.
Lemma in_members u : In u members <-> (u < length (p_stmts pr))%nat /\ s_scc (stmt_of pr u) = Z.of_nat i /\ plain_loops pr col u <> [].
Proof.
  unfold members. rewrite filter_In, in_seq, andb_true_iff, Z.eqb_eq, negb_true_iff. split.
  - intros (A & B & C). split; [lia|]. split; [auto|]. intros E. rewrite E in C. discriminate.
  - intros (A & B & C). split; [lia|]. split; [auto|]. destruct (plain_loops pr col u); congruence.
Qed.
Lemma in_plain u j : In j (plain_loops pr col u) <-> (j < s_dim_orig (stmt_of pr u))%nat /\ nth (vertex_offset pr u + j) col 0 = 0.
Proof. unfold plain_loops. rewrite filter_In, in_seq, Z.eqb_eq. split; intros [A B]; (split; [lia|auto]). Qed.

Definition inner (d : dep) : Prop := In d (p_deps pr) /\ d_sat d = false /\ s_scc (stmt_of pr (d_src d)) = Z.of_nat i /\ s_scc (stmt_of pr (d_dst d)) = Z.of_nat i.
Lemma mark_none : mark_system o pr col i = None <-> members = [].
Proof.
  pose proof ortho_spec as H. unfold mark_system. destruct (ortho_constraints pr col i) as [c|]; [|tauto]. split; [discriminate|]. intros E. destruct H. congruence.
Qed.
Lemma mark_qmem c (x : qpoint) : mark_system o pr col i = Some c ->
  (qmem c x <-> S (length x) = cst_width pr /\ (forall k, (k < length x)%nat -> (0 <= nth k x 0)%Q) /\ (forall k, (p_npar pr + 1 <= k < length x)%nat -> within o pr (nth k x 0%Q)) /\
     (forall u, In u members -> qholds x (ortho_row pr u (plain_loops pr col u))) /\ forall d, inner d -> qmem (dep_cst o pr d) x).
Proof.
  intros E. unfold mark_system in E. pose proof ortho_spec as H. destruct (ortho_constraints pr col i) as [c0|]; [|discriminate]. destruct H as [_ ->].
  destruct (bounding_wf o pr) as [_ BN]. set (c1 := cst_add _ (get_coeff_bounding_constraints o pr)) in E.
  assert (qmem c1 x <-> S (length x) = cst_width pr /\ (forall k, (k < length x)%nat -> (0 <= nth k x 0)%Q) /\ (forall k, (p_npar pr + 1 <= k < length x)%nat -> within o pr (nth k x 0%Q)) /\
     (forall u, In u members -> qholds x (ortho_row pr u (plain_loops pr col u)))) as M1.
  { unfold c1. rewrite cst_add_qmem by (cbn [ncols]; auto). unfold qmem at 1 2. cbn [ncols rows]. split.
    - intros [[L A] [_ B]]. apply (bounding_rows_qmem o pr x L) in B as [B1 B2]. split; auto. split; auto. split; auto. intros u Hu. apply A. apply in_map_iff. exists u. auto.
    - intros (L & B1 & B2 & A). split; [split; [auto|]|split; [congruence|]].
      + intros r Hr. apply in_map_iff in Hr as (u & <- & Hu). auto.
      + apply bounding_rows_qmem; auto. }
  pose proof (scc_cst_spec o (Z.of_nat i) pr x) as P. cbv zeta in P.
  assert (forall d, (s_scc (stmt_of pr (d_src d)) =? Z.of_nat i) && (s_scc (stmt_of pr (d_src d)) =? s_scc (stmt_of pr (d_dst d))) = true <-> s_scc (stmt_of pr (d_src d)) = Z.of_nat i /\ s_scc (stmt_of pr (d_dst d)) = Z.of_nat i) as SEL.
  { intros d. rewrite andb_true_iff, !Z.eqb_eq. split; intros [A B]; split; congruence. }
  destruct (get_scc_permutability_constraints o (Z.of_nat i) pr) as [p|] eqn:EP; injection E as <-.
  - assert (ncols c1 = ncols p) as NC.
    { cbn. pose proof (opt_acc_spec o pr (fun d => (s_scc (stmt_of pr (d_src d)) =? Z.of_nat i) && (s_scc (stmt_of pr (d_src d)) =? s_scc (stmt_of pr (d_dst d)))) (p_deps pr) None (repeat 0%Q (cst_width pr - 1))) as Q.
      cbv zeta in Q. unfold get_scc_permutability_constraints in EP. clear Q. 
      enough (forall l acc, (forall a, acc = Some a -> ncols a = cst_width pr) -> forall q, fold_left (fun acc d => if d_sat d then acc else if (s_scc (stmt_of pr (d_src d)) =? Z.of_nat i) && (s_scc (stmt_of pr (d_src d)) =? s_scc (stmt_of pr (d_dst d))) then Some (cst_add match acc with Some c => c | None => universe (cst_width pr) end (dep_cst o pr d)) else acc) l acc = Some q -> ncols q = cst_width pr) as K
        by (symmetry; apply (K (p_deps pr) None); [discriminate|exact EP]).
      induction l as [|d l IH]; intros acc A q Hq; cbn [fold_left] in Hq; [auto|]. eapply IH; [|exact Hq]. intros a Ha.
      destruct (d_sat d); [auto|]. destruct (_ && _); [|auto]. injection Ha as <-. destruct acc; cbn; auto. }
    rewrite cst_add_qmem by auto. rewrite M1, P. split.
    + intros [(L & A & B & C) [_ D]]. split; [auto|]. split; [auto|]. split; [auto|]. split; [auto|]. intros d (D1 & D2 & D3 & D4). apply D; auto. apply SEL. auto.
    + intros (L & A & B & C & D). split; [auto|]. split; [auto|]. intros d D1 D2 D3. apply SEL in D3. apply D. split; tauto.
  - rewrite M1. split; [|tauto]. intros (L & A & B & C). split; [auto|]. split; [auto|]. split; [auto|]. split; [auto|]. intros d (D1 & D2 & D3 & D4). exfalso. specialize (P d D1 D2). rewrite (proj2 (SEL d)) in P by auto. discriminate.
Qed.
Lemma mark_wf c : mark_system o pr col i = Some c -> wf_cst c.
Proof.
  intros E. unfold mark_system in E. pose proof ortho_spec as H. destruct (ortho_constraints pr col i) as [c0|]; [|discriminate]. destruct H as [_ ->].
  destruct (bounding_wf o pr) as [[_ BW] BN].
  assert (wf_cst (cst_add (mkCst (cst_width pr) (map (fun u => ortho_row pr u (plain_loops pr col u)) members)) (get_coeff_bounding_constraints o pr))) as W1.
  { split; cbn [cst_add ncols rows]; [unfold cst_width; lia|]. intros r Hr. apply in_app_or in Hr as [Hr|Hr]; [|rewrite <- BN; auto].
    apply in_map_iff in Hr as (u & <- & _). rewrite ortho_ones. apply ones_row_length. }
  destruct (get_scc_permutability_constraints o (Z.of_nat i) pr) as [p|] eqn:EP; injection E as <-; [|auto].
  unfold get_scc_permutability_constraints in EP.
  enough (forall l acc, (forall a, acc = Some a -> forall r, In r (rows a) -> length (coef r) = cst_width pr) -> forall q, fold_left (fun acc d => if d_sat d then acc else if (s_scc (stmt_of pr (d_src d)) =? Z.of_nat i) && (s_scc (stmt_of pr (d_src d)) =? s_scc (stmt_of pr (d_dst d))) then Some (cst_add match acc with Some c => c | None => universe (cst_width pr) end (dep_cst o pr d)) else acc) l acc = Some q -> forall r, In r (rows q) -> length (coef r) = cst_width pr) as K.
  { destruct W1 as [A B]. split; [exact A|]. intros r Hr. cbn [cst_add rows] in Hr. apply in_app_or in Hr as [Hr|Hr]; [apply B; exact Hr|]. cbn. apply (K (p_deps pr) None ltac:(discriminate) p EP); auto. }
  induction l as [|d l IH]; intros acc A q Hq r Hr; cbn [fold_left] in Hq; [eauto|]. eapply IH; [|exact Hq|exact Hr]. intros a Ha r' Hr'.
  destruct (d_sat d); [eauto|]. destruct (_ && _); [|eauto]. injection Ha as <-. cbn [cst_add rows] in Hr'. apply in_app_or in Hr' as [Hr'|Hr'].
  - destruct acc; [eauto|destruct Hr'].
  - destruct (dep_cst_wf o pr d) as [[_ D] E]. rewrite <- E. auto.
Qed.
End System.

(** ** The loop over the SCCs *)
Section Marks.
Variables (lp : cst -> option qpoint) (is_emptyb : cst -> bool) (o : options) (col : list Z).
(** What is recorded belongs to the system of the current state. *)
Definition marks_ok (s : dstate) (m : marks) : Prop :=
  length (m_sol m) = st_num s /\ length (m_par m) = st_num s /\
  (forall i x, nth i (m_sol m) None = Some x -> exists c, mark_system o (st_prog s) col i = Some c /\ lp c = Some x) /\
  (forall i, nth i (m_par m) false = true ->
     mark_system o (st_prog s) col i = None \/ exists x, nth i (m_sol m) None = Some x /\ lp_parallel (st_prog s) x = true).

Definition sound_state (s : dstate) : Prop := wf_prog (st_prog s) /\ padded (st_prog s) /\ orig_first (st_prog s) /\
  (forall d, In d (p_deps (st_prog s)) -> (exists x, qmem (d_poly d) x) /\ (exists x, qmem (d_bpoly d) x)).

Lemma refresh_sound s : sound_state s -> sound_state (refresh is_emptyb s) /\ frame (st_prog s) (st_prog (refresh is_emptyb s)).
Proof.
  intros (W & PD & OF & NE). unfold refresh. set (p1 := compute_dep_satisfaction_precise is_emptyb (st_prog s)).
  destruct (compute_scc_prog (ddg_update (mkState p1 (st_adj s) (st_num s) (st_max s)))) as (f & E). cbn [ddg_update st_prog] in E. rewrite E.
  assert (frame (st_prog s) p1) as F1 by (apply set_deps_frame; apply precise_same).
  assert (wf_prog p1) as W1.
  { apply set_deps_wf; auto. intros d' Hd. apply in_map_iff in Hd as (d & <- & Hd). exists d. split; auto. apply precise_same. }
  change (set_stmts p1 (map (fun i => set_scc (stmt_of p1 i) (f i)) (seq 0 (length (p_stmts p1))))) with (with_scc p1 f).
  pose proof (with_scc_frame p1 f) as F2. pose proof (frame_trans _ _ _ F1 F2) as F. split; [|exact F].
  unfold sound_state. rewrite E. change (set_stmts p1 (map (fun i => set_scc (stmt_of p1 i) (f i)) (seq 0 (length (p_stmts p1))))) with (with_scc p1 f).
  split; [apply with_scc_wf; auto|]. split; [eapply frame_padded; eauto|]. split; [eapply frame_orig_first; eauto|].
  intros d' Hd. change (p_deps (with_scc p1 f)) with (p_deps p1) in Hd. unfold p1, compute_dep_satisfaction_precise in Hd. cbn in Hd.
  apply in_map_iff in Hd as (d & <- & Hd). destruct (precise_same is_emptyb (st_prog s) d) as (_ & _ & _ & P1 & P2). rewrite P1, P2. auto.
Qed.

Lemma nth_set_nth' {A} pos (v d : A) l k : (pos < length l)%nat -> nth k (set_nth pos v l) d = if (k =? pos)%nat then v else nth k l d.
Proof. intros H. destruct (Nat.eqb_spec k pos) as [->|N]; [apply nth_set_nth_eq; auto|apply nth_set_nth_neq; auto]. Qed.

Lemma put_ok s m i x b : marks_ok s m -> (i < st_num s)%nat ->
  (forall y, x = Some y -> exists c, mark_system o (st_prog s) col i = Some c /\ lp c = Some y) ->
  (b = true -> mark_system o (st_prog s) col i = None \/ exists y, x = Some y /\ lp_parallel (st_prog s) y = true) ->
  marks_ok s (mkMarks (set_nth i x (m_sol m)) (set_nth i b (m_par m))).
Proof.
  intros (L1 & L2 & A & B) Hi X Y. split; [cbn; rewrite set_nth_length; auto|]. split; [cbn; rewrite set_nth_length; auto|]. cbn [m_sol m_par]. split.
  - intros k y. rewrite nth_set_nth' by lia. destruct (Nat.eqb_spec k i) as [->|N]; auto.
  - intros k. rewrite !nth_set_nth' by lia. destruct (Nat.eqb_spec k i) as [->|N]; auto.
Qed.
Lemma empty_ok s : marks_ok s (mkMarks (repeat None (st_num s)) (repeat false (st_num s))).
Proof.
  split; [apply repeat_length|]. split; [apply repeat_length|]. cbn [m_sol m_par]. split; intros i.
  - intros x H. rewrite nth_repeat in H. discriminate.
  - intros H. rewrite nth_repeat in H. discriminate.
Qed.
Lemma mark_one_ok s m i s' m' : sound_state s -> marks_ok s m -> (i < st_num s)%nat -> mark_one lp is_emptyb o col (s, m) i = Some (s', m') ->
  sound_state s' /\ marks_ok s' m' /\ st_num s' = st_num s /\ frame (st_prog s) (st_prog s').
Proof.
  intros G M Hi. unfold mark_one. destruct (mark_system o (st_prog s) col i) as [c|] eqn:E.
  - destruct (lp c) as [x|] eqn:L.
    + intros H. injection H as <- <-. split; auto. split; [|split; [auto|apply frame_refl]]. apply put_ok; auto.
      * intros y Hy. injection Hy as <-. exists c. auto.
      * intros H. right. exists x. auto.
    + destruct (Nat.eqb_spec (st_num (refresh is_emptyb s)) (st_num s)) as [N|]; [|discriminate].
      destruct (mark_system o (st_prog (refresh is_emptyb s)) col i) as [c'|] eqn:E'; [|discriminate]. destruct (lp c') as [x|] eqn:L'; [|discriminate].
      intros H. injection H as <- <-. destruct (refresh_sound s G) as [G' F]. split; auto. split; [|split; auto].
      apply (put_ok _ (mkMarks (repeat None (st_num (refresh is_emptyb s))) (repeat false (st_num (refresh is_emptyb s))))); [apply empty_ok|lia| |].
      * intros y Hy. injection Hy as <-. exists c'. auto.
      * intros H. right. exists x. auto.
  - intros H. injection H as <- <-. split; auto. split; [|split; [auto|apply frame_refl]]. apply put_ok; auto. discriminate.
Qed.
Lemma mark_from_ok l : forall s m s' m', sound_state s -> marks_ok s m -> (forall i, In i l -> (i < st_num s)%nat) -> mark_from lp is_emptyb o col l (s, m) = Some (s', m') ->
  sound_state s' /\ marks_ok s' m' /\ st_num s' = st_num s /\ frame (st_prog s) (st_prog s').
Proof.
  induction l as [|i l IH]; intros s m s' m' G M R; cbn [mark_from].
  - intros H. injection H as <- <-. split; auto. split; auto. split; [auto|apply frame_refl].
  - destruct (mark_one lp is_emptyb o col (s, m) i) as [[s1 m1]|] eqn:E; [|discriminate]. intros H.
    destruct (mark_one_ok s m i s1 m1 G M (R i (or_introl eq_refl)) E) as (G1 & M1 & N1 & F1).
    destruct (IH s1 m1 s' m' G1 M1) as (G2 & M2 & N2 & F2); [intros k Hk; rewrite N1; apply R; right; auto|auto|].
    split; auto. split; auto. split; [congruence|]. eapply frame_trans; eauto.
Qed.
Lemma mark_ok s s' m : sound_state s -> mark_parallel_sccs lp is_emptyb o col s = Some (s', m) ->
  sound_state s' /\ marks_ok s' m /\ st_num s' = st_num s /\ frame (st_prog s) (st_prog s').
Proof. intros G H. eapply mark_from_ok; eauto; [apply empty_ok|]. intros i Hi. apply in_seq in Hi. lia. Qed.

(** Without a second computation the state stays as it is and every system with rows
    has a recorded solution. *)
Lemma mark_from_all l : forall s m, NoDup l -> marks_ok s m -> (forall i, In i l -> (i < st_num s)%nat) ->
  (forall i c, In i l -> mark_system o (st_prog s) col i = Some c -> lp c <> None) ->
  exists m', mark_from lp is_emptyb o col l (s, m) = Some (s, m') /\
    (forall i c, In i l -> mark_system o (st_prog s) col i = Some c -> nth i (m_sol m') None <> None) /\
    (forall i, ~ In i l -> nth i (m_sol m') None = nth i (m_sol m) None).
Proof.
  induction l as [|i l IH]; intros s m ND M R H; cbn [mark_from]; [exists m; split; [reflexivity|]; split; [intros ? ? []|reflexivity]|].
  inversion ND as [|? ? NI ND']; subst. assert (i < st_num s)%nat as Hi by (apply R; left; auto).
  assert (exists m1, mark_one lp is_emptyb o col (s, m) i = Some (s, m1) /\ marks_ok s m1 /\ (forall c, mark_system o (st_prog s) col i = Some c -> nth i (m_sol m1) None <> None) /\
    forall k, k <> i -> nth k (m_sol m1) None = nth k (m_sol m) None) as (m1 & E1 & M1 & S1 & O1).
  { unfold mark_one. destruct M as (L1 & L2 & A & B). destruct (mark_system o (st_prog s) col i) as [c|] eqn:E.
    - destruct (lp c) as [x|] eqn:L; [|exfalso; exact (H i c (or_introl eq_refl) E L)]. eexists. split; [reflexivity|]. split; [apply put_ok; auto; [split; auto|intros y Hy; injection Hy as <-; exists c; auto|intros K; right; exists x; auto]|].
      cbn [m_sol]. split; [intros c' _; rewrite nth_set_nth_eq by lia; discriminate|]. intros k K. apply nth_set_nth_neq; auto.
    - eexists. split; [reflexivity|]. split; [apply put_ok; auto; [split; auto|discriminate]|]. cbn [m_sol]. split; [discriminate|]. intros k K. apply nth_set_nth_neq; auto. }
  rewrite E1. destruct (IH s m1 ND' M1) as (m' & E2 & S2 & O2); [intros k Hk; apply R; right; auto|intros k c Hk; apply H; right; auto|].
  exists m'. split; auto. split.
  - intros k c [<-|Hk] Ec; [rewrite O2 by auto; eauto|eauto].
  - intros k Hk. rewrite O2 by (intros K; apply Hk; right; auto). apply O1. intros ->. apply Hk. left; auto.
Qed.
Lemma mark_from_par l : forall s m, NoDup l -> marks_ok s m -> (forall i, In i l -> (i < st_num s)%nat) ->
  (forall i c, In i l -> mark_system o (st_prog s) col i = Some c -> lp c <> None) ->
  exists m', mark_from lp is_emptyb o col l (s, m) = Some (s, m') /\
    (forall i, In i l -> match mark_system o (st_prog s) col i with
                         | None => nth i (m_sol m') None = None /\ nth i (m_par m') false = true
                         | Some c => exists x, lp c = Some x /\ nth i (m_sol m') None = Some x /\ nth i (m_par m') false = lp_parallel (st_prog s) x
                         end) /\
    (forall i, ~ In i l -> nth i (m_sol m') None = nth i (m_sol m) None /\ nth i (m_par m') false = nth i (m_par m) false).
Proof.
  induction l as [|i l IH]; intros s m ND M R H; cbn [mark_from]; [exists m; split; [reflexivity|]; split; [intros ? []|auto]|].
  inversion ND as [|? ? NI ND']; subst. assert (i < st_num s)%nat as Hi by (apply R; left; auto).
  assert (exists m1, mark_one lp is_emptyb o col (s, m) i = Some (s, m1) /\ marks_ok s m1 /\
    match mark_system o (st_prog s) col i with
    | None => nth i (m_sol m1) None = None /\ nth i (m_par m1) false = true
    | Some c => exists x, lp c = Some x /\ nth i (m_sol m1) None = Some x /\ nth i (m_par m1) false = lp_parallel (st_prog s) x
    end /\
    forall k, k <> i -> nth k (m_sol m1) None = nth k (m_sol m) None /\ nth k (m_par m1) false = nth k (m_par m) false) as (m1 & E1 & M1 & S1 & O1).
  { unfold mark_one. destruct M as (L1 & L2 & A & B). destruct (mark_system o (st_prog s) col i) as [c|] eqn:E.
    - destruct (lp c) as [x|] eqn:L; [|exfalso; exact (H i c (or_introl eq_refl) E L)]. eexists. split; [reflexivity|]. split; [apply put_ok; auto; [split; auto|intros y Hy; injection Hy as <-; exists c; auto|intros K; right; exists x; auto]|].
      cbn [m_sol m_par]. split; [exists x; rewrite !nth_set_nth_eq by lia; auto|]. intros k K. rewrite !nth_set_nth_neq by auto. auto.
    - eexists. split; [reflexivity|]. split; [apply put_ok; auto; [split; auto|discriminate]|]. cbn [m_sol m_par]. split; [rewrite !nth_set_nth_eq by lia; auto|].
      intros k K. rewrite !nth_set_nth_neq by auto. auto. }
  rewrite E1. destruct (IH s m1 ND' M1) as (m' & E2 & S2 & O2); [intros k Hk; apply R; right; auto|intros k c Hk; apply H; right; auto|].
  exists m'. split; auto. split.
  - intros k [<-|Hk]; [|apply S2; auto]. destruct (O2 i NI) as [-> ->]. exact S1.
  - intros k Hk. destruct (O2 k) as [-> ->]; [intros K; apply Hk; right; auto|]. apply O1. intros ->. apply Hk. left; auto.
Qed.
End Marks.

(** The sum of non-negative numbers is 0 only if all of them are. *)
Lemma sum_from (l : list Q) : forall a, (fold_left Qplus l a == a + fold_left Qplus l 0)%Q.
Proof. induction l as [|v l IH]; intros a; cbn [fold_left]; [ring|]. rewrite (IH (a + v)%Q), (IH (0 + v)%Q). ring. Qed.
Lemma sum_zero (l : list Q) : (forall v, In v l -> (0 <= v)%Q) -> (0 <= fold_left Qplus l 0)%Q /\ ((fold_left Qplus l 0 == 0)%Q -> forall v, In v l -> (v == 0)%Q).
Proof.
  induction l as [|a l IH]; intros H; cbn [fold_left]; [split; [lra|intros _ v []]|]. destruct IH as [A B]; [intros; apply H; right; auto|].
  pose proof (H a (or_introl eq_refl)) as Ha. split; [rewrite sum_from; lra|]. rewrite sum_from. intros E v [<-|Hv]; [lra|]. apply B; auto. lra.
Qed.

(** The choice of a loop. *)
Lemma next_loop_spec x pr u disc js : (forall j, In j js -> (0 <= nth (coef_col pr u j) x 0)%Q) ->
  (exists j, In j js /\ disc (vertex_offset pr u + j)%nat = false /\ (0 < nth (coef_col pr u j) x 0)%Q) ->
  exists j, next_loop (Some x) pr u disc js = Some j /\ In j js /\ disc (vertex_offset pr u + j)%nat = false /\ (0 < nth (coef_col pr u j) x 0)%Q.
Proof.
  induction js as [|a js IH]; intros N (j & Hj & D & P); [destruct Hj|]. cbn [next_loop].
  assert (disc (vertex_offset pr u + a)%nat = true \/ (nth (coef_col pr u a) x 0 == 0)%Q -> exists j, In j js /\ disc (vertex_offset pr u + j)%nat = false /\ (0 < nth (coef_col pr u j) x 0)%Q) as K.
  { intros Q. destruct Hj as [->|Hj]; [|exists j; auto]. destruct Q as [Q|Q]; [congruence|]. rewrite Q in P. lra. }
  assert (forall j, In j js -> (0 <= nth (coef_col pr u j) x 0)%Q) as N' by (intros; apply N; right; auto).
  destruct (disc (vertex_offset pr u + a)%nat) eqn:DA; [destruct (IH N' (K (or_introl eq_refl))) as (k & A & B & C); exists k; split; [exact A|split; [right; exact B|exact C]]|].
  destruct (Qeq_bool (nth (coef_col pr u a) x 0%Q) 0%Q) eqn:Z.
  - apply Qeq_bool_iff in Z. destruct (IH N' (K (or_intror Z))) as (k & A & B & C). exists k. split; [exact A|split; [right; exact B|exact C]].
  - exists a. split; [reflexivity|]. split; [left; auto|]. split; [exact DA|]. pose proof (N a (or_introl eq_refl)). apply Qeq_bool_neq in Z.
    apply Qnot_le_lt. intros K'. apply Z. lra.
Qed.
