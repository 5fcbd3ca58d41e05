(** * farkas_lemma_affine: soundness and completeness. *)
From Coq Require Import ZArith QArith Qfield List Bool Lia Lqa.
From Verif Require Import SpecLinear VecProofs MathModel GcdProofs ConstraintsModel SimplifyProofs FMProofs.
Import ListNotations.
Open Scope Z_scope.

(** ** The eliminated variable is always a multiplier *)
Lemma best_elim_range c m : (1 <= m)%nat -> (m + 1 <= ncols c)%nat ->
  (ncols c - 1 - m <= best_elim_candidate c m <= ncols c - 2)%nat.
Proof.
  intros Hm Hn. unfold best_elim_candidate.
  assert (forall l (st : Z * nat),
    (forall d, In d l -> (d < m)%nat) ->
    (ncols c - 1 - m <= snd st <= ncols c - 2)%nat ->
    (ncols c - 1 - m <= snd (fold_left (fun (st : Z * nat) d =>
            let j := (ncols c - 2 - d)%nat in
            let cost := elim_cost c j in
            if (cost <? fst st)%Z then (cost, j) else st) l st) <= ncols c - 2)%nat) as K.
  { induction l as [|d l IH]; intros st Hd Hst; cbn [fold_left]; auto.
    apply IH; [intros; apply Hd; simpl; auto|].
    cbv zeta. destruct (_ <? _); auto. cbn [snd].
    specialize (Hd d (or_introl eq_refl)). lia. }
  apply K.
  - intros d Hd. apply in_seq in Hd. lia.
  - cbn [snd]. lia.
Qed.

Lemma insert_at_app_r {A} pos (v : A) l l' :
  (length l <= pos)%nat -> insert_at pos v (l ++ l') = l ++ insert_at (pos - length l) v l'.
Proof.
  revert pos; induction l as [|a l IH]; simpl; intros pos H.
  - rewrite Nat.sub_0_r. auto.
  - destruct pos; [lia|]. simpl. f_equal. apply IH. lia.
Qed.

Lemma farkas_eliminate_exact f n nv c : wf_cst f -> ncols f = (nv + n + 1)%nat ->
  qmem (farkas_eliminate f n) c <->
  (length c = nv /\ exists lam, length lam = n /\ qmem f (c ++ lam)).
Proof.
  revert f. induction n as [|n IH]; intros f Hwf Hn; simpl farkas_eliminate.
  - split.
    + intros H. split. { destruct H as [H _]. lia. }
      exists []. rewrite app_nil_r. auto.
    + intros (_ & lam & Hl & H). destruct lam; [|discriminate]. rewrite app_nil_r in H. auto.
  - pose proof (best_elim_range f (S n) ltac:(lia) ltac:(lia)) as Hr.
    set (p := best_elim_candidate f (S n)) in *.
    destruct (fm_smart_wf f p Hwf ltac:(lia)) as [Hwf' Hn'].
    rewrite IH by (auto; lia).
    split.
    + intros (Hc & lam & Hl & H). split; auto.
      apply fm_smart_exact in H; auto; [|lia]. destruct H as [v Hv].
      rewrite insert_at_app_r in Hv by lia.
      exists (insert_at (p - length c) v lam). split; auto.
      rewrite insert_at_length. lia.
    + intros (Hc & lam & Hl & H). split; auto.
      exists (remove_at (p - length c) lam). split.
      { rewrite remove_at_length; lia. }
      apply fm_smart_exact; auto; [lia|].
      exists (nth (p - length c) lam 0%Q).
      rewrite insert_at_app_r by lia. rewrite insert_remove by lia. auto.
Qed.

(** ** The Farkas system *)
Lemma nth_map_seq {A} (f : nat -> A) n i d : (i < n)%nat -> nth i (map f (seq 0 n)) d = f i.
Proof.
  intros. rewrite nth_indep with (d' := f 0%nat) by (rewrite map_length, seq_length; auto).
  rewrite List.map_nth. rewrite seq_nth; auto.
Qed.

Lemma qdot_unit k n x : (k < n)%nat -> length x = n ->
  (qdot (set_nth k 1%Z (repeat 0%Z n)) x == nth k x 0)%Q.
Proof.
  revert n x; induction k; destruct n; destruct x; simpl; intros; try lia.
  - rewrite qdot_repeat0_l, inject_Z_1. ring.
  - rewrite IHk by lia. rewrite inject_Z_0. ring.
Qed.

Lemma last_split {A} (d : A) (r : list A) n : length r = S n -> r = firstn n r ++ [nth n r d].
Proof.
  revert n; induction r as [|a r IH]; simpl; intros n H; [lia|].
  destruct n.
  - destruct r; [auto|simpl in H; lia].
  - simpl. f_equal. apply IH. lia.
Qed.

Definition wf_phi (dom : cst) (phi : matrix) : Prop :=
  wf_mat phi /\ mnrows phi = ncols dom /\ (1 <= mncols phi)%nat.

Lemma farkas_system_wf idom phi : wf_cst idom -> wf_phi idom phi ->
  wf_cst (farkas_system idom phi).
Proof.
  intros [H1 H2] (P1 & P2 & P3). split; cbn [farkas_system ncols rows]. lia.
  intros r Hr. apply in_app_or in Hr. destruct Hr as [Hr|Hr].
  - apply in_map_iff in Hr as (i & <- & Hi). apply in_seq in Hi. simpl coef.
    rewrite !app_length, map_length, firstn_length_le. simpl. unfold nrows. lia.
    rewrite P1. lia. apply nth_In. unfold mnrows in P2. lia.
  - apply in_map_iff in Hr as (i & <- & Hi). simpl. rewrite set_nth_length, repeat_length. auto.
Qed.

(** Column [i] of the rows of [idom]. *)
Definition column (i : nat) (l : list row) : list Z := map (fun r => nth i (coef r) 0) l.

Lemma farkas_system_mem idom phi c lam :
  wf_cst idom -> wf_phi idom phi ->
  length c = (mncols phi - 1)%nat -> length lam = nrows idom ->
  qmem (farkas_system idom phi) (c ++ lam) <->
  ((forall i, (i < ncols idom)%nat ->
      (qaff (nth i (mrows phi) []) c == qdot (column i (rows idom)) lam)%Q) /\
   (forall l, In l lam -> (0 <= l)%Q)).
Proof.
  intros [H1 H2] (P1 & P2 & P3) Hc Hl.
  unfold qmem, farkas_system. cbn [ncols rows].
  assert (forall i, (i < ncols idom)%nat ->
    (qaff (firstn (mncols phi - 1) (nth i (mrows phi) [])
       ++ map (fun r => - nth i (coef r) 0) (rows idom)
       ++ [mget phi i (mncols phi - 1)])%Z (c ++ lam)
     == qaff (nth i (mrows phi) []) c - qdot (column i (rows idom)) lam)%Q) as E.
  { intros i Hi.
    assert (length (nth i (mrows phi) []) = mncols phi) as Hlr.
    { apply P1. apply nth_In. unfold mnrows in P2. lia. }
    unfold qaff. rewrite <- app_assoc.
    rewrite qdot_app by (rewrite firstn_length_le; lia).
    rewrite qdot_app by (rewrite map_length; unfold nrows in Hl; lia).
    replace (map (fun r => - nth i (coef r) 0) (rows idom)) with (map Z.opp (column i (rows idom)))
      by (unfold column; rewrite map_map; auto).
    rewrite qdot_map_opp.
    rewrite (last_split 0%Z (nth i (mrows phi) []) (mncols phi - 1)) at 2 by lia.
    rewrite qdot_app by (rewrite firstn_length_le; lia). unfold mget. ring. }
  assert (forall j, (j < nrows idom)%nat ->
    (qaff (set_nth (mncols phi - 1 + j) 1%Z (repeat 0%Z (mncols phi + nrows idom))) (c ++ lam)
     == nth j lam 0)%Q) as E2.
  { intros j Hj. unfold qaff. rewrite qdot_unit.
    - rewrite <- app_assoc. rewrite app_nth2 by lia.
      replace (mncols phi - 1 + j - length c)%nat with j by lia.
      rewrite app_nth1 by lia. reflexivity.
    - lia.
    - rewrite !app_length. simpl. lia. }
  split.
  - intros [_ H]. split.
    + intros i Hi.
      assert (qholds (c ++ lam)
        (mkRow true (firstn (mncols phi - 1) (nth i (mrows phi) [])
               ++ map (fun r => - nth i (coef r) 0) (rows idom)
               ++ [mget phi i (mncols phi - 1)]))) as K.
      { apply H. apply in_or_app. left. apply in_map_iff. exists i. split; auto.
        apply in_seq. lia. }
      unfold qholds in K. cbn [is_eq coef] in K. rewrite E in K by auto. lra.
    + intros l Hin. apply (In_nth _ _ 0%Q) in Hin as (j & Hj & <-).
      assert (qholds (c ++ lam)
        (mkRow false (set_nth (mncols phi - 1 + j) 1 (repeat 0 (mncols phi + nrows idom))))) as K.
      { apply H. apply in_or_app. right. apply in_map_iff. exists j. split; auto.
        apply in_seq. lia. }
      unfold qholds in K. cbn [is_eq coef] in K. rewrite E2 in K by lia. auto.
  - intros [Ha Hb]. split. { rewrite app_length. lia. }
    intros r Hr. apply in_app_or in Hr. destruct Hr as [Hr|Hr];
      apply in_map_iff in Hr as (i & <- & Hi); apply in_seq in Hi;
      unfold qholds; cbn [is_eq coef].
    + rewrite E by lia. rewrite Ha by lia. ring.
    + rewrite E2 by lia. apply Hb. apply nth_In. lia.
Qed.

(** ** Sums of faces *)
(** [combo lam l y] is the sum over faces of lam_j times face_j at y. *)
Fixpoint combo (lam : list Q) (l : list row) (y : list Q) : Q :=
  match lam, l with
  | a :: lam', r :: l' => (a * qdot (coef r) y + combo lam' l' y)%Q
  | _, _ => 0%Q
  end.

Lemma qqdot_Qeq a a' y : length a = length a' ->
  (forall i, (i < length a)%nat -> (nth i a 0 == nth i a' 0)%Q) -> (qqdot a y == qqdot a' y)%Q.
Proof.
  revert a' y; induction a; destruct a', y; simpl; intros; try lia; try reflexivity.
  rewrite (H0 0%nat ltac:(lia)). rewrite (IHa a' y); try lia; [reflexivity|].
  intros i Hi. apply (H0 (S i)). lia.
Qed.

Lemma qdot_zero_l (f : row -> Z) l lam : (forall r, In r l -> f r = 0%Z) -> (qdot (map f l) lam == 0)%Q.
Proof.
  revert lam; induction l; destruct lam; simpl; intros; try reflexivity.
  rewrite IHl by auto. rewrite H by auto. unfold inject_Z. ring.
Qed.

Lemma qqdot_column lam l n y : length lam = length l ->
  (forall r, In r l -> length (coef r) = n) -> length y = n ->
  (qqdot (map (fun i => qdot (column i l) lam) (seq 0 n)) y == combo lam l y)%Q.
Proof.
  revert lam. induction l as [|r l IH]; intros lam Hl Hr Hy.
  - destruct lam; [|discriminate]. simpl.
    clear. revert y. generalize 0%nat. induction n; destruct y; simpl; try reflexivity.
    rewrite IHn. ring.
  - destruct lam as [|a lam]; [discriminate|]. simpl combo.
    rewrite <- IH by (auto; intros; apply Hr; simpl; auto).
    specialize (Hr r (or_introl eq_refl)).
    assert (forall s m y, (m + s = n)%nat -> length y = m ->
      (qqdot (map (fun i => qdot (column i (r :: l)) (a :: lam)) (seq s m)) y
      == a * qdot (skipn s (coef r)) y + qqdot (map (fun i => qdot (column i l) lam) (seq s m)) y)%Q) as K.
    { clear - Hr. intros s m; revert s. induction m; intros s y Hm Hy; simpl.
      - destruct y; [|discriminate]. destruct (skipn s (coef r)); simpl; ring.
      - destruct y as [|q y]; [discriminate|].
        simpl in IHm. rewrite IHm by (simpl in *; lia).
        assert (skipn s (coef r) = nth s (coef r) 0%Z :: skipn (S s) (coef r)) as ->.
        { assert (s < length (coef r))%nat as Hs by lia. revert Hs. clear.
          generalize (coef r). induction s; destruct l; simpl; intros; try lia; auto.
          apply IHs. lia. }
        simpl. ring. }
    rewrite (K 0%nat n y) by lia. simpl. reflexivity.
Qed.

Lemma combo_nonneg lam l y :
  (forall a, In a lam -> (0 <= a)%Q) ->
  (forall r, In r l -> (0 <= qdot (coef r) y)%Q) -> (0 <= combo lam l y)%Q.
Proof.
  revert l; induction lam; destruct l; simpl; intros; try lra.
  assert (0 <= combo lam l y)%Q by (apply IHlam; auto).
  assert (0 <= a * qdot (coef r) y)%Q by (apply Qmult_le_0_compat; auto). lra.
Qed.

(** ** The pure-inequality domain with the extra face 1 >= 0 *)
Definition fdom (dom : cst) : cst :=
  let idom0 := to_pure_inequalities dom in
  set_last (ncols idom0 - 1) 1 (add_inequality idom0).

Lemma map_nth_last {A} (f : A -> A) l a :
  map_nth (length (l ++ [a]) - 1) f (l ++ [a]) = l ++ [f a].
Proof.
  unfold map_nth. rewrite app_length. simpl. replace (length l + 1 - 1)%nat with (length l) by lia.
  rewrite nth_error_app2 by lia. rewrite Nat.sub_diag. simpl.
  induction l; simpl; auto. f_equal; auto.
Qed.

Definition one_row (n : nat) : row := mkRow false (set_nth (n - 1) 1 (repeat 0 n)).

Lemma fdom_rows dom :
  rows (fdom dom) = rows (to_pure_inequalities dom) ++ [one_row (ncols dom)] /\
  ncols (fdom dom) = ncols dom.
Proof.
  unfold fdom, add_inequality, add_zero_row, set_last. cbn [rows ncols].
  rewrite map_nth_last. unfold one_row. rewrite to_pure_ncols. auto.
Qed.

Lemma fdom_wf dom : wf_cst dom -> wf_cst (fdom dom).
Proof.
  intros H. destruct (fdom_rows dom) as [E1 E2]. split.
  - rewrite E2. apply H.
  - rewrite E1, E2. intros r Hr. apply in_app_or in Hr. destruct Hr as [Hr|[<-|[]]].
    + apply to_pure_wf in H. destruct H as [_ H]. rewrite to_pure_ncols in H. auto.
    + simpl. rewrite set_nth_length, repeat_length. auto.
Qed.

Lemma farkas_unfold dom phi :
  farkas_lemma_affine dom phi = farkas_eliminate (farkas_system (fdom dom) phi) (nrows (fdom dom)).
Proof. reflexivity. Qed.

(** Existence of Farkas multipliers. *)
Definition multipliers (dom : cst) (phi : matrix) (c : qpoint) (lam : list Q) : Prop :=
  length lam = nrows (fdom dom) /\
  (forall i, (i < ncols dom)%nat ->
      (qaff (nth i (mrows phi) []) c == qdot (column i (rows (fdom dom))) lam)%Q) /\
  (forall l, In l lam -> (0 <= l)%Q).

Lemma farkas_exact dom phi c : wf_cst dom -> wf_phi dom phi ->
  qmem (farkas_lemma_affine dom phi) c <->
  (length c = (mncols phi - 1)%nat /\ exists lam, multipliers dom phi c lam).
Proof.
  intros Hd Hp. rewrite farkas_unfold.
  pose proof (fdom_wf dom Hd) as Hw. destruct (fdom_rows dom) as [_ En].
  assert (wf_phi (fdom dom) phi) as Hp' by (unfold wf_phi in *; rewrite En; auto).
  destruct Hp as (P1 & P2 & P3).
  rewrite (farkas_eliminate_exact _ _ (mncols phi - 1)).
  2:{ apply farkas_system_wf; auto. }
  2:{ cbn [farkas_system ncols]. lia. }
  split; intros (Hc & lam & H1 & H2); split; auto; exists lam.
  - apply farkas_system_mem in H2; auto. rewrite En in H2. unfold multipliers. tauto.
  - split; auto. apply farkas_system_mem; auto. rewrite En. tauto.
Qed.

Lemma qdot_one_row n y : (1 <= n)%nat -> length y = n ->
  (qdot (coef (one_row n)) y == nth (n - 1) y 0)%Q.
Proof. intros. unfold one_row; simpl. apply qdot_unit; lia. Qed.

Lemma form_val_combo dom phi c lam x : wf_cst dom -> wf_phi dom phi ->
  multipliers dom phi c lam -> S (length x) = ncols dom ->
  (form_val (mrows phi) c x == combo lam (rows (fdom dom)) (x ++ [1%Q]))%Q.
Proof.
  intros Hd (P1 & P2 & P3) (L1 & L2 & L3) Hx.
  destruct (fdom_wf dom Hd) as [_ Hw]. destruct (fdom_rows dom) as [_ En].
  unfold form_val.
  rewrite <- (qqdot_column lam (rows (fdom dom)) (ncols dom)).
  - apply qqdot_Qeq.
    + rewrite !map_length, seq_length. auto.
    + intros i Hi. rewrite map_length in Hi. unfold mnrows in P2.
      rewrite (nth_map_seq _ (ncols dom) i) by lia.
      rewrite nth_indep with (d' := qaff [] c) by (rewrite map_length; auto).
      rewrite (List.map_nth (fun r => qaff r c)). apply L2. lia.
  - auto.
  - rewrite <- En. auto.
  - rewrite app_length. simpl. lia.
Qed.

Lemma farkas_sound dom phi c : wf_cst dom -> wf_phi dom phi ->
  qmem (farkas_lemma_affine dom phi) c ->
  forall x, qmem dom x -> (0 <= form_val (mrows phi) c x)%Q.
Proof.
  intros Hd Hp H x Hx. apply farkas_exact in H as (Hc & lam & Hl); auto.
  rewrite (form_val_combo dom phi c lam x); auto; [|apply Hx].
  destruct Hl as (L1 & L2 & L3).
  apply combo_nonneg; auto.
  destruct (fdom_rows dom) as [-> _].
  apply to_pure_qmem in Hx; auto. destruct Hx as [Hlen Hx]. rewrite to_pure_ncols in Hlen.
  intros r Hr. apply in_app_or in Hr. destruct Hr as [Hr|[<-|[]]].
  - specialize (Hx r Hr). unfold qholds in Hx. rewrite (to_pure_ineq dom) in Hx; auto.
  - rewrite qdot_one_row by (rewrite ?app_length; simpl; lia).
    rewrite app_nth2 by lia. replace (ncols dom - 1 - length x)%nat with 0%nat by lia.
    simpl. lra.
Qed.

(** ** Conic Farkas lemma over Q, from exactness of the elimination *)
(** [y] is non-negative on every generator but negative on [b]. *)
Lemma qdot_inject_r a y : (qdot a (map inject_Z y) == inject_Z (dot a y))%Q.
Proof. apply qdot_zpoint. Qed.

Lemma qdot_scale_r a y k : (qdot a (map (Qmult k) y) == k * qdot a y)%Q.
Proof.
  revert y; induction a; destruct y; simpl; try ring. rewrite IHa. ring.
Qed.

Lemma linear_bound_nonneg (d0 s : Q) :
  (forall t : Q, (0 <= t)%Q -> (0 <= d0 + t * s)%Q) -> (0 <= s)%Q.
Proof.
  intros H. destruct (Qlt_le_dec s 0) as [L|L]; auto. exfalso.
  specialize (H 0%Q ltac:(lra)) as H0.
  specialize (H ((d0 + 1) / (- s))%Q).
  assert (0 <= (d0 + 1) / - s)%Q.
  { apply Qle_shift_div_l; lra. }
  specialize (H H1).
  assert ((d0 + 1) / - s * s == - (d0 + 1))%Q by (field; intro; lra). lra.
Qed.

Lemma linear_bound_zero (d0 s : Q) :
  (forall t : Q, (0 <= t)%Q -> (d0 + t * s == 0)%Q) -> (d0 == 0 /\ s == 0)%Q.
Proof.
  intros H. pose proof (H 0%Q ltac:(lra)). pose proof (H 1%Q ltac:(lra)). split; lra.
Qed.

Definition idphi (n : nat) : matrix :=
  mkMat (S n) (map (fun i => set_nth i 1 (repeat 0 (S n))) (seq 0 n)).

Lemma idphi_row n i c : (i < n)%nat -> length c = n ->
  (qaff (nth i (mrows (idphi n)) []) c == nth i c 0)%Q.
Proof.
  intros. unfold idphi; cbn [mrows]. rewrite nth_map_seq by auto.
  unfold qaff. rewrite qdot_unit by (rewrite ?app_length; simpl; lia).
  rewrite app_nth1 by lia. reflexivity.
Qed.

Lemma idphi_wf dom : wf_phi dom (idphi (ncols dom)).
Proof.
  split; [|split].
  - intros r Hr. cbn in Hr. apply in_map_iff in Hr as (i & <- & Hi).
    rewrite set_nth_length. simpl. rewrite repeat_length. auto.
  - unfold mnrows; simpl. rewrite map_length, seq_length. auto.
  - simpl. lia.
Qed.

(** Vector of a unit multiplier. *)
Definition unitv (j n : nat) (t : Q) : list Q := set_nth j t (repeat 0%Q n).

Lemma nth_repeat0 i n : nth i (repeat 0%Q n) 0%Q = 0%Q.
Proof. revert i; induction n; destruct i; simpl; auto. Qed.

Lemma qdot_unitv a j n t : (j < n)%nat -> length a = n ->
  (qdot a (unitv j n t) == inject_Z (nth j a 0%Z) * t)%Q.
Proof.
  unfold unitv. revert n a; induction j; destruct n, a; simpl; intros; try lia.
  - assert (forall m a, qdot a (repeat 0%Q m) == 0)%Q as Hz.
    { clear. induction m; destruct a; simpl; try reflexivity. rewrite IHm. ring. }
    rewrite Hz. ring.
  - rewrite IHj by lia. ring.
Qed.

Lemma unitv_nonneg j n t : (0 <= t)%Q -> forall l, In l (unitv j n t) -> (0 <= l)%Q.
Proof.
  unfold unitv. intros Ht. revert j. induction n; intros j l Hl; simpl in Hl.
  - destruct j; destruct Hl.
  - destruct j; simpl in Hl.
    + destruct Hl as [<-|Hl]; auto. apply repeat_spec in Hl. subst; lra.
    + destruct Hl as [<-|Hl]; [lra|]. eauto.
Qed.

Lemma qdot_app_last d y : length d = S (length y) ->
  (qdot d (y ++ [1%Q]) == qdot (firstn (length y) d) y + inject_Z (nth (length y) d 0%Z))%Q.
Proof.
  intros H. rewrite (last_split 0%Z d (length y)) at 1 by auto.
  rewrite qdot_app by (rewrite firstn_length_le; lia). simpl. ring.
Qed.

Lemma qdot_ext a y y' : length y = length y' ->
  (forall i, (i < length y)%nat -> (nth i y 0 == nth i y' 0)%Q) -> (qdot a y == qdot a y')%Q.
Proof.
  revert y y'; induction a; intros y y' H H0; destruct y, y'; simpl in *; try lia; try reflexivity.
  rewrite (H0 0%nat ltac:(lia)). rewrite (IHa y y'); try lia; [reflexivity|].
  intros i Hi. apply (H0 (S i)). lia.
Qed.

Lemma cone_closed dom (b : list Q) : wf_cst dom -> length b = ncols dom ->
  (forall y : list Z, length y = ncols dom ->
     (forall r, In r (rows (fdom dom)) -> 0 <= dot (coef r) y) -> (0 <= qdot y b)%Q) ->
  exists lam, length lam = nrows (fdom dom) /\ (forall l, In l lam -> (0 <= l)%Q) /\
    forall i, (i < ncols dom)%nat -> (nth i b 0 == qdot (column i (rows (fdom dom))) lam)%Q.
Proof.
  intros Hd Hb Hy.
  set (n := ncols dom) in *.
  set (F := farkas_lemma_affine dom (idphi n)).
  pose proof (idphi_wf dom) as Hip. fold n in Hip.
  (* points of the cone satisfy F *)
  assert (forall c, length c = n ->
    (qmem F c <-> exists lam, length lam = nrows (fdom dom) /\ (forall l, In l lam -> (0 <= l)%Q) /\
       forall i, (i < n)%nat -> (nth i c 0 == qdot (column i (rows (fdom dom))) lam)%Q)) as HF.
  { intros c Hc. unfold F. rewrite farkas_exact by auto. unfold multipliers. fold n.
    split.
    - intros (_ & lam & L1 & L2 & L3). exists lam. repeat split; auto.
      intros i Hi. rewrite <- L2 by auto. symmetry. apply idphi_row; auto.
    - intros (lam & L1 & L3 & L2). split. { simpl. lia. }
      exists lam. repeat split; auto. intros i Hi. rewrite <- L2 by auto. apply idphi_row; auto. }
  apply HF; auto.
  (* shape of F *)
  assert (wf_cst F /\ ncols F = S n) as [WF NF].
  { unfold F. rewrite farkas_unfold.
    assert (wf_cst (farkas_system (fdom dom) (idphi n))) as W0.
    { apply farkas_system_wf. apply fdom_wf; auto. unfold wf_phi in *.
      destruct (fdom_rows dom) as [_ ->]. fold n. auto. }
    assert (ncols (farkas_system (fdom dom) (idphi n)) = (n + nrows (fdom dom) + 1)%nat) as N0.
    { cbn [farkas_system ncols idphi mncols]. lia. }
    revert W0 N0. generalize (farkas_system (fdom dom) (idphi n)) (nrows (fdom dom)).
    intros f m; revert f. induction m; intros f W0 N0; simpl.
    - split; auto. lia.
    - pose proof (best_elim_range f (S m) ltac:(lia) ltac:(lia)).
      destruct (fm_smart_wf f (best_elim_candidate f (S m)) W0 ltac:(lia)) as [W1 N1].
      apply IHm; auto. lia. }
  destruct (fdom_wf dom Hd) as [_ Wd]. destruct (fdom_rows dom) as [_ En].
  (* 0 and multiples of generators are in the cone *)
  assert (forall r t, In r (rows (fdom dom)) -> (0 <= t)%Q ->
            qmem F (map (fun v => t * inject_Z v)%Q (coef r))) as Hgen.
  { intros r t Hr Ht. apply HF. { rewrite map_length, Wd, En; auto. }
    apply In_nth_error in Hr as [j Hj].
    assert (j < nrows (fdom dom))%nat as Hjl by (apply nth_error_Some; congruence).
    exists (unitv j (nrows (fdom dom)) t). split; [|split].
    - unfold unitv. rewrite set_nth_length, repeat_length. auto.
    - apply unitv_nonneg; auto.
    - intros i Hi. rewrite qdot_unitv by (unfold column, nrows in *; rewrite ?map_length; auto).
      unfold column.
      assert (nth j (map (fun r0 => nth i (coef r0) 0%Z) (rows (fdom dom))) 0%Z = nth i (coef r) 0%Z) as ->.
      { rewrite nth_indep with (d' := nth i (coef r) 0%Z) by (rewrite map_length; auto).
        rewrite (List.map_nth (fun r0 => nth i (coef r0) 0%Z)).
        rewrite (nth_error_nth _ _ r Hj). reflexivity. }
      assert (nth i (map (fun v => t * inject_Z v)%Q (coef r)) 0%Q == t * inject_Z (nth i (coef r) 0%Z))%Q as ->.
      { rewrite nth_indep with (d' := (t * inject_Z 0)%Q).
        - rewrite (List.map_nth (fun v => t * inject_Z v)%Q). reflexivity.
        - rewrite map_length, Wd, En; auto. eapply nth_error_In; eauto. }
      ring. }
  (* each row of F is homogeneous and non-negative on generators *)
  split. { lia. }
  intros d Hdr. destruct WF as [_ WF]. pose proof (WF d Hdr) as Ld. rewrite NF in Ld.
  set (d' := firstn n (coef d)). set (d0 := inject_Z (nth n (coef d) 0%Z)).
  assert (length d' = n) as Ld' by (unfold d'; rewrite firstn_length_le; lia).
  assert (forall c, length c = n -> (qaff (coef d) c == qdot d' c + d0)%Q) as Ed.
  { intros c Hc. unfold qaff. rewrite qdot_app_last by lia. rewrite Hc. reflexivity. }
  assert (forall r t, length (coef r) = n ->
    (qdot d' (map (fun v => t * inject_Z v)%Q (coef r)) == t * inject_Z (dot (coef r) d'))%Q) as Es.
  { intros r t Hr. rewrite <- map_map with (f := inject_Z) (g := Qmult t).
    rewrite qdot_scale_r, qdot_inject_r, dot_comm. reflexivity. }
  (* 0 is a point of the cone: use the extra row with t = 0 *)
  assert (In (one_row n) (rows (fdom dom))) as Hone.
  { destruct (fdom_rows dom) as [-> _]. apply in_or_app. right. left. auto. }
  assert (length (coef (one_row n)) = n) as Lone by (rewrite (Wd _ Hone); auto).
  rewrite En in Wd. fold n in Wd.
  unfold qholds. destruct (is_eq d) eqn:Eq.
  - assert (forall r, In r (rows (fdom dom)) -> (d0 == 0 /\ inject_Z (dot (coef r) d') == 0)%Q) as G.
    { intros r Hr. apply linear_bound_zero. intros t Ht.
      destruct (Hgen r t Hr Ht) as [_ K]. specialize (K d Hdr). unfold qholds in K. rewrite Eq in K.
      rewrite Ed in K by (rewrite map_length; auto). rewrite Es in K by auto. lra. }
    rewrite Ed by auto. destruct (G _ Hone) as [-> _].
    assert (0 <= qdot d' b)%Q.
    { apply Hy; auto. intros r Hr. destruct (G r Hr) as [_ G2]. rewrite inject_Z_eq0 in G2. lia. }
    assert (0 <= qdot (map Z.opp d') b)%Q as K.
    { apply Hy. rewrite map_length; auto. intros r Hr. destruct (G r Hr) as [_ G2].
      rewrite inject_Z_eq0 in G2. rewrite dot_comm, dot_map_opp, dot_comm. lia. }
    rewrite qdot_map_opp in K. lra.
  - assert (forall r, In r (rows (fdom dom)) -> (0 <= inject_Z (dot (coef r) d'))%Q) as G.
    { intros r Hr. apply (linear_bound_nonneg d0). intros t Ht.
      destruct (Hgen r t Hr Ht) as [_ K]. specialize (K d Hdr). unfold qholds in K. rewrite Eq in K.
      rewrite Ed in K by (rewrite map_length; auto). rewrite Es in K by auto. lra. }
    assert (0 <= d0)%Q as Hd0.
    { destruct (Hgen _ 0%Q Hone ltac:(lra)) as [_ K]. specialize (K d Hdr). unfold qholds in K. rewrite Eq in K.
      rewrite Ed in K by (rewrite map_length; auto). rewrite Es in K by auto. lra. }
    rewrite Ed by auto.
    assert (0 <= qdot d' b)%Q; [|lra].
    apply Hy; auto. intros r Hr. apply inject_Z_le0. auto.
Qed.

(** ** Affine completeness *)
Lemma qqdot_comm_qdot (b : list Q) (y : list Z) : (qqdot b (map inject_Z y) == qdot y b)%Q.
Proof.
  revert y; induction b; destruct y; simpl; try reflexivity. rewrite IHb. ring.
Qed.

Lemma qqdot_app a b x y : length a = length x -> (qqdot (a ++ b) (x ++ y) == qqdot a x + qqdot b y)%Q.
Proof.
  revert x; induction a; destruct x; simpl; intros; try lia.
  - ring.
  - rewrite IHa by lia. ring.
Qed.

Lemma qqdot_scale_r b k y : (qqdot b (map (Qmult k) y) == k * qqdot b y)%Q.
Proof. revert y; induction b; destruct y; simpl; try ring. rewrite IHb. ring. Qed.

Lemma qqdot_add_r b y z : length y = length z ->
  (qqdot b (zip_with Qplus y z) == qqdot b y + qqdot b z)%Q.
Proof.
  revert y z; induction b; intros y z H; destruct y, z; simpl in *; try lia; try ring.
  rewrite IHb by lia. ring.
Qed.

Lemma qdot_add_r b y z : length y = length z ->
  (qdot b (zip_with Qplus y z) == qdot b y + qdot b z)%Q.
Proof.
  revert y z; induction b; intros y z H; destruct y, z; simpl in *; try lia; try ring.
  rewrite IHb by lia. ring.
Qed.

Lemma affine_farkas dom (b : list Q) : wf_cst dom -> length b = ncols dom ->
  (exists x0, qmem dom x0) ->
  (forall x, qmem dom x -> (0 <= qqdot b (x ++ [1%Q]))%Q) ->
  forall y : list Z, length y = ncols dom ->
     (forall r, In r (rows (fdom dom)) -> 0 <= dot (coef r) y) -> (0 <= qdot y b)%Q.
Proof.
  intros Hd Hb [x0 Hx0] Hpos y Hy Hr.
  assert (Hd' := Hd). destruct Hd' as [Hn _].
  set (n := ncols dom) in *.
  destruct (fdom_rows dom) as [Er En].
  (* split y = y' ++ [t] *)
  pose proof (last_split 0%Z y (n - 1) ltac:(lia)) as Ey.
  set (y' := firstn (n - 1) y) in *. set (t := nth (n - 1) y 0) in *.
  assert (length y' = n - 1)%nat as Ly' by (unfold y'; rewrite firstn_length_le; lia).
  assert (0 <= t) as Ht.
  { assert (In (one_row n) (rows (fdom dom))) as Hone by (rewrite Er; apply in_or_app; right; left; auto).
    specialize (Hr _ Hone). unfold one_row in Hr; simpl in Hr.
    assert (inject_Z (dot (set_nth (n - 1) 1%Z (repeat 0%Z n)) y) == inject_Z t)%Q as K.
    { rewrite <- qdot_zpoint. rewrite qdot_unit by (rewrite ?zpoint_length; lia).
      unfold zpoint. rewrite nth_indep with (d' := inject_Z 0) by (rewrite map_length; lia).
      rewrite List.map_nth. reflexivity. }
    rewrite inject_Z_injective in K. lia. }
  (* faces of the domain at scaled points *)
  assert (forall r, In r (rows (to_pure_inequalities dom)) -> 0 <= dot (coef r) y) as Hface.
  { intros r Hin. apply Hr. rewrite Er. apply in_or_app. auto. }
  rewrite <- qqdot_comm_qdot. rewrite Ey, map_app.
  pose proof (last_split 0%Q b (n - 1) ltac:(lia)) as Eb.
  set (b' := firstn (n - 1) b) in *. set (b0 := nth (n - 1) b 0%Q) in *.
  assert (length b' = n - 1)%nat as Lb' by (unfold b'; rewrite firstn_length_le; lia).
  assert (forall z, length z = (n - 1)%nat -> (qqdot b (z ++ [1]) == qqdot b' z + b0)%Q) as Eval.
  { intros z Hz. rewrite Eb. rewrite qqdot_app by lia. simpl. ring. }
  rewrite Eb at 1. rewrite qqdot_app by (rewrite map_length; lia). simpl map. cbn [qqdot].
  pose proof (to_pure_wf dom Hd) as [_ Wp]. rewrite to_pure_ncols in Wp. fold n in Wp.
  assert (forall r, In r (rows (to_pure_inequalities dom)) ->
     0 <= dot (firstn (n - 1) (coef r)) y' + nth (n - 1) (coef r) 0 * t) as Hface'.
  { intros r Hin. specialize (Hface r Hin). rewrite Ey in Hface.
    rewrite (last_split 0%Z (coef r) (n - 1)) in Hface by (rewrite Wp; auto; lia).
    rewrite dot_app in Hface by (rewrite firstn_length_le; rewrite ?Wp; auto; lia). simpl in Hface. lia. }
  assert (forall z r, In r (rows (to_pure_inequalities dom)) -> length z = (n - 1)%nat ->
     (qaff (coef r) z == qdot (firstn (n - 1) (coef r)) z + inject_Z (nth (n - 1) (coef r) 0%Z))%Q) as Eaff.
  { intros z r Hin Hz. unfold qaff. rewrite qdot_app_last by (rewrite Wp; auto; lia). rewrite Hz. reflexivity. }
  destruct (Z.eq_dec t 0) as [Et|Et].
  - (* direction of recession *)
    assert (length x0 = n - 1)%nat as Lx0 by (destruct Hx0 as [H _]; fold n in H; lia).
    assert (0 <= qqdot b' (map inject_Z y'))%Q; [|rewrite Et; simpl; rewrite inject_Z_0; lra].
    apply (linear_bound_nonneg (qqdot b' x0 + b0)%Q). intros s Hs.
    assert (qmem dom (zip_with Qplus x0 (map (Qmult s) (map inject_Z y')))) as Hz.
    { apply to_pure_qmem; auto. apply to_pure_qmem in Hx0; auto.
      destruct Hx0 as [L0 H0]. split.
      - rewrite zip_with_length; auto. rewrite !map_length. lia.
      - intros r Hin. specialize (H0 r Hin). unfold qholds in *.
        rewrite (to_pure_ineq dom r Hin) in *.
        rewrite Eaff in * by (auto; rewrite zip_with_length; rewrite ?map_length; lia).
        rewrite qdot_add_r by (rewrite !map_length; lia).
        rewrite qdot_scale_r, qdot_inject_r.
        specialize (Hface' r Hin). rewrite Et in Hface'.
        assert (0 <= inject_Z (dot (firstn (n - 1) (coef r)) y'))%Q by (apply inject_Z_le0; lia).
        assert (0 <= s * inject_Z (dot (firstn (n - 1) (coef r)) y'))%Q by (apply Qmult_le_0_compat; auto).
        lra. }
    specialize (Hpos _ Hz).
    rewrite Eval in Hpos by (rewrite zip_with_length; rewrite ?map_length; lia).
    rewrite qqdot_add_r, qqdot_scale_r in Hpos by (rewrite !map_length; lia). lra.
  - (* the point y'/t *)
    assert (0 < inject_Z t)%Q as Htq by (apply inject_Z_lt0; lia).
    set (k := (/ inject_Z t)%Q).
    assert (0 < k)%Q as Hk by (apply Qinv_lt_0_compat; auto).
    assert (k * inject_Z t == 1)%Q as Ek by (unfold k; field; intro; lra).
    clearbody k.
    assert (qmem dom (map (Qmult k) (map inject_Z y'))) as Hz.
    { apply to_pure_qmem; auto. split.
      - rewrite !map_length, to_pure_ncols. fold n. lia.
      - intros r Hin. unfold qholds. rewrite (to_pure_ineq dom r Hin).
        rewrite Eaff by (auto; rewrite !map_length; lia).
        rewrite qdot_scale_r, qdot_inject_r.
        specialize (Hface' r Hin). rewrite <- inject_Z_le0 in Hface'.
        rewrite inject_Z_plus, inject_Z_mult in Hface'.
        set (A := inject_Z (dot _ _)) in *. set (B := inject_Z (nth _ _ _)) in *.
        assert (0 <= k * (A + B * inject_Z t))%Q as K by (apply Qmult_le_0_compat; auto; lra).
        assert (k * (A + B * inject_Z t) == k * A + B)%Q.
        { transitivity (k * A + B * (k * inject_Z t))%Q; [ring|]. rewrite Ek. ring. }
        lra. }
    specialize (Hpos _ Hz).
    rewrite Eval in Hpos by (rewrite !map_length; lia).
    rewrite qqdot_scale_r in Hpos. simpl.
    set (A := qqdot b' _) in *.
    assert (0 <= inject_Z t * (k * A + b0))%Q as K by (apply Qmult_le_0_compat; auto; lra).
    assert (inject_Z t * (k * A + b0) == A + b0 * inject_Z t)%Q.
    { transitivity ((k * inject_Z t) * A + b0 * inject_Z t)%Q; [ring|]. rewrite Ek. ring. }
    lra.
Qed.

Lemma farkas_complete dom phi c : wf_cst dom -> wf_phi dom phi ->
  S (length c) = mncols phi ->
  (exists x, qmem dom x) ->
  (forall x, qmem dom x -> (0 <= form_val (mrows phi) c x)%Q) ->
  qmem (farkas_lemma_affine dom phi) c.
Proof.
  intros Hd Hp Hc Hne Hpos. apply farkas_exact; auto. split; [lia|].
  destruct Hp as (P1 & P2 & P3). unfold mnrows in P2.
  destruct (cone_closed dom (map (fun r => qaff r c) (mrows phi))) as (lam & L1 & L2 & L3); auto.
  - rewrite map_length. auto.
  - intros y Hy Hr. apply (affine_farkas dom); auto. rewrite map_length. auto.
  - exists lam. unfold multipliers. repeat split; auto.
    intros i Hi. rewrite <- L3 by auto.
    rewrite nth_indep with (d' := qaff [] c) by (rewrite map_length; lia).
    rewrite (List.map_nth (fun r => qaff r c)). reflexivity.
Qed.

Lemma farkas_wf dom phi : wf_cst dom -> wf_phi dom phi ->
  wf_cst (farkas_lemma_affine dom phi) /\ ncols (farkas_lemma_affine dom phi) = mncols phi.
Proof.
  intros Hd Hp. rewrite farkas_unfold.
  assert (wf_cst (farkas_system (fdom dom) phi)) as W0.
  { apply farkas_system_wf. apply fdom_wf; auto. unfold wf_phi in *.
    destruct (fdom_rows dom) as [_ ->]. auto. }
  destruct Hp as (_ & _ & Hp).
  assert (ncols (farkas_system (fdom dom) phi) = (mncols phi + nrows (fdom dom))%nat) as N0
    by (cbn [farkas_system ncols]; lia).
  revert W0 N0. generalize (farkas_system (fdom dom) phi) (nrows (fdom dom)).
  intros f m; revert f. induction m; intros f W0 N0; simpl.
  - split; auto. lia.
  - pose proof (best_elim_range f (S m) ltac:(lia) ltac:(lia)).
    destruct (fm_smart_wf f (best_elim_candidate f (S m)) W0 ltac:(lia)) as [W1 N1].
    apply IHm; auto. lia.
Qed.
