(** * Index-set splitting: where the cuts are. *)
From Coq Require Import ZArith QArith List Bool Lia Arith Lqa.
From Verif Require Import SpecLinear MathModel ConstraintsModel VecProofs EditProofs MatrixProofs SpecProg SpecTile
  RankProofs SumProofs FMProofs FarkasProofs FrameworkModel FrameworkProofs ProgModel DepProofs SimplifyProofs LexProofs ProgProofs TileModel TileProofs LoopModel
  IssModel SpecIss Checkers IssProofs IssProofs2.
Import ListNotations.
Import SumProofs FrameworkProofs.
Open Scope Q_scope.

Definition cut_row (n q : nat) (sol : list Z) : list Z :=
  map (fun j => nth (2 + j) sol 0%Z) (seq 0 n) ++ map (fun j => (- nth (2 + n + j) sol 0)%Z) (seq 0 q)
  ++ [(- nth (2 + n + q) sol 0)%Z].

Lemma cut_row_length n q sol : length (cut_row n q sol) = (n + q + 1)%nat.
Proof. unfold cut_row. rewrite !app_length, !map_length, !seq_length. simpl. lia. Qed.

Lemma cut_row_sum n q sol x p : length x = n -> length p = q ->
  qaff (cut_row n q sol) (x ++ p) ==
  qsum n (fun i => inject_Z (nth (2 + i) sol 0%Z) * nth i x 0)
  - qsum q (fun i => inject_Z (nth (2 + n + i) sol 0%Z) * nth i p 0) - inject_Z (nth (2 + n + q) sol 0%Z).
Proof.
  intros Hx Hp. rewrite (qaff_sum _ _ (n + q)) by (rewrite ?cut_row_length, ?app_length; lia).
  rewrite qsum_app. unfold cut_row.
  rewrite (qsum_ext n _ (fun i => inject_Z (nth (2 + i) sol 0%Z) * nth i x 0)).
  2:{ intros i Hi. rewrite !app_nth1 by (rewrite ?map_length, ?seq_length; lia). rewrite nth_map_seq by auto. reflexivity. }
  rewrite (qsum_ext q _ (fun i => - (inject_Z (nth (2 + n + i) sol 0%Z) * nth i p 0))).
  2:{ intros i Hi. rewrite app_nth2 by (rewrite ?map_length, ?seq_length; lia).
      rewrite map_length, seq_length. replace (n + i - n)%nat with i by lia.
      rewrite app_nth1 by (rewrite ?map_length, ?seq_length; lia). rewrite nth_map_seq by auto.
      rewrite app_nth2 by lia. replace (n + i - length x)%nat with i by lia.
      rewrite inject_Z_opp. ring. }
  rewrite qsum_opp. rewrite !app_nth2 by (rewrite ?map_length, ?seq_length; lia).
  rewrite !map_length, !seq_length. replace (n + q - n - q)%nat with 0%nat by lia. cbn [nth]. rewrite inject_Z_opp. ring.
Qed.

Lemma nth_zpoint i sol : nth i (zpoint sol) 0 = inject_Z (nth i sol 0%Z).
Proof. unfold zpoint. change 0 with (inject_Z 0). apply List.map_nth. Qed.

Lemma qsum_scale_l n k f : qsum n (fun i => k * f i) == k * qsum n f.
Proof. induction n; simpl; [ring|]. rewrite IHn. ring. Qed.

Lemma phi_iss_val n q sg sol s t p : length sol = (2 + n + q + 1)%nat -> length s = n -> length t = n -> length p = q ->
  form_val (mrows (phi_iss n q sg)) (zpoint sol) (s ++ t ++ p) ==
  inject_Z (nth 0 sol 0%Z) - inject_Z sg * (qaff (cut_row n q sol) (s ++ p) + qaff (cut_row n q sol) (t ++ p)).
Proof.
  intros Hl Hs Ht Hp. unfold phi_iss.
  rewrite form_val_mat by (rewrite ?zpoint_length, ?app_length; lia).
  replace (2 + n + q + 1 + 1 - 1)%nat with (2 + n + q + 1)%nat by lia.
  replace (2 * n + q + 1)%nat with (n + (n + (q + 1)))%nat by lia.
  rewrite qsum_app, qsum_app, qsum_app.
  rewrite (qsum_ext n _ (fun i => - inject_Z sg * (inject_Z (nth (2 + i) sol 0%Z) * nth i s 0))).
  2:{ intros i Hi. natcase. rewrite (nth_stp1 _ _ _ n q) by auto. rewrite qsum_delta by lia.
      rewrite nth_zpoint, inject_Z_opp, inject_Z_0. ring. }
  rewrite (qsum_ext n (fun i => _ * nth (n + i) _ _) (fun i => - inject_Z sg * (inject_Z (nth (2 + i) sol 0%Z) * nth i t 0))).
  2:{ intros i Hi. natcase. rewrite (nth_stp2 _ _ _ n q) by auto. rewrite qsum_delta by lia.
      replace (2 + (n + i - n))%nat with (2 + i)%nat by lia. rewrite nth_zpoint, inject_Z_opp, inject_Z_0. ring. }
  rewrite (qsum_ext q _ (fun i => inject_Z sg * 2 * (inject_Z (nth (2 + n + i) sol 0%Z) * nth i p 0))).
  2:{ intros i Hi. natcase. rewrite (nth_stp3 _ _ _ n q) by auto. rewrite qsum_delta by lia.
      replace (2 + n + (n + (n + i) - 2 * n))%nat with (2 + n + i)%nat by lia.
      rewrite nth_zpoint, inject_Z_mult, inject_Z_0. change (inject_Z 2) with 2. ring. }
  rewrite qsum_single, Nat.add_0_r. rewrite (nth_stp4 _ _ _ n q) by auto.
  natcase.
  rewrite qsum_delta2 by lia.
  rewrite !qsum_scale_l, !nth_zpoint, !cut_row_sum by auto. rewrite inject_Z_mult, inject_Z_0, inject_Z_1.
  change (inject_Z 2) with 2. ring.
Qed.

Open Scope Z_scope.
Lemma dot_const k h : dot (repeat k (length h)) h = k * zsum h.
Proof. induction h; cbn [length repeat dot zsum fold_right]; [lia|]. rewrite IHh. unfold zsum. lia. Qed.

Definition solvec (m sg : Z) (h v : list Z) : list Z := m :: sg :: h ++ v.
Lemma solvec_split n q sol : length sol = (2 + n + q + 1)%nat ->
  sol = solvec (nth 0 sol 0) (nth 1 sol 0) (firstn n (skipn 2 sol)) (skipn n (skipn 2 sol)).
Proof.
  intros H. destruct sol as [|a [|b l]]; try (simpl in H; lia). unfold solvec. cbn [nth skipn]. rewrite firstn_skipn. auto.
Qed.

Lemma nth_repeat_lt {A} (a d : A) n k : (k < n)%nat -> nth k (repeat a n) d = a.
Proof. revert k; induction n; destruct k; simpl; intros; try lia; auto. apply IHn. lia. Qed.
Lemma seq_row n q (f : nat -> Z) : (forall j, (j < n)%nat -> f (2 + j)%nat = f 2%nat) ->
  (forall j, (j < q + 1)%nat -> f (2 + n + j)%nat = 0) ->
  map f (seq 0 (2 + n + q + 1 + 1)) = [f 0%nat; f 1%nat] ++ repeat (f 2%nat) n ++ repeat 0 (q + 1) ++ [f (2 + n + q + 1)%nat].
Proof.
  intros H1 H2. replace (2 + n + q + 1 + 1)%nat with (2 + (n + (q + 1 + 1)))%nat by lia.
  replace (2 + n + q + 1)%nat with (2 + n + (q + 1))%nat by lia. generalize dependent (q + 1)%nat. intros k H2.
  rewrite !seq_app, !map_app. f_equal. f_equal; [|f_equal].
  - apply (list_eq_nth 0). rewrite map_length, seq_length, repeat_length; auto. intros i Hi.
    rewrite map_length, seq_length in Hi. rewrite nth_repeat_lt by auto.
    rewrite (nth_indep _ 0 (f 0%nat)) by (rewrite map_length, seq_length; auto). rewrite List.map_nth, seq_nth by auto.
    apply H1; auto.
  - apply (list_eq_nth 0). rewrite map_length, seq_length, repeat_length; auto. intros i Hi.
    rewrite map_length, seq_length in Hi. rewrite nth_repeat_lt by auto.
    rewrite (nth_indep _ 0 (f 0%nat)) by (rewrite map_length, seq_length; auto). rewrite List.map_nth, seq_nth by auto.
    rewrite <- (H2 i) by auto. f_equal.
Qed.

Lemma aff_seq_row n q (f : nat -> Z) m sg h v : length h = n -> length v = (q + 1)%nat ->
  (forall j, (j < n)%nat -> f (2 + j)%nat = f 2%nat) -> (forall j, (j < q + 1)%nat -> f (2 + n + j)%nat = 0) ->
  aff (map f (seq 0 (2 + n + q + 1 + 1))) (solvec m sg h v) = f 0%nat * m + f 1%nat * sg + f 2%nat * zsum h + f (2 + n + q + 1)%nat.
Proof.
  intros Hh Hv H1 H2. rewrite (seq_row n q f H1 H2). unfold aff, solvec. cbn [app].
  cbn [dot]. rewrite <- Hh, <- Hv. rewrite <- app_assoc. rewrite dot_app by (rewrite repeat_length; auto).
  rewrite dot_app by (rewrite repeat_length; auto). rewrite dot_const, dot_const. cbn [dot]. lia.
Qed.

Section Find.
Variables (n q : nat) (doms : list cst).
Hypothesis WD : forall dom, In dom doms -> wf_cst dom /\ ncols dom = (2 * n + q + 1)%nat.

Lemma phi_iss_wf sg dom : In dom doms -> wf_phi dom (phi_iss n q sg).
Proof.
  intros H. destruct (WD dom H) as [W N]. unfold wf_phi, phi_iss, mat_of, wf_mat, mnrows. cbn [mncols mrows]. split; [|split].
  - intros r Hr. apply in_map_iff in Hr as (k & <- & _). rewrite map_length, seq_length. auto.
  - rewrite map_length, seq_length. lia.
  - lia.
Qed.

Definition farkas_part (dom : cst) (sol : point) : Prop :=
  mem (farkas_lemma_affine dom (phi_iss n q 1)) sol /\ mem (farkas_lemma_affine dom (phi_iss n q (-1))) sol.

Lemma iss_fold c sol : ncols c = (2 + n + q + 1 + 1)%nat -> forall l, (forall dom, In dom l -> In dom doms) ->
  let r := fold_left (fun c dom => cst_add (cst_add c (farkas_lemma_affine dom (phi_iss n q 1)))
                                     (farkas_lemma_affine dom (phi_iss n q (-1)))) l c in
  ncols r = (2 + n + q + 1 + 1)%nat /\ (mem r sol <-> mem c sol /\ forall dom, In dom l -> farkas_part dom sol).
Proof.
  intros Hc l. revert c Hc. induction l as [|dom l IH]; intros c Hc Hl; cbv zeta; cbn [fold_left].
  - split; auto. split; [intros; split; auto; intros d []|tauto].
  - assert (In dom doms) as Hd by (apply Hl; simpl; auto).
    destruct (farkas_wf dom _ (proj1 (WD dom Hd)) (phi_iss_wf 1 dom Hd)) as [_ N1].
    destruct (farkas_wf dom _ (proj1 (WD dom Hd)) (phi_iss_wf (-1) dom Hd)) as [_ N2].
    destruct (IH (cst_add (cst_add c (farkas_lemma_affine dom (phi_iss n q 1))) (farkas_lemma_affine dom (phi_iss n q (-1))))) as [A B].
    { cbn. auto. }
    { intros d H; apply Hl; simpl; auto. }
    split; auto. rewrite B. rewrite cst_add_mem by (cbn [cst_add ncols]; rewrite N2, Hc; reflexivity).
    rewrite cst_add_mem by (rewrite N1, Hc; reflexivity). unfold farkas_part. split.
    + intros [[[P1 P2] P3] P4]. split; auto. intros d [<-|H]; auto.
    + intros [P1 P2]. split; [|intros d H; apply P2; simpl; auto]. destruct (P2 dom) as [P3 P4]; simpl; auto.
Qed.

Lemma iss_cst_mem m sg h v : length h = n -> length v = (q + 1)%nat ->
  mem (iss_cst n q doms) (solvec m sg h v) <->
  (forall dom, In dom doms -> farkas_part dom (solvec m sg h v)) /\ m <= 5 /\ sg = zsum h /\ 1 <= zsum h.
Proof.
  intros Hh Hv. unfold iss_cst.
  destruct (iss_fold (universe (2 + n + q + 1 + 1)) (solvec m sg h v) eq_refl doms) as [F1 F2]; auto.
  cbv zeta in F1, F2. set (c := fold_left _ doms _) in *. clearbody c.
  cbv zeta. set (w := (2 + n + q + 1 + 1)%nat) in *.
  assert (length (solvec m sg h v) = (w - 1)%nat) as L by (unfold solvec, w; cbn [length]; rewrite app_length; lia).
  rewrite cst_add_mem by reflexivity.
  replace (mkCst w (rows (add_ub c 0 5) ++ [mkRow true (map (fun j => if (j =? 1)%nat then 1
      else if (2 <=? j)%nat && (j <? 2 + n)%nat then -1 else 0) (seq 0 w))]))
    with (cst_add (add_ub c 0 5) (mkCst w [mkRow true (map (fun j => if (j =? 1)%nat then 1
      else if (2 <=? j)%nat && (j <? 2 + n)%nat then -1 else 0) (seq 0 w))])) by (unfold cst_add; cbn [ncols rows add_ub set_last add_inequality add_zero_row]; rewrite F1; reflexivity).
  rewrite cst_add_mem by (cbn [ncols add_ub set_last add_inequality add_zero_row]; auto).
  rewrite add_ub_mem by (rewrite F1; unfold w; lia). rewrite F2, universe_mem.
  assert (mem (mkCst w [mkRow true (map (fun j => if (j =? 1)%nat then 1
      else if (2 <=? j)%nat && (j <? 2 + n)%nat then -1 else 0) (seq 0 w))]) (solvec m sg h v) <-> sg = zsum h) as ->.
  { set (f := fun j => if (j =? 1)%nat then 1 else if (2 <=? j)%nat && (j <? 2 + n)%nat then -1 else 0).
    assert (aff (map f (seq 0 w)) (solvec m sg h v) = sg - zsum h) as A.
    { unfold w. rewrite (aff_seq_row n q f) by (auto; clear; intros; unfold f; natb; lia).
      assert (f 0%nat = 0) as V0 by reflexivity. assert (f 1%nat = 1) as V1 by reflexivity.
      assert (f (2 + n + q + 1)%nat = 0) as V3 by (clear; unfold f; natb; lia).
      assert (f 2%nat * zsum h = - zsum h) as V2.
      { destruct h as [|x h]; [cbn; lia|]. assert (f 2%nat = -1) as ->; [|lia]. assert (0 < n)%nat as P by (cbn in Hh; lia). clear - P. unfold f; natb; lia. }
      rewrite V0, V1, V2, V3. lia. }
    unfold mem; cbn [ncols rows]. split.
    - intros [_ H]. specialize (H _ (or_introl eq_refl)). unfold holds in H; cbn [is_eq coef] in H. lia.
    - intros ->. split; [unfold w in *; lia|]. intros r [<-|[]]. unfold holds; cbn [is_eq coef]. lia. }
  assert (mem (mkCst w [mkRow false (map (fun j => if (2 <=? j)%nat && (j <? 2 + n)%nat then 1
      else if (j =? w - 1)%nat then -1 else 0) (seq 0 w))]) (solvec m sg h v) <-> 1 <= zsum h) as ->.
  { set (f := fun j => if (2 <=? j)%nat && (j <? 2 + n)%nat then 1 else if (j =? w - 1)%nat then -1 else 0).
    assert (aff (map f (seq 0 w)) (solvec m sg h v) = zsum h - 1) as A.
    { unfold w. rewrite (aff_seq_row n q f) by (auto; clear; intros; unfold f, w; natb; lia).
      assert (f 0%nat = 0) as V0 by (clear; unfold f, w; natb; lia). assert (f 1%nat = 0) as V1 by (clear; unfold f, w; natb; lia).
      assert (f (2 + n + q + 1)%nat = -1) as V3 by (clear; unfold f, w; natb; lia).
      assert (f 2%nat * zsum h = zsum h) as V2.
      { destruct h as [|x h]; [cbn; lia|]. assert (f 2%nat = 1) as ->; [|lia]. assert (0 < n)%nat as P by (cbn in Hh; lia). clear - P. unfold f, w; natb; lia. }
      rewrite V0, V1, V2, V3. lia. }
    unfold mem; cbn [ncols rows]. split.
    - intros [_ H]. specialize (H _ (or_introl eq_refl)). unfold holds in H; cbn [is_eq coef] in H. lia.
    - intros K. split; [unfold w in *; lia|]. intros r [<-|[]]. unfold holds; cbn [is_eq coef]. lia. }
  change (nth 0 (solvec m sg h v) 0) with m. unfold w in *. intuition lia.
Qed.

Lemma ndim_eq dom : In dom doms -> ((ncols dom - 1 - q) / 2 = n)%nat.
Proof.
  intros H. destruct (WD dom H) as [_ ->]. replace (2 * n + q + 1 - 1 - q)%nat with (n * 2)%nat by lia. apply Nat.div_mul. lia.
Qed.

Lemma cut_row_solvec m sg h v : length h = n -> length v = (q + 1)%nat ->
  cut_row n q (solvec m sg h v) = h ++ map Z.opp v.
Proof.
  intros Hh Hv. unfold cut_row. f_equal.
  - apply (list_eq_nth 0). rewrite map_length, seq_length; auto. intros i Hi. rewrite map_length, seq_length in Hi.
    rewrite nth_map_seq by auto. unfold solvec. cbn [nth Nat.add]. rewrite app_nth1; auto. lia.
  - apply (list_eq_nth 0).
    + rewrite app_length, !map_length, seq_length. simpl. lia.
    + intros i Hi. rewrite app_length, map_length, seq_length in Hi. simpl in Hi.
      rewrite (nth_indep (map Z.opp v) 0 (Z.opp 0)) by (rewrite map_length; lia). rewrite List.map_nth.
      destruct (Nat.lt_ge_cases i q) as [H|H].
      * rewrite app_nth1 by (rewrite map_length, seq_length; auto). rewrite nth_map_seq by auto. unfold solvec. cbn [nth Nat.add].
        rewrite app_nth2 by lia. f_equal. f_equal. lia.
      * rewrite app_nth2 by (rewrite map_length, seq_length; auto). rewrite map_length, seq_length.
        replace (i - q)%nat with 0%nat by lia. unfold solvec. cbn [nth Nat.add]. rewrite app_nth2 by lia. f_equal. f_equal. lia.
Qed.

(** The two systems of one polyhedron, in terms of the cut. *)
Lemma farkas_part_sound dom m sg h v : In dom doms -> length h = n -> length v = (q + 1)%nat ->
  farkas_part dom (solvec m sg h v) ->
  forall s t p, length s = n -> length t = n -> length p = q -> mem dom (s ++ t ++ p) ->
    - m <= aff (h ++ map Z.opp v) (s ++ p) + aff (h ++ map Z.opp v) (t ++ p) <= m.
Proof.
  intros Hd Hh Hv [F1 F2] s t p Hs Ht Hp M.
  assert (length (solvec m sg h v) = (2 + n + q + 1)%nat) as L by (unfold solvec; cbn [length]; rewrite app_length; lia).
  apply qmem_zpoint in F1, F2, M.
  pose proof (farkas_sound dom _ _ (proj1 (WD dom Hd)) (phi_iss_wf 1 dom Hd) F1 _ M) as P1.
  pose proof (farkas_sound dom _ _ (proj1 (WD dom Hd)) (phi_iss_wf (-1) dom Hd) F2 _ M) as P2.
  rewrite !zpoint_app in P1, P2.
  rewrite phi_iss_val in P1, P2 by (rewrite ?zpoint_length; auto).
  rewrite <- !zpoint_app, !qaff_zpoint, !cut_row_solvec in P1, P2 by auto.
  cbn [solvec nth] in P1, P2.
  set (A := aff _ (s ++ p)) in *. set (B := aff _ (t ++ p)) in *. clearbody A B.
  rewrite Zle_Qle, Zle_Qle, inject_Z_plus, inject_Z_opp.
  rewrite inject_Z_1 in P1. rewrite inject_m1 in P2. split; lra.
Qed.

Lemma farkas_part_complete dom sg h v : In dom doms -> length h = n -> length v = (q + 1)%nat ->
  (exists x, qmem dom x) ->
  (forall s t p, length s = n -> length t = n -> length p = q -> qmem dom (s ++ t ++ p) ->
    (- (5) <= qaff (h ++ map Z.opp v) (s ++ p) + qaff (h ++ map Z.opp v) (t ++ p) <= 5)%Q) ->
  farkas_part dom (solvec 5 sg h v).
Proof.
  intros Hd Hh Hv Ne B.
  assert (length (solvec 5 sg h v) = (2 + n + q + 1)%nat) as L by (unfold solvec; cbn [length]; rewrite app_length; lia).
  assert (forall x, qmem dom x -> exists s t p, x = s ++ t ++ p /\ length s = n /\ length t = n /\ length p = q) as SP.
  { intros x [X _]. destruct (WD dom Hd) as [_ N].
    exists (firstn n x), (firstn n (skipn n x)), (skipn n (skipn n x)).
    rewrite !firstn_skipn. split; auto. rewrite !firstn_length, !skipn_length. lia. }
  split; apply qmem_zpoint; apply farkas_complete; auto;
    try (apply WD; auto); try (apply phi_iss_wf; auto); try (rewrite zpoint_length; cbn [phi_iss mat_of mncols]; lia);
    intros x Hx; destruct (SP x Hx) as (s & t & p & -> & Hs & Ht & Hp); specialize (B s t p Hs Ht Hp Hx);
    rewrite phi_iss_val by auto; rewrite cut_row_solvec by auto; cbn [solvec nth];
    [rewrite inject_Z_1|rewrite inject_m1]; change (inject_Z 5) with 5%Q; lra.
Qed.
End Find.

(** ** The cut that is found *)
Lemma map_nth_in {A} k (f : A -> A) l x : In x (MathModel.map_nth k f l) -> In x l \/ exists y, In y l /\ x = f y.
Proof.
  unfold MathModel.map_nth. destruct (nth_error l k) as [y|] eqn:E; auto. intros H.
  assert (forall k l z, In x (set_nth k z l) -> In x l \/ x = z) as K.
  { clear. induction k; destruct l; simpl; intros z H; auto; destruct H as [<-|H]; auto. destruct (IHk l z H); auto. }
  apply K in H as [H| ->]; auto. right. exists y. split; auto. eapply nth_error_In; eauto.
Qed.
Lemma set_last_wf j v c : wf_cst c -> wf_cst (set_last j v c).
Proof.
  intros [A B]. split; auto. cbn [set_last rows ncols]. intros r H. apply map_nth_in in H as [H|(y & H & ->)]; auto.
  cbn [coef]. rewrite set_nth_length. auto.
Qed.
Lemma add_ub_wf c k u : wf_cst c -> wf_cst (add_ub c k u).
Proof.
  intros [A B]. unfold add_ub. do 2 apply set_last_wf. split; auto. cbn [add_inequality add_zero_row rows ncols].
  intros r H. apply in_app_or in H as [H|[<-|[]]]; auto. apply repeat_length.
Qed.

Lemma iss_cst_wf n q doms : (forall dom, In dom doms -> wf_cst dom /\ ncols dom = (2 * n + q + 1)%nat) ->
  wf_cst (iss_cst n q doms).
Proof.
  intros WD. unfold iss_cst. cbv zeta.
  assert (forall l c, (forall dom, In dom l -> In dom doms) -> wf_cst c -> ncols c = (2 + n + q + 1 + 1)%nat ->
    let r := fold_left (fun c dom => cst_add (cst_add c (farkas_lemma_affine dom (phi_iss n q 1)))
                                     (farkas_lemma_affine dom (phi_iss n q (-1)))) l c in
    wf_cst r /\ ncols r = (2 + n + q + 1 + 1)%nat) as K.
  { induction l as [|dom l IH]; intros c Hl W N; cbv zeta; cbn [fold_left]; auto.
    assert (In dom doms) as Hd by (apply Hl; simpl; auto).
    destruct (farkas_wf dom _ (proj1 (WD dom Hd)) (phi_iss_wf n q doms WD 1 dom Hd)) as [W1 N1].
    destruct (farkas_wf dom _ (proj1 (WD dom Hd)) (phi_iss_wf n q doms WD (-1) dom Hd)) as [W2 N2].
    apply IH; auto. intros d H; apply Hl; simpl; auto.
    apply cst_add_wf; auto; [apply cst_add_wf; auto; rewrite N, N1; reflexivity|cbn [cst_add ncols]; rewrite N, N2; reflexivity]. }
  destruct (K doms (universe (2 + n + q + 1 + 1))) as [W N]; auto.
  { split; cbn; [lia|]. intros r []. }
  cbv zeta in W, N. set (c := fold_left _ doms _) in *. clearbody c.
  split; [cbn; lia|]. cbn [rows cst_add ncols]. intros r Hr. apply in_app_or in Hr as [Hr|[<-|[]]].
  - apply in_app_or in Hr as [Hr|[<-|[]]].
    + destruct (add_ub_wf c 0 5 W) as [_ U]. rewrite U; auto.
    + cbn [coef]. rewrite map_length, seq_length. auto.
  - cbn [coef]. rewrite map_length, seq_length. auto.
Qed.

Section Found.
Variables (lexmin : cst -> option point) (n q : nat) (doms : list cst).
Hypothesis WD : forall dom, In dom doms -> wf_cst dom /\ ncols dom = (2 * n + q + 1)%nat.

Lemma find_iss_eq : doms <> [] -> find_iss lexmin q doms =
  match lexmin (iss_cst n q doms) with Some sol => Some (mkCst (n + q + 1) [mkRow true (cut_row n q sol)]) | None => None end.
Proof.
  intros H. unfold find_iss. destruct doms as [|dom0 l] eqn:E; [congruence|]. rewrite <- E in *.
  rewrite (ndim_eq n q doms WD dom0) by (rewrite E; simpl; auto). reflexivity.
Qed.

Lemma find_iss_sound h : sound_solver lexmin -> find_iss lexmin q doms = Some h ->
  exists a, rows h = [mkRow true a] /\ length a = (n + q + 1)%nat /\ ncols h = (n + q + 1)%nat /\
    (forall j, (j < n)%nat -> 0 <= nth j a 0) /\ 1 <= zsum (firstn n a) /\
    forall dom s t p, In dom doms -> length s = n -> length t = n -> length p = q -> mem dom (s ++ t ++ p) ->
      -5 <= aff a (s ++ p) + aff a (t ++ p) <= 5.
Proof.
  intros LM F. assert (doms <> []) as Ne by (intros ->; discriminate). rewrite find_iss_eq in F by auto.
  destruct (lexmin (iss_cst n q doms)) as [sol|] eqn:LE; [|discriminate]. injection F as <-.
  destruct (LM _ sol (iss_cst_wf n q doms WD) LE) as [M NN].
  assert (length sol = (2 + n + q + 1)%nat) as L.
  { destruct M as [M _]. unfold iss_cst in M. cbv zeta in M. cbn [cst_add ncols] in M. lia. }
  rewrite (solvec_split n q sol L) in M |- *.
  set (m := nth 0 sol 0) in *. set (sg := nth 1 sol 0) in *. set (h := firstn n (skipn 2 sol)) in *. set (v := skipn n (skipn 2 sol)) in *.
  assert (length h = n) as Hh by (unfold h; rewrite firstn_length, skipn_length; lia).
  assert (length v = (q + 1)%nat) as Hv by (unfold v; rewrite !skipn_length; lia).
  apply iss_cst_mem in M as (M1 & M2 & M3 & M4); auto.
  exists (h ++ map Z.opp v). rewrite cut_row_solvec by auto. split; [reflexivity|]. split; [rewrite app_length, map_length; lia|].
  split; [reflexivity|]. split.
  - intros j Hj. rewrite app_nth1 by lia. unfold h. rewrite nth_firstn_lt by auto. rewrite nth_skipn.
    rewrite Forall_forall in NN. apply NN. apply nth_In. lia.
  - split.
    + rewrite firstn_app, Hh, Nat.sub_diag, firstn_all2 by lia. cbn [firstn]. rewrite app_nil_r. auto.
    + intros dom s t p Hd Hs Ht Hp Md. pose proof (farkas_part_sound n q doms WD dom m sg h v Hd Hh Hv (M1 dom Hd) s t p Hs Ht Hp Md). lia.
Qed.

Lemma find_iss_complete : complete_solver lexmin -> doms <> [] -> (forall dom, In dom doms -> exists x, qmem dom x) ->
  find_iss lexmin q doms = None ->
  forall h v, length h = n -> length v = (q + 1)%nat -> Forall (Z.le 0) h -> Forall (Z.le 0) v -> 1 <= zsum h ->
  ~ forall dom s t p, In dom doms -> length s = n -> length t = n -> length p = q -> qmem dom (s ++ t ++ p) ->
      (- (5) <= qaff (h ++ map Z.opp v) (s ++ p) + qaff (h ++ map Z.opp v) (t ++ p) <= 5)%Q.
Proof.
  intros LM Ne Q F h v Hh Hv Ph Pv Z1 B. rewrite find_iss_eq in F by auto.
  destruct (lexmin (iss_cst n q doms)) eqn:LE; [discriminate|]. apply (LM _ (iss_cst_wf n q doms WD) LE (solvec 5 (zsum h) h v)).
  - constructor; [lia|]. constructor; [lia|]. apply Forall_app; auto.
  - apply iss_cst_mem; auto. split; [|repeat split; auto; lia]. intros dom Hd.
    apply (farkas_part_complete n q doms WD); auto. intros s t p. apply B; auto.
Qed.
End Found.

(** ** The cuts of a program *)
Lemma iss_cuts_parts is_long lexmin pr D : sound_solver lexmin -> wf_prog pr ->
  (forall st, In st (p_stmts pr) -> s_dim st = D) ->
  let cuts := iss_cuts is_long lexmin pr D in cuts = [] \/ parts (D + p_npar pr) cuts.
Proof.
  intros LM W SD. cbv zeta. unfold iss_cuts.
  assert (forall l cuts, cuts = [] \/ parts (D + p_npar pr) cuts ->
    let r := fold_left (fun cuts j => match long_dep_doms is_long pr j with
      | [] => cuts
      | doms => match find_iss lexmin (p_npar pr) doms with Some h => add_cut cuts h | None => cuts end end) l cuts in
    r = [] \/ parts (D + p_npar pr) r) as K.
  { induction l as [|j l IH]; intros cuts H; cbv zeta; cbn [fold_left]; auto. apply IH.
    assert (forall dom, In dom (long_dep_doms is_long pr j) -> wf_cst dom /\ ncols dom = (2 * D + p_npar pr + 1)%nat) as WD.
    { intros dom Hd. unfold long_dep_doms in Hd. apply in_map_iff in Hd as (d & <- & Hd). apply filter_In in Hd as [Hd _].
      destruct (proj2 W d Hd) as (W1 & W2 & W3 & W4 & _). split; auto. rewrite W4.
      rewrite !SD by (apply nth_In; auto). lia. }
    destruct (long_dep_doms is_long pr j) as [|c0 l0]; auto.
    destruct (find_iss lexmin (p_npar pr) (c0 :: l0)) as [h|] eqn:F; auto. right. apply add_cut_parts; auto.
    destruct (find_iss_sound lexmin D (p_npar pr) (c0 :: l0) WD h LM F) as (a & A1 & A2 & A3 & _).
    exists a. split; auto. split; [|lia]. split; [lia|]. rewrite A1. intros r [<-|[]]. cbn. lia. }
  apply K. auto.
Qed.
