(** * Proofs about the hyperplane constraints (lib/framework.cpp). *)
From Coq Require Import ZArith QArith List Bool Lia Lqa Arith Setoid.
From Verif Require Import SpecLinear VecProofs MathModel ConstraintsModel SimplifyProofs FMProofs FarkasProofs
  EditProofs SumProofs SpecProg FrameworkModel.
Import ListNotations.
Open Scope Q_scope.

Lemma cst_width_S pr : cst_width pr = S (p_npar pr + 1 + length (p_stmts pr) * (p_nvar pr + 1)).
Proof. unfold cst_width. lia. Qed.

Lemma offset_in pr s : (s < length (p_stmts pr))%nat ->
  (stmt_offset pr s + (p_nvar pr + 1) <= cst_width pr - 1)%nat.
Proof. intros. unfold stmt_offset, cst_width. nia. Qed.

Lemma offset_disjoint pr a b : (a < b)%nat -> (stmt_offset pr a + (p_nvar pr + 1) <= stmt_offset pr b)%nat.
Proof. intros. unfold stmt_offset. nia. Qed.

(** The part of a global coefficient vector that concerns a dependence. *)
Definition local (pr : prog) (d : dep) (base : nat) (c : qpoint) : qpoint :=
  firstn base c ++ hyp_of (p_nvar pr) (p_npar pr) c (d_src d)
  ++ (if same_stmt d then [] else hyp_of (p_nvar pr) (p_npar pr) c (d_dst d)).

Lemma hyp_of_length pr c s : S (length c) = cst_width pr -> (s < length (p_stmts pr))%nat ->
  length (hyp_of (p_nvar pr) (p_npar pr) c s) = S (p_nvar pr).
Proof.
  intros Hc Hs. unfold hyp_of. apply window_length. pose proof (offset_in pr s Hs). unfold stmt_offset in *. lia.
Qed.

Lemma local_length pr d base c : S (length c) = cst_width pr -> wf_dep pr d -> (base <= p_npar pr + 1)%nat ->
  length (local pr d base c) = (base + (if same_stmt d then p_nvar pr + 1 else 2 * p_nvar pr + 2))%nat.
Proof.
  intros Hc (H1 & H2 & _) Hb. unfold local. rewrite !app_length.
  rewrite firstn_length_le by (unfold cst_width in Hc; lia).
  rewrite hyp_of_length by auto. destruct (same_stmt d); [simpl; lia|]. rewrite hyp_of_length by auto. lia.
Qed.

Lemma scatter_row_value pr d base l c :
  S (length c) = cst_width pr -> wf_dep pr d -> (base <= p_npar pr + 1)%nat ->
  length l = S (base + (if same_stmt d then p_nvar pr + 1 else 2 * p_nvar pr + 2)) ->
  qaff (scatter_row pr d base l) c == qaff l (local pr d base c).
Proof.
  intros Hc Hd Hb Hl. pose proof (local_length pr d base c Hc Hd Hb) as Hloc.
  destruct Hd as (H1 & H2 & _).
  set (n := p_nvar pr) in *. set (so := stmt_offset pr (d_src d)) in *.
  set (dd := stmt_offset pr (d_dst d)) in *.
  pose proof (offset_in pr _ H1) as O1. pose proof (offset_in pr _ H2) as O2. fold n in O1, O2. fold so in O1. fold dd in O2.
  assert (base <= so)%nat as Hso by (unfold so, stmt_offset; lia).
  assert (base <= dd)%nat as Hdo by (unfold dd, stmt_offset; lia).
  unfold scatter_row. rewrite cst_width_S. set (N := (p_npar pr + 1 + length (p_stmts pr) * (p_nvar pr + 1))%nat) in *.
  rewrite cst_width_S in Hc, O1, O2. fold N in Hc, O1, O2. injection Hc as Hc. cbn [pred] in *.
  replace (S N - 1)%nat with N in * by lia.
  rewrite qaff_map by auto. rewrite Nat.eqb_refl.
  fold n. fold so. fold dd. change (d_src d =? d_dst d)%nat with (same_stmt d).
  set (f := fun j => if (j =? N)%nat then nth (if same_stmt d then base + n + 1 else base + 2 * n + 2) l 0%Z
    else if (j <? base)%nat then nth j l 0%Z
    else if negb (same_stmt d) && (dd <=? j)%nat && (j <? dd + (n + 1))%nat then nth (base + (n + 1) + (j - dd)) l 0%Z
    else if (so <=? j)%nat && (j <? so + (n + 1))%nat then nth (base + (j - so)) l 0%Z else 0%Z).
  rewrite (qsum_ext N _ (fun j =>
     (if (j <? base)%nat then inject_Z (nth j l 0%Z) * nth j c 0 else 0) +
     ((if (so <=? j)%nat && (j <? so + (n + 1))%nat then inject_Z (nth (base + (j - so)) l 0%Z) * nth j c 0 else 0) +
      (if negb (same_stmt d) && (dd <=? j)%nat && (j <? dd + (n + 1))%nat
       then inject_Z (nth (base + (n + 1) + (j - dd)) l 0%Z) * nth j c 0 else 0)))).
  2: { intros j Hj. fold (f j). unfold f. destruct (Nat.eqb_spec j N); [lia|].
       destruct (Nat.ltb_spec j base).
       { destruct (Nat.leb_spec so j); [lia|]. destruct (Nat.leb_spec dd j); [lia|].
         rewrite andb_false_r. simpl. ring. }
       destruct (negb (same_stmt d)) eqn:Es; simpl.
       - assert (d_src d <> d_dst d) as Hne.
         { unfold same_stmt in Es. intros E. rewrite E, Nat.eqb_refl in Es. discriminate. }
         assert (so + (n + 1) <= dd \/ dd + (n + 1) <= so)%nat as Hdis.
         { destruct (Nat.lt_total (d_src d) (d_dst d)) as [L|[L|L]]; [left|lia|right]; apply (offset_disjoint pr); auto. }
         destruct (Nat.leb_spec dd j), (Nat.ltb_spec j (dd + (n + 1))), (Nat.leb_spec so j), (Nat.ltb_spec j (so + (n + 1)));
           simpl; try lia; rewrite ?inject_Z_0; ring.
       - destruct ((so <=? j)%nat && (j <? so + (n + 1))%nat); rewrite ?inject_Z_0; ring. }
  rewrite !qsum_add.
  assert (length (firstn base c) = base) as Lf by (rewrite firstn_length_le; auto; unfold cst_width in *; lia).
  assert (length (hyp_of n (p_npar pr) c (d_src d)) = n + 1)%nat as Lh.
  { unfold n. rewrite hyp_of_length; [lia| |auto]. rewrite cst_width_S. fold N. lia. }
  rewrite (qaff_sum l (local pr d base c) (length (local pr d base c))) by (auto; rewrite Hloc; auto).
  rewrite Hloc.
  set (L := local pr d base c) in *.
  assert (forall i, (i < base)%nat -> nth i L 0 = nth i c 0) as E1.
  { intros i Hi. unfold L, local. rewrite app_nth1 by lia. apply nth_firstn_lt. auto. }
  assert (forall i, (i < n + 1)%nat -> nth (base + i) L 0 = nth (so + i) c 0) as E2.
  { intros i Hi. unfold L, local. rewrite app_nth2 by lia. rewrite Lf. replace (base + i - base)%nat with i by lia.
    fold n. rewrite app_nth1 by lia. unfold hyp_of. rewrite nth_window by lia. reflexivity. }
  assert (qsum N (fun j => if (j <? base)%nat then inject_Z (nth j l 0%Z) * nth j c 0 else 0)
          == qsum base (fun i => inject_Z (nth i l 0%Z) * nth i L 0)) as S1.
  { etransitivity. apply (qsum_window N 0 base). lia.
    - intros i Hi Ho. destruct (Nat.ltb_spec i base); [lia|reflexivity].
    - apply qsum_ext. intros i Hi. simpl. destruct (Nat.ltb_spec i base); [|lia]. rewrite E1 by lia. reflexivity. }
  assert (qsum N (fun j => if (so <=? j)%nat && (j <? so + (n + 1))%nat then inject_Z (nth (base + (j - so)) l 0%Z) * nth j c 0 else 0)
          == qsum (n + 1) (fun i => inject_Z (nth (base + i) l 0%Z) * nth (base + i) L 0)) as S2.
  { etransitivity. apply (qsum_window N so (n + 1)). lia.
    - intros i Hi Ho. destruct (Nat.leb_spec so i), (Nat.ltb_spec i (so + (n + 1))); simpl; try lia; reflexivity.
    - apply qsum_ext. intros i Hi. destruct (Nat.leb_spec so (so + i)), (Nat.ltb_spec (so + i) (so + (n + 1))); simpl; try lia.
      replace (so + i - so)%nat with i by lia. rewrite E2 by lia. reflexivity. }
  rewrite S1, S2.
  destruct (same_stmt d) eqn:Es.
  - rewrite (qsum_zero N (fun j => if negb true && _ && _ then _ else _)) by (intros; simpl; reflexivity).
    rewrite (qsum_app base (n + 1)).
    replace (base + (n + 1))%nat with (base + n + 1)%nat by lia. ring.
  - assert (forall i, (i < n + 1)%nat -> nth (base + (n + 1 + i)) L 0 = nth (dd + i) c 0) as E3.
    { intros i Hi. unfold L, local. rewrite Es. rewrite app_nth2 by lia. rewrite Lf.
      fold n. rewrite app_nth2 by lia. rewrite Lh. replace (base + (n + 1 + i) - base - (n + 1))%nat with i by lia.
      unfold hyp_of. rewrite nth_window by lia. reflexivity. }
    assert (qsum N (fun j => if negb false && (dd <=? j)%nat && (j <? dd + (n + 1))%nat
       then inject_Z (nth (base + (n + 1) + (j - dd)) l 0%Z) * nth j c 0 else 0)
          == qsum (n + 1) (fun i => inject_Z (nth (base + (n + 1 + i)) l 0%Z) * nth (base + (n + 1 + i)) L 0)) as S3.
    { etransitivity. apply (qsum_window N dd (n + 1)). lia.
      - intros i Hi Ho. simpl. destruct (Nat.leb_spec dd i), (Nat.ltb_spec i (dd + (n + 1))); simpl; try lia; reflexivity.
      - apply qsum_ext. intros i Hi. simpl. destruct (Nat.leb_spec dd (dd + i)), (Nat.ltb_spec (dd + i) (dd + (n + 1))); simpl; try lia.
        replace (dd + i - dd)%nat with i by lia. rewrite <- Nat.add_assoc. rewrite E3 by lia. reflexivity. }
    rewrite S3.
    replace (base + (2 * n + 2))%nat with (base + ((n + 1) + (n + 1)))%nat by lia.
    rewrite (qsum_app base). rewrite (qsum_app (n + 1) (n + 1)).
    replace (base + (n + 1 + (n + 1)))%nat with (base + 2 * n + 2)%nat by lia.
    ring.
Qed.

Lemma qmem_rows nc l1 l2 c : qmem (mkCst nc (l1 ++ l2)) c <-> qmem (mkCst nc l1) c /\ qmem (mkCst nc l2) c.
Proof.
  unfold qmem; simpl. split.
  - intros [H1 H2]. repeat split; auto; intros r Hr; apply H2; apply in_or_app; auto.
  - intros [[H1 H2] [_ H3]]. split; auto. intros r Hr. apply in_app_or in Hr. destruct Hr; auto.
Qed.

Lemma qmem_map nc1 nc2 f l c c' : S (length c) = nc1 -> S (length c') = nc2 ->
  (forall r, In r l -> qaff (f (coef r)) c == qaff (coef r) c') ->
  qmem (mkCst nc1 (map (map_coef f) l)) c <-> qmem (mkCst nc2 l) c'.
Proof.
  intros H1 H2 H. unfold qmem; simpl. split; intros [_ K]; split; auto; intros r Hr.
  - specialize (K (map_coef f r) (in_map _ _ _ Hr)). unfold qholds in *. simpl in K. destruct (is_eq r);
      rewrite (H r Hr) in K; auto.
  - apply in_map_iff in Hr as (r0 & <- & Hr). specialize (K r0 Hr). unfold qholds in *. simpl.
    destruct (is_eq r0); rewrite (H r0 Hr); auto.
Qed.

Lemma scatter_qmem pr d base cc c : S (length c) = cst_width pr -> wf_dep pr d -> (base <= p_npar pr + 1)%nat ->
  wf_cst cc -> ncols cc = S (base + (if same_stmt d then p_nvar pr + 1 else 2 * p_nvar pr + 2)) ->
  qmem (scatter pr d base cc) c <-> qmem cc (local pr d base c).
Proof.
  intros Hc Hd Hb [W1 W2] Hn. destruct cc as [nc l]; simpl in *. subst nc. unfold scatter; simpl rows.
  apply qmem_map; auto.
  - rewrite local_length by auto. reflexivity.
  - intros r Hr. apply scatter_row_value; auto.
Qed.

Lemma pad_col_zero pr s j c : padding_zero pr c -> (s < length (p_stmts pr))%nat -> pad_col pr s j = true -> nth j c 0 == 0.
Proof.
  intros P Hs H. unfold pad_col in H. apply andb_true_iff in H as [H H3]. apply andb_true_iff in H as [H1 H2].
  apply Nat.leb_le in H1. apply Nat.ltb_lt in H2. apply negb_true_iff in H3.
  specialize (P s (j - stmt_offset pr s)%nat Hs ltac:(lia) H3). unfold stmt_offset in *.
  replace (p_npar pr + 1 + s * (p_nvar pr + 1) + (j - (p_npar pr + 1 + s * (p_nvar pr + 1))))%nat with j in P by lia. auto.
Qed.

Lemma pad_col_last pr s : (s < length (p_stmts pr))%nat -> pad_col pr s (cst_width pr - 1) = false.
Proof.
  intros Hs. pose proof (offset_in pr s Hs). unfold pad_col.
  destruct (Nat.ltb_spec (cst_width pr - 1) (stmt_offset pr s + p_nvar pr)); [lia|]. rewrite andb_false_r. reflexivity.
Qed.

Lemma zero_pads_qmem pr d cc c : wf_dep pr d -> wf_cst cc -> ncols cc = cst_width pr ->
  S (length c) = cst_width pr -> padding_zero pr c ->
  qmem (zero_pads pr d cc) c <-> qmem cc c.
Proof.
  intros (H1 & H2 & _) [W1 W2] Hn Hc P. destruct cc as [nc l]; simpl in *. subst nc. unfold zero_pads; simpl rows; simpl ncols.
  apply qmem_map; auto. intros r Hr. specialize (W2 r Hr).
  rewrite cst_width_S. rewrite cst_width_S in Hc, W2. injection Hc as Hc. 
  rewrite qaff_map by auto. rewrite (qaff_sum (coef r) c _ W2 Hc).
  set (N := (p_npar pr + 1 + length (p_stmts pr) * (p_nvar pr + 1))%nat) in *.
  pose proof (pad_col_last pr _ H1) as L1. pose proof (pad_col_last pr _ H2) as L2. rewrite cst_width_S in L1, L2. fold N in L1, L2.
  replace (S N - 1)%nat with N in * by lia. rewrite L1, L2. rewrite andb_false_r. cbn [orb].
  rewrite (qsum_ext N _ (fun i => inject_Z (nth i (coef r) 0%Z) * nth i c 0)); [reflexivity|].
  intros i Hi. destruct (pad_col pr (d_src d) i) eqn:E1; cbn [orb].
  - rewrite (pad_col_zero pr _ _ c P H1 E1). ring.
  - destruct (pad_col pr (d_dst d) i) eqn:E2; [|rewrite andb_false_r; reflexivity].
    rewrite (pad_col_zero pr _ _ c P H2 E2). ring.
Qed.

(** ** The affine forms *)
Lemma form_val_mat nr nc f c x : S (length x) = nr -> S (length c) = nc ->
  form_val (mrows (mat_of nr nc f)) c x ==
  qsum nr (fun r => (qsum (nc - 1) (fun j => inject_Z (f r j) * nth j c 0) + inject_Z (f r (nc - 1)%nat))
                    * nth r (x ++ [1]) 0).
Proof.
  intros Hx Hc. unfold form_val, mat_of. simpl mrows. rewrite map_map.
  rewrite (qqdot_sum _ _ nr) by (rewrite ?map_length, ?seq_length, ?app_length; simpl; lia).
  apply qsum_ext. intros r Hr. rewrite nth_map_seq by auto. subst nc. rewrite qaff_map by auto.
  replace (S (length c) - 1)%nat with (length c) by lia. reflexivity.
Qed.

Lemma qsum_delta n k (v : Z) c : (k < n)%nat ->
  qsum n (fun j => inject_Z (if (j =? k)%nat then v else 0%Z) * nth j c 0) == inject_Z v * nth k c 0.
Proof.
  intros H. rewrite (qsum_one n k); auto.
  - rewrite Nat.eqb_refl. reflexivity.
  - intros i Hi Hn. destruct (Nat.eqb_spec i k); [lia|]. rewrite inject_Z_0. ring.
Qed.

Lemma hval_sum h x n : length h = S n -> length x = n ->
  hval h x == qsum n (fun i => nth i h 0 * nth i x 0) + nth n h 0.
Proof.
  intros Hh Hx. unfold hval. rewrite (qqdot_sum _ _ (S n)) by (rewrite ?app_length; simpl; lia).
  simpl. rewrite app_nth2 by lia. replace (n - length x)%nat with 0%nat by lia. simpl.
  rewrite (qsum_ext n _ (fun i => nth i h 0 * nth i x 0)); [ring|].
  intros i Hi. rewrite app_nth1 by lia. reflexivity.
Qed.

Ltac natcase :=
  repeat match goal with
  | |- context [(?a <? ?b)%nat] => destruct (Nat.ltb_spec a b); try lia
  | |- context [(?a =? ?b)%nat] => destruct (Nat.eqb_spec a b); try lia
  end.

Lemma qsum_minus n f g : qsum n (fun i => f i - g i) == qsum n f - qsum n g.
Proof. induction n; simpl; [ring|]. rewrite IHn. ring. Qed.

Lemma nth_stp1 (s t p : qpoint) n q i : length s = n -> length t = n -> length p = q -> (i < n)%nat ->
  nth i ((s ++ t ++ p) ++ [1]) 0 = nth i s 0.
Proof. intros. rewrite <- app_assoc. rewrite app_nth1 by lia. auto. Qed.
Lemma nth_stp2 (s t p : qpoint) n q i : length s = n -> length t = n -> length p = q -> (i < n)%nat ->
  nth (n + i) ((s ++ t ++ p) ++ [1]) 0 = nth i t 0.
Proof.
  intros. rewrite <- !app_assoc. rewrite app_nth2 by lia. rewrite app_nth1 by lia. f_equal. lia.
Qed.
Lemma nth_stp3 (s t p : qpoint) n q i : length s = n -> length t = n -> length p = q -> (i < q)%nat ->
  nth (n + (n + i)) ((s ++ t ++ p) ++ [1]) 0 = nth i p 0.
Proof.
  intros. rewrite <- !app_assoc. rewrite app_nth2 by lia. rewrite app_nth2 by lia. rewrite app_nth1 by lia. f_equal. lia.
Qed.
Lemma nth_stp4 (s t p : qpoint) n q : length s = n -> length t = n -> length p = q ->
  nth (n + (n + q)) ((s ++ t ++ p) ++ [1]) 0 = 1.
Proof.
  intros. rewrite app_nth2 by (rewrite !app_length; lia). rewrite !app_length.
  replace (n + (n + q) - (length s + (length t + length p)))%nat with 0%nat by lia. reflexivity.
Qed.

Lemma qsum_single f : qsum 1 f == f 0%nat.
Proof. simpl. ring. Qed.

Lemma inject_m1 : inject_Z (-1) == -(1).
Proof. reflexivity. Qed.

Lemma phi_valid_same n q k h s t p : length h = S n -> length s = n -> length t = n -> length p = q ->
  form_val (mrows (phi_valid n q true k)) h (s ++ t ++ p) == hval h t - hval h s - inject_Z k.
Proof.
  intros Hh Hs Ht Hp. unfold phi_valid. cbv zeta.
  rewrite form_val_mat by (rewrite ?app_length; lia).
  replace (n + 1 + 1 - 1)%nat with (S n) by lia.
  replace (2 * n + q + 1)%nat with (n + (n + (q + 1)))%nat by lia.
  rewrite qsum_app, qsum_app, qsum_app. 
  rewrite (qsum_ext n _ (fun i => - (nth i h 0 * nth i s 0))).
  2: { intros i Hi. natcase. rewrite (nth_stp1 _ _ _ n q) by auto. rewrite qsum_delta by lia.
       rewrite inject_m1, inject_Z_0. ring. }
  rewrite (qsum_ext n (fun i => _ * nth (n + i) _ _) (fun i => nth i h 0 * nth i t 0)).
  2: { intros i Hi. natcase. rewrite (nth_stp2 _ _ _ n q) by auto.
       replace (n + i - n)%nat with i by lia. rewrite qsum_delta by lia. rewrite inject_Z_1, inject_Z_0. ring. }
  rewrite (qsum_zero q).
  2: { intros i Hi. natcase. rewrite qsum_zero by (intros; rewrite inject_Z_0; ring). rewrite inject_Z_0. ring. }
  rewrite qsum_single. rewrite Nat.add_0_r. rewrite (nth_stp4 _ _ _ n q) by auto.
  natcase. 
  rewrite (qsum_zero (S n) (fun j => inject_Z _ * _)).
  2: { intros i Hi. natcase. rewrite inject_Z_0. ring. }
  rewrite (hval_sum h t n), (hval_sum h s n) by auto.
  rewrite inject_Z_opp.
  assert (qsum n (fun i => - (nth i h 0 * nth i s 0)) == - qsum n (fun i => nth i h 0 * nth i s 0)) as ->.
  { clear. induction n; simpl; [reflexivity|]. rewrite IHn. ring. }
  ring.
Qed.

Lemma qsum_opp n f : qsum n (fun i => - f i) == - qsum n f.
Proof. induction n; simpl; [reflexivity|]. rewrite IHn. ring. Qed.

Lemma qsum_delta2 n k1 k2 (v1 v2 : Z) c : (k1 < n)%nat -> (k2 < n)%nat -> k1 <> k2 ->
  qsum n (fun j => inject_Z (if (j =? k1)%nat then v1 else if (j =? k2)%nat then v2 else 0%Z) * nth j c 0)
  == inject_Z v1 * nth k1 c 0 + inject_Z v2 * nth k2 c 0.
Proof.
  intros H1 H2 Hn.
  rewrite (qsum_ext n _ (fun j => inject_Z (if (j =? k1)%nat then v1 else 0%Z) * nth j c 0
                                + inject_Z (if (j =? k2)%nat then v2 else 0%Z) * nth j c 0)).
  2: { intros i Hi. natcase; rewrite ?inject_Z_0; ring. }
  rewrite qsum_add, !qsum_delta by auto. reflexivity.
Qed.

Lemma qsum_delta3 n k1 k2 k3 (v1 v2 v3 : Z) c : (k1 < n)%nat -> (k2 < n)%nat -> (k3 < n)%nat -> k1 <> k2 -> k1 <> k3 -> k2 <> k3 ->
  qsum n (fun j => inject_Z (if (j =? k1)%nat then v1 else if (j =? k2)%nat then v2 else
                             if (j =? k3)%nat then v3 else 0%Z) * nth j c 0)
  == inject_Z v1 * nth k1 c 0 + inject_Z v2 * nth k2 c 0 + inject_Z v3 * nth k3 c 0.
Proof.
  intros H1 H2 H3 N1 N2 N3.
  rewrite (qsum_ext n _ (fun j => inject_Z (if (j =? k1)%nat then v1 else 0%Z) * nth j c 0
                                + inject_Z (if (j =? k2)%nat then v2 else if (j =? k3)%nat then v3 else 0%Z) * nth j c 0)).
  2: { intros i Hi. natcase; rewrite ?inject_Z_0; ring. }
  rewrite qsum_add, qsum_delta, qsum_delta2 by auto. ring.
Qed.

Lemma phi_valid_diff n q k hs ht s t p : length hs = S n -> length ht = S n ->
  length s = n -> length t = n -> length p = q ->
  form_val (mrows (phi_valid n q false k)) (hs ++ ht) (s ++ t ++ p) == hval ht t - hval hs s - inject_Z k.
Proof.
  intros Hh Hh' Hs Ht Hp. unfold phi_valid. cbv zeta.
  rewrite form_val_mat by (rewrite ?app_length; lia).
  replace (2 * (n + 1) + 1 - 1)%nat with (S n + S n)%nat by lia.
  replace (2 * n + q + 1)%nat with (n + (n + (q + 1)))%nat by lia.
  rewrite qsum_app, qsum_app, qsum_app.
  rewrite (qsum_ext n _ (fun i => - (nth i hs 0 * nth i s 0))).
  2: { intros i Hi. natcase. rewrite (nth_stp1 _ _ _ n q) by auto. rewrite qsum_delta by lia.
       rewrite app_nth1 by lia. rewrite inject_m1, inject_Z_0. ring. }
  rewrite (qsum_ext n (fun i => _ * nth (n + i) _ _) (fun i => nth i ht 0 * nth i t 0)).
  2: { intros i Hi. natcase. rewrite (nth_stp2 _ _ _ n q) by auto.
       replace (n + 1 + (n + i - n))%nat with (S n + i)%nat by lia. rewrite qsum_delta by lia.
       rewrite app_nth2 by lia. replace (S n + i - length hs)%nat with i by lia. rewrite inject_Z_1, inject_Z_0. ring. }
  rewrite (qsum_zero q).
  2: { intros i Hi. natcase. rewrite qsum_zero by (intros; rewrite inject_Z_0; ring). rewrite inject_Z_0. ring. }
  rewrite qsum_single. rewrite Nat.add_0_r. rewrite (nth_stp4 _ _ _ n q) by auto.
  natcase.
  rewrite (qsum_ext (S n + S n) (fun j => inject_Z _ * _)
     (fun j => inject_Z (if (j =? n + 1 + n)%nat then 1%Z else if (j =? n)%nat then (-1)%Z else 0%Z) * nth j (hs ++ ht) 0)).
  2: { intros i Hi. natcase; reflexivity. }
  rewrite qsum_delta2 by lia.
  rewrite app_nth2 by lia. replace (n + 1 + n - length hs)%nat with n by lia. rewrite app_nth1 by lia.
  rewrite (hval_sum ht t n), (hval_sum hs s n) by auto.
  rewrite inject_Z_opp, inject_m1, inject_Z_1, qsum_opp. ring.
Qed.

Lemma bound_val_sum npar c p : (S npar <= length c)%nat -> length p = npar ->
  bound_val npar c p == qsum npar (fun i => nth i c 0 * nth i p 0) + nth npar c 0.
Proof.
  intros Hc Hp. unfold bound_val. change (qqdot (firstn (S npar) c) (p ++ [1])) with (hval (firstn (S npar) c) p).
  rewrite (hval_sum _ _ npar) by (auto; rewrite firstn_length_le; auto).
  rewrite nth_firstn_lt by lia. rewrite (qsum_ext npar _ (fun i => nth i c 0 * nth i p 0)); [reflexivity|].
  intros i Hi. rewrite nth_firstn_lt by lia. reflexivity.
Qed.

Lemma phi_bound_same n q u h s t p : length u = (q + 1)%nat -> length h = S n ->
  length s = n -> length t = n -> length p = q ->
  form_val (mrows (phi_bound n q true)) (u ++ h) (s ++ t ++ p) == bound_val q u p - (hval h t - hval h s).
Proof.
  intros Hu Hh Hs Ht Hp. unfold phi_bound. cbv zeta.
  rewrite form_val_mat by (rewrite ?app_length; lia).
  replace (q + 1 + (n + 1) + 1 - 1)%nat with (q + 1 + S n)%nat by lia.
  replace (2 * n + q + 1)%nat with (n + (n + (q + 1)))%nat by lia.
  rewrite qsum_app, qsum_app, qsum_app.
  rewrite (qsum_ext n _ (fun i => nth i h 0 * nth i s 0)).
  2: { intros i Hi. natcase. rewrite (nth_stp1 _ _ _ n q) by auto. rewrite qsum_delta by lia.
       rewrite app_nth2 by lia. replace (q + 1 + i - length u)%nat with i by lia. rewrite inject_Z_1, inject_Z_0. ring. }
  rewrite (qsum_ext n (fun i => _ * nth (n + i) _ _) (fun i => - (nth i h 0 * nth i t 0))).
  2: { intros i Hi. natcase. rewrite (nth_stp2 _ _ _ n q) by auto.
       rewrite qsum_delta by lia.
       rewrite app_nth2 by lia. replace (q + 1 + (n + i - n) - length u)%nat with i by lia. rewrite inject_m1, inject_Z_0. ring. }
  rewrite (qsum_ext q _ (fun i => nth i u 0 * nth i p 0)).
  2: { intros i Hi. natcase. rewrite (nth_stp3 _ _ _ n q) by auto.
       rewrite qsum_delta by lia. rewrite app_nth1 by lia.
       replace (n + (n + i) - 2 * n)%nat with i by lia. rewrite inject_Z_1, inject_Z_0. ring. }
  rewrite qsum_single. rewrite Nat.add_0_r. rewrite (nth_stp4 _ _ _ n q) by auto.
  natcase.
  rewrite qsum_delta by lia. rewrite app_nth1 by lia.
  rewrite (hval_sum h t n), (hval_sum h s n), (bound_val_sum q) by (auto; lia).
  rewrite inject_Z_1, inject_Z_0, qsum_opp. ring.
Qed.

Lemma phi_bound_diff n q u hs ht s t p : length u = (q + 1)%nat -> length hs = S n -> length ht = S n ->
  length s = n -> length t = n -> length p = q ->
  form_val (mrows (phi_bound n q false)) (u ++ hs ++ ht) (s ++ t ++ p) == bound_val q u p - (hval ht t - hval hs s).
Proof.
  intros Hu Hh Hh' Hs Ht Hp. unfold phi_bound. cbv zeta.
  rewrite form_val_mat by (rewrite ?app_length; lia).
  replace (q + 1 + 2 * (n + 1) + 1 - 1)%nat with (q + 1 + (S n + S n))%nat by lia.
  replace (2 * n + q + 1)%nat with (n + (n + (q + 1)))%nat by lia.
  rewrite qsum_app, qsum_app, qsum_app.
  assert (forall i, (i < S n)%nat -> nth (q + 1 + i) (u ++ hs ++ ht) 0 = nth i hs 0) as E1.
  { intros i Hi. rewrite app_nth2 by lia. rewrite app_nth1 by lia. f_equal. lia. }
  assert (forall i, (i < S n)%nat -> nth (q + 1 + (n + 1) + i) (u ++ hs ++ ht) 0 = nth i ht 0) as E2.
  { intros i Hi. rewrite app_nth2 by lia. rewrite app_nth2 by lia. f_equal. lia. }
  rewrite (qsum_ext n _ (fun i => nth i hs 0 * nth i s 0)).
  2: { intros i Hi. natcase. rewrite (nth_stp1 _ _ _ n q) by auto. rewrite qsum_delta by lia.
       rewrite E1 by lia. rewrite inject_Z_1, inject_Z_0. ring. }
  rewrite (qsum_ext n (fun i => _ * nth (n + i) _ _) (fun i => - (nth i ht 0 * nth i t 0))).
  2: { intros i Hi. natcase. rewrite (nth_stp2 _ _ _ n q) by auto.
       rewrite qsum_delta by lia. rewrite E2 by lia. replace (n + i - n)%nat with i by lia. rewrite inject_m1, inject_Z_0. ring. }
  rewrite (qsum_ext q _ (fun i => nth i u 0 * nth i p 0)).
  2: { intros i Hi. natcase. rewrite (nth_stp3 _ _ _ n q) by auto.
       rewrite qsum_delta by lia. rewrite app_nth1 by lia.
       replace (n + (n + i) - 2 * n)%nat with i by lia. rewrite inject_Z_1, inject_Z_0. ring. }
  rewrite qsum_single. rewrite Nat.add_0_r. rewrite (nth_stp4 _ _ _ n q) by auto.
  natcase.
  rewrite qsum_delta3 by lia. rewrite E1, E2 by lia. rewrite app_nth1 by lia.
  rewrite (hval_sum ht t n), (hval_sum hs s n), (bound_val_sum q) by (auto; lia).
  rewrite inject_Z_1, inject_Z_0, inject_m1, qsum_opp. ring.
Qed.

(** ** Constraints of one dependence *)
Lemma mat_of_wf nr nc f : wf_mat (mat_of nr nc f) /\ mnrows (mat_of nr nc f) = nr /\ mncols (mat_of nr nc f) = nc.
Proof.
  unfold mat_of, wf_mat, mnrows. simpl. split; [|split; auto].
  - intros r Hr. apply in_map_iff in Hr as (i & <- & _). rewrite map_length, seq_length. auto.
  - rewrite map_length, seq_length. auto.
Qed.

Definition padded_dep (pr : prog) (d : dep) : Prop :=
  wf_dep pr d /\ ncols (d_poly d) = (2 * p_nvar pr + p_npar pr + 1)%nat.

Lemma padded_dep_intro pr d : wf_prog pr -> padded pr -> In d (p_deps pr) -> padded_dep pr d.
Proof.
  intros [_ W] P Hd. specialize (W d Hd). split; auto. destruct W as (H1 & H2 & _ & N & _). rewrite N.
  unfold stmt_of. rewrite !P by (apply nth_In; auto). lia.
Qed.

Lemma phi_valid_wf dom n q same k : ncols dom = (2 * n + q + 1)%nat -> wf_phi dom (phi_valid n q same k).
Proof.
  intros H. unfold wf_phi, phi_valid. destruct (mat_of_wf (2 * n + q + 1)
    (if same then n + 1 + 1 else 2 * (n + 1) + 1)%nat (fun r j =>
    if (r <? n)%nat then (if (j =? r)%nat then -1 else 0)
    else if (r <? 2 * n)%nat then
      (if (j =? (if same then r - n else n + 1 + (r - n)))%nat then 1 else 0)
    else if (r =? 2 * n + q)%nat then
      (if (j =? (if same then (n + 1 + 1)%nat else (2 * (n + 1) + 1)%nat) - 1)%nat then - k
       else if same then 0
       else if (j =? n + 1 + n)%nat then 1
       else if (j =? n)%nat then -1 else 0)
    else 0)%Z) as (A & B & C). cbv zeta. split; [exact A|]. split; [rewrite H; exact B|].
  rewrite C. destruct same; lia.
Qed.

Lemma phi_valid_ncols n q same k : mncols (phi_valid n q same k) = if same then (n + 1 + 1)%nat else (2 * (n + 1) + 1)%nat.
Proof. reflexivity. Qed.
Lemma phi_bound_ncols n q same : mncols (phi_bound n q same) = if same then (q + 1 + (n + 1) + 1)%nat else (q + 1 + 2 * (n + 1) + 1)%nat.
Proof. reflexivity. Qed.

Lemma phi_bound_wf dom n q same : ncols dom = (2 * n + q + 1)%nat -> wf_phi dom (phi_bound n q same).
Proof.
  intros H. unfold wf_phi. split; [|split].
  - intros r Hr. unfold phi_bound, mat_of in Hr. simpl in Hr. apply in_map_iff in Hr as (i & <- & _).
    rewrite map_length, seq_length. reflexivity.
  - unfold phi_bound, mat_of, mnrows. cbn [mrows]. rewrite map_length, seq_length. auto.
  - rewrite phi_bound_ncols. destruct same; lia.
Qed.

Lemma valid_form pr d k c s t p : S (length c) = cst_width pr -> wf_dep pr d ->
  length s = p_nvar pr -> length t = p_nvar pr -> length p = p_npar pr ->
  form_val (mrows (phi_valid (p_nvar pr) (p_npar pr) (same_stmt d) k)) (local pr d 0 c) (s ++ t ++ p) ==
  hval (hyp_of (p_nvar pr) (p_npar pr) c (d_dst d)) t
  - hval (hyp_of (p_nvar pr) (p_npar pr) c (d_src d)) s - inject_Z k.
Proof.
  intros Hc (H1 & H2 & _) Hs Ht Hp. unfold local. simpl firstn. simpl app.
  destruct (same_stmt d) eqn:E.
  - rewrite app_nil_r. unfold same_stmt in E. apply Nat.eqb_eq in E. rewrite <- E.
    apply phi_valid_same; auto. apply hyp_of_length; auto.
  - apply phi_valid_diff; auto; apply hyp_of_length; auto.
Qed.

Lemma bound_val_firstn n c p : bound_val n (firstn (n + 1) c) p = bound_val n c p.
Proof. unfold bound_val. rewrite firstn_firstn. replace (Nat.min (S n) (n + 1)) with (S n) by lia. auto. Qed.

Lemma bound_form pr d c s t p : S (length c) = cst_width pr -> wf_dep pr d ->
  length s = p_nvar pr -> length t = p_nvar pr -> length p = p_npar pr ->
  form_val (mrows (phi_bound (p_nvar pr) (p_npar pr) (same_stmt d))) (local pr d (p_npar pr + 1) c) (s ++ t ++ p) ==
  bound_val (p_npar pr) c p -
  (hval (hyp_of (p_nvar pr) (p_npar pr) c (d_dst d)) t
   - hval (hyp_of (p_nvar pr) (p_npar pr) c (d_src d)) s).
Proof.
  intros Hc (H1 & H2 & _) Hs Ht Hp. unfold local. rewrite <- (bound_val_firstn (p_npar pr) c p).
  assert (length (firstn (p_npar pr + 1) c) = p_npar pr + 1)%nat as Lu.
  { rewrite firstn_length_le; auto. unfold cst_width in Hc. lia. }
  destruct (same_stmt d) eqn:E.
  - rewrite app_nil_r. unfold same_stmt in E. apply Nat.eqb_eq in E. rewrite <- E.
    apply phi_bound_same; auto. apply hyp_of_length; auto.
  - apply phi_bound_diff; auto; apply hyp_of_length; auto.
Qed.

Lemma split3 (x : qpoint) n m q : length x = (n + m + q)%nat ->
  exists s t p, x = s ++ t ++ p /\ length s = n /\ length t = m /\ length p = q.
Proof.
  intros H. exists (firstn n x), (firstn m (skipn n x)), (skipn m (skipn n x)).
  rewrite !firstn_skipn. split; auto. rewrite !firstn_length, !skipn_length. lia.
Qed.

Lemma valid_ncols pr d k : padded_dep pr d ->
  let f := farkas_lemma_affine (d_poly d) (phi_valid (p_nvar pr) (p_npar pr) (same_stmt d) k) in
  wf_cst f /\ ncols f = S (0 + (if same_stmt d then p_nvar pr + 1 else 2 * p_nvar pr + 2)).
Proof.
  intros [W N]. pose proof W as (_ & _ & Wp & _).
  destruct (farkas_wf (d_poly d) (phi_valid (p_nvar pr) (p_npar pr) (same_stmt d) k)) as [A B]; auto.
  { apply phi_valid_wf; auto. }
  split; auto. rewrite B, phi_valid_ncols. destruct (same_stmt d); lia.
Qed.

Lemma bound_ncols pr d : padded_dep pr d ->
  wf_cst (bounding_func_cst pr d) /\
  ncols (bounding_func_cst pr d) = S (p_npar pr + 1 + (if same_stmt d then p_nvar pr + 1 else 2 * p_nvar pr + 2)).
Proof.
  intros [W N]. pose proof W as (_ & _ & Wp & _ & Wb & Nb).
  destruct (farkas_wf (d_bpoly d) (phi_bound (p_nvar pr) (p_npar pr) (same_stmt d))) as [A B]; auto.
  { apply phi_bound_wf. lia. }
  split; auto. unfold bounding_func_cst. rewrite B, phi_bound_ncols. destruct (same_stmt d); lia.
Qed.

Lemma valid_sound pr d k c : padded_dep pr d -> S (length c) = cst_width pr ->
  qmem (scatter pr d 0 (farkas_lemma_affine (d_poly d) (phi_valid (p_nvar pr) (p_npar pr) (same_stmt d) k))) c ->
  preserves pr d k c.
Proof.
  intros P Hc H. destruct (valid_ncols pr d k P) as [A B]. destruct P as [W N].
  apply scatter_qmem in H; auto; [|lia].
  intros s t p Hs Ht Hp Hm. pose proof W as (_ & _ & Wp & _).
  pose proof (farkas_sound _ _ _ Wp (phi_valid_wf (d_poly d) _ _ (same_stmt d) k N) H _ Hm) as K.
  rewrite (valid_form pr d k c s t p Hc W Hs Ht Hp) in K. lra.
Qed.

Lemma valid_complete pr d k c : padded_dep pr d -> S (length c) = cst_width pr ->
  (exists x, qmem (d_poly d) x) -> preserves pr d k c ->
  qmem (scatter pr d 0 (farkas_lemma_affine (d_poly d) (phi_valid (p_nvar pr) (p_npar pr) (same_stmt d) k))) c.
Proof.
  intros P Hc Hne H. destruct (valid_ncols pr d k P) as [A B]. destruct P as [W N].
  apply scatter_qmem; auto; [lia|]. pose proof W as (_ & _ & Wp & _).
  apply farkas_complete; auto.
  - apply phi_valid_wf; auto.
  - rewrite local_length by (auto; lia). rewrite phi_valid_ncols. destruct (same_stmt d); lia.
  - intros x Hx. destruct (split3 x (p_nvar pr) (p_nvar pr) (p_npar pr)) as (s & t & p & -> & Hs & Ht & Hp).
    { destruct Hx as [Hx _]. lia. }
    rewrite (valid_form pr d k c s t p Hc W Hs Ht Hp). specialize (H s t p Hs Ht Hp Hx). lra.
Qed.

Lemma bound_sound pr d c : padded_dep pr d -> S (length c) = cst_width pr ->
  qmem (scatter pr d (p_npar pr + 1) (bounding_func_cst pr d)) c -> bounded_by pr d c.
Proof.
  intros P Hc H. destruct (bound_ncols pr d P) as [A B]. destruct P as [W N].
  apply scatter_qmem in H; auto.
  intros s t p Hs Ht Hp Hm. pose proof W as (_ & _ & Wp & _ & Wb & Nb).
  assert (wf_phi (d_bpoly d) (phi_bound (p_nvar pr) (p_npar pr) (same_stmt d))) as Wphi by (apply phi_bound_wf; lia).
  pose proof (farkas_sound _ _ _ Wb Wphi H _ Hm) as K.
  rewrite (bound_form pr d c s t p Hc W Hs Ht Hp) in K. lra.
Qed.

Lemma bound_complete pr d c : padded_dep pr d -> S (length c) = cst_width pr ->
  (exists x, qmem (d_bpoly d) x) -> bounded_by pr d c ->
  qmem (scatter pr d (p_npar pr + 1) (bounding_func_cst pr d)) c.
Proof.
  intros P Hc Hne H. destruct (bound_ncols pr d P) as [A B]. destruct P as [W N].
  apply scatter_qmem; auto. pose proof W as (_ & _ & Wp & _ & Wb & Nb).
  apply farkas_complete; auto.
  - apply phi_bound_wf; lia.
  - rewrite local_length by (auto; lia). rewrite phi_bound_ncols. destruct (same_stmt d); lia.
  - intros x Hx. destruct (split3 x (p_nvar pr) (p_nvar pr) (p_npar pr)) as (s & t & p & -> & Hs & Ht & Hp).
    { destruct Hx as [Hx _]. lia. }
    rewrite (bound_form pr d c s t p Hc W Hs Ht Hp). specialize (H s t p Hs Ht Hp Hx). lra.
Qed.

Lemma scatter_wf pr d base cc l : (forall r, In r l -> In r (rows (scatter pr d base cc))) -> wf_cst (mkCst (cst_width pr) l).
Proof.
  intros H. split; simpl. unfold cst_width; lia.
  intros r Hr. apply H in Hr. simpl in Hr. apply in_map_iff in Hr as (r0 & <- & _). simpl.
  unfold scatter_row. rewrite map_length, seq_length. auto.
Qed.

Lemma dep_cst_raw_wf o pr d : wf_cst (mkCst (cst_width pr)
  ((if d_rar d then [] else rows (scatter pr d 0 (tiling_valid_cst pr d))) ++
   (if o_nodepbound o then [] else rows (scatter pr d (p_npar pr + 1) (bounding_func_cst pr d))))).
Proof.
  split; simpl. unfold cst_width; lia. intros r Hr. apply in_app_or in Hr. destruct Hr as [Hr|Hr].
  - destruct (d_rar d); [contradiction|].
    refine (proj2 (scatter_wf pr d 0 (tiling_valid_cst pr d) [r] _) r (or_introl eq_refl)). intros r' [<-|[]]; auto.
  - destruct (o_nodepbound o); [contradiction|].
    refine (proj2 (scatter_wf pr d (p_npar pr + 1) (bounding_func_cst pr d) [r] _) r (or_introl eq_refl)). intros r' [<-|[]]; auto.
Qed.

Lemma dep_cst_wf o pr d : wf_cst (dep_cst o pr d) /\ ncols (dep_cst o pr d) = cst_width pr.
Proof.
  split; [|reflexivity]. split. simpl. unfold cst_width; lia.
  intros r Hr. unfold dep_cst, zero_pads in Hr. simpl in Hr. apply in_map_iff in Hr as (r0 & <- & _).
  unfold map_coef. cbn [coef]. rewrite map_length, seq_length. reflexivity.
Qed.

Lemma dep_cst_sound o pr d c : padded_dep pr d -> padding_zero pr c ->
  qmem (dep_cst o pr d) c ->
  (d_rar d = false -> preserves pr d 0 c) /\ (o_nodepbound o = false -> bounded_by pr d c).
Proof.
  intros P Z H. assert (S (length c) = cst_width pr) as Hc by apply H.
  unfold dep_cst in H. apply zero_pads_qmem in H; auto; [|apply P|apply dep_cst_raw_wf].
  apply qmem_rows in H as [H1 H2]. split; intros E; [rewrite E in H1; rename H1 into H|rewrite E in H2; rename H2 into H].
  - apply valid_sound; auto.
  - apply bound_sound; auto.
Qed.

Lemma dep_cst_complete o pr d c : padded_dep pr d -> S (length c) = cst_width pr -> padding_zero pr c ->
  (d_rar d = false -> (exists x, qmem (d_poly d) x) /\ preserves pr d 0 c) ->
  (o_nodepbound o = false -> (exists x, qmem (d_bpoly d) x) /\ bounded_by pr d c) ->
  qmem (dep_cst o pr d) c.
Proof.
  intros P Hc Z H1 H2. unfold dep_cst. apply zero_pads_qmem; auto; [apply P|apply dep_cst_raw_wf|].
  apply qmem_rows. split.
  - destruct (d_rar d). { split; simpl; [auto|tauto]. } destruct (H1 eq_refl). apply (valid_complete pr d 0 c); auto.
  - destruct (o_nodepbound o). { split; simpl; [auto|tauto]. } destruct (H2 eq_refl). apply bound_complete; auto.
Qed.

(** ** The accumulated system *)
Definition selected (o : options) (skip : nat -> bool) (i : nat) (d : dep) : bool :=
  negb (skip i || (negb (o_rar o) && d_rar d) || d_sat d).

Lemma cst_add_qmem c1 c2 x : ncols c1 = ncols c2 -> qmem (cst_add c1 c2) x <-> qmem c1 x /\ qmem c2 x.
Proof.
  intros E. destruct c1 as [n1 l1], c2 as [n2 l2]; simpl in *; subst. unfold cst_add; simpl. apply qmem_rows.
Qed.

Lemma add_dep_loop o pr skip l g inc x : ncols g = cst_width pr ->
  ncols (fst (fold_left (add_dep_cst o pr skip) l (g, inc))) = cst_width pr /\
  (qmem (fst (fold_left (add_dep_cst o pr skip) l (g, inc))) x <->
   qmem g x /\ forall i d, In (i, d) l -> selected o skip i d = true -> qmem (dep_cst o pr d) x).
Proof.
  revert g inc. induction l as [|[i d] l IH]; intros g inc Hg.
  - simpl. split; auto. split; [intros; split; [auto|intros; contradiction]|tauto].
  - cbn [fold_left]. unfold add_dep_cst at 2 4. destruct (skip i || (negb (o_rar o) && d_rar d) || d_sat d) eqn:E.
    + destruct (IH g inc Hg) as [A B]. split; auto. rewrite B. split; intros [K1 K2]; split; auto.
      * intros i' d' [X|X] Y; [|eauto]. injection X as <- <-. unfold selected in Y. rewrite E in Y. discriminate.
      * intros; apply (K2 i0); auto. right; auto.
    + cbv zeta. set (g' := cst_add g (dep_cst o pr d)).
      assert (ncols g' = cst_width pr) as Hg' by exact Hg.
      assert (qmem g' x <-> qmem g x /\ qmem (dep_cst o pr d) x) as Q by (apply cst_add_qmem; rewrite Hg; reflexivity).
      assert (forall g1 inc1, ncols g1 = cst_width pr -> (qmem g1 x <-> qmem g' x) ->
        ncols (fst (fold_left (add_dep_cst o pr skip) l (g1, inc1))) = cst_width pr /\
        (qmem (fst (fold_left (add_dep_cst o pr skip) l (g1, inc1))) x <->
         qmem g x /\ (forall i0 d0, In (i0, d0) ((i, d) :: l) -> selected o skip i0 d0 = true -> qmem (dep_cst o pr d0) x))) as K.
      { intros g1 inc1 N1 Q1. destruct (IH g1 inc1 N1) as [A B]. split; auto. rewrite B, Q1, Q. split.
        - intros [[K1 K2] K3]. split; auto. intros i' d' [X|X] Y; [injection X as <- <-; auto|eauto].
        - intros [K1 K2]. split; [split; auto|].
          + apply (K2 i); [left; auto|]. unfold selected. rewrite E. auto.
          + intros; apply (K2 i0); auto. right; auto. }
      match goal with |- context[if ?b then (simplify _, _) else _] => destruct b end; apply K; auto; [rewrite simplify_ncols; auto|apply simplify_qmem|tauto].
Qed.

Lemma combine_seq_in {A} (l : list A) k i a : In (i, a) (combine (seq k (length l)) l) <->
  (k <= i)%nat /\ nth_error l (i - k) = Some a.
Proof.
  revert k; induction l as [|b l IH]; intros k; simpl.
  - split; [tauto|]. intros [_ H]. destruct (i - k)%nat; discriminate.
  - split.
    + intros [H|H]. { injection H as <- <-. rewrite Nat.sub_diag. auto. }
      apply IH in H as [H1 H2]. split; [lia|]. replace (i - k)%nat with (S (i - S k)) by lia. auto.
    + intros [H1 H2]. destruct (Nat.eq_dec i k) as [->|Hn].
      * rewrite Nat.sub_diag in H2. injection H2 as <-. left; auto.
      * right. apply IH. split; [lia|]. replace (i - k)%nat with (S (i - S k)) in H2 by lia. auto.
Qed.

Lemma perm_cst_spec o skip pr x :
  qmem (get_permutability_constraints o skip pr) x <->
  S (length x) = cst_width pr /\
  forall i d, nth_error (p_deps pr) i = Some d -> selected o skip i d = true -> qmem (dep_cst o pr d) x.
Proof.
  unfold get_permutability_constraints. rewrite simplify_qmem.
  destruct (add_dep_loop o pr skip (combine (seq 0 (length (p_deps pr))) (p_deps pr)) (universe (cst_width pr)) 0%Z x eq_refl) as [_ ->].
  split; intros [K1 K2]; (split; [try apply K1|]).
  - intros i d H. apply K2. apply combine_seq_in. rewrite Nat.sub_0_r. split; [lia|auto].
  - split; simpl; auto. intros; contradiction.
  - intros i d H. apply combine_seq_in in H as [_ H]. rewrite Nat.sub_0_r in H. eauto.
Qed.

Lemma perm_cst_wf o skip pr : wf_cst (get_permutability_constraints o skip pr) /\
  ncols (get_permutability_constraints o skip pr) = cst_width pr.
Proof.
  unfold get_permutability_constraints.
  assert (forall l g inc, wf_cst g -> ncols g = cst_width pr ->
     let g' := fst (fold_left (add_dep_cst o pr skip) l (g, inc)) in wf_cst g' /\ ncols g' = cst_width pr) as K.
  { induction l as [|[i d] l IH]; intros g inc W N; [simpl; auto|]. cbn [fold_left]. unfold add_dep_cst at 2 4.
    destruct (skip i || _ || _); [apply IH; auto|]. cbv zeta.
    destruct (dep_cst_wf o pr d) as [[W1 W2] N'].
    assert (wf_cst (cst_add g (dep_cst o pr d))) as W'.
    { split; [apply W|]. intros r Hr. simpl in Hr. apply in_app_or in Hr. simpl. destruct Hr as [Hr|Hr]; [apply W; auto|].
      rewrite (W2 r Hr). rewrite N, N'. auto. }
    match goal with |- context[if ?b then (simplify _, _) else _] => destruct b end; apply IH; auto; [apply simplify_wf; auto|rewrite simplify_ncols; auto]. }
  destruct (K (combine (seq 0 (length (p_deps pr))) (p_deps pr)) (universe (cst_width pr)) 0%Z) as [A B].
  - split; simpl. unfold cst_width; lia. intros; contradiction.
  - auto.
  - split; [apply simplify_wf; auto|rewrite simplify_ncols; auto].
Qed.

Lemma opt_acc_spec o pr (sel : dep -> bool) l acc x :
  (forall g, acc = Some g -> ncols g = cst_width pr) ->
  let r := fold_left (fun acc d =>
      if d_sat d then acc
      else if sel d
      then Some (cst_add (match acc with Some c => c | None => universe (cst_width pr) end) (dep_cst o pr d))
      else acc) l acc in
  match r with
  | None => acc = None /\ forall d, In d l -> d_sat d = false -> sel d = false
  | Some g => (acc <> None \/ exists d, In d l /\ d_sat d = false /\ sel d = true) /\
      (qmem g x <-> S (length x) = cst_width pr /\
       (match acc with Some a => qmem a x | None => True end) /\
       forall d, In d l -> d_sat d = false -> sel d = true -> qmem (dep_cst o pr d) x)
  end.
Proof.
  revert acc; induction l as [|d l IH]; intros acc Hacc; cbn [fold_left].
  - cbv zeta. destruct acc as [g|]; [|split; [auto|intros; contradiction]].
    split; [left; discriminate|]. split; [|tauto]. intros H. split; [rewrite <- (Hacc g eq_refl); apply H|].
    split; auto. intros; contradiction.
  - destruct (d_sat d) eqn:E1; [|destruct (sel d) eqn:E2].
    + specialize (IH acc Hacc). cbv zeta in *. destruct (fold_left _ l acc) as [g|].
      * destruct IH as [A B]. split; [destruct A as [A|(d' & A)]; [auto|right; exists d'; simpl; tauto]|].
        rewrite B. split; intros (K1 & K2 & K3); (split; [auto|split; [auto|]]); intros d' H; [destruct H as [<-|H]; [congruence|auto]|].
        apply K3; right; auto.
      * destruct IH as [A B]. split; auto. intros d' [<-|H]; [congruence|auto].
    + set (g1 := cst_add match acc with Some c => c | None => universe (cst_width pr) end (dep_cst o pr d)).
      assert (ncols g1 = cst_width pr) as N1. { unfold g1. destruct acc; simpl; auto. }
      assert (qmem g1 x <-> S (length x) = cst_width pr /\ (match acc with Some a => qmem a x | None => True end) /\ qmem (dep_cst o pr d) x) as Q1.
      { unfold g1. destruct acc as [a|].
        - rewrite cst_add_qmem by (rewrite (Hacc a eq_refl); reflexivity). split; [|tauto].
          intros [K1 K2]. split; [rewrite <- (Hacc a eq_refl); apply K1|tauto].
        - rewrite cst_add_qmem by reflexivity. split; [intros [K1 K2]; split; [apply K1|tauto]|].
          intros (K1 & _ & K2). split; auto. split; simpl; auto. intros; contradiction. }
      specialize (IH (Some g1)). cbv zeta in *. destruct (fold_left _ l (Some g1)) as [g|].
      * destruct IH as [A B]. { intros ? H; injection H as <-; auto. }
        split. { right. exists d. simpl. auto. }
        rewrite B, Q1. split.
        -- intros (K1 & (K2 & K3 & K4) & K5). (split; [auto|split; [auto|]]). intros d' [<-|H]; auto.
        -- intros (K1 & K2 & K3). split; [auto|split; [split; [auto|split; [auto|]]|]].
           ++ apply K3; auto. left; auto.
           ++ intros; apply K3; auto. right; auto.
      * destruct IH as [A B]. { intros ? H; injection H as <-; auto. } discriminate.
    + specialize (IH acc Hacc). cbv zeta in *. destruct (fold_left _ l acc) as [g|].
      * destruct IH as [A B]. split; [destruct A as [A|(d' & A)]; [auto|right; exists d'; simpl; tauto]|].
        rewrite B. split; intros (K1 & K2 & K3); (split; [auto|split; [auto|]]); intros d' H; [destruct H as [<-|H]; [congruence|auto]|].
        apply K3; right; auto.
      * destruct IH as [A B]. split; auto. intros d' [<-|H]; [congruence|auto].
Qed.

Lemma scc_cst_spec o id pr x :
  let sel d := (s_scc (stmt_of pr (d_src d)) =? id) && (s_scc (stmt_of pr (d_src d)) =? s_scc (stmt_of pr (d_dst d))) in
  match get_scc_permutability_constraints o id pr with
  | None => forall d, In d (p_deps pr) -> d_sat d = false -> sel d = false
  | Some g => (qmem g x <-> S (length x) = cst_width pr /\
       forall d, In d (p_deps pr) -> d_sat d = false -> sel d = true -> qmem (dep_cst o pr d) x)
  end.
Proof.
  pose proof (opt_acc_spec o pr (fun d => (s_scc (stmt_of pr (d_src d)) =? id) && (s_scc (stmt_of pr (d_src d)) =? s_scc (stmt_of pr (d_dst d)))) (p_deps pr) None x) as H.
  cbv zeta in *. unfold get_scc_permutability_constraints. destruct (fold_left _ _ _) as [g|].
  - destruct H as [_ H]; [discriminate|]. rewrite H. tauto.
  - destruct H as [_ H]; [discriminate|]. auto.
Qed.

Lemma cc_cst_spec o id pr x :
  let sel d := (s_cc (stmt_of pr (d_src d)) =? id) && (s_cc (stmt_of pr (d_src d)) =? s_cc (stmt_of pr (d_dst d))) in
  match get_cc_permutability_constraints o id pr with
  | None => forall d, In d (p_deps pr) -> d_sat d = false -> sel d = false
  | Some g => (qmem g x <-> S (length x) = cst_width pr /\
       forall d, In d (p_deps pr) -> d_sat d = false -> sel d = true -> qmem (dep_cst o pr d) x)
  end.
Proof.
  pose proof (opt_acc_spec o pr (fun d => (s_cc (stmt_of pr (d_src d)) =? id) && (s_cc (stmt_of pr (d_src d)) =? s_cc (stmt_of pr (d_dst d)))) (p_deps pr) None x) as H.
  cbv zeta in *. unfold get_cc_permutability_constraints. destruct (fold_left _ _ _) as [g|].
  - destruct H as [_ H]; [discriminate|]. rewrite H. tauto.
  - destruct H as [_ H]; [discriminate|]. auto.
Qed.

(** ** Feautrier's strong constraints *)
Lemma feautrier_dep_wf pr d : wf_cst (feautrier_cst_dep pr d) /\ ncols (feautrier_cst_dep pr d) = cst_width pr.
Proof.
  split; [|reflexivity]. split. simpl. unfold cst_width; lia.
  intros r Hr. unfold feautrier_cst_dep, zero_pads in Hr. simpl in Hr. apply in_map_iff in Hr as (r0 & <- & _).
  unfold map_coef. cbn [coef]. rewrite map_length, seq_length. reflexivity.
Qed.

Lemma feautrier_raw_wf pr d : wf_cst (mkCst (cst_width pr)
  (if d_rar d then [] else rows (scatter pr d 0
                 (farkas_lemma_affine (d_poly d) (phi_valid (p_nvar pr) (p_npar pr) (same_stmt d) 1))))).
Proof.
  split; simpl. unfold cst_width; lia. intros r Hr. destruct (d_rar d); [contradiction|].
  refine (proj2 (scatter_wf pr d 0 (farkas_lemma_affine (d_poly d) (phi_valid (p_nvar pr) (p_npar pr) (same_stmt d) 1)) [r] _) r (or_introl eq_refl)).
  intros r' [<-|[]]; auto.
Qed.

Lemma feautrier_dep_sound pr d c : padded_dep pr d -> padding_zero pr c -> d_rar d = false ->
  qmem (feautrier_cst_dep pr d) c -> preserves pr d 1 c.
Proof.
  intros P Z E H. assert (S (length c) = cst_width pr) as Hc by apply H.
  unfold feautrier_cst_dep in H. apply zero_pads_qmem in H; auto; [|apply P|apply feautrier_raw_wf].
  rewrite E in H. apply valid_sound; auto.
Qed.

Lemma feautrier_dep_complete pr d c : padded_dep pr d -> S (length c) = cst_width pr -> padding_zero pr c ->
  (d_rar d = false -> (exists x, qmem (d_poly d) x) /\ preserves pr d 1 c) -> qmem (feautrier_cst_dep pr d) c.
Proof.
  intros P Hc Z H. unfold feautrier_cst_dep. apply zero_pads_qmem; auto; [apply P|apply feautrier_raw_wf|].
  destruct (d_rar d). { split; simpl; [auto|tauto]. } destruct (H eq_refl). apply (valid_complete pr d 1 c); auto.
Qed.

Lemma feautrier_spec o pr sl x :
  qmem (get_feautrier_schedule_constraints o pr sl) x <->
  S (length x) = cst_width pr /\
  forall d, In d (p_deps pr) -> In (d_src d) sl -> In (d_dst d) sl -> (o_rar o = true \/ d_rar d = false) ->
    qmem (feautrier_cst_dep pr d) x.
Proof.
  assert (forall s, is_stmt_in_stmt_list s sl = true <-> In s sl) as IN.
  { intros s. unfold is_stmt_in_stmt_list. rewrite existsb_exists. split.
    - intros (y & Hy & E). apply Nat.eqb_eq in E. subst; auto.
    - intros H. exists s. split; auto. apply Nat.eqb_refl. }
  unfold get_feautrier_schedule_constraints. rewrite simplify_qmem.
  set (step := fun (acc : cst * Z) (d : dep) => _).
  assert (forall l g inc, ncols g = cst_width pr ->
    (qmem (fst (fold_left step l (g, inc))) x <->
     qmem g x /\ forall d, In d l -> In (d_src d) sl -> In (d_dst d) sl -> (o_rar o = true \/ d_rar d = false) ->
       qmem (feautrier_cst_dep pr d) x)) as K.
  { induction l as [|d l IH]; intros g inc Hg; cbn [fold_left].
    - simpl. split; [intros; split; [auto|intros; contradiction]|tauto].
    - unfold step at 2.
      destruct ((negb (o_rar o) && d_rar d)
         || negb (is_stmt_in_stmt_list (d_src d) sl) || negb (is_stmt_in_stmt_list (d_dst d) sl)) eqn:E.
      + rewrite IH by auto. split; intros [K1 K2]; split; auto.
        * intros d' [<-|X] Y1 Y2 Y3; [|eauto]. exfalso. apply IN in Y1, Y2. rewrite Y1, Y2 in E. simpl in E.
          rewrite !orb_false_r in E. destruct Y3 as [Y|Y]; rewrite Y in E; [discriminate|rewrite andb_false_r in E; discriminate].
        * intros; apply K2; auto. right; auto.
      + cbv zeta. set (g' := cst_add g (feautrier_cst_dep pr d)).
        assert (ncols g' = cst_width pr) as Hg' by exact Hg.
        assert (qmem g' x <-> qmem g x /\ qmem (feautrier_cst_dep pr d) x) as Q by (apply cst_add_qmem; rewrite Hg; reflexivity).
        assert (forall g1 inc1, ncols g1 = cst_width pr -> (qmem g1 x <-> qmem g' x) ->
          (qmem (fst (fold_left step l (g1, inc1))) x <->
         qmem g x /\ (forall d0, In d0 (d :: l) -> In (d_src d0) sl -> In (d_dst d0) sl -> (o_rar o = true \/ d_rar d0 = false) -> qmem (feautrier_cst_dep pr d0) x))) as K.
        { intros g1 inc1 N1 Q1. rewrite (IH g1 inc1 N1), Q1, Q. split.
          - intros [[K1 K2] K3]. split; auto. intros d' [<-|X] Y; eauto.
          - intros [K1 K2]. split; [split; auto|].
            + apply orb_false_iff in E as [E E3]. apply orb_false_iff in E as [E1 E2].
              apply negb_false_iff in E2, E3. apply (K2 d); [left; auto|apply IN; auto|apply IN; auto|].
              destruct (o_rar o); auto.
            + intros; apply K2; auto. right; auto. }
        match goal with |- context[if ?b then (simplify _, _) else _] => destruct b end; apply K; auto; [rewrite simplify_ncols; auto|apply simplify_qmem|tauto]. }
  rewrite K by reflexivity. split; intros [K1 K2]; split; auto; [apply K1|split; simpl; auto; intros; contradiction].
Qed.

(** ** Integer solutions *)
Lemma zpoint_firstn n x : zpoint (firstn n x) = firstn n (zpoint x).
Proof. unfold zpoint. rewrite firstn_map. auto. Qed.
Lemma zpoint_skipn n x : zpoint (skipn n x) = skipn n (zpoint x).
Proof. unfold zpoint. rewrite skipn_map. auto. Qed.
Lemma qqdot_zpoint a b : qqdot (zpoint a) (zpoint b) == inject_Z (dot a b).
Proof.
  revert b; induction a as [|x a IH]; intros [|y b]; simpl; try reflexivity.
  rewrite IH, inject_Z_plus, inject_Z_mult. reflexivity.
Qed.
Lemma hval_zpoint pr c s x : hval (hyp_of (p_nvar pr) (p_npar pr) (zpoint c) s) (zpoint x) == inject_Z (aff (zhyp pr c s) x).
Proof.
  unfold hval, hyp_of, zhyp, aff. rewrite <- qqdot_zpoint, zpoint_app, zpoint_firstn, zpoint_skipn. reflexivity.
Qed.
Lemma bound_val_zpoint pr c p : bound_val (p_npar pr) (zpoint c) (zpoint p) == inject_Z (zbound pr c p).
Proof. unfold bound_val, zbound, aff. rewrite <- qqdot_zpoint, zpoint_app, zpoint_firstn. reflexivity. Qed.

Lemma zpadding pr c : zpadding_zero pr c -> padding_zero pr (zpoint c).
Proof.
  intros H s k Hs Hk E. specialize (H s k Hs Hk E). unfold zpoint.
  change 0 with (inject_Z 0). rewrite List.map_nth, H. reflexivity.
Qed.

Lemma preserves_int pr d k c : padded_dep pr d -> padded pr -> preserves pr d k (zpoint c) ->
  forall s t p, instance pr d s t p -> (aff (zhyp pr c (d_src d)) s + k <= aff (zhyp pr c (d_dst d)) t)%Z.
Proof.
  intros [W _] P H s t p (Hs & Ht & Hp & Hm). destruct W as (W1 & W2 & _).
  specialize (H (zpoint s) (zpoint t) (zpoint p)). rewrite !zpoint_length in H.
  unfold stmt_of in Hs, Ht. rewrite P in Hs, Ht by (apply nth_In; auto).
  specialize (H Hs Ht Hp). rewrite <- !zpoint_app in H. specialize (H (proj2 (qmem_zpoint _ _) Hm)).
  rewrite !hval_zpoint, <- inject_Z_plus, <- Zle_Qle in H. exact H.
Qed.

Lemma bounded_int pr d c : padded pr -> bounded_by pr d (zpoint c) ->
  forall s t p, length s = p_nvar pr -> length t = p_nvar pr -> length p = p_npar pr -> mem (d_bpoly d) (s ++ t ++ p) ->
  (aff (zhyp pr c (d_dst d)) t - aff (zhyp pr c (d_src d)) s <= zbound pr c p)%Z.
Proof.
  intros P H s t p Hs Ht Hp Hm.
  specialize (H (zpoint s) (zpoint t) (zpoint p)). rewrite !zpoint_length in H.
  specialize (H Hs Ht Hp). rewrite <- !zpoint_app in H. specialize (H (proj2 (qmem_zpoint _ _) Hm)).
  rewrite !hval_zpoint, bound_val_zpoint in H. unfold Qminus in H. rewrite <- inject_Z_opp, <- inject_Z_plus, <- Zle_Qle in H. exact H.
Qed.

Lemma perm_sound_int o skip pr c i d : wf_prog pr -> padded pr -> zpadding_zero pr c ->
  mem (get_permutability_constraints o skip pr) c ->
  nth_error (p_deps pr) i = Some d -> skip i = false -> d_sat d = false -> d_rar d = false ->
  forall s t p, instance pr d s t p -> (aff (zhyp pr c (d_src d)) s <= aff (zhyp pr c (d_dst d)) t)%Z.
Proof.
  intros W P Z M Hi Sk Sa Ra s t p In.
  assert (padded_dep pr d) as PD by (apply padded_dep_intro; auto; eapply nth_error_In; eauto).
  apply qmem_zpoint in M. apply (proj1 (perm_cst_spec o skip pr (zpoint c))) in M as [_ M].
  specialize (M i d Hi). unfold selected in M. rewrite Sk, Sa, Ra, andb_false_r in M. specialize (M eq_refl).
  apply dep_cst_sound in M as [M _]; auto; [|apply zpadding; auto].
  pose proof (preserves_int pr d 0 c PD P (M Ra) s t p In). lia.
Qed.

Lemma bound_sound_int o skip pr c i d : wf_prog pr -> padded pr -> zpadding_zero pr c ->
  mem (get_permutability_constraints o skip pr) c ->
  nth_error (p_deps pr) i = Some d -> skip i = false -> d_sat d = false -> (o_rar o = true \/ d_rar d = false) -> o_nodepbound o = false ->
  forall s t p, length s = p_nvar pr -> length t = p_nvar pr -> length p = p_npar pr -> mem (d_bpoly d) (s ++ t ++ p) ->
  (aff (zhyp pr c (d_dst d)) t - aff (zhyp pr c (d_src d)) s <= zbound pr c p)%Z.
Proof.
  intros W P Z M Hi Sk Sa Ra Nb s t p Hs Ht Hp In.
  assert (padded_dep pr d) as PD by (apply padded_dep_intro; auto; eapply nth_error_In; eauto).
  apply qmem_zpoint in M. apply (proj1 (perm_cst_spec o skip pr (zpoint c))) in M as [_ M].
  specialize (M i d Hi). unfold selected in M.
  assert (negb (skip i || negb (o_rar o) && d_rar d || d_sat d) = true) as E.
  { rewrite Sk, Sa. destruct Ra as [->| ->]; rewrite ?andb_false_r; auto. }
  specialize (M E). apply dep_cst_sound in M as [_ M]; auto; [|apply zpadding; auto].
  apply (bounded_int pr d c P (M Nb)); auto.
Qed.

Lemma perm_complete o skip pr c : wf_prog pr -> padded pr -> S (length c) = cst_width pr -> padding_zero pr c ->
  (forall i d, nth_error (p_deps pr) i = Some d -> skip i = false -> d_sat d = false ->
     (d_rar d = false -> (exists x, qmem (d_poly d) x) /\ preserves pr d 0 c) /\
     (o_nodepbound o = false -> (o_rar o = true \/ d_rar d = false) -> (exists x, qmem (d_bpoly d) x) /\ bounded_by pr d c)) ->
  qmem (get_permutability_constraints o skip pr) c.
Proof.
  intros W P L Z H. apply perm_cst_spec. split; auto. intros i d Hi S.
  unfold selected in S. apply negb_true_iff, orb_false_iff in S as [S S3]. apply orb_false_iff in S as [S1 S2].
  destruct (H i d Hi S1 S3) as [A B].
  apply dep_cst_complete; auto.
  - apply padded_dep_intro; auto. eapply nth_error_In; eauto.
  - intros N. apply B; auto. destruct (o_rar o); auto.
Qed.

Lemma feautrier_sound_int o pr sl c d : wf_prog pr -> padded pr -> zpadding_zero pr c ->
  mem (get_feautrier_schedule_constraints o pr sl) c ->
  In d (p_deps pr) -> In (d_src d) sl -> In (d_dst d) sl -> d_rar d = false ->
  forall s t p, instance pr d s t p -> (aff (zhyp pr c (d_src d)) s + 1 <= aff (zhyp pr c (d_dst d)) t)%Z.
Proof.
  intros W P Z M Hi S1 S2 Ra s t p In.
  assert (padded_dep pr d) as PD by (apply padded_dep_intro; auto).
  apply qmem_zpoint in M. apply (proj1 (feautrier_spec o pr sl (zpoint c))) in M as [_ M].
  specialize (M d Hi S1 S2 (or_intror Ra)).
  apply feautrier_dep_sound in M; auto; [|apply zpadding; auto].
  apply (preserves_int pr d 1 c PD P M s t p In).
Qed.

Lemma feautrier_complete o pr sl c : wf_prog pr -> padded pr -> S (length c) = cst_width pr -> padding_zero pr c ->
  (forall d, In d (p_deps pr) -> In (d_src d) sl -> In (d_dst d) sl -> d_rar d = false ->
     (exists x, qmem (d_poly d) x) /\ preserves pr d 1 c) ->
  qmem (get_feautrier_schedule_constraints o pr sl) c.
Proof.
  intros W P L Z H. apply feautrier_spec. split; auto. intros d Hd S1 S2 R.
  apply feautrier_dep_complete; auto. apply padded_dep_intro; auto.
Qed.
