(** * Exact answers, certificates for them, and the objective. *)
From Coq Require Import ZArith QArith Qround Qabs List Bool Lia Arith Lqa.
From Verif Require Import SpecLinear SpecMatrix MathModel ConstraintsModel VecProofs FarkasProofs SpecProg FrameworkModel DriverModel SpecDriver SpecGlpk GlpkModel GlpkProofs GlpkProofs2.
Import ListNotations.
Open Scope Q_scope.


Lemma Qabs_zero (x : Q) : Qabs (x - x) <= 0.
Proof. assert (x - x == 0) as -> by lra. cbn. lra. Qed.
Lemma within_zero v : within 0 v v.
Proof. split; auto. intros i. apply Qabs_zero. Qed.
Lemma whole_nearly p v : whole p v -> nearly_integer 0 p v.
Proof.
  intros W i Hi E. destruct (W i Hi E) as (z & Hz). exists z. rewrite Hz. apply Qabs_zero.
Qed.
Lemma big_bound (y : list Q) k : exists s, forall i, (i < k)%nat -> nth i y 0 <= s.
Proof.
  exists (fold_right (fun a m => Qabs a + m) 0 y).
  assert (forall y : list Q, 0 <= fold_right (fun a m => Qabs a + m) 0 y) as P.
  { clear. induction y as [|a y IH]; cbn [fold_right]; [lra|]. pose proof (Qabs_nonneg a). lra. }
  assert (forall i, nth i y 0 <= fold_right (fun a m => Qabs a + m) 0 y) as H; [|auto].
  induction y as [|a y IH]; intros i; cbn [fold_right].
  - destruct i; cbn; lra.
  - specialize (P y). destruct i; cbn [nth]; [pose proof (Qle_Qabs a); lra|]. specialize (IH i). pose proof (Qabs_nonneg a). lra.
Qed.

Lemma exact_usable glpk tol p : exact_answers glpk -> usable (glpk tol p) ->
  gp_point p (a_val (glpk tol p)) /\ whole p (a_val (glpk tol p)) /\ map cut (a_val (glpk tol p)) = a_val (glpk tol p) /\
  forall x, gp_point p x -> whole p x -> obj_sum p (a_val (glpk tol p)) <= obj_sum p x.
Proof.
  intros H U. destruct (H tol p) as [[A B]|(A & B & P & W & C & O)]; [|auto]. destruct U as [U|U]; congruence.
Qed.

Lemma exact_rounds glpk : exact_answers glpk -> rounds_precisely glpk.
Proof.
  intros H p U. destruct (exact_usable glpk _ p H U) as (P & W & C & _).
  exists (a_val (glpk (1 # 10000000) p)), 0, 0. split; auto. split; [apply within_zero|]. split; [apply whole_nearly; auto|].
  split; [lra|]. split; [lra|]. intros r _. lra.
Qed.

Lemma exact_scales glpk : exact_answers glpk -> scales_precisely glpk.
Proof.
  intros H npar ix k p p' a a' U E2 N1 N2 N3. subst a a'. destruct (exact_usable glpk _ p H U) as (P & W & C & _).
  destruct (exact_usable glpk (1 # 100) p' H) as (P' & W' & C' & _).
  { destruct (H (1 # 100) p') as [[A B]|(A & B & _)]; [destruct N2; auto|left; auto]. }
  set (f := a_val (glpk (1 # 10000000) p)) in *. set (v := a_val (glpk (1 # 100) p')) in *.
  destruct (big_bound v k) as (s & Hs).
  exists f, v, 0, 0, 0, s. split; auto. split; [rewrite C; apply within_zero|]. split; auto. split; [apply within_zero|]. split; [apply whole_nearly; auto|].
  split; [lra|]. split; [lra|]. split; [lra|]. split; auto. intros r _. lra.
Qed.

(** ** The objective *)
Lemma obj_sum_qdot lp obj c x : length x = length obj -> obj_sum (glpk_problem lp obj c) x == qdot obj x.
Proof.
  unfold obj_sum. cbn [glpk_problem gp_cols]. rewrite map_map. cbn [gc_obj]. revert x.
  induction obj as [|a obj IH]; intros [|b x] L; cbn in L; try lia; cbn [map combine fold_right qdot fst snd]; [reflexivity|]. specialize (IH x ltac:(lia)). lra.
Qed.
Lemma obj_weight_weight lp obj c : obj_weight (glpk_problem lp obj c) == weight obj.
Proof.
  unfold obj_weight. cbn [glpk_problem gp_cols]. induction obj as [|a obj IH]; cbn [map fold_right weight gc_obj]; [reflexivity|]. fold (weight obj). rewrite IH. reflexivity.
Qed.

Lemma mem_point lp obj c y : wf_cst c -> length obj = (ncols c - 1)%nat -> mem c y -> (forall v, In v y -> (0 <= v)%Z) -> gp_point (glpk_problem lp obj c) (zpoint y) /\ whole (glpk_problem lp obj c) (zpoint y).
Proof.
  intros W LO M N. pose proof (proj1 W) as W1. assert (length y = ncols c - 1)%nat as Ly by (pose proof (proj1 M); lia). split; [split; [|split]|].
  - unfold zpoint. cbn [glpk_problem gp_cols]. rewrite !map_length. lia.
  - intros i Hi. unfold zpoint in Hi. rewrite map_length in Hi. cbn [glpk_problem gp_cols]. rewrite nth_cols_map by lia. cbn [gc_bnd in_bound].
    unfold zpoint. change 0 with (inject_Z 0) at 2. rewrite List.map_nth. change 0 with (inject_Z 0). rewrite <- Zle_Qle. apply N. apply nth_In. auto.
  - intros r Hr. cbn [glpk_problem gp_rows] in Hr. unfold glpk_rows in Hr. apply in_map_iff in Hr as (q & <- & Hq). cbn [gr_bnd gr_terms].
    pose proof (proj2 W q Hq) as Lq. pose proof (proj2 M q Hq) as Hh. unfold holds in Hh. rewrite aff_const in Hh by lia.
    assert (length (removelast (coef q)) = length (zpoint y)) as LL by (unfold zpoint; rewrite removelast_len, map_length; lia).
    pose proof (row_terms_sum _ _ LL) as E. rewrite qdot_zpoint in E.
    destruct (is_eq q); cbn [in_bound]; rewrite E; [f_equiv; lia|rewrite <- Zle_Qle; lia].
  - intros i Hi _. exists (nth i y 0%Z). unfold zpoint. change 0 with (inject_Z 0) at 1. rewrite List.map_nth. reflexivity.
Qed.

Lemma rounded_cost obj c v y : wf_cst c -> length obj = (ncols c - 1)%nat -> nearly_best (glpk_problem false obj c) v -> mem c y -> (forall u, In u y -> (0 <= u)%Z) ->
  (dot obj (map c_round v) <= dot obj y)%Z.
Proof.
  intros W LO (t & g & LV & NI & T0 & Ht & B & S1) M N. destruct (mem_point false obj c y W LO M N) as [P Wh]. specialize (B _ P Wh).
  pose proof (proj1 W) as W1. assert (length y = ncols c - 1)%nat as Ly by (pose proof (proj1 M); lia).
  cbn [glpk_problem gp_cols] in LV. rewrite map_length in LV.
  rewrite !obj_sum_qdot in B by (unfold zpoint; rewrite ?map_length; lia). rewrite obj_weight_weight in S1. rewrite qdot_zpoint in B.
  assert (forall i, (i < length v)%nat -> Qabs (nth i (zpoint (map c_round v)) 0 - nth i v 0) <= t) as Cl.
  { intros i Hi. unfold zpoint. rewrite map_map. rewrite (nth_indep _ 0 ((fun u => inject_Z (c_round u)) 0)) by (rewrite map_length; lia). rewrite (List.map_nth (fun u => inject_Z (c_round u))).
    destruct (NI i) as (z & Hz); [cbn [glpk_problem gp_cols]; rewrite map_length; lia|cbn [glpk_problem gp_cols]; rewrite nth_cols_map by lia; reflexivity|].
    rewrite (c_round_near _ _ _ Hz Ht). apply Qabs_Qle_condition in Hz. apply Qabs_Qle_condition. lra. }
  pose proof (qdot_close obj (zpoint (map c_round v)) v t ltac:(unfold zpoint; rewrite !map_length; auto) T0 ltac:(intros i Hi _; apply Cl; lia)) as K.
  rewrite qdot_zpoint in K. apply Qabs_Qle_condition in K as [K1 K2].
  apply Z.lt_succ_r. rewrite Zlt_Qlt. unfold Z.succ. rewrite inject_Z_plus. change (inject_Z 1) with 1. lra.
Qed.

(** ** Certificates *)
Definition psum (a x : list Q) : Q := fold_right (fun t s => fst t * snd t + s) 0 (combine a x).
Definition add_at (k : nat) (d : Q) (a : list Q) : list Q := set_nth k (Qred (nth k a 0 + d)) a.
Lemma psum_add_at d x : forall a k, length x = length a -> (k < length a)%nat -> psum (add_at k d a) x == psum a x + d * nth k x 0.
Proof.
  unfold add_at. induction x as [|b x IH]; intros [|c a] k L K; cbn in L, K; try lia. destruct k as [|k].
  - cbn [nth set_nth psum combine fold_right fst snd]. fold (psum a x). rewrite Qred_correct. lra.
  - cbn [nth set_nth psum combine fold_right fst snd]. fold (psum a x). fold (psum (set_nth k (Qred (nth k a 0 + d)) a) x). rewrite IH by lia. lra.
Qed.
Lemma add_at_length k d a : length (add_at k d a) = length a.
Proof. unfold add_at. apply set_nth_length. Qed.

Definition reduce_row (lam : Q) (l : list (nat * Q)) (a : list Q) : list Q := fold_left (fun a t => add_at (fst t - 1) (- lam * snd t) a) l a.
Lemma reduce_row_sum lam x l : forall a, length x = length a -> (forall t, In t l -> (1 <= fst t <= length a)%nat) ->
  length (reduce_row lam l a) = length a /\ psum (reduce_row lam l a) x == psum a x - lam * term_sum l x.
Proof.
  induction l as [|t l IH]; intros a L H; cbn [reduce_row fold_left term_sum fold_right]; [split; auto; lra|]. fold (term_sum l x).
  destruct (IH (add_at (fst t - 1) (- lam * snd t) a)) as [A B]; [rewrite add_at_length; auto|intros q Hq; rewrite add_at_length; apply H; right; auto|].
  unfold reduce_row in A, B. rewrite A, B, add_at_length. split; auto. rewrite psum_add_at; [lra|auto|]. specialize (H t (or_introl eq_refl)). lia.
Qed.
Definition reduce_all (ps : list (Q * grow)) (a : list Q) : list Q := fold_left (fun a p => reduce_row (fst p) (gr_terms (snd p)) a) ps a.
Definition dual_sum (ps : list (Q * grow)) (x : list Q) : Q := fold_right (fun p s => fst p * term_sum (gr_terms (snd p)) x + s) 0 ps.
Lemma reduce_all_sum x ps : forall a, length x = length a -> (forall p t, In p ps -> In t (gr_terms (snd p)) -> (1 <= fst t <= length a)%nat) ->
  length (reduce_all ps a) = length a /\ psum (reduce_all ps a) x == psum a x - dual_sum ps x.
Proof.
  induction ps as [|p ps IH]; intros a L H; cbn [reduce_all fold_left dual_sum fold_right]; [split; auto; lra|]. fold (dual_sum ps x).
  destruct (reduce_row_sum (fst p) x (gr_terms (snd p)) a L) as [A B]; [intros t Ht; apply (H p t); simpl; auto|].
  destruct (IH (reduce_row (fst p) (gr_terms (snd p)) a)) as [C D]; [congruence|intros q t Hq Ht; rewrite A; apply (H q t); simpl; auto|].
  unfold reduce_all in C, D. rewrite C, D, A, B. split; auto. lra.
Qed.

Definition in_boundb (b : gbound) (v : Q) : bool := match b with GLP_LO l => Qle_bool l v | GLP_FX f => Qeq_bool v f end.
Lemma in_boundb_ok b v : in_boundb b v = true -> in_bound b v.
Proof. destruct b; cbn; [apply Qle_bool_iff|apply Qeq_bool_iff]. Qed.
Definition bound_val (b : gbound) : Q := match b with GLP_LO l => l | GLP_FX f => f end.
(** The multiplier fits the bound. *)
Definition sign_ok (b : gbound) (m : Q) : bool := match b with GLP_LO _ => Qle_bool 0 m | GLP_FX _ => true end.
Lemma sign_ok_le b m v : sign_ok b m = true -> in_bound b v -> m * bound_val b <= m * v.
Proof.
  destruct b as [l|f]; cbn; intros H I.
  - apply Qle_bool_iff in H. assert (0 <= m * (v - l)) by (apply Qmult_le_0_compat; lra). lra.
  - rewrite I. lra.
Qed.

Definition point_ok (p : gprob) (x : list Q) : bool :=
  (length x =? length (gp_cols p))%nat
  && forallb (fun q => in_boundb (gc_bnd (fst q)) (snd q)) (combine (gp_cols p) x)
  && forallb (fun r => in_boundb (gr_bnd r) (term_sum (gr_terms r) x)) (gp_rows p).
Lemma point_ok_ok p x : point_ok p x = true -> gp_point p x.
Proof.
  intros H. unfold point_ok in H. rewrite !andb_true_iff, !forallb_forall, Nat.eqb_eq in H. destruct H as [[L C] R]. split; auto. split.
  - intros i Hi. apply in_boundb_ok. apply (C (nth i (gp_cols p) (mkGcol (GLP_FX 0) false 0), nth i x 0)). apply nth_combine_in; lia.
  - intros r Hr. apply in_boundb_ok. auto.
Qed.
Definition whole_ok (p : gprob) (x : list Q) : bool := forallb (fun q => negb (gc_int (fst q)) || Qeq_bool (snd q) (inject_Z (Qfloor (snd q)))) (combine (gp_cols p) x).
Lemma whole_ok_ok p x : length x = length (gp_cols p) -> whole_ok p x = true -> whole p x.
Proof.
  intros L H i Hi E. unfold whole_ok in H. rewrite forallb_forall in H.
  specialize (H (nth i (gp_cols p) (mkGcol (GLP_FX 0) false 0), nth i x 0) ltac:(apply nth_combine_in; lia)). cbn [fst snd] in H. rewrite E in H. cbn [negb orb] in H.
  apply Qeq_bool_iff in H. eauto.
Qed.
Definition cut_ok (x : list Q) : bool := forallb (fun v => is_used v || match v with Qmake 0 1 => true | _ => false end) x.
Lemma cut_ok_ok x : cut_ok x = true -> map cut x = x.
Proof.
  intros H. unfold cut_ok in H. rewrite forallb_forall in H. rewrite <- (map_id x) at 2. apply map_ext_in. intros v Hv. specialize (H v Hv).
  rewrite cut_used. destruct (is_used v); auto. cbn [orb] in H. destruct v as [[|n|n] [d|d|]]; try discriminate. reflexivity.
Qed.

Definition optimal_ok (p : gprob) (x lam : list Q) : bool :=
  let n := length (gp_cols p) in
  let ps := combine lam (gp_rows p) in
  let a := reduce_all ps (map gc_obj (gp_cols p)) in
  (length lam =? length (gp_rows p))%nat
  && forallb (fun r => forallb (fun t => (1 <=? fst t)%nat && (fst t <=? n)%nat) (gr_terms r)) (gp_rows p)
  && forallb (fun q => sign_ok (gr_bnd (snd q)) (fst q)) ps
  && forallb (fun q => sign_ok (gc_bnd (fst q)) (snd q)) (combine (gp_cols p) a)
  && Qeq_bool (obj_sum p x) (fold_right (fun q s => fst q * bound_val (gr_bnd (snd q)) + s) 0 ps + fold_right (fun q s => snd q * bound_val (gc_bnd (fst q)) + s) 0 (combine (gp_cols p) a)).

Lemma optimal_ok_ok p x lam : optimal_ok p x lam = true -> forall y, gp_point p y -> obj_sum p x <= obj_sum p y.
Proof.
  intros H y (L & C & R). unfold optimal_ok in H. cbv zeta in H. rewrite !andb_true_iff in H. destruct H as [[[[H1 H2] H3] H4] H5]. apply Nat.eqb_eq in H1.
  set (ps := combine lam (gp_rows p)) in *. set (a := reduce_all ps (map gc_obj (gp_cols p))) in *. apply Qeq_bool_iff in H5. rewrite H5. clear H5.
  rewrite forallb_forall in H2, H3, H4.
  destruct (reduce_all_sum y ps (map gc_obj (gp_cols p))) as [LA SA]; [rewrite map_length; auto|intros q t Hq Ht|].
  { destruct q as [m r]. apply in_combine_r in Hq. specialize (H2 r Hq). rewrite forallb_forall in H2. specialize (H2 t Ht). apply andb_true_iff in H2 as [A B].
    apply Nat.leb_le in A, B. rewrite map_length. auto. }
  fold a in LA, SA. rewrite map_length in LA. unfold obj_sum. fold (psum (map gc_obj (gp_cols p)) y).
  assert (psum (map gc_obj (gp_cols p)) y == dual_sum ps y + psum a y) as -> by lra.
  assert (fold_right (fun q s => fst q * bound_val (gr_bnd (snd q)) + s) 0 ps <= dual_sum ps y) as D1.
  { assert (forall q, In q ps -> In (snd q) (gp_rows p)) as I by (intros [m r] Hq; apply in_combine_r in Hq; auto).
    clear - H3 R I. induction ps as [|q ps IH]; cbn [fold_right dual_sum]; [lra|]. fold (dual_sum ps y).
    specialize (IH ltac:(intros z Hz; apply H3; simpl; auto) ltac:(intros z Hz; apply I; simpl; auto)).
    pose proof (sign_ok_le _ _ _ (H3 q (or_introl eq_refl)) (R (snd q) (I q (or_introl eq_refl)))). lra. }
  assert (fold_right (fun q s => snd q * bound_val (gc_bnd (fst q)) + s) 0 (combine (gp_cols p) a) <= psum a y) as D2; [|lra].
  clearbody a. clear - H4 C L LA. revert a y L LA H4 C. generalize (gp_cols p) as cols. induction cols as [|c cols IH]; intros [|m a] [|v y] L LA H4 C; cbn in L, LA; try lia; cbn [combine fold_right psum].
  - lra.
  - fold (psum a y). specialize (IH a y ltac:(lia) ltac:(lia) ltac:(intros z Hz; apply H4; simpl; auto) ltac:(intros i Hi; apply (C (S i)); cbn; lia)).
    pose proof (sign_ok_le _ _ _ (H4 (c, m) (or_introl eq_refl)) (C 0%nat ltac:(cbn; lia))) as K. cbn [fst snd nth] in *. lra.
Qed.

(** GLPK as a list of solutions with certificates of their optimality. *)
Definition answer_ok (p : gprob) (c : list Q * list Q) : bool := point_ok p (fst c) && whole_ok p (fst c) && cut_ok (fst c) && optimal_ok p (fst c) (snd c).
Definition cert_glpk (cands : list (list Q * list Q)) (tol : Q) (p : gprob) : ganswer :=
  match find (answer_ok p) cands with
  | Some c => mkAns GLP_OPT GLP_OPT (fst c)
  | None => mkAns GLP_UNDEF GLP_UNDEF []
  end.
Lemma cert_exact cands : exact_answers (cert_glpk cands).
Proof.
  intros tol p. cbv zeta. unfold cert_glpk. destruct (find (answer_ok p) cands) as [c|] eqn:F; [right|left; auto]. cbn [a_lp a_mip a_val].
  apply find_some in F as [_ F]. unfold answer_ok in F. rewrite !andb_true_iff in F. destruct F as [[[F1 F2] F3] F4].
  pose proof (point_ok_ok _ _ F1) as P. split; auto. split; auto. split; auto. split; [apply whole_ok_ok; auto; apply P|]. split; [apply cut_ok_ok; auto|].
  intros x Hx _. apply (optimal_ok_ok p _ _ F4 x Hx).
Qed.
