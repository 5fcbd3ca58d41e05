(** * Proofs about the stencil test. *)
From Coq Require Import ZArith QArith List Bool Arith Lia Lqa Setoid.
From Verif Require Import SpecLinear SpecMatrix VecProofs MathModel ConstraintsModel EditProofs FarkasProofs SumProofs SpecProg SpecTile SpecStencil FrameworkModel FrameworkProofs DepProofs
  ProgModel ProgProofs DriverModel HypProofs DriverProofs LoopModel ConeModel DfpProofs StencilModel.
Import ListNotations.

(** ** The lower bounds of one dependence *)
Open Scope Q_scope.

Lemma phi_lower_ncols n q same : mncols (phi_lower n q same) = if same then (q + 1 + (n + 1) + 1)%nat else (q + 1 + 2 * (n + 1) + 1)%nat.
Proof. reflexivity. Qed.

Lemma phi_lower_wf dom n q same : ncols dom = (2 * n + q + 1)%nat -> wf_phi dom (phi_lower n q same).
Proof.
  intros H. unfold wf_phi. split; [|split].
  - intros r Hr. unfold phi_lower, mat_of in Hr. simpl in Hr. apply in_map_iff in Hr as (i & <- & _).
    rewrite map_length, seq_length. reflexivity.
  - unfold phi_lower, mat_of, mnrows. cbn [mrows]. rewrite map_length, seq_length. auto.
  - rewrite phi_lower_ncols. destruct same; lia.
Qed.

Lemma phi_lower_same n q u h s t p : length u = (q + 1)%nat -> length h = S n ->
  length s = n -> length t = n -> length p = q ->
  form_val (mrows (phi_lower n q true)) (u ++ h) (s ++ t ++ p) == bound_val q u p + (hval h t - hval h s).
Proof.
  intros Hu Hh Hs Ht Hp. unfold phi_lower. cbv zeta.
  rewrite form_val_mat by (rewrite ?app_length; lia).
  replace (q + 1 + (n + 1) + 1 - 1)%nat with (q + 1 + S n)%nat by lia.
  replace (2 * n + q + 1)%nat with (n + (n + (q + 1)))%nat by lia.
  rewrite qsum_app, qsum_app, qsum_app.
  rewrite (qsum_ext n _ (fun i => - (nth i h 0 * nth i s 0))).
  2: { intros i Hi. natcase. rewrite (nth_stp1 _ _ _ n q) by auto. rewrite qsum_delta by lia.
       rewrite app_nth2 by lia. replace (q + 1 + i - length u)%nat with i by lia. rewrite inject_m1, inject_Z_0. ring. }
  rewrite (qsum_ext n (fun i => _ * nth (n + i) _ _) (fun i => nth i h 0 * nth i t 0)).
  2: { intros i Hi. natcase. rewrite (nth_stp2 _ _ _ n q) by auto.
       rewrite qsum_delta by lia.
       rewrite app_nth2 by lia. replace (q + 1 + (n + i - n) - length u)%nat with i by lia. rewrite inject_Z_1, inject_Z_0. ring. }
  rewrite (qsum_ext q _ (fun i => nth i u 0 * nth i p 0)).
  2: { intros i Hi. natcase. rewrite (nth_stp3 _ _ _ n q) by auto.
       rewrite qsum_delta by lia. rewrite app_nth1 by lia.
       replace (n + (n + i) - 2 * n)%nat with i by lia. rewrite inject_Z_1, inject_Z_0. ring. }
  rewrite qsum_single. rewrite Nat.add_0_r. rewrite (nth_stp4 _ _ _ n q) by auto.
  natcase.
  rewrite qsum_delta by lia. rewrite app_nth1 by lia.
  rewrite (hval_sum h t n), (hval_sum h s n), (bound_val_sum q) by (auto; lia).
  rewrite inject_Z_1, inject_Z_0, qsum_opp. ring.
Qed.

Lemma phi_lower_diff n q u hs ht s t p : length u = (q + 1)%nat -> length hs = S n -> length ht = S n ->
  length s = n -> length t = n -> length p = q ->
  form_val (mrows (phi_lower n q false)) (u ++ hs ++ ht) (s ++ t ++ p) == bound_val q u p + (hval ht t - hval hs s).
Proof.
  intros Hu Hh Hh' Hs Ht Hp. unfold phi_lower. cbv zeta.
  rewrite form_val_mat by (rewrite ?app_length; lia).
  replace (q + 1 + 2 * (n + 1) + 1 - 1)%nat with (q + 1 + (S n + S n))%nat by lia.
  replace (2 * n + q + 1)%nat with (n + (n + (q + 1)))%nat by lia.
  rewrite qsum_app, qsum_app, qsum_app.
  assert (forall i, (i < S n)%nat -> nth (q + 1 + i) (u ++ hs ++ ht) 0 = nth i hs 0) as E1.
  { intros i Hi. rewrite app_nth2 by lia. rewrite app_nth1 by lia. f_equal. lia. }
  assert (forall i, (i < S n)%nat -> nth (q + 1 + (n + 1) + i) (u ++ hs ++ ht) 0 = nth i ht 0) as E2.
  { intros i Hi. rewrite app_nth2 by lia. rewrite app_nth2 by lia. f_equal. lia. }
  rewrite (qsum_ext n _ (fun i => - (nth i hs 0 * nth i s 0))).
  2: { intros i Hi. natcase. rewrite (nth_stp1 _ _ _ n q) by auto. rewrite qsum_delta by lia.
       rewrite E1 by lia. rewrite inject_m1, inject_Z_0. ring. }
  rewrite (qsum_ext n (fun i => _ * nth (n + i) _ _) (fun i => nth i ht 0 * nth i t 0)).
  2: { intros i Hi. natcase. rewrite (nth_stp2 _ _ _ n q) by auto.
       rewrite qsum_delta by lia. rewrite E2 by lia. replace (n + i - n)%nat with i by lia. rewrite inject_Z_1, inject_Z_0. ring. }
  rewrite (qsum_ext q _ (fun i => nth i u 0 * nth i p 0)).
  2: { intros i Hi. natcase. rewrite (nth_stp3 _ _ _ n q) by auto.
       rewrite qsum_delta by lia. rewrite app_nth1 by lia.
       replace (n + (n + i) - 2 * n)%nat with i by lia. rewrite inject_Z_1, inject_Z_0. ring. }
  rewrite qsum_single. rewrite Nat.add_0_r. rewrite (nth_stp4 _ _ _ n q) by auto.
  natcase.
  rewrite qsum_delta3 by lia. rewrite E1, E2 by lia. rewrite app_nth1 by lia.
  rewrite (hval_sum ht t n), (hval_sum hs s n), (bound_val_sum q) by (auto; lia).
  rewrite inject_Z_1, inject_Z_0, inject_m1, qsum_opp. ring.
Qed.

(** All distances are at least - (u.p + w). *)
Definition bounded_below (pr : prog) (d : dep) (c : qpoint) : Prop :=
  forall s t p, length s = p_nvar pr -> length t = p_nvar pr -> length p = p_npar pr ->
    qmem (d_bpoly d) (s ++ t ++ p) ->
    - bound_val (p_npar pr) c p <=
    hval (hyp_of (p_nvar pr) (p_npar pr) c (d_dst d)) t - hval (hyp_of (p_nvar pr) (p_npar pr) c (d_src d)) s.

Lemma lower_form pr d c s t p : S (length c) = cst_width pr -> wf_dep pr d ->
  length s = p_nvar pr -> length t = p_nvar pr -> length p = p_npar pr ->
  form_val (mrows (phi_lower (p_nvar pr) (p_npar pr) (FrameworkModel.same_stmt d))) (FrameworkProofs.local pr d (p_npar pr + 1) c) (s ++ t ++ p) ==
  bound_val (p_npar pr) c p +
  (hval (hyp_of (p_nvar pr) (p_npar pr) c (d_dst d)) t
   - hval (hyp_of (p_nvar pr) (p_npar pr) c (d_src d)) s).
Proof.
  intros Hc (H1 & H2 & _) Hs Ht Hp. unfold FrameworkProofs.local. rewrite <- (bound_val_firstn (p_npar pr) c p).
  assert (length (firstn (p_npar pr + 1) c) = p_npar pr + 1)%nat as Lu.
  { rewrite firstn_length_le; auto. unfold cst_width in Hc. lia. }
  destruct (FrameworkModel.same_stmt d) eqn:E.
  - rewrite app_nil_r. unfold same_stmt in E. apply Nat.eqb_eq in E. rewrite <- E.
    apply phi_lower_same; auto. apply hyp_of_length; auto.
  - apply phi_lower_diff; auto; apply hyp_of_length; auto.
Qed.

Lemma lower_ncols pr d : padded_dep pr d ->
  wf_cst (lower_func_cst pr d) /\
  ncols (lower_func_cst pr d) = S (p_npar pr + 1 + (if FrameworkModel.same_stmt d then p_nvar pr + 1 else 2 * p_nvar pr + 2)).
Proof.
  intros [W N]. pose proof W as (_ & _ & Wp & _ & Wb & Nb).
  destruct (farkas_wf (d_bpoly d) (phi_lower (p_nvar pr) (p_npar pr) (FrameworkModel.same_stmt d))) as [A B]; auto.
  { apply phi_lower_wf. lia. }
  split; auto. unfold lower_func_cst. rewrite B, phi_lower_ncols. destruct (FrameworkModel.same_stmt d); lia.
Qed.

Lemma lower_sound pr d c : padded_dep pr d -> S (length c) = cst_width pr ->
  qmem (dep_lower_cst pr d) c -> bounded_below pr d c.
Proof.
  intros P Hc H. destruct (lower_ncols pr d P) as [A B]. destruct P as [W N].
  apply scatter_qmem in H; auto.
  intros s t p Hs Ht Hp Hm. pose proof W as (_ & _ & Wp & _ & Wb & Nb).
  assert (wf_phi (d_bpoly d) (phi_lower (p_nvar pr) (p_npar pr) (FrameworkModel.same_stmt d))) as Wphi by (apply phi_lower_wf; lia).
  pose proof (farkas_sound _ _ _ Wb Wphi H _ Hm) as K.
  rewrite (lower_form pr d c s t p Hc W Hs Ht Hp) in K. lra.
Qed.

Lemma lower_complete pr d c : padded_dep pr d -> S (length c) = cst_width pr ->
  (exists x, qmem (d_bpoly d) x) -> bounded_below pr d c -> qmem (dep_lower_cst pr d) c.
Proof.
  intros P Hc Hne H. destruct (lower_ncols pr d P) as [A B]. destruct P as [W N].
  apply scatter_qmem; auto. pose proof W as (_ & _ & Wp & _ & Wb & Nb).
  apply farkas_complete; auto.
  - apply phi_lower_wf; lia.
  - rewrite local_length by (auto; lia). rewrite phi_lower_ncols. destruct (FrameworkModel.same_stmt d); lia.
  - intros x Hx. destruct (split3 x (p_nvar pr) (p_nvar pr) (p_npar pr)) as (s & t & p & -> & Hs & Ht & Hp).
    { destruct Hx as [Hx _]. lia. }
    rewrite (lower_form pr d c s t p Hc W Hs Ht Hp). specialize (H s t p Hs Ht Hp Hx). lra.
Qed.

(** With u = 0 the bound is w. *)
Lemma qsum_zero n f : (forall i, (i < n)%nat -> f i == 0) -> qsum n f == 0.
Proof.
  intros H. rewrite (qsum_ext n f (fun _ => 0)) by auto. clear H.
  induction n as [|n IH]; [reflexivity|]. replace (S n) with (n + 1)%nat by lia. rewrite qsum_app, IH, qsum_single. ring.
Qed.

Lemma bound_val_w pr x p : (p_npar pr < length x)%nat -> length p = p_npar pr ->
  (forall i, (i < p_npar pr)%nat -> nth i x 0%Z = 0%Z) -> bound_val (p_npar pr) (zpoint x) p == inject_Z (nth (p_npar pr) x 0%Z).
Proof.
  intros L Lp Z0. rewrite bound_val_sum by (rewrite ?zpoint_length; auto).
  rewrite qsum_zero.
  - unfold zpoint. change 0 with (inject_Z 0). rewrite List.map_nth. change (inject_Z 0) with 0. ring.
  - intros i Hi. unfold zpoint. change 0 with (inject_Z 0) at 1. rewrite List.map_nth, Z0 by auto. change (inject_Z 0) with 0. ring.
Qed.

Lemma hyp_zpoint pr x s : hyp_of (p_nvar pr) (p_npar pr) (zpoint x) s = zpoint (zhyp pr x s).
Proof. unfold hyp_of, zhyp. rewrite zpoint_firstn, zpoint_skipn. auto. Qed.

Lemma short_dep pr d x : padded_dep pr d -> S (length x) = cst_width pr -> (exists y, qmem (d_bpoly d) y) ->
  (forall i, (i < p_npar pr)%nat -> nth i x 0%Z = 0%Z) ->
  (mem (dep_bounding_cst pr d) x /\ mem (dep_lower_cst pr d) x <-> short pr (zhyp pr x) (nth (p_npar pr) x 0%Z) d).
Proof.
  intros P L NE Z0. assert (p_npar pr < length x)%nat as Lp by (unfold cst_width in L; lia).
  rewrite <- !qmem_zpoint. assert (S (length (zpoint x)) = cst_width pr) as L' by (rewrite zpoint_length; auto). split.
  - intros [B W]. apply bound_sound in B; auto. apply lower_sound in W; auto. intros s t p Hs Ht Hp M.
    specialize (B s t p Hs Ht Hp M). specialize (W s t p Hs Ht Hp M). rewrite bound_val_w in B, W by auto. rewrite !hyp_zpoint in *. split; auto.
  - intros S. split.
    + apply bound_complete; auto. intros s t p Hs Ht Hp M. rewrite bound_val_w by auto. rewrite !hyp_zpoint. apply (S s t p Hs Ht Hp M).
    + apply lower_complete; auto. intros s t p Hs Ht Hp M. rewrite bound_val_w by auto. rewrite !hyp_zpoint. apply (S s t p Hs Ht Hp M).
Qed.
Close Scope Q_scope.
Open Scope Z_scope.

(** ** The systems *)

Lemma scatter_is_wf pr d base cc : wf_cst (scatter pr d base cc) /\ ncols (scatter pr d base cc) = cst_width pr.
Proof. split; [|reflexivity]. apply (scatter_wf pr d base cc). auto. Qed.

Lemma acc_some (f : dep -> cst) base n l : forall c, wf_cst c -> ncols c = n -> (forall d, wf_cst (f d) /\ ncols (f d) = n) ->
  exists c', fold_left (fun acc d => Some (cst_add (match acc with Some c => c | None => base end) (f d))) l (Some c) = Some c' /\
    wf_cst c' /\ ncols c' = n /\ forall x, mem c' x <-> mem c x /\ forall d, In d l -> mem (f d) x.
Proof.
  induction l as [|d l IH]; intros c W N F; cbn [fold_left].
  - exists c. split; [auto|]. split; [auto|]. split; [auto|]. intros x. simpl. intuition.
  - destruct (F d) as [Wd Nd]. destruct (DriverProofs.cst_add_wf c (f d) W Wd ltac:(congruence)) as [W1 N1].
    destruct (IH (cst_add c (f d))) as (c' & E & W' & N' & M); auto. exists c'. split; [auto|]. split; [auto|]. split; [auto|].
    intros x. rewrite M. rewrite cst_add_mem by congruence. simpl. split.
    + intros [[A B] C]. split; auto. intros d' [<-|H]; auto.
    + intros [A B]. split; auto.
Qed.

Lemma acc_fold (f : dep -> cst) base n l : wf_cst base -> ncols base = n -> (forall d, wf_cst (f d) /\ ncols (f d) = n) -> l <> [] ->
  exists c', fold_left (fun acc d => Some (cst_add (match acc with Some c => c | None => base end) (f d))) l None = Some c' /\
    wf_cst c' /\ ncols c' = n /\ forall x, mem c' x <-> mem base x /\ forall d, In d l -> mem (f d) x.
Proof.
  intros W N F NE. destruct l as [|d l]; [tauto|]. cbn [fold_left]. destruct (F d) as [Wd Nd].
  destruct (DriverProofs.cst_add_wf base (f d) W Wd ltac:(congruence)) as [W1 N1].
  destruct (acc_some f base n l (cst_add base (f d))) as (c' & E & W' & N' & M); auto. exists c'. split; [auto|]. split; [auto|]. split; [auto|].
  intros x. rewrite M. rewrite cst_add_mem by congruence. simpl. split.
  - intros [[A B] C]. split; auto. intros d' [<-|H]; auto.
  - intros [A B]. split; auto.
Qed.

Lemma universe_ok n : (0 < n)%nat -> wf_cst (universe n) /\ ncols (universe n) = n.
Proof. intros H. split; [split; [exact H|intros r []]|reflexivity]. Qed.

Lemma width_pos pr : (p_npar pr + 2 <= cst_width pr)%nat.
Proof. unfold cst_width. lia. Qed.

Lemma scc_bound_spec pr scc : scc_deps pr scc <> [] ->
  exists c, get_dep_distance_bounding_constraints_for_scc scc pr = Some c /\ wf_cst c /\ ncols c = cst_width pr /\
    forall x, mem c x <-> S (length x) = cst_width pr /\ forall d, In d (scc_deps pr scc) -> mem (dep_bounding_cst pr d) x.
Proof.
  intros NE. pose proof (width_pos pr) as Wp. destruct (universe_ok (cst_width pr)) as [W N]; [lia|].
  destruct (acc_fold (dep_bounding_cst pr) (universe (cst_width pr)) (cst_width pr) (scc_deps pr scc) W N) as (c & E & Wc & Nc & M); auto.
  { intros d. apply scatter_is_wf. }
  exists c. split; [exact E|]. split; [auto|]. split; [auto|]. intros x. rewrite M. unfold mem at 1. cbn [universe ncols rows]. simpl. intuition.
Qed.

Lemma scc_lower_spec pr scc : scc_deps pr scc <> [] ->
  exists c, get_dep_dist_lower_bound_constraints_for_scc scc pr = Some c /\ wf_cst c /\ ncols c = cst_width pr /\
    forall x, mem c x <-> S (length x) = cst_width pr /\ forall d, In d (scc_deps pr scc) -> mem (dep_lower_cst pr d) x.
Proof.
  intros NE. pose proof (width_pos pr) as Wp.
  assert (wf_cst (add_inequality (universe (cst_width pr)))) as W.
  { split; [cbn; lia|]. cbn [add_inequality add_zero_row universe rows ncols app]. intros r [<-|[]]. apply repeat_length. }
  destruct (acc_fold (dep_lower_cst pr) (add_inequality (universe (cst_width pr))) (cst_width pr) (scc_deps pr scc) W eq_refl) as (c & E & Wc & Nc & M); auto.
  { intros d. apply scatter_is_wf. }
  exists c. split; [exact E|]. split; [auto|]. split; [auto|]. intros x. rewrite M.
  assert (mem (add_inequality (universe (cst_width pr))) x <-> S (length x) = cst_width pr) as ->; [|reflexivity].
  unfold mem. cbn [add_inequality add_zero_row universe ncols rows app]. split; [tauto|]. intros L. split; [auto|]. intros r [<-|[]].
  unfold holds, aff. cbn [is_eq coef]. rewrite dot_repeat0_l. lia.
Qed.

Lemma eqs_spec l : forall c, wf_cst c -> (forall i, In i l -> (i < ncols c - 1)%nat) ->
  let c' := fold_left (fun c i => set_last i 1 (add_equality c)) l c in
  wf_cst c' /\ ncols c' = ncols c /\ forall x, mem c' x <-> mem c x /\ forall i, In i l -> nth i x 0 = 0.
Proof.
  induction l as [|i l IH]; intros c W H; cbn [fold_left].
  - split; auto. split; auto. intros x. simpl. intuition.
  - destruct (eq0_wf c i W) as [W1 N1]. destruct (IH (set_last i 1 (add_equality c)) W1) as (A & B & C).
    { intros j Hj. rewrite N1. apply H. simpl; auto. }
    split; [exact A|]. split; [rewrite B; exact N1|]. intros x. rewrite C. rewrite eq0_mem by (apply H; simpl; auto). simpl.
    split; [intros [[K1 K2] K3]; split; auto; intros j [<-|Hj]; auto|intros [K1 K2]; split; [split|]; auto].
Qed.

Lemma coeff_spec pr : wf_cst (stencil_coeff_bounds pr) /\ ncols (stencil_coeff_bounds pr) = cst_width pr /\
  forall x, mem (stencil_coeff_bounds pr) x <->
    S (length x) = cst_width pr /\ (forall i, (i < p_npar pr)%nat -> nth i x 0 = 0) /\
    (forall i, (p_npar pr <= i < length x)%nat -> 0 <= nth i x 0) /\ nth (p_npar pr) x 0 <= 10.
Proof.
  unfold stencil_coeff_bounds. cbv zeta. pose proof (width_pos pr) as Wp. set (w := cst_width pr) in *. clearbody w. set (q := p_npar pr) in *. clearbody q.
  destruct (universe_ok w) as [W N]; [lia|].
  destruct (fold_lb_wf (seq q (w - 1 - q)) 0 (universe w) W) as [W1 N1].
  assert (forall x, mem (fold_left (fun c i => add_lb c i 0) (seq q (w - 1 - q)) (universe w)) x <->
    mem (universe w) x /\ forall i, In i (seq q (w - 1 - q)) -> 0 <= nth i x 0) as M1.
  { intros x. apply fold_lb. intros i Hi. apply in_seq in Hi. cbn. lia. }
  set (lbs := fold_left (fun c i => add_lb c i 0) _ _) in *. clearbody lbs.
  destruct (eqs_spec (seq 0 q) lbs W1) as (W2 & N2 & M2).
  { intros i Hi. apply in_seq in Hi. rewrite N1, N. lia. }
  cbv zeta in *. set (eqs := fold_left (fun c i => set_last i 1 (add_equality c)) _ _) in *. clearbody eqs.
  assert (ncols eqs = w) as N3 by congruence.
  destruct (fold_ub_wf [q] MAX_SHORT_DEP_DISTANCE eqs W2) as [W4 N4]. cbn [fold_left] in W4, N4.
  split; [exact W4|]. split; [congruence|]. intros x. rewrite add_ub_mem by lia. rewrite M2, M1.
  unfold mem, universe, MAX_SHORT_DEP_DISTANCE; cbn [ncols rows]. split.
  - intros [[[[L _] A] B] C]. split; [auto|]. split; [intros i Hi; apply B; apply in_seq; lia|]. split; [intros i Hi; apply A; apply in_seq; lia|auto].
  - intros (L & A & B & C). split; [split; [split; [split; [auto|intros r []]|]|]|auto].
    + intros i Hi. apply in_seq in Hi. apply B. lia.
    + intros i Hi. apply in_seq in Hi. apply A. lia.
Qed.

Lemma dot_select (g : nat -> bool) (x : list Z) : forall k, (forall i, (i < length x)%nat -> g (k + i)%nat = true -> 0 <= nth i x 0) ->
  0 <= dot (map (fun j => if g j then 1 else 0) (seq k (length x))) x /\
  (1 <= dot (map (fun j => if g j then 1 else 0) (seq k (length x))) x <-> exists i, (i < length x)%nat /\ g (k + i)%nat = true /\ 1 <= nth i x 0).
Proof.
  induction x as [|v x IH]; intros k H; cbn [length seq map dot].
  - split; [lia|]. split; [lia|]. intros (i & Hi & _). lia.
  - destruct (IH (S k)) as [A B].
    { intros i Hi G. specialize (H (S i) ltac:(cbn; lia)). rewrite Nat.add_succ_r in H. cbn [nth] in H. auto. }
    pose proof (H 0%nat ltac:(cbn; lia)) as H0. rewrite Nat.add_0_r in H0. cbn [nth] in H0.
    assert (0 <= (if g k then 1 else 0) * v) as P0 by (destruct (g k); [specialize (H0 eq_refl)|]; lia).
    split; [lia|]. split.
    + intros L. destruct (Z_le_gt_dec 1 ((if g k then 1 else 0) * v)) as [L1|L1].
      * exists 0%nat. rewrite Nat.add_0_r. cbn [nth]. destruct (g k) eqn:E; [|lia]. split; [lia|]. split; [auto|lia].
      * destruct (proj1 B ltac:(lia)) as (i & Hi & G & V). exists (S i). rewrite Nat.add_succ_r. cbn [nth]. split; [lia|auto].
    + intros ([|i] & Hi & G & V).
      * rewrite Nat.add_0_r in G. cbn [nth] in V. rewrite G. lia.
      * rewrite Nat.add_succ_r in G. cbn [nth] in V. assert (1 <= dot (map (fun j => if g j then 1 else 0) (seq (S k) (length x))) x); [|lia].
        apply B. exists i. split; [lia|auto].
Qed.

Lemma block_bound pr s i : (s < length (p_stmts pr))%nat -> (i <= p_nvar pr)%nat -> (stmt_offset pr s + i < cst_width pr - 1)%nat.
Proof. intros Hs Hi. pose proof (offset_in pr s Hs). lia. Qed.

Lemma ortho_row_holds pr s f x : (s < length (p_stmts pr))%nat -> S (length x) = cst_width pr ->
  (forall i, (i < p_nvar pr)%nat -> 0 <= nth (stmt_offset pr s + i) x 0) ->
  (holds x (ortho_row pr s f) <-> exists i, (i < p_nvar pr)%nat /\ nth i f 0 = 0 /\ 1 <= nth (stmt_offset pr s + i) x 0).
Proof.
  intros Hs L H. unfold ortho_row, holds, aff. cbn [is_eq coef].
  replace (cst_width pr - 1)%nat with (length x) by lia.
  set (g := fun j => (stmt_offset pr s <=? j)%nat && (j <? stmt_offset pr s + p_nvar pr)%nat && (nth (j - stmt_offset pr s) f 0 =? 0)).
  change (map _ (seq 0 (length x))) with (map (fun j => if g j then 1 else 0) (seq 0 (length x))).
  rewrite dot_app by (rewrite map_length, seq_length; auto). cbn [dot].
  destruct (dot_select g x 0) as [_ B].
  { intros i Hi G. unfold g in G. cbn [Nat.add] in G. apply andb_prop in G as [G _]. apply andb_prop in G as [G1 G2].
    apply Nat.leb_le in G1. apply Nat.ltb_lt in G2. replace i with (stmt_offset pr s + (i - stmt_offset pr s))%nat by lia. apply H. lia. }
  cbn [Nat.add] in B. rewrite <- (Z.sub_simpl_r (dot (map (fun j => if g j then 1 else 0) (seq 0 (length x))) x) 1) in B.
  split.
  - intros K. destruct (proj1 B ltac:(lia)) as (i & Hi & G & V). unfold g in G. apply andb_prop in G as [G Gf]. apply andb_prop in G as [G1 G2].
    apply Nat.leb_le in G1. apply Nat.ltb_lt in G2. apply Z.eqb_eq in Gf. exists (i - stmt_offset pr s)%nat. split; [lia|]. split; [auto|].
    replace (stmt_offset pr s + (i - stmt_offset pr s))%nat with i by lia. auto.
  - intros (i & Hi & Z0 & V). enough (1 <= dot (map (fun j => if g j then 1 else 0) (seq 0 (length x))) x) by lia.
    rewrite <- (Z.sub_simpl_r (dot _ _) 1). apply B. exists (stmt_offset pr s + i)%nat. pose proof (block_bound pr s i Hs ltac:(lia)). split; [lia|]. split; [|auto].
    unfold g. replace (stmt_offset pr s + i - stmt_offset pr s)%nat with i by lia. rewrite Z0. cbn [Z.eqb].
    destruct (Nat.leb_spec (stmt_offset pr s) (stmt_offset pr s + i)); [|lia]. destruct (Nat.ltb_spec (stmt_offset pr s + i) (stmt_offset pr s + p_nvar pr)); [auto|lia].
Qed.

Lemma face_eqs_spec pr s f l : (s < length (p_stmts pr))%nat -> (forall i, In i l -> (i < p_nvar pr)%nat) -> forall c, wf_cst c -> ncols c = cst_width pr ->
  let c' := fold_left (fun c i => if nth i f 0 =? 0 then c else set_last (stmt_offset pr s + i) 1 (add_equality c)) l c in
  wf_cst c' /\ ncols c' = cst_width pr /\ forall x, mem c' x <-> mem c x /\ forall i, In i l -> nth i f 0 <> 0 -> nth (stmt_offset pr s + i) x 0 = 0.
Proof.
  intros Hs. induction l as [|i l IH]; intros H c W N; cbn [fold_left].
  - split; auto. split; auto. intros x. simpl. intuition.
  - destruct (Z.eqb_spec (nth i f 0) 0) as [E|E].
    + destruct (IH ltac:(intros; apply H; simpl; auto) c W N) as (A & B & C). split; [exact A|]. split; [exact B|]. intros x. rewrite C. simpl.
      split; intros [K1 K2]; split; auto. intros j [<-|Hj]; [tauto|auto].
    + destruct (eq0_wf c (stmt_offset pr s + i) W) as [W1 N1].
      destruct (IH ltac:(intros; apply H; simpl; auto) _ W1 ltac:(congruence)) as (A & B & C). split; [exact A|]. split; [exact B|]. intros x. rewrite C.
      rewrite eq0_mem by (pose proof (block_bound pr s i Hs) as X; specialize (H i (or_introl eq_refl)); lia). simpl.
      split; [intros [[K1 K2] K3]; split; auto; intros j [<-|Hj]; auto|intros [K1 K2]; split; [split|]; auto].
Qed.

Lemma ortho_spec pr l : (forall p, In p l -> (fst p < length (p_stmts pr))%nat) ->
  wf_cst (orthocst pr l) /\ ncols (orthocst pr l) = cst_width pr /\
  forall x, S (length x) = cst_width pr -> (forall v, In v x -> 0 <= v) ->
    (mem (orthocst pr l) x <-> forall s f, In (s, f) l ->
      (exists i, (i < p_nvar pr)%nat /\ nth i f 0 = 0 /\ 1 <= nth (stmt_offset pr s + i) x 0) /\
      forall i, (i < p_nvar pr)%nat -> nth i f 0 <> 0 -> nth (stmt_offset pr s + i) x 0 = 0).
Proof.
  intros H. pose proof (width_pos pr) as Wp.
  set (base := mkCst (cst_width pr) (map (fun p => ortho_row pr (fst p) (snd p)) l)).
  assert (wf_cst base) as Wb.
  { split; [cbn; lia|]. cbn [base rows ncols]. intros r Hr. apply in_map_iff in Hr as (p & <- & _). unfold ortho_row. cbn [coef].
    rewrite app_length, map_length, seq_length. cbn. lia. }
  assert (forall l' c, (forall p, In p l' -> (fst p < length (p_stmts pr))%nat) -> wf_cst c -> ncols c = cst_width pr ->
    let c' := fold_left (fun c p =>
      fold_left (fun c i => if nth i (snd p) 0 =? 0 then c else set_last (stmt_offset pr (fst p) + i) 1 (add_equality c)) (seq 0 (p_nvar pr)) c) l' c in
    wf_cst c' /\ ncols c' = cst_width pr /\ forall x, mem c' x <-> mem c x /\ forall p, In p l' -> forall i, (i < p_nvar pr)%nat -> nth i (snd p) 0 <> 0 -> nth (stmt_offset pr (fst p) + i) x 0 = 0) as K.
  { induction l' as [|p l' IH]; intros c H' W N; cbn [fold_left].
    - split; auto. split; auto. intros x. simpl. intuition.
    - destruct (face_eqs_spec pr (fst p) (snd p) (seq 0 (p_nvar pr)) (H' p (or_introl eq_refl)) ltac:(intros i Hi; apply in_seq in Hi; lia) c W N) as (W1 & N1 & M1).
      cbv zeta in *. destruct (IH _ ltac:(intros; apply H'; simpl; auto) W1 N1) as (A & B & C). split; [exact A|]. split; [exact B|].
      intros x. rewrite C, M1. simpl. split.
      + intros [[K1 K2] K3]. split; [auto|]. intros p' [<-|Hp] i Hi NZ; [apply K2; auto; apply in_seq; lia|eapply K3; eauto].
      + intros [K1 K2]. split; [split; [auto|]|].
        * intros i Hi NZ. apply in_seq in Hi. apply (K2 p); auto; lia.
        * intros p' Hp. apply K2. auto. }
  destruct (K l base H Wb eq_refl) as (A & B & C). split; [exact A|]. split; [exact B|]. intros x L NN. unfold orthocst. fold base. rewrite C.
  assert (forall s i, (s < length (p_stmts pr))%nat -> (i < p_nvar pr)%nat -> 0 <= nth (stmt_offset pr s + i) x 0) as NN'.
  { intros s i Hs Hi. apply NN. apply nth_In. pose proof (block_bound pr s i Hs ltac:(lia)). lia. }
  split.
  - intros [[_ M] E] s f Hsf. pose proof (H (s, f) Hsf) as Hs. cbn [fst] in Hs. split.
    + apply (ortho_row_holds pr s f x Hs L); [intros; apply NN'; auto|]. apply M. cbn [base rows]. apply in_map_iff. exists (s, f). auto.
    + intros i Hi NZ. apply (E (s, f)); auto.
  - intros Q. split.
    + split; [exact L|]. cbn [base rows]. intros r Hr. apply in_map_iff in Hr as ([s f] & <- & Hp). pose proof (H (s, f) Hp) as Hs. cbn [fst snd] in *.
      apply (ortho_row_holds pr s f x Hs L); [intros; apply NN'; auto|]. apply Q. auto.
    + intros [s f] Hp. apply Q. auto.
Qed.

(** ** Building a solution *)

Lemma skipn_blocks {A B} (f : A -> list B) n (d : A) l : forall k, (forall a, In a l -> length (f a) = n) -> (k < length l)%nat ->
  firstn n (skipn (k * n) (flat_map f l)) = f (nth k l d).
Proof.
  induction l as [|a l IH]; intros k H Hk; [cbn in Hk; lia|]. cbn [flat_map]. pose proof (H a (or_introl eq_refl)) as La. destruct k as [|k].
  - cbn [Nat.mul skipn nth]. rewrite firstn_app, La, Nat.sub_diag. cbn [firstn]. rewrite app_nil_r. apply firstn_all2. lia.
  - rewrite skipn_app. rewrite skipn_all2 by (rewrite La; lia). cbn [app nth]. replace (S k * n - length (f a))%nat with (k * n)%nat by lia.
    apply IH; [intros; apply H; simpl; auto|cbn in Hk; lia].
Qed.

Definition point_of (pr : prog) (scc : Z) (h : nat -> list Z) (w : Z) : point :=
  (repeat 0 (p_npar pr) ++ [w]) ++ flat_map (fun s => if s_scc (stmt_of pr s) =? scc then h s else repeat 0 (S (p_nvar pr))) (seq 0 (length (p_stmts pr))).

Section Point.
Variables (pr : prog) (scc : Z) (h : nat -> list Z) (w : Z).
Hypothesis LEN : forall s, in_scc pr scc s -> length (h s) = S (p_nvar pr).

Lemma point_blocks s : In s (seq 0 (length (p_stmts pr))) -> length (if s_scc (stmt_of pr s) =? scc then h s else repeat 0 (S (p_nvar pr))) = S (p_nvar pr).
Proof.
  intros Hs. apply in_seq in Hs. destruct (Z.eqb_spec (s_scc (stmt_of pr s)) scc) as [E|E].
  - apply LEN. split; [lia|auto].
  - apply repeat_length.
Qed.

Lemma point_length : S (length (point_of pr scc h w)) = cst_width pr.
Proof.
  unfold point_of. rewrite !app_length, repeat_length. cbn [length].
  assert (forall l, (forall s, In s l -> length (if s_scc (stmt_of pr s) =? scc then h s else repeat 0 (S (p_nvar pr))) = S (p_nvar pr)) ->
    length (flat_map (fun s => if s_scc (stmt_of pr s) =? scc then h s else repeat 0 (S (p_nvar pr))) l) = (length l * S (p_nvar pr))%nat) as K.
  { induction l as [|a l IH]; intros H; cbn [flat_map]; auto. rewrite app_length, IH by (intros; apply H; simpl; auto). rewrite (H a) by (simpl; auto). cbn [length]. lia. }
  rewrite K by apply point_blocks. rewrite seq_length. unfold cst_width. lia.
Qed.

Lemma point_zhyp s : in_scc pr scc s -> zhyp pr (point_of pr scc h w) s = h s.
Proof.
  intros [Hs E]. unfold zhyp, point_of. rewrite skipn_app. rewrite skipn_all2 by (rewrite app_length, repeat_length; cbn; lia).
  rewrite app_length, repeat_length. cbn [length app].
  replace (p_npar pr + 1 + s * (p_nvar pr + 1) - (p_npar pr + 1))%nat with (s * S (p_nvar pr))%nat by lia.
  rewrite (skipn_blocks _ (S (p_nvar pr)) 0%nat) by (try apply point_blocks; rewrite seq_length; auto).
  rewrite seq_nth by auto. cbn [Nat.add]. rewrite E, Z.eqb_refl. auto.
Qed.

Lemma point_u i : (i < p_npar pr)%nat -> nth i (point_of pr scc h w) 0 = 0.
Proof. intros H. unfold point_of. rewrite app_nth1 by (rewrite app_length, repeat_length; cbn; lia). rewrite app_nth1 by (rewrite repeat_length; auto). apply nth_repeat. Qed.

Lemma point_w : nth (p_npar pr) (point_of pr scc h w) 0 = w.
Proof.
  unfold point_of. rewrite app_nth1 by (rewrite app_length, repeat_length; cbn; lia). rewrite app_nth2 by (rewrite repeat_length; auto).
  rewrite repeat_length, Nat.sub_diag. auto.
Qed.

Lemma point_nonneg : 0 <= w -> (forall s, in_scc pr scc s -> forall v, In v (h s) -> 0 <= v) -> forall v, In v (point_of pr scc h w) -> 0 <= v.
Proof.
  intros W H v Hv. unfold point_of in Hv. apply in_app_or in Hv as [Hv|Hv].
  - apply in_app_or in Hv as [Hv|[<-|[]]]; [|auto]. apply repeat_spec in Hv. lia.
  - apply in_flat_map in Hv as (s & Hs & Hv). apply in_seq in Hs. destruct (Z.eqb_spec (s_scc (stmt_of pr s)) scc) as [E|E].
    + apply (H s); auto. split; [lia|auto].
    + apply repeat_spec in Hv. lia.
Qed.
End Point.

Lemma zhyp_nth pr x s j : (j <= p_nvar pr)%nat -> nth j (zhyp pr x s) 0 = nth (stmt_offset pr s + j) x 0.
Proof. intros H. unfold zhyp, stmt_offset. rewrite nth_firstn_lt by lia. apply nth_skipn_add. Qed.

Lemma scc_deps_in pr scc d : In d (scc_deps pr scc) <-> scc_dep pr scc d.
Proof.
  unfold scc_deps, scc_dep. rewrite filter_In, !andb_true_iff, negb_true_iff, !Z.eqb_eq. tauto.
Qed.
Lemma scc_stmts_in pr scc s : In s (scc_stmts pr scc) <-> in_scc pr scc s.
Proof. unfold scc_stmts, in_scc. rewrite filter_In, in_seq, Z.eqb_eq. split; intros [A B]; split; auto; lia. Qed.

Lemma combine_map {A B} (f : A -> B) l : combine l (map f l) = map (fun a => (a, f a)) l.
Proof. induction l; cbn; congruence. Qed.

(** ** The system and its meaning *)

Lemma short_same pr h h' w d : h (d_src d) = h' (d_src d) -> h (d_dst d) = h' (d_dst d) -> short pr h w d -> short pr h' w d.
Proof. intros E1 E2 H s t p A B C D. rewrite <- E1, <- E2. apply (H s t p); auto. Qed.

Section Main.
Variables (pr : prog) (scc : Z) (f : nat -> list Z) (bound lower : cst).
Hypothesis WF : wf_prog pr.
Hypothesis PAD : padded pr.
Hypothesis NE : forall d, scc_dep pr scc d -> exists y, qmem (d_bpoly d) y.
Hypothesis DEP : scc_deps pr scc <> [].
Hypothesis HB : get_dep_distance_bounding_constraints_for_scc scc pr = Some bound.
Hypothesis HL : get_dep_dist_lower_bound_constraints_for_scc scc pr = Some lower.
Let sys := stencil_system pr scc (map f (scc_stmts pr scc)) bound lower.

Lemma sys_spec : wf_cst sys /\ (forall x, mem sys x <->
  S (length x) = cst_width pr /\ (forall v, In v x -> 0 <= v) /\ (forall i, (i < p_npar pr)%nat -> nth i x 0 = 0) /\
  nth (p_npar pr) x 0 <= 10 /\ short_hyp pr scc f (zhyp pr x) (nth (p_npar pr) x 0)).
Proof.
  destruct (scc_bound_spec pr scc DEP) as (b & Eb & Wb & Nb & Mb). rewrite HB in Eb. injection Eb as <-.
  destruct (scc_lower_spec pr scc DEP) as (l & El & Wl & Nl & Ml). rewrite HL in El. injection El as <-.
  destruct (coeff_spec pr) as (Wc & Nc & Mc).
  destruct (ortho_spec pr (combine (scc_stmts pr scc) (map f (scc_stmts pr scc)))) as (Wo & No & Mo).
  { rewrite combine_map. intros p Hp. apply in_map_iff in Hp as (s & <- & Hs). apply scc_stmts_in in Hs. apply Hs. }
  unfold sys, stencil_system. set (oc := orthocst pr _) in *.
  destruct (DriverProofs.cst_add_wf bound oc Wb Wo ltac:(congruence)) as [W1 N1].
  destruct (DriverProofs.cst_add_wf _ lower W1 Wl ltac:(congruence)) as [W2 N2].
  destruct (DriverProofs.cst_add_wf _ (stencil_coeff_bounds pr) W2 Wc ltac:(congruence)) as [W3 N3].
  split; [exact W3|]. intros x.
  rewrite cst_add_mem by congruence. rewrite cst_add_mem by congruence. rewrite cst_add_mem by congruence. rewrite Mb, Ml, Mc.
  assert (forall L : S (length x) = cst_width pr, (forall i, (i < p_npar pr)%nat -> nth i x 0 = 0) ->
    (forall i, (p_npar pr <= i < length x)%nat -> 0 <= nth i x 0) -> forall v, In v x -> 0 <= v) as NN.
  { intros L U P v Hv. apply (In_nth _ _ 0) in Hv as (i & Hi & <-). destruct (Nat.ltb_spec i (p_npar pr)); [rewrite U; auto; lia|apply P; lia]. }
  assert (forall d, In d (scc_deps pr scc) -> padded_dep pr d) as PD.
  { intros d Hd. apply scc_deps_in in Hd. apply padded_dep_intro; auto. apply Hd. }
  assert (forall (L : S (length x) = cst_width pr) (U : forall i, (i < p_npar pr)%nat -> nth i x 0 = 0),
    (forall d, In d (scc_deps pr scc) -> mem (dep_bounding_cst pr d) x) /\ (forall d, In d (scc_deps pr scc) -> mem (dep_lower_cst pr d) x) <->
    forall d, scc_dep pr scc d -> short pr (zhyp pr x) (nth (p_npar pr) x 0) d) as SH.
  { intros L U. split.
    - intros [A B] d Hd. pose proof Hd as Hd'. apply scc_deps_in in Hd. apply short_dep; auto.
    - intros S. split; intros d Hd; pose proof Hd as Hd'; apply scc_deps_in in Hd; specialize (S d Hd); apply short_dep in S; auto; apply S. }
  split.
  - intros [[[[L B] O] [_ Lo]] (_ & U & P & T)]. pose proof (NN L U P) as NN'. split; [exact L|]. split; [exact NN'|]. split; [exact U|]. split; [exact T|].
    split; [|apply SH; auto]. rewrite (Mo x L NN') in O. intros s Hs.
    assert (length (zhyp pr x s) = S (p_nvar pr)) as LZ.
    { unfold zhyp. rewrite firstn_length, skipn_length. pose proof (block_bound pr s (p_nvar pr) (proj1 Hs) ltac:(lia)) as BB. unfold stmt_offset in BB. lia. }
    split; [exact LZ|]. split.
    { intros v Hv. apply NN'. unfold zhyp in Hv. apply (In_nth _ _ 0) in Hv as (i & Hi & <-). fold (zhyp pr x s) in Hi |- *.
      rewrite zhyp_nth by lia. apply nth_In. pose proof (block_bound pr s i (proj1 Hs) ltac:(lia)). lia. }
    destruct (O s (f s)) as [(i & Hi & _ & V) E].
    { rewrite combine_map. apply in_map_iff. exists s. split; [auto|]. apply scc_stmts_in. auto. }
    split; [|exists i; split; [auto|rewrite zhyp_nth by lia; auto]]. intros j Hj NZ. rewrite zhyp_nth by lia. apply E; auto.
  - intros (L & NN' & U & T & H & S). apply SH in S as [S1 S2]; auto.
    split; [split; [split; [split; [exact L|exact S1]|]|split; [exact L|exact S2]]|].
    + apply Mo; auto. intros s g Hsg. rewrite combine_map in Hsg. apply in_map_iff in Hsg as (s' & E & Hs). injection E as -> <-.
      apply scc_stmts_in in Hs. destruct (H s Hs) as (LZ & _ & Z0 & j & Hj & V). rewrite zhyp_nth in V by lia. split.
      * exists j. split; [auto|]. split; [|auto]. destruct (Z.eq_dec (nth j (f s) 0) 0) as [|N]; auto. specialize (Z0 j Hj N). rewrite zhyp_nth in Z0 by lia. lia.
      * intros i Hi NZ. specialize (Z0 i Hi NZ). rewrite zhyp_nth in Z0 by lia. auto.
    + split; [exact L|]. split; [exact U|]. split; [|exact T]. intros i Hi. apply NN'. apply nth_In. lia.
Qed.

Lemma sys_point h w : 0 <= w <= 10 -> short_hyp pr scc f h w -> mem sys (point_of pr scc h w).
Proof.
  intros W [H S]. assert (forall s, in_scc pr scc s -> length (h s) = Datatypes.S (p_nvar pr)) as LEN by (intros s Hs; apply H; auto).
  apply sys_spec. split; [apply point_length; auto|]. split; [apply point_nonneg; [lia|]; intros s Hs; apply H; auto|].
  split; [intros; apply point_u; auto|]. rewrite point_w. split; [lia|]. split.
  - intros s Hs. rewrite point_zhyp by auto. apply H. auto.
  - intros d Hd. apply (short_same pr h); [| |apply S; auto].
    + symmetry. apply point_zhyp; auto. destruct Hd as (Hd & _ & E & _). split; [|auto]. apply (proj2 WF d Hd).
    + symmetry. apply point_zhyp; auto. destruct Hd as (Hd & _ & _ & E). split; [|auto]. apply (proj2 WF d Hd).
Qed.

Lemma lexlt_nth n : forall x y, (n < length y)%nat -> (n < length x)%nat -> (forall i, (i < n)%nat -> nth i x 0 = nth i y 0) -> lexlt x y -> nth n x 0 <= nth n y 0.
Proof.
  induction n as [|n IH]; intros [|a x] [|b y] Ly Lx E H; cbn [length] in *; try lia; cbn [lexlt] in H; cbn [nth].
  - lia.
  - pose proof (E 0%nat ltac:(lia)) as E0. cbn [nth] in E0. destruct H as [H|[_ H]]; [lia|]. apply IH; auto; try lia.
    intros i Hi. apply (E (S i)). lia.
Qed.

Lemma sys_iff lexmin : lexmin_exact lexmin ->
  (exists sol, lexmin sys = Some sol /\ nth (p_npar pr) sol 0 <> 0) <-> stencil pr scc f.
Proof.
  intros LM. destruct sys_spec as [W M]. specialize (LM sys W ltac:(intros y Hy; apply M in Hy; apply Hy)).
  pose proof (width_pos pr) as WP. split.
  - intros (sol & E & NZ). rewrite E in LM. destruct LM as [Ms Ls]. apply M in Ms as (L & NN & U & T & SH).
    assert (0 <= nth (p_npar pr) sol 0) as P by (apply NN; apply nth_In; lia). split.
    + exists (zhyp pr sol), (nth (p_npar pr) sol 0). split; [lia|auto].
    + intros (h & H). pose proof (sys_point h 0 ltac:(lia) H) as Mp. assert (S (length (point_of pr scc h 0)) = cst_width pr) as Lp by (apply M in Mp; apply Mp).
      destruct (Ls _ Mp) as [X|X]; [rewrite <- X, point_w in NZ; lia|].
      apply (lexlt_nth (p_npar pr)) in X; [|lia|lia|intros i Hi; rewrite U, point_u; auto]. rewrite point_w in X. lia.
  - intros [(h & w & Hw & H) N]. destruct (lexmin sys) as [sol|].
    + exists sol. split; [auto|]. intros Z0. apply N. destruct LM as [Ms _]. apply M in Ms as (L & NN & U & T & SH). exists (zhyp pr sol). rewrite <- Z0. auto.
    + exfalso. apply (LM (point_of pr scc h w)). apply sys_point; auto. lia.
Qed.
End Main.
