(** * Rounding the answers of GLPK. *)
From Coq Require Import ZArith QArith Qround Qabs List Bool Lia Arith Lqa.
From Verif Require Import SpecLinear ConstraintsModel VecProofs FarkasProofs SpecProg FrameworkModel DriverModel SpecGlpk GlpkModel.
Import ListNotations.
Open Scope Q_scope.

Lemma c_round_near v z t : Qabs (v - inject_Z z) <= t -> t < 1 # 2 -> c_round v = z.
Proof.
  intros H Ht. apply Qabs_Qle_condition in H as [H1 H2]. unfold c_round. destruct (Qle_bool 0 v) eqn:E.
  - assert (Qfloor (v + (1 # 2)) < z + 1)%Z.
    { apply Z.nle_gt. intros L. pose proof (Qfloor_le (v + (1 # 2))) as F. rewrite Zle_Qle in L. rewrite inject_Z_plus in L. change (inject_Z 1) with 1 in L. lra. }
    assert (z < Qfloor (v + (1 # 2)) + 1)%Z; [|lia].
    rewrite Zlt_Qlt. pose proof (Qlt_floor (v + (1 # 2))). lra.
  - assert (z - 1 < Qceiling (v - (1 # 2)))%Z.
    { apply Z.nle_gt. intros L. pose proof (Qle_ceiling (v - (1 # 2))) as F. rewrite Zle_Qle in L. unfold Z.sub in L. rewrite inject_Z_plus in L. change (inject_Z (- (1))) with (- (1)) in L. lra. }
    assert (Qceiling (v - (1 # 2)) - 1 < z)%Z; [|lia].
    rewrite Zlt_Qlt. pose proof (Qceiling_lt (v - (1 # 2))). lra.
Qed.

(** ** Sums *)
Definition weight (l : list Z) : Q := fold_right (fun a s => inject_Z (Z.abs a) + s) 0 l.

Lemma weight_nonneg l : 0 <= weight l.
Proof. induction l as [|a l IH]; cbn [weight fold_right]; [lra|]. fold (weight l). assert (0 <= inject_Z (Z.abs a)) by (change 0 with (inject_Z 0); rewrite <- Zle_Qle; lia). lra. Qed.


Lemma row_terms_sum l x : length l = length x -> term_sum (row_terms l) x == qdot l x.
Proof.
  unfold row_terms.
  assert (forall l k y, (k + length l <= length y)%nat ->
    term_sum (flat_map (fun p => if (snd p =? 0)%Z then [] else [(S (fst p), inject_Z (snd p))]) (combine (seq k (length l)) l)) y == qdot l (skipn k y)) as G.
  { clear l x. induction l as [|a l IH]; intros k y H; cbn [length seq combine flat_map]; [reflexivity|]. cbn [length] in H.
    assert (skipn k y = nth k y 0 :: skipn (S k) y) as ->.
    { revert y H. clear IH. induction k; intros [|b y] H; cbn in *; try lia; auto. apply IHk. lia. }
    cbn [qdot snd fst]. destruct (Z.eqb_spec a 0) as [->|N]; cbn [app].
    - rewrite IH by lia. change (inject_Z 0) with 0. lra.
    - cbn [term_sum fold_right fst snd]. fold (term_sum (flat_map (fun p => if (snd p =? 0)%Z then [] else [(S (fst p), inject_Z (snd p))]) (combine (seq (S k) (length l)) l)) y).
      rewrite IH by lia. replace (S k - 1)%nat with k by lia. reflexivity. }
  intros H. rewrite (G l 0%nat x) by lia. reflexivity.
Qed.

Lemma row_terms_weight l : term_weight (row_terms l) == weight l.
Proof.
  unfold row_terms. generalize 0%nat. induction l as [|a l IH]; intros k; cbn [length seq combine flat_map weight fold_right]; [reflexivity|].
  fold (weight l). cbn [snd fst]. destruct (Z.eqb_spec a 0) as [->|N]; cbn [app].
  - rewrite IH. cbn. change (inject_Z 0) with 0. lra.
  - cbn [term_weight fold_right snd]. fold (term_weight (flat_map (fun p => if (snd p =? 0)%Z then [] else [(S (fst p), inject_Z (snd p))]) (combine (seq (S k) (length l)) l))).
    rewrite IH. assert (Qabs (inject_Z a) == inject_Z (Z.abs a)) as -> by reflexivity. reflexivity.
Qed.

(** The sum over a row changes little when the columns it uses change little. *)
Lemma qdot_close l : forall v x e, length v = length x -> 0 <= e ->
  (forall i, (i < length l)%nat -> nth i l 0%Z <> 0%Z -> Qabs (nth i v 0 - nth i x 0) <= e) ->
  Qabs (qdot l v - qdot l x) <= weight l * e.
Proof.
  induction l as [|a l IH]; intros v x e L E H; cbn [qdot weight fold_right].
  - assert (0 - 0 == 0) as -> by lra. cbn. lra.
  - fold (weight l). destruct v as [|b v], x as [|c x]; cbn in L; try lia.
    + cbn [qdot]. assert (0 - 0 == 0) as -> by lra. change (Qabs 0) with 0. pose proof (weight_nonneg (a :: l)) as W. cbn [weight fold_right] in W. fold (weight l) in W. nra.
    + cbn [qdot].
      assert (Qabs (qdot l v - qdot l x) <= weight l * e) as I1 by (apply IH; [lia|auto|intros i Hi N; apply (H (S i)); cbn; auto; lia]).
      assert (inject_Z a * b + qdot l v - (inject_Z a * c + qdot l x) == inject_Z a * (b - c) + (qdot l v - qdot l x)) as -> by lra.
      eapply Qle_trans; [apply Qabs_triangle|]. rewrite Qabs_Qmult.
      assert (Qabs (inject_Z a) == inject_Z (Z.abs a)) as -> by reflexivity.
      assert (inject_Z (Z.abs a) * Qabs (b - c) <= inject_Z (Z.abs a) * e).
      { destruct (Z.eq_dec a 0) as [->|N]; [cbn; change (inject_Z 0) with 0; lra|]. apply Qmult_le_l; [change 0 with (inject_Z 0); rewrite <- Zlt_Qlt; lia|].
        apply (H 0%nat); cbn; auto; lia. }
      lra.
Qed.

Lemma aff_const r x : length (coef r) = S (length x) -> aff (coef r) x = (dot (removelast (coef r)) x + const_of r)%Z.
Proof.
  intros L. unfold aff, const_of.
  assert (coef r <> []) as N by (intros E; rewrite E in L; discriminate L).
  rewrite (app_removelast_last 0%Z N) at 1. rewrite dot_app; [cbn; lia|].
  assert (length (coef r) = length (removelast (coef r) ++ [last (coef r) 0%Z])) as E by (rewrite <- app_removelast_last; auto).
  rewrite app_length in E. cbn in E. lia.
Qed.
Lemma removelast_len (l : list Z) : length (removelast l) = (length l - 1)%nat.
Proof. induction l as [|a [|b l] IH]; cbn in *; lia. Qed.
Lemma removelast_nth_Z (l : list Z) i : (i < length l - 1)%nat -> nth i (removelast l) 0%Z = nth i l 0%Z.
Proof. revert i. induction l as [|a [|b l] IH]; intros i H; cbn [length] in *; try lia. destruct i; [reflexivity|]. cbn [removelast nth] in *. apply (IH i). cbn. lia. Qed.

(** An integer close to a value above a bound is above the bound. *)
Lemma snap_le z b v : inject_Z b <= v -> v - inject_Z z < 1 -> (b <= z)%Z.
Proof. intros H1 H2. apply Z.lt_succ_r. rewrite Zlt_Qlt. unfold Z.succ. rewrite inject_Z_plus. change (inject_Z 1) with 1. lra. Qed.
Lemma snap_eq z b v : v == inject_Z b -> Qabs (inject_Z z - v) < 1 -> z = b.
Proof.
  intros H1 H2. apply Qabs_Qlt_condition in H2 as [H2 H3].
  assert (b <= z)%Z by (apply (snap_le z b v); lra).
  assert (z <= b)%Z by (apply (snap_le b z (inject_Z z)); lra). lia.
Qed.

Lemma nth_cols_map (obj : list Z) lp i d : (i < length obj)%nat ->
  nth i (map (fun w => mkGcol (GLP_LO 0) (negb lp) (inject_Z w)) obj) d = mkGcol (GLP_LO 0) (negb lp) (inject_Z (nth i obj 0%Z)).
Proof. intros H. rewrite (nth_indep _ d (mkGcol (GLP_LO 0) (negb lp) (inject_Z 0))) by (rewrite map_length; auto). rewrite (map_nth (fun w => mkGcol (GLP_LO 0) (negb lp) (inject_Z w))). reflexivity. Qed.

(** What a row of the system means for a solution of the problem. *)
Lemma problem_row lp obj c x r : wf_cst c -> length obj = (ncols c - 1)%nat -> gp_point (glpk_problem lp obj c) x -> In r (rows c) ->
  length x = (ncols c - 1)%nat /\ length (removelast (coef r)) = length x /\
  if is_eq r then qdot (removelast (coef r)) x == inject_Z (- const_of r) else inject_Z (- const_of r) <= qdot (removelast (coef r)) x.
Proof.
  intros W LO (L & _ & R) Hr. cbn [glpk_problem gp_cols] in L. rewrite map_length, LO in L.
  assert (length (removelast (coef r)) = length x) as LR by (rewrite removelast_len, (proj2 W r Hr); lia).
  split; auto. split; auto.
  specialize (R _ (in_map _ _ _ Hr)). cbn [gr_bnd gr_terms] in R.
  pose proof (row_terms_sum (removelast (coef r)) x LR) as E.
  destruct (is_eq r); cbn [in_bound] in R; rewrite E in R; exact R.
Qed.

(** ** --glpk *)
Lemma ilp_rounds obj c v : wf_cst c -> length obj = (ncols c - 1)%nat -> precise (glpk_problem false obj c) v -> mem c (map c_round v).
Proof.
  intros W LO (x & e & t & P & (LV & Hv) & NI & T0 & Ht & Hw).
  assert (length x = (ncols c - 1)%nat) as Lx by (destruct P as (L & _); cbn [glpk_problem gp_cols] in L; rewrite map_length, LO in L; exact L).
  split; [rewrite map_length; pose proof (proj1 W); lia|].
  intros r Hr. destruct (problem_row false obj c x r W LO P Hr) as (_ & LR & HR).
  assert (0 <= e) as E0. { pose proof (Hv 0%nat) as K. pose proof (Qabs_nonneg (nth 0 v 0 - nth 0 x 0)). lra. }
  assert (forall i, (i < length x)%nat -> Qabs (nth i (zpoint (map c_round v)) 0 - nth i x 0) <= e + t) as Cl.
  { intros i Hi. unfold zpoint. rewrite map_map.
    rewrite (nth_indep _ 0 ((fun u => inject_Z (c_round u)) 0)) by (rewrite map_length; lia). rewrite (map_nth (fun u => inject_Z (c_round u))).
    destruct (NI i) as (z & Hz); [cbn [glpk_problem gp_cols]; rewrite map_length; lia|cbn [glpk_problem gp_cols]; rewrite nth_cols_map by lia; reflexivity|].
    rewrite (c_round_near _ _ _ Hz Ht). specialize (Hv i). apply Qabs_Qle_condition in Hv. apply Qabs_Qle_condition in Hz. apply Qabs_Qle_condition. lra. }
  assert (0 <= e + t) as ET by lra.
  pose proof (qdot_close (removelast (coef r)) (zpoint (map c_round v)) x (e + t) ltac:(unfold zpoint; rewrite !map_length; auto) ET ltac:(intros i Hi _; apply Cl; lia)) as K.
  pose proof (Hw _ (in_map _ _ _ Hr)) as HW. cbn [gr_terms] in HW. rewrite row_terms_weight in HW.
  rewrite qdot_zpoint in K. apply Qabs_Qle_condition in K as [K1 K2].
  unfold holds. rewrite aff_const by (rewrite map_length; rewrite removelast_len in LR; pose proof (proj2 W r Hr); pose proof (proj1 W); lia).
  destruct (is_eq r).
  - assert (dot (removelast (coef r)) (map c_round v) = - const_of r)%Z; [|lia].
    apply (snap_eq _ _ (qdot (removelast (coef r)) x)); auto. apply Qabs_Qlt_condition. lra.
  - assert (- const_of r <= dot (removelast (coef r)) (map c_round v))%Z; [|lia].
    apply (snap_le _ _ (qdot (removelast (coef r)) x)); auto. lra.
Qed.

(** ** --lp *)
Lemma nth_skipn_any {A} (d : A) k : forall j l, nth j (skipn k l) d = nth (k + j) l d.
Proof. induction k; intros j [|a l]; cbn; auto. destruct j; reflexivity. Qed.
Lemma nth_combine_in {A B} (a : list A) (b : list B) i da db : (i < length a)%nat -> (i < length b)%nat -> In (nth i a da, nth i b db) (combine a b).
Proof.
  revert b i. induction a as [|x a IH]; intros [|y b] i Ha Hb; cbn in *; try lia. destruct i; [now left|]. right. apply IH; lia.
Qed.

Definition scaled_col (v : Q) : gcol := if is_used v then mkGcol (GLP_LO 1) true 0 else mkGcol (GLP_FX 0) false 0.
Lemma scaling_cols fp ix num p2 : scaling_lp fp (Some ix) num = Some p2 ->
  length (gp_cols p2) = (num + length fp)%nat /\
  (forall k d, (k < num)%nat -> nth k (gp_cols p2) d = mkGcol (GLP_LO 1) false 1) /\
  (forall i d, (i < length fp)%nat -> nth (num + i) (gp_cols p2) d = scaled_col (nth i fp 0)) /\
  (forall i, (i < length fp)%nat -> (i < length ix)%nat -> is_used (nth i fp 0) = true ->
     In (mkGrow (GLP_FX 0) [(fst (nth i ix (0, 0)%nat), nth i fp 0); (snd (nth i ix (0, 0)%nat), -1)]) (gp_rows p2)).
Proof.
  intros H. cbn [scaling_lp] in H. injection H as <-. cbn [gp_cols gp_rows]. fold scaled_col.
  split; [rewrite app_length, repeat_length, map_length; reflexivity|]. split; [|split].
  - intros k d Hk. rewrite app_nth1 by (rewrite repeat_length; auto). rewrite (nth_indep _ d (mkGcol (GLP_LO 1) false 1)) by (rewrite repeat_length; auto). apply nth_repeat.
  - intros i d Hi. rewrite app_nth2 by (rewrite repeat_length; lia). rewrite repeat_length. replace (num + i - num)%nat with i by lia.
    rewrite (nth_indep _ d (scaled_col 0)) by (rewrite map_length; auto).
    change (fun v => if is_used v then mkGcol (GLP_LO 1) true 0 else mkGcol (GLP_FX 0) false 0) with scaled_col. apply (map_nth scaled_col).
  - intros i H1 H2 U. apply in_flat_map. exists (nth i fp 0, nth i ix (0, 0)%nat). split; [apply nth_combine_in; auto|]. cbn [fst snd]. rewrite U. now left.
Qed.

Lemma cut_used f : cut f = if is_used f then f else 0.
Proof. unfold cut, is_used. destruct (Qle_bool _ _); reflexivity. Qed.

Lemma lp_rounds obj c fp ix num npar p2 v us r k :
  wf_cst c -> length obj = (ncols c - 1)%nat -> (npar + 1 <= ncols c - 1)%nat ->
  length ix = (ncols c - 1 - (npar + 1))%nat ->
  (forall i, (i < length ix)%nat -> snd (nth i ix (0, 0)%nat) = (num + i + 1)%nat) ->
  scaling_lp (skipn (npar + 1) fp) (Some ix) num = Some p2 -> precise_scaling num (glpk_problem true obj c) fp p2 v ->
  length us = (npar + 1)%nat -> In r (rows c) ->
  (forall i, (i < npar + 1)%nat -> nth i (coef r) 0%Z = 0%Z) ->
  (const_of r <= 0)%Z -> (is_eq r = true -> const_of r = 0%Z) -> (1 <= k <= num)%nat ->
  (forall i, (i < length ix)%nat -> nth (npar + 1 + i) (coef r) 0%Z <> 0%Z -> fst (nth i ix (0, 0)%nat) = k) ->
  S (length (us ++ map c_round (skipn num v))) = ncols c /\ holds (us ++ map c_round (skipn num v)) r.
Proof.
  intros W LO NP LI IX SC (x & y & e & e' & t & s & P & (LF & Hf) & P2 & (LV & Hv) & NI & T0 & Ht & He' & HS & Hw) LU Hr Z0 C0 CE Hk OW.
  destruct (problem_row true obj c x r W LO P Hr) as (Lx & LR & HR).
  destruct (scaling_cols _ _ _ _ SC) as (SL & SF & SX & SR). rewrite map_length in LF.
  assert (length (skipn (npar + 1) fp) = length ix) as LS by (rewrite skipn_length; lia).
  assert (length y = num + length ix)%nat as Ly by (destruct P2 as (L & _); rewrite L, SL, LS; reflexivity).
  set (z := us ++ map c_round (skipn num v)).
  assert (length z = length x) as Lz by (unfold z; rewrite app_length, map_length, skipn_length; lia).
  split; [rewrite Lz; pose proof (proj1 W); lia|].
  set (f := nth (k - 1) y 0).
  assert (1 <= f) as F1. { destruct P2 as (_ & B & _). specialize (B (k - 1)%nat ltac:(lia)). rewrite SF in B by lia. exact B. }
  assert (f <= s) as FS by (apply HS; lia).
  assert (0 <= e) as E0. { pose proof (Hf 0%nat) as K. pose proof (Qabs_nonneg (nth 0 (map cut fp) 0 - nth 0 x 0)). lra. }
  assert (0 <= e') as E0'. { pose proof (Hv 0%nat) as K. pose proof (Qabs_nonneg (nth 0 v 0 - nth 0 y 0)). lra. }
  assert (f * e <= s * e) as FE by (apply Qmult_le_compat_r; auto).
  assert (forall i, (i < length ix)%nat -> nth (npar + 1 + i) (coef r) 0%Z <> 0%Z ->
     Qabs (inject_Z (c_round (nth (num + i) v 0)) - f * nth (npar + 1 + i) x 0) <= t + e' + s * e) as Cl.
  { intros i Hi N. pose proof (OW i Hi N) as Ek. pose proof (IX i Hi) as Es.
    assert (nth i (skipn (npar + 1) fp) 0 = nth (npar + 1 + i) fp 0) as En by (rewrite nth_skipn_any; reflexivity).
    pose proof (Hf (npar + 1 + i)%nat) as Hfi. change 0 with (cut 0) in Hfi at 1. rewrite (map_nth cut) in Hfi. rewrite cut_used in Hfi.
    pose proof (Hv (num + i)%nat) as Hvi.
    destruct (is_used (nth (npar + 1 + i) fp 0)) eqn:U.
    - assert (f * nth (npar + 1 + i) fp 0 == nth (num + i) y 0) as Eq.
      { destruct P2 as (_ & _ & R2). specialize (SR i ltac:(lia) Hi ltac:(rewrite En; exact U)). specialize (R2 _ SR). cbn [gr_bnd gr_terms in_bound term_sum fold_right fst snd] in R2.
        rewrite Ek, Es, En in R2. replace (num + i + 1 - 1)%nat with (num + i)%nat in R2 by lia. fold f in R2. lra. }
      destruct (NI (num + i)%nat) as (zz & Hz); [lia|rewrite SX by lia; unfold scaled_col; rewrite En, U; reflexivity|].
      rewrite (c_round_near _ _ _ Hz Ht).
      apply Qabs_Qle_condition in Hfi as [A1 A2]. apply Qabs_Qle_condition in Hvi as [B1 B2]. apply Qabs_Qle_condition in Hz as [D1 D2].
      apply Qabs_Qle_condition. assert (f * (nth (npar + 1 + i) fp 0 - nth (npar + 1 + i) x 0) <= f * e) by (apply Qmult_le_l; lra).
      assert (f * (- e) <= f * (nth (npar + 1 + i) fp 0 - nth (npar + 1 + i) x 0)) by (apply Qmult_le_l; lra). lra.
    - assert (nth (num + i) y 0 == 0) as Eq.
      { destruct P2 as (_ & B & _). specialize (B (num + i)%nat ltac:(lia)). rewrite SX in B by lia. unfold scaled_col in B. rewrite En, U in B. exact B. }
      assert (c_round (nth (num + i) v 0) = 0%Z) as ->. { apply (c_round_near _ _ e'); auto. change (inject_Z 0) with 0. rewrite Eq in Hvi. exact Hvi. }
      apply Qabs_Qle_condition in Hfi as [A1 A2]. change (inject_Z 0) with 0. apply Qabs_Qle_condition.
      assert (f * nth (npar + 1 + i) x 0 <= f * e) by (apply Qmult_le_l; lra).
      assert (f * (- e) <= f * nth (npar + 1 + i) x 0) by (apply Qmult_le_l; lra). lra. }
  set (E := t + e' + s * e) in *.
  assert (0 <= E) as E1 by (assert (0 <= s * e) by (apply Qmult_le_0_compat; lra); unfold E; lra).
  set (l := removelast (coef r)) in *.
  assert (length (coef r) = ncols c) as LC by (apply (proj2 W); auto).
  assert (forall i, (i < length l)%nat -> nth i l 0%Z <> 0%Z -> Qabs (nth i (zpoint z) 0 - nth i (map (Qmult f) x) 0) <= E) as Cl2.
  { intros i Hi N. unfold l in N. unfold l in Hi. rewrite removelast_len in Hi. rewrite removelast_nth_Z in N by lia.
    assert (npar + 1 <= i)%nat as Gi by (destruct (le_lt_dec (npar + 1) i); auto; rewrite Z0 in N by auto; congruence).
    set (j := (i - (npar + 1))%nat). replace i with (npar + 1 + j)%nat in * by lia. assert (j < length ix)%nat as Hj by lia.
    specialize (Cl j Hj N). assert (nth (npar + 1 + j) (zpoint z) 0 = inject_Z (c_round (nth (num + j) v 0))) as ->.
    { unfold zpoint. change 0 with (inject_Z 0) at 1. rewrite map_nth. f_equal. unfold z. rewrite app_nth2 by lia. rewrite LU. replace (npar + 1 + j - (npar + 1))%nat with j by lia.
      change 0%Z with (c_round 0). rewrite map_nth. rewrite nth_skipn_any. reflexivity. }
    assert (nth (npar + 1 + j) (map (Qmult f) x) 0 == f * nth (npar + 1 + j) x 0) as ->.
    { rewrite (nth_indep _ 0 (f * 0)) by (rewrite map_length; lia). rewrite (map_nth (Qmult f)). reflexivity. }
    exact Cl. }
  pose proof (qdot_close l (zpoint z) (map (Qmult f) x) E ltac:(unfold zpoint; rewrite !map_length; auto) E1 Cl2) as K.
  pose proof (Hw _ (in_map _ _ _ Hr)) as HW. cbn [gr_terms] in HW. fold l in HW. rewrite row_terms_weight in HW.
  rewrite qdot_zpoint, qdot_scale_r in K. apply Qabs_Qle_condition in K as [K1 K2].
  unfold holds. rewrite aff_const by (pose proof (proj1 W); lia). fold l.
  destruct (is_eq r).
  - rewrite CE in * by auto. assert (dot l z = 0)%Z; [|lia]. change (inject_Z (- 0)) with 0 in HR.
    apply (snap_eq _ _ 0); [reflexivity|]. rewrite HR in *. apply Qabs_Qlt_condition. lra.
  - assert (- const_of r <= dot l z)%Z; [|lia].
    assert (0 <= inject_Z (- const_of r)) as B0 by (change 0 with (inject_Z 0); rewrite <- Zle_Qle; lia).
    assert (qdot l x <= f * qdot l x). { assert (0 <= (f - 1) * qdot l x) by (apply Qmult_le_0_compat; lra). lra. }
    apply (snap_le _ _ (f * qdot l x)); lra.
Qed.
