(** * Theorems C01-C07: gcd/lcm, simplification, elimination, Farkas lemma. *)
From Coq Require Import ZArith QArith List Bool Lia Lqa.
From Verif Require Import SpecLinear VecProofs MathModel ConstraintsModel GcdProofs SimplifyProofs SortProofs FMProofs FarkasProofs EditProofs Checkers.
Import ListNotations.
Open Scope Z_scope.

(** ** C01 *)
Theorem C01_gcd_greatest_common_divisor : forall a b,
  0 <= gcd a b /\ (gcd a b | a) /\ (gcd a b | b) /\
  (forall d, (d | a) -> (d | b) -> (d | gcd a b)) /\ gcd 0 b = Z.abs b.
Proof.
  intros a b. rewrite !gcd_correct. repeat split.
  - apply Z.gcd_nonneg.
  - apply Z.gcd_divide_l.
  - apply Z.gcd_divide_r.
  - intros d. apply Z.gcd_greatest.
Qed.
Print Assumptions C01_gcd_greatest_common_divisor.

Theorem C01_lcm_least_common_multiple : forall a b,
  (a | lcm a b) /\ (b | lcm a b) /\ (forall m, (a | m) -> (b | m) -> (lcm a b | m)).
Proof.
  intros a b. pose proof (lcm_zlcm a b) as E. repeat split.
  - apply Z.divide_abs_r. rewrite E. apply Z.divide_lcm_l.
  - apply Z.divide_abs_r. rewrite E. apply Z.divide_lcm_r.
  - intros m Ha Hb. apply Z.divide_abs_l. rewrite E. apply Z.lcm_least; auto.
Qed.
Print Assumptions C01_lcm_least_common_multiple.

(** With C arithmetic: no undefined behaviour and the same result when the
    product fits 64 bits. *)
Theorem C01_gcd_lcm_64bit : forall a b,
  Z.abs a < 2 ^ 63 -> Z.abs b < 2 ^ 63 -> Z.abs a * Z.abs b < 2 ^ 63 ->
  gcd64 a b = Some (Z.gcd a b) /\
  exists m, lcm64 a b = Some m /\ Z.abs m = Z.lcm a b.
Proof.
  intros a b H1 H2 H3. pose proof (gcd64_correct a b H1 H2 H3) as E. split; auto.
  exists (lcm a b). split; [|apply lcm_zlcm].
  unfold lcm64, lcm. rewrite E, gcd_correct.
  assert (in64 (a * b) = true) as ->.
  { unfold in64. rewrite <- Z.abs_mul in H3. apply andb_true_iff. split; [apply Z.leb_le|apply Z.ltb_lt]; lia. }
  cbn [negb]. destruct (a * b =? 0); auto.
Qed.
Print Assumptions C01_gcd_lcm_64bit.

Example C01_ex : gcd64 (-12) 18 = Some 6 /\ lcm64 (-12) 18 = Some (-36).
Proof. split; reflexivity. Qed.

(** With wrap-around of the product the result can be wrong. *)
Theorem C01_gcd_wraparound_refuted : exists a b,
  0 < a < 2 ^ 63 /\ 0 < b < 2 ^ 63 /\ gcdw a b <> Z.gcd a b.
Proof. exists (2 ^ 32), (3 * 2 ^ 32). vm_compute. intuition discriminate. Qed.
Print Assumptions C01_gcd_wraparound_refuted.

(** ** C02 *)
Theorem C02_simplify_same_integer_points : forall c x, mem (simplify c) x <-> mem c x.
Proof. exact simplify_mem. Qed.
Print Assumptions C02_simplify_same_integer_points.

Theorem C02_simplify_same_rational_points : forall c x, qmem (simplify c) x <-> qmem c x.
Proof. exact simplify_qmem. Qed.
Print Assumptions C02_simplify_same_rational_points.

Theorem C02_simplify_no_more_rows : forall c,
  (length (rows (simplify c)) <= length (rows c))%nat.
Proof. exact simplify_nrows. Qed.
Print Assumptions C02_simplify_no_more_rows.

Theorem C02_simplify_idempotent : forall c, wf_cst c -> simplify (simplify c) = simplify c.
Proof. exact simplify_idem. Qed.
Print Assumptions C02_simplify_idempotent.

(** 2x + 4 >= 0, x + 2 >= 0, 6x - 12 = 0 *)
Definition ex_c02 := mkCst 2 [mkRow false [2; 4]; mkRow false [1; 2]; mkRow true [6; -12]].
Example C02_ex : wf_cst ex_c02 /\
  simplify ex_c02 = mkCst 2 [mkRow true [1; -2]; mkRow false [1; 2]] /\ mem ex_c02 [2].
Proof.
  split; [wf|split; [reflexivity|inset]].
Qed.

(** ** C03 *)
Theorem C03_fm_eliminate_projection : forall c pos x,
  wf_cst c -> (S pos < ncols c)%nat ->
  (qmem (fm_eliminate c pos) x <-> exists v : Q, qmem c (insert_at pos v x)).
Proof. exact fm_eliminate_exact. Qed.
Print Assumptions C03_fm_eliminate_projection.

Theorem C03_fm_eliminate_keeps_integer_points : forall c pos x v,
  wf_cst c -> (S pos < ncols c)%nat ->
  mem c (insert_at pos v x) -> mem (fm_eliminate c pos) x.
Proof.
  intros c pos x v Hw Hp Hm. apply qmem_zpoint. apply C03_fm_eliminate_projection; auto.
  exists (inject_Z v). unfold zpoint. rewrite <- map_insert_at. apply qmem_zpoint. auto.
Qed.
Print Assumptions C03_fm_eliminate_keeps_integer_points.

(** Eliminating y from { 0 <= y, y <= x, 2y >= x - 3 } *)
Definition ex_c03 := mkCst 3 [mkRow false [0; 1; 0]; mkRow false [1; -1; 0]; mkRow false [-1; 2; 3]].
Example C03_ex : wf_cst ex_c03 /\ (2 < ncols ex_c03)%nat /\
  fm_eliminate ex_c03 1 = mkCst 2 [mkRow false [1; 0]; mkRow false [1; 3]].
Proof.
  split; [wf|split; [simpl; lia|reflexivity]].
Qed.

(** ** C04 *)
Theorem C04_smart_eliminate_projection : forall c pos x,
  wf_cst c -> (S pos < ncols c)%nat ->
  (qmem (fm_eliminate_smart c pos) x <-> exists v : Q, qmem c (insert_at pos v x)).
Proof. exact fm_smart_exact. Qed.
Print Assumptions C04_smart_eliminate_projection.

Theorem C04_gaussian_eliminate_projection : forall c c' pos x,
  wf_cst c -> (S pos < ncols c)%nat ->
  gaussian_eliminate_cst c pos = Some c' ->
  (qmem c' x <-> exists v : Q, qmem c (insert_at pos v x)).
Proof. exact gaussian_eliminate_exact. Qed.
Print Assumptions C04_gaussian_eliminate_projection.

(** x - 2y + 1 = 0, y >= 0 *)
Definition ex_c04 := mkCst 3 [mkRow true [1; -2; 1]; mkRow false [0; 1; 0]].
Example C04_ex : wf_cst ex_c04 /\ (2 < ncols ex_c04)%nat /\
  fm_eliminate_smart ex_c04 1 = mkCst 2 [mkRow false [1; 1]].
Proof.
  split; [wf|split; [simpl; lia|reflexivity]].
Qed.

(** ** C05 *)
Theorem C05_pure_inequalities_same_points : forall c,
  wf_cst c ->
  (forall x, mem (to_pure_inequalities c) x <-> mem c x) /\
  (forall x, qmem (to_pure_inequalities c) x <-> qmem c x) /\
  (forall r, In r (rows (to_pure_inequalities c)) -> is_eq r = false).
Proof.
  intros c Hw. split; [|split]; intros.
  - apply to_pure_mem; auto.
  - apply to_pure_qmem; auto.
  - apply to_pure_ineq in H. auto.
Qed.
Print Assumptions C05_pure_inequalities_same_points.

Example C05_ex : wf_cst ex_c04 /\
  to_pure_inequalities ex_c04 =
  mkCst 3 [mkRow false [1; -2; 1]; mkRow false [0; 1; 0]; mkRow false [-1; 2; -1]].
Proof.
  split; [wf|reflexivity].
Qed.

(** ** C06, C07.  [phi] has one row per variable of the domain plus one for the
    constant; a row gives the coefficient as an affine function of the unknowns. *)
Theorem C06_farkas_sound : forall dom phi c,
  wf_cst dom -> wf_mat phi -> length (mrows phi) = ncols dom -> (1 <= mncols phi)%nat ->
  qmem (farkas_lemma_affine dom phi) c ->
  forall x, qmem dom x -> (0 <= form_val (mrows phi) c x)%Q.
Proof. intros dom phi c H1 H2 H3 H4. apply farkas_sound; auto. split; auto. Qed.
Print Assumptions C06_farkas_sound.

Theorem C07_farkas_complete : forall dom phi c,
  wf_cst dom -> wf_mat phi -> length (mrows phi) = ncols dom -> (1 <= mncols phi)%nat ->
  S (length c) = mncols phi ->
  (exists x, qmem dom x) ->
  (forall x, qmem dom x -> (0 <= form_val (mrows phi) c x)%Q) ->
  qmem (farkas_lemma_affine dom phi) c.
Proof. intros dom phi c H1 H2 H3 H4. apply farkas_complete; auto. split; auto. Qed.
Print Assumptions C07_farkas_complete.

(** Domain { 0 <= x <= 3 }, form c1*x + c2: valid iff c2 >= 0 and 3 c1 + c2 >= 0. *)
Definition ex_dom := mkCst 2 [mkRow false [1; 0]; mkRow false [-1; 3]].
Definition ex_phi := mkMat 3 [[1; 0; 0]; [0; 1; 0]].
Example C06_C07_ex :
  wf_cst ex_dom /\ wf_mat ex_phi /\ length (mrows ex_phi) = ncols ex_dom /\
  (exists x, qmem ex_dom x) /\
  farkas_lemma_affine ex_dom ex_phi = mkCst 3 [mkRow false [0; 1; 0]; mkRow false [3; 1; 0]] /\
  qmem (farkas_lemma_affine ex_dom ex_phi) (zpoint [-1; 3]).
Proof.
  split; [wf|split; [wf|split; [reflexivity|split; [|split]]]].
  - exists (zpoint [1]). inset.
  - vm_compute. reflexivity.
  - inset.
Qed.
