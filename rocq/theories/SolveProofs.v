(** * Proofs: numbers, sets and functions exchanged with isl, PIP and PolyLib. *)
From Coq Require Import ZArith QArith Qround List Bool Lia Classical Wf_nat.
From Verif Require Import SpecLinear MathModel ConstraintsModel SpecLib OslModel SpecSolve SolveModel VecProofs Checkers.
Import ListNotations.
Open Scope Z_scope.

(** ** Numbers *)

Lemma fits_ll z : mpz_fits_ll z = true <-> fits64 z.
Proof.
  unfold mpz_fits_ll, fits64. rewrite Z.eqb_eq, Z.sgn_null_iff.
  change (2 ^ 63) with 9223372036854775808.
  destruct (Z.ltb_spec 0 (Z.sgn z)) as [H|H].
  - apply Z.sgn_pos_iff in H. rewrite Z.quot_small_iff by lia. lia.
  - assert (z <= 0) by (destruct (Z_lt_le_dec 0 z) as [A|A]; auto; apply Z.sgn_pos_iff in A; lia).
    rewrite Z.quot_small_iff by lia. lia.
Qed.

Lemma wrap64_id z : fits64 z -> wrap64 z = z.
Proof. unfold fits64, wrap64. intros H. rewrite Z.mod_small; lia. Qed.

Lemma num_ll_exact z : fits64 z -> num_ll z = z.
Proof.
  intros H. unfold num_ll. rewrite (proj2 (fits_ll z) H). cbn [negb].
  set (t := z mod 2 ^ 64). assert (0 <= t < 2 ^ 64) by (apply Z.mod_pos_bound; lia).
  assert (0 <= t / 2 ^ 32 < 2 ^ 32) by (split; [apply Z.div_pos; lia|apply Z.div_lt_upper_bound; lia]).
  rewrite (Z.mod_small (t / 2 ^ 32)) by auto.
  replace (t / 2 ^ 32 * 2 ^ 32 + t mod 2 ^ 32) with t by (rewrite (Z.div_mod t (2 ^ 32)) at 1; lia).
  unfold wrap64, t, fits64 in *. rewrite Zplus_mod_idemp_l. rewrite Z.mod_small; lia.
Qed.

Lemma set_sll_exact z : fits64 z -> set_sll z = z.
Proof.
  intros H. unfold set_sll, wrap32, fits64 in *.
  assert (- 2 ^ 31 <= z / 2 ^ 32 < 2 ^ 31) by (split; [apply Z.div_le_lower_bound|apply Z.div_lt_upper_bound]; lia).
  rewrite (Z.mod_small (z / 2 ^ 32 + 2 ^ 31)) by lia. rewrite (Z.div_mod z (2 ^ 32)) at 3 by lia. lia.
Qed.

Lemma set_ull_exact z : 0 <= z < 2 ^ 64 -> set_ull z = z.
Proof.
  intros H. unfold set_ull. rewrite (Z.mod_small (z / 2 ^ 32)).
  - rewrite (Z.div_mod z (2 ^ 32)) at 3 by lia. lia.
  - split; [apply Z.div_pos|apply Z.div_lt_upper_bound]; lia.
Qed.

Lemma map_id_Forall (f : Z -> Z) l : (forall z, fits64 z -> f z = z) -> Forall fits64 l -> map f l = l.
Proof. intros Hf H. induction H; cbn; auto. rewrite Hf, IHForall; auto. Qed.

Lemma conv_rows f l : (forall z, fits64 z -> f z = z) -> (forall r, In r l -> Forall fits64 (coef r)) -> map (map_coef (map f)) l = l.
Proof.
  intros Hf. induction l as [|[e c] l IH]; intros H; cbn; auto.
  rewrite IH by (intros r Hr; apply H; right; auto). unfold map_coef at 1. cbn.
  rewrite map_id_Forall; auto. apply (H (mkRow e c)). left. auto.
Qed.

Lemma eq_then_ineq (l : list row) r : In r (filter is_eq l ++ filter (fun r => negb (is_eq r)) l) <-> In r l.
Proof.
  rewrite in_app_iff, !filter_In. destruct (is_eq r); cbn; intuition discriminate.
Qed.

Ltac ei := match goal with
           | |- In _ (filter _ _ ++ _) => apply (proj2 (eq_then_ineq _ _))
           | |- _ => apply (proj1 (eq_then_ineq _ _))
           end.

(** ** Sets *)

Lemma bset_from_rows c : fits64_cst c ->
  bs_rows (bset_from c) = filter is_eq (rows c) ++ filter (fun r => negb (is_eq r)) (rows c).
Proof.
  intros H. apply conv_rows; [apply set_sll_exact|]. intros r Hr. apply (proj1 (eq_then_ineq _ _)) in Hr. apply (H r Hr).
Qed.

Lemma bset_from_mem c x : wf_cst c -> fits64_cst c -> (bset_mem (bset_from c) x [] <-> mem c x).
Proof.
  intros [W _] H. unfold bset_mem, mem. rewrite bset_from_rows by auto. cbn [bs_dim bs_npar bs_ndiv bset_from].
  split.
  - intros (A & _ & e & E & B). destruct e; [|discriminate]. rewrite !app_nil_r in B.
    split; [lia|]. intros r Hr. apply B. ei. auto.
  - intros [A B]. split; [lia|]. split; [reflexivity|]. exists []. split; [reflexivity|].
    intros r Hr. rewrite !app_nil_r. apply B. ei. auto.
Qed.

Lemma bset_from_shaped c : wf_cst c -> shaped_set (bset_from c).
Proof.
  intros [W H] r Hr. cbn in *. apply in_map_iff in Hr as (q & <- & Hq). apply (proj1 (eq_then_ineq _ _)) in Hq.
  cbn. rewrite map_length, (H q Hq). lia.
Qed.

Lemma set_from_mem l x : (forall c, In c l -> wf_cst c /\ fits64_cst c) -> (uset_mem (map bset_from l) x <-> umem l x).
Proof.
  intros H. unfold uset_mem, umem. split.
  - intros (b & Hb & M). apply in_map_iff in Hb as (c & <- & Hc). exists c. split; auto.
    destruct (H c Hc). apply bset_from_mem; auto.
  - intros (c & Hc & M). exists (bset_from c). split; [apply in_map; auto|]. destruct (H c Hc). apply bset_from_mem; auto.
Qed.

Lemma set_from_shaped n l : (forall c, In c l -> wf_cst c /\ ncols c = (n + 1)%nat) -> shaped_uset n (map bset_from l).
Proof.
  intros H b Hb. apply in_map_iff in Hb as (c & <- & Hc). destruct (H c Hc) as [W E].
  split; [cbn; lia|]. split; [reflexivity|]. apply bset_from_shaped; auto.
Qed.

Lemma extract_fold rd l : forall acc,
  fold_left (fun o b => match o with
                        | None => Some [bset_to rd b]
                        | Some l => Some (unionize_simple_effect l [bset_to rd b])
                        end) l (Some acc) = Some (acc ++ map (bset_to rd) l).
Proof.
  induction l as [|b l IH]; intros acc; cbn; [rewrite app_nil_r; auto|].
  rewrite IH. unfold unionize_simple_effect. rewrite <- app_assoc. reflexivity.
Qed.
Lemma set_to_eq rd n l : set_to rd n (Some l) = Some (match l with [] => [empty_cst (n + 1)] | _ => map (bset_to rd) l end).
Proof. destruct l as [|b l]; [reflexivity|]. cbn [set_to fold_left]. rewrite extract_fold. reflexivity. Qed.

Lemma empty_no_point n x : ~ mem (empty_cst n) x.
Proof.
  intros [L H]. unfold empty_cst, set_last, add_equality, universe in *. cbn in *.
  specialize (H _ (or_introl eq_refl)). unfold holds in H. cbn in H. unfold aff in H.
  assert (dot (set_nth (n - 1) 1 (repeat 0 n)) (x ++ [1]) = 1); [|lia].
  clear H. assert (length x = n - 1)%nat as L' by lia. destruct n; [lia|]. cbn [Nat.sub] in *. rewrite Nat.sub_0_r in *. clear L.
  revert n L'. induction x as [|v x IH]; intros n L'; cbn in L'; subst n; cbn; [lia|].
  rewrite IH; auto.
Qed.

Lemma bset_to_ncols rd b n : remove_divs_set_ok rd -> bs_dim b = n -> bs_npar b = 0%nat -> ncols (bset_to rd b) = (n + 1)%nat.
Proof. intros R D P. destruct (R b) as (A & B & _). cbn. rewrite A, B, D, P. lia. Qed.
Lemma bset_to_wf rd b : remove_divs_set_ok rd -> shaped_set b -> wf_cst (bset_to rd b).
Proof.
  intros R Sh. destruct (R b) as (A & B & C & D & E). split; [cbn; lia|].
  intros r Hr. cbn in Hr |- *. apply in_map_iff in Hr as (q & <- & Hq). apply (proj1 (eq_then_ineq _ _)) in Hq.
  cbn. rewrite map_length. rewrite (D Sh q Hq). rewrite C. lia.
Qed.
Lemma bset_to_mem rd b x : remove_divs_set_ok rd -> bs_npar b = 0%nat ->
  (forall r, In r (bs_rows (rd b)) -> Forall fits64 (coef r)) ->
  (mem (bset_to rd b) x <-> bset_mem (rd b) x []).
Proof.
  intros R P F. destruct (R b) as (A & B & C & _). unfold mem, bset_mem. cbn [bset_to ncols rows].
  rewrite conv_rows; [|apply num_ll_exact|intros r Hr; apply (proj1 (eq_then_ineq _ _)) in Hr; auto].
  rewrite B, C, P. split.
  - intros [L H]. split; [lia|]. split; [reflexivity|]. exists []. split; [reflexivity|]. rewrite !app_nil_r.
    intros r Hr. apply H. ei. auto.
  - intros (L & _ & e & E & H). destruct e; [|discriminate]. rewrite !app_nil_r in H. split; [lia|].
    intros r Hr. apply H. ei. auto.
Qed.

(** What comes back from isl contains the set; it is the set if that has no
    existentially quantified variables. *)
Lemma set_to_mem rd n l l' x : remove_divs_set_ok rd -> shaped_uset n l -> small_uset rd l ->
  set_to rd n (Some l) = Some l' -> uset_mem l x -> umem l' x.
Proof.
  intros R Sh F E (b & Hb & M). rewrite set_to_eq in E. injection E as <-.
  destruct l as [|b0 l]; [destruct Hb|]. exists (bset_to rd b). split; [apply in_map; auto|].
  apply bset_to_mem; auto; [apply Sh; auto|apply F; auto|]. destruct (R b) as (_ & _ & _ & _ & I). apply I. auto.
Qed.
Lemma set_to_exact rd n l l' x : remove_divs_exact rd -> shaped_uset n l -> plain_uset l ->
  set_to rd n (Some l) = Some l' -> (umem l' x <-> uset_mem l x).
Proof.
  intros [R X] Sh F E.
  assert (small_uset rd l) as Sm. { intros b Hb r Hr. destruct (F b Hb) as [A B]. rewrite X in Hr; auto. }
  split; [|eapply set_to_mem; eauto].
  rewrite set_to_eq in E. injection E as <-. destruct l as [|b0 l].
  - intros (c & [<-|[]] & M). exfalso. eapply empty_no_point; eauto.
  - intros (c & Hc & M). apply in_map_iff in Hc as (b & <- & Hb). exists b. split; auto.
    destruct (F b Hb) as [A B]. apply (bset_to_mem rd b x R (proj1 (proj2 (Sh b Hb))) (Sm b Hb)) in M. rewrite X in M; auto.
Qed.
Lemma set_to_wf rd n l l' c : remove_divs_set_ok rd -> shaped_uset n l ->
  set_to rd n (Some l) = Some l' -> In c l' -> wf_cst c /\ ncols c = (n + 1)%nat.
Proof.
  intros R Sh E H. rewrite set_to_eq in E. injection E as <-. destruct l as [|b0 l].
  - destruct H as [<-|[]]. split; [|reflexivity]. split; [cbn; lia|]. cbn. intros r [<-|[]]. cbn. rewrite set_nth_length, repeat_length. auto.
  - apply in_map_iff in H as (b & <- & Hb). destruct (Sh b Hb) as (A & B & C).
    split; [apply bset_to_wf|apply bset_to_ncols]; auto.
Qed.

(** ** Least points *)

Lemma lexlt_irrefl x : ~ lexlt x x.
Proof. induction x; cbn; [auto|]. intros [H|[_ H]]; [lia|auto]. Qed.
Lemma lexlt_trans_eq x : forall y, lexlt x y -> lexlt y x -> False.
Proof. induction x as [|a x IH]; intros [|b y]; cbn; try tauto. intros [H|[H K]] [H'|[H' K']]; try lia. eauto. Qed.
Lemma least_unique P x y : least P x -> least P y -> x = y.
Proof. intros [A B] [C D]. destruct (B y C) as [|L]; auto. destruct (D x A) as [|L']; auto. destruct (lexlt_trans_eq _ _ L L'). Qed.
Lemma least_ext P Q x : (forall y, P y <-> Q y) -> (least P x <-> least Q x).
Proof. intros E. unfold least. rewrite E. split; intros [A B]; split; auto; intros y Hy; apply B; apply E; auto. Qed.

Lemma least_nonneg n : forall P : point -> Prop, (forall x, P x -> length x = n /\ nonneg x) -> (exists x, P x) -> exists x, least P x.
Proof.
  induction n as [|n IH]; intros P H [x0 P0].
  - exists []. destruct (H x0 P0) as [L _]. destruct x0; [|discriminate]. split; auto.
    intros y Hy. destruct (H y Hy) as [L' _]. destruct y; [auto|discriminate].
  - destruct (H x0 P0) as [L0 N0]. destruct x0 as [|v0 x0]; [discriminate|].
    destruct (dec_inh_nat_subset_has_unique_least_element (fun k => exists x, P (Z.of_nat k :: x))) as (k & [[x Hx] Hk] & _).
    + intros k. apply classic.
    + inversion N0; subst. exists (Z.to_nat v0), x0. rewrite Z2Nat.id; auto.
    + destruct (IH (fun y => P (Z.of_nat k :: y))) as (y & Py & Ly).
      * intros y Hy. destruct (H _ Hy) as [L N]. inversion N; subst. split; auto.
      * eauto.
      * exists (Z.of_nat k :: y). split; auto. intros [|v z] Hz; destruct (H _ Hz) as [L N]; [discriminate|].
        inversion N as [|? ? V N']; subst.
        assert (k <= Z.to_nat v)%nat as Le. { apply Hk. exists z. rewrite Z2Nat.id; auto. }
        destruct (Z.eq_dec v (Z.of_nat k)) as [->|Ne].
        -- destruct (Ly z Hz) as [->|Lt]; [left; auto|right; cbn; auto].
        -- right. cbn. left. lia.
Qed.

(** ** Solving *)

Lemma aff_unit n i x : (i < n)%nat -> length x = n -> aff (set_nth i 1 (repeat 0 (n + 1))) x = nth i x 0.
Proof.
  unfold aff. intros H L. assert (forall m (y : list Z), dot (repeat 0 m) y = 0) as Z0.
  { induction m; intros [|w y]; cbn; auto. }
  revert n i H L. induction x as [|v x IH]; intros n i H L; cbn in L; subst n; [lia|].
  destruct i; cbn - [Z.mul].
  - rewrite Z0. lia.
  - rewrite (IH (length x) i); lia.
Qed.

Lemma orthant_holds n x : length x = n -> ((forall r, In r (orthant_rows n) -> holds x r) <-> nonneg x).
Proof.
  intros L. unfold orthant_rows, nonneg. split.
  - intros H. apply Forall_forall. intros v Hv. destruct (In_nth _ _ 0 Hv) as (i & Hi & <-).
    specialize (H (mkRow false (set_nth i 1 (repeat 0 (n + 1))))). unfold holds in H. cbn [is_eq coef] in H.
    rewrite aff_unit in H by lia. apply H. apply in_map_iff. exists i. split; auto. apply in_seq. lia.
  - intros H r Hr. apply in_map_iff in Hr as (i & <- & Hi). apply in_seq in Hi. unfold holds. cbn [is_eq coef].
    rewrite aff_unit by lia. rewrite Forall_forall in H. apply H. apply nth_In. lia.
Qed.

Definition isl_dom (negvar : bool) (c : cst) : bset :=
  if negvar then bset_from c else mkBset (bs_dim (bset_from c)) 0 0 (bs_rows (bset_from c) ++ orthant_rows (bs_dim (bset_from c))).

Lemma isl_dom_mem negvar c x : wf_cst c -> fits64_cst c -> (bset_mem (isl_dom negvar c) x [] <-> solution negvar c x).
Proof.
  intros W F. unfold solution. destruct negvar; cbn [isl_dom].
  - rewrite bset_from_mem by auto. intuition discriminate.
  - rewrite <- bset_from_mem by auto. unfold bset_mem. cbn [bs_dim bs_ndiv bs_npar bs_rows bset_from]. split.
    + intros (A & B & e & E & H). destruct e; [|discriminate]. rewrite !app_nil_r in H.
      split; [split; [auto|split; [auto|]]|].
      * exists []. split; auto. rewrite !app_nil_r. intros r Hr. apply H. apply in_or_app. left. auto.
      * intros _. apply (orthant_holds (ncols c - 1) x A). intros r Hr. apply H. apply in_or_app. right. auto.
    + intros [(A & B & e & E & H) N]. split; auto. split; auto. exists []. split; auto. destruct e; [|discriminate].
      rewrite !app_nil_r in *. intros r Hr. apply in_app_or in Hr as [Hr|Hr]; auto.
      apply (proj2 (orthant_holds (ncols c - 1) x A) (N eq_refl)). auto.
Qed.
Lemma isl_dom_shaped negvar c : wf_cst c -> shaped_set (isl_dom negvar c) /\ bs_npar (isl_dom negvar c) = 0%nat.
Proof.
  intros W. pose proof (bset_from_shaped c W) as B. destruct negvar; [split; auto|]. split; [|reflexivity].
  intros r Hr. cbn [isl_dom bs_rows bs_dim bs_ndiv bs_npar] in *. apply in_app_or in Hr as [Hr|Hr].
  - specialize (B r Hr). cbn in B |- *. lia.
  - apply in_map_iff in Hr as (i & <- & Hi). cbn. rewrite set_nth_length, repeat_length. lia.
Qed.

Lemma lexmin_isl_spec f negvar c : isl_lexmin_ok f -> wf_cst c -> fits64_cst c ->
  (forall x, lexmin_isl f negvar c = Some x <-> exists y, least (solution negvar c) y /\ x = map num_ll y) /\
  ((forall x, ~ solution negvar c x) -> lexmin_isl f negvar c = None).
Proof.
  intros F W Fi. destruct (isl_dom_shaped negvar c W) as [Sh N]. destruct (F _ Sh N) as [A B].
  change (lexmin_isl f negvar c) with (option_map (map num_ll) (f (isl_dom negvar c))). split.
  - intros x. split.
    + destruct (f (isl_dom negvar c)) as [y|] eqn:E; [|discriminate]. cbn. intros X. injection X as <-. exists y. split; auto.
      pose proof (proj1 (A y) eq_refl) as Ly. revert Ly. apply least_ext. intros z. symmetry. apply isl_dom_mem; auto.
    + intros (y & Ly & ->). assert (f (isl_dom negvar c) = Some y) as ->; [|reflexivity]. apply A.
      revert Ly. apply least_ext. intros z. apply isl_dom_mem; auto.
  - intros H. rewrite B; auto. intros x Hx. apply isl_dom_mem in Hx; auto. eapply H; eauto.
Qed.

Lemma pip_matrix_mem negvar c x : wf_cst c -> (pip_mem negvar (ncols c - 1) (pip_matrix c) x <-> solution negvar c x).
Proof.
  intros [W _]. unfold pip_mem, solution, mem, pip_matrix. split.
  - intros (L & N & H). split; [split; [lia|]|auto]. intros r Hr.
    specialize (H _ (in_map (fun r => (if is_eq r then 0 else 1) :: coef r) _ _ Hr)). unfold holds. cbn in H. destruct (is_eq r); auto.
  - intros ((L & H) & N). split; [lia|]. split; auto. intros l Hl. apply in_map_iff in Hl as (r & <- & Hr). specialize (H r Hr).
    unfold holds in H. cbn. destruct (is_eq r); auto.
Qed.

Lemma lexmin_pip_spec f negvar c : pip_ok f -> wf_cst c ->
  (forall x, lexmin_pip f negvar c = Some x <-> exists y, least (solution negvar c) y /\ x = map wrap64 y) /\
  ((forall x, ~ solution negvar c x) -> lexmin_pip f negvar c = None).
Proof.
  intros F W. destruct (F negvar (ncols c - 1)%nat (pip_matrix c)) as [A B].
  { intros l Hl. apply in_map_iff in Hl as (r & <- & Hr). destruct W as [W1 W2]. cbn. rewrite (W2 r Hr). lia. }
  unfold lexmin_pip. split.
  - intros x. split.
    + destruct (f negvar _ _) as [y|] eqn:E; [|discriminate]. cbn. intros X. injection X as <-. exists y. split; auto.
      pose proof (proj1 (A y) eq_refl) as Ly. revert Ly. apply least_ext. intros z. symmetry. apply pip_matrix_mem; auto.
    + intros (y & Ly & ->). assert (f negvar (ncols c - 1)%nat (pip_matrix c) = Some y) as ->; [|reflexivity]. apply A.
      revert Ly. apply least_ext. intros z. apply pip_matrix_mem; auto.
  - intros H. rewrite B; auto. intros x Hx. apply pip_matrix_mem in Hx; auto. eapply H; eauto.
Qed.
