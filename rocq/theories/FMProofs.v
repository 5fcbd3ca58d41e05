(** * Fourier-Motzkin and Gaussian elimination compute rational projections. *)
From Coq Require Import ZArith QArith Qfield List Bool Lia Lqa.
From Verif Require Import SpecLinear VecProofs MathModel GcdProofs ConstraintsModel SimplifyProofs.
Import ListNotations.
Open Scope Z_scope.

(** ** Equalities to inequalities *)
Definition qsum (l : list Q) : Q := fold_right Qplus 0%Q l.

Lemma qsum_nonneg_zero l :
  (forall q, In q l -> (0 <= q)%Q) -> (qsum l <= 0)%Q -> forall q, In q l -> (q == 0)%Q.
Proof.
  assert (forall l, (forall q, In q l -> (0 <= q)%Q) -> (0 <= qsum l)%Q) as Hnn.
  { intros l0; induction l0; simpl; intros; try lra.
    assert (0 <= qsum l0)%Q by (apply IHl0; intros; apply H; auto).
    pose proof (H a (or_introl eq_refl)). lra. }
  induction l as [|a l IH]; simpl; [tauto|]. intros H Hs q [->|Hq].
  - assert (0 <= qsum l)%Q by (apply Hnn; auto). pose proof (H q (or_introl eq_refl)). lra.
  - apply IH; auto. pose proof (H a (or_introl eq_refl)). lra.
Qed.

Lemma qdot_sub a b x :
  length a = length b ->
  (qdot (zip_with Z.sub a b) x == qdot a x - qdot b x)%Q.
Proof.
  revert b x; induction a; destruct b, x; simpl; intros; try lia; try ring.
  rewrite IHa by lia. unfold Z.sub. rewrite inject_Z_plus, inject_Z_opp. ring.
Qed.

Lemma neg_eq_sum_fold nc l acc x :
  (forall r, In r l -> length (coef r) = nc) -> length acc = nc ->
  length (fold_left (fun acc r => if is_eq r then zip_with Z.sub acc (coef r) else acc) l acc) = nc /\
  (qdot (fold_left (fun acc r => if is_eq r then zip_with Z.sub acc (coef r) else acc) l acc) x
   == qdot acc x - qsum (map (fun r => qdot (coef r) x) (filter is_eq l)))%Q.
Proof.
  revert acc. induction l as [|r l IH]; simpl; intros acc Hl Ha.
  - split; auto. ring.
  - destruct (is_eq r) eqn:E; simpl.
    + destruct (IH (zip_with Z.sub acc (coef r))) as [H1 H2]; auto.
      { rewrite zip_with_length; auto. rewrite Hl; auto. }
      split; auto. rewrite H2, qdot_sub by (rewrite Hl; auto). ring.
    + apply IH; auto.
Qed.

Lemma neg_eq_sum_length nc l :
  (forall r, In r l -> length (coef r) = nc) -> length (neg_eq_sum nc l) = nc.
Proof. intros. apply (neg_eq_sum_fold nc l _ []); auto. apply repeat_length. Qed.

Lemma neg_eq_sum_qaff nc l x :
  (forall r, In r l -> length (coef r) = nc) ->
  (qaff (neg_eq_sum nc l) x == - qsum (map (fun r => qaff (coef r) x) (filter is_eq l)))%Q.
Proof.
  intros. unfold qaff, neg_eq_sum.
  destruct (neg_eq_sum_fold nc l (repeat 0 nc) (x ++ [1%Q]) H) as [_ ->].
  apply repeat_length. rewrite qdot_repeat0_l. ring.
Qed.

Lemma to_pure_ncols c : ncols (to_pure_inequalities c) = ncols c.
Proof. unfold to_pure_inequalities. destruct (existsb _ _); auto. Qed.

Lemma to_pure_wf c : wf_cst c -> wf_cst (to_pure_inequalities c).
Proof.
  intros [H1 H2]. split; [rewrite to_pure_ncols; auto|].
  rewrite to_pure_ncols. unfold to_pure_inequalities.
  destruct (existsb _ _); simpl; intros r Hr.
  - apply in_app_or in Hr. destruct Hr as [Hr|[<-|[]]].
    + apply in_map_iff in Hr as (r' & <- & Hr). simpl; auto.
    + simpl. apply neg_eq_sum_length; auto.
  - apply in_map_iff in Hr as (r' & <- & Hr). simpl; auto.
Qed.

Lemma to_pure_ineq c r : In r (rows (to_pure_inequalities c)) -> is_eq r = false.
Proof.
  unfold to_pure_inequalities. destruct (existsb _ _); simpl; intros Hr.
  - apply in_app_or in Hr. destruct Hr as [Hr|[<-|[]]]; auto.
    apply in_map_iff in Hr as (r' & <- & Hr). auto.
  - apply in_map_iff in Hr as (r' & <- & Hr). auto.
Qed.

Lemma to_pure_qholds c x : wf_cst c ->
  (forall r, In r (rows (to_pure_inequalities c)) -> qholds x r) <->
  (forall r, In r (rows c) -> qholds x r).
Proof.
  intros [_ Hwf]. unfold to_pure_inequalities.
  destruct (existsb is_eq (rows c)) eqn:Ex; simpl.
  - split; intros H r Hr.
    + assert (forall r, In r (rows c) -> (0 <= qaff (coef r) x)%Q) as Hge.
      { intros r' Hr'. apply (H (mkRow false (coef r'))). apply in_or_app. left.
        apply in_map_iff. exists r'; auto. }
      unfold qholds. destruct (is_eq r) eqn:E; auto.
      specialize (H (mkRow false (neg_eq_sum (ncols c) (rows c)))).
      assert (0 <= qaff (neg_eq_sum (ncols c) (rows c)) x)%Q as Hs.
      { apply H. apply in_or_app. right. left; auto. }
      rewrite neg_eq_sum_qaff in Hs by auto.
      apply (qsum_nonneg_zero (map (fun r => qaff (coef r) x) (filter is_eq (rows c)))).
      * intros q Hq. apply in_map_iff in Hq as (r' & <- & Hr'). apply filter_In in Hr' as [? _]. auto.
      * lra.
      * apply in_map_iff. exists r; split; auto. apply filter_In; auto.
    + apply in_app_or in Hr. destruct Hr as [Hr|[<-|[]]].
      * apply in_map_iff in Hr as (r' & <- & Hr). unfold qholds; simpl.
        specialize (H r' Hr). unfold qholds in H. destruct (is_eq r'); auto. rewrite H. lra.
      * unfold qholds; simpl. rewrite neg_eq_sum_qaff by auto.
        assert (qsum (map (fun r => qaff (coef r) x) (filter is_eq (rows c))) == 0)%Q as ->; [|lra].
        clear - H. induction (rows c) as [|r l IH]; simpl; try lra.
        destruct (is_eq r) eqn:E; simpl.
        -- specialize (H r (or_introl eq_refl)) as Hr. unfold qholds in Hr. rewrite E in Hr.
           rewrite Hr, IH; try lra. intros; apply H; simpl; auto.
        -- apply IH. intros; apply H; simpl; auto.
  - split; intros H r Hr.
    + assert (is_eq r = false) as E.
      { destruct (is_eq r) eqn:E; auto. rewrite <- Ex. symmetry. apply existsb_exists. exists r; auto. }
      specialize (H (mkRow false (coef r))). unfold qholds in *. simpl in H. rewrite E.
      apply H. apply in_map_iff. exists r; auto.
    + apply in_map_iff in Hr as (r' & <- & Hr). unfold qholds; simpl.
      specialize (H r' Hr). unfold qholds in H. destruct (is_eq r'); auto. rewrite H; lra.
Qed.

Lemma to_pure_qmem c x : wf_cst c -> qmem (to_pure_inequalities c) x <-> qmem c x.
Proof.
  intros. unfold qmem. rewrite to_pure_ncols, to_pure_qholds by auto. tauto.
Qed.

Lemma to_pure_mem c x : wf_cst c -> mem (to_pure_inequalities c) x <-> mem c x.
Proof. intros. rewrite <- !qmem_zpoint. apply to_pure_qmem; auto. Qed.

(** ** Separation of lower and upper bounds *)
Lemma qlist_max (L : list Q) : L <> [] -> exists m, In m L /\ forall l, In l L -> (l <= m)%Q.
Proof.
  induction L as [|a L IH]; intros; [congruence|].
  destruct L as [|b L].
  - exists a. split; simpl; auto. intros l [<-|[]]; lra.
  - destruct IH as (m & Hm & Hl); [congruence|].
    destruct (Qlt_le_dec a m) as [C|C].
    + exists m. split; [right; auto|]. intros l [<-|Hl']; [lra|auto].
    + exists a. split; [left; auto|]. intros l [<-|Hl']; [lra|]. specialize (Hl l Hl'). lra.
Qed.

Lemma separate (L U : list Q) :
  (forall l u, In l L -> In u U -> (l <= u)%Q) ->
  exists v, (forall l, In l L -> (l <= v)%Q) /\ (forall u, In u U -> (v <= u)%Q).
Proof.
  intros H. destruct L as [|l0 L].
  - destruct U as [|u0 U].
    + exists 0%Q. split; simpl; tauto.
    + destruct (qlist_max (map Qopp (u0 :: U))) as (m & Hm & Hl); [simpl; congruence|].
      exists (- m)%Q. split; [simpl; tauto|]. intros u Hu.
      apply (in_map Qopp) in Hu. specialize (Hl _ Hu). lra.
  - destruct (qlist_max (l0 :: L)) as (m & Hm & Hl); [congruence|].
    exists m. split; auto.
Qed.

(** ** Pairwise combination *)
Section FM.
  Variable pos : nat.
  Variable x : qpoint.
  Hypothesis Hpos : (pos <= length x)%nat.

  (** The value at which the row changes sign, as a function of the eliminated
      variable. *)
  Definition root (r : list Z) : Q :=
    (- qaff (remove_at pos r) x / inject_Z (nth pos r 0%Z))%Q.

  Definition okrow (r : list Z) : Prop := length r = S (S (length x)).

  Lemma qaff_lower r v : okrow r -> 0 < nth pos r 0 ->
    (0 <= qaff r (insert_at pos v x))%Q <-> (root r <= v)%Q.
  Proof.
    intros Hr Hc. rewrite qaff_insert_point by auto. unfold root.
    set (c := inject_Z (nth pos r 0)). set (A := qaff (remove_at pos r) x).
    assert (0 < c)%Q as Hc' by (apply inject_Z_lt0; auto).
    assert (- A / c <= v <-> - A <= v * c)%Q as ->.
    { split; intros H.
      - apply (Qmult_le_r _ _ c Hc') in H. field_simplify in H; lra.
      - apply Qle_shift_div_r; auto. }
    lra.
  Qed.

  Lemma qaff_upper r v : okrow r -> nth pos r 0 < 0 ->
    (0 <= qaff r (insert_at pos v x))%Q <-> (v <= root r)%Q.
  Proof.
    intros Hr Hc. rewrite qaff_insert_point by auto. unfold root.
    set (c := inject_Z (nth pos r 0)). set (A := qaff (remove_at pos r) x).
    assert (c < 0)%Q as Hc'.
    { unfold c. rewrite <- inject_Z_0. rewrite <- Zlt_Qlt. auto. }
    assert (- A / c == A / (- c))%Q as -> by (field; lra).
    assert (0 < - c)%Q as Hc2 by lra.
    assert (v <= A / - c <-> v * (- c) <= A)%Q as ->.
    { split; intros H.
      - apply (Qmult_le_r _ _ (- c) Hc2) in H.
        assert (A / - c * - c == A)%Q by (field; lra). lra.
      - apply Qle_shift_div_l; auto. }
    lra.
  Qed.

  Lemma qaff_none r v : okrow r -> nth pos r 0 = 0 ->
    (qaff r (insert_at pos v x) == qaff (remove_at pos r) x)%Q.
  Proof.
    intros Hr Hc. rewrite qaff_insert_point by auto. rewrite Hc, inject_Z_0. ring.
  Qed.

  Lemma fm_combine_root u l : okrow u -> okrow l -> nth pos u 0 < 0 -> 0 < nth pos l 0 ->
    (0 <= qaff (fm_combine pos u l) x)%Q <-> (root l <= root u)%Q.
  Proof.
    intros Hu Hl Cu Cl. unfold fm_combine.
    set (cu := nth pos u 0) in *. set (cl := nth pos l 0) in *.
    rewrite (lcm_comm (- cu) cl).
    pose proof (lcm_pos cl (- cu) ltac:(lia) ltac:(lia)) as Hm.
    pose proof (lcm_quot_l cl (- cu) ltac:(lia) ltac:(lia)) as E2.
    pose proof (lcm_quot_r cl (- cu) ltac:(lia) ltac:(lia)) as E1.
    set (m := lcm cl (- cu)) in *. set (f1 := Z.quot m (- cu)) in *. set (f2 := Z.quot m cl) in *.
    clearbody m f1 f2.
    rewrite zip_with_remove_at by (unfold okrow in *; lia).
    unfold qaff at 1. rewrite qdot_comb.
    2:{ unfold okrow in *. rewrite !remove_at_length; lia. }
    fold (qaff (remove_at pos u) x). fold (qaff (remove_at pos l) x).
    unfold root. fold cu cl.
    set (A := qaff (remove_at pos u) x). set (B := qaff (remove_at pos l) x).
    assert (inject_Z cu < 0)%Q as Ncu.
    { rewrite <- inject_Z_0. rewrite <- Zlt_Qlt. auto. }
    assert (0 < inject_Z cl)%Q as Ncl by (apply inject_Z_lt0; auto).
    assert (inject_Z f1 == inject_Z m / - inject_Z cu)%Q as ->.
    { rewrite <- E1, inject_Z_mult, inject_Z_opp. field. intro; lra. }
    assert (inject_Z f2 == inject_Z m / inject_Z cl)%Q as ->.
    { rewrite <- E2, inject_Z_mult. field. intro; lra. }
    apply inject_Z_lt0 in Hm.
    assert (inject_Z m / - inject_Z cu * A + inject_Z m / inject_Z cl * B
            == inject_Z m * ((- A / inject_Z cu) - (- B / inject_Z cl)))%Q as ->.
    { field. split; intro; lra. }
    rewrite qmul_pos_le0 by auto.
    generalize (- A / inject_Z cu)%Q (- B / inject_Z cl)%Q. intros q1 q2. split; intros; lra.
  Qed.

  (** The elimination step on a list of rows in which the variable only occurs in
      inequalities. *)
  Lemma fm_rows_exact keep all :
    (forall r, In r all -> okrow (coef r)) ->
    (forall r, In r all -> is_eq r = true -> keep = true /\ nth pos (coef r) 0 = 0) ->
    (forall r, In r (flat_map (fm_row pos keep all) all) -> qholds x r) <->
    (exists v, forall r, In r all -> qholds (insert_at pos v x) r).
  Proof.
    intros Hok Heq. split.
    - intros H.
      set (L := filter (fun r => 0 <? nth pos (coef r) 0) all).
      set (U := filter (fun r => nth pos (coef r) 0 <? 0) all).
      assert (forall l, In l L -> In l all /\ 0 < nth pos (coef l) 0) as HL.
      { intros l Hl. apply filter_In in Hl as [? E]. apply Z.ltb_lt in E. auto. }
      assert (forall l, In l U -> In l all /\ nth pos (coef l) 0 < 0) as HU.
      { intros l Hl. apply filter_In in Hl as [? E]. apply Z.ltb_lt in E. auto. }
      destruct (separate (map (fun r => root (coef r)) L) (map (fun r => root (coef r)) U))
        as (v & Hlo & Hup).
      { intros q1 q2 H1 H2. apply in_map_iff in H1 as (l & <- & Hl).
        apply in_map_iff in H2 as (u & <- & Hu).
        destruct (HL _ Hl) as [Hl1 Hl2]. destruct (HU _ Hu) as [Hu1 Hu2].
        apply fm_combine_root; auto.
        specialize (H (mkRow false (fm_combine pos (coef u) (coef l)))). apply H.
        apply in_flat_map. exists u. split; auto. unfold fm_row.
        destruct (Z.ltb_spec (nth pos (coef u) 0) 0); [|lia].
        apply in_map_iff. exists l. split; auto. }
      exists v. intros r Hr.
      destruct (Z.lt_trichotomy (nth pos (coef r) 0) 0) as [C|[C|C]].
      + assert (is_eq r = false) as E.
        { destruct (is_eq r) eqn:E; auto. destruct (Heq r Hr E). lia. }
        unfold qholds. rewrite E. apply qaff_upper; auto. apply Hup. apply in_map_iff.
        exists r; split; auto. apply filter_In. split; auto. apply Z.ltb_lt; auto.
      + assert (qholds x (mkRow (keep && is_eq r) (remove_at pos (coef r)))) as K.
        { apply H. apply in_flat_map. exists r; split; auto. unfold fm_row. rewrite C. simpl. auto. }
        unfold qholds in *. simpl in K.
        destruct (is_eq r) eqn:E.
        * destruct (Heq r Hr E) as [-> _]. simpl in K. rewrite qaff_none; auto.
        * rewrite andb_false_r in K. rewrite qaff_none; auto.
      + assert (is_eq r = false) as E.
        { destruct (is_eq r) eqn:E; auto. destruct (Heq r Hr E). lia. }
        unfold qholds. rewrite E. apply qaff_lower; auto. apply Hlo. apply in_map_iff.
        exists r; split; auto. apply filter_In. split; auto. apply Z.ltb_lt; auto.
    - intros (v & Hv) r Hr. apply in_flat_map in Hr as (u & Hu & Hr). unfold fm_row in Hr.
      destruct (Z.ltb_spec (nth pos (coef u) 0) 0) as [C|C].
      + apply in_map_iff in Hr as (l & <- & Hl). apply filter_In in Hl as [Hl Cl].
        apply Z.ltb_lt in Cl. unfold qholds. cbn [is_eq coef].
        apply fm_combine_root; auto.
        assert (is_eq u = false) as Eu.
        { destruct (is_eq u) eqn:E; auto. destruct (Heq u Hu E). lia. }
        assert (is_eq l = false) as El.
        { destruct (is_eq l) eqn:E; auto. destruct (Heq l Hl E). lia. }
        specialize (Hv u Hu) as Ku. specialize (Hv l Hl) as Kl. unfold qholds in Ku, Kl.
        rewrite Eu in Ku. rewrite El in Kl.
        apply qaff_upper in Ku; auto. apply qaff_lower in Kl; auto. lra.
      + destruct (Z.eqb_spec (nth pos (coef u) 0) 0) as [C0|C0]; [|destruct Hr].
        destruct Hr as [<-|[]]. specialize (Hv u Hu). unfold qholds in *. cbn [is_eq coef].
        destruct (is_eq u) eqn:E.
        * destruct (Heq u Hu E) as [-> _]. simpl. rewrite qaff_none in Hv; auto.
        * rewrite andb_false_r. rewrite qaff_none in Hv; auto.
  Qed.

  (** No row mentions the variable. *)
  Lemma drop_rows_exact all :
    (forall r, In r all -> okrow (coef r)) ->
    forallb (fun r => nth pos (coef r) 0 =? 0) all = true ->
    (forall r, In r (map (map_coef (remove_at pos)) all) -> qholds x r) <->
    (exists v, forall r, In r all -> qholds (insert_at pos v x) r).
  Proof.
    intros Hok Hz. rewrite forallb_forall in Hz.
    assert (forall v r, In r all ->
             qholds (insert_at pos v x) r <-> qholds x (map_coef (remove_at pos) r)) as K.
    { intros v r Hr. unfold qholds; simpl. specialize (Hz r Hr). apply Z.eqb_eq in Hz.
      destruct (is_eq r); rewrite qaff_none; auto; tauto. }
    split.
    - intros H. exists 0%Q. intros r Hr. apply K; auto. apply H. apply in_map; auto.
    - intros (v & Hv) r Hr. apply in_map_iff in Hr as (r' & <- & Hr). apply (K v); auto.
  Qed.

  (** ** Substitution by an equality *)
  Lemma ge_row_eval (a b : list Z) v : okrow a -> okrow b -> nth pos a 0 <> 0 ->
    (qaff a (insert_at pos v x) == 0)%Q ->
    exists k, (0 < k)%Q /\
      (qaff (remove_at pos (ge_row pos a b)) x == k * qaff b (insert_at pos v x))%Q.
  Proof.
    intros Ha Hb Ca E0. unfold ge_row.
    destruct (Z.eqb_spec (nth pos b 0) 0) as [Cb|Cb].
    - exists 1%Q. split; [lra|]. rewrite qaff_none by auto. ring.
    - set (pa := nth pos a 0) in *. set (pb := nth pos b 0) in *.
      set (m := lcm (Z.abs pa) (Z.abs pb)).
      assert (0 < m) as Hm by (apply lcm_pos; lia).
      assert (exists ka, m = pa * ka) as [ka Ka].
      { destruct (lcm_spec (Z.abs pa) (Z.abs pb)) as (k & _ & E & _); try lia.
        fold m in E. destruct (Z.abs_eq_or_opp pa) as [X|X]; rewrite X in E.
        exists k; auto. exists (- k). lia. }
      assert (exists kb, m = pb * kb) as [kb Kb].
      { destruct (lcm_spec (Z.abs pa) (Z.abs pb)) as (_ & k & _ & E & _); try lia.
        fold m in E. destruct (Z.abs_eq_or_opp pb) as [X|X]; rewrite X in E.
        exists k; auto. exists (- k). lia. }
      assert (exists f1 f2, 0 < f1 /\ pb * f1 = pa * f2 /\
         (if 1 <=? pb then Z.quot m pb else Z.quot (- m) pb) = f1 /\
         (if 1 <=? pb then Z.quot m pa else Z.quot (- m) pa) = f2) as (f1 & f2 & F1 & F2 & -> & ->).
      { destruct (Z.leb_spec 1 pb) as [C|C].
        - exists kb, ka. rewrite Ka at 2. rewrite Kb at 1.
          rewrite (Z.mul_comm pb kb), (Z.mul_comm pa ka), !Z.quot_mul by auto.
          repeat split; auto; nia.
        - exists (- kb), (- ka). rewrite Ka at 2. rewrite Kb at 1.
          replace (- (pb * kb)) with ((- kb) * pb) by ring.
          replace (- (pa * ka)) with ((- ka) * pa) by ring.
          rewrite !Z.quot_mul by auto. repeat split; auto; nia. }
      exists (inject_Z f1). split; [apply inject_Z_lt0; auto|].
      unfold okrow in *.
      rewrite zip_with_remove_at by lia.
      assert (zip_with (fun vb va : Z => vb * f1 - va * f2) (remove_at pos b) (remove_at pos a)
              = zip_with (fun vb va : Z => vb * f1 + va * (- f2)) (remove_at pos b) (remove_at pos a)) as ->.
      { generalize (remove_at pos b) (remove_at pos a). intros l1. induction l1; intros [|? l2]; simpl; auto.
        f_equal; auto. lia. }
      unfold qaff at 1. rewrite qdot_comb by (rewrite !remove_at_length; lia).
      fold (qaff (remove_at pos a) x). fold (qaff (remove_at pos b) x).
      rewrite qaff_insert_point in E0 by auto. rewrite qaff_insert_point by auto.
      fold pa in E0. fold pb.
      assert (qaff (remove_at pos a) x == - inject_Z pa * v)%Q as -> by lra.
      rewrite inject_Z_opp.
      assert (inject_Z pb * inject_Z f1 == inject_Z pa * inject_Z f2)%Q as EE.
      { rewrite <- !inject_Z_mult. rewrite F2. reflexivity. }
      transitivity (inject_Z f1 * qaff (remove_at pos b) x + inject_Z pa * inject_Z f2 * v)%Q.
      ring. rewrite <- EE. ring.
  Qed.

  Lemma solve_eq a : okrow a -> nth pos a 0 <> 0 ->
    exists v, (qaff a (insert_at pos v x) == 0)%Q.
  Proof.
    intros Ha Ca. exists (root a). rewrite qaff_insert_point by auto. unfold root.
    field. rewrite inject_Z_eq0. auto.
  Qed.
End FM.

(** ** Projection theorems *)
(** [x] (without coordinate [pos]) is in the projection of [c]. *)
Definition in_projection (c : cst) (pos : nat) (x : qpoint) : Prop :=
  exists v : Q, qmem c (insert_at pos v x).

Lemma remove_dim_ncols c pos : ncols (remove_dim c pos) = (ncols c - 1)%nat.
Proof. auto. Qed.

Lemma qmem_insert_len c pos v x :
  qmem c (insert_at pos v x) <->
  S (S (length x)) = ncols c /\ (forall r, In r (rows c) -> qholds (insert_at pos v x) r).
Proof. unfold qmem. rewrite insert_at_length. tauto. Qed.

Lemma fm_eliminate_exact c pos x : wf_cst c -> (S pos < ncols c)%nat ->
  qmem (fm_eliminate c pos) x <-> in_projection c pos x.
Proof.
  intros Hwf Hpos. unfold fm_eliminate.
  set (c1 := if existsb is_eq (rows c) then to_pure_inequalities c else c).
  assert (wf_cst c1) as Hwf1 by (unfold c1; destruct (existsb _ _); auto using to_pure_wf).
  assert (ncols c1 = ncols c) as Hn1 by (unfold c1; destruct (existsb _ _); auto using to_pure_ncols).
  assert (forall y, qmem c1 y <-> qmem c y) as Hm1.
  { intros y. unfold c1. destruct (existsb _ _); [apply to_pure_qmem; auto|tauto]. }
  assert (forall r, In r (rows c1) -> is_eq r = false) as Hi1.
  { unfold c1. destruct (existsb is_eq (rows c)) eqn:Ex.
    - apply to_pure_ineq.
    - intros r Hr. destruct (is_eq r) eqn:E; auto. rewrite <- Ex. symmetry.
      apply existsb_exists. exists r; auto. }
  rewrite simplify_qmem.
  assert (in_projection c pos x <-> in_projection c1 pos x) as ->.
  { unfold in_projection. split; intros [v Hv]; exists v; apply Hm1; auto. }
  clearbody c1. clear Hm1 Hwf. rename c1 into c', c into c0. rewrite <- Hn1 in Hpos. clear Hn1 c0.
  destruct Hwf1 as [_ Hwf].
  unfold in_projection. setoid_rewrite qmem_insert_len.
  destruct (forallb (fun r => nth pos (coef r) 0 =? 0) (rows c')) eqn:Ez.
  - unfold qmem. rewrite remove_dim_ncols. cbn [rows remove_dim].
    split.
    + intros [Hl Hr]. assert (pos <= length x)%nat by lia.
      destruct (drop_rows_exact pos x H (rows c')) as [K _]; auto.
      { intros r Hr'. unfold okrow. rewrite Hwf by auto. lia. }
      destruct (K Hr) as [v Hv]. exists v. split; auto. lia.
    + intros (v & Hl & Hr). split; [lia|]. assert (pos <= length x)%nat by lia.
      apply (drop_rows_exact pos x H (rows c')); auto.
      { intros r Hr'. unfold okrow. rewrite Hwf by auto. lia. }
      exists v; auto.
  - unfold qmem. cbn [rows ncols].
    split.
    + intros [Hl Hr]. assert (pos <= length x)%nat by lia.
      destruct (fm_rows_exact pos x H false (rows c')) as [K _]; auto.
      { intros r Hr'. unfold okrow. rewrite Hwf by auto. lia. }
      { intros r Hr' E. rewrite Hi1 in E by auto. discriminate. }
      destruct (K Hr) as [v Hv]. exists v. split; auto. lia.
    + intros (v & Hl & Hr). split; [lia|]. assert (pos <= length x)%nat by lia.
      apply (fm_rows_exact pos x H false (rows c')); auto.
      { intros r Hr'. unfold okrow. rewrite Hwf by auto. lia. }
      { intros r Hr' E. rewrite Hi1 in E by auto. discriminate. }
      exists v; auto.
Qed.

Lemma find_eq_spec pos k l :
  match find_eq pos k l with
  | Some i => exists j e, i = (k + j)%nat /\ nth_error l j = Some e /\ is_eq e = true /\ nth pos (coef e) 0 <> 0
  | None => existsb (fun r => is_eq r && negb (nth pos (coef r) 0 =? 0)) l = false
  end.
Proof.
  revert k. induction l as [|r l IH]; simpl; intros; auto.
  destruct (is_eq r && negb (nth pos (coef r) 0 =? 0)) eqn:E.
  - apply andb_true_iff in E as [E1 E2]. apply negb_true_iff in E2. apply Z.eqb_neq in E2.
    exists 0%nat, r. simpl. repeat split; auto.
  - specialize (IH (S k)). destruct (find_eq pos (S k) l); simpl; auto.
    destruct IH as (j & e & H1 & H2 & H3 & H4). exists (S j), e. simpl. repeat split; auto. lia.
Qed.

Lemma In_remove_at_or {A} (l : list A) k e : nth_error l k = Some e ->
  forall r, In r l <-> r = e \/ In r (remove_at k l).
Proof.
  revert k; induction l as [|a l IH]; intros [|k] H r; simpl in *; try discriminate.
  - inversion H; subst. intuition.
  - specialize (IH k H r). tauto.
Qed.

Lemma gaussian_eliminate_exact c c' pos x : wf_cst c -> (S pos < ncols c)%nat ->
  gaussian_eliminate_cst c pos = Some c' ->
  qmem c' x <-> in_projection c pos x.
Proof.
  intros [_ Hwf] Hpos H. unfold gaussian_eliminate_cst in H.
  pose proof (find_eq_spec pos 0 (rows c)) as F.
  destruct (find_eq pos 0 (rows c)) as [k|]; [|discriminate].
  destruct F as (j & e & -> & Hn & He & Hc). simpl in H. rewrite Hn in H.
  inversion H; subst c'; clear H.
  pose proof (nth_error_In _ _ Hn) as Hin.
  pose proof (In_remove_at_or _ _ _ Hn) as Hor.
  unfold in_projection. setoid_rewrite qmem_insert_len.
  unfold qmem, remove_dim. cbn [rows ncols].
  split.
  - intros [Hl Hr]. assert (pos <= length x)%nat as Hp by lia.
    assert (forall r, In r (rows c) -> okrow x (coef r)) as Hok.
    { intros r Hr'. unfold okrow. rewrite Hwf by auto; lia. }
    destruct (solve_eq pos x Hp (coef e)) as [v Hv]; auto.
    exists v. split; [lia|]. intros r Hr'. apply Hor in Hr'. destruct Hr' as [->|Hr'].
    { unfold qholds. rewrite He. auto. }
    assert (In r (rows c)) by (apply Hor; auto).
    destruct (ge_row_eval pos x Hp (coef e) (coef r) v) as (kk & Hk & E); auto.
    specialize (Hr (map_coef (remove_at pos) (map_coef (ge_row pos (coef e)) r))).
    unfold qholds in *. cbn [map_coef is_eq coef] in Hr.
    destruct (is_eq r); rewrite E in Hr.
    + apply (qmul_pos_eq0 kk); auto. apply Hr. apply in_map. apply in_map. auto.
    + apply (qmul_pos_le0 kk); auto. apply Hr. apply in_map. apply in_map. auto.
  - intros (v & Hl & Hr). split; [lia|]. assert (pos <= length x)%nat as Hp by lia.
    assert (forall r, In r (rows c) -> okrow x (coef r)) as Hok.
    { intros r Hr0. unfold okrow. rewrite Hwf by auto. lia. }
    intros r Hr'. apply in_map_iff in Hr' as (r1 & <- & Hr1).
    apply in_map_iff in Hr1 as (r2 & <- & Hr2).
    assert (In r2 (rows c)) as Hr2' by (apply Hor; auto).
    pose proof (Hr e Hin) as Ke. unfold qholds in Ke. rewrite He in Ke.
    destruct (ge_row_eval pos x Hp (coef e) (coef r2) v) as (kk & Hk & E); auto.
    specialize (Hr r2 Hr2'). unfold qholds in *. cbn [map_coef is_eq coef].
    destruct (is_eq r2); rewrite E.
    + apply qmul_pos_eq0; auto.
    + apply qmul_pos_le0; auto.
Qed.

Lemma fm_smart_exact c pos x : wf_cst c -> (S pos < ncols c)%nat ->
  qmem (fm_eliminate_smart c pos) x <-> in_projection c pos x.
Proof.
  intros Hwf Hpos. unfold fm_eliminate_smart.
  destruct (existsb (fun r => is_eq r && negb (nth pos (coef r) 0 =? 0)) (rows c)) eqn:Ex.
  - destruct (gaussian_eliminate_cst c pos) as [c'|] eqn:G.
    + rewrite simplify_qmem. apply gaussian_eliminate_exact; auto.
    + unfold gaussian_eliminate_cst in G.
      pose proof (find_eq_spec pos 0 (rows c)) as F.
      destruct (find_eq pos 0 (rows c)) as [k|]; [|congruence].
      destruct F as (j & e & -> & Hn & He & Hc). simpl in G. rewrite Hn in G. discriminate.
  - rewrite simplify_qmem. destruct Hwf as [_ Hwf].
    assert (forall r, In r (rows c) -> is_eq r = true -> nth pos (coef r) 0 = 0) as Heq.
    { intros r Hr E. destruct (Z.eq_dec (nth pos (coef r) 0) 0) as [Z|Z]; auto.
      exfalso. rewrite <- not_true_iff_false in Ex. apply Ex. apply existsb_exists.
      exists r; split; auto. rewrite E; simpl. apply negb_true_iff. apply Z.eqb_neq; auto. }
    unfold in_projection. setoid_rewrite qmem_insert_len.
    destruct (forallb (fun r => nth pos (coef r) 0 =? 0) (rows c)) eqn:Ez.
    + unfold qmem. rewrite remove_dim_ncols. cbn [rows remove_dim].
      split.
      * intros [Hl Hr]. assert (pos <= length x)%nat by lia.
        destruct (drop_rows_exact pos x H (rows c)) as [K _]; auto.
        { intros r Hr'. unfold okrow. rewrite Hwf by auto. lia. }
        destruct (K Hr) as [v Hv]. exists v. split; auto. lia.
      * intros (v & Hl & Hr). split; [lia|]. assert (pos <= length x)%nat by lia.
        apply (drop_rows_exact pos x H (rows c)); auto.
        { intros r Hr'. unfold okrow. rewrite Hwf by auto. lia. }
        exists v; auto.
    + unfold qmem. cbn [rows ncols].
      split.
      * intros [Hl Hr]. assert (pos <= length x)%nat by lia.
        destruct (fm_rows_exact pos x H true (rows c)) as [K _]; auto.
        { intros r Hr'. unfold okrow. rewrite Hwf by auto. lia. }
        destruct (K Hr) as [v Hv]. exists v. split; auto. lia.
      * intros (v & Hl & Hr). split; [lia|]. assert (pos <= length x)%nat by lia.
        apply (fm_rows_exact pos x H true (rows c)); auto.
        { intros r Hr'. unfold okrow. rewrite Hwf by auto. lia. }
        exists v; auto.
Qed.

(** ** Well-formedness of the results *)
Lemma fm_row_length pos keep all r r' nc :
  (forall r, In r all -> length (coef r) = nc) -> In r all -> (pos < nc)%nat ->
  In r' (fm_row pos keep all r) -> length (coef r') = (nc - 1)%nat.
Proof.
  intros Hl Hr Hp. unfold fm_row.
  destruct (nth pos (coef r) 0 <? 0).
  - intros H. apply in_map_iff in H as (l & <- & H). apply filter_In in H as [H _].
    simpl. unfold fm_combine. rewrite remove_at_length; rewrite zip_with_length; rewrite ?Hl; auto.
  - destruct (nth pos (coef r) 0 =? 0); intros H; [|destruct H].
    destruct H as [<-|[]]. simpl. rewrite remove_at_length; rewrite Hl; auto.
Qed.

Lemma remove_dim_wf c pos : wf_cst c -> (S pos < ncols c)%nat -> wf_cst (remove_dim c pos).
Proof.
  intros [H1 H2] Hp. split; simpl; [lia|]. intros r Hr. apply in_map_iff in Hr as (r' & <- & Hr).
  simpl. rewrite remove_at_length; rewrite H2; auto; lia.
Qed.

Lemma fm_rows_wf c pos keep : wf_cst c -> (S pos < ncols c)%nat ->
  wf_cst (mkCst (ncols c - 1) (flat_map (fm_row pos keep (rows c)) (rows c))).
Proof.
  intros [H1 H2] Hp. split; simpl; [lia|]. intros r Hr.
  apply in_flat_map in Hr as (u & Hu & Hr).
  apply (fm_row_length pos keep (rows c) u r (ncols c)); auto. lia.
Qed.

Lemma fm_eliminate_wf c pos : wf_cst c -> (S pos < ncols c)%nat ->
  wf_cst (fm_eliminate c pos) /\ ncols (fm_eliminate c pos) = (ncols c - 1)%nat.
Proof.
  intros Hwf Hp. unfold fm_eliminate.
  set (c1 := if existsb is_eq (rows c) then to_pure_inequalities c else c).
  assert (wf_cst c1) as Hwf1 by (unfold c1; destruct (existsb _ _); auto using to_pure_wf).
  assert (ncols c1 = ncols c) as Hn1 by (unfold c1; destruct (existsb _ _); auto using to_pure_ncols).
  rewrite simplify_ncols. rewrite <- Hn1 in *. split.
  - apply simplify_wf. destruct (forallb _ _); [apply remove_dim_wf|apply fm_rows_wf]; auto.
  - destruct (forallb _ _); auto.
Qed.

Lemma ge_row_length pos a b : length a = length b -> length (ge_row pos a b) = length b.
Proof.
  intros. unfold ge_row. destruct (_ =? _); auto. apply zip_with_length; auto.
Qed.

Lemma fm_smart_wf c pos : wf_cst c -> (S pos < ncols c)%nat ->
  wf_cst (fm_eliminate_smart c pos) /\ ncols (fm_eliminate_smart c pos) = (ncols c - 1)%nat.
Proof.
  intros Hwf Hp. unfold fm_eliminate_smart.
  destruct (existsb (fun r => is_eq r && negb (nth pos (coef r) 0 =? 0)) (rows c)) eqn:Ex.
  - unfold gaussian_eliminate_cst.
    pose proof (find_eq_spec pos 0 (rows c)) as F.
    destruct (find_eq pos 0 (rows c)) as [k|]; [|congruence].
    destruct F as (j & e & -> & Hn & He & Hc). simpl. rewrite Hn.
    rewrite simplify_ncols. split; auto. apply simplify_wf. apply remove_dim_wf; auto.
    destruct Hwf as [H1 H2]. split; auto. cbn [rows ncols]. intros r Hr.
    apply in_map_iff in Hr as (r' & <- & Hr). cbn [coef map_coef].
    apply In_remove_at in Hr. rewrite ge_row_length; auto.
    rewrite (H2 e), H2; auto. eapply nth_error_In; eauto.
  - rewrite simplify_ncols. split.
    + apply simplify_wf. destruct (forallb _ _); [apply remove_dim_wf|apply fm_rows_wf]; auto.
    + destruct (forallb _ _); auto.
Qed.
