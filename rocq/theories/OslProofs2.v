(** * Lemmas for the dependences of Candl (C72). *)
From Coq Require Import ZArith List Bool Lia Arith.
From Verif Require Import SpecLinear MathModel ConstraintsModel VecProofs MatrixProofs SimplifyProofs SpecOsl OslModel OslProofs.
Import ListNotations.
Open Scope Z_scope.

Lemma map_nth_seg (p q r : list Z) o n : length p = o -> length q = n ->
  map (fun j => nth (o + j) (p ++ q ++ r) 0) (seq 0 n) = q.
Proof.
  intros P Q. apply (nth_ext _ _ 0 0); [rewrite map_length, seq_length; auto|]. intros k K. rewrite map_length, seq_length in K.
  rewrite (nth_indep _ 0 ((fun j => nth (o + j) (p ++ q ++ r) 0) 0%nat)) by (rewrite map_length, seq_length; auto).
  rewrite (List.map_nth (fun j => nth (o + j) (p ++ q ++ r) 0)), seq_nth by auto.
  rewrite app_nth2 by lia. rewrite app_nth1 by lia. f_equal. lia.
Qed.

Lemma map_seq_list {A B} (g : nat -> B) (f : A -> B) (l : list A) d off n : n = length l ->
  (forall i, (i < n)%nat -> g (off + i)%nat = f (nth i l d)) -> map g (seq off n) = map f l.
Proof.
  intros -> . revert off. induction l as [|a l IH]; intros off H; simpl; auto. f_equal.
  - rewrite <- (Nat.add_0_r off). apply (H 0%nat). simpl. lia.
  - apply IH. intros i Hi. transitivity (g (off + S i)%nat); [f_equal; lia|]. rewrite H by (simpl; lia). reflexivity.
Qed.

Lemma nth_map_d {A B} (f : A -> B) l i d d' : (i < length l)%nat -> nth i (map f l) d' = f (nth i l d).
Proof. intros H. rewrite (nth_indep _ d' (f d)) by (rewrite map_length; auto). apply List.map_nth. Qed.

Section Row.
  Variables (ns a nt b q : nat) (e : Z) (s u t v p : list Z).
  Hypothesis Ls : length s = ns.
  Hypothesis Lu : length u = a.
  Hypothesis Lt : length t = nt.
  Hypothesis Lv : length v = b.
  Hypothesis Lp : length p = q.
  Let r := e :: s ++ u ++ t ++ v ++ p.

  Lemma row_s : map (fun j => nth (1 + j) r 0) (seq 0 ns) = s.
  Proof using Ls. exact (map_nth_seg [e] s _ 1 ns eq_refl Ls). Qed.
  Lemma row_t : map (fun j => nth (1 + (ns + a) + j) r 0) (seq 0 nt) = t.
  Proof using Ls Lu Lt.
    replace r with ((e :: s ++ u) ++ t ++ v ++ p) by (unfold r; simpl; rewrite <- app_assoc; reflexivity).
    apply map_nth_seg; [|auto]. clear Lv Lp. simpl. rewrite app_length. lia.
  Qed.
  Lemma row_p : map (fun j => nth (1 + (ns + a) + (nt + b) + j) r 0) (seq 0 q) = p.
  Proof.
    replace r with ((e :: s ++ u ++ t ++ v) ++ p ++ []) by (unfold r; simpl; rewrite app_nil_r, <- !app_assoc; reflexivity).
    apply map_nth_seg; [|auto]. simpl. rewrite !app_length. lia.
  Qed.
  Lemma row_holds s' u' t' v' p' : length s' = ns -> length u' = a -> length t' = nt -> length v' = b ->
    osl_holds (s' ++ u' ++ t' ++ v' ++ p') r <->
    (if e =? 0 then dot s s' + dot u u' + dot t t' + dot v v' + dot p (p' ++ [1]) = 0
     else 0 <= dot s s' + dot u u' + dot t t' + dot v v' + dot p (p' ++ [1])).
  Proof.
    intros A B C D. unfold osl_holds, aff, r. cbn [nth tl]. rewrite <- !app_assoc.
    rewrite !dot_app by lia. destruct (e =? 0); lia.
  Qed.
End Row.

Lemma it_par_aff n r s p : length r = (n + length p + 1)%nat -> length s = n ->
  dot (it_part n r) s + dot (par_part n r) (p ++ [1]) = aff r (s ++ p).
Proof.
  intros L S_. unfold it_part, par_part, aff. rewrite <- (firstn_skipn n r) at 3. rewrite <- app_assoc, dot_app; [lia|].
  rewrite firstn_length. lia.
Qed.

Lemma it_part_length n r m : length r = (n + m)%nat -> length (it_part n r) = n.
Proof. intros H. unfold it_part. rewrite firstn_length. lia. Qed.
Lemma par_part_length n r m : length r = (n + m)%nat -> length (par_part n r) = m.
Proof. intros H. unfold par_part. rewrite skipn_length. lia. Qed.

Lemma dot_opp_l a x : dot (map Z.opp a) x = - dot a x.
Proof. revert x. induction a as [|u a IH]; intros [|v x]; simpl; auto. rewrite IH. lia. Qed.

Lemma dot_set_unit n i v x : (i < n)%nat -> length x = n -> dot (set_nth i v (repeat 0 n)) x = v * nth i x 0.
Proof.
  revert i x. induction n as [|n IH]; intros i x K L; [lia|]. destruct x as [|u x]; [simpl in L; lia|]. simpl in L. destruct i as [|i].
  - cbn [set_nth repeat dot nth]. rewrite dot_repeat0_l. lia.
  - cbn [set_nth repeat dot nth]. rewrite IH by lia. lia.
Qed.

Section Candl.
  Variable k : candl_dep.
  Hypothesis W : wf_candl k.
  Let ns := k_ns k.
  Let nt := k_nt k.
  Let np := k_np k.
  Let n := length (k_sacc k).
  Let a := S (length (k_sacc k)).
  Let b := S (length (k_tacc k)).

  Local Definition src_row (r : row) : list Z :=
    eq_flag (is_eq r) :: it_part ns (coef r) ++ repeat 0 a ++ repeat 0 nt ++ repeat 0 b ++ par_part ns (coef r).
  Local Definition tgt_row (r : row) : list Z :=
    eq_flag (is_eq r) :: repeat 0 ns ++ repeat 0 a ++ it_part nt (coef r) ++ repeat 0 b ++ par_part nt (coef r).
  Local Definition s_sub (i : nat) : list Z := match i with O => repeat 0 (ns + np) ++ [k_sarr k] | S j => nth j (k_sacc k) [] end.
  Local Definition t_sub (i : nat) : list Z := match i with O => repeat 0 (nt + np) ++ [k_tarr k] | S j => nth j (k_tacc k) [] end.
  Local Definition sacc_row (i : nat) : list Z :=
    0 :: it_part ns (s_sub i) ++ neg_unit a i ++ repeat 0 nt ++ repeat 0 b ++ par_part ns (s_sub i).
  Local Definition tacc_row (i : nat) : list Z :=
    0 :: repeat 0 ns ++ repeat 0 a ++ map Z.opp (it_part nt (t_sub i)) ++ map Z.opp (neg_unit b i) ++ map Z.opp (par_part nt (t_sub i)).
  Local Definition eq_row (i : nat) : list Z :=
    0 :: repeat 0 ns ++ neg_unit a i ++ repeat 0 nt ++ map Z.opp (neg_unit b i) ++ repeat 0 (np + 1).
  Local Definition ord_row (ir : nat * (bool * Z * Z * Z)) : list Z :=
    match snd ir with (e, u, v, c) =>
      eq_flag e :: set_nth (fst ir) u (repeat 0 ns) ++ repeat 0 a ++ set_nth (fst ir) v (repeat 0 nt) ++
      repeat 0 b ++ repeat 0 np ++ [c] end.

  Lemma rows_form : candl_rows k = map src_row (k_sdom k) ++ map tgt_row (k_tdom k) ++ map sacc_row (seq 0 a) ++
    map tacc_row (seq 0 b) ++ map eq_row (seq 0 (Nat.min a b)) ++ map ord_row (combine (seq 0 (length (k_order k))) (k_order k)).
  Proof. reflexivity. Qed.

  Lemma sub_len i : (i < a)%nat -> length (s_sub i) = (ns + (np + 1))%nat /\ length (t_sub i) = (nt + (np + 1))%nat.
  Proof.
    destruct W as (_ & _ & A & B & E & _). intros I. destruct i as [|j]; simpl.
    - rewrite !app_length, !repeat_length. simpl. lia.
    - unfold a in I. rewrite A, B by (apply nth_In; lia). fold ns nt np. lia.
  Qed.

  Lemma ord_in ir : In ir (combine (seq 0 (length (k_order k))) (k_order k)) <->
    (fst ir < length (k_order k))%nat /\ nth_error (k_order k) (fst ir) = Some (snd ir).
  Proof.
    assert (forall l o i x, In (i, x) (combine (seq o (length l)) l) <-> (o <= i)%nat /\ nth_error l (i - o) = Some (x : bool * Z * Z * Z)) as G.
    { induction l as [|y l IH]; intros o i x; simpl.
      - split; [tauto|]. intros (_ & H). destruct (i - o)%nat; discriminate.
      - rewrite IH. split.
        + intros [E|(H & H')].
          * inversion E; subst. rewrite Nat.sub_diag. simpl. auto.
          * split; [lia|]. replace (i - o)%nat with (S (i - S o)) by lia. exact H'.
        + intros (H & H'). destruct (Nat.eq_dec i o) as [->|NE].
          * left. rewrite Nat.sub_diag in H'. simpl in H'. congruence.
          * right. split; [lia|]. replace (i - o)%nat with (S (i - S o)) in H' by lia. exact H'. }
    destruct ir as (i, x). rewrite G. simpl. rewrite Nat.sub_0_r. split.
    - intros (_ & H). split; [|auto]. apply nth_error_Some. congruence.
    - intros (_ & H). split; [lia|auto].
  Qed.

  (** ** The meaning of the system of Candl *)

  Section Meaning.
    Variables s t p : point.
    Hypothesis Ls : length s = ns.
    Hypothesis Lt : length t = nt.
    Hypothesis Lp : length p = np.

    Lemma src_row_holds r u v : In r (k_sdom k) -> length u = a -> length v = b ->
      osl_holds (s ++ u ++ t ++ v ++ p) (src_row r) <-> holds (s ++ p) r.
    Proof.
      intros I U V. destruct W as (A & _). specialize (A r I). fold ns np in A. unfold src_row.
      rewrite (row_holds ns a nt b) by (rewrite ?repeat_length; auto; apply (it_part_length _ _ (np + 1)); lia).
      rewrite !dot_repeat0_l. pose proof (it_par_aff ns (coef r) s p ltac:(lia) Ls) as E.
      unfold holds. destruct (is_eq r); cbn [eq_flag Z.eqb]; lia.
    Qed.

    Lemma tgt_row_holds r u v : In r (k_tdom k) -> length u = a -> length v = b ->
      osl_holds (s ++ u ++ t ++ v ++ p) (tgt_row r) <-> holds (t ++ p) r.
    Proof.
      intros I U V. destruct W as (_ & A & _). specialize (A r I). fold nt np in A. unfold tgt_row.
      rewrite (row_holds ns a nt b) by (rewrite ?repeat_length; auto; apply (it_part_length _ _ (np + 1)); lia).
      rewrite !dot_repeat0_l. pose proof (it_par_aff nt (coef r) t p ltac:(lia) Lt) as E.
      unfold holds. destruct (is_eq r); cbn [eq_flag Z.eqb]; lia.
    Qed.

    Lemma ab : a = b.
    Proof. destruct W as (_ & _ & _ & _ & E & _). unfold a, b. congruence. Qed.

    Lemma sacc_row_holds i u v : (i < a)%nat -> length u = a -> length v = b ->
      osl_holds (s ++ u ++ t ++ v ++ p) (sacc_row i) <-> nth i u 0 = aff (s_sub i) (s ++ p).
    Proof.
      intros I U V. destruct (sub_len i I) as (A & _). unfold sacc_row.
      rewrite (row_holds ns a nt b) by (rewrite ?repeat_length, ?neg_unit_length; auto; apply (it_part_length _ _ _ A)).
      rewrite !dot_repeat0_l, dot_neg_unit by auto. pose proof (it_par_aff ns (s_sub i) s p ltac:(lia) Ls) as E.
      cbn [Z.eqb]. lia.
    Qed.

    Lemma tacc_row_holds i u v : (i < b)%nat -> length u = a -> length v = b ->
      osl_holds (s ++ u ++ t ++ v ++ p) (tacc_row i) <-> nth i v 0 = aff (t_sub i) (t ++ p).
    Proof.
      intros I U V. destruct (sub_len i ltac:(rewrite ab; auto)) as (_ & A). unfold tacc_row.
      rewrite (row_holds ns a nt b) by (rewrite ?map_length, ?repeat_length, ?neg_unit_length; auto; apply (it_part_length _ _ _ A)).
      rewrite !dot_opp_l, !dot_repeat0_l, dot_neg_unit by auto. pose proof (it_par_aff nt (t_sub i) t p ltac:(lia) Lt) as E.
      cbn [Z.eqb]. lia.
    Qed.

    Lemma eq_row_holds i u v : (i < a)%nat -> length u = a -> length v = b ->
      osl_holds (s ++ u ++ t ++ v ++ p) (eq_row i) <-> nth i u 0 = nth i v 0.
    Proof.
      intros I U V. pose proof ab as AB. unfold eq_row.
      rewrite (row_holds ns a nt b) by (rewrite ?map_length, ?repeat_length, ?neg_unit_length; auto).
      rewrite !dot_opp_l, !dot_repeat0_l, !dot_neg_unit by (auto; lia). cbn [Z.eqb]. lia.
    Qed.

    Lemma ord_row_holds i e x y c u v : (i < length (k_order k))%nat -> length u = a -> length v = b ->
      osl_holds (s ++ u ++ t ++ v ++ p) (ord_row (i, (e, x, y, c))) <->
      (let w := x * nth i s 0 + y * nth i t 0 + c in if e then w = 0 else 0 <= w).
    Proof.
      intros I U V. destruct W as (_ & _ & _ & _ & _ & O1 & O2). fold ns in O1. fold nt in O2. unfold ord_row. cbn [fst snd].
      rewrite (row_holds ns a nt b) by (rewrite ?set_nth_length, ?repeat_length; auto).
      rewrite !dot_repeat0_l, !dot_set_unit by lia. rewrite dot_app by (rewrite repeat_length; auto). rewrite dot_repeat0_l.
      cbn [dot]. destruct e; cbn [eq_flag Z.eqb]; cbv zeta; lia.
    Qed.

    Lemma arr_aff m w z x : length x = (m + w)%nat -> aff (repeat 0 (m + w) ++ [z]) x = z.
    Proof. intros L. unfold aff. rewrite dot_app by (rewrite repeat_length; auto). rewrite dot_repeat0_l. simpl. lia. Qed.

    Lemma candl_meaning : candl_mem k s t p <-> k_sarr k = k_tarr k /\ dep_meaning k s t p.
    Proof.
      pose proof ab as AB. unfold candl_mem. fold ns nt np a b. rewrite rows_form. split.
      - intros (_ & _ & _ & u & v & U & V & H).
        assert (forall i, (i < a)%nat -> aff (s_sub i) (s ++ p) = aff (t_sub i) (t ++ p)) as S_.
        { intros i I. rewrite <- (proj1 (sacc_row_holds i u v I U V)), <- (proj1 (tacc_row_holds i u v ltac:(lia) U V)).
          - apply (eq_row_holds i u v I U V). apply H. rewrite !in_app_iff. do 4 right. left. apply in_map. apply in_seq. lia.
          - apply H. rewrite !in_app_iff. do 3 right. left. apply in_map. apply in_seq. lia.
          - apply H. rewrite !in_app_iff. do 2 right. left. apply in_map. apply in_seq. lia. }
        split; [|split; [|split; [|split]]].
        + specialize (S_ 0%nat ltac:(unfold a; lia)). cbn [s_sub t_sub] in S_. rewrite !arr_aff in S_ by (rewrite app_length; lia). exact S_.
        + intros r I. apply (src_row_holds r u v I U V). apply H. rewrite !in_app_iff. left. apply in_map, I.
        + intros r I. apply (tgt_row_holds r u v I U V). apply H. rewrite !in_app_iff. right. left. apply in_map, I.
        + intros j J. exact (S_ (S j) ltac:(unfold a; lia)).
        + intros i e x y c N. assert (i < length (k_order k))%nat as I by (apply nth_error_Some; congruence).
          apply (ord_row_holds i e x y c u v I U V). apply H. rewrite !in_app_iff. do 5 right.
          apply in_map. apply ord_in. auto.
      - intros (E0 & D1 & D2 & D3 & D4). split; [auto|]. split; [auto|]. split; [auto|].
        assert (forall i, (i < a)%nat -> aff (s_sub i) (s ++ p) = aff (t_sub i) (t ++ p)) as S_.
        { intros [|j] I; [|apply D3; unfold a in I; lia]. cbn [s_sub t_sub]. rewrite !arr_aff by (rewrite app_length; lia). exact E0. }
        set (u := map (fun i => aff (s_sub i) (s ++ p)) (seq 0 a)).
        set (v := map (fun i => aff (t_sub i) (t ++ p)) (seq 0 b)).
        assert (length u = a) as U by (unfold u; rewrite map_length, seq_length; auto).
        assert (length v = b) as V by (unfold v; rewrite map_length, seq_length; auto).
        assert (forall i, (i < a)%nat -> nth i u 0 = aff (s_sub i) (s ++ p)) as NU.
        { intros i I. unfold u. rewrite (nth_map_d _ _ _ 0%nat) by (rewrite seq_length; auto). rewrite seq_nth by auto. reflexivity. }
        assert (forall i, (i < b)%nat -> nth i v 0 = aff (t_sub i) (t ++ p)) as NV.
        { intros i I. unfold v. rewrite (nth_map_d _ _ _ 0%nat) by (rewrite seq_length; auto). rewrite seq_nth by auto. reflexivity. }
        exists u, v. split; [auto|]. split; [auto|]. intros l. rewrite !in_app_iff.
        intros [I|[I|[I|[I|[I|I]]]]]; apply in_map_iff in I; destruct I as (z & <- & I).
        + apply src_row_holds; auto.
        + apply tgt_row_holds; auto.
        + apply in_seq in I. apply sacc_row_holds; auto; try lia. apply NU. lia.
        + apply in_seq in I. apply tacc_row_holds; auto; try lia. apply NV. lia.
        + apply in_seq in I. apply eq_row_holds; auto; try lia. rewrite NU, NV by lia. apply S_. lia.
        + apply ord_in in I. destruct z as (i & (((e & x) & y) & c)). cbn [fst snd] in I. destruct I as (I & N).
          apply ord_row_holds; auto. exact (D4 i e x y c N).
    Qed.
  End Meaning.

  (** ** What is read from it *)

  Local Definition zsub := map (fun xy => fst xy - - snd xy).

  Lemma nth_seg {A} (x y z : list A) i d : (i < length y)%nat -> nth (length x + i) (x ++ y ++ z) d = nth i y d.
  Proof. intros H. rewrite app_nth2 by lia. rewrite app_nth1 by lia. f_equal. lia. Qed.

  Let sd := length (k_sdom k).
  Let td := length (k_tdom k).

  Lemma at_src i : (i < sd)%nat -> nth i (candl_rows k) [] = src_row (nth i (k_sdom k) (mkRow true [])).
  Proof.
    intros I. rewrite rows_form. rewrite app_nth1 by (rewrite map_length; auto). apply nth_map_d; auto.
  Qed.
  Lemma at_tgt i : (i < td)%nat -> nth (sd + i) (candl_rows k) [] = tgt_row (nth i (k_tdom k) (mkRow true [])).
  Proof.
    intros I. rewrite rows_form. unfold sd. rewrite <- (map_length src_row (k_sdom k)). rewrite nth_seg by (rewrite map_length; auto).
    apply nth_map_d; auto.
  Qed.
  Lemma at_sacc i : (i < a)%nat -> nth (sd + td + i) (candl_rows k) [] = sacc_row i.
  Proof.
    intros I. rewrite rows_form. rewrite app_assoc.
    replace (sd + td)%nat with (length (map src_row (k_sdom k) ++ map tgt_row (k_tdom k))) by (rewrite app_length, !map_length; auto).
    rewrite nth_seg by (rewrite map_length, seq_length; auto). rewrite (nth_map_d _ _ _ 0%nat) by (rewrite seq_length; auto).
    rewrite seq_nth by auto. reflexivity.
  Qed.
  Lemma at_tacc i : (i < b)%nat -> nth (sd + td + a + i) (candl_rows k) [] = tacc_row i.
  Proof.
    intros I. rewrite rows_form. rewrite !app_assoc. rewrite <- 2 app_assoc.
    replace (sd + td + a)%nat with (length ((map src_row (k_sdom k) ++ map tgt_row (k_tdom k)) ++ map sacc_row (seq 0 a)))
      by (rewrite !app_length, !map_length, seq_length; auto).
    rewrite nth_seg by (rewrite map_length, seq_length; auto). rewrite (nth_map_d _ _ _ 0%nat) by (rewrite seq_length; auto).
    rewrite seq_nth by auto. reflexivity.
  Qed.
  Lemma at_ord i e x y c : nth_error (k_order k) i = Some (e, x, y, c) ->
    nth (sd + td + a + b + Nat.min a b + i) (candl_rows k) [] = ord_row (i, (e, x, y, c)).
  Proof.
    intros N. assert (i < length (k_order k))%nat as I by (apply nth_error_Some; congruence). rewrite rows_form. rewrite !app_assoc.
    rewrite app_nth2 by (rewrite !app_length, !map_length, !seq_length; fold sd td; lia).
    rewrite !app_length, !map_length, !seq_length. fold sd td.
    replace (sd + td + a + b + Nat.min a b + i - (sd + td + a + b + Nat.min a b))%nat with i by lia.
    rewrite (nth_map_d _ _ _ (0%nat, (e, x, y, c))) by (rewrite combine_length, seq_length; lia).
    rewrite combine_nth by (rewrite seq_length; auto). rewrite seq_nth by auto. cbn [Nat.add].
    rewrite (nth_error_nth _ _ _ N). reflexivity.
  Qed.

  Lemma aff3 x y z s t p : length x = length s -> length y = length t ->
    aff ((x ++ y) ++ z) (s ++ t ++ p) = dot x s + dot y t + dot z (p ++ [1]).
  Proof. intros X Y. unfold aff. rewrite <- !app_assoc, !dot_app by auto. lia. Qed.

  Lemma map_len_seq {A} (f : nat -> A) o m : length (map f (seq o m)) = m.
  Proof. rewrite map_length, seq_length. reflexivity. Qed.

  Lemma dot_zero_map m o x : dot (map (fun _ : nat => 0) (seq o m)) x = 0.
  Proof. revert o x. induction m as [|m IH]; intros o [|y x]; simpl; auto. Qed.

  Lemma dot_sub_map (f g : nat -> Z) m o y : dot (map (fun j => f j - - g j) (seq o m)) y = dot (map f (seq o m)) y + dot (map g (seq o m)) y.
  Proof. revert o y. induction m as [|m IH]; intros o [|z y]; simpl; auto. rewrite IH. lia. Qed.

  Lemma dot_if_map d (x : nat -> Z) m o y : length y = m -> (o <= d < o + m)%nat ->
    dot (map (fun j => if (j =? d)%nat then x d else 0) (seq o m)) y = x d * nth (d - o) y 0.
  Proof.
    revert o y. induction m as [|m IH]; intros o y L D; [lia|]. destruct y as [|z y]; [discriminate|]. simpl in L. cbn [seq map dot].
    destruct (Nat.eqb_spec o d) as [->|NE].
    - rewrite Nat.sub_diag. cbn [nth].
      assert (dot (map (fun j => if (j =? d)%nat then x d else 0) (seq (S d) m)) y = 0) as E.
      { transitivity (dot (map (fun _ : nat => 0) (seq (S d) m)) y); [|apply dot_zero_map]. f_equal. apply map_ext_in. intros j J. apply in_seq in J.
        destruct (Nat.eqb_spec j d); [lia|reflexivity]. }
      rewrite E. lia.
    - rewrite IH by lia. replace (d - o)%nat with (S (d - S o)) by lia. cbn [nth]. lia.
  Qed.

  Lemma map_if_true (f : nat -> Z) m c : (m <= c)%nat ->
    map (fun j => if (j <? c)%nat then f j else 0) (seq 0 m) = map f (seq 0 m).
  Proof. intros H. apply map_ext_in. intros j J. apply in_seq in J. rewrite (proj2 (Nat.ltb_lt _ _)) by lia. reflexivity. Qed.

  Lemma holds_split e x y z s t p : length x = length s -> length y = length t ->
    holds (s ++ t ++ p) (mkRow e ((x ++ y) ++ z)) <->
    (let w := dot x s + dot y t + dot z (p ++ [1]) in if e then w = 0 else 0 <= w).
  Proof. intros X Y. unfold holds. cbn [is_eq coef]. rewrite aff3 by auto. cbv zeta. reflexivity. Qed.

  Section Poly.
    Variables s t p : point.
    Hypothesis Ls : length s = ns.
    Hypothesis Lt : length t = nt.
    Hypothesis Lp : length p = np.

    Lemma flag_eq e : (eq_flag e =? 0) = e.
    Proof. destruct e; reflexivity. Qed.

    Lemma poly_meaning : mem (candl_poly k) (s ++ t ++ p) <-> dep_meaning k s t p.
    Proof.
      pose proof (ab) as AB. destruct W as (W1 & W2 & W3 & W4 & W5 & W6 & W7). fold ns np in W1, W3. fold nt np in W2, W4. fold ns in W6. fold nt in W7.
      unfold mem, candl_poly, dep_domain_to_constraints. fold ns nt np a b. cbn [ncols rows]. cbv zeta.
      fold sd td. unfold at_mat.
      set (m := candl_rows k) in *.
      assert (forall i, (i < sd)%nat -> holds (s ++ t ++ p)
        (mkRow (nth 0 (nth i m []) 0 =? 0)
          ((map (fun j => nth (1 + j) (nth i m []) 0) (seq 0 ns) ++ map (fun _ : nat => 0) (seq 0 nt)) ++
           map (fun j => nth (1 + (ns + a) + (nt + b) + j) (nth i m []) 0) (seq 0 (np + 1)))) <->
        holds (s ++ p) (nth i (k_sdom k) (mkRow true []))) as HS.
      { intros i I. unfold m. rewrite at_src by auto. set (r := nth i (k_sdom k) (mkRow true [])).
        assert (length (coef r) = (ns + (np + 1))%nat) as L by (rewrite W1 by (apply nth_In; auto); lia).
        unfold src_row. rewrite row_s by (apply (it_part_length _ _ _ L)).
        rewrite row_p by (rewrite ?repeat_length; auto; first [apply (it_part_length _ _ _ L)|apply (par_part_length _ _ _ L)]).
        cbn [nth]. rewrite flag_eq. rewrite holds_split by (rewrite ?map_len_seq, ?(it_part_length _ _ _ L); auto).
        rewrite dot_zero_map. pose proof (it_par_aff ns (coef r) s p ltac:(lia) Ls) as E. unfold holds. cbv zeta.
        destruct (is_eq r); lia. }
      assert (forall i, (i < td)%nat -> holds (s ++ t ++ p)
        (mkRow (nth 0 (nth (sd + i) m []) 0 =? 0)
          ((map (fun _ : nat => 0) (seq 0 ns) ++ map (fun j => nth (1 + (ns + a) + j) (nth (sd + i) m []) 0) (seq 0 nt)) ++
           map (fun j => nth (1 + (ns + a) + (nt + b) + j) (nth (sd + i) m []) 0) (seq 0 (np + 1)))) <->
        holds (t ++ p) (nth i (k_tdom k) (mkRow true []))) as HT.
      { intros i I. unfold m. rewrite at_tgt by auto. set (r := nth i (k_tdom k) (mkRow true [])).
        assert (length (coef r) = (nt + (np + 1))%nat) as L by (rewrite W2 by (apply nth_In; auto); lia).
        unfold tgt_row. rewrite row_t by (rewrite ?repeat_length; auto; apply (it_part_length _ _ _ L)).
        rewrite row_p by (rewrite ?repeat_length; auto; first [apply (it_part_length _ _ _ L)|apply (par_part_length _ _ _ L)]).
        cbn [nth]. rewrite flag_eq. rewrite holds_split by (rewrite ?map_len_seq, ?(it_part_length _ _ _ L); auto).
        rewrite dot_zero_map. pose proof (it_par_aff nt (coef r) t p ltac:(lia) Lt) as E. unfold holds. cbv zeta.
        destruct (is_eq r); lia. }
      assert (forall i, (i < n)%nat -> holds (s ++ t ++ p)
        (mkRow (nth 0 (nth (sd + td + 1 + i) m []) 0 =? 0)
          ((map (fun j => if (j <? ns)%nat then nth (1 + j) (nth (sd + td + 1 + i) m []) 0 else 0) (seq 0 ns) ++
            map (fun j => if (j <? nt)%nat then nth (1 + (ns + a) + j) (nth (sd + td + 1 + i + a) m []) 0 else 0) (seq 0 nt)) ++
           map (fun j => nth (1 + (ns + a) + (nt + b) + j) (nth (sd + td + 1 + i) m []) 0 -
                         - nth (1 + (ns + a) + (nt + b) + j) (nth (sd + td + 1 + i + a) m []) 0) (seq 0 (np + 1)))) <->
        aff (nth i (k_sacc k) []) (s ++ p) = aff (nth i (k_tacc k) []) (t ++ p)) as HA.
      { intros i I. unfold m. assert (S i < a)%nat as I' by (unfold a; fold n; lia).
        replace (sd + td + 1 + i)%nat with (sd + td + S i)%nat by lia.
        replace (sd + td + S i + a)%nat with (sd + td + a + S i)%nat by lia.
        rewrite at_sacc, at_tacc by lia. destruct (sub_len (S i) I') as (LS & LT).
        rewrite !map_if_true by lia. unfold sacc_row, tacc_row.
        rewrite row_s by (apply (it_part_length _ _ _ LS)).
        rewrite row_t by (rewrite ?repeat_length, ?map_length; auto; apply (it_part_length _ _ _ LT)).
        rewrite holds_split by (rewrite ?map_length, ?(it_part_length _ _ _ LS), ?(it_part_length _ _ _ LT); auto).
        rewrite (dot_sub_map
                   (fun j => nth (1 + (ns + a) + (nt + b) + j) (0 :: it_part ns (s_sub (S i)) ++ neg_unit a (S i) ++ repeat 0 nt ++ repeat 0 b ++ par_part ns (s_sub (S i))) 0)
                   (fun j => nth (1 + (ns + a) + (nt + b) + j) (0 :: repeat 0 ns ++ repeat 0 a ++ map Z.opp (it_part nt (t_sub (S i))) ++
                                map Z.opp (neg_unit b (S i)) ++ map Z.opp (par_part nt (t_sub (S i)))) 0)).
        rewrite row_p by (rewrite ?repeat_length, ?neg_unit_length; auto; first [apply (it_part_length _ _ _ LS)|apply (par_part_length _ _ _ LS)]).
        rewrite row_p by (rewrite ?map_length, ?repeat_length, ?neg_unit_length; auto; first [apply (it_part_length _ _ _ LT)|apply (par_part_length _ _ _ LT)]).
        rewrite !dot_opp_l. cbn [nth Z.eqb]. cbv zeta.
        pose proof (it_par_aff ns (s_sub (S i)) s p ltac:(lia) Ls) as E1.
        pose proof (it_par_aff nt (t_sub (S i)) t p ltac:(lia) Lt) as E2. cbn [s_sub t_sub] in *. lia. }
      set (o0 := (sd + td + 1 + (a - 1) + a + Nat.min a b)%nat).
      assert (forall i e x y c, nth_error (k_order k) i = Some (e, x, y, c) -> holds (s ++ t ++ p)
        (mkRow (nth 0 (nth (o0 + i) m []) 0 =? 0)
          ((map (fun j => if (j =? i)%nat then nth (1 + i) (nth (o0 + i) m []) 0 else 0) (seq 0 ns) ++
            map (fun j => if (j =? i)%nat then nth (1 + (ns + a) + i) (nth (o0 + i) m []) 0 else 0) (seq 0 nt)) ++
           repeat 0 np ++ [nth (1 + (ns + a) + (nt + b) + np) (nth (o0 + i) m []) 0])) <->
        (let w := x * nth i s 0 + y * nth i t 0 + c in if e then w = 0 else 0 <= w)) as HO.
      { intros i e x y c N. assert (i < length (k_order k))%nat as I by (apply nth_error_Some; congruence).
        replace o0 with (sd + td + a + b + Nat.min a b)%nat by (unfold o0; unfold a at 3; lia).
        unfold m. rewrite (at_ord i e x y c N). unfold ord_row. cbn [fst snd].
        set (R := eq_flag e :: _).
        assert (nth (1 + i) R 0 = x) as X.
        { pose proof (row_s ns (eq_flag e) (set_nth i x (repeat 0 ns)) (repeat 0 a ++ set_nth i y (repeat 0 nt) ++ repeat 0 b ++ repeat 0 np ++ [c])) as E.
          specialize (E [] [] []). rewrite set_nth_length, repeat_length, !app_nil_r in E. specialize (E eq_refl).
          apply (f_equal (fun l => nth i l 0)) in E. rewrite (nth_map_d _ _ _ 0%nat) in E by (rewrite seq_length; lia).
          rewrite seq_nth in E by lia. cbn [Nat.add] in E. rewrite nth_set_nth_eq in E by (rewrite repeat_length; lia). exact E. }
        assert (nth (1 + (ns + a) + i) R 0 = y) as Y.
        { pose proof (row_t ns a nt (eq_flag e) (set_nth i x (repeat 0 ns)) (repeat 0 a) (set_nth i y (repeat 0 nt)) (repeat 0 b) (repeat 0 np ++ [c])) as E.
          rewrite !set_nth_length, !repeat_length in E. specialize (E eq_refl eq_refl eq_refl).
          apply (f_equal (fun l => nth i l 0)) in E. rewrite (nth_map_d _ _ _ 0%nat) in E by (rewrite seq_length; lia).
          rewrite seq_nth in E by lia. rewrite Nat.add_0_l in E. rewrite nth_set_nth_eq in E by (rewrite repeat_length; lia). exact E. }
        assert (nth (1 + (ns + a) + (nt + b) + np) R 0 = c) as C.
        { pose proof (row_p ns a nt b (np + 1) (eq_flag e) (set_nth i x (repeat 0 ns)) (repeat 0 a) (set_nth i y (repeat 0 nt)) (repeat 0 b) (repeat 0 np ++ [c])) as E.
          rewrite !set_nth_length, app_length, !repeat_length in E. specialize (E eq_refl eq_refl eq_refl eq_refl eq_refl).
          apply (f_equal (fun l => nth np l 0)) in E. rewrite (nth_map_d _ _ _ 0%nat) in E by (rewrite seq_length; lia).
          rewrite seq_nth in E by lia. rewrite Nat.add_0_l in E. rewrite app_nth2 in E by (rewrite repeat_length; lia).
          rewrite repeat_length, Nat.sub_diag in E. exact E. }
        rewrite X, Y, C. unfold R at 1. cbn [nth]. rewrite flag_eq.
        rewrite holds_split by (rewrite map_len_seq; auto).
        rewrite (dot_if_map i (fun _ => x) ns 0 s) by lia. rewrite (dot_if_map i (fun _ => y) nt 0 t) by lia.
        rewrite !Nat.sub_0_r. rewrite dot_app by (rewrite repeat_length; auto). rewrite dot_repeat0_l. cbn [dot]. cbv zeta.
        destruct e; lia. }
      split.
      - intros (_ & H). split; [|split; [|split]].
        + intros r I. apply (In_nth _ _ (mkRow true [])) in I. destruct I as (i & I & <-). apply HS; [exact I|].
          apply H. rewrite !in_app_iff. left. apply in_map_iff. exists i. split; [reflexivity|apply in_seq; unfold sd; lia].
        + intros r I. apply (In_nth _ _ (mkRow true [])) in I. destruct I as (i & I & <-). apply HT; [exact I|].
          apply H. rewrite !in_app_iff. right. left. apply in_map_iff. exists (sd + i)%nat. split; [reflexivity|apply in_seq; unfold td; lia].
        + intros i I. apply HA; [exact I|].
          apply H. rewrite !in_app_iff. do 2 right. left. apply in_map_iff. exists (sd + td + 1 + i)%nat. split; [reflexivity|].
          apply in_seq. unfold a. lia.
        + intros i e x y c N. apply (HO i e x y c N).
          apply H. rewrite !in_app_iff. do 4 right. apply in_map_iff. exists i. split; [reflexivity|].
          apply in_seq. split; [lia|]. apply nth_error_Some. congruence.
      - intros (D1 & D2 & D3 & D4). split; [rewrite !app_length; lia|]. intros r. rewrite !in_app_iff.
        intros [I|[I|[I|[I|I]]]].
        + apply in_map_iff in I. destruct I as (i & <- & I). apply in_seq in I. apply HS; [lia|]. apply D1. apply nth_In. fold sd. lia.
        + apply in_map_iff in I. destruct I as (i' & <- & I). apply in_seq in I. replace i' with (sd + (i' - sd))%nat by lia.
          apply HT; [lia|]. apply D2. apply nth_In. fold td. lia.
        + apply in_map_iff in I. destruct I as (i' & <- & I). apply in_seq in I.
          replace i' with (sd + td + 1 + (i' - (sd + td + 1)))%nat by lia. unfold a in I. fold n in I. apply HA; [lia|]. apply D3. fold n. lia.
        + destruct (a - 1 =? 0)%nat; [|destruct I]. destruct I as [<-|[]]. unfold holds, aff. cbn [is_eq coef]. rewrite dot_repeat0_l. lia.
        + apply in_map_iff in I. destruct I as (i & <- & I). apply in_seq in I.
          destruct (nth_error (k_order k) i) as [(((e & x) & y) & c)|] eqn:N; [|apply nth_error_None in N; lia].
          apply (HO i e x y c N). exact (D4 i e x y c N).
    Qed.
  End Poly.
End Candl.

Lemma remove_zero_mem c x : mem (remove_zero_rows c) x <-> mem c x.
Proof.
  unfold mem, remove_zero_rows. cbn [ncols rows]. split; intros (L & H); (split; [exact L|]); intros r I.
  - destruct (all_zero (coef r)) eqn:Z0.
    + rewrite all_zero_spec in Z0. unfold holds, aff.
      assert (dot (coef r) (x ++ [1]) = 0) as ->; [|destruct (is_eq r); lia].
      clear - Z0. revert Z0. generalize (x ++ [1]) as y. induction (coef r) as [|u l IH]; intros [|v y] H; simpl; auto.
      rewrite (H u) by (simpl; auto). rewrite IH; [lia|]. intros w Hw. apply H. simpl. auto.
    + apply H. apply filter_In. rewrite Z0. auto.
  - apply filter_In in I. apply H. tauto.
Qed.
