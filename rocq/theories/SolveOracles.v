(** * Functions with the properties assumed of isl, PIP and PolyLib exist. *)
From Coq Require Import ZArith QArith List Bool Lia Lqa Classical Description.
From Verif Require Import SpecLinear MathModel ConstraintsModel SpecLib SpecSolve SolveModel VecProofs FMProofs SolveProofs SolveProofs2.
Import ListNotations.
Open Scope Z_scope.

Lemma pick (P : point -> Prop) : exists! o, forall x, o = Some x <-> least P x.
Proof.
  destruct (classic (exists x, least P x)) as [[y Hy]|N].
  - exists (Some y). split.
    + intros x. split; [intros E; injection E as <-; auto|]. intros Hx. f_equal. eapply least_unique; eauto.
    + intros o Ho. symmetry. apply Ho. auto.
  - exists None. split.
    + intros x. split; [discriminate|]. intros Hx. exfalso. eauto.
    + intros [y|] Ho; auto. exfalso. apply N. exists y. apply Ho. auto.
Qed.

Lemma lexmin_exists : exists f, isl_lexmin_ok f.
Proof.
  exists (fun b => proj1_sig (constructive_definite_description _ (pick (fun x => bset_mem b x [])))).
  intros b _ _. destruct (constructive_definite_description _ _) as [o Ho]. cbn. split; auto.
  intros N. destruct o as [y|]; auto. exfalso. apply (N y). apply Ho. auto.
Qed.
Lemma pip_exists : exists f, pip_ok f.
Proof.
  exists (fun u n m => proj1_sig (constructive_definite_description _ (pick (pip_mem u n m)))).
  intros u n m _. destruct (constructive_definite_description _ _) as [o Ho]. cbn. split; auto.
  intros N. destruct o as [y|]; auto. exfalso. apply (N y). apply Ho. auto.
Qed.

(** ** PolyLib *)

Definition none (n : nat) : list (list Z) := [0 :: repeat 0 n ++ [1]].
Lemma none_row n x : length x = n -> ~ pip_row_holds (0 :: repeat 0 n ++ [1]) x.
Proof.
  intros L H. cbn in H. unfold aff in H. rewrite dot_app in H by (rewrite repeat_length; auto).
  rewrite dot_repeat0_l in H. cbn in H. lia.
Qed.
Definition pneg (r : list Z) : list (list Z) :=
  match r with
  | [] => []
  | t :: r => let lo := 1 :: zip_with Z.sub (map Z.opp r) (repeat 0 (length r - 1) ++ [1]) in
              let hi := 1 :: zip_with Z.sub r (repeat 0 (length r - 1) ++ [1]) in
              if t =? 0 then [lo; hi] else [lo]
  end.
Lemma zip_sub_one r x : length r = S (length x) -> aff (zip_with Z.sub r (repeat 0 (length r - 1) ++ [1])) x = aff r x - 1.
Proof.
  intros L. unfold aff. rewrite L. cbn [Nat.sub]. rewrite Nat.sub_0_r. revert r L.
  induction x as [|v x IH]; intros r L; destruct r as [|c r]; try discriminate L.
  - destruct r; [|discriminate L]. cbn. lia.
  - cbn. cbn in IH. rewrite IH by (cbn in L; lia). lia.
Qed.
Lemma pneg_spec r x n : length r = (n + 2)%nat -> length x = n -> ((exists q, In q (pneg r) /\ pip_row_holds q x) <-> ~ pip_row_holds r x).
Proof.
  intros L Lx. destruct r as [|t r]; [cbn in L; lia|]. cbn [length] in L.
  assert (aff (map Z.opp r) x = - aff r x) as O by (unfold aff; apply dot_map_opp).
  pose proof (zip_sub_one r x ltac:(lia)) as H1. pose proof (zip_sub_one (map Z.opp r) x ltac:(rewrite map_length; lia)) as H2.
  rewrite map_length in H2. cbn [pneg]. destruct (Z.eqb_spec t 0) as [->|T].
  - split.
    + intros (q & [<-|[<-|[]]] & H); cbn in H |- *; rewrite ?H1, ?H2 in H; lia.
    + intros H. cbn in H. destruct (Z_lt_le_dec (aff r x) 0).
      * eexists. split; [left; reflexivity|]. cbn. rewrite H2. lia.
      * eexists. split; [right; left; reflexivity|]. cbn. rewrite H1. lia.
  - split.
    + intros (q & [<-|[]] & H). cbn in H |- *. destruct (Z.eqb_spec t 0); [lia|]. rewrite H2 in H. lia.
    + intros H. cbn in H. destruct (Z.eqb_spec t 0); [lia|]. eexists. split; [left; reflexivity|]. cbn. rewrite H2. lia.
Qed.
Lemma pneg_length r q : In q (pneg r) -> length q = length r.
Proof.
  assert (forall a n, length a = S n -> length (zip_with Z.sub a (repeat 0 n ++ [1])) = S n) as K.
  { assert (forall (a b : list Z), length a = length b -> length (zip_with Z.sub a b) = length a) as Z1.
    { clear. induction a as [|x a IH]; intros [|y b] L; try discriminate L; cbn; auto. }
    intros a n La. rewrite Z1; auto. rewrite app_length, repeat_length. cbn. lia. }
  destruct r as [|t r]; [intros []|]. cbn [pneg]. intros H. destruct r as [|v r].
  - destruct (t =? 0); [destruct H as [<-|[<-|[]]]|destruct H as [<-|[]]]; reflexivity.
  - set (n := length r). assert (length (v :: r) = S n) as L by reflexivity. rewrite L in H. replace (S n - 1)%nat with n in H by lia.
    destruct (t =? 0); [destruct H as [<-|[<-|[]]]|destruct H as [<-|[]]]; cbn [length]; fold n; rewrite K; auto; rewrite map_length; auto.
Qed.

Definition pinter (n : nat) (a b : list (list (list Z))) := flat_map (fun p => map (fun q => p ++ q) b) a.
Lemma pinter_mem n a b x : pol_mem n (pinter n a b) x <-> pol_mem n a x /\ pol_mem n b x.
Proof.
  unfold pol_mem, pinter. split.
  - intros (L & m & Hm & H). apply in_flat_map in Hm as (p & Hp & Hm). apply in_map_iff in Hm as (q & <- & Hq).
    split; split; auto; [exists p|exists q]; split; auto; intros r Hr; apply H; apply in_or_app; auto.
  - intros [(L & p & Hp & H) (_ & q & Hq & K)]. split; auto. exists (p ++ q). split.
    + apply in_flat_map. exists p. split; auto. apply in_map_iff. eauto.
    + intros r Hr. apply in_app_or in Hr as [Hr|Hr]; auto.
Qed.
Definition pcompl (n : nat) (m : list (list Z)) : list (list (list Z)) := none n :: map (fun q => [q]) (flat_map pneg m).
Lemma pcompl_mem n m x : (forall r, In r m -> length r = (n + 2)%nat) -> length x = n ->
  (pol_mem n (pcompl n m) x <-> ~ forall r, In r m -> pip_row_holds r x).
Proof.
  intros Sh L. unfold pol_mem, pcompl. split.
  - intros (_ & p & [<-|Hp] & H) K.
    + apply (none_row n x L). apply H. left. auto.
    + apply in_map_iff in Hp as (q & <- & Hq). apply in_flat_map in Hq as (r & Hr & Hq).
      apply (proj1 (pneg_spec r x n (Sh r Hr) L)); auto. exists q. split; auto. apply H. left. auto.
  - intros K. split; auto. apply not_all_ex_not in K as [r K]. apply imply_to_and in K as [Hr K].
    apply (pneg_spec r x n (Sh r Hr) L) in K as (q & Hq & H). exists [q]. split.
    + right. apply in_map_iff. exists q. split; auto. apply in_flat_map. eauto.
    + intros q' [<-|[]]. auto.
Qed.
Definition pdiff (n : nat) (a b : list (list (list Z))) := none n :: fold_left (fun s m => pinter n s (pcompl n m)) b a.
Lemma pdiff_mem n a b x : shaped_pol n b -> length x = n -> (pol_mem n (pdiff n a b) x <-> pol_mem n a x /\ ~ pol_mem n b x).
Proof.
  intros Sh L. unfold pdiff.
  assert (forall s, pol_mem n (fold_left (fun s m => pinter n s (pcompl n m)) b s) x <-> pol_mem n s x /\ ~ pol_mem n b x) as K.
  { induction b as [|m b IH]; intros s; cbn.
    - split; [|tauto]. intros H. split; auto. intros (_ & m & [] & _).
    - rewrite IH by (intros m' r Hm Hr; apply (Sh m' r); auto; right; auto). rewrite pinter_mem.
      rewrite pcompl_mem by (auto; intros r Hr; apply (Sh m r); auto; left; auto).
      split.
      + intros [[A B] C]. split; auto. intros (_ & m' & [<-|Hm] & H); [auto|]. apply C. split; auto. exists m'. auto.
      + intros [A B]. split; [split; auto|].
        * intros H. apply B. split; auto. exists m. split; [left; auto|auto].
        * intros (_ & m' & Hm & H). apply B. split; auto. exists m'. split; [right; auto|auto]. }
  rewrite <- K. unfold pol_mem. split.
  - intros (_ & m & [<-|Hm] & H); [|split; eauto]. exfalso. apply (none_row n x L). apply H. left. auto.
  - intros (_ & m & Hm & H). split; auto. exists m. split; [right; auto|auto].
Qed.
Lemma pinter_shaped n a b : shaped_pol n a -> shaped_pol n b -> shaped_pol n (pinter n a b).
Proof.
  intros A B m r Hm Hr. apply in_flat_map in Hm as (p & Hp & Hm). apply in_map_iff in Hm as (q & <- & Hq).
  apply in_app_or in Hr as [Hr|Hr]; [apply (A p)|apply (B q)]; auto.
Qed.
Lemma none_length n r : In r (none n) -> length r = (n + 2)%nat.
Proof. intros [<-|[]]. cbn. rewrite app_length, repeat_length. cbn. lia. Qed.

Lemma polylib_exists :
  polylib_op_ok (fun n a b => a ++ b) or /\ polylib_op_ok pinter and /\ polylib_op_ok pdiff (fun a b => a /\ ~ b).
Proof.
  split; [|split].
  - intros n a b A B Na Nb. split; [|split].
    + intros m r Hm. apply in_app_or in Hm as [Hm|Hm]; [apply (A m)|apply (B m)]; auto.
    + destruct a; [congruence|discriminate].
    + intros x L. unfold pol_mem. split.
      * intros (_ & m & Hm & H). apply in_app_or in Hm as [Hm|Hm]; [left|right]; split; eauto.
      * intros [(_ & m & Hm & H)|(_ & m & Hm & H)]; split; auto; exists m; split; auto; apply in_or_app; auto.
  - intros n a b A B Na Nb. split; [apply pinter_shaped; auto|]. split; [|intros x L; apply pinter_mem].
    destruct a as [|p a]; [congruence|]. destruct b as [|q b]; [congruence|]. discriminate.
  - intros n a b A B Na Nb. split; [|split; [discriminate|intros x L; apply pdiff_mem; auto]].
    intros m r [<-|Hm] Hr; [apply none_length; auto|].
    assert (forall s, shaped_pol n s -> shaped_pol n (fold_left (fun s m => pinter n s (pcompl n m)) b s)) as K; [|apply (K a A m r Hm Hr)].
    clear - B. induction b as [|q b IH]; intros s Hs; cbn; auto.
    apply IH; [intros m' r' Hm' Hr'; apply (B m' r'); auto; right; auto|]. apply pinter_shaped; auto.
    intros m r [<-|Hm] Hr; [apply none_length; auto|]. apply in_map_iff in Hm as (z & <- & Hz). destruct Hr as [<-|[]].
    apply in_flat_map in Hz as (u & Hu & Hz). rewrite (pneg_length _ _ Hz). apply (B q u); auto. left. auto.
Qed.

(** ** Images *)

Fixpoint elim (n k : nat) (c : cst) : cst := match n with O => c | S n' => elim n' k (fm_eliminate c k) end.
Lemma insert_mid {A} (y : list A) v x : insert_at (length y) v (y ++ x) = y ++ v :: x.
Proof. induction y as [|a y IH]; cbn; [reflexivity|]. rewrite IH. reflexivity. Qed.
Lemma elim_spec n k : forall c y, wf_cst c -> ncols c = (k + n + 1)%nat -> length y = k ->
  wf_cst (elim n k c) /\ ncols (elim n k c) = (k + 1)%nat /\ (qmem (elim n k c) y <-> exists x, length x = n /\ qmem c (y ++ x)).
Proof.
  induction n as [|n IH]; intros c y W N L; cbn.
  - split; auto. split; [lia|]. split.
    + intros H. exists []. rewrite app_nil_r. auto.
    + intros (x & Lx & H). destruct x; [|discriminate Lx]. rewrite app_nil_r in H. auto.
  - destruct (fm_eliminate_wf c k W ltac:(lia)) as [W' N']. destruct (IH (fm_eliminate c k) y W' ltac:(lia) L) as (A & B & C).
    split; auto. split; auto. rewrite C. split.
    + intros (x & Lx & H). apply fm_eliminate_exact in H as [v H]; auto; [|lia]. exists (v :: x). split; [cbn; lia|].
      rewrite <- L, insert_mid in H. auto.
    + intros ([|v x] & Lx & H); [discriminate Lx|]. exists x. split; [cbn in Lx; lia|]. apply fm_eliminate_exact; auto; [lia|]. exists v.
      rewrite <- L, insert_mid. auto.
Qed.
Definition image_system (n : nat) (m f : list (list Z)) : cst :=
  let k := (length f - 1)%nat in
  mkCst (k + n + 1)
    (map (fun r => mkRow (nth 0 r 0 =? 0) (repeat 0 k ++ tl r)) m ++
     map (fun j => mkRow true (set_nth j 1 (repeat 0 k) ++ map Z.opp (nth j f []))) (seq 0 k)).
Definition img (n : nat) (m f : list (list Z)) : list (list Z) := mrows (to_matrix (elim n (length f - 1) (image_system n m f))).

Lemma qdot_unit k i (y : qpoint) : (i < k)%nat -> length y = k -> (qdot (set_nth i 1%Z (repeat 0%Z k)) y == nth i y 0)%Q.
Proof.
  revert i y. induction k as [|k IH]; intros i [|v y] H L; try lia; try discriminate L. destruct i; cbn - [Qmult inject_Z].
  - rewrite qdot_repeat0_l. unfold inject_Z. ring.
  - rewrite IH; try lia; [|cbn in L; lia]. unfold inject_Z. ring.
Qed.
Lemma Forall2_nth_Qeq (a b : qpoint) : length a = length b -> (Forall2 Qeq a b <-> forall j, (j < length a)%nat -> (nth j a 0 == nth j b 0)%Q).
Proof.
  revert b. induction a as [|x a IH]; intros [|y b] L; try discriminate L; cbn.
  - split; [intros _ j Hj; lia|constructor].
  - injection L as L. split.
    + intros H. inversion H; subst. intros [|j] Hj; cbn; auto. apply IH; auto. lia.
    + intros H. constructor; [apply (H 0%nat); lia|]. apply IH; auto. intros j Hj. apply (H (S j)). lia.
Qed.
Lemma nth_removelast {A} (f : list A) j d : (j < length f - 1)%nat -> nth j (removelast f) d = nth j f d.
Proof.
  revert j. induction f as [|a [|b f] IH]; intros j H; cbn in H; try lia. destruct j; cbn; auto. apply IH. cbn. lia.
Qed.
Lemma removelast_length {A} (f : list A) : length (removelast f) = (length f - 1)%nat.
Proof. induction f as [|a [|b f] IH]; cbn in *; auto. rewrite IH. lia. Qed.

Lemma image_system_mem n m f x y : (forall r, In r m -> length r = (n + 2)%nat) -> (forall r, In r f -> length r = (n + 1)%nat) ->
  length y = (length f - 1)%nat -> length x = n ->
  (qmem (image_system n m f) (y ++ x) <-> qpol_mem n m x /\ Forall2 Qeq y (map (fun r => qaff r x) (removelast f))).
Proof.
  intros Hm Hf Ly Lx. set (k := (length f - 1)%nat) in *.
  assert (forall j, (j < k)%nat -> nth j (map (fun r => qaff r x) (removelast f)) 0%Q = qaff (nth j f []) x) as NJ.
  { intros j Hj. rewrite (nth_indep _ 0%Q (qaff [] x)) by (rewrite map_length, removelast_length; auto).
    rewrite (List.map_nth (fun r => qaff r x)), nth_removelast; auto. }
  rewrite Forall2_nth_Qeq by (rewrite map_length, removelast_length; auto).
  unfold qmem, qpol_mem, image_system. fold k. cbn [ncols rows]. rewrite app_length, Ly, Lx.
  assert (forall r, In r m -> (qholds (y ++ x) (mkRow (nth 0 r 0 =? 0) (repeat 0 k ++ tl r)) <-> qpip_row_holds r x)) as R1.
  { intros r Hr. specialize (Hm r Hr). destruct r as [|t r]; [cbn in Hm; lia|]. unfold qholds. cbn [is_eq coef nth tl qpip_row_holds].
    assert (qaff (repeat 0%Z k ++ r) (y ++ x) == qaff r x)%Q as E.
    { unfold qaff. rewrite <- app_assoc. rewrite qdot_app by (rewrite repeat_length; auto). rewrite qdot_repeat0_l. ring. }
    destruct (t =? 0); rewrite E; reflexivity. }
  assert (forall j, (j < k)%nat -> (qholds (y ++ x) (mkRow true (set_nth j 1 (repeat 0 k) ++ map Z.opp (nth j f []))) <-> (nth j y 0 == qaff (nth j f []) x)%Q)) as R2.
  { intros j Hj. unfold qholds. cbn [is_eq coef]. unfold qaff. rewrite <- app_assoc.
    rewrite qdot_app by (rewrite set_nth_length, repeat_length; auto). rewrite qdot_unit, qdot_map_opp by auto.
    split; intros H; lra. }
  split.
  - intros [_ H]. split; [split; auto|].
    + intros r Hr. apply R1; auto. apply H. apply in_or_app. left. apply in_map_iff. eauto.
    + intros j Hj. rewrite NJ by auto. apply R2; auto. apply H. apply in_or_app. right. apply in_map_iff. exists j. split; auto. apply in_seq. lia.
  - intros [[_ A] B]. split; [lia|]. intros q Hq. apply in_app_or in Hq as [Hq|Hq]; apply in_map_iff in Hq as (r & <- & Hr).
    + apply R1; auto.
    + apply in_seq in Hr. apply R2; [lia|]. rewrite <- NJ by lia. apply B. lia.
Qed.

Lemma image_system_wf n m f : (forall r, In r m -> length r = (n + 2)%nat) -> (forall r, In r f -> length r = (n + 1)%nat) -> (1 <= length f)%nat -> wf_cst (image_system n m f).
Proof.
  intros Hm Hf Lf. unfold image_system. split; [cbn; lia|]. cbn. intros q Hq. apply in_app_or in Hq as [Hq|Hq]; apply in_map_iff in Hq as (r & <- & Hr); cbn; rewrite app_length.
  - rewrite repeat_length. specialize (Hm r Hr). destruct r; cbn in *; lia.
  - apply in_seq in Hr. rewrite set_nth_length, repeat_length, map_length. rewrite (Hf (nth r f [])); [lia|]. apply nth_In. lia.
Qed.

Lemma Forall2_len {A B} (R : A -> B -> Prop) a b : Forall2 R a b -> length a = length b.
Proof. induction 1; cbn; auto. Qed.

Lemma image_exists : image_ok img.
Proof.
  intros n m f Hm Lf Hf _. set (k := (length f - 1)%nat).
  pose proof (image_system_wf n m f Hm Hf Lf) as W.
  assert (forall y, length y = k -> wf_cst (elim n k (image_system n m f)) /\ ncols (elim n k (image_system n m f)) = (k + 1)%nat /\
    (qmem (elim n k (image_system n m f)) y <-> exists x, length x = n /\ qmem (image_system n m f) (y ++ x))) as E.
  { intros y Ly. apply elim_spec; auto. }
  destruct (E (repeat 0%Q k) (repeat_length _ _)) as (W' & N' & _).
  split.
  - intros r Hr. unfold img in Hr. cbn in Hr. apply in_map_iff in Hr as (q & <- & Hq). destruct W' as [_ W']. cbn. rewrite (W' q Hq). fold k. rewrite N'. lia.
  - intros y. unfold img. fold k. pose proof (qpol_of_cst (elim n k (image_system n m f)) y W') as Q. rewrite N' in Q.
    replace (k + 1 - 1)%nat with k in Q by lia. rewrite Q. split.
    + intros H. assert (length y = k) as Ly by (destruct H; lia). apply E in H as (x & Lx & H); auto. apply image_system_mem in H; auto. eauto.
    + intros (x & A & B). assert (length y = k) as Ly by (rewrite (Forall2_len _ _ _ B), map_length, removelast_length; auto).
      apply E; auto. exists x. destruct A as [Lx A]. split; auto. apply image_system_mem; auto. split; auto. split; auto.
Qed.

(** ** Intersections of isl sets *)

Definition binter (a b : bset) : bset :=
  mkBset (bs_dim a) (bs_ndiv a + bs_ndiv b) 0
    (map (map_coef (fun l => firstn (bs_dim a + bs_ndiv a) l ++ repeat 0 (bs_ndiv b) ++ skipn (bs_dim a + bs_ndiv a) l)) (bs_rows a) ++
     map (map_coef (fun l => firstn (bs_dim a) l ++ repeat 0 (bs_ndiv a) ++ skipn (bs_dim a) l)) (bs_rows b)).
Lemma aff_pad l k x y z : length x = k -> (k <= length l)%nat ->
  aff (firstn k l ++ repeat 0 (length y) ++ skipn k l) (x ++ y ++ z) = aff l (x ++ z).
Proof.
  intros L H. unfold aff. rewrite <- !app_assoc. rewrite dot_app by (rewrite firstn_length; lia).
  rewrite dot_app by apply repeat_length. rewrite dot_repeat0_l.
  rewrite <- (firstn_skipn k l) at 3. rewrite dot_app by (rewrite firstn_length; lia). lia.
Qed.
Lemma binter_mem n a b x : bs_dim a = n -> bs_dim b = n -> bs_npar a = 0%nat -> bs_npar b = 0%nat -> shaped_set a -> shaped_set b ->
  (bset_mem (binter a b) x [] <-> bset_mem a x [] /\ bset_mem b x []).
Proof.
  intros Da Db Pa Pb Sa Sb. unfold bset_mem, binter. cbn [bs_dim bs_npar bs_ndiv bs_rows]. rewrite Pa, Pb, Da, Db.
  assert (forall r e e', length x = n -> length e = bs_ndiv a -> length e' = bs_ndiv b -> In r (bs_rows a) ->
    (holds (x ++ (e ++ e') ++ []) (map_coef (fun l => firstn (n + bs_ndiv a) l ++ repeat 0 (bs_ndiv b) ++ skipn (n + bs_ndiv a) l) r) <-> holds (x ++ e ++ []) r)) as R1.
  { intros r e e' Lx Le Le' Hr. specialize (Sa r Hr). unfold holds, map_coef. cbn [is_eq coef]. rewrite !app_nil_r.
    pose proof (aff_pad (coef r) (n + bs_ndiv a) (x ++ e) e' [] ltac:(rewrite app_length; lia) ltac:(lia)) as E.
    rewrite !app_nil_r in E. rewrite <- app_assoc, Le' in E. rewrite E. reflexivity. }
  assert (forall r e e', length x = n -> length e = bs_ndiv a -> length e' = bs_ndiv b -> In r (bs_rows b) ->
    (holds (x ++ (e ++ e') ++ []) (map_coef (fun l => firstn n l ++ repeat 0 (bs_ndiv a) ++ skipn n l) r) <-> holds (x ++ e' ++ []) r)) as R2.
  { intros r e e' Lx Le Le' Hr. specialize (Sb r Hr). unfold holds, map_coef. cbn [is_eq coef]. rewrite !app_nil_r.
    pose proof (aff_pad (coef r) n x e e' Lx ltac:(lia)) as E. rewrite Le in E. rewrite E. reflexivity. }
  split.
  - intros (Lx & _ & g & Lg & H). assert (g = firstn (bs_ndiv a) g ++ skipn (bs_ndiv a) g) as G by (symmetry; apply firstn_skipn).
    set (e := firstn (bs_ndiv a) g) in *. set (e' := skipn (bs_ndiv a) g) in *.
    assert (length e = bs_ndiv a) by (unfold e; rewrite firstn_length; lia). assert (length e' = bs_ndiv b) by (unfold e'; rewrite skipn_length; lia).
    rewrite G in H. split; (split; [auto|split; [auto|]]).
    + exists e. split; auto. intros r Hr. apply (R1 r e e'); auto. apply H. apply in_or_app. left. apply in_map_iff. eauto.
    + exists e'. split; auto. intros r Hr. apply (R2 r e e'); auto. apply H. apply in_or_app. right. apply in_map_iff. eauto.
  - intros [(Lx & _ & e & Le & H) (_ & _ & e' & Le' & K)]. split; auto. split; auto. exists (e ++ e'). split; [rewrite app_length; lia|].
    intros q Hq. apply in_app_or in Hq as [Hq|Hq]; apply in_map_iff in Hq as (r & <- & Hr); [apply R1|apply R2]; auto.
Qed.
Definition uinter (n : nat) (a b : list bset) : list bset := flat_map (fun p => map (binter p) b) a.
Lemma uinter_ok : isl_op_ok uinter and.
Proof.
  intros n a b A B. split.
  - intros q Hq. apply in_flat_map in Hq as (p & Hp & Hq). apply in_map_iff in Hq as (p' & <- & Hp').
    destruct (A p Hp) as (A1 & A2 & A3), (B p' Hp') as (B1 & B2 & B3). split; [auto|]. split; [auto|].
    intros r Hr. cbn in Hr |- *. apply in_app_or in Hr as [Hr|Hr]; apply in_map_iff in Hr as (s & <- & Hs); cbn.
    + specialize (A3 s Hs). rewrite !app_length, repeat_length, firstn_length, skipn_length. lia.
    + specialize (B3 s Hs). rewrite !app_length, repeat_length, firstn_length, skipn_length. lia.
  - intros x L. unfold uset_mem. split.
    + intros (q & Hq & M). apply in_flat_map in Hq as (p & Hp & Hq). apply in_map_iff in Hq as (p' & <- & Hp').
      destruct (A p Hp) as (A1 & A2 & A3), (B p' Hp') as (B1 & B2 & B3). apply (binter_mem n) in M as [M M']; auto. split; eauto.
    + intros [(p & Hp & M) (p' & Hp' & M')]. exists (binter p p'). split; [apply in_flat_map; exists p; split; auto; apply in_map; auto|].
      destruct (A p Hp) as (A1 & A2 & A3), (B p' Hp') as (B1 & B2 & B3). apply (binter_mem n); auto.
Qed.

Definition drop_divs (b : bset) : bset := if (bs_ndiv b =? 0)%nat then b else mkBset (bs_dim b) 0 (bs_npar b) [].
Lemma drop_divs_ok : remove_divs_exact drop_divs.
Proof.
  split.
  - intros b. unfold drop_divs. destruct (Nat.eqb_spec (bs_ndiv b) 0) as [E|E]; cbn.
    + split; auto.
    + split; [auto|]. split; [auto|]. split; [auto|]. split; [intros _ r []|].
      intros i p (A & B & _). split; auto. split; auto. exists []. split; auto. intros r [].
  - intros b E. unfold drop_divs. rewrite E. reflexivity.
Qed.

(** The dimensions projected out become existentially quantified variables. *)
Definition move_cols (start num dim : nat) (l : list Z) : list Z :=
  firstn start l ++ firstn (dim - (start + num)) (skipn (start + num) l) ++ firstn num (skipn start l) ++ skipn dim l.
Definition bproj (start num : nat) (b : bset) : bset :=
  mkBset (bs_dim b - num) (num + bs_ndiv b) 0 (map (map_coef (move_cols start num (bs_dim b))) (bs_rows b)).

Lemma skipn_twice {A} n m (l : list A) : skipn n (skipn m l) = skipn (m + n) l.
Proof. revert l. induction m as [|m IH]; intros l; cbn; auto. destruct l; auto. destruct n; auto. Qed.
Lemma split4 {A} (l : list A) start num dim : (start + num <= dim)%nat -> (dim <= length l)%nat ->
  exists a b c d, l = a ++ b ++ c ++ d /\ length a = start /\ length b = num /\ length c = (dim - (start + num))%nat /\
    firstn start l = a /\ firstn num (skipn start l) = b /\ firstn (dim - (start + num)) (skipn (start + num) l) = c /\ skipn dim l = d.
Proof.
  intros H L. exists (firstn start l), (firstn num (skipn start l)), (firstn (dim - (start + num)) (skipn (start + num) l)), (skipn dim l).
  split; [|rewrite !firstn_length, !skipn_length; repeat split; lia].
  rewrite <- (firstn_skipn start l) at 1. f_equal. rewrite <- (firstn_skipn num (skipn start l)) at 1. f_equal.
  rewrite skipn_twice.
  rewrite <- (firstn_skipn (dim - (start + num)) (skipn (start + num) l)) at 1. f_equal.
  rewrite skipn_twice. f_equal. lia.
Qed.
Lemma move_aff start num dim l (a b c e : list Z) : (start + num <= dim)%nat -> length l = S (dim + length e)%nat ->
  length a = start -> length b = num -> length c = (dim - (start + num))%nat ->
  aff (move_cols start num dim l) ((a ++ c) ++ b ++ e) = aff l ((a ++ b ++ c) ++ e).
Proof.
  intros H L La Lb Lc. unfold move_cols. destruct (split4 l start num dim H ltac:(lia)) as (u & v & w & z & E & Lu & Lv & Lw & E1 & E2 & E3 & E4).
  rewrite E1, E2, E3, E4. rewrite E. unfold aff. rewrite <- !app_assoc.
  rewrite !dot_app by lia. lia.
Qed.
Lemma bproj_ok : isl_project_ok bproj.
Proof.
  intros start num b Sh P H. split; [reflexivity|]. split; [reflexivity|]. split.
  - intros r Hr. cbn in Hr |- *. apply in_map_iff in Hr as (q & <- & Hq). specialize (Sh q Hq). cbn. unfold move_cols.
    rewrite !app_length, !firstn_length, !skipn_length. lia.
  - intros y. unfold bset_mem, bproj. cbn [bs_dim bs_npar bs_ndiv bs_rows]. split.
    + intros (Ly & _ & g & Lg & K).
      set (a := firstn start y). set (c := skipn start y). set (m := firstn num g). set (e := skipn num g).
      assert (y = a ++ c) as Ey by (symmetry; apply firstn_skipn). assert (g = m ++ e) as Eg by (symmetry; apply firstn_skipn).
      assert (length a = start) as La by (unfold a; rewrite firstn_length; lia).
      assert (length c = bs_dim b - (start + num))%nat as Lc by (unfold c; rewrite skipn_length; lia).
      assert (length m = num) as Lm by (unfold m; rewrite firstn_length; lia).
      assert (length e = bs_ndiv b) as Le by (unfold e; rewrite skipn_length; lia).
      exists (a ++ m ++ c). split.
      * split; [rewrite !app_length; lia|]. split; [auto|]. exists e. split; auto. intros r Hr. rewrite app_nil_r.
        specialize (K _ (in_map _ _ _ Hr)). unfold holds in *. cbn [is_eq coef map_coef] in K. rewrite app_nil_r in K.
        rewrite Ey, Eg in K. rewrite move_aff in K; auto. rewrite (Sh r Hr). lia.
      * rewrite Ey. rewrite firstn_app, firstn_all2 by lia. replace (start - length a)%nat with 0%nat by lia. rewrite firstn_O, app_nil_r. f_equal.
        rewrite app_assoc, skipn_app, skipn_all2 by (rewrite app_length; lia). rewrite app_length.
        replace (start + num - (length a + length m))%nat with 0%nat by lia. reflexivity.
    + intros (x & (Lx & _ & e & Le & K) & Ey).
      destruct (split4 x start num (bs_dim b) H ltac:(lia)) as (u & v & w & z & E & Lu & Lv & Lw & E1 & E2 & E3 & E4).
      assert (z = []) as Ez by (rewrite <- E4; apply skipn_all2; lia).
      assert (skipn (start + num) x = w) as Ew.
      { rewrite <- E3. symmetry. apply firstn_all2. rewrite skipn_length. lia. }
      rewrite E1, Ew in Ey. rewrite Ez, app_nil_r in E.
      split; [rewrite Ey, app_length; lia|]. split; [auto|]. exists (v ++ e). split; [rewrite app_length; lia|].
      intros q Hq. apply in_map_iff in Hq as (r & <- & Hr). specialize (K r Hr). unfold holds in *. cbn [is_eq coef map_coef].
      rewrite app_nil_r in *. rewrite Ey. rewrite E in K. rewrite move_aff; auto. rewrite (Sh r Hr). lia.
Qed.
