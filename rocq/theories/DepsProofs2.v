(** * Proofs: access maps and schedules from OpenScop. *)
From Coq Require Import ZArith List Bool Lia Arith Permutation.
From Verif Require Import SpecLinear MathModel ConstraintsModel VecProofs SpecProg SpecExec SpecOsl OslModel OslProofs SpecDeps DepsModel ExecProofs ExecProofs2 DepsProofs.
Import ListNotations.
Open Scope Z_scope.

Lemma aff_neg_unit n k a t x : (k < n)%nat -> length t = n -> aff (neg_unit n k ++ a) (t ++ x) = aff a x - nth k t 0.
Proof.
  intros K L. unfold aff. rewrite <- app_assoc, dot_app by (rewrite neg_unit_length; auto).
  rewrite dot_neg_unit by auto. lia.
Qed.

(** The equalities of a list of functions: t = the values. *)
Lemma eqs_mean (A : list (list Z)) t x : 
  (length t = length (map (fun i => neg_unit (length A) i ++ nth i A []) (seq 0 (length A))) /\
   forall r, In r (map (fun i => neg_unit (length A) i ++ nth i A []) (seq 0 (length A))) -> aff r (t ++ x) = 0) <->
  t = map (fun a => aff a x) A.
Proof.
  rewrite map_length, seq_length. split.
  - intros (L & H). apply eq_by_nth; [rewrite map_length; auto|]. intros k K.
    assert (I : In (neg_unit (length A) k ++ nth k A []) (map (fun i => neg_unit (length A) i ++ nth i A []) (seq 0 (length A)))).
    { apply in_map_iff. exists k. split; [auto|]. apply in_seq. lia. }
    apply H in I. rewrite aff_neg_unit in I by (auto; lia).
    rewrite (nth_indep (map _ _) 0 (aff [] x)) by (rewrite map_length; lia). rewrite (List.map_nth (fun a => aff a x)). lia.
  - intros ->. split; [apply map_length|]. intros r I. apply in_map_iff in I. destruct I as (k & <- & K). apply in_seq in K.
    rewrite aff_neg_unit by (rewrite ?map_length; lia).
    rewrite (nth_indep (map _ _) 0 (aff [] x)) by (rewrite map_length; lia). rewrite (List.map_nth (fun a => aff a x)). lia.
Qed.

Lemma equalities_osl_form A r : Permutation (schedule_rows A) (o_rows r) -> o_out r = length A ->
  equalities_osl r = Some (map (fun i => neg_unit (length A) i ++ nth i A []) (seq 0 (length A))).
Proof.
  intros P O. unfold equalities_osl.
  assert (length (o_rows r) = length A) as ->.
  { rewrite <- (Permutation_length P). unfold schedule_rows. rewrite map_length, seq_length. reflexivity. }
  apply all_rows_some. intros i Hi. apply in_seq in Hi. unfold schedule_rows in P.
  destruct (find_graph_row (length A) r (fun k => nth k A []) i O P ltac:(lia)) as (k & -> & E). rewrite E. reflexivity.
Qed.

Lemma neg_unit_S n k : neg_unit (S n) (S k) = 0 :: neg_unit n k.
Proof. reflexivity. Qed.

Lemma equalities_access_form w id A r : Permutation (access_rows w id A) (o_rows r) -> o_out r = S (length A) -> A <> [] ->
  equalities_osl_access r = Some (map (fun i => neg_unit (length A) i ++ nth i A []) (seq 0 (length A))).
Proof.
  intros P O NE. unfold equalities_osl_access. rewrite access_perm_form in P.
  assert (length (o_rows r) = S (length A)) as ->.
  { rewrite <- (Permutation_length P). rewrite map_length, seq_length. reflexivity. }
  destruct A as [|a0 A]; [congruence|]. cbn [length Nat.eqb]. replace (S (S (length A)) - 1)%nat with (length (a0 :: A)) by (cbn; lia).
  rewrite (all_rows_some _ (fun i => neg_unit (length (a0 :: A)) (i - 1) ++ nth (i - 1) (a0 :: A) [])).
  - rewrite <- seq_shift, map_map. f_equal. apply map_ext. intros i. replace (S i - 1)%nat with i by lia. reflexivity.
  - intros i Hi. apply in_seq in Hi.
    destruct (find_graph_row _ r _ i O P ltac:(cbn [length] in *; lia)) as (k & -> & E). rewrite E.
    destruct i as [|j]; [lia|]. unfold graph_row. rewrite neg_unit_S. cbn [app skipn]. replace (S j - 1)%nat with j by lia. reflexivity.
Qed.

(** The access map of isl relates an iteration to the cell given by the access
    matrix that Pluto reads. *)
Lemma access_map_matrix w id A r : Permutation (access_rows w id A) (o_rows r) -> o_out r = S (length A) -> o_local r = 0%nat ->
  exists eqs m, equalities_osl_access r = Some eqs /\ access_to_matrix r = Some m /\
    forall t x, length x = (o_in r + o_par r)%nat ->
      ((length t = length eqs /\ forall e, In e eqs -> aff e (t ++ x) = 0) <-> t = map (fun a => aff a x) (mrows m)).
Proof.
  intros P O L. rewrite (access_read w id A r P O L). destruct A as [|a A].
  - assert (N : length (o_rows r) = 1%nat) by (rewrite <- (Permutation_length P); reflexivity).
    unfold equalities_osl_access. rewrite N. cbn [Nat.eqb].
    eexists. eexists. split; [reflexivity|]. split; [reflexivity|]. cbn [mrows length Nat.eqb map]. intros t x X.
    assert (Z0 : aff (repeat 0 (o_in r + o_par r + 1)) x = 0) by apply dot_repeat0_l. rewrite Z0.
    assert (Z1 : forall y, aff (-1 :: repeat 0 (o_cols r - 2)) (y :: x) = - y).
    { intros y. unfold aff. cbn [app dot]. rewrite dot_repeat0_l. lia. }
    split.
    + intros (Lt & H). destruct t as [|y [|z t]]; try discriminate. specialize (H _ (or_introl eq_refl)). cbn [app] in H. rewrite Z1 in H.
      f_equal. lia.
    + intros ->. split; auto. intros e [<-|[]]. cbn [app]. rewrite Z1. reflexivity.
  - rewrite (equalities_access_form w id (a :: A) r P O ltac:(discriminate)).
    eexists. eexists. split; [reflexivity|]. split; [reflexivity|]. cbn [Nat.eqb length mrows]. intros t x X. apply (eqs_mean (a :: A)).
Qed.

Lemma name_accesses_snd s l : forall r w, map snd (name_accesses s r w l) = l.
Proof. induction l as [|x l IH]; intros r w; cbn; auto. destruct (is_read _); cbn; rewrite IH; reflexivity. Qed.
Lemma name_accesses_stmt s l : forall r w y, In y (name_accesses s r w l) -> n_stmt (fst y) = s.
Proof. induction l as [|x l IH]; intros r w y; cbn; [easy|]. destruct (is_read _); intros [<-|I]; cbn; auto; eapply IH; eauto. Qed.

(** The number in a name is the position among the accesses of its kind, as in the
    arrays reads and writes. *)
Lemma name_accesses_number s l : forall r w n b k x, In (mkName n (Some (b, k)), x) (name_accesses s r w l) ->
  is_write (fst (fst x)) = b /\
  nth_error (filter (fun y => if b then is_write (fst (fst y)) else is_read (fst (fst y))) l) (k - (if b then w else r)) = Some x /\
  ((if b then w else r) <= k)%nat.
Proof.
  induction l as [|y l IH]; intros r w n b k x; cbn [name_accesses]; [easy|].
  destruct (is_read (fst (fst y))) eqn:Y; intros [E|I].
  - injection E as <- <- <- <-. rewrite Nat.sub_diag. cbn [filter]. rewrite Y. split; [destruct (fst (fst y)); cbn in *; congruence|]. split; auto.
  - apply IH in I. destruct I as (I1 & I2 & I3). split; auto. cbn [filter]. destruct b.
    + assert (W : is_write (fst (fst y)) = false) by (destruct (fst (fst y)); cbn in *; congruence). rewrite W. split; auto.
    + rewrite Y. split; [|lia]. replace (k - r)%nat with (S (k - S r)) by lia. exact I2.
  - injection E as <- <- <- <-. rewrite Nat.sub_diag. cbn [filter].
    assert (W : is_write (fst (fst y)) = true) by (destruct (fst (fst y)); cbn in *; congruence). rewrite W. split; auto. 
  - apply IH in I. destruct I as (I1 & I2 & I3). split; auto. cbn [filter]. 
    assert (W : is_write (fst (fst y)) = true) by (destruct (fst (fst y)); cbn in *; congruence). destruct b.
    + rewrite W. split; [|lia]. replace (k - w)%nat with (S (k - S w)) by lia. exact I2.
    + rewrite Y. split; auto.
Qed.
