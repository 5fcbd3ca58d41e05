(** * Lemmas for the exchange with OpenScop (C70 - C72). *)
From Coq Require Import ZArith List Bool Lia Arith Permutation.
From Verif Require Import SpecLinear MathModel ConstraintsModel VecProofs MatrixProofs SimplifyProofs SpecOsl OslModel.
Import ListNotations.
Open Scope Z_scope.

Lemma neg_unit_length n k : length (neg_unit n k) = n.
Proof. unfold neg_unit. rewrite set_nth_length, repeat_length. reflexivity. Qed.

Lemma nth_neg_unit n k i : (k < n)%nat -> nth i (neg_unit n k) 0 = if (i =? k)%nat then -1 else 0.
Proof.
  intros K. unfold neg_unit. destruct (Nat.eqb_spec i k) as [->|NE].
  - apply nth_set_nth_eq. rewrite repeat_length. auto.
  - rewrite nth_set_nth_neq by auto. apply nth_repeat.
Qed.

Lemma dot_neg_unit n k t : (k < n)%nat -> length t = n -> dot (neg_unit n k) t = - nth k t 0.
Proof.
  revert k t. induction n as [|n IH]; intros k t K L; [lia|]. destruct t as [|a t]; [simpl in L; lia|].
  simpl in L. destruct k as [|k].
  - unfold neg_unit. cbn [set_nth repeat dot nth]. rewrite dot_repeat0_l. lia.
  - specialize (IH k t ltac:(lia) ltac:(lia)). unfold neg_unit in *. cbn [set_nth repeat dot nth]. rewrite IH. lia.
Qed.

Lemma graph_holds n k a t x : (k < n)%nat -> length t = n -> osl_holds (t ++ x) (graph_row n k a) <-> nth k t 0 = aff a x.
Proof.
  intros K L. unfold osl_holds, graph_row, aff. simpl. rewrite <- app_assoc, dot_app by (rewrite neg_unit_length; auto).
  rewrite dot_neg_unit by auto. lia.
Qed.

Lemma eq_by_nth (t u : list Z) : length t = length u -> (forall k, (k < length t)%nat -> nth k t 0 = nth k u 0) -> t = u.
Proof. intros L H. apply (nth_ext _ _ 0 0); auto. Qed.

Lemma schedule_rows_holds A t x : length t = length A ->
  (forall l, In l (schedule_rows A) -> osl_holds (t ++ x) l) <-> t = map (fun a => aff a x) A.
Proof.
  intros L. split.
  - intros H. apply eq_by_nth; [rewrite map_length; auto|]. intros k K.
    assert (In (graph_row (length A) k (nth k A [])) (schedule_rows A)) as I.
    { apply in_map_iff. exists k. split; [auto|]. apply in_seq. lia. }
    apply H in I. apply graph_holds in I; [|lia|auto]. rewrite I.
    rewrite (nth_indep _ 0 (aff [] x)) by (rewrite map_length; lia). rewrite (List.map_nth (fun a => aff a x)). reflexivity.
  - intros -> l I. apply in_map_iff in I. destruct I as (k & <- & K). apply in_seq in K.
    apply graph_holds; [lia|rewrite map_length; auto|].
    rewrite (nth_indep _ 0 (aff [] x)) by (rewrite map_length; lia). rewrite (List.map_nth (fun a => aff a x)). reflexivity.
Qed.

(** ** Finding the row of a dimension *)

Definition nzcol (d : nat) (l : list Z) : bool := negb (nth d l 0 =? 0).

Lemma fold_rows d rs n : (n <= length rs)%nat ->
  let f := fold_left (fun acc i => if nth d (nth i rs []) 0 =? 0 then acc else (S (fst acc), i)) (seq 0 n) (0%nat, 0%nat) in
  fst f = length (filter (nzcol d) (firstn n rs)) /\ (fst f <> 0%nat -> (snd f < n)%nat /\ nzcol d (nth (snd f) rs []) = true).
Proof.
  induction n as [|n IH]; intros Hn; cbv zeta in *.
  - simpl. split; [auto|lia].
  - destruct (IH ltac:(lia)) as (F & S_). rewrite seq_S, fold_left_app. cbn [fold_left Nat.add].
    set (f := fold_left _ (seq 0 n) (0%nat, 0%nat)) in *. clearbody f.
    assert (firstn (S n) rs = firstn n rs ++ [nth n rs []]) as E.
    { clear - Hn. revert rs Hn. induction n as [|n IH]; intros [|r rs] H; simpl in *; try lia; auto.
      f_equal. apply IH. lia. }
    rewrite E, filter_app, app_length. cbn [filter]. unfold nzcol at 2.
    destruct (Z.eqb_spec (nth d (nth n rs []) 0) 0) as [Z0|NZ]; cbn [negb length fst snd].
    + split; [lia|]. intros H. destruct (S_ H). split; [lia|auto].
    + split; [lia|]. intros _. split; [lia|]. unfold nzcol. rewrite (proj2 (Z.eqb_neq _ _)) by auto. reflexivity.
Qed.

Lemma row_id_found r d : length (filter (nzcol d) (o_rows r)) = 1%nat -> (d <= length (o_rows r))%nat ->
  exists k, row_id_for_dim r d = Some k /\ (k < length (o_rows r))%nat /\ nzcol d (nth k (o_rows r) []) = true.
Proof.
  intros H D. unfold row_id_for_dim. rewrite (proj2 (Nat.ltb_ge _ _)) by lia. cbv zeta.
  destruct (fold_rows d (o_rows r) _ (le_n _)) as (F & S_). cbv zeta in *. rewrite firstn_all in F.
  set (f := fold_left _ _ _) in *. clearbody f. rewrite F, H. simpl. exists (snd f). split; auto. apply S_. lia.
Qed.

Lemma filter_perm {A} (f : A -> bool) l l' : Permutation l l' -> Permutation (filter f l) (filter f l').
Proof.
  induction 1; simpl; auto.
  - destruct (f x); auto.
  - destruct (f x), (f y); auto. constructor.
  - eapply Permutation_trans; eauto.
Qed.

Lemma count_one i s n : (s <= i < s + n)%nat -> length (filter (fun k => (i =? k)%nat) (seq s n)) = 1%nat.
Proof.
  revert s. induction n as [|n IH]; intros s H; [lia|]. simpl.
  destruct (Nat.eqb_spec i s) as [->|NE].
  - simpl. f_equal. clear. assert (forall m, (s < m)%nat -> length (filter (fun k => (s =? k)%nat) (seq m n)) = 0%nat) as E.
    { induction n as [|n IH]; intros m H; simpl; auto. rewrite (proj2 (Nat.eqb_neq s m)) by lia. apply IH. lia. }
    apply E. lia.
  - apply IH. lia.
Qed.

Lemma filter_map_len {A B} (f : B -> bool) (g : A -> B) l : length (filter f (map g l)) = length (filter (fun a => f (g a)) l).
Proof. induction l as [|a l IH]; simpl; auto. destruct (f (g a)); simpl; auto. Qed.

Lemma filter_ext_len {A} (f g : A -> bool) l : (forall a, In a l -> f a = g a) -> length (filter f l) = length (filter g l).
Proof. induction l as [|a l IH]; simpl; intros H; auto. rewrite (H a) by auto. destruct (g a); simpl; rewrite IH; auto. Qed.

Lemma nz_graph n k a i : (k < n)%nat -> (i < n)%nat -> nzcol (i + 1) (graph_row n k a) = (i =? k)%nat.
Proof.
  intros K I. unfold nzcol, graph_row. rewrite Nat.add_1_r. cbn [nth].
  rewrite app_nth1 by (rewrite neg_unit_length; auto). rewrite nth_neg_unit by auto.
  destruct (i =? k)%nat; reflexivity.
Qed.

Lemma skipn_graph n k a : skipn (n + 1) (graph_row n k a) = a.
Proof.
  unfold graph_row. rewrite Nat.add_1_r. cbn [skipn]. rewrite skipn_app, skipn_all2 by (rewrite neg_unit_length; lia).
  rewrite neg_unit_length, Nat.sub_diag. reflexivity.
Qed.

(** The row of dimension [i] in a relation that has one row of the usual form
    per dimension. *)
Lemma find_graph_row n r (f : nat -> list Z) i : o_out r = n ->
  Permutation (map (fun k => graph_row n k (f k)) (seq 0 n)) (o_rows r) -> (i < n)%nat ->
  exists k, row_id_for_dim r (i + 1) = Some k /\ nth k (o_rows r) [] = graph_row n i (f i).
Proof.
  intros O P I.
  assert (length (o_rows r) = n) as L by (rewrite <- (Permutation_length P), map_length, seq_length; auto).
  destruct (row_id_found r (i + 1)) as (k & E & K & NZ).
  - rewrite <- (Permutation_length (filter_perm _ _ _ P)), filter_map_len.
    rewrite (filter_ext_len _ (fun k => (i =? k)%nat)); [apply count_one; lia|].
    intros k Hk. apply in_seq in Hk. apply nz_graph; lia.
  - lia.
  - exists k. split; [auto|].
    assert (In (nth k (o_rows r) []) (map (fun k => graph_row n k (f k)) (seq 0 n))) as J.
    { eapply Permutation_in; [apply Permutation_sym, P|]. apply nth_In. auto. }
    apply in_map_iff in J. destruct J as (k' & E' & K'). apply in_seq in K'. rewrite <- E' in NZ |- *.
    rewrite nz_graph in NZ by lia. apply Nat.eqb_eq in NZ. subst k'. reflexivity.
Qed.

Lemma all_rows_some {A B} (f : A -> option B) (g : A -> B) l : (forall a, In a l -> f a = Some (g a)) -> all_rows f l = Some (map g l).
Proof. induction l as [|a l IH]; simpl; intros H; auto. rewrite H, IH by auto. reflexivity. Qed.

Lemma map_nth_all (A : list (list Z)) : map (fun i => nth i A []) (seq 0 (length A)) = A.
Proof.
  apply (nth_ext _ _ [] []); [rewrite map_length, seq_length; auto|]. intros k K. rewrite map_length, seq_length in K.
  rewrite (nth_indep _ [] (nth 0 A [])) by (rewrite map_length, seq_length; auto).
  rewrite (List.map_nth (fun i => nth i A [])), seq_nth by auto. reflexivity.
Qed.

Lemma flag0 n r (f : nat -> list Z) i : Permutation (map (fun k => graph_row n k (f k)) (seq 0 n)) (o_rows r) -> (i < n)%nat ->
  nth 0 (nth i (o_rows r) []) 0 = 0.
Proof.
  intros P I.
  assert (length (o_rows r) = n) as L by (rewrite <- (Permutation_length P), map_length, seq_length; auto).
  assert (In (nth i (o_rows r) []) (map (fun k => graph_row n k (f k)) (seq 0 n))) as J.
  { eapply Permutation_in; [apply Permutation_sym, P|]. apply nth_In. lia. }
  apply in_map_iff in J. destruct J as (k' & <- & _). reflexivity.
Qed.

Lemma scattering_read A r : Permutation (schedule_rows A) (o_rows r) -> o_out r = length A -> o_local r = 0%nat ->
  scattering_to_trans r = Some (mkMat (o_in r + o_par r + 1) A).
Proof.
  intros P O L. unfold scattering_to_trans. rewrite L. cbn [Nat.ltb Nat.leb].
  assert (length (o_rows r) = length A) as N.
  { rewrite <- (Permutation_length P). unfold schedule_rows. rewrite map_length, seq_length. reflexivity. }
  rewrite (all_rows_some _ (fun i => nth i A [])).
  - rewrite N, map_nth_all. do 2 f_equal. unfold o_cols. lia.
  - intros i Hi. apply in_seq in Hi. rewrite N in Hi. unfold schedule_rows in P.
    rewrite (flag0 (length A) r (fun k => nth k A [])) by (auto; lia). cbn [Z.eqb].
    destruct (find_graph_row (length A) r (fun k => nth k A []) i O P ltac:(lia)) as (k & -> & E).
    rewrite E, O, skipn_graph. reflexivity.
Qed.

Lemma access_perm_form w id A : access_rows w id A =
  map (fun k => graph_row (S (length A)) k (match k with O => repeat 0 w ++ [id] | S j => nth j A [] end)) (seq 0 (S (length A))).
Proof. unfold access_rows. cbn [seq map]. f_equal. rewrite <- seq_shift, map_map. reflexivity. Qed.

Lemma access_read w id A r : Permutation (access_rows w id A) (o_rows r) -> o_out r = S (length A) -> o_local r = 0%nat ->
  access_to_matrix r = Some (mkMat (o_in r + o_par r + 1) (if (length A =? 0)%nat then [repeat 0 (o_in r + o_par r + 1)] else A)).
Proof.
  intros P O L. unfold access_to_matrix. rewrite L. cbn [Nat.ltb Nat.leb]. rewrite access_perm_form in P.
  assert (length (o_rows r) = S (length A)) as N.
  { rewrite <- (Permutation_length P). rewrite map_length, seq_length. reflexivity. }
  cbv zeta. rewrite N. cbn [Nat.eqb]. replace (o_cols r - o_out r - 1)%nat with (o_in r + o_par r + 1)%nat by (unfold o_cols; lia).
  destruct (Nat.eqb_spec (length A) 0) as [Z0|NZ]; [reflexivity|].
  replace (S (length A) - 1)%nat with (length A) by lia.
  rewrite (all_rows_some _ (fun i => nth (i - 1) A [])).
  - rewrite <- seq_shift, map_map.
    replace (map (fun x => nth (S x - 1) A []) (seq 0 (length A))) with (map (fun x => nth x A []) (seq 0 (length A)))
      by (apply map_ext; intros; f_equal; lia).
    rewrite map_nth_all. reflexivity.
  - intros i Hi. apply in_seq in Hi.
    destruct (find_graph_row _ r _ i O P ltac:(lia)) as (k & -> & E). rewrite E, O, skipn_graph.
    destruct i as [|j]; [lia|]. replace (S j - 1)%nat with j by lia. reflexivity.
Qed.

Lemma access_rows_holds w id A b t x : length t = length A -> length x = w ->
  (forall l, In l (access_rows w id A) -> osl_holds ((b :: t) ++ x) l) <-> b = id /\ t = map (fun a => aff a x) A.
Proof.
  intros L W. rewrite access_perm_form.
  assert (aff (repeat 0 w ++ [id]) x = id) as E0.
  { unfold aff. rewrite dot_app by (rewrite repeat_length; auto). rewrite dot_repeat0_l. simpl. lia. }
  split.
  - intros H.
    assert (forall k, (k < S (length A))%nat -> nth k (b :: t) 0 =
              aff (match k with O => repeat 0 w ++ [id] | S j => nth j A [] end) x) as G.
    { intros k K. apply (graph_holds (S (length A))); [auto|simpl; lia|]. apply H. apply in_map_iff. exists k. split; [auto|].
      apply in_seq. lia. }
    split.
    + specialize (G 0%nat ltac:(lia)). cbv beta iota in G. rewrite E0 in G. exact G.
    + apply eq_by_nth; [rewrite map_length; auto|]. intros k K. specialize (G (S k) ltac:(lia)). cbv beta iota in G. cbn [nth] in G. rewrite G.
      rewrite (nth_indep (map _ _) 0 (aff [] x)) by (rewrite map_length; lia). rewrite (List.map_nth (fun a => aff a x)). reflexivity.
  - intros (-> & ->) l I. apply in_map_iff in I. destruct I as (k & <- & K). apply in_seq in K.
    apply graph_holds; [lia|simpl; rewrite map_length; auto|]. destruct k as [|k]; [auto|].
    simpl nth at 1. rewrite (nth_indep (map _ _) 0 (aff [] x)) by (rewrite map_length; lia).
    rewrite (List.map_nth (fun a => aff a x)). reflexivity.
Qed.

(** ** Writing *)

Lemma map_seq_tail (l : list Z) (n k : nat) : length l = n ->
  map (fun j => nth (j - k) l 0) (seq k n) = l.
Proof.
  revert k n. induction l as [|a l IH]; intros k n L; simpl in L; subst n; [reflexivity|]. simpl.
  rewrite Nat.sub_diag. f_equal. rewrite <- (IH (S k) (length l) eq_refl) at 2. apply map_ext_in. intros j Hj. apply in_seq in Hj.
  replace (j - k)%nat with (S (j - S k)) by lia. reflexivity.
Qed.

Lemma written_rows m npar : wf_mat m -> o_rows (trans_to_scattering npar m) = schedule_rows (mrows m).
Proof.
  intros W. unfold trans_to_scattering, schedule_rows. cbn [o_rows]. fold (mnrows m). apply map_ext_in. intros i Hi. apply in_seq in Hi.
  assert (length (nth i (mrows m) []) = mncols m) as L by (apply W, nth_In; unfold mnrows in *; lia).
  replace (mnrows m + mncols m + 1)%nat with (1 + (mnrows m + mncols m))%nat by lia.
  rewrite seq_app, map_app, seq_app, map_app. cbn [seq map Nat.eqb app]. unfold graph_row. f_equal. f_equal.
  - apply (nth_ext _ _ 0 0); [rewrite map_length, seq_length, neg_unit_length; auto|]. intros k K. rewrite map_length, seq_length in K.
    rewrite (nth_indep _ 0 ((fun j => if (j =? 0)%nat then 0 else if (j =? i + 1)%nat then -1 else if (j <=? mnrows m)%nat then 0
               else nth (j - mnrows m - 1) (nth i (mrows m) []) 0) 0%nat)) by (rewrite map_length, seq_length; auto).
    rewrite (List.map_nth (fun j => if (j =? 0)%nat then 0 else if (j =? i + 1)%nat then -1 else if (j <=? mnrows m)%nat then 0
               else nth (j - mnrows m - 1) (nth i (mrows m) []) 0)).
    rewrite seq_nth by auto. rewrite nth_neg_unit by lia. cbn [Nat.add]. change (1 + k)%nat with (S k). cbv beta. rewrite (proj2 (Nat.eqb_neq (S k) 0)) by lia.
    destruct (Nat.eqb_spec (S k) (i + 1)), (Nat.eqb_spec k i); try lia. destruct (Nat.leb_spec (S k) (mnrows m)); lia.
  - transitivity (map (fun j => nth (j - (0 + 1 + mnrows m)) (nth i (mrows m) []) 0) (seq (0 + 1 + mnrows m) (mncols m)));
      [|apply (map_seq_tail _ _ _ L)]. apply map_ext_in. intros j Hj.
    apply in_seq in Hj. destruct (Nat.eqb_spec j 0); [lia|]. destruct (Nat.eqb_spec j (i + 1)); [lia|].
    destruct (Nat.leb_spec j (mnrows m)); [lia|]. f_equal. lia.
Qed.

Lemma holds_row r x : osl_holds x ((if is_eq r then 0 else 1) :: coef r) <-> holds x r.
Proof. unfold osl_holds, holds. destruct (is_eq r); simpl; reflexivity. Qed.

Lemma holds_list l x : holds x (mkRow (nth 0 l 0 =? 0) (tl l)) <-> osl_holds x l.
Proof. unfold osl_holds, holds. simpl. destruct (nth 0 l 0 =? 0); reflexivity. Qed.

Lemma dot_insert_at k v a x y : length x = k -> (k <= length a)%nat -> length a = (k + length y)%nat ->
  dot (insert_at k 0 a) (x ++ v :: y) = dot a (x ++ y).
Proof.
  revert a x. induction k as [|k IH]; intros a x X K L.
  - destruct x; [|discriminate]. simpl. destruct a; simpl; lia.
  - destruct x as [|u x]; [discriminate|]. destruct a as [|b a]; [simpl in K; lia|]. simpl in *. rewrite IH; lia.
Qed.

Lemma blank_column_holds r l x v y : length l = o_cols r -> length x = o_out r -> length y = (o_in r + o_local r + o_par r)%nat ->
  osl_holds (x ++ v :: y) (insert_at (o_out r + 1) 0 l) <-> osl_holds (x ++ y) l.
Proof.
  intros L X Y. destruct l as [|e l]; [unfold o_cols in L; simpl in L; lia|]. unfold osl_holds. rewrite Nat.add_1_r. cbn [insert_at nth tl].
  unfold aff. rewrite <- !app_assoc. cbn [app]. unfold o_cols in L. simpl in L.
  rewrite dot_insert_at; [reflexivity|auto| |rewrite app_length; simpl]; lia.
Qed.

(** ** Accesses in lists *)

Lemma filter_walk_spec {A} (keep : A -> bool) l : forall done, filter_walk keep l done = rev done ++ filter keep l.
Proof.
  induction l as [|a l IH]; intros done; simpl; [rewrite app_nil_r; auto|]. rewrite !IH.
  destruct (keep a); simpl; [rewrite <- app_assoc|]; reflexivity.
Qed.

Lemma access_position_spec {A} (keep : A -> bool) d l : forall k num, (k < length l)%nat -> keep (nth k l d) = true ->
  exists j, access_position keep l k num = num + 1 + Z.of_nat j /\ nth_error (filter keep l) j = Some (nth k l d).
Proof.
  induction l as [|a l IH]; intros k num K H; simpl in K; [lia|]. simpl access_position. destruct k as [|k].
  - simpl in H. rewrite H. exists 0%nat. split; [lia|]. simpl. rewrite H. reflexivity.
  - simpl in H. destruct (IH k (if keep a then num + 1 else num) ltac:(lia) H) as (j & E & N). rewrite E. simpl nth.
    destruct (keep a) eqn:Ka.
    + exists (S j). split; [lia|]. simpl. rewrite Ka. exact N.
    + exists j. split; [lia|]. simpl. rewrite Ka. exact N.
Qed.
