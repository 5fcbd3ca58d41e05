(** * Proofs about the constraints on the next hyperplane and the ILP call. *)
From Coq Require Import ZArith List Bool Arith Lia.
From Verif Require Import SpecLinear SpecMatrix VecProofs MathModel ConstraintsModel EditProofs RankProofs MatrixProofs
  SpecProg SpecDriver SpecGraph GraphModel FrameworkModel FrameworkProofs SumProofs DepProofs ProgModel ProgProofs DriverModel.
Import ListNotations.
Open Scope Z_scope.

(** ** Number of independent hyperplanes *)

Lemma firstn_remove_at {A} k (l : list A) n : (n <= k)%nat -> firstn n (remove_at k l) = firstn n l.
Proof.
  revert l n; induction k; destruct l, n; simpl; intros; auto; try lia. f_equal. apply IHk. lia.
Qed.

Lemma iter_remove_col n k m : wf_mat m -> mncols m = (k + n)%nat ->
  Nat.iter n (fun m => matrix_remove_col m k) m = mkMat k (map (firstn k) (mrows m)).
Proof.
  intros Hw Hn.
  assert (forall j, (j <= n)%nat -> let q := Nat.iter j (fun m => matrix_remove_col m k) m in
     mncols q = (k + (n - j))%nat /\ wf_mat q /\ map (firstn k) (mrows q) = map (firstn k) (mrows m)) as K.
  { induction j as [|j IH]; intros Hj; cbn [Nat.iter nat_rect].
    - repeat split; auto. lia.
    - destruct IH as (A & B & C); [lia|]. cbn [Nat.iter nat_rect] in *. unfold Nat.iter in *.
      set (q := nat_rect _ _ _ _) in *. cbv zeta. split; [|split].
      + cbn. lia.
      + intros r Hr. cbn in *. apply in_map_iff in Hr as (r0 & <- & Hr0). pose proof (B _ Hr0). rewrite remove_at_length by lia. lia.
      + cbn. rewrite map_map. rewrite <- C. apply map_ext. intros r. apply firstn_remove_at. auto. }
  destruct (K n (le_n n)) as (A & B & C). unfold Nat.iter in *. set (q := nat_rect _ _ _ _) in *.
  destruct q as [c rs] eqn:E. cbn in *. f_equal; [lia|]. rewrite <- C. 
  transitivity (map (fun r : list Z => r) rs); [symmetry; apply map_id|]. apply map_ext_in. intros r Hr.
  symmetry. apply firstn_all2. rewrite (B r Hr). cbn. lia.
Qed.

Lemma independent_le n B : wfv n B -> independent n B -> (length B <= n)%nat.
Proof.
  intros W I. destruct (le_lt_dec (length B) n) as [|L]; auto. exfalso.
  destruct (homogeneous_nontrivial (map (fun i => coln i B) (seq 0 n)) (length B)) as (x & Lx & (v & Hv & Nv) & H).
  - intros r Hr. apply in_map_iff in Hr as (i & <- & _). unfold coln. apply map_length.
  - rewrite map_length, seq_length. auto.
  - apply Nv. apply (I x Lx); auto. apply lincomb_eq; auto. apply repeat_length.
    intros i Hi. rewrite nth_repeat. rewrite dot_comm. apply H. apply in_map_iff. exists i. split; auto. apply in_seq. lia.
Qed.

Lemma has_rank_le n vs k : has_rank n vs k -> (k <= n)%nat.
Proof. intros (B & <- & W & I & _). apply independent_le; auto. Qed.
Lemma has_rank_le_len n vs k : wfv n vs -> has_rank n vs k -> (k <= length vs)%nat.
Proof. intros Wv (B & <- & W & I & S1 & S2). apply (steinitz n B vs); auto. Qed.

Lemma rank_le_nrows m : (matrix_get_rank m <= length (mrows (matrix_to_row_echelon m)))%nat.
Proof. unfold matrix_get_rank. lia. Qed.

Lemma echelon_nrows m : wf_mat m -> length (mrows (matrix_to_row_echelon m)) = mnrows m.
Proof.
  intros Hw. unfold matrix_to_row_echelon. cbn [mrows].
  pose proof (echelon_inv m (Nat.min (mncols m) (mnrows m)) Hw ltac:(lia)) as Hinv.
  destruct (fold_left echelon_step _ _) as [r rs]. cbn [snd]. destruct Hinv as (H1 & H2 & _). auto.
Qed.

Definition iter_mat (st : stmt) : matrix :=
  mkMat (s_dim_orig st) (map (firstn (s_dim_orig st)) (mrows (s_trans st))).

Lemma iter_mat_wf st : wf_mat (s_trans st) -> (s_dim_orig st <= mncols (s_trans st))%nat -> wf_mat (iter_mat st).
Proof.
  intros W L r Hr. cbn in *. apply in_map_iff in Hr as (r0 & <- & Hr0). rewrite firstn_length, (W r0 Hr0). lia.
Qed.

Lemma num_ind_hyps_eq st : wf_mat (s_trans st) -> (s_dim_orig st <= mncols (s_trans st))%nat ->
  num_ind_hyps st = matrix_get_rank (iter_mat st).
Proof. intros W L. unfold num_ind_hyps. rewrite iter_remove_col; auto. lia. Qed.

Lemma needs_spec st : wf_mat (s_trans st) -> (s_dim_orig st <= mncols (s_trans st))%nat ->
  needs_hyps st = false <-> complete st.
Proof.
  intros W L. unfold needs_hyps. rewrite num_ind_hyps_eq by auto. rewrite negb_false_iff, Nat.leb_le.
  pose proof (iter_mat_wf st W L) as Wi. unfold complete. split.
  - intros H. destruct (le_lt_dec (mncols (iter_mat st)) (mnrows (iter_mat st))) as [T|T].
    + pose proof (rank_ok _ Wi T) as R. cbn [mncols mrows iter_mat] in R.
      pose proof (has_rank_le _ _ _ R). change (mrows (iter_mat st)) with (map (firstn (s_dim_orig st)) (mrows (s_trans st))) in R.
      replace (matrix_get_rank _) with (s_dim_orig st) in R by lia. exact R.
    + pose proof (rank_le_nrows (iter_mat st)). rewrite echelon_nrows in H0 by auto. cbn [mncols iter_mat] in T. lia.
  - intros R. apply (rank_upper (iter_mat st) (s_dim_orig st) Wi). exact R.
Qed.

Lemma full_ranked_spec pr : (forall st, In st (p_stmts pr) -> wf_mat (s_trans st) /\ (s_dim_orig st <= mncols (s_trans st))%nat) ->
  transformations_full_ranked pr = true <-> forall st, In st (p_stmts pr) -> complete st.
Proof.
  intros W. unfold transformations_full_ranked. rewrite forallb_forall. split; intros H st Hs; specialize (H st Hs); destruct (W st Hs) as [A B].
  - apply needs_spec; auto. unfold needs_hyps. rewrite <- Nat.leb_antisym in H. rewrite H. auto.
  - apply needs_spec in H; auto. unfold needs_hyps in H. rewrite <- Nat.leb_antisym. apply negb_false_iff in H. auto.
Qed.

(** ** Coefficient bounds *)

Lemma fold_lb l lb : forall c x, (forall i, In i l -> (i < ncols c - 1)%nat) ->
  let c' := fold_left (fun c i => add_lb c i lb) l c in
  ncols c' = ncols c /\ (mem c' x <-> mem c x /\ forall i, In i l -> lb <= nth i x 0).
Proof.
  induction l as [|i l IH]; intros c x H; cbn [fold_left].
  - split; auto. simpl. intuition.
  - destruct (IH (add_lb c i lb) x) as [A B].
    { intros j Hj. change (ncols (add_lb c i lb)) with (ncols c). apply H. simpl; auto. }
    split; [rewrite A; reflexivity|]. cbv zeta in *. rewrite B. rewrite add_lb_mem by (apply H; simpl; auto). simpl.
    split; [intros [[K1 K2] K3]; split; auto; intros j [<-|Hj]; auto|intros [K1 K2]; split; [split|]; auto].
Qed.
Lemma fold_ub l ub : forall c x, (forall i, In i l -> (i < ncols c - 1)%nat) ->
  let c' := fold_left (fun c i => add_ub c i ub) l c in
  ncols c' = ncols c /\ (mem c' x <-> mem c x /\ forall i, In i l -> nth i x 0 <= ub).
Proof.
  induction l as [|i l IH]; intros c x H; cbn [fold_left].
  - split; auto. simpl. intuition.
  - destruct (IH (add_ub c i ub) x) as [A B].
    { intros j Hj. change (ncols (add_ub c i ub)) with (ncols c). apply H. simpl; auto. }
    split; [rewrite A; reflexivity|]. cbv zeta in *. rewrite B. rewrite add_ub_mem by (apply H; simpl; auto). simpl.
    split; [intros [[K1 K2] K3]; split; auto; intros j [<-|Hj]; auto|intros [K1 K2]; split; [split|]; auto].
Qed.

Definition coeff_limit (o : options) (pr : prog) : option Z :=
  if negb (o_coeff_bound o =? -1) then Some (o_coeff_bound o)
  else if 10 <=? largest_const_in_domains pr then Some (largest_const_in_domains pr) else None.

Lemma bounding_mem o pr x :
  mem (get_coeff_bounding_constraints o pr) x <->
  (S (length x) = cst_width pr /\ (forall v, In v x -> 0 <= v) /\
   forall i, (p_npar pr + 1 <= i < length x)%nat -> match coeff_limit o pr with Some u => nth i x 0 <= u | None => True end).
Proof.
  unfold get_coeff_bounding_constraints, coeff_limit. set (w := cst_width pr). cbv zeta.
  assert (p_npar pr + 2 <= w)%nat as Hw by (unfold w, cst_width; lia).
  set (lbs := fold_left (fun c i => add_lb c i 0) (seq 0 (w - 1)) (universe w)).
  destruct (fold_lb (seq 0 (w - 1)) 0 (universe w) x) as [A B].
  { intros i Hi. apply in_seq in Hi. cbn. lia. }
  fold lbs in A, B. cbn [universe ncols] in A.
  assert (mem lbs x <-> S (length x) = w /\ forall v, In v x -> 0 <= v) as L.
  { rewrite B. unfold mem, universe; cbn [ncols rows]. split.
    - intros [[K1 _] K2]. split; auto. intros v Hv. apply (In_nth _ _ 0) in Hv as (i & Hi & <-). apply K2. apply in_seq. lia.
    - intros [K1 K2]. split; [split; auto; intros r []|]. intros i Hi. apply in_seq in Hi. apply K2. apply nth_In. lia. }
  assert (forall u, mem (fold_left (fun c i => add_ub c i u) (seq (p_npar pr + 1) (w - 1 - (p_npar pr + 1))) lbs) x <->
     S (length x) = w /\ (forall v, In v x -> 0 <= v) /\ forall i, (p_npar pr + 1 <= i < length x)%nat -> nth i x 0 <= u) as U.
  { intros u. destruct (fold_ub (seq (p_npar pr + 1) (w - 1 - (p_npar pr + 1))) u lbs x) as [A' B'].
    { intros i Hi. apply in_seq in Hi. lia. }
    rewrite B', L. split.
    - intros [[K1 K2] K3]. split; [|split]; auto. intros i Hi. apply K3. apply in_seq. lia.
    - intros (K1 & K2 & K3). split; [split|]; auto. intros i Hi. apply in_seq in Hi. apply K3. lia. }
  destruct (negb (o_coeff_bound o =? -1)); [apply U|].
  destruct (10 <=? largest_const_in_domains pr); [apply U|]. rewrite L. intuition.
Qed.

Lemma fold_lb_wf l lb : forall c, wf_cst c -> wf_cst (fold_left (fun c i => add_lb c i lb) l c) /\ ncols (fold_left (fun c i => add_lb c i lb) l c) = ncols c.
Proof.
  induction l; intros c W; simpl; auto. destruct (IHl (add_lb c a lb)) as [A B].
  - unfold add_lb, add_inequality. rewrite add_row2. destruct W as [W1 W2]. split; auto. cbn [ncols rows] in *.
    intros r Hr. apply in_app_or in Hr as [Hr|[<-|[]]]; auto. simpl. rewrite !set_nth_length, repeat_length. auto.
  - split; auto.
Qed.
Lemma fold_ub_wf l lb : forall c, wf_cst c -> wf_cst (fold_left (fun c i => add_ub c i lb) l c) /\ ncols (fold_left (fun c i => add_ub c i lb) l c) = ncols c.
Proof.
  induction l; intros c W; simpl; auto. destruct (IHl (add_ub c a lb)) as [A B].
  - unfold add_ub, add_inequality. rewrite add_row2. destruct W as [W1 W2]. split; auto. cbn [ncols rows] in *.
    intros r Hr. apply in_app_or in Hr as [Hr|[<-|[]]]; auto. simpl. rewrite !set_nth_length, repeat_length. auto.
  - split; auto.
Qed.
Lemma bounding_wf o pr : wf_cst (get_coeff_bounding_constraints o pr) /\ ncols (get_coeff_bounding_constraints o pr) = cst_width pr.
Proof.
  unfold get_coeff_bounding_constraints. cbv zeta.
  destruct (fold_lb_wf (seq 0 (cst_width pr - 1)) 0 (universe (cst_width pr))) as [A B].
  { split; cbn. unfold cst_width; lia. intros r []. }
  set (lbs := fold_left _ _ _) in *. 
  assert (forall u l, wf_cst (fold_left (fun c i => add_ub c i u) l lbs) /\ ncols (fold_left (fun c i => add_ub c i u) l lbs) = cst_width pr) as U.
  { intros u l. destruct (fold_ub_wf l u lbs A). split; auto. rewrite H0, B. auto. }
  destruct (negb (o_coeff_bound o =? -1)); [apply U|]. destruct (10 <=? _); [apply U|]. split; auto.
Qed.

Lemma nth_map_seq {A} (f : nat -> A) n d j : (j < n)%nat -> nth j (map f (seq 0 n)) d = f j.
Proof.
  intros H. rewrite (nth_indep _ d (f 0%nat)) by (rewrite map_length, seq_length; auto).
  rewrite List.map_nth, seq_nth by auto. reflexivity.
Qed.

(** ** Placing coefficients at the original loops of a statement *)

Definition count (m : list bool) : nat := length (filter (fun b => b) m).

Fixpoint expand (m : list bool) (c : list Z) : list Z :=
  match m with
  | [] => []
  | b :: m' => if b then hd 0 c :: expand m' (tl c) else 0 :: expand m' c
  end.

Lemma expand_length m c : length (expand m c) = length m.
Proof. revert c; induction m as [|[] m IH]; intros c; simpl; auto. Qed.

Lemma nth_tl {A} n (l : list A) d : nth n (tl l) d = nth (S n) l d.
Proof. destruct l; simpl; auto. destruct n; auto. Qed.

Lemma nth_expand m : forall c q, nth q (expand m c) 0 =
  if nth q m false then nth (count (firstn q m)) c 0 else 0.
Proof.
  induction m as [|b m IH]; intros c q; [destruct q; auto|].
  destruct b, q; cbn [expand nth firstn]; auto.
  - destruct c; auto.
  - rewrite IH. unfold count. cbn [filter length]. rewrite nth_tl. auto.
  - rewrite IH. reflexivity.
Qed.

Lemma dot_expand m : forall c y, length y = length m -> length c = count m ->
  dot (expand m c) y = dot c (select m y).
Proof.
  induction m as [|b m IH]; intros c y Hy Hc; destruct y as [|v y]; try discriminate.
  - destruct c; [reflexivity|discriminate].
  - destruct b; cbn [expand select dot].
    + destruct c as [|a c]; [discriminate|]. cbn [hd tl]. rewrite IH; auto.
    + rewrite IH; auto.
Qed.

Lemma select_length {A} m (y : list A) : length y = length m -> length (select m y) = count m.
Proof.
  revert y; induction m as [|b m IH]; intros [|v y] H; try discriminate; auto.
  unfold count in *. destruct b; simpl; rewrite IH; auto.
Qed.

Lemma offset_room pr s : (s < length (p_stmts pr))%nat ->
  (stmt_offset pr s + p_nvar pr + 1 < cst_width pr)%nat.
Proof.
  intros H. unfold stmt_offset, cst_width. 
  assert (s * (p_nvar pr + 1) + (p_nvar pr + 1) <= length (p_stmts pr) * (p_nvar pr + 1))%nat; [|lia].
  replace (s * (p_nvar pr + 1) + (p_nvar pr + 1))%nat with (S s * (p_nvar pr + 1))%nat by lia.
  apply Nat.mul_le_mono_r. lia.
Qed.

Lemma mask_length pr st : length (s_orig st) = p_nvar pr -> length (orig_mask pr st) = p_nvar pr.
Proof. intros H. unfold orig_mask. rewrite firstn_length. lia. Qed.

Lemma spread_eq pr s c : (s < length (p_stmts pr))%nat -> length (s_orig (stmt_of pr s)) = p_nvar pr ->
  spread_column pr s c =
  repeat 0 (stmt_offset pr s) ++ expand (orig_mask pr (stmt_of pr s)) c
  ++ repeat 0 (cst_width pr - stmt_offset pr s - p_nvar pr).
Proof.
  intros Hs Ho. pose proof (offset_room pr s Hs) as R. pose proof (mask_length pr _ Ho) as M.
  apply (list_ext_nth 0).
  - unfold spread_column. rewrite map_length, seq_length, !app_length, !repeat_length, expand_length, M. lia.
  - intros j Hj. unfold spread_column in *. rewrite map_length, seq_length in Hj.
    rewrite nth_map_seq by auto. cbv zeta.
    destruct (Nat.leb_spec (stmt_offset pr s) j) as [L|L]; cbn [andb].
    + rewrite app_nth2 by (rewrite repeat_length; auto). rewrite repeat_length.
      destruct (Nat.ltb_spec (j - stmt_offset pr s) (p_nvar pr)) as [L2|L2]; cbn [andb].
      * rewrite app_nth1 by (rewrite expand_length; lia). rewrite nth_expand. reflexivity.
      * rewrite app_nth2 by (rewrite expand_length; lia). rewrite nth_repeat. auto.
    + rewrite app_nth1 by (rewrite repeat_length; auto). rewrite nth_repeat. auto.
Qed.

Lemma spread_length pr s c : length (spread_column pr s c) = cst_width pr.
Proof. unfold spread_column. rewrite map_length, seq_length. auto. Qed.

Lemma window_eq {A} (x : list A) off n : (off + n <= length x)%nat ->
  x = firstn off x ++ firstn n (skipn off x) ++ skipn (off + n) x.
Proof.
  intros H. rewrite <- (firstn_skipn off x) at 1. f_equal.
  rewrite <- (firstn_skipn n (skipn off x)) at 1. f_equal.
  revert x H; induction off; intros x H; simpl; auto. destruct x; simpl in *; try lia. apply IHoff. lia.
Qed.

Lemma iter_coefs_window pr x s : (s < length (p_stmts pr))%nat -> S (length x) = cst_width pr ->
  iter_coefs pr x s = firstn (p_nvar pr) (skipn (stmt_offset pr s) x).
Proof.
  intros Hs Hx. pose proof (offset_room pr s Hs) as R. apply (list_ext_nth 0).
  - unfold iter_coefs. rewrite map_length, seq_length, firstn_length, skipn_length. lia.
  - intros k Hk. unfold iter_coefs in *. rewrite map_length, seq_length in Hk.
    rewrite nth_map_seq by auto. rewrite nth_window by auto. reflexivity.
Qed.

Lemma spread_dot pr s c x : (s < length (p_stmts pr))%nat -> length (s_orig (stmt_of pr s)) = p_nvar pr ->
  S (length x) = cst_width pr -> length c = count (orig_mask pr (stmt_of pr s)) ->
  aff (spread_column pr s c) x = dot c (orig_part pr (stmt_of pr s) (iter_coefs pr x s)).
Proof.
  intros Hs Ho Hx Hc. pose proof (offset_room pr s Hs) as R. pose proof (mask_length pr _ Ho) as M.
  rewrite spread_eq by auto. unfold aff.
  rewrite (window_eq x (stmt_offset pr s) (p_nvar pr)) at 1 by lia.
  rewrite <- !app_assoc. rewrite dot_app by (rewrite repeat_length, firstn_length; lia). rewrite dot_repeat0_l.
  rewrite dot_app by (rewrite expand_length, firstn_length, skipn_length; lia). rewrite dot_repeat0_l.
  unfold orig_part. fold (orig_mask pr (stmt_of pr s)). rewrite iter_coefs_window by auto.
  rewrite dot_expand; auto. lia. rewrite firstn_length, skipn_length. lia.
Qed.

(** ** Non-trivial solutions *)

Lemma sum_coef_spread pr s j : (j < cst_width pr)%nat ->
  sum_coef pr s j = nth j (spread_column pr s (repeat 1 (count (orig_mask pr (stmt_of pr s))))) 0.
Proof.
  intros Hj. unfold spread_column, sum_coef.
  rewrite nth_map_seq by auto. cbv zeta.
  set (m := orig_mask pr (stmt_of pr s)). set (q := (j - stmt_offset pr s)%nat).
  destruct ((stmt_offset pr s <=? j)%nat && (q <? p_nvar pr)%nat); cbn [andb]; auto.
  destruct (nth q m false) eqn:E; auto.
  assert (length (filter (fun b => b) (firstn q m)) < count m)%nat as L.
  { clear - E. clearbody q m. unfold count. revert q E; induction m as [|b m IH]; intros [|q] E; simpl in *; try discriminate.
    - subst b. simpl. lia.
    - specialize (IH q E). destruct b; simpl; lia. }
  clear -L. set (i := length _) in *. clearbody i. revert i L. induction (count m); intros i L; [lia|]. destruct i; simpl; auto. apply IHn. lia.
Qed.

Lemma row_with_const w (r : list Z) x v : length r = w -> S (length x) = w -> nth (w - 1) r 0 = 0 ->
  aff (set_nth (w - 1) v r) x = aff r x + v.
Proof.
  intros Hr Hx Hz. unfold aff. rewrite dot_set_nth by (rewrite ?app_length; simpl; lia).
  rewrite app_nth2 by lia. replace (w - 1 - length x)%nat with 0%nat by lia. rewrite Hz. simpl. ring.
Qed.

Lemma map_set_last w (f : nat -> Z) v : (1 <= w)%nat ->
  map (fun j => if (j =? w - 1)%nat then v else f j) (seq 0 w) = set_nth (w - 1) v (map f (seq 0 w)).
Proof.
  intros Hw. apply (list_ext_nth 0). rewrite set_nth_length, !map_length. auto.
  intros i Hi. rewrite map_length, seq_length in Hi.
  rewrite nth_map_seq by auto.
  destruct (Nat.eqb_spec i (w - 1)) as [->|N].
  - rewrite nth_set_nth_eq by (rewrite map_length, seq_length; lia). auto.
  - rewrite nth_set_nth_neq by auto. rewrite nth_map_seq by auto. auto.
Qed.

Lemma dot_repeat1_nonneg n y : length y = n -> (forall v, In v y -> 0 <= v) ->
  0 <= dot (repeat 1 n) y /\ (1 <= dot (repeat 1 n) y <-> exists v, In v y /\ v <> 0).
Proof.
  revert n; induction y as [|a y IH]; intros n Hn H; subst n; cbn [length repeat dot].
  - split; [lia|]. split; [lia|]. intros (v & [] & _).
  - destruct (IH (length y) eq_refl) as [A B]. { intros v Hv. apply H. simpl; auto. }
    assert (0 <= a) by (apply H; simpl; auto). split; [lia|]. split.
    + intros K. destruct (Z.eq_dec a 0) as [->|N].
      * destruct (proj1 B ltac:(lia)) as (v & Hv & Nv). exists v. simpl; auto.
      * exists a. simpl; auto.
    + intros (v & [<-|Hv] & Nv). lia. assert (1 <= dot (repeat 1 (length y)) y) by (apply B; eauto). lia.
Qed.

Lemma select_in m (y : list Z) v : In v (select m y) <-> exists k, (k < length y)%nat /\ nth k m false = true /\ nth k y 0 = v.
Proof.
  revert y; induction m as [|b m IH]; intros [|a y]; cbn [select].
  - split; [intros []|intros (k & Hk & _); simpl in Hk; lia].
  - split; [intros []|intros (k & _ & Hk & _); destruct k; discriminate].
  - split; [intros []|intros (k & Hk & _); simpl in Hk; lia].
  - assert ((exists k, (k < length (a :: y))%nat /\ nth k (b :: m) false = true /\ nth k (a :: y) 0 = v) <->
            (b = true /\ a = v) \/ exists k, (k < length y)%nat /\ nth k m false = true /\ nth k y 0 = v) as K.
    { split.
      - intros ([|k] & Hk & H1 & H2); simpl in *; auto. right. exists k. repeat split; auto. lia.
      - intros [[H1 H2]|(k & Hk & H1 & H2)]; [exists 0%nat|exists (S k)]; simpl; repeat split; auto; lia. }
    rewrite K, <- IH. destruct b; simpl; intuition congruence.
Qed.

Lemma nontrivial_select pr x s : nontrivial pr x s <->
  exists v, In v (orig_part pr (stmt_of pr s) (iter_coefs pr x s)) /\ v <> 0.
Proof.
  unfold orig_part. split.
  - intros (k & Hk & H1 & H2). exists (hcoef pr x s k). split; auto. apply select_in. exists k.
    unfold iter_coefs. rewrite map_length, seq_length. split; [auto|]. split.
    + rewrite nth_firstn_lt by auto. auto.
    + rewrite nth_map_seq; auto.
  - intros (v & Hv & Nv). apply select_in in Hv as (k & Hk & H1 & H2). unfold iter_coefs in Hk. rewrite map_length, seq_length in Hk.
    exists k. split; auto. rewrite nth_firstn_lt in H1 by auto. split; auto.
    unfold iter_coefs in H2. rewrite nth_map_seq in H2 by auto. congruence.
Qed.

Definition ones (pr : prog) (s : nat) : list Z := spread_column pr s (repeat 1 (count (orig_mask pr (stmt_of pr s)))).

Lemma ones_aff pr s x : (s < length (p_stmts pr))%nat -> length (s_orig (stmt_of pr s)) = p_nvar pr ->
  S (length x) = cst_width pr -> (forall v, In v x -> 0 <= v) ->
  0 <= aff (ones pr s) x /\ (1 <= aff (ones pr s) x <-> nontrivial pr x s).
Proof.
  intros Hs Ho Hx Hp. unfold ones. rewrite spread_dot by (auto; apply repeat_length).
  rewrite nontrivial_select. apply dot_repeat1_nonneg.
  - unfold orig_part. fold (orig_mask pr (stmt_of pr s)). apply select_length. unfold iter_coefs. rewrite map_length, seq_length.
    symmetry. apply mask_length. auto.
  - intros v Hv. unfold orig_part in Hv. apply select_in in Hv as (k & Hk & H1 & H2). unfold iter_coefs in *.
    rewrite map_length, seq_length in Hk. rewrite nth_map_seq in H2 by auto. subst v. apply Hp. unfold hcoef. apply nth_In.
    pose proof (offset_room pr s Hs). unfold stmt_offset in H. lia.
Qed.

Lemma ones_last pr s : (s < length (p_stmts pr))%nat -> length (s_orig (stmt_of pr s)) = p_nvar pr ->
  nth (cst_width pr - 1) (ones pr s) 0 = 0.
Proof.
  intros Hs Ho. unfold ones. rewrite spread_eq by auto. pose proof (offset_room pr s Hs) as R. pose proof (mask_length pr _ Ho).
  rewrite app_nth2 by (rewrite repeat_length; lia). rewrite app_nth2 by (rewrite repeat_length, expand_length; lia). apply nth_repeat.
Qed.
Lemma spread_last pr s c : (s < length (p_stmts pr))%nat -> length (s_orig (stmt_of pr s)) = p_nvar pr ->
  nth (cst_width pr - 1) (spread_column pr s c) 0 = 0.
Proof.
  intros Hs Ho. rewrite spread_eq by auto. pose proof (offset_room pr s Hs) as R. pose proof (mask_length pr _ Ho).
  rewrite app_nth2 by (rewrite repeat_length; lia). rewrite app_nth2 by (rewrite repeat_length, expand_length; lia). apply nth_repeat.
Qed.

Lemma ones_map pr s : ones pr s = map (sum_coef pr s) (seq 0 (cst_width pr)).
Proof.
  apply (list_ext_nth 0). unfold ones. rewrite spread_length, map_length, seq_length. auto.
  intros i Hi. unfold ones in Hi. rewrite spread_length in Hi.
  rewrite nth_map_seq by auto. symmetry. apply sum_coef_spread. auto.
Qed.

Definition wf_orig (pr : prog) : Prop := forall s, (s < length (p_stmts pr))%nat -> length (s_orig (stmt_of pr s)) = p_nvar pr.

Lemma nontriv_eager pr x : wf_orig pr -> S (length x) = cst_width pr -> (forall v, In v x -> 0 <= v) ->
  mem (get_non_trivial_sol_constraints pr EAGER) x <->
  forall s, (s < length (p_stmts pr))%nat -> needs_hyps (stmt_of pr s) = true -> nontrivial pr x s.
Proof.
  intros Ho Hx Hp. unfold get_non_trivial_sol_constraints. cbv zeta. unfold mem; cbn [ncols rows].
  assert (1 <= cst_width pr)%nat as W1 by (unfold cst_width; lia).
  assert (forall s, (s < length (p_stmts pr))%nat ->
    holds x (mkRow false (map (fun j => if (j =? cst_width pr - 1)%nat then -1 else sum_coef pr s j) (seq 0 (cst_width pr)))) <-> nontrivial pr x s) as K.
  { intros s Hs. unfold holds; cbn [is_eq coef]. rewrite map_set_last by auto. rewrite <- ones_map.
    rewrite row_with_const; [|unfold ones; apply spread_length|auto|apply ones_last; auto].
    destruct (ones_aff pr s x Hs (Ho s Hs) Hx Hp) as [A B]. rewrite <- B. lia. }
  split.
  - intros [_ H] s Hs Hn. apply K; auto. apply H. apply in_map_iff. exists s. split; auto. apply filter_In. split; auto. apply in_seq. lia.
  - intros H. split; auto. intros r Hr. apply in_map_iff in Hr as (s & <- & Hs). apply filter_In in Hs as [Hs Hn]. apply in_seq in Hs.
    apply K. lia. apply H; auto. lia.
Qed.

(** Sum of the rows of a list of statements. *)
Lemma sum_rows_aff w (l : list (list Z)) x : (forall r, In r l -> length r = w) -> S (length x) = w ->
  aff (fold_right (zip_with Z.add) (repeat 0 w) l) x = fold_right Z.add 0 (map (fun r => aff r x) l) /\
  length (fold_right (zip_with Z.add) (repeat 0 w) l) = w.
Proof.
  intros H Hx. induction l as [|r l IH]; cbn [fold_right map].
  - split; [unfold aff; apply dot_repeat0_l|apply repeat_length].
  - destruct IH as [A B]. { intros; apply H; simpl; auto. }
    assert (length r = w) as Hr by (apply H; simpl; auto).
    split; [|rewrite zip_with_length; lia]. rewrite <- A. unfold aff. apply dot_add; rewrite ?app_length; simpl; lia.
Qed.
Lemma sum_rows_nth w (l : list (list Z)) i : (forall r, In r l -> length r = w) ->
  nth i (fold_right (zip_with Z.add) (repeat 0 w) l) 0 = fold_right Z.add 0 (map (fun r => nth i r 0) l) .
Proof.
  intros H. assert (length (fold_right (zip_with Z.add) (repeat 0 w) l) = w /\ nth i (fold_right (zip_with Z.add) (repeat 0 w) l) 0 = fold_right Z.add 0 (map (fun r => nth i r 0) l)) as [_ K]; auto.
  induction l as [|r l IH]; cbn [fold_right map].
  - split. apply repeat_length. apply nth_repeat.
  - destruct IH as [A B]. { intros; apply H; simpl; auto. }
    assert (length r = w) as Hr by (apply H; simpl; auto).
    split. rewrite zip_with_length; lia. rewrite nth_zip_add by lia. lia.
Qed.

Lemma sum_nonneg (l : list Z) : (forall v, In v l -> 0 <= v) -> 0 <= fold_right Z.add 0 l /\ (1 <= fold_right Z.add 0 l <-> exists v, In v l /\ 1 <= v).
Proof.
  induction l as [|a l IH]; intros H; cbn [fold_right].
  - split; [lia|]. split; [lia|intros (v & [] & _)].
  - destruct IH as [A B]. { intros; apply H; simpl; auto. } assert (0 <= a) by (apply H; simpl; auto).
    split; [lia|]. split.
    + intros K. destruct (Z_le_dec 1 a). exists a; simpl; auto. destruct (proj1 B ltac:(lia)) as (v & Hv & ?). exists v; simpl; auto.
    + intros (v & [<-|Hv] & Hl). lia. assert (1 <= fold_right Z.add 0 l) by (apply B; eauto). lia.
Qed.

Lemma offset_disjoint pr s s' j : s <> s' -> (stmt_offset pr s <= j)%nat -> (j - stmt_offset pr s < p_nvar pr)%nat ->
  (stmt_offset pr s' <= j)%nat -> (j - stmt_offset pr s' < p_nvar pr)%nat -> False.
Proof.
  unfold stmt_offset. intros N. intros.
  assert (s < s' \/ s' < s)%nat as [L|L] by lia.
  - assert ((s + 1) * (p_nvar pr + 1) <= s' * (p_nvar pr + 1))%nat by (apply Nat.mul_le_mono_r; lia). lia.
  - assert ((s' + 1) * (p_nvar pr + 1) <= s * (p_nvar pr + 1))%nat by (apply Nat.mul_le_mono_r; lia). lia.
Qed.

Lemma sum_coef_01 pr s j : sum_coef pr s j = 0 \/ sum_coef pr s j = 1.
Proof. unfold sum_coef. destruct (_ && _ && _); auto. Qed.

Lemma lazy_row pr need : NoDup need ->
  map (fun j => if existsb (fun s => sum_coef pr s j =? 1) need then 1 else 0) (seq 0 (cst_width pr)) =
  fold_right (zip_with Z.add) (repeat 0 (cst_width pr)) (map (ones pr) need).
Proof.
  intros ND. set (w := cst_width pr).
  assert (forall r, In r (map (ones pr) need) -> length r = w) as L.
  { intros r Hr. apply in_map_iff in Hr as (s & <- & _). unfold ones. apply spread_length. }
  apply (list_ext_nth 0).
  - rewrite map_length, seq_length. symmetry. clear -L. induction need; cbn [map fold_right]. apply repeat_length.
    rewrite zip_with_length; rewrite ?IHneed; try (apply L; simpl; auto); intros; apply L; simpl; auto.
  - intros j Hj. rewrite map_length, seq_length in Hj. rewrite sum_rows_nth by auto.
    rewrite nth_map_seq by auto.
    rewrite map_map. rewrite (map_ext_in _ (fun s => sum_coef pr s j)).
    2:{ intros s Hs. unfold ones. symmetry. apply sum_coef_spread. auto. }
    clear L. induction ND as [|s l Hn ND IH]; cbn [existsb map fold_right]; auto.
    rewrite <- IH. destruct (sum_coef_01 pr s j) as [E|E]; rewrite E; cbn [Z.eqb orb]; auto.
    destruct (existsb (fun s0 => sum_coef pr s0 j =? 1) l) eqn:X; auto. exfalso.
    apply existsb_exists in X as (s' & Hs' & E'). apply Z.eqb_eq in E'. unfold sum_coef in E, E'.
    destruct (Nat.leb_spec (stmt_offset pr s) j), (Nat.leb_spec (stmt_offset pr s') j), (Nat.ltb_spec (j - stmt_offset pr s) (p_nvar pr)), (Nat.ltb_spec (j - stmt_offset pr s') (p_nvar pr)); cbn in E, E'; try discriminate.
    apply (offset_disjoint pr s s' j); auto. congruence.
Qed.

Lemma nontriv_lazy pr x : wf_orig pr -> S (length x) = cst_width pr -> (forall v, In v x -> 0 <= v) ->
  mem (get_non_trivial_sol_constraints pr LAZY) x <->
  ((exists s, (s < length (p_stmts pr))%nat /\ needs_hyps (stmt_of pr s) = true /\ nontrivial pr x s)
   \/ forall s, (s < length (p_stmts pr))%nat -> needs_hyps (stmt_of pr s) = false).
Proof.
  intros Ho Hx Hp. unfold get_non_trivial_sol_constraints. cbv zeta.
  set (need := filter (fun s => needs_hyps (stmt_of pr s)) (seq 0 (length (p_stmts pr)))).
  assert (1 <= cst_width pr)%nat as W1 by (unfold cst_width; lia).
  assert (NoDup need) as ND by (apply NoDup_filter, seq_NoDup).
  assert (forall s, In s need <-> (s < length (p_stmts pr))%nat /\ needs_hyps (stmt_of pr s) = true) as In1.
  { intros s. unfold need. rewrite filter_In, in_seq. intuition lia. }
  set (c := if (length need =? 0)%nat then 0 else -1).
  assert (aff (map (fun j => if (j =? cst_width pr - 1)%nat then c else if existsb (fun s => sum_coef pr s j =? 1) need then 1 else 0) (seq 0 (cst_width pr))) x
          = fold_right Z.add 0 (map (fun s => aff (ones pr s) x) need) + c) as E.
  { rewrite map_set_last by auto. rewrite lazy_row by auto.
    assert (forall r, In r (map (ones pr) need) -> length r = cst_width pr) as L.
    { intros r Hr. apply in_map_iff in Hr as (s & <- & _). unfold ones. apply spread_length. }
    destruct (sum_rows_aff (cst_width pr) (map (ones pr) need) x L Hx) as [A B].
    rewrite row_with_const; auto.
    - rewrite A, map_map. auto.
    - rewrite sum_rows_nth by auto. rewrite map_map.
      assert (forall s, In s need -> nth (cst_width pr - 1) (ones pr s) 0 = 0) as Z0.
      { intros s Hs. apply ones_last. apply In1; auto. apply Ho. apply In1; auto. }
      clear -Z0. induction need; cbn; auto. rewrite Z0 by (simpl; auto). rewrite IHneed; auto. intros; apply Z0; simpl; auto. }
  unfold mem; cbn [ncols rows].
  transitivity (0 <= fold_right Z.add 0 (map (fun s => aff (ones pr s) x) need) + c).
  { rewrite <- E. split. intros [_ H]. apply (H _ (or_introl eq_refl)). intros H. split; auto. intros r [<-|[]]. exact H. }
  assert (forall s, In s need -> 0 <= aff (ones pr s) x /\ (1 <= aff (ones pr s) x <-> nontrivial pr x s)) as K.
  { intros s Hs. apply In1 in Hs as [Hs _]. apply ones_aff; auto. }
  destruct (sum_nonneg (map (fun s => aff (ones pr s) x) need)) as [A B].
  { intros v Hv. apply in_map_iff in Hv as (s & <- & Hs). apply K; auto. }
  destruct (Nat.eqb_spec (length need) 0) as [Z0|Z0]; unfold c.
  - split; [|lia]. intros _. right. intros s Hs. destruct (needs_hyps (stmt_of pr s)) eqn:N; auto.
    assert (In s need) as Q by (apply In1; auto). destruct need; [destruct Q|discriminate].
  - transitivity (1 <= fold_right Z.add 0 (map (fun s => aff (ones pr s) x) need)); [lia|]. rewrite B. split.
    + intros (v & Hv & L). left. apply in_map_iff in Hv as (s & <- & Hs). exists s. destruct (proj1 (In1 s) Hs). repeat split; auto. apply K; auto.
    + intros [(s & H1 & H2 & H3)|N].
      * assert (In s need) as Q by (apply In1; auto). exists (aff (ones pr s) x). split. apply in_map_iff. eauto. apply K; auto.
      * destruct need as [|s l]; [simpl in Z0; lia|]. destruct (proj1 (In1 s)) as [Q1 Q2]; simpl; auto. rewrite N in Q2 by auto. discriminate.
Qed.

Lemma nontriv_wf pr mode : wf_cst (get_non_trivial_sol_constraints pr mode) /\ ncols (get_non_trivial_sol_constraints pr mode) = cst_width pr.
Proof.
  assert (1 <= cst_width pr)%nat as W1 by (unfold cst_width; lia).
  destruct mode; cbn [get_non_trivial_sol_constraints]; cbv zeta; (split; [|reflexivity]); split; cbn [ncols rows]; auto.
  - intros r Hr. apply in_map_iff in Hr as (s & <- & _). cbn. rewrite map_length, seq_length. auto.
  - intros r [<-|[]]. cbn. rewrite map_length, seq_length. auto.
Qed.

(** ** Linear independence *)

Lemma dot_lincomb_zero n v cs : forall vs, wfv n vs -> length v = n -> (forall u, In u vs -> dot v u = 0) ->
  dot v (lincomb n cs vs) = 0.
Proof.
  induction cs as [|c cs IH]; intros [|u vs] W L H; cbn [lincomb]; try apply dot_repeat0_r.
  apply wfv_cons in W as [W1 W2].
  rewrite dot_add_r; rewrite ?map_length, ?lincomb_length; auto.
  - rewrite dot_map_mul_r, H by (simpl; auto). rewrite IH; auto. lia. intros; apply H; simpl; auto.
Qed.

Lemma not_in_span_dot n vs h v : wfv n vs -> length v = n -> (forall u, In u vs -> dot v u = 0) ->
  dot v h <> 0 -> ~ in_span n vs h.
Proof.
  intros W L H N (d & cs & Hd & Lc & E).
  assert (dot v (map (Z.mul d) h) = 0) as K by (rewrite E; apply dot_lincomb_zero; auto).
  rewrite dot_map_mul_r in K. apply Z.mul_eq_0 in K. tauto.
Qed.

Lemma select_length_le {A} m (y : list A) : (length m <= length y)%nat -> length (select m y) = count m.
Proof.
  revert y; induction m as [|b m IH]; intros y H; cbn [length] in H; auto.
  destruct y; [simpl in H; lia|]. unfold count in *. destruct b; simpl; rewrite IH; auto; simpl in H; lia.
Qed.

Lemma fold_gcd_divides l : forall a, let g := fold_left gcd l a in (g | a) /\ forall v, In v l -> (g | v).
Proof.
  induction l as [|v l IH]; intros a; cbn [fold_left].
  - split. apply Z.divide_refl. intros v [].
  - destruct (IH (gcd a v)) as [A B]. rewrite GcdProofs.gcd_correct in *. cbv zeta. split.
    + eapply Z.divide_trans; [exact A|]. apply Z.gcd_divide_l.
    + intros u [<-|Hu]; auto. eapply Z.divide_trans; [exact A|]. apply Z.gcd_divide_r.
Qed.

Lemma normalize_column_scaled c : exists g, 0 < g /\ length (normalize_column c) = length c /\
  forall h, dot c h = g * dot (normalize_column c) h.
Proof.
  unfold normalize_column. destruct (existsb (fun v => v =? 0) c) eqn:E.
  { exists 1. repeat split; auto; intros; lia. }
  set (g := fold_left gcd (map Z.abs (tl c)) (Z.abs (hd 0 c))). cbv zeta.
  destruct (Z.ltb_spec 1 g) as [L|L].
  2:{ exists 1. repeat split; auto; intros; lia. }
  exists g. split; [lia|]. rewrite map_length. split; auto. intros h.
  rewrite <- dot_map_mul. f_equal. rewrite map_map.
  transitivity (map (fun v : Z => v) c); [symmetry; apply map_id|]. apply map_ext_in. intros v Hv.
  destruct (fold_gcd_divides (map Z.abs (tl c)) (Z.abs (hd 0 c))) as [A B]. fold g in A, B.
  assert (g | v) as D.
  { apply Z.divide_abs_r. destruct c as [|a c]; [destruct Hv|]. cbn [hd tl] in *. destruct Hv as [<-|Hv]; auto.
    apply B. apply in_map. auto. }
  destruct D as [q ->]. rewrite Z.quot_mul by lia. lia.
Qed.

Section LinInd.
Variable isl_emptyb : cst -> bool.
Variable kernel : matrix -> matrix.
Variables (o : options) (pr : prog).
Hypothesis Ho : wf_orig pr.

Lemma orient_row_pm cur r x : exists e, (e = 1 \/ e = -1) /\ aff (orient_row isl_emptyb o pr cur r) x = e * aff r x /\
  length (orient_row isl_emptyb o pr cur r) = length r /\
  (forall i, nth i (orient_row isl_emptyb o pr cur r) 0 = e * nth i r 0).
Proof.
  assert (exists e, (e = 1 \/ e = -1) /\ aff r x = e * aff r x /\ length r = length r /\ forall i, nth i r 0 = e * nth i r 0) as K.
  { exists 1. repeat split; auto; intros; lia. }
  unfold orient_row. destruct (o_flic o); auto. destruct (isl_emptyb _); auto.
  exists (-1). split; [auto|]. split; [|split].
  - unfold aff. rewrite dot_map_opp. lia.
  - apply map_length.
  - intros i. pose proof (List.map_nth Z.opp r 0 i) as E. cbn [Z.opp] in E. rewrite E. lia.
Qed.

Definition orth_rows (cur : cst) (s : nat) : list (list Z) :=
  let ortho := kernel (hyp_matrix pr (stmt_of pr s)) in
  map (fun j => orient_row isl_emptyb o pr cur (spread_column pr s (normalize_column (column ortho j))))
    (seq 0 (mncols ortho)).

Lemma orth_rows_length cur s r : In r (orth_rows cur s) -> length r = cst_width pr.
Proof.
  intros H. unfold orth_rows in H. apply in_map_iff in H as (j & <- & _).
  destruct (orient_row_pm cur (spread_column pr s (normalize_column (column (kernel (hyp_matrix pr (stmt_of pr s))) j))) []) as (e & _ & _ & L & _).
  rewrite L. apply spread_length.
Qed.
Lemma orth_rows_const cur s r : (s < length (p_stmts pr))%nat -> In r (orth_rows cur s) -> nth (cst_width pr - 1) r 0 = 0.
Proof.
  intros Hs H. unfold orth_rows in H. apply in_map_iff in H as (j & <- & _).
  destruct (orient_row_pm cur (spread_column pr s (normalize_column (column (kernel (hyp_matrix pr (stmt_of pr s))) j))) []) as (e & _ & _ & _ & L).
  rewrite L. rewrite spread_last by auto. lia.
Qed.

(** The sum of the rows. *)
Definition orth_sum (cur : cst) (s : nat) : list Z :=
  fold_right (zip_with Z.add) (repeat 0 (cst_width pr)) (orth_rows cur s).

Lemma orth_sum_length cur s : length (orth_sum cur s) = cst_width pr.
Proof.
  unfold orth_sum. pose proof (orth_rows_length cur s) as L. induction (orth_rows cur s); cbn [fold_right]. apply repeat_length.
  rewrite zip_with_length; rewrite ?IHl; try (apply L; simpl; auto); intros; apply L; simpl; auto.
Qed.
Lemma orth_sum_const cur s : (s < length (p_stmts pr))%nat -> nth (cst_width pr - 1) (orth_sum cur s) 0 = 0.
Proof.
  intros Hs. unfold orth_sum. rewrite sum_rows_nth by apply orth_rows_length.
  pose proof (fun r => orth_rows_const cur s r Hs) as Z0. induction (orth_rows cur s); cbn [map fold_right]; auto.
  rewrite Z0 by (simpl; auto). rewrite IHl; auto. intros; apply Z0; simpl; auto.
Qed.

Lemma lin_ind_form cur s : let l := stmt_lin_ind_constraints isl_emptyb kernel o pr cur s in
  l = [] \/ (needs_hyps (stmt_of pr s) = true /\
    last l (mkCst (cst_width pr) []) = mkCst (cst_width pr) [mkRow false (set_nth (cst_width pr - 1) (-1) (orth_sum cur s))]).
Proof.
  unfold stmt_lin_ind_constraints. cbv zeta. destruct (needs_hyps (stmt_of pr s)); cbn [negb]; auto.
  fold (orth_rows cur s). destruct (orth_rows cur s) eqn:E; auto. rewrite <- E. right. split; auto.
  rewrite last_last. reflexivity.
Qed.

Hypothesis K : kernel_ok kernel.
Hypothesis W : wf_prog pr.
Hypothesis P : padded pr.

Lemma orth_sum_independent cur s x : (s < length (p_stmts pr))%nat -> scalar_levels_zero pr s ->
  S (length x) = cst_width pr -> aff (orth_sum cur s) x <> 0 ->
  ~ in_span (num_orig pr (stmt_of pr s))
      (map (orig_part pr (stmt_of pr s)) (mrows (s_trans (stmt_of pr s))))
      (orig_part pr (stmt_of pr s) (iter_coefs pr x s)).
Proof.
  intros Hs Hz Hx Hn. set (st := stmt_of pr s) in *.
  assert (In st (p_stmts pr)) as Hst by (apply stmt_of_in; auto).
  destruct (proj1 W st Hst) as (A1 & A2 & A3 & A4 & A5 & _).
  assert (s_dim st = p_nvar pr) as D by (apply P; auto).
  assert (length (orig_mask pr st) = p_nvar pr) as M by (apply mask_length; apply Ho; auto).
  (* some row is non-zero at x *)
  assert (exists r, In r (orth_rows cur s) /\ aff r x <> 0) as (r & Hr & Nr).
  { destruct (sum_rows_aff (cst_width pr) (orth_rows cur s) x (orth_rows_length cur s) Hx) as [E _].
    unfold orth_sum in Hn. rewrite E in Hn. clear -Hn. induction (orth_rows cur s) as [|r l IH]; cbn in Hn; [lia|].
    destruct (Z.eq_dec (aff r x) 0) as [Z0|N]; [|exists r; simpl; auto].
    destruct IH as (r' & H1 & H2). lia. exists r'. simpl; auto. }
  unfold orth_rows in Hr. apply in_map_iff in Hr as (j & <- & Hj). apply in_seq in Hj. cbn [Nat.add] in Hj. fold st in Nr.
  set (c := column (kernel (hyp_matrix pr st)) j) in *.
  destruct (orient_row_pm cur (spread_column pr s (normalize_column c)) x) as (e & He & E & _).
  rewrite E in Nr. destruct (normalize_column_scaled c) as (g & Hg & Lc & Hd).
  assert (wf_mat (hyp_matrix pr st)) as Wh.
  { intros r Hr. cbn [hyp_matrix mrows mncols] in *. apply in_map_iff in Hr as ([h q] & <- & Hq). apply filter_In in Hq as [Hq _].
    apply in_combine_r in Hq. cbn [snd]. apply select_length_le. rewrite M. rewrite (A3 q Hq), A2. lia. }
  destruct (K (hyp_matrix pr st) Wh) as (K1 & K2 & K3).
  assert (length c = count (orig_mask pr st)) as Lcc.
  { unfold c, column. rewrite map_length. unfold mnrows in K2. rewrite K2. reflexivity. }
  rewrite spread_dot in Nr; auto; [|rewrite Lc; auto]. fold st in Nr.
  apply (not_in_span_dot _ _ _ c).
  - intros r Hr. apply in_map_iff in Hr as (q & <- & Hq). unfold orig_part, num_orig. apply select_length_le.
    fold (orig_mask pr st). rewrite M, (A3 q Hq), A2. lia.
  - exact Lcc.
  - intros u Hu. apply in_map_iff in Hu as (q & <- & Hq).
    apply (In_nth _ _ []) in Hq as (k & Hk & <-). unfold mnrows in A4.
    destruct (is_scalar_type (nth k (p_hprops pr) H_UNKNOWN)) eqn:T.
    + rewrite dot_comm. apply dot_zero_all. apply Hz. destruct (nth k (p_hprops pr) H_UNKNOWN); try discriminate; auto.
    + rewrite dot_comm. unfold c, column. apply K3; [|fold st in Hj; lia]. cbn [hyp_matrix mrows]. apply in_map_iff.
      exists (nth k (p_hprops pr) H_UNKNOWN, nth k (mrows (s_trans st)) []). split; [reflexivity|].
      apply filter_In. split; [|cbn [fst]; rewrite T; auto].
      rewrite <- combine_nth by lia. apply nth_In. rewrite combine_length. lia.
  - intros Z0. rewrite Hd in Z0. apply Z.mul_eq_0 in Z0 as [Z0|Z0]; [lia|]. rewrite Z0 in Nr. lia.
Qed.

Lemma lin_ind_last cur s x : (s < length (p_stmts pr))%nat -> scalar_levels_zero pr s ->
  let l := stmt_lin_ind_constraints isl_emptyb kernel o pr cur s in
  l <> [] -> mem (last l (mkCst (cst_width pr) [])) x ->
  ~ in_span (num_orig pr (stmt_of pr s))
      (map (orig_part pr (stmt_of pr s)) (mrows (s_trans (stmt_of pr s))))
      (orig_part pr (stmt_of pr s) (iter_coefs pr x s)).
Proof.
  intros Hs Hz l Hl Hm. destruct (lin_ind_form cur s) as [E|[_ E]]; [contradiction|]. fold l in E. rewrite E in Hm.
  destruct Hm as [Hx Hm]. specialize (Hm _ (or_introl eq_refl)). cbn [ncols] in Hx. unfold holds in Hm; cbn [is_eq coef] in Hm.
  rewrite row_with_const in Hm; auto using orth_sum_length, orth_sum_const.
  apply orth_sum_independent with (cur := cur); auto. lia.
Qed.

Definition has_orth (cur : cst) (s : nat) : Prop := stmt_lin_ind_constraints isl_emptyb kernel o pr cur s <> [].

Lemma linear_ind_eager cur x : (forall s, (s < length (p_stmts pr))%nat -> scalar_levels_zero pr s) ->
  mem (get_linear_ind_constraints isl_emptyb kernel o pr cur EAGER) x ->
  forall s, (s < length (p_stmts pr))%nat -> has_orth cur s ->
  ~ in_span (num_orig pr (stmt_of pr s))
      (map (orig_part pr (stmt_of pr s)) (mrows (s_trans (stmt_of pr s))))
      (orig_part pr (stmt_of pr s) (iter_coefs pr x s)).
Proof.
  intros Hz Hm s Hs Hl. apply lin_ind_last with (cur := cur); auto.
  unfold get_linear_ind_constraints in Hm. cbv zeta in Hm.
  set (orth := filter _ _) in Hm.
  assert (In (stmt_lin_ind_constraints isl_emptyb kernel o pr cur s) orth) as I.
  { unfold orth. apply filter_In. split. apply in_map. apply in_seq. lia. unfold has_orth in Hl.
    destruct (stmt_lin_ind_constraints _ _ _ _ _ _); [congruence|reflexivity]. }
  destruct orth as [|a b] eqn:E; [destruct I|]. rewrite <- E in *. clear E.
  destruct (lin_ind_form cur s) as [E|[_ E]]; [contradiction|].
  destruct Hm as [Hx Hm]. split; [rewrite E; exact Hx|]. intros r Hr. apply Hm. cbn [rows]. apply in_flat_map. eauto.
Qed.

Lemma linear_ind_lazy cur x : (forall s, (s < length (p_stmts pr))%nat -> scalar_levels_zero pr s) ->
  mem (get_linear_ind_constraints isl_emptyb kernel o pr cur LAZY) x ->
  rows (get_linear_ind_constraints isl_emptyb kernel o pr cur LAZY) <> [] ->
  exists s, (s < length (p_stmts pr))%nat /\ has_orth cur s /\
  ~ in_span (num_orig pr (stmt_of pr s))
      (map (orig_part pr (stmt_of pr s)) (mrows (s_trans (stmt_of pr s))))
      (orig_part pr (stmt_of pr s) (iter_coefs pr x s)).
Proof.
  intros Hz Hm Hne. unfold get_linear_ind_constraints in Hm, Hne. cbv zeta in Hm, Hne. set (orth := filter _ _) in Hm, Hne.
  destruct orth as [|a b] eqn:E; [cbn in Hne; congruence|]. rewrite <- E in *. clear Hne.
  destruct Hm as [Hx Hm]. specialize (Hm _ (or_introl eq_refl)). cbn [ncols] in Hx. unfold holds in Hm. cbn [is_eq coef] in Hm.
  assert (forall l, In l orth -> exists s, (s < length (p_stmts pr))%nat /\ l = stmt_lin_ind_constraints isl_emptyb kernel o pr cur s /\
     has_orth cur s /\ last_row (cst_width pr) l = set_nth (cst_width pr - 1) (-1) (orth_sum cur s)) as F.
  { intros l Hl. unfold orth in Hl. apply filter_In in Hl as [Hl N]. apply in_map_iff in Hl as (s & <- & Hs). apply in_seq in Hs.
    exists s. split; [lia|]. split; auto.
    assert (has_orth cur s) as H0 by (unfold has_orth; intros X; rewrite X in N; discriminate). split; auto.
    unfold last_row. destruct (lin_ind_form cur s) as [X|[_ X]]; [contradiction|]. rewrite X. reflexivity. }
  set (rs := map (last_row (cst_width pr)) orth) in *.
  assert (forall r, In r rs -> length r = cst_width pr) as Lr.
  { intros r Hr. apply in_map_iff in Hr as (l & <- & Hl). destruct (F l Hl) as (s & _ & _ & _ & ->). rewrite set_nth_length. apply orth_sum_length. }
  destruct (sum_rows_aff (cst_width pr) rs x Lr Hx) as [A B].
  (* value of the summed row *)
  assert (aff (set_nth (cst_width pr - 1) (-1) (fold_right (zip_with Z.add) (repeat 0 (cst_width pr)) rs)) x =
          fold_right Z.add 0 (map (fun r => aff r x - nth (cst_width pr - 1) r 0) rs) - 1) as V.
  { assert (1 <= cst_width pr)%nat as W1 by (unfold cst_width; lia).
    unfold aff at 1. rewrite dot_set_nth by (rewrite ?app_length, ?B; simpl; lia).
    rewrite app_nth2 by lia. replace (cst_width pr - 1 - length x)%nat with 0%nat by lia. cbn [nth].
    rewrite sum_rows_nth by auto. fold (aff (fold_right (zip_with Z.add) (repeat 0 (cst_width pr)) rs) x). rewrite A.
    clear. assert (fold_right Z.add 0 (map (fun r => aff r x - nth (cst_width pr - 1) r 0) rs) = fold_right Z.add 0 (map (fun r => aff r x) rs) - fold_right Z.add 0 (map (fun r => nth (cst_width pr - 1) r 0) rs)); [|lia].
    induction rs; cbn [map fold_right]; lia. }
  rewrite V in Hm.
  assert (exists r, In r rs /\ aff r x - nth (cst_width pr - 1) r 0 <> 0) as (r & Hr & Nr).
  { clear -Hm. assert (fold_right Z.add 0 (map (fun r => aff r x - nth (cst_width pr - 1) r 0) rs) <> 0) as N by lia. clear Hm.
    induction rs as [|r l IH]; cbn in N; [lia|]. destruct (Z.eq_dec (aff r x - nth (cst_width pr - 1) r 0) 0) as [Z0|Z0].
    - destruct IH as (r' & H1 & H2); [lia|]. exists r'; simpl; auto.
    - exists r; simpl; auto. }
  apply in_map_iff in Hr as (l & <- & Hl). destruct (F l Hl) as (s & Hs & -> & Ho' & E2). exists s. split; auto. split; auto.
  apply orth_sum_independent with (cur := cur); auto. rewrite E2 in Nr. rewrite nth_set_nth_eq in Nr by (rewrite orth_sum_length; unfold cst_width; lia).
  rewrite row_with_const in Nr; auto using orth_sum_length, orth_sum_const. lia.
Qed.
End LinInd.

Lemma lin_ind_wf isl_emptyb kernel o pr cur mode : wf_orig pr ->
  wf_cst (get_linear_ind_constraints isl_emptyb kernel o pr cur mode) /\
  ncols (get_linear_ind_constraints isl_emptyb kernel o pr cur mode) = cst_width pr.
Proof.
  intros Ho. unfold get_linear_ind_constraints. cbv zeta. set (orth := filter _ _).
  assert (1 <= cst_width pr)%nat as W1 by (unfold cst_width; lia).
  assert (forall l, In l orth -> exists s, last l (mkCst (cst_width pr) []) =
      mkCst (cst_width pr) [mkRow false (set_nth (cst_width pr - 1) (-1) (orth_sum isl_emptyb kernel o pr cur s))]) as F.
  { intros l Hl. unfold orth in Hl. apply filter_In in Hl as [Hl N]. apply in_map_iff in Hl as (s & <- & Hs).
    exists s. destruct (lin_ind_form isl_emptyb kernel o pr cur s) as [X|[_ X]]; auto. rewrite X in N. discriminate. }
  destruct orth as [|a b] eqn:E; [split; [split; cbn; auto; intros r []|reflexivity]|]. rewrite <- E in *. clear E.
  destruct mode; (split; [|reflexivity]); split; cbn [ncols rows]; auto.
  - intros r Hr. apply in_flat_map in Hr as (l & Hl & Hr). destruct (F l Hl) as (s & X). rewrite X in Hr. destruct Hr as [<-|[]]. cbn.
    rewrite set_nth_length. apply orth_sum_length; auto.
  - intros r [<-|[]]. cbn [coef]. rewrite set_nth_length.
    assert (forall r, In r (map (last_row (cst_width pr)) orth) -> length r = cst_width pr) as L.
    { intros r Hr. apply in_map_iff in Hr as (l & <- & Hl). destruct (F l Hl) as (s & X). unfold last_row. rewrite X. cbn. rewrite set_nth_length. apply orth_sum_length; auto. }
    induction (map (last_row (cst_width pr)) orth); cbn [fold_right]. apply repeat_length.
    rewrite zip_with_length; rewrite ?IHl; try (apply L; simpl; auto); intros; apply L; simpl; auto.
Qed.

(** ** Compaction of columns before the ILP call *)

Lemma fill_zeros_length red y : length (fill_zeros red y) = length red.
Proof. revert y; induction red as [|[] red IH]; intros y; cbn; auto. Qed.

Lemma fill_zeros_nth red : forall y i, nth i red false = true -> nth i (fill_zeros red y) 0 = 0.
Proof.
  induction red as [|b red IH]; intros y [|i] H; cbn in *; try discriminate.
  - subst b. reflexivity.
  - destruct b; cbn; auto.
Qed.

Definition keepn (red : list bool) : nat := count (map negb red).

Lemma keepn_cons b red : keepn (b :: red) = ((if b then 0 else 1) + keepn red)%nat.
Proof. unfold keepn, count. destruct b; reflexivity. Qed.

Lemma dot_select_fill red : forall r y, length r = length red -> length y = keepn red ->
  dot (select (map negb red) r) y = dot r (fill_zeros red y).
Proof.
  induction red as [|b red IH]; intros [|a r] y Hr Hy; try discriminate; [reflexivity|].
  rewrite keepn_cons in Hy. destruct b; cbn [map negb select fill_zeros dot].
  - rewrite IH; auto. lia.
  - destruct y as [|v y]; [discriminate|]. cbn [hd tl dot]. rewrite IH; auto.
Qed.

Lemma fill_zeros_app r1 : forall r2 y1 y2, length y1 = keepn r1 ->
  fill_zeros (r1 ++ r2) (y1 ++ y2) = fill_zeros r1 y1 ++ fill_zeros r2 y2.
Proof.
  induction r1 as [|b r1 IH]; intros r2 y1 y2 H.
  - destruct y1; [reflexivity|discriminate].
  - rewrite keepn_cons in H. destruct b; cbn [app fill_zeros].
    + f_equal. apply IH. auto.
    + destruct y1 as [|v y1]; [discriminate|]. cbn. f_equal. apply IH. auto.
Qed.

Lemma fill_select red : forall x, length x = length red -> (forall i, nth i red false = true -> nth i x 0 = 0) ->
  fill_zeros red (select (map negb red) x) = x.
Proof.
  induction red as [|b red IH]; intros [|v x] H Z0; try discriminate; [reflexivity|].
  assert (forall i, nth i red false = true -> nth i x 0 = 0) as Z1 by (intros i Hi; apply (Z0 (S i) Hi)).
  destruct b; cbn [map negb select fill_zeros hd tl].
  - rewrite IH by auto. f_equal. symmetry. apply (Z0 0%nat eq_refl).
  - rewrite IH by auto. reflexivity.
Qed.

Lemma select_app {A} m1 m2 (l1 l2 : list A) : length l1 = length m1 -> select (m1 ++ m2) (l1 ++ l2) = select m1 l1 ++ select m2 l2.
Proof.
  revert l1; induction m1 as [|b m1 IH]; intros [|v l1] H; try discriminate; auto.
  cbn [app select]. destruct b; rewrite IH; auto.
Qed.

(** Swaps of disjoint pairs of positions. *)
Definition swaps (l : list (nat * nat)) (y : list Z) : list Z := fold_left (fun s p => swap_nth 0 (fst p) (snd p) s) l y.
Definition apart (p q : nat * nat) : Prop := fst p <> fst q /\ fst p <> snd q /\ snd p <> fst q /\ snd p <> snd q.
Definition in_range (n : nat) (p : nat * nat) : Prop := (fst p < n)%nat /\ (snd p < n)%nat.

Lemma swaps_length l : forall y, length (swaps l y) = length y.
Proof. induction l; intros y; cbn; auto. fold (swaps l (swap_nth 0 (fst a) (snd a) y)). rewrite IHl, swap_nth_length. auto. Qed.

Lemma swap_comm p q y : in_range (length y) p -> in_range (length y) q -> apart p q ->
  swap_nth 0 (fst p) (snd p) (swap_nth 0 (fst q) (snd q) y) = swap_nth 0 (fst q) (snd q) (swap_nth 0 (fst p) (snd p) y).
Proof.
  intros [P1 P2] [Q1 Q2] (A & B & C & D). apply (list_ext_nth 0); rewrite !swap_nth_length; auto.
  intros i Hi. rewrite !swap_nth_nth by (rewrite ?swap_nth_length; auto).
  destruct (Nat.eqb_spec i (fst p)), (Nat.eqb_spec i (snd p)), (Nat.eqb_spec i (fst q)), (Nat.eqb_spec i (snd q)); subst; try congruence;
  repeat match goal with |- context[(?a =? ?b)%nat] => destruct (Nat.eqb_spec a b); try congruence end.
Qed.

Lemma swaps_comm l p y : in_range (length y) p -> (forall q, In q l -> in_range (length y) q /\ apart p q) ->
  swaps l (swap_nth 0 (fst p) (snd p) y) = swap_nth 0 (fst p) (snd p) (swaps l y).
Proof.
  revert y; induction l as [|q l IH]; intros y Hp H; [reflexivity|].
  unfold swaps in *. cbn [fold_left]. destruct (H q) as [Hq Ha]; [simpl; auto|].
  rewrite <- IH; rewrite ?swap_nth_length; auto; [|intros; apply H; simpl; auto].
  f_equal. symmetry. apply swap_comm; auto.
Qed.

Lemma swaps_rev l y : (forall q, In q l -> in_range (length y) q) -> ForallOrdPairs apart l -> swaps (rev l) y = swaps l y.
Proof.
  intros H F. revert y H. induction F as [|p l Hp F IH]; intros y H; [reflexivity|].
  cbn [rev]. unfold swaps at 1. rewrite fold_left_app. cbn [fold_left]. fold (swaps (rev l) y).
  rewrite IH by (intros; apply H; simpl; auto). change (swaps (p :: l) y) with (swaps l (swap_nth 0 (fst p) (snd p) y)).
  symmetry. apply swaps_comm. apply H; simpl; auto. intros q Hq. split. apply H; simpl; auto. rewrite Forall_forall in Hp. auto.
Qed.

Lemma swaps_involutive l y : (forall q, In q l -> in_range (length y) q) -> ForallOrdPairs apart l -> swaps l (swaps l y) = y.
Proof.
  intros H F. revert y H. induction F as [|p l Hp F IH]; intros y H; [reflexivity|].
  change (swaps (p :: l) y) with (swaps l (swap_nth 0 (fst p) (snd p) y)).
  change (swaps (p :: l) ?z) with (swaps l (swap_nth 0 (fst p) (snd p) z)).
  assert (in_range (length y) p) as [P1 P2] by (apply H; simpl; auto).
  rewrite <- swaps_comm; rewrite ?swap_nth_length.
  - rewrite swap_nth_invol by auto. apply IH. intros; apply H; simpl; auto.
  - split; auto.
  - intros q Hq. split. apply H; simpl; auto. rewrite Forall_forall in Hp. auto.
Qed.

Lemma interchange_wf c i j : wf_cst c -> wf_cst (interchange_cols c i j) /\ ncols (interchange_cols c i j) = ncols c.
Proof.
  intros [W1 W2]. unfold interchange_cols. destruct (i =? j)%nat; [split; [split; auto|auto]|]. split; [|reflexivity]. split; auto.
  cbn [rows ncols]. intros r Hr. apply in_map_iff in Hr as (r0 & <- & Hr0). cbn. rewrite swap_nth_length. auto.
Qed.

Lemma interchange_all l : forall c y, wf_cst c -> (forall q, In q l -> in_range (ncols c - 1) q) ->
  let c' := fold_left (fun c' p => interchange_cols c' (fst p) (snd p)) l c in
  wf_cst c' /\ ncols c' = ncols c /\ (mem c' y <-> mem c (swaps (rev l) y)).
Proof.
  induction l as [|p l IH]; intros c y W H; cbn [fold_left].
  - split; [exact W|]. split; [reflexivity|]. cbn. tauto.
  - destruct (interchange_wf c (fst p) (snd p) W) as [W' N'].
    destruct (IH (interchange_cols c (fst p) (snd p)) y W') as (A & B & C).
    { intros q Hq. rewrite N'. apply H. simpl; auto. }
    cbv zeta in *. split; [exact A|]. split; [congruence|]. rewrite C.
    cbn [rev]. unfold swaps at 2. rewrite fold_left_app. cbn [fold_left]. fold (swaps (rev l) y).
    destruct (H p) as [P1 P2]; [simpl; auto|].
    destruct (Nat.eq_dec (S (length y)) (ncols c)) as [L|L].
    + rewrite <- (swap_nth_invol 0 (fst p) (snd p) (swaps (rev l) y)) at 1 by (rewrite swaps_length; lia).
      apply interchange_cols_mem; auto.
    + split; intros [X _]; exfalso; rewrite ?swap_nth_length, swaps_length in X; rewrite ?N' in X; auto.
Qed.

(** Positions of the swaps. *)
Lemma reversal_range l : forall j p, In p (reversal_swaps j l) ->
  (j <= fst p)%nat /\ (j <= snd p)%nat /\ in_range (j + fold_right (fun st n => s_dim_orig st + 1 + n)%nat 0%nat l) p.
Proof.
  induction l as [|st l IH]; intros j p H; [destruct H|]. cbn [reversal_swaps fold_right] in *. apply in_app_or in H as [H|H].
  - apply in_map_iff in H as (k & <- & Hk). apply in_seq in Hk. cbn. unfold in_range; cbn.
    pose proof (Nat.div_le_upper_bound (s_dim_orig st) 2 (s_dim_orig st) ltac:(lia) ltac:(lia)).
    pose proof (Nat.div_mod (s_dim_orig st) 2 ltac:(lia)). lia.
  - destruct (IH _ _ H) as (A & B & C & D). unfold in_range. lia.
Qed.

Lemma reversal_apart l : forall j, ForallOrdPairs apart (reversal_swaps j l).
Proof.
  induction l as [|st l IH]; intros j; [constructor|]. cbn [reversal_swaps].
  set (n := (s_dim_orig st / 2)%nat).
  assert (2 * n <= s_dim_orig st)%nat as Hn by (apply Nat.mul_div_le; lia).
  assert (forall m a, (a + m <= n)%nat -> ForallOrdPairs apart (map (fun k => ((j + k)%nat, (j + (s_dim_orig st - 1 - k))%nat)) (seq a m) ++ reversal_swaps (j + s_dim_orig st + 1) l)) as K.
  { induction m as [|m IHm]; intros a Ha; cbn [seq map app]; [apply IH|]. constructor; [|apply IHm; lia].
    apply Forall_forall. intros q Hq. apply in_app_or in Hq as [Hq|Hq].
    - apply in_map_iff in Hq as (k & <- & Hk). apply in_seq in Hk. unfold apart; cbn. lia.
    - apply reversal_range in Hq as (A & B & _). unfold apart; cbn. lia. }
  apply K. lia.
Qed.

(** Shape of the redundancy mask. *)
Definition red_front (pr : prog) : list bool :=
  repeat false (p_npar pr + 1) ++ flat_map (fun st => map negb (orig_mask pr st) ++ [false]) (p_stmts pr).

Lemma flat_blocks_length {A} (f : A -> list bool) n l : (forall a, In a l -> length (f a) = n) -> length (flat_map f l) = (length l * n)%nat.
Proof. induction l; intros H; cbn; auto. rewrite app_length, H, IHl; simpl; auto. intros; apply H; simpl; auto. Qed.
Lemma flat_blocks_nth {A} (f : A -> list bool) n l s k (d : A) : (forall a, In a l -> length (f a) = n) -> (s < length l)%nat -> (k < n)%nat ->
  nth (s * n + k) (flat_map f l) false = nth k (f (nth s l d)) false.
Proof.
  revert s; induction l as [|a l IH]; intros s H Hs Hk; [simpl in Hs; lia|].
  cbn [flat_map]. destruct s as [|s].
  - rewrite app_nth1 by (rewrite H; simpl; auto). reflexivity.
  - rewrite app_nth2 by (rewrite H; simpl; auto; lia). rewrite H by (simpl; auto).
    replace (S s * n + k - n)%nat with (s * n + k)%nat by lia. apply IH; auto. intros; apply H; simpl; auto. simpl in Hs; lia.
Qed.

Section Compact.
Variable pr : prog.
Hypothesis Ho : wf_orig pr.
Hypothesis Hd : forall st, In st (p_stmts pr) -> num_orig pr st = s_dim_orig st.

Lemma block_length st : In st (p_stmts pr) -> length (map negb (orig_mask pr st) ++ [false]) = (p_nvar pr + 1)%nat.
Proof.
  intros H. apply (In_nth _ _ dummy_stmt) in H as (s & Hs & <-). rewrite app_length, map_length. cbn.
  rewrite mask_length; auto. apply Ho; auto.
Qed.

Lemma red_front_length : S (length (red_front pr)) = cst_width pr.
Proof.
  unfold red_front. rewrite app_length, repeat_length. rewrite (flat_blocks_length _ (p_nvar pr + 1)) by apply block_length.
  unfold cst_width. lia.
Qed.

Lemma red_cols_front : redundant_cols pr = red_front pr ++ [false].
Proof. unfold redundant_cols, red_front. rewrite <- app_assoc. reflexivity. Qed.

Lemma red_front_pad s k : (s < length (p_stmts pr))%nat -> (k < p_nvar pr)%nat ->
  nth (p_npar pr + 1 + s * (p_nvar pr + 1) + k) (red_front pr) false = negb (nth k (s_orig (stmt_of pr s)) true).
Proof.
  intros Hs Hk. unfold red_front. rewrite app_nth2 by (rewrite repeat_length; lia). rewrite repeat_length.
  replace (p_npar pr + 1 + s * (p_nvar pr + 1) + k - (p_npar pr + 1))%nat with (s * (p_nvar pr + 1) + k)%nat by lia.
  rewrite (flat_blocks_nth _ (p_nvar pr + 1) _ s k dummy_stmt); auto using block_length; [|lia].
  fold (stmt_of pr s). pose proof (mask_length pr _ (Ho s Hs)) as M.
  rewrite app_nth1 by (rewrite map_length; lia). rewrite (nth_indep _ false (negb true)) by (rewrite map_length; lia).
  rewrite List.map_nth. unfold orig_mask. rewrite nth_firstn_lt by auto. auto.
Qed.

Lemma keepn_app a b : keepn (a ++ b) = (keepn a + keepn b)%nat.
Proof. unfold keepn, count. rewrite map_app, filter_app, app_length. auto. Qed.

Lemma count_map_negb m : count (map negb (map negb m)) = count m.
Proof. rewrite map_map. f_equal. rewrite <- (map_id m) at 2. apply map_ext. intros []; auto. Qed.

Lemma keepn_front : keepn (red_front pr) = (p_npar pr + 1 + fold_right (fun st n => s_dim_orig st + 1 + n)%nat 0%nat (p_stmts pr))%nat.
Proof.
  unfold red_front. rewrite keepn_app. f_equal.
  - clear. generalize (p_npar pr + 1)%nat as n. induction n; cbn [repeat]; auto. rewrite keepn_cons, IHn. reflexivity.
  - assert (forall l, (forall st, In st l -> num_orig pr st = s_dim_orig st) ->
      keepn (flat_map (fun st => map negb (orig_mask pr st) ++ [false]) l) = fold_right (fun st n => (s_dim_orig st + 1 + n)%nat) 0%nat l) as K; [|apply K; auto].
    induction l as [|st l IH]; intros H; cbn [flat_map fold_right]; auto. rewrite !keepn_app, IH by (intros; apply H; simpl; auto).
    rewrite <- (H st) by (simpl; auto). unfold keepn at 1. rewrite count_map_negb. unfold num_orig, count, orig_mask. reflexivity.
Qed.

Definition zero_red (x : point) : Prop := forall i, nth i (red_front pr) false = true -> nth i x 0 = 0.

Lemma zero_red_pad x : S (length x) = cst_width pr -> zero_red x <-> zpadding_zero pr x.
Proof.
  intros Hx. split.
  - intros H s k Hs Hk E. apply H. rewrite red_front_pad by auto. rewrite E. auto.
  - intros H i Hi. destruct (le_lt_dec (p_npar pr + 1) i) as [L|L].
    + assert (i < length (red_front pr))%nat as Li.
      { destruct (le_lt_dec (length (red_front pr)) i); auto. rewrite nth_overflow in Hi by auto. discriminate. }
      set (s := ((i - (p_npar pr + 1)) / (p_nvar pr + 1))%nat). set (k := ((i - (p_npar pr + 1)) mod (p_nvar pr + 1))%nat).
      assert (i = p_npar pr + 1 + s * (p_nvar pr + 1) + k)%nat as Ei.
      { pose proof (Nat.div_mod (i - (p_npar pr + 1)) (p_nvar pr + 1) ltac:(lia)). fold s k in H0. lia. }
      assert (k < p_nvar pr + 1)%nat as Hk by (apply Nat.mod_upper_bound; lia).
      pose proof red_front_length as RL. unfold cst_width in RL.
      assert (s < length (p_stmts pr))%nat as Hs.
      { apply (Nat.mul_lt_mono_pos_r (p_nvar pr + 1)); lia. }
      destruct (Nat.eq_dec k (p_nvar pr)) as [E|N].
      * exfalso. rewrite Ei in Hi. unfold red_front in Hi. rewrite app_nth2 in Hi by (rewrite repeat_length; lia). rewrite repeat_length in Hi.
        replace (p_npar pr + 1 + s * (p_nvar pr + 1) + k - (p_npar pr + 1))%nat with (s * (p_nvar pr + 1) + k)%nat in Hi by lia.
        rewrite (flat_blocks_nth _ (p_nvar pr + 1) _ s k dummy_stmt) in Hi; auto using block_length.
        fold (stmt_of pr s) in Hi. pose proof (mask_length pr _ (Ho s Hs)) as M.
        rewrite app_nth2 in Hi by (rewrite map_length; lia). rewrite map_length in Hi. replace (k - length (orig_mask pr (stmt_of pr s)))%nat with 0%nat in Hi by lia. discriminate.
      * rewrite Ei. apply H; auto. lia. rewrite Ei, red_front_pad in Hi by lia. apply negb_true_iff in Hi. auto.
    + unfold red_front in Hi. rewrite app_nth1 in Hi by (rewrite repeat_length; auto). rewrite nth_repeat in Hi. discriminate.
Qed.

Variable c : cst.
Hypothesis Wc : wf_cst c.
Hypothesis Nc : ncols c = cst_width pr.

Definition packed : cst := mkCst (match rows c with [] => 0%nat | _ => length (filter (fun b => b) (map negb (redundant_cols pr))) end)
   (map (map_coef (select (map negb (redundant_cols pr)))) (rows c)).

Lemma packed_ncols : rows c <> [] -> ncols packed = S (keepn (red_front pr)).
Proof.
  intros H. unfold packed. cbn [ncols]. destruct (rows c); [congruence|]. fold (count (map negb (redundant_cols pr))).
  fold (keepn (redundant_cols pr)). rewrite red_cols_front, keepn_app. cbn. lia.
Qed.

Lemma packed_wf : rows c <> [] -> wf_cst packed.
Proof.
  intros H. split. rewrite packed_ncols by auto. lia. intros r Hr. rewrite packed_ncols by auto. cbn [packed rows] in Hr.
  apply in_map_iff in Hr as (r0 & <- & Hr0). cbn. rewrite select_length_le.
  - fold (keepn (redundant_cols pr)). rewrite red_cols_front, keepn_app. cbn. lia.
  - rewrite map_length, red_cols_front, app_length. cbn. pose proof red_front_length. rewrite (proj2 Wc r0 Hr0), Nc. lia.
Qed.

Lemma packed_mem y : rows c <> [] -> length y = keepn (red_front pr) ->
  mem packed y <-> mem c (fill_zeros (red_front pr) y).
Proof.
  intros Hr Hy. unfold mem. rewrite packed_ncols by auto. rewrite fill_zeros_length, red_front_length, Nc.
  assert (forall r, In r (rows c) -> holds y (map_coef (select (map negb (redundant_cols pr))) r) <-> holds (fill_zeros (red_front pr) y) r) as K.
  { intros r Hin. assert (aff (select (map negb (redundant_cols pr)) (coef r)) y = aff (coef r) (fill_zeros (red_front pr) y)) as E.
    { unfold aff. rewrite dot_select_fill.
      - rewrite red_cols_front, fill_zeros_app by auto. reflexivity.
      - rewrite red_cols_front, app_length. cbn. pose proof red_front_length. rewrite (proj2 Wc r Hin), Nc. lia.
      - rewrite red_cols_front, keepn_app, app_length. cbn. lia. }
    unfold holds, map_coef; cbn [is_eq coef]. rewrite E. tauto. }
  split; intros [_ H]; (split; [lia|]).
  - intros r Hin. apply K; auto. apply H. cbn [packed rows]. apply in_map. auto.
  - intros r Hin. cbn [packed rows] in Hin. apply in_map_iff in Hin as (r0 & <- & H0). apply K; auto.
Qed.

Lemma compact_eq : compact_cst pr c = fold_left (fun c' p => interchange_cols c' (fst p) (snd p)) (reversal_swaps (p_npar pr + 1) (p_stmts pr)) packed.
Proof. reflexivity. Qed.

Definition sw : list (nat * nat) := reversal_swaps (p_npar pr + 1) (p_stmts pr).
Lemma sw_range n : n = keepn (red_front pr) -> forall q, In q sw -> in_range n q.
Proof.
  intros -> q Hq. apply reversal_range in Hq as (_ & _ & H). rewrite keepn_front. exact H.
Qed.

Lemma compact_spec y : rows c <> [] -> wf_cst (compact_cst pr c) /\
  (mem (compact_cst pr c) y <-> length y = keepn (red_front pr) /\ mem c (fill_zeros (red_front pr) (swaps sw y))).
Proof.
  intros Hr. rewrite compact_eq.
  destruct (interchange_all sw packed y (packed_wf Hr)) as (A & B & C).
  { rewrite packed_ncols by auto. apply sw_range. lia. }
  fold sw. split; auto. cbv zeta in C. rewrite C. split.
  - intros H. assert (length y = keepn (red_front pr)) as L.
    { destruct H as [X _]. rewrite swaps_length, packed_ncols in X by auto. lia. }
    split; auto. rewrite swaps_rev in H; [|apply sw_range; auto|apply reversal_apart].
    apply packed_mem in H; auto. rewrite swaps_length. auto.
  - intros [L H]. rewrite swaps_rev; [|apply sw_range; auto|apply reversal_apart].
    apply packed_mem; auto. rewrite swaps_length. auto.
Qed.

Lemma firstn_front : firstn (ncols c - 1) (redundant_cols pr) = red_front pr.
Proof.
  rewrite Nc, red_cols_front. pose proof red_front_length. rewrite firstn_app.
  rewrite firstn_all2 by lia. replace (cst_width pr - 1 - length (red_front pr))%nat with 0%nat by lia. simpl. rewrite app_nil_r. auto.
Qed.

Lemma lexmin_sound solve x : solver_sound solve -> rows c <> [] ->
  prog_constraints_lexmin solve pr c = Some x -> mem c x /\ zpadding_zero pr x.
Proof.
  intros S Hr H. unfold prog_constraints_lexmin in H.
  destruct (solve pr (compact_cst pr c)) as [y|] eqn:E; [|discriminate]. injection H as <-. rewrite firstn_front. fold sw. fold (swaps sw y).
  apply S in E; [|apply (compact_spec [] Hr)]. apply (compact_spec y Hr) in E as [L M]. split; auto.
  apply zero_red_pad. rewrite fill_zeros_length. apply red_front_length.
  intros i Hi. apply fill_zeros_nth. auto.
Qed.

(** Every solution with zero coefficients for padded loops is a solution of the
    compacted system. *)
Lemma compact_complete x : rows c <> [] -> mem c x -> zpadding_zero pr x ->
  exists y, mem (compact_cst pr c) y /\ fill_zeros (red_front pr) (swaps sw y) = x.
Proof.
  intros Hr Hm Hz. assert (S (length x) = cst_width pr) as Lx by (destruct Hm; lia).
  apply zero_red_pad in Hz; auto. pose proof red_front_length as RL.
  set (z := select (map negb (red_front pr)) x).
  assert (length z = keepn (red_front pr)) as Lz by (unfold z; rewrite select_length; auto; rewrite map_length; lia).
  assert (fill_zeros (red_front pr) z = x) as Fz by (apply fill_select; auto; lia).
  exists (swaps sw z). rewrite swaps_involutive; [|apply sw_range; auto|apply reversal_apart]. split; auto.
  apply compact_spec; auto. split. rewrite swaps_length; auto.
  rewrite swaps_involutive; [|apply sw_range; auto|apply reversal_apart]. rewrite Fz. auto.
Qed.
End Compact.

Lemma basis_spans n B v : wfv n B -> independent n B -> length B = n -> length v = n -> in_span n B v.
Proof.
  intros W I L Lv.
  destruct (homogeneous_nontrivial (map (fun i => coln i (v :: B)) (seq 0 n)) (S n)) as (x & Lx & (w & Hw & Nw) & H).
  - intros r Hr. apply in_map_iff in Hr as (i & <- & _). unfold coln. rewrite map_length. simpl. lia.
  - rewrite map_length, seq_length. lia.
  - destruct x as [|x0 xs]; [discriminate|].
    assert (forall i, (i < n)%nat -> x0 * nth i v 0 + dot xs (coln i B) = 0) as E.
    { intros i Hi. specialize (H (coln i (v :: B))). rewrite dot_comm in H. cbn [coln map dot] in H. apply H.
      apply in_map_iff. exists i. split; auto. apply in_seq. lia. }
    assert (x0 <> 0) as N0.
    { intros ->. destruct Hw as [<-|Hw]; [auto|]. apply Nw. apply (I xs); auto. simpl in Lx. lia.
      apply lincomb_eq; auto. apply repeat_length. intros i Hi. rewrite nth_repeat. specialize (E i Hi). lia. }
    apply in_span_coord; auto. exists x0, (map Z.opp xs). split; auto. split. rewrite map_length. simpl in Lx. lia.
    intros i Hi. specialize (E i Hi). rewrite dot_map_opp. lia.
Qed.

Lemma select_prefix {A} a b (r : list A) : select (repeat true a ++ repeat false b) r = firstn a r.
Proof.
  revert r; induction a as [|a IH]; intros r; cbn [repeat app].
  - revert r; induction b as [|b IHb]; intros [|v r]; cbn [repeat select firstn]; auto.
    rewrite IHb. reflexivity.
  - destruct r; cbn; auto. rewrite IH. auto.
Qed.

Lemma filter_prefix a b : length (filter (fun x : bool => x) (repeat true a ++ repeat false b)) = a.
Proof. rewrite filter_app_length. induction a; cbn; auto. induction b; cbn; auto. Qed.

Lemma orig_first_mask pr st : orig_first pr -> In st (p_stmts pr) ->
  orig_mask pr st = repeat true (s_dim_orig st) ++ repeat false (p_nvar pr - s_dim_orig st) /\ num_orig pr st = s_dim_orig st
  /\ length (s_orig st) = p_nvar pr /\ (s_dim_orig st <= p_nvar pr)%nat.
Proof.
  intros H Hs. destruct (H st Hs) as [L E]. unfold num_orig. fold (orig_mask pr st).
  assert (length (s_orig st) = p_nvar pr) as Le by (rewrite E, app_length, !repeat_length; lia).
  assert (orig_mask pr st = repeat true (s_dim_orig st) ++ repeat false (p_nvar pr - s_dim_orig st)) as M.
  { unfold orig_mask. rewrite <- Le at 1. rewrite firstn_all. auto. }
  split; auto. split; auto. rewrite M. apply filter_prefix.
Qed.

Lemma orig_first_wf pr : orig_first pr -> wf_orig pr.
Proof. intros H s Hs. apply (orig_first_mask pr (stmt_of pr s) H). apply stmt_of_in; auto. Qed.

Lemma needs_has_orth isl_emptyb kernel o pr cur s :
  kernel_ok kernel -> kernel_complete kernel -> wf_prog pr -> orig_first pr -> (s < length (p_stmts pr))%nat ->
  needs_hyps (stmt_of pr s) = true -> has_orth isl_emptyb kernel o pr cur s.
Proof.
  intros K KC W OF Hs Hn. pose proof (stmt_of_in pr s Hs) as Hin.
  set (st := stmt_of pr s) in *. destruct (orig_first_mask pr st OF Hin) as (M & NO & Lo & Ld).
  destruct (proj1 W st Hin) as (W1 & W2 & W3 & W4 & _).
  unfold has_orth, stmt_lin_ind_constraints. fold st. rewrite Hn. cbn [negb]. cbv zeta.
  destruct (mncols (kernel (hyp_matrix pr st))) eqn:E; [|cbn; discriminate]. exfalso.
  assert (mncols (hyp_matrix pr st) = s_dim_orig st) as NC by (cbn; rewrite M; apply filter_prefix).
  assert (length (s_orig st) = s_dim st) by auto.
  assert (wf_mat (hyp_matrix pr st)) as Wh.
  { intros r Hr. rewrite NC. cbn in Hr. apply in_map_iff in Hr as ((h & r0) & <- & Hr0). apply filter_In in Hr0 as [Hr0 _].
    apply in_combine_r in Hr0. cbn [snd]. rewrite M, select_prefix, firstn_length, (W3 r0 Hr0), W2. lia. }
  apply KC in E; auto. rewrite NC in E.
  destruct E as (B & LB & WB & IB & S1 & S2).
  assert (needs_hyps st = false) as F; [|congruence].
  apply needs_spec; auto. rewrite W2. lia.
  assert (wfv (s_dim_orig st) (map (firstn (s_dim_orig st)) (mrows (s_trans st)))) as Wm.
  { intros r Hr. apply in_map_iff in Hr as (r0 & <- & Hr0). rewrite firstn_length, (W3 r0 Hr0), W2. lia. }
  exists B. split; auto. split; auto. split; auto. split.
  - intros v Hv. apply basis_spans; auto.
  - intros b Hb. apply (in_span_trans _ (mrows (hyp_matrix pr st))); auto.
    + intros r Hr. rewrite <- NC. apply Wh. auto.
    + intros a Ha. apply in_span_self; auto. cbn in Ha. apply in_map_iff in Ha as ((h & r0) & <- & Hr0). apply filter_In in Hr0 as [Hr0 _].
      apply in_combine_r in Hr0. cbn [snd]. rewrite M, select_prefix. apply in_map. auto.
Qed.

Definition last_coef (st : stmt) (r : row) : Z := nth (ncols (s_domain st) - 1) (coef r) 0.
Lemma largest_const_spec pr :
  0 <= largest_const_in_domains pr + 1 /\
  (forall st r, In st (p_stmts pr) -> In r (rows (s_domain st)) -> nth (ncols (s_domain st) - 1) (coef r) 0 <= largest_const_in_domains pr + 1) /\
  (largest_const_in_domains pr + 1 = 0 \/ exists st r, In st (p_stmts pr) /\ In r (rows (s_domain st)) /\
     largest_const_in_domains pr + 1 = nth (ncols (s_domain st) - 1) (coef r) 0).
Proof.
  assert (forall st l m m', m' = fold_left (fun m r => Z.max m (last_coef st r)) l m ->
      m <= m' /\ (forall r, In r l -> last_coef st r <= m') /\ (m' = m \/ exists r, In r l /\ m' = last_coef st r)) as K1.
  { intros st l. induction l as [|r l IH]; intros m m' E.
    - simpl in E. split; [lia|]. split; [intros r []|auto].
    - cbn [fold_left] in E. destruct (IH _ _ E) as (A & B & C). split; [lia|]. split.
      + intros q [<-|Hq]; [lia|auto].
      + destruct C as [C|(q & Hq & C)].
        * rewrite C. destruct (Z.max_spec m (last_coef st r)) as [[_ E1]|[_ E1]]; rewrite E1; [right; exists r; simpl; auto|auto].
        * right. exists q. simpl; auto. }
  assert (forall l m m', m' = fold_left (fun m st => fold_left (fun m r => Z.max m (last_coef st r)) (rows (s_domain st)) m) l m ->
      m <= m' /\ (forall st r, In st l -> In r (rows (s_domain st)) -> last_coef st r <= m') /\
      (m' = m \/ exists st r, In st l /\ In r (rows (s_domain st)) /\ m' = last_coef st r)) as K2.
  { induction l as [|st l IH]; intros m m' E.
    - simpl in E. split; [lia|]. split; [intros st r []|auto].
    - cbn [fold_left] in E. destruct (K1 st (rows (s_domain st)) m _ eq_refl) as (A1 & B1 & C1).
      destruct (IH _ _ E) as (A & B & C). split; [lia|]. split.
      + intros q r [<-|Hq] Hr; [specialize (B1 r Hr); lia|auto].
      + destruct C as [C|(q & r & Hq & Hr & C)].
        * destruct C1 as [C1|(r & Hr & C1)]; [left; lia|]. right. exists st, r. simpl. repeat split; auto. lia.
        * right. exists q, r. simpl; auto. }
  apply K2 with (m := 0) (l := p_stmts pr). unfold largest_const_in_domains, last_coef. lia.
Qed.
