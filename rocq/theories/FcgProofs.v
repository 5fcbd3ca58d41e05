(** * Proofs about the fusion conflict graph. *)
From Coq Require Import ZArith QArith List Bool Arith Lia Lqa.
From Verif Require Import SpecLinear VecProofs MathModel ConstraintsModel SpecProg SpecDriver SpecGraph GraphModel GraphProofs GraphProofs2
  FrameworkModel ProgModel DriverModel DfpModel DfpProofs2 FcgModel.
Import ListNotations.
Open Scope Z_scope.

(** ** Writing a value to some entries *)
Section Marks.
Variable n : nat.
Variable P : fcg -> Prop.
Variable val : Z.

Definition marks (f : fcg -> fcg) (T : nat -> nat -> bool) : Prop :=
  forall g, wf_graph n g -> P g ->
    wf_graph n (f g) /\ P (f g) /\ forall a b, adj (f g) a b = if T a b then val else adj g a b.

Lemma marks_id : marks (fun g => g) (fun _ _ => false).
Proof. intros g W Pg. auto. Qed.
Lemma marks_set i j : (i < n)%nat -> (j < n)%nat -> (forall g, wf_graph n g -> P g -> P (set_adj g i j val)) ->
  marks (fun g => set_adj g i j val) (fun a b => (a =? i)%nat && (b =? j)%nat).
Proof.
  intros Hi Hj HP g W Pg. split; [apply set_adj_wf; auto|]. split; [auto|]. intros a b. apply (set_adj_get n); auto.
Qed.
Lemma marks_comp f1 f2 T1 T2 : marks f1 T1 -> marks f2 T2 -> marks (fun g => f2 (f1 g)) (fun a b => T1 a b || T2 a b).
Proof.
  intros M1 M2 g W Pg. destruct (M1 g W Pg) as (W1 & P1 & A1). destruct (M2 _ W1 P1) as (W2 & P2 & A2).
  split; auto. split; auto. intros a b. rewrite A2, A1. destruct (T1 a b), (T2 a b); auto.
Qed.
Lemma marks_ext f f' T T' : (forall g, wf_graph n g -> P g -> f' g = f g) -> (forall a b, T' a b = T a b) -> marks f T -> marks f' T'.
Proof.
  intros F E M g W Pg. rewrite (F g W Pg). destruct (M g W Pg) as (W1 & P1 & A1). split; auto. split; auto. intros a b. rewrite E. auto.
Qed.
Lemma marks_fold {X} (f : fcg -> X -> fcg) (T : X -> nat -> nat -> bool) l : (forall x, In x l -> marks (fun g => f g x) (T x)) ->
  marks (fun g => fold_left f l g) (fun a b => existsb (fun x => T x a b) l).
Proof.
  induction l as [|x l IH]; intros H; [apply marks_id|]. cbn [fold_left existsb].
  apply (marks_comp (fun g => f g x) (fun g => fold_left f l g)); [apply H; left; auto|]. apply IH. intros y Hy. apply H. right; auto.
Qed.
Lemma marks_if (b : bool) f T : marks f T -> marks (fun g => if b then f g else g) (fun x y => b && T x y).
Proof. intros M. destruct b; cbn; [exact M|apply marks_id]. Qed.
End Marks.

(** ** Vertices *)
Definition vertex (pr : prog) (s j : nat) : nat := (vertex_offset pr s + j)%nat.
Definition is_loop (pr : prog) (s j : nat) : Prop := (s < length (p_stmts pr))%nat /\ (j < s_dim_orig (stmt_of pr s))%nat.

Lemma vertex_lt pr s j : is_loop pr s j -> (vertex pr s j < num_vertices pr)%nat.
Proof.
  intros [Hs Hj]. unfold vertex, num_vertices. destruct (le_lt_eq_dec (S s) (length (p_stmts pr)) ltac:(lia)) as [L|E].
  - pose proof (offset_le pr s (length (p_stmts pr)) ltac:(lia) ltac:(lia)). lia.
  - rewrite <- E, offset_step by lia. lia.
Qed.
Lemma vertex_inj pr s j s' j' : is_loop pr s j -> is_loop pr s' j' -> vertex pr s j = vertex pr s' j' -> s = s' /\ j = j'.
Proof.
  intros [Hs Hj] [Hs' Hj'] E. unfold vertex in *.
  assert (s = s') as -> by (apply (own_disjoint pr s s' (vertex_offset pr s + j)); unfold own; lia). split; [auto|lia].
Qed.
Lemma vertex_eqb pr s j s' j' : is_loop pr s j -> is_loop pr s' j' ->
  (vertex pr s j =? vertex pr s' j')%nat = (s =? s')%nat && (j =? j')%nat.
Proof.
  intros H H'. destruct (Nat.eqb_spec (vertex pr s j) (vertex pr s' j')) as [E|E].
  - destruct (vertex_inj pr s j s' j' H H' E) as [-> ->]. rewrite !Nat.eqb_refl. auto.
  - destruct (Nat.eqb_spec s s') as [->|]; auto. destruct (Nat.eqb_spec j j') as [->|]; auto.
Qed.

Lemma wf_zero n : wf_graph n (repeat (repeat 0 n) n).
Proof. split; [apply repeat_length|]. intros r Hr. apply repeat_spec in Hr. subst. apply repeat_length. Qed.
Lemma adj_zero n a b : adj (repeat (repeat 0 n) n) a b = 0.
Proof.
  unfold adj. destruct (le_lt_dec n a).
  - rewrite (nth_overflow (repeat _ _)) by (rewrite repeat_length; auto). destruct b; auto.
  - assert (In (nth a (repeat (repeat 0 n) n) []) (repeat (repeat 0 n) n)) as H by (apply nth_In; rewrite repeat_length; auto).
    apply repeat_spec in H. rewrite H. apply nth_repeat.
Qed.

(** ** The phases of the construction *)
Section Build.
Variable feasible : cst -> bool.
Variable o : options.

Definition self_cond (pr : prog) (col : list Z) (c s j : nat) : bool :=
  match intra_deps o pr s with [] => false | _ => true end
  && negb (coloured col c (vertex pr s j))
  && negb (feasible (conflict_cst o pr [coef_col pr s j] [] (intra_rows o pr s))).
Definition self_T pr col c (a b : nat) : bool :=
  existsb (fun s => existsb (fun j => self_cond pr col c s j && ((a =? vertex pr s j)%nat && (b =? vertex pr s j)%nat))
    (seq 0 (s_dim_orig (stmt_of pr s)))) (seq 0 (length (p_stmts pr))).

Lemma fold_ext {A B} (f f' : A -> B -> A) l : (forall a b, f a b = f' a b) -> forall a, fold_left f l a = fold_left f' l a.
Proof. intros H. induction l as [|b l IH]; intros a; cbn; auto. rewrite H. auto. Qed.
Lemma in_seq0 x n : In x (seq 0 n) <-> (x < n)%nat.
Proof. rewrite in_seq. lia. Qed.

Lemma self_marks pr col c : marks (num_vertices pr) (fun _ => True) 1 (add_permute_preventing_edges feasible o pr col c) (self_T pr col c).
Proof.
  unfold add_permute_preventing_edges, self_T. apply marks_fold. intros s Hs. apply in_seq0 in Hs.
  assert (marks (num_vertices pr) (fun _ => True) 1
    (fun g => if match intra_deps o pr s with [] => false | _ => true end then
      fold_left (fun g j => if negb (coloured col c (vertex pr s j)) && negb (feasible (conflict_cst o pr [coef_col pr s j] [] (intra_rows o pr s)))
          then set_adj g (vertex pr s j) (vertex pr s j) 1 else g) (seq 0 (s_dim_orig (stmt_of pr s))) g else g)
    (fun a b => match intra_deps o pr s with [] => false | _ => true end && existsb (fun j =>
       (negb (coloured col c (vertex pr s j)) && negb (feasible (conflict_cst o pr [coef_col pr s j] [] (intra_rows o pr s)))) && ((a =? vertex pr s j)%nat && (b =? vertex pr s j)%nat))
      (seq 0 (s_dim_orig (stmt_of pr s))))) as M.
  { apply marks_if. apply (marks_fold _ _ _ (fun g j => if negb (coloured col c (vertex pr s j)) && negb (feasible (conflict_cst o pr [coef_col pr s j] [] (intra_rows o pr s)))
          then set_adj g (vertex pr s j) (vertex pr s j) 1 else g)).
    intros j Hj. apply in_seq0 in Hj. apply marks_if. apply marks_set; auto; apply vertex_lt; split; auto. }
  eapply marks_ext; [| |exact M].
  - intros g _ _. destruct (intra_deps o pr s); [reflexivity|]. apply fold_ext. intros g' j. destruct (coloured _ _ _); cbn [negb andb]; [reflexivity|]. fold (vertex pr s j). destruct (feasible _); reflexivity.
  - intros a b. unfold self_cond. destruct (intra_deps o pr s); cbn [andb].
    + clear. induction (seq 0 _); cbn; auto.
    + reflexivity.
Qed.
Lemma self_T_vertex pr col c s j s' j' : is_loop pr s j -> is_loop pr s' j' ->
  self_T pr col c (vertex pr s j) (vertex pr s' j') = (s =? s')%nat && (j =? j')%nat && self_cond pr col c s j.
Proof.
  intros L L'. apply eq_true_iff_eq. unfold self_T. rewrite existsb_exists. split.
  - intros (x & Hx & H). apply existsb_exists in H as (y & Hy & H). apply in_seq0 in Hx, Hy. rewrite !vertex_eqb in H by (auto; split; auto).
    rewrite !andb_true_iff, !Nat.eqb_eq in H. destruct H as (H & (-> & ->) & (-> & ->)). rewrite !Nat.eqb_refl. auto.
  - rewrite !andb_true_iff, !Nat.eqb_eq. intros ((<- & <-) & H). exists s. split; [apply in_seq0, L|].
    apply existsb_exists. exists j. split; [apply in_seq0, L|]. rewrite H, !Nat.eqb_refl. auto.
Qed.

(** Pairs of statements, for the self edges [D]. *)
Variable D : nat -> bool.
Definition diag (g : fcg) : Prop := forall v, (adj g v v =? 1) = D v.
Lemma diag_set n i j : (i < n)%nat -> (j < n)%nat -> i <> j -> forall g, wf_graph n g -> diag g -> diag (set_adj g i j 1).
Proof.
  intros Hi Hj N g W H v. rewrite (set_adj_get n) by auto. destruct (Nat.eqb_spec v i) as [->|]; cbn [andb]; [|apply H].
  destruct (Nat.eqb_spec i j) as [->|]; [contradiction|apply H].
Qed.

Definition pair_cond (pr : prog) (col : list Z) (c s1 s2 i j : nat) : bool :=
  negb (coloured col c (vertex pr s1 i)) &&
  (D (vertex pr s1 i) ||
   (negb (coloured col c (vertex pr s2 j)) &&
    negb (feasible (conflict_cst o pr [coef_col pr s1 i; coef_col pr s2 j]
                      [coef_col pr s1 (p_nvar pr); coef_col pr s2 (p_nvar pr)] (pair_rows o pr s1 s2))))).
Definition block_T (pr : prog) (cond : nat -> nat -> bool) (s1 s2 a b : nat) : bool :=
  existsb (fun i => existsb (fun j => cond i j && ((a =? vertex pr s1 i)%nat && (b =? vertex pr s2 j)%nat))
    (seq 0 (s_dim_orig (stmt_of pr s2)))) (seq 0 (s_dim_orig (stmt_of pr s1))).

Lemma vertex_neq pr s1 s2 i j : is_loop pr s1 i -> is_loop pr s2 j -> s1 <> s2 -> vertex pr s1 i <> vertex pr s2 j.
Proof. intros A B N E. destruct (vertex_inj pr _ _ _ _ A B E). contradiction. Qed.

Lemma marks_keep_diag n f T : (forall v, T v v = false) -> marks n (fun _ => True) 1 f T -> marks n diag 1 f T.
Proof.
  intros N M g W Pg. destruct (M g W Logic.I) as (A & _ & B). split; auto. split; auto. intros v. rewrite B, N. apply Pg.
Qed.

Lemma pair_marks pr col c s1 s2 : (s1 < length (p_stmts pr))%nat -> (s2 < length (p_stmts pr))%nat -> s1 <> s2 ->
  marks (num_vertices pr) diag 1 (add_pairwise_edges feasible o pr col c s1 s2) (block_T pr (pair_cond pr col c s1 s2) s1 s2).
Proof.
  intros H1 H2 N. unfold add_pairwise_edges, block_T. apply marks_fold. intros i Hi. apply in_seq0 in Hi.
  assert (forall j, In j (seq 0 (s_dim_orig (stmt_of pr s2))) ->
    marks (num_vertices pr) diag 1 (fun g => set_adj g (vertex pr s1 i) (vertex pr s2 j) 1)
      (fun a b => (a =? vertex pr s1 i)%nat && (b =? vertex pr s2 j)%nat)) as M1.
  { intros j Hj. apply in_seq0 in Hj. apply marks_set; [apply vertex_lt; split; auto|apply vertex_lt; split; auto|].
    apply diag_set; [apply vertex_lt; split; auto|apply vertex_lt; split; auto|]. apply vertex_neq; auto; split; auto. }
  fold (vertex pr s1 i). unfold pair_cond. destruct (coloured col c (vertex pr s1 i)) eqn:E1; cbn [negb andb].
  { eapply marks_ext; [| |apply marks_id]; [reflexivity|]. intros a b. clear. induction (seq 0 _); cbn; auto. }
  destruct (D (vertex pr s1 i)) eqn:E2; cbn [orb andb].
  - eapply marks_ext; [| |apply marks_fold; exact M1]; [|reflexivity]. intros g W Pg. cbn beta. rewrite (Pg (vertex pr s1 i)), E2. reflexivity.
  - eapply marks_ext; [| |apply (marks_fold _ _ _ (fun g j => if negb (coloured col c (vertex pr s2 j)) &&
         negb (feasible (conflict_cst o pr [coef_col pr s1 i; coef_col pr s2 j] [coef_col pr s1 (p_nvar pr); coef_col pr s2 (p_nvar pr)] (pair_rows o pr s1 s2)))
       then set_adj g (vertex pr s1 i) (vertex pr s2 j) 1 else g)); intros j Hj; apply marks_if; apply M1; exact Hj].
    + intros g W Pg. cbn beta. rewrite (Pg (vertex pr s1 i)), E2.
      assert (forall l g, wf_graph (num_vertices pr) g -> diag g -> (forall j, In j l -> (j < s_dim_orig (stmt_of pr s2))%nat) ->
        fold_left (fun g0 j => if coloured col c (vertex_offset pr s2 + j) then g0
          else if adj g0 (vertex pr s1 i) (vertex pr s1 i) =? 1 then set_adj g0 (vertex pr s1 i) (vertex_offset pr s2 + j) 1
          else if feasible (conflict_cst o pr [coef_col pr s1 i; coef_col pr s2 j] [coef_col pr s1 (p_nvar pr); coef_col pr s2 (p_nvar pr)] (pair_rows o pr s1 s2)) then g0
          else set_adj g0 (vertex pr s1 i) (vertex_offset pr s2 + j) 1) l g =
        fold_left (fun g j => if negb (coloured col c (vertex pr s2 j)) &&
         negb (feasible (conflict_cst o pr [coef_col pr s1 i; coef_col pr s2 j] [coef_col pr s1 (p_nvar pr); coef_col pr s2 (p_nvar pr)] (pair_rows o pr s1 s2)))
         then set_adj g (vertex pr s1 i) (vertex pr s2 j) 1 else g) l g) as K.
      { clear g W Pg. induction l as [|j l IH]; intros g W Pg Hl; cbn [fold_left]; auto. fold (vertex pr s2 j).
        rewrite (Pg (vertex pr s1 i)), E2. pose proof (Hl j (or_introl eq_refl)) as Hj.
        destruct (coloured col c (vertex pr s2 j)); cbn [negb andb]; [apply IH; auto; intros; apply Hl; right; auto|].
        destruct (feasible _); cbn [negb]; apply IH; auto; try (intros; apply Hl; right; auto; fail).
        - apply set_adj_wf; auto.
        - apply (M1 j); auto. apply in_seq0; auto. }
      apply K; auto. intros j Hj. apply in_seq0 in Hj; auto.
    + reflexivity.
Qed.

Definition all_T (pr : prog) (P : nat -> nat -> bool) (cond : nat -> nat -> nat -> nat -> bool) (a b : nat) : bool :=
  existsb (fun s1 => existsb (fun s2 => P s1 s2 && block_T pr (cond s1 s2) s1 s2 a b)
    (seq (S s1) (length (p_stmts pr) - S s1))) (seq 0 (length (p_stmts pr))).
Lemma all_T_vertex pr P cond s i s' i' : is_loop pr s i -> is_loop pr s' i' ->
  all_T pr P cond (vertex pr s i) (vertex pr s' i') = (s <? s')%nat && P s s' && cond s s' i i'.
Proof.
  intros L L'. apply eq_true_iff_eq. unfold all_T, block_T. rewrite existsb_exists. split.
  - intros (x & Hx & H). apply existsb_exists in H as (y & Hy & H). apply andb_true_iff in H as [HP H].
    apply existsb_exists in H as (k & Hk & H). apply existsb_exists in H as (l & Hl & H). apply in_seq0 in Hx, Hk, Hl. apply in_seq in Hy.
    rewrite !vertex_eqb in H by (auto; split; auto; lia). rewrite !andb_true_iff, !Nat.eqb_eq in H. destruct H as (H & (-> & ->) & (-> & ->)).
    rewrite HP, H. rewrite (proj2 (Nat.ltb_lt x y)) by lia. auto.
  - rewrite !andb_true_iff, Nat.ltb_lt. intros ((H1 & H2) & H3). destruct L as [L1 L2], L' as [L1' L2'].
    exists s. split; [apply in_seq0; auto|]. apply existsb_exists. exists s'. split; [apply in_seq; lia|]. rewrite H2. cbn [andb].
    apply existsb_exists. exists i. split; [apply in_seq0; auto|]. apply existsb_exists. exists i'. split; [apply in_seq0; auto|].
    rewrite H3, !Nat.eqb_refl. auto.
Qed.

Lemma all_pair_marks pr ddg col c :
  marks (num_vertices pr) diag 1 (add_all_pairwise_edges feasible o pr ddg col c) (all_T pr (is_adjacent ddg) (pair_cond pr col c)).
Proof.
  assert (marks (num_vertices pr) diag 1 (add_all_pairwise_edges feasible o pr ddg col c)
    (fun a b => existsb (fun s1 => existsb (fun s2 => is_adjacent ddg s1 s2 && block_T pr (pair_cond pr col c s1 s2) s1 s2 a b)
    (seq (S s1) (length (p_stmts pr) - S s1))) (seq 0 (length (p_stmts pr) - 1)))) as M.
  { unfold add_all_pairwise_edges. apply marks_fold. intros s1 H1. apply in_seq0 in H1.
    apply (marks_fold _ _ _ (fun g j => if is_adjacent ddg s1 j then add_pairwise_edges feasible o pr col c s1 j g else g)).
    intros s2 H2. apply in_seq in H2. apply marks_if. apply pair_marks; lia. }
  eapply marks_ext; [reflexivity| |exact M]. intros a b. unfold all_T. destruct (length (p_stmts pr)) as [|n] eqn:En; auto.
  rewrite (seq_S n 0), existsb_app. cbn [existsb Nat.add]. replace (S n - S n)%nat with 0%nat by lia. cbn [seq existsb]. rewrite !orb_false_r.
  replace (S n - 1)%nat with n by lia. auto.
Qed.

Definition stmt_T (pr : prog) (a b : nat) : bool :=
  existsb (fun s => existsb (fun j => existsb (fun k => ((a =? j)%nat && (b =? k)%nat) || ((a =? k)%nat && (b =? j)%nat))
      (seq (S j) (vertex_offset pr s + s_dim_orig (stmt_of pr s) - S j))) (seq (vertex_offset pr s) (s_dim_orig (stmt_of pr s)))) (seq 0 (length (p_stmts pr))).
Lemma stmt_marks pr : marks (num_vertices pr) diag 1 (add_stmt_edges pr) (stmt_T pr).
Proof.
  unfold add_stmt_edges, stmt_T. apply marks_fold. intros s Hs. apply in_seq0 in Hs.
  apply (marks_fold _ _ _ (fun g j => fold_left (fun g0 k => set_adj (set_adj g0 j k 1) k j 1)
            (seq (S j) (vertex_offset pr s + s_dim_orig (stmt_of pr s) - S j)) g)). intros j Hj. apply in_seq in Hj.
  apply (marks_fold _ _ _ (fun g0 k => set_adj (set_adj g0 j k 1) k j 1)). intros k Hk. apply in_seq in Hk.
  assert (j < num_vertices pr)%nat as Lj.
  { replace j with (vertex pr s (j - vertex_offset pr s)) by (unfold vertex; lia). apply vertex_lt. split; auto. lia. }
  assert (k < num_vertices pr)%nat as Lk.
  { replace k with (vertex pr s (k - vertex_offset pr s)) by (unfold vertex; lia). apply vertex_lt. split; auto. lia. }
  apply (marks_comp _ _ _ (fun g => set_adj g j k 1) (fun g => set_adj g k j 1)); apply marks_set; auto; apply diag_set; auto; lia.
Qed.
Lemma stmt_T_vertex pr s i s' i' : is_loop pr s i -> is_loop pr s' i' ->
  stmt_T pr (vertex pr s i) (vertex pr s' i') = (s =? s')%nat && negb (i =? i')%nat.
Proof.
  intros L L'. apply eq_true_iff_eq. unfold stmt_T. rewrite existsb_exists. split.
  - intros (x & Hx & H). apply existsb_exists in H as (j & Hj & H). apply existsb_exists in H as (k & Hk & H). apply in_seq0 in Hx. apply in_seq in Hj, Hk.
    assert (exists j0, j = vertex pr x j0 /\ is_loop pr x j0) as (j0 & -> & Lj).
    { exists (j - vertex_offset pr x)%nat. split; [unfold vertex; lia|split; auto; lia]. }
    assert (exists k0, k = vertex pr x k0 /\ is_loop pr x k0) as (k0 & -> & Lk).
    { exists (k - vertex_offset pr x)%nat. split; [unfold vertex; lia|split; auto; lia]. }
    rewrite !vertex_eqb in H by auto. rewrite orb_true_iff, !andb_true_iff, !Nat.eqb_eq in H.
    assert (j0 <> k0) as N by (unfold vertex in *; lia).
    destruct H as [((-> & ->) & (-> & ->))|((-> & ->) & (-> & ->))]; rewrite Nat.eqb_refl; cbn [andb]; apply negb_true_iff, Nat.eqb_neq; auto.
  - rewrite andb_true_iff, Nat.eqb_eq, negb_true_iff, Nat.eqb_neq. intros [<- N]. exists s. split; [apply in_seq0, L|].
    destruct L as [L1 L2], L' as [_ L2']. destruct (Nat.lt_total i i') as [H|[H|H]]; [|contradiction|].
    + apply existsb_exists. exists (vertex pr s i). split; [apply in_seq; unfold vertex; lia|]. apply existsb_exists. exists (vertex pr s i').
      split; [apply in_seq; unfold vertex; lia|]. rewrite !Nat.eqb_refl. auto.
    + apply existsb_exists. exists (vertex pr s i'). split; [apply in_seq; unfold vertex; lia|]. apply existsb_exists. exists (vertex pr s i).
      split; [apply in_seq; unfold vertex; lia|]. rewrite !Nat.eqb_refl. cbn [andb]. apply orb_true_r.
Qed.

Lemma distribute_marks s : marks (num_vertices (st_prog s)) diag 1 (add_must_distribute_edges s) (all_T (st_prog s) (must_distribute_pair s) (fun _ _ _ _ => true)).
Proof.
  unfold add_must_distribute_edges, all_T. cbv zeta. apply marks_fold. intros s1 H1. apply in_seq0 in H1.
  apply (marks_fold _ _ _ (fun g j => if must_distribute_pair s s1 j then
            fold_left (fun g0 k => fold_left (fun g1 l => set_adj g1 (vertex_offset (st_prog s) s1 + k) (vertex_offset (st_prog s) j + l) 1)
                  (seq 0 (s_dim_orig (stmt_of (st_prog s) j))) g0) (seq 0 (s_dim_orig (stmt_of (st_prog s) s1))) g else g)).
  intros s2 H2. apply in_seq in H2. apply marks_if. unfold block_T.
  apply (marks_fold _ _ _ (fun g0 k => fold_left (fun g1 l => set_adj g1 (vertex_offset (st_prog s) s1 + k) (vertex_offset (st_prog s) s2 + l) 1)
                  (seq 0 (s_dim_orig (stmt_of (st_prog s) s2))) g0)). intros k Hk. apply in_seq0 in Hk.
  apply (marks_fold _ _ _ (fun g1 l => set_adj g1 (vertex_offset (st_prog s) s1 + k) (vertex_offset (st_prog s) s2 + l) 1)). intros l Hl. apply in_seq0 in Hl.
  assert (is_loop (st_prog s) s1 k) as L1 by (split; auto; lia). assert (is_loop (st_prog s) s2 l) as L2 by (split; auto; lia).
  apply marks_set; [apply (vertex_lt _ _ _ L1)|apply (vertex_lt _ _ _ L2)|].
  apply diag_set; [apply (vertex_lt _ _ _ L1)|apply (vertex_lt _ _ _ L2)|]. apply (vertex_neq (st_prog s) s1 s2 k l L1 L2). lia.
Qed.
End Build.

(** All entries of the graph. *)
Definition edge_cond (feasible : cst -> bool) (o : options) (s : dstate) (col : list Z) (c s1 i s2 j : nat) : bool :=
  let pr := st_prog s in
  if (s1 =? s2)%nat then (if (i =? j)%nat then self_cond feasible o pr col c s1 i else true)
  else (s1 <? s2)%nat &&
    ((is_adjacent (st_adj s) s1 s2 && negb (coloured col c (vertex pr s1 i)) &&
      (self_cond feasible o pr col c s1 i ||
       (negb (coloured col c (vertex pr s2 j)) &&
        negb (feasible (conflict_cst o pr [coef_col pr s1 i; coef_col pr s2 j]
                      [coef_col pr s1 (p_nvar pr); coef_col pr s2 (p_nvar pr)] (pair_rows o pr s1 s2))))))
     || ((c =? 1)%nat && must_distribute_pair s s1 s2)).

Theorem build_entries feasible o s col c s1 i s2 j : is_loop (st_prog s) s1 i -> is_loop (st_prog s) s2 j ->
  adj (build_fcg feasible o s col c) (vertex (st_prog s) s1 i) (vertex (st_prog s) s2 j) =
  if edge_cond feasible o s col c s1 i s2 j then 1 else 0.
Proof.
  intros L1 L2. set (pr := st_prog s) in *. unfold build_fcg. fold pr. cbv zeta. set (n := num_vertices pr).
  destruct (self_marks feasible o pr col c (repeat (repeat 0 n) n) (wf_zero n) Logic.I) as (W1 & _ & A1).
  set (g1 := add_permute_preventing_edges feasible o pr col c _) in *.
  set (D := fun v => adj g1 v v =? 1).
  assert (diag D g1) as P1 by (intros v; reflexivity).
  destruct (all_pair_marks feasible o D pr (st_adj s) col c g1 W1 P1) as (W2 & P2 & A2).
  set (g2 := add_all_pairwise_edges _ _ _ _ _ _ _) in *.
  destruct (stmt_marks D pr g2 W2 P2) as (W3 & P3 & A3). set (g3 := add_stmt_edges pr g2) in *.
  assert (adj g3 (vertex pr s1 i) (vertex pr s2 j) =
    if (s1 =? s2)%nat && negb (i =? j)%nat then 1 else
    if (s1 <? s2)%nat && is_adjacent (st_adj s) s1 s2 && pair_cond feasible o D pr col c s1 s2 i j then 1 else
    if (s1 =? s2)%nat && (i =? j)%nat && self_cond feasible o pr col c s1 i then 1 else 0) as E3.
  { rewrite A3, A2, A1, adj_zero, stmt_T_vertex, all_T_vertex, self_T_vertex by auto. reflexivity. }
  assert (forall k, is_loop pr s1 k -> D (vertex pr s1 k) = self_cond feasible o pr col c s1 k) as ED.
  { intros k Lk. unfold D. rewrite A1, adj_zero, self_T_vertex, !Nat.eqb_refl by auto. cbn [andb]. destruct (self_cond feasible o pr col c s1 k); reflexivity. }
  assert (adj (if (c =? 1)%nat then add_must_distribute_edges s g3 else g3) (vertex pr s1 i) (vertex pr s2 j) =
    if (c =? 1)%nat && ((s1 <? s2)%nat && must_distribute_pair s s1 s2) then 1 else adj g3 (vertex pr s1 i) (vertex pr s2 j)) as E4.
  { destruct (c =? 1)%nat; [|reflexivity]. destruct (distribute_marks D s g3 W3 P3) as (_ & _ & A4). rewrite A4. fold pr. rewrite all_T_vertex by auto.
    rewrite andb_true_r. reflexivity. }
  transitivity (adj (if (c =? 1)%nat then add_must_distribute_edges s g3 else g3) (vertex pr s1 i) (vertex pr s2 j)); [reflexivity|].
  rewrite E4, E3. unfold edge_cond, pair_cond. fold pr. rewrite ED by auto.
  destruct (Nat.eqb_spec s1 s2) as [->|N].
  - rewrite Nat.ltb_irrefl. cbn [andb]. rewrite andb_false_r. destruct (i =? j)%nat; cbn [negb andb]; reflexivity.
  - cbn [andb]. destruct (s1 <? s2)%nat; cbn [andb]; [|rewrite andb_false_r; reflexivity].
    destruct (c =? 1)%nat, (must_distribute_pair s s1 s2); cbn [andb]; rewrite ?orb_true_r, ?orb_false_r; auto;
    rewrite <- andb_assoc; reflexivity.
Qed.
