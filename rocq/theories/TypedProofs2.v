(** * Proofs about typed fusion: the choice of dimensions. *)
From Coq Require Import ZArith List Bool Arith Lia.
From Verif Require Import SpecLinear SpecMatrix VecProofs MathModel ConstraintsModel SpecGraph GraphModel SpecProg SpecDriver SpecDfp SpecTyped
  FrameworkModel ProgModel DriverModel DfpModel DfpProofs2 FcgModel ClusterModel TypedModel.
Import ListNotations.
Open Scope Z_scope.

Lemma offset_S s i : scc_offset s (S i) = (scc_offset s i + scc_dim s i)%nat.
Proof. unfold scc_offset. rewrite seq_S, map_app, fold_left_app. reflexivity. Qed.
Lemma offset_le s i j : (i <= j)%nat -> (scc_offset s i <= scc_offset s j)%nat.
Proof. induction 1 as [|j H IH]; [lia|]. rewrite offset_S. lia. Qed.
Lemma in_dims s i v : In v (dims s i) <-> (scc_offset s i <= v < scc_offset s i + scc_dim s i)%nat.
Proof.
  unfold dims. rewrite in_map_iff. split.
  - intros (j & <- & H). apply in_seq in H. lia.
  - intros H. exists (v - scc_offset s i)%nat. split; [lia|apply in_seq; lia].
Qed.
Lemma dims_lt s i v : (i < st_num s)%nat -> In v (dims s i) -> (v < scc_vertices s)%nat.
Proof. intros H D. apply in_dims in D. unfold scc_vertices. pose proof (offset_le s (S i) (st_num s) ltac:(lia)). rewrite offset_S in H0. lia. Qed.
Lemma dims_disjoint s i j v : In v (dims s i) -> In v (dims s j) -> i = j.
Proof.
  rewrite !in_dims. intros A B. destruct (Nat.lt_total i j) as [L|[E|L]]; [exfalso|exact E|exfalso].
  - pose proof (offset_le s (S i) j ltac:(lia)) as H. rewrite offset_S in H. lia.
  - pose proof (offset_le s (S j) i ltac:(lia)) as H. rewrite offset_S in H. lia.
Qed.

(** ** Convex successors *)

Lemma find_rev_last (f : nat -> bool) n p : find f (rev (seq 0 n)) = Some p -> f p = true /\ (p < n)%nat /\ forall k, (p < k < n)%nat -> f k = false.
Proof.
  induction n as [|n IH]; [discriminate|]. rewrite seq_S, rev_app_distr. cbn [rev app Nat.add find]. destruct (f n) eqn:E.
  - intros H. injection H as <-. split; [auto|]. split; [lia|]. intros k L. lia.
  - intros H. apply IH in H as (A & B & C). split; [auto|]. split; [lia|]. intros k L. destruct (Nat.eq_dec k n) as [->|]; [auto|]. apply C. lia.
Qed.
Lemma find_seq_first (f : nat -> bool) n : forall a p, find f (seq a n) = Some p -> f p = true /\ (a <= p < a + n)%nat /\ forall k, (a <= k < p)%nat -> f k = false.
Proof.
  induction n as [|n IH]; intros a p; [discriminate|]. cbn [seq find]. destruct (f a) eqn:E.
  - intros H. injection H as <-. split; [auto|]. split; [lia|]. intros k L. lia.
  - intros H. apply IH in H as (A & B & C). split; [auto|]. split; [lia|]. intros k L. destruct (Nat.eq_dec k a) as [->|]; [auto|]. apply C. lia.
Qed.
Lemma convex_spec s a b : (b < st_num s)%nat -> is_convex_scc s a b = true <->
  forall x y, (a < x < st_num s)%nat -> (y < b)%nat -> scc_edge s a x = true -> scc_edge s y b = true -> (y < x)%nat.
Proof.
  intros Hb. unfold is_convex_scc. split.
  - intros H x y Hx Hy E1 E2.
    destruct (get_max_pred_scc s b) as [p|] eqn:P.
    + apply find_rev_last in P as (P1 & P2 & P3). apply Nat.ltb_lt in H.
      assert (y <= p)%nat by (destruct (Nat.le_gt_cases y p); auto; rewrite P3 in E2 by lia; discriminate).
      enough (get_min_succ_scc s a <= x)%nat by lia. unfold get_min_succ_scc.
      destruct (find _ _) as [k|] eqn:F.
      * apply find_seq_first in F as (F1 & F2 & F3). destruct (Nat.le_gt_cases k x); auto. rewrite F3 in E1 by lia. discriminate.
      * apply find_none with (x := x) in F; [congruence|]. apply in_seq. lia.
    + unfold get_max_pred_scc in P. apply find_none with (x := y) in P; [congruence|]. rewrite <- in_rev. apply in_seq. lia.
  - intros H. destruct (get_max_pred_scc s b) as [p|] eqn:P; [|auto]. apply find_rev_last in P as (P1 & P2 & P3). apply Nat.ltb_lt.
    unfold get_min_succ_scc. destruct (find _ _) as [k|] eqn:F.
    + apply find_seq_first in F as (F1 & F2 & F3). apply (H k p); auto; lia.
    + lia.
Qed.
Lemma before_in s g l i : In i (before_distribution s g l) -> In i l.
Proof. induction l as [|a l IH]; cbn [before_distribution]; [auto|]. destruct (cluster_must_distribute s g a); [intros []|]. intros [<-|H]; [left; auto|right; auto]. Qed.
Lemma succ_in s g par a i : In i (get_convex_parallel_successors s g par a) ->
  (a < i < st_num s)%nat /\ nth i par false = true /\ is_convex_scc s a i = true.
Proof.
  unfold get_convex_parallel_successors, get_convex_successors. rewrite !filter_In. intros [[H1 H2] H3]. apply before_in, in_seq in H1. split; [lia|auto].
Qed.

(** ** The greedy choice *)

Lemma par_sym q v w : par_edge q v w = par_edge q w v.
Proof. unfold par_edge. apply orb_comm. Qed.
Lemma conflict_sym g v w : conflict g v w <-> conflict g w v.
Proof. unfold conflict. tauto. Qed.
Lemma valid_par_spec g q v c col w : valid_parallel g q v c col = true -> (w < length col)%nat -> nth w col 0 = c -> ~ conflict g v w /\ par_edge q v w = false.
Proof.
  unfold valid_parallel. rewrite andb_true_iff, negb_true_iff. intros [H1 H2] L E. split; [exact (valid_spec _ _ _ _ w H1 L E)|].
  destruct (par_edge q v w) eqn:P; [exfalso|auto]. assert (is_colour_par_preventing q v c col = true) as X; [|congruence].
  unfold is_colour_par_preventing. apply existsb_exists. exists w. split; [apply in_seq; lia|]. rewrite P, andb_true_r. apply Z.eqb_eq. auto.
Qed.

Lemma colouring_dim_spec l : forall max d, match get_colouring_dim l max d with
  | Some v => (d = Some v /\ forall w n, In (w, n) l -> (n <= max)%nat) \/ (exists n, In (v, n) l /\ (max < n)%nat /\ forall w n', In (w, n') l -> (n' <= n)%nat)
  | None => d = None /\ forall w n, In (w, n) l -> (n <= max)%nat end.
Proof.
  induction l as [|[v n] l IH]; intros max d; cbn [get_colouring_dim].
  - destruct d; [left|]; (split; [auto|intros w k []]).
  - destruct (Nat.ltb_spec max n) as [L|L].
    + specialize (IH n (Some v)). destruct (get_colouring_dim l n (Some v)) as [x|]; [|destruct IH; discriminate].
      destruct IH as [[E H]|(n' & H1 & H2 & H3)].
      * injection E as <-. right. exists n. split; [left; auto|]. split; [auto|]. intros w k [E|I]; [injection E; lia|eauto].
      * right. exists n'. split; [right; auto|]. split; [lia|]. intros w n0 [E|I]; [injection E; lia|eauto].
    + specialize (IH max d). destruct (get_colouring_dim l max d) as [x|].
      * destruct IH as [[E H]|(n' & H1 & H2 & H3)].
        -- left. split; [auto|]. intros w n0 [X|I]; [injection X; lia|eauto].
        -- right. exists n'. split; [right; auto|]. split; [auto|]. intros w n0 [X|I]; [injection X; lia|eauto].
      * destruct IH as [E H]. split; [auto|]. intros w n0 [X|I]; [injection X; lia|eauto].
Qed.

Section Greedy.
Variables (s : dstate) (g q : fcg) (par : list bool) (c : Z) (col : list Z) (i : nat).
Hypothesis Hc : c <> 0.
Hypothesis Hi : (i < st_num s)%nat.
Hypothesis HL : scc_vertices s = length col.

(** What holds while the colours are given: [m] are the SCCs that got one. *)
Record given (col' : list Z) (m : list nat) : Prop := mkGiven {
  gv_len : length col' = length col;
  gv_new : forall w, nth w col' 0 <> nth w col 0 -> nth w col 0 = 0 /\ nth w col' 0 = c /\ adj g w w = 0 /\ adj q w w = 0 /\ exists j, In j m /\ In w (dims s j);
  gv_ok : forall w w', w <> w' -> nth w col' 0 <> nth w col 0 -> (w' < length col)%nat -> nth w' col' 0 = c -> ~ conflict g w w' /\ par_edge q w w' = false;
  gv_all : forall j, In j m -> exists w, In w (dims s j) /\ nth w col 0 = 0 /\ nth w col' 0 = c }.

Lemma given_start : given col [].
Proof. split; [auto|intros w N; congruence|intros w w' _ N; congruence|intros j []]. Qed.
Lemma given_step col' m v j : given col' m -> (j < st_num s)%nat -> In v (dims s j) -> nth v col' 0 = 0 -> nth v col 0 = 0 -> adj g v v = 0 -> adj q v v = 0 ->
  valid_parallel g q v c col' = true -> given (set_nth v c col') (m ++ [j]).
Proof.
  intros [L N O A] Hj D Z0 Z1 G0 Q0 V. assert (v < length col')%nat as Lv by (rewrite L, <- HL; eapply dims_lt; eauto).
  split.
  - rewrite set_nth_length. auto.
  - intros w. destruct (Nat.eq_dec w v) as [->|E].
    + rewrite nth_set_nth_eq by auto. intros _. repeat (split; [auto|]). exists j. split; [apply in_or_app; right; left; auto|auto].
    + rewrite nth_set_nth_neq by auto. intros X. destruct (N w X) as (B1 & B2 & B3 & B4 & k & B5 & B6). repeat (split; [auto|]). exists k. split; [apply in_or_app; auto|auto].
  - intros w w' NE X L' C. destruct (Nat.eq_dec w v) as [->|E].
    + rewrite nth_set_nth_neq in C by auto. apply (valid_par_spec g q v c col'); auto. rewrite L. auto.
    + rewrite nth_set_nth_neq in X by auto. destruct (Nat.eq_dec w' v) as [->|E'].
      * destruct (N w X) as (_ & C1 & _). destruct (valid_par_spec g q v c col' w V) as [K1 K2]; [|auto|].
        -- destruct (Nat.lt_ge_cases w (length col')) as [|G]; auto. rewrite (nth_overflow col') in C1 by auto. congruence.
        -- split; [rewrite conflict_sym; auto|rewrite par_sym; auto].
      * rewrite nth_set_nth_neq in C by auto. apply O; auto.
  - intros k Hk. apply in_app_or in Hk as [Hk|[<-|[]]].
    + destruct (A k Hk) as (w & A1 & A2 & A3). exists w. split; [auto|]. split; [auto|]. destruct (Nat.eq_dec w v) as [->|E]; [apply nth_set_nth_eq; auto|rewrite nth_set_nth_neq; auto].
    + exists v. split; [auto|]. split; [auto|]. apply nth_set_nth_eq; auto.
Qed.
(** A vertex without colour had none before. *)
Lemma given_zero col' m v : given col' m -> nth v col' 0 = 0 -> nth v col 0 = 0.
Proof. intros [_ N _ _] Z0. destruct (Z.eq_dec (nth v col 0) 0); auto. destruct (N v) as (A & _); [congruence|auto]. Qed.

Lemma usable_spec c0 col0 v : usable g q c0 col0 v = true -> nth v col0 0 = 0 /\ adj g v v = 0 /\ adj q v v = 0 /\ valid_parallel g q v c0 col0 = true.
Proof. unfold usable. rewrite !andb_true_iff, !Z.eqb_eq. tauto. Qed.
Lemma successors_given k l : (forall j, In j l -> (j < st_num s)%nat) -> forall st m0, given (fst st) (m0 ++ snd st) ->
  given (fst (fold_left (colour_successor s g q k c) l st)) (m0 ++ snd (fold_left (colour_successor s g q k c) l st)).
Proof.
  induction l as [|j l IH]; intros Hl st m0 G; cbn [fold_left]; [auto|].
  apply IH; [intros; apply Hl; right; auto|].
  unfold colour_successor. destruct (find _ _) as [v|] eqn:F; [|auto]. apply find_some in F as [D F]. cbn [fst snd].
  unfold colourable_successor in F. rewrite !andb_true_iff, !Z.eqb_eq in F. destruct F as ((((F1 & F2) & F3) & F4) & F5).
  rewrite app_assoc. apply given_step; auto; [apply Hl; left; auto|]. eapply given_zero; eauto.
Qed.
Lemma successors_incl k l : forall st, incl (snd (fold_left (colour_successor s g q k c) l st)) (snd st ++ l).
Proof.
  induction l as [|j l IH]; intros st; cbn [fold_left]; [rewrite app_nil_r; apply incl_refl|].
  eapply incl_tran; [apply IH|]. unfold colour_successor. destruct (find _ _) as [v|]; cbn [snd].
  - rewrite <- app_assoc. apply incl_refl.
  - intros x Hx. apply in_app_or in Hx as [Hx|Hx]; apply in_or_app; [left|right; right]; auto.
Qed.

Lemma greedy_given col' m : colour_scc_cluster_greedy s g q par c i col = Some (col', m) ->
  given col' m /\ (exists m', m = i :: m' /\ incl m' (get_convex_parallel_successors s g par i)).
Proof.
  unfold colour_scc_cluster_greedy. destruct (filter _ _) as [|v0 r] eqn:F; [discriminate|].
  assert (In v0 (dims s i) /\ usable g q c col v0 = true) as [D0 U0] by (apply filter_In; rewrite F; left; auto).
  assert (forall v, In v (dims s i) -> usable g q c col v = true -> given (set_nth v c col) ([] ++ [i])) as ST.
  { intros v D U. apply usable_spec in U as (U1 & U2 & U3 & U4). apply given_step; auto. apply given_start. }
  cbv zeta. pose proof (colouring_dim_spec (map (fun v => (v, common s g q c col (get_convex_parallel_successors s g par i) v)) (dims s i)) 0 None) as C.
  destruct (get_colouring_dim _ _ _) as [v|].
  - destruct C as [[E _]|(n & In1 & Ln & _)]; [discriminate|]. intros H. injection H as <- <-.
    apply in_map_iff in In1 as (x & E & Dx). injection E as -> En. unfold common in En.
    destruct (usable g q c col v) eqn:U; [|lia]. unfold colour_convex_successors.
    set (succs := get_convex_parallel_successors s g par i) in *.
    split.
    + apply (successors_given v succs) with (st := (set_nth v c col, [])) (m0 := [i]); [intros j Hj; apply succ_in in Hj; lia|apply (ST v); auto].
    + eexists. split; [reflexivity|]. exact (successors_incl v succs (set_nth v c col, [])).
  - intros H. injection H as <- <-. split; [apply (ST v0); auto|]. exists []. split; [reflexivity|intros x []].
Qed.
End Greedy.

(** ** In words of the specification *)

Lemma par_edge_spec q v w : par_edge q v w = true <-> loses_parallelism q v w.
Proof. unfold par_edge, loses_parallelism, adj. rewrite orb_true_iff, !negb_true_iff, !Z.eqb_neq. tauto. Qed.
Lemma par_edge_false q v w : par_edge q v w = false <-> ~ loses_parallelism q v w.
Proof. rewrite <- par_edge_spec. destruct (par_edge q v w); split; congruence. Qed.
Lemma valid_iff v c g col : is_valid_colour v c g col = true <-> forall w, (w < length col)%nat -> nth w col 0 = c -> ~ conflict g v w.
Proof.
  split; [intros H w L E; exact (valid_spec _ _ _ _ w H L E)|]. intros H. unfold is_valid_colour. apply forallb_forall. intros w Hw. apply in_seq in Hw.
  apply negb_true_iff. destruct (nth w col 0 =? c) eqn:E; [|apply andb_false_r]. rewrite andb_true_r. apply Z.eqb_eq in E. specialize (H w ltac:(lia) E).
  apply orb_false_iff. split; apply Z.eqb_neq; intros X; apply H; unfold conflict, adj in *; auto.
Qed.
Lemma par_preventing_iff v c q col : is_colour_par_preventing q v c col = false <-> forall w, (w < length col)%nat -> nth w col 0 = c -> ~ loses_parallelism q v w.
Proof.
  unfold is_colour_par_preventing. split.
  - intros H w L E. apply par_edge_false. destruct (par_edge q v w) eqn:P; auto. assert (existsb (fun i => (nth i col 0 =? c) && par_edge q v i) (seq 0 (length col)) = true) as X; [|congruence].
    apply existsb_exists. exists w. split; [apply in_seq; lia|]. rewrite P, andb_true_r. apply Z.eqb_eq; auto.
  - intros H. apply not_true_is_false. intros X. apply existsb_exists in X as (w & Hw & X). apply in_seq in Hw. apply andb_true_iff in X as [X1 X2]. apply Z.eqb_eq in X1.
    apply par_edge_spec in X2. apply (H w); auto. lia.
Qed.
Lemma usable_iff g q c col v : usable g q c col v = true <-> parallel_choice g q c col v.
Proof.
  unfold usable, valid_parallel, parallel_choice. rewrite !andb_true_iff, negb_true_iff, !Z.eqb_eq, valid_iff, par_preventing_iff. unfold adj. split.
  - intros (((A & B) & C) & D & E). split; [auto|]. split; [auto|]. split; [auto|]. intros x L X. auto.
  - intros (A & B & C & D). split; [split; [split|]; auto|]. split; intros x L X; [exact (proj1 (D x L X))|exact (proj2 (D x L X))].
Qed.

(** ** How many successors *)

Definition binary (g : fcg) : Prop := forall v w, adj g v w = 0 \/ adj g v w = 1.
Lemma adjacent_conflict g v w : binary g -> (is_adjacent g v w = true <-> conflict g v w).
Proof.
  intros B. unfold is_adjacent, conflict. rewrite orb_true_iff, !negb_true_iff, !Z.eqb_neq. pose proof (B v w). pose proof (B w v). unfold adj in *. lia.
Qed.
Lemma shares_iff s g q c col k j : binary g -> (shares s g q c col k j = true <->
  exists w, In w (dims s j) /\ parallel_choice g q c col w /\ ~ conflict g w k /\ ~ loses_parallelism q w k).
Proof.
  intros B. unfold shares. rewrite existsb_exists. split; intros (w & D & H); exists w; (split; [auto|]).
  - rewrite !andb_true_iff, !negb_true_iff, par_edge_false, usable_iff in H. destruct H as ((H1 & H2) & H3). split; [auto|]. split; [|auto].
    rewrite <- adjacent_conflict by auto. congruence.
  - destruct H as (H1 & H2 & H3). rewrite !andb_true_iff, !negb_true_iff, par_edge_false, usable_iff. split; [split; [auto|]|auto].
    apply not_true_is_false. rewrite adjacent_conflict by auto. auto.
Qed.

Section Count.
Variables (s : dstate) (g q : fcg) (par : list bool) (c : Z) (col : list Z) (i : nat).
Hypothesis Hc : c <> 0.
Hypothesis Hi : (i < st_num s)%nat.
Hypothesis HL : scc_vertices s = length col.
Hypothesis HB : binary g.

Lemma successors_share v l : (v < length col)%nat -> nth v col 0 = 0 -> forall st,
  (length (fst st) = length col) -> nth v (fst st) 0 = c -> (forall x, nth x (fst st) 0 = nth x col 0 \/ (nth x col 0 = 0 /\ nth x (fst st) 0 = c)) ->
  (forall j, In j (snd st) -> shares s g q c col v j = true) ->
  forall j, In j (snd (fold_left (colour_successor s g q v c) l st)) -> shares s g q c col v j = true.
Proof.
  intros Lv Zv. induction l as [|j0 l IH]; intros st LE E K H j Hj; cbn [fold_left] in Hj; [auto|].
  apply (IH (colour_successor s g q v c st j0)); auto; unfold colour_successor; destruct (find _ _) as [w|] eqn:F; auto; cbn [fst snd].
  - rewrite set_nth_length. auto.
  - destruct (Nat.eq_dec v w) as [->|N]; [apply nth_set_nth_eq; lia|rewrite nth_set_nth_neq; auto].
  - apply find_some in F as [D F]. unfold colourable_successor in F. rewrite !andb_true_iff, !Z.eqb_eq in F. destruct F as ((((F1 & F2) & F3) & F4) & F5).
    intros x. destruct (Nat.eq_dec x w) as [->|N]; [|rewrite nth_set_nth_neq; auto].
    assert (nth w col 0 = 0) as Z0 by (destruct (K w) as [X|[X _]]; congruence). rewrite Z0.
    destruct (Nat.lt_ge_cases w (length (fst st))); [rewrite nth_set_nth_eq by auto; auto|]. left. apply nth_overflow. rewrite set_nth_length. auto.
  - intros j' Hj'. apply in_app_or in Hj' as [Hj'|[<-|[]]]; [auto|].
    apply find_some in F as [D F]. unfold colourable_successor in F. rewrite !andb_true_iff, !Z.eqb_eq in F. destruct F as ((((F1 & F2) & F3) & F4) & F5).
    apply shares_iff; auto. exists w. split; [auto|].
    assert (nth w col 0 = 0) as Z0 by (destruct (K w) as [X|[X _]]; congruence).
    assert (forall x, (x < length col)%nat -> nth x (fst st) 0 = c -> ~ conflict g w x /\ ~ loses_parallelism q w x) as VV.
    { intros x Lx Ex. destruct (valid_par_spec g q w c (fst st) x F5) as [V1 V2]; [lia|auto|]. split; [auto|]. apply par_edge_false. auto. }
    split; [|apply VV; auto]. split; [auto|]. split; [auto|]. split; [auto|]. intros x Lx Ex. apply VV; auto. destruct (K x) as [X|[X Y]]; congruence.
Qed.

Lemma successors_keep v k l : forall st, nth v (fst st) 0 = c -> nth v (fst (fold_left (colour_successor s g q k c) l st)) 0 = c.
Proof.
  induction l as [|j l IH]; intros st E; cbn [fold_left]; [auto|]. apply IH. unfold colour_successor. destruct (find _ _) as [w|]; cbn [fst]; [|auto].
  destruct (Nat.eq_dec v w) as [->|N]; [|rewrite nth_set_nth_neq; auto].
  destruct (Nat.lt_ge_cases w (length (fst st))); [apply nth_set_nth_eq; auto|]. rewrite nth_overflow in E by auto. congruence.
Qed.
Lemma greedy_choice col' m : colour_scc_cluster_greedy s g q par c i col = Some (col', m) ->
  let succs := get_convex_parallel_successors s g par i in
  exists v m', m = i :: m' /\ In v (dims s i) /\ parallel_choice g q c col v /\ nth v col' 0 = c /\
    (forall j, In j m' -> In j succs /\ shares s g q c col v j = true) /\
    (forall v', In v' (dims s i) -> parallel_choice g q c col v' ->
       (length (filter (shares s g q c col v') succs) <= length (filter (shares s g q c col v) succs))%nat).
Proof.
  intros H succs. pose proof H as G. apply greedy_given in G as [G (m' & Em & Hm)]; auto. unfold colour_scc_cluster_greedy in H.
  destruct (filter _ _) as [|v0 r] eqn:F; [discriminate|].
  assert (In v0 (dims s i) /\ usable g q c col v0 = true) as [D0 U0] by (apply filter_In; rewrite F; left; auto).
  fold succs in H. cbv zeta in H. pose proof (colouring_dim_spec (map (fun v => (v, common s g q c col succs v)) (dims s i)) 0 None) as C.
  assert (forall v', In v' (dims s i) -> parallel_choice g q c col v' -> In (v', length (filter (shares s g q c col v') succs)) (map (fun v => (v, common s g q c col succs v)) (dims s i))) as CM.
  { intros v' D' P'. apply in_map_iff. exists v'. split; [|auto]. unfold common. rewrite (proj2 (usable_iff g q c col v') P'). reflexivity. }
  destruct (get_colouring_dim _ _ _) as [v|].
  - destruct C as [[E _]|(n & In1 & Ln & Mx)]; [discriminate|]. injection H as H1 H2.
    apply in_map_iff in In1 as (x & E & Dx). injection E as -> En. unfold common in En.
    destruct (usable g q c col v) eqn:U; [|lia]. pose proof U as U'. apply usable_iff in U'.
    assert (v < length col)%nat as Lv by (rewrite <- HL; eapply dims_lt; eauto).
    exists v, m'. split; [auto|]. split; [auto|]. split; [auto|].
    destruct U' as (Z0 & _).
    assert (nth v (set_nth v c col) 0 = c) as Ev by (apply nth_set_nth_eq; auto).
    split; [|split].
    + rewrite <- H1. unfold colour_convex_successors. apply successors_keep. exact Ev.
    + intros j Hj. split; [apply Hm; auto|]. assert (In j (snd (colour_convex_successors s g q v succs c (set_nth v c col)))) as Hj' by (rewrite Em in H2; injection H2 as ->; auto).
      unfold colour_convex_successors in Hj'. apply (successors_share v succs Lv Z0 (set_nth v c col, [])); [apply set_nth_length|exact Ev| |intros y []|exact Hj'].
      intros y. cbn [fst]. destruct (Nat.eq_dec y v) as [->|N]; [right; auto|left; apply nth_set_nth_neq; auto].
    + intros v' D' P'. specialize (Mx _ _ (CM v' D' P')). lia.
  - injection H as H1 H2. rewrite <- H2 in Em. injection Em as <-. exists v0, []. split; [auto|]. split; [auto|]. split; [apply usable_iff; auto|].
    split; [rewrite <- H1; apply nth_set_nth_eq; rewrite <- HL; eapply dims_lt; eauto|]. split; [intros j []|]. intros v' D' P'.
    destruct C as [_ C]. specialize (C _ _ (CM v' D' P')). lia.
Qed.
End Count.

(** ** The dimension of a sequential SCC *)

Lemma next_dim s g lpcolour c i col disc v : get_next_min_vertex_scc_cluster s g lpcolour c i col disc = Some v -> In v (dims s i) /\ ~ In v disc.
Proof.
  unfold get_next_min_vertex_scc_cluster. assert (forall x, existsb (Nat.eqb x) disc = false -> ~ In x disc) as ND.
  { intros x E I. assert (existsb (Nat.eqb x) disc = true) by (apply existsb_exists; exists x; split; [auto|apply Nat.eqb_refl]). congruence. }
  destruct lpcolour.
  - destruct (colourable_dims s g col disc i) as [|v0 r] eqn:E; [discriminate|].
    assert (forall x, In x (v0 :: r) -> In x (dims s i) /\ ~ In x disc) as A.
    { intros x Hx. rewrite <- E in Hx. apply filter_In in Hx as [Hx Y]. rewrite !andb_true_iff, !negb_true_iff in Y. split; [auto|apply ND; tauto]. }
    assert (In v0 (v0 :: r)) as A0 by (left; auto).
    destruct (get_min_convex_successor _ _ _) as [m|]; [|intros H; injection H as <-; auto].
    destruct (get_colouring_dim _ _ _) as [w|]; [|intros H; injection H as <-; auto].
    destruct (find _ _) as [x|] eqn:F; intros H; injection H as <-; [|auto]. apply find_some in F as [F _]. auto.
  - intros H. apply find_some in H as [H1 H2]. apply negb_true_iff in H2. split; [auto|apply ND; auto].
Qed.
Lemma next_none s g lpcolour c i col disc : get_next_min_vertex_scc_cluster s g lpcolour c i col disc = None ->
  forall v, In v (dims s i) -> ~ In v disc -> nth v col 0 = 0 -> is_adjacent g v v = true.
Proof.
  unfold get_next_min_vertex_scc_cluster. intros H v D N Z0.
  assert (existsb (Nat.eqb v) disc = false) as E by (apply not_true_is_false; intros X; apply existsb_exists in X as (x & X1 & X2); apply Nat.eqb_eq in X2; subst; auto).
  destruct lpcolour.
  - destruct (colourable_dims s g col disc i) as [|v0 r] eqn:F; [|exfalso; destruct (get_min_convex_successor _ _ _); [destruct (get_colouring_dim _ _ _); [destruct (find _ _)|]|]; discriminate].
    destruct (is_adjacent g v v) eqn:A; [auto|exfalso]. assert (In v (colourable_dims s g col disc i)) as X; [|rewrite F in X; destruct X].
    apply filter_In. split; [auto|]. rewrite A, E, Z0. reflexivity.
  - exfalso. pose proof (find_none _ _ H v D) as X. cbn beta in X. rewrite E in X. discriminate.
Qed.
Lemma dims_nodup s i : NoDup (dims s i).
Proof. unfold dims. apply FinFun.Injective_map_NoDup; [intros a b; lia|apply seq_NoDup]. Qed.
Lemma dims_length s i : length (dims s i) = scc_dim s i.
Proof. unfold dims. rewrite map_length, seq_length. reflexivity. Qed.

Section Try.
Variables (s : dstate) (g q : fcg) (par : list bool) (lpcolour : bool) (c : Z) (i : nat) (col : list Z).
Definition accepted v := colourable g col c v && negb (nth i par false && is_colour_par_preventing q v c col).
Lemma try_sound fuel : forall disc v, try_vertices s g q par lpcolour c i col fuel disc = Some v -> In v (dims s i) /\ accepted v = true.
Proof.
  induction fuel as [|f IH]; intros disc v; cbn [try_vertices]; [discriminate|].
  destruct (get_next_min_vertex_scc_cluster _ _ _ _ _ _ _) as [x|] eqn:N; [|discriminate]. apply next_dim in N as [N _].
  destruct (colourable _ _ _ _ && _) eqn:A; [intros H; injection H as <-; auto|apply IH].
Qed.
Lemma try_complete fuel : forall disc, NoDup disc -> incl disc (dims s i) -> (scc_dim s i <= fuel + length disc)%nat ->
  (forall v, In v disc -> accepted v = false) ->
  try_vertices s g q par lpcolour c i col fuel disc = None -> forall v, In v (dims s i) -> nth v col 0 = 0 -> is_adjacent g v v = false -> accepted v = false.
Proof.
  induction fuel as [|f IH]; intros disc ND IN LE AC; cbn [try_vertices]; intros H v D Z0 A0.
  - apply AC. assert (length (dims s i) <= length disc)%nat as LL by (rewrite dims_length; lia). exact (NoDup_length_incl ND LL IN v D).
  - destruct (get_next_min_vertex_scc_cluster _ _ _ _ _ _ _) as [x|] eqn:N.
    + apply next_dim in N as [N1 N2]. destruct (colourable _ _ _ _ && _) eqn:A; [discriminate|].
      apply (IH (disc ++ [x])); auto.
      * apply (NoDup_Add (a := x) (l := disc)); [|split; auto]. pose proof (Add_app x disc []) as X. rewrite app_nil_r in X. exact X.
      * intros y Hy. apply in_app_or in Hy as [Hy|[<-|[]]]; auto.
      * rewrite app_length. cbn [length]. lia.
      * intros y Hy. apply in_app_or in Hy as [Hy|[<-|[]]]; auto.
    + destruct (in_dec Nat.eq_dec v disc) as [I|NI]; [auto|]. pose proof (next_none _ _ _ _ _ _ _ N v D NI Z0). congruence.
Qed.
End Try.

(** ** Convexity and chains *)

Lemma chain_app edge a b c : chain edge a b -> chain edge b c -> chain edge a c.
Proof. induction 1 as [a b H|a b d H1 H2 IH]; intros K; [eapply chain_more; eauto|eapply chain_more; eauto]. Qed.
Lemma chain_last edge a b : chain edge a b -> exists y, edge y b /\ (a = y \/ chain edge a y).
Proof. induction 1 as [a b H|a b c H1 H2 IH]; [exists a; auto|]. destruct IH as (y & E & K). exists y. split; [auto|]. right. destruct K as [->|K]; [apply chain_one; auto|eapply chain_more; eauto]. Qed.
Lemma chain_first edge a b : chain edge a b -> exists y, edge a y /\ (y = b \/ chain edge y b).
Proof. destruct 1 as [a b H|a b c H1 H2]; eauto. Qed.

Lemma chain_le (edge : nat -> nat -> Prop) : (forall a b, edge a b -> (a <= b)%nat) -> forall a b, chain edge a b -> (a <= b)%nat.
Proof. intros T a b. induction 1 as [a b H|a b c H1 H2 IH]; [auto|]. specialize (T _ _ H1). lia. Qed.
