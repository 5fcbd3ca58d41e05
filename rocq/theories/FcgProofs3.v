(** * The edges of the fusion conflict graph: what they mean; its update. *)
From Coq Require Import ZArith QArith List Bool Arith Lia Lqa.
From Verif Require Import SpecLinear VecProofs MathModel ConstraintsModel SpecProg SpecDriver SpecGraph GraphModel GraphProofs GraphProofs2
  FarkasProofs FrameworkModel FrameworkProofs HypProofs ProgModel ProgProofs DriverModel DriverProofs DfpModel DfpProofs2 SpecFcg FcgModel FcgProofs FcgProofs2.
Import ListNotations.
Open Scope Z_scope.

Lemma conflict_wf o pr ones free L : wf_cst (conflict_cst o pr ones free (flat_map (fun d => rows (dep_cst o pr d)) L)).
Proof.
  destruct (bounding_wf o pr) as [[_ B1] B2]. split; cbn [ncols rows conflict_cst]; [unfold cst_width; lia|].
  intros r Hr. apply in_app_or in Hr as [Hr|Hr]; [rewrite <- B2; auto|]. apply in_app_or in Hr as [Hr|Hr].
  - apply in_map_iff in Hr as (i & <- & _). unfold unknown_row. repeat match goal with |- context [if ?b then _ else _] => destruct b end;
    cbn [coef]; rewrite ?set_nth_length, ?repeat_length; reflexivity.
  - apply in_flat_map in Hr as (d & _ & Hr). destruct (dep_cst_wf o pr d) as [[_ D1] D2]. rewrite <- D2. auto.
Qed.

(** ** Scaling *)
Lemma qqdot_scale_l k u p : (qqdot (map (Qmult k) u) p == k * qqdot u p)%Q.
Proof. revert p. induction u as [|v u IH]; intros [|q p]; cbn [map qqdot]; try ring. rewrite IH. ring. Qed.
Lemma ordered_scale o pr d a c j u w : (1 <= a)%Q -> ordered o pr d (line a c j) (line a c j) u w ->
  ordered o pr d (line 1 0 j) (line 1 0 j) (map (Qmult (/ a)) u) (/ a * w).
Proof.
  intros A [H1 H2]. assert (0 < / a)%Q as I by (apply Qinv_lt_0_compat; lra). assert (/ a * a == 1)%Q as E by (field; lra).
  unfold line in *. split.
  - intros R s t p Ls Lt Lp M. specialize (H1 R s t p Ls Lt Lp M). assert (a * nth j s 0 <= a * nth j t 0)%Q as K by lra.
    apply Qmult_le_l in K; lra.
  - intros R s t p Ls Lt Lp M. specialize (H2 R s t p Ls Lt Lp M). rewrite qqdot_scale_l.
    assert (a * (nth j t 0 - nth j s 0) <= qqdot u p + w)%Q as K by lra.
    apply (Qmult_le_l _ _ (/ a) I) in K. setoid_replace (/ a * (a * (nth j t 0 - nth j s 0)))%Q with (nth j t 0 - nth j s 0)%Q in K by (field; lra). lra.
Qed.
Lemma bound_ok_scale pr a u w : (1 <= a)%Q -> bound_ok pr u w -> bound_ok pr (map (Qmult (/ a)) u) (/ a * w).
Proof.
  intros A (L & P & Q). assert (0 < / a)%Q as I by (apply Qinv_lt_0_compat; lra). split; [rewrite map_length; auto|]. split; [|nra].
  intros v Hv. apply in_map_iff in Hv as (v' & <- & Hv). specialize (P v' Hv). nra.
Qed.

Section Edges.
Variable feasible : cst -> bool.
Variables (o : options) (s : dstate).
Let pr := st_prog s.
Hypothesis EX : exact_lp feasible.
Hypothesis W : wf_prog pr.
Hypothesis PD : padded pr.
Hypothesis OF : orig_first pr.
Hypothesis NE : forall d, In d (p_deps pr) -> (exists x, qmem (d_poly d) x) /\ (exists x, qmem (d_bpoly d) x).

Lemma intra_counts k d : In d (intra_deps o pr k) <-> In d (p_deps pr) /\ counts o k k d.
Proof.
  unfold intra_deps, counts. rewrite filter_In, !andb_true_iff, !negb_true_iff, !Nat.eqb_eq. unfold Datatypes.negb.
  split.
  - intros (A & ((B & C) & D) & E). split; auto. split; auto. split; [auto|]. split; [auto|]. intros _ R. rewrite R in B. destruct (o_rar o); auto.
  - intros (A & B & C & D & E). assert (d_src d = k) by intuition. assert (d_dst d = k) by intuition. assert (d_src d = d_dst d) as Q by congruence. specialize (E Q).
    split; auto. split; auto. split; auto. split; auto. destruct (d_rar d); [rewrite E by auto; auto|]. apply andb_false_r.
Qed.
Lemma pair_counts k1 k2 d : k1 <> k2 ->
  In d (between_deps pr k1 k2 ++ intra_deps o pr k1 ++ intra_deps o pr k2) <-> In d (p_deps pr) /\ counts o k1 k2 d.
Proof.
  intros N. rewrite !in_app_iff, !intra_counts. unfold between_deps, counts. rewrite filter_In, andb_true_iff, negb_true_iff, orb_true_iff, !andb_true_iff, !Nat.eqb_eq.
  split.
  - intros [(H & H1 & [H2|H2])|[(H & H1 & H2)|(H & H1 & H2)]]; intuition congruence.
  - intros (H & H1 & [A|A] & [B|B] & H3); intuition congruence.
Qed.

Lemma self_edge j k col c : within o pr 1 -> is_loop pr k j -> coloured col c (vertex pr k j) = false ->
  self_cond feasible o pr col c k j = false <->
  exists u w, bound_ok pr u w /\ forall d, In d (p_deps pr) -> counts o k k d -> ordered o pr d (line 1 0 j) (line 1 0 j) u w.
Proof.
  intros WI Lk Hc. unfold self_cond. rewrite Hc. cbn [negb andb].
  pose proof (lp_meaning o pr W PD OF NE [k] (fun _ => j) false (intra_deps o pr k)) as M.
  specialize (M ltac:(discriminate)). specialize (M ltac:(intros ? [<-|[]]; auto)).
  specialize (M ltac:(intros d Hd; apply intra_counts in Hd as (H & _ & A & B & _); simpl; intuition)).
  cbn [map] in M. fold (intra_rows o pr k) in M.
  pose proof (EX (conflict_cst o pr [coef_col pr k j] [] (intra_rows o pr k)) (conflict_wf _ _ _ _ _)) as F.
  assert ((exists u w, bound_ok pr u w /\ forall d, In d (p_deps pr) -> counts o k k d -> ordered o pr d (line 1 0 j) (line 1 0 j) u w) <->
          exists x, qmem (conflict_cst o pr [coef_col pr k j] [] (intra_rows o pr k)) x) as K.
  { rewrite M. split.
    - intros (u & w & B & H). exists (fun _ => 1%Q), (fun _ => 0%Q), u, w. split; [|split; auto].
      + intros s' _. split; [lra|]. split; [exact WI|]. split; [lra|]. split; [|intros; lra]. unfold within in *. destruct (coeff_limit o pr); auto. lra.
      + intros d Hd. apply intra_counts in Hd as [H1 H2]. auto.
    - intros (a & c' & u & w & A & B & H). destruct (A k (or_introl eq_refl)) as (A1 & _). exists (map (Qmult (/ a k)) u), (/ a k * w)%Q.
      split; [apply bound_ok_scale; auto|]. intros d Hd C. apply (ordered_scale o pr d (a k) (c' k)); auto.
      assert (d_src d = k) as Es by (destruct C as (_ & [?|?] & _); auto). assert (d_dst d = k) as Ed by (destruct C as (_ & _ & [?|?] & _); auto).
      specialize (H d). rewrite Es, Ed in H. apply H. apply intra_counts. auto. }
  rewrite K, <- F. destruct (intra_deps o pr k) as [|d0 l] eqn:E; cbn [andb].
  - split; auto. intros _. apply F, K. exists (repeat 0%Q (p_npar pr)), 0%Q. split.
    + split; [apply repeat_length|]. split; [intros v Hv; apply repeat_spec in Hv as ->; lra|lra].
    + intros d Hd C. assert (In d []) as X by (rewrite <- E; apply intra_counts; auto). destruct X.
  - destruct (feasible _); cbn; intuition congruence.
Qed.

Lemma pair_edge k1 i k2 j : is_loop pr k1 i -> is_loop pr k2 j -> k1 <> k2 ->
  feasible (conflict_cst o pr [coef_col pr k1 i; coef_col pr k2 j] [coef_col pr k1 (p_nvar pr); coef_col pr k2 (p_nvar pr)] (pair_rows o pr k1 k2)) = true <->
  exists a1 c1 a2 c2 u w, (1 <= a1)%Q /\ within o pr a1 /\ (0 <= c1)%Q /\ within o pr c1 /\ (1 <= a2)%Q /\ within o pr a2 /\ (0 <= c2)%Q /\ within o pr c2 /\
    bound_ok pr u w /\
    let time k := if (k =? k1)%nat then line a1 c1 i else line a2 c2 j in
    forall d, In d (p_deps pr) -> counts o k1 k2 d -> ordered o pr d (time (d_src d)) (time (d_dst d)) u w.
Proof.
  intros L1 L2 N.
  set (lp := fun k => if (k =? k1)%nat then i else j).
  assert (lp k1 = i) as P1 by (unfold lp; rewrite Nat.eqb_refl; auto).
  assert (lp k2 = j) as P2 by (unfold lp; rewrite (proj2 (Nat.eqb_neq k2 k1)); auto).
  pose proof (lp_meaning o pr W PD OF NE [k1; k2] lp true (between_deps pr k1 k2 ++ intra_deps o pr k1 ++ intra_deps o pr k2)) as M.
  specialize (M ltac:(discriminate)).
  specialize (M ltac:(intros ? [<-|[<-|[]]]; rewrite ?P1, ?P2; auto)).
  specialize (M ltac:(intros d Hd; apply pair_counts in Hd as (H & _ & A & B & _); auto; simpl; intuition)).
  cbn [map] in M. rewrite P1, P2, !flat_map_app in M. fold (intra_rows o pr k1) (intra_rows o pr k2) in M. fold (pair_rows o pr k1 k2) in M.
  match goal with |- feasible ?c = true <-> _ => assert (wf_cst c) as WC end.
  2: rewrite (EX _ WC), M; clear WC.
  2:{ split.
    + intros (a & c & u & w & A & B & H). destruct (A k1 (or_introl eq_refl)) as (A1 & A2 & A3 & A4 & _).
      destruct (A k2 (or_intror (or_introl eq_refl))) as (B1 & B2 & B3 & B4 & _).
      exists (a k1), (c k1), (a k2), (c k2), u, w. repeat (split; [assumption|]). cbv zeta. intros d Hd C.
      pose proof C as (_ & S1 & S2 & _). specialize (H d ltac:(apply pair_counts; auto)).
      assert (forall k, k = k1 \/ k = k2 -> (if (k =? k1)%nat then line (a k1) (c k1) i else line (a k2) (c k2) j) = line (a k) (c k) (lp k)) as T.
      { intros k [->| ->]; unfold lp; [rewrite Nat.eqb_refl; auto|rewrite (proj2 (Nat.eqb_neq k2 k1)); auto]. }
      rewrite !T by auto. auto.
    + intros (a1 & c1 & a2 & c2 & u & w & A1 & A2 & A3 & A4 & B1 & B2 & B3 & B4 & B & H).
      exists (fun k => if (k =? k1)%nat then a1 else a2), (fun k => if (k =? k1)%nat then c1 else c2), u, w. split; [|split; auto].
      * intros k _. destruct (k =? k1)%nat; repeat (split; [assumption|]); discriminate.
      * intros d Hd. apply pair_counts in Hd as [Hd C]; auto. specialize (H d Hd C).
        assert (forall k, (if (k =? k1)%nat then line a1 c1 i else line a2 c2 j) =
          line (if (k =? k1)%nat then a1 else a2) (if (k =? k1)%nat then c1 else c2) (lp k)) as T.
        { intros k. unfold lp. destruct (k =? k1)%nat; auto. }
        cbv beta zeta in H. rewrite !T in H. exact H.
  }
  unfold pair_rows, intra_rows. rewrite <- !flat_map_app. apply conflict_wf.
Qed.
End Edges.

(** ** Adjacent statements are never in the must-distribute relation *)
Lemma adjacent_closure n g u v : wf_graph n g -> is_adjacent g u v = true -> is_adjacent (compute_transitive_closure n g) u v = true.
Proof.
  intros W. destruct (closure_same n g W) as (_ & A & _). unfold is_adjacent. rewrite !orb_true_iff, !negb_true_iff, !Z.eqb_neq.
  intros [H|H]; [left|right]; apply A; exact H.
Qed.

(** ** The update *)
Lemma fold_opt_total {A B} (F : A -> B -> option A) (f : A -> B -> A) l : (forall x a, In x l -> F a x = Some (f a x)) -> forall a, fold_opt F l a = Some (fold_left f l a).
Proof.
  induction l as [|x l IH]; intros H a; cbn; auto. rewrite H by (left; auto). apply IH. intros y b Hy. apply H. right; auto.
Qed.
Definition clear (o1 o2 n1 n2 : nat) (g : fcg) : fcg :=
  fold_left (fun g k => fold_left (fun g l => set_adj (set_adj g (o1 + k) (o2 + l) 0) (o2 + l) (o1 + k) 0) (seq 0 n2) g) (seq 0 n1) g.
Definition clear_T (pr : prog) (s1 s2 a b : nat) : bool :=
  existsb (fun k => existsb (fun l => ((a =? vertex pr s1 k)%nat && (b =? vertex pr s2 l)%nat) || ((a =? vertex pr s2 l)%nat && (b =? vertex pr s1 k)%nat))
    (seq 0 (s_dim_orig (stmt_of pr s2)))) (seq 0 (s_dim_orig (stmt_of pr s1))).
Lemma clear_marks pr s1 s2 : (s1 < length (p_stmts pr))%nat -> (s2 < length (p_stmts pr))%nat ->
  marks (num_vertices pr) (fun _ => True) 0
    (clear (vertex_offset pr s1) (vertex_offset pr s2) (s_dim_orig (stmt_of pr s1)) (s_dim_orig (stmt_of pr s2))) (clear_T pr s1 s2).
Proof.
  intros H1 H2. unfold clear, clear_T. apply marks_fold. intros k Hk. apply in_seq0 in Hk.
  apply (marks_fold _ _ _ (fun g l => set_adj (set_adj g (vertex_offset pr s1 + k) (vertex_offset pr s2 + l) 0) (vertex_offset pr s2 + l) (vertex_offset pr s1 + k) 0)).
  intros l Hl. apply in_seq0 in Hl.
  assert (is_loop pr s1 k) as L1 by (split; auto). assert (is_loop pr s2 l) as L2 by (split; auto).
  apply (marks_comp _ _ _ (fun g => set_adj g (vertex_offset pr s1 + k) (vertex_offset pr s2 + l) 0) (fun g => set_adj g (vertex_offset pr s2 + l) (vertex_offset pr s1 + k) 0));
    apply marks_set; auto; first [apply (vertex_lt _ _ _ L1)|apply (vertex_lt _ _ _ L2)].
Qed.
Lemma clear_T_vertex pr s1 s2 s i s' i' : (s1 < length (p_stmts pr))%nat -> (s2 < length (p_stmts pr))%nat -> is_loop pr s i -> is_loop pr s' i' ->
  clear_T pr s1 s2 (vertex pr s i) (vertex pr s' i') = ((s =? s1)%nat && (s' =? s2)%nat) || ((s =? s2)%nat && (s' =? s1)%nat).
Proof.
  intros H1 H2 L L'. apply eq_true_iff_eq. unfold clear_T. rewrite existsb_exists. split.
  - intros (k & Hk & H). apply existsb_exists in H as (l & Hl & H). apply in_seq0 in Hk, Hl. rewrite !vertex_eqb in H by (auto; split; auto).
    rewrite !orb_true_iff, !andb_true_iff in *. intuition.
  - destruct L as [A B], L' as [A' B'].
    rewrite orb_true_iff, !andb_true_iff, !Nat.eqb_eq. intros [[-> ->]|[-> ->]].
    + exists i. split; [apply in_seq0; auto|]. apply existsb_exists. exists i'. split; [apply in_seq0; auto|]. rewrite !Nat.eqb_refl. auto.
    + exists i'. split; [apply in_seq0; auto|]. apply existsb_exists. exists i. split; [apply in_seq0; auto|]. rewrite !Nat.eqb_refl. apply orb_true_r.
Qed.
Lemma stmt_fits pr k : (k < length (p_stmts pr))%nat -> (vertex_offset pr k + s_dim_orig (stmt_of pr k) <= num_vertices pr)%nat.
Proof.
  intros H. destruct (s_dim_orig (stmt_of pr k)) as [|m] eqn:E.
  - unfold num_vertices. pose proof (offset_le pr k (length (p_stmts pr)) ltac:(lia) ltac:(lia)). lia.
  - assert (is_loop pr k m) as L by (split; auto; lia). pose proof (vertex_lt pr k m L). unfold vertex in *. lia.
Qed.

(** One of the two is below [m], the other is not. *)
Definition apart (m a b : Z) : bool := ((m <=? a) && (b <? m)) || ((m <=? b) && (a <? m)).
Lemma apart_sym m a b : apart m a b = apart m b a.
Proof. unfold apart. apply orb_comm. Qed.
Lemma update_some fuse s g scc1 scc2 : fuse <> NoFuse -> wf_graph (num_vertices (st_prog s)) g ->
  exists g', update_fcg fuse s g scc1 scc2 = Some g' /\ wf_graph (num_vertices (st_prog s)) g' /\
  forall s1 i s2 j, is_loop (st_prog s) s1 i -> is_loop (st_prog s) s2 j ->
    adj g' (vertex (st_prog s) s1 i) (vertex (st_prog s) s2 j) =
    if apart (Z.of_nat scc2) (s_scc (stmt_of (st_prog s) s1)) (s_scc (stmt_of (st_prog s) s2)) then 0
    else adj g (vertex (st_prog s) s1 i) (vertex (st_prog s) s2 j).
Proof.
  intros NF Wg. set (pr := st_prog s) in *. set (n := length (p_stmts pr)). set (scc k := s_scc (stmt_of pr k)).
  assert (update_fcg fuse s g scc1 scc2 = if (n =? 1)%nat then Some g else
      fold_opt (fun g i => fold_opt (fun g j => if apart (Z.of_nat scc2) (scc i) (scc j)
              then clear_block (num_vertices pr) (vertex_offset pr i) (vertex_offset pr j) (s_dim_orig (stmt_of pr i)) (s_dim_orig (stmt_of pr j)) g else Some g)
            (seq 0 n) g) (seq 0 n) g) as ->.
  { unfold update_fcg, apart. fold pr n. destruct fuse; [contradiction| |]; reflexivity. }
  destruct (Nat.eqb_spec n 1) as [E1|E1].
  { exists g. split; auto. split; auto. intros s1 i s2 j [H1 _] [H2 _]. fold n in H1, H2. assert (s1 = s2) as -> by lia.
    unfold apart. destruct (Z.leb_spec (Z.of_nat scc2) (s_scc (stmt_of pr s2))), (Z.ltb_spec (s_scc (stmt_of pr s2)) (Z.of_nat scc2)); cbn; auto; lia. }
  set (f := fun i j g => clear (vertex_offset pr i) (vertex_offset pr j) (s_dim_orig (stmt_of pr i)) (s_dim_orig (stmt_of pr j)) g).
  assert (forall i j g, (i < n)%nat -> (j < n)%nat ->
    clear_block (num_vertices pr) (vertex_offset pr i) (vertex_offset pr j) (s_dim_orig (stmt_of pr i)) (s_dim_orig (stmt_of pr j)) g = Some (f i j g)) as CB.
  { intros i j h Hi Hj. unfold clear_block. rewrite (proj2 (Nat.leb_le _ _) (stmt_fits pr i Hi)), (proj2 (Nat.leb_le _ _) (stmt_fits pr j Hj)).
    cbn [andb]. rewrite orb_true_r. reflexivity. }
  set (F := fun g => fold_left (fun g i => fold_left (fun g j => if apart (Z.of_nat scc2) (scc i) (scc j) then f i j g else g) (seq 0 n) g) (seq 0 n) g).
  assert (marks (num_vertices pr) (fun _ => True) 0 F
    (fun a b => existsb (fun i => existsb (fun j => apart (Z.of_nat scc2) (scc i) (scc j) && clear_T pr i j a b) (seq 0 n)) (seq 0 n))) as M.
  { unfold F. apply marks_fold. intros i Hi. apply in_seq0 in Hi.
    apply (marks_fold _ _ _ (fun g j => if apart (Z.of_nat scc2) (scc i) (scc j) then f i j g else g)). intros j Hj. apply in_seq0 in Hj.
    apply marks_if. apply clear_marks; auto. }
  destruct (M g Wg Logic.I) as (WF & _ & A). exists (F g). split; [|split; auto].
  { unfold F. apply fold_opt_total. intros i h Hi. apply in_seq0 in Hi. apply fold_opt_total. intros j h' Hj. apply in_seq0 in Hj. destruct (apart _ _ _); auto. }
  intros s1 i s2 j L1 L2. rewrite A. fold (scc s1) (scc s2).
  match goal with |- (if ?b then _ else _) = (if ?c then _ else _) => assert (b = c) as ->; [|reflexivity] end.
  apply eq_true_iff_eq. rewrite existsb_exists. split.
  - intros (x & Hx & H). apply existsb_exists in H as (y & Hy & H). apply in_seq0 in Hx, Hy. rewrite clear_T_vertex in H by auto.
    rewrite andb_true_iff, orb_true_iff, !andb_true_iff, !Nat.eqb_eq in H. destruct H as (H & [[-> ->]|[-> ->]]); auto. rewrite apart_sym. auto.
  - intros H. exists s1. split; [apply in_seq0, L1|]. apply existsb_exists. exists s2. split; [apply in_seq0, L2|].
    rewrite H, clear_T_vertex, !Nat.eqb_refl by (auto; first [apply L1|apply L2]). reflexivity.
Qed.
