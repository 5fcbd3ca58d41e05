(** * Proofs about the automatic transformation driver: invariants and legality. *)
From Coq Require Import ZArith List Bool Arith Lia.
From Verif Require Import SpecLinear SpecMatrix VecProofs MathModel ConstraintsModel EditProofs FarkasProofs RankProofs MatrixProofs
  SpecGraph GraphModel GraphProofs GraphProofs2
  SpecProg SpecTile SpecLoop SpecDriver FrameworkModel FrameworkProofs SumProofs DepProofs LexProofs ProgModel ProgProofs DriverModel HypProofs KeepProofs.
Import ListNotations.
Open Scope Z_scope.

(** ** Programs that differ in schedules and flags only *)

Definition same_stmt (a b : stmt) : Prop :=
  s_dim b = s_dim a /\ s_dim_orig b = s_dim_orig a /\ s_orig b = s_orig a /\ s_domain b = s_domain a /\
  s_reads b = s_reads a /\ s_writes b = s_writes a.
Definition frame (a b : prog) : Prop :=
  p_nvar b = p_nvar a /\ p_npar b = p_npar a /\ length (p_stmts b) = length (p_stmts a) /\
  (forall s, same_stmt (stmt_of a s) (stmt_of b s)) /\ Forall2 same_dep (p_deps a) (p_deps b).

Lemma same_stmt_refl a : same_stmt a a.
Proof. unfold same_stmt; auto 10. Qed.
Lemma same_stmt_trans a b c : same_stmt a b -> same_stmt b c -> same_stmt a c.
Proof. unfold same_stmt. intuition congruence. Qed.
Lemma same_dep_refl d : same_dep d d.
Proof. unfold same_dep; auto. Qed.
Lemma Forall2_same_refl l : Forall2 same_dep l l.
Proof. induction l; constructor; auto using same_dep_refl. Qed.
Lemma Forall2_same_trans a b c : Forall2 same_dep a b -> Forall2 same_dep b c -> Forall2 same_dep a c.
Proof.
  intros H. revert c. induction H; intros c Hc; inversion Hc; subst; constructor; eauto using same_dep_trans.
Qed.
Lemma Forall2_same_map f l : (forall d, same_dep d (f d)) -> Forall2 same_dep l (map f l).
Proof. intros H. induction l; cbn; constructor; auto. Qed.
Lemma frame_refl a : frame a a.
Proof. split; auto. split; auto. split; auto. split. intros; apply same_stmt_refl. apply Forall2_same_refl. Qed.
Lemma frame_trans a b c : frame a b -> frame b c -> frame a c.
Proof.
  intros (A1 & A2 & A3 & A4 & A5) (B1 & B2 & B3 & B4 & B5).
  split; [congruence|]. split; [congruence|]. split; [congruence|]. split.
  - intros s. eapply same_stmt_trans; eauto.
  - eapply Forall2_same_trans; eauto.
Qed.

Lemma Forall2_in_r {A B} (R : A -> B -> Prop) l l' y : Forall2 R l l' -> In y l' -> exists x, In x l /\ R x y.
Proof. intros H. induction H; intros [ ]; subst; [exists x; simpl; auto|]. destruct IHForall2 as (z & Hz & Rz); auto. exists z. simpl; auto. Qed.
Lemma Forall2_in_l {A B} (R : A -> B -> Prop) l l' x : Forall2 R l l' -> In x l -> exists y, In y l' /\ R x y.
Proof. intros H. induction H; intros [ ]; subst; [exists y; simpl; auto|]. destruct IHForall2 as (z & Hz & Rz); auto. exists z. simpl; auto. Qed.

Lemma frame_instance a b d d' s t p : frame a b -> same_dep d d' -> instance b d' s t p <-> instance a d s t p.
Proof.
  intros (A1 & A2 & A3 & A4 & A5) (D1 & D2 & D3 & D4 & D5). unfold instance. rewrite D1, D2, D4, A2.
  destruct (A4 (d_src d)) as (-> & _). destruct (A4 (d_dst d)) as (-> & _). tauto.
Qed.

Lemma frame_wf_dep a b d d' : frame a b -> same_dep d d' -> wf_dep a d -> wf_dep b d'.
Proof.
  intros (A1 & A2 & A3 & A4 & A5) (D1 & D2 & D3 & D4 & D5). unfold wf_dep. rewrite D1, D2, D4, D5, A2, A3.
  destruct (A4 (d_src d)) as (-> & _). destruct (A4 (d_dst d)) as (-> & _). tauto.
Qed.

Lemma frame_deps_wf a b : frame a b -> (forall d, In d (p_deps a) -> wf_dep a d) -> forall d, In d (p_deps b) -> wf_dep b d.
Proof. intros F W d Hd. destruct (Forall2_in_r _ _ _ d (proj2 (proj2 (proj2 (proj2 F)))) Hd) as (d0 & H0 & S). eapply frame_wf_dep; eauto. Qed.

Lemma in_stmt_of pr st : In st (p_stmts pr) -> exists s, (s < length (p_stmts pr))%nat /\ stmt_of pr s = st.
Proof. intros H. apply (In_nth _ _ dummy_stmt) in H as (s & A & B). exists s. auto. Qed.

Lemma frame_padded a b : frame a b -> padded a -> padded b.
Proof.
  intros (A1 & A2 & A3 & A4 & A5) P st H. apply in_stmt_of in H as (s & Hs & <-). destruct (A4 s) as (-> & _). rewrite A1.
  apply P. apply stmt_of_in. lia.
Qed.
Lemma frame_orig_first a b : frame a b -> orig_first a -> orig_first b.
Proof.
  intros (A1 & A2 & A3 & A4 & A5) P st H. apply in_stmt_of in H as (s & Hs & <-). destruct (A4 s) as (_ & -> & -> & _). rewrite A1.
  apply P. apply stmt_of_in. lia.
Qed.

(** ** Appending a level *)

Lemma insert_at_end {A} (x : A) l n : n = length l -> insert_at n x l = l ++ [x].
Proof. intros ->. induction l; cbn; auto. f_equal. auto. Qed.

Lemma map_nth_end {A} n (f : A -> A) l x : n = length l -> map_nth n f (l ++ [x]) = l ++ [f x].
Proof. intros ->. rewrite <- (map_nth_last f l x). f_equal. rewrite app_length. cbn. lia. Qed.

Lemma append_row_rows st ht r : mrows (s_trans (append_row st ht r)) = mrows (s_trans st) ++ [r].
Proof.
  unfold append_row. cbn [s_trans set_trans mrows stmt_add_hyperplane matrix_add_row].
  rewrite insert_at_end by reflexivity. rewrite map_nth_end by reflexivity. auto.
Qed.
Lemma append_row_ncols st ht r : mncols (s_trans (append_row st ht r)) = mncols (s_trans st).
Proof. reflexivity. Qed.
Lemma append_row_hyp st ht r : length (s_hyp st) = mnrows (s_trans st) -> s_hyp (append_row st ht r) = s_hyp st ++ [ht].
Proof. intros H. unfold append_row. cbn. apply insert_at_end. auto. Qed.
Lemma append_row_same st ht r : same_stmt st (append_row st ht r).
Proof. unfold same_stmt; cbn; auto 10. Qed.

Definition app_level (pr : prog) (h : hyptype) (ht : nat -> hyptype) (row : nat -> list Z) : prog :=
  mkProg (p_nvar pr) (p_npar pr)
    (map (fun s => append_row (stmt_of pr s) (ht s) (row s)) (seq 0 (length (p_stmts pr)))) (p_deps pr) (p_hprops pr ++ [h]).

Lemma app_level_stmt pr h ht row s : (s < length (p_stmts pr))%nat ->
  stmt_of (app_level pr h ht row) s = append_row (stmt_of pr s) (ht s) (row s).
Proof. intros H. unfold stmt_of at 1. cbn [p_stmts app_level]. rewrite nth_map_seq; auto. Qed.
Lemma app_level_nstmts pr h ht row : length (p_stmts (app_level pr h ht row)) = length (p_stmts pr).
Proof. cbn. rewrite map_length, seq_length. auto. Qed.

Lemma app_level_frame pr h ht row : frame pr (app_level pr h ht row).
Proof.
  split; [reflexivity|]. split; [reflexivity|]. split; [apply app_level_nstmts|]. split; [|apply Forall2_same_refl].
  intros s. destruct (le_lt_dec (length (p_stmts pr)) s) as [L|L].
  - unfold stmt_of. rewrite !nth_overflow; auto. apply same_stmt_refl. cbn. rewrite map_length, seq_length. auto.
  - rewrite app_level_stmt by auto. apply append_row_same.
Qed.

Lemma app_level_wf pr h ht row : wf_prog pr ->
  (forall s, (s < length (p_stmts pr))%nat -> length (row s) = (s_dim (stmt_of pr s) + p_npar pr + 1)%nat) ->
  wf_prog (app_level pr h ht row).
Proof.
  intros [W1 W2] L. split.
  - intros st H. apply in_stmt_of in H as (s & Hs & <-). rewrite app_level_nstmts in Hs. rewrite app_level_stmt by auto.
    destruct (W1 _ (stmt_of_in pr s Hs)) as (A1 & A2 & A3 & A4 & A5 & A6 & A7 & A8).
    split; [exact A1|]. split; [exact A2|]. split; [|split; [|split; [|split; [exact A6|split; [exact A7|exact A8]]]]].
    + intros r Hr. rewrite append_row_rows in Hr. rewrite append_row_ncols. apply in_app_or in Hr as [Hr|[<-|[]]]; auto. rewrite A2. auto.
    + unfold mnrows. rewrite append_row_rows, app_length. cbn. rewrite app_length. cbn. unfold mnrows in A4. lia.
    + rewrite append_row_hyp by lia. rewrite app_length. cbn. rewrite app_length. cbn. lia.
  - exact (frame_deps_wf _ _ (app_level_frame pr h ht row) W2).
Qed.

Lemma append_timestamp st ht r i p : timestamp (append_row st ht r) i p = timestamp st i p ++ [aff r (i ++ p)].
Proof. unfold timestamp. rewrite append_row_rows, map_app. auto. Qed.
Lemma append_theta_old st ht r k i p : (k < mnrows (s_trans st))%nat -> theta (append_row st ht r) k i p = theta st k i p.
Proof. intros H. unfold theta. rewrite append_row_rows, app_nth1; auto. Qed.
Lemma append_theta_new st ht r i p : theta (append_row st ht r) (mnrows (s_trans st)) i p = aff r (i ++ p).
Proof. unfold theta, mnrows. rewrite append_row_rows, app_nth2, Nat.sub_diag; auto. Qed.

(** Weakly satisfied by all levels. *)
Definition weak_all (pr : prog) (d : dep) : Prop := forall k, (k < length (p_hprops pr))%nat -> weak_at pr d k.

Lemma wf_nrows pr s : wf_prog pr -> (s < length (p_stmts pr))%nat -> mnrows (s_trans (stmt_of pr s)) = length (p_hprops pr).
Proof. intros [W _] Hs. apply (W _ (stmt_of_in pr s Hs)). Qed.

Lemma timestamp_nth st i p k : nth k (timestamp st i p) 0 = if (k <? mnrows (s_trans st))%nat then theta st k i p else 0.
Proof.
  unfold timestamp, theta, mnrows. destruct (Nat.ltb_spec k (length (mrows (s_trans st)))).
  - rewrite (nth_indep _ 0 (aff [] (i ++ p))) by (rewrite map_length; auto). rewrite (List.map_nth (fun r => aff r (i ++ p))). auto.
  - apply nth_overflow. rewrite map_length. auto.
Qed.

(** An instance with no negative and some positive distance is ordered. *)
Lemma weak_pos_lexlt pr d s t p : wf_prog pr -> wf_dep pr d ->
  (forall k, (k < length (p_hprops pr))%nat -> 0 <= distance pr d k s t p) ->
  (exists k, (k < length (p_hprops pr))%nat /\ 0 < distance pr d k s t p) ->
  lexlt (timestamp (stmt_of pr (d_src d)) s p) (timestamp (stmt_of pr (d_dst d)) t p).
Proof.
  intros W (D1 & D2 & _) Hw (k & Hk & Hp).
  pose proof (wf_nrows pr _ W D1) as N1. pose proof (wf_nrows pr _ W D2) as N2.
  apply lexlt_pos. rewrite !timestamp_length. lia.
  assert (forall j, (j < length (p_hprops pr))%nat ->
    nth j (zip_with Z.sub (timestamp (stmt_of pr (d_dst d)) t p) (timestamp (stmt_of pr (d_src d)) s p)) 0 = distance pr d j s t p) as E.
  { intros j Hj. rewrite zip_with_nth by (rewrite ?timestamp_length; lia). rewrite !timestamp_nth, N1, N2.
    destruct (Nat.ltb_spec j (length (p_hprops pr))); [reflexivity|lia]. }
  assert (length (zip_with Z.sub (timestamp (stmt_of pr (d_dst d)) t p) (timestamp (stmt_of pr (d_src d)) s p)) = length (p_hprops pr)) as L.
  { rewrite zip_with_len; rewrite !timestamp_length; lia. }
  apply lexpos_nonneg.
  - intros x Hx. apply (In_nth _ _ 0) in Hx as (j & Hj & <-). rewrite E by lia. apply Hw. lia.
  - intros Z0. specialize (E k Hk). rewrite (Z0 (nth k _ 0)) in E; [lia|]. apply nth_In. lia.
Qed.

Section AppLevel.
Variables (pr : prog) (h : hyptype) (ht : nat -> hyptype) (row : nat -> list Z).
Hypothesis W : wf_prog pr.
Let q := app_level pr h ht row.

Lemma app_respected d : wf_dep pr d -> respected pr d -> respected q d.
Proof.
  intros (D1 & D2 & D) R s t p I. apply (frame_instance pr q d d) in I; [|apply app_level_frame|apply same_dep_refl].
  unfold q. rewrite !app_level_stmt by auto. rewrite !append_timestamp. apply lexlt_app.
  - rewrite !timestamp_length, !wf_nrows; auto.
  - left. apply R. auto.
Qed.

Lemma app_distance_old d k s t p : wf_dep pr d -> (k < length (p_hprops pr))%nat -> distance q d k s t p = distance pr d k s t p.
Proof.
  intros (D1 & D2 & D) Hk. unfold distance, q. rewrite !app_level_stmt by auto. rewrite !append_theta_old; auto; rewrite wf_nrows; auto.
Qed.
Lemma app_distance_new d s t p : wf_dep pr d ->
  distance q d (length (p_hprops pr)) s t p = aff (row (d_dst d)) (t ++ p) - aff (row (d_src d)) (s ++ p).
Proof.
  intros (D1 & D2 & D). unfold distance, q. rewrite !app_level_stmt by auto.
  rewrite <- (wf_nrows pr (d_dst d)) at 1 by auto. rewrite <- (wf_nrows pr (d_src d)) by auto. rewrite !append_theta_new. auto.
Qed.

Lemma app_weak_all d : wf_dep pr d -> weak_all pr d ->
  (forall s t p, instance pr d s t p -> aff (row (d_src d)) (s ++ p) <= aff (row (d_dst d)) (t ++ p)) -> weak_all q d.
Proof.
  intros WD Hw H k Hk s t p I. apply (frame_instance pr q d d) in I; [|apply app_level_frame|apply same_dep_refl].
  unfold q in Hk. cbn in Hk. rewrite app_length in Hk. cbn in Hk.
  destruct (Nat.eq_dec k (length (p_hprops pr))) as [->|N].
  - rewrite app_distance_new by auto. specialize (H s t p I). lia.
  - rewrite app_distance_old by (auto; lia). apply Hw; auto. lia.
Qed.
End AppLevel.

(** ** What a search mode guarantees for a dependence that counts as satisfied *)

Definition ord (md : search_mode) (pr : prog) (d : dep) : Prop :=
  match md with EAGER => exists L, ordered_at pr d L | LAZY => respected pr d end.

(** Only the first pair of different distances matters. *)
Lemma ordered_at_respected pr d L : wf_prog pr -> wf_dep pr d -> ordered_at pr d L -> respected pr d.
Proof.
  intros W (D1 & D2 & _) (HL & Hs & Hw) s t p I.
  pose proof (wf_nrows pr _ W D1) as N1. pose proof (wf_nrows pr _ W D2) as N2.
  apply lexlt_pos. rewrite !timestamp_length. lia.
  set (v := zip_with Z.sub (timestamp (stmt_of pr (d_dst d)) t p) (timestamp (stmt_of pr (d_src d)) s p)).
  assert (length v = length (p_hprops pr)) as Lv by (unfold v; rewrite zip_with_len; rewrite !timestamp_length; lia).
  assert (forall j, (j < length (p_hprops pr))%nat -> nth j v 0 = distance pr d j s t p) as E.
  { intros j Hj. unfold v. rewrite zip_with_nth by (rewrite ?timestamp_length; lia). rewrite !timestamp_nth, N1, N2.
    destruct (Nat.ltb_spec j (length (p_hprops pr))); [reflexivity|lia]. }
  assert (forall j, (j < L)%nat -> 0 <= nth j v 0) as A by (intros j Hj; rewrite E by lia; apply Hw; auto).
  assert (0 < nth L v 0) as B by (rewrite E by lia; apply Hs; auto).
  fold v. clearbody v. clear - A B. revert v A B. induction L as [|L IH]; intros [|x v] A B; cbn [nth] in B; try lia.
  - left. auto.
  - pose proof (A 0%nat ltac:(lia)) as A0. cbn [nth] in A0. destruct (Z.eq_dec x 0) as [->|N]; [right|left; lia].
    split; auto. apply IH; auto. intros j Hj. apply (A (S j)). lia.
Qed.

Lemma ord_respected md pr d : wf_prog pr -> wf_dep pr d -> ord md pr d -> respected pr d.
Proof. intros W D. destruct md; cbn; auto. intros [L H]. eapply ordered_at_respected; eauto. Qed.

(** ** The invariant *)

Definition scc_of (pr : prog) (s : nat) : Z := s_scc (stmt_of pr s).

Section Mode.
Variable md : search_mode.

Definition dep_inv (s : dstate) (d : dep) : Prop :=
  let pr := st_prog s in
  (d_sat d = true -> ord md pr d) /\
  (ord md pr d \/ (weak_all pr d /\ edge (st_adj s) (d_src d) (d_dst d) /\ scc_of pr (d_src d) <= scc_of pr (d_dst d))).

Record inv (s : dstate) : Prop := {
  i_wf : wf_prog (st_prog s);
  i_pad : padded (st_prog s);
  i_orig : orig_first (st_prog s);
  i_graph : wf_graph (length (p_stmts (st_prog s))) (st_adj s);
  i_scc : forall u, (u < length (p_stmts (st_prog s)))%nat -> 0 <= scc_of (st_prog s) u < Z.of_nat (st_num s);
  i_max : length (st_max s) = st_num s;
  i_dep : forall d, In d (p_deps (st_prog s)) -> d_rar d = false -> dep_inv s d }.

Lemma app_ord pr h ht row d : wf_prog pr -> wf_dep pr d -> ord md pr d -> ord md (app_level pr h ht row) d.
Proof.
  intros W D. destruct md; cbn [ord]; [|apply app_respected; auto].
  intros (L & HL & Hs & Hw). exists L. split; [cbn; rewrite app_length; lia|].
  pose proof (app_level_frame pr h ht row) as F. split.
  - intros s t p I. apply (frame_instance pr _ d d _ _ _ F (same_dep_refl d)) in I. rewrite app_distance_old by auto. apply Hs; auto.
  - intros j Hj s t p I. apply (frame_instance pr _ d d _ _ _ F (same_dep_refl d)) in I. rewrite app_distance_old by (auto; lia). apply Hw; auto.
Qed.

(** A level may be appended if it is non-negative for the dependences not yet
    respected. *)
Lemma inv_app pr a n m h ht row : inv (mkState pr a n m) ->
  (forall s, (s < length (p_stmts pr))%nat -> length (row s) = (s_dim (stmt_of pr s) + p_npar pr + 1)%nat) ->
  (forall d, In d (p_deps pr) -> d_rar d = false -> ord md pr d \/
     forall s t p, instance pr d s t p -> aff (row (d_src d)) (s ++ p) <= aff (row (d_dst d)) (t ++ p)) ->
  inv (mkState (app_level pr h ht row) a n m).
Proof.
  intros I L H. pose proof (app_level_frame pr h ht row) as F. destruct I as [I1 I2 I3 I4 I5 I6 I7]. cbn [st_prog st_adj st_num st_max] in *.
  constructor; cbn [st_prog st_adj st_num st_max]; rewrite ?app_level_nstmts; auto.
  - apply app_level_wf; auto.
  - eapply frame_padded; eauto.
  - eapply frame_orig_first; eauto.
  - intros u Hu. unfold scc_of. rewrite app_level_stmt by auto. apply I5; auto.
  - intros d Hd Hr. cbn [p_deps app_level] in Hd. destruct (I7 d Hd Hr) as [S D]. cbn [st_prog st_adj] in *.
    assert (wf_dep pr d) as WD by (apply I1; auto). split; cbn [st_prog st_adj].
    + intros Sa. apply app_ord; auto.
    + destruct D as [R|(Wk & E & C)]; [left; apply app_ord; auto|].
      destruct (H d Hd Hr) as [R|Q]; [left; apply app_ord; auto|]. right. split; [|split; auto].
      * apply app_weak_all; auto.
      * destruct WD as (D1 & D2 & _). unfold scc_of. rewrite !app_level_stmt by auto. exact C.
Qed.

(** Flags may change as long as set flags are right. *)
Lemma respected_same pr d d' : same_dep d d' -> respected pr d' <-> respected pr d.
Proof.
  intros S. pose proof S as (D1 & D2 & _). unfold respected. split; intros R s t p I.
  - rewrite <- D1, <- D2. apply R. apply (same_dep_instance pr d d'); auto.
  - rewrite D1, D2. apply R. apply (same_dep_instance pr d d'); auto.
Qed.
Lemma ordered_same pr d d' L : same_dep d d' -> ordered_at pr d' L <-> ordered_at pr d L.
Proof.
  intros S. pose proof S as (D1 & D2 & _). unfold ordered_at, strict_at, weak_at, distance. rewrite D1, D2.
  split; intros (A & B & C); (split; [exact A|]); (split; [intros s t p I; apply B|intros j Hj s t p I; apply (C j Hj)]);
    apply (same_dep_instance pr d d'); auto.
Qed.
Lemma ord_same pr d d' : same_dep d d' -> ord md pr d' <-> ord md pr d.
Proof.
  intros S. destruct md; cbn; [|apply respected_same; auto].
  split; intros [L H]; exists L; apply (ordered_same pr d d' L S); auto.
Qed.
Lemma ord_set pr l d : ord md (set_deps pr l) d <-> ord md pr d.
Proof. destruct md; reflexivity. Qed.
Lemma weak_all_same pr d d' : same_dep d d' -> weak_all pr d' <-> weak_all pr d.
Proof. intros S. unfold weak_all. split; intros H k Hk; apply (same_dep_weak pr d d' k S); auto. Qed.

Lemma set_deps_frame pr f : (forall d, same_dep d (f d)) -> frame pr (set_deps pr (map f (p_deps pr))).
Proof.
  intros H. split; auto. split; auto. split; auto. split. intros s; apply same_stmt_refl. apply Forall2_same_map. auto.
Qed.

Lemma inv_flags pr a n m f : inv (mkState pr a n m) -> (forall d, same_dep d (f d)) ->
  (forall d, In d (p_deps pr) -> d_rar d = false -> d_sat (f d) = true -> ord md pr d) ->
  inv (mkState (set_deps pr (map f (p_deps pr))) a n m).
Proof.
  intros I S H. pose proof (set_deps_frame pr f S) as F. destruct I as [I1 I2 I3 I4 I5 I6 I7]. cbn [st_prog st_adj st_num st_max] in *.
  constructor; cbn [st_prog st_adj st_num st_max]; auto.
  - apply set_deps_wf; auto. intros d' Hd. apply in_map_iff in Hd as (d & <- & Hd). eauto.
  - intros d' Hd Hr. cbn [p_deps set_deps] in Hd. apply in_map_iff in Hd as (d & <- & Hd).
    pose proof (S d) as SD. pose proof SD as (D1 & D2 & D3 & _). rewrite D3 in Hr.
    destruct (I7 d Hd Hr) as [A B]. cbn [st_prog st_adj] in *. split; cbn [st_prog st_adj].
    + intros Sa. rewrite ord_set, ord_same by eauto. apply H; auto.
    + destruct B as [R|(Wk & E & C)].
      * left. rewrite ord_set, ord_same by eauto. auto.
      * right. split; [|rewrite D1, D2; split; auto].
        intros k Hk. change (weak_at pr (f d) k). apply (same_dep_weak pr d (f d)); auto.
Qed.

(** Recomputing the graph. *)
Lemma inv_ddg_update s : inv s -> inv (ddg_update s).
Proof.
  intros I. destruct I as [I1 I2 I3 I4 I5 I6 I7]. destruct s as [pr a n m]. cbn [st_prog st_adj st_num st_max] in *.
  assert (ddeps_ok (length (p_stmts pr)) (map to_ddep (p_deps pr))) as OK.
  { intros dd Hd. apply in_map_iff in Hd as (d & <- & Hd). destruct (proj2 I1 d Hd) as (A & B & _). cbn. auto. }
  constructor; cbn [st_prog st_adj st_num st_max ddg_update]; auto.
  - apply ddg_create_count. auto.
  - intros d Hd Hr. destruct (I7 d Hd Hr) as [A B]. cbn [st_prog st_adj] in *. split; auto. cbn [st_prog st_adj].
    destruct (d_sat d) eqn:Sa; [left; auto|]. destruct B as [B|(B1 & B2 & B3)]; [left; auto|right]. split; auto. split; auto.
    unfold graph_of. apply ddg_create_edge; auto. exists (to_ddep d). split. apply in_map; auto. cbn. auto.
Qed.

(** Recomputing the components. *)
Lemma compute_scc_prog s : exists f, st_prog (compute_scc s) =
  set_stmts (st_prog s) (map (fun i => set_scc (stmt_of (st_prog s) i) (f i)) (seq 0 (length (p_stmts (st_prog s))))).
Proof.
  unfold compute_scc. destruct (GraphModel.ddg_compute_scc _ _ _ _) as [scc num]. cbn. exists (fun i => nth i scc 0). auto.
Qed.

Definition with_scc (pr : prog) (f : nat -> Z) : prog :=
  set_stmts pr (map (fun i => set_scc (stmt_of pr i) (f i)) (seq 0 (length (p_stmts pr)))).
Lemma with_scc_stmt pr f s : (s < length (p_stmts pr))%nat -> stmt_of (with_scc pr f) s = set_scc (stmt_of pr s) (f s).
Proof. intros H. unfold stmt_of at 1, with_scc. cbn. rewrite nth_map_seq; auto. Qed.
Lemma with_scc_nstmts pr f : length (p_stmts (with_scc pr f)) = length (p_stmts pr).
Proof. cbn. rewrite map_length, seq_length. auto. Qed.
Lemma with_scc_frame pr f : frame pr (with_scc pr f).
Proof.
  split; [reflexivity|]. split; [reflexivity|]. split; [apply with_scc_nstmts|]. split; [|apply Forall2_same_refl].
  intros s. destruct (le_lt_dec (length (p_stmts pr)) s) as [L|L].
  - unfold stmt_of. rewrite !nth_overflow; auto. apply same_stmt_refl. cbn. rewrite map_length, seq_length. auto.
  - rewrite with_scc_stmt by auto. unfold same_stmt; cbn; auto 10.
Qed.
Lemma with_scc_wf pr f : wf_prog pr -> wf_prog (with_scc pr f).
Proof.
  intros [W1 W2]. split.
  - intros st H. apply in_stmt_of in H as (s & Hs & <-). rewrite with_scc_nstmts in Hs. rewrite with_scc_stmt by auto.
    exact (W1 _ (stmt_of_in pr s Hs)).
  - exact (frame_deps_wf _ _ (with_scc_frame pr f) W2).
Qed.
Lemma with_scc_trans pr f s : s_trans (stmt_of (with_scc pr f) s) = s_trans (stmt_of pr s).
Proof.
  destruct (le_lt_dec (length (p_stmts pr)) s) as [L|L].
  - unfold stmt_of. rewrite !nth_overflow; auto. cbn. rewrite map_length, seq_length. auto.
  - rewrite with_scc_stmt by auto. auto.
Qed.

(** Same schedules, same instances. *)
Lemma respected_frame a b d d' : frame a b -> (forall s, s_trans (stmt_of b s) = s_trans (stmt_of a s)) -> same_dep d d' ->
  respected a d <-> respected b d'.
Proof.
  intros F T S. pose proof S as (D1 & D2 & _). unfold respected, timestamp. rewrite D1, D2, !T. split; intros R s t p I; apply R.
  - apply (frame_instance a b d d'); auto.
  - apply (frame_instance a b d d'); auto.
Qed.
Lemma ord_frame a b d d' : frame a b -> (forall s, s_trans (stmt_of b s) = s_trans (stmt_of a s)) -> p_hprops b = p_hprops a -> same_dep d d' ->
  ord md a d <-> ord md b d'.
Proof.
  intros F T HP S. destruct md; cbn [ord]; [|apply respected_frame; auto].
  pose proof S as (D1 & D2 & _). unfold ordered_at, strict_at, weak_at, distance, theta. rewrite HP, D1, D2.
  split; intros (L & A & B & C); exists L; (split; [exact A|]); (split; [intros s t p I|intros j Hj s t p I]);
    rewrite ?T in *; first [apply B|apply (C j Hj)]; apply (frame_instance a b d d'); auto.
Qed.
Lemma weak_all_frame a b d d' : frame a b -> (forall s, s_trans (stmt_of b s) = s_trans (stmt_of a s)) -> p_hprops b = p_hprops a -> same_dep d d' ->
  weak_all a d <-> weak_all b d'.
Proof.
  intros F T HP S. pose proof S as (D1 & D2 & _). unfold weak_all, weak_at, distance, theta. rewrite HP, D1, D2, !T.
  split; intros R k Hk s t p I; apply R; auto; apply (frame_instance a b d d'); auto.
Qed.

Lemma inv_compute_scc s : inv s -> inv (compute_scc s) /\ frame (st_prog s) (st_prog (compute_scc s)).
Proof.
  intros I. destruct I as [I1 I2 I3 I4 I5 I6 I7]. destruct s as [pr a n m]. cbn [st_prog st_adj st_num st_max] in *.
  unfold compute_scc. cbn [st_prog st_adj].
  pose proof (scc_correct (length (p_stmts pr)) a (repeat 0%nat (length (p_stmts pr))) (repeat 0 (length (p_stmts pr))) I4 (repeat_length _ _)) as C.
  destruct (GraphModel.ddg_compute_scc _ _ _ _) as [scc num]. destruct C as (C1 & C2 & _ & _ & C5).
  fold (with_scc pr (fun i => nth i scc 0)). set (q := with_scc pr (fun i => nth i scc 0)).
  pose proof (with_scc_frame pr (fun i => nth i scc 0)) as F. fold q in F.
  split; [|exact F]. constructor; cbn [st_prog st_adj st_num st_max].
  - apply with_scc_wf; auto.
  - eapply frame_padded; eauto.
  - eapply frame_orig_first; eauto.
  - unfold q. rewrite with_scc_nstmts. auto.
  - intros u Hu. unfold q in *. rewrite with_scc_nstmts in Hu. unfold scc_of. rewrite with_scc_stmt by auto. cbn. auto.
  - rewrite map_length, seq_length. auto.
  - intros d Hd Hr. destruct (I7 d Hd Hr) as [A B]. cbn [st_prog st_adj] in *.
    assert (forall s, s_trans (stmt_of q s) = s_trans (stmt_of pr s)) as T by apply with_scc_trans.
    assert (wf_dep pr d) as (D1 & D2 & _) by (apply I1; auto).
    split; cbn [st_prog st_adj].
    + intros Sa. apply (ord_frame pr q d d); auto using same_dep_refl.
    + destruct B as [R|(Wk & E & C)]; [left; apply (ord_frame pr q d d); auto using same_dep_refl|].
      right. split; [apply (weak_all_frame pr q d d); auto using same_dep_refl|]. split; auto.
      unfold scc_of, q. rewrite !with_scc_stmt by auto. cbn. apply C5. auto.
Qed.

(** ** Satisfaction updates *)

Section Sat.
Variable is_emptyb : cst -> bool.
Hypothesis EX : exact_empty is_emptyb.

Lemma update_dep_right pr a n m k d : inv (mkState pr a n m) -> (k < length (p_hprops pr))%nat ->
  In d (p_deps pr) -> d_rar d = false -> d_sat (update_dep is_emptyb pr k d) = true -> ord md pr d.
Proof.
  intros I Hk Hd Hr Hs. destruct (i_dep _ I d Hd Hr) as [A B]. cbn [st_prog st_adj] in *.
  pose proof (i_wf _ I) as W. cbn [st_prog] in W. assert (wf_dep pr d) as WD by (apply W; auto).
  destruct B as [R|(Wk & _)]; auto. unfold update_dep in Hs. destruct (d_sat d) eqn:Sa; auto.
  destruct (dep_satisfaction_test is_emptyb pr d k) eqn:T; [|congruence].
  apply (sat_test_spec is_emptyb EX pr d W WD k Hk) in T.
  assert (ordered_at pr d k) as O by (split; auto; split; auto; intros j Hj; apply Wk; lia).
  destruct md; cbn [ord]; [exists k; auto|]. eapply ordered_at_respected; eauto.
Qed.

Lemma inv_update pr a n m k : inv (mkState pr a n m) -> (k < length (p_hprops pr))%nat ->
  inv (mkState (fst (dep_satisfaction_update is_emptyb pr k)) a n m) /\
  frame pr (fst (dep_satisfaction_update is_emptyb pr k)).
Proof.
  intros I Hk. split.
  - apply inv_flags; auto. intros d; apply update_same. intros d Hd Hr Hs. eapply update_dep_right; eauto.
  - apply set_deps_frame. intros d; apply update_same.
Qed.

Lemma precise_same pr d : same_dep d (precise_dep is_emptyb pr d).
Proof.
  unfold precise_dep. destruct (precise_loop _ _ _ _ _ _ _) as [[sv sl] sat]. unfold same_dep; cbn; auto.
Qed.

Lemma inv_precise pr a n m : md = LAZY -> inv (mkState pr a n m) ->
  inv (mkState (compute_dep_satisfaction_precise is_emptyb pr) a n m) /\ frame pr (compute_dep_satisfaction_precise is_emptyb pr).
Proof.
  intros LZ I. split; [|apply set_deps_frame; intros; apply precise_same].
  apply inv_flags; auto. intros; apply precise_same. intros d Hd Hr Hs.
  destruct (i_dep _ I d Hd Hr) as [A B]. cbn [st_prog st_adj] in *.
  pose proof (i_wf _ I) as W. cbn [st_prog] in W. assert (wf_dep pr d) as WD by (apply W; auto).
  destruct B as [R|(Wk & _)]; auto.
  destruct (precise_dep_spec is_emptyb EX pr d W WD) as (P & _). cbv zeta in P. specialize (P Hs). rewrite LZ. cbn [ord].
  intros s t p In. apply weak_pos_lexlt; auto. intros j Hj. apply Wk; auto.
Qed.
End Sat.

(** ** Cuts *)

Lemma map_stmts_seq {B} (g : stmt -> B) pr : map g (p_stmts pr) = map (fun s => g (stmt_of pr s)) (seq 0 (length (p_stmts pr))).
Proof.
  unfold stmt_of. rewrite <- (map_map (fun s => nth s (p_stmts pr) dummy_stmt) g). rewrite map_nth_seq. auto.
Qed.

Lemma scalar_level_app pr f :
  add_scalar_level pr f = app_level pr H_SCALAR (fun _ => H_SCALAR) (fun s => const_row pr (f (stmt_of pr s))).
Proof.
  unfold add_scalar_level, app_level, prog_add_hyperplane, set_stmts, set_hprops. cbn [p_nvar p_npar p_deps p_hprops p_stmts].
  rewrite map_stmts_seq. rewrite insert_at_end by auto. auto.
Qed.

Lemma const_row_length pr v : length (const_row pr v) = (p_nvar pr + p_npar pr + 1)%nat.
Proof. unfold const_row. rewrite app_length, repeat_length. auto. Qed.
Lemma const_row_aff pr v i p : length i = p_nvar pr -> length p = p_npar pr -> aff (const_row pr v) (i ++ p) = v.
Proof.
  intros Hi Hp. unfold aff, const_row. rewrite dot_app by (rewrite repeat_length, app_length; lia).
  rewrite dot_zero_all by (intros w Hw; apply repeat_spec in Hw; auto). cbn. lia.
Qed.

Lemma inv_scalar pr a n m f : inv (mkState pr a n m) ->
  (forall s t, (s < length (p_stmts pr))%nat -> (t < length (p_stmts pr))%nat -> scc_of pr s <= scc_of pr t -> f (stmt_of pr s) <= f (stmt_of pr t)) ->
  inv (mkState (add_scalar_level pr f) a n m).
Proof.
  intros I H. rewrite scalar_level_app. pose proof I as I'. destruct I as [I1 I2 I3 I4 I5 I6 I7]. cbn [st_prog st_adj st_num st_max] in *.
  assert (forall s, (s < length (p_stmts pr))%nat -> s_dim (stmt_of pr s) = p_nvar pr) as DM by (intros s Hs; apply I2; apply stmt_of_in; auto).
  apply inv_app; auto.
  - intros s Hs. rewrite const_row_length, DM; auto.
  - intros d Hd Hr. destruct (I7 d Hd Hr) as [_ [R|(_ & _ & C)]]; [left; auto|]. right.
    assert (wf_dep pr d) as (D1 & D2 & _) by (apply I1; auto).
    intros s t p (L1 & L2 & L3 & _). rewrite !const_row_aff; auto; rewrite ?L1, ?L2; auto.
Qed.

Lemma inv_transfer pr q a n m : inv (mkState pr a n m) -> frame pr q ->
  (forall s, s_trans (stmt_of q s) = s_trans (stmt_of pr s) /\ s_hyp (stmt_of q s) = s_hyp (stmt_of pr s) /\ s_scc (stmt_of q s) = s_scc (stmt_of pr s)) ->
  p_hprops q = p_hprops pr ->
  (forall d', In d' (p_deps q) -> exists d, In d (p_deps pr) /\ same_dep d d' /\ (d_rar d = false -> d_sat d' = true -> d_sat d = true)) ->
  inv (mkState q a n m).
Proof.
  intros I F T HP DD. destruct I as [I1 I2 I3 I4 I5 I6 I7]. cbn [st_prog st_adj st_num st_max] in *.
  assert (length (p_stmts q) = length (p_stmts pr)) as NS by apply F.
  constructor; cbn [st_prog st_adj st_num st_max]; rewrite ?NS; auto.
  - split; [|exact (frame_deps_wf _ _ F (proj2 I1))].
    intros st Hst. apply in_stmt_of in Hst as (s & Hs & <-). rewrite NS in Hs.
    destruct (proj1 I1 _ (stmt_of_in pr s Hs)) as (A1 & A2 & A3 & A4 & A5 & A6 & A7 & A8).
    destruct F as (_ & F2 & _ & F4 & _). destruct (F4 s) as (E1 & E2 & E3 & E4 & E5 & E6). destruct (T s) as (T1 & T2 & T3).
    unfold wf_stmt. rewrite E1, E3, E4, E5, E6, T1, T2, HP, F2. auto 10.
  - eapply frame_padded; eauto.
  - eapply frame_orig_first; eauto.
  - intros u Hu. unfold scc_of. destruct (T u) as (_ & _ & ->). apply I5; auto.
  - intros d' Hd' Hr. destruct (DD d' Hd') as (d & Hd & S & Hs). pose proof S as (D1 & D2 & D3 & _). rewrite D3 in Hr.
    destruct (I7 d Hd Hr) as [A B]. cbn [st_prog st_adj] in *.
    assert (forall s, s_trans (stmt_of q s) = s_trans (stmt_of pr s)) as T' by (intros s; apply T).
    split; cbn [st_prog st_adj].
    + intros Sa. apply (ord_frame pr q d d'); auto.
    + destruct B as [R|(Wk & E & C)]; [left; apply (ord_frame pr q d d'); auto|].
      right. split; [apply (weak_all_frame pr q d d'); auto|]. rewrite D1, D2. split; auto.
      unfold scc_of. destruct (T (d_src d)) as (_ & _ & ->). destruct (T (d_dst d)) as (_ & _ & ->). auto.
Qed.

Lemma firstn_snoc {A} (l : list A) x n : n = length l -> firstn n (l ++ [x]) = l.
Proof. intros ->. rewrite firstn_app, Nat.sub_diag, firstn_all. cbn. apply app_nil_r. Qed.

Lemma drop_app pr h ht row g : wf_prog pr ->
  let q := drop_last_level (set_deps (app_level pr h ht row) (map g (p_deps pr))) in
  (forall d, same_dep d (g d)) ->
  frame pr q /\ p_hprops q = p_hprops pr /\ p_deps q = map g (p_deps pr) /\
  (forall s, s_trans (stmt_of q s) = s_trans (stmt_of pr s) /\ s_hyp (stmt_of q s) = s_hyp (stmt_of pr s) /\ s_scc (stmt_of q s) = s_scc (stmt_of pr s)).
Proof.
  intros W q G. assert (length (p_stmts q) = length (p_stmts pr)) as NS by (cbn; rewrite !map_length, seq_length; auto).
  assert (p_hprops q = p_hprops pr) as HP.
  { cbn. rewrite app_length. cbn. rewrite Nat.add_sub. apply firstn_snoc; auto. }
  assert (forall s, (s < length (p_stmts pr))%nat -> same_stmt (stmt_of pr s) (stmt_of q s) /\
     s_trans (stmt_of q s) = s_trans (stmt_of pr s) /\ s_hyp (stmt_of q s) = s_hyp (stmt_of pr s) /\ s_scc (stmt_of q s) = s_scc (stmt_of pr s)) as K.
  { intros s Hs. set (F := fun st => set_hyp (set_trans st (mkMat (mncols (s_trans st)) (firstn (mnrows (s_trans st) - 1) (mrows (s_trans st)))))
              (firstn (length (s_hyp st) - 1) (s_hyp st))).
    assert (stmt_of q s = F (stmt_of (app_level pr h ht row) s)) as ->.
    { unfold stmt_of, q. cbn [drop_last_level set_hprops set_stmts p_stmts set_deps]. fold F.
      rewrite (nth_indep _ dummy_stmt (F dummy_stmt)); [apply List.map_nth|]. rewrite map_length, app_level_nstmts. auto. }
    rewrite app_level_stmt by auto.
    destruct (proj1 W _ (stmt_of_in pr s Hs)) as (_ & _ & _ & A4 & A5 & _).
    split; [unfold same_stmt, F; cbn; auto 10|]. split; [|split; [|reflexivity]].
    - unfold F. cbn [s_trans set_hyp set_trans]. rewrite append_row_ncols. unfold mnrows. rewrite append_row_rows.
      rewrite app_length. cbn [length]. rewrite Nat.add_sub, firstn_snoc by auto. destruct (s_trans (stmt_of pr s)); auto.
    - unfold F. cbn [s_hyp set_hyp]. rewrite append_row_hyp by congruence. rewrite app_length. cbn [length]. rewrite Nat.add_sub, firstn_snoc; auto. }
  assert (forall s, (length (p_stmts pr) <= s)%nat -> stmt_of q s = stmt_of pr s) as K2.
  { intros s Hs. unfold stmt_of. rewrite !nth_overflow; auto. lia. }
  split; [|split; [auto|split; [reflexivity|]]].
  - split; [reflexivity|]. split; [reflexivity|]. split; auto. split.
    + intros s. destruct (le_lt_dec (length (p_stmts pr)) s) as [L|L]; [rewrite K2 by auto; apply same_stmt_refl|apply K; auto].
    + change (Forall2 same_dep (p_deps pr) (map g (p_deps pr))). apply Forall2_same_map; auto.
  - intros s. destruct (le_lt_dec (length (p_stmts pr)) s) as [L|L]; [rewrite K2 by auto; auto|apply K; auto].
Qed.

Lemma last_level_lt pr h ht row : wf_prog pr ->
  (nrows0 (app_level pr h ht row) - 1 < length (p_hprops (app_level pr h ht row)))%nat.
Proof.
  intros W. cbn [p_hprops app_level]. rewrite app_length. cbn [length]. unfold nrows0.
  destruct (le_lt_dec (length (p_stmts pr)) 0) as [L|L].
  - unfold stmt_of. rewrite nth_overflow by (cbn; rewrite map_length, seq_length; auto). cbn. lia.
  - rewrite app_level_stmt by auto. unfold mnrows. rewrite append_row_rows, app_length. cbn [length].
    pose proof (wf_nrows pr 0 W L). unfold mnrows in H. lia.
Qed.

Definition good (s s' : dstate) : Prop := inv s' /\ frame (st_prog s) (st_prog s').
Lemma good_refl s : inv s -> good s s.
Proof. split; auto. apply frame_refl. Qed.
Lemma good_trans a b c : good a b -> good b c -> good a c.
Proof. intros [_ F1] [I F2]. split; auto. eapply frame_trans; eauto. Qed.

Section Cuts.
Variable is_emptyb : cst -> bool.
Hypothesis EX : exact_empty is_emptyb.

Lemma keep_good s f : inv s ->
  (forall u v, (u < length (p_stmts (st_prog s)))%nat -> (v < length (p_stmts (st_prog s)))%nat ->
     scc_of (st_prog s) u <= scc_of (st_prog s) v -> f (stmt_of (st_prog s) u) <= f (stmt_of (st_prog s) v)) ->
  good s (fst (keep_if_useful is_emptyb s (add_scalar_level (st_prog s) f))).
Proof.
  intros I M. destruct s as [pr a n m]. cbn [st_prog] in *.
  pose proof (inv_scalar pr a n m f I M) as I1. rewrite scalar_level_app in *. set (q := app_level _ _ _ _) in *.
  pose proof (i_wf _ I) as W. cbn [st_prog] in W.
  assert (frame pr q) as Fq by apply app_level_frame.
  unfold keep_if_useful.
  assert ((nrows0 q - 1 < length (p_hprops q))%nat) as HL by (apply last_level_lt; auto).
  set (k := (nrows0 q - 1)%nat) in *. cbn [st_adj st_num st_max].
  destruct (inv_update is_emptyb EX q a n m k I1 HL) as [I2 F2].
  destruct (dep_satisfaction_update is_emptyb q k) as [pr2 c] eqn:E. cbn [fst] in I2, F2.
  destruct (1 <=? c)%nat eqn:C; cbn [fst].
  - split; [apply inv_ddg_update; exact I2|]. cbn [ddg_update st_prog]. eapply frame_trans; eauto.
  - unfold dep_satisfaction_update in E. injection E as <- <-. apply Nat.leb_gt in C.
    change (p_deps q) with (p_deps pr) in *.
    destruct (drop_app pr H_SCALAR (fun _ => H_SCALAR) (fun s => const_row pr (f (stmt_of pr s))) (update_dep is_emptyb q k) W) as (D1 & D2 & D3 & D4).
    { intros d; apply update_same. }
    fold q in D1, D2, D3, D4. split; [|exact D1].
    apply (inv_transfer pr); auto. intros d' Hd'. change (In d' (map (update_dep is_emptyb q k) (p_deps pr))) in Hd'. apply in_map_iff in Hd' as (d & <- & Hd). exists d. split; auto. split; [apply update_same|].
    intros Hr Hs. unfold update_dep in Hs. destruct (d_sat d) eqn:Sa; auto.
    destruct (dep_satisfaction_test is_emptyb q d k) eqn:T; [|congruence]. exfalso.
    assert (In d (filter (fun d => negb (d_sat d) && negb (d_rar d) && dep_satisfaction_test is_emptyb q d k) (p_deps pr))) as J.
    { apply filter_In. split; auto. rewrite Sa, Hr, T. auto. }
    destruct (filter _ _); [destruct J|cbn in C; lia].
Qed.

Lemma cut_between_good s i j : inv s -> good s (fst (cut_between_sccs is_emptyb s i j)).
Proof.
  intros I. unfold cut_between_sccs. destruct (negb _); [apply good_refl; auto|]. apply keep_good; auto.
  intros u v _ _ H. unfold scc_of in H. destruct (Z.ltb_spec (s_scc (stmt_of (st_prog s) u)) j), (Z.ltb_spec (s_scc (stmt_of (st_prog s) v)) j); lia.
Qed.

Lemma cut_all_good s : inv s -> good s (fst (cut_all_sccs is_emptyb s)).
Proof.
  intros I. unfold cut_all_sccs. destruct (st_num s =? 1)%nat; [apply good_refl; auto|].
  destruct s as [pr a n m]. cbn [st_prog st_adj st_num st_max] in *.
  assert (inv (mkState (add_scalar_level pr s_scc) a n m)) as I1 by (apply inv_scalar; auto).
  rewrite scalar_level_app in *. set (q := app_level _ _ _ _) in *.
  pose proof (i_wf _ I) as W. cbn [st_prog] in W.
  assert (frame pr q) as Fq by apply app_level_frame.
  assert ((nrows0 q - 1 < length (p_hprops q))%nat) as HL by (apply last_level_lt; auto).
  destruct (inv_update is_emptyb EX q a n m _ I1 HL) as [I2 F2].
  destruct (dep_satisfaction_update is_emptyb q _) as [pr2 c]. cbn [fst] in *.
  split; [apply inv_ddg_update; exact I2|]. cbn [ddg_update st_prog]. eapply frame_trans; eauto.
Qed.

Lemma dim_counts_mono l : forall cur c, (forall i, (i < length l)%nat -> c <= nth i (dim_counts cur c l) 0) /\
  length (dim_counts cur c l) = length l /\
  (forall i j, (i <= j < length l)%nat -> nth i (dim_counts cur c l) 0 <= nth j (dim_counts cur c l) 0).
Proof.
  induction l as [|a l IH]; intros cur c; cbn [dim_counts length].
  - split; [intros; lia|]. split; auto. intros; lia.
  - destruct (cur =? a).
    + destruct (IH cur c) as (A & B & C). split; [|split; [cbn; lia|]].
      * intros [|i] Hi; cbn [nth]; [lia|]. apply A. lia.
      * intros [|i] [|j] Hij; cbn [nth]; try lia; [apply A; lia|apply C; lia].
    + destruct (IH a (c + 1)) as (A & B & C). split; [|split; [cbn; lia|]].
      * intros [|i] Hi; cbn [nth]; [lia|]. specialize (A i ltac:(lia)). lia.
      * intros [|i] [|j] Hij; cbn [nth]; try lia; [apply A; lia|apply C; lia].
Qed.

Lemma cut_dim_good s : inv s -> good s (fst (cut_scc_dim_based is_emptyb s)).
Proof.
  intros I. unfold cut_scc_dim_based. destruct (st_num s =? 1)%nat; [apply good_refl; auto|].
  apply keep_good; auto. intros u v Hu Hv H.
  pose proof (i_scc _ I u Hu) as B1. pose proof (i_scc _ I v Hv) as B2. pose proof (i_max _ I) as Mx.
  unfold scc_of in *. destruct (dim_counts_mono (st_max s) (nth 0 (st_max s) 0) 0) as (_ & _ & C). apply C. lia.
Qed.

Lemma cut_far_smart_good l : forall s, inv s -> good s (cut_far_smart is_emptyb l s).
Proof.
  induction l as [|[i j] l IH]; intros s I; cbn [cut_far_smart]; [apply good_refl; auto|].
  destruct (_ <=? _)%nat; [|apply cut_all_good; auto].
  destruct (sccs_direct_connected _ _ _); [|apply IH; auto].
  eapply good_trans; [apply cut_between_good; auto|]. apply IH. apply cut_between_good; auto.
Qed.

Lemma cut_smart_good s : inv s -> good s (cut_smart is_emptyb s).
Proof.
  intros I. unfold cut_smart. destruct (_ =? _)%nat; [apply good_refl; auto|].
  destruct (transformations_full_ranked _); [apply cut_all_good; auto|].
  pose proof (cut_dim_good s I) as G1. destruct (cut_scc_dim_based is_emptyb s) as [s1 k1]. cbn [fst] in G1.
  destruct (1 <=? k1)%nat; auto.
  pose proof (cut_between_good s1 (half_up (st_num s1) - 1) (half_up (st_num s1)) (proj1 G1)) as G2.
  destruct (cut_between_sccs is_emptyb s1 _ _) as [s2 k2]. cbn [fst] in G2.
  destruct (1 <=? k2)%nat; [eapply good_trans; eauto|].
  eapply good_trans; [exact G1|]. eapply good_trans; [exact G2|]. apply cut_far_smart_good. apply G2.
Qed.

Lemma cut_far_conservative_good l : forall s, inv s -> good s (cut_far_conservative is_emptyb l s).
Proof.
  induction l as [|[i j] l IH]; intros s I; cbn [cut_far_conservative]; [apply good_refl; auto|].
  destruct (_ <=? _)%nat; [|apply cut_all_good; auto].
  pose proof (cut_between_good s (Z.of_nat i) (Z.of_nat j) I) as G.
  destruct (cut_between_sccs is_emptyb s _ _) as [s1 k]. cbn [fst] in G.
  destruct (1 <=? k)%nat; auto. eapply good_trans; [exact G|]. apply IH. apply G.
Qed.

Lemma cut_conservative_good s : inv s -> good s (cut_conservative is_emptyb s).
Proof.
  intros I. unfold cut_conservative.
  pose proof (cut_dim_good s I) as G1. destruct (cut_scc_dim_based is_emptyb s) as [s1 k1]. cbn [fst] in G1.
  destruct (1 <=? k1)%nat; auto.
  pose proof (cut_between_good s1 (half_up (st_num s1) - 1) (half_up (st_num s1)) (proj1 G1)) as G2.
  destruct (cut_between_sccs is_emptyb s1 _ _) as [s2 k2]. cbn [fst] in G2.
  destruct (1 <=? k2)%nat; [eapply good_trans; eauto|].
  eapply good_trans; [exact G1|]. eapply good_trans; [exact G2|]. apply cut_far_conservative_good. apply G2.
Qed.
End Cuts.

(** ** Hyperplanes *)

Lemma hyp_row_length pr x s : length (hyp_row pr x s) = (p_nvar pr + p_npar pr + 1)%nat.
Proof. unfold hyp_row. rewrite !app_length, map_length, seq_length, repeat_length. cbn. lia. Qed.

Lemma hyp_row_aff pr x s i p : (s < length (p_stmts pr))%nat -> S (length x) = cst_width pr ->
  length i = p_nvar pr -> length p = p_npar pr -> aff (hyp_row pr x s) (i ++ p) = aff (zhyp pr x s) i.
Proof.
  intros Hs Hx Hi Hp. unfold aff, hyp_row. rewrite <- app_assoc.
  rewrite dot_app by (rewrite map_length, seq_length; auto).
  rewrite dot_app by (rewrite repeat_length; auto).
  rewrite (dot_zero_all (repeat 0 _)) by (intros w Hw; apply repeat_spec in Hw; auto).
  pose proof (offset_room pr s Hs) as R.
  assert (zhyp pr x s = map (fun k => nth (stmt_offset pr s + k) x 0) (seq 0 (p_nvar pr)) ++ [nth (stmt_offset pr s + p_nvar pr) x 0]) as ->.
  { unfold zhyp. fold (stmt_offset pr s). apply (list_ext_nth 0).
    - rewrite firstn_length, skipn_length, app_length, map_length, seq_length. cbn [length]. lia.
    - intros k Hk. rewrite firstn_length, skipn_length in Hk.
      rewrite nth_firstn_lt by lia. rewrite nth_skipn.
      destruct (Nat.eq_dec k (p_nvar pr)) as [->|N].
      + rewrite app_nth2 by (rewrite map_length, seq_length; auto). rewrite map_length, seq_length, Nat.sub_diag. reflexivity.
      + rewrite app_nth1 by (rewrite map_length, seq_length; lia). rewrite nth_map_seq by lia. auto. }
  rewrite (dot_app _ _ i) by (rewrite map_length, seq_length; auto). cbn [dot]. lia.
Qed.

Definition hyp_type_of (pr : prog) (sol : point) (s : nat) : hyptype :=
  if forallb (fun v => v =? 0) (firstn (s_dim (stmt_of pr s)) (hyp_row pr sol s)) then H_SCALAR else H_LOOP.
Lemma hyperplane_app pr sol : add_hyperplane_from_ilp_solution pr sol = app_level pr H_LOOP (hyp_type_of pr sol) (hyp_row pr sol).
Proof.
  unfold add_hyperplane_from_ilp_solution, app_level, prog_add_hyperplane, set_stmts, set_hprops. cbn [p_nvar p_npar p_deps p_hprops p_stmts].
  rewrite insert_at_end by auto. auto.
Qed.

Lemma cst_add_wf a b : wf_cst a -> wf_cst b -> ncols a = ncols b -> wf_cst (cst_add a b) /\ ncols (cst_add a b) = ncols a.
Proof.
  intros [A1 A2] [B1 B2] E. split; auto. split; auto. intros r Hr. cbn in *. apply in_app_or in Hr as [Hr|Hr]; auto. rewrite E. auto.
Qed.

Lemma frame_width a b : frame a b -> cst_width b = cst_width a.
Proof. intros (A1 & A2 & A3 & _). unfold cst_width. congruence. Qed.

Section Find.
Variables (isl_emptyb : cst -> bool) (kernel : matrix -> matrix) (solve : prog -> cst -> option point) (o : options).
Hypothesis SOL : lexmin_hkeeps solve.

Lemma find_good mode pr0 n : forall pr a k m, inv (mkState pr a k m) -> frame pr0 pr -> p_deps pr = p_deps pr0 ->
  wf_prog pr0 -> padded pr0 ->
  let base := cst_add (get_permutability_constraints o (fun _ => false) pr0) (get_coeff_bounding_constraints o pr0) in
  let '(pr', c) := find_hyperplanes isl_emptyb kernel solve o mode n base pr in
  inv (mkState pr' a k m) /\ frame pr pr' /\ p_deps pr' = p_deps pr /\
  length (p_hprops pr') = (length (p_hprops pr) + c)%nat.
Proof.
  induction n as [|n IH]; intros pr a k m I F D W0 P0; cbv zeta; cbn [find_hyperplanes].
  - split; auto. split; [apply frame_refl|]. split; auto.
  - set (base := cst_add (get_permutability_constraints o (fun _ => false) pr0) (get_coeff_bounding_constraints o pr0)). set (cur := cst_add base (get_non_trivial_sol_constraints pr mode)).
    set (ind := get_linear_ind_constraints isl_emptyb kernel o pr cur mode).
    destruct (if (nrows ind =? 0)%nat then None else prog_constraints_lexmin solve pr (cst_add cur ind)) as [sol|] eqn:E; cbv beta iota.
    2:{ split; auto. split; [apply frame_refl|]. split; auto. }
    pose proof (frame_width _ _ F) as Wd.
    assert (wf_orig pr) as Ho by (apply orig_first_wf; apply (i_orig _ I)).
    destruct (perm_cst_wf o (fun _ => false) pr0) as [P1 P2].
    destruct (bounding_wf o pr0) as [B1 B2]. destruct (nontriv_wf pr mode) as [N1 N2].
    destruct (lin_ind_wf isl_emptyb kernel o pr cur mode Ho) as [L1 L2]. fold ind in L1, L2.
    destruct (cst_add_wf _ _ P1 B1 ltac:(congruence)) as [Wb Nb]. fold base in Wb, Nb.
    destruct (cst_add_wf base _ Wb N1 ltac:(congruence)) as [Wc Nc]. fold cur in Wc, Nc.
    destruct (cst_add_wf cur ind Wc L1 ltac:(congruence)) as [We Ne].
    destruct (nrows ind =? 0)%nat eqn:NR; [discriminate|].
    assert (hkept pr (cst_add cur ind) sol /\ zpadding_zero pr sol) as [Ms Zs].
    { apply (SOL pr); auto.
      - apply (i_wf _ I).
      - apply (i_orig _ I).
      - congruence.
      - cbn [cst_add rows]. intros X. apply app_eq_nil in X as [_ X]. apply Nat.eqb_neq in NR. apply NR. unfold nrows. rewrite X. auto. }
    apply hkept_add in Ms as [Ms _]; [|congruence]. apply hkept_add in Ms as [Ms _]; [|congruence].
    apply hkept_add in Ms as [Ms _]; [|congruence].
    apply (hkept_frame pr0) in Ms; [|apply F|apply F|apply F|exact D].
    assert (zpadding_zero pr0 sol) as Z0.
    { destruct F as (F1 & F2 & F3 & F4 & F5). intros s j Hs Hj Ho'. unfold zpadding_zero in Zs. rewrite <- F1, <- F2. apply Zs; try congruence.
      destruct (F4 s) as (_ & _ & -> & _). auto. }
    assert (S (length sol) = cst_width pr0) as Lsol by (destruct Ms; congruence).
    rewrite hyperplane_app. set (pr1 := app_level _ _ _ _).
    pose proof (i_wf _ I) as W. pose proof (i_pad _ I) as P. cbn [st_prog] in W, P.
    assert (inv (mkState pr1 a k m)) as I1.
    { apply inv_app; auto.
      - intros s Hs. rewrite hyp_row_length. rewrite (P _ (stmt_of_in pr s Hs)). auto.
      - intros d Hd Hr. destruct (i_dep _ I d Hd Hr) as [S _]. cbn [st_prog] in S. destruct (d_sat d) eqn:Sa; [left; auto|right].
        intros s t p In. assert (wf_dep pr d) as (D1 & D2 & _) by (apply W; auto).
        pose proof In as (L3 & L4 & L5 & _). rewrite (P _ (stmt_of_in pr _ D1)) in L3. rewrite (P _ (stmt_of_in pr _ D2)) in L4.
        rewrite !hyp_row_aff by (auto; congruence).
        pose proof Hd as Hd0. rewrite D in Hd0. apply In_nth_error in Hd0 as [i Hi].
        apply (frame_instance pr0 pr d d) in In; auto using same_dep_refl.
        pose proof (perm_hkept_int o (fun _ => false) pr0 sol i d W0 P0 Z0 Ms Hi eq_refl Sa Hr s t p In) as Q.
        unfold zhyp in *. destruct F as (F1 & F2 & _). rewrite F1, F2. exact Q. }
    specialize (IH pr1 a k m I1 (frame_trans _ _ _ F (app_level_frame _ _ _ _)) D W0 P0). cbv zeta in IH. fold base in IH.
    destruct (find_hyperplanes isl_emptyb kernel solve o mode n base pr1) as [pr' c].
    destruct IH as (IA & IB & IC & ID). split; auto. split; [eapply frame_trans; [apply app_level_frame|eauto]|]. split; auto.
    rewrite ID. unfold pr1. cbn [p_hprops app_level]. rewrite app_length. cbn. lia.
Qed.

Lemma find_permutable_good mode n pr a k m : inv (mkState pr a k m) ->
  let '(pr', c) := find_permutable_hyperplanes isl_emptyb kernel solve o mode n pr in
  inv (mkState pr' a k m) /\ frame pr pr' /\ length (p_hprops pr') = (length (p_hprops pr) + c)%nat.
Proof.
  intros I. unfold find_permutable_hyperplanes.
  pose proof (find_good mode pr n pr a k m I (frame_refl pr) eq_refl (i_wf _ I) (i_pad _ I)) as H. cbv zeta in H.
  destruct (find_hyperplanes _ _ _ _ _ _ _ _) as [pr' c]. destruct H as (A & B & _ & C). auto.
Qed.

Variable is_emptyb : cst -> bool.
Hypothesis EX : exact_empty is_emptyb.

Lemma update_levels_good first n : forall s, inv s -> (forall k, (first <= k < first + n)%nat -> (k < length (p_hprops (st_prog s)))%nat) ->
  good s (update_levels is_emptyb first n s).
Proof.
  unfold update_levels. revert first. induction n as [|n IH]; intros first s I H; cbn [seq fold_left]; [apply good_refl; auto|].
  set (s1 := ddg_update _).
  destruct s as [pr a k m]. cbn [st_prog st_adj st_num st_max] in *.
  destruct (inv_update is_emptyb EX pr a k m first I (H first ltac:(lia))) as [I1 F1].
  assert (good (mkState pr a k m) s1) as G1. { split; [apply inv_ddg_update; auto|auto]. }
  eapply good_trans; [exact G1|]. apply IH. apply G1. intros j Hj. unfold s1. cbn. apply H. lia.
Qed.

End Find.
End Mode.

(** What holds in eager mode holds in lazy mode. *)
Lemma inv_lazy md s : inv md s -> inv LAZY s.
Proof.
  intros [I1 I2 I3 I4 I5 I6 I7]. constructor; auto. intros d Hd Hr. destruct (I7 d Hd Hr) as [A B].
  assert (wf_dep (st_prog s) d) as WD by (apply I1; auto). split.
  - intros Sa. apply (ord_respected md); auto.
  - destruct B as [B|B]; [left; apply (ord_respected md); auto|right; auto].
Qed.
Lemma good_lazy md s s' : good md s s' -> good LAZY s s'.
Proof. intros [A B]. split; auto. eapply inv_lazy; eauto. Qed.

Section Drive.
Variables (isl_emptyb : cst -> bool) (kernel : matrix -> matrix) (solve : prog -> cst -> option point) (o : options).
Hypothesis SOL : lexmin_hkeeps solve.
Variable is_emptyb : cst -> bool.
Hypothesis EX : exact_empty is_emptyb.

Definition out_good (s : dstate) (r : outcome) : Prop :=
  match r with Continue s' md => good md s s' | Failed s' => good LAZY s s' end.

Lemma round_good fuse depth mode s0 : inv mode s0 -> out_good s0 (round is_emptyb isl_emptyb kernel solve o fuse depth mode s0).
Proof.
  intros I0. unfold round.
  set (s := match fuse with NoFuse => fst (cut_all_sccs is_emptyb (compute_scc s0)) | _ => s0 end).
  assert (good mode s0 s) as G0.
  { unfold s. destruct fuse; try apply good_refl; auto. destruct (inv_compute_scc mode s0 I0) as [A B].
    eapply good_trans; [split; [exact A|exact B]|]. apply cut_all_good; auto. }
  clearbody s. destruct s as [pr a k m]. cbn [st_prog st_adj st_num st_max].
  pose proof (find_permutable_good mode isl_emptyb kernel solve o SOL mode (num_sols_left pr) pr a k m (proj1 G0)) as FP.
  destruct (find_permutable_hyperplanes _ _ _ _ _ _ _) as [pr1 nsols]. destruct FP as (I1 & F1 & L1).
  assert (good mode s0 (mkState pr1 a k m)) as G1 by (eapply good_trans; [exact G0|]; split; auto).
  set (r := if (1 <=? nsols)%nat then _ else _).
  assert (out_good s0 r) as R.
  { unfold r. destruct (1 <=? nsols)%nat.
    - cbn. eapply good_trans; [exact G1|]. apply update_levels_good; [exact EX|apply G1|]. cbn [st_prog].
      intros j Hj. unfold nrows0 in Hj. destruct (le_lt_dec (length (p_stmts pr1)) 0) as [L|L].
      + unfold stmt_of in Hj. rewrite nth_overflow in Hj by auto. cbn in Hj. lia.
      + rewrite wf_nrows in Hj; auto. lia. apply (i_wf _ _ I1).
    - destruct (inv_compute_scc _ _ I1) as [I2 F2]. set (s2 := compute_scc _) in *.
      assert (good mode s0 s2) as G2 by (eapply good_trans; [exact G1|]; split; auto).
      destruct (1 <=? _)%nat.
      + cbn. eapply good_trans; [exact G2|]. destruct fuse.
        * apply cut_all_good; auto.
        * apply cut_smart_good; auto.
        * destruct (_ <=? depth)%nat; [apply cut_all_good; auto|apply cut_conservative_good; auto].
      + destruct mode; [eapply good_lazy; exact G2|]. destruct (negb _); exact G2. }
  clearbody r. destruct r as [s' mode'|s']; auto. cbn in *. destruct mode'; auto.
  destruct s' as [pr' a' k' m']. cbn [st_prog st_adj st_num st_max].
  destruct (inv_precise LAZY is_emptyb EX pr' a' k' m' eq_refl (proj1 R)) as [I3 F3].
  eapply good_trans; [exact R|]. split; auto.
Qed.

Lemma drive_good fuse fuel : forall depth mode s r, inv mode s -> drive is_emptyb isl_emptyb kernel solve o fuse fuel depth mode s = Some r ->
  out_good s r /\ match r with
                  | Continue s' _ => transformations_full_ranked (st_prog s') = true /\ deps_satisfaction_check (st_prog s') = true
                  | Failed _ => True
                  end.
Proof.
  induction fuel as [|fuel IH]; intros depth mode s r I E; cbn [drive] in E; [discriminate|].
  pose proof (round_good fuse depth mode s I) as R.
  destruct (round _ _ _ _ _ _ _ _ _) as [s' mode'|s'].
  - destruct (transformations_full_ranked (st_prog s') && deps_satisfaction_check (st_prog s')) eqn:T.
    + injection E as <-. split; auto. apply andb_true_iff in T. auto.
    + cbn in R. apply IH in E; [|apply R]. destruct E as [E1 E2]. split; auto.
      destruct r; cbn in *; (split; [apply E1|eapply frame_trans; [apply R|apply E1]]).
  - injection E as <-. auto.
Qed.

Lemma inv_satisfied_legal md s : inv md s -> deps_satisfaction_check (st_prog s) = true -> legal (st_prog s).
Proof.
  intros I H d Hd Hr. apply (ord_respected md); [apply I|apply (i_wf _ _ I); auto|]. apply (i_dep _ _ I d Hd Hr). unfold deps_satisfaction_check in H. rewrite forallb_forall in H.
  specialize (H d Hd). rewrite Hr in H. auto.
Qed.

Lemma inv_satisfied_leveled s : inv EAGER s -> deps_satisfaction_check (st_prog s) = true -> leveled (st_prog s).
Proof.
  intros I H d Hd Hr. apply (i_dep _ _ I d Hd Hr). unfold deps_satisfaction_check in H. rewrite forallb_forall in H.
  specialize (H d Hd). rewrite Hr in H. auto.
Qed.
End Drive.
