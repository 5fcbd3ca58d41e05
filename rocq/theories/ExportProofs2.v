(** * Lemmas: which rows tiling adds to a domain (C32). *)
From Coq Require Import ZArith List Bool Lia Arith.
From Verif Require Import SpecLinear MathModel ConstraintsModel VecProofs EditProofs MatrixProofs SpecProg SpecTile ProgModel
  FrameworkModel LexProofs ProgProofs TileModel TileProofs TileProofs2 TileProofs3 DiamondProofs ExportModel ExportProofs.
Import ListNotations.
Open Scope Z_scope.

Section Domains.
Variable pr0 : prog.

(** The rows of the domain without tile iterators are the original rows. *)
Definition dom_ok (st0 st : stmt) (npar n : nat) : Prop :=
  s_dim st = (n + s_dim st0)%nat /\ s_dim_orig st = s_dim_orig st0 /\ ncols (s_domain st) = (s_dim st + npar + 1)%nat /\
  (forall r, In r (rows (s_domain st)) -> length (coef r) = ncols (s_domain st)) /\
  filter (fun r => negb (has_tile n r)) (rows (s_domain st)) = map (map_coef (app (repeat 0 n))) (rows (s_domain st0)).

Definition dinv (q : prog) (N : list nat) : Prop :=
  length (p_stmts q) = length (p_stmts pr0) /\ p_npar q = p_npar pr0 /\
  forall s, (s < length (p_stmts pr0))%nat -> exists n, dom_ok (stmt_of pr0 s) (stmt_of q s) (p_npar pr0) n /\ (nth s N 0 <= n)%nat.

Lemma has_tile_insert n j r : (j <= n)%nat -> (n <= length (coef r))%nat -> has_tile (S n) (map_coef (insert_at j 0) r) = has_tile n r.
Proof.
  destruct r as [e c]. unfold has_tile, map_coef. cbn [coef]. revert j c. induction n as [|n IH]; intros j c Hj Hc.
  - destruct j; [reflexivity|lia].
  - destruct j as [|j]; [reflexivity|]. destruct c as [|v c]; [simpl in Hc; lia|]. cbn [insert_at firstn existsb]. f_equal.
    apply (IH j c); simpl in *; lia.
Qed.

Lemma has_tile_at n j r : (j < n)%nat -> nth j (coef r) 0 <> 0 -> has_tile n r = true.
Proof.
  destruct r as [e c]. unfold has_tile. cbn [coef]. revert j c. induction n as [|n IH]; intros j c Hj H; [lia|].
  destruct c as [|v c]; [destruct j; simpl in H; lia|]. cbn [firstn existsb]. destruct j as [|j].
  - simpl in H. destruct (Z.eqb_spec v 0); [lia|reflexivity].
  - rewrite (IH j c) by (auto; lia). apply orb_true_r.
Qed.

Lemma insert_repeat0 j n (c : list Z) : (j <= n)%nat -> insert_at j 0 (repeat 0 n ++ c) = repeat 0 (S n) ++ c.
Proof.
  revert n. induction j as [|j IH]; intros n H; [reflexivity|]. destruct n as [|n]; [lia|]. simpl. f_equal. rewrite IH by lia. reflexivity.
Qed.

Lemma filter_map_insert n j l : (j <= n)%nat -> (forall r, In r l -> (n <= length (coef r))%nat) ->
  filter (fun r => negb (has_tile (S n) r)) (map (map_coef (insert_at j 0)) l) = map (map_coef (insert_at j 0)) (filter (fun r => negb (has_tile n r)) l).
Proof.
  intros Hj. induction l as [|r l IH]; intros H; [reflexivity|]. cbn [map filter]. rewrite has_tile_insert by (auto; apply H; simpl; auto).
  destruct (has_tile n r); cbn [negb map]; rewrite IH by (intros; apply H; simpl; auto); reflexivity.
Qed.

Lemma tile_row_length t nsup w sign T extra : length (tile_row t nsup w sign T extra) = w.
Proof. unfold tile_row. rewrite map_length, seq_length. reflexivity. Qed.
Lemma tile_row_at t nsup w sign T extra : (nsup + 1 < w)%nat -> nth nsup (tile_row t nsup w sign T extra) 0 = - (sign * T).
Proof.
  intros H. unfold tile_row. rewrite nth_map_seq by lia. rewrite (proj2 (Nat.eqb_neq _ _)), Nat.eqb_refl by lia. reflexivity.
Qed.

Lemma dinv_step b q N sid k T : dinv q N -> (sid < length (p_stmts pr0))%nat -> 1 <= T -> length N = length (p_stmts pr0) ->
  dinv (fst (tile_step b q sid k (nth sid N 0%nat) T)) (set_nth sid (snd (tile_step b q sid k (nth sid N 0%nat) T)) N).
Proof.
  intros (L & P & I) Hs HT LN. destruct (I sid Hs) as (n & (D1 & D2 & D3 & D4 & D5) & Hn).
  set (ns := nth sid N 0%nat) in *. unfold tile_step.
  destruct (loop_level (stmt_of q sid) (b_first b + k + k)).
  - set (pr1 := stmt_add_dim q sid ns (Some (b_first b + k)%nat) H_TILE_SPACE_LOOP).
    set (st := stmt_of pr1 sid). set (t := nth (b_first b + k + k + 1) (mrows (s_trans st)) []). set (w := ncols (s_domain st)).
    assert (length (p_stmts pr1) = length (p_stmts pr0)) as L1 by (unfold pr1, stmt_add_dim; cbn; rewrite map_nth_length; auto).
    assert (forall s, stmt_of pr1 s = if (s =? sid)%nat then stmt_add_dim1 ns (Some (b_first b + k)%nat) H_TILE_SPACE_LOOP (stmt_of q sid) else stmt_of q s) as E1.
    { intros s. unfold pr1, stmt_of, stmt_add_dim. cbn [p_stmts]. rewrite map_nth_nth. destruct (Nat.eqb_spec s sid); [|reflexivity].
      rewrite (proj2 (Nat.ltb_lt _ _)) by lia. reflexivity. }
    assert (w = S (ncols (s_domain (stmt_of q sid)))) as EW by (unfold w, st; rewrite E1, Nat.eqb_refl; reflexivity).
    assert (forall s, stmt_of (add_domain_row pr1 sid (tile_row t ns w 1 T 0)) s = if (s =? sid)%nat then
        set_domain (stmt_of pr1 sid) (mkCst w (rows (s_domain st) ++ [mkRow false (tile_row t ns w 1 T 0)])) else stmt_of pr1 s) as E2.
    { intros s. rewrite adr_stmt by (rewrite ?tile_row_length; auto; lia). reflexivity. }
    set (pr2 := add_domain_row pr1 sid (tile_row t ns w 1 T 0)) in *.
    assert (length (p_stmts pr2) = length (p_stmts pr0)) as L2 by (unfold pr2; rewrite adr_len by (rewrite ?tile_row_length; auto; lia); auto).
    assert (forall s, stmt_of (add_domain_row pr2 sid (tile_row t ns w (-1) T (T - 1))) s = if (s =? sid)%nat then
        set_domain (stmt_of pr1 sid) (mkCst w ((rows (s_domain st) ++ [mkRow false (tile_row t ns w 1 T 0)]) ++ [mkRow false (tile_row t ns w (-1) T (T - 1))])) else stmt_of pr1 s) as E3.
    { intros s. rewrite adr_stmt.
      - rewrite !E2, Nat.eqb_refl. destruct (s =? sid)%nat eqn:ES; [reflexivity|reflexivity].
      - lia.
      - rewrite tile_row_length, E2, Nat.eqb_refl. reflexivity. }
    assert (length (p_stmts (add_domain_row pr2 sid (tile_row t ns w (-1) T (T - 1)))) = length (p_stmts pr0)) as L3.
    { rewrite adr_len; [auto|lia|]. rewrite tile_row_length, E2, Nat.eqb_refl. reflexivity. }
    set (pr3 := add_domain_row pr2 sid (tile_row t ns w (-1) T (T - 1))) in *.
    assert (p_npar pr3 = p_npar pr0) as P3 by (rewrite <- P; reflexivity).
    cbn [fst snd]. split; [cbn [set_stmts p_stmts]; rewrite map_nth_length; auto|]. split; [exact P3|].
    intros s Hs'. rewrite set_domain_stmt_of by lia. destruct (Nat.eqb_spec s sid) as [->|NE].
    + exists (S n). rewrite nth_set_nth_eq by lia. split; [|lia]. rewrite E3, Nat.eqb_refl, E1, Nat.eqb_refl.
      unfold dom_ok. cbn [set_tile set_domain s_dim s_dim_orig s_domain stmt_add_dim1 ncols rows].
      split; [lia|]. split; [exact D2|]. split; [lia|].
      assert (rows (s_domain st) = map (map_coef (insert_at ns 0)) (rows (s_domain (stmt_of q sid)))) as ER.
      { unfold st. rewrite E1, Nat.eqb_refl. reflexivity. }
      split.
      * intros r Hr. rewrite ER in Hr. rewrite !in_app_iff in Hr. destruct Hr as [[Hr|[<-|[]]]|[<-|[]]]; try apply tile_row_length.
        apply in_map_iff in Hr. destruct Hr as (r' & <- & Hr). unfold map_coef. cbn [coef]. rewrite insert_at_length, D4 by auto. lia.
      * rewrite ER, !filter_app. cbn [filter].
        rewrite !(has_tile_at (S n) ns) by (cbn [coef]; rewrite ?tile_row_at; lia). cbn [negb]. rewrite !app_nil_r.
        rewrite filter_map_insert.
        2: lia.
        2: { intros r Hr. rewrite D4 by auto. lia. }
        rewrite D5, map_map. apply map_ext. intros [e c]. unfold map_coef. cbn [is_eq coef]. f_equal. apply insert_repeat0. lia.
    + rewrite E3. rewrite (proj2 (Nat.eqb_neq _ _) NE), E1, (proj2 (Nat.eqb_neq _ _) NE).
      rewrite nth_set_nth_neq by auto. apply I. auto.
  - cbn [fst snd]. split; [cbn [set_stmts p_stmts]; rewrite map_nth_length; auto|]. split; [exact P|].
    intros s Hs'. rewrite set_domain_stmt_of by lia. destruct (Nat.eqb_spec s sid) as [->|NE].
    + exists n. rewrite nth_set_nth_eq by lia. split; [|auto]. split; [exact D1|]. split; [exact D2|]. split; [exact D3|]. split; [exact D4|]. exact D5.
    + rewrite nth_set_nth_neq by auto. apply I. auto.
Qed.

Lemma dinv_level b q N kT : dinv q N -> (forall s, In s (b_stmts b) -> (s < length (p_stmts pr0))%nat) -> 1 <= snd kT -> length N = length (p_stmts pr0) ->
  dinv (fst (tile_level b (q, N) kT)) (snd (tile_level b (q, N) kT)) /\ length (snd (tile_level b (q, N) kT)) = length (p_stmts pr0).
Proof.
  unfold tile_level. intros I H HT. revert q N I H. induction (b_stmts b) as [|sid l IH]; intros q N I H LN; [auto|].
  cbn [fold_left fst snd]. destruct (tile_step b q sid (fst kT) (nth sid N 0%nat) (snd kT)) as [q' n] eqn:E.
  pose proof (dinv_step b q N sid (fst kT) (snd kT) I (H sid (or_introl eq_refl)) HT LN) as S1. rewrite E in S1. cbn [fst snd] in S1.
  apply IH; auto; [intros; apply H; simpl; auto|rewrite set_nth_length; auto].
Qed.

Lemma dinv_levels b l q N : dinv q N -> (forall s, In s (b_stmts b) -> (s < length (p_stmts pr0))%nat) -> (forall kT, In kT l -> 1 <= snd kT) -> length N = length (p_stmts pr0) ->
  dinv (fst (fold_left (tile_level b) l (q, N))) (snd (fold_left (tile_level b) l (q, N))).
Proof.
  revert q N. induction l as [|kT l IH]; intros q N I H HT LN; [auto|]. cbn [fold_left].
  destruct (dinv_level b q N kT I H (HT _ (or_introl eq_refl)) LN) as [A B]. destruct (tile_level b (q, N) kT) as [q' N']. cbn [fst snd] in *.
  apply IH; auto. intros; apply HT; simpl; auto.
Qed.

Lemma dinv_weak q N N' : dinv q N -> (forall s, (s < length (p_stmts pr0))%nat -> nth s N' 0%nat = 0%nat) -> dinv q N'.
Proof.
  intros (A & B & C) H. split; [auto|]. split; [auto|]. intros s Hs. destruct (C s Hs) as (n & D & _). exists n. split; [auto|]. rewrite H by auto. lia.
Qed.

Lemma dinv_band b q N : dinv q N -> (forall s, In s (b_stmts b) -> (s < length (p_stmts pr0))%nat) -> (forall T, In T (b_sizes b) -> 1 <= T) ->
  exists N', dinv (tile_band q b) N'.
Proof.
  intros I H HT. eexists. unfold tile_band. apply dinv_levels; auto.
  - apply (dinv_weak q N); auto. intros s Hs. rewrite nth_repeat. reflexivity.
  - intros [k T] Hk. apply in_combine_r in Hk. auto.
  - rewrite repeat_length. apply I.
Qed.

Lemma dinv_scattering bands q N : dinv q N -> 
  (forall b, In b bands -> (forall s, In s (b_stmts b) -> (s < length (p_stmts pr0))%nat) /\ (forall T, In T (b_sizes b) -> 1 <= T)) ->
  exists N', dinv (tile_scattering_dims q bands) N'.
Proof.
  intros I H. assert (exists N', dinv (fold_left tile_band bands q) N') as (N' & K).
  { revert q N I H. induction bands as [|b l IH]; intros q N I H; [eauto|]. cbn [fold_left].
    destruct (dinv_band b q N I) as (N1 & I1); try apply H; simpl; auto. apply (IH _ N1 I1). intros; apply H; simpl; auto. }
  exists N'. unfold tile_scattering_dims. set (q1 := fold_left tile_band bands q) in *. clearbody q1.
  destruct K as (K1 & K2 & K3). destruct (sink_all_eq q1) as (A & B & C & D).
  set (snk := fun st => Nat.iter (max_nrows (p_stmts q1) - mnrows (s_trans st)) (fun st => sink_transformation st (mnrows (s_trans st))) st).
  split; [|split].
  - unfold detect_types_stmtwise. cbn [set_stmts p_stmts]. rewrite map_length. cbn [detect_types set_hprops p_stmts]. rewrite D, map_length. auto.
  - rewrite <- K2, <- A. reflexivity.
  - intros s Hs. assert (stmt_of (detect_types_stmtwise (detect_types (sink_all q1))) s = detected (snk (stmt_of q1 s))) as ->.
    { unfold stmt_of, detect_types_stmtwise. cbn [p_stmts set_stmts detect_types set_hprops]. rewrite D, map_map.
      rewrite (nth_indep _ dummy_stmt (detected (snk dummy_stmt))) by (rewrite map_length; lia).
      apply (List.map_nth (fun st => detected (snk st))). }
    destruct (K3 s Hs) as (n & DO & Hn). exists n. split; [|auto].
    assert (s_dim (detected (snk (stmt_of q1 s))) = s_dim (stmt_of q1 s) /\ s_dim_orig (detected (snk (stmt_of q1 s))) = s_dim_orig (stmt_of q1 s) /\
      s_domain (detected (snk (stmt_of q1 s))) = s_domain (stmt_of q1 s)) as (X1 & X2 & X3).
    { unfold snk. generalize (max_nrows (p_stmts q1) - mnrows (s_trans (stmt_of q1 s)))%nat. intros m. induction m as [|m (I1 & I2 & I3)]; [auto|]. cbn [Nat.iter]. auto. }
    unfold dom_ok in *. rewrite X1, X2, X3. exact DO.
Qed.

Lemma dinv_init : wf_core pr0 -> dinv pr0 [].
Proof.
  intros W. split; [auto|]. split; [auto|]. intros s Hs. exists 0%nat. split; [|destruct s; simpl; lia].
  destruct (proj1 W _ (stmt_of_in pr0 s Hs)) as (WC & _). unfold wf_cols in WC.
  split; [reflexivity|]. split; [reflexivity|]. destruct WC as (A & B & C & D & E & F). split; [first [exact E|lia]|]. split; [apply D|].
  cbn [repeat]. transitivity (rows (s_domain (stmt_of pr0 s))).
  - generalize (rows (s_domain (stmt_of pr0 s))). intros l. induction l as [|x l IH]; [reflexivity|]. cbn [filter]. change (negb (has_tile 0 x)) with true. cbn [negb]. rewrite IH. reflexivity.
  - symmetry. transitivity (map (fun x : row => x) (rows (s_domain (stmt_of pr0 s)))); [|apply map_id]. apply map_ext. intros []. reflexivity.
Qed.
End Domains.

(** Removing the tile iterators restores the domain. *)
Lemma normalize_domain pr0 pr s sched pr' n : (s < length (p_stmts pr))%nat ->
  dom_ok (stmt_of pr0 s) (stmt_of pr s) (p_npar pr) n -> s_dim_orig (stmt_of pr0 s) = s_dim (stmt_of pr0 s) ->
  ncols (s_domain (stmt_of pr0 s)) = (s_dim (stmt_of pr0 s) + p_npar pr + 1)%nat ->
  mncols (s_trans (stmt_of pr s)) = ncols (s_domain (stmt_of pr s)) ->
  normalize_domain_schedule pr s = (sched, pr') ->
  s_domain (stmt_of pr' s) = s_domain (stmt_of pr0 s).
Proof.
  intros Hs (D1 & D2 & D3 & D4 & D5) O NC WC E. destruct (normalize_eq pr s Hs) as (q & E' & _ & _ & _ & ED & _); auto; try lia.
  rewrite E' in E. inversion E; subst. rewrite ED.
  replace (s_dim (stmt_of pr s) - s_dim_orig (stmt_of pr s))%nat with n by lia. rewrite D5, map_map.
  rewrite D2, O. rewrite <- NC. destruct (s_domain (stmt_of pr0 s)) as [c l]. cbn [ncols rows]. f_equal.
  transitivity (map (fun x : row => x) l); [|apply map_id]. apply map_ext. intros [e k]. unfold map_coef. cbn [is_eq coef]. f_equal.
  rewrite skipn_app, repeat_length, Nat.sub_diag, skipn_all2 by (rewrite repeat_length; lia). reflexivity.
Qed.
