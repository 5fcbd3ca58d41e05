(** * Proofs about the search for diamond tiles. *)
From Coq Require Import ZArith QArith List Bool Lia Arith Sorted.
From Verif Require Import SpecLinear SpecMatrix MathModel ConstraintsModel VecProofs EditProofs FarkasProofs SumProofs SpecProg SpecTile SpecDriver SpecGraph GraphModel FrameworkModel
  FrameworkProofs HypProofs ProgModel SimplifyProofs DepProofs ProgProofs DriverModel DriverProofs TileModel TileProofs IssProofs LoopModel LoopProofs LoopProofs2 LoopProofs3 LoopProofs4 DiamondModel DiamondProofs IntraModel SpecCone ConeModel.
Import ListNotations.
Open Scope Z_scope.

(** ** Rows given by positions and values *)

Lemma row_with_aff l : forall r x, length r = S (length x) -> NoDup (map fst l) ->
  (forall e, In e l -> (fst e < length r)%nat /\ nth (fst e) r 0 = 0) ->
  aff (fold_left (fun r e => set_nth (fst e) (snd e) r) l r) x =
  aff r x + fold_right (fun e a => snd e * nth (fst e) (x ++ [1]) 0 + a) 0 l.
Proof.
  induction l as [|[k v] l IH]; intros r x Lr ND H; cbn [fold_left fold_right fst snd]; [lia|].
  cbn [map fst] in ND. inversion ND as [|? ? N1 N2]; subst.
  destruct (H (k, v) (or_introl eq_refl)) as [H1 H2]. cbn [fst] in H1, H2. rewrite IH.
  - unfold aff at 1. rewrite dot_set_nth by (rewrite ?app_length; cbn; lia). unfold aff. rewrite H2. lia.
  - rewrite set_nth_length. auto.
  - auto.
  - intros e He. rewrite set_nth_length. destruct (H e (or_intror He)) as [E1 E2]. split; auto.
    rewrite nth_set_nth_neq; auto. intros X. apply N1. rewrite <- X. apply in_map. auto.
Qed.

Lemma aff_repeat0' n x : aff (repeat 0 n) x = 0.
Proof. unfold aff. apply dot_repeat0_l. Qed.

Lemma row_with_value n l x : n = S (length x) -> NoDup (map fst l) -> (forall e, In e l -> (fst e < n)%nat) ->
  aff (row_with n l) x = fold_right (fun e a => snd e * nth (fst e) (x ++ [1]) 0 + a) 0 l.
Proof.
  intros -> ND H. unfold row_with. rewrite row_with_aff; auto; rewrite ?repeat_length; auto.
  - rewrite aff_repeat0'. lia.
  - intros e He. split; auto. apply nth_repeat.
Qed.

Lemma row_with_length n l : length (row_with n l) = n.
Proof.
  unfold row_with. assert (forall r, length (fold_left (fun r e => set_nth (fst e) (snd e) r) l r) = length r) as K.
  { induction l as [|e l IH]; intros r; cbn [fold_left]; auto. rewrite IH, set_nth_length. auto. }
  rewrite K, repeat_length. auto.
Qed.

(** ** The system of the cone *)

Lemma fold_lb_ncols (f : cst -> nat -> cst) l : (forall c i, wf_cst c -> wf_cst (f c i) /\ ncols (f c i) = ncols c) ->
  forall c, wf_cst c -> wf_cst (fold_left f l c) /\ ncols (fold_left f l c) = ncols c.
Proof.
  intros H. induction l as [|i l IH]; intros c W; cbn [fold_left]; auto. destruct (H c i W) as [A B]. destruct (IH _ A) as [C D].
  split; auto. congruence.
Qed.

Lemma cone_bounds_wf pr : wf_cst (cone_bounds pr) /\ ncols (cone_bounds pr) = cst_width pr.
Proof.
  unfold cone_bounds.
  assert (wf_cst (universe (cst_width pr))) as W0. { split; cbn. unfold cst_width. lia. intros r []. }
  destruct (fold_lb_wf (seq 0 (p_npar pr + 1)) 0 _ W0) as [W1 N1].
  assert (forall c s, wf_cst c -> let c' := add_lb (fold_left (fun c i => add_lb c (stmt_offset pr s + i) (-4)) (seq 0 (p_nvar pr)) c) (stmt_offset pr s + p_nvar pr) 0 in
    wf_cst c' /\ ncols c' = ncols c) as K.
  { intros c s W.
    destruct (fold_lb_ncols (fun c i => add_lb c (stmt_offset pr s + i) (-4)) (seq 0 (p_nvar pr))
      ltac:(intros c' i W'; apply (fold_lb_wf [(stmt_offset pr s + i)%nat] (-4) c' W')) c W) as [A B].
    destruct (fold_lb_wf [(stmt_offset pr s + p_nvar pr)%nat] 0 _ A) as [C D]. cbn [fold_left] in C, D. split; [auto|congruence]. }
  destruct (fold_lb_ncols _ (seq 0 (length (p_stmts pr))) K _ W1) as [A B]. split; auto. rewrite B, N1. reflexivity.
Qed.

Lemma offset_lt pr s : (s < length (p_stmts pr))%nat -> (stmt_offset pr s + p_nvar pr < cst_width pr - 1)%nat.
Proof. intros H. unfold stmt_offset, cst_width. nia. Qed.

Section System.
Variables (pr : prog) (full : bool) (b : pband) (faces : list (list Z)) (evict ccpos : nat) (base : cst).
Let l := l_stmts (pb_loop b).
Let n := length l.
Hypothesis Wb : wf_cst base.
Hypothesis Nb : ncols base = cst_width pr.

Lemma lambda_cst_wf : wf_cst (lambda_cst pr full b faces evict ccpos).
Proof.
  split; cbn [lambda_cst ncols rows]. unfold lambda_width, cst_width. lia.
  intros r Hr. apply in_app_or in Hr as [Hr|Hr].
  - unfold lambda_lbs in Hr. apply in_flat_map in Hr as (i & _ & Hr). apply in_map_iff in Hr as (j & <- & _). cbn [coef]. apply row_with_length.
  - apply in_flat_map in Hr as (p & _ & Hr). apply in_map_iff in Hr as (j & <- & _). unfold lambda_eq. cbn [coef]. apply row_with_length.
Qed.

Lemma cone_system_wf : wf_cst (cone_system pr full b faces evict ccpos base).
Proof.
  unfold cone_system. destruct (cone_bounds_wf pr) as [C1 C2]. destruct (DriverProofs.cst_add_wf base (cone_bounds pr) Wb C1 ltac:(congruence)) as [A1 A2].
  apply DriverProofs.cst_add_wf; [apply iter_add_dim_wf; exact A1|apply lambda_cst_wf|]. rewrite iter_add_dim_ncols, A2, Nb. cbn [lambda_cst ncols]. unfold lambda_width. fold l n. lia.
Qed.

Lemma cone_mem x : mem (cone_system pr full b faces evict ccpos base) x ->
  S (length x) = lambda_width pr n /\ mem base (firstn (cst_width pr - 1) x) /\
  forall r, In r (rows (lambda_cst pr full b faces evict ccpos)) -> holds x r.
Proof.
  intros M. unfold cone_system in M. destruct (cone_bounds_wf pr) as [C1 C2].
  destruct (DriverProofs.cst_add_wf base (cone_bounds pr) Wb C1 ltac:(congruence)) as [A1 A2].
  apply cst_add_mem in M as [M1 M2].
  2:{ rewrite iter_add_dim_ncols, A2, Nb. cbn [lambda_cst ncols]. unfold lambda_width. fold l n. lia. }
  destruct M2 as [L M2]. cbn [lambda_cst ncols] in L. fold l n in L. split; [lia|]. split; [|exact M2].
  assert (0 < cst_width pr)%nat as Wp by (unfold cst_width; lia).
  rewrite <- (firstn_skipn (cst_width pr - 1) x), <- (app_nil_r (skipn _ x)) in M1. unfold lambda_width in L.
  apply iter_add_dim_mem' in M1; auto.
  - rewrite app_nil_r in M1. apply cst_add_mem in M1 as [M1 _]; auto. congruence.
  - rewrite firstn_length, Nb. lia.
  - rewrite skipn_length. fold l n. lia.
Qed.

(** What the equations say. *)
Lemma cone_value x i s : mem (cone_system pr full b faces evict ccpos base) x ->
  (i < n)%nat -> s = nth i l 0%nat -> (s < length (p_stmts pr))%nat ->
  let ks := cone_rows full b evict ccpos (stmt_of pr s) in
  (length ks < p_nvar pr)%nat ->
  exists l0 ls, 1 <= l0 /\ length ls = length ks /\ (forall v, In v ls -> 1 <= v) /\
    forall j, (j < p_nvar pr)%nat ->
      l0 * nth j (nth i faces []) 0 = nth (stmt_offset pr s + j) x 0 + dot ls (map (fun k => mget (s_trans (stmt_of pr s)) k j) ks).
Proof.
  intros M Hi Es Hs ks Hk. apply cone_mem in M as (L & _ & M). pose proof (offset_lt pr s Hs) as OF.
  assert (forall j, (j < p_nvar pr)%nat -> 1 <= nth (lambda_offset pr i + j) x 0) as LB.
  { intros j Hj. assert (lambda_offset pr i + j < lambda_width pr n - 1)%nat as HL by (unfold lambda_offset, lambda_width, cst_width; nia).
    assert (holds x (mkRow false (row_with (lambda_width pr n) [((lambda_offset pr i + j)%nat, 1); ((lambda_width pr n - 1)%nat, -1)]))) as H.
    { apply M. cbn [lambda_cst rows]. apply in_or_app. left. fold l n. unfold lambda_lbs. apply in_flat_map. exists i. split; [apply in_seq; lia|].
      apply in_map_iff. exists j. split; auto. apply in_seq. lia. }
    unfold holds in H. cbn [is_eq coef] in H. rewrite row_with_value in H; auto.
    - cbn [fold_right fst snd] in H. rewrite app_nth1 in H by lia. rewrite app_nth2 in H by lia.
      replace (lambda_width pr n - 1 - length x)%nat with 0%nat in H by lia. cbn [nth] in H. lia.
    - cbn [map fst]. constructor; [intros [X|[]]; lia|]. constructor; [intros []|constructor].
    - cbn. intros e [<-|[<-|[]]]; cbn; lia. }
  exists (nth (lambda_offset pr i) x 0), (map (fun q => nth (lambda_offset pr i + q + 1) x 0) (seq 0 (length ks))).
  split. { specialize (LB 0%nat ltac:(lia)). rewrite Nat.add_0_r in LB. auto. }
  split; [rewrite map_length, seq_length; auto|]. split.
  { intros v Hv. apply in_map_iff in Hv as (q & <- & Hq). apply in_seq in Hq. rewrite <- Nat.add_assoc. apply LB. lia. }
  intros j Hj.
  assert (holds x (lambda_eq pr full b faces evict ccpos i s j)) as H.
  { apply M. cbn [lambda_cst rows]. apply in_or_app. right. fold l n. apply in_flat_map. exists (i, s). split.
    - apply combine_seq_in. rewrite Nat.sub_0_r. split; [lia|]. rewrite Es. apply nth_error_nth'. auto.
    - apply in_map_iff. exists j. split; auto. apply in_seq. lia. }
  unfold holds, lambda_eq in H. cbn [is_eq coef] in H. fold l n ks in H.
  assert (lambda_offset pr i + length ks < lambda_width pr n - 1)%nat as HL by (unfold lambda_offset, lambda_width, cst_width; nia).
  assert (cst_width pr - 1 <= lambda_offset pr i)%nat as HO by (unfold lambda_offset, cst_width; nia).
  assert (map fst (combine (seq 0 (length ks)) ks) = seq 0 (length ks)) as MF.
  { clear. generalize 0%nat. induction ks; intros m; cbn; auto. f_equal. apply IHks. }
  assert (map fst (map (fun q : nat * nat => ((lambda_offset pr i + fst q + 1)%nat, mget (s_trans (stmt_of pr s)) (snd q) j)) (combine (seq 0 (length ks)) ks))
          = map (fun q => (lambda_offset pr i + q + 1)%nat) (seq 0 (length ks))) as MF2.
  { rewrite map_map. rewrite <- MF at 2. rewrite map_map. reflexivity. }
  rewrite row_with_value in H; auto.
  - cbn [app fold_right fst snd] in H. rewrite (app_nth1 x) in H by lia. rewrite (app_nth1 x) in H by lia.
    rewrite fold_right_app in H. cbn [fold_right fst snd] in H.
    assert (forall k0 f z, (forall q, (q < length f)%nat -> (lambda_offset pr i + (k0 + q) + 1 < length x)%nat) ->
      fold_right (fun e a => snd e * nth (fst e) (x ++ [1]) 0 + a) z
        (map (fun q : nat * nat => ((lambda_offset pr i + fst q + 1)%nat, mget (s_trans (stmt_of pr s)) (snd q) j)) (combine (seq k0 (length f)) f)) =
      dot (map (fun q => nth (lambda_offset pr i + q + 1) x 0) (seq k0 (length f))) (map (fun k => mget (s_trans (stmt_of pr s)) k j) f) + z) as K.
    { clear. intros k0 f z. revert k0. induction f as [|k f IH]; intros k0 Hq; cbn [length seq combine map fold_right dot fst snd]; [lia|].
      rewrite IH. 2:{ intros q Q. specialize (Hq (S q)). cbn in Hq. replace (S k0 + q)%nat with (k0 + S q)%nat by lia. apply Hq. lia. }
      rewrite app_nth1. 2:{ specialize (Hq 0%nat). cbn in Hq. rewrite Nat.add_0_r in Hq. apply Hq. lia. } lia. }
    rewrite K in H. 2:{ intros q Q. cbn [Nat.add]. lia. } lia.
  - rewrite !map_app, MF2. cbn [map fst app]. apply NoDup_cons_iff. split.
    { cbn. rewrite in_app_iff. cbn. intros [X|[X|[X|[]]]]; [lia| |lia]. apply in_map_iff in X as (q & X & _). lia. }
    apply NoDup_cons_iff. split.
    { rewrite in_app_iff. cbn. intros [X|[X|[]]]; [|lia]. apply in_map_iff in X as (q & X & _). lia. }
    assert (forall a c, (forall q, In q a -> lambda_offset pr i + q + 1 <> c)%nat -> NoDup a -> NoDup (map (fun q => (lambda_offset pr i + q + 1)%nat) a ++ [c])) as ND.
    { clear. intros a c Hc. induction 1 as [|q a Hq _ IH]; cbn; [repeat constructor; simpl; tauto|]. constructor.
      - rewrite in_app_iff. intros [X|[X|[]]].
        + apply in_map_iff in X as (q' & X & Y). assert (q' = q) by lia. subst. auto.
        + apply (Hc q); simpl; auto.
      - apply IH. intros; apply Hc; simpl; auto. }
    apply ND; [|apply seq_NoDup]. intros q Hq. apply in_seq in Hq. lia.
  - intros e He. cbn [app] in He. destruct He as [<-|[<-|He]]; cbn [fst]; try lia. apply in_app_or in He as [He|[<-|[]]]; cbn [fst]; try lia.
    apply (in_map fst) in He. rewrite MF2 in He. apply in_map_iff in He as (q & <- & Hq). apply in_seq in Hq. lia.
Qed.
End System.

(** ** Dependences between statements with zeros on padded loops *)

Definition pad_at (pr : prog) (c : point) (s : nat) : Prop :=
  forall k, (k < p_nvar pr)%nat -> nth k (s_orig (stmt_of pr s)) true = false -> nth (stmt_offset pr s + k) c 0 = 0.

Lemma pad_col_at pr s j c : pad_at pr c s -> pad_col pr s j = true -> nth j c 0 = 0.
Proof.
  intros P H. unfold pad_col in H. apply andb_true_iff in H as [H H3]. apply andb_true_iff in H as [H1 H2].
  apply Nat.leb_le in H1. apply Nat.ltb_lt in H2. apply negb_true_iff in H3.
  specialize (P (j - stmt_offset pr s)%nat ltac:(lia) H3). replace (stmt_offset pr s + (j - stmt_offset pr s))%nat with j in P by lia. auto.
Qed.

(** Zeroed columns do not matter. *)
Lemma zero_pads_holds pr d cc c : pad_at pr c (d_src d) -> pad_at pr c (d_dst d) -> wf_cst cc -> wf_dep pr d ->
  ncols cc = cst_width pr -> mem (zero_pads pr d cc) c -> mem cc c.
Proof.
  intros P1 P2 [W1 W2] (D1 & D2 & _) Hn [L M]. cbn [zero_pads ncols rows] in L, M. split; auto.
  intros r Hr. specialize (M _ (in_map _ _ _ Hr)). revert M. unfold holds, map_coef. cbn [is_eq coef].
  assert (aff (map (fun j => if pad_col pr (d_src d) j || (negb (d_src d =? stmt_offset pr (d_dst d))%nat && pad_col pr (d_dst d) j) then 0 else nth j (coef r) 0) (seq 0 (ncols cc))) c
          = aff (coef r) c) as ->; auto.
  specialize (W2 r Hr). unfold aff.
  assert (forall j, nth j (c ++ [1]) 0 = if (j <? length c)%nat then nth j c 0 else if (j =? length c)%nat then 1 else 0) as NC.
  { intros j. destruct (Nat.ltb_spec j (length c)); [apply app_nth1; auto|]. rewrite app_nth2 by auto.
    destruct (Nat.eqb_spec j (length c)) as [->|]; [rewrite Nat.sub_diag; auto|]. apply nth_overflow. cbn. lia. }
  assert (forall (f : nat -> Z) a (y : list Z) k, length a = length y ->
    (forall j, (j < length a)%nat -> f (k + j)%nat = nth j a 0 \/ (f (k + j)%nat = 0 /\ nth j y 0 = 0)) ->
    dot (map f (seq k (length a))) y = dot a y) as G.
  { clear. intros f a. induction a as [|v a IH]; intros [|w y] k L H; cbn [length seq map dot] in *; auto; try lia.
    rewrite IH by (try lia; intros j Hj; specialize (H (S j) ltac:(lia)); cbn [nth] in H; rewrite Nat.add_succ_r in H; exact H).
    destruct (H 0%nat ltac:(lia)) as [E|[E1 E2]]; rewrite Nat.add_0_r in *; cbn [nth] in *; [rewrite E; auto|]. rewrite E1, E2. lia. }
  rewrite <- W2. apply G; [rewrite app_length; cbn; lia|].
  intros j Hj. cbn [Nat.add]. rewrite NC.
  pose proof (pad_col_last pr _ D1) as L1. pose proof (pad_col_last pr _ D2) as L2. rewrite Hn in *.
  destruct (pad_col pr (d_src d) j) eqn:E1; cbn [orb].
  - right. split; auto. destruct (Nat.ltb_spec j (length c)); [apply (pad_col_at pr (d_src d)); auto|].
    exfalso. replace j with (cst_width pr - 1)%nat in E1 by lia. congruence.
  - destruct (pad_col pr (d_dst d) j) eqn:E2; [|rewrite andb_false_r; auto]. destruct (negb _); cbn [andb]; auto.
    right. split; auto. destruct (Nat.ltb_spec j (length c)); [apply (pad_col_at pr (d_dst d)); auto|].
    exfalso. replace j with (cst_width pr - 1)%nat in E2 by lia. congruence.
Qed.

Lemma perm_sound_at o skip pr c i d : wf_prog pr -> padded pr -> pad_at pr c (d_src d) -> pad_at pr c (d_dst d) ->
  mem (get_permutability_constraints o skip pr) c ->
  nth_error (p_deps pr) i = Some d -> skip i = false -> d_sat d = false -> d_rar d = false ->
  forall s t p, instance pr d s t p -> aff (zhyp pr c (d_src d)) s <= aff (zhyp pr c (d_dst d)) t.
Proof.
  intros W P Z1 Z2 M Hi Sk Sa Ra s t p In.
  assert (padded_dep pr d) as PD by (apply padded_dep_intro; auto; eapply nth_error_In; eauto).
  assert (S (length c) = cst_width pr) as Lc by (destruct M as [M _]; rewrite (proj2 (perm_cst_wf o skip pr)) in M; auto).
  apply qmem_zpoint in M. apply (proj1 (perm_cst_spec o skip pr (zpoint c))) in M as [_ M].
  specialize (M i d Hi). unfold selected in M. rewrite Sk, Sa, Ra, andb_false_r in M. specialize (M eq_refl).
  apply qmem_zpoint in M. unfold dep_cst in M. apply zero_pads_holds in M; auto; [|apply dep_cst_raw_wf|apply PD].
  apply qmem_zpoint in M. apply qmem_rows in M as [M _]. rewrite Ra in M.
  apply (valid_sound pr d 0 (zpoint c) PD) in M; [|rewrite zpoint_length; auto].
  pose proof (preserves_int pr d 0 c PD P M s t p In). lia.
Qed.

Lemma feautrier_sound_at o pr sl c d : wf_prog pr -> padded pr -> pad_at pr c (d_src d) -> pad_at pr c (d_dst d) ->
  mem (get_feautrier_schedule_constraints o pr sl) c ->
  In d (p_deps pr) -> In (d_src d) sl -> In (d_dst d) sl -> d_rar d = false ->
  forall s t p, instance pr d s t p -> aff (zhyp pr c (d_src d)) s + 1 <= aff (zhyp pr c (d_dst d)) t.
Proof.
  intros W P Z1 Z2 M Hi S1 S2 Ra s t p In.
  assert (padded_dep pr d) as PD by (apply padded_dep_intro; auto).
  apply qmem_zpoint in M. apply (proj1 (feautrier_spec o pr sl (zpoint c))) in M as [Lc M]. rewrite zpoint_length in Lc.
  specialize (M d Hi S1 S2 (or_intror Ra)). apply qmem_zpoint in M. unfold feautrier_cst_dep in M.
  apply zero_pads_holds in M; auto; [|apply feautrier_raw_wf|apply PD].
  apply qmem_zpoint in M. rewrite Ra in M. apply (valid_sound pr d 1 (zpoint c) PD) in M; [|rewrite zpoint_length; auto].
  apply (preserves_int pr d 1 c PD P M s t p In).
Qed.

(** ** The statements of a loop are listed in order *)

Lemma sorted_filter {A} (R : A -> A -> Prop) f l : StronglySorted R l -> StronglySorted R (filter f l).
Proof.
  induction 1 as [|a l _ IH H]; cbn; [constructor|]. destruct (f a); auto. constructor; auto.
  rewrite Forall_forall in *. intros x Hx. apply filter_In in Hx as [Hx _]. auto.
Qed.
Lemma sorted_seq n : forall k, StronglySorted lt (seq k n).
Proof. induction n as [|n IH]; intros k; cbn; constructor; auto. rewrite Forall_forall. intros x Hx. apply in_seq in Hx. lia. Qed.

Lemma loops_sorted pr m : forall stmts depth lp, StronglySorted lt stmts -> In lp (loops_under pr m stmts depth) -> StronglySorted lt (l_stmts lp).
Proof.
  induction m as [|m IH]; intros stmts depth lp H Hl; cbn [loops_under] in Hl; [contradiction|].
  destruct (existsb _ stmts).
  - apply in_app_or in Hl as [Hl|[<-|[]]]; [eapply IH; eauto|]. cbn. apply sorted_filter. auto.
  - apply in_flat_map in Hl as (g & Hg & Hl). apply (regroup_In (fun s => row_const (stmt_of pr s) depth)) in Hg as (s & _ & ->).
    eapply IH; [|eauto]. apply sorted_filter. auto.
Qed.
Lemma all_loops_sorted pr lp : In lp (get_all_loops pr) -> StronglySorted lt (l_stmts lp).
Proof. intros H. eapply loops_sorted; [|exact H]. apply sorted_seq. Qed.

Lemma list_member s l : is_stmt_in_stmt_list s l = true <-> In s l.
Proof.
  unfold is_stmt_in_stmt_list. rewrite existsb_exists. split.
  - intros (y & Hy & E). apply Nat.eqb_eq in E. subst; auto.
  - intros H. exists s. split; auto. apply Nat.eqb_refl.
Qed.

Lemma filter_sorted l m : forall k, StronglySorted lt l -> (forall s, In s l -> (k <= s < k + m)%nat) ->
  filter (fun s => is_stmt_in_stmt_list s l) (seq k m) = l.
Proof.
  revert l. induction m as [|m IH]; intros l k H B; cbn [seq filter].
  - destruct l as [|a l]; auto. specialize (B a (or_introl eq_refl)). lia.
  - destruct (is_stmt_in_stmt_list k l) eqn:E.
    + apply list_member in E. destruct l as [|a l]; [contradiction|]. inversion H as [|? ? H1 H2]; subst. rewrite Forall_forall in H2.
      assert (a = k) as ->. { destruct E as [E|E]; auto. specialize (H2 k E). specialize (B a (or_introl eq_refl)). lia. }
      f_equal. transitivity (filter (fun s => is_stmt_in_stmt_list s l) (seq (S k) m)); [|apply IH; auto].
      * apply filter_ext_in. intros x Hx. apply in_seq in Hx. unfold is_stmt_in_stmt_list. cbn.
        destruct (Nat.eqb_spec x k); [lia|]. auto.
      * intros s Hs. specialize (H2 s Hs). specialize (B s (or_intror Hs)). lia.
    + apply IH; auto. intros s Hs. specialize (B s Hs). destruct (Nat.eq_dec s k) as [->|]; [|lia].
      apply list_member in Hs. congruence.
Qed.

(** ** The faces *)

Lemma hyp_row_nth pr x s j : (j < p_nvar pr)%nat -> nth j (hyp_row pr x s) 0 = nth (stmt_offset pr s + j) x 0.
Proof. intros H. unfold hyp_row. rewrite app_nth1 by (rewrite map_length, seq_length; auto). rewrite nth_map_seq by auto. auto. Qed.

Lemma feautrier_wf o pr sl : wf_cst (get_feautrier_schedule_constraints o pr sl) /\ ncols (get_feautrier_schedule_constraints o pr sl) = cst_width pr.
Proof.
  unfold get_feautrier_schedule_constraints. set (step := fun (acc : cst * Z) (d : dep) => _).
  assert (forall l g inc, wf_cst g -> ncols g = cst_width pr ->
     let g' := fst (fold_left step l (g, inc)) in wf_cst g' /\ ncols g' = cst_width pr) as K.
  { induction l as [|d l IH]; intros g inc W N; [simpl; auto|]. cbn [fold_left]. unfold step at 2 4.
    destruct (_ || _); [apply IH; auto|]. cbv zeta.
    destruct (feautrier_dep_wf pr d) as [W1 N']. destruct (DriverProofs.cst_add_wf g (feautrier_cst_dep pr d) W W1 ltac:(congruence)) as [W2 N2].
    match goal with |- context[if ?b then (simplify _, _) else _] => destruct b end; apply IH; auto; [apply simplify_wf; auto|rewrite simplify_ncols; auto]. }
  destruct (K (p_deps pr) (universe (cst_width pr)) 0) as [A B].
  - split; simpl. unfold cst_width; lia. intros; contradiction.
  - auto.
  - split; [apply simplify_wf; auto|rewrite simplify_ncols; auto].
Qed.

Lemma bounding_rows o pr : rows (get_coeff_bounding_constraints o pr) <> [].
Proof.
  intros H. destruct (bounding_wf o pr) as [_ N].
  assert (mem (get_coeff_bounding_constraints o pr) (repeat (-1) (cst_width pr - 1))) as M.
  { split; [|rewrite H; intros r []]. rewrite repeat_length, N. unfold cst_width. lia. }
  apply bounding_mem in M as (_ & M & _). specialize (M (-1)). enough (0 <= -1) by lia. apply M. replace (cst_width pr - 1)%nat with (S (cst_width pr - 2)) by (unfold cst_width; lia). left. auto.
Qed.

Section Faces.
Variables (solve : prog -> cst -> option point) (o : options) (pr : prog) (b : pband).
Hypothesis SOL : solver_sound solve.
Hypothesis O : orig_first pr.

Lemma faces_spec faces : get_face_with_concurrent_start solve o pr b = Some faces ->
  exists sol, mem (get_feautrier_schedule_constraints o pr (l_stmts (pb_loop b))) sol /\ zpadding_zero pr sol /\
    mrows faces = map (hyp_row pr sol) (filter (fun s => is_stmt_in_stmt_list s (l_stmts (pb_loop b))) (seq 0 (length (p_stmts pr)))) /\
    mncols faces = (p_nvar pr + p_npar pr + 1)%nat /\
    forall r, In r (mrows faces) -> length (filter (fun v => negb (v =? 0)%Z) (firstn (p_nvar pr) r)) = 1%nat.
Proof.
  unfold get_face_with_concurrent_start.
  destruct (prog_constraints_lexmin solve pr _) as [sol|] eqn:E; [|discriminate].
  destruct (forallb _ _) eqn:F; [|discriminate]. intros H. injection H as <-. exists sol.
  destruct (bounding_wf o pr) as [B1 B2].
  assert (wf_cst (get_feautrier_schedule_constraints o pr (l_stmts (pb_loop b))) /\ ncols (get_feautrier_schedule_constraints o pr (l_stmts (pb_loop b))) = cst_width pr) as [F1 F2] by apply feautrier_wf.
  destruct (DriverProofs.cst_add_wf _ _ F1 B1 ltac:(congruence)) as [W1 W2].
  assert (wf_orig pr) as Ho by (apply orig_first_wf; auto).
  apply (lexmin_sound pr Ho) in E as [M Z]; auto.
  - apply cst_add_mem in M as [M _]; [|congruence]. split; auto. split; auto. split; [reflexivity|]. split; [reflexivity|].
    rewrite forallb_forall in F. intros r Hr. apply Nat.eqb_eq. apply F. auto.
  - intros st Hst. apply (orig_first_mask pr st O Hst).
  - cbn [cst_add rows]. intros X. apply app_eq_nil in X as [_ X]. exact (bounding_rows o pr X).
Qed.
End Faces.

(** ** One band *)

Lemma hyp_row_firstn_sol pr x s : (s < length (p_stmts pr))%nat -> hyp_row pr (firstn (cst_width pr - 1) x) s = hyp_row pr x s.
Proof.
  intros Hs. pose proof (offset_lt pr s Hs) as H. unfold hyp_row. f_equal; [|f_equal; f_equal].
  - apply map_ext_in. intros k Hk. apply in_seq in Hk. apply nth_firstn_lt. lia.
  - apply nth_firstn_lt. lia.
Qed.

(** The rows of the band statements are zero on padded loops. *)
Definition rows_pad (pr : prog) : Prop := forall s k j, (s < length (p_stmts pr))%nat -> (j < p_nvar pr)%nat ->
  nth j (s_orig (stmt_of pr s)) true = false -> nth j (nth k (mrows (s_trans (stmt_of pr s))) []) 0 = 0.

Lemma find_in_range {A} f (l : list A) x : find f l = Some x -> In x l.
Proof. intros H. apply find_some in H. tauto. Qed.

Lemma evict_range pr b faces : (1 <= pb_width b)%nat ->
  (l_depth (pb_loop b) <= find_hyperplane_to_be_evicted pr b faces < l_depth (pb_loop b) + pb_width b)%nat.
Proof.
  intros H. unfold find_hyperplane_to_be_evicted. destruct (find _ _) as [d|] eqn:E; [|lia].
  apply find_in_range in E. apply in_seq in E. lia.
Qed.

Lemma cone_rows_range pr full b evict ccpos s : (ccpos < l_depth (pb_loop b) + pb_width b)%nat -> (l_depth (pb_loop b) <= ccpos)%nat ->
  forall k, In k (cone_rows full b evict ccpos (stmt_of pr s)) -> (l_depth (pb_loop b) <= k < l_depth (pb_loop b) + pb_width b)%nat.
Proof.
  intros H1 H2 k. unfold cone_rows. destruct full.
  - intros H. apply filter_In in H as [H _]. apply in_seq in H. lia.
  - intros [<-|[]]. lia.
Qed.

Lemma dot_zero_r' (a b : list Z) : (forall v, In v b -> v = 0) -> dot a b = 0.
Proof. revert a. induction b as [|v b IH]; intros [|u a] H; cbn; auto. rewrite IH by (intros; apply H; simpl; auto). rewrite (H v) by (simpl; auto). lia. Qed.

Lemma nth_map_in (f : nat -> list Z) (l : list nat) i : (i < length l)%nat -> nth i (map f l) [] = f (nth i l 0%nat).
Proof. intros H. rewrite (nth_indep _ [] (f 0%nat)) by (rewrite map_length; auto). apply List.map_nth. Qed.

Section Band.
Variables (solve : prog -> cst -> option point) (lexmin : cst -> option point) (o : options) (full : bool) (base : cst) (pr : prog) (b : pband).
Hypothesis SOL : solver_sound solve.
Hypothesis LM : lexmin_ok lexmin.
Hypothesis W : wf_prog pr.
Hypothesis P : padded pr.
Hypothesis O : orig_first pr.
Hypothesis Wb : wf_cst base.
Hypothesis Nb : ncols base = cst_width pr.
Hypothesis RP : rows_pad pr.
Hypothesis SRT : StronglySorted lt (l_stmts (pb_loop b)).
Hypothesis RNG : forall s, In s (l_stmts (pb_loop b)) -> (s < length (p_stmts pr))%nat.
Hypothesis WID : (2 <= pb_width b)%nat.
Hypothesis NV : (2 <= p_nvar pr)%nat /\ (full = true -> (pb_width b <= p_nvar pr)%nat).

Lemma full_rows evict ccpos s : In evict (seq (l_depth (pb_loop b)) (pb_width b)) ->
  (length (cone_rows full b evict ccpos (stmt_of pr s)) < p_nvar pr)%nat.
Proof.
  intros He. unfold cone_rows. destruct full; [|cbn; lia].
  assert (forall l (f : nat -> bool), In evict l -> f evict = false -> (length (filter f l) < length l)%nat) as K.
  { clear. induction l as [|a l IH]; intros f H E; [contradiction|]. destruct H as [->|H]; cbn.
    - rewrite E. clear. induction l as [|a l IH]; cbn; [lia|]. destruct (f a); cbn in *; lia.
    - specialize (IH f H E). destruct (f a); cbn; lia. }
  specialize (K _ (fun k => negb (k =? evict)%nat && negb (is_scalar_type (nth k (s_hyp (stmt_of pr s)) H_UNKNOWN))) He).
  cbv beta in K. rewrite (Nat.eqb_refl evict) in K. specialize (K eq_refl). rewrite seq_length in K. destruct NV as [_ NF]. specialize (NF eq_refl). lia.
Qed.

(** What a changed band gets. *)
Lemma diamond_band_spec pos hs : diamond_band solve lexmin o full base pr b = Some (pos, hs) ->
  (l_depth (pb_loop b) <= pos < l_depth (pb_loop b) + pb_width b)%nat /\
  exists sol fsol ccpos,
    hs = map (hyp_row pr sol) (l_stmts (pb_loop b)) /\ S (length sol) = cst_width pr /\ mem base sol /\
    (forall s, In s (l_stmts (pb_loop b)) -> pad_at pr sol s) /\
    mem (get_feautrier_schedule_constraints o pr (l_stmts (pb_loop b))) fsol /\ zpadding_zero pr fsol /\
    ccpos <> pos /\ (l_depth (pb_loop b) <= ccpos < l_depth (pb_loop b) + pb_width b)%nat /\
    forall s, In s (l_stmts (pb_loop b)) ->
      length (filter (fun v => negb (v =? 0)%Z) (firstn (p_nvar pr) (hyp_row pr fsol s))) = 1%nat /\
      inside_cone (p_nvar pr) (hyp_row pr fsol s) (hyp_row pr sol s)
        (map (fun k => nth k (mrows (s_trans (stmt_of pr s))) []) (cone_rows full b pos ccpos (stmt_of pr s))).
Proof.
  unfold diamond_band. destruct (negb (loses_parallelism pr b)); [discriminate|].
  destruct (get_face_with_concurrent_start solve o pr b) as [faces|] eqn:F; [|discriminate].
  destruct (all_normal pr b faces); [discriminate|].
  apply faces_spec in F as (fsol & F1 & F2 & F3 & F4 & F5); auto.
  rewrite (filter_sorted (l_stmts (pb_loop b)) (length (p_stmts pr)) 0) in F3; auto. 2:{ intros s Hs. specialize (RNG s Hs). lia. }
  pose proof (evict_range pr b faces ltac:(lia)) as ER. set (ev := find_hyperplane_to_be_evicted pr b faces) in *.
  set (cc := if (ev =? l_depth (pb_loop b))%nat then S (l_depth (pb_loop b)) else l_depth (pb_loop b)).
  assert (cc <> ev /\ l_depth (pb_loop b) <= cc < l_depth (pb_loop b) + pb_width b)%nat as [CE CR].
  { unfold cc. destruct (Nat.eqb_spec ev (l_depth (pb_loop b))); lia. }
  unfold find_cone_complement_hyperplane. destruct (lexmin _) as [sol|] eqn:E; [|discriminate]. intros H. injection H as <- <-.
  split; auto. apply LM in E; [|apply cone_system_wf; auto].
  pose proof (cone_mem pr full b (mrows faces) ev cc base Wb Nb sol E) as (L & MB & _).
  assert (S (length (firstn (cst_width pr - 1) sol)) = cst_width pr) as LS.
  { rewrite firstn_length. unfold lambda_width in L. pose proof (proj1 Wb). lia. }
  assert (forall s, In s (l_stmts (pb_loop b)) -> inside_cone (p_nvar pr) (hyp_row pr fsol s) (hyp_row pr sol s)
        (map (fun k => nth k (mrows (s_trans (stmt_of pr s))) []) (cone_rows full b ev cc (stmt_of pr s)))) as IC.
  { intros s Hs. destruct (In_nth _ _ 0%nat Hs) as (i & Hi & Ei).
    destruct (cone_value pr full b (mrows faces) ev cc base Wb Nb sol i s E Hi (eq_sym Ei) (RNG s Hs)) as (l0 & ls & A1 & A2 & A3 & A4).
    { apply full_rows. apply in_seq. lia. }
    exists l0, ls. split; auto. split; [rewrite map_length; auto|]. split; auto. intros j Hj. specialize (A4 j Hj).
    rewrite F3, nth_map_in, Ei in A4 by auto. rewrite A4, (hyp_row_nth pr sol) by auto. rewrite map_map. reflexivity. }
  exists (firstn (cst_width pr - 1) sol), fsol, cc. split.
  { apply map_ext_in. intros s Hs. symmetry. apply hyp_row_firstn_sol. auto. }
  split; auto. split; auto. split.
  { intros s Hs k Hk Ok. rewrite nth_firstn_lt. 2:{ pose proof (offset_lt pr s (RNG s Hs)). lia. }
    destruct (IC s Hs) as (l0 & ls & A1 & A2 & A3 & A4). specialize (A4 k Hk). rewrite !hyp_row_nth in A4 by auto.
    pose proof (F2 s k (RNG s Hs) Hk Ok) as Z. unfold stmt_offset in A4 at 1. rewrite Z in A4.
    rewrite dot_zero_r' in A4; [lia|]. intros v Hv. rewrite map_map in Hv. apply in_map_iff in Hv as (q & <- & _). apply RP; auto. }
  split; auto. split; auto. split; auto. split; auto. intros s Hs. split; [|rewrite hyp_row_firstn_sol by auto; auto].
  apply F5. rewrite F3. apply in_map. auto.
Qed.
End Band.

(** ** The pass *)

Lemma evict_band_map h pos l : forall q ps q' ps', NoDup l ->
  evict_band (q, ps) l pos (map h l) = Some (q', ps') ->
  p_nvar q' = p_nvar q /\ p_npar q' = p_npar q /\ p_deps q' = p_deps q /\ p_hprops q' = p_hprops q /\
  length (p_stmts q') = length (p_stmts q) /\ length ps' = length ps /\
  (forall s, In s l -> evict_stmt pos (h s) (stmt_of q s) = Some (stmt_of q' s) /\ ((s < length ps)%nat -> nth s ps' 0%nat = pos)) /\
  (forall s, ~ In s l -> stmt_of q' s = stmt_of q s /\ nth s ps' 0%nat = nth s ps 0%nat).
Proof.
  induction l as [|s l IH]; intros q ps q' ps' ND E; cbn [map evict_band] in E.
  - injection E as <- <-. repeat (split; [reflexivity|]). split; [contradiction|auto].
  - cbn [fst snd] in E. destruct (evict_stmt pos (h s) (stmt_of q s)) as [st|] eqn:ES; [|discriminate].
    assert (s < length (p_stmts q))%nat as Hs.
    { destruct (Nat.lt_ge_cases s (length (p_stmts q))); auto. exfalso. unfold stmt_of in ES. rewrite nth_overflow in ES by auto.
      unfold evict_stmt in ES. simpl in ES. discriminate. }
    inversion ND as [|? ? N1 N2]; subst. apply IH in E as (A1 & A2 & A3 & A4 & A5 & A6 & A7 & A8); auto.
    cbn [set_stmts p_nvar p_npar p_deps p_hprops p_stmts] in A1, A2, A3, A4, A5. rewrite set_nth_length in A5. rewrite set_nth_length in A6. rewrite set_nth_length in A7.
    split; [auto|]. split; [auto|]. split; [auto|]. split; [auto|]. split; [auto|]. split; [auto|]. split.
    + intros k [->|Hk].
      * destruct (A8 k N1) as [B1 B2]. rewrite B1, B2, stmt_of_set by auto. rewrite Nat.eqb_refl. split; auto. intros L. apply nth_set_nth_eq. auto.
      * destruct (A7 k Hk) as [B1 B2]. split; auto. rewrite stmt_of_set in B1 by auto. destruct (Nat.eqb_spec k s) as [->|]; [contradiction|auto].
    + intros k Hk. assert (k <> s) as Nk by (intros ->; apply Hk; simpl; auto).
      destruct (A8 k) as [B1 B2]; [intros X; apply Hk; simpl; auto|]. rewrite B1, B2, stmt_of_set by auto.
      destruct (Nat.eqb_spec k s); [contradiction|]. split; auto. apply nth_set_nth_neq. auto.
Qed.

(** [q] is [pr] with some rows replaced by rows without padding. *)
Definition evq (pr q : prog) : Prop :=
  p_nvar q = p_nvar pr /\ p_npar q = p_npar pr /\ p_deps q = p_deps pr /\ p_hprops q = p_hprops pr /\
  length (p_stmts q) = length (p_stmts pr) /\
  forall s, stmt_of q s = stmt_of pr s \/
    exists pos h, evict_stmt pos h (stmt_of pr s) = Some (stmt_of q s) /\ length h = (p_nvar pr + p_npar pr + 1)%nat /\
      forall j, (j < p_nvar pr)%nat -> nth j (s_orig (stmt_of pr s)) true = false -> nth j h 0 = 0.

Lemma evq_refl pr : evq pr pr.
Proof. repeat (split; [reflexivity|]). auto. Qed.

Lemma evict_same pos h st st' : evict_stmt pos h st = Some st' -> same_stmt st st' /\ s_hyp st' = s_hyp st.
Proof. intros E. apply evict_stmt_some in E as (_ & _ & ->). split; [|reflexivity]. unfold same_stmt. cbn. auto 10. Qed.

Lemma evq_frame pr q : evq pr q -> frame pr q.
Proof.
  intros (E1 & E2 & E3 & E4 & E5 & E6). split; [auto|]. split; [auto|]. split; [auto|]. split; [|rewrite E3; apply Forall2_same_refl].
  intros s. destruct (E6 s) as [->|(pos & h & E & _)]; [apply same_stmt_refl|]. apply evict_same in E. tauto.
Qed.

Lemma evq_hyp pr q s : evq pr q -> s_hyp (stmt_of q s) = s_hyp (stmt_of pr s).
Proof. intros (_ & _ & _ & _ & _ & E6). destruct (E6 s) as [->|(pos & h & E & _)]; auto. apply evict_same in E. tauto. Qed.

Lemma evq_wf pr q : wf_prog pr -> padded pr -> evq pr q -> wf_prog q.
Proof.
  intros [W1 W2] P E. pose proof (evq_frame pr q E) as F. destruct E as (E1 & E2 & E3 & E4 & E5 & E6). split.
  - intros st Hst. apply (In_nth _ _ dummy_stmt) in Hst as (s & Hs & <-). fold (stmt_of q s). rewrite E5 in Hs.
    pose proof (stmt_of_in pr s Hs) as In0. pose proof (W1 _ In0) as Ws. unfold wf_stmt in *. rewrite E2, E4.
    destruct (E6 s) as [->|(pos & h & E & Lh & _)]; auto. apply evict_stmt_some in E as (_ & _ & ->).
    cbn [set_evict set_trans s_orig s_dim s_trans s_domain s_reads s_writes s_hyp mncols mnrows]. unfold mnrows, wf_mat in *. cbn [mrows mncols].
    rewrite set_nth_length. destruct Ws as (A & B & C & D). split; [auto|]. split; [auto|]. split; [|auto].
    intros r Hr. apply in_set_nth in Hr as [->|Hr]; auto. rewrite Lh, B, (P _ In0). lia.
  - intros d Hd. rewrite E3 in Hd. specialize (W2 d Hd). unfold wf_dep in *. destruct F as (_ & _ & _ & F & _).
    destruct (F (d_src d)) as (-> & _). destruct (F (d_dst d)) as (-> & _). rewrite E2, E5. exact W2.
Qed.

Lemma evq_pad pr q : padding_free pr -> evq pr q -> padding_free q.
Proof.
  intros P E s k j Hs Hj Ho. pose proof (evq_frame pr q E) as F. destruct E as (E1 & E2 & E3 & E4 & E5 & E6).
  rewrite E5 in Hs. rewrite E1 in Hj. destruct F as (_ & _ & _ & F & _). destruct (F s) as (_ & _ & Fo & _). rewrite Fo in Ho.
  destruct (E6 s) as [->|(pos & h & E & _ & Zh)]; [apply P; auto|]. apply evict_stmt_some in E as (_ & L & ->).
  cbn [set_evict set_trans s_trans mrows]. destruct (Nat.eq_dec k pos) as [->|N].
  - rewrite nth_set_nth_eq by exact L. auto.
  - rewrite nth_set_nth_neq by auto. apply P; auto.
Qed.

Lemma rows_pad_eq pr : rows_pad pr <-> padding_free pr.
Proof. reflexivity. Qed.

Lemma one_nonzero n f : (n <= length f)%nat -> length (filter (fun v => negb (v =? 0)%Z) (firstn n f)) = 1%nat -> one_loop n f.
Proof.
  revert f. induction n as [|n IH]; intros f L H; [discriminate|]. destruct f as [|v f]; [cbn in L; lia|]. cbn [firstn filter] in H. cbn in L.
  destruct (Z.eqb_spec v 0) as [->|Nv]; cbn [negb] in H.
  - destruct (IH f ltac:(lia) H) as (j & A & B & C). exists (S j). split; [lia|]. split; auto. intros [|i] Hi Ni; cbn; auto. apply C; lia.
  - exists 0%nat. split; [lia|]. split; auto. cbn in H. injection H as H. intros [|i] Hi Ni; [lia|]. cbn.
    destruct (Z.eq_dec (nth i f 0) 0) as [E|E]; auto. exfalso.
    assert (In (nth i f 0) (filter (fun v => negb (v =? 0)%Z) (firstn n f))) as X.
    { apply filter_In. split; [rewrite <- (nth_firstn_lt n f i 0) by lia; apply nth_In; rewrite firstn_length; lia|].
      apply negb_true_iff, Z.eqb_neq. auto. }
    apply length_zero_iff_nil in H. rewrite H in X. contradiction.
Qed.

Section Pass.
Variables (solve : prog -> cst -> option point) (lexmin : cst -> option point) (o : options) (full : bool).
Hypothesis SOL : solver_sound solve.
Hypothesis LM : lexmin_ok lexmin.
(** [pr]: the program of the constraints; [pr1]: the same with other flags. *)
Variables (pr pr1 : prog).
Hypothesis SS : p_stmts pr1 = p_stmts pr /\ p_nvar pr1 = p_nvar pr /\ p_npar pr1 = p_npar pr /\ p_hprops pr1 = p_hprops pr /\ Forall2 same_dep (p_deps pr) (p_deps pr1).
Hypothesis W : wf_prog pr.
Hypothesis P : padded pr.
Hypothesis O : orig_first pr.
Hypothesis RP : padding_free pr.
Hypothesis NV : (2 <= p_nvar pr)%nat.
Let base := get_permutability_constraints o (fun _ => false) pr.

Definition band_fine (b : pband) : Prop :=
  StronglySorted lt (l_stmts (pb_loop b)) /\ (forall s, In s (l_stmts (pb_loop b)) -> (s < length (p_stmts pr))%nat) /\
  (2 <= pb_width b)%nat /\ (l_depth (pb_loop b) + pb_width b <= length (p_hprops pr))%nat /\ (full = true -> (pb_width b <= p_nvar pr)%nat).

Lemma frame1 : frame pr pr1.
Proof.
  destruct SS as (S1 & S2 & S3 & S4 & S5). split; [auto|]. split; [auto|]. split; [congruence|]. split; auto.
  intros s. unfold stmt_of. rewrite S1. apply same_stmt_refl.
Qed.

Lemma wf1 : wf_prog pr1.
Proof.
  destruct SS as (S1 & S2 & S3 & S4 & S5). destruct W as [W1 W2]. split.
  - intros st Hst. rewrite S1 in Hst. specialize (W1 st Hst). unfold wf_stmt in *. rewrite S3, S4. auto.
  - intros d' Hd'. destruct (Forall2_in_r _ _ _ _ S5 Hd') as (d & Hd & SD). specialize (W2 d Hd). destruct SD as (A & B & C & D & E).
    unfold wf_dep, stmt_of in *. rewrite A, B, S1, S3, D, E. auto.
Qed.

Lemma diamond_band_good q b pos hs : evq pr1 q -> band_fine b -> diamond_band solve lexmin o full base q b = Some (pos, hs) ->
  (forall s, In s (l_stmts (pb_loop b)) -> stmt_of q s = stmt_of pr1 s) ->
  exists h, hs = map h (l_stmts (pb_loop b)) /\
    diamond_rows pr full (l_stmts (pb_loop b)) (l_depth (pb_loop b)) (pb_width b) pos h /\
    (forall s, In s (l_stmts (pb_loop b)) -> forall j, (j < p_nvar pr)%nat -> nth j (s_orig (stmt_of pr s)) true = false -> nth j (h s) 0 = 0) /\
    (forall s j, (p_nvar pr <= j < p_nvar pr + p_npar pr)%nat -> nth j (h s) 0 = 0).
Proof.
  intros E (F1 & F2 & F3 & F4 & F5) H UN.
  pose proof frame1 as FR1. pose proof (evq_frame _ _ E) as FRq. pose proof (frame_trans _ _ _ FR1 FRq) as FR.
  pose proof (frame_padded _ _ FR P) as Pq. pose proof (frame_orig_first _ _ FR O) as Oq.
  pose proof (evq_wf pr1 q wf1 (frame_padded _ _ FR1 P) E) as Wq.
  destruct (perm_cst_wf o (fun _ => false) pr) as [B1 B2]. fold base in B1, B2.
  assert (p_nvar q = p_nvar pr) as Vq by apply FR. assert (p_npar q = p_npar pr) as Nq by apply FR.
  assert (length (p_stmts q) = length (p_stmts pr)) as Lq by apply FR.
  assert (padding_free pr1) as RP1. { destruct SS as (S1 & S2 & _). unfold padding_free, stmt_of in *. rewrite S1, S2. exact RP. }
  apply diamond_band_spec in H as (R & sol & fsol & cc & H1 & H2 & H3 & H4 & H5 & H6 & H7 & H8 & H9); auto.
  2:{ rewrite (frame_width _ _ FR). auto. }
  2:{ apply (evq_pad pr1); auto. }
  2:{ intros s Hs. rewrite Lq. auto. }
  2:{ rewrite Vq. auto. }
  assert (forall s, stmt_of pr1 s = stmt_of pr s) as SO by (intros s; unfold stmt_of; destruct SS as (-> & _); auto).
  exists (hyp_row q sol). split; auto. split; [|split].
  - split; auto. split; [intros s Hs; rewrite hyp_row_length, Vq, Nq; auto|]. split.
    + intros d Hd Hr Hu Hi Hj s t p Ins. pose proof Hd as Hd'. apply In_nth_error in Hd' as [i Hi'].
      assert (wf_dep pr d) as (D1 & D2 & _) by (apply W; auto).
      pose proof Ins as (L3 & L4 & L5 & _). rewrite (P _ (stmt_of_in pr _ D1)) in L3. rewrite (P _ (stmt_of_in pr _ D2)) in L4.
      rewrite !hyp_row_aff by (auto; congruence).
      assert (forall s, In s (l_stmts (pb_loop b)) -> pad_at pr sol s) as H4'.
      { intros u Hu' k Hk Ok. specialize (H4 u Hu' k). unfold stmt_offset in *. rewrite Vq, Nq in H4. apply H4; auto.
        destruct FR as (_ & _ & _ & FS & _). destruct (FS u) as (_ & _ & -> & _). auto. }
      pose proof (perm_sound_at o (fun _ => false) pr sol i d W P (H4' _ Hi) (H4' _ Hj) H3 Hi' eq_refl Hu Hr s t p Ins) as Q.
      unfold zhyp in *. rewrite Vq, Nq. exact Q.
    + exists (hyp_row q fsol), cc. split; auto. split; auto. split.
      * intros d Hd Hr Hi Hj s t p Ins.
        assert (wf_dep pr d) as (D1 & D2 & _) by (apply W; auto).
        pose proof Ins as (L3 & L4 & L5 & _). rewrite (P _ (stmt_of_in pr _ D1)) in L3. rewrite (P _ (stmt_of_in pr _ D2)) in L4.
        assert (S (length fsol) = cst_width q) as Lf by (destruct H5 as [L _]; rewrite (proj2 (feautrier_wf o q _)) in L; auto).
        rewrite !hyp_row_aff by (auto; congruence).
        assert (forall s, In s (l_stmts (pb_loop b)) -> pad_at q fsol s) as H6'.
        { intros u Hu' k Hk Ok. unfold stmt_offset. apply H6; auto. rewrite Lq. auto. }
        destruct FR as (_ & _ & _ & _ & FD). destruct (Forall2_in_l _ _ _ _ FD Hd) as (d' & Hd' & SD).
        pose proof SD as (D'1 & D'2 & D'3 & _). rewrite <- D'1, <- D'2 in *.
        assert (instance q d' s t p) as In'.
        { apply (frame_instance pr q d d' s t p (frame_trans _ _ _ FR1 FRq) SD). auto. }
        pose proof (feautrier_sound_at o q (l_stmts (pb_loop b)) fsol d' Wq Pq (H6' _ Hi) (H6' _ Hj) H5 Hd' Hi Hj ltac:(congruence) s t p In'). lia.
      * intros s Hs. destruct (H9 s Hs) as [N1 N2]. rewrite Vq in N1, N2. split; [apply one_nonzero; auto; rewrite hyp_row_length; lia|].
        exists (cone_rows full b pos cc (stmt_of pr s)). rewrite (UN s Hs), SO in N2. split; auto.
        unfold cone_rows. destruct full; auto. intros k. rewrite filter_In, in_seq, andb_true_iff, !negb_true_iff, Nat.eqb_neq. unfold loop_level, is_scalar_type.
        destruct (nth k (s_hyp (stmt_of pr s)) H_UNKNOWN); intuition congruence.
  - intros s Hs j Hj Oj. specialize (H4 s Hs j). rewrite <- Vq in Hj. specialize (H4 Hj). rewrite hyp_row_nth by auto. apply H4.
    destruct FR as (_ & _ & _ & FS & _). destruct (FS s) as (_ & _ & -> & _). auto.
  - intros s j Hj. unfold hyp_row. rewrite app_nth2 by (rewrite map_length, seq_length; lia). rewrite map_length, seq_length.
    rewrite app_nth1 by (rewrite repeat_length; lia). apply nth_repeat.
Qed.

Lemma diamond_bands_good bands : Forall band_fine bands -> forall q ps en q' ps' en', evq pr1 q ->
  (forall s, s_evict (stmt_of q s) = None -> stmt_of q s = stmt_of pr1 s) ->
  diamond_bands solve lexmin o full base bands (q, ps) en = Some (q', ps', en') ->
  evq pr1 q' /\ exists es, evict_bands (q, ps) es = Some (q', ps') /\ (en' = true <-> en = true \/ es <> []) /\
    Forall (fun e => exists b h, In b bands /\ fst (fst e) = l_stmts (pb_loop b) /\ snd e = map h (l_stmts (pb_loop b)) /\
      diamond_rows pr full (l_stmts (pb_loop b)) (l_depth (pb_loop b)) (pb_width b) (snd (fst e)) h /\
      (forall s j, (p_nvar pr <= j < p_nvar pr + p_npar pr)%nat -> nth j (h s) 0 = 0)) es.
Proof.
  induction 1 as [|b bands Fb _ IH]; intros q ps en q' ps' en' E UN H; cbn [diamond_bands] in H.
  - injection H as <- <- <-. split; auto. exists []. split; [reflexivity|]. split; [|constructor]. split; auto. intros [A|A]; [auto|contradiction].
  - cbn [fst] in H. destruct (diamond_band solve lexmin o full base q b) as [[pos hs]|] eqn:DB.
    + destruct (evict_band (q, ps) (l_stmts (pb_loop b)) pos hs) as [[q1 ps1]|] eqn:EB; [|discriminate].
      assert (NoDup (l_stmts (pb_loop b))) as ND.
      { destruct Fb as [S _]. clear - S. induction S as [|a l _ IH H]; constructor; auto. rewrite Forall_forall in H. intros X. specialize (H a X). lia. }
      assert (exists f, hs = map f (l_stmts (pb_loop b))) as [f Ef].
      { clear - DB. unfold diamond_band in DB. destruct (negb _); [discriminate|]. destruct (get_face_with_concurrent_start _ _ _ _); [|discriminate].
        destruct (all_normal _ _ _); [discriminate|]. unfold find_cone_complement_hyperplane in DB. destruct (lexmin _); [|discriminate]. injection DB as _ <-. eauto. }
      assert (forall s, In s (l_stmts (pb_loop b)) -> stmt_of q s = stmt_of pr1 s) as UB.
      { intros s Hs. rewrite Ef in EB. apply evict_band_map in EB as (_ & _ & _ & _ & _ & _ & EB & _); auto. destruct (EB s Hs) as [EB' _].
        apply evict_stmt_some in EB' as (EB' & _). auto. }
      destruct (diamond_band_good q b pos hs E Fb DB UB) as (h & -> & DR & DZ & DP).
      pose proof EB as EB0. apply evict_band_map in EB as (A1 & A2 & A3 & A4 & A5 & A6 & A7 & A8); auto.
      assert (forall s, stmt_of pr1 s = stmt_of pr s) as SO by (intros s; unfold stmt_of; destruct SS as (-> & _); auto).
      assert (evq pr1 q1) as E1.
      { destruct E as (E1 & E2 & E3 & E4 & E5 & E6). split; [congruence|]. split; [congruence|]. split; [congruence|]. split; [congruence|]. split; [congruence|].
        intros s. destruct (in_dec Nat.eq_dec s (l_stmts (pb_loop b))) as [Hs|Hs].
        - right. exists pos, (h s). destruct (A7 s Hs) as [A7' _]. rewrite (UB s Hs) in A7'. split; auto.
          destruct SS as (_ & S2 & S3 & _). rewrite S2, S3. split; [apply DR; auto|]. rewrite SO. apply DZ. auto.
        - destruct (A8 s Hs) as [-> _]. auto. }
      assert (forall s, s_evict (stmt_of q1 s) = None -> stmt_of q1 s = stmt_of pr1 s) as UN1.
      { intros s Hn. destruct (in_dec Nat.eq_dec s (l_stmts (pb_loop b))) as [Hs|Hs].
        - destruct (A7 s Hs) as [A7' _]. apply evict_stmt_some in A7' as (_ & _ & A7'). rewrite A7' in Hn. discriminate.
        - destruct (A8 s Hs) as [A8' _]. rewrite A8' in *. auto. }
      destruct (IH q1 ps1 true q' ps' en' E1 UN1 H) as (G1 & es & G2 & G3 & G4). split; auto.
      exists ((l_stmts (pb_loop b), pos, map h (l_stmts (pb_loop b))) :: es). split; [cbn [evict_bands]; rewrite EB0; auto|]. split.
      { split; intros; [right; discriminate|]. apply G3. auto. }
      constructor.
      * exists b, h. cbn. split; auto.
      * eapply Forall_impl; [|exact G4]. intros e (b' & h' & I & X). exists b', h'. split; [right; auto|auto].
    + destruct (IH q ps en q' ps' en' E UN H) as (G1 & es & G2 & G3 & G4). split; auto. exists es. split; auto. split; auto.
      eapply Forall_impl; [|exact G4]. intros e (b' & h' & I & X). exists b', h'. split; [right; auto|auto].
Qed.
End Pass.
