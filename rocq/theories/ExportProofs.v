(** * Lemmas for exported schedules (C31, C32). *)
From Coq Require Import ZArith List Bool Lia Arith.
From Verif Require Import SpecLinear MathModel ConstraintsModel VecProofs EditProofs MatrixProofs SpecProg SpecTile ProgModel
  FrameworkModel ProgProofs TileModel TileProofs TileProofs2 TileProofs3 ExportModel.
Import ListNotations.
Open Scope Z_scope.

Definition sched_row (n k : nat) (r : list Z) : list Z := set_nth k 1 (repeat 0 n) ++ map Z.opp r.

Lemma map_opp_repeat0 n : map Z.opp (repeat 0 n) = repeat 0 n.
Proof. induction n; simpl; congruence. Qed.

Lemma schedule_fold t i : (i <= mnrows t)%nat ->
  let m := fold_left (fun m i => let r := (mnrows t - 1 - i)%nat in
                        set_entry (matrix_add_col (matrix_negate_row m r) 0) r 0 1) (seq 0 i) t in
  mncols m = (i + mncols t)%nat /\ mnrows m = mnrows t /\
  forall k, (k < mnrows t)%nat -> nth k (mrows m) [] =
    if (k <? mnrows t - i)%nat then repeat 0 i ++ nth k (mrows t) [] else sched_row i (k - (mnrows t - i)) (nth k (mrows t) []).
Proof.
  induction i as [|i IH]; intros Hi; cbv zeta in *.
  - simpl. split; [reflexivity|]. split; [reflexivity|]. intros k Hk. rewrite (proj2 (Nat.ltb_lt _ _)) by lia. reflexivity.
  - rewrite seq_S, fold_left_app. cbn [fold_left]. destruct (IH ltac:(lia)) as (C & R & K). clear IH.
    set (m := fold_left _ (seq 0 i) t) in *. clearbody m.
    unfold set_entry, matrix_add_col, matrix_negate_row. cbn [mncols mrows Nat.add]. split; [lia|].
    unfold mnrows in *. cbn [mrows]. rewrite map_nth_length, map_length, map_nth_length. split; [exact R|].
    intros k Hk. rewrite map_nth_nth. rewrite map_length, map_nth_length.
    set (n := length (mrows t)) in *.
    assert (nth k (map (insert_at 0 0) (map_nth (n - 1 - i) (map Z.opp) (mrows m))) [] =
            0 :: (if (k =? n - 1 - i)%nat then map Z.opp (nth k (mrows m) []) else nth k (mrows m) [])) as E.
    { rewrite nth_map_row by (right; rewrite map_nth_length; lia). cbn [insert_at]. f_equal. rewrite map_nth_nth.
      destruct (Nat.eqb_spec k (n - 1 - i)) as [->|]; simpl; [|auto]. rewrite (proj2 (Nat.ltb_lt _ _)) by lia. reflexivity. }
    destruct (Nat.eqb_spec k (n - 1 - i)) as [Ek|NE]; cbn [andb].
    + rewrite (proj2 (Nat.ltb_lt (n - 1 - i) (length (mrows m)))) by lia. rewrite <- Ek in E |- *. rewrite E, K by auto.
      rewrite (proj2 (Nat.ltb_lt k (n - i))) by lia. rewrite (proj2 (Nat.ltb_ge k (n - S i))) by lia.
      replace (k - (n - S i))%nat with 0%nat by lia. unfold sched_row. simpl. rewrite map_app, map_opp_repeat0. reflexivity.
    + rewrite E, K by auto. destruct (Nat.ltb_spec k (n - i)), (Nat.ltb_spec k (n - S i)); try lia; try reflexivity.
      unfold sched_row. replace (k - (n - S i))%nat with (S (k - (n - i))) by lia. reflexivity.
Qed.

Lemma schedule_matrix_spec t :
  mncols (schedule_matrix t) = (mnrows t + mncols t)%nat /\ mnrows (schedule_matrix t) = mnrows t /\
  forall k, (k < mnrows t)%nat -> nth k (mrows (schedule_matrix t)) [] = sched_row (mnrows t) k (nth k (mrows t) []).
Proof.
  destruct (schedule_fold t (mnrows t) (le_n _)) as (C & R & K). cbv zeta in *. fold (schedule_matrix t) in *.
  split; [auto|]. split; [auto|]. intros k Hk. rewrite K by auto. rewrite Nat.sub_diag. simpl. rewrite Nat.sub_0_r. reflexivity.
Qed.

Lemma sched_row_aff n k r t x : length t = n -> (k < n)%nat ->
  aff (sched_row n k r) (t ++ x) = nth k t 0 - aff r x.
Proof.
  intros L K. unfold aff, sched_row. rewrite <- app_assoc, dot_app by (rewrite set_nth_length, repeat_length; auto).
  rewrite dot_map_opp, dot_comm, dot_unit by auto. lia.
Qed.

Lemma schedule_wf t : wf_mat t -> wf_mat (schedule_matrix t).
Proof.
  intros W r H. destruct (schedule_matrix_spec t) as (C & R & K). apply (In_nth _ _ []) in H. destruct H as (k & Hk & <-).
  unfold mnrows in R. rewrite R in Hk. rewrite K by (unfold mnrows; lia). unfold sched_row. rewrite app_length, map_length, set_nth_length, repeat_length.
  rewrite C. unfold mnrows in *. rewrite W by (apply nth_In; lia). reflexivity.
Qed.

Lemma from_equalities_eq m : wf_mat m -> from_equalities m = mkCst (mncols m) (map (mkRow true) (mrows m)).
Proof.
  intros W. unfold from_equalities. f_equal. apply map_ext_in. intros r H. f_equal. apply firstn_all2. rewrite (W _ H). lia.
Qed.

Lemma schedule_mem st t x : wf_mat (s_trans st) -> length t = mnrows (s_trans st) -> S (length x) = mncols (s_trans st) ->
  mem (stmt_get_schedule st) (t ++ x) <-> t = map (fun r => aff r x) (mrows (s_trans st)).
Proof.
  intros W Lt Lx. destruct (schedule_matrix_spec (s_trans st)) as (C & R & K). unfold stmt_get_schedule, mem. rewrite from_equalities_eq by (apply schedule_wf; auto). cbn [ncols rows].
  split.
  - intros (_ & H). apply (nth_ext _ _ 0 (aff [] x)); [rewrite map_length; auto|]. intros k Hk.
    rewrite (List.map_nth (fun r => aff r x)). rewrite Lt in Hk.
    assert (In (mkRow true (sched_row (mnrows (s_trans st)) k (nth k (mrows (s_trans st)) []))) (map (mkRow true) (mrows (schedule_matrix (s_trans st))))) as I.
    { apply in_map. rewrite <- K by auto. apply nth_In. unfold mnrows in *. lia. }
    specialize (H _ I). unfold holds in H. cbn [is_eq coef] in H. rewrite sched_row_aff in H by auto. lia.
  - intros ->. split; [rewrite app_length, map_length; unfold mnrows in *; lia|].
    intros r H. apply in_map_iff in H. destruct H as (a & <- & H). apply (In_nth _ _ []) in H. destruct H as (k & Hk & <-).
    unfold holds. cbn [is_eq coef]. fold (mnrows (schedule_matrix (s_trans st))) in Hk. rewrite R in Hk. rewrite K by auto. rewrite sched_row_aff by (auto; rewrite map_length; auto).
    change 0 with (aff [] x) at 1. rewrite (List.map_nth (fun r => aff r x)). lia.
Qed.

(** ** Constraints on tile iterators *)

Definition has_tile (n : nat) (r : row) : bool := existsb (fun v => negb (v =? 0)) (firstn n (coef r)).

Lemma add_leading_dims_row nt nc r : add_leading_dims (mkCst nc [r]) nt = mkCst (nt + nc) [map_coef (app (repeat 0 nt)) r].
Proof.
  revert nc r. induction nt as [|nt IH]; intros nc r; simpl; [destruct r; reflexivity|].
  unfold add_dim. cbn [ncols rows map]. rewrite IH. unfold map_coef. cbn. f_equal; [lia|]. f_equal. f_equal.
  change (0 :: repeat 0 nt ++ coef r) with ((0 :: repeat 0 nt) ++ coef r). rewrite repeat_cons, <- app_assoc. reflexivity.
Qed.

Lemma nth_mid {A} (k : list A) a l d : nth (length k) (k ++ a :: l) d = a.
Proof. rewrite app_nth2, Nat.sub_diag by lia. reflexivity. Qed.

Lemma remove_at_mid {A} (k : list A) a l : remove_at (length k) (k ++ a :: l) = k ++ l.
Proof. induction k; simpl; congruence. Qed.

Lemma cut_rows_spec rest nt sn r del dom sched kept : rows dom = kept ++ rest -> (r - del = length kept)%nat -> (del <= r)%nat ->
  ncols sched = (nt + ncols dom)%nat ->
  cut_rows (length rest) nt sn r del dom sched =
    (mkCst (ncols dom) (kept ++ filter (fun x => negb (has_tile sn x)) rest),
     mkCst (ncols sched) (rows sched ++ map (map_coef (app (repeat 0 nt))) (filter (has_tile sn) rest))).
Proof.
  revert r del dom sched kept. induction rest as [|a rest IH]; intros r del dom sched kept E L D N.
  - simpl. rewrite !app_nil_r in *. rewrite <- E. destruct dom, sched. reflexivity.
  - cbn [length cut_rows]. rewrite L, E, nth_mid. fold (has_tile sn a). destruct (has_tile sn a) eqn:HA.
    + rewrite (IH (S r) (S del) (remove_row dom (length kept)) _ kept).
      * cbn [filter]. rewrite HA. cbn [negb map]. unfold select_row. rewrite E, nth_error_app2, Nat.sub_diag by lia. cbn [nth_error].
        rewrite add_leading_dims_row. unfold cst_add. cbn [remove_row ncols rows]. rewrite <- app_assoc. reflexivity.
      * unfold remove_row. cbn [rows]. rewrite E. apply remove_at_mid.
      * lia.
      * lia.
      * exact N.
    + rewrite (IH (S r) del dom sched (kept ++ [a])).
      * cbn [filter]. rewrite HA. cbn [negb]. rewrite <- app_assoc. reflexivity.
      * rewrite E, <- app_assoc. reflexivity.
      * rewrite app_length. cbn [length]. lia.
      * lia.
      * exact N.
Qed.

Lemma Nat_iter_succ_r' {A} n (f : A -> A) x : Nat.iter (S n) f x = Nat.iter n f (f x).
Proof. induction n as [|n IH]; [reflexivity|]. simpl in *. rewrite IH. reflexivity. Qed.

Lemma remove_at_skipn n (l : list Z) : Nat.iter n (remove_at 0) l = skipn n l.
Proof.
  revert l. induction n as [|n IH]; intros l; [reflexivity|]. rewrite Nat_iter_succ_r'. rewrite IH. destruct l; simpl; [destruct n|]; reflexivity.
Qed.

Lemma iter_remove_dim n pr sid s : let q := Nat.iter n (fun q => stmt_remove_dim q sid 0) pr in
  length (p_stmts q) = length (p_stmts pr) /\ p_npar q = p_npar pr /\
  (s <> sid -> stmt_of q s = stmt_of pr s) /\
  ((sid < length (p_stmts pr))%nat ->
   s_dim (stmt_of q sid) = (s_dim (stmt_of pr sid) - n)%nat /\
   s_domain (stmt_of q sid) = mkCst (ncols (s_domain (stmt_of pr sid)) - n) (map (map_coef (skipn n)) (rows (s_domain (stmt_of pr sid)))) /\
   s_trans (stmt_of q sid) = mkMat (mncols (s_trans (stmt_of pr sid)) - n) (map (skipn n) (mrows (s_trans (stmt_of pr sid))))).
Proof.
  revert pr. induction n as [|n IH]; intros pr; cbv zeta in *.
  - simpl. split; [reflexivity|]. split; [reflexivity|]. split; [reflexivity|]. intros _. rewrite !Nat.sub_0_r. split; [reflexivity|].
    split; [destruct (s_domain _) as [c l]|destruct (s_trans _) as [c l]]; cbn; f_equal; symmetry; [|apply map_id].
    transitivity (map (fun x : row => x) l); [|apply map_id]. apply map_ext. intros []. reflexivity.
  - rewrite Nat_iter_succ_r'. specialize (IH (stmt_remove_dim pr sid 0)). destruct IH as (A & B & C & D).
    assert (length (p_stmts (stmt_remove_dim pr sid 0)) = length (p_stmts pr)) as L by (unfold stmt_remove_dim; cbn; apply map_nth_length).
    split; [congruence|]. split; [exact B|]. split.
    + intros NE. rewrite C by auto. unfold stmt_of, stmt_remove_dim; cbn. rewrite map_nth_nth. destruct (Nat.eqb_spec s sid); [contradiction|reflexivity].
    + intros Hs. rewrite L in D. destruct (D Hs) as (D1 & D2 & D3).
      assert (stmt_of (stmt_remove_dim pr sid 0) sid = stmt_remove_dim1 0 (stmt_of pr sid)) as E.
      { unfold stmt_of at 1, stmt_remove_dim; cbn. rewrite map_nth_nth, Nat.eqb_refl, (proj2 (Nat.ltb_lt _ _) Hs). reflexivity. }
      rewrite D1, D2, D3, E. cbn. split; [lia|]. rewrite !map_map. split; (f_equal; [lia|]); apply map_ext.
      * intros []. unfold map_coef. cbn. f_equal. destruct coef; [destruct n|]; reflexivity.
      * intros []; [destruct n|]; reflexivity.
Qed.

(** Rows without entries for the first [n] columns. *)
Lemma no_tile_firstn n r : has_tile n r = false -> (n <= length (coef r))%nat -> coef r = repeat 0 n ++ skipn n (coef r).
Proof.
  unfold has_tile. destruct r as [e c]. cbn. revert c. induction n as [|n IH]; intros c H L; [reflexivity|].
  destruct c as [|v c]; [simpl in L; lia|]. simpl in *. apply orb_false_iff in H. destruct H as [H1 H2].
  destruct (Z.eqb_spec v 0); [|discriminate]. subst. f_equal. apply IH; auto. lia.
Qed.

Lemma holds_lead n e c a x : length a = n -> holds (a ++ x) (mkRow e (repeat 0 n ++ c)) <-> holds x (mkRow e c).
Proof.
  intros L. unfold holds, aff. cbn. rewrite <- app_assoc, dot_app, dot_repeat0_l by (rewrite repeat_length; auto). simpl. reflexivity.
Qed.

Section Normalize.
Variables (pr : prog) (s : nat).
Hypothesis Hs : (s < length (p_stmts pr))%nat.
Let st := stmt_of pr s.
Let n := (s_dim st - s_dim_orig st)%nat.
Hypothesis WT : wf_mat (s_trans st).
Hypothesis WC : mncols (s_trans st) = ncols (s_domain st).
Hypothesis WD : wf_cst (s_domain st).
Hypothesis WN : (s_dim st + p_npar pr + 1 = ncols (s_domain st))%nat.
Hypothesis WO : (s_dim_orig st <= s_dim st)%nat.

Lemma normalize_eq : exists pr', normalize_domain_schedule pr s =
    (mkCst (mnrows (s_trans st) + ncols (s_domain st))
       (rows (stmt_get_schedule st) ++ map (map_coef (app (repeat 0 (mnrows (s_trans st))))) (filter (has_tile n) (rows (s_domain st)))), pr') /\
  length (p_stmts pr') = length (p_stmts pr) /\ (forall s', s' <> s -> stmt_of pr' s' = stmt_of pr s') /\
  s_dim (stmt_of pr' s) = s_dim_orig st /\
  s_domain (stmt_of pr' s) = mkCst (s_dim_orig st + p_npar pr + 1)
    (map (map_coef (skipn n)) (filter (fun x => negb (has_tile n x)) (rows (s_domain st)))) /\
  p_npar pr' = p_npar pr /\ mnrows (s_trans (stmt_of pr' s)) = mnrows (s_trans st).
Proof.
  unfold normalize_domain_schedule. fold st. fold n. unfold nrows.
  assert (ncols (stmt_get_schedule st) = (mnrows (s_trans st) + ncols (s_domain st))%nat) as NC.
  { unfold stmt_get_schedule, from_equalities. cbn. rewrite (proj1 (schedule_matrix_spec (s_trans st))), WC. reflexivity. }
  rewrite (cut_rows_spec (rows (s_domain st)) _ _ _ _ _ _ []) by (auto; simpl; lia).
  eexists. split; [rewrite NC; reflexivity|].
  match goal with |- context [Nat.iter n _ ?q] => set (q0 := q) end.
  assert (length (p_stmts q0) = length (p_stmts pr)) as L0 by (unfold q0; cbn; apply map_nth_length).
  assert (stmt_of q0 s = set_domain st (mkCst (ncols (s_domain st)) (filter (fun x => negb (has_tile n x)) (rows (s_domain st))))) as E0.
  { unfold q0, stmt_of, set_stmts; cbn. rewrite map_nth_nth, Nat.eqb_refl, (proj2 (Nat.ltb_lt _ _) Hs). reflexivity. }
  destruct (iter_remove_dim n q0 s s) as (A & B & _ & D). cbv zeta in *. destruct (D ltac:(lia)) as (D1 & D2 & D3).
  split; [congruence|]. split.
  - intros s' NE. destruct (iter_remove_dim n q0 s s') as (_ & _ & C & _). rewrite C by auto.
    unfold q0, stmt_of, set_stmts; cbn. rewrite map_nth_nth. destruct (Nat.eqb_spec s' s); [contradiction|reflexivity].
  - rewrite D1, D2, E0. cbn [set_domain s_dim s_domain ncols rows]. split; [unfold n; lia|]. split; [f_equal; unfold n; lia|].
    split; [exact B|]. rewrite D3, E0. unfold mnrows. cbn [mrows]. rewrite map_length. reflexivity.
Qed.

(** The schedule and the remaining domain together say what the tiled domain and
    the transformation say. *)
Lemma normalize_exact sched pr' : normalize_domain_schedule pr s = (sched, pr') ->
  forall t tile i p, length t = mnrows (s_trans st) -> length tile = n -> length i = s_dim_orig st -> length p = p_npar pr ->
  mem sched (t ++ tile ++ i ++ p) /\ mem (s_domain (stmt_of pr' s)) (i ++ p) <->
  mem (s_domain st) (tile ++ i ++ p) /\ t = timestamp st (tile ++ i) p.
Proof.
  intros E t tile i p Lt Lx Li Lp. destruct normalize_eq as (q & E' & _ & _ & _ & ED & _). rewrite E' in E. inversion E; subst sched pr'. clear E E'.
  rewrite ED. clear ED.
  assert (length (tile ++ i ++ p) = (ncols (s_domain st) - 1)%nat) as LX by (rewrite !app_length; unfold n in *; lia).
  assert (1 <= ncols (s_domain st))%nat as N1 by lia.
  pose proof (schedule_mem st t (tile ++ i ++ p) WT Lt ltac:(rewrite WC; lia)) as SM.
  unfold timestamp. rewrite <- app_assoc.
  unfold mem in *. cbn [ncols rows] in *.
  assert (ncols (stmt_get_schedule st) = (mnrows (s_trans st) + mncols (s_trans st))%nat) as NC by (unfold stmt_get_schedule, from_equalities; cbn; apply schedule_matrix_spec).
  split.
  - intros [[_ A] [_ B]]. split; [split; [lia|]|].
    + intros r Hr. destruct (has_tile n r) eqn:HT.
      * assert (holds (t ++ tile ++ i ++ p) (map_coef (app (repeat 0 (mnrows (s_trans st)))) r)) as H.
        { apply A. apply in_or_app. right. apply in_map. apply filter_In. auto. }
        destruct r as [e c]. unfold map_coef in H. cbn in H. apply holds_lead in H; auto.
      * assert (holds (i ++ p) (map_coef (skipn n) r)) as H.
        { apply B. apply in_map. apply filter_In. rewrite HT. auto. }
        destruct r as [e c]. pose proof (proj2 WD _ Hr) as LC. cbn in LC. pose proof (no_tile_firstn n _ HT ltac:(cbn; unfold n; lia)) as F. cbn in F. rewrite F.
        apply holds_lead; auto.
    + apply SM. split; [rewrite app_length, NC, WC; lia|]. intros r Hr. apply A. apply in_or_app. left. exact Hr.
  - intros [[_ A] B]. apply SM in B. destruct B as [_ B]. split; split.
    + rewrite app_length. lia.
    + intros r Hr. apply in_app_or in Hr. destruct Hr as [Hr|Hr]; [auto|]. apply in_map_iff in Hr. destruct Hr as ([e c] & <- & Hr).
      apply filter_In in Hr. unfold map_coef. cbn. apply holds_lead; auto. apply A. tauto.
    + rewrite app_length. lia.
    + intros r Hr. apply in_map_iff in Hr. destruct Hr as ([e c] & <- & Hr). apply filter_In in Hr. destruct Hr as [Hr HT].
      apply negb_true_iff in HT. pose proof (proj2 WD _ Hr) as LC. cbn in LC. pose proof (no_tile_firstn n _ HT ltac:(cbn; unfold n; lia)) as F. cbn in F.
      unfold map_coef. cbn. rewrite <- (holds_lead n _ _ tile) by auto. rewrite <- F. apply A. exact Hr.
Qed.
End Normalize.

(** All statements. *)
Section Schedules.
Variable pr : prog.
Hypothesis W : forall s, (s < length (p_stmts pr))%nat -> let st := stmt_of pr s in
  wf_mat (s_trans st) /\ mncols (s_trans st) = ncols (s_domain st) /\ wf_cst (s_domain st) /\
  (s_dim st + p_npar pr + 1 = ncols (s_domain st))%nat /\ (s_dim_orig st <= s_dim st)%nat.

Lemma normalize_local q s : (s < length (p_stmts pr))%nat -> length (p_stmts q) = length (p_stmts pr) -> p_npar q = p_npar pr -> stmt_of q s = stmt_of pr s ->
  exists c q' pr', normalize_domain_schedule pr s = (c, pr') /\ normalize_domain_schedule q s = (c, q') /\
    ncols c = (mnrows (s_trans (stmt_of pr s)) + ncols (s_domain (stmt_of pr s)))%nat /\
    length (p_stmts q') = length (p_stmts pr) /\ p_npar q' = p_npar pr /\ (forall s', s' <> s -> stmt_of q' s' = stmt_of q s') /\
    s_dim (stmt_of q' s) = s_dim_orig (stmt_of pr s) /\
    ncols (s_domain (stmt_of pr' s)) = (s_dim_orig (stmt_of pr s) + p_npar pr + 1)%nat /\
    s_domain (stmt_of q' s) = s_domain (stmt_of pr' s) /\ mnrows (s_trans (stmt_of q' s)) = mnrows (s_trans (stmt_of pr s)).
Proof.
  intros Hs L P E. destruct (W s Hs) as (W1 & W2 & W3 & W4 & W5).
  destruct (normalize_eq pr s Hs W2 W4 W5) as (pr' & A1 & A2 & A3 & A4 & A5 & A6 & A7).
  destruct (normalize_eq q s) as (q' & B1 & B2 & B3 & B4 & B5 & B6 & B7); rewrite ?E, ?P, ?L; auto.
  rewrite ?E in *. rewrite ?P in *.
  exists (fst (normalize_domain_schedule pr s)), q', pr'. split; [rewrite A1; reflexivity|]. split; [rewrite A1, B1; reflexivity|].
  split; [rewrite A1; reflexivity|]. split; [lia|]. split; [lia|]. split; [exact B3|]. split; [exact B4|]. rewrite A5. cbn [ncols]. auto.
Qed.

Definition normalized (l : list cst) (q : prog) (s : nat) : Prop :=
  exists c pr', normalize_domain_schedule pr s = (c, pr') /\ nth s l (mkCst 0 []) = c /\
    ncols c = (mnrows (s_trans (stmt_of pr s)) + ncols (s_domain (stmt_of pr s)))%nat /\
    s_dim (stmt_of q s) = s_dim_orig (stmt_of pr s) /\
    ncols (s_domain (stmt_of q s)) = (s_dim_orig (stmt_of pr s) + p_npar pr + 1)%nat /\
    s_domain (stmt_of q s) = s_domain (stmt_of pr' s) /\ mnrows (s_trans (stmt_of q s)) = mnrows (s_trans (stmt_of pr s)).

Lemma schedules_spec : length (p_stmts (snd (schedules pr))) = length (p_stmts pr) /\ length (fst (schedules pr)) = length (p_stmts pr) /\
  forall s, (s < length (p_stmts pr))%nat -> normalized (fst (schedules pr)) (snd (schedules pr)) s.
Proof.
  unfold schedules.
  assert (forall m k l q, (k + m = length (p_stmts pr))%nat -> length l = k -> length (p_stmts q) = length (p_stmts pr) -> p_npar q = p_npar pr ->
    (forall s, (k <= s)%nat -> stmt_of q s = stmt_of pr s) -> (forall s, (s < k)%nat -> normalized l q s) ->
    let r := fold_left (fun acc s => let '(c, q) := normalize_domain_schedule (snd acc) s in (fst acc ++ [c], q)) (seq k m) (l, q) in
    length (p_stmts (snd r)) = length (p_stmts pr) /\ length (fst r) = length (p_stmts pr) /\
    forall s, (s < length (p_stmts pr))%nat -> normalized (fst r) (snd r) s) as G.
  { induction m as [|m IH]; intros k l q Hk L LQ P H1 H2; cbv zeta in *.
    - cbn [seq fold_left fst snd]. split; [auto|]. split; [lia|]. intros s Hs. apply H2. lia.
    - cbn [seq fold_left fst snd].
      destruct (normalize_local q k) as (c & q' & pr' & A1 & A2 & A3 & A4 & A5 & A6 & A7 & A8 & A9 & A10); auto; [lia|].
      rewrite A2. apply IH; auto; [lia|rewrite app_length; simpl; lia| |].
      + intros s Hs. rewrite A6 by lia. apply H1. lia.
      + intros s Hs. destruct (Nat.eq_dec s k) as [->|NE].
        * exists c, pr'. split; [auto|]. split; [rewrite app_nth2, L, Nat.sub_diag by lia; reflexivity|]. rewrite A9. auto.
        * destruct (H2 s) as (c' & p' & B1 & B2 & B3); [lia|]. exists c', p'. split; [auto|]. split; [rewrite app_nth1 by lia; auto|].
          rewrite A6 by auto. exact B3. }
  apply G; auto. intros; lia.
Qed.

Lemma schedules_exact s : (s < length (p_stmts pr))%nat -> let st := stmt_of pr s in
  projected pr s = (s_dim st - s_dim_orig st)%nat /\
  forall t tile i p, length t = mnrows (s_trans st) -> length tile = projected pr s -> length i = s_dim_orig st -> length p = p_npar pr ->
  mem (nth s (fst (schedules pr)) (mkCst 0 [])) (t ++ tile ++ i ++ p) /\ mem (s_domain (stmt_of (snd (schedules pr)) s)) (i ++ p) <->
  mem (s_domain st) (tile ++ i ++ p) /\ t = timestamp st (tile ++ i) p.
Proof.
  intros Hs st. destruct (proj2 (proj2 schedules_spec) s Hs) as (c & pr' & A1 & A2 & A3 & A4 & A5 & A6 & A7).
  destruct (W s Hs) as (W1 & W2 & W3 & W4 & W5). fold st in W1, W2, W3, W4, W5, A3, A4, A5, A7.
  assert (projected pr s = (s_dim st - s_dim_orig st)%nat) as PJ by (unfold projected; rewrite A2, A3, A5, A7; lia).
  split; [exact PJ|]. intros t tile i p Lt Lx Li Lp. rewrite A2, A6. rewrite PJ in Lx. apply (normalize_exact pr s Hs W1 W2 W3 W4 W5 c pr' A1 t tile i p Lt Lx Li Lp).
Qed.
End Schedules.
