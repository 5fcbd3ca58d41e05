(** * The shape of the schedules found by the automatic transformation. *)
From Coq Require Import ZArith List Bool Arith Lia.
From Verif Require Import SpecLinear SpecMatrix VecProofs MathModel ConstraintsModel EditProofs FarkasProofs RankProofs MatrixProofs
  SpecGraph GraphModel GraphProofs GraphProofs2
  SpecProg SpecTile SpecLoop SpecDriver FrameworkModel FrameworkProofs SumProofs DepProofs LexProofs ProgModel ProgProofs DriverModel HypProofs KeepProofs DriverProofs.
Import ListNotations.
Open Scope Z_scope.

(** ** Rank of a matrix with one more row *)

Lemma coln_app i A B : coln i (A ++ B) = coln i A ++ coln i B.
Proof. apply map_app. Qed.
Lemma coln_length i A : length (coln i A) = length A.
Proof. apply map_length. Qed.

Lemma in_span_weaken n A B v : wfv n A -> wfv n B -> length v = n -> (forall a, In a A -> In a B) -> in_span n A v -> in_span n B v.
Proof. intros HA HB Hv I S. apply (in_span_trans n A); auto. intros a Ha. apply in_span_self; auto. Qed.

Lemma rank_snoc n vs v k : wfv n vs -> length v = n -> has_rank n vs k -> ~ in_span n vs v -> has_rank n (vs ++ [v]) (S k).
Proof.
  intros W Lv (B & LB & WB & IB & SB & TB) NS.
  assert (wfv n (vs ++ [v])) as W' by (apply wfv_app; split; auto; intros w [<-|[]]; auto).
  assert (wfv n (B ++ [v])) as WB' by (apply wfv_app; split; auto; intros w [<-|[]]; auto).
  exists (B ++ [v]). split; [rewrite app_length; cbn; lia|]. split; [exact WB'|]. split; [|split].
  - intros cs Lc E c Hc. rewrite app_length in Lc. cbn [length] in Lc.
    destruct (exists_last (l := cs)) as (cs0 & c0 & ->); [intros ->; cbn in Lc; lia|].
    rewrite app_length in Lc. cbn [length] in Lc.
    assert (forall i, (i < n)%nat -> dot cs0 (coln i B) + c0 * nth i v 0 = 0) as Q.
    { intros i Hi. apply (lincomb_eq n _ _ _ WB' (repeat_length 0 n)) with (i := i) in E; auto. rewrite nth_repeat in E.
      rewrite coln_app, dot_app in E by (rewrite coln_length; lia). cbn in E. lia. }
    destruct (Z.eq_dec c0 0) as [->|N].
    + assert (forall c, In c cs0 -> c = 0) as Z0.
      { apply IB; [lia|]. apply (lincomb_eq n); auto. apply repeat_length. intros i Hi. rewrite nth_repeat. specialize (Q i Hi). lia. }
      apply in_app_or in Hc as [Hc|[<-|[]]]; auto.
    + exfalso. apply NS. apply (in_span_trans n B); auto. apply in_span_coord; auto.
      exists (- c0), cs0. split; [lia|]. split; [lia|]. intros i Hi. specialize (Q i Hi). lia.
  - intros w Hw. apply in_app_or in Hw as [Hw|[<-|[]]].
    + apply (in_span_weaken n B); auto. intros a Ha. apply in_or_app. auto.
    + apply in_span_self; auto. apply in_or_app. simpl. auto.
  - intros b Hb. apply in_app_or in Hb as [Hb|[<-|[]]].
    + apply (in_span_weaken n vs); auto. intros a Ha. apply in_or_app. auto.
    + apply in_span_self; auto. apply in_or_app. simpl. auto.
Qed.

Lemma rank_snoc_zero n vs v k : wfv n vs -> v = repeat 0 n -> has_rank n vs k -> has_rank n (vs ++ [v]) k.
Proof.
  intros W -> (B & LB & WB & IB & SB & TB).
  assert (wfv n (vs ++ [repeat 0 n])) as W' by (apply wfv_app; split; auto; intros w [<-|[]]; apply repeat_length).
  exists B. split; auto. split; auto. split; auto. split.
  - intros w Hw. apply in_app_or in Hw as [Hw|[<-|[]]]; auto.
    apply in_span_coord; auto. apply repeat_length. exists 1, (repeat 0 (length B)). split; [lia|]. split; [apply repeat_length|].
    intros i Hi. rewrite nth_repeat, dot_repeat0_l. auto.
  - intros b Hb. apply (in_span_weaken n vs); auto. intros a Ha. apply in_or_app. auto.
Qed.

Lemma rank_nil n : has_rank n [] 0.
Proof.
  exists []. split; auto. split; [intros b []|]. split; [intros [|c cs] L; [intros _ ? []|discriminate]|]. split; intros ? [].
Qed.

(** ** The properties *)

(** What is known about level [k] of statement [s]. *)
Record typed_level (pr : prog) (s k : nat) : Prop := {
  t_par : forall j, (p_nvar pr <= j < p_nvar pr + p_npar pr)%nat -> nth j (nth k (mrows (s_trans (stmt_of pr s))) []) 0 = 0;
  t_type : loop_level (stmt_of pr s) k = false <->
           forall j, (j < p_nvar pr)%nat -> nth j (nth k (mrows (s_trans (stmt_of pr s))) []) 0 = 0;
  t_scalar : nth k (p_hprops pr) H_UNKNOWN = H_SCALAR ->
           forall j, (j < p_nvar pr)%nat -> nth j (nth k (mrows (s_trans (stmt_of pr s))) []) 0 = 0;
  t_pad : forall j, (s_dim_orig (stmt_of pr s) <= j < p_nvar pr)%nat -> nth j (nth k (mrows (s_trans (stmt_of pr s))) []) 0 = 0 }.
Definition typed (pr : prog) : Prop :=
  forall s k, (s < length (p_stmts pr))%nat -> (k < length (p_hprops pr))%nat -> typed_level pr s k.

(** All statements have the same number of loops. *)
Definition same_depth (pr : prog) : Prop := forall s, (s < length (p_stmts pr))%nat -> s_dim_orig (stmt_of pr s) = p_nvar pr.

(** All statements have the same levels as loops and [c] independent ones. *)
Definition sync (c : nat) (pr : prog) : Prop :=
  (forall s, (s < length (p_stmts pr))%nat -> has_rank (p_nvar pr) (map (firstn (p_nvar pr)) (mrows (s_trans (stmt_of pr s)))) c) /\
  (forall s t k, (s < length (p_stmts pr))%nat -> (t < length (p_stmts pr))%nat -> (k < length (p_hprops pr))%nat ->
     loop_level (stmt_of pr s) k = loop_level (stmt_of pr t) k).

Definition shape (pr : prog) : Prop := typed pr /\ (same_depth pr -> exists c, sync c pr).

(** Same schedules. *)
Definition alike (a b : prog) : Prop :=
  frame a b /\ (forall s, s_trans (stmt_of b s) = s_trans (stmt_of a s) /\ s_hyp (stmt_of b s) = s_hyp (stmt_of a s)) /\
  p_hprops b = p_hprops a.

Lemma alike_loop a b s k : alike a b -> loop_level (stmt_of b s) k = loop_level (stmt_of a s) k.
Proof. intros (_ & T & _). unfold loop_level. destruct (T s) as (_ & ->). auto. Qed.

Lemma shape_alike a b : alike a b -> shape a -> shape b.
Proof.
  intros A [T S]. pose proof A as ((F1 & F2 & F3 & F4 & F5) & E & HP). split.
  - intros s k Hs Hk. rewrite F3 in Hs. rewrite HP in Hk. destruct (T s k Hs Hk) as [T1 T2 T3 T4].
    destruct (E s) as [E1 E2]. destruct (F4 s) as (_ & D & _).
    constructor; rewrite ?F1, ?F2, ?E1, ?HP, ?D; auto. rewrite (alike_loop a b) by auto. auto.
  - intros D. destruct S as (c & S1 & S2).
    { intros s Hs. destruct (F4 s) as (_ & <- & _). rewrite <- F1. apply D. lia. }
    exists c. split.
    + intros s Hs. destruct (E s) as [-> _]. rewrite F1. apply S1. lia.
    + intros s t k Hs Ht Hk. rewrite !(alike_loop a b) by auto. rewrite HP in Hk. apply S2; lia.
Qed.

(** Appending a level. *)
Lemma app_row_old pr h ht row s k : wf_prog pr -> (s < length (p_stmts pr))%nat -> (k < length (p_hprops pr))%nat ->
  nth k (mrows (s_trans (stmt_of (app_level pr h ht row) s))) [] = nth k (mrows (s_trans (stmt_of pr s))) [] /\
  loop_level (stmt_of (app_level pr h ht row) s) k = loop_level (stmt_of pr s) k.
Proof.
  intros W Hs Hk. rewrite app_level_stmt by auto. rewrite append_row_rows.
  destruct (proj1 W _ (stmt_of_in pr s Hs)) as (_ & _ & _ & A4 & A5 & _). unfold mnrows in *.
  split; [apply app_nth1; lia|]. unfold loop_level. rewrite append_row_hyp by (unfold mnrows; lia). rewrite app_nth1 by lia. auto.
Qed.
Lemma app_row_new pr h ht row s : wf_prog pr -> (s < length (p_stmts pr))%nat ->
  nth (length (p_hprops pr)) (mrows (s_trans (stmt_of (app_level pr h ht row) s))) [] = row s /\
  (loop_level (stmt_of (app_level pr h ht row) s) (length (p_hprops pr)) = match ht s with H_SCALAR => false | _ => true end).
Proof.
  intros W Hs. rewrite app_level_stmt by auto. rewrite append_row_rows.
  destruct (proj1 W _ (stmt_of_in pr s Hs)) as (_ & _ & _ & A4 & A5 & _). unfold mnrows in *.
  split; [rewrite <- A4, app_nth2, Nat.sub_diag; auto|]. unfold loop_level. rewrite append_row_hyp by (unfold mnrows; lia).
  rewrite <- A5, app_nth2, Nat.sub_diag; auto.
Qed.

Lemma app_hyp_old pr h ht row k : (k < length (p_hprops pr))%nat -> nth k (p_hprops (app_level pr h ht row)) H_UNKNOWN = nth k (p_hprops pr) H_UNKNOWN.
Proof. intros H. cbn. apply app_nth1. auto. Qed.
Lemma app_hyp_new pr h ht row : nth (length (p_hprops pr)) (p_hprops (app_level pr h ht row)) H_UNKNOWN = h.
Proof. cbn. rewrite app_nth2, Nat.sub_diag; auto. Qed.
Lemma app_dim pr h ht row s : s_dim_orig (stmt_of (app_level pr h ht row) s) = s_dim_orig (stmt_of pr s).
Proof. destruct (app_level_frame pr h ht row) as (_ & _ & _ & F & _). destruct (F s) as (_ & -> & _). auto. Qed.

Lemma typed_app pr h ht row : wf_prog pr -> typed pr ->
  (forall s, (s < length (p_stmts pr))%nat ->
     (forall j, (p_nvar pr <= j < p_nvar pr + p_npar pr)%nat -> nth j (row s) 0 = 0) /\
     (ht s = H_SCALAR <-> forall j, (j < p_nvar pr)%nat -> nth j (row s) 0 = 0) /\
     (h = H_SCALAR -> forall j, (j < p_nvar pr)%nat -> nth j (row s) 0 = 0) /\
     (forall j, (s_dim_orig (stmt_of pr s) <= j < p_nvar pr)%nat -> nth j (row s) 0 = 0)) ->
  typed (app_level pr h ht row).
Proof.
  intros W T N s k Hs Hk. rewrite app_level_nstmts in Hs. cbn [p_hprops app_level] in Hk. rewrite app_length in Hk. cbn [length] in Hk.
  destruct (Nat.eq_dec k (length (p_hprops pr))) as [->|Ne].
  - destruct (app_row_new pr h ht row s W Hs) as [R L]. destruct (N s Hs) as (N1 & N2 & N3 & N4).
    constructor; rewrite ?R, ?L, ?app_hyp_new, ?app_dim; change (p_nvar (app_level pr h ht row)) with (p_nvar pr); change (p_npar (app_level pr h ht row)) with (p_npar pr); auto.
    rewrite <- N2. destruct (ht s); split; congruence.
  - assert (k < length (p_hprops pr))%nat as Hk' by lia. destruct (app_row_old pr h ht row s k W Hs Hk') as [R L].
    destruct (T s k Hs Hk') as [T1 T2 T3 T4].
    constructor; rewrite ?R, ?L, ?app_hyp_old, ?app_dim by auto; change (p_nvar (app_level pr h ht row)) with (p_nvar pr); change (p_npar (app_level pr h ht row)) with (p_npar pr); auto.
Qed.

Lemma const_row_nth pr v j : (j < p_nvar pr + p_npar pr)%nat -> nth j (const_row pr v) 0 = 0.
Proof. intros H. unfold const_row. rewrite app_nth1 by (rewrite repeat_length; auto). apply nth_repeat. Qed.

Lemma rows_wfv pr s : wf_prog pr -> padded pr -> (s < length (p_stmts pr))%nat ->
  wfv (p_nvar pr) (map (firstn (p_nvar pr)) (mrows (s_trans (stmt_of pr s)))).
Proof.
  intros W P Hs v Hv. apply in_map_iff in Hv as (r & <- & Hr). pose proof (stmt_of_in pr s Hs) as Hin.
  destruct (proj1 W _ Hin) as (_ & A2 & A3 & _). rewrite firstn_length, (A3 r Hr), A2, (P _ Hin). lia.
Qed.

Lemma shape_scalar pr f : wf_prog pr -> padded pr -> shape pr -> shape (add_scalar_level pr f).
Proof.
  intros W P [T S]. rewrite scalar_level_app. set (row := fun s => const_row pr (f (stmt_of pr s))). split.
  - apply typed_app; auto. intros s Hs. unfold row.
    assert (forall j, (j < p_nvar pr + p_npar pr)%nat -> nth j (const_row pr (f (stmt_of pr s))) 0 = 0) as Z by (intros; apply const_row_nth; auto).
    split; [intros; apply Z; lia|]. split; [split; auto; intros; apply Z; lia|]. split; intros; apply Z; lia.
  - intros D. destruct S as (c & S1 & S2).
    { intros s Hs. specialize (D s). rewrite app_dim in D. apply D. rewrite app_level_nstmts. auto. }
    exists c. split.
    + intros s Hs. rewrite app_level_nstmts in Hs. change (p_nvar (app_level pr H_SCALAR (fun _ => H_SCALAR) row)) with (p_nvar pr).
      rewrite app_level_stmt by auto. rewrite append_row_rows, map_app. cbn [map].
      apply rank_snoc_zero; auto using rows_wfv. unfold row, const_row.
      rewrite firstn_app, repeat_length, repeat_app, firstn_app, repeat_length, Nat.sub_diag.
      replace (p_nvar pr - (p_nvar pr + p_npar pr))%nat with 0%nat by lia. cbn [firstn]. rewrite !app_nil_r.
      rewrite firstn_all2; auto. rewrite repeat_length; auto.
    + intros s t k Hs Ht Hk. rewrite app_level_nstmts in Hs, Ht. cbn [p_hprops app_level] in Hk. rewrite app_length in Hk. cbn [length] in Hk.
      destruct (Nat.eq_dec k (length (p_hprops pr))) as [->|Ne].
      * destruct (app_row_new pr H_SCALAR (fun _ => H_SCALAR) row s W Hs) as [_ ->].
        destruct (app_row_new pr H_SCALAR (fun _ => H_SCALAR) row t W Ht) as [_ ->]. auto.
      * destruct (app_row_old pr H_SCALAR (fun _ => H_SCALAR) row s k W Hs ltac:(lia)) as [_ ->].
        destruct (app_row_old pr H_SCALAR (fun _ => H_SCALAR) row t k W Ht ltac:(lia)) as [_ ->]. apply S2; auto. lia.
Qed.

(** ** Hyperplanes *)

Lemma hyp_row_iter pr x s j : (j < p_nvar pr)%nat -> nth j (hyp_row pr x s) 0 = hcoef pr x s j.
Proof.
  intros H. unfold hyp_row. rewrite app_nth1 by (rewrite map_length, seq_length; auto). rewrite nth_map_seq by auto. auto.
Qed.
Lemma hyp_row_par pr x s j : (p_nvar pr <= j < p_nvar pr + p_npar pr)%nat -> nth j (hyp_row pr x s) 0 = 0.
Proof.
  intros H. unfold hyp_row. rewrite app_nth2 by (rewrite map_length, seq_length; lia). rewrite map_length, seq_length.
  rewrite app_nth1 by (rewrite repeat_length; lia). apply nth_repeat.
Qed.
Lemma hyp_row_firstn pr x s : firstn (p_nvar pr) (hyp_row pr x s) = iter_coefs pr x s.
Proof.
  unfold hyp_row. rewrite firstn_app, map_length, seq_length, Nat.sub_diag. cbn [firstn]. rewrite app_nil_r.
  rewrite firstn_all2 by (rewrite map_length, seq_length; auto). reflexivity.
Qed.

Lemma hyp_type_zero pr x s : padded pr -> (s < length (p_stmts pr))%nat ->
  hyp_type_of pr x s = H_SCALAR <-> forall j, (j < p_nvar pr)%nat -> nth j (hyp_row pr x s) 0 = 0.
Proof.
  intros P Hs. unfold hyp_type_of. rewrite (P _ (stmt_of_in pr s Hs)), hyp_row_firstn.
  assert (forallb (fun v => v =? 0) (iter_coefs pr x s) = true <-> forall j, (j < p_nvar pr)%nat -> nth j (hyp_row pr x s) 0 = 0) as E.
  { rewrite forallb_forall. split.
    - intros H j Hj. rewrite hyp_row_iter by auto. apply Z.eqb_eq, H. unfold iter_coefs. apply in_map. apply in_seq. lia.
    - intros H v Hv. unfold iter_coefs in Hv. apply in_map_iff in Hv as (j & <- & Hj). apply in_seq in Hj. apply Z.eqb_eq.
      rewrite <- hyp_row_iter by lia. apply H. lia. }
  rewrite <- E. destruct (forallb _ _); split; congruence.
Qed.

Lemma typed_hyp pr x : wf_prog pr -> padded pr -> orig_first pr -> typed pr -> zpadding_zero pr x ->
  typed (app_level pr H_LOOP (hyp_type_of pr x) (hyp_row pr x)).
Proof.
  intros W P O T Z. apply typed_app; auto. intros s Hs. split; [intros; apply hyp_row_par; auto|]. split; [apply hyp_type_zero; auto|].
  split; [discriminate|]. intros j Hj. rewrite hyp_row_iter by lia. apply Z; [auto|lia|].
  destruct (O _ (stmt_of_in pr s Hs)) as [_ ->]. rewrite app_nth2 by (rewrite repeat_length; lia). rewrite repeat_length.
  rewrite (nth_indep _ _ false) by (rewrite repeat_length; lia). apply nth_repeat.
Qed.

Section Depth.
Variables (isl_emptyb : cst -> bool) (kernel : matrix -> matrix) (o : options).
Hypothesis KO : kernel_ok kernel.
Hypothesis KC : kernel_complete kernel.

Lemma select_true {A} n (l : list A) : select (repeat true n) l = firstn n l.
Proof. revert l. induction n; intros [|a l]; cbn; auto. f_equal. auto. Qed.

Lemma depth_part pr s r : orig_first pr -> same_depth pr -> (s < length (p_stmts pr))%nat ->
  orig_part pr (stmt_of pr s) r = firstn (p_nvar pr) r /\ num_orig pr (stmt_of pr s) = p_nvar pr.
Proof.
  intros O D Hs. destruct (O _ (stmt_of_in pr s Hs)) as [_ E]. rewrite (D s Hs), Nat.sub_diag in E. cbn [repeat] in E. rewrite app_nil_r in E.
  assert (firstn (p_nvar pr) (s_orig (stmt_of pr s)) = repeat true (p_nvar pr)) as F by (rewrite E; apply firstn_all2; rewrite repeat_length; auto).
  unfold orig_part, num_orig. rewrite F. split; [apply select_true|]. rewrite filter_all. apply repeat_length. intros b Hb. apply repeat_spec in Hb. auto.
Qed.

Lemma typed_scalar_zero pr : orig_first pr -> same_depth pr -> typed pr ->
  forall s, (s < length (p_stmts pr))%nat -> scalar_levels_zero pr s.
Proof.
  intros O D T s Hs j Hj v Hv. destruct (depth_part pr s (nth j (mrows (s_trans (stmt_of pr s))) []) O D Hs) as [E _]. rewrite E in Hv.
  assert (j < length (p_hprops pr))%nat as Hl. { destruct (le_lt_dec (length (p_hprops pr)) j); auto. rewrite nth_overflow in Hj by auto. discriminate. }
  destruct (T s j Hs Hl) as [_ _ T3 _]. specialize (T3 Hj).
  apply (In_nth _ _ 0) in Hv as (i & Hi & <-). rewrite firstn_length in Hi. rewrite nth_firstn_lt by lia. apply T3. lia.
Qed.

Lemma sync_hyp pr x c cur : wf_prog pr -> padded pr -> orig_first pr -> same_depth pr -> typed pr -> sync c pr -> (c < p_nvar pr)%nat ->
  mem (get_linear_ind_constraints isl_emptyb kernel o pr cur EAGER) x ->
  sync (S c) (app_level pr H_LOOP (hyp_type_of pr x) (hyp_row pr x)).
Proof.
  intros W P O D T [S1 S2] Hc M.
  assert (forall s, (s < length (p_stmts pr))%nat ->
    ~ in_span (p_nvar pr) (map (firstn (p_nvar pr)) (mrows (s_trans (stmt_of pr s)))) (firstn (p_nvar pr) (hyp_row pr x s))) as NS.
  { intros s Hs. pose proof (stmt_of_in pr s Hs) as Hin.
    assert (~ complete (stmt_of pr s)) as NC.
    { intros C. unfold complete in C. rewrite (D s Hs) in C.
      pose proof (has_rank_unique _ _ _ _ (rows_wfv pr s W P Hs) C (S1 s Hs)). lia. }
    assert (needs_hyps (stmt_of pr s) = true) as N.
    { destruct (needs_hyps (stmt_of pr s)) eqn:E; auto. exfalso. apply NC. destruct (proj1 W _ Hin) as (A & B & C & _).
      apply needs_spec; auto. rewrite B, (P _ Hin), (D s Hs). lia. }
    pose proof (linear_ind_eager isl_emptyb kernel o pr (orig_first_wf pr O) KO W P cur x (typed_scalar_zero pr O D T) M s Hs
      (needs_has_orth isl_emptyb kernel o pr cur s KO KC W O Hs N)) as I.
    destruct (depth_part pr s (iter_coefs pr x s) O D Hs) as [E1 E2]. rewrite E1, E2 in I.
    rewrite (map_ext_in _ (firstn (p_nvar pr))) in I by (intros r _; apply (depth_part pr s r O D Hs)).
    rewrite hyp_row_firstn. rewrite (firstn_all2 (iter_coefs pr x s)) in I; auto. unfold iter_coefs. rewrite map_length, seq_length. auto. }
  assert (forall s, (s < length (p_stmts pr))%nat -> hyp_type_of pr x s <> H_SCALAR) as NT.
  { intros s Hs Z. apply (NS s Hs). pose proof (proj1 (hyp_type_zero pr x s P Hs) Z) as Z0. rewrite hyp_row_firstn.
    apply in_span_coord; [apply rows_wfv; auto|unfold iter_coefs; rewrite map_length, seq_length; auto|].
    exists 1, (repeat 0 (length (map (firstn (p_nvar pr)) (mrows (s_trans (stmt_of pr s)))))). split; [lia|]. split; [apply repeat_length|].
    intros i Hi. rewrite dot_repeat0_l. unfold iter_coefs. rewrite nth_map_seq by auto. rewrite <- hyp_row_iter by auto. rewrite Z0 by auto. lia. }
  set (q := app_level _ _ _ _). split.
  - intros s Hs. unfold q in Hs. rewrite app_level_nstmts in Hs. change (p_nvar q) with (p_nvar pr). unfold q.
    rewrite app_level_stmt by auto. rewrite append_row_rows, map_app. cbn [map].
    apply rank_snoc; auto using rows_wfv. rewrite hyp_row_firstn. unfold iter_coefs. rewrite map_length, seq_length. auto.
  - intros s t k Hs Ht Hk. unfold q in *. rewrite app_level_nstmts in Hs, Ht. cbn [p_hprops app_level] in Hk. rewrite app_length in Hk. cbn [length] in Hk.
    destruct (Nat.eq_dec k (length (p_hprops pr))) as [->|Ne].
    * destruct (app_row_new pr H_LOOP (hyp_type_of pr x) (hyp_row pr x) s W Hs) as [_ ->].
      destruct (app_row_new pr H_LOOP (hyp_type_of pr x) (hyp_row pr x) t W Ht) as [_ ->].
      specialize (NT s Hs) as N1. specialize (NT t Ht) as N2. destruct (hyp_type_of pr x s), (hyp_type_of pr x t); congruence.
    * destruct (app_row_old pr H_LOOP (hyp_type_of pr x) (hyp_row pr x) s k W Hs ltac:(lia)) as [_ ->].
      destruct (app_row_old pr H_LOOP (hyp_type_of pr x) (hyp_row pr x) t k W Ht ltac:(lia)) as [_ ->]. apply S2; auto. lia.
Qed.

Variable solve : prog -> cst -> option point.
Hypothesis SOL : lexmin_keeps solve.

Lemma find_shape n : forall pr base, wf_prog pr -> padded pr -> orig_first pr -> typed pr -> wf_cst base -> ncols base = cst_width pr ->
  (same_depth pr -> exists c, sync c pr /\ (n <= p_nvar pr - c)%nat) ->
  shape (fst (find_hyperplanes isl_emptyb kernel solve o EAGER n base pr)).
Proof.
  induction n as [|n IH]; intros pr base W P O T Wb Nb S; cbn [find_hyperplanes].
  - split; auto. intros D. destruct (S D) as (c & H & _). eauto.
  - set (cur := cst_add base (get_non_trivial_sol_constraints pr EAGER)).
    set (ind := get_linear_ind_constraints isl_emptyb kernel o pr cur EAGER).
    destruct (if (nrows ind =? 0)%nat then None else prog_constraints_lexmin solve pr (cst_add cur ind)) as [sol|] eqn:E; cbv beta iota.
    2:{ split; auto. intros D. destruct (S D) as (c & H & _). eauto. }
    assert (wf_orig pr) as Ho by (apply orig_first_wf; auto).
    destruct (nontriv_wf pr EAGER) as [N1 N2].
    destruct (lin_ind_wf isl_emptyb kernel o pr cur EAGER Ho) as [L1 L2]. fold ind in L1, L2.
    destruct (cst_add_wf base _ Wb N1 ltac:(congruence)) as [Wc Nc]. fold cur in Wc, Nc.
    destruct (cst_add_wf cur ind Wc L1 ltac:(congruence)) as [We Ne].
    destruct (nrows ind =? 0)%nat eqn:NR; [discriminate|].
    assert (kept pr (cst_add cur ind) sol /\ zpadding_zero pr sol) as [Ms Zs].
    { apply (SOL pr); auto.
      - cbn [cst_add rows]. intros X. apply app_eq_nil in X as [_ X]. apply Nat.eqb_neq in NR. apply NR. unfold nrows. rewrite X. auto. }
    apply kept_add in Ms as [_ Ms]; [|congruence]. apply eager_kept in Ms.
    rewrite hyperplane_app. set (pr1 := app_level _ _ _ _).
    pose proof (app_level_frame pr H_LOOP (hyp_type_of pr sol) (hyp_row pr sol)) as F. fold pr1 in F.
    assert (wf_prog pr1) as W1. { apply app_level_wf; auto. intros s Hs. rewrite hyp_row_length, (P _ (stmt_of_in pr s Hs)). auto. }
    specialize (IH pr1 base W1 (frame_padded _ _ F P) (frame_orig_first _ _ F O) (typed_hyp pr sol W P O T Zs) Wb).
    destruct (find_hyperplanes isl_emptyb kernel solve o EAGER n base pr1) as [pr' k]. cbn [fst] in *. apply IH.
    + rewrite (frame_width _ _ F). auto.
    + intros D1. assert (same_depth pr) as D.
      { intros s Hs. destruct F as (F1 & _ & F3 & F4 & _). destruct (F4 s) as (_ & <- & _). rewrite <- F1. apply D1. lia. }
      destruct (S D) as (c & SC & Hc). exists (Datatypes.S c). split; [|change (p_nvar pr1) with (p_nvar pr); lia].
      apply (sync_hyp pr sol c cur); auto. lia.
Qed.

Lemma sols_left_bound pr c s : wf_prog pr -> padded pr -> same_depth pr -> sync c pr -> (s < length (p_stmts pr))%nat ->
  (num_sols_left pr <= p_nvar pr - c)%nat.
Proof.
  intros W P D [S1 _] _. unfold num_sols_left.
  assert (forall l m, (forall st, In st l -> In st (p_stmts pr)) -> (m <= p_nvar pr - c)%nat ->
    (fold_left (fun m st => Nat.max m (s_dim_orig st - num_ind_hyps st)) l m <= p_nvar pr - c)%nat) as G.
  { induction l as [|st l IH]; intros m I Hm; cbn [fold_left]; auto. apply IH; [intros; apply I; simpl; auto|].
    destruct (in_stmt_of pr st (I st (or_introl eq_refl))) as (u & Hu & <-). pose proof (stmt_of_in pr u Hu) as Hin.
    destruct (proj1 W _ Hin) as (A & B & C & _). pose proof (D u Hu) as Du. pose proof (P _ Hin) as Pu.
    rewrite num_ind_hyps_eq by (auto; lia).
    assert (c <= matrix_get_rank (iter_mat (stmt_of pr u)))%nat.
    { apply rank_upper; [apply iter_mat_wf; auto; lia|]. cbn [mncols mrows iter_mat]. rewrite Du. apply S1; auto. }
    lia. }
  apply G; auto. lia.
Qed.

Lemma find_permutable_shape pr : wf_prog pr -> padded pr -> orig_first pr -> shape pr ->
  shape (fst (find_permutable_hyperplanes isl_emptyb kernel solve o EAGER (num_sols_left pr) pr)).
Proof.
  intros W P O [T S]. unfold find_permutable_hyperplanes.
  destruct (perm_cst_wf o (fun _ => false) pr) as [P1 P2]. destruct (bounding_wf o pr) as [B1 B2].
  destruct (cst_add_wf _ _ P1 B1 ltac:(congruence)) as [Wb Nb]. apply find_shape; auto.
  intros D. destruct (S D) as (c & SC). exists c. split; auto.
  destruct (le_lt_dec (length (p_stmts pr)) 0) as [L|L].
  - unfold num_sols_left. destruct (p_stmts pr); cbn in *; lia.
  - apply (sols_left_bound pr c 0); auto.
Qed.
End Depth.

(** ** Preservation by the eager rounds *)

Lemma alike_frame a b : alike a b -> frame a b.
Proof. intros H. apply H. Qed.
Lemma alike_refl a : alike a a.
Proof. split; [apply frame_refl|]. split; auto. Qed.
Lemma alike_deps pr f : (forall d, same_dep d (f d)) -> alike pr (set_deps pr (map f (p_deps pr))).
Proof. intros H. split; [apply set_deps_frame; auto|]. split; auto. Qed.
Lemma alike_update is_emptyb pr k : alike pr (fst (dep_satisfaction_update is_emptyb pr k)).
Proof. apply alike_deps. intros d; apply update_same. Qed.
Lemma alike_scc s : alike (st_prog s) (st_prog (compute_scc s)).
Proof.
  destruct (compute_scc_prog s) as [f ->]. fold (with_scc (st_prog s) f). split; [apply with_scc_frame|]. split; [|auto].
  intros i. split; [apply with_scc_trans|]. destruct (le_lt_dec (length (p_stmts (st_prog s))) i) as [L|L].
  - unfold stmt_of. rewrite !nth_overflow; auto. cbn. rewrite map_length, seq_length. auto.
  - rewrite with_scc_stmt by auto. auto.
Qed.

Section Grow.
Variables (is_emptyb isl_emptyb : cst -> bool) (kernel : matrix -> matrix) (solve : prog -> cst -> option point) (o : options).
Hypothesis EX : exact_empty is_emptyb.
Hypothesis SOL : lexmin_keeps solve.
Hypothesis KO : kernel_ok kernel.
Hypothesis KC : kernel_complete kernel.
Variable md : search_mode.

Let shp (s : dstate) : Prop := shape (st_prog s).

Lemma keep_shape s f : inv md s -> shp s -> shp (fst (keep_if_useful is_emptyb s (add_scalar_level (st_prog s) f))).
Proof.
  intros I S. destruct s as [pr a n m]. unfold shp in *. cbn [st_prog] in *.
  pose proof (i_wf _ _ I) as W. pose proof (i_pad _ _ I) as P. cbn [st_prog] in W, P.
  pose proof (shape_scalar pr f W P S) as S1. rewrite scalar_level_app in *. set (q := app_level _ _ _ _) in *.
  unfold keep_if_useful. set (k := (nrows0 q - 1)%nat). cbn [st_adj st_num st_max].
  destruct (dep_satisfaction_update is_emptyb q k) as [pr2 c] eqn:E. destruct (1 <=? c)%nat; cbn [fst].
  - cbn [ddg_update st_prog]. apply (shape_alike q); auto. change pr2 with (fst (pr2, c)). rewrite <- E. apply alike_update.
  - cbn [st_prog]. unfold dep_satisfaction_update in E. injection E as <- <-.
    destruct (drop_app pr H_SCALAR (fun _ => H_SCALAR) (fun s => const_row pr (f (stmt_of pr s))) (update_dep is_emptyb q k) W) as (D1 & D2 & D3 & D4).
    { intros d; apply update_same. }
    fold q in D1, D2, D3, D4. apply (shape_alike pr); auto. split; [exact D1|]. split; [|exact D2]. intros s. destruct (D4 s) as (A & B & _). auto.
Qed.

Lemma cut_between_shape s i j : inv md s -> shp s -> shp (fst (cut_between_sccs is_emptyb s i j)).
Proof. intros I S. unfold cut_between_sccs. destruct (negb _); auto. apply keep_shape; auto. Qed.

Lemma cut_all_shape s : inv md s -> shp s -> shp (fst (cut_all_sccs is_emptyb s)).
Proof.
  intros I S. unfold cut_all_sccs. destruct (st_num s =? 1)%nat; auto. unfold shp in *.
  pose proof (shape_scalar (st_prog s) s_scc (i_wf _ _ I) (i_pad _ _ I) S) as S1. set (q := add_scalar_level _ _) in *.
  pose proof (alike_update is_emptyb q (nrows0 q - 1)) as A. destruct (dep_satisfaction_update is_emptyb q _) as [pr2 c]. cbn [fst] in *.
  cbn [ddg_update st_prog]. apply (shape_alike q); auto.
Qed.

Lemma cut_dim_shape s : inv md s -> shp s -> shp (fst (cut_scc_dim_based is_emptyb s)).
Proof. intros I S. unfold cut_scc_dim_based. destruct (_ =? _)%nat; auto. apply keep_shape; auto. Qed.

Lemma cut_far_smart_shape l : forall s, inv md s -> shp s -> shp (cut_far_smart is_emptyb l s).
Proof.
  induction l as [|[i j] l IH]; intros s I S; cbn [cut_far_smart]; auto.
  destruct (_ <=? _)%nat; [|apply cut_all_shape; auto].
  destruct (sccs_direct_connected _ _ _); [|apply IH; auto].
  apply IH; [apply cut_between_good; auto|apply cut_between_shape; auto].
Qed.

Lemma cut_smart_shape s : inv md s -> shp s -> shp (cut_smart is_emptyb s).
Proof.
  intros I S. unfold cut_smart. destruct (_ =? _)%nat; auto.
  destruct (transformations_full_ranked _); [apply cut_all_shape; auto|].
  pose proof (cut_dim_good md is_emptyb EX s I) as G1. pose proof (cut_dim_shape s I S) as S1. destruct (cut_scc_dim_based is_emptyb s) as [s1 k1]. cbn [fst] in G1, S1.
  destruct (1 <=? k1)%nat; auto.
  pose proof (cut_between_good md is_emptyb EX s1 (half_up (st_num s1) - 1) (half_up (st_num s1)) (proj1 G1)) as G2.
  pose proof (cut_between_shape s1 (half_up (st_num s1) - 1) (half_up (st_num s1)) (proj1 G1) S1) as S2.
  destruct (cut_between_sccs is_emptyb s1 _ _) as [s2 k2]. cbn [fst] in G2, S2.
  destruct (1 <=? k2)%nat; auto. apply cut_far_smart_shape; auto. apply G2.
Qed.

Lemma cut_far_conservative_shape l : forall s, inv md s -> shp s -> shp (cut_far_conservative is_emptyb l s).
Proof.
  induction l as [|[i j] l IH]; intros s I S; cbn [cut_far_conservative]; auto.
  destruct (_ <=? _)%nat; [|apply cut_all_shape; auto].
  pose proof (cut_between_good md is_emptyb EX s (Z.of_nat i) (Z.of_nat j) I) as G. pose proof (cut_between_shape s (Z.of_nat i) (Z.of_nat j) I S) as S1.
  destruct (cut_between_sccs is_emptyb s _ _) as [s1 k]. cbn [fst] in G, S1.
  destruct (1 <=? k)%nat; auto. apply IH; auto. apply G.
Qed.

Lemma cut_conservative_shape s : inv md s -> shp s -> shp (cut_conservative is_emptyb s).
Proof.
  intros I S. unfold cut_conservative.
  pose proof (cut_dim_good md is_emptyb EX s I) as G1. pose proof (cut_dim_shape s I S) as S1. destruct (cut_scc_dim_based is_emptyb s) as [s1 k1]. cbn [fst] in G1, S1.
  destruct (1 <=? k1)%nat; auto.
  pose proof (cut_between_good md is_emptyb EX s1 (half_up (st_num s1) - 1) (half_up (st_num s1)) (proj1 G1)) as G2.
  pose proof (cut_between_shape s1 (half_up (st_num s1) - 1) (half_up (st_num s1)) (proj1 G1) S1) as S2.
  destruct (cut_between_sccs is_emptyb s1 _ _) as [s2 k2]. cbn [fst] in G2, S2.
  destruct (1 <=? k2)%nat; auto. apply cut_far_conservative_shape; auto. apply G2.
Qed.

Lemma update_levels_shape first n : forall s, shp s -> shp (update_levels is_emptyb first n s).
Proof.
  unfold update_levels. revert first. induction n as [|n IH]; intros first s S; cbn [seq fold_left]; auto.
  apply IH. unfold shp in *. cbn [ddg_update st_prog]. apply (shape_alike (st_prog s)); auto. apply alike_update.
Qed.
End Grow.

Section Rounds.
Variables (is_emptyb isl_emptyb : cst -> bool) (kernel : matrix -> matrix) (solve : prog -> cst -> option point) (o : options).
Hypothesis EX : exact_empty is_emptyb.
Hypothesis SOL : lexmin_keeps solve.
Hypothesis KO : kernel_ok kernel.
Hypothesis KC : kernel_complete kernel.

(** Once lazy, always lazy. *)
Lemma round_lazy fuse depth s s' m : round is_emptyb isl_emptyb kernel solve o fuse depth LAZY s = Continue s' m -> m = LAZY.
Proof.
  unfold round. destruct (find_permutable_hyperplanes _ _ _ _ _ _ _) as [pr1 ns].
  destruct (1 <=? ns)%nat; cbv beta iota; [congruence|]. destruct (1 <=? _)%nat; cbv beta iota; [congruence|].
  destruct (negb _); [discriminate|congruence].
Qed.
Lemma drive_lazy fuse fuel : forall depth s s' m, drive is_emptyb isl_emptyb kernel solve o fuse fuel depth LAZY s = Some (Continue s' m) -> m = LAZY.
Proof.
  induction fuel as [|fuel IH]; intros depth s s' m E; cbn [drive] in E; [discriminate|].
  destruct (round _ _ _ _ _ _ _ _ _) as [s1 m1|s1] eqn:R; [|discriminate]. apply round_lazy in R as ->.
  destruct (_ && _); [congruence|]. eapply IH; eauto.
Qed.

Lemma round_shape fuse depth s0 s' : inv EAGER s0 -> shape (st_prog s0) ->
  round is_emptyb isl_emptyb kernel solve o fuse depth EAGER s0 = Continue s' EAGER -> shape (st_prog s').
Proof.
  intros I0 S0. unfold round.
  set (s := match fuse with NoFuse => fst (cut_all_sccs is_emptyb (compute_scc s0)) | _ => s0 end).
  assert (good EAGER s0 s /\ shape (st_prog s)) as [G0 Ss].
  { unfold s. destruct fuse; try (split; [apply good_refl|]; auto). destruct (inv_compute_scc EAGER s0 I0) as [A B]. split.
    - eapply good_trans; [split; [exact A|exact B]|]. apply cut_all_good; auto.
    - apply (cut_all_shape is_emptyb EAGER); auto. apply (shape_alike (st_prog s0)); auto. apply alike_scc. }
  clearbody s. destruct s as [pr a k m]. cbn [st_prog st_adj st_num st_max] in *.
  pose proof (find_permutable_good EAGER isl_emptyb kernel solve o SOL EAGER (num_sols_left pr) pr a k m (proj1 G0)) as FP.
  destruct G0 as [I _]. pose proof (find_permutable_shape isl_emptyb kernel o KO KC solve SOL pr (i_wf _ _ I) (i_pad _ _ I) (i_orig _ _ I) Ss) as FS.
  destruct (find_permutable_hyperplanes _ _ _ _ _ _ _) as [pr1 nsols]. destruct FP as (I1 & F1 & L1). cbn [fst] in FS.
  destruct (1 <=? nsols)%nat; cbv beta iota.
  - intros E. injection E as <-. apply update_levels_shape. auto.
  - destruct (inv_compute_scc _ _ I1) as [I2 F2]. pose proof (alike_scc (mkState pr1 a k m)) as AS. set (s2 := compute_scc _) in *.
    assert (shape (st_prog s2)) as S2 by (apply (shape_alike pr1); auto).
    destruct (1 <=? _)%nat; cbv beta iota; [|discriminate]. intros E. injection E as <-. destruct fuse.
    + apply (cut_all_shape is_emptyb EAGER); auto.
    + apply (cut_smart_shape is_emptyb EX EAGER); auto.
    + destruct (_ <=? depth)%nat; [apply (cut_all_shape is_emptyb EAGER); auto|apply (cut_conservative_shape is_emptyb EX EAGER); auto].
Qed.

Lemma drive_shape fuse fuel : forall depth s s', inv EAGER s -> shape (st_prog s) ->
  drive is_emptyb isl_emptyb kernel solve o fuse fuel depth EAGER s = Some (Continue s' EAGER) -> shape (st_prog s').
Proof.
  induction fuel as [|fuel IH]; intros depth s s' I S E; cbn [drive] in E; [discriminate|].
  pose proof (round_good isl_emptyb kernel solve o SOL is_emptyb EX fuse depth EAGER s I) as R.
  destruct (round _ _ _ _ _ _ _ _ _) as [s1 m1|s1] eqn:Er; [|discriminate].
  destruct (_ && _).
  - injection E as -> ->. eapply round_shape; eauto.
  - destruct m1; [|apply drive_lazy in E; discriminate]. cbn in R. eapply IH; [| |exact E]; [apply R|]. eapply round_shape; eauto.
Qed.
End Rounds.
