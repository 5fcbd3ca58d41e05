(** * Proofs: the library interface (C75). *)
From Coq Require Import ZArith List Bool Lia Arith.
From Verif Require Import SpecLinear SpecMatrix MathModel ConstraintsModel VecProofs EditProofs SpecProg SpecDriver SpecTile SpecExec SpecOsl OslModel SpecDeps DepsModel DepsProofs DepsProofs4
  SpecFlow SpecLib FrameworkModel ProgModel ProgProofs DriverModel TileModel TileProofs LoopModel LoopProofs2 IntraModel ExportModel ExportProofs LibModel PropExport PropTile LexProofs.
Import ListNotations.
Open Scope Z_scope.

(** ** Extraction of statements *)
Section Extract.
Variables (rd : bset -> bset) (acc : nat -> list matrix * list matrix).
Hypothesis RD : remove_divs_set_ok rd.

Definition placed (done : list iset) (l : list (option stmt)) : Prop :=
  (forall d, In d done -> exists s st, extract_stmt rd acc d = Some (s, st) /\ nth_error l s = Some (Some st)) /\
  (forall s st, nth_error l s = Some (Some st) -> exists d, In d done /\ extract_stmt rd acc d = Some (s, st)).

Lemma nth_error_set {A} (l : list A) n v k : nth_error (set_nth n v l) k = if (k =? n)%nat then (match nth_error l n with Some _ => Some v | None => None end) else nth_error l k.
Proof.
  revert n k. induction l as [|a l IH]; intros [|n] [|k]; cbn; auto. destruct (k =? n)%nat; auto.
Qed.

Lemma place_fold ds : forall done l n, placed done l -> length l = n ->
  match fold_left place (map (extract_stmt rd acc) ds) (Some l) with
  | Some l' => placed (done ++ ds) l' /\ length l' = n
  | None => True
  end.
Proof.
  assert (forall xs, fold_left place xs None = None) as FN by (induction xs; cbn; auto).
  induction ds as [|d ds IH]; intros done l n P L; cbn [map fold_left].
  - rewrite app_nil_r. auto.
  - unfold place at 2. destruct (extract_stmt rd acc d) as [[s st]|] eqn:X; [|rewrite FN; exact I].
    destruct (nth_error l s) as [[y|]|] eqn:N; [rewrite FN; exact I| |rewrite FN; exact I].
    replace (done ++ d :: ds) with ((done ++ [d]) ++ ds) by (rewrite <- app_assoc; reflexivity).
    apply IH; [|rewrite set_nth_length; auto]. destruct P as [P1 P2]. split.
    + intros e He. apply in_app_iff in He. destruct He as [He|[<-|[]]].
      * destruct (P1 e He) as (s' & st' & X' & N'). exists s', st'. split; auto. rewrite nth_error_set.
        destruct (Nat.eqb_spec s' s) as [->|]; auto. congruence.
      * exists s, st. split; auto. rewrite nth_error_set, Nat.eqb_refl, N. reflexivity.
    + intros s' st' N'. rewrite nth_error_set in N'. destruct (Nat.eqb_spec s' s) as [->|].
      * rewrite N in N'. injection N' as <-. exists d. split; auto. apply in_app_iff. right. now left.
      * destruct (P2 s' st' N') as (e & He & X'). exists e. split; auto. apply in_app_iff. now left.
Qed.

Lemma extract_stmts_spec ds stmts : extract_stmts rd acc ds = Some stmts ->
  length stmts = length ds /\
  (forall d, In d ds -> exists s st, extract_stmt rd acc d = Some (s, st) /\ nth_error stmts s = Some st) /\
  (forall s st, nth_error stmts s = Some st -> exists d, In d ds /\ extract_stmt rd acc d = Some (s, st)).
Proof.
  unfold extract_stmts. pose proof (place_fold ds [] (repeat None (length ds)) (length ds)) as P.
  destruct (fold_left _ _ _) as [l|]; [|discriminate]. destruct P as [[P1 P2] L].
  - split; [intros d []|]. intros s st N. apply nth_error_In in N. apply repeat_spec in N. discriminate.
  - apply repeat_length.
  - intros A. pose proof (all_rows_nth _ _ _ A) as N. destruct (all_rows_in _ _ _ A) as (_ & _ & LL). split; [congruence|]. split.
    + intros d Hd. destruct (P1 d Hd) as (s & st & X & E). exists s, st. split; auto.
      destruct (proj1 (N s) _ E) as (y & Y & E'). congruence.
    + intros s st E. destruct (proj2 (N s) _ E) as (y & Y & E'). subst y. apply P2 in E'. exact E'.
Qed.

Lemma extract_stmt_inv d s st : extract_stmt rd acc d = Some (s, st) ->
  exists b, is_name d = Some s /\ is_sets d = [b] /\ s_dim st = bs_dim b /\ s_dim_orig st = bs_dim b /\ s_orig st = repeat true (bs_dim b) /\
    s_domain st = bset_to_constraints (rd b) /\ s_trans st = mkMat (bs_dim b + bs_npar b + 1) [] /\ s_reads st = fst (acc s) /\ s_writes st = snd (acc s).
Proof.
  unfold extract_stmt. destruct (is_name d) as [s'|]; [|discriminate]. destruct (is_sets d) as [|b [|]]; try discriminate.
  intros E. injection E as <- <-. exists b. repeat (split; [reflexivity|]). reflexivity.
Qed.

Lemma bset_domain b i p : bset_mem b i p -> mem (bset_to_constraints (rd b)) (i ++ p).
Proof.
  destruct (RD b) as (D1 & D2 & D3 & _ & D5). intros M. apply D5 in M. destruct M as (L1 & L2 & e & Le & H). rewrite D3 in Le. destruct e; [|discriminate].
  split; cbn.
  - rewrite app_length. lia.
  - intros r Hr. apply H. apply in_app_iff in Hr. destruct Hr as [Hr|Hr]; apply filter_In in Hr; tauto.
Qed.
Lemma bset_wf b : shaped_set b -> wf_cst (bset_to_constraints (rd b)) /\ ncols (bset_to_constraints (rd b)) = (bs_dim b + bs_npar b + 1)%nat.
Proof.
  destruct (RD b) as (D1 & D2 & D3 & D4 & _). intros S. apply D4 in S. cbn. split; [|lia]. split; cbn; [lia|].
  intros r Hr. assert (In r (bs_rows (rd b))) as I by (apply in_app_iff in Hr; destruct Hr as [Hr|Hr]; apply filter_In in Hr; tauto).
  rewrite (S r I). lia.
Qed.
End Extract.

(** ** The program *)
Definition accesses_shaped (ds : list iset) (npar : nat) (acc : nat -> list matrix * list matrix) : Prop :=
  forall d s b, In d ds -> is_name d = Some s -> In b (is_sets d) -> forall a, In a (fst (acc s) ++ snd (acc s)) -> wf_mat a /\ mncols a = (bs_dim b + npar + 1)%nat.

Lemma max_dims l : forall n, (n <= fold_left (fun n st => Nat.max n (s_dim st)) l n)%nat /\
  forall st, In st l -> (s_dim st <= fold_left (fun n st => Nat.max n (s_dim st)) l n)%nat.
Proof.
  induction l as [|a l IH]; intros n; cbn; [split; [lia|intros st []]|]. destruct (IH (Nat.max n (s_dim a))) as [A B]. split; [lia|].
  intros st [<-|I]; [lia|auto].
Qed.

Section Prog.
Variables (rds : bset -> bset) (rd : bmap -> bmap) (accw : bool) (acc : nat -> list matrix * list matrix) (ds : list iset) (deps : umap) (npar : nat) (pr : prog).
Hypothesis RDS : remove_divs_set_ok rds.
Hypothesis RD : remove_divs_ok rd.
Hypothesis RDS' : forall b, shaped_map b -> shaped_map (rd b).
Hypothesis IA : isl_args ds deps npar.
Hypothesis AC : accesses_shaped ds npar acc.
Hypothesis PR : prog_from_isl rds rd accw acc ds deps = Some pr.

Lemma lib_stmts : extract_stmts rds acc ds = Some (p_stmts pr) /\
  exists xs, extract_deps rd accw (p_stmts pr) D_RAW deps = Some xs /\ p_deps pr = map to_dep xs /\
    p_nvar pr = fold_left (fun n st => Nat.max n (s_dim st)) (p_stmts pr) 0%nat /\
    p_npar pr = match p_stmts pr with st :: _ => (ncols (s_domain st) - s_dim st - 1)%nat | [] => 0%nat end.
Proof.
  unfold prog_from_isl in PR. destruct (extract_stmts rds acc ds) as [stmts|]; [|discriminate].
  destruct (extract_deps rd accw stmts D_RAW deps) as [xs|] eqn:X; [|discriminate]. injection PR as <-. cbn. split; auto. exists xs. auto.
Qed.

Lemma lib_stmt st : In st (p_stmts pr) -> exists d s b, In d ds /\ is_name d = Some s /\ is_sets d = [b] /\ nth_error (p_stmts pr) s = Some st /\
  s_dim st = bs_dim b /\ s_dim_orig st = bs_dim b /\ s_orig st = repeat true (bs_dim b) /\
    s_domain st = bset_to_constraints (rds b) /\ s_trans st = mkMat (bs_dim b + bs_npar b + 1) [] /\ s_reads st = fst (acc s) /\ s_writes st = snd (acc s).
Proof.
  intros I. apply In_nth_error in I as (s & N). destruct lib_stmts as [X _]. destruct (extract_stmts_spec _ _ _ _ X) as (_ & _ & B).
  destruct (B s st N) as (d & Hd & E). destruct (extract_stmt_inv _ _ _ _ _ E) as (b & E1 & E2 & K). exists d, s, b. auto.
Qed.

Lemma lib_npar : p_stmts pr <> [] -> p_npar pr = npar.
Proof.
  intros NE. destruct lib_stmts as [_ (xs & _ & _ & _ & ->)]. destruct (p_stmts pr) as [|st l] eqn:E; [congruence|].
  destruct (lib_stmt st) as (d & s & b & Hd & _ & Eb & _ & D & _ & _ & DM & _); [rewrite E; now left|].
  destruct (ia_sets _ _ _ IA d b Hd) as [N S]; [rewrite Eb; now left|]. rewrite DM, D. destruct (bset_wf rds RDS b S) as [_ ->]. lia.
Qed.

Lemma lib_input : input_ok pr.
Proof.
  split.
  - split.
    + intros st I. destruct (lib_stmt st I) as (d & s & b & Hd & Nm & Eb & _ & D & _ & O & DM & T & R & W).
      assert (p_npar pr = npar) as NP by (apply lib_npar; intros Z; rewrite Z in I; destruct I).
      destruct (ia_sets _ _ _ IA d b Hd) as [N S]; [rewrite Eb; now left|]. destruct (bset_wf rds RDS b S) as [B1 B2]. unfold wf_cols.
      rewrite O, T, DM, D, R, W, NP, repeat_length. split; auto. split; [cbn; lia|]. split; [intros r []|]. split; auto. split; [lia|].
      intros a Ha. apply (AC d s b); auto. rewrite Eb. now left.
    + intros x I. destruct lib_stmts as [_ (xs & X & DP & _)]. rewrite DP in I. apply in_map_iff in I as (y & <- & Iy).
      destruct (all_rows_in _ _ _ X) as (_ & B & _). destruct (B y Iy) as (c & Ic & Ey).
      destruct (extract_dep_inv rd accw (p_stmts pr) RD _ _ _ Ey) as (E1 & E2 & E3 & L1 & L2 & _ & NC).
      destruct (ia_maps _ _ _ IA c Ic) as [NP SH]. apply RDS' in SH. destruct (RD c) as (_ & _ & _ & _ & _ & Z & _).
      assert (wf_cst (x_poly y)) as W.
      { rewrite E3. split; cbn; [lia|]. intros r Hr. assert (In r (b_rows (rd c))) as Ir by (apply in_app_iff in Hr; destruct Hr as [Hr|Hr]; apply filter_In in Hr; tauto).
        rewrite (SH r Ir). lia. }
      split; [cbn; lia|]. split; [cbn; lia|]. split; [exact W|]. split; [|split; [exact W|reflexivity]].
      cbn [to_dep d_src d_dst d_poly]. rewrite NC, E1, E2. fold (stmt_of pr (n_stmt (b_src c))). fold (stmt_of pr (n_stmt (b_dst c))).
      pose proof (stmt_of_in pr _ L1) as I1. destruct (lib_stmt _ I1) as (d & s & b & Hd & _ & Eb & _ & D & _ & _ & DM & _).
      destruct (ia_sets _ _ _ IA d b Hd) as [N S]; [rewrite Eb; now left|]. destruct (bset_wf rds RDS b S) as [_ B2].
      rewrite DM, D, B2, lib_npar by (intros Z'; rewrite Z' in L1; cbn in L1; lia). lia.
  - intros st I. destruct (lib_stmt st I) as (d & s & b & Hd & _ & Eb & _ & D & D' & O & _). split; [congruence|]. split; [|congruence].
    destruct lib_stmts as [_ (_ & _ & _ & -> & _)]. apply (proj2 (max_dims _ _)). auto.
Qed.

Lemma lib_domain s i p : in_domain ds s i p -> (s < length (p_stmts pr))%nat /\ length p = p_npar pr /\ iteration (stmt_of pr s) i p.
Proof.
  intros (d & b & Hd & Nm & Hb & M). destruct lib_stmts as [X _]. destruct (extract_stmts_spec _ _ _ _ X) as (L & A & _).
  destruct (A d Hd) as (s' & st & E & N). destruct (extract_stmt_inv _ _ _ _ _ E) as (b' & E1 & E2 & D & _ & _ & DM & _).
  rewrite Nm in E1. injection E1 as <-. rewrite E2 in Hb. destruct Hb as [<-|[]].
  assert (s < length (p_stmts pr))%nat as Hs by (apply nth_error_Some; congruence).
  assert (stmt_of pr s = st) as ST by (unfold stmt_of; apply nth_error_nth; auto).
  split; [exact Hs|]. split.
  - rewrite lib_npar by (intros Z; rewrite Z in Hs; cbn in Hs; lia). destruct M as (_ & -> & _). apply (ia_sets _ _ _ IA d); auto. rewrite E2. now left.
  - rewrite ST. split; [rewrite D; apply M|]. rewrite DM. apply bset_domain; auto.
Qed.

Lemma lib_dep a s b t p : umap_rel deps a s b t p -> in_domain ds (n_stmt a) s p -> in_domain ds (n_stmt b) t p ->
  exists d, In d (p_deps pr) /\ d_rar d = false /\ d_src d = n_stmt a /\ d_dst d = n_stmt b /\ instance pr d s t p.
Proof.
  intros R Ia Ib. destruct lib_stmts as [_ (xs & X & DP & _)].
  destruct (extract_covers rd accw (p_stmts pr) RD _ _ _ _ _ _ _ _ X R) as (x & Ix & E1 & E2 & M & T & _).
  destruct (lib_domain _ _ _ Ia) as (_ & LP & L1 & _). destruct (lib_domain _ _ _ Ib) as (_ & _ & L2 & _).
  exists (to_dep x). split; [rewrite DP; apply in_map; auto|]. split. { specialize (T ltac:(discriminate)). unfold to_dep. cbn. destruct (x_type x); congruence. }
  split; [auto|]. split; [auto|]. unfold instance. cbn [to_dep d_src d_dst d_poly]. rewrite E1, E2. auto.
Qed.
End Prog.

(** ** The schedules handed out *)
Definition entries_fit (r : prog) : Prop :=
  forall c row v, In c (fst (schedules r)) -> In row (rows c) -> In v (coef row) -> fits32 v.

Lemma wrap_fit v : fits32 v -> wrap32 v = v.
Proof. unfold fits32, wrap32. intros H. rewrite Z.mod_small by lia. lia. Qed.
Lemma wrap_rows l : (forall row v, In row l -> In v (coef row) -> fits32 v) -> map (map_coef (map wrap32)) l = l.
Proof.
  intros H. rewrite <- (map_id l) at 2. apply map_ext_in. intros [e c] I. unfold map_coef. cbn. f_equal.
  rewrite <- (map_id c) at 2. apply map_ext_in. intros v Iv. apply wrap_fit. exact (H _ v I Iv).
Qed.

Lemma date_exported r s i p t : has_tiles r -> entries_fit r -> (s < length (p_stmts r))%nat ->
  date (schedules_to_isl r) s i p t <->
  length t = mnrows (s_trans (stmt_of r s)) /\ length i = s_dim_orig (stmt_of r s) /\ length p = p_npar r /\
  exported (nth s (fst (schedules r)) (mkCst 0 [])) (projected r s) i p t.
Proof.
  intros H FT Hs. pose proof (has_tiles_shape r H) as HS. destruct (proj2 (proj2 (schedules_spec r HS)) s Hs) as (c & pr' & _ & A2 & A3 & A4 & A5 & _ & A7).
  destruct (HS s Hs) as (_ & _ & _ & W4 & W5). destruct (schedules_exact r HS s Hs) as [PJ _]. cbv zeta in PJ.
  assert (nth_error (schedules_to_isl r) s = Some (mkImap (mnrows (s_trans (stmt_of r s))) (projected r s) (s_dim_orig (stmt_of r s)) (p_npar r) (rows c))) as N.
  { unfold schedules_to_isl. rewrite nth_error_map, nth_error_nth' with (d := 0%nat) by (rewrite seq_length; auto). rewrite seq_nth by auto. cbn [option_map plus].
    unfold bmap_from_constraints. rewrite A2, A7, A3, wrap_rows.
    - f_equal. f_equal. lia.
    - intros row v I1 I2. apply (FT c row v); auto. rewrite <- A2. apply nth_In. rewrite (proj1 (proj2 (schedules_spec r HS))). auto. }
  rewrite A2. split.
  - intros (m & Nm & M). rewrite N in Nm. injection Nm as <-. destruct M as (L1 & L2 & L3 & e & Le & R). cbn in *.
    repeat (split; [assumption|]). exists e. split; [exact Le|]. split; [|exact R]. rewrite !app_length, A3. lia.
  - intros (L1 & L2 & L3 & e & Le & _ & R). eexists. split; [exact N|]. cbn. repeat (split; [assumption|]). exists e. auto.
Qed.

Lemma timestamp_len st i p : length (timestamp st i p) = mnrows (s_trans st).
Proof. unfold timestamp, mnrows. apply map_length. Qed.

(** The date of an iteration is the time of what carries it out. *)
Lemma carried_date pr r E s i p t : carries pr r E -> has_tiles r -> entries_fit r -> (forall st, In st (p_stmts pr) -> s_dim_orig st = s_dim st) ->
  (s < length (p_stmts pr))%nat -> length p = p_npar pr -> iteration (stmt_of pr s) i p ->
  date (schedules_to_isl r) s i p t <-> t = timestamp (stmt_of r s) (E s i p) p.
Proof.
  intros (L & NP & C & DO & _) H FT O Hs Lp I. destruct (C s p Hs Lp) as (C1 & C2 & _). destruct (DO s Hs) as [D1 _].
  assert (length i = s_dim_orig (stmt_of r s)) as Li by (rewrite D1, O by (apply stmt_of_in; auto); apply I).
  rewrite date_exported by (auto; lia). destruct (C2 i) as (tl & Et).
  assert (iteration (stmt_of r s) (tl ++ i) p) as It by (rewrite <- Et; apply C1; eauto).
  assert (forall u, length u = mnrows (s_trans (stmt_of r s)) ->
    (exported (nth s (fst (schedules r)) (mkCst 0 [])) (projected r s) i p u <-> exists tile, iteration (stmt_of r s) (tile ++ i) p /\ u = timestamp (stmt_of r s) (tile ++ i) p)) as X.
  { intros u Lu. destruct (C32_relation_kept r s i p u H ltac:(lia) Li ltac:(lia) Lu) as [_ K].
    destruct (C32_relation_kept r s i p (timestamp (stmt_of r s) (tl ++ i) p) H ltac:(lia) Li ltac:(lia) (timestamp_len _ _ _)) as [_ K'].
    destruct (proj2 K') as [I' _]; [eauto|]. split; [intros M; apply K; auto|intros M; apply K; auto]. }
  split.
  - intros (Lt & _ & _ & M). apply X in M; [|exact Lt]. destruct M as (tile & J & ->). apply C1 in J. destruct J as (j & J & Ej).
    destruct (C2 j) as (tl' & Et'). assert (i = j) as <-; [|congruence].
    rewrite Et' in Ej. apply (f_equal (@rev Z)) in Ej. rewrite !rev_app_distr in Ej. apply app_inj_len in Ej; [|rewrite !rev_length, (proj1 I), (proj1 J); auto].
    destruct Ej as [Ej _]. apply (f_equal (@rev Z)) in Ej. rewrite !rev_involutive in Ej. exact Ej.
  - intros ->. rewrite timestamp_len. split; [reflexivity|]. split; [exact Li|]. split; [lia|]. apply X; [apply timestamp_len|]. exists tl. rewrite Et. auto.
Qed.

(** Dates of a correct transformation. *)
Lemma transformation_valid rds rd accw acc ds deps npar pr r : remove_divs_set_ok rds -> remove_divs_ok rd -> (forall b, shaped_map b -> shaped_map (rd b)) ->
  isl_args ds deps npar -> accesses_shaped ds npar acc -> prog_from_isl rds rd accw acc ds deps = Some pr ->
  correct_transformation pr r -> has_tiles r -> entries_fit r -> valid_schedules ds deps (schedules_to_isl r).
Proof.
  intros RDS RD SH IA AC PR (E & CA & DT & OR) H FT.
  pose proof (lib_input rds rd accw acc ds deps npar pr RDS RD SH IA AC PR) as [_ IN].
  assert (forall st, In st (p_stmts pr) -> s_dim_orig st = s_dim st) as O by (intros st I; symmetry; apply IN; auto).
  assert (forall s i p, in_domain ds s i p -> (s < length (p_stmts pr))%nat /\ length p = p_npar pr /\ iteration (stmt_of pr s) i p) as DM
    by (intros s i p; apply (lib_domain rds rd accw acc ds deps npar pr RDS IA PR)).
  split.
  - intros s i p I. destruct (DM s i p I) as (Hs & Lp & It). exists (timestamp (stmt_of r s) (E s i p) p).
    split; [apply (carried_date pr r E); auto|]. intros t'. apply (carried_date pr r E); auto.
  - intros s i j p t I J. destruct (DM s i p I) as (Hs & Lp & It). destruct (DM s j p J) as (_ & _ & Jt).
    intros A B. apply (carried_date pr r E) in A; auto. apply (carried_date pr r E) in B; auto.
    destruct CA as (L & NP & C & _). destruct (C s p Hs Lp) as (C1 & _ & C3 & _). apply C3; auto.
    apply (DT s _ _ p); [lia|lia|apply C1; eauto|apply C1; eauto|congruence].
  - intros a s b t p u v R Ia Ib. destruct (DM _ _ _ Ia) as (Ha & Lp & It). destruct (DM _ _ _ Ib) as (Hb & _ & Jt).
    intros A B. apply (carried_date pr r E) in A; auto. apply (carried_date pr r E) in B; auto. subst u v.
    destruct (lib_dep rds rd accw acc ds deps npar pr RDS RD IA PR a s b t p R Ia Ib) as (d & Id & RR & E1 & E2 & X).
    rewrite <- E1, <- E2. apply OR; auto.
Qed.

(** ** Schedules from accesses *)
Lemma point_name_eq (x y : aname * point) : {x = y} + {x <> y}.
Proof. decide equality; [apply list_eq_dec, Z.eq_dec|]. decide equality; [|apply Nat.eq_dec]. decide equality. decide equality; [apply Nat.eq_dec|apply bool_dec]. Qed.
Lemma lexlt_dec u : forall v, lexlt u v \/ ~ lexlt u v.
Proof.
  induction u as [|a u IH]; intros [|b v]; cbn; auto. destruct (Ztrichotomy a b) as [A|[A|A]]; [left; auto| |right; lia].
  destruct (IH v); [left; auto|right]. intros [|[]]; auto; lia.
Qed.

Section Memory.
Variables (flow : amap -> amap -> amap -> smap -> umap * umap) (co : umap -> umap) (uni : umap -> umap -> umap) (lw rar cl : bool)
  (reads writes : amap) (sched : smap) (ds : list iset) (ms : list imap).
Hypothesis FL : isl_correct flow reads writes sched.
Hypothesis CO : coalesce_ok co.
Hypothesis UN : union_ok uni.
Hypothesis DD : dates_differ sched (any_access reads writes).
Hypothesis FW : lw = true -> finitely_written writes.
Hypothesis DO : forall a i p l, any_access reads writes a i p l -> in_domain ds (n_stmt a) i p.
Let d := compute_deps_isl flow co lw rar cl reads writes sched.
Hypothesis VS : valid_schedules ds (uni (uni (i_raw d) (i_war d)) (i_waw d)) ms.

Definition clash (a : aname) (s : point) (b : aname) (t p : point) (l : loc) : Prop :=
  (writes a s p l /\ (reads b t p l \/ writes b t p l)) \/ (reads a s p l /\ writes b t p l).
Lemma clash_any a s b t p l : clash a s b t p l -> any_access reads writes a s p l /\ any_access reads writes b t p l.
Proof. unfold clash, any_access. tauto. Qed.

Lemma unmasked_order a s b t p l u v : clash a s b t p l -> sooner sched a s b t p -> (lw = true -> unmasked writes sched a s b t p l) ->
  date ms (n_stmt a) s p u -> date ms (n_stmt b) t p v -> lexlt u v.
Proof.
  intros K S U A B. destruct (clash_any _ _ _ _ _ _ K) as [Ka Kb].
  destruct (direct_link flow co lw rar cl reads writes sched CO FL a s b t p l K S U) as (a' & s' & SD & AA & L).
  destruct (proj2 DD a' s' a s p l l AA Ka SD) as [E1 E2]. subst s'.
  apply (vs_order _ _ _ VS a' s b t p u v); auto; [|rewrite E1; eapply DO; eauto|eapply DO; eauto|rewrite E1; auto].
  apply UN. unfold linked in L. fold d in L. destruct L as [L|[L|L]]; [left; apply UN; auto..|right; auto].
Qed.

Lemma sooner_trans a s b t c u p l : any_access reads writes b t p l -> sooner sched a s b t p -> sooner sched b t c u p -> sooner sched a s c u p.
Proof.
  intros K (x & y & X & Y & L) (y' & z & Y' & W & M). rewrite <- (proj1 DD _ _ _ _ _ _ K Y Y') in M. exists x, z. split; auto. split; auto. eapply lexlt_trans; eauto.
Qed.
Lemma sooner_irrefl a s p l : any_access reads writes a s p l -> ~ sooner sched a s a s p.
Proof. intros K (x & y & X & Y & L). rewrite (proj1 DD _ _ _ _ _ _ K X Y) in L. exact (lexlt_irrefl _ L). Qed.

Lemma masked_order n : forall ws a s b t p l u v, (length ws < n)%nat -> clash a s b t p l -> sooner sched a s b t p ->
  (forall c w, writes c w p l -> sooner sched a s c w p -> sooner sched c w b t p -> In (c, w) ws) ->
  date ms (n_stmt a) s p u -> date ms (n_stmt b) t p v -> lexlt u v.
Proof.
  induction n as [|n IH]; intros ws a s b t p l u v Ln K S W A B; [lia|].
  destruct (lexlt_dec u v) as [|NL]; [assumption|]. apply (unmasked_order a s b t p l); auto.
  intros _ c w Wc S1 S2. apply NL. pose proof (W c w Wc S1 S2) as I.
  assert (any_access reads writes c w p l) as Kc by (right; auto). destruct (clash_any _ _ _ _ _ _ K) as [Ka Kb].
  destruct (vs_dated _ _ _ VS (n_stmt c) w p (DO _ _ _ _ Kc)) as (z & Dz & _).
  assert (length (remove point_name_eq (c, w) ws) < n)%nat as LR by (pose proof (remove_length_lt point_name_eq ws (c, w) I); lia).
  apply (lexlt_trans _ z).
  - apply (IH (remove point_name_eq (c, w) ws) a s c w p l); auto.
    + unfold clash, any_access in *. tauto.
    + intros e y We T1 T2. apply in_in_remove; [|apply W; auto; exact (sooner_trans e y c w b t p l Kc T2 S2)].
      intros E. injection E as -> ->. exact (sooner_irrefl _ _ _ _ Kc T2).
  - apply (IH (remove point_name_eq (c, w) ws) c w b t p l); auto.
    + unfold clash, any_access in *. tauto.
    + intros e y We T1 T2. apply in_in_remove; [|apply W; auto; exact (sooner_trans a s c w e y p l Kc S1 T1)].
      intros E. injection E as -> ->. exact (sooner_irrefl _ _ _ _ Kc T1).
Qed.

Lemma memory_kept : keeps_memory ds reads writes sched ms.
Proof.
  split; [apply VS|apply VS|]. intros a s b t p l u v K SO A B. fold (clash a s b t p l) in K.
  destruct (bool_dec lw true) as [E|E].
  - destruct (FW E p l) as [ws W]. apply (masked_order (S (length ws)) ws a s b t p l); auto.
  - apply (unmasked_order a s b t p l); auto. intros E'. contradiction.
Qed.
End Memory.
