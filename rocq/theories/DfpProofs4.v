(** * Proofs about the rows that skewing introduces. *)
From Coq Require Import ZArith List Bool Arith Lia.
From Verif Require Import SpecLinear SpecMatrix VecProofs MathModel ConstraintsModel EditProofs FarkasProofs RankProofs SpecGraph GraphModel SpecProg SpecDriver SpecDfp
  FrameworkModel FrameworkProofs DepProofs ProgModel ProgProofs DriverModel HypProofs DriverProofs PadProofs AutoProofs DfpModel DfpProofs.
Import ListNotations.
Open Scope Z_scope.

Lemma eqv_row c v a : set_last (ncols c - 1) (- a) (set_last v 1 (add_equality c)) =
  mkCst (ncols c) (rows c ++ [mkRow true (set_nth (ncols c - 1) (- a) (set_nth v 1 (repeat 0 (ncols c))))]).
Proof.
  rewrite eq0_row. unfold set_last. cbn [rows ncols]. rewrite app_length. cbn [length].
  f_equal. rewrite map_nth_end by lia. reflexivity.
Qed.
Lemma eqv_mem c v a x : (v < ncols c - 1)%nat -> mem (set_last (ncols c - 1) (- a) (set_last v 1 (add_equality c))) x <-> mem c x /\ nth v x 0 = a.
Proof.
  intros Hv. rewrite eqv_row. unfold mem. cbn [rows ncols].
  assert (S (length x) = ncols c -> (holds x (mkRow true (set_nth (ncols c - 1) (- a) (set_nth v 1 (repeat 0 (ncols c))))) <-> nth v x 0 = a)) as K.
  { intros L. unfold holds. cbn [is_eq coef]. unfold aff.
    rewrite dot_set_nth by (rewrite ?set_nth_length, ?repeat_length, ?app_length; cbn; lia).
    rewrite dot_set_nth by (rewrite ?repeat_length, ?app_length; cbn; lia).
    rewrite dot_repeat0_l. rewrite nth_set_nth_neq by lia. rewrite !nth_repeat. rewrite (app_nth1 _ _ 0) by lia.
    rewrite app_nth2 by lia. replace (ncols c - 1 - length x)%nat with 0%nat by lia. cbn [nth]. lia. }
  split.
  - intros [L H]. split; [split; [auto|intros r Hr; apply H; apply in_or_app; auto]|]. apply K; [auto|]. apply H. apply in_or_app. right. left. auto.
  - intros [[L H] E]. split; [auto|]. intros r Hr. apply in_app_or in Hr as [Hr|[<-|[]]]; [auto|]. apply K; auto.
Qed.
Lemma eqv_wf c v a w : wf_cst c -> wf_cst (set_last w a (set_last v 1 (add_equality c))) /\ ncols (set_last w a (set_last v 1 (add_equality c))) = ncols c.
Proof.
  intros [A B]. rewrite eq0_row. unfold set_last. cbn [rows ncols]. rewrite app_length. cbn [length]. rewrite map_nth_end by lia.
  split; [|reflexivity]. split; [exact A|]. cbn [rows ncols]. intros r H. apply in_app_or in H as [H|[<-|[]]]; [auto|].
  cbn [map_coef coef]. rewrite !set_nth_length. apply repeat_length.
Qed.

(** The conditions on the coefficients of statement [i]. *)
Definition skew_rule (src skew : list bool) (scc : Z) (pr : prog) (level : nat) (i : nat) (x : point) : Prop :=
  let st := stmt_of pr i in
  let outer := match find (fun k => nth k skew false) (seq 0 (p_nvar pr)) with Some k => k | None => p_nvar pr end in
  (if (s_dim_orig st <=? outer)%nat && (s_scc st =? scc) then forall j, In j (seq 0 (s_dim_orig st)) -> 0 <= hcoef pr x i j
   else forall j, In j (seq 0 (s_dim_orig st)) ->
     if nth j src false && (s_scc st =? scc) then 1 <= hcoef pr x i j else hcoef pr x i j = nth j (nth level (mrows (s_trans st)) []) 0) /\
  0 <= hcoef pr x i (p_nvar pr).

Lemma skewing_spec src skew scc pr level base : wf_cst base -> ncols base = cst_width pr ->
  (forall j, (j < length (p_stmts pr))%nat -> (s_dim_orig (stmt_of pr j) <= p_nvar pr)%nat) ->
  wf_cst (get_skewing_constraints src skew scc pr level base) /\ ncols (get_skewing_constraints src skew scc pr level base) = cst_width pr /\
  forall x, mem (get_skewing_constraints src skew scc pr level base) x <-> mem base x /\ forall i, (i < length (p_stmts pr))%nat -> skew_rule src skew scc pr level i x.
Proof.
  intros W N D. unfold get_skewing_constraints. cbv zeta. set (outer := match find _ _ with Some k => k | None => _ end).
  set (f := fun acc i => _).
  destruct (fold_cond f (skew_rule src skew scc pr level) (cst_width pr) (fun j => (j < length (p_stmts pr))%nat)) with (l := seq 0 (length (p_stmts pr))) (c := base) as (A1 & A2 & A3); auto.
  - intros c0 i W0 N0. unfold f, skew_rule. cbv zeta. fold outer.
    assert (forall c1, wf_cst c1 -> ncols c1 = cst_width pr -> (forall P, (forall x, (i < length (p_stmts pr))%nat -> mem c1 x <-> mem c0 x /\ P x) ->
       wf_cst (add_lb c1 (p_npar pr + 1 + i * (p_nvar pr + 1) + p_nvar pr) 0) /\ ncols (add_lb c1 (p_npar pr + 1 + i * (p_nvar pr + 1) + p_nvar pr) 0) = cst_width pr /\
       ((i < length (p_stmts pr))%nat -> forall x, mem (add_lb c1 (p_npar pr + 1 + i * (p_nvar pr + 1) + p_nvar pr) 0) x <-> mem c0 x /\ P x /\ 0 <= hcoef pr x i (p_nvar pr)))) as L.
    { intros c1 W1 N1 P HP. destruct (lb_wf c1 (p_npar pr + 1 + i * (p_nvar pr + 1) + p_nvar pr) 0 W1) as [X Y]. split; [exact X|]. split; [congruence|].
      intros Hi x. rewrite add_lb_mem by (rewrite N1; unfold cst_width; nia). rewrite HP by auto. unfold hcoef. tauto. }
    destruct (_ && _).
    + destruct (fold_cond (fun acc j => add_lb acc (p_npar pr + 1 + i * (p_nvar pr + 1) + j) 0) (fun j x => 0 <= hcoef pr x i j) (cst_width pr)
        (fun k => (i < length (p_stmts pr))%nat /\ (k < p_nvar pr)%nat)) with (l := seq 0 (s_dim_orig (stmt_of pr i))) (c := c0) as (B1 & B2 & B3); auto.
      * intros c1 k W1 N1. destruct (lb_wf c1 (p_npar pr + 1 + i * (p_nvar pr + 1) + k) 0 W1) as [X Y]. split; [exact X|]. split; [congruence|].
        intros [Hj Hk] x. apply add_lb_mem. rewrite N1. unfold cst_width. nia.
      * apply (L _ B1 B2 (fun x => forall j, In j (seq 0 (s_dim_orig (stmt_of pr i))) -> 0 <= hcoef pr x i j)). intros x Hi. apply B3. intros k Hk. split; [exact Hi|]. apply in_seq in Hk. specialize (D i Hi). lia.
    + destruct (fold_cond (fun acc j => if nth j src false && (s_scc (stmt_of pr i) =? scc) then add_lb acc (p_npar pr + 1 + i * (p_nvar pr + 1) + j) 1
              else set_last (cst_width pr - 1) (- nth j (nth level (mrows (s_trans (stmt_of pr i))) []) 0)
                     (set_last (p_npar pr + 1 + i * (p_nvar pr + 1) + j) 1 (add_equality acc)))
          (fun j x => if nth j src false && (s_scc (stmt_of pr i) =? scc) then 1 <= hcoef pr x i j else hcoef pr x i j = nth j (nth level (mrows (s_trans (stmt_of pr i))) []) 0) (cst_width pr)
        (fun k => (i < length (p_stmts pr))%nat /\ (k < p_nvar pr)%nat)) with (l := seq 0 (s_dim_orig (stmt_of pr i))) (c := c0) as (B1 & B2 & B3); auto.
      * intros c1 k W1 N1. destruct (_ && _).
        -- destruct (lb_wf c1 (p_npar pr + 1 + i * (p_nvar pr + 1) + k) 1 W1) as [X Y]. split; [exact X|]. split; [congruence|].
           intros [Hj Hk] x. apply add_lb_mem. rewrite N1. unfold cst_width. nia.
        -- destruct (eqv_wf c1 (p_npar pr + 1 + i * (p_nvar pr + 1) + k) (- nth k (nth level (mrows (s_trans (stmt_of pr i))) []) 0) (cst_width pr - 1) W1) as [X Y]. split; [exact X|]. split; [congruence|].
           intros [Hj Hk] x. rewrite <- N1. rewrite eqv_mem by (rewrite N1; unfold cst_width; nia). reflexivity.
      * apply (L _ B1 B2 (fun x => forall j, In j (seq 0 (s_dim_orig (stmt_of pr i))) -> if nth j src false && (s_scc (stmt_of pr i) =? scc) then 1 <= hcoef pr x i j else hcoef pr x i j = nth j (nth level (mrows (s_trans (stmt_of pr i))) []) 0)).
        intros x Hi. apply B3. intros k Hk. split; [exact Hi|]. apply in_seq in Hk. specialize (D i Hi). lia.
  - split; [exact A1|]. split; [exact A2|]. intros x. rewrite A3 by (intros a Ha; apply in_seq in Ha; lia). split; intros [X Y]; (split; [exact X|]); intros j Hj; apply Y; [apply in_seq; lia|apply in_seq in Hj; lia].
Qed.

Lemma cc_cst_wf o id pr g : get_cc_permutability_constraints o id pr = Some g -> wf_cst g /\ ncols g = cst_width pr.
Proof.
  unfold get_cc_permutability_constraints.
  assert (forall l acc, (forall c, acc = Some c -> wf_cst c /\ ncols c = cst_width pr) ->
    forall c, fold_left (fun acc d => if d_sat d then acc
      else if (s_cc (stmt_of pr (d_src d)) =? id) && (s_cc (stmt_of pr (d_src d)) =? s_cc (stmt_of pr (d_dst d)))
      then Some (cst_add (match acc with Some c => c | None => universe (cst_width pr) end) (dep_cst o pr d)) else acc) l acc = Some c -> wf_cst c /\ ncols c = cst_width pr) as H.
  { induction l as [|d l IH]; intros acc Ha c E; cbn [fold_left] in E; [auto|]. apply IH in E; auto. intros c' E'. destruct (d_sat d); [auto|]. destruct (_ && _); [|auto].
    apply (f_equal (fun o => match o with Some u => u | None => c' end)) in E'. subst c'. destruct (dep_cst_wf o pr d) as [D1 D2].
    assert (wf_cst (match acc with Some c => c | None => universe (cst_width pr) end) /\ ncols (match acc with Some c => c | None => universe (cst_width pr) end) = cst_width pr) as [A1 A2].
    { destruct acc; [auto|]. split; [split; [cbn; unfold cst_width; lia|intros r []]|reflexivity]. }
    destruct (DriverProofs.cst_add_wf _ _ A1 D1 ltac:(congruence)) as [X Y]. split; [exact X|congruence]. }
  exact (H (p_deps pr) None ltac:(discriminate) g).
Qed.

Section Skew.
Variables (solve : prog -> cst -> option point) (o : options).
Hypothesis SOL : solver_sound solve.

Lemma skew_row pr0 pr src skew scc cc lv pc sol : wf_prog pr0 -> padded pr0 -> orig_first pr0 -> orig_first pr -> frame pr0 pr -> p_stmts pr <> [] ->
  get_cc_permutability_constraints o cc pr0 = Some pc ->
  prog_constraints_lexmin solve pr (get_skewing_constraints src skew scc pr lv (cst_add (universe (cst_width pr)) pc)) = Some sol ->
  S (length sol) = cst_width pr /\ zpadding_zero pr sol /\
  (forall i, (i < length (p_stmts pr))%nat -> skew_rule src skew scc pr lv i sol) /\
  forall d, In d (p_deps pr0) -> d_sat d = false -> d_rar d = false -> s_cc (stmt_of pr0 (d_src d)) = cc -> s_cc (stmt_of pr0 (d_dst d)) = cc ->
    forall s t p, instance pr0 d s t p -> aff (hyp_row pr sol (d_src d)) (s ++ p) <= aff (hyp_row pr sol (d_dst d)) (t ++ p) /\
      (o_nodepbound o = false -> d_bpoly d = d_poly d -> aff (hyp_row pr sol (d_dst d)) (t ++ p) - aff (hyp_row pr sol (d_src d)) (s ++ p) <= zbound pr0 sol p).
Proof.
  intros W0 P0 O0 O F NE EP H. pose proof (frame_width _ _ F) as Wd. destruct (cc_cst_wf _ _ _ _ EP) as [Wp Np].
  assert (wf_cst (universe (cst_width pr))) as Wu by (split; [cbn; unfold cst_width; lia|intros r []]).
  destruct (DriverProofs.cst_add_wf _ _ Wu Wp) as [Wa Na]; [cbn [universe ncols]; congruence|]. cbn [universe ncols] in Na.
  assert (forall j, (j < length (p_stmts pr))%nat -> (s_dim_orig (stmt_of pr j) <= p_nvar pr)%nat) as D by (intros j Hj; apply (O _ (stmt_of_in pr j Hj))).
  destruct (skewing_spec src skew scc pr lv _ Wa Na D) as (Ws & Ns & Ms).
  assert (mem (get_skewing_constraints src skew scc pr lv (cst_add (universe (cst_width pr)) pc)) sol /\ zpadding_zero pr sol) as [M Z].
  { apply (lexmin_sound pr (orig_first_wf pr O)) with (solve := solve); auto.
    - intros st Hst. apply (orig_first_mask pr st O Hst).
    - intros E. assert (0 < length (p_stmts pr))%nat as L0 by (destruct (p_stmts pr); [congruence|simpl; lia]).
      set (x := repeat (-1) (cst_width pr - 1)).
      assert (mem (get_skewing_constraints src skew scc pr lv (cst_add (universe (cst_width pr)) pc)) x) as Mx.
      { split; [unfold x; rewrite repeat_length, Ns; unfold cst_width; lia|]. rewrite E. intros r []. }
      apply Ms in Mx as [_ Mx]. destruct (Mx 0%nat L0) as [_ Q]. unfold hcoef, x in Q.
      rewrite (nth_indep _ 0 (-1)), nth_repeat in Q; [lia|]. rewrite repeat_length. unfold cst_width. nia. }
  apply Ms in M as [Ma Mr]. pose proof (proj1 Ma) as L. rewrite Na in L. split; [exact L|]. split; [exact Z|]. split; [exact Mr|].
  intros d Hd Sa Ra C1 C2 s t p In. apply cst_add_mem in Ma as [_ Mp]; [|cbn [universe ncols]; congruence].
  assert (zpadding_zero pr0 sol) as Z0.
  { intros u k Hu Hk E. destruct F as (F1 & F2 & F3 & F4 & _). destruct (F4 u) as (_ & _ & Eo & _). rewrite <- F1, <- F2. apply Z; [lia|lia|]. rewrite Eo. exact E. }
  assert (wf_dep pr0 d) as (D1 & D2 & _) by (apply W0; auto). pose proof In as (L3 & L4 & L5 & _).
  rewrite (P0 _ (stmt_of_in pr0 _ D1)) in L3. rewrite (P0 _ (stmt_of_in pr0 _ D2)) in L4.
  pose proof F as (F1 & F2 & F3 & _).
  rewrite !hyp_row_aff by (rewrite ?F1, ?F2, ?F3; auto; congruence).
  unfold zhyp. rewrite F1, F2. fold (zhyp pr0 sol (d_src d)) (zhyp pr0 sol (d_dst d)).
  pose proof (cc_cst_spec o cc pr0 (zpoint sol)) as Sp. cbv zeta in Sp. rewrite EP in Sp.
  apply qmem_zpoint in Mp. apply (proj1 Sp) in Mp as [_ Mp]. specialize (Mp d Hd Sa). rewrite C1, C2, !Z.eqb_refl in Mp. specialize (Mp eq_refl).
  assert (padded_dep pr0 d) as PD by (apply padded_dep_intro; auto).
  apply dep_cst_sound in Mp as [Mp Mb]; auto; [|apply zpadding; auto].
  pose proof (preserves_int pr0 d 0 sol PD P0 (Mp Ra) s t p In). split; [lia|]. intros Nb Eb.
  apply (bounded_int pr0 d sol P0 (Mb Nb)); auto. rewrite Eb. apply In.
Qed.

Lemma replace_level_stmt pr lv sol u : (u < length (p_stmts pr))%nat ->
  mrows (s_trans (stmt_of (replace_level pr lv sol) u)) = map_nth lv (fun _ => hyp_row pr sol u) (mrows (s_trans (stmt_of pr u))).
Proof. intros Hu. unfold replace_level, stmt_of at 1. cbn [set_stmts p_stmts]. rewrite nth_map_seq by auto. reflexivity. Qed.
End Skew.

(** Without a skew the schedules stay as they are. *)
Lemma introduce_rows is_emptyb solve o pr pr1 : introduce_skew is_emptyb solve o pr = Some (pr1, false) -> same_rows pr pr1.
Proof.
  intros H. unfold introduce_skew in H. destruct (_ <=? 1)%nat; [injection H as <-; apply same_rows_refl|].
  cbv zeta in H. set (p1 := dep_satisfaction_reset _) in *.
  assert (same_rows pr p1) as R01 by (split; reflexivity).
  set (initial := match find _ _ with Some i => i | None => _ end) in H. clearbody initial.
  pose proof (update_to_rows is_emptyb (seq 0 initial) p1) as R2. set (p2 := update_to _ _ _) in *.
  assert (same_rows pr p2) as R02 by (exact (same_rows_trans _ _ _ R01 R2)).
  destruct (Nat.eqb_spec initial (length (p_hprops pr))) as [E|E]; [injection H as <-; auto|].
  pose proof (compute_scc_rows (mkState p2 (graph_of p2) 0 [])) as R4. cbn [st_prog] in R4.
  assert (length (p_stmts p2) = length (p_stmts (st_prog (compute_scc (mkState p2 (graph_of p2) 0 []))))) as NS.
  { destruct (compute_scc_prog (mkState p2 (graph_of p2) 0 [])) as (f & Ef). rewrite Ef. cbn [st_prog set_stmts p_stmts]. rewrite ?map_length, ?seq_length. reflexivity. }
  set (s := compute_scc _) in *. destruct (ddg_compute_cc _ _ _) as [cc num_cc].
  rewrite NS in H. fold (with_cc (st_prog s) cc) in H.
  pose proof (with_cc_rows (st_prog s) cc) as R5. set (p3 := with_cc (st_prog s) cc) in *.
  assert (same_rows pr p3) as R03 by (eapply same_rows_trans; [exact R02|eapply same_rows_trans; eauto]).
  destruct (skew_sccs _ _ _ _ _ _ _ _) as [k|] eqn:Ek; [|discriminate]. injection H as <- Hk. apply skew_sccs_done in Ek as [-> _]; [|exact Hk]. cbn [sk_prog].
  eapply same_rows_trans; [exact R03|]. apply set_deps_rows.
Qed.

Lemma find_first (f : nat -> bool) n a m : find f (seq a n) = Some m -> f m = true /\ forall k, (a <= k < m)%nat -> f k = false.
Proof.
  revert a. induction n as [|n IH]; intros a H; [discriminate|]. cbn [seq find] in H. destruct (f a) eqn:E.
  - injection H as <-. split; [auto|]. intros; lia.
  - apply IH in H as [A B]. split; [auto|]. intros k Hk. destruct (Nat.eq_dec k a) as [->|N]; [auto|apply B; lia].
Qed.
