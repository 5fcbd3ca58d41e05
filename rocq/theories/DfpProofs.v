(** * Proofs about the framework "decoupled fusion and permutation". *)
From Coq Require Import ZArith List Bool Arith Lia.
From Verif Require Import SpecLinear SpecMatrix VecProofs MathModel ConstraintsModel EditProofs FarkasProofs RankProofs SpecGraph GraphModel GraphProofs SpecProg SpecDriver
  FrameworkModel FrameworkProofs DepProofs ProgModel ProgProofs DriverModel HypProofs DriverProofs PadProofs AutoProofs DfpModel.
Import ListNotations.
Open Scope Z_scope.

(** ** The constraints from the colouring *)

Lemma eq0_row c v : set_last v 1 (add_equality c) = mkCst (ncols c) (rows c ++ [mkRow true (set_nth v 1 (repeat 0 (ncols c)))]).
Proof.
  unfold set_last, add_equality, add_zero_row. cbn [rows ncols]. rewrite app_length. cbn [length].
  f_equal. rewrite map_nth_end by lia. reflexivity.
Qed.
Lemma eq0_mem c v x : (v < ncols c - 1)%nat -> mem (set_last v 1 (add_equality c)) x <-> mem c x /\ nth v x 0 = 0.
Proof.
  intros Hv. rewrite eq0_row. unfold mem. cbn [rows ncols]. split.
  - intros [L H]. assert (holds x (mkRow true (set_nth v 1 (repeat 0 (ncols c))))) as R by (apply H; apply in_or_app; right; left; auto).
    split; [split; [auto|intros r Hr; apply H; apply in_or_app; auto]|].
    unfold holds in R. cbn [is_eq coef] in R. unfold aff in R. rewrite dot_set_nth in R by (rewrite ?repeat_length, ?app_length; cbn; lia).
    rewrite dot_repeat0_l in R. rewrite app_nth1 in R by lia. rewrite nth_repeat in R. lia.
  - intros [[L H] E]. split; [auto|]. intros r Hr. apply in_app_or in Hr as [Hr|[<-|[]]]; [auto|].
    unfold holds. cbn [is_eq coef]. unfold aff. rewrite dot_set_nth by (rewrite ?repeat_length, ?app_length; cbn; lia).
    rewrite dot_repeat0_l. rewrite app_nth1 by lia. rewrite nth_repeat. lia.
Qed.
Lemma eq0_wf c v : wf_cst c -> wf_cst (set_last v 1 (add_equality c)) /\ ncols (set_last v 1 (add_equality c)) = ncols c.
Proof.
  intros [A B]. rewrite eq0_row. split; [|reflexivity]. split; [exact A|]. cbn [rows ncols]. intros r H. apply in_app_or in H as [H|[<-|[]]]; [auto|].
  cbn [coef]. rewrite set_nth_length. apply repeat_length.
Qed.
Lemma lb_wf c v l : wf_cst c -> wf_cst (add_lb c v l) /\ ncols (add_lb c v l) = ncols c.
Proof. intros W. exact (fold_lb_wf [v] l c W). Qed.

(** A fold of additions, each of which adds the condition [P a]. *)
Lemma fold_cond {A} (f : cst -> A -> cst) (P : A -> point -> Prop) n (ok : A -> Prop) :
  (forall c a, wf_cst c -> ncols c = n -> wf_cst (f c a) /\ ncols (f c a) = n /\ (ok a -> forall x, mem (f c a) x <-> mem c x /\ P a x)) ->
  forall l c, wf_cst c -> ncols c = n ->
  wf_cst (fold_left f l c) /\ ncols (fold_left f l c) = n /\
  ((forall a, In a l -> ok a) -> forall x, mem (fold_left f l c) x <-> mem c x /\ forall a, In a l -> P a x).
Proof.
  intros H l. induction l as [|a l IH]; intros c W N; cbn [fold_left].
  - split; [exact W|]. split; [exact N|]. intros _ x. split; [intros M; split; [exact M|intros a []]|intros [M _]; exact M].
  - destruct (H c a W N) as (W1 & N1 & M1). destruct (IH (f c a) W1 N1) as (W2 & N2 & M2). split; [exact W2|]. split; [exact N2|].
    intros O x. rewrite M2 by (intros; apply O; right; auto). rewrite (M1 (O a (or_introl eq_refl))). split.
    + intros [[Mc Pa] Pl]. split; [exact Mc|]. intros b [<-|Hb]; auto.
    + intros [Mc Pl]. split; [split; [exact Mc|apply Pl; left; auto]|]. intros b Hb. apply Pl. right. auto.
Qed.

(** What the constraints say about the coefficients of statement [j]. *)
Definition colour_rule (pr : prog) (col : list Z) (c : nat) (j : nat) (x : point) : Prop :=
  if (s_dim_orig (stmt_of pr j) <? c)%nat then forall k, In k (seq 0 (s_dim_orig (stmt_of pr j))) -> 0 <= hcoef pr x j k
  else forall k, In k (seq 0 (p_nvar pr)) ->
    if nth k (s_orig (stmt_of pr j)) false && (nth (vertex_offset pr j + k) col 0 =? Z.of_nat c) then 1 <= hcoef pr x j k else hcoef pr x j k = 0.

Lemma colour_constraints_spec pr col c base : wf_cst base -> ncols base = cst_width pr ->
  (forall j, (j < length (p_stmts pr))%nat -> (s_dim_orig (stmt_of pr j) <= p_nvar pr)%nat) ->
  wf_cst (colour_constraints pr col c base) /\ ncols (colour_constraints pr col c base) = cst_width pr /\
  forall x, mem (colour_constraints pr col c base) x <-> mem base x /\ forall j, (j < length (p_stmts pr))%nat -> colour_rule pr col c j x.
Proof.
  intros W N D. unfold colour_constraints.
  destruct (fold_cond (fun acc j =>
      let st := stmt_of pr j in
      let var k := (p_npar pr + 1 + j * (p_nvar pr + 1) + k)%nat in
      if (s_dim_orig st <? c)%nat then
        fold_left (fun acc k => add_lb acc (var k) 0) (seq 0 (s_dim_orig st)) acc
      else
        fold_left (fun acc k =>
            if nth k (s_orig st) false && (nth (vertex_offset pr j + k) col 0 =? Z.of_nat c)
            then add_lb acc (var k) 1
            else set_last (var k) 1 (add_equality acc)) (seq 0 (p_nvar pr)) acc)
    (colour_rule pr col c) (cst_width pr) (fun j => (j < length (p_stmts pr))%nat)) with (l := seq 0 (length (p_stmts pr))) (c := base) as (A1 & A2 & A3); auto.
  - intros c0 j W0 N0. cbv zeta. unfold colour_rule. destruct (s_dim_orig (stmt_of pr j) <? c)%nat.
    + destruct (fold_cond (fun acc k => add_lb acc (p_npar pr + 1 + j * (p_nvar pr + 1) + k) 0) (fun k x => 0 <= hcoef pr x j k) (cst_width pr)
        (fun k => (j < length (p_stmts pr))%nat /\ (k < p_nvar pr)%nat)) with (l := seq 0 (s_dim_orig (stmt_of pr j))) (c := c0) as (B1 & B2 & B3); auto.
      * intros c1 k W1 N1. destruct (lb_wf c1 (p_npar pr + 1 + j * (p_nvar pr + 1) + k) 0 W1) as [X Y]. split; [exact X|]. split; [congruence|].
        intros [Hj Hk] x. apply add_lb_mem. rewrite N1. unfold cst_width. nia.
      * split; [exact B1|]. split; [exact B2|]. intros Hj x. apply B3. intros k Hk. split; [exact Hj|]. apply in_seq in Hk. specialize (D j Hj). lia.
    + destruct (fold_cond (fun acc k => if nth k (s_orig (stmt_of pr j)) false && (nth (vertex_offset pr j + k) col 0 =? Z.of_nat c)
            then add_lb acc (p_npar pr + 1 + j * (p_nvar pr + 1) + k) 1
            else set_last (p_npar pr + 1 + j * (p_nvar pr + 1) + k) 1 (add_equality acc))
          (fun k x => if nth k (s_orig (stmt_of pr j)) false && (nth (vertex_offset pr j + k) col 0 =? Z.of_nat c) then 1 <= hcoef pr x j k else hcoef pr x j k = 0) (cst_width pr)
        (fun k => (j < length (p_stmts pr))%nat /\ (k < p_nvar pr)%nat)) with (l := seq 0 (p_nvar pr)) (c := c0) as (B1 & B2 & B3); auto.
      * intros c1 k W1 N1. destruct (_ && _).
        -- destruct (lb_wf c1 (p_npar pr + 1 + j * (p_nvar pr + 1) + k) 1 W1) as [X Y]. split; [exact X|]. split; [congruence|].
           intros [Hj Hk] x. apply add_lb_mem. rewrite N1. unfold cst_width. nia.
        -- destruct (eq0_wf c1 (p_npar pr + 1 + j * (p_nvar pr + 1) + k) W1) as [X Y]. split; [exact X|]. split; [congruence|].
           intros [Hj Hk] x. apply eq0_mem. rewrite N1. unfold cst_width. nia.
      * split; [exact B1|]. split; [exact B2|]. intros Hj x. apply B3. intros k Hk. split; [exact Hj|]. apply in_seq in Hk. lia.
  - split; [exact A1|]. split; [exact A2|]. intros x. rewrite A3 by (intros a Ha; apply in_seq in Ha; lia). split; intros [X Y]; (split; [exact X|]); intros j Hj; apply Y; [apply in_seq; lia|apply in_seq in Hj; lia].
Qed.

Lemma colour_rows pr col c base : wf_cst base -> ncols base = cst_width pr ->
  (forall j, (j < length (p_stmts pr))%nat -> (s_dim_orig (stmt_of pr j) <= p_nvar pr)%nat) ->
  (exists x, S (length x) = cst_width pr /\ ~ mem base x) -> rows (colour_constraints pr col c base) <> [].
Proof.
  intros W N D (x & L & NM) E. destruct (colour_constraints_spec pr col c base W N D) as (_ & N2 & M). apply NM. apply (proj1 (M x)).
  split; [congruence|]. rewrite E. intros r [].
Qed.

(** ** Every step keeps the invariant of the lazy search *)

Section Steps.
Variables (is_emptyb : cst -> bool) (solve : prog -> cst -> option point).
Variables (build : dstate -> list Z -> nat -> fcg) (refresh : dstate -> fcg -> nat -> nat -> option fcg) (skip : dstate -> nat -> nat -> bool).
Variables (o : options) (fuse : fusion) (delayed_cut : bool).
Hypothesis EX : exact_empty is_emptyb.
Hypothesis SOL : solver_sound solve.
Local Notation inv := (inv LAZY).
Local Notation good := (good LAZY).

Lemma cut_coloured_good scc js : forall s, inv s -> good s (cut_coloured is_emptyb fuse scc js s).
Proof.
  induction js as [|j l IH]; intros s I; cbn [cut_coloured]; [apply good_refl; auto|].
  destruct (j =? scc)%nat; [apply IH; auto|].
  destruct ((j <? scc)%nat && _).
  - destruct fuse.
    + pose proof (cut_all_good LAZY is_emptyb EX s I) as G. eapply good_trans; [exact G|]. apply IH. apply G.
    + pose proof (cut_between_good LAZY is_emptyb EX s (Z.of_nat j) (Z.of_nat scc) I) as G. cbv zeta.
      destruct (existsb _ _); [|exact G]. eapply good_trans; [exact G|]. apply cut_all_good; auto. apply G.
    + pose proof (cut_between_good LAZY is_emptyb EX s (Z.of_nat j) (Z.of_nat scc) I) as G. cbv zeta.
      destruct (existsb _ _); [|exact G]. eapply good_trans; [exact G|]. apply cut_all_good; auto. apply G.
  - destruct (sccs_direct_connected s (Z.of_nat scc) (Z.of_nat j)); [|apply IH; auto].
    destruct fuse; [apply cut_all_good; auto|apply cut_between_good; auto|apply cut_between_good; auto].
Qed.

Lemma colour_scc_good c i cs b cs' : inv (c_state cs) -> colour_scc is_emptyb skip fuse c i cs = Some (b, cs') -> good (c_state cs) (c_state cs').
Proof.
  intros I H. unfold colour_scc in H. cbv zeta in H. destruct (_ <? _); [injection H as <- <-; apply good_refl; auto|].
  destruct (_ =? _).
  - injection H as <- <-. cbn [c_state]. destruct (scc_stmts (c_state cs) i) as [|u [|v l]]; try (apply good_refl; auto). apply cut_coloured_good; auto.
  - destruct (colour_stmts _ _ _ _ _ _ _) as [[b' col]|]; [|discriminate]. injection H as <- <-. apply good_refl; auto.
Qed.

Lemma distribute_good i s : inv s -> good s (distribute is_emptyb i s).
Proof.
  intros I. unfold distribute. cbv zeta. destruct s as [pr a n m]. cbn [st_prog st_adj st_num st_max].
  assert (inv (mkState (add_scalar_level pr (fun st => if s_scc st <? Z.of_nat i then 0 else 1)) a n m)) as I1.
  { apply inv_scalar; auto. intros u v _ _ H. unfold scc_of in H.
    destruct (Z.ltb_spec (s_scc (stmt_of pr u)) (Z.of_nat i)), (Z.ltb_spec (s_scc (stmt_of pr v)) (Z.of_nat i)); lia. }
  rewrite scalar_level_app in *. set (q := app_level _ _ _ _) in *.
  pose proof (i_wf _ _ I) as W. cbn [st_prog] in W.
  assert (frame pr q) as Fq by apply app_level_frame.
  assert ((nrows0 q - 1 < length (p_hprops q))%nat) as HL by (apply last_level_lt; auto).
  destruct (inv_update LAZY is_emptyb EX q a n m _ I1 HL) as [I2 F2]. split; [exact I2|]. cbn [st_prog]. eapply frame_trans; eauto.
Qed.

Lemma cut_before_good i s : inv s -> good s (cut_before is_emptyb fuse i s).
Proof.
  intros I. unfold cut_before. destruct fuse; [apply cut_all_good; auto| |];
    (destruct (find _ _); [apply cut_between_good; auto|apply good_refl; auto]).
Qed.

Lemma retry_good c i cs b cs' : inv (c_state cs) -> cut_and_retry is_emptyb refresh skip fuse c i cs = Some (b, cs') -> good (c_state cs) (c_state cs').
Proof.
  intros I H. unfold cut_and_retry in H. cbv zeta in H. pose proof (cut_before_good i _ I) as G.
  destruct (refreshed _ _ _ _ _) as [g|]; [|discriminate].
  apply colour_scc_good in H; [|apply G]. cbn [c_state] in H. eapply good_trans; eauto.
Qed.

Lemma directions_same pr d : same_dep d (mkDep (d_src d) (d_dst d) (d_rar d) (d_poly d) (d_bpoly d) (d_sat d) (d_level d) (d_satvec d)
      (map (get_dep_direction is_emptyb pr d) (seq 0 (length (p_hprops pr))))).
Proof. unfold same_dep. cbn. auto. Qed.
Lemma inv_directions pr a n m : inv (mkState pr a n m) -> inv (mkState (compute_dep_directions is_emptyb pr) a n m) /\ frame pr (compute_dep_directions is_emptyb pr).
Proof.
  intros I. unfold compute_dep_directions. split.
  - apply inv_flags; auto. intros d; apply directions_same. intros d Hd Hr Hs. cbn [d_sat] in Hs. apply (i_dep _ _ I d Hd Hr). exact Hs.
  - apply set_deps_frame. intros d; apply directions_same.
Qed.

Lemma colour_one_good c i cs cs' : inv (c_state cs) -> colour_one is_emptyb build refresh skip fuse c i cs = Some cs' -> good (c_state cs) (c_state cs').
Proof.
  intros I H. unfold colour_one in H. cbv zeta in H.
  destruct (distributed _ _ i cs) as [c0|] eqn:E0; [|discriminate].
  assert (good (c_state cs) (c_state c0)) as G0.
  { unfold distributed in E0. destruct (_ && _); [|injection E0 as <-; apply good_refl; auto].
    cbv zeta in E0. destruct (update_graph _ _ _ _ _ _); [|discriminate]. injection E0 as <-. apply distribute_good; auto. }
  clear E0. destruct (colour_scc _ _ _ c i c0) as [[[|] c1]|] eqn:E1; [| |discriminate].
  - injection H as <-. apply colour_scc_good in E1; [|apply G0]. eapply good_trans; eauto.
  - apply colour_scc_good in E1; [|apply G0]. eapply good_trans; [exact G0|]. eapply good_trans; [exact E1|]. destruct E1 as [I1 _]. clear G0 c0.
    set (r := if c_rebuild c1 || _ then _ else _) in H.
    assert (forall b c4, r = Some (b, c4) -> good (c_state c1) (c_state c4)) as R.
    { intros b c4. unfold r. destruct (_ || _); [|apply retry_good; auto].
      set (s2 := match fuse with NoFuse => _ | _ => _ end).
      assert (good (c_state c1) s2) as G2 by (unfold s2; destruct fuse; [apply cut_all_good; auto|apply good_refl; auto|apply good_refl; auto]).
      destruct (colour_scc _ _ _ c i (rebuild _ _ _)) as [[[|] c3]|] eqn:E3; [| |discriminate].
      - intros X. injection X as <- <-. apply colour_scc_good in E3; [|apply G2]. eapply good_trans; eauto.
      - apply colour_scc_good in E3; [|apply G2]. cbn [rebuild c_state] in E3. destruct (i =? 0)%nat.
        + intros X. injection X as <- <-. eapply good_trans; eauto.
        + intros X. apply retry_good in X; [|apply E3]. eapply good_trans; [exact G2|]. eapply good_trans; eauto. }
    clearbody r. destruct r as [[[|] c4]|] eqn:E4; [| |discriminate].
    + injection H as <-. eauto.
    + specialize (R _ _ eq_refl). eapply good_trans; [exact R|]. destruct R as [I4 _].
      destruct (c_state c4) as [pr a n m] eqn:S4. cbn [st_prog st_adj st_num st_max] in *.
      destruct (inv_precise LAZY is_emptyb EX pr a n m eq_refl I4) as [I5 F5]. destruct (inv_directions _ a n m I5) as [I6 F6].
      destruct (colour_scc _ _ _ c i _) as [[[|] c7]|] eqn:E7; [|discriminate|discriminate]. injection H as <-.
      apply colour_scc_good in E7; [|exact I6]. cbn [rebuild c_state] in E7. eapply good_trans; [|exact E7]. split; [exact I6|]. cbn [st_prog]. eapply frame_trans; eauto.
Qed.

Lemma colour_sccs_good c is : forall cs cs', inv (c_state cs) -> colour_sccs is_emptyb build refresh skip fuse c is cs = Some cs' -> good (c_state cs) (c_state cs').
Proof.
  induction is as [|i l IH]; intros cs cs' I H; cbn [colour_sccs] in H; [injection H as <-; apply good_refl; auto|].
  destruct (colour_one _ _ _ _ _ _ _ _) as [c1|] eqn:E; [|discriminate]. apply colour_one_good in E; auto. apply IH in H; [|apply E]. eapply good_trans; eauto.
Qed.

Lemma vertex_offset_frame a b u : frame a b -> vertex_offset b u = vertex_offset a u.
Proof.
  intros (_ & _ & L & S & _). unfold vertex_offset. f_equal. rewrite <- !firstn_map. f_equal.
  apply (list_ext_nth 0%nat); [rewrite !map_length; auto|]. intros k Hk. rewrite map_length in Hk.
  change 0%nat with (s_dim_orig dummy_stmt). rewrite !List.map_nth. apply S.
Qed.

Lemma shift_ok pr0 s1 col c sol : inv s1 -> frame pr0 (st_prog s1) ->
  prog_constraints_lexmin solve (st_prog s1) (cst_add (colour_constraints pr0 col c (get_coeff_bounding_constraints o pr0))
     (get_permutability_constraints o (fun _ => false) (st_prog s1))) = Some sol ->
  good s1 (mkState (add_hyperplane_from_ilp_solution (st_prog s1) sol) (st_adj s1) (st_num s1) (st_max s1)) /\
  S (length sol) = cst_width pr0 /\ (forall v, In v sol -> 0 <= v) /\
  forall j, (j < length (p_stmts pr0))%nat -> colour_rule pr0 col c j sol.
Proof.
  intros I F H. destruct s1 as [pr a n m]. cbn [st_prog st_adj st_num st_max] in *.
  pose proof (frame_width _ _ F) as Wd.
  assert (wf_orig pr) as Ho by (apply orig_first_wf; apply (i_orig _ _ I)).
  assert (forall j, (j < length (p_stmts pr0))%nat -> (s_dim_orig (stmt_of pr0 j) <= p_nvar pr0)%nat) as D0.
  { intros j Hj. destruct F as (F1 & _ & F3 & F4 & _). destruct (F4 j) as (_ & <- & _). rewrite <- F1. apply (i_orig _ _ I). apply stmt_of_in. cbn [st_prog]. lia. }
  destruct (bounding_wf o pr0) as [B1 B2].
  destruct (colour_constraints_spec pr0 col c _ B1 B2 D0) as (C1 & C2 & C3).
  destruct (perm_cst_wf o (fun _ => false) pr) as [P1 P2].
  destruct (DriverProofs.cst_add_wf _ _ C1 P1 ltac:(congruence)) as [We Ne].
  assert (mem (cst_add (colour_constraints pr0 col c (get_coeff_bounding_constraints o pr0)) (get_permutability_constraints o (fun _ => false) pr)) sol /\ zpadding_zero pr sol) as [Ms Zs].
  { apply (lexmin_sound pr Ho) with (solve := solve); auto.
    - intros st Hst. apply (orig_first_mask pr st (i_orig _ _ I) Hst).
    - congruence.
    - cbn [cst_add rows]. intros X. apply app_eq_nil in X as [X _]. revert X. apply colour_rows; auto.
      exists (repeat (-1) (cst_width pr0 - 1)). split; [rewrite repeat_length; unfold cst_width; lia|].
      intros M. apply bounding_mem in M as (_ & M & _). specialize (M (-1)). enough (0 <= -1) by lia. apply M.
      replace (cst_width pr0 - 1)%nat with (S (cst_width pr0 - 2)) by (unfold cst_width; lia). left. auto. }
  apply cst_add_mem in Ms as [Mc Mp]; [|congruence].
  apply C3 in Mc as [Mb Mr]. apply bounding_mem in Mb as (Lb & Nb & _).
  split; [|auto]. rewrite hyperplane_app. pose proof (i_wf _ _ I) as W. pose proof (i_pad _ _ I) as P. cbn [st_prog] in W, P.
  split; [|apply app_level_frame]. apply inv_app; auto.
  - intros s Hs. rewrite hyp_row_length. rewrite (P _ (stmt_of_in pr s Hs)). auto.
  - intros d Hd Hr. destruct (i_dep _ _ I d Hd Hr) as [S _]. cbn [st_prog] in S. destruct (d_sat d) eqn:Sa; [left; auto|right].
    intros s t p In. assert (wf_dep pr d) as (D1 & D2 & _) by (apply W; auto).
    pose proof In as (L3 & L4 & L5 & _). rewrite (P _ (stmt_of_in pr _ D1)) in L3. rewrite (P _ (stmt_of_in pr _ D2)) in L4.
    rewrite !hyp_row_aff by (auto; congruence).
    pose proof Hd as Hd0. apply In_nth_error in Hd0 as [i Hi].
    exact (perm_sound_int o (fun _ => false) pr sol i d W P Zs Mp Hi eq_refl Sa Hr s t p In).
Qed.

Lemma scale_shift_spec c cs cs' : inv (c_state cs) -> scale_shift is_emptyb solve o delayed_cut c cs = Some cs' ->
  exists s1 sol, good (c_state cs) s1 /\ (s1 = c_state cs \/ s1 = cut_smart is_emptyb (c_state cs)) /\
    c_state cs' = mkState (add_hyperplane_from_ilp_solution (st_prog s1) sol) (st_adj s1) (st_num s1) (st_max s1) /\
    good s1 (c_state cs') /\ c_col cs' = c_col cs /\ S (length sol) = cst_width (st_prog (c_state cs)) /\ (forall v, In v sol -> 0 <= v) /\
    forall j, (j < length (p_stmts (st_prog (c_state cs))))%nat -> colour_rule (st_prog (c_state cs)) (c_col cs) c j sol.
Proof.
  intros I H. unfold scale_shift in H. cbv zeta in H.
  destruct (prog_constraints_lexmin solve (st_prog (c_state cs)) _) as [sol|] eqn:E.
  - injection H as <-. exists (c_state cs), sol. cbn [c_state c_col]. destruct (shift_ok _ _ _ _ _ I (frame_refl _) E) as (A & B & C & D).
    split; [apply good_refl; auto|]. split; [auto|]. split; [reflexivity|]. auto.
  - destruct delayed_cut; [|discriminate]. pose proof (cut_smart_good LAZY is_emptyb EX _ I) as G. set (s1 := cut_smart is_emptyb (c_state cs)) in *.
    destruct (prog_constraints_lexmin solve (st_prog s1) _) as [sol|] eqn:E2; [|discriminate]. injection H as <-. exists s1, sol. cbn [c_state c_col].
    destruct (shift_ok _ _ _ _ _ (proj1 G) (proj2 G) E2) as (A & B & C & D). split; [exact G|]. split; [auto|]. split; [reflexivity|]. auto.
Qed.

Lemma dfp_level_good c cs cs' : inv (c_state cs) -> dfp_level is_emptyb solve build refresh skip o fuse delayed_cut c cs = Some cs' -> good (c_state cs) (c_state cs').
Proof.
  intros I H. unfold dfp_level, colour_fcg in H. destruct (colour_sccs _ _ _ _ _ _ _ _) as [c1|] eqn:E1; [|discriminate]. apply colour_sccs_good in E1; auto.
  destruct (scale_shift _ _ _ _ _ _) as [c2|] eqn:E2; [|discriminate]. apply scale_shift_spec in E2 as (s1 & sol & G1 & _ & S2 & G2 & _); [|apply E1].
  cbv zeta in H. injection H as <-. cbn [c_state].
  eapply good_trans; [exact E1|]. eapply good_trans; [exact G1|]. eapply good_trans; [exact G2|]. destruct G2 as [I2 _]. rewrite S2 in *. cbn [st_prog st_adj st_num st_max] in *.
  rewrite hyperplane_app in *. destruct G1 as [I1 _]. pose proof (i_wf _ _ I1) as W1.
  set (q := app_level _ _ _ _) in *. assert ((nrows0 q - 1 < length (p_hprops q))%nat) as HL by (apply last_level_lt; auto).
  destruct (inv_update LAZY is_emptyb EX q _ _ _ _ I2 HL) as [I3 F3].
  destruct (inv_compute_scc LAZY _ (inv_ddg_update LAZY _ I3)) as [I4 F4]. split; [exact I4|]. cbn [st_prog]. eapply frame_trans; [exact F3|exact F4].
Qed.

Lemma dfp_levels_good l : forall cs cs', inv (c_state cs) -> dfp_levels is_emptyb solve build refresh skip o fuse delayed_cut l cs = Some cs' -> good (c_state cs) (c_state cs').
Proof.
  induction l as [|c l IH]; intros cs cs' I H; cbn [dfp_levels] in H; [injection H as <-; apply good_refl; auto|].
  destruct (dfp_level _ _ _ _ _ _ _ _ _ _) as [c1|] eqn:E; [|discriminate]. apply dfp_level_good in E; auto. apply IH in H; [|apply E]. eapply good_trans; eauto.
Qed.

Lemma dfp_search_good s cs : inv s -> dfp_search is_emptyb solve build refresh skip o fuse delayed_cut s = Some cs -> good s (c_state cs).
Proof.
  intros I H. unfold dfp_search in H. cbv zeta in H. set (s1 := match fuse with NoFuse => _ | _ => _ end) in H.
  assert (good s s1) as G.
  { unfold s1. destruct fuse; try (apply good_refl; auto). destruct (inv_compute_scc LAZY s I) as [A B].
    eapply good_trans; [split; [exact A|exact B]|]. apply cut_all_good; auto. }
  apply dfp_levels_good in H; [|apply G]. eapply good_trans; eauto.
Qed.

(** ** Without skewing *)

Lemma reset_same d : same_dep d (set_sat d false (-1)).
Proof. unfold same_dep. cbn. auto. Qed.
Lemma inv_reset pr a n m : inv (mkState pr a n m) -> inv (mkState (dep_satisfaction_reset pr) a n m) /\ frame pr (dep_satisfaction_reset pr).
Proof.
  intros I. unfold dep_satisfaction_reset. split.
  - apply inv_flags; auto. intros d; apply reset_same. intros d Hd Hr Hs. discriminate.
  - apply set_deps_frame. intros d; apply reset_same.
Qed.
Lemma update_hprops pr k : p_hprops (fst (dep_satisfaction_update is_emptyb pr k)) = p_hprops pr.
Proof. reflexivity. Qed.
Lemma inv_update_to l : forall pr a n m, inv (mkState pr a n m) -> (forall k, In k l -> (k < length (p_hprops pr))%nat) ->
  inv (mkState (update_to is_emptyb pr l) a n m) /\ frame pr (update_to is_emptyb pr l).
Proof.
  unfold update_to. induction l as [|k l IH]; intros pr a n m I H; cbn [fold_left]; [split; [auto|apply frame_refl]|].
  destruct (inv_update LAZY is_emptyb EX pr a n m k I (H k (or_introl eq_refl))) as [I1 F1].
  destruct (IH _ _ _ _ I1) as [I2 F2]; [intros j Hj; rewrite update_hprops; apply H; right; auto|]. split; [exact I2|]. eapply frame_trans; eauto.
Qed.

Lemma skew_levels_done fuel : forall initial i cc permute md level sd src k k',
  skew_levels is_emptyb solve o fuel initial i cc permute md level sd src k = Some k' -> sk_done k' = false -> sk_prog k' = sk_prog k /\ sk_done k = false.
Proof.
  assert (forall fuel initial i cc permute md level sd src k k', skew_levels is_emptyb solve o fuel initial i cc permute md level sd src k = Some k' -> sk_done k = true -> sk_done k' = true) as T.
  { clear. induction fuel as [|f IH]; intros initial i cc permute md level sd src k k' H D; cbn [skew_levels] in H; [discriminate|]. cbv zeta in H.
    destruct (_ <=? _)%nat; [injection H as <-; auto|]. destruct (negb _); [apply IH in H; auto|].
    destruct (find _ _); [|injection H as <-; auto]. destruct (prog_constraints_lexmin _ _ _); [|injection H as <-; auto].
    destruct (if is_ilp_solution_parallel _ _ then _ else _); [|discriminate]. destruct (_ <=? _)%nat; [injection H as <-; reflexivity|].
    destruct (dims_to_be_skewed _ _ _ _ _) as [sd1 tpd]. apply IH in H; auto. }
  induction fuel as [|f IH]; intros initial i cc permute md level sd src k k' H D; cbn [skew_levels] in H; [discriminate|]. cbv zeta in H.
  destruct (_ <=? _)%nat; [injection H as <-; auto|]. destruct (negb _); [apply IH in H; auto|].
  destruct (find _ _); [|injection H as <-; auto]. destruct (prog_constraints_lexmin _ _ _); [|injection H as <-; auto].
  destruct (if is_ilp_solution_parallel _ _ then _ else _); [|discriminate]. destruct (_ <=? _)%nat; [injection H as <-; discriminate|].
  destruct (dims_to_be_skewed _ _ _ _ _) as [sd1 tpd]. apply T in H; [congruence|reflexivity].
Qed.
Lemma skew_scc_done initial permute maxs i k k' : skew_scc is_emptyb solve o initial permute maxs i k = Some k' -> sk_done k' = false ->
  sk_prog k' = sk_prog k /\ sk_done k = false.
Proof.
  unfold skew_scc. cbv zeta. destruct (nth _ permute None); [|intros H D; injection H as <-; auto].
  destruct (dims_to_be_skewed _ _ _ _ _) as [sd tpd]. intros H D. apply skew_levels_done in H; auto.
Qed.
Lemma skew_sccs_done initial permute maxs is : forall k k', skew_sccs is_emptyb solve o initial permute maxs is k = Some k' -> sk_done k' = false ->
  sk_prog k' = sk_prog k /\ sk_done k = false.
Proof.
  induction is as [|i l IH]; intros k k' H D; cbn [skew_sccs] in H; [injection H as <-; auto|].
  destruct (skew_scc _ _ _ _ _ _ _ _) as [k1|] eqn:E; [|discriminate]. apply IH in H as [H1 H2]; auto. apply skew_scc_done in E as [E1 E2]; auto. split; [congruence|auto].
Qed.

Definition same_rows (a b : prog) : Prop := (forall u, s_trans (stmt_of b u) = s_trans (stmt_of a u)) /\ p_hprops b = p_hprops a.
Lemma same_rows_refl a : same_rows a a.
Proof. split; auto. Qed.
Lemma same_rows_trans a b c : same_rows a b -> same_rows b c -> same_rows a c.
Proof. intros [A B] [C D]. split; [intros u; rewrite C; apply A|congruence]. Qed.
Lemma set_deps_rows pr l : same_rows pr (set_deps pr l).
Proof. split; reflexivity. Qed.
Lemma update_to_rows l : forall pr, same_rows pr (update_to is_emptyb pr l).
Proof.
  unfold update_to. induction l as [|k l IH]; intros pr; cbn [fold_left]; [apply same_rows_refl|].
  eapply same_rows_trans; [|apply IH]. apply set_deps_rows.
Qed.
Lemma compute_scc_rows s : same_rows (st_prog s) (st_prog (compute_scc s)).
Proof. destruct (compute_scc_prog s) as (f & E). rewrite E. fold (with_scc (st_prog s) f). split; [apply with_scc_trans|reflexivity]. Qed.

Lemma compute_scc_num s n m : compute_scc (mkState (st_prog s) (st_adj s) n m) = compute_scc s.
Proof. reflexivity. Qed.

Definition with_cc (pr : prog) (cc : list Z) : prog := set_stmts pr (map (fun u => set_cc (stmt_of pr u) (nth u cc 0)) (seq 0 (length (p_stmts pr)))).
Lemma with_cc_stmt pr cc u : stmt_of (with_cc pr cc) u = if (u <? length (p_stmts pr))%nat then set_cc (stmt_of pr u) (nth u cc 0) else dummy_stmt.
Proof.
  unfold with_cc, stmt_of at 1. cbn [set_stmts p_stmts]. destruct (Nat.ltb_spec u (length (p_stmts pr))).
  - rewrite nth_map_seq by auto. auto.
  - rewrite nth_overflow by (rewrite map_length, seq_length; auto). auto.
Qed.
Lemma with_cc_frame pr cc : frame pr (with_cc pr cc).
Proof.
  split; [reflexivity|]. split; [reflexivity|]. split; [cbn; rewrite map_length, seq_length; auto|]. split; [|apply Forall2_same_refl].
  intros u. rewrite with_cc_stmt. destruct (Nat.ltb_spec u (length (p_stmts pr))); [unfold same_stmt; cbn; auto 10|].
  unfold stmt_of. rewrite nth_overflow by auto. apply same_stmt_refl.
Qed.
Lemma with_cc_rows pr cc : same_rows pr (with_cc pr cc).
Proof.
  split; [|reflexivity]. intros u. rewrite with_cc_stmt. destruct (Nat.ltb_spec u (length (p_stmts pr))); [reflexivity|].
  unfold stmt_of. rewrite nth_overflow by auto. reflexivity.
Qed.
Lemma inv_with_cc pr a n m cc : inv (mkState pr a n m) -> inv (mkState (with_cc pr cc) a n m).
Proof.
  intros I. apply (inv_transfer LAZY pr); auto using with_cc_frame.
  - intros u. rewrite with_cc_stmt. destruct (Nat.ltb_spec u (length (p_stmts pr))); [cbn; auto|].
    unfold stmt_of. rewrite nth_overflow by auto. cbn. auto.
  - intros d' Hd. exists d'. split; [exact Hd|]. split; [apply DriverProofs.same_dep_refl|auto].
Qed.

Lemma introduce_no_skew pr a n m pr1 : inv (mkState pr a n m) -> introduce_skew is_emptyb solve o pr = Some (pr1, false) ->
  (exists a' n' m', inv (mkState pr1 a' n' m')) /\ frame pr pr1 /\ same_rows pr pr1.
Proof.
  intros I H. unfold introduce_skew in H. destruct (_ <=? 1)%nat; [injection H as <-; split; [eauto|]; split; [apply frame_refl|apply same_rows_refl]|].
  cbv zeta in H. destruct (inv_directions pr a n m I) as [I0 F0].
  destruct (inv_reset _ a n m I0) as [I1 F1]. set (p1 := dep_satisfaction_reset _) in *.
  assert (frame pr p1) as F01 by (eapply frame_trans; eauto). assert (same_rows pr p1) as R01 by (split; reflexivity). clear F0 F1 I0.
  set (initial := match find _ _ with Some i => i | None => _ end) in H.
  assert (initial <= length (p_hprops p1))%nat as LI.
  { unfold initial. destruct (find _ _) eqn:Ef; [|lia]. apply find_some in Ef as [Ef _]. apply in_seq in Ef. lia. }
  destruct (inv_update_to (seq 0 initial) p1 a n m I1) as [I2 F2]; [intros k Hk; apply in_seq in Hk; lia|].
  pose proof (update_to_rows (seq 0 initial) p1) as R2. set (p2 := update_to _ _ _) in *.
  assert (frame pr p2) as F02 by (eapply frame_trans; eauto). assert (same_rows pr p2) as R02 by (exact (same_rows_trans _ _ _ R01 R2)).
  destruct (Nat.eqb_spec initial (length (p_hprops pr))) as [E|E].
  { injection H as <-. split; [eauto|]. auto. }
  pose proof (inv_ddg_update LAZY _ I2) as I3. unfold ddg_update in I3. cbn [st_prog st_adj st_num st_max] in I3.
  destruct (inv_compute_scc LAZY _ I3) as [I4 F4]. pose proof (compute_scc_rows (mkState p2 (graph_of p2) n m)) as R4.
  change (compute_scc (mkState p2 (graph_of p2) n m)) with (compute_scc (mkState p2 (graph_of p2) 0 [])) in I4, F4, R4.
  cbn [st_prog] in F4, R4.
  set (s := compute_scc _) in *. destruct (ddg_compute_cc _ _ _) as [cc num_cc].
  assert (length (p_stmts p2) = length (p_stmts (st_prog s))) as NS by (symmetry; apply F4).
  rewrite NS in H. fold (with_cc (st_prog s) cc) in H. destruct s as [ps as_ ns ms]. cbn [st_prog st_adj st_num st_max] in *.
  pose proof (inv_with_cc _ _ _ _ cc I4) as I5. pose proof (with_cc_frame ps cc) as F5. pose proof (with_cc_rows ps cc) as R5. set (p3 := with_cc ps cc) in *.
  assert (same_rows pr p3) as R03 by (eapply same_rows_trans; [exact R02|eapply same_rows_trans; eauto]).
  destruct (inv_update LAZY is_emptyb EX p3 _ _ _ initial I5) as [I6 F6].
  { rewrite (proj2 R03). assert (p_hprops p1 = p_hprops pr) as Ep by reflexivity. rewrite Ep in LI. lia. }
  destruct (skew_sccs _ _ _ _ _ _ _ _) as [k|] eqn:Ek; [|discriminate]. injection H as <- Hk. apply skew_sccs_done in Ek as [-> _]; [|exact Hk]. cbn [sk_prog].
  split; [eauto|]. split.
  - eapply frame_trans; [exact F02|]. eapply frame_trans; [exact F4|]. eapply frame_trans; eauto.
  - eapply same_rows_trans; [exact R03|]. apply set_deps_rows.
Qed.

(** ** The end of the transformation *)

Definition weak_ok (q : prog) : Prop := forall d, In d (p_deps q) -> d_rar d = false -> respected q d \/ weak_all q d.
Lemma inv_weak_ok s : inv s -> weak_ok (st_prog s).
Proof. intros I d Hd Hr. destruct (i_dep _ _ I d Hd Hr) as [_ [R|(W & _)]]; auto. Qed.

Lemma dfp_finish_spec pr s a n m : inv (mkState pr a n m) -> p_stmts pr <> [] ->
  let q := st_prog (dfp_finish is_emptyb pr s) in
  (exists a' n' m', inv (mkState q a' n' m')) /\ frame pr q /\
  (exists c, same_rows pr q \/ scalar_appended pr q c) /\
  forall d, In d (p_deps q) -> d_rar d = false ->
    respected q d \/ dep_chain (dep_satisfaction_reset q) (d_dst d) (d_src d).
Proof.
  intros I NE q. unfold q, dfp_finish. cbv zeta. destruct (inv_reset _ a n m I) as [I1 F1].
  pose proof (update_to_rows (seq 0 (length (p_hprops pr))) (dep_satisfaction_reset pr)) as R2.
  destruct (inv_update_to (seq 0 (length (p_hprops pr))) (dep_satisfaction_reset pr) a n m I1) as [I2 F2]; [intros k Hk; apply in_seq in Hk; cbn; lia|].
  set (p1 := update_to _ _ _) in *.
  assert (frame pr p1) as F01 by (eapply frame_trans; eauto). assert (same_rows pr p1) as R01 by (eapply same_rows_trans; [|exact R2]; split; reflexivity).
  destruct (deps_satisfaction_check p1) eqn:C; cbn [st_prog].
  { split; [eauto|]. split; [auto|]. split; [exists (fun _ => 0); auto|]. intros d Hd Hr. left. apply (inv_satisfied_legal LAZY _ I2 C); auto. }
  pose proof (inv_ddg_update LAZY _ I2) as I3. unfold ddg_update in *. cbn [st_prog st_adj st_num st_max] in *.
  destruct (inv_compute_scc LAZY _ I3) as [I4 F4].
  assert (p_stmts p1 <> []) as NE1. { destruct F01 as (_ & _ & L & _). intros X. rewrite X in L. destruct (p_stmts pr); [congruence|discriminate]. }
  change (compute_scc (mkState p1 (graph_of p1) (st_num s) (st_max s))) with (fresh p1 n m).
  change (compute_scc (mkState p1 (graph_of p1) n m)) with (fresh p1 n m) in *.
  pose proof (i_wf _ _ I2) as W1. pose proof (i_pad _ _ I2) as P1. cbn [st_prog] in W1, P1.
  pose proof (cut_all_fresh is_emptyb EX p1 n m W1 P1 NE1) as CF. destruct (cut_all_good LAZY is_emptyb EX (fresh p1 n m) I4) as [I5 F5].
  destruct (fresh_comp p1 n m W1) as (FC1 & FC2 & _ & _). destruct (fresh_facts p1 n m W1 P1 NE1) as (_ & _ & _ & _ & T & Hh & Dp).
  destruct (cut_all_sccs is_emptyb (fresh p1 n m)) as [s5 k] eqn:E5. cbn [fst] in *.
  assert (frame p1 (st_prog s5)) as F15 by (eapply frame_trans; [exact F4|exact F5]).
  split; [destruct s5; eauto|]. split; [eapply frame_trans; eauto|].
  assert (forall u v, dep_chain p1 u v -> dep_chain (dep_satisfaction_reset (st_prog s5)) u v) as CH.
  { intros u v H. destruct F15 as (_ & _ & _ & _ & FD). induction H as [u|d w Hd Hr Hs _ IH]; [constructor|].
    destruct (Forall2_in_l _ _ _ d FD Hd) as (d' & Hd' & S). destruct S as (E1 & E2 & E3 & _).
    rewrite <- E1. apply (chain_step _ (set_sat d' false (-1))); [cbn; apply (in_map (fun e => set_sat e false (-1))); exact Hd'|cbn; congruence|reflexivity|]. cbn. rewrite E2. exact IH. }
  split.
  - destruct CF as [(E1 & ->)|(E1 & SA & CE)].
    + exists (fun _ => 0). left. eapply same_rows_trans; [exact R01|]. split; auto.
    + exists (comp (fresh p1 n m)). right. destruct F01 as (F1a & F1b & F1c & F1d & _). destruct R01 as [Ra Rb]. destruct SA as [SA1 SA2]. split; [congruence|].
      intros u i p Hu Li Lp. rewrite SA2; [|lia|destruct (F1d u) as (-> & _); auto|congruence]. f_equal. unfold timestamp. rewrite Ra. auto.
  - intros d' Hd' Hr. destruct (d_sat d') eqn:Sa.
    { left. destruct (i_dep _ _ I5 d' Hd' Hr) as [S _]. apply S; auto. }
    right. destruct F15 as (_ & _ & _ & _ & FD). destruct (Forall2_in_r _ _ _ d' FD Hd') as (d & Hd & S). pose proof S as (E1 & E2 & E3 & E4 & _).
    assert (wf_dep p1 d) as (D1 & D2 & _) by (apply W1; auto). rewrite E1, E2. apply CH.
    destruct CF as [(N1 & ->)|(N1 & SA & CE)].
    + assert (comp (fresh p1 n m) (d_src d) = comp (fresh p1 n m) (d_dst d)) as EC by (pose proof (FC1 _ D1); pose proof (FC1 _ D2); lia).
      apply (FC2 _ _ D1 D2) in EC. apply EC.
    + destruct (Forall2_in_r _ _ _ d' CE Hd') as (d2 & Hd2 & G1 & G2 & G3 & G4 & G5 & G6).
      assert (d_sat d2 = false) as Sd by (destruct (d_sat d2) eqn:X; auto; rewrite (G5 eq_refl) in Sa; discriminate).
      destruct (G6 Sd ltac:(congruence)) as [Ge Gi]. rewrite <- E1, <- E2, G1, G2.
      assert (wf_dep p1 d2) as (D3 & D4 & _) by (apply W1; auto).
      assert (~ comp (fresh p1 n m) (d_src d2) < comp (fresh p1 n m) (d_dst d2)) as Nl by (intros X; rewrite (proj2 Gi (or_introl X)) in Sa; discriminate).
      assert (comp (fresh p1 n m) (d_src d2) = comp (fresh p1 n m) (d_dst d2)) as EC by lia. apply (FC2 _ _ D3 D4) in EC. apply EC.
Qed.
End Steps.
