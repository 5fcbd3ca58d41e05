(** * Proofs about the solver calls with Gurobi. *)
From Coq Require Import ZArith QArith Qabs List Bool Arith Lia Lqa.
From Verif Require Import SpecLinear SpecMatrix VecProofs MathModel ConstraintsModel EditProofs SimplifyProofs RankProofs MatrixProofs FarkasProofs SpecGraph GraphModel GraphProofs GraphProofs2
  SpecProg SpecDriver FrameworkModel FrameworkProofs ProgModel ProgProofs DriverModel HypProofs KeepProofs SpecGlpk SpecGurobi GlpkModel GurobiModel GlpkProofs GlpkProofs2 GlpkProofs3 NearProofs.
Import ListNotations.
Open Scope Q_scope.

(** ** Rows *)
Definition nontrivial_row (r : row) : Prop := exists k, (k < length (coef r) - 1)%nat /\ nth k (coef r) 0%Z <> 0%Z.

Lemma row_terms_nil l : row_terms l = [] -> forall k, nth k l 0%Z = 0%Z.
Proof.
  unfold row_terms. generalize 0%nat. induction l as [|a l IH]; intros n H k; [destruct k; reflexivity|].
  cbn [length seq combine flat_map] in H. apply app_eq_nil in H as [H1 H2]. cbn [snd fst] in H1.
  destruct (Z.eqb_spec a 0) as [->|N]; [|discriminate]. destruct k; [reflexivity|]. cbn [nth]. apply (IH _ H2).
Qed.

Lemma grb_row_in c r : In r (rows c) -> nontrivial_row r ->
  In (mkGrow (if is_eq r then GLP_FX (inject_Z (- const_of r)) else GLP_LO (inject_Z (- const_of r))) (row_terms (removelast (coef r)))) (grb_rows c).
Proof.
  intros Hr (k & Hk & N). unfold grb_rows. apply in_flat_map. exists r. split; auto.
  destruct (row_terms (removelast (coef r))) as [|t l] eqn:E; [|left; reflexivity].
  exfalso. apply N. rewrite <- removelast_nth_Z by auto. apply row_terms_nil. auto.
Qed.

(** The problem of one row only. *)
Definition one_row (c : cst) (r : row) : cst := mkCst (ncols c) [r].
Lemma one_row_rows c r g lp obj : In r (rows c) -> nontrivial_row r -> In g (gp_rows (glpk_problem lp obj (one_row c r))) -> In g (gp_rows (grb_problem lp obj c)).
Proof. intros Hr N [<-|[]]. cbn [grb_problem gp_rows]. apply grb_row_in; auto. Qed.
Lemma one_row_wf c r : wf_cst c -> In r (rows c) -> wf_cst (one_row c r).
Proof. intros [A B] Hr. split; [exact A|]. intros q [<-|[]]. apply B. auto. Qed.

Lemma fewer_rows p p' x : gp_cols p' = gp_cols p -> (forall g, In g (gp_rows p') -> In g (gp_rows p)) -> gp_point p x -> gp_point p' x.
Proof. intros E S (L & C & R). split; [congruence|]. split; [rewrite E; auto|auto]. Qed.
Lemma precise_fewer p p' v : gp_cols p' = gp_cols p -> (forall g, In g (gp_rows p') -> In g (gp_rows p)) -> precise p v -> precise p' v.
Proof.
  intros E S (x & e & t & P & WI & NI & T0 & Ht & HW). exists x, e, t. split; [apply (fewer_rows p); auto|]. split; auto.
  split; [unfold nearly_integer in *; rewrite E; auto|]. split; auto.
Qed.

(** ** Without --lp *)
Lemma grb_ilp_rows obj c v : wf_cst c -> length obj = (ncols c - 1)%nat -> precise (grb_problem false obj c) v ->
  S (length (map c_round v)) = ncols c /\ forall r, In r (rows c) -> nontrivial_row r -> holds (map c_round v) r.
Proof.
  intros W LO P. split.
  - destruct P as (x & e & t & (L & _) & (LV & _) & _). cbn [grb_problem gp_cols] in L. rewrite map_length in L |- *. pose proof (proj1 W). lia.
  - intros r Hr N. assert (mem (one_row c r) (map c_round v)) as [_ M]; [|apply M; left; reflexivity].
    apply (ilp_rounds obj); [apply one_row_wf; auto|auto|]. apply (precise_fewer (grb_problem false obj c)); auto. intros g. apply one_row_rows; auto.
Qed.

Lemma cplex_length pr n : length (cplex_objective pr n) = n.
Proof. unfold cplex_objective. cbv zeta. rewrite firstn_length, app_length, repeat_length. lia. Qed.

Section Answers.
Variable grb : gurobi.
Hypothesis CO : conclusive grb.

Lemma solve_optimal tol p x : grb_solve grb tol p = O_val x -> g_status (grb tol p) = GRB_OPTIMAL /\ exists v, x = Some v /\ g_vals (grb tol p) = Some v.
Proof.
  unfold grb_solve. specialize (CO tol p). destruct (g_status (grb tol p)); try discriminate; try contradiction.
  intros E. injection E as <-. split; auto. destruct CO as [v Ev]. exists v. auto.
Qed.

Lemma ilp_answer pr c x : grb_rounds grb -> wf_cst c -> gurobi_lexmin grb false pr c = O_val x ->
  S (length x) = ncols c /\ forall r, In r (rows c) -> nontrivial_row r -> holds x r.
Proof.
  intros RP W H. unfold gurobi_lexmin, lexmin_gurobi in H. cbv zeta in H.
  destruct (grb_solve grb _ _) as [| | |o] eqn:E; try discriminate. apply solve_optimal in E as (S & v & -> & V).
  cbn [grb_ilp_solution] in H. injection H as <-. apply (grb_ilp_rows (cplex_objective pr (ncols c - 1))); auto. apply cplex_length.
Qed.

(** ** With --lp *)
Lemma cut_zero f : Qeq_bool (cut f) 0 = negb (is_used f).
Proof.
  rewrite cut_used. destruct (is_used f) eqn:U; [|reflexivity]. cbn [negb]. destruct (Qeq_bool f 0) eqn:E; auto. exfalso.
  apply Qeq_bool_iff in E. unfold is_used in U. apply negb_true_iff in U. assert (Qle_bool (Qabs f) (1 # 10000000) = true) as T; [|congruence].
  apply Qle_bool_iff. rewrite E. cbn. discriminate.
Qed.

Lemma grb_scaling_scales skip f ix num : scales num skip f (grb_scaling (skipn skip f) ix num).
Proof.
  unfold scales, grb_scaling. cbn [gp_cols]. split; [|split].
  - rewrite app_length, repeat_length, map_length, skipn_length. reflexivity.
  - intros i Hi. rewrite app_nth1 by (rewrite repeat_length; auto).
    rewrite (nth_indep _ _ (mkGcol (GLP_LO 1) false 1)) by (rewrite repeat_length; auto). rewrite nth_repeat. reflexivity.
  - intros i Hi. rewrite app_nth2 by (rewrite repeat_length; lia). rewrite repeat_length. replace (num + i - num)%nat with i by lia.
    rewrite (nth_indep _ _ ((fun v => mkGcol (if is_used v then GLP_LO 1 else GLP_FX 0) true 0) 0)) by (rewrite map_length, skipn_length; lia).
    rewrite (List.map_nth (fun v => mkGcol (if is_used v then GLP_LO 1 else GLP_FX 0) true 0)). rewrite nth_skipn_any, cut_zero.
    destruct (is_used _); reflexivity.
Qed.

(** The scaling problem of GLPK has the same solutions. *)
Lemma scaling_glpk fp ix num k p f v : precise_scaling k p f (grb_scaling fp ix num) v ->
  exists p2, scaling_lp fp (Some ix) num = Some p2 /\ precise_scaling k p f p2 v.
Proof.
  intros (x & y & e & e' & t & s & P & WI & P' & WI' & NI & T0 & Ht & He & HS & HW). cbn [scaling_lp]. eexists. split; [reflexivity|].
  set (g := fun v => mkGcol (if is_used v then GLP_LO 1 else GLP_FX 0) true 0).
  set (h := fun v => if is_used v then mkGcol (GLP_LO 1) true 0 else mkGcol (GLP_FX 0) false 0).
  assert (forall i, let d := mkGcol (GLP_FX 0) false 0 in
     gc_bnd (nth i (repeat (mkGcol (GLP_LO 1) false 1) num ++ map h fp) d) = gc_bnd (nth i (repeat (mkGcol (GLP_LO 1) false 1) num ++ map g fp) d) /\
     (gc_int (nth i (repeat (mkGcol (GLP_LO 1) false 1) num ++ map h fp) d) = true -> gc_int (nth i (repeat (mkGcol (GLP_LO 1) false 1) num ++ map g fp) d) = true)) as C.
  { intros i d. destruct (le_lt_dec num i) as [B|B].
    - rewrite !app_nth2 by (rewrite repeat_length; auto). rewrite repeat_length. generalize (i - num)%nat. intros j.
      destruct (le_lt_dec (length fp) j) as [Q|Q]. { rewrite !nth_overflow by (rewrite map_length; auto). auto. }
      rewrite (nth_indep _ d (h 0)) by (rewrite map_length; auto). rewrite (nth_indep (map g fp) d (g 0)) by (rewrite map_length; auto). rewrite !List.map_nth.
      unfold h, g. destruct (is_used _); cbn; auto.
    - rewrite !app_nth1 by (rewrite repeat_length; auto). auto. }
  exists x, y, e, e', t, s. split; auto. split; auto. split; [|split; [auto|split; [|auto]]].
  - destruct P' as (L & B & R). cbn [grb_scaling gp_cols gp_rows] in *. fold g in L, B. split; [|split; [|exact R]].
    + cbn [gp_cols]. rewrite L. rewrite !app_length, !map_length. reflexivity.
    + intros i Hi. cbn [gp_cols]. fold h. rewrite (proj1 (C i)). apply B. auto.
  - unfold nearly_integer in *. cbn [grb_scaling gp_cols] in *. fold g in NI. fold h. intros i Hi E. apply NI; [|apply C; auto].
    rewrite !app_length, !map_length in *. auto.
Qed.

Lemma scaling_fewer k p p' f p2 v : gp_cols p' = gp_cols p -> (forall g, In g (gp_rows p') -> In g (gp_rows p)) ->
  precise_scaling k p f p2 v -> precise_scaling k p' f p2 v.
Proof.
  intros E S (x & y & e & e' & t & s & P & WI & P' & WI' & NI & T0 & Ht & He & HS & HW).
  exists x, y, e, e', t, s. split; [apply (fewer_rows p); auto|]. auto 20.
Qed.

Lemma lp_answer pr c x : grb_scales grb -> wf_prog pr -> orig_first pr -> intervals pr -> wf_cst c -> ncols c = cst_width pr -> rows c <> [] ->
  gurobi_lexmin grb true pr (compact_cst pr c) = O_val x ->
  S (length x) = S (keepn (red_front pr)) /\
  forall r, In r (rows c) -> scalable pr r -> nontrivial_row (map_coef (compact_row pr) r) -> holds x (map_coef (compact_row pr) r).
Proof.
  intros SP W O I Wc Nc NE H. unfold gurobi_lexmin in H. cbv zeta in H.
  destruct (compact_cols pr c O Wc Nc NE) as [Wcp Ncp]. set (cp := compact_cst pr c) in *.
  destruct (components pr) as [cc num] eqn:EC.
  destruct (scaling_index pr cc num (ncols cp - 1 - p_npar pr - 1)) as [ix|] eqn:EX; [|discriminate].
  unfold lexmin_gurobi in H. set (obj := cplex_objective pr (ncols cp - 1)) in *.
  destruct (grb_solve grb _ (grb_problem true obj cp)) as [| | |o1] eqn:E1; try discriminate. apply solve_optimal in E1 as (S1 & fp & -> & V1).
  cbn [grb_lp_solution] in H. unfold grb_mip_scale in H.
  destruct (grb_solve grb (1 # 100) _) as [| | |o2] eqn:E2; try discriminate. apply solve_optimal in E2 as (S2 & v & -> & V2).
  cbn [grb_lp_solution] in H. injection H as <-.
  pose proof (SP num (p_npar pr + 1)%nat _ _ _ _ S1 V1 (grb_scaling_scales _ _ ix num) S2 V2) as PS.
  apply scaling_glpk in PS as (p2 & SL & PS).
  set (us := repeat _ (p_npar pr + 1)). assert (length us = p_npar pr + 1)%nat as LU by apply repeat_length.
  assert (forall r, In r (rows c) -> scalable pr r -> nontrivial_row (map_coef (compact_row pr) r) ->
     let y := us ++ map c_round (skipn num v) in S (length y) = ncols cp /\ holds y (map_coef (compact_row pr) r)) as K.
  { intros r Hr SC NT y. set (c1 := one_row c r).
    assert (wf_cst c1) as W1 by (apply one_row_wf; auto). assert (rows c1 <> []) as N1 by discriminate.
    destruct (compact_cols pr c1 O W1 Nc N1) as [_ Nc1].
    assert (ncols (compact_cst pr c1) = ncols cp) as En by congruence.
    assert (forall g, In g (gp_rows (glpk_problem true obj (compact_cst pr c1))) -> In g (gp_rows (grb_problem true obj cp))) as Sub.
    { intros g Hg. unfold glpk_problem, glpk_rows in Hg. cbn [gp_rows] in Hg. rewrite compact_rows in Hg. cbn in Hg. destruct Hg as [<-|[]].
      cbn [grb_problem gp_rows]. apply (grb_row_in cp (map_coef (compact_row pr) r)); auto. unfold cp. rewrite compact_rows. apply in_map. auto. }
    pose proof (scaling_fewer num (grb_problem true obj cp) (glpk_problem true obj (compact_cst pr c1)) fp p2 v eq_refl Sub PS) as PS1.
    unfold obj in PS1. rewrite <- En in PS1.
    destruct (scaled_rows pr c1 cc num ix fp p2 v us W O I W1 Nc N1 EC ltac:(rewrite En; exact EX) SL PS1 LU) as (_ & A & B).
    split; [rewrite <- En; exact A|]. apply B; auto. left; reflexivity. }
  split; [|intros r Hr SC NT; apply (K r Hr SC NT)].
  rewrite <- Ncp.
  destruct PS as (x & y & e & e' & t & s & (GL & _) & (WL & _) & (GL' & _) & (WL' & _) & _).
  destruct (scaling_cols _ _ _ _ SL) as (SLL & _). cbn [grb_problem gp_cols] in GL. rewrite map_length in GL, WL. unfold obj in GL. rewrite cplex_length in GL.
  assert (p_npar pr + 1 <= ncols cp - 1)%nat.
  { rewrite Ncp. pose proof (keepn_front pr (fun st Hst => proj1 (proj2 (orig_first_mask pr st O Hst)))). lia. }
  rewrite app_length, map_length, skipn_length, LU. rewrite WL', GL', SLL, skipn_length. lia.
Qed.

(** ** The solver of the search *)
Lemma trivial_holds x r : length (coef r) = S (length x) -> ~ nontrivial_row r -> last (coef r) 0%Z = 0%Z -> holds x r.
Proof.
  intros L N Z. apply holds_all_zero. unfold all_zero. apply forallb_forall. intros v Hv. apply Z.eqb_eq.
  apply (In_nth _ _ 0%Z) in Hv as (k & Hk & <-). destruct (Nat.eq_dec k (length (coef r) - 1)) as [->|Ne].
  - rewrite <- last_nth. exact Z.
  - destruct (Z.eq_dec (nth k (coef r) 0%Z) 0) as [E|E]; auto. exfalso. apply N. exists k. split; [lia|auto].
Qed.
Lemma nontrivial_dec r : nontrivial_row r \/ ~ nontrivial_row r.
Proof.
  destruct (existsb (fun k => negb (nth k (coef r) 0 =? 0)%Z) (seq 0 (length (coef r) - 1))) eqn:E.
  - left. apply existsb_exists in E as (k & Hk & N). apply in_seq in Hk. apply negb_true_iff, Z.eqb_neq in N. exists k. split; [lia|auto].
  - right. intros (k & Hk & N). rewrite <- not_true_iff_false in E. apply E. apply existsb_exists. exists k. split; [apply in_seq; lia|]. apply negb_true_iff, Z.eqb_neq. auto.
Qed.

Lemma compact_last pr r : orig_first pr -> length (coef r) = cst_width pr ->
  length (compact_row pr (coef r)) = S (keepn (red_front pr)) /\ last (compact_row pr (coef r)) 0%Z = last (coef r) 0%Z.
Proof.
  intros O L. pose proof (cst_width_S pr) as CW.
  set (f := firstn (cst_width pr - 1) (coef r)) in *. assert (length f = cst_width pr - 1)%nat as Lf by (unfold f; rewrite firstn_length; lia).
  assert (coef r = f ++ [last (coef r) 0%Z]) as Er. { rewrite last_nth, L. unfold f. apply last_split. lia. }
  pose proof (orig_first_wf pr O) as Ho. pose proof (red_front_length pr Ho) as RL.
  assert (forall st, In st (p_stmts pr) -> num_orig pr st = s_dim_orig st) as Hd by (intros st Hst; apply (orig_first_mask pr st O Hst)).
  set (g := select (map negb (red_front pr)) f).
  assert (length g = keepn (red_front pr)) as Lg by (unfold g; rewrite select_length; auto; rewrite map_length; lia).
  assert (compact_row pr (coef r) = swaps (sw pr) g ++ [last (coef r) 0%Z]) as ->.
  { unfold compact_row. rewrite Er at 1. rewrite red_cols_front, map_app. rewrite select_app by (rewrite map_length; lia). cbn [map negb select]. fold g.
    assert (forall z l g0, (forall p, In p l -> in_range (length g0) p) -> swaps l (g0 ++ [z]) = swaps l g0 ++ [z]) as SA.
    { clear. intros z l. induction l as [|p l IH]; intros g0 H; auto.
      change (swaps (p :: l) ?y) with (swaps l (swap_nth 0%Z (fst p) (snd p) y)). destruct (H p) as [A B]; [simpl; auto|].
      rewrite swap_nth_app by auto. apply IH. rewrite swap_nth_length. intros; apply H; simpl; auto. }
    apply SA. intros p Hp. apply (sw_range pr Hd); auto. }
  rewrite app_length, swaps_length, last_last. cbn. split; auto. lia.
Qed.

(** Rows that the answer satisfies in compacted form are satisfied by the solution. *)
Lemma compacted_keeps pr c y (Q : row -> Prop) : orig_first pr -> wf_cst c -> ncols c = cst_width pr ->
  S (length y) = S (keepn (red_front pr)) ->
  (forall r, In r (rows c) -> Q r -> nontrivial_row (map_coef (compact_row pr) r) -> holds y (map_coef (compact_row pr) r)) ->
  let x := fill_zeros (red_front pr) (swaps (sw pr) y) in
  S (length x) = ncols c /\ (forall r, In r (rows c) -> Q r -> last (coef r) 0%Z = 0%Z -> holds x r) /\ zpadding_zero pr x.
Proof.
  intros O Wc Nc Ly H x. pose proof (orig_first_wf pr O) as Ho. pose proof (red_front_length pr Ho) as RL.
  split; [unfold x; rewrite fill_zeros_length, Nc; auto|]. split.
  - intros r Hr Qr Z. pose proof (proj2 Wc r Hr) as Lr. rewrite Nc in Lr. destruct (compact_last pr r O Lr) as [A B].
    apply fill_row; auto. destruct (nontrivial_dec (map_coef (compact_row pr) r)) as [N|N]; auto.
    apply trivial_holds; auto; cbn [map_coef coef]; lia.
  - apply zero_red_pad; auto. { unfold x. rewrite fill_zeros_length. auto. } intros i Hi. apply fill_zeros_nth. auto.
Qed.

Lemma ilp_hkeeps : grb_rounds grb -> lexmin_hkeeps (gurobi_solver grb false).
Proof.
  intros RP pr c x W O Wc Nc NE H. unfold prog_constraints_lexmin in H.
  destruct (gurobi_solver grb false pr (compact_cst pr c)) as [y|] eqn:EY; [|discriminate]. injection H as <-.
  unfold gurobi_solver in EY. destruct (gurobi_lexmin grb false pr (compact_cst pr c)) as [| | |z] eqn:EG; try discriminate. injection EY as ->.
  destruct (compact_cols pr c O Wc Nc NE) as [Wcp Ncp]. apply ilp_answer in EG as [Ly HR]; auto.
  rewrite (firstn_front pr (orig_first_wf pr O) c Nc). fold (sw pr). fold (swaps (sw pr) y).
  destruct (compacted_keeps pr c y (scalable pr) O Wc Nc ltac:(congruence)) as (A & B & C).
  - intros r Hr _ N. apply HR; auto. rewrite compact_rows. apply in_map. auto.
  - split; auto. split; auto.
Qed.

Lemma lp_hkept pr c x : grb_scales grb -> wf_prog pr -> orig_first pr -> intervals pr -> wf_cst c -> ncols c = cst_width pr -> rows c <> [] ->
  prog_constraints_lexmin (gurobi_solver grb true) pr c = Some x ->
  S (length x) = ncols c /\ (forall r, In r (rows c) -> scalable pr r -> last (coef r) 0%Z = 0%Z -> holds x r) /\ zpadding_zero pr x.
Proof.
  intros SP W O I Wc Nc NE H. unfold prog_constraints_lexmin in H.
  destruct (gurobi_solver grb true pr (compact_cst pr c)) as [y|] eqn:EY; [|discriminate]. injection H as <-.
  unfold gurobi_solver in EY. destruct (gurobi_lexmin grb true pr (compact_cst pr c)) as [| | |z] eqn:EG; try discriminate. injection EY as ->.
  apply lp_answer in EG as [Ly HR]; auto.
  rewrite (firstn_front pr (orig_first_wf pr O) c Nc). fold (sw pr). fold (swaps (sw pr) y).
  apply (compacted_keeps pr c y (scalable pr) O Wc Nc Ly HR).
Qed.

Lemma lp_hkeeps : grb_scales grb -> lexmin_hkeeps (only_near (gurobi_solver grb true)).
Proof.
  intros SP pr c x W O Wc Nc NE H. destruct (nearb pr) eqn:N.
  2:{ unfold prog_constraints_lexmin, only_near in H. rewrite N in H. discriminate. }
  apply nearb_ok in N. rewrite lexmin_near in H by auto.
  destruct (lp_hkept pr c x SP W O (near_intervals pr W N) Wc Nc NE H) as (A & B & C). split; auto. split; auto.
Qed.
End Answers.

(** ** Exact answers *)
Lemma grb_exact_conclusive grb : grb_exact grb -> conclusive grb.
Proof.
  intros H tol p. specialize (H tol p). destruct (g_status (grb tol p)); auto. destruct H as (v & E & _). eauto.
Qed.
Lemma grb_exact_optimal grb tol p v : grb_exact grb -> g_status (grb tol p) = GRB_OPTIMAL -> g_vals (grb tol p) = Some v ->
  gp_point p v /\ whole p v /\ map cut v = v.
Proof. intros H S V. specialize (H tol p). rewrite S in H. destruct H as (w & E & P & W & C & _). rewrite V in E. injection E as <-. auto. Qed.
Lemma grb_exact_rounds grb : grb_exact grb -> grb_rounds grb.
Proof.
  intros H p v S V. destruct (grb_exact_optimal grb _ p v H S V) as (P & W & C).
  exists v, 0, 0. split; auto. split; [apply within_zero|]. split; [apply whole_nearly; auto|]. split; [lra|]. split; [reflexivity|]. intros r Hr. lra.
Qed.
Lemma grb_exact_scales grb : grb_exact grb -> grb_scales grb.
Proof.
  intros H k skip p f p' v S V _ S' V'. destruct (grb_exact_optimal grb _ p f H S V) as (P & W & C). destruct (grb_exact_optimal grb _ p' v H S' V') as (P' & W' & C').
  destruct (big_bound v k) as [s Hs]. exists f, v, 0, 0, 0, s. split; auto. split; [rewrite C; apply within_zero|]. split; auto. split; [apply within_zero|].
  split; [apply whole_nearly; auto|]. split; [lra|]. split; [reflexivity|]. split; [reflexivity|]. split; auto. intros r Hr. lra.
Qed.

(** Gurobi as a list of certified solutions. *)
Definition cert_grb (cands : list (list Q * list Q)) : gurobi := fun tol p =>
  let a := cert_glpk cands tol p in
  match a_mip a with GLP_OPT => mkGrb GRB_OPTIMAL (Some (a_val a)) | _ => mkGrb GRB_INF_OR_UNBD None end.
Lemma cert_grb_exact cands : grb_exact (cert_grb cands).
Proof.
  intros tol p. unfold cert_grb. cbv zeta. pose proof (cert_exact cands tol p) as H. cbv zeta in H.
  destruct H as [[_ E]|(_ & E & P & W & C & O)]; rewrite E; cbn [g_status g_vals]; auto. exists (a_val (cert_glpk cands tol p)). auto.
Qed.

(** ** No solution *)
Lemma point_of_mem lp obj c y : wf_cst c -> length obj = (ncols c - 1)%nat -> mem c y -> (forall v, In v y -> (0 <= v)%Z) ->
  gp_point (grb_problem lp obj c) (zpoint y) /\ whole (grb_problem lp obj c) (zpoint y).
Proof.
  intros W LO M N. destruct (mem_point lp obj c y W LO M N) as [P Wh]. split; [|exact Wh].
  destruct P as (A & B & R). split; [exact A|]. split; [exact B|]. intros g Hg. apply R. cbn [grb_problem glpk_problem gp_rows] in *.
  unfold grb_rows in Hg. apply in_flat_map in Hg as (r & Hr & Hg). unfold glpk_rows. apply in_map_iff. exists r. split; auto.
  destruct (row_terms (removelast (coef r))) eqn:E; [destruct Hg|]. destruct Hg as [<-|[]]. reflexivity.
Qed.

Lemma obj_nonneg (ws : list Z) b : forall x, (forall w, In w ws -> (0 <= w)%Z) -> (forall i, (i < length x)%nat -> 0 <= nth i x 0) ->
  0 <= fold_right (fun t a => fst t * snd t + a) 0 (combine (map gc_obj (map (fun w => mkGcol (GLP_LO 0) b (inject_Z w)) ws)) x).
Proof.
  induction ws as [|w ws IH]; intros [|v x] Hw Hx; cbn [map combine fold_right fst snd gc_obj]; try lra.
  assert (0 <= inject_Z w) by (change 0 with (inject_Z 0); rewrite <- Zle_Qle; apply Hw; left; auto).
  pose proof (Hx 0%nat ltac:(cbn; lia)) as V. cbn [nth] in V.
  specialize (IH x ltac:(intros u Hu; apply Hw; right; auto) ltac:(intros i Hi; apply (Hx (S i)); cbn; lia)).
  assert (0 <= inject_Z w * v) by (apply Qmult_le_0_compat; auto). lra.
Qed.
Lemma grb_obj_nonneg lp obj c x : (forall w, In w obj -> (0 <= w)%Z) -> gp_point (grb_problem lp obj c) x -> 0 <= obj_sum (grb_problem lp obj c) x.
Proof.
  intros H (L & B & _). unfold obj_sum. cbn [grb_problem gp_cols] in *. apply obj_nonneg; auto.
  intros i Hi. specialize (B i Hi). rewrite nth_cols_map in B by (rewrite map_length in L; lia). exact B.
Qed.

Lemma cplex_nonneg pr n w : In w (cplex_objective pr n) -> (0 <= w)%Z.
Proof.
  unfold cplex_objective. cbv zeta. intros H.
  assert (forall A (l : list A) k v, In v (firstn k l) -> In v l) as F by (intros A l k v Hv; rewrite <- (firstn_skipn k l); apply in_or_app; auto).
  apply F in H. apply in_app_or in H as [H|H]; [|apply repeat_spec in H; lia].
  apply in_app_or in H as [H|H]; [apply repeat_spec in H; nia|]. cbn [app] in H. destruct H as [H|H]; [nia|].
  apply in_flat_map in H as (st & _ & H). unfold stmt_weights in H. apply in_app_or in H as [H|H].
  - apply in_map_iff in H as (k & <- & _). nia.
  - destruct H as [<-|[]]. lia.
Qed.

Lemma best_fewer p p' v : gp_cols p' = gp_cols p -> (forall g, In g (gp_rows p) -> In g (gp_rows p')) -> nearly_best p v -> nearly_best p' v.
Proof.
  intros E S (t & g & L & NI & T0 & Ht & O & B). exists t, g. split; [congruence|]. split; [unfold nearly_integer in *; rewrite E; auto|]. split; auto. split; auto.
  unfold obj_sum, obj_weight, whole in *. rewrite E. split; auto. intros x Px. apply O. apply (fewer_rows p'); auto.
Qed.
Lemma grb_rows_glpk lp obj c g : In g (gp_rows (grb_problem lp obj c)) -> In g (gp_rows (glpk_problem lp obj c)).
Proof.
  cbn [grb_problem glpk_problem gp_rows]. unfold grb_rows, glpk_rows. intros Hg. apply in_flat_map in Hg as (r & Hr & Hg). apply in_map_iff. exists r. split; auto.
  destruct (row_terms (removelast (coef r))) eqn:E; [destruct Hg|]. destruct Hg as [<-|[]]. reflexivity.
Qed.
Lemma grb_exact_best grb : grb_exact grb -> forall p v, g_status (grb (1 # 10000000) p) = GRB_OPTIMAL -> g_vals (grb (1 # 10000000) p) = Some v -> nearly_best p v.
Proof.
  intros H p v S V. specialize (H (1 # 10000000) p). rewrite S in H. destruct H as (w & E & P & W & C & O). rewrite V in E. injection E as <-.
  exists 0, 0. split; [apply P|]. split; [apply whole_nearly; auto|]. split; [lra|]. split; [reflexivity|]. split; [intros x Hx Wx; specialize (O x Hx Wx); lra|lra].
Qed.
