(** * Theorems: the automatic transformation (C15, C16, C21-C23, C54, C59). *)
From Coq Require Import ZArith List Bool Lia.
From Verif Require Import SpecLinear SpecMatrix VecProofs MathModel ConstraintsModel SpecProg SpecDriver FrameworkModel FrameworkProofs
  DepProofs Checkers ProgModel ProgProofs DriverModel HypProofs ExProg PropFramework.
Import ListNotations.
Open Scope Z_scope.

(** ** An intermediate state of the driver on the example: one level found *)
Definition mid_s0 : stmt := set_hyp (set_trans ex_s0 (mkMat 4 [[1;0;0;0]])) [H_LOOP].
Definition mid_s1 : stmt := set_hyp (set_trans ex_s1 (mkMat 4 [[1;0;0;0]])) [H_LOOP].
Definition mid_prog : prog := mkProg 2 1 [mid_s0; mid_s1] (p_deps ex_prog) [H_LOOP].

Lemma mid_prog_ok : wf_prog mid_prog /\ padded mid_prog /\ orig_first mid_prog.
Proof.
  split; [split|split].
  - intros st [<-|[<-|[]]]; repeat (split; [first [reflexivity|wf]|]); simpl; intuition (subst; first [wf|reflexivity]).
  - intros d [<-|[<-|[<-|[<-|[]]]]]; (split; [simpl; lia|split; [simpl; lia|split; [wf|split; [reflexivity|split; [wf|reflexivity]]]]]).
  - intros st [<-|[<-|[]]]; reflexivity.
  - intros st [<-|[<-|[]]]; split; try reflexivity; simpl; lia.
Qed.

(** A kernel function meeting the hypotheses on isl_mat_right_kernel. *)
Definition matrix_eq_dec (a b : matrix) : {a = b} + {a <> b}.
Proof. decide equality. apply (list_eq_dec (list_eq_dec Z.eq_dec)). apply PeanoNat.Nat.eq_dec. Defined.
Definition ex_kernel (m : matrix) : matrix :=
  if matrix_eq_dec m (mkMat 2 [[1;0]]) then mkMat 1 [[0];[1]] else mkMat 1 (repeat [0] (mncols m)).
Lemma ex_kernel_ok : kernel_ok ex_kernel /\ kernel_complete ex_kernel.
Proof.
  unfold ex_kernel. split.
  - intros m W. destruct (matrix_eq_dec m (mkMat 2 [[1;0]])) as [->|N].
    + split; [wf|]. split; [reflexivity|]. intros r [|j] [<-|[]] Hj; [reflexivity|simpl in Hj; lia].
    + split; [|split].
      * intros r Hr. apply repeat_spec in Hr. subst r. reflexivity.
      * unfold mnrows. simpl. apply repeat_length.
      * intros r j Hr Hj. simpl in Hj. assert (j = 0%nat) as -> by lia. simpl.
        rewrite dot_comm. apply RankProofs.dot_zero_all. intros v Hv. apply in_map_iff in Hv as (w & <- & Hw). apply repeat_spec in Hw. subst w. reflexivity.
  - intros m _. destruct (matrix_eq_dec _ _); simpl; discriminate.
Qed.

(** u = 0, w = 1; S0: i + j; S1: i. *)
Definition ex_next : point := [0; 1; 1; 1; 0; 1; 0; 0].

(** ** C21 *)

(** Constraints of a single statement: the last system returned. *)
Theorem C21_independent : forall isl_emptyb kernel o pr cur s x,
  kernel_ok kernel -> wf_prog pr -> padded pr -> (s < length (p_stmts pr))%nat -> scalar_levels_zero pr s ->
  let l := stmt_lin_ind_constraints isl_emptyb kernel o pr cur s in
  l <> [] -> mem (last l (mkCst (cst_width pr) [])) x ->
  ~ in_span (num_orig pr (stmt_of pr s))
      (map (orig_part pr (stmt_of pr s)) (mrows (s_trans (stmt_of pr s))))
      (orig_part pr (stmt_of pr s) (iter_coefs pr x s)).
Proof.
  intros isl_emptyb kernel o pr cur s x K W P Hs Z l Hl Hm.
  eapply lin_ind_last; eauto. intros s' Hs'. pose proof (stmt_of_in pr s' Hs') as Hin.
  destruct (proj1 W _ Hin) as (A & _). rewrite A. apply P. auto.
Qed.
Print Assumptions C21_independent.

Example C21_independent_met :
  (forall s, (s < 2)%nat -> scalar_levels_zero mid_prog s) /\
  let l := stmt_lin_ind_constraints (fun _ => false) ex_kernel ex_opts mid_prog (universe 9) 0 in
  length l = 2%nat /\ mem (last l (mkCst 9 [])) ex_next /\
  orig_part mid_prog mid_s0 (iter_coefs mid_prog ex_next 0) = [1; 1].
Proof.
  split.
  - intros s _ [|[|j]] E; discriminate.
  - vm_compute. split; [reflexivity|]. split; [|reflexivity]. split; [reflexivity|]. intros r [<-|[]]. vm_compute. discriminate.
Qed.

(** Eager search: every statement that needs more hyperplanes (see
    C59_needs_hyperplanes) gets an independent one. *)
Theorem C21_eager_search : forall isl_emptyb kernel o pr cur x,
  kernel_ok kernel -> kernel_complete kernel -> wf_prog pr -> padded pr -> orig_first pr ->
  (forall s, (s < length (p_stmts pr))%nat -> scalar_levels_zero pr s) ->
  mem (get_linear_ind_constraints isl_emptyb kernel o pr cur EAGER) x ->
  forall s, (s < length (p_stmts pr))%nat -> ~ complete (stmt_of pr s) ->
  ~ in_span (num_orig pr (stmt_of pr s))
      (map (orig_part pr (stmt_of pr s)) (mrows (s_trans (stmt_of pr s))))
      (orig_part pr (stmt_of pr s) (iter_coefs pr x s)).
Proof.
  intros isl_emptyb kernel o pr cur x K KC W P OF Z M s Hs Hc.
  eapply linear_ind_eager; eauto. apply orig_first_wf; auto.
  apply needs_has_orth; auto. destruct (needs_hyps (stmt_of pr s)) eqn:E; auto. exfalso. apply Hc.
  pose proof (stmt_of_in pr s Hs) as Hin. destruct (proj1 W _ Hin) as (A & B & C & _).
  apply needs_spec; auto. destruct (OF _ Hin) as [L _]. rewrite B, (P _ Hin). lia.
Qed.
Print Assumptions C21_eager_search.

(** Lazy search: at least one statement makes progress. *)
Theorem C21_lazy_search : forall isl_emptyb kernel o pr cur x,
  kernel_ok kernel -> kernel_complete kernel -> wf_prog pr -> padded pr -> orig_first pr ->
  (forall s, (s < length (p_stmts pr))%nat -> scalar_levels_zero pr s) ->
  mem (get_linear_ind_constraints isl_emptyb kernel o pr cur LAZY) x ->
  (exists s, (s < length (p_stmts pr))%nat /\ ~ complete (stmt_of pr s)) ->
  exists s, (s < length (p_stmts pr))%nat /\
  ~ in_span (num_orig pr (stmt_of pr s))
      (map (orig_part pr (stmt_of pr s)) (mrows (s_trans (stmt_of pr s))))
      (orig_part pr (stmt_of pr s) (iter_coefs pr x s)).
Proof.
  intros isl_emptyb kernel o pr cur x K KC W P OF Z M (s & Hs & Hc).
  destruct (linear_ind_lazy isl_emptyb kernel o pr) with (cur := cur) (x := x) as (s' & H1 & _ & H3); eauto.
  - apply orig_first_wf; auto.
  - assert (has_orth isl_emptyb kernel o pr cur s) as HO.
    { apply needs_has_orth; auto. destruct (needs_hyps (stmt_of pr s)) eqn:E; auto. exfalso. apply Hc.
      pose proof (stmt_of_in pr s Hs) as Hin. destruct (proj1 W _ Hin) as (A & B & C & _).
      apply needs_spec; auto. destruct (OF _ Hin) as [L _]. rewrite B, (P _ Hin). lia. }
    unfold get_linear_ind_constraints. cbv zeta.
    assert (In (stmt_lin_ind_constraints isl_emptyb kernel o pr cur s)
      (filter (fun l => negb (length l =? 0)%nat) (map (stmt_lin_ind_constraints isl_emptyb kernel o pr cur) (seq 0 (length (p_stmts pr)))))) as I.
    { apply filter_In. split. apply in_map. apply in_seq. lia. unfold has_orth in HO. destruct (stmt_lin_ind_constraints _ _ _ _ _ _); [congruence|reflexivity]. }
    destruct (filter _ _); [destruct I|]. cbn. discriminate.
Qed.
Print Assumptions C21_lazy_search.

Example C21_search_met :
  mem (get_linear_ind_constraints (fun _ => false) ex_kernel ex_opts mid_prog (universe 9) EAGER) ex_next /\
  mem (get_linear_ind_constraints (fun _ => false) ex_kernel ex_opts mid_prog (universe 9) LAZY) ex_next /\
  ~ mem (get_linear_ind_constraints (fun _ => false) ex_kernel ex_opts mid_prog (universe 9) EAGER) ex_sol /\
  ~ complete mid_s0 /\ complete mid_s1.
Proof.
  split; [|split; [|split; [|split]]].
  - vm_compute. split; [reflexivity|]. intros r [<-|[]]. vm_compute. discriminate.
  - vm_compute. split; [reflexivity|]. intros r [<-|[]]. vm_compute. discriminate.
  - intros [_ H]. specialize (H _ (or_introl eq_refl)). vm_compute in H. apply H. reflexivity.
  - intros C. apply needs_spec in C; [discriminate|wf|simpl; lia].
  - apply needs_spec; [wf|simpl; lia|reflexivity].
Qed.

(** ** C22 *)
Theorem C22_nontrivial_eager : forall pr x, wf_prog pr -> padded pr ->
  S (length x) = cst_width pr -> (forall v, In v x -> 0 <= v) ->
  (forall st, In st (p_stmts pr) -> (s_dim_orig st <= s_dim st)%nat) ->
  mem (get_non_trivial_sol_constraints pr EAGER) x <->
  forall s, (s < length (p_stmts pr))%nat -> ~ complete (stmt_of pr s) -> nontrivial pr x s.
Proof.
  intros pr x W P Lx Px HD.
  assert (wf_orig pr) as Ho by (intros s Hs; pose proof (stmt_of_in pr s Hs) as Hin; destruct (proj1 W _ Hin) as (A & _); rewrite A; apply P; auto).
  rewrite nontriv_eager by auto.
  assert (forall s, (s < length (p_stmts pr))%nat -> needs_hyps (stmt_of pr s) = true <-> ~ complete (stmt_of pr s)) as N.
  { intros s Hs. pose proof (stmt_of_in pr s Hs) as Hin. destruct (proj1 W _ Hin) as (A & B & C & _).
    assert (needs_hyps (stmt_of pr s) = false <-> complete (stmt_of pr s)) as NS by (apply needs_spec; auto; rewrite B; specialize (HD _ Hin); lia).
    rewrite <- NS. destruct (needs_hyps _); split; congruence || (intros H; exfalso; apply H; auto). }
  split; intros H s Hs Hn; apply H; auto; apply N; auto.
Qed.
Print Assumptions C22_nontrivial_eager.

Theorem C22_nontrivial_lazy : forall pr x, wf_prog pr -> padded pr ->
  S (length x) = cst_width pr -> (forall v, In v x -> 0 <= v) ->
  (forall st, In st (p_stmts pr) -> (s_dim_orig st <= s_dim st)%nat) ->
  mem (get_non_trivial_sol_constraints pr LAZY) x <->
  ((exists s, (s < length (p_stmts pr))%nat /\ ~ complete (stmt_of pr s) /\ nontrivial pr x s)
   \/ forall s, (s < length (p_stmts pr))%nat -> complete (stmt_of pr s)).
Proof.
  intros pr x W P Lx Px HD.
  assert (wf_orig pr) as Ho by (intros s Hs; pose proof (stmt_of_in pr s Hs) as Hin; destruct (proj1 W _ Hin) as (A & _); rewrite A; apply P; auto).
  rewrite nontriv_lazy by auto.
  assert (forall s, (s < length (p_stmts pr))%nat -> needs_hyps (stmt_of pr s) = false <-> complete (stmt_of pr s)) as N.
  { intros s Hs. pose proof (stmt_of_in pr s Hs) as Hin. destruct (proj1 W _ Hin) as (A & B & C & _).
    apply needs_spec; auto; rewrite B; specialize (HD _ Hin); lia. }
  split.
  - intros [(s & Hs & Hn & Ht)|H]; [left; exists s; split; auto; split; auto|right; intros s Hs; apply N; auto].
    intros C. apply N in C; auto. congruence.
  - intros [(s & Hs & Hn & Ht)|H]; [left; exists s; split; auto; split; auto|right; intros s Hs; apply N; auto].
    destruct (needs_hyps (stmt_of pr s)) eqn:E; auto. exfalso. apply Hn, N; auto.
Qed.
Print Assumptions C22_nontrivial_lazy.

Example C22_met :
  mem (get_non_trivial_sol_constraints ex_prog EAGER) [0;0;0;0;0;0;0;0] /\
  ~ mem (get_non_trivial_sol_constraints mid_prog EAGER) [0;1;0;0;1;1;0;0] /\
  mem (get_non_trivial_sol_constraints mid_prog EAGER) [0;1;0;1;1;0;0;0] /\
  ~ mem (get_non_trivial_sol_constraints mid_prog LAZY) [0;1;0;0;1;1;0;0] /\
  (forall st, In st (p_stmts mid_prog) -> (s_dim_orig st <= s_dim st)%nat).
Proof.
  split; [|split; [|split; [|split]]].
  - split; [reflexivity|]. vm_compute. intros r [].
  - intros [_ H]. specialize (H _ (or_introl eq_refl)). vm_compute in H. apply H. reflexivity.
  - split; [reflexivity|]. vm_compute. intros r [<-|[]]. vm_compute. discriminate.
  - intros [_ H]. specialize (H _ (or_introl eq_refl)). vm_compute in H. apply H. reflexivity.
  - intros st [<-|[<-|[]]]; simpl; lia.
Qed.

(** ** C23 *)

(** All variables are non-negative; the coefficients of the hyperplanes (not
    u, w) are at most the bound, if there is one. *)
Theorem C23_coefficient_bounds : forall o pr x,
  mem (get_coeff_bounding_constraints o pr) x <->
  (S (length x) = cst_width pr /\ (forall v, In v x -> 0 <= v) /\
   forall i, (p_npar pr + 1 <= i < length x)%nat ->
     match coeff_limit o pr with Some u => nth i x 0 <= u | None => True end).
Proof. exact bounding_mem. Qed.
Print Assumptions C23_coefficient_bounds.

(** The bound: option coeff-bound, or else the largest constant of a domain
    minus 1 if this is at least 10. *)
Theorem C23_bound_value : forall o pr,
  (o_coeff_bound o <> -1 -> coeff_limit o pr = Some (o_coeff_bound o)) /\
  (o_coeff_bound o = -1 -> forall u, coeff_limit o pr = Some u <->
     10 <= u /\
     (exists st r, In st (p_stmts pr) /\ In r (rows (s_domain st)) /\ u + 1 = nth (ncols (s_domain st) - 1) (coef r) 0) /\
     forall st r, In st (p_stmts pr) -> In r (rows (s_domain st)) -> nth (ncols (s_domain st) - 1) (coef r) 0 <= u + 1).
Proof.
  intros o pr. unfold coeff_limit. split.
  - intros H. destruct (Z.eqb_spec (o_coeff_bound o) (-1)); [contradiction|]. reflexivity.
  - intros -> u. cbn [Z.eqb negb Pos.eqb].
    destruct (largest_const_spec pr) as (A & B & C). set (M := largest_const_in_domains pr) in *.
    destruct (Z.leb_spec 10 M).
    + split.
      * intros E. injection E as <-. split; auto. split; auto. destruct C as [C|C]; [lia|auto].
      * intros (U & (st & r & Hst & Hr & E) & D). f_equal.
        specialize (B st r Hst Hr). destruct C as [C|(st' & r' & Hst' & Hr' & C)]; [lia|].
        specialize (D st' r' Hst' Hr'). lia.
    + split; [discriminate|]. intros (U & (st & r & Hst & Hr & E) & D).
      specialize (B st r Hst Hr). lia.
Qed.
Print Assumptions C23_bound_value.

Example C23_met :
  mem (get_coeff_bounding_constraints ex_opts ex_prog) [7; 9; 4; 0; 1; 2; 0; 0] /\
  ~ mem (get_coeff_bounding_constraints ex_opts ex_prog) [7; 9; 5; 0; 1; 2; 0; 0] /\
  coeff_limit (mkOpts false false (-1) false) ex_prog = None /\
  coeff_limit (mkOpts false false (-1) false)
    (mkProg 2 1 [set_domain ex_s0 (mkCst 4 [ge [1;0;0;0]; ge [-1;0;0;50]])] [] []) = Some 49.
Proof.
  split; [|split; [|split; [reflexivity|reflexivity]]].
  - apply C23_coefficient_bounds. split; [reflexivity|]. split.
    + simpl. intuition lia.
    + intros i Hi. change (nth i [7; 9; 4; 0; 1; 2; 0; 0] 0 <= 4). simpl in Hi.
      do 8 (destruct i as [|i]; [try lia; vm_compute; discriminate|]). lia.
  - intros H. apply C23_coefficient_bounds in H as (_ & _ & H). specialize (H 2%nat). vm_compute in H. apply H; [split; repeat constructor|reflexivity].
Qed.

(** ** C54 *)

(** The answer for the compacted system, mapped back, solves the system given
    and is zero for all loops added by padding. *)
Theorem C54_lexmin_sound : forall solve pr c x,
  solver_sound solve -> orig_first pr -> wf_cst c -> ncols c = cst_width pr -> rows c <> [] ->
  prog_constraints_lexmin solve pr c = Some x -> mem c x /\ zpadding_zero pr x.
Proof.
  intros solve pr c x S OF W N R E. apply (lexmin_sound pr) with (solve := solve); auto. apply orig_first_wf; auto.
  intros st Hs. apply (orig_first_mask pr st OF Hs).
Qed.
Print Assumptions C54_lexmin_sound.

(** Conversely compaction loses no solution that is zero for these loops; with
    a solver that answers whenever there is a solution, an answer is found. *)
Theorem C54_lexmin_complete : forall solve pr c x,
  (forall c' y, wf_cst c' -> mem c' y -> solve pr c' <> None) ->
  orig_first pr -> wf_cst c -> ncols c = cst_width pr -> rows c <> [] ->
  mem c x -> zpadding_zero pr x -> prog_constraints_lexmin solve pr c <> None.
Proof.
  intros solve pr c x S OF W N R M Z.
  assert (forall st, In st (p_stmts pr) -> num_orig pr st = s_dim_orig st) as Hd by (intros st Hs; apply (orig_first_mask pr st OF Hs)).
  destruct (compact_complete pr (orig_first_wf pr OF) Hd c W N x R M Z) as (y & My & _).
  unfold prog_constraints_lexmin. specialize (S (compact_cst pr c) y).
  destruct (solve pr (compact_cst pr c)); [discriminate|]. exfalso. apply S; auto.
  apply (compact_spec pr (orig_first_wf pr OF) Hd c W N [] R).
Qed.
Print Assumptions C54_lexmin_complete.

(** The solver sees columns u w | j i 1 | i 1: loops reversed, padding dropped. *)
Definition ex_ilp : cst := mkCst 9 [ge [0;1;2;3;4;5;6;7;-20]; ge [0;0;1;0;0;0;0;0;-1]].
Example C54_met :
  orig_first ex_prog /\ wf_cst ex_ilp /\ ncols ex_ilp = cst_width ex_prog /\
  compact_cst ex_prog ex_ilp = mkCst 8 [ge [0;1;3;2;4;5;7;-20]; ge [0;0;0;1;0;0;0;-1]] /\
  prog_constraints_lexmin (fun _ _ => Some [0;0;5;1;0;0;3]) ex_prog ex_ilp = Some [0;0;1;5;0;0;0;3] /\
  mem ex_ilp [0;0;1;5;0;0;0;3].
Proof.
  split.
  { intros st [<-|[<-|[]]]; split; try reflexivity; simpl; lia. }
  split; [wf|]. split; [reflexivity|]. split; [reflexivity|]. split; [reflexivity|].
  split; [reflexivity|]. intros r [<-|[<-|[]]]; vm_compute; discriminate.
Qed.
