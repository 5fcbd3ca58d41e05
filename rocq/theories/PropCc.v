(** * C93: an objective for each connected component. *)
From Coq Require Import ZArith QArith List Bool Lia Arith.
From Verif Require Import SpecLinear SpecMatrix VecProofs MathModel ConstraintsModel FMProofs EditProofs SpecGraph GraphModel SpecProg SpecDriver SpecLoop
  FrameworkModel FrameworkProofs DepProofs LexProofs ProgModel DriverModel HypProofs KeepProofs DriverProofs PadProofs AutoProofs
  SpecCc CcModel CcProofs CcProofs2 ProgProofs Checkers ExProg PropFramework PropDriver PropAuto PropFlow.
Import ListNotations.
Open Scope Z_scope.

(** The transformation found is legal and one-to-one, unless memory is
    overwritten. *)
Theorem C93_legal_partial : forall is_emptyb isl_emptyb kernel solve o fuse fuel pr pr',
  exact_empty is_emptyb -> solver_sound solve -> input_ok pr ->
  cc_auto_transform is_emptyb isl_emptyb kernel solve o fuse fuel pr = Some (Some (0, pr')) ->
  same_program pr pr' /\
  (forall s i p, (s < length (p_stmts pr))%nat -> length i = s_dim (stmt_of pr s) -> length p = p_npar pr ->
     length (timestamp (stmt_of pr' s) i p) = length (p_hprops pr')) /\
  (forall d, In d (p_deps pr) -> d_rar d = false -> forall s t p, instance pr d s t p ->
     lexlt (timestamp (stmt_of pr' (d_src d)) s p) (timestamp (stmt_of pr' (d_dst d)) t p)) /\
  (forall s i j p, (s < length (p_stmts pr))%nat ->
     length i = s_dim (stmt_of pr s) -> length j = s_dim (stmt_of pr s) -> length p = p_npar pr ->
     timestamp (stmt_of pr' s) i p = timestamp (stmt_of pr' s) j p -> i = j).
Proof.
  intros is_emptyb isl_emptyb kernel solve o fuse fuel pr pr' EX SOL IN H.
  unfold cc_auto_transform in H. destruct (Nat.eqb_spec (length (p_stmts pr)) 0) as [E|E].
  - apply (auto_success is_emptyb isl_emptyb kernel solve o EX (sound_keeps solve SOL) fuse fuel); auto.
    unfold auto_transform. rewrite (proj2 (Nat.eqb_eq _ _) E). congruence.
  - cbv zeta in H. fold (start_state pr) in H. pose proof (second_inv is_emptyb EX pr fuse IN) as G2.
    set (s2 := match fuse with SmartFuse => _ | _ => _ end) in *.
    destruct (cc_drive _ _ _ _ _ _ _ _ _ _ _) as [[[s m|s]|]|] eqn:Dr; try discriminate.
    injection H as <-. destruct (cc_drive_good isl_emptyb kernel solve o SOL is_emptyb EX fuse fuel _ _ _ _ _ (proj1 G2) Dr) as [[I F] [FR DS]].
    eapply end_success; eauto. eapply frame_trans; [apply G2|exact F].
Qed.
Print Assumptions C93_legal_partial.

Theorem C93_failure_restores : forall is_emptyb isl_emptyb kernel solve o fuse fuel pr pr',
  exact_empty is_emptyb -> solver_sound solve -> input_ok pr ->
  cc_auto_transform is_emptyb isl_emptyb kernel solve o fuse fuel pr = Some (Some (1, pr')) ->
  same_program pr pr' /\ p_hprops pr' = p_hprops pr /\
  (forall s, (s < length (p_stmts pr))%nat ->
     s_trans (stmt_of pr' s) = s_trans (stmt_of pr s) /\ s_hyp (stmt_of pr' s) = s_hyp (stmt_of pr s)).
Proof.
  intros is_emptyb isl_emptyb kernel solve o fuse fuel pr pr' EX SOL IN H.
  unfold cc_auto_transform in H. destruct (Nat.eqb_spec (length (p_stmts pr)) 0) as [E|E]; [discriminate|].
  cbv zeta in H. fold (start_state pr) in H. pose proof (second_inv is_emptyb EX pr fuse IN) as G2.
  set (s2 := match fuse with SmartFuse => _ | _ => _ end) in *.
  destruct (cc_drive _ _ _ _ _ _ _ _ _ _ _) as [[[s m|s]|]|] eqn:Dr; try discriminate.
  injection H as <-. destruct (cc_drive_good isl_emptyb kernel solve o SOL is_emptyb EX fuse fuel _ _ _ _ _ (proj1 G2) Dr) as [[I F] _].
  eapply end_failure; eauto. eapply frame_trans; [apply G2|exact F].
Qed.
Print Assumptions C93_failure_restores.

(** Every hyperplane found keeps the order of the dependences that are left, and
    their distances stay within the bound of the component of their source. *)
Theorem C93_own_bound : forall isl_emptyb kernel solve o mode pr g ccs ncc m base m' sol,
  solver_sound solve -> wf_prog pr -> padded pr -> orig_first pr -> wf_graph (length (p_stmts pr)) g ->
  ddg_compute_cc (length (p_stmts pr)) g (repeat 0 (length (p_stmts pr))) = (ccs, ncc) ->
  cc_permutability o pr ccs ncc m = Some (base, m') ->
  cc_solution isl_emptyb kernel solve o mode ncc base pr = Some sol ->
  forall d, In d (p_deps pr) -> d_sat d = false ->
    (d_rar d = false -> forall s t p, instance pr d s t p ->
       aff (cc_hyp pr ncc sol (d_src d)) s <= aff (cc_hyp pr ncc sol (d_dst d)) t) /\
    (o_rar o = true \/ d_rar d = false -> o_nodepbound o = false ->
     forall s t p, length s = p_nvar pr -> length t = p_nvar pr -> length p = p_npar pr -> mem (d_bpoly d) (s ++ t ++ p) ->
       aff (cc_hyp pr ncc sol (d_dst d)) t - aff (cc_hyp pr ncc sol (d_src d)) s <=
       cc_bound pr sol (Z.to_nat (nth (d_src d) ccs 0)) p).
Proof.
  intros isl_emptyb kernel solve o mode pr g ccs ncc m base m' sol SOL W P O WG CC E0 E d Hd Sa.
  assert (forall d, In d (p_deps pr) -> (Z.to_nat (nth (d_src d) ccs 0%Z) < ncc)%nat) as RG.
  { intros d' Hd'. eapply cc_ids; [exact WG|exact CC|]. apply W; auto. }
  destruct (cc_perm_spec o pr ccs ncc RG m base m' E0) as (Wb & Nb & _).
  apply (cc_solution_spec isl_emptyb kernel solve o SOL) in E as [Ms Zs]; auto.
  exact (cc_sound o pr ccs ncc m base m' sol W P RG E0 Ms Zs d Hd Sa).
Qed.
Print Assumptions C93_own_bound.

(** Without parameters the sum of the bounds of all components is least. *)
Theorem C93_sum_partial : forall isl_emptyb kernel solve o mode pr g ccs ncc m base m' sol cur ind,
  solver_least solve -> wf_prog pr -> orig_first pr -> wf_graph (length (p_stmts pr)) g ->
  ddg_compute_cc (length (p_stmts pr)) g (repeat 0 (length (p_stmts pr))) = (ccs, ncc) -> p_npar pr = 0%nat ->
  cc_permutability o pr ccs ncc m = Some (base, m') -> cc_system isl_emptyb kernel o mode ncc base pr = (cur, ind) ->
  cc_solution isl_emptyb kernel solve o mode ncc base pr = Some sol ->
  mem cur sol /\ mem ind sol /\
  forall y, mem cur y -> mem ind y -> zpadding_zero (widen (cc_cols pr ncc) pr) y -> cc_total pr ncc sol 0 <= cc_total pr ncc y 0.
Proof.
  intros isl_emptyb kernel solve o mode pr g ccs ncc m base m' sol cur ind SL W O WG CC NP E0 ES E.
  eapply sum_least; eauto. intros d Hd. eapply cc_ids; [exact WG|exact CC|]. apply W; auto.
Qed.
Print Assumptions C93_sum_partial.

(** A solver for one system. *)
Definition row_dec (a b : row) : {a = b} + {a <> b}.
Proof. decide equality; [apply (list_eq_dec Z.eq_dec)|apply Bool.bool_dec]. Defined.
Definition cst_dec (a b : cst) : {a = b} + {a <> b}.
Proof. decide equality; [apply (list_eq_dec row_dec)|apply Nat.eq_dec]. Defined.
Definition solve_one (c0 : cst) (z : point) (_ : prog) (c : cst) : option point := if cst_dec c c0 then Some z else None.
Lemma solve_one_least c0 z : mem c0 z -> (forall y, mem c0 y -> y = z \/ lexlt z y) -> solver_least (solve_one c0 z).
Proof. intros M L pr c x _ H. unfold solve_one in H. destruct (cst_dec c c0) as [->|]; [|discriminate]. injection H as <-. auto. Qed.

(** S0 and S1 of two loops each; S0 (i, j) feeds S0 (i + n, j + 3), 1 <= n. *)
Definition cr_dom : cst := mkCst 4 [ge [1;0;0;0]; ge [0;1;0;0]; ge [0;0;1;-1]].
Definition cr_stmt : stmt := mkStmt 2 2 [true;true] cr_dom (mkMat 4 [[1;0;0;0];[0;1;0;0]]) [H_LOOP;H_LOOP] 0 0 [] [] None 0 (-1) (-1).
Definition cr_prog : prog := mkProg 2 1 [cr_stmt; cr_stmt]
  [ex_dep 0 0 false (mkCst 6 [eq [1;0;-1;0;1;0]; eq [0;1;0;-1;0;3]; ge [1;0;0;0;0;0]; ge [0;1;0;0;0;0]; ge [0;0;0;0;1;-1]])] [H_LOOP; H_LOOP].
Definition cr_pr : prog := st_prog (start_state cr_prog).
Lemma cr_input : input_ok cr_prog.
Proof.
  split; [split|].
  - intros st [<-|[<-|[]]]; repeat (split; [first [reflexivity|wf]|]); simpl; intuition (subst; first [wf|reflexivity]).
  - intros d [<-|[]]; (split; [simpl; lia|split; [simpl; lia|split; [wf|split; [reflexivity|split; [wf|reflexivity]]]]]).
  - intros st [<-|[<-|[]]]; (split; [reflexivity|split; [simpl; lia|reflexivity]]).
Qed.

Definition cr_base : cst := match cc_permutability ex_opts cr_pr [0;1] 2 None with Some (b, _) => b | None => universe 0 end.
Definition cr_system : cst * cst := cc_system (fun _ => false) jac_kernel ex_opts EAGER 2 cr_base cr_pr.
Definition cr_asked : cst := Eval vm_compute in
  compact_cst (widen 4 cr_pr) (cst_add (cst_add (fst cr_system) (snd cr_system)) (obj_sum cr_pr 2)).
Definition cr_least : point := [2;1;1;0;0;0; 0;1;0; 0;1;0].

Lemma cr_solve_least : solver_least (solve_one cr_asked cr_least).
Proof.
  apply solve_one_least; [apply memb_ok; reflexivity|]. intros y [L H].
  do 12 (destruct y as [|? y]; [discriminate|]). destruct y; [|discriminate].
  assert (Forall (holds [z; z0; z1; z2; z3; z4; z5; z6; z7; z8; z9; z10]) (rows cr_asked)) as HF by (apply Forall_forall; exact H).
  clear L H. unfold cr_asked in HF. cbn [rows] in HF.
  repeat match goal with HF : Forall _ (_ :: _) |- _ => apply Forall_cons_iff in HF as [? HF] end.
  repeat match goal with HF : Forall _ [] |- _ => clear HF end.
  repeat match goal with H : holds _ _ |- _ => cbv -[Z.add Z.mul Z.le Z.ge] in H end.
  assert (2 <= z) by lia.
  cbn [lexlt]. unfold cr_least.
  assert ([z; z0; z1; z2; z3; z4; z5; z6; z7; z8; z9; z10] = [2;1;1;0;0;0; 0;1;0; 0;1;0] \/
     (z = 2 /\ z0 = 1 /\ z1 = 1 /\ z2 = 0 /\ z3 = 0 /\ z4 = 0 /\ z5 = 0 /\ z6 = 1 /\ z7 = 0 /\ z8 = 0 /\ z9 = 1 /\ z10 = 0) \/
     lexlt [2;1;1;0;0;0; 0;1;0; 0;1;0] [z; z0; z1; z2; z3; z4; z5; z6; z7; z8; z9; z10]) as K.
  { right. cbn [lexlt]. lia. }
  destruct K as [K|[K|K]]; auto. left. destruct K as (-> & -> & -> & -> & -> & -> & -> & -> & -> & -> & -> & ->). reflexivity.
Qed.

(** With a parameter the sums are those of other columns: the hyperplane of S0
    is i, with distance n, and not j, with distance 3. *)
Theorem C93_sum_refuted : exists isl_emptyb kernel solve o mode pr g ccs ncc base m' sol cur ind y,
  solver_least solve /\ wf_prog pr /\ padded pr /\ orig_first pr /\ wf_graph (length (p_stmts pr)) g /\
  ddg_compute_cc (length (p_stmts pr)) g (repeat 0 (length (p_stmts pr))) = (ccs, ncc) /\
  cc_permutability o pr ccs ncc None = Some (base, m') /\ cc_system isl_emptyb kernel o mode ncc base pr = (cur, ind) /\
  cc_solution isl_emptyb kernel solve o mode ncc base pr = Some sol /\
  mem cur y /\ mem ind y /\ zpadding_zero (widen (cc_cols pr ncc) pr) y /\ cc_total pr ncc y 0 < cc_total pr ncc sol 0.
Proof.
  destruct (start_inv cr_prog cr_input) as [I _].
  exists (fun _ => false), jac_kernel, (solve_one cr_asked cr_least), ex_opts, EAGER, cr_pr, (st_adj (start_state cr_prog)), [0;1], 2%nat.
  eexists. eexists. eexists. eexists. eexists. exists [0;0;0;3;0;0; 0;1;0; 1;0;0].
  split; [exact cr_solve_least|]. split; [apply (i_wf _ _ I)|]. split; [apply (i_pad _ _ I)|]. split; [apply (i_orig _ _ I)|].
  split; [apply (i_graph _ _ I)|]. split; [vm_compute; reflexivity|].
  split; [vm_compute; reflexivity|]. split; [vm_compute; reflexivity|]. split; [vm_compute; reflexivity|].
  split; [apply memb_ok; vm_compute; reflexivity|]. split; [apply memb_ok; vm_compute; reflexivity|]. split; [|vm_compute; reflexivity].
  intros s k Hs Hk E. destruct s as [|[|s]]; [| |cbn in Hs; lia]; destruct k as [|[|k]]; try (cbn in Hk; lia); discriminate E.
Qed.
Print Assumptions C93_sum_refuted.

(** S0 (i, j) feeds S1 (i + 1, j); S1 (i, j) feeds all S1 (i + 1, j') and
    S1 (i, j + 1).  After the first hyperplane i the two statements are no longer
    connected, and rows longer than allocated are written. *)
Definition co_prog : prog := mkProg 2 1 [cr_stmt; cr_stmt]
  [ex_dep 0 1 false (mkCst 6 [eq [1;0;-1;0;0;1]; eq [0;1;0;-1;0;0]; ge [1;0;0;0;0;0]; ge [0;1;0;0;0;0]; ge [0;0;0;0;1;-1]]);
   ex_dep 1 1 false (mkCst 6 [eq [1;0;-1;0;0;1]; ge [1;0;0;0;0;0]; ge [0;1;0;0;0;0]; ge [0;0;0;1;0;0]; ge [0;0;0;0;1;-1]]);
   ex_dep 1 1 false (mkCst 6 [eq [1;0;-1;0;0;0]; eq [0;1;0;-1;0;1]; ge [1;0;0;0;0;0]; ge [0;1;0;0;0;0]; ge [0;0;0;0;1;-1]])] [H_LOOP; H_LOOP].
Lemma co_input : input_ok co_prog.
Proof.
  split; [split|].
  - intros st [<-|[<-|[]]]; repeat (split; [first [reflexivity|wf]|]); simpl; intuition (subst; first [wf|reflexivity]).
  - intros d [<-|[<-|[<-|[]]]]; (split; [simpl; lia|split; [simpl; lia|split; [wf|split; [reflexivity|split; [wf|reflexivity]]]]]).
  - intros st [<-|[<-|[]]]; (split; [reflexivity|split; [simpl; lia|reflexivity]]).
Qed.
Definition table_solve (l : list point) (_ : prog) (c : cst) : option point := find (memb c) l.
Lemma table_sound l : solver_sound (table_solve l).
Proof. intros pr c x _ H. apply find_some in H as [_ H]. apply memb_ok. auto. Qed.

Theorem C93_memory_refuted : exists is_emptyb isl_emptyb kernel solve o fuse fuel pr,
  exact_empty is_emptyb /\ solver_sound solve /\ kernel_ok kernel /\ input_ok pr /\
  cc_auto_transform is_emptyb isl_emptyb kernel solve o fuse fuel pr = Some None.
Proof.
  destruct C12_oracle_exists as [f F]. exists (dec_empty f), (fun _ => false), jac_kernel, (table_solve [[0;0;0;1; 0;1;0; 0;1;0]]), ex_opts, MaxFuse, 10%nat, co_prog.
  split; [exact (dec_empty_exact f F)|]. split; [apply table_sound|]. split; [apply jac_kernel_ok|]. split; [exact co_input|]. vm_compute. reflexivity.
Qed.
Print Assumptions C93_memory_refuted.

(** No row is written beyond its memory when the number of components does not
    grow. *)
Theorem C93_memory_partial : forall o pr ccs ncc m,
  (match m with Some g => (cst_width (widen (cc_cols pr ncc) pr) <= g_cols g)%nat | None => True end) ->
  (forall d, In d (p_deps pr) -> (Z.to_nat (nth (d_src d) ccs 0%Z) < ncc)%nat) ->
  exists base m', cc_permutability o pr ccs ncc m = Some (base, m') /\
    (cst_width (widen (cc_cols pr ncc) pr) <= g_cols m')%nat.
Proof.
  intros o pr ccs ncc m Hm RG. set (w := cst_width (widen (cc_cols pr ncc) pr)) in *.
  assert (forall m have n cols, (w <= g_cols m)%nat -> (cols <= w)%nat -> exists m', mem_add m have n cols = Some m' /\ (w <= g_cols m')%nat) as MA.
  { intros m0 have n cols H1 H2. unfold mem_add. destruct (_ <? _)%nat; [eexists; split; [reflexivity|]; cbn [g_cols]; lia|].
    destruct (Nat.ltb_spec (g_cols m0) cols); [lia|]. rewrite andb_false_r. eauto. }
  assert (forall l, (forall d, In d l -> In d (p_deps pr)) -> forall g inc m0, ncols g = w -> (w <= g_cols m0)%nat ->
    exists g' inc' m', fold_left (cc_add_dep o pr ccs ncc) l (Some (g, inc, m0)) = Some (g', inc', m') /\ (w <= g_cols m')%nat) as FO.
  { induction l as [|d l IH]; intros Hl g inc m0 Ng Hc; cbn [fold_left]; [eauto 6|].
    unfold cc_add_dep at 2. destruct (_ || _); [apply IH; auto; intros; apply Hl; simpl; auto|]. cbv zeta.
    destruct (MA m0 (nrows g) (nrows (spread_dep pr ccs ncc d (dep_cst o pr d))) (ncols g) Hc ltac:(lia)) as (m1 & -> & H1).
    destruct (_ && _); apply IH; auto; try (intros; apply Hl; simpl; auto); rewrite ?SimplifyProofs.simplify_ncols; exact Ng. }
  unfold cc_permutability. fold w.
  destruct (FO (p_deps pr) ltac:(auto) (universe w) 0 (cc_alloc o pr w m) eq_refl) as (g & inc & m1 & -> & H1).
  { unfold cc_alloc. destruct m; auto. }
  cbv zeta. match goal with |- context [mem_add m1 ?a ?b w] => destruct (MA m1 a b w H1 (le_n w)) as (m2 & -> & H2) end. eauto.
Qed.
Print Assumptions C93_memory_partial.

(** Whenever the system was built, memory was allocated for all its rows and columns:
    what is written beyond it ends the run. *)
Theorem C93_capacity : forall o pr ccs ncc m base m',
  cc_permutability o pr ccs ncc m = Some (base, m') ->
  (nrows base <= g_rows m')%nat /\ ((0 < nrows base)%nat -> (ncols base <= g_cols m')%nat).
Proof.
  intros o pr ccs ncc m base m' H. set (w := cst_width (widen (cc_cols pr ncc) pr)) in *.
  assert (forall m have n m1, (0 < have -> w <= g_cols m)%nat -> mem_add m have n w = Some m1 ->
    (have + n <= g_rows m1 /\ (0 < have + n -> w <= g_cols m1))%nat) as MA.
  { intros m0 have n m1 H1 H2. unfold mem_add in H2. destruct (Nat.ltb_spec (g_rows m0) (have + n)); [injection H2 as <-; cbn [g_rows g_cols]; lia|].
    destruct (Nat.ltb_spec 0 n), (Nat.ltb_spec (g_cols m0) w); cbn [andb] in H2; try discriminate; injection H2 as <-; lia. }
  assert (forall l g inc m0 g' inc' m1, ncols g = w -> (0 < nrows g -> w <= g_cols m0)%nat ->
    fold_left (cc_add_dep o pr ccs ncc) l (Some (g, inc, m0)) = Some (g', inc', m1) -> ncols g' = w /\ (0 < nrows g' -> w <= g_cols m1)%nat) as FO.
  { induction l as [|d l IH]; intros g inc m0 g' inc' m1 Ng Hc E; cbn [fold_left] in E; [injection E as <- <- <-; auto|].
    unfold cc_add_dep in E at 2. destruct (_ || _) in E; [eapply IH; eauto|]. cbv zeta in E. rewrite Ng in E.
    destruct (mem_add m0 (nrows g) _ w) as [m2|] eqn:E2; [|rewrite cc_fold_none in E; discriminate]. destruct (MA _ _ _ _ Hc E2) as [K1 K2].
    match type of E with context [if ?b then _ else _] => destruct b end; eapply IH; try exact E; rewrite ?SimplifyProofs.simplify_ncols; cbn [cst_add ncols]; auto.
    - intros K. pose proof (SimplifyProofs.simplify_nrows (cst_add g (spread_dep pr ccs ncc d (dep_cst o pr d)))) as L. apply K2. unfold nrows in *. cbn [cst_add rows] in L. rewrite app_length in L. lia.
    - intros K. apply K2. unfold nrows in *. cbn [cst_add rows] in K. rewrite app_length in K. lia. }
  unfold cc_permutability in H. fold w in H.
  destruct (fold_left _ _ _) as [[[g inc] m1]|] eqn:F; [|discriminate]. apply FO in F as [F1 F2]; [|reflexivity|cbn; lia].
  cbv zeta in H. match type of H with context [mem_add m1 ?a ?b w] => destruct (mem_add m1 a b w) as [m2|] eqn:E2 end; [|discriminate]. injection H as <- <-.
  apply MA in E2; [|intros K; apply F2; pose proof (SimplifyProofs.simplify_nrows g); lia]. destruct E2 as [K1 K2].
  unfold nrows in *. cbn [cst_add rows ncols]. rewrite app_length, SimplifyProofs.simplify_ncols, F1. auto.
Qed.
Print Assumptions C93_capacity.

(** The hypotheses are met. *)
Example C93_capacity_met : option_map (fun r => (nrows (fst r), ncols (fst r), g_rows (snd r), g_cols (snd r)))
  (cc_permutability ex_opts cr_prog [0; 1]%Z 2 None) <> None.
Proof. vm_compute. discriminate. Qed.
Example C93_legal_met : exists is_emptyb isl_emptyb kernel solve,
  exact_empty is_emptyb /\ solver_sound solve /\ input_ok cr_prog /\
  option_map (option_map (fun r => (fst r, map (fun s => mrows (s_trans s)) (p_stmts (snd r)))))
    (cc_auto_transform is_emptyb isl_emptyb kernel solve ex_opts MaxFuse 10 cr_prog) =
  Some (Some (0, [[[1; 0; 0; 0]; [0; 1; 0; 0]]; [[1; 0; 0; 0]; [0; 1; 0; 0]]])) /\
  option_map (option_map fst) (cc_auto_transform is_emptyb isl_emptyb kernel (fun _ _ => None) ex_opts MaxFuse 10 cr_prog) = Some (Some 1).
Proof.
  destruct C12_oracle_exists as [f F]. exists (dec_empty f), (fun _ => false), jac_kernel, (table_solve [cr_least; [3;3;0;3;0;0; 1;0;0; 1;0;0]]).
  split; [exact (dec_empty_exact f F)|]. split; [apply table_sound|]. split; [exact cr_input|]. split; vm_compute; reflexivity.
Qed.

(** Two loops without parameters, each with a dependence on itself. *)
Definition cs_dom : cst := mkCst 2 [ge [1;0]].
Definition cs_stmt : stmt := mkStmt 1 1 [true] cs_dom (mkMat 2 [[1;0]]) [H_LOOP] 0 0 [] [] None 0 (-1) (-1).
Definition cs_prog : prog := mkProg 1 0 [cs_stmt; cs_stmt]
  [ex_dep 0 0 false (mkCst 3 [eq [1;-1;1]; ge [1;0;0]]); ex_dep 1 1 false (mkCst 3 [eq [1;-1;2]; ge [1;0;0]])] [H_LOOP].
Definition cs_pr : prog := st_prog (start_state cs_prog).
Lemma cs_input : input_ok cs_prog.
Proof.
  split; [split|].
  - intros st [<-|[<-|[]]]; repeat (split; [first [reflexivity|wf]|]); simpl; intuition (subst; first [wf|reflexivity]).
  - intros d [<-|[<-|[]]]; (split; [simpl; lia|split; [simpl; lia|split; [wf|split; [reflexivity|split; [wf|reflexivity]]]]]).
  - intros st [<-|[<-|[]]]; (split; [reflexivity|split; [simpl; lia|reflexivity]]).
Qed.
Definition cs_base : cst := match cc_permutability ex_opts cs_pr [0;1] 2 None with Some (b, _) => b | None => universe 0 end.
Definition cs_system : cst * cst := cc_system (fun _ => false) jac_kernel ex_opts EAGER 2 cs_base cs_pr.
Definition cs_asked : cst := Eval vm_compute in
  compact_cst (widen 2 cs_pr) (cst_add (cst_add (fst cs_system) (snd cs_system)) (obj_sum cs_pr 2)).
Definition cs_least : point := [3;1;2; 1;0; 1;0].
Lemma cs_solve_least : solver_least (solve_one cs_asked cs_least).
Proof.
  apply solve_one_least; [apply memb_ok; reflexivity|]. intros y [L H].
  do 7 (destruct y as [|? y]; [discriminate|]). destruct y; [|discriminate].
  assert (Forall (holds [z; z0; z1; z2; z3; z4; z5]) (rows cs_asked)) as HF by (apply Forall_forall; exact H).
  clear L H. unfold cs_asked in HF. cbn [rows] in HF.
  repeat match goal with HF : Forall _ (_ :: _) |- _ => apply Forall_cons_iff in HF as [? HF] end.
  repeat match goal with HF : Forall _ [] |- _ => clear HF end.
  repeat match goal with H : holds _ _ |- _ => cbv -[Z.add Z.mul Z.le Z.ge] in H end.
  assert ((z = 3 /\ z0 = 1 /\ z1 = 2 /\ z2 = 1 /\ z3 = 0 /\ z4 = 1 /\ z5 = 0) \/ lexlt cs_least [z; z0; z1; z2; z3; z4; z5]) as K.
  { unfold cs_least. cbn [lexlt]. lia. }
  destruct K as [K|K]; auto. left. destruct K as (-> & -> & -> & -> & -> & -> & ->). reflexivity.
Qed.
Example C93_sum_met : exists isl_emptyb kernel solve base m' cur ind sol,
  solver_least solve /\ wf_prog cs_pr /\ padded cs_pr /\ orig_first cs_pr /\ wf_graph 2 (st_adj (start_state cs_prog)) /\
  ddg_compute_cc 2 (st_adj (start_state cs_prog)) [0;0] = ([0;1], 2%nat) /\ p_npar cs_pr = 0%nat /\
  cc_permutability ex_opts cs_pr [0;1] 2 None = Some (base, m') /\ cc_system isl_emptyb kernel ex_opts EAGER 2 base cs_pr = (cur, ind) /\
  cc_solution isl_emptyb kernel solve ex_opts EAGER 2 base cs_pr = Some sol /\ cc_total cs_pr 2 sol 0 = 3 /\
  mem cur [0;2;4;2;0;2;0] /\ mem ind [0;2;4;2;0;2;0].
Proof.
  destruct (start_inv cs_prog cs_input) as [I _].
  exists (fun _ => false), jac_kernel, (solve_one cs_asked cs_least). do 5 eexists.
  split; [exact cs_solve_least|]. split; [apply (i_wf _ _ I)|]. split; [apply (i_pad _ _ I)|]. split; [apply (i_orig _ _ I)|].
  split; [apply (i_graph _ _ I)|]. split; [vm_compute; reflexivity|]. split; [reflexivity|].
  split; [vm_compute; reflexivity|]. split; [vm_compute; reflexivity|]. split; [vm_compute; reflexivity|]. split; [reflexivity|].
  split; apply memb_ok; vm_compute; reflexivity.
Qed.
