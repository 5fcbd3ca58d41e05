(** * C81 and C82: the file for CLooG, levels, declarations and private variables. *)
From Coq Require Import Ascii String DecimalString ZArith List Bool Arith Lia.
From Verif Require Import SpecLinear SpecMatrix MathModel ConstraintsModel VecProofs MatrixProofs SpecProg ProgModel ProgProofs ExportModel ExportProofs LoopModel
  SpecMark MarkModel SpecLib SpecSolve SolveModel SolveProofs SolveOracles PropSolve SpecCloog CloogModel CloogProofs ExProg PropFramework PropTile PropExport.
Import ListNotations.
Open Scope string_scope.
Open Scope list_scope.
Open Scope Z_scope.

(** ** C81.  The file *)

Lemma flat_map_of {A B C} (f : B -> list C) (g : A -> B) l : flat_map f (map g l) = flat_map (fun a => f (g a)) l.
Proof. induction l; cbn; [auto|]. rewrite IHl. auto. Qed.

Lemma read_count_fmt n t : read_count ([fmt_d (Z.of_nat n)] :: t) = Some (n, t).
Proof.
  unfold read_count. cbn [numbers]. rewrite number_fmt. replace (0 <=? Z.of_nat n) with true by (symmetry; apply Z.leb_le; lia).
  rewrite Nat2Z.id. auto.
Qed.

Lemma read_domain_lines d t : wf_cst d -> read_domain ((union_lines [d] ++ [["0"; "0"; "0"]]) ++ t) = Some ([d], t).
Proof.
  intros W. unfold read_domain. rewrite <- app_assoc, read_union_lines; [reflexivity|discriminate|]. intros c [<-|[]]. auto.
Qed.

Lemma schedule_cst_wf pr st : wf_cols pr st -> wf_cst (stmt_get_schedule st) /\ ncols (stmt_get_schedule st) = (mnrows (s_trans st) + ncols (s_domain st))%nat.
Proof.
  intros (_ & A & B & _ & D & _). destruct (schedule_matrix_spec (s_trans st)) as (C & R & _).
  unfold stmt_get_schedule. rewrite from_equalities_eq by (apply schedule_wf; auto). cbn [ncols]. split; [|lia].
  split; [cbn; lia|]. intros r Hr. cbn [rows ncols] in Hr |- *. apply in_map_iff in Hr as (v & <- & Hv). cbn [coef]. apply schedule_wf; auto.
Qed.

(** What is read from the text for a given context. *)
Lemma read_text version params texts ctx pr :
  one_line version -> Forall plain_word params -> length params = p_npar pr -> Forall one_line texts ->
  list_ok (p_npar pr) ctx -> (forall st, In st (p_stmts pr) -> wf_cols pr st) ->
  read_cloog (cloog_text version params texts ctx pr) =
  Some (mkInput ctx (Some params) (map (fun s => [s_domain (stmt_of pr s)]) (seq 0 (length (p_stmts pr)))) None
         (map (fun s => [stmt_get_schedule (stmt_of pr s)]) (seq 0 (length (p_stmts pr))))
         (if (length (p_stmts pr) =? 0)%nat || (mnrows (s_trans (stmt_of pr 0)) =? 0)%nat then None
          else Some (map loop_name (seq 0 (mnrows (s_trans (stmt_of pr 0))))))).
Proof.
  intros V P L T [N C] W. unfold read_cloog. rewrite file_content by auto. change (negb (String.eqb "c" "c")) with false. cbv iota.
  rewrite read_union_lines by (auto; intros; apply C; auto).
  assert (width ctx - 1 = length params)%nat as Wc.
  { destruct ctx as [|c ctx]; [contradiction|]. cbn. destruct (C c (or_introl eq_refl)) as [_ E]. lia. }
  rewrite Wc. rewrite (read_names_lines 1) by discriminate. rewrite read_count_fmt.
  assert (forall s, In s (seq 0 (length (p_stmts pr))) -> wf_cols pr (stmt_of pr s)) as Ws.
  { intros s Hs. apply in_seq in Hs. apply W, stmt_of_in. lia. }
  replace (flat_map (domain_lines pr) (seq 0 (length (p_stmts pr))))
    with (flat_map (fun d => union_lines d ++ [["0"; "0"; "0"]]) (map (fun s => [s_domain (stmt_of pr s)]) (seq 0 (length (p_stmts pr)))))
    by (rewrite flat_map_of; reflexivity).
  replace (length (p_stmts pr)) with (length (map (fun s => [s_domain (stmt_of pr s)]) (seq 0 (length (p_stmts pr))))) at 1
    by (rewrite map_length, seq_length; auto).
  rewrite (read_many_ok read_domain).
  2:{ intros d u Hd. apply in_map_iff in Hd as (s & <- & Hs). apply read_domain_lines. apply (Ws s Hs). }
  cbn [read_names numbers]. change (number "0") with (Some 0). cbn [Z.eqb]. unfold tail_lines.
  destruct (length (p_stmts pr)) as [|n] eqn:E.
  - reflexivity.
  - cbn [Nat.leb Nat.eqb orb]. rewrite read_count_fmt. cbn [Nat.eqb].
    replace (flat_map (scattering_lines pr) (seq 0 (S n)))
      with (flat_map union_lines (map (fun s => [stmt_get_schedule (stmt_of pr s)]) (seq 0 (S n)))) by (rewrite flat_map_of; reflexivity).
    replace (S n) with (length (map (fun s => [stmt_get_schedule (stmt_of pr s)]) (seq 0 (S n)))) at 1
      by (rewrite map_length, seq_length; auto).
    rewrite (read_many_ok read_union).
    2:{ intros d u Hd. apply in_map_iff in Hd as (s & <- & Hs). apply read_union_lines; [discriminate|]. intros c [<-|[]].
        eapply schedule_cst_wf. apply Ws. auto. }
    assert (first_width (map (fun s => [stmt_get_schedule (stmt_of pr s)]) (seq 0 (S n))) -
            first_width (map (fun s => [s_domain (stmt_of pr s)]) (seq 0 (S n))) = mnrows (s_trans (stmt_of pr 0)))%nat as F.
    { cbn [seq map first_width width]. destruct (schedule_cst_wf pr (stmt_of pr 0)) as [_ ->]; [|lia]. apply Ws. cbn. auto. }
    rewrite F. set (m := mnrows (s_trans (stmt_of pr 0))). destruct (Nat.eqb_spec m 0) as [->|Nm].
    + reflexivity.
    + pose proof (read_names_lines (Z.of_nat m) (map loop_name (seq 0 m)) [] ltac:(lia)) as R.
      rewrite map_length, seq_length, app_nil_r in R. rewrite R. auto.
Qed.

(** The file that CLooG is given describes the program: the parameters that satisfy
    both contexts are allowed, each statement has its domain, the date of an
    iteration is the value of the transformation, and the loops are called t1, t2,
    ... *)
Theorem C81_file : forall rd inter version params texts pctx cctx pr,
  remove_divs_set_ok rd -> isl_op_ok inter and ->
  list_ok (p_npar pr) pctx -> list_ok (p_npar pr) cctx -> (forall c, In c (pctx ++ cctx) -> fits64_cst c) ->
  (forall st, In st (p_stmts pr) -> wf_cols pr st /\ mnrows (s_trans st) = length (p_hprops pr)) ->
  one_line version -> length params = p_npar pr -> Forall plain_word params -> Forall one_line texts ->
  exists file inp, gen_cloog_file rd inter version params texts pctx cctx pr = Some file /\ read_cloog file = Some inp /\
    (let s := inter (p_npar pr) (map bset_from pctx) (map bset_from cctx) in
     (small_uset rd s -> forall p, umem pctx p -> umem cctx p -> umem (in_context inp) p) /\
     (remove_divs_exact rd -> plain_uset s -> forall p, umem (in_context inp) p <-> umem pctx p /\ umem cctx p)) /\
    in_params inp = Some params /\ in_iters inp = None /\
    length (in_domains inp) = length (p_stmts pr) /\ length (in_scattering inp) = length (p_stmts pr) /\
    (forall s, (s < length (p_stmts pr))%nat -> let st := stmt_of pr s in
       (forall x, umem (nth s (in_domains inp) []) x <-> mem (s_domain st) x) /\
       forall i p t, length i = s_dim st -> length p = p_npar pr -> length t = length (p_hprops pr) ->
         (umem (nth s (in_scattering inp) []) (t ++ i ++ p) <-> t = timestamp st i p)) /\
    (p_stmts pr <> [] -> p_hprops pr <> [] -> in_names inp = Some (map loop_name (seq 0 (length (p_hprops pr))))).
Proof.
  intros rd inter version params texts pctx cctx pr R I Lp Lc F W V L P T.
  destruct (C78_intersection_isl rd inter (p_npar pr) pctx cctx R I Lp Lc F) as (ctx & _ & E & OK & A & B).
  unfold gen_cloog_file. rewrite E. cbn [option_map]. eexists. eexists. split; [reflexivity|].
  split; [apply read_text; auto; intros st H; apply W; auto|]. cbn [in_context in_params in_iters in_domains in_scattering in_names].
  split; [split; auto|]. split; [auto|]. split; [auto|]. rewrite !map_length, seq_length. split; [auto|]. split; [auto|].
  assert (forall (c : cst) x, umem [c] x <-> mem c x) as U.
  { intros c x. unfold umem. split; [intros (d & [<-|[]] & M); auto|]. intros M. exists c. split; [left; auto|auto]. }
  split.
  - intros s Hs. set (st := stmt_of pr s).
    rewrite (nth_indep _ [] [s_domain (stmt_of pr 0)]), (List.map_nth (fun s => [s_domain (stmt_of pr s)])), seq_nth
      by (rewrite ?map_length, ?seq_length; auto).
    rewrite (nth_indep _ [] [stmt_get_schedule (stmt_of pr 0)]), (List.map_nth (fun s => [stmt_get_schedule (stmt_of pr s)])), seq_nth
      by (rewrite ?map_length, ?seq_length; auto).
    rewrite Nat.add_0_l. fold st. destruct (W st (stmt_of_in pr s Hs)) as [Wst Nst]. split; [intros x; apply U|].
    intros i p t Li Lpp Lt. rewrite U. apply (C31_schedule_exact pr); auto. lia.
  - intros Ns Nh. destruct (p_stmts pr) as [|st l] eqn:Es; [contradiction|]. 
    assert (mnrows (s_trans (stmt_of pr 0)) = length (p_hprops pr)) as ->.
    { apply W. rewrite <- Es. apply stmt_of_in. rewrite Es. cbn. lia. }
    destruct (p_hprops pr); [contradiction|]. reflexivity.
Qed.
Print Assumptions C81_file.

Definition ex_params := ["N"].
Definition ex_texts := ["a[i][j] = f(a[i-1][j+1], a[i][j-1]);"; "b[i] = a[i][0];"].
Definition ex_ctx := [mkCst 2 [mkRow false [1; -1]]].
Example C81_met : exists file inp,
  gen_cloog_file drop_divs uinter "0.12" ex_params ex_texts ex_ctx ex_ctx ex_prog = Some file /\ read_cloog file = Some inp /\
  remove_divs_exact drop_divs /\ isl_op_ok uinter and /\ list_ok (p_npar ex_prog) ex_ctx /\
  (forall c, In c (ex_ctx ++ ex_ctx) -> fits64_cst c) /\
  (forall st, In st (p_stmts ex_prog) -> wf_cols ex_prog st /\ mnrows (s_trans st) = length (p_hprops ex_prog)) /\
  Forall plain_word ex_params /\ Forall one_line ex_texts /\ (2 <= length (p_stmts ex_prog))%nat /\
  plain_uset (uinter (p_npar ex_prog) (map bset_from ex_ctx) (map bset_from ex_ctx)) /\
  in_params inp = Some ["N"] /\ in_names inp = Some ["t1"; "t2"; "t3"].
Proof.
  assert (O : list_ok (p_npar ex_prog) ex_ctx).
  { split; [discriminate|]. intros c [<-|[]]. split; [|reflexivity]. split; [cbn; lia|]. intros r [<-|[]]; reflexivity. }
  eexists. eexists. split; [vm_compute; reflexivity|]. split; [vm_compute; reflexivity|].
  split; [exact drop_divs_ok|]. split; [exact uinter_ok|]. split; [exact O|].
  split; [intros c [<-|[<-|[]]] r [<-|[]]; cbn; repeat (constructor; [unfold fits64; lia|]); constructor|].
  split; [intros st H; split; [apply ex_core; auto|]; destruct H as [<-|[<-|[]]]; reflexivity|].
  split; [constructor; [split; [discriminate|]; split; reflexivity|constructor]|].
  split; [repeat constructor|]. split; [cbn; lia|].
  split; [|split; reflexivity]. intros b [<-|[]]. split; [reflexivity|].
  intros r [<-|[<-|[]]]; cbn; repeat (constructor; [unfold fits64; lia|]); constructor.
Qed.

(** A line break in the text of a statement ends the comment: the rest of the text
    is read as part of the file. *)
Theorem C81_text_refuted : exists params texts pr,
  Forall plain_word params /\ length params = p_npar pr /\ length texts = length (p_stmts pr) /\
  (forall st, In st (p_stmts pr) -> wf_cols pr st /\ mnrows (s_trans st) = length (p_hprops pr)) /\
  list_ok (p_npar pr) ex_ctx /\
  exists file, gen_cloog_file drop_divs uinter "0.12" params texts ex_ctx ex_ctx pr = Some file /\ read_cloog file = None.
Proof.
  exists ex_params, [("a[i][j] = f(a[i-1][j+1]," ++ nl ++ "             a[i][j-1]);")%string; "b[i] = a[i][0];"], ex_prog.
  split; [constructor; [split; [discriminate|]; split; reflexivity|constructor]|]. split; [reflexivity|]. split; [reflexivity|].
  split; [intros st H; split; [apply ex_core; auto|]; destruct H as [<-|[<-|[]]]; reflexivity|].
  split; [split; [discriminate|]; intros c [<-|[]]; split; [|reflexivity]; split; [cbn; lia|]; intros r [<-|[]]; reflexivity|].
  eexists. split; vm_compute; reflexivity.
Qed.
Print Assumptions C81_text_refuted.

(** ** C81.  The levels for which CLooG optimizes control *)

Lemma first_level_spec P n from : let i := first_level P n from in
  (from <= i <= from + n)%nat /\ (forall k, (from <= k < i)%nat -> P k = false) /\ ((i < from + n)%nat -> P i = true).
Proof.
  revert from. induction n as [|n IH]; intros from; cbn [first_level]; cbv zeta.
  - split; [lia|]. split; [intros; lia|lia].
  - destruct (P from) eqn:E.
    + split; [lia|]. split; [intros; lia|auto].
    + destruct (IH (S from)) as (A & B & C). split; [lia|]. split.
      * intros k Hk. destruct (Nat.eq_dec k from) as [->|]; [auto|]. apply B. lia.
      * intros H. apply C. lia.
Qed.

(** Levels that are given take precedence if both ends are: the options come first,
    then the arguments; a range with one end only is as good as none, and without
    any range and without tiling all levels are optimized. *)
Theorem C81_given : forall optf optl argf argl tile orig pr,
  (1 <= optf -> 1 <= optl -> choose_levels optf optl argf argl tile orig pr = Some (global_levels optf optl)) /\
  (optf < 1 \/ optl < 1 -> 1 <= argf -> 1 <= argl -> choose_levels optf optl argf argl tile orig pr = Some (global_levels argf argl)) /\
  (optf < 1 \/ optl < 1 -> argf < 1 \/ argl < 1 -> tile = false ->
     choose_levels optf optl argf argl tile orig pr = Some (global_levels 1 (Z.of_nat (length (p_hprops pr))))) /\
  (optf < 1 \/ optl < 1 -> argf < 1 \/ argl < 1 -> choose_levels optf optl argf argl tile orig pr = choose_levels (-1) (-1) (-1) (-1) tile orig pr).
Proof.
  intros optf optl argf argl tile orig pr. unfold choose_levels.
  assert (forall a b, a < 1 \/ b < 1 -> (1 <=? a) && (1 <=? b) = false) as K by (intros a b H; destruct (Z.leb_spec 1 a), (Z.leb_spec 1 b); auto; lia).
  assert (forall a b, 1 <= a -> 1 <= b -> (1 <=? a) && (1 <=? b) = true) as T by (intros a b A B; destruct (Z.leb_spec 1 a), (Z.leb_spec 1 b); auto; lia).
  split; [intros A B; rewrite T by auto; auto|]. split; [intros A B C; rewrite (K optf), (T argf) by auto; auto|]. split.
  - intros A B ->. rewrite (K optf), (K argf) by auto. auto.
  - intros A B. rewrite (K optf), (K argf) by auto. auto.
Qed.
Print Assumptions C81_given.
Example C81_given_met : choose_levels 2 (-1) 3 4 true [] (mkProg 0 0 [] [] [H_LOOP]) = Some (global_levels 3 4) /\
  choose_levels 2 3 3 4 true [] (mkProg 0 0 [] [] [H_LOOP]) = Some (global_levels 2 3) /\
  choose_levels 2 (-1) (-1) 4 false [] (mkProg 0 0 [] [] [H_LOOP]) = Some (global_levels 1 1).
Proof. repeat split. Qed.

(** Without options and with tiling, every statement gets a range of levels of the
    code that ends at the last level and starts at the first loop behind its tile
    loops, if there is one. *)
Theorem C81_levels : forall orig pr lv,
  p_hprops pr <> [] ->
  (forall st, In st (p_stmts pr) -> mnrows (s_trans st) = length (p_hprops pr)) ->
  choose_levels (-1) (-1) (-1) (-1) true orig pr = Some lv ->
  exists fs ls, lv = stmt_levels fs ls /\ length fs = length (p_stmts pr) /\ length ls = length (p_stmts pr) /\
  forall s, (s < length (p_stmts pr))%nat -> let st := stmt_of pr s in
    nth s ls 0%nat = length (p_hprops pr) /\ (1 <= nth s fs 0%nat <= length (p_hprops pr))%nat /\
    (nth s orig true = true ->
       forall k, (Z.to_nat (s_ltd st + 1) <= k < length (p_hprops pr))%nat -> nth k (s_hyp st) H_UNKNOWN = H_LOOP ->
         (Z.to_nat (s_ltd st + 1) < nth s fs 0%nat <= k + 1)%nat /\ nth (nth s fs 0%nat - 1) (s_hyp st) H_UNKNOWN = H_LOOP) /\
    (nth s orig true = false ->
       forall k, (k < length (p_hprops pr))%nat -> is_hyperplane_scalar st k = false ->
         (nth s fs 0%nat <= k + 1)%nat /\ is_hyperplane_scalar st (nth s fs 0%nat - 1) = false).
Proof.
  intros orig pr lv NH W H. unfold choose_levels in H. cbn in H.
  destruct (all_first pr orig 0 (p_stmts pr)) as [fs|] eqn:E; [|discriminate H]. injection H as <-.
  exists fs, (map (fun _ => length (p_hprops pr)) (p_stmts pr)). split; [auto|].
  assert (forall l b fs, all_first pr orig b l = Some fs -> length fs = length l /\
            forall s, (s < length l)%nat -> exists f, get_first_point_loop pr (nth (b + s) orig true) (nth s l dummy_stmt) = Some f /\ nth s fs 0%nat = (f + 1)%nat) as A.
  { induction l as [|st l IH]; intros b gs G; cbn [all_first] in G; [injection G as <-; split; [auto|cbn; lia]|].
    destruct (get_first_point_loop pr (nth b orig true) st) as [f|] eqn:F; [|discriminate G].
    destruct (all_first pr orig (S b) l) as [gs'|] eqn:G'; [|discriminate G]. injection G as <-. destruct (IH _ _ G') as [L K].
    split; [cbn; auto|]. intros [|s] Hs; [exists f; rewrite Nat.add_0_r; auto|]. cbn [nth]. replace (b + S s)%nat with (S b + s)%nat by lia. apply K. cbn in Hs. lia. }
  destruct (A _ _ _ E) as [L K]. split; [auto|]. split; [apply map_length|]. intros s Hs st.
  assert (0 < length (p_hprops pr))%nat as NH' by (destruct (p_hprops pr); [contradiction|cbn; lia]).
  split; [rewrite (nth_indep _ 0%nat (length (p_hprops pr))) by (rewrite map_length; auto); rewrite (List.map_nth (fun _ => length (p_hprops pr))); auto|].
  destruct (K s Hs) as (f & F & ->). cbn [Nat.add] in F. fold (stmt_of pr s) in F. fold st in F.
  pose proof (W st (stmt_of_in pr s Hs)) as Wn.
  unfold get_first_point_loop in F. destruct (nth s orig true).
  - destruct (s_ltd st + 1 <? 0) eqn:E0; [discriminate F|]. apply Z.ltb_ge in E0. injection F as F.
    set (from := Z.to_nat (s_ltd st + 1)) in *.
    destruct (first_level_spec (fun k => is_h_loop (nth k (s_hyp st) H_UNKNOWN)) (mnrows (s_trans st) - from) from) as (B1 & B2 & B3).
    set (i := first_level (fun k => is_h_loop (nth k (s_hyp st) H_UNKNOWN)) (mnrows (s_trans st) - from) from) in *.
    destruct (i <? length (p_hprops pr))%nat eqn:Ei; [apply Nat.ltb_lt in Ei|apply Nat.ltb_ge in Ei]; subst f.
    + split; [lia|]. split; [|discriminate]. intros _ k Hk HL. assert (i <= k)%nat.
      { destruct (Nat.le_gt_cases i k); [auto|]. specialize (B2 k ltac:(lia)). cbn beta in B2. rewrite HL in B2. discriminate B2. }
      split; [lia|]. replace (i + 1 - 1)%nat with i by lia. specialize (B3 ltac:(lia)). cbn beta in B3. destruct (nth i (s_hyp st) H_UNKNOWN); try discriminate B3; auto.
    + split; [lia|]. split; [|discriminate]. intros _ k Hk HL. specialize (B2 k ltac:(lia)). cbn beta in B2. rewrite HL in B2. discriminate B2.
  - injection F as F.
    destruct (first_level_spec (fun k => negb (is_hyperplane_scalar st k)) (length (p_hprops pr)) 0) as (B1 & B2 & B3).
    set (i := first_level (fun k => negb (is_hyperplane_scalar st k)) (length (p_hprops pr)) 0) in *.
    destruct (i <? length (p_hprops pr))%nat eqn:Ei; [apply Nat.ltb_lt in Ei|apply Nat.ltb_ge in Ei]; subst f.
    + split; [lia|]. split; [discriminate|]. intros _ k Hk HL. assert (i <= k)%nat.
      { destruct (Nat.le_gt_cases i k); [auto|]. specialize (B2 k ltac:(lia)). cbn beta in B2. rewrite HL in B2. discriminate B2. }
      split; [lia|]. replace (i + 1 - 1)%nat with i by lia. specialize (B3 ltac:(lia)). cbn beta in B3. apply negb_true_iff in B3. auto.
    + split; [lia|]. split; [discriminate|]. intros _ k Hk HL. specialize (B2 k ltac:(lia)). cbn beta in B2. rewrite HL in B2. discriminate B2.
Qed.
Print Assumptions C81_levels.

(** Two tile loops, a scalar level and two point loops. *)
Definition tiled_stmt : stmt := mkStmt 4 2 [false;false;true;true] (mkCst 6 []) 
  (mkMat 6 [[1;0;0;0;0;0]; [0;1;0;0;0;0]; [0;0;0;0;0;7]; [0;0;1;0;0;0]; [0;0;0;1;0;0]])
  [H_TILE_SPACE_LOOP; H_TILE_SPACE_LOOP; H_SCALAR; H_LOOP; H_LOOP] 0 0 [] [] None 2 0 1.
Definition tiled_prog : prog := mkProg 4 1 [tiled_stmt; tiled_stmt] [] [H_TILE_SPACE_LOOP; H_TILE_SPACE_LOOP; H_SCALAR; H_LOOP; H_LOOP].
Example C81_levels_met : p_hprops tiled_prog <> [] /\
  (forall st, In st (p_stmts tiled_prog) -> mnrows (s_trans st) = length (p_hprops tiled_prog)) /\
  choose_levels (-1) (-1) (-1) (-1) true [true; false] tiled_prog = Some (stmt_levels [4; 1] [5; 5])%nat.
Proof. split; [discriminate|]. split; [intros st [<-|[<-|[]]]; reflexivity|reflexivity]. Qed.

(** ** C82.  Declarations *)

Lemma clause_sep a c b : is_sep c = true -> clause_names (a ++ String c b)%string = clause_names a ++ clause_names b.
Proof. intros H. unfold clause_names. rewrite split_at_app by exact H. apply filter_app. Qed.
Lemma clause_comma a b : clause_names (a ++ "," ++ b)%string = clause_names a ++ clause_names b.
Proof. apply clause_sep. reflexivity. Qed.
Lemma clause_comma_blank a b : clause_names (a ++ ", " ++ b)%string = clause_names a ++ clause_names b.
Proof. change (", " ++ b)%string with ("," ++ (" " ++ b))%string. rewrite clause_comma. reflexivity. Qed.
Definition no_sep (w : string) : Prop := w <> "" /\ all_chars (fun c => negb (is_sep c)) w = true.
Lemma clause_word w : no_sep w -> clause_names w = [w].
Proof. intros [N A]. unfold clause_names. rewrite split_at_none by exact A. cbn. destruct (String.eqb_spec w ""); [contradiction|auto]. Qed.
Lemma fmt_no_sep z : all_chars (fun c => negb (is_sep c)) (fmt_d z) = true.
Proof.
  destruct (fmt_numeral z) as (A & _). revert A. apply all_chars_impl. intros c H.
  unfold numeral in H. apply existsb_exists in H as (x & Hx & E). apply Ascii.eqb_eq in E as <-.
  repeat destruct Hx as [<-|Hx]; [reflexivity..|destruct Hx].
Qed.
Lemma affix_no_sep a z b : all_chars (fun c => negb (is_sep c)) a = true -> all_chars (fun c => negb (is_sep c)) b = true -> a <> "" ->
  no_sep (a ++ fmt_d z ++ b)%string.
Proof.
  intros A B N. split; [destruct a; [contradiction|discriminate]|]. rewrite !all_chars_app, A, B, fmt_no_sep. auto.
Qed.
Lemma loop_name_no_sep k : no_sep (loop_name k).
Proof. rewrite <- (sapp_nil (loop_name k)). unfold loop_name. rewrite sapp_assoc. apply affix_no_sep; (reflexivity || discriminate). Qed.

(** The names declared for level [i]. *)
Definition level_names (unroll : nat -> bool) (i : nat) : list string :=
  loop_name i ::
  (if unroll i then [("t" ++ fmt_d (Z.of_nat (i + 1)) ++ "t")%string; ("newlb_t" ++ fmt_d (Z.of_nat (i + 1)))%string; ("newub_t" ++ fmt_d (Z.of_nat (i + 1)))%string]
   else []).

Definition level_text (unroll : nat -> bool) (i : nat) : string :=
  ("t" ++ fmt_d (Z.of_nat (i + 1)) ++
  (if unroll i then ", t" ++ fmt_d (Z.of_nat (i + 1)) ++ "t, newlb_t" ++ fmt_d (Z.of_nat (i + 1)) ++ ", newub_t" ++ fmt_d (Z.of_nat (i + 1))
   else ""))%string.
Lemma level_text_names unroll i : clause_names (level_text unroll i) = level_names unroll i.
Proof.
  unfold level_text, level_names. set (d := fmt_d (Z.of_nat (i + 1))). destruct (unroll i).
  - change (", t" ++ d ++ "t, newlb_t" ++ d ++ ", newub_t" ++ d)%string with (", " ++ ("t" ++ d ++ "t, newlb_t" ++ d ++ ", newub_t" ++ d))%string.
    rewrite <- (sapp_assoc "t" d (", " ++ _)). rewrite clause_comma_blank.
    replace ("t" ++ d ++ "t, newlb_t" ++ d ++ ", newub_t" ++ d)%string with (("t" ++ d ++ "t") ++ ", " ++ (("newlb_t" ++ d) ++ ", " ++ ("newub_t" ++ d)))%string
      by (rewrite !sapp_assoc; reflexivity).
    rewrite !clause_comma_blank. rewrite !clause_word; [reflexivity|..].
    + rewrite <- (sapp_nil d). apply affix_no_sep; (reflexivity || discriminate).
    + rewrite <- (sapp_nil d). apply affix_no_sep; (reflexivity || discriminate).
    + apply affix_no_sep; (reflexivity || discriminate).
    + apply (loop_name_no_sep i).
  - rewrite sapp_nil. rewrite clause_word by apply (loop_name_no_sep i). reflexivity.
Qed.

Lemma iter_decl_rest unroll n b a : (1 <= b)%nat ->
  clause_names (a ++ print_each (iter_decl unroll) (seq b n))%string = clause_names a ++ flat_map (level_names unroll) (seq b n).
Proof.
  revert b a. induction n as [|n IH]; intros b a Hb; [cbn; rewrite sapp_nil, app_nil_r; auto|].
  cbn [seq print_each flat_map]. destruct b as [|b]; [lia|]. unfold iter_decl at 1. cbn [Nat.eqb].
  fold (level_text unroll (S b)). rewrite (sapp_assoc ", "), clause_comma_blank, IH, level_text_names by lia. reflexivity.
Qed.

(** Names that belong to a level. *)
Inductive tag := tag_t | tag_tt | tag_lb | tag_ub.
Definition tagged (x : tag * nat) : string :=
  let d := fmt_d (Z.of_nat (snd x + 1)) in
  match fst x with tag_t => ("t" ++ d) | tag_tt => ("t" ++ d ++ "t") | tag_lb => ("newlb_t" ++ d) | tag_ub => ("newub_t" ++ d) end%string.

Lemma fmt_inj i j : fmt_d i = fmt_d j -> i = j.
Proof. intros H. apply (f_equal number) in H. rewrite !number_fmt in H. congruence. Qed.
Lemma sapp_inj_r a b c : (a ++ c)%string = (b ++ c)%string -> a = b.
Proof.
  revert b. induction a as [|x a IH]; intros [|y b] H; [auto|..].
  - exfalso. apply (f_equal String.length) in H. cbn in H. assert (forall u v, String.length (u ++ v) = (String.length u + String.length v)%nat) as L.
    { induction u; intros v; cbn; [auto|]. rewrite IHu. auto. } rewrite L in H. lia.
  - exfalso. apply (f_equal String.length) in H. cbn in H. assert (forall u v, String.length (u ++ v) = (String.length u + String.length v)%nat) as L.
    { induction u; intros v; cbn; [auto|]. rewrite IHu. auto. } rewrite L in H. lia.
  - cbn in H. injection H as -> H. f_equal. auto.
Qed.
Lemma fmt_not_t i j : fmt_d i <> (fmt_d j ++ "t")%string.
Proof.
  intros H. destruct (fmt_numeral i) as (A & _). rewrite H, all_chars_app in A. apply andb_prop in A as [_ A]. discriminate A.
Qed.
Lemma tagged_inj x y : tagged x = tagged y -> x = y.
Proof.
  destruct x as [a i], y as [b j]. unfold tagged. cbn [fst snd]. intros H.
  assert (fmt_d (Z.of_nat (i + 1)) = fmt_d (Z.of_nat (j + 1)) -> i = j) as E by (intros F; apply fmt_inj in F; lia).
  destruct a, b; cbn [String.append] in H; try discriminate H.
  - injection H as H. f_equal. auto.
  - injection H as H. destruct (fmt_not_t _ _ H).
  - injection H as H. symmetry in H. destruct (fmt_not_t _ _ H).
  - injection H as H. apply sapp_inj_r in H. f_equal. auto.
  - injection H as H. f_equal. auto.
  - injection H as H. f_equal. auto.
Qed.
Definition level_tags (unroll : nat -> bool) (i : nat) : list (tag * nat) :=
  (tag_t, i) :: (if unroll i then [(tag_tt, i); (tag_lb, i); (tag_ub, i)] else []).
Lemma level_names_tags unroll l : flat_map (level_names unroll) l = map tagged (flat_map (level_tags unroll) l).
Proof.
  induction l as [|i l IH]; [reflexivity|]. cbn [flat_map]. rewrite map_app, IH. f_equal. unfold level_names, level_tags. destruct (unroll i); reflexivity.
Qed.
Lemma level_tags_nodup unroll l : NoDup l -> NoDup (flat_map (level_tags unroll) l).
Proof.
  induction 1 as [|i l Hi Hl IH]; [constructor|]. cbn [flat_map].
  assert (forall t, ~ In (t, i) (flat_map (level_tags unroll) l)) as N.
  { intros t H. apply in_flat_map in H as (k & Hk & H). unfold level_tags in H. destruct (unroll k); cbn in H; intuition congruence. }
  unfold level_tags. destruct (unroll i); cbn [app]; repeat constructor; auto; cbn; intros H;
    repeat destruct H as [H|H]; try discriminate H; try (destruct (N _ H)); auto.
Qed.

(** Every variable that the generated code uses is declared, and declared once: the
    loop variables, for unrolled levels the additional ones, the bounds of parallel
    loops and those of vectorized loops. *)
Theorem C82_declared : forall pr unroll parallel,
  let names := flat_map clause_names (declarations pr unroll parallel) in
  NoDup names /\
  (forall k, (k < length (p_hprops pr))%nat -> In (loop_name k) names) /\
  (forall k, (k < length (p_hprops pr))%nat -> unroll k = true ->
     In (loop_name k ++ "t")%string names /\ In ("newlb_" ++ loop_name k)%string names /\ In ("newub_" ++ loop_name k)%string names) /\
  In "lbv" names /\ In "ubv" names /\
  (parallel = true -> forall w, In w ["lb"; "ub"; "lbp"; "ubp"; "lb2"; "ub2"] -> In w names).
Proof.
  intros pr unroll parallel names.
  assert (names = flat_map (level_names unroll) (seq 0 (length (p_hprops pr))) ++ (if parallel then ["lb"; "ub"; "lbp"; "ubp"; "lb2"; "ub2"] else []) ++ ["lbv"; "ubv"]) as E.
  { unfold names, declarations. rewrite !flat_map_app. f_equal.
    - destruct (length (p_hprops pr)) as [|n]; [reflexivity|]. cbn [Nat.leb flat_map]. rewrite app_nil_r. cbn [seq print_each].
      change (iter_decl unroll 0) with (level_text unroll 0). rewrite iter_decl_rest by lia. rewrite level_text_names. reflexivity.
    - destruct parallel; reflexivity. }
  rewrite E. set (rest := (if parallel then ["lb"; "ub"; "lbp"; "ubp"; "lb2"; "ub2"] else []) ++ ["lbv"; "ubv"]).
  assert (In "lbv" rest /\ In "ubv" rest /\ (parallel = true -> forall w, In w ["lb"; "ub"; "lbp"; "ubp"; "lb2"; "ub2"] -> In w rest)) as (R1 & R2 & R3).
  { unfold rest. split; [apply in_or_app; right; cbn; auto|]. split; [apply in_or_app; right; cbn; auto|]. intros -> w Hw. apply in_or_app. auto. }
  split.
  - rewrite level_names_tags.
    assert (NoDup rest) as ND. { unfold rest. destruct parallel; repeat constructor; cbn; intuition discriminate. }
    assert (forall w, In w (map tagged (flat_map (level_tags unroll) (seq 0 (length (p_hprops pr))))) -> ~ In w rest) as DJ.
    { intros w H1 H2. apply in_map_iff in H1 as ([t i] & <- & _). unfold rest in H2. 
      assert (forall w, tagged (t, i) = w -> In w ["lb"; "ub"; "lbp"; "ubp"; "lb2"; "ub2"; "lbv"; "ubv"] -> False) as Q.
      { intros w E' H. cbn [In] in H. repeat destruct H as [H|H]; try contradiction; subst w; destruct t; discriminate H. }
      apply (Q _ eq_refl). destruct parallel; cbn [app In] in H2 |- *; tauto. }
    assert (NoDup (map tagged (flat_map (level_tags unroll) (seq 0 (length (p_hprops pr)))))) as NT.
    { apply FinFun.Injective_map_NoDup; [intros x y; apply tagged_inj|]. apply level_tags_nodup, seq_NoDup. }
    revert NT DJ. generalize (map tagged (flat_map (level_tags unroll) (seq 0 (length (p_hprops pr))))). intros l NT DJ.
    induction NT as [|w l Hw Hl IH]; [exact ND|]. cbn [app]. constructor.
    + intros H. apply in_app_or in H as [H|H]; [auto|]. apply (DJ w); cbn; auto.
    + apply IH. intros; apply DJ; cbn; auto.
  - assert (forall k, (k < length (p_hprops pr))%nat -> forall w, In w (level_names unroll k) -> In w (flat_map (level_names unroll) (seq 0 (length (p_hprops pr))) ++ rest)) as L.
    { intros k Hk w Hw. apply in_or_app. left. apply in_flat_map. exists k. split; [apply in_seq; lia|auto]. }
    split; [intros k Hk; apply (L k Hk); left; auto|]. split.
    + intros k Hk U. assert (level_names unroll k = [loop_name k; (loop_name k ++ "t"); ("newlb_" ++ loop_name k); ("newub_" ++ loop_name k)]%string) as N.
      { unfold level_names. rewrite U. unfold loop_name. rewrite !sapp_assoc. reflexivity. }
      split; [|split]; apply (L k Hk); rewrite N; cbn; auto.
    + split; [apply in_or_app; auto|]. split; [apply in_or_app; auto|]. intros P w Hw. apply in_or_app. auto.
Qed.
Print Assumptions C82_declared.

Example C82_declared_met : flat_map clause_names (declarations ex_prog (fun i => (i =? 1)%nat) true) =
  ["t1"; "t2"; "t2t"; "newlb_t2"; "newub_t2"; "t3"; "lb"; "ub"; "lbp"; "ubp"; "lb2"; "ub2"; "lbv"; "ubv"].
Proof. reflexivity. Qed.

(** The macro of a statement has one parameter for each iterator, in their order. *)
Fixpoint after (c : ascii) (s : string) : string :=
  match s with "" => "" | String x r => if Ascii.eqb x c then r else after c r end.
Fixpoint before (c : ascii) (s : string) : string :=
  match s with "" => "" | String x r => if Ascii.eqb x c then "" else String x (before c r) end.
Lemma before_app c a b : all_chars (fun x => negb (Ascii.eqb x c)) a = true -> before c (a ++ String c b)%string = a.
Proof.
  induction a as [|x a IH]; cbn; intros H; [rewrite Ascii.eqb_refl; auto|]. apply andb_prop in H as [H1 H2]. apply negb_true_iff in H1. rewrite H1, IH; auto.
Qed.
Lemma after_app c a b : all_chars (fun x => negb (Ascii.eqb x c)) a = true -> after c (a ++ String c b)%string = b.
Proof.
  induction a as [|x a IH]; cbn; intros H; [rewrite Ascii.eqb_refl; auto|]. apply andb_prop in H as [H1 H2]. apply negb_true_iff in H1. rewrite H1, IH; auto.
Qed.
Lemma fmt_no_paren z : all_chars (fun x => negb (Ascii.eqb x "(")) (fmt_d z) = true.
Proof.
  destruct (fmt_numeral z) as (A & _). revert A. apply all_chars_impl. intros c H.
  unfold numeral in H. apply existsb_exists in H as (x & Hx & E). apply Ascii.eqb_eq in E as <-.
  repeat destruct Hx as [<-|Hx]; [reflexivity..|destruct Hx].
Qed.
Theorem C82_macro : forall id iters body,
  (forall w, In w iters -> no_sep w /\ all_chars (fun x => negb (Ascii.eqb x ")")) w = true) ->
  let m := gen_stmt_macro id iters body in
  before "(" m = ("#define S" ++ decimal (Z.of_nat (id + 1)))%string /\
  clause_names (before ")" (after "(" m)) = iters /\
  after ")" (after "(" m) = (String "009" body ++ nl)%string.
Proof.
  intros id iters body H m. unfold m, gen_stmt_macro.
  set (d := fmt_d (Z.of_nat (id + 1))).
  replace ("#define S" ++ d ++ "(" ++ macro_args iters ++ ")" ++ String "009" "" ++ body ++ nl)%string
    with (("#define S" ++ d) ++ String "(" (macro_args iters ++ String ")" (String "009" body ++ nl)))%string by (rewrite sapp_assoc; reflexivity).
  assert (all_chars (fun x => negb (Ascii.eqb x "(")) ("#define S" ++ d) = true) as A by (rewrite all_chars_app; apply fmt_no_paren).
  assert (all_chars (fun x => negb (Ascii.eqb x ")")) (macro_args iters) = true) as B.
  { destruct iters as [|w l]; [reflexivity|]. cbn [macro_args]. rewrite all_chars_app. apply andb_true_intro. split; [apply H; cbn; auto|].
    assert (forall v, In v l -> all_chars (fun x => negb (Ascii.eqb x ")")) v = true) as K by (intros v Hv; apply H; cbn; auto).
    clear -K. induction l as [|v l IH]; [reflexivity|]. cbn [print_each]. rewrite sapp_assoc, !all_chars_app, (K v), IH; cbn; auto. intros; apply K; cbn; auto. }
  rewrite before_app, after_app by exact A. rewrite before_app, after_app by exact B.
  split; [reflexivity|]. split; [|reflexivity]. destruct iters as [|w l]; [reflexivity|]. cbn [macro_args].
  assert (forall v, In v (w :: l) -> no_sep v) as K by (intros v Hv; apply H; auto). clear -K.
  assert (forall l a, (forall v, In v l -> no_sep v) -> clause_names (a ++ print_each (fun v => "," ++ v) l)%string = clause_names a ++ l) as G.
  { clear. induction l as [|v l IH]; intros a K; [cbn; rewrite sapp_nil, app_nil_r; auto|]. cbn [print_each]. rewrite sapp_assoc, clause_comma, IH by (intros; apply K; cbn; auto).
    rewrite (clause_word v) by (apply K; cbn; auto). reflexivity. }
  rewrite G by (intros; apply K; cbn; auto). rewrite (clause_word w) by (apply K; cbn; auto). reflexivity.
Qed.
Print Assumptions C82_macro.
Example C82_macro_met : gen_stmt_macro 1 ["i"; "j"] "b[i] = a[j];" = ("#define S2(i,j)" ++ String "009" "b[i] = a[j];" ++ nl)%string /\
  clause_names (before ")" (after "(" (gen_stmt_macro 1 ["i"; "j"] "b[i] = a[j];"))) = ["i"; "j"].
Proof. split; reflexivity. Qed.

(** ** C82.  Private variables *)

Lemma private_vars_in pr lp k : In k (private_vars pr lp) <-> (l_depth lp < k < max_depth pr lp)%nat.
Proof. unfold private_vars. rewrite in_seq. lia. Qed.

Lemma max_depth_le pr lp m : (forall s, In s (l_stmts lp) -> (mnrows (s_trans (stmt_of pr s)) <= m)%nat) -> (max_depth pr lp <= m)%nat.
Proof.
  unfold max_depth. assert (0 <= m)%nat as Z by lia. revert Z. generalize 0%nat. induction (l_stmts lp) as [|s l IH]; intros b Hb H; [auto|].
  cbn [fold_left]. apply IH; [|intros; apply H; cbn; auto]. pose proof (H s (or_introl eq_refl)). destruct (_ <? _)%nat; auto.
Qed.

(** The private clause of a parallel loop names exactly the bounds of vectorized
    loops and the variables of all deeper loops, never the loop's own variable or one
    of an enclosing loop; all of them are declared. *)
Theorem C82_private : forall pr lp s unroll parallel,
  mark_private pr lp = Some s ->
  (forall t, In t (l_stmts lp) -> (mnrows (s_trans (stmt_of pr t)) <= length (p_hprops pr))%nat) ->
  clause_names s = "lbv" :: "ubv" :: map loop_name (private_vars pr lp) /\
  (forall k, In (loop_name k) (clause_names s) <-> (l_depth lp < k < max_depth pr lp)%nat) /\
  forall w, In w (clause_names s) -> In w (flat_map clause_names (declarations pr unroll parallel)).
Proof.
  intros pr lp s unroll parallel H W. unfold mark_private in H. destruct (_ <? _)%nat; [|discriminate H]. apply (f_equal (fun o => match o with Some u => u | None => s end)) in H. subst s.
  assert (forall l a, clause_names (a ++ print_each (fun d => ",t" ++ fmt_d (Z.of_nat (d + 1))) l)%string = clause_names a ++ map loop_name l) as G.
  { induction l as [|k l IH]; intros a; [cbn; rewrite sapp_nil, app_nil_r; auto|]. cbn [print_each map].
    change (",t" ++ fmt_d (Z.of_nat (k + 1)))%string with ("," ++ loop_name k)%string.
    rewrite sapp_assoc, clause_comma, IH, (clause_word (loop_name k)) by apply loop_name_no_sep. reflexivity. }
  rewrite G. change (clause_names "lbv,ubv") with ["lbv"; "ubv"]. split; [reflexivity|].
  destruct (C82_declared pr unroll parallel) as (_ & D & _ & D1 & D2 & _). split.
  - intros k. rewrite <- (private_vars_in pr lp k). split.
    + intros H. apply in_app_or in H as [H|H]; [unfold loop_name in H; cbn in H; destruct H as [H|[H|[]]]; discriminate H|].
      apply in_map_iff in H as (j & E & Hj). apply (tagged_inj (tag_t, j) (tag_t, k)) in E. injection E as ->. auto.
    + intros H. apply in_or_app. right. apply in_map. auto.
  - intros w H. apply in_app_or in H as [H|H]; [cbn in H; destruct H as [<-|[<-|[]]]; auto|].
    apply in_map_iff in H as (j & <- & Hj). apply D. apply private_vars_in in Hj. pose proof (max_depth_le pr lp _ W). lia.
Qed.
Print Assumptions C82_private.

Lemma print_each_length {A} (f : A -> string) c l : (forall a, In a l -> (String.length (f a) <= c)%nat) -> (String.length (print_each f l) <= c * length l)%nat.
Proof.
  assert (forall u v, String.length (u ++ v)%string = (String.length u + String.length v)%nat) as L.
  { induction u; intros v; cbn; [auto|]. rewrite IHu. auto. }
  induction l as [|a l IH]; intros H; [cbn; lia|]. cbn [print_each length]. rewrite L. specialize (IH ltac:(intros; apply H; cbn; auto)). specialize (H a (or_introl eq_refl)). lia.
Qed.

(** The buffers are large enough for up to 100 and up to 30 levels. *)
Theorem C82_buffers : forall pr lp vloops,
  ((max_depth pr lp <= 100)%nat -> mark_private pr lp <> None) /\
  ((max_depth pr lp <= 30)%nat -> osl_private pr vloops lp <> None).
Proof.
  intros pr lp vloops.
  assert (forall u v, String.length (u ++ v)%string = (String.length u + String.length v)%nat) as L.
  { induction u; intros v; cbn; [auto|]. rewrite IHu. auto. }
  assert (forall n c, forallb (fun d => (String.length (fmt_d (Z.of_nat (d + 1))) <=? c)%nat) (seq 0 n) = true ->
            forall d, (d < n)%nat -> (String.length (fmt_d (Z.of_nat (d + 1))) <= c)%nat) as B.
  { intros n c H d Hd. rewrite forallb_forall in H. apply Nat.leb_le. apply H. apply in_seq. lia. }
  assert (forall k, In k (private_vars pr lp) -> (k < max_depth pr lp)%nat) as K by (intros k Hk; apply private_vars_in in Hk; lia).
  split; intros M.
  - unfold mark_private. pose proof (print_each_length (fun d => ",t" ++ fmt_d (Z.of_nat (d + 1)))%string 5 (private_vars pr lp)) as Q.
    specialize (Q ltac:(intros a Ha; cbv beta; rewrite L; cbn [String.length Nat.add]; pose proof (B 100%nat 3%nat eq_refl a ltac:(specialize (K a Ha); lia)); lia)).
    assert (length (private_vars pr lp) <= 99)%nat by (unfold private_vars; rewrite seq_length; lia).
    rewrite (proj2 (Nat.ltb_lt _ _)); [discriminate|]. rewrite L. cbn [String.length]. lia.
  - unfold osl_private. pose proof (print_each_length (fun d => "t" ++ fmt_d (Z.of_nat (d + 1)) ++ ",")%string 4 (private_vars pr lp)) as Q.
    specialize (Q ltac:(intros a Ha; cbv beta; rewrite !L; cbn [String.length Nat.add]; pose proof (B 30%nat 2%nat eq_refl a ltac:(specialize (K a Ha); lia)); lia)).
    assert (length (private_vars pr lp) <= 29)%nat by (unfold private_vars; rewrite seq_length; lia).
    rewrite (proj2 (Nat.ltb_lt _ _)); [discriminate|]. rewrite L. destruct vloops; cbn [String.length]; lia.
Qed.
Print Assumptions C82_buffers.

Definition ex_loop : ploop := mkPloop 0 [0; 1]%nat.
Example C82_private_met : mark_private ex_prog ex_loop = Some "lbv,ubv,t2,t3" /\ (max_depth ex_prog ex_loop <= 30)%nat /\
  (forall t, In t (l_stmts ex_loop) -> (mnrows (s_trans (stmt_of ex_prog t)) <= length (p_hprops ex_prog))%nat).
Proof. split; [reflexivity|]. split; [vm_compute; lia|]. intros t [<-|[<-|[]]]; cbn; lia. Qed.

(** The list written to an OpenScop file is right if no loop is vectorized. *)
Lemma drop_last_comma a : drop_last (a ++ ",")%string = a.
Proof. induction a as [|c a IH]; [reflexivity|]. cbn [String.append drop_last]. rewrite IH. destruct (a ++ ",")%string eqn:E; [destruct a; discriminate E|]. auto. Qed.

Lemma osl_list pre l : l <> [] ->
  drop_last (pre ++ print_each (fun d => "t" ++ fmt_d (Z.of_nat (d + 1)) ++ ",") l)%string =
  (pre ++ match l with [] => "" | k :: l' => loop_name k ++ print_each (fun d => "," ++ loop_name d) l' end)%string.
Proof.
  destruct l as [|k l]; [contradiction|]. intros _.
  assert (forall l k pre, (pre ++ print_each (fun d => "t" ++ fmt_d (Z.of_nat (d + 1)) ++ ",") (k :: l) = (pre ++ loop_name k ++ print_each (fun d => "," ++ loop_name d) l) ++ ",")%string) as G.
  { induction l0 as [|j l0 IH]; intros k0 pre0.
    - cbn [print_each]. rewrite !sapp_nil. unfold loop_name. rewrite !sapp_assoc. reflexivity.
    - cbn [print_each]. rewrite <- (sapp_assoc pre0 ("t" ++ _ ++ ",")%string). change (("t" ++ fmt_d (Z.of_nat (j + 1)) ++ ",") ++ print_each (fun d => "t" ++ fmt_d (Z.of_nat (d + 1)) ++ ",") l0)%string with (print_each (fun d => "t" ++ fmt_d (Z.of_nat (d + 1)) ++ ",") (j :: l0))%string.
      rewrite IH. unfold loop_name at 1 4. rewrite !sapp_assoc. reflexivity. }
  rewrite G, drop_last_comma. reflexivity.
Qed.

Lemma osl_names pre k l : clause_names (pre ++ loop_name k ++ print_each (fun d => "," ++ loop_name d) l)%string = clause_names (pre ++ loop_name k)%string ++ map loop_name l.
Proof.
  rewrite <- sapp_assoc. generalize (pre ++ loop_name k)%string. induction l as [|j l IH]; intros a; [cbn; rewrite sapp_nil, app_nil_r; auto|].
  cbn [print_each map]. rewrite sapp_assoc, clause_comma, IH, (clause_word (loop_name j)) by apply loop_name_no_sep. reflexivity.
Qed.

Theorem C82_openscop_private_partial : forall pr lp s, osl_private pr false lp = Some s -> clause_names s = map loop_name (private_vars pr lp).
Proof.
  intros pr lp s H. unfold osl_private in H. destruct (_ <? _)%nat; [|discriminate H]. apply (f_equal (fun o => match o with Some u => u | None => s end)) in H. subst s.
  destruct (private_vars pr lp) as [|k l]; [reflexivity|]. rewrite osl_list by discriminate. rewrite (osl_names "" k l).
  cbn [String.append]. rewrite (clause_word (loop_name k)) by apply loop_name_no_sep. reflexivity.
Qed.
Print Assumptions C82_openscop_private_partial.
Example C82_openscop_met : osl_private ex_prog false ex_loop = Some "t2,t3".
Proof. reflexivity. Qed.

(** With vectorized loops the separator after "lbv, ubv" is missing: neither ubv nor
    the variable of the next deeper loop is private. *)
Theorem C82_openscop_private_refuted : forall pr lp s, osl_private pr true lp = Some s ->
  ~ In "ubv" (clause_names s) /\ ((S (l_depth lp) < max_depth pr lp)%nat -> ~ In (loop_name (S (l_depth lp))) (clause_names s)).
Proof.
  intros pr lp s H. unfold osl_private in H. destruct (_ <? _)%nat; [|discriminate H]. apply (f_equal (fun o => match o with Some u => u | None => s end)) in H. subst s.
  unfold private_vars. destruct (max_depth pr lp - S (l_depth lp))%nat as [|n] eqn:E.
  - split; [|lia]. cbn. intuition discriminate.
  - cbn [seq]. set (k := S (l_depth lp)). rewrite osl_list by discriminate. rewrite (osl_names "lbv, ubv" k).
    assert (clause_names ("lbv, ubv" ++ loop_name k)%string = ["lbv"; ("ubv" ++ loop_name k)%string]) as ->.
    { change ("lbv, ubv" ++ loop_name k)%string with ("lbv" ++ ", " ++ ("ubv" ++ loop_name k))%string. rewrite clause_comma_blank.
      change (clause_names "lbv") with ["lbv"]. rewrite (clause_word ("ubv" ++ loop_name k)%string); [reflexivity|]. destruct (loop_name_no_sep k) as [_ A]. split; [discriminate|]. rewrite all_chars_app, A. reflexivity. }
    split.
    + intros H. cbn [app In] in H. destruct H as [H|[H|H]]; [discriminate H| |].
      * cbn in H. discriminate H.
      * apply in_map_iff in H as (j & H & _). discriminate H.
    + intros _ H. cbn [app In] in H. destruct H as [H|[H|H]]; [discriminate H|discriminate H|].
      apply in_map_iff in H as (j & H & Hj). apply (tagged_inj (tag_t, j) (tag_t, k)) in H. injection H as ->. apply in_seq in Hj. lia.
Qed.
Print Assumptions C82_openscop_private_refuted.
Example C82_openscop_refuted_met : osl_private ex_prog true ex_loop = Some "lbv, ubvt2,t3".
Proof. reflexivity. Qed.
