(** * Theorems: editing of programs and schedules (C28, C35-C38, C51-C53). *)
From Coq Require Import ZArith List Bool Lia Arith Permutation.
From Verif Require Import SpecLinear MathModel ConstraintsModel VecProofs EditProofs MatrixProofs SpecProg
  ProgModel LexProofs ProgProofs Checkers ExProg PropFramework.
Import ListNotations.
Open Scope Z_scope.

(** ** C35 *)
Theorem C35_add_dim_statement : forall pr sid pos tp ht,
  wf_shapes pr -> (sid < length (p_stmts pr))%nat -> (pos <= s_dim (stmt_of pr sid))%nat ->
  match tp with None => True | Some k => (k <= mnrows (s_trans (stmt_of pr sid)))%nat end ->
  let pr' := stmt_add_dim pr sid pos tp ht in
  let st := stmt_of pr sid in
  let st' := stmt_of pr' sid in
  length (p_stmts pr') = length (p_stmts pr) /\
  (forall s, s <> sid -> stmt_of pr' s = stmt_of pr s) /\
  s_dim st' = S (s_dim st) /\ s_orig st' = insert_at pos true (s_orig st) /\
  (forall i p v, length i = s_dim st -> length p = p_npar pr ->
     (iteration st' (insert_at pos v i) p <-> iteration st i p) /\
     timestamp st' (insert_at pos v i) p =
       match tp with None => timestamp st i p | Some k => insert_at k v (timestamp st i p) end /\
     map (access_val (insert_at pos v i) p) (s_reads st') = map (access_val i p) (s_reads st) /\
     map (access_val (insert_at pos v i) p) (s_writes st') = map (access_val i p) (s_writes st)) /\
  wf_shapes pr'.
Proof.
  intros pr sid pos tp ht W Hs Hpos Htp pr' st st'.
  assert (st' = stmt_add_dim1 pos tp ht st) as E.
  { unfold st', pr'. rewrite add_dim_stmt by auto. rewrite Nat.eqb_refl. auto. }
  destruct (proj1 W _ (stmt_of_in pr sid Hs)) as (A & B & C & D & F & G). fold st in A, B, C, D, F, G.
  split; [apply add_dim_len|]. split.
  { intros s Hn. unfold pr'. rewrite add_dim_stmt by auto. apply Nat.eqb_neq in Hn. rewrite Hn. auto. }
  rewrite E. split; [reflexivity|]. split; [reflexivity|]. split.
  - intros i p v Hi Hp. split; [|split; [|split]].
    + unfold iteration. cbn [stmt_add_dim1 s_dim s_domain]. rewrite insert_at_length.
      rewrite <- insert_at_app by (fold st in Hpos; lia).
      rewrite add_dim_mem by (auto; rewrite app_length; fold st in Hpos; lia).
      split; intros [X Y]; split; auto.
    + apply (add_dim_timestamp (p_npar pr)); auto.
    + cbn. rewrite map_map. apply map_ext_in. intros a Ha. destruct (G a). apply in_app_iff; auto.
      apply (access_ins (p_npar pr) (s_dim st)); auto.
    + cbn. rewrite map_map. apply map_ext_in. intros a Ha. destruct (G a). apply in_app_iff; auto.
      apply (access_ins (p_npar pr) (s_dim st)); auto.
  - apply add_dim_wf_prog; auto.
Qed.
Print Assumptions C35_add_dim_statement.

Theorem C35_add_dim_dependences : forall pr sid pos tp ht k d,
  wf_shapes pr -> (sid < length (p_stmts pr))%nat -> (pos <= s_dim (stmt_of pr sid))%nat ->
  match tp with None => True | Some k => (k <= mnrows (s_trans (stmt_of pr sid)))%nat end ->
  nth_error (p_deps pr) k = Some d ->
  exists d', nth_error (p_deps (stmt_add_dim pr sid pos tp ht)) k = Some d' /\
    d_src d' = d_src d /\ d_dst d' = d_dst d /\ d_rar d' = d_rar d /\ d_sat d' = d_sat d /\
    forall s t p v w, length s = s_dim (stmt_of pr (d_src d)) -> length t = s_dim (stmt_of pr (d_dst d)) ->
      (instance (stmt_add_dim pr sid pos tp ht) d' (widen sid pos (d_src d) v s) (widen sid pos (d_dst d) w t) p
         <-> instance pr d s t p) /\
      (mem (d_bpoly d') (widen sid pos (d_src d) v s ++ widen sid pos (d_dst d) w t ++ p)
         <-> mem (d_bpoly d) (s ++ t ++ p)).
Proof.
  intros pr sid pos tp ht k d W Hs Hpos Htp Hk.
  exists (dep_add_dim sid pos (p_stmts (stmt_add_dim pr sid pos tp ht)) d). split.
  - cbn. rewrite nth_error_map, Hk. reflexivity.
  - assert (forall P : dep -> Prop, (forall c b, P (set_polys d c b)) -> P d -> P (dep_add_dim sid pos (p_stmts (stmt_add_dim pr sid pos tp ht)) d)) as X.
    { intros P H1 H2. unfold dep_add_dim. destruct (d_src d =? sid)%nat, (d_dst d =? sid)%nat; auto; apply (H1 _ _). }
    split; [apply (X (fun d' => d_src d' = d_src d)); auto|].
    split; [apply (X (fun d' => d_dst d' = d_dst d)); auto|].
    split; [apply (X (fun d' => d_rar d' = d_rar d)); auto|].
    split; [apply (X (fun d' => d_sat d' = d_sat d)); auto|].
    intros s t p v w Ls Lt. apply add_dim_instance; auto. apply (proj2 W). eapply nth_error_In; eauto.
Qed.
Print Assumptions C35_add_dim_dependences.

Example C35_witness :
  wf_shapes ex_prog /\ (0 < length (p_stmts ex_prog))%nat /\ (1 <= s_dim (stmt_of ex_prog 0))%nat /\
  iteration (stmt_of (stmt_add_dim ex_prog 0 1 (Some 2%nat) H_TILE_SPACE_LOOP) 0) [3; 7; 4] [10] /\
  timestamp (stmt_of (stmt_add_dim ex_prog 0 1 (Some 2%nat) H_TILE_SPACE_LOOP) 0) [3; 7; 4] [10] = [3; 7; 7; 0] /\
  instance (stmt_add_dim ex_prog 0 1 None H_LOOP)
    (nth 0 (p_deps (stmt_add_dim ex_prog 0 1 None H_LOOP)) (ex_dep 0 0 false ex_d0)) [3; 100; 4] [4; -100; 3] [10].
Proof.
  split; [apply wf_prog_shapes, ex_prog_ok|]. split; [simpl; lia|]. split; [simpl; lia|].
  split; [split; [reflexivity|inset]|]. split; [reflexivity|].
  split; [reflexivity|]. split; [reflexivity|]. split; [reflexivity|inset].
Qed.

(** ** C36 *)
(** Everything is restored except the bounding polyhedra of the dependences of
    the statement, which keep the additional columns. *)
Theorem C36_remove_added_dim_partial : forall pr sid pos ht,
  wf_shapes pr -> (sid < length (p_stmts pr))%nat -> (pos <= s_dim (stmt_of pr sid))%nat ->
  let pr' := stmt_remove_dim (stmt_add_dim pr sid pos None ht) sid pos in
  p_stmts pr' = p_stmts pr /\ p_nvar pr' = p_nvar pr /\ p_npar pr' = p_npar pr /\ p_hprops pr' = p_hprops pr /\
  forall k d, nth_error (p_deps pr) k = Some d -> exists d', nth_error (p_deps pr') k = Some d' /\
    d' = mkDep (d_src d) (d_dst d) (d_rar d) (d_poly d) (d_bpoly d') (d_sat d) (d_level d) (d_satvec d) (d_dirs d) /\
    (d_src d <> sid -> d_dst d <> sid -> d' = d).
Proof.
  intros pr sid pos ht W Hs Hpos pr'. unfold pr'. rewrite remove_add_prog by auto. cbn [p_stmts p_nvar p_npar p_hprops p_deps].
  repeat (split; [reflexivity|]). intros k d Hk. rewrite nth_error_map, Hk. cbn [option_map]. eexists. split; [reflexivity|].
  split; [reflexivity|]. intros H1 H2. apply Nat.eqb_neq in H1, H2. unfold dep_add_dim. rewrite H1, H2.
  destruct d; reflexivity.
Qed.
Print Assumptions C36_remove_added_dim_partial.

Theorem C36_bounding_refuted : exists pr sid pos ht k d d',
  wf_shapes pr /\ (sid < length (p_stmts pr))%nat /\ (pos <= s_dim (stmt_of pr sid))%nat /\
  nth_error (p_deps pr) k = Some d /\
  nth_error (p_deps (stmt_remove_dim (stmt_add_dim pr sid pos None ht) sid pos)) k = Some d' /\
  d_bpoly d' <> d_bpoly d /\ ncols (d_bpoly d') <> ncols (d_poly d').
Proof.
  exists ex_prog, 0%nat, 1%nat, H_LOOP, 2%nat. eexists. eexists.
  split; [apply wf_prog_shapes, ex_prog_ok|]. split; [simpl; lia|]. split; [simpl; lia|].
  split; [reflexivity|]. split; [reflexivity|]. split; vm_compute; congruence.
Qed.
Print Assumptions C36_bounding_refuted.

(** ** C37 *)
Theorem C37_add_param_partial : forall pr pos,
  wf_shapes pr -> (pos <= p_npar pr)%nat ->
  let pr' := prog_add_param pr pos in
  p_npar pr' = S (p_npar pr) /\ length (p_stmts pr') = length (p_stmts pr) /\
  (forall s i p v, (s < length (p_stmts pr))%nat -> length i = s_dim (stmt_of pr s) -> length p = p_npar pr ->
     (iteration (stmt_of pr' s) i (insert_at pos v p) <-> iteration (stmt_of pr s) i p) /\
     timestamp (stmt_of pr' s) i (insert_at pos v p) = timestamp (stmt_of pr s) i p /\
     map (access_val i (insert_at pos v p)) (s_reads (stmt_of pr' s)) = map (access_val i p) (s_reads (stmt_of pr s)) /\
     map (access_val i (insert_at pos v p)) (s_writes (stmt_of pr' s)) = map (access_val i p) (s_writes (stmt_of pr s))) /\
  (forall k d, nth_error (p_deps pr) k = Some d -> exists d', nth_error (p_deps pr') k = Some d' /\
     d_src d' = d_src d /\ d_dst d' = d_dst d /\
     forall s t p v, length p = p_npar pr -> (instance pr' d' s t (insert_at pos v p) <-> instance pr d s t p)).
Proof.
  intros pr pos W Hpos pr'. split; [reflexivity|]. split; [cbn; apply map_length|]. split.
  - intros s i p v Hs Hi Hp. unfold pr'. rewrite add_param_stmt by auto.
    destruct (proj1 W _ (stmt_of_in pr s Hs)) as (A & B & C & D & F & G).
    split; [|split; [|split]].
    + unfold iteration. rewrite add_param_dom by auto. reflexivity.
    + apply add_param_time; auto.
    + cbn. rewrite map_map. apply map_ext_in. intros a Ha. destruct (G a). apply in_app_iff; auto.
      apply (add_param_acc (p_npar pr)); auto.
    + cbn. rewrite map_map. apply map_ext_in. intros a Ha. destruct (G a). apply in_app_iff; auto.
      apply (add_param_acc (p_npar pr)); auto.
  - intros k d Hk. eexists. split; [cbn; rewrite nth_error_map, Hk; reflexivity|].
    split; [reflexivity|]. split; [reflexivity|]. intros s t p v Hp. apply add_param_instance; auto.
    apply (proj2 W). eapply nth_error_In; eauto.
Qed.
Print Assumptions C37_add_param_partial.

(** The bounding polyhedra are not extended. *)
Theorem C37_bounding_refuted : exists pr pos k d d',
  wf_shapes pr /\ (pos <= p_npar pr)%nat /\ nth_error (p_deps pr) k = Some d /\
  nth_error (p_deps (prog_add_param pr pos)) k = Some d' /\
  ncols (d_bpoly d') <> ncols (d_poly d') /\
  exists s t p v, mem (d_bpoly d) (s ++ t ++ p) /\ ~ mem (d_bpoly d') (s ++ t ++ insert_at pos v p).
Proof.
  exists ex_prog, 0%nat, 0%nat. eexists. eexists.
  split; [apply wf_prog_shapes, ex_prog_ok|]. split; [simpl; lia|]. split; [reflexivity|]. split; [reflexivity|].
  split; [vm_compute; congruence|]. exists [3; 4], [4; 3], [10], 0. split; inset.
Qed.
Print Assumptions C37_bounding_refuted.

(** ** C38 *)
(** [renum]: statements after the removed one move up by one. *)
Theorem C38_remove_stmt_partial : forall pr sid,
  wf_shapes pr -> (sid < length (p_stmts pr))%nat ->
  let pr' := remove_stmt pr sid in
  let new s := if (sid <? s)%nat then (s - 1)%nat else s in
  p_stmts pr' = firstn sid (p_stmts pr) ++ skipn (S sid) (p_stmts pr) /\
  remove_stmt_ids pr sid = seq 0 (length (p_stmts pr')) /\
  length (p_deps pr') = length (p_deps pr) /\
  (forall k d, nth_error (p_deps pr) k = Some d -> d_src d <> sid -> d_dst d <> sid ->
     exists d', nth_error (p_deps pr') k = Some d' /\ d_src d' = new (d_src d) /\ d_dst d' = new (d_dst d) /\
       stmt_of pr' (d_src d') = stmt_of pr (d_src d) /\ stmt_of pr' (d_dst d') = stmt_of pr (d_dst d) /\
       forall s t p, instance pr' d' s t p <-> instance pr d s t p).
Proof.
  intros pr sid W Hs pr' new.
  destruct (remove_stmt_spec pr sid Hs) as (A & B & C).
  { intros d Hd. destruct (proj2 W d Hd) as (X & Y & _). auto. }
  fold pr' in A, C.
  assert (forall s, s <> sid -> (s < length (p_stmts pr))%nat -> stmt_of pr' (new s) = stmt_of pr s) as N.
  { intros s Hn Hl. unfold stmt_of. rewrite A, remove_at_nth by auto. unfold new.
    destruct (Nat.ltb_spec sid s).
    - destruct (Nat.leb_spec sid (s - 1)); [|lia]. f_equal. lia.
    - destruct (Nat.leb_spec sid s); [lia|]. auto. }
  split; [rewrite A; apply remove_at_spec|]. split; [rewrite B, A, remove_at_length; auto|]. split; [rewrite C; apply map_length|].
  intros k d Hk H1 H2. rewrite C. rewrite nth_error_map, Hk. cbn [option_map].
  destruct (proj2 W d (nth_error_In _ _ Hk)) as (X & Y & _).
  eexists. split; [reflexivity|]. cbn [set_ends d_src d_dst d_poly].
  assert (forall s, renum sid s = new s) as R.
  { intros s. unfold renum, new. destruct (Nat.ltb_spec sid s); lia. }
  rewrite !R. split; [auto|]. split; [auto|]. rewrite !N by auto. split; [auto|]. split; [auto|].
  intros s t p. unfold instance; cbn [set_ends d_src d_dst d_poly]. rewrite ?R, !N by auto. reflexivity.
Qed.
Print Assumptions C38_remove_stmt_partial.

Example C38_witness :
  wf_shapes ex_prog /\ (0 < length (p_stmts ex_prog))%nat /\
  p_stmts (remove_stmt ex_prog 0) = [ex_s1] /\
  (exists d, nth_error (p_deps ex_prog) 3 = Some d /\ d_src d <> 0%nat /\ d_dst d <> 0%nat).
Proof. split; [apply wf_prog_shapes, ex_prog_ok|]. split; [simpl; lia|]. split; [reflexivity|]. eexists; split; [reflexivity|simpl; lia]. Qed.

(** A dependence of the removed statement stays in the program and now belongs to
    another statement, or to none. *)
Theorem C38_dependences_of_removed_refuted : exists pr sid,
  wf_shapes pr /\ (sid < length (p_stmts pr))%nat /\
  (exists k d d', nth_error (p_deps pr) k = Some d /\ d_src d = sid /\ d_dst d = sid /\
     nth_error (p_deps (remove_stmt pr sid)) k = Some d' /\
     stmt_of (remove_stmt pr sid) (d_src d') <> stmt_of pr (d_src d) /\
     (d_src d' < length (p_stmts (remove_stmt pr sid)))%nat) /\
  exists sid', (sid' < length (p_stmts pr))%nat /\ ~ wf_shapes (remove_stmt pr sid').
Proof.
  exists ex_prog, 0%nat. split; [apply wf_prog_shapes, ex_prog_ok|]. split; [simpl; lia|]. split.
  - exists 0%nat. eexists. eexists. split; [reflexivity|]. split; [reflexivity|]. split; [reflexivity|]. split; [reflexivity|].
    split; [vm_compute; congruence|simpl; lia].
  - exists 1%nat. split; [simpl; lia|]. intros [_ H].
    destruct (H (nth 2 (p_deps (remove_stmt ex_prog 1)) (ex_dep 0 0 false ex_d0))) as (_ & X & _).
    apply nth_In. vm_compute. lia. vm_compute in X. lia.
Qed.
Print Assumptions C38_dependences_of_removed_refuted.

(** ** C51 *)
(** Every call writes outside of the constraint matrix ... *)
Theorem C51_out_of_bounds_refuted : forall pr sid dim factor,
  wf_shapes pr -> (sid < length (p_stmts pr))%nat -> (dim <= mnrows (s_trans (stmt_of pr sid)))%nat ->
  snd (stripmine pr sid dim factor) = false.
Proof.
  intros pr sid dim factor W Hs Hd. unfold stripmine; cbn [snd].
  pose proof (add_dim_wf_prog pr sid 0 (Some dim) H_TILE_SPACE_LOOP W Hs (Nat.le_0_l _) Hd) as [W1 _].
  destruct (W1 _ (stmt_of_in (stmt_add_dim pr sid 0 (Some dim) H_TILE_SPACE_LOOP) sid ltac:(rewrite add_dim_len; auto)))
    as (A & B & C & D & E & F).
  rewrite B, E. apply Nat.ltb_irrefl.
Qed.
Print Assumptions C51_out_of_bounds_refuted.

(** ... and an iteration can be in no strip at all. *)
Theorem C51_strips_refuted : exists pr sid dim factor i p,
  wf_prog pr /\ (sid < length (p_stmts pr))%nat /\ (dim < length (p_hprops pr))%nat /\ 0 < factor /\
  iteration (stmt_of pr sid) i p /\
  forall v, ~ iteration (stmt_of (fst (stripmine pr sid dim factor)) sid) (v :: i) p.
Proof.
  exists ex_prog, 0%nat, 0%nat, 32, [3; 4], [10].
  split; [apply ex_prog_ok|]. split; [simpl; lia|]. split; [simpl; lia|]. split; [lia|].
  split; [split; [reflexivity|inset]|].
  intros v [_ [_ H]]. unfold stripmine, stmt_of in H. cbn in H.
  pose proof (H _ (or_intror (or_intror (or_intror (or_intror (or_introl eq_refl)))))) as H1.
  pose proof (H _ (or_intror (or_intror (or_intror (or_intror (or_intror (or_introl eq_refl))))))) as H2.
  unfold holds, aff in H1, H2. simpl in H1, H2. destruct v; lia.
Qed.
Print Assumptions C51_strips_refuted.

(** What the two constraints leave: a strip of [factor] consecutive values has
    become the single value factor * v of the loop without its constant. *)
Lemma stripmine_row_eq b c f sg : stripmine_row (0 :: b ++ [c]) f sg = (sg * f) :: map (Z.mul (- sg)) b ++ [0].
Proof.
  unfold stripmine_row. cbn [length seq map Nat.eqb]. f_equal. rewrite <- seq_shift, map_map.
  rewrite app_length. cbn [length]. rewrite Nat.add_1_r, seq_S, map_app. cbn [map]. f_equal.
  - apply nth_ext with (d := (fun x => 0) 0%nat) (d' := - sg * 0); [rewrite !map_length, seq_length; auto|].
    intros n Hn. rewrite map_length, seq_length in Hn.
    rewrite (nth_indep _ _ (if (S 0 =? 0)%nat then sg * f else if (S 0 <? S (S (length b)) - 1)%nat then - sg * nth 1 (0 :: b ++ [c]) 0 else 0)) by (rewrite map_length, seq_length; auto).
    rewrite (List.map_nth (fun x => if (S x =? 0)%nat then sg * f else if (S x <? S (S (length b)) - 1)%nat then - sg * nth (S x) (0 :: b ++ [c]) 0 else 0)).
    rewrite seq_nth by auto. rewrite (List.map_nth (Z.mul (- sg))). cbn [Nat.add Nat.eqb nth].
    rewrite (proj2 (Nat.ltb_lt _ _)) by lia. rewrite app_nth1 by auto. reflexivity.
  - cbn [Nat.eqb]. rewrite (proj2 (Nat.ltb_ge _ _)) by lia. reflexivity.
Qed.

Lemma dot_scale_l k b x : dot (map (Z.mul k) b) x = k * dot b x.
Proof. revert x. induction b as [|a b IH]; intros [|y x]; cbn [map dot]; try lia. rewrite IH. lia. Qed.

Theorem C51_strips_partial : forall pr sid dim factor i p v,
  wf_shapes pr -> (sid < length (p_stmts pr))%nat -> (dim < mnrows (s_trans (stmt_of pr sid)))%nat ->
  length i = s_dim (stmt_of pr sid) -> length p = p_npar pr ->
  let st := stmt_of pr sid in
  (iteration (stmt_of (fst (stripmine pr sid dim factor)) sid) (v :: i) p <->
   iteration st i p /\
   factor * v = theta st dim i p - theta st dim (repeat 0 (s_dim st)) (repeat 0 (p_npar pr))).
Proof.
  intros pr sid dim factor i p v W Hs Hd Hi Hp st.
  destruct (C35_add_dim_statement pr sid 0 (Some dim) H_TILE_SPACE_LOOP W Hs (Nat.le_0_l _) ltac:(cbn; lia)) as (LN & _ & D & _ & IT & _).
  destruct (IT i p v Hi Hp) as [I _]. cbn [insert_at] in I.
  destruct (proj1 W _ (stmt_of_in pr sid Hs)) as (A & B & C & E & F & G). fold st in A, B, C, E, F, G, I, D, Hd, Hi.
  assert (ST : stmt_of (stmt_add_dim pr sid 0 (Some dim) H_TILE_SPACE_LOOP) sid = stmt_add_dim1 0 (Some dim) H_TILE_SPACE_LOOP st).
  { rewrite add_dim_stmt by auto. rewrite Nat.eqb_refl. auto. }
  set (pr1 := stmt_add_dim pr sid 0 (Some dim) H_TILE_SPACE_LOOP) in *.
  set (a := nth dim (mrows (s_trans st)) []).
  assert (La : length a = (s_dim st + p_npar pr + 1)%nat). { rewrite <- B. apply C. apply nth_In. exact Hd. }
  destruct (exists_last (l := a)) as (b & c & Eb); [destruct a; [cbn in La; lia|discriminate]|].
  assert (Lb : length b = (s_dim st + p_npar pr)%nat). { rewrite Eb, app_length in La. cbn in La. lia. }
  assert (T : nth (S dim) (mrows (s_trans (stmt_of pr1 sid))) [] = 0 :: b ++ [c]).
  { rewrite ST. cbn [stmt_add_dim1 s_trans mrows matrix_add_col matrix_add_row mncols]. unfold mnrows in Hd.
    rewrite map_nth_insert by (rewrite map_length; lia). rewrite nth_insert_at_ge by (rewrite ?map_length; lia).
    replace (S dim - 1)%nat with dim by lia. rewrite (nth_indep _ [] (insert_at 0 0 [])) by (rewrite map_length; lia).
    rewrite (List.map_nth (insert_at 0 0)). cbn [insert_at]. fold a. now rewrite Eb. }
  assert (LT : theta st dim i p - theta st dim (repeat 0 (s_dim st)) (repeat 0 (p_npar pr)) = dot b (i ++ p)).
  { unfold theta. fold a. rewrite Eb. unfold aff. rewrite !dot_app by (rewrite ?app_length, ?repeat_length; lia).
    rewrite <- repeat_app. assert (Z0 : forall n l, dot l (repeat 0 n) = 0).
    { induction n as [|n IHn]; intros [|x l]; cbn [repeat dot]; try lia. rewrite IHn. lia. }
    rewrite Z0. lia. }
  rewrite LT.
  unfold stripmine. cbn [fst]. fold pr1. rewrite T, !stripmine_row_eq.
  assert (LS : (sid < length (p_stmts pr1))%nat) by (unfold pr1; rewrite add_dim_len; auto).
  assert (MN : (length (((1 * factor) :: map (Z.mul (- (1))) b ++ [0])%Z) <= mncols (s_trans (stmt_of pr1 sid)))%nat).
  { rewrite ST. cbn [stmt_add_dim1 s_trans mncols matrix_add_col]. rewrite B. cbn [length]. rewrite app_length, map_length. cbn. lia. }
  assert (RW : map_nth (mncols (s_trans (stmt_of pr1 sid))) (fun x => x + factor) ((1 * factor) :: map (Z.mul (- (1))) b ++ [0]) =
     (1 * factor) :: map (Z.mul (- (1))) b ++ [0]).
  { unfold map_nth. rewrite (proj2 (nth_error_None _ _)) by exact MN. reflexivity. }
  rewrite RW. clear RW MN.
  rewrite <- I. clear I.
  assert (SO : forall f, stmt_of (set_stmts pr1 (map_nth sid f (p_stmts pr1))) sid = f (stmt_of pr1 sid)).
  { intros f. unfold stmt_of, set_stmts. cbn [p_stmts]. unfold map_nth. rewrite (nth_error_nth' _ dummy_stmt LS). apply nth_set_nth_eq. exact LS. }
  rewrite SO. set (q := stmt_of pr1 sid) in *. clearbody q. clear SO.
  unfold iteration, mem. cbn [set_domain s_dim s_domain ncols rows].
  assert (H1 : forall k, holds ((v :: i) ++ p) (mkRow false ((k * factor) :: map (Z.mul (- k)) b ++ [0])) <-> 0 <= k * factor * v - k * dot b (i ++ p)).
  { intros k. unfold holds, aff. cbn [is_eq coef app dot]. rewrite dot_app by (rewrite map_length, app_length; lia).
    rewrite dot_scale_l. cbn [dot]. split; intros H; lia. }
  split.
  - intros (L & N & R). split; [split; auto; split; auto; intros r Hr; apply R; apply in_app_iff; auto|].
    pose proof (proj1 (H1 (-1)) (R _ ltac:(apply in_app_iff; right; left; reflexivity))).
    pose proof (proj1 (H1 1) (R _ ltac:(apply in_app_iff; right; right; left; reflexivity))). lia.
  - intros ((L & N & R) & EQ). split; auto. split; auto. intros r Hr. apply in_app_iff in Hr. destruct Hr as [Hr|[<-|[<-|[]]]]; auto.
    + apply (H1 (-1)). lia.
    + apply (H1 1). lia.
Qed.
Print Assumptions C51_strips_partial.

Example C51_strips_met : iteration (stmt_of (fst (stripmine ex_prog 0 0 2)) 0) [2; 4; 3] [10].
Proof. apply (C51_strips_partial ex_prog 0 0 2 [4; 3] [10] 2); [apply wf_prog_shapes, ex_prog_ok|vm_compute; lia|vm_compute; lia|reflexivity|reflexivity|].
  split; [split; [reflexivity|inset]|reflexivity]. Qed.

(** ** C52 *)
Theorem C52_sink_statement : forall pr sid depth val,
  wf_shapes pr -> (sid < length (p_stmts pr))%nat -> (depth <= s_dim (stmt_of pr sid))%nat ->
  let pr' := sink_statement pr sid depth val in
  let st := stmt_of pr sid in
  let st' := stmt_of pr' sid in
  (forall s, s <> sid -> stmt_of pr' s = stmt_of pr s) /\
  s_dim st' = S (s_dim st) /\ s_orig st' = insert_at depth false (s_orig st) /\
  (forall i p v, length i = s_dim st -> length p = p_npar pr ->
     (iteration st' (insert_at depth v i) p <-> iteration st i p /\ v = val) /\
     timestamp st' (insert_at depth v i) p = timestamp st i p /\
     map (access_val (insert_at depth v i) p) (s_reads st') = map (access_val i p) (s_reads st) /\
     map (access_val (insert_at depth v i) p) (s_writes st') = map (access_val i p) (s_writes st)) /\
  (forall k d, nth_error (p_deps pr) k = Some d -> exists d', nth_error (p_deps pr') k = Some d' /\
     d_src d' = d_src d /\ d_dst d' = d_dst d /\
     forall s t p v w, length s = s_dim (stmt_of pr (d_src d)) -> length t = s_dim (stmt_of pr (d_dst d)) ->
       (instance pr' d' (widen sid depth (d_src d) v s) (widen sid depth (d_dst d) w t) p <-> instance pr d s t p)) /\
  wf_shapes pr'.
Proof.
  intros pr sid depth val W Hs Hpos pr' st st'.
  destruct (C35_add_dim_statement pr sid depth None H_SCALAR W Hs Hpos I) as (L & O & Dm & Or & It & Wf).
  split. { intros s Hn. unfold pr'. rewrite sink_stmt by auto. apply Nat.eqb_neq in Hn. rewrite Hn. auto. }
  assert (st' = sink1 depth val st) as E. { unfold st', pr'. rewrite sink_stmt by auto. rewrite Nat.eqb_refl. auto. }
  split; [rewrite E; reflexivity|]. split.
  { rewrite E. cbn [sink1 set_orig s_orig stmt_add_dim1]. destruct (proj1 W _ (stmt_of_in pr sid Hs)) as (A & _).
    fold st in A, Hpos. rewrite <- A in Hpos. revert Hpos. clear. generalize (s_orig st). revert depth. induction depth; destruct l; simpl; intros; auto. lia. f_equal. apply IHdepth. lia. }
  split.
  - intros i p v Hi Hp. destruct (It i p v Hi Hp) as (X1 & X2 & X3 & X4). rewrite add_dim_stmt, Nat.eqb_refl in X2, X3, X4 by auto. fold st in X2, X3, X4.
    rewrite <- X2, <- X3, <- X4.
    split; [|rewrite E; split; [reflexivity|split; reflexivity]].
    unfold iteration. unfold st', pr'. rewrite sink_dom by auto. fold pr'. fold st'. rewrite E. cbn [sink1 set_orig set_domain s_dim stmt_add_dim1].
    rewrite insert_at_length. fold st. split.
    intros [Y1 [Y2 Y3]]. auto. intros [[Y1 Y2] Y3]. split; auto.
  - split.
    + intros k d Hk. destruct (C35_add_dim_dependences pr sid depth None H_SCALAR k d W Hs Hpos I Hk) as (d' & Y1 & Y2 & Y3 & _ & _ & Y4).
      exists d'. split; [exact Y1|]. split; [auto|]. split; [auto|]. intros s t p v w Ls Lt. unfold pr'. rewrite sink_instance by auto. apply Y4; auto.
    + apply sink_wf; auto.
Qed.
Print Assumptions C52_sink_statement.

Example C52_witness :
  wf_shapes ex_prog /\ (1 < length (p_stmts ex_prog))%nat /\ (2 <= s_dim (stmt_of ex_prog 1))%nat /\
  iteration (stmt_of (sink_statement ex_prog 1 2 5) 1) [3; 0; 5] [10] /\
  ~ iteration (stmt_of (sink_statement ex_prog 1 2 5) 1) [3; 0; 4] [10].
Proof.
  split; [apply wf_prog_shapes, ex_prog_ok|]. split; [simpl; lia|]. split; [simpl; lia|].
  split; [split; [reflexivity|inset]|]. intros [_ H]. revert H. inset.
Qed.

(** ** C53 *)
Theorem C53_padding : forall pr,
  let pr' := pad_stmt_transformations pr in
  p_deps pr' = p_deps pr /\ length (p_stmts pr') = length (p_stmts pr) /\
  (forall s, (s < length (p_stmts pr))%nat ->
     s_domain (stmt_of pr' s) = s_domain (stmt_of pr s) /\ s_dim (stmt_of pr' s) = s_dim (stmt_of pr s) /\
     exists n, forall i p, timestamp (stmt_of pr' s) i p = timestamp (stmt_of pr s) i p ++ repeat 0 n) /\
  (forall s s' i i' p, (s < length (p_stmts pr))%nat -> (s' < length (p_stmts pr))%nat ->
     length (timestamp (stmt_of pr' s) i p) = length (timestamp (stmt_of pr' s') i' p)) /\
  (forall s s' i i' p, (s < length (p_stmts pr))%nat -> (s' < length (p_stmts pr))%nat ->
     length (timestamp (stmt_of pr s) i p) = length (timestamp (stmt_of pr s') i' p) ->
     (lexlt (timestamp (stmt_of pr' s) i p) (timestamp (stmt_of pr' s') i' p) <->
      lexlt (timestamp (stmt_of pr s) i p) (timestamp (stmt_of pr s') i' p))).
Proof.
  intros pr pr'.
  split; [unfold pr', pad_stmt_transformations; destruct (1 <=? _)%nat; auto|].
  split; [unfold pr', pad_stmt_transformations; destruct (1 <=? _)%nat; auto; cbn; apply map_length|].
  split; [|split].
  - intros s Hs. unfold pr'. rewrite pad_stmt_of by auto.
    destruct (pad_stmt_frame (max_nrows (p_stmts pr) - mnrows (s_trans (stmt_of pr s))) (stmt_of pr s)) as (A & B & _).
    split; [auto|]. split; [auto|]. eexists. intros i p. apply pad_timestamp.
  - intros s s' i i' p Hs Hs'. unfold pr'. rewrite !pad_stmt_of, !pad_timestamp, !app_length, !repeat_length, !timestamp_length by auto.
    pose proof (max_nrows_le _ _ (stmt_of_in pr s Hs)). pose proof (max_nrows_le _ _ (stmt_of_in pr s' Hs')). lia.
  - intros s s' i i' p Hs Hs' L. unfold pr'. rewrite !pad_stmt_of, !pad_timestamp by auto.
    rewrite !timestamp_length in L. rewrite L.
    rewrite lexlt_app by (rewrite !timestamp_length; auto). split; auto. intros [|[_ H]]; auto. exfalso. eapply lexlt_irrefl; eauto.
Qed.
Print Assumptions C53_padding.

(** A statement with a shorter transformation is padded. *)
Definition ex_short : prog :=
  mkProg 2 1 [ex_s0; set_trans ex_s1 (mkMat 4 [[1;0;0;0]])] (p_deps ex_prog) (p_hprops ex_prog).
Example C53_padding_witness :
  timestamp (stmt_of (pad_stmt_transformations ex_short) 1) [3; 0] [10] = [3; 0; 0].
Proof. reflexivity. Qed.

(** Inserting a schedule row keeps the other rows in order, and the recorded first
    and last tile levels still denote the same rows. *)
Theorem C53_add_row : forall st ht pos,
  (pos <= mnrows (s_trans st))%nat ->
  let st' := stmt_add_hyperplane st ht pos in
  let row st k := nth (Z.to_nat k) (mrows (s_trans st)) [] in
  (forall i p, timestamp st' i p = insert_at pos 0 (timestamp st i p)) /\
  (0 <= s_ftd st < Z.of_nat (mnrows (s_trans st)) -> row st' (s_ftd st') = row st (s_ftd st)) /\
  (0 <= s_ltd st < Z.of_nat (mnrows (s_trans st)) -> row st' (s_ltd st') = row st (s_ltd st)) /\
  (s_ftd st < 0 -> s_ftd st' = s_ftd st) /\ (s_ltd st < 0 -> s_ltd st' = s_ltd st).
Proof.
  intros st ht pos H st' row. unfold mnrows in *.
  assert (R : forall k, 0 <= k < Z.of_nat (length (mrows (s_trans st))) ->
    nth (Z.to_nat (if k >=? Z.of_nat pos then k + 1 else k)) (insert_at pos (repeat 0 (mncols (s_trans st))) (mrows (s_trans st))) [] =
    nth (Z.to_nat k) (mrows (s_trans st)) []).
  { intros k Hk. destruct (Z.geb_spec k (Z.of_nat pos)).
    - replace (Z.to_nat (k + 1)) with (S (Z.to_nat k)) by lia. apply nth_insert_at_ge; lia.
    - apply nth_insert_at_lt; lia. }
  split; [|split; [|split; [|split]]].
  - intros i p. unfold timestamp, st', stmt_add_hyperplane. cbn [s_trans mrows matrix_add_row]. rewrite map_insert_at. f_equal.
    unfold aff. apply dot_repeat0_l.
  - intros Hk. unfold row, st', stmt_add_hyperplane. cbn [s_trans s_ftd mrows matrix_add_row]. now apply R.
  - intros Hk. unfold row, st', stmt_add_hyperplane. cbn [s_trans s_ltd mrows matrix_add_row]. now apply R.
  - intros Hk. unfold st', stmt_add_hyperplane. cbn [s_ftd]. destruct (Z.geb_spec (s_ftd st) (Z.of_nat pos)); lia.
  - intros Hk. unfold st', stmt_add_hyperplane. cbn [s_ltd]. destruct (Z.geb_spec (s_ltd st) (Z.of_nat pos)); lia.
Qed.
Print Assumptions C53_add_row.

Definition ex_tiled_range : stmt :=
  mkStmt 2 2 [true;true] ex_dom0 (s_trans ex_s0) (s_hyp ex_s0) 0 0 [] [] None 0 0 1.
Example C53_add_row_met : let st' := stmt_add_hyperplane ex_tiled_range H_SCALAR 1 in
  (1 <= mnrows (s_trans ex_tiled_range))%nat /\ (s_ftd st', s_ltd st') = (0, 2) /\ timestamp st' [3; 4] [10] = [3; 0; 7; 0].
Proof. split; [vm_compute; lia|split; reflexivity]. Qed.

(** The k-th listed statement gets the value offset+1+k, all others 0. *)
Theorem C53_separate : forall pr l level offset s i p,
  wf_prog pr -> (level <= length (p_hprops pr))%nat -> NoDup l ->
  (s < length (p_stmts pr))%nat -> length i = s_dim (stmt_of pr s) -> length p = p_npar pr ->
  let pr' := separate_stmts pr l level offset in
  (forall k, (k < length l)%nat -> nth k l 0%nat = s ->
     timestamp (stmt_of pr' s) i p = insert_at level (offset + 1 + Z.of_nat k) (timestamp (stmt_of pr s) i p)) /\
  (~ In s l -> timestamp (stmt_of pr' s) i p = insert_at level 0 (timestamp (stmt_of pr s) i p)).
Proof. intros. apply separate_timestamp; auto. Qed.
Print Assumptions C53_separate.

Lemma lexlt_insert_lt level a b u v : (level <= length a)%nat -> length a = length b ->
  firstn level a = firstn level b -> u < v -> lexlt (insert_at level u a) (insert_at level v b).
Proof.
  revert a b; induction level; intros a b Hl HL F Huv.
  - simpl. destruct a, b; simpl in *; auto; lia.
  - destruct a, b; simpl in *; try lia. inversion F. right. split; auto. apply IHlevel; auto; lia.
Qed.

(** Consequence: with equal outer coordinates, an iteration of an earlier listed
    statement precedes one of a later listed statement, and unlisted statements
    precede the listed ones. *)
Theorem C53_separate_orders : forall pr l level offset s s' i i' p,
  wf_prog pr -> (level <= length (p_hprops pr))%nat -> NoDup l ->
  (s < length (p_stmts pr))%nat -> (s' < length (p_stmts pr))%nat ->
  length i = s_dim (stmt_of pr s) -> length i' = s_dim (stmt_of pr s') -> length p = p_npar pr ->
  firstn level (timestamp (stmt_of pr s) i p) = firstn level (timestamp (stmt_of pr s') i' p) ->
  let pr' := separate_stmts pr l level offset in
  (forall k k', nth_error l k = Some s -> nth_error l k' = Some s' -> (k < k')%nat ->
     lexlt (timestamp (stmt_of pr' s) i p) (timestamp (stmt_of pr' s') i' p)) /\
  (~ In s l -> In s' l -> 0 <= offset -> lexlt (timestamp (stmt_of pr' s) i p) (timestamp (stmt_of pr' s') i' p)).
Proof.
  intros pr l level offset s s' i i' p W Hl N Hs Hs' Hi Hi' Hp F pr'.
  destruct (C53_separate pr l level offset s i p W Hl N Hs Hi Hp) as [A1 A2].
  destruct (C53_separate pr l level offset s' i' p W Hl N Hs' Hi' Hp) as [B1 B2].
  fold pr' in A1, A2, B1, B2.
  pose proof (wf_rows pr s W Hs). pose proof (wf_rows pr s' W Hs').
  split.
  - intros k k' Hk Hk' Hlt.
    pose proof (proj1 (nth_error_Some l k) ltac:(congruence)). pose proof (proj1 (nth_error_Some l k') ltac:(congruence)).
    rewrite (A1 k), (B1 k') by (auto; apply nth_error_nth; auto).
    apply lexlt_insert_lt; rewrite ?timestamp_length; try lia. auto.
  - intros Hn Hy Ho. apply (In_nth _ _ 0%nat) in Hy as (k & Hk & E).
    rewrite A2, (B1 k) by auto. apply lexlt_insert_lt; rewrite ?timestamp_length; try lia. auto.
Qed.
Print Assumptions C53_separate_orders.

Example C53_separate_witness :
  timestamp (stmt_of (separate_stmts ex_prog [1; 0]%nat 1 0) 0) [3; 4] [10] = [3; 2; 7; 0] /\
  timestamp (stmt_of (separate_stmts ex_prog [1; 0]%nat 1 0) 1) [3; 0] [10] = [3; 1; 3; 1].
Proof. split; reflexivity. Qed.

(** ** C28 *)
Theorem C28_interchange_rows : forall pr l1 l2,
  wf_prog pr -> (l1 < length (p_hprops pr))%nat -> (l2 < length (p_hprops pr))%nat ->
  let pr' := interchange pr l1 l2 in
  p_deps pr' = p_deps pr /\
  forall s i p k, (s < length (p_stmts pr))%nat -> (k < length (p_hprops pr))%nat ->
    s_domain (stmt_of pr' s) = s_domain (stmt_of pr s) /\
    length (timestamp (stmt_of pr' s) i p) = length (timestamp (stmt_of pr s) i p) /\
    nth k (timestamp (stmt_of pr' s) i p) 0 =
      nth (if (k =? l1)%nat then l2 else if (k =? l2)%nat then l1 else k) (timestamp (stmt_of pr s) i p) 0 /\
    nth k (p_hprops pr') H_UNKNOWN = nth (if (k =? l1)%nat then l2 else if (k =? l2)%nat then l1 else k) (p_hprops pr) H_UNKNOWN.
Proof.
  intros pr l1 l2 W H1 H2 pr'. split; [reflexivity|]. intros s i p k Hs Hk.
  unfold pr'. rewrite interchange_stmt by auto. pose proof (wf_rows pr s W Hs) as N.
  split; [reflexivity|]. rewrite interchange_timestamp by lia. split; [apply swap_nth_length|].
  cbn [interchange p_hprops].
  rewrite !swap_nth_nth by (rewrite ?timestamp_length; lia).
  split; destruct (Nat.eqb_spec k l1), (Nat.eqb_spec k l2); subst; auto.
Qed.
Print Assumptions C28_interchange_rows.

Theorem C28_interchange_legal : forall pr l1 l2 a b,
  wf_prog pr -> (a <= l1 < b)%nat -> (a <= l2 < b)%nat -> (b <= length (p_hprops pr))%nat ->
  (forall d, In d (p_deps pr) -> d_rar d = false -> permutable_on pr d a b) ->
  legal pr -> legal (interchange pr l1 l2).
Proof.
  intros pr l1 l2 a b W H1 H2 Hb P L d Hd R. apply interchange_legal with (a := a) (b := b); auto.
  all: solve [apply (proj2 W); auto | apply L; auto].
Qed.
Print Assumptions C28_interchange_legal.

(** Moving a loop down to level [last]: the rows of exactly the statements of the
    loop are rotated. *)
Theorem C28_innermost_rows : forall (pr : prog) (lp : ploop) (last_level : nat) (across : bool) (last : nat),
  wf_prog pr -> NoDup (l_stmts lp) -> (forall s, In s (l_stmts lp) -> (s < length (p_stmts pr))%nat) ->
  last = (if across then (last_level - 1)%nat else Z.to_nat (last_depth pr lp)) ->
  (last < length (p_hprops pr))%nat ->
  let pr' := make_innermost_loop pr lp last_level across in
  p_deps pr' = p_deps pr /\
  forall s i p, (s < length (p_stmts pr))%nat ->
    (~ In s (l_stmts lp) -> stmt_of pr' s = stmt_of pr s) /\
    (In s (l_stmts lp) -> length (timestamp (stmt_of pr' s) i p) = length (timestamp (stmt_of pr s) i p) /\
     forall k, (k < length (p_hprops pr))%nat ->
       nth k (timestamp (stmt_of pr' s) i p) 0 =
       nth (if (l_depth lp <=? k)%nat && (k <? last)%nat then S k
            else if (k =? last)%nat && (l_depth lp <? last)%nat then l_depth lp else k) (timestamp (stmt_of pr s) i p) 0).
Proof.
  intros pr lp ll across last W N Hl E Hlast pr'. split; [reflexivity|]. intros s i p Hs. pose proof (wf_rows pr s W Hs) as Nr. split.
  - intros Hn. apply innermost_notin; auto.
  - intros Hi. unfold pr'. rewrite innermost_in by auto. unfold innermost_to. rewrite <- E.
    destruct (le_lt_dec last (l_depth lp)).
    + rewrite rotate_id by auto. split; auto. intros k Hk. natb; try lia; auto.
    + rewrite rotate_timestamp by lia. unfold move_down.
      assert (length (remove_at (l_depth lp) (timestamp (stmt_of pr s) i p)) = length (p_hprops pr) - 1)%nat as Lr.
      { rewrite remove_at_length by (rewrite timestamp_length; lia). rewrite timestamp_length. lia. }
      split. rewrite insert_at_length, Lr, timestamp_length. lia.
      intros k Hk. destruct (lt_eq_lt_dec k last) as [[K|K]|K].
      * rewrite nth_insert_at_lt by lia. rewrite remove_at_nth by (rewrite timestamp_length; lia). natb; try lia; auto.
      * subst k. rewrite nth_insert_at_eq by lia. natb; try lia; auto.
      * destruct k; [lia|]. rewrite nth_insert_at_ge by lia. rewrite remove_at_nth by (rewrite timestamp_length; lia). natb; try lia; auto.
Qed.
Print Assumptions C28_innermost_rows.

Theorem C28_innermost_legal : forall (pr : prog) (lp : ploop) (last_level : nat) (across : bool) (last : nat),
  wf_prog pr -> NoDup (l_stmts lp) -> (forall s, In s (l_stmts lp) -> (s < length (p_stmts pr))%nat) ->
  last = (if across then (last_level - 1)%nat else Z.to_nat (last_depth pr lp)) ->
  (last < length (p_hprops pr))%nat ->
  (forall d, In d (p_deps pr) -> d_rar d = false ->
     (In (d_src d) (l_stmts lp) -> In (d_dst d) (l_stmts lp) -> permutable_on pr d (l_depth lp) (S last)) /\
     (~ (In (d_src d) (l_stmts lp) <-> In (d_dst d) (l_stmts lp)) -> separated_before pr d (l_depth lp))) ->
  legal pr -> legal (make_innermost_loop pr lp last_level across).
Proof.
  intros pr lp ll across last W N Hl E Hlast H L d Hd R. destruct (H d Hd R) as [H1 H2].
  apply (innermost_legal pr lp ll across d last); auto. apply (proj2 W); auto.
Qed.
Print Assumptions C28_innermost_legal.

(** Without moving across scalar hyperplanes no scalar level is passed; for a loop
    at depth 0 the bound of line 122 wraps around, so this needs depth > 0. *)
Theorem C28_innermost_no_scalar : forall pr lp s k,
  In s (l_stmts lp) -> (0 < l_depth lp)%nat -> 0 <= last_depth pr lp ->
  (l_depth lp <= k <= Z.to_nat (last_depth pr lp))%nat ->
  ~ (forall j, (j < s_dim (stmt_of pr s))%nat -> mget (s_trans (stmt_of pr s)) k j = 0).
Proof.
  intros pr lp s k Hs H0 H1 Hk H. apply scalar_iff in H.
  rewrite (innermost_not_scalar pr lp s k) in H; auto. discriminate.
Qed.
Print Assumptions C28_innermost_no_scalar.

(** The example program is legal with its two loops permutable; swapping them
    keeps it legal. *)
Example C28_witness :
  legal ex_prog /\ (forall d, In d (p_deps ex_prog) -> d_rar d = false -> permutable_on ex_prog d 0 2) /\
  timestamp (stmt_of (interchange ex_prog 0 1) 0) [3; 4] [10] = [7; 3; 0] /\
  timestamp (stmt_of (make_innermost_loop ex_prog (mkPloop 0 [0; 1]%nat) 2 true) 0) [3; 4] [10] = [7; 3; 0].
Proof.
  assert (forall d s t p, In d (p_deps ex_prog) -> d_rar d = false -> instance ex_prog d s t p ->
    (0 <= distance ex_prog d 0 s t p /\ 0 <= distance ex_prog d 1 s t p) /\
    lexlt (timestamp (stmt_of ex_prog (d_src d)) s p) (timestamp (stmt_of ex_prog (d_dst d)) t p)) as K.
  { intros d s t p Hd R (L1 & L2 & L3 & M).
    destruct s as [|s1 [|s2 [|]]], t as [|t1 [|t2 [|]]], p as [|n [|]];
      destruct Hd as [<-|[<-|[<-|[<-|[]]]]]; try discriminate.
    all: destruct M as [_ M]; apply Forall_forall in M; cbn in M.
    all: repeat match goal with M : Forall _ (_ :: _) |- _ => inversion M; clear M; subst end.
    all: unfold holds, aff, distance, theta, timestamp in *; cbn -[Z.mul Z.add Z.sub] in *; unfold aff; cbn -[Z.mul Z.add Z.sub]; lia. }
  split; [|split; [|split; reflexivity]].
  - intros d Hd R s t p I. apply (K d s t p Hd R I).
  - intros d Hd R s t p I _ k Hk. destruct (K d s t p Hd R I) as [[K1 K2] _]. destruct k as [|[|]]; auto; lia.
Qed.

(** At depth 0 the limit is lost: the scalar first row of the second statement is
    moved below its loop row. *)
Definition ex_scalar0 : prog :=
  mkProg 2 1 [ex_s0; set_trans ex_s1 (mkMat 4 [[0;0;0;0]; [1;0;0;0]; [0;0;0;1]])] (p_deps ex_prog) (p_hprops ex_prog).
Theorem C28_depth_zero_scalar_refuted : exists pr lp s k,
  wf_prog pr /\ In s (l_stmts lp) /\ (l_depth lp <= k <= Z.to_nat (last_depth pr lp))%nat /\
  forall j, (j < s_dim (stmt_of pr s))%nat -> mget (s_trans (stmt_of pr s)) k j = 0.
Proof.
  exists ex_scalar0, (mkPloop 0 [1]%nat), 1%nat, 0%nat.
  split; [|split; [simpl; auto|split; [vm_compute; lia|]]].
  - split.
    + intros st [<-|[<-|[]]]; repeat (split; [first [reflexivity|wf]|]); simpl; intuition (subst; first [wf|reflexivity]).
    + intros d [<-|[<-|[<-|[<-|[]]]]]; (split; [simpl; lia|split; [simpl; lia|split; [wf|split; [reflexivity|split; [wf|reflexivity]]]]]).
  - intros [|[|j]]; auto. simpl. lia.
Qed.
Print Assumptions C28_depth_zero_scalar_refuted.
