(** * Program editing: proofs. *)
From Coq Require Import ZArith List Bool Lia Arith Permutation.
From Verif Require Import SpecLinear MathModel ConstraintsModel VecProofs EditProofs MatrixProofs SpecProg
  ProgModel LexProofs.
Import ListNotations.
Open Scope Z_scope.

Lemma wf_prog_shapes pr : wf_prog pr -> wf_shapes pr.
Proof.
  intros [H1 H2]. split; auto. intros st Hs. destruct (H1 st Hs) as (A & B & C & D & E & F & G & K).
  repeat (split; [assumption|]). assumption.
Qed.

Lemma stmt_of_in pr s : (s < length (p_stmts pr))%nat -> In (stmt_of pr s) (p_stmts pr).
Proof. intros. apply nth_In. auto. Qed.

Lemma map_nth_id_out {A} pos (f : A -> A) l : (length l <= pos)%nat -> map_nth pos f l = l.
Proof. intros H. unfold map_nth. apply nth_error_None in H. rewrite H. auto. Qed.

Lemma map_nth_map_nth {A} pos (f g : A -> A) l : map_nth pos f (map_nth pos g l) = map_nth pos (fun x => f (g x)) l.
Proof.
  unfold map_nth. destruct (nth_error l pos) eqn:E.
  - assert (nth_error (set_nth pos (g a) l) pos = Some (g a)) as K.
    { clear - E. revert l E; induction pos; destruct l; simpl; intros; try discriminate; auto. }
    rewrite K. clear - E. revert l E; induction pos; destruct l; simpl; intros; try discriminate; auto.
    f_equal; auto.
  - rewrite E. auto.
Qed.

Lemma map_nth_id {A} pos (f : A -> A) l : (forall x, In x l -> f x = x) -> map_nth pos f l = l.
Proof.
  unfold map_nth. destruct (nth_error l pos) eqn:E; auto. intros H.
  rewrite H by (eapply nth_error_In; eauto).
  clear H. revert l E; induction pos; destruct l; simpl; intros; try discriminate; auto. congruence.
  f_equal; auto.
Qed.

(** Affine functions and points with an inserted coordinate. *)
Lemma aff_ins pos r v i p : (pos <= length i)%nat -> length r = S (length (i ++ p)) ->
  aff (insert_at pos 0 r) (insert_at pos v i ++ p) = aff r (i ++ p).
Proof.
  intros Hp Hr. rewrite <- insert_at_app by auto.
  rewrite aff_insert_both by (rewrite ?app_length in *; lia). lia.
Qed.

Lemma aff_unit n pos i p v : (pos <= length i)%nat -> n = S (S (length (i ++ p))) ->
  aff (set_nth pos 1 (repeat 0 n)) (insert_at pos v i ++ p) = v.
Proof.
  intros Hp Hn. rewrite <- insert_at_app by auto. unfold aff.
  rewrite <- insert_at_app by (rewrite app_length; lia).
  rewrite dot_set_nth_zero.
  - rewrite nth_insert_at_eq by (rewrite !app_length; simpl; lia). lia.
  - rewrite app_length in Hn. lia.
  - rewrite insert_at_length, app_length; simpl. lia.
Qed.

Lemma map_nth_insert {A} k (f : A -> A) v l : (k <= length l)%nat ->
  map_nth k f (insert_at k v l) = insert_at k (f v) l.
Proof.
  unfold map_nth. revert l; induction k; destruct l; simpl; intros; auto; try lia.
  specialize (IHk l). destruct (nth_error (insert_at k v l) k) eqn:E.
  - f_equal. apply IHk. lia.
  - f_equal. apply IHk. lia.
Qed.

(** ** Adding a dimension to one statement *)
Section AddDim.
Variables (npar : nat) (st : stmt) (pos : nat) (tp : option nat) (ht : hyptype).
Hypothesis Hcol : mncols (s_trans st) = (s_dim st + npar + 1)%nat.
Hypothesis Hwf : wf_mat (s_trans st).
Hypothesis Hpos : (pos <= s_dim st)%nat.
Hypothesis Htp : match tp with None => True | Some k => (k <= mnrows (s_trans st))%nat end.

Lemma add_dim_timestamp i p v : length i = s_dim st -> length p = npar ->
  timestamp (stmt_add_dim1 pos tp ht st) (insert_at pos v i) p =
  match tp with None => timestamp st i p | Some k => insert_at k v (timestamp st i p) end.
Proof.
  intros Hi Hp. unfold timestamp, stmt_add_dim1; cbn [s_trans].
  assert (map (fun r => aff r (insert_at pos v i ++ p)) (map (insert_at pos 0) (mrows (s_trans st))) =
          map (fun r => aff r (i ++ p)) (mrows (s_trans st))) as K.
  { rewrite map_map. apply map_ext_in. intros r Hr. apply aff_ins. lia.
    rewrite (Hwf r Hr), Hcol, app_length. lia. }
  destruct tp as [k|]; cbn [mrows matrix_add_col matrix_add_row mncols].
  - unfold mnrows in Htp. rewrite map_nth_insert by (rewrite map_length; auto).
    rewrite map_insert_at, K. f_equal. apply aff_unit. lia. rewrite Hcol, app_length. lia.
  - apply K.
Qed.

Lemma add_dim_trans_wf :
  wf_mat (s_trans (stmt_add_dim1 pos tp ht st)) /\
  mncols (s_trans (stmt_add_dim1 pos tp ht st)) = (S (s_dim st) + npar + 1)%nat.
Proof.
  unfold stmt_add_dim1; cbn [s_trans].
  assert (wf_mat (matrix_add_col (s_trans st) pos)) as W.
  { intros r Hr. cbn in *. apply in_map_iff in Hr as (r0 & <- & Hr0). rewrite insert_at_length, (Hwf r0); auto. }
  destruct tp as [k|]; (split; [|cbn; lia]); auto.
  intros r Hr. cbn in Hr |- *. unfold mnrows in Htp.
  rewrite map_nth_insert in Hr by (rewrite map_length; auto).
  apply In_insert_at in Hr as [->|Hr]. rewrite set_nth_length. apply (repeat_length 0 (S (mncols (s_trans st)))). apply (W r Hr).
Qed.
End AddDim.

Lemma access_ins npar dim i p pos v (a : matrix) : wf_mat a -> mncols a = (dim + npar + 1)%nat ->
  length i = dim -> length p = npar -> (pos <= dim)%nat ->
  access_val (insert_at pos v i) p (matrix_add_col a pos) = access_val i p a.
Proof.
  intros Hw Hc Hi Hp Hpos. unfold access_val; cbn. rewrite map_map. apply map_ext_in. intros r Hr.
  apply aff_ins. lia. rewrite (Hw r Hr), Hc, app_length. lia.
Qed.

Lemma add_col_wf a pos : wf_mat a -> wf_mat (matrix_add_col a pos).
Proof.
  intros Hw r Hr. cbn in *. apply in_map_iff in Hr as (r0 & <- & Hr0). rewrite insert_at_length, (Hw r0); auto.
Qed.

Lemma set_nth_map_nth {A} pos (f : A -> A) (d : A) l : map_nth pos f l = set_nth pos (f (nth pos l d)) l.
Proof.
  unfold map_nth. destruct (nth_error l pos) eqn:E.
  - rewrite (nth_error_nth _ _ d E). auto.
  - apply nth_error_None in E. revert pos E. induction l; destruct pos; simpl; intros; auto; try lia. f_equal. apply IHl. lia.
Qed.

Lemma stmt_of_map pr sid f s : (sid < length (p_stmts pr))%nat ->
  nth s (map_nth sid f (p_stmts pr)) dummy_stmt = if (s =? sid)%nat then f (stmt_of pr sid) else stmt_of pr s.
Proof.
  intros Hs. rewrite map_nth_nth. rewrite (proj2 (Nat.ltb_lt _ _) Hs), andb_true_r. reflexivity.
Qed.

Lemma in_map_nth pr sid f st : (sid < length (p_stmts pr))%nat -> In st (map_nth sid f (p_stmts pr)) ->
  In st (p_stmts pr) \/ st = f (stmt_of pr sid).
Proof.
  intros Hs H. apply map_nth_other in H as [H|(y & H1 & H2)]; auto.
  right. rewrite H2. unfold stmt_of. rewrite (nth_error_nth _ _ dummy_stmt H1). auto.
Qed.

Section AddDimProg.
Variables (pr : prog) (sid pos : nat) (tp : option nat) (ht : hyptype).
Hypothesis W : wf_shapes pr.
Hypothesis Hs : (sid < length (p_stmts pr))%nat.
Hypothesis Hpos : (pos <= s_dim (stmt_of pr sid))%nat.
Hypothesis Htp : match tp with None => True | Some k => (k <= mnrows (s_trans (stmt_of pr sid)))%nat end.

Let pr' := stmt_add_dim pr sid pos tp ht.

Lemma add_dim_stmt s : stmt_of pr' s = if (s =? sid)%nat then stmt_add_dim1 pos tp ht (stmt_of pr sid) else stmt_of pr s.
Proof. unfold pr', stmt_of, stmt_add_dim; cbn. apply stmt_of_map; auto. Qed.

Lemma add_dim_dims s : s_dim (stmt_of pr' s) = (s_dim (stmt_of pr s) + if (s =? sid)%nat then 1 else 0)%nat.
Proof. rewrite add_dim_stmt. destruct (Nat.eqb_spec s sid); subst; cbn; lia. Qed.

Lemma widen_length s v x : length (widen sid pos s v x) = (length x + if (s =? sid)%nat then 1 else 0)%nat.
Proof. unfold widen. destruct (s =? sid)%nat; rewrite ?insert_at_length; lia. Qed.

Lemma add_dim_len pr0 : length (p_stmts (stmt_add_dim pr0 sid pos tp ht)) = length (p_stmts pr0).
Proof. cbn. apply map_nth_length. Qed.

(** One polyhedron of a dependence between [src] and [dst]. *)
Definition poly_add (src dst : nat) (c : cst) : cst :=
  let c1 := if (src =? sid)%nat then add_dim c pos else c in
  if (dst =? sid)%nat then add_dim c1 (s_dim (stmt_of pr' src) + pos) else c1.

Lemma dep_add_poly d : d_poly (dep_add_dim sid pos (p_stmts pr') d) = poly_add (d_src d) (d_dst d) (d_poly d) /\
  d_bpoly (dep_add_dim sid pos (p_stmts pr') d) = poly_add (d_src d) (d_dst d) (d_bpoly d).
Proof.
  unfold dep_add_dim, poly_add. fold (stmt_of pr' (d_src d)).
  destruct (d_src d =? sid)%nat, (d_dst d =? sid)%nat; cbn; auto.
Qed.

Lemma poly_add_ncols src dst c : ncols (poly_add src dst c) =
  (ncols c + (if (src =? sid)%nat then 1 else 0) + (if (dst =? sid)%nat then 1 else 0))%nat.
Proof. unfold poly_add. destruct (src =? sid)%nat, (dst =? sid)%nat; cbn; lia. Qed.
Lemma poly_add_wf src dst c : wf_cst c -> wf_cst (poly_add src dst c).
Proof. intros Wc. unfold poly_add. destruct (src =? sid)%nat, (dst =? sid)%nat; auto using add_dim_wf. Qed.

Lemma poly_add_mem src dst c s t p v w : wf_cst c ->
  length s = s_dim (stmt_of pr src) -> length t = s_dim (stmt_of pr dst) ->
  mem (poly_add src dst c) (widen sid pos src v s ++ widen sid pos dst w t ++ p) <-> mem c (s ++ t ++ p).
Proof.
  intros Wc Ls Lt. unfold poly_add.
  set (c1 := if (src =? sid)%nat then add_dim c pos else c).
  assert (mem c1 (widen sid pos src v s ++ t ++ p) <-> mem c (s ++ t ++ p)) as K1.
  { unfold c1, widen. destruct (Nat.eqb_spec src sid); [|tauto]. subst src.
    rewrite <- insert_at_app by lia. apply add_dim_mem; auto. rewrite app_length. lia. }
  assert (wf_cst c1) as Wc1 by (unfold c1; destruct (src =? sid)%nat; auto using add_dim_wf).
  rewrite <- K1. unfold widen at 2. destruct (Nat.eqb_spec dst sid); [|tauto]. subst dst.
  set (s' := widen sid pos src v s).
  assert (s_dim (stmt_of pr' src) = length s') as E.
  { unfold s'. rewrite widen_length, add_dim_dims. lia. }
  rewrite E.
  replace (s' ++ insert_at pos w t ++ p) with (insert_at (length s' + pos) w (s' ++ t ++ p)).
  apply add_dim_mem; auto. rewrite !app_length. lia.
  clear - Lt Hpos. revert s'. induction s'; simpl. apply insert_at_app. lia. f_equal; auto.
Qed.

Lemma add_dim_instance d s t p v w : wf_dep pr d ->
  length s = s_dim (stmt_of pr (d_src d)) -> length t = s_dim (stmt_of pr (d_dst d)) ->
  let d' := dep_add_dim sid pos (p_stmts pr') d in
  (instance pr' d' (widen sid pos (d_src d) v s) (widen sid pos (d_dst d) w t) p <-> instance pr d s t p) /\
  (mem (d_bpoly d') (widen sid pos (d_src d) v s ++ widen sid pos (d_dst d) w t ++ p) <-> mem (d_bpoly d) (s ++ t ++ p)).
Proof.
  intros (S1 & S2 & W1 & C1 & W2 & C2) Ls Lt d'.
  destruct (dep_add_poly d) as [E1 E2].
  assert (d_src d' = d_src d) as Es by (unfold d', dep_add_dim; destruct (_ =? _)%nat, (_ =? _)%nat; auto).
  assert (d_dst d' = d_dst d) as Ed by (unfold d', dep_add_dim; destruct (_ =? _)%nat, (_ =? _)%nat; auto).
  split.
  - unfold instance. rewrite Es, Ed. unfold d'. rewrite E1, !add_dim_dims, !widen_length.
    rewrite poly_add_mem by auto. change (p_npar pr') with (p_npar pr).
    split; intros (A1 & A2 & A3 & A4); (split; [lia|split; [lia|split; auto]]).
  - unfold d'. rewrite E2. apply poly_add_mem; auto.
Qed.

Lemma add_dim_wf_prog : wf_shapes pr'.
Proof.
  destruct W as [W1 W2]. split.
  - intros st Hst. apply in_map_nth in Hst; auto. destruct Hst as [Hst| ->].
    + apply W1; auto.
    + destruct (W1 _ (stmt_of_in pr sid Hs)) as (A & B & C & D & E & F).
      destruct (add_dim_trans_wf (p_npar pr) (stmt_of pr sid) pos tp ht) as [G1 G2]; auto.
      unfold wf_cols. change (p_npar pr') with (p_npar pr).
      split; [cbn; rewrite insert_at_length; lia|]. split; [rewrite G2; cbn; lia|]. split; [auto|].
      split; [cbn; apply add_dim_wf; auto|]. split; [cbn; lia|].
      intros a Ha. cbn in Ha. rewrite <- map_app in Ha. apply in_map_iff in Ha as (a0 & <- & Ha0).
      destruct (F a0 Ha0). split. apply add_col_wf; auto. cbn; lia.
  - intros d Hd. cbn in Hd. apply in_map_iff in Hd as (d0 & <- & Hd0).
    destruct (W2 d0 Hd0) as (S1 & S2 & X1 & X2 & X3 & X4).
    change (map_nth sid (stmt_add_dim1 pos tp ht) (p_stmts pr)) with (p_stmts pr').
    destruct (dep_add_poly d0) as [E1 E2].
    set (d' := dep_add_dim sid pos (p_stmts pr') d0) in *.
    assert (d_src d' = d_src d0) as Es by (unfold d', dep_add_dim; destruct (_ =? _)%nat, (_ =? _)%nat; auto).
    assert (d_dst d' = d_dst d0) as Ed by (unfold d', dep_add_dim; destruct (_ =? _)%nat, (_ =? _)%nat; auto).
    unfold wf_dep. rewrite Es, Ed. unfold d' in *. rewrite E1, E2, !add_dim_dims.
    unfold pr' at 1 2. rewrite add_dim_len. change (p_npar pr') with (p_npar pr).
    repeat (split; [first [lia|apply poly_add_wf; auto|rewrite poly_add_ncols; lia]|]).
    rewrite !poly_add_ncols. lia.
Qed.
End AddDimProg.

(** ** Removing a just-added dimension *)
Lemma remove_add_stmt npar pos ht st :
  length (s_orig st) = s_dim st -> mncols (s_trans st) = (s_dim st + npar + 1)%nat -> wf_mat (s_trans st) ->
  wf_cst (s_domain st) -> ncols (s_domain st) = (s_dim st + npar + 1)%nat ->
  (forall a, In a (s_reads st ++ s_writes st) -> wf_mat a /\ mncols a = (s_dim st + npar + 1)%nat) ->
  (pos <= s_dim st)%nat ->
  stmt_remove_dim1 pos (stmt_add_dim1 pos None ht st) = st.
Proof.
  intros A B C D E F G. unfold stmt_remove_dim1, stmt_add_dim1; cbn [s_dim s_dim_orig s_orig s_domain s_trans s_hyp s_scc s_cc s_reads s_writes s_evict s_num_tiled s_ftd s_ltd].
  rewrite remove_insert by lia. rewrite remove_add_dim by (auto; lia). rewrite remove_add_col by (auto; lia).
  rewrite !map_map.
  rewrite (map_id_in _ (s_reads st)), (map_id_in _ (s_writes st)).
  - destruct st; cbn in *. f_equal. lia.
  - intros a Ha. destruct (F a) as [F1 F2]. apply in_app_iff; auto. apply remove_add_col; auto. lia.
  - intros a Ha. destruct (F a) as [F1 F2]. apply in_app_iff; auto. apply remove_add_col; auto. lia.
Qed.

(** The dependence with its bounding polyhedron replaced. *)
Definition with_bpoly (d : dep) (b : cst) : dep := set_polys d (d_poly d) b.

Lemma remove_dim_comm c i j : wf_cst c -> (i <= j)%nat -> (j < ncols c)%nat ->
  add_dim (add_dim c i) (S j) = add_dim (add_dim c j) i.
Proof.
  intros [Hn Hw] Hij Hj. unfold add_dim; cbn [ncols rows]. f_equal. rewrite !map_map. apply map_ext_in.
  intros r Hr. unfold map_coef; cbn. f_equal. specialize (Hw r Hr). rewrite <- Hw in Hj. clear - Hij Hj.
  revert i j Hij Hj. induction (coef r); intros i j Hij Hj. simpl in Hj. lia.
  destruct i. reflexivity. destruct j; [lia|]. cbn [insert_at]. f_equal. apply IHl. lia. simpl in Hj. lia.
Qed.

Lemma remove_add_prog pr sid pos ht : wf_shapes pr -> (sid < length (p_stmts pr))%nat ->
  (pos <= s_dim (stmt_of pr sid))%nat ->
  let pr' := stmt_add_dim pr sid pos None ht in
  stmt_remove_dim pr' sid pos =
  mkProg (p_nvar pr) (p_npar pr) (p_stmts pr)
    (map (fun d => with_bpoly d (d_bpoly (dep_add_dim sid pos (p_stmts pr') d))) (p_deps pr)) (p_hprops pr).
Proof.
  intros [W1 W2] Hs Hpos pr'. unfold stmt_remove_dim. cbn [pr' stmt_add_dim p_nvar p_npar p_stmts p_deps p_hprops].
  rewrite map_nth_map_nth.
  assert (map_nth sid (fun x => stmt_remove_dim1 pos (stmt_add_dim1 pos None ht x)) (p_stmts pr) = p_stmts pr) as E.
  { pose proof (W1 _ (stmt_of_in pr sid Hs)) as (A & B & C & D & E & F).
    rewrite (set_nth_map_nth _ _ dummy_stmt). fold (stmt_of pr sid). rewrite (remove_add_stmt (p_npar pr)) by auto.
    unfold stmt_of. clear. revert sid. induction (p_stmts pr); destruct sid; simpl; auto. f_equal; auto. }
  rewrite E. f_equal. rewrite map_map. apply map_ext_in. intros d Hd.
  destruct (W2 d Hd) as (S1 & S2 & X1 & X2 & X3 & X4).
  change (map_nth sid (stmt_add_dim1 pos None ht) (p_stmts pr)) with (p_stmts pr').
  set (stmts' := p_stmts pr').
  assert (forall s, s_dim (nth s stmts' dummy_stmt) = (s_dim (stmt_of pr s) + if (s =? sid)%nat then 1 else 0)%nat) as Dm.
  { intros s. apply (add_dim_dims pr sid pos None ht); auto. }
  fold (stmt_of pr (d_src d)).
  unfold dep_remove_dim, with_bpoly, dep_add_dim. rewrite Dm.
  destruct (Nat.eqb_spec (d_src d) sid) as [Es|Es], (Nat.eqb_spec (d_dst d) sid) as [Ed|Ed]; cbn [set_polys d_poly d_bpoly d_src d_dst].
  - rewrite (proj2 (Nat.eqb_eq _ _) Es), (proj2 (Nat.eqb_eq _ _) Ed). cbn [set_polys d_poly d_bpoly d_src d_dst].
    rewrite Es in *. rewrite Ed in *. fold (stmt_of pr sid).
    unfold set_polys; destruct d; cbn in *. f_equal.
    replace (s_dim (stmt_of pr sid) + 1 + pos)%nat with (S (s_dim (stmt_of pr sid) + pos)) by lia.
    rewrite remove_dim_comm by (auto; lia).
    rewrite (remove_add_dim (add_dim _ _)) by (try apply add_dim_wf; auto; cbn; lia).
    apply remove_add_dim; auto. lia.
  - rewrite (proj2 (Nat.eqb_eq _ _) Es), (proj2 (Nat.eqb_neq _ _) Ed). cbn [set_polys d_poly d_bpoly d_src d_dst].
    unfold set_polys; destruct d; cbn in *. f_equal.
    apply remove_add_dim; auto. rewrite <- Es in Hpos. lia.
  - rewrite (proj2 (Nat.eqb_neq _ _) Es), (proj2 (Nat.eqb_eq _ _) Ed). cbn [set_polys d_poly d_bpoly d_src d_dst].
    unfold set_polys; destruct d; cbn in *. f_equal.
    fold (stmt_of pr d_src). rewrite Nat.add_0_r. apply remove_add_dim; auto. rewrite <- Ed in Hpos. lia.
  - rewrite (proj2 (Nat.eqb_neq _ _) Es), (proj2 (Nat.eqb_neq _ _) Ed). cbn [set_polys d_poly d_bpoly d_src d_dst].
    unfold set_polys; destruct d; cbn in *. reflexivity.
Qed.

(** ** Sinking a statement *)
Section Sink.
Variables (pr : prog) (sid depth : nat) (val : Z).
Hypothesis W : wf_shapes pr.
Hypothesis Hs : (sid < length (p_stmts pr))%nat.
Hypothesis Hpos : (depth <= s_dim (stmt_of pr sid))%nat.
Let pr' := sink_statement pr sid depth val.
Let pr1 := stmt_add_dim pr sid depth None H_SCALAR.

Definition sink1 (st : stmt) : stmt :=
  let st1 := stmt_add_dim1 depth None H_SCALAR st in
  set_orig (set_domain st1 (set_var (s_domain st1) depth val)) (set_nth depth false (s_orig st1)).

Lemma sink_stmt s : stmt_of pr' s = if (s =? sid)%nat then sink1 (stmt_of pr sid) else stmt_of pr s.
Proof.
  unfold pr', stmt_of, sink_statement; cbn [set_stmts p_stmts stmt_add_dim].
  rewrite map_nth_map_nth. apply (stmt_of_map pr sid sink1); auto.
Qed.
Lemma sink_dims s : s_dim (stmt_of pr' s) = s_dim (stmt_of pr1 s).
Proof.
  rewrite sink_stmt. unfold pr1. rewrite (add_dim_stmt pr sid depth None H_SCALAR) by auto. destruct (s =? sid)%nat; reflexivity.
Qed.
Lemma sink_instance d s t p : instance pr' d s t p <-> instance pr1 d s t p.
Proof. unfold instance. rewrite !sink_dims. reflexivity. Qed.
Lemma sink_deps : p_deps pr' = p_deps pr1.
Proof. reflexivity. Qed.
Lemma sink_dom i p v : length i = s_dim (stmt_of pr sid) -> length p = p_npar pr ->
  (mem (s_domain (stmt_of pr' sid)) (insert_at depth v i ++ p) <-> mem (s_domain (stmt_of pr sid)) (i ++ p) /\ v = val).
Proof.
  intros Hi Hp. rewrite sink_stmt, Nat.eqb_refl. unfold sink1; cbn [set_orig set_domain s_domain].
  destruct (proj1 W _ (stmt_of_in pr sid Hs)) as (A & B & C & D & E & F).
  rewrite set_var_mem by (cbn; lia). cbn [stmt_add_dim1 s_domain].
  rewrite <- insert_at_app by lia. rewrite add_dim_mem by (auto; rewrite app_length; lia).
  rewrite nth_insert_at_eq by (rewrite app_length; lia). tauto.
Qed.
Lemma sink_wf : wf_shapes pr'.
Proof.
  destruct (add_dim_wf_prog pr sid depth None H_SCALAR W Hs Hpos I) as [W1 W2]. fold pr1 in W1, W2.
  split.
  - intros st Hst. unfold pr', sink_statement in Hst. cbn [set_stmts p_stmts] in Hst.
    apply map_nth_other in Hst as [Hst|(y & H1 & ->)].
    + apply W1; auto.
    + apply nth_error_In in H1. destruct (W1 y H1) as (A & B & C & D & E & F).
      unfold wf_cols; cbn [set_orig set_domain s_orig s_dim s_trans s_domain s_reads s_writes].
      split; [rewrite set_nth_length; auto|]. split; [auto|]. split; [auto|]. split; [|split; [cbn; auto|auto]].
      destruct D as [D1 D2]. split; [cbn; auto|]. intros r Hr. cbn in Hr |- *. unfold set_var in Hr.
      clear - Hr D2. cbn in Hr.
      repeat match goal with
      | H : In _ (map_nth _ _ _) |- _ => apply map_nth_other in H as [H|(? & ? & ->)]
      end;
      repeat match goal with
      | H : nth_error _ _ = Some _ |- _ => apply nth_error_In in H
      | H : In _ (map_nth _ _ _) |- _ => apply map_nth_other in H as [H|(? & ? & ->)]
      end; cbn; rewrite ?set_nth_length;
      repeat match goal with
      | H : In _ (_ ++ _) |- _ => apply in_app_iff in H as [H|[<-|[]]]
      end; auto; cbn; rewrite ?repeat_length; auto.
  - intros d Hd. rewrite sink_deps in Hd. destruct (W2 d Hd) as (S1 & S2 & X1 & X2 & X3 & X4).
    unfold wf_dep. rewrite !sink_dims. replace (length (p_stmts pr')) with (length (p_stmts pr1)).
    repeat (split; [assumption|]). assumption.
    unfold pr', sink_statement; cbn. rewrite !map_nth_length. reflexivity.
Qed.
End Sink.

(** ** Adding a parameter *)
Lemma insert_app_r {A} (v : A) (a b : list A) k : insert_at (length a + k) v (a ++ b) = a ++ insert_at k v b.
Proof. induction a; simpl; auto. f_equal; auto. Qed.

Lemma aff_insp pos r v i p : (pos <= length p)%nat -> length r = S (length (i ++ p)) ->
  aff (insert_at (length i + pos) 0 r) (i ++ insert_at pos v p) = aff r (i ++ p).
Proof.
  intros Hp Hr. rewrite <- insert_app_r. rewrite aff_insert_both by (rewrite ?app_length in *; lia). lia.
Qed.

Lemma add_param_dom npar st pos i p v : wf_cst (s_domain st) -> ncols (s_domain st) = (s_dim st + npar + 1)%nat ->
  (pos <= npar)%nat -> length i = s_dim st -> length p = npar ->
  (mem (s_domain (stmt_add_param npar pos st)) (i ++ insert_at pos v p) <-> mem (s_domain st) (i ++ p)).
Proof.
  intros Wd C Hpos Hi Hp. cbn [stmt_add_param s_domain].
  replace (ncols (s_domain st) - 1 - npar + pos)%nat with (length i + pos)%nat by lia.
  rewrite <- insert_app_r. apply add_dim_mem; auto. rewrite app_length. lia.
Qed.

Lemma add_param_time npar st pos i p v : wf_mat (s_trans st) -> mncols (s_trans st) = (s_dim st + npar + 1)%nat ->
  (pos <= npar)%nat -> length i = s_dim st -> length p = npar ->
  timestamp (stmt_add_param npar pos st) i (insert_at pos v p) = timestamp st i p.
Proof.
  intros Wd C Hpos Hi Hp. unfold timestamp; cbn. rewrite map_map. apply map_ext_in. intros r Hr.
  replace (mncols (s_trans st) - 1 - npar + pos)%nat with (length i + pos)%nat by lia.
  apply aff_insp. lia. rewrite (Wd r Hr), C, app_length. lia.
Qed.

Lemma add_param_acc npar dim a pos i p v : wf_mat a -> mncols a = (dim + npar + 1)%nat ->
  (pos <= npar)%nat -> length i = dim -> length p = npar ->
  access_val i (insert_at pos v p) (matrix_add_col a (dim + pos)) = access_val i p a.
Proof.
  intros Wd C Hpos Hi Hp. unfold access_val; cbn. rewrite map_map. apply map_ext_in. intros r Hr.
  rewrite <- Hi. apply aff_insp. lia. rewrite (Wd r Hr), C, app_length. lia.
Qed.

Lemma add_param_stmt pr pos s : (s < length (p_stmts pr))%nat ->
  stmt_of (prog_add_param pr pos) s = stmt_add_param (p_npar pr) pos (stmt_of pr s).
Proof.
  intros H. unfold stmt_of, prog_add_param; cbn [p_stmts].
  rewrite (nth_indep _ dummy_stmt (stmt_add_param (p_npar pr) pos dummy_stmt)) by (rewrite map_length; auto).
  apply List.map_nth.
Qed.

Lemma add_param_instance pr pos d s t p v : wf_dep pr d -> (pos <= p_npar pr)%nat -> length p = p_npar pr ->
  let d' := set_polys d (add_dim (d_poly d) (ncols (d_poly d) - 1 - p_npar pr + pos)) (d_bpoly d) in
  instance (prog_add_param pr pos) d' s t (insert_at pos v p) <-> instance pr d s t p.
Proof.
  intros (S1 & S2 & X1 & X2 & X3 & X4) Hpos Hp d'. unfold instance.
  change (d_src d') with (d_src d). change (d_dst d') with (d_dst d).
  rewrite !add_param_stmt by auto. cbn [stmt_add_param s_dim d' set_polys d_poly prog_add_param p_npar].
  rewrite insert_at_length.
  assert (forall A B C B' C' : Prop, (A -> (B <-> B')) -> (A -> (C <-> C')) -> ((A /\ B /\ C) <-> (A /\ B' /\ C'))) as X by tauto.
  split.
  - intros (A1 & A2 & A3 & A4). split; [auto|split; [auto|split; [auto|]]].
    replace (ncols (d_poly d) - 1 - p_npar pr + pos)%nat with (length (s ++ t) + pos)%nat in A4 by (rewrite app_length; lia).
    rewrite app_assoc, <- insert_app_r in A4. apply add_dim_mem in A4; auto.
    rewrite <- app_assoc in A4; auto. rewrite !app_length; lia.
  - intros (A1 & A2 & A3 & A4). split; [auto|split; [auto|split; [lia|]]].
    replace (ncols (d_poly d) - 1 - p_npar pr + pos)%nat with (length (s ++ t) + pos)%nat by (rewrite app_length; lia).
    rewrite app_assoc, <- insert_app_r. apply add_dim_mem; auto. rewrite !app_length; lia.
    rewrite <- app_assoc; auto.
Qed.

(** ** Removing a statement *)
(** Number of the statement after statement [sid] has been removed. *)
Definition renum (sid s : nat) : nat := if (sid <? s)%nat then pred s else s.

(** State of the loop after the positions sid .. i-1 have been treated. *)
Definition rm_order_at (n sid i : nat) : list nat :=
  map (fun k => if (sid <=? k)%nat && (k <? i)%nat then S k else k) (seq 0 n).
Definition rm_ids_at (n sid i : nat) : list nat :=
  map (fun k => if (sid <? k)%nat && (k <=? i)%nat then pred k else k) (seq 0 n).
Definition rm_end (sid i s : nat) : nat := if (sid <? s)%nat && (s <=? i)%nat then pred s else s.
Definition rm_deps_at (sid i : nat) (l : list dep) : list dep :=
  map (fun d => set_ends d (rm_end sid i (d_src d)) (rm_end sid i (d_dst d))) l.

Lemma nth_map_seq {A} (f : nat -> A) n k d : (k < n)%nat -> nth k (map f (seq 0 n)) d = f k.
Proof.
  intros H. rewrite (nth_indep _ d (f 0%nat)) by (rewrite map_length, seq_length; auto).
  rewrite (List.map_nth f (seq 0 n) 0%nat). rewrite seq_nth; auto.
Qed.

Lemma list_eq_nth {A} (d : A) l l' : length l = length l' -> (forall k, (k < length l)%nat -> nth k l d = nth k l' d) -> l = l'.
Proof. intros. eapply nth_ext; eauto. Qed.

Ltac natb := repeat match goal with
  | |- context[(?a <? ?b)%nat] => destruct (Nat.ltb_spec a b); cbn [andb orb negb]
  | |- context[(?a <=? ?b)%nat] => destruct (Nat.leb_spec a b); cbn [andb orb negb]
  | |- context[(?a =? ?b)%nat] => destruct (Nat.eqb_spec a b); cbn [andb orb negb]
  end; cbn [andb orb negb] in *.

Lemma remove_step_spec n sid i deps : (sid <= i)%nat -> (S i < n)%nat ->
  remove_stmt_step (mkRm (rm_order_at n sid i) (rm_ids_at n sid i) (rm_deps_at sid i deps)) i =
  mkRm (rm_order_at n sid (S i)) (rm_ids_at n sid (S i)) (rm_deps_at sid (S i) deps).
Proof.
  intros H1 H2. unfold remove_stmt_step; cbn [rm_order rm_ids rm_deps].
  assert (nth (S i) (rm_order_at n sid i) 0%nat = S i) as E1.
  { unfold rm_order_at. rewrite nth_map_seq by auto. natb; lia. }
  rewrite E1.
  assert (nth (S i) (rm_ids_at n sid i) 0%nat = S i) as E2.
  { unfold rm_ids_at. rewrite nth_map_seq by auto. natb; lia. }
  rewrite E2. unfold decrement_stmt_id; cbn [rm_order rm_ids rm_deps].
  assert (set_nth i (S i) (rm_order_at n sid i) = rm_order_at n sid (S i)) as E3.
  { apply (list_eq_nth 0%nat). rewrite set_nth_length. unfold rm_order_at. rewrite !map_length, !seq_length; auto.
    intros k Hk. rewrite set_nth_length in Hk. unfold rm_order_at in *. rewrite map_length, seq_length in Hk.
    rewrite nth_map_seq by auto. destruct (Nat.eq_dec k i).
    - subst. rewrite nth_set_nth_eq by (rewrite map_length, seq_length; auto). natb; lia.
    - rewrite nth_set_nth_neq by auto. rewrite nth_map_seq by auto. natb; lia. }
  f_equal.
  - auto.
  - rewrite E3. assert (nth (S i) (rm_order_at n sid (S i)) 0%nat = S i) as E4.
    { unfold rm_order_at. rewrite nth_map_seq by auto. natb; lia. }
    rewrite E4. apply (list_eq_nth 0%nat). rewrite map_nth_length. unfold rm_ids_at. rewrite !map_length, !seq_length; auto.
    intros k Hk. rewrite map_nth_length in Hk. unfold rm_ids_at in *. rewrite map_length, seq_length in Hk.
    rewrite map_nth_nth. rewrite map_length, seq_length. rewrite !nth_map_seq by auto.
    natb; subst; try lia.
  - unfold rm_deps_at. rewrite map_map. apply map_ext. intros d. unfold set_ends, rm_end; cbn [d_src d_dst d_rar d_poly d_bpoly d_sat d_level d_satvec d_dirs]. f_equal; natb; lia.
Qed.

Lemma remove_loop_spec n sid deps k : (sid + k < n)%nat ->
  fold_left remove_stmt_step (seq sid k) (mkRm (seq 0 n) (seq 0 n) deps) =
  mkRm (rm_order_at n sid (sid + k)) (rm_ids_at n sid (sid + k)) (rm_deps_at sid (sid + k) deps).
Proof.
  induction k; intros H.
  - rewrite Nat.add_0_r. simpl. unfold rm_order_at, rm_ids_at, rm_deps_at. f_equal.
    + rewrite <- (map_id (seq 0 n)) at 1. apply map_ext. intros j. natb; lia.
    + rewrite <- (map_id (seq 0 n)) at 1. apply map_ext. intros j. natb; lia.
    + rewrite <- (map_id deps) at 1. apply map_ext. intros d. unfold rm_end, set_ends. destruct d as [d1 d2 d3 d4 d5 d6 d7 d8 d9]; cbn [d_src d_dst d_rar d_poly d_bpoly d_sat d_level d_satvec d_dirs]. f_equal; natb; lia.
  - rewrite seq_S, fold_left_app, IHk by lia. simpl. rewrite remove_step_spec by lia.
    replace (sid + S k)%nat with (S (sid + k)) by lia. auto.
Qed.

Lemma remove_at_nth {A} (d : A) sid k l : (sid < length l)%nat ->
  nth k (remove_at sid l) d = nth (if (sid <=? k)%nat then S k else k) l d.
Proof. intros H. natb. apply nth_remove_at_ge; auto. apply nth_remove_at_lt; auto. Qed.

Lemma remove_stmt_spec pr sid : (sid < length (p_stmts pr))%nat ->
  (forall d, In d (p_deps pr) -> (d_src d < length (p_stmts pr))%nat /\ (d_dst d < length (p_stmts pr))%nat) ->
  p_stmts (remove_stmt pr sid) = remove_at sid (p_stmts pr) /\
  remove_stmt_ids pr sid = seq 0 (length (p_stmts pr) - 1) /\
  p_deps (remove_stmt pr sid) = map (fun d => set_ends d (renum sid (d_src d)) (renum sid (d_dst d))) (p_deps pr).
Proof.
  intros Hs Hd. unfold remove_stmt, remove_stmt_ids, remove_stmt_loop. cbn [p_stmts p_deps].
  set (n := length (p_stmts pr)) in *.
  rewrite remove_loop_spec by lia. cbn [rm_order rm_ids rm_deps].
  replace (sid + (n - 1 - sid))%nat with (n - 1)%nat by lia.
  assert (length (rm_order_at n sid (n - 1)) = n) as L by (unfold rm_order_at; rewrite map_length, seq_length; auto).
  assert (forall k, (k < n - 1)%nat -> nth k (firstn (n - 1) (rm_order_at n sid (n - 1))) 0%nat = if (sid <=? k)%nat then S k else k) as N.
  { intros k Hk. rewrite <- (firstn_skipn (n - 1) (rm_order_at n sid (n - 1))) in L.
    transitivity (nth k (rm_order_at n sid (n - 1)) 0%nat).
    - rewrite <- (firstn_skipn (n - 1) (rm_order_at n sid (n - 1))) at 2. rewrite app_nth1; auto.
      rewrite firstn_length. rewrite app_length, firstn_length, skipn_length in L. lia.
    - unfold rm_order_at. rewrite nth_map_seq by lia. natb; lia. }
  assert (length (firstn (n - 1) (rm_order_at n sid (n - 1))) = n - 1)%nat as L' by (rewrite firstn_length; lia).
  split; [|split].
  - apply (list_eq_nth dummy_stmt). rewrite map_length, L', remove_at_length; auto.
    intros k Hk. rewrite map_length, L' in Hk.
    rewrite (nth_indep _ dummy_stmt (nth 0 (p_stmts pr) dummy_stmt)) by (rewrite map_length; lia).
    rewrite (List.map_nth (fun p => nth p (p_stmts pr) dummy_stmt) _ 0%nat). rewrite N by auto.
    rewrite remove_at_nth; auto.
  - apply (list_eq_nth 0%nat). rewrite map_length, L', seq_length; auto.
    intros k Hk. rewrite map_length, L' in Hk. rewrite seq_nth by auto.
    rewrite (nth_indep _ 0%nat (nth 0 (rm_ids_at n sid (n - 1)) 0%nat)) by (rewrite map_length; lia).
    rewrite (List.map_nth (fun p => nth p (rm_ids_at n sid (n - 1)) 0%nat) _ 0%nat). rewrite N by auto.
    unfold rm_ids_at. rewrite nth_map_seq by (natb; lia). natb; lia.
  - unfold rm_deps_at. apply map_ext_in. intros d Hi. destruct (Hd d Hi). unfold rm_end, renum. f_equal; natb; lia.
Qed.

(** ** Padding and separation *)
Lemma aff_zero n x : aff (repeat 0 n) x = 0.
Proof. apply dot_repeat0_l. Qed.

Lemma add_hyp_timestamp st ht pos i p :
  timestamp (stmt_add_hyperplane st ht pos) i p = insert_at pos 0 (timestamp st i p).
Proof. unfold timestamp; cbn. rewrite map_insert_at, aff_zero. auto. Qed.

Lemma pad_timestamp n st i p : timestamp (pad_stmt n st) i p = timestamp st i p ++ repeat 0 n.
Proof.
  revert st; induction n; intros st. simpl. rewrite app_nil_r; auto.
  cbn [pad_stmt]. rewrite IHn, add_hyp_timestamp.
  replace (mnrows (s_trans st)) with (length (timestamp st i p)) by (unfold timestamp; rewrite map_length; auto).
  rewrite insert_at_end, <- app_assoc. reflexivity.
Qed.

Lemma pad_stmt_frame n st : s_dim (pad_stmt n st) = s_dim st /\ s_domain (pad_stmt n st) = s_domain st /\
  s_reads (pad_stmt n st) = s_reads st /\ s_writes (pad_stmt n st) = s_writes st /\ s_orig (pad_stmt n st) = s_orig st.
Proof.
  revert st; induction n; intros st; cbn [pad_stmt]; auto. destruct (IHn (stmt_add_hyperplane st H_SCALAR (mnrows (s_trans st)))) as (A & B & C & D & E).
  rewrite A, B, C, D, E. auto.
Qed.

Lemma max_nrows_le l st : In st l -> (mnrows (s_trans st) <= max_nrows l)%nat.
Proof.
  unfold max_nrows.
  assert (forall l m, (m <= fold_left (fun m st => Nat.max m (mnrows (s_trans st))) l m)%nat) as M.
  { induction l0; simpl; intros; auto. etransitivity; [|apply IHl0]. lia. }
  generalize 0%nat. induction l; simpl; intros m []; auto. subst. etransitivity; [|apply M]. lia.
Qed.

Lemma pad_stmt_of pr s : (s < length (p_stmts pr))%nat ->
  stmt_of (pad_stmt_transformations pr) s =
  pad_stmt (max_nrows (p_stmts pr) - mnrows (s_trans (stmt_of pr s))) (stmt_of pr s).
Proof.
  intros H. unfold pad_stmt_transformations.
  destruct (Nat.leb_spec 1 (max_nrows (p_stmts pr))).
  - unfold stmt_of; cbn [p_stmts].
    set (f := fun st => pad_stmt (max_nrows (p_stmts pr) - mnrows (s_trans st)) st).
    rewrite (nth_indep _ dummy_stmt (f dummy_stmt)) by (rewrite map_length; auto).
    rewrite (List.map_nth f). reflexivity.
  - replace (max_nrows (p_stmts pr) - _)%nat with 0%nat by lia. auto.
Qed.

Lemma timestamp_length st i p : length (timestamp st i p) = mnrows (s_trans st).
Proof. apply map_length. Qed.

Lemma set_row_timestamp st level v i p : (level <= mnrows (s_trans st))%nat -> (1 <= mncols (s_trans st))%nat ->
  length (i ++ p) = (mncols (s_trans st) - 1)%nat ->
  timestamp (set_row_const level v (stmt_add_hyperplane st H_SCALAR level)) i p = insert_at level v (timestamp st i p).
Proof.
  intros H1 H2 H3. unfold timestamp, set_row_const; cbn [set_trans s_trans stmt_add_hyperplane mrows matrix_add_row mncols].
  rewrite map_nth_insert by auto. rewrite map_insert_at. f_equal.
  unfold aff. rewrite dot_set_nth_zero by (rewrite ?app_length in *; simpl; lia).
  rewrite <- H3, app_nth2, Nat.sub_diag by lia. simpl. lia.
Qed.

(** The fold over the listed statements. *)
Lemma fold_map_nth_other (F : nat -> stmt -> stmt) l a ss s : ~ In s l ->
  nth s (fold_left (fun ss kv => map_nth (snd kv) (F (fst kv)) ss) (combine (seq a (length l)) l) ss) dummy_stmt = nth s ss dummy_stmt.
Proof.
  revert a ss; induction l; simpl; intros a0 ss H; auto. rewrite IHl by tauto. rewrite map_nth_nth.
  destruct (Nat.eqb_spec s a); auto. subst; tauto.
Qed.
Lemma fold_map_nth_len (F : nat -> stmt -> stmt) l a ss :
  length (fold_left (fun ss kv => map_nth (snd kv) (F (fst kv)) ss) (combine (seq a (length l)) l) ss) = length ss.
Proof. revert a ss; induction l; simpl; intros; auto. rewrite IHl. apply map_nth_length. Qed.
Lemma fold_map_nth_at (F : nat -> stmt -> stmt) l a ss k : NoDup l -> (k < length l)%nat -> (nth k l 0 < length ss)%nat ->
  nth (nth k l 0%nat) (fold_left (fun ss kv => map_nth (snd kv) (F (fst kv)) ss) (combine (seq a (length l)) l) ss) dummy_stmt
  = F (a + k)%nat (nth (nth k l 0%nat) ss dummy_stmt).
Proof.
  revert a ss k; induction l; simpl; intros a0 ss k N Hk Hs; [lia|]. inversion N; subst.
  destruct k.
  - rewrite fold_map_nth_other by auto. rewrite map_nth_nth. rewrite Nat.eqb_refl, (proj2 (Nat.ltb_lt _ _) Hs). simpl.
    rewrite Nat.add_0_r. auto.
  - rewrite IHl; auto; try lia.
    + rewrite map_nth_nth. destruct (Nat.eqb_spec (nth k l 0) a)%nat.
      * exfalso. apply H1. rewrite <- e. apply nth_In. lia.
      * simpl. f_equal. lia.
    + rewrite map_nth_length. auto.
Qed.

Lemma nth_map_stmt (f : stmt -> stmt) l s : (s < length l)%nat -> nth s (map f l) dummy_stmt = f (nth s l dummy_stmt).
Proof.
  intros H. rewrite (nth_indep _ dummy_stmt (f dummy_stmt)) by (rewrite map_length; auto). apply List.map_nth.
Qed.

Lemma separate_timestamp pr l level offset s i p : wf_prog pr -> (level <= length (p_hprops pr))%nat ->
  NoDup l -> (s < length (p_stmts pr))%nat -> length i = s_dim (stmt_of pr s) -> length p = p_npar pr ->
  (forall k, (k < length l)%nat -> nth k l 0%nat = s ->
     timestamp (stmt_of (separate_stmts pr l level offset) s) i p = insert_at level (offset + 1 + Z.of_nat k) (timestamp (stmt_of pr s) i p)) /\
  (~ In s l -> timestamp (stmt_of (separate_stmts pr l level offset) s) i p = insert_at level 0 (timestamp (stmt_of pr s) i p)).
Proof.
  intros [W1 W2] Hl N Hs Hi Hp.
  destruct (W1 _ (stmt_of_in pr s Hs)) as (A1 & A2 & A3 & A4 & A5 & A6 & A7 & A8).
  unfold separate_stmts, prog_add_hyperplane, stmt_of at 1 3; cbn [set_hprops set_stmts p_stmts].
  set (F := fun k => set_row_const level (offset + 1 + Z.of_nat k)).
  split.
  - intros k Hk E. rewrite <- E.
    pose proof (fold_map_nth_at F l 0 (map (fun st => stmt_add_hyperplane st H_SCALAR level) (p_stmts pr)) k N Hk) as X.
    unfold F in X at 1. rewrite X by (rewrite map_length, E; auto).
    rewrite E. rewrite nth_map_stmt by auto. fold (stmt_of pr s). unfold F. simpl (0 + k)%nat.
    apply set_row_timestamp; [lia|lia|]. rewrite app_length. lia.
  - intros Hn. unfold stmt_of at 1; cbn [p_stmts].
    pose proof (fold_map_nth_other F l 0 (map (fun st => stmt_add_hyperplane st H_SCALAR level) (p_stmts pr)) s Hn) as X.
    unfold F in X at 1. rewrite X. rewrite nth_map_stmt by auto. fold (stmt_of pr s). apply add_hyp_timestamp.
Qed.

(** ** Interchange *)
Lemma map_swap_nth {A B} (f : A -> B) (d : A) i j l :
  map f (swap_nth d i j l) = swap_nth (f d) i j (map f l).
Proof. unfold swap_nth. rewrite <- !set_nth_map, !(List.map_nth f). auto. Qed.

Lemma interchange_timestamp st l1 l2 i p : (l1 < mnrows (s_trans st))%nat -> (l2 < mnrows (s_trans st))%nat ->
  timestamp (stmt_loop_interchange l1 l2 st) i p = swap_nth 0 l1 l2 (timestamp st i p).
Proof.
  intros H1 H2. unfold timestamp; cbn. rewrite map_swap_nth. unfold swap_nth.
  rewrite !(nth_indep _ (aff [] (i ++ p)) 0) by (rewrite ?map_length; auto). auto.
Qed.

Lemma interchange_rows_n st l1 l2 : mnrows (s_trans (stmt_loop_interchange l1 l2 st)) = mnrows (s_trans st).
Proof. unfold mnrows; cbn. apply swap_nth_length. Qed.

Lemma rotate_timestamp from to st i p : (to < mnrows (s_trans st))%nat -> (from <= to)%nat ->
  timestamp (rotate_stmt from to st) i p = move_down 0 from to (timestamp st i p).
Proof.
  intros H1 H2. unfold rotate_stmt.
  replace to with (from + (to - from))%nat at 2 by lia. rewrite <- swaps_move by (rewrite timestamp_length; lia).
  assert (forall k, In k (seq from (to - from)) -> (S k < mnrows (s_trans st))%nat) as K.
  { intros k Hk. apply in_seq in Hk. lia. }
  revert st H1 K. induction (seq from (to - from)); simpl; intros; auto.
  rewrite IHl.
  - rewrite interchange_timestamp by (specialize (K a); lia). auto.
  - rewrite interchange_rows_n; auto.
  - intros k Hk. rewrite interchange_rows_n; auto.
Qed.

Lemma rotate_id from to st : (to <= from)%nat -> rotate_stmt from to st = st.
Proof. intros H. unfold rotate_stmt. replace (to - from)%nat with 0%nat by lia. auto. Qed.

Lemma rotate_dim from to st : s_dim (rotate_stmt from to st) = s_dim st.
Proof. unfold rotate_stmt. revert st. induction (seq from (to - from)); simpl; intros; auto. rewrite IHl. auto. Qed.

Lemma timestamp_nth st k i p : (k < mnrows (s_trans st))%nat -> nth k (timestamp st i p) 0 = theta st k i p.
Proof.
  intros H. unfold timestamp, theta. rewrite (nth_indep _ 0 (aff [] (i ++ p))) by (rewrite map_length; auto).
  rewrite (List.map_nth (fun r => aff r (i ++ p))). auto.
Qed.

Lemma firstn_eq_nth (a : nat) (x y : list Z) : firstn a x = firstn a y -> forall k, (k < a)%nat -> nth k x 0 = nth k y 0.
Proof.
  revert x y; induction a; intros x y H k Hk; [lia|]. destruct x, y; simpl in H; try discriminate; auto.
  destruct k; simpl; inversion H; auto. apply IHa; auto. lia.
Qed.

Lemma wf_rows pr s : wf_prog pr -> (s < length (p_stmts pr))%nat -> mnrows (s_trans (stmt_of pr s)) = length (p_hprops pr).
Proof. intros [W _] Hs. destruct (W _ (stmt_of_in pr s Hs)) as (_ & _ & _ & H & _). auto. Qed.

(** Reordering the rows of source and target in the same way. *)
Lemma respected_reorder pr pr' d a b sigma : wf_prog pr -> wf_dep pr d -> (a <= b)%nat -> (a <= length (p_hprops pr))%nat -> (b <= length (p_hprops pr))%nat ->
  reorders (length (p_hprops pr)) a b sigma ->
  (forall s t p, instance pr' d s t p -> instance pr d s t p) ->
  (forall s p, timestamp (stmt_of pr' (d_src d)) s p = permute_rows sigma (timestamp (stmt_of pr (d_src d)) s p)) ->
  (forall t p, timestamp (stmt_of pr' (d_dst d)) t p = permute_rows sigma (timestamp (stmt_of pr (d_dst d)) t p)) ->
  permutable_on pr d a b -> respected pr d -> respected pr' d.
Proof.
  intros W Wd Hab Ha Hb R HI Hs Ht P L s t p I. apply HI in I. rewrite Hs, Ht.
  destruct Wd as (S1 & S2 & _).
  apply lexlt_reorder with (n := length (p_hprops pr)) (a := a) (b := b); auto.
  - rewrite timestamp_length. apply wf_rows; auto.
  - rewrite timestamp_length. apply wf_rows; auto.
  - intros E k Hk. pose proof (wf_rows pr _ W S1) as N1. pose proof (wf_rows pr _ W S2) as N2.
    rewrite !timestamp_nth by lia. specialize (P s t p I).
    assert (0 <= distance pr d k s t p) as D.
    { apply P; auto. intros j Hj. unfold distance. rewrite <- !timestamp_nth by lia.
      rewrite (firstn_eq_nth _ _ _ E j Hj). lia. }
    unfold distance in D. lia.
Qed.

Lemma interchange_stmt pr l1 l2 s : (s < length (p_stmts pr))%nat ->
  stmt_of (interchange pr l1 l2) s = stmt_loop_interchange l1 l2 (stmt_of pr s).
Proof. intros H. unfold stmt_of, interchange; cbn [p_stmts]. apply nth_map_stmt; auto. Qed.

Lemma interchange_legal pr l1 l2 a b d : wf_prog pr -> wf_dep pr d -> (a <= l1 < b)%nat -> (a <= l2 < b)%nat ->
  (b <= length (p_hprops pr))%nat -> permutable_on pr d a b -> respected pr d -> respected (interchange pr l1 l2) d.
Proof.
  intros W Wd H1 H2 Hb. pose proof Wd as (S1 & S2 & _). apply respected_reorder with (sigma := swap_nth 0%nat l1 l2 (seq 0 (length (p_hprops pr)))); auto; try lia.
  - apply swap_reorders; auto.
  - intros s t p. unfold instance. rewrite !interchange_stmt by auto. auto.
  - intros s p. pose proof (wf_rows pr _ W S1). rewrite interchange_stmt by auto. rewrite interchange_timestamp by lia. apply swap_permute; try lia.
    rewrite timestamp_length. auto.
  - intros s p. pose proof (wf_rows pr _ W S2). rewrite interchange_stmt by auto. rewrite interchange_timestamp by lia. apply swap_permute; try lia.
    rewrite timestamp_length. auto.
Qed.

(** *** Moving a loop innermost *)
Lemma fold_map_nth_in (f : stmt -> stmt) l ss s : NoDup l -> In s l -> (s < length ss)%nat ->
  nth s (fold_left (fun ss s => map_nth s f ss) l ss) dummy_stmt = f (nth s ss dummy_stmt).
Proof.
  revert ss; induction l; simpl; intros ss N Hi Hs; [tauto|]. inversion N; subst.
  assert (forall l ss, ~ In s l -> nth s (fold_left (fun ss s => map_nth s f ss) l ss) dummy_stmt = nth s ss dummy_stmt) as K.
  { clear. induction l; simpl; intros; auto. rewrite IHl by tauto. rewrite map_nth_nth.
    destruct (Nat.eqb_spec s a); auto. subst; tauto. }
  destruct Hi as [->|Hi].
  - rewrite K by auto. rewrite map_nth_nth, Nat.eqb_refl, (proj2 (Nat.ltb_lt _ _) Hs). auto.
  - rewrite IHl; auto. rewrite map_nth_nth. destruct (Nat.eqb_spec s a); auto. subst; tauto.
    rewrite map_nth_length; auto.
Qed.
Lemma fold_map_nth_notin (f : stmt -> stmt) l ss s : ~ In s l ->
  nth s (fold_left (fun ss s => map_nth s f ss) l ss) dummy_stmt = nth s ss dummy_stmt.
Proof.
  revert ss; induction l; simpl; intros; auto. rewrite IHl by tauto. rewrite map_nth_nth.
  destruct (Nat.eqb_spec s a); auto. subst; tauto.
Qed.

Definition innermost_to (pr : prog) (lp : ploop) (last_level : nat) (across : bool) : nat :=
  if across then (last_level - 1)%nat else Z.to_nat (last_depth pr lp).

Lemma fold_min_le (f : nat -> Z) l m : fold_left (fun ld s => Z.min ld (f s)) l m <= m.
Proof. revert m; induction l; simpl; intros; [lia|]. etransitivity; [apply IHl|]. lia. Qed.
Lemma fold_min_in (f : nat -> Z) l m s : In s l -> fold_left (fun ld s => Z.min ld (f s)) l m <= f s.
Proof.
  revert m; induction l; simpl; intros m []; auto. subst. etransitivity; [apply fold_min_le|]. lia.
Qed.

Lemma last_depth_le pr lp : last_depth pr lp <= Z.of_nat (length (p_hprops pr)) - 1.
Proof. unfold last_depth. apply (fold_min_le (fun s => pred_unsigned _)). Qed.

Lemma innermost_in pr lp ll across s : NoDup (l_stmts lp) -> (s < length (p_stmts pr))%nat -> In s (l_stmts lp) ->
  stmt_of (make_innermost_loop pr lp ll across) s = rotate_stmt (l_depth lp) (innermost_to pr lp ll across) (stmt_of pr s).
Proof. intros N Hs Hi. unfold make_innermost_loop, stmt_of at 1; cbn [set_stmts p_stmts]. rewrite fold_map_nth_in; auto. Qed.
Lemma innermost_notin pr lp ll across s : ~ In s (l_stmts lp) ->
  stmt_of (make_innermost_loop pr lp ll across) s = stmt_of pr s.
Proof. intros Hi. unfold make_innermost_loop, stmt_of at 1; cbn [set_stmts p_stmts]. rewrite fold_map_nth_notin; auto. Qed.

Lemma innermost_dim pr lp ll across s : s_dim (stmt_of (make_innermost_loop pr lp ll across) s) = s_dim (stmt_of pr s).
Proof.
  unfold make_innermost_loop, stmt_of; cbn [set_stmts p_stmts]. revert s.
  generalize (p_stmts pr) as ss. generalize (if across then (ll - 1)%nat else Z.to_nat (last_depth pr lp)) as to.
  intros to. induction (l_stmts lp); intros ss s; simpl; auto. rewrite IHl. rewrite map_nth_nth.
  destruct (Nat.eqb_spec s a); auto. subst. destruct (a <? length ss)%nat; simpl; auto. apply rotate_dim.
Qed.

Lemma rotate_prefix from to st i p : (to < mnrows (s_trans st))%nat ->
  firstn from (timestamp (rotate_stmt from to st) i p) = firstn from (timestamp st i p).
Proof.
  intros H. destruct (le_lt_dec to from).
  - rewrite rotate_id by auto. auto.
  - rewrite rotate_timestamp by lia. unfold move_down. rewrite firstn_insert, firstn_remove; auto. lia.
    rewrite remove_at_length by (rewrite timestamp_length; lia). rewrite timestamp_length. lia.
Qed.

Lemma innermost_legal pr lp ll across d to : wf_prog pr -> wf_dep pr d -> NoDup (l_stmts lp) ->
  (forall s, In s (l_stmts lp) -> (s < length (p_stmts pr))%nat) ->
  to = innermost_to pr lp ll across -> (to < length (p_hprops pr))%nat ->
  (In (d_src d) (l_stmts lp) -> In (d_dst d) (l_stmts lp) -> permutable_on pr d (l_depth lp) (S to)) ->
  (~ (In (d_src d) (l_stmts lp) <-> In (d_dst d) (l_stmts lp)) -> separated_before pr d (l_depth lp)) ->
  respected pr d -> respected (make_innermost_loop pr lp ll across) d.
Proof.
  intros W Wd N Hl Eto Hto Hp Hsep L.
  pose proof Wd as (S1 & S2 & _).
  assert (forall s t p, instance (make_innermost_loop pr lp ll across) d s t p -> instance pr d s t p) as HI.
  { intros s t p. unfold instance. rewrite !innermost_dim. auto. }
  pose proof (wf_rows pr _ W S1) as N1. pose proof (wf_rows pr _ W S2) as N2.
  destruct (in_dec Nat.eq_dec (d_src d) (l_stmts lp)) as [Is|Is], (in_dec Nat.eq_dec (d_dst d) (l_stmts lp)) as [It|It].
  - destruct (le_lt_dec to (l_depth lp)).
    + intros s t p I. apply HI in I. rewrite !innermost_in by auto. rewrite <- Eto. rewrite !rotate_id by auto. apply L; auto.
    + specialize (Hp Is It).
      apply respected_reorder with (pr := pr) (a := l_depth lp) (b := S to) (sigma := move_down 0%nat (l_depth lp) to (seq 0 (length (p_hprops pr)))); auto; try lia.
      * apply move_reorders; lia.
      * intros s p. rewrite innermost_in by auto. rewrite <- Eto. rewrite rotate_timestamp by lia. apply move_permute; try lia. rewrite timestamp_length; auto.
      * intros s p. rewrite innermost_in by auto. rewrite <- Eto. rewrite rotate_timestamp by lia. apply move_permute; try lia. rewrite timestamp_length; auto.
  - intros s t p I. apply HI in I. apply lexlt_prefix with (l_depth lp).
    rewrite innermost_in by auto. rewrite innermost_notin by auto. rewrite rotate_prefix by lia. apply Hsep; tauto.
  - intros s t p I. apply HI in I. apply lexlt_prefix with (l_depth lp).
    rewrite (innermost_in pr lp ll across (d_dst d)) by auto. rewrite innermost_notin by auto. rewrite rotate_prefix by lia. apply Hsep; tauto.
  - intros s t p I. apply HI in I. rewrite !innermost_notin by auto. apply L; auto.
Qed.

(** The levels passed are not scalar (depth > 0). *)
Lemma first_scalar_ge st n d : (d <= first_scalar st n d)%nat.
Proof. revert d; induction n; simpl; intros; auto. destruct (is_hyperplane_scalar st d); auto. specialize (IHn (S d)). lia. Qed.
Lemma first_scalar_not st n d k : (d <= k < first_scalar st n d)%nat -> is_hyperplane_scalar st k = false.
Proof.
  revert d; induction n; simpl; intros d H; [lia|]. destruct (is_hyperplane_scalar st d) eqn:E; [lia|].
  destruct (Nat.eq_dec k d). subst; auto. apply (IHn (S d)). lia.
Qed.

Lemma scalar_iff st k : is_hyperplane_scalar st k = true <-> (forall j, (j < s_dim st)%nat -> mget (s_trans st) k j = 0).
Proof.
  unfold is_hyperplane_scalar. rewrite forallb_forall. split.
  - intros H j Hj. apply Z.eqb_eq. apply H. apply in_seq. lia.
  - intros H j Hj. apply in_seq in Hj. apply Z.eqb_eq. apply H. lia.
Qed.

Lemma innermost_not_scalar pr lp s k : In s (l_stmts lp) -> (0 < l_depth lp)%nat ->
  (l_depth lp <= k <= Z.to_nat (last_depth pr lp))%nat -> 0 <= last_depth pr lp ->
  is_hyperplane_scalar (stmt_of pr s) k = false.
Proof.
  intros Hs H0 Hk H1.
  pose proof (fold_min_in (fun s => pred_unsigned (first_scalar (stmt_of pr s) (mnrows (s_trans (stmt_of pr s)) - l_depth lp) (l_depth lp)))
    (l_stmts lp) (Z.of_nat (length (p_hprops pr)) - 1) s Hs) as H.
  change (fold_left _ _ _) with (last_depth pr lp) in H. cbn beta in H.
  set (n := (mnrows (s_trans (stmt_of pr s)) - l_depth lp)%nat) in *.
  pose proof (first_scalar_ge (stmt_of pr s) n (l_depth lp)).
  apply first_scalar_not with (n := n) (d := l_depth lp). unfold pred_unsigned in H.
  destruct (Nat.eqb_spec (first_scalar (stmt_of pr s) n (l_depth lp)) 0); lia.
Qed.
