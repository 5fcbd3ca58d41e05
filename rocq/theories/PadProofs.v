(** * Proofs about the padding of iteration spaces around the search
    ([normalize_domains], [denormalize_domains]). *)
From Coq Require Import ZArith List Bool Arith Lia.
From Verif Require Import SpecLinear SpecMatrix VecProofs MathModel ConstraintsModel SimplifyProofs FMProofs EditProofs FarkasProofs
  RankProofs MatrixProofs SpecGraph GraphModel GraphProofs GraphProofs2
  SpecProg SpecDriver FrameworkModel FrameworkProofs SumProofs DepProofs LexProofs ProgModel ProgProofs DriverModel HypProofs DriverProofs.
Import ListNotations.
Open Scope Z_scope.

(** The iteration of the padded statement that stands for iteration [x] of the
    original one. *)
Definition zp (pr : prog) (s : nat) (x : point) : point :=
  x ++ repeat 0 (s_dim (stmt_of pr s) - length x).
Definition dim0 (pr : prog) (s : nat) : nat := s_dim_orig (stmt_of pr s).

(** Two programs have the same iterations, accesses and dependence instances on
    the original dimensions. *)
Definition dep_agree (a b : prog) (d d' : dep) : Prop :=
  d_src d' = d_src d /\ d_dst d' = d_dst d /\ d_rar d' = d_rar d /\
  forall x y p, length x = dim0 a (d_src d) -> length y = dim0 a (d_dst d) -> length p = p_npar a ->
    (mem (d_poly d') (zp b (d_src d) x ++ zp b (d_dst d) y ++ p) <-> mem (d_poly d) (zp a (d_src d) x ++ zp a (d_dst d) y ++ p)).
Record agree (a b : prog) : Prop := {
  ag_n : length (p_stmts b) = length (p_stmts a);
  ag_var : p_nvar b = p_nvar a;
  ag_par : p_npar b = p_npar a;
  ag_dim0 : forall s, dim0 b s = dim0 a s;
  ag_dom : forall s x p, (s < length (p_stmts a))%nat -> length x = dim0 a s -> length p = p_npar a ->
    (mem (s_domain (stmt_of b s)) (zp b s x ++ p) <-> mem (s_domain (stmt_of a s)) (zp a s x ++ p));
  ag_acc : forall s x p, (s < length (p_stmts a))%nat -> length x = dim0 a s -> length p = p_npar a ->
    map (access_val (zp b s x) p) (s_reads (stmt_of b s)) = map (access_val (zp a s x) p) (s_reads (stmt_of a s)) /\
    map (access_val (zp b s x) p) (s_writes (stmt_of b s)) = map (access_val (zp a s x) p) (s_writes (stmt_of a s));
  ag_dep : Forall2 (dep_agree a b) (p_deps a) (p_deps b) }.
Definition same_time (a b : prog) : Prop :=
  forall s x p, (s < length (p_stmts a))%nat -> length x = dim0 a s -> length p = p_npar a ->
    timestamp (stmt_of b s) (zp b s x) p = timestamp (stmt_of a s) (zp a s x) p.

Lemma Forall2_refl_in {A} (R : A -> A -> Prop) l : (forall x, R x x) -> Forall2 R l l.
Proof. intros H. induction l; constructor; auto. Qed.
Lemma Forall2_map_in {A} (R : A -> A -> Prop) f l : (forall x, In x l -> R x (f x)) -> Forall2 R l (map f l).
Proof. intros H. induction l; cbn; constructor; auto. apply H; simpl; auto. apply IHl. intros; apply H; simpl; auto. Qed.

Lemma agree_refl a : agree a a.
Proof.
  constructor; auto; try (intros; tauto). apply Forall2_refl_in. intros d. unfold dep_agree. intuition.
Qed.
Lemma agree_trans a b c : agree a b -> agree b c -> agree a c.
Proof.
  intros A B. destruct A as [A1 A2 A3 A4 A5 A6 A7], B as [B1 B2 B3 B4 B5 B6 B7].
  constructor; try congruence.
  - intros s x p H1 H2 H3. rewrite B5, A5 by (rewrite ?A1, ?A3, ?A4; auto). tauto.
  - intros s x p H1 H2 H3. destruct (B6 s x p) as [K1 K2]; [rewrite ?A1, ?A3, ?A4; auto..|].
    destruct (A6 s x p H1 H2 H3) as [L1 L2]. split; congruence.
  - clear - A7 B7 A3 A4. revert A7 B7. generalize (p_deps a) (p_deps b) (p_deps c). intros l l' l'' H. revert l''.
    induction H as [|d d' l l' D _ IH]; intros l'' H''; inversion H''; subst; constructor; auto.
    destruct D as (D1 & D2 & D3 & D4). destruct H1 as (E1 & E2 & E3 & E4).
    split; [congruence|]. split; [congruence|]. split; [congruence|].
    intros x z p Lx Lz Lp. rewrite <- D4 by auto. rewrite <- D1, <- D2. apply E4; rewrite ?D1, ?D2, ?A3, ?A4; auto.
Qed.
Lemma agree_sym a b : agree a b -> agree b a.
Proof.
  intros [A1 A2 A3 A4 A5 A6 A7]. constructor; try congruence; auto.
  - intros s x p H1 H2 H3. symmetry. apply A5; congruence.
  - intros s x p H1 H2 H3. destruct (A6 s x p) as [L1 L2]; try congruence. split; congruence.
  - clear - A7 A3 A4. induction A7 as [|d d' l l' D _ IH]; constructor; auto. destruct D as (D1 & D2 & D3 & D4).
    unfold dep_agree. rewrite D1, D2. split; [auto|]. split; [auto|]. split; [auto|]. intros x y p Lx Ly Lp. symmetry. apply D4; congruence.
Qed.
Lemma same_time_refl a : same_time a a.
Proof. intros s x p _ _ _. auto. Qed.
Lemma same_time_trans a b c : agree a b -> same_time a b -> same_time b c -> same_time a c.
Proof.
  intros A H K s x p H1 H2 H3. rewrite K. apply H; auto. rewrite (ag_n _ _ A); auto. rewrite (ag_dim0 _ _ A); auto. rewrite (ag_par _ _ A); auto.
Qed.

Lemma frame_agree a b : frame a b -> agree a b.
Proof.
  intros (A1 & A2 & A3 & A4 & A5). constructor; auto.
  - intros s. unfold dim0. destruct (A4 s) as (_ & -> & _). auto.
  - intros s x p _ _ _. unfold zp. destruct (A4 s) as (-> & _ & _ & -> & _). tauto.
  - intros s x p _ _ _. unfold zp. destruct (A4 s) as (-> & _ & _ & _ & -> & ->). tauto.
  - clear A3. induction A5 as [|d d' l l' D _ IH]; constructor; auto. destruct D as (D1 & D2 & D3 & D4 & D5).
    split; [auto|]. split; [auto|]. split; [auto|]. intros x y p _ _ _. unfold zp. rewrite D4.
    destruct (A4 (d_src d)) as (-> & _). destruct (A4 (d_dst d)) as (-> & _). tauto.
Qed.

(** Only the bounding polyhedra, satisfaction flags, ... of dependences differ. *)
Lemma agree_deps a f : (forall d, In d (p_deps a) -> d_src (f d) = d_src d /\ d_dst (f d) = d_dst d /\ d_rar (f d) = d_rar d /\ d_poly (f d) = d_poly d) ->
  agree a (set_deps a (map f (p_deps a))).
Proof.
  intros H. constructor; auto; try (intros; tauto). cbn [set_deps p_deps]. apply Forall2_map_in. intros d Hd.
  destruct (H d Hd) as (H1 & H2 & H3 & H4). split; [auto|]. split; [auto|]. split; [auto|]. rewrite H4. intros; reflexivity.
Qed.

(** ** Padding *)

Lemma insert_end {A} k (v : A) l : k = length l -> insert_at k v l = l ++ [v].
Proof. intros ->. induction l; cbn; congruence. Qed.
Lemma repeat_snoc {A} (v : A) n : repeat v n ++ [v] = repeat v (S n).
Proof. induction n; cbn; auto. f_equal. auto. Qed.

Lemma zp_length pr s x : (length x <= s_dim (stmt_of pr s))%nat -> length (zp pr s x) = s_dim (stmt_of pr s).
Proof. intros H. unfold zp. rewrite app_length, repeat_length. lia. Qed.

Section Pad1.
Variables (pr : prog) (sid : nat).
Hypothesis W : wf_shapes pr.
Hypothesis Hs : (sid < length (p_stmts pr))%nat.
Hypothesis Hd0 : forall s, (dim0 pr s <= s_dim (stmt_of pr s))%nat.
Let k := s_dim (stmt_of pr sid).
Let q := sink_statement pr sid k 0.

Lemma sink_zp s x : (length x <= s_dim (stmt_of pr s))%nat -> zp q s x = widen sid k s 0 (zp pr s x).
Proof.
  intros H. unfold widen. unfold zp at 1. unfold q. rewrite sink_stmt by auto. destruct (Nat.eqb_spec s sid) as [->|N]; auto.
  cbn [sink1 s_dim set_orig set_domain stmt_add_dim1]. fold k. rewrite insert_end by (rewrite zp_length; auto).
  unfold zp. rewrite <- app_assoc, repeat_snoc. do 2 f_equal. unfold k in *. lia.
Qed.

Lemma pad1_agree : agree pr q.
Proof.
  constructor.
  - unfold q, sink_statement; cbn. rewrite !map_nth_length. auto.
  - reflexivity.
  - reflexivity.
  - intros s. unfold dim0, q. rewrite sink_stmt by auto. destruct (Nat.eqb_spec s sid) as [->|]; auto.
  - intros s x p H1 H2 H3. assert (length x <= s_dim (stmt_of pr s))%nat as Lx by (rewrite H2; apply Hd0).
    rewrite sink_zp by auto. unfold widen. destruct (Nat.eqb_spec s sid) as [->|N].
    + unfold q. rewrite (sink_dom pr sid k 0 W Hs) by (auto; rewrite zp_length; auto). tauto.
    + unfold q. rewrite sink_stmt by auto. destruct (Nat.eqb_spec s sid); [lia|]. tauto.
  - intros s x p H1 H2 H3. assert (length x <= s_dim (stmt_of pr s))%nat as Lx by (rewrite H2; apply Hd0).
    rewrite sink_zp by auto. unfold widen, q. rewrite sink_stmt by auto. destruct (Nat.eqb_spec s sid) as [->|N]; auto.
    cbn [sink1 set_orig set_domain stmt_add_dim1 s_reads s_writes]. rewrite !map_map.
    destruct (proj1 W _ (stmt_of_in pr sid Hs)) as (_ & _ & _ & _ & _ & F).
    split; apply map_ext_in; intros m Hm; apply (access_ins (p_npar pr) (s_dim (stmt_of pr sid)));
      try apply (F m); try apply in_or_app; auto; try (rewrite zp_length; auto); fold k; lia.
  - change (p_deps q) with (map (dep_add_dim sid k (p_stmts (stmt_add_dim pr sid k None H_SCALAR))) (p_deps pr)).
    apply Forall2_map_in. intros d Hd. set (d' := dep_add_dim _ _ _ d).
    assert (d_src d' = d_src d) as Es by (unfold d', dep_add_dim; destruct (_ =? _)%nat, (_ =? _)%nat; auto).
    assert (d_dst d' = d_dst d) as Ed by (unfold d', dep_add_dim; destruct (_ =? _)%nat, (_ =? _)%nat; auto).
    assert (d_rar d' = d_rar d) as Er by (unfold d', dep_add_dim; destruct (_ =? _)%nat, (_ =? _)%nat; auto).
    split; [auto|]. split; [auto|]. split; [auto|]. intros x y p Lx Ly Lp.
    assert (length x <= s_dim (stmt_of pr (d_src d)))%nat as Bx by (rewrite Lx; apply Hd0).
    assert (length y <= s_dim (stmt_of pr (d_dst d)))%nat as By by (rewrite Ly; apply Hd0).
    rewrite !sink_zp by auto. unfold d'.
    destruct (dep_add_poly pr sid k None H_SCALAR d) as [E1 _]. rewrite E1.
    destruct (proj2 W d Hd) as (_ & _ & Wp & _). apply poly_add_mem; auto; apply zp_length; auto.
Qed.
End Pad1.

(** What the search needs of the padded program. *)
Record cleared (pr : prog) : Prop := {
  c_wf : wf_shapes pr;
  c_stmt : forall s, (s < length (p_stmts pr))%nat ->
    (dim0 pr s <= s_dim (stmt_of pr s) <= p_nvar pr)%nat /\ mrows (s_trans (stmt_of pr s)) = [] /\ s_hyp (stmt_of pr s) = [] /\
    s_orig (stmt_of pr s) = repeat true (dim0 pr s) ++ repeat false (s_dim (stmt_of pr s) - dim0 pr s) }.
Definition sat_kept (a b : prog) : Prop := Forall2 (fun d d' => d_sat d' = d_sat d) (p_deps a) (p_deps b).
Record padok (a b : prog) : Prop := {
  po_cl : cleared b;
  po_ag : agree a b;
  po_scc : forall s, scc_of b s = scc_of a s;
  po_sat : sat_kept a b }.

Lemma cleared_dim0 pr s : cleared pr -> (dim0 pr s <= s_dim (stmt_of pr s))%nat.
Proof.
  intros C. destruct (le_lt_dec (length (p_stmts pr)) s) as [L|L].
  - unfold dim0, stmt_of. rewrite nth_overflow by auto. cbn. lia.
  - destruct (c_stmt _ C s L). lia.
Qed.
Lemma padok_refl a : cleared a -> padok a a.
Proof. intros C. constructor; auto using agree_refl. apply Forall2_refl_in; auto. Qed.
Lemma sat_kept_trans a b c : sat_kept a b -> sat_kept b c -> sat_kept a c.
Proof.
  unfold sat_kept. generalize (p_deps a) (p_deps b) (p_deps c). intros l l' l'' H. revert l''.
  induction H; intros l'' H''; inversion H''; subst; constructor; auto. congruence.
Qed.
Lemma padok_trans a b c : padok a b -> padok b c -> padok a c.
Proof.
  intros [A1 A2 A3 A4] [B1 B2 B3 B4]. constructor; auto.
  eapply agree_trans; eauto. intros s. rewrite B3. auto. eapply sat_kept_trans; eauto.
Qed.

Lemma set_nth_end {A} (v w : A) l : set_nth (length l) v (l ++ [w]) = l ++ [v].
Proof. induction l; cbn; congruence. Qed.

Lemma pad1_ok pr sid : cleared pr -> (sid < length (p_stmts pr))%nat -> (s_dim (stmt_of pr sid) < p_nvar pr)%nat ->
  padok pr (sink_statement pr sid (s_dim (stmt_of pr sid)) 0).
Proof.
  intros C Hs Hv. pose proof (c_wf _ C) as W. assert (forall s, (dim0 pr s <= s_dim (stmt_of pr s))%nat) as D by (intros; apply cleared_dim0; auto).
  pose proof (pad1_agree pr sid W Hs D) as A. constructor; auto.
  - constructor. apply sink_wf; auto. intros s Ls. rewrite (ag_n _ _ A) in Ls. destruct (c_stmt _ C s Ls) as (H1 & H2 & H3 & H4).
    rewrite (ag_dim0 _ _ A). rewrite sink_stmt by auto. destruct (Nat.eqb_spec s sid) as [->|N]; auto.
    cbn [sink1 set_orig set_domain stmt_add_dim1 s_dim s_trans s_hyp s_orig p_nvar sink_statement set_stmts stmt_add_dim].
    split; [lia|]. split; [cbn [matrix_add_col mrows]; rewrite H2; auto|]. split; auto.
    destruct (proj1 W _ (stmt_of_in pr sid Hs)) as (Lo & _). rewrite insert_end by auto. rewrite <- Lo at 1. rewrite set_nth_end, H4.
    rewrite <- app_assoc, repeat_snoc. do 2 f_equal. specialize (D sid). lia.
  - intros s. unfold scc_of. rewrite sink_stmt by auto. destruct (Nat.eqb_spec s sid) as [->|N]; auto.
  - apply Forall2_map_in. intros d _. unfold dep_add_dim. destruct (_ =? _)%nat, (_ =? _)%nat; auto.
Qed.

Lemma pad_domain_ok pr sid : cleared pr -> (sid < length (p_stmts pr))%nat ->
  padok pr (pad_domain pr sid) /\ s_dim (stmt_of (pad_domain pr sid) sid) = p_nvar pr /\
  (forall s, s <> sid -> s_dim (stmt_of (pad_domain pr sid) s) = s_dim (stmt_of pr s)).
Proof.
  intros C Hs. unfold pad_domain. set (f := fun q => _).
  assert (forall n, (n <= p_nvar pr - s_dim (stmt_of pr sid))%nat -> padok pr (Nat.iter n f pr) /\
    s_dim (stmt_of (Nat.iter n f pr) sid) = (n + s_dim (stmt_of pr sid))%nat /\
    (forall s, s <> sid -> s_dim (stmt_of (Nat.iter n f pr) s) = s_dim (stmt_of pr s))) as K.
  { induction n as [|n IH]; intros Hn.
    - cbn. split; auto using padok_refl.
    - destruct IH as (I1 & I2 & I3); [lia|]. cbn [Nat.iter nat_rect]. change (nat_rect _ pr _ n) with (Nat.iter n f pr).
      set (q := Nat.iter n f pr) in *. unfold f at 1 2 3. pose proof (po_ag _ _ I1) as A.
      assert (sid < length (p_stmts q))%nat as Hq by (rewrite (ag_n _ _ A); auto).
      split; [|split].
      + eapply padok_trans; [exact I1|]. apply pad1_ok; auto. apply (po_cl _ _ I1). rewrite I2, (ag_var _ _ A). lia.
      + rewrite sink_stmt, Nat.eqb_refl by auto. cbn. lia.
      + intros s N. rewrite sink_stmt by auto. destruct (Nat.eqb_spec s sid); [lia|]. auto. }
  destruct (K _ (Nat.le_refl _)) as (K1 & K2 & K3). split; auto. split; auto. rewrite K2. destruct (c_stmt _ C sid Hs). lia.
Qed.

Lemma pad_all_ok pr n : cleared pr -> (n <= length (p_stmts pr))%nat ->
  let q := fold_left pad_domain (seq 0 n) pr in
  padok pr q /\ (forall s, (s < n)%nat -> s_dim (stmt_of q s) = p_nvar pr).
Proof.
  intros C. induction n as [|n IH]; intros Hn; cbv zeta.
  - cbn. split; [apply padok_refl; auto|]. intros; lia.
  - rewrite seq_S, fold_left_app. cbn [fold_left Nat.add]. destruct IH as [I1 I2]; [lia|]. cbv zeta in *.
    set (q := fold_left pad_domain (seq 0 n) pr) in *. pose proof (po_ag _ _ I1) as A.
    destruct (pad_domain_ok q n) as (P1 & P2 & P3). apply I1. rewrite (ag_n _ _ A). lia.
    split. eapply padok_trans; eauto. intros s Ls. destruct (Nat.eq_dec s n) as [->|N].
    rewrite P2. apply (ag_var _ _ A). rewrite P3 by auto. apply I2. lia.
Qed.

(** ** [normalize_domains] *)

Lemma iter_elim_wf n : forall c, wf_cst c -> (n < ncols c)%nat ->
  wf_cst (Nat.iter n (fun c => fm_eliminate c 0) c) /\ ncols (Nat.iter n (fun c => fm_eliminate c 0) c) = (ncols c - n)%nat.
Proof.
  induction n as [|n IH]; intros c Wc L; cbn [Nat.iter nat_rect].
  - split; auto. lia.
  - change (nat_rect _ c _ n) with (Nat.iter n (fun c => fm_eliminate c 0) c). destruct (IH c Wc) as [A B]; [lia|].
    destruct (fm_eliminate_wf (Nat.iter n (fun c => fm_eliminate c 0) c) 0 A) as [C D]; [lia|]. split; auto. rewrite D, B. lia.
Qed.

Lemma context_wf pr : wf_shapes pr -> (forall s, (s < length (p_stmts pr))%nat -> s_dim (stmt_of pr s) = dim0 pr s) ->
  wf_cst (param_context pr) /\ ncols (param_context pr) = (p_npar pr + 1)%nat.
Proof.
  intros [W _] H. unfold param_context. match goal with |- context [fold_left ?f _ ?i] => set (F := f); set (i0 := i) end.
  assert (forall l acc, (forall st, In st l -> In st (p_stmts pr)) -> wf_cst (fst (fst acc)) -> ncols (fst (fst acc)) = (p_npar pr + 1)%nat ->
    wf_cst (fst (fst (fold_left F l acc))) /\ ncols (fst (fst (fold_left F l acc))) = (p_npar pr + 1)%nat) as K.
  { induction l as [|st l IH]; intros acc Hl W1 C1; cbn [fold_left]; auto. apply IH.
    - intros; apply Hl; simpl; auto.
    - destruct acc as [[c n] b]. cbn [fst] in *. unfold F. destruct b; auto. destruct (_ <=? _)%nat; auto. cbn [fst].
      assert (In st (p_stmts pr)) as Hst by (apply Hl; simpl; auto). destruct (W st Hst) as (_ & _ & _ & D & E & _).
      apply In_nth with (d := dummy_stmt) in Hst as (j & Lj & Ej). specialize (H j Lj). unfold dim0, stmt_of in H. rewrite Ej in H.
      destruct (iter_elim_wf (s_dim_orig st) (s_domain st) D) as [G1 G2]; [lia|]. apply cst_add_wf; auto. lia.
    - destruct acc as [[c n] b]. cbn [fst] in *. unfold F. destruct b; auto. destruct (_ <=? _)%nat; auto. }
  destruct (K (p_stmts pr) i0) as [K1 K2]; auto.
  { cbn. split; cbn; [lia|]. intros r []. }
  destruct (fold_left F (p_stmts pr) i0) as [[c n] b]. cbn [fst] in *. rewrite simplify_ncols. split; auto. apply simplify_wf; auto.
Qed.

Lemma bpoly_ok pr f : cleared pr ->
  (forall d, In d (p_deps pr) -> wf_dep pr d -> wf_cst (f d) /\ ncols (f d) = ncols (d_poly d)) ->
  padok pr (set_deps pr (map (fun d => set_polys d (d_poly d) (f d)) (p_deps pr))).
Proof.
  intros [[C1 C2] C3] H. constructor.
  - constructor; auto. split; auto. intros d Hd. cbn [set_deps p_deps] in Hd. apply in_map_iff in Hd as (d0 & <- & Hd).
    specialize (C2 d0 Hd). destruct (H d0 Hd C2) as [H1 H2]. destruct C2 as (A & B & C & D & E & G).
    split; [exact A|]. split; [exact B|]. split; [exact C|]. split; [exact D|]. split; [exact H1|exact H2].
  - apply agree_deps. intros d _. cbn. auto.
  - intros; reflexivity.
  - apply Forall2_map_in. intros; reflexivity.
Qed.

Lemma normalize_fold_id c l : fold_left normalize_row l c = c.
Proof. revert c. induction l; intros; cbn; auto. rewrite normalize_row_id. auto. Qed.

Lemma set_deps_id pr f : (forall d, f d = d) -> set_deps pr (map f (p_deps pr)) = pr.
Proof. intros H. destruct pr. unfold set_deps. cbn. f_equal. rewrite <- map_id. apply map_ext. auto. Qed.

Lemma normalize_ok pr : cleared pr -> (forall s, (s < length (p_stmts pr))%nat -> s_dim (stmt_of pr s) = dim0 pr s) ->
  padok pr (normalize_domains pr) /\ (forall s, (s < length (p_stmts pr))%nat -> s_dim (stmt_of (normalize_domains pr) s) = p_nvar pr).
Proof.
  intros C Hd. unfold normalize_domains.
  set (pr1 := if (1 <=? p_npar pr)%nat then _ else _). cbv zeta. set (pr2 := fold_left pad_domain _ pr1).
  set (pr3 := set_deps pr2 _).
  assert (padok pr pr1) as P1.
  { unfold pr1. destruct (1 <=? p_npar pr)%nat eqn:E; [|apply padok_refl; auto]. apply bpoly_ok; auto.
    intros d Hdd (A & B & Wp & Cp & _). destruct (context_wf pr (c_wf _ C) Hd) as [X1 X2].
    unfold bounding_with_context. cbn [ncols]. split; auto. split; [cbn; lia|]. cbn [rows ncols]. intros r Hr.
    apply in_app_or in Hr as [Hr|Hr]; [apply Wp; auto|]. apply in_map_iff in Hr as (r0 & <- & Hr). cbn [coef].
    rewrite app_length, repeat_length. rewrite (proj2 X1 r0 Hr), X2. lia. }
  destruct (pad_all_ok pr1 (length (p_stmts pr)) (po_cl _ _ P1)) as [P2 D2]; [rewrite (ag_n _ _ (po_ag _ _ P1)); auto|].
  fold pr2 in P2, D2. assert (padok pr pr2) as P by (eapply padok_trans; eauto).
  assert (pr3 = pr2) as E3.
  { unfold pr3. apply set_deps_id. intros d. rewrite normalize_fold_id. destruct d; reflexivity. }
  rewrite E3. clear pr3 E3.
  assert (forall s, (s < length (p_stmts pr))%nat -> s_dim (stmt_of pr2 s) = p_nvar pr2) as D2'.
  { intros s Hs. rewrite D2 by auto. symmetry. apply (ag_var _ _ (po_ag _ _ P2)). }
  split.
  - eapply padok_trans; [exact P|]. apply bpoly_ok; [apply P|]. intros d Hdd (A & B & Wp & Cp & Wb & Cb).
    unfold bounding_with_neg. destruct (rows (d_poly d)) eqn:R; auto. cbn [ncols]. split; auto. split; [cbn; destruct Wb; auto|].
    cbn [rows ncols]. intros r0 Hr. apply in_app_or in Hr as [Hr|Hr]; [apply Wb; auto|]. apply in_map_iff in Hr as (j & <- & _).
    cbn [coef]. rewrite set_nth_length, repeat_length. auto.
  - intros s Hs. change (stmt_of (set_deps pr2 _) s) with (stmt_of pr2 s). rewrite D2' by auto. apply (ag_var _ _ (po_ag _ _ P)).
Qed.

(** ** Removing the padding *)

Definition wsh (pr : prog) : Prop :=
  (forall st, In st (p_stmts pr) -> wf_cols pr st) /\
  (forall d, In d (p_deps pr) -> (d_src d < length (p_stmts pr))%nat /\ (d_dst d < length (p_stmts pr))%nat /\
     wf_cst (d_poly d) /\ ncols (d_poly d) = (s_dim (stmt_of pr (d_src d)) + s_dim (stmt_of pr (d_dst d)) + p_npar pr + 1)%nat).

Lemma wsh_of pr : wf_shapes pr -> wsh pr.
Proof.
  intros [A B]. split; auto. intros d Hd. destruct (B d Hd) as (S1 & S2 & X1 & X2 & _). auto.
Qed.

Lemma aff_del pos r i p : (pos <= length i)%nat -> length r = S (S (length (i ++ p))) ->
  aff (remove_at pos r) (i ++ p) = aff r (insert_at pos 0 i ++ p).
Proof.
  intros Hp Hr. rewrite <- insert_at_app by auto. unfold aff. rewrite <- insert_at_app by (rewrite app_length; lia).
  rewrite dot_insert_point by (rewrite ?app_length in *; cbn; lia). lia.
Qed.

Definition rm_dim (pr : prog) (sid pos : nat) : prog :=
  let pr1 := stmt_remove_dim pr sid pos in
  set_stmts pr1 (map_nth sid (fun st =>
          set_evict st (match s_evict st with Some e => Some (remove_at pos e) | None => None end)) (p_stmts pr1)).
Definition rm_stmt (pos : nat) (st : stmt) : stmt :=
  set_evict (stmt_remove_dim1 pos st) (match s_evict st with Some e => Some (remove_at pos e) | None => None end).

Section Unpad1.
Variables (pr : prog) (sid pos : nat).
Hypothesis W : wsh pr.
Hypothesis Hs : (sid < length (p_stmts pr))%nat.
Hypothesis Hd0 : forall s, (dim0 pr s <= s_dim (stmt_of pr s))%nat.
Hypothesis Hpos : pos = dim0 pr sid.
Hypothesis Hlt : (pos < s_dim (stmt_of pr sid))%nat.
Let q := rm_dim pr sid pos.

Lemma rm_stmt_of s : stmt_of q s = if (s =? sid)%nat then rm_stmt pos (stmt_of pr sid) else stmt_of pr s.
Proof.
  unfold q, rm_dim, stmt_of at 1. cbn [set_stmts p_stmts stmt_remove_dim]. rewrite map_nth_map_nth.
  rewrite (stmt_of_map pr sid) by auto. reflexivity.
Qed.
Lemma rm1_stmt_of s : stmt_of (stmt_remove_dim pr sid pos) s = if (s =? sid)%nat then stmt_remove_dim1 pos (stmt_of pr sid) else stmt_of pr s.
Proof. apply (stmt_of_map pr sid); auto. Qed.
Lemma rm_n : length (p_stmts q) = length (p_stmts pr).
Proof. unfold q, rm_dim; cbn. rewrite !map_nth_length. auto. Qed.
Lemma rm_sdim s : s_dim (stmt_of q s) = (s_dim (stmt_of pr s) - if (s =? sid)%nat then 1 else 0)%nat.
Proof. rewrite rm_stmt_of. destruct (Nat.eqb_spec s sid) as [->|]; cbn; lia. Qed.

Lemma rm_zp s x : length x = dim0 pr s -> zp pr s x = widen sid pos s 0 (zp q s x).
Proof.
  intros L. unfold widen, zp. rewrite rm_sdim. destruct (Nat.eqb_spec s sid) as [->|N]; [|rewrite Nat.sub_0_r; auto].
  rewrite <- Hpos in L. rewrite <- L. rewrite <- (Nat.add_0_r (length x)) at 2. rewrite insert_app_r. f_equal.
  rewrite L. replace (s_dim (stmt_of pr sid) - pos)%nat with (S (s_dim (stmt_of pr sid) - 1 - pos)) by lia. reflexivity.
Qed.
Lemma rm_zp_len s x : length x = dim0 pr s -> length (zp q s x) = s_dim (stmt_of q s).
Proof.
  intros L. apply zp_length. rewrite rm_sdim. specialize (Hd0 s). destruct (Nat.eqb_spec s sid) as [->|N]; lia.
Qed.

Lemma rm_rows_aff (m : matrix) x p : wf_mat m -> mncols m = (s_dim (stmt_of pr sid) + p_npar pr + 1)%nat ->
  length x = dim0 pr sid -> length p = p_npar pr ->
  map (fun r => aff r (zp q sid x ++ p)) (mrows (matrix_remove_col m pos)) = map (fun r => aff r (zp pr sid x ++ p)) (mrows m).
Proof.
  intros Wm Cm Lx Lp. cbn [matrix_remove_col mrows]. rewrite map_map. apply map_ext_in. intros r Hr.
  rewrite (rm_zp sid) by auto. unfold widen. rewrite Nat.eqb_refl.
  pose proof (rm_zp_len sid x Lx) as L. rewrite rm_sdim, Nat.eqb_refl in L.
  apply aff_del. lia. rewrite (Wm r Hr), Cm, app_length. lia.
Qed.

Lemma rm_time : same_time pr q.
Proof.
  intros s x p H1 H2 H3. unfold timestamp. destruct (Nat.eqb_spec s sid) as [->|N].
  - rewrite rm_stmt_of, Nat.eqb_refl. cbn [rm_stmt set_evict stmt_remove_dim1 s_trans].
    destruct (proj1 W _ (stmt_of_in pr sid Hs)) as (_ & B & C & _). apply rm_rows_aff; auto.
  - rewrite (rm_zp s x) by auto. unfold widen. rewrite rm_stmt_of. destruct (Nat.eqb_spec s sid); [lia|]. auto.
Qed.

Lemma rm_agree : agree pr q.
Proof.
  constructor.
  - apply rm_n.
  - reflexivity.
  - reflexivity.
  - intros s. unfold dim0. rewrite rm_stmt_of. destruct (Nat.eqb_spec s sid) as [->|]; auto.
  - intros s x p H1 H2 H3. rewrite (rm_zp s x) by auto. unfold widen. rewrite rm_stmt_of. destruct (Nat.eqb_spec s sid) as [->|N]; [|tauto].
    cbn [rm_stmt set_evict stmt_remove_dim1 s_domain]. destruct (proj1 W _ (stmt_of_in pr sid Hs)) as (_ & _ & _ & D & E & _).
    rewrite remove_dim_mem by (auto; lia). pose proof (rm_zp_len sid x H2) as L. rewrite rm_sdim, Nat.eqb_refl in L.
    rewrite insert_at_app by lia. tauto.
  - intros s x p H1 H2 H3. destruct (Nat.eqb_spec s sid) as [->|N].
    + rewrite rm_stmt_of, Nat.eqb_refl. cbn [rm_stmt set_evict stmt_remove_dim1 s_reads s_writes]. rewrite !map_map.
      destruct (proj1 W _ (stmt_of_in pr sid Hs)) as (_ & _ & _ & _ & _ & F).
      split; apply map_ext_in; intros m Hm; apply rm_rows_aff; auto; apply (F m); apply in_or_app; auto.
    + rewrite (rm_zp s x) by auto. unfold widen. rewrite rm_stmt_of. destruct (Nat.eqb_spec s sid); [lia|]. auto.
  - change (p_deps q) with (map (dep_remove_dim sid pos (p_stmts (stmt_remove_dim pr sid pos))) (p_deps pr)).
    apply Forall2_map_in. intros d Hd. destruct (proj2 W d Hd) as (S1 & S2 & Wp & Cp).
    unfold dep_agree, dep_remove_dim. fold (stmt_of (stmt_remove_dim pr sid pos) (d_src d)). rewrite rm1_stmt_of.
    split; [destruct (_ =? _)%nat, (_ =? _)%nat; auto|]. split; [destruct (_ =? _)%nat, (_ =? _)%nat; auto|].
    split; [destruct (_ =? _)%nat, (_ =? _)%nat; auto|]. intros x y p Lx Ly Lp.
    rewrite (rm_zp (d_src d) x), (rm_zp (d_dst d) y) by auto. unfold widen.
    pose proof (rm_zp_len (d_src d) x Lx) as L1. rewrite rm_sdim in L1.
    pose proof (rm_zp_len (d_dst d) y Ly) as L2. rewrite rm_sdim in L2.
    destruct (Nat.eqb_spec (d_src d) sid) as [E1|E1], (Nat.eqb_spec (d_dst d) sid) as [E2|E2]; cbn [d_poly set_polys]; try tauto.
    + rewrite E1, E2 in *. assert (wf_cst (remove_dim (d_poly d) pos)) by (apply remove_dim_wf; auto; lia).
      cbn [stmt_remove_dim1 s_dim]. rewrite remove_dim_mem by (auto; cbn; lia). rewrite remove_dim_mem by (auto; lia).
      replace (s_dim (stmt_of pr sid) - 1 + pos)%nat with (length (zp q sid x) + pos)%nat by lia.
      rewrite insert_app_r. rewrite !insert_at_app by (rewrite ?app_length, ?insert_at_length; lia). tauto.
    + rewrite E1 in *. rewrite remove_dim_mem by (auto; lia). rewrite !insert_at_app by (rewrite ?app_length; lia). tauto.
    + rewrite E2 in *. rewrite remove_dim_mem by (auto; lia).
      replace (s_dim (stmt_of pr (d_src d)) + pos)%nat with (length (zp q (d_src d) x) + pos)%nat by lia.
      rewrite insert_app_r. rewrite !insert_at_app by (rewrite ?app_length; lia). tauto.
Qed.

Lemma rm_mat_wf m n : wf_mat m -> mncols m = (n + p_npar pr + 1)%nat -> (pos < n)%nat -> wf_mat (matrix_remove_col m pos).
Proof.
  intros Wm Cm L r Hr. cbn in Hr |- *. apply in_map_iff in Hr as (r0 & <- & Hr). rewrite remove_at_length; rewrite (Wm r0 Hr); lia.
Qed.

Lemma rm_wsh : wsh q.
Proof.
  destruct W as [W1 W2]. split.
  - intros st Hst. apply In_nth with (d := dummy_stmt) in Hst as (s & Ls & Es). rewrite rm_n in Ls. change (stmt_of q s = st) in Es.
    rewrite rm_stmt_of in Es. destruct (Nat.eqb_spec s sid) as [->|N]; [|subst st; apply W1; apply stmt_of_in; auto].
    subst st. destruct (W1 _ (stmt_of_in pr sid Hs)) as (A & B & C & D & E & F).
    unfold wf_cols. cbn [rm_stmt set_evict stmt_remove_dim1 s_dim s_orig s_trans s_domain s_reads s_writes]. change (p_npar q) with (p_npar pr).
    split; [rewrite remove_at_length; lia|]. split; [cbn; lia|]. split; [eapply rm_mat_wf; eauto|].
    split; [apply remove_dim_wf; auto; lia|]. split; [cbn; lia|].
    intros a Ha. rewrite <- map_app in Ha. apply in_map_iff in Ha as (a0 & <- & Ha0).
    destruct (F a0 Ha0) as [F1 F2]. split; [eapply rm_mat_wf; eauto|]. cbn; lia.
  - intros d' Hd'. change (p_deps q) with (map (dep_remove_dim sid pos (p_stmts (stmt_remove_dim pr sid pos))) (p_deps pr)) in Hd'.
    apply in_map_iff in Hd' as (d & <- & Hd). destruct (W2 d Hd) as (S1 & S2 & Wp & Cp). rewrite rm_n.
    unfold dep_remove_dim. fold (stmt_of (stmt_remove_dim pr sid pos) (d_src d)). rewrite rm1_stmt_of. change (p_npar q) with (p_npar pr).
    destruct (Nat.eqb_spec (d_src d) sid) as [E1|E1], (Nat.eqb_spec (d_dst d) sid) as [E2|E2]; cbn [d_poly set_polys d_src d_dst]; rewrite !rm_sdim.
    + rewrite E1, E2 in *. rewrite Nat.eqb_refl. cbn [stmt_remove_dim1 s_dim]. split; auto. split; auto.
      split; [|cbn; lia]. apply remove_dim_wf; [apply remove_dim_wf; auto; lia|cbn; lia].
    + rewrite E1 in *. rewrite Nat.eqb_refl. apply Nat.eqb_neq in E2. rewrite E2. split; auto. split; auto. split; [|cbn; lia]. apply remove_dim_wf; auto; lia.
    + rewrite E2 in *. rewrite Nat.eqb_refl. apply Nat.eqb_neq in E1. rewrite E1. split; auto. split; auto. split; [|cbn; lia]. apply remove_dim_wf; auto; lia.
    + apply Nat.eqb_neq in E1, E2. rewrite E1, E2. split; auto. split; auto. split; auto. lia.
Qed.
End Unpad1.

Lemma unpad_skip m : forall n pos sid pr, (forall j, (pos <= j < pos + m)%nat -> nth j (s_orig (stmt_of pr sid)) true = true) ->
  unpad_domain (m + n) pos sid pr = unpad_domain n (pos + m) sid pr.
Proof.
  induction m as [|m IH]; intros n pos sid pr H.
  - rewrite Nat.add_0_r. auto.
  - cbn [Nat.add unpad_domain]. rewrite H by lia. rewrite IH. f_equal. lia. intros j Hj. apply H. lia.
Qed.

Lemma remove_at_mid {A} (a b : list A) v : remove_at (length a) (a ++ v :: b) = a ++ b.
Proof. induction a; cbn; congruence. Qed.

Definition others (sid : nat) (a b : prog) : Prop := forall s, s <> sid -> stmt_of b s = stmt_of a s.

Lemma unpad_rest n : forall sid pr, wsh pr -> (sid < length (p_stmts pr))%nat ->
  (forall s, (dim0 pr s <= s_dim (stmt_of pr s))%nat) ->
  s_dim (stmt_of pr sid) = (dim0 pr sid + n)%nat ->
  s_orig (stmt_of pr sid) = repeat true (dim0 pr sid) ++ repeat false n ->
  let q := unpad_domain n (dim0 pr sid) sid pr in
  wsh q /\ agree pr q /\ same_time pr q /\ others sid pr q /\ s_dim (stmt_of q sid) = dim0 pr sid /\
  s_orig (stmt_of q sid) = repeat true (dim0 pr sid).
Proof.
  induction n as [|n IH]; intros sid pr W Hs D E O; cbv zeta; cbn [unpad_domain].
  - split; auto. split; [apply agree_refl|]. split; [apply same_time_refl|]. split; [intros s _; auto|]. split; [lia|].
    rewrite O. cbn. rewrite app_nil_r. auto.
  - rewrite O. rewrite app_nth2, repeat_length, Nat.sub_diag by (rewrite repeat_length; auto). cbn [repeat nth].
    fold (rm_dim pr sid (dim0 pr sid)). set (q := rm_dim pr sid (dim0 pr sid)).
    assert (agree pr q) as A by (apply rm_agree; auto; lia). assert (same_time pr q) as T by (apply rm_time; auto; lia).
    assert (wsh q) as Wq by (apply rm_wsh; auto; lia).
    assert (stmt_of q sid = rm_stmt (dim0 pr sid) (stmt_of pr sid)) as Es by (unfold q; rewrite rm_stmt_of, Nat.eqb_refl by auto; auto).
    specialize (IH sid q Wq). rewrite !(ag_dim0 _ _ A), (ag_n _ _ A), Es in IH. cbv zeta in IH.
    destruct IH as (I1 & I2 & I3 & I4 & I5 & I6); auto.
    + intros s. rewrite (ag_dim0 _ _ A). unfold q. rewrite rm_sdim by (auto; lia). specialize (D s). destruct (Nat.eqb_spec s sid) as [->|]; lia.
    + cbn. lia.
    + cbn [rm_stmt set_evict stmt_remove_dim1 s_orig]. rewrite O.
      rewrite <- (repeat_length true (dim0 pr sid)) at 1. cbn [repeat]. apply remove_at_mid.
    + split; auto. split; [eapply agree_trans; eauto|]. split; [eapply same_time_trans; eauto|]. split; [|split; auto].
      intros s N. rewrite I4 by auto. unfold q. rewrite rm_stmt_of by auto. destruct (Nat.eqb_spec s sid); [lia|auto].
Qed.

Definition padded_stmt (pr : prog) (s : nat) : Prop :=
  (dim0 pr s <= p_nvar pr)%nat /\ s_dim (stmt_of pr s) = p_nvar pr /\
  s_orig (stmt_of pr s) = repeat true (dim0 pr s) ++ repeat false (p_nvar pr - dim0 pr s).

Lemma unpad_stmt sid pr : wsh pr -> (sid < length (p_stmts pr))%nat ->
  (forall s, (dim0 pr s <= s_dim (stmt_of pr s))%nat) -> padded_stmt pr sid ->
  let q := unpad_domain (p_nvar pr) 0 sid pr in
  wsh q /\ agree pr q /\ same_time pr q /\ others sid pr q /\ s_dim (stmt_of q sid) = dim0 pr sid /\
  s_orig (stmt_of q sid) = repeat true (dim0 pr sid).
Proof.
  intros W Hs D (P1 & P2 & P3). cbv zeta.
  replace (p_nvar pr) with (dim0 pr sid + (p_nvar pr - dim0 pr sid))%nat at 1 2 3 4 5 6 by lia.
  rewrite unpad_skip. cbn [Nat.add]. apply unpad_rest; auto. lia.
  intros j Hj. rewrite P3. rewrite app_nth1 by (rewrite repeat_length; lia). apply nth_repeat.
Qed.

Lemma frame_same_time a b : frame a b -> (forall s, s_trans (stmt_of b s) = s_trans (stmt_of a s)) -> same_time a b.
Proof.
  intros F H s x p _ _ _. unfold timestamp, zp. rewrite H. destruct F as (_ & _ & _ & F & _). destruct (F s) as (-> & _). auto.
Qed.

Record unpadded (F : prog) (m : nat) (q : prog) : Prop := {
  u_wsh : wsh q; u_ag : agree F q; u_time : same_time F q;
  u_done : forall s, (s < m)%nat -> s_dim (stmt_of q s) = dim0 q s /\ s_orig (stmt_of q s) = repeat true (s_dim (stmt_of q s));
  u_rest : forall s, (m <= s < length (p_stmts q))%nat -> padded_stmt q s }.

Lemma denormalize_ok F : wsh F -> (forall s, (s < length (p_stmts F))%nat -> padded_stmt F s) ->
  unpadded F (length (p_stmts F)) (denormalize_domains F).
Proof.
  intros W P. unfold denormalize_domains. set (f := fun q sid => _).
  assert (forall m, (m <= length (p_stmts F))%nat -> unpadded F m (fold_left f (seq 0 m) F)) as K; [|apply K; auto].
  induction m as [|m IH]; intros Hm.
  - cbn. constructor; auto using agree_refl, same_time_refl. intros; lia. intros s Hs. apply P. lia.
  - rewrite seq_S, fold_left_app. cbn [fold_left Nat.add]. destruct IH as [U1 U2 U3 U4 U5]; [lia|].
    set (q := fold_left f (seq 0 m) F) in *. assert (length (p_stmts q) = length (p_stmts F)) as Lq by apply (ag_n _ _ U2).
    assert (forall s, (dim0 q s <= s_dim (stmt_of q s))%nat) as D.
    { intros s. destruct (le_lt_dec (length (p_stmts q)) s) as [L|L].
      - unfold dim0, stmt_of. rewrite nth_overflow by auto. cbn. lia.
      - destruct (le_lt_dec m s) as [L'|L']. destruct (U5 s) as (A & B & _); lia. destruct (U4 s L'). lia. }
    destruct (unpad_stmt m q U1) as (V1 & V2 & V3 & V4 & V5 & V6); [lia|auto|apply U5; lia|]. unfold f. cbv zeta in *.
    set (q1 := unpad_domain (p_nvar q) 0 m q) in *. set (q2 := set_stmts q1 _).
    assert (length (p_stmts q1) = length (p_stmts F)) as Lq1 by (rewrite (ag_n _ _ V2); auto).
    assert (forall s, stmt_of q2 s = if (s =? m)%nat then set_orig (stmt_of q1 m) (repeat true (s_dim (stmt_of q1 m))) else stmt_of q1 s) as E2.
    { intros s. unfold q2, stmt_of at 1. cbn [set_stmts p_stmts]. apply (stmt_of_map q1). lia. }
    assert (q2 = q1) as E.
    { unfold q2. destruct q1 as [a b ss ds h] eqn:Eq. unfold set_stmts. cbn [p_nvar p_npar p_stmts p_deps p_hprops]. f_equal.
      apply (list_eq_nth dummy_stmt); [apply map_nth_length|]. intros k _. specialize (E2 k).
      unfold q2, stmt_of in E2. cbn [set_stmts p_stmts] in E2. rewrite E2. destruct (Nat.eqb_spec k m) as [Ek|]; [rewrite Ek|auto].
      unfold stmt_of in V5, V6. cbn [p_stmts] in V5, V6. rewrite V5. destruct (nth m ss dummy_stmt). unfold set_orig. cbn in *. rewrite V6. auto. }
    rewrite E. clear q2 E E2. constructor; auto.
    + eapply agree_trans; eauto.
    + eapply same_time_trans; eauto.
    + intros s Hs. rewrite (ag_dim0 _ _ V2). destruct (Nat.eq_dec s m) as [->|N].
      * rewrite V5. auto.
      * rewrite (V4 s N). apply U4. lia.
    + intros s Hs. rewrite (ag_n _ _ V2) in Hs. unfold padded_stmt. rewrite (V4 s) by lia. rewrite (ag_var _ _ V2), (ag_dim0 _ _ V2). apply U5. lia.
Qed.
