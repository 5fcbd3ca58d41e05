(** * Proofs about the schedules found by the framework "decoupled fusion and
      permutation": every colour gives every statement a loop of its own. *)
From Coq Require Import ZArith List Bool Arith Lia.
From Verif Require Import SpecLinear SpecMatrix VecProofs MathModel ConstraintsModel EditProofs FarkasProofs RankProofs SpecGraph GraphModel GraphProofs SpecProg SpecDriver SpecDfp
  FrameworkModel FrameworkProofs DepProofs ProgModel ProgProofs DriverModel HypProofs DriverProofs PadProofs AutoProofs DfpModel DfpProofs DfpProofs2.
Import ListNotations.
Open Scope Z_scope.

(** ** Chains of dependences *)

Lemma depends_map a b : Forall2 (fun d d' => d_src d' = d_src d /\ d_dst d' = d_dst d /\ d_rar d' = d_rar d) (p_deps a) (p_deps b) ->
  forall u v, depends a u v -> depends b u v.
Proof.
  intros F u v H. induction H as [u|d w Hd Hr _ IH]; [constructor|].
  destruct (Forall2_in_l _ _ _ d F Hd) as (d' & Hd' & E1 & E2 & E3). rewrite <- E1. apply (depends_step _ d'); [auto|congruence|]. rewrite E2. auto.
Qed.
Lemma chain_depends pr u v : dep_chain pr u v -> depends pr u v.
Proof. induction 1; [constructor|]. eapply depends_step; eauto. Qed.
Lemma Forall2_impl_in {A B} (R S : A -> B -> Prop) l l' : (forall x y, R x y -> S x y) -> Forall2 R l l' -> Forall2 S l l'.
Proof. intros H F. induction F; constructor; auto. Qed.
Lemma Forall2_flip {A B} (R : A -> B -> Prop) l l' : Forall2 R l l' -> Forall2 (fun y x => R x y) l' l.
Proof. intros F. induction F; constructor; auto. Qed.
Lemma frame_depends a b u v : frame a b -> (depends a u v <-> depends b u v).
Proof.
  intros (_ & _ & _ & _ & F). split; apply depends_map.
  - eapply Forall2_impl_in; [|exact F]. intros d d' (A & B & C & _). auto.
  - apply Forall2_flip in F. eapply Forall2_impl_in; [|exact F]. intros d d' (A & B & C & _). auto.
Qed.
Lemma agree_depends a b u v : agree a b -> (depends a u v <-> depends b u v).
Proof.
  intros H. pose proof (ag_dep _ _ H) as F. split; apply depends_map.
  - eapply Forall2_impl_in; [|exact F]. intros d d' (A & B & C & _). auto.
  - apply Forall2_flip in F. eapply Forall2_impl_in; [|exact F]. intros d d' (A & B & C & _). auto.
Qed.

(** Statements without original loops are alone in their component. *)
Definition lone (pr : prog) : Prop := forall u v, (u < length (p_stmts pr))%nat -> (v < length (p_stmts pr))%nat ->
  s_dim_orig (stmt_of pr u) = 0%nat -> depends pr u v -> depends pr v u -> v = u.
Lemma lone_frame a b : frame a b -> lone a -> lone b.
Proof.
  intros F H u v Hu Hv D A B. pose proof F as (_ & _ & L & S & _). destruct (S u) as (_ & E & _). apply H; try lia; apply (frame_depends a b); auto.
Qed.

(** ** Steps that only append levels *)

Definition ext (s s' : dstate) : Prop :=
  length (p_stmts (st_prog s')) = length (p_stmts (st_prog s)) /\
  (forall u, (u < length (p_stmts (st_prog s)))%nat -> exists l, mrows (s_trans (stmt_of (st_prog s') u)) = mrows (s_trans (stmt_of (st_prog s) u)) ++ l) /\
  (forall u, (u < length (p_stmts (st_prog s)))%nat -> s_scc (stmt_of (st_prog s') u) = s_scc (stmt_of (st_prog s) u)) /\
  st_num s' = st_num s /\ st_max s' = st_max s.
Lemma ext_refl s : ext s s.
Proof. split; [auto|]. split; [intros u _; exists []; rewrite app_nil_r; auto|]. auto. Qed.
Lemma ext_trans a b c : ext a b -> ext b c -> ext a c.
Proof.
  intros (A1 & A2 & A3 & A4 & A5) (B1 & B2 & B3 & B4 & B5). split; [congruence|]. split; [|split; [|split; congruence]].
  - intros u Hu. destruct (A2 u Hu) as [l1 E1]. destruct (B2 u) as [l2 E2]; [congruence|]. exists (l1 ++ l2). rewrite E2, E1, app_assoc. auto.
  - intros u Hu. rewrite B3 by congruence. auto.
Qed.
Lemma ext_app pr h ht row deps a a' n m : ext (mkState pr a n m) (mkState (set_deps (app_level pr h ht row) deps) a' n m).
Proof.
  split; [cbn; rewrite map_length, seq_length; auto|]. cbn [st_prog st_num st_max]. split; [|split; [|auto]].
  - intros u Hu. exists [row u]. change (stmt_of (set_deps (app_level pr h ht row) deps) u) with (stmt_of (app_level pr h ht row) u).
    rewrite app_level_stmt by auto. apply append_row_rows.
  - intros u Hu. change (stmt_of (set_deps (app_level pr h ht row) deps) u) with (stmt_of (app_level pr h ht row) u).
    rewrite app_level_stmt by auto. reflexivity.
Qed.
Lemma ext_flags pr deps a a' n m : ext (mkState pr a n m) (mkState (set_deps pr deps) a' n m).
Proof. split; [auto|]. split; [intros u _; exists []; rewrite app_nil_r; auto|]. auto. Qed.

Section Ext.
Variables (is_emptyb : cst -> bool) (solve : prog -> cst -> option point).
Variables (build : dstate -> list Z -> nat -> fcg) (refresh : dstate -> fcg -> nat -> nat -> option fcg) (skip : dstate -> nat -> nat -> bool).
Variables (o : options) (fuse : fusion) (delayed_cut : bool).
Hypothesis EX : exact_empty is_emptyb.
Hypothesis SOL : solver_sound solve.
Local Notation inv := (inv LAZY).
Local Notation good := (good LAZY).

Lemma keep_ext s f : wf_prog (st_prog s) -> ext s (fst (keep_if_useful is_emptyb s (add_scalar_level (st_prog s) f))).
Proof.
  intros W. destruct s as [pr a n m]. cbn [st_prog] in *. rewrite scalar_level_app. unfold keep_if_useful, dep_satisfaction_update.
  set (q := app_level _ _ _ _). destruct (1 <=? _)%nat; cbn [fst].
  - unfold ddg_update. cbn [st_prog st_adj st_num st_max]. apply ext_app.
  - cbn [st_adj st_num st_max]. destruct (drop_app pr H_SCALAR (fun _ => H_SCALAR) (fun s => const_row pr (f (stmt_of pr s))) (update_dep is_emptyb q (nrows0 q - 1)) W) as (D1 & D2 & D3 & D4).
    { intros d; apply update_same. }
    split; [apply D1|]. cbn [st_prog st_num st_max]. split; [|split; [|auto]].
    + intros u Hu. exists []. rewrite app_nil_r. destruct (D4 u) as (E & _). f_equal. exact E.
    + intros u Hu. apply D4.
Qed.
Lemma cut_between_ext s i j : inv s -> ext s (fst (cut_between_sccs is_emptyb s i j)).
Proof. intros I. unfold cut_between_sccs. destruct (negb _); [apply ext_refl|]. apply keep_ext. apply I. Qed.
Lemma cut_all_ext s : ext s (fst (cut_all_sccs is_emptyb s)).
Proof.
  unfold cut_all_sccs. destruct (st_num s =? 1)%nat; [apply ext_refl|]. cbv zeta. destruct s as [pr a n m]. cbn [st_prog st_adj st_num st_max].
  rewrite scalar_level_app. unfold dep_satisfaction_update, ddg_update. cbn [fst st_prog st_adj st_num st_max]. apply ext_app.
Qed.
Lemma cut_dim_ext s : inv s -> ext s (fst (cut_scc_dim_based is_emptyb s)).
Proof. intros I. unfold cut_scc_dim_based. destruct (_ =? _)%nat; [apply ext_refl|]. apply keep_ext. apply I. Qed.
Lemma cut_far_smart_ext l : forall s, inv s -> ext s (cut_far_smart is_emptyb l s).
Proof.
  induction l as [|[i j] l IH]; intros s I; cbn [cut_far_smart]; [apply ext_refl|].
  destruct (_ <=? _)%nat; [|apply cut_all_ext].
  destruct (sccs_direct_connected _ _ _); [|apply IH; auto].
  eapply ext_trans; [apply cut_between_ext; auto|]. apply IH. apply (cut_between_good LAZY is_emptyb EX); auto.
Qed.
Lemma cut_smart_ext s : inv s -> ext s (cut_smart is_emptyb s).
Proof.
  intros I. unfold cut_smart. destruct (_ =? _)%nat; [apply ext_refl|].
  destruct (transformations_full_ranked _); [apply cut_all_ext|].
  pose proof (cut_dim_good LAZY is_emptyb EX s I) as G1. pose proof (cut_dim_ext s I) as X1. destruct (cut_scc_dim_based is_emptyb s) as [s1 k1]. cbn [fst] in G1, X1.
  destruct (1 <=? k1)%nat; [auto|].
  pose proof (cut_between_good LAZY is_emptyb EX s1 (half_up (st_num s1) - 1) (half_up (st_num s1)) (proj1 G1)) as G2.
  pose proof (cut_between_ext s1 (half_up (st_num s1) - 1) (half_up (st_num s1)) (proj1 G1)) as X2.
  destruct (cut_between_sccs is_emptyb s1 _ _) as [s2 k2]. cbn [fst] in G2, X2.
  destruct (1 <=? k2)%nat; [eapply ext_trans; eauto|].
  eapply ext_trans; [exact X1|]. eapply ext_trans; [exact X2|]. apply cut_far_smart_ext. apply G2.
Qed.
Lemma cut_coloured_ext scc js : forall s, inv s -> ext s (cut_coloured is_emptyb fuse scc js s).
Proof.
  induction js as [|j l IH]; intros s I; cbn [cut_coloured]; [apply ext_refl|].
  destruct (j =? scc)%nat; [apply IH; auto|].
  destruct ((j <? scc)%nat && _).
  - destruct fuse.
    + eapply ext_trans; [apply cut_all_ext|]. apply IH. apply (cut_all_good LAZY is_emptyb EX s I).
    + pose proof (cut_between_ext s (Z.of_nat j) (Z.of_nat scc) I) as G. cbv zeta.
      destruct (existsb _ _); [|exact G]. eapply ext_trans; [exact G|]. apply cut_all_ext.
    + pose proof (cut_between_ext s (Z.of_nat j) (Z.of_nat scc) I) as G. cbv zeta.
      destruct (existsb _ _); [|exact G]. eapply ext_trans; [exact G|]. apply cut_all_ext.
  - destruct (sccs_direct_connected s (Z.of_nat scc) (Z.of_nat j)); [|apply IH; auto].
    destruct fuse; [apply cut_all_ext|apply cut_between_ext; auto|apply cut_between_ext; auto].
Qed.
Lemma distribute_ext i s : ext s (distribute is_emptyb i s).
Proof. unfold distribute. cbv zeta. destruct s as [pr a n m]. cbn [st_prog st_adj st_num st_max]. rewrite scalar_level_app. unfold dep_satisfaction_update. cbn [fst]. apply ext_app. Qed.
Lemma cut_before_ext i s : inv s -> ext s (cut_before is_emptyb fuse i s).
Proof.
  intros I. unfold cut_before. destruct fuse; [apply cut_all_ext| |]; (destruct (find _ _); [apply cut_between_ext; auto|apply ext_refl]).
Qed.

(** ** Components *)

Definition scc_ok (s : dstate) : Prop :=
  let pr := st_prog s in let n := length (p_stmts pr) in
  (forall u, (u < n)%nat -> Z.of_nat (s_dim_orig (stmt_of pr u)) <= nth (Z.to_nat (s_scc (stmt_of pr u))) (st_max s) 0) /\
  (forall k, (k < st_num s)%nat -> exists u, (u < n)%nat /\ s_scc (stmt_of pr u) = Z.of_nat k /\ nth k (st_max s) 0 = Z.of_nat (s_dim_orig (stmt_of pr u))) /\
  (forall u v, (u < n)%nat -> (v < n)%nat -> s_dim_orig (stmt_of pr u) = 0%nat -> s_scc (stmt_of pr u) = s_scc (stmt_of pr v) -> v = u).

Lemma scc_ok_ext s s' : frame (st_prog s) (st_prog s') -> ext s s' -> scc_ok s -> scc_ok s'.
Proof.
  intros (_ & _ & _ & S & _) (N & _ & C & E1 & E2) (A & B & D). unfold scc_ok. rewrite N, E1, E2.
  assert (forall u, s_dim_orig (stmt_of (st_prog s') u) = s_dim_orig (stmt_of (st_prog s) u)) as K by (intros u; apply S).
  split; [|split].
  - intros u Hu. rewrite K, C by auto. auto.
  - intros k Hk. destruct (B k Hk) as (u & Hu & X & Y). exists u. rewrite K, C by auto. auto.
  - intros u v Hu Hv. rewrite K, !C by auto. auto.
Qed.
Lemma scc_ok_fresh pr n m : wf_prog pr -> lone pr -> scc_ok (fresh pr n m).
Proof.
  intros W L. destruct (fresh_comp pr n m W) as (C1 & C2 & _ & C4). destruct (fresh_prog pr n m) as (g & E).
  assert (length (p_stmts (st_prog (fresh pr n m))) = length (p_stmts pr)) as N by (rewrite E; apply with_scc_nstmts).
  assert (forall u, (u < length (p_stmts pr))%nat -> s_dim_orig (stmt_of (st_prog (fresh pr n m)) u) = s_dim_orig (stmt_of pr u)) as K.
  { intros u Hu. rewrite E, with_scc_stmt by auto. auto. }
  unfold scc_ok. rewrite N. split; [|split].
  - intros u Hu. rewrite K by auto. specialize (C1 u Hu). unfold comp in *. destruct (C4 (Z.to_nat (s_scc (stmt_of (st_prog (fresh pr n m)) u)))) as [X _]; [lia|].
    apply X; auto. lia.
  - intros k Hk. destruct (C4 k Hk) as [_ (u & Hu & X & Y)]. exists u. rewrite K by auto. auto.
  - intros u v Hu Hv D Es. rewrite K in D by auto. apply (C2 u v Hu Hv) in Es as [P Q]. apply L; auto using chain_depends.
Qed.

Lemma scc_stmts_spec s i u : In u (scc_stmts s i) <-> (u < length (p_stmts (st_prog s)))%nat /\ s_scc (stmt_of (st_prog s) u) = Z.of_nat i.
Proof. unfold scc_stmts. rewrite filter_In, in_seq, Z.eqb_eq. intuition lia. Qed.
Lemma scc_stmts_nodup s i : NoDup (scc_stmts s i).
Proof. apply NoDup_filter. apply seq_NoDup. Qed.
Lemma scc_stmts_ext s s' i : ext s s' -> forall u, In u (scc_stmts s' i) <-> In u (scc_stmts s i).
Proof. intros (N & _ & C & _) u. rewrite !scc_stmts_spec, N. split; intros [A B]; (split; [auto|]); rewrite C in *; auto. Qed.
Lemma own_frame a b u v : frame a b -> (own b u v <-> own a u v).
Proof. intros F. unfold own. rewrite (vertex_offset_frame a b u F). destruct F as (_ & _ & _ & S & _). destruct (S u) as (_ & -> & _). tauto. Qed.

(** ** The colours *)

Definition coloured (c : nat) (pr : prog) (col : list Z) (u : nat) : Prop :=
  (c <= s_dim_orig (stmt_of pr u))%nat -> exists v, own pr u v /\ nth v col 0 = Z.of_nat c.
Definition step (c i : nat) (cs cs' : cstate) : Prop :=
  good (c_state cs) (c_state cs') /\ ext (c_state cs) (c_state cs') /\
  touch (fun v => exists u, In u (scc_stmts (c_state cs) i) /\ own (st_prog (c_state cs)) u v) (Z.of_nat c) (c_col cs) (c_col cs').
Lemma step_trans c i a b d : step c i a b -> step c i b d -> step c i a d.
Proof.
  intros (A1 & A2 & A3) (B1 & B2 & B3). split; [eapply good_trans; eauto|]. split; [eapply ext_trans; eauto|].
  eapply touch_trans; [exact A3|]. eapply touch_weaken; [|exact B3]. intros v (u & Hu & O). exists u. split; [apply (scc_stmts_ext _ _ i A2); auto|].
  apply (own_frame _ _ u v (proj2 A1)). auto.
Qed.
Lemma step_state c i cs s g b : good (c_state cs) s -> ext (c_state cs) s -> step c i cs (mkC s (c_col cs) g b).
Proof. intros G X. split; [exact G|]. split; [exact X|]. apply touch_refl. Qed.

Lemma colour_scc_step c i cs b cs' : inv (c_state cs) -> scc_ok (c_state cs) -> (1 <= c)%nat -> (i < st_num (c_state cs))%nat ->
  colour_scc is_emptyb skip fuse c i cs = Some (b, cs') ->
  step c i cs cs' /\ (b = true -> forall u, In u (scc_stmts (c_state cs) i) -> coloured c (st_prog (c_state cs)) (c_col cs') u).
Proof.
  intros I OK Hc Hi H. pose proof (colour_scc_good is_emptyb skip fuse EX c i cs b cs' I H) as G.
  unfold colour_scc in H. cbv zeta in H. set (s := c_state cs) in *. destruct OK as (M1 & M2 & M3).
  assert (forall u, In u (scc_stmts s i) -> Z.of_nat (s_dim_orig (stmt_of (st_prog s) u)) <= nth i (st_max s) 0) as MX.
  { intros u Hu. apply scc_stmts_spec in Hu as [Hu Es]. specialize (M1 u Hu). rewrite Es, Nat2Z.id in M1. exact M1. }
  destruct (Z.ltb_spec (nth i (st_max s) 0) (Z.of_nat (c - 1))) as [L|L].
  { injection H as <- <-. split; [split; [exact G|]; split; [apply ext_refl|apply touch_refl]|]. intros _ u Hu D. specialize (MX u Hu). lia. }
  destruct (Z.eqb_spec (nth i (st_max s) 0) (Z.of_nat (c - 1))) as [E|E].
  { injection H as <- <-. cbn [c_state c_col] in *. split.
    - split; [exact G|]. split; [|apply touch_refl]. cbn [c_state]. fold s. destruct (scc_stmts s i) as [|u [|v l]]; try apply ext_refl. apply cut_coloured_ext; auto.
    - intros _ u Hu D. specialize (MX u Hu). lia. }
  destruct (colour_stmts _ _ _ _ _ _ _) as [[b' col]|] eqn:Ec; [|discriminate]. injection H as <- <-. cbn [c_state c_col] in *.
  apply colour_stmts_spec in Ec as [T S].
  - split; [split; [exact G|]; split; [apply ext_refl|exact T]|]. intros Hb u Hu _. destruct (S Hb) as [f F]. destruct (F u Hu) as (F1 & _ & F3 & _). eauto.
  - intros u Hu. pose proof Hu as Hu0. apply scc_stmts_spec in Hu as [Hu Es]. split; [exact Hu|].
    destruct (Nat.eq_dec (s_dim_orig (stmt_of (st_prog s) u)) 0) as [Z0|N]; [exfalso|lia].
    destruct (M2 i Hi) as (w & Hw & Ew & Mw). assert (w = u) as -> by (apply M3; auto; congruence). lia.
  - apply scc_stmts_nodup.
Qed.

Lemma retry_step c i cs b cs' : inv (c_state cs) -> scc_ok (c_state cs) -> (1 <= c)%nat -> (i < st_num (c_state cs))%nat ->
  cut_and_retry is_emptyb refresh skip fuse c i cs = Some (b, cs') ->
  step c i cs cs' /\ (b = true -> forall u, In u (scc_stmts (c_state cs) i) -> coloured c (st_prog (c_state cs)) (c_col cs') u).
Proof.
  intros I OK Hc Hi H. unfold cut_and_retry in H. cbv zeta in H. pose proof (cut_before_good is_emptyb fuse EX i _ I) as G. pose proof (cut_before_ext i _ I) as X.
  set (s := cut_before _ _ _ _) in *. destruct (refreshed _ _ _ _ _) as [g|]; [|discriminate]. apply colour_scc_step in H as [A B]; cbn [c_state c_col] in *.
  - split; [eapply step_trans; [|exact A]; apply step_state; auto|]. intros Hb u Hu D.
    destruct (B Hb u) as (v & O & E); [apply (scc_stmts_ext _ _ i X); auto| |exists v; split; [apply (own_frame _ _ u v (proj2 G)); auto|auto]].
    destruct G as [_ (_ & _ & _ & S & _)]. destruct (S u) as (_ & -> & _). exact D.
  - apply G.
  - eapply scc_ok_ext; [apply G|exact X|auto].
  - auto.
  - destruct X as (_ & _ & _ & -> & _). auto.
Qed.

(** From [cs] to [cs'], from which colouring succeeded. *)
Lemma coloured_frame c a b col u : frame a b -> (coloured c a col u <-> coloured c b col u).
Proof.
  intros F. unfold coloured. pose proof F as (_ & _ & _ & S & _). destruct (S u) as (_ & E & _). rewrite E.
  split; intros H D; destruct (H D) as (v & O & X); exists v; (split; [apply (own_frame a b u v F); auto|auto]).
Qed.

Definition result (c i : nat) (cs : cstate) (b : bool) (cs' : cstate) : Prop :=
  step c i cs cs' /\ (b = true -> forall u, In u (scc_stmts (c_state cs) i) -> coloured c (st_prog (c_state cs)) (c_col cs') u).
Lemma result_trans c i cs cs1 b cs2 : step c i cs cs1 -> result c i cs1 b cs2 -> result c i cs b cs2.
Proof.
  intros S [A B]. pose proof S as (G & X & _). split; [eapply step_trans; eauto|]. intros Hb u Hu.
  apply (coloured_frame c _ _ _ u (proj2 G)). apply B; auto. apply (scc_stmts_ext _ _ i X). auto.
Qed.
Lemma step_ok c i cs cs1 : step c i cs cs1 -> scc_ok (c_state cs) -> (i < st_num (c_state cs))%nat ->
  inv (c_state cs1) /\ scc_ok (c_state cs1) /\ (i < st_num (c_state cs1))%nat.
Proof.
  intros (G & X & _) OK Hi. split; [apply G|]. split; [eapply scc_ok_ext; [apply G|exact X|auto]|]. destruct X as (_ & _ & _ & -> & _). auto.
Qed.

Lemma colour_one_step c i cs cs' : inv (c_state cs) -> scc_ok (c_state cs) -> (1 <= c)%nat -> (i < st_num (c_state cs))%nat ->
  colour_one is_emptyb build refresh skip fuse c i cs = Some cs' -> result c i cs true cs'.
Proof.
  intros I OK Hc Hi H. unfold colour_one in H. cbv zeta in H.
  destruct (distributed _ _ i cs) as [c0|] eqn:E0; [|discriminate].
  assert (step c i cs c0) as G0.
  { unfold distributed in E0. destruct (_ && _); [|injection E0 as <-; split; [apply good_refl; auto|]; split; [apply ext_refl|apply touch_refl]].
    cbv zeta in E0. destruct (update_graph _ _ _ _ _ _); [|discriminate]. injection E0 as <-.
    apply step_state; [apply distribute_good; auto|apply distribute_ext]. }
  clear E0. eapply result_trans; [exact G0|]. destruct (step_ok _ _ _ _ G0 OK Hi) as (I0 & OK0 & Hi0). clear cs I OK Hi G0.
  destruct (colour_scc _ _ _ c i c0) as [[[|] c1]|] eqn:E1; [| |discriminate].
  { injection H as <-. apply colour_scc_step in E1; auto. }
  apply colour_scc_step in E1 as [S1 _]; auto. eapply result_trans; [exact S1|]. destruct (step_ok _ _ _ _ S1 OK0 Hi0) as (I1 & OK1 & Hi1). clear c0 I0 OK0 Hi0 S1.
  set (r := if c_rebuild c1 || _ then _ else _) in H.
  assert (forall b c4, r = Some (b, c4) -> result c i c1 b c4) as R.
  { intros b c4. unfold r. destruct (_ || _); [|intros E; apply retry_step in E; auto].
    set (s2 := match fuse with NoFuse => _ | _ => _ end).
    assert (step c i c1 (rebuild build c (mkC s2 (c_col c1) (c_fcg c1) (c_rebuild c1)))) as G2.
    { apply (step_state c i c1 s2); cbn [c_state]; unfold s2; destruct fuse;
        first [apply cut_all_good; auto|apply good_refl; auto|apply cut_all_ext|apply ext_refl]. }
    destruct (step_ok _ _ _ _ G2 OK1 Hi1) as (I2 & OK2 & Hi2). set (c2 := rebuild _ _ _) in *.
    destruct (colour_scc _ _ _ c i c2) as [[[|] c3]|] eqn:E3; [| |discriminate].
    - intros X. injection X as <- <-. apply colour_scc_step in E3; auto. eapply result_trans; eauto.
    - apply colour_scc_step in E3 as [S3 _]; auto. destruct (step_ok _ _ _ _ S3 OK2 Hi2) as (I3 & OK3 & Hi3). destruct (i =? 0)%nat.
      + intros X. injection X as <- <-. split; [eapply step_trans; eauto|discriminate].
      + intros X. apply retry_step in X; auto. eapply result_trans; [exact G2|]. eapply result_trans; eauto. }
  clearbody r. destruct r as [[[|] c4]|]; [| |discriminate].
  - injection H as <-. eauto.
  - destruct (R _ _ eq_refl) as [R1 _]. eapply result_trans; [exact R1|]. destruct (step_ok _ _ _ _ R1 OK1 Hi1) as (I4 & OK4 & Hi4). clear R R1.
    destruct (colour_scc _ _ _ c i _) as [[[|] c7]|] eqn:E7 in H; [|discriminate|discriminate]. injection H as <-.
    eapply result_trans; [|apply colour_scc_step with (b := true); [..|exact E7]].
    + unfold rebuild. cbn [c_state c_col]. destruct c4 as [[pr a n m] col g b]. cbn [c_state c_col st_prog st_adj st_num st_max] in *.
      destruct (inv_precise LAZY is_emptyb EX pr a n m eq_refl I4) as [I5 F5]. destruct (inv_directions is_emptyb _ a n m I5) as [I6 F6].
      apply (step_state c i (mkC (mkState pr a n m) col g b)); cbn [c_state].
      * split; [exact I6|]. cbn [st_prog]. eapply frame_trans; eauto.
      * eapply ext_trans; [apply ext_flags with (a' := a)|apply ext_flags].
    + cbn [rebuild c_state]. destruct (c_state c4) as [pr a n m]. cbn [st_prog st_adj st_num st_max] in *.
      destruct (inv_precise LAZY is_emptyb EX pr a n m eq_refl I4) as [I5 F5]. apply (inv_directions is_emptyb _ a n m I5).
    + cbn [rebuild c_state]. destruct (c_state c4) as [pr a n m]. cbn [st_prog st_adj st_num st_max] in *.
      destruct (inv_precise LAZY is_emptyb EX pr a n m eq_refl I4) as [I5 F5]. destruct (inv_directions is_emptyb _ a n m I5) as [I6 F6].
      eapply scc_ok_ext; [| |exact OK4]; cbn [st_prog]; [eapply frame_trans; eauto|].
      eapply ext_trans; [apply ext_flags with (a' := a)|apply ext_flags].
    + auto.
    + exact Hi4.
Qed.

Lemma colour_sccs_step c is : forall cs cs', inv (c_state cs) -> scc_ok (c_state cs) -> (1 <= c)%nat -> NoDup is -> (forall i, In i is -> (i < st_num (c_state cs))%nat) ->
  colour_sccs is_emptyb build refresh skip fuse c is cs = Some cs' ->
  good (c_state cs) (c_state cs') /\ ext (c_state cs) (c_state cs') /\
  touch (fun v => exists i u, In i is /\ In u (scc_stmts (c_state cs) i) /\ own (st_prog (c_state cs)) u v) (Z.of_nat c) (c_col cs) (c_col cs') /\
  forall i u, In i is -> In u (scc_stmts (c_state cs) i) -> coloured c (st_prog (c_state cs)) (c_col cs') u.
Proof.
  induction is as [|i l IH]; intros cs cs' I OK Hc ND Hi H; cbn [colour_sccs] in H.
  { injection H as <-. split; [apply good_refl; auto|]. split; [apply ext_refl|]. split; [apply touch_refl|]. intros i u []. }
  destruct (colour_one _ _ _ _ _ _ _ _) as [c1|] eqn:E; [|discriminate]. inversion ND as [|? ? N1 N2]; subst.
  apply colour_one_step in E as [S1 C1]; auto; [|apply Hi; simpl; auto].
  destruct (step_ok _ _ _ _ S1 OK (Hi i (or_introl eq_refl))) as (I1 & OK1 & _). pose proof S1 as (G1 & X1 & T1).
  apply IH in H as (G2 & X2 & T2 & C2); auto.
  - split; [eapply good_trans; eauto|]. split; [eapply ext_trans; eauto|]. split.
    + eapply touch_trans.
      * eapply touch_weaken; [|exact T1]. intros v (u & A & B). exists i, u. simpl. auto.
      * eapply touch_weaken; [|exact T2]. intros v (k & u & A & B & D). exists k, u. simpl. split; [auto|].
        split; [apply (scc_stmts_ext _ _ k X1); auto|apply (own_frame _ _ u v (proj2 G1)); auto].
    + intros k u Hk Hu. destruct Hk as [<-|Hk].
      * intros D. destruct (C1 eq_refl u Hu D) as (v & O & Ev). exists v. split; [auto|]. rewrite (touch_out _ _ _ _ v T2); auto.
        intros (k & w & A & B & C). apply (own_frame _ _ w v (proj2 G1)) in C. apply (scc_stmts_ext _ _ k X1) in B.
        apply scc_stmts_spec in Hu as [U1 U2], B as [B1 B2]. assert (u = w) as <- by (eapply own_disjoint; eauto). rewrite U2 in B2. apply Nat2Z.inj in B2. subst k. auto.
      * apply (coloured_frame c _ _ _ u (proj2 G1)). eapply C2; eauto. apply (scc_stmts_ext _ _ k X1). auto.
  - intros k Hk. destruct X1 as (_ & _ & _ & -> & _). apply Hi. simpl. auto.
Qed.

(** ** The rows of the schedules *)

Definition rows_ext (a b : prog) : Prop :=
  length (p_stmts b) = length (p_stmts a) /\
  forall u, (u < length (p_stmts a))%nat -> exists l, mrows (s_trans (stmt_of b u)) = mrows (s_trans (stmt_of a u)) ++ l.
Lemma rows_ext_trans a b c : rows_ext a b -> rows_ext b c -> rows_ext a c.
Proof.
  intros [A1 A2] [B1 B2]. split; [congruence|]. intros u Hu. destruct (A2 u Hu) as [l1 E1]. destruct (B2 u) as [l2 E2]; [congruence|]. exists (l1 ++ l2). rewrite E2, E1, app_assoc. auto.
Qed.
Lemma ext_rows s s' : ext s s' -> rows_ext (st_prog s) (st_prog s').
Proof. intros (A & B & _). split; auto. Qed.
Lemma same_rows_ext a b : length (p_stmts b) = length (p_stmts a) -> same_rows a b -> rows_ext a b.
Proof. intros L [R _]. split; [auto|]. intros u _. exists []. rewrite app_nil_r, R. auto. Qed.

(** The row of colour [c] of statement [j]. *)
Definition row_of (pr : prog) (col : list Z) (c j : nat) (r : list Z) : Prop :=
  forall k, (k < p_nvar pr)%nat ->
    if (k <? s_dim_orig (stmt_of pr j))%nat && (nth (vertex_offset pr j + k) col 0 =? Z.of_nat c) then 1 <= nth k r 0 else nth k r 0 = 0.
Definition levels_ok (C : nat) (pr : prog) (col : list Z) : Prop :=
  forall j c, (j < length (p_stmts pr))%nat -> (1 <= c <= C)%nat -> (c <= s_dim_orig (stmt_of pr j))%nat ->
    coloured c pr col j /\ exists r, In r (mrows (s_trans (stmt_of pr j))) /\ row_of pr col c j r.

Lemma levels_ok_step C pr pr' V col col' : frame pr pr' -> rows_ext pr pr' -> touch V (Z.of_nat (S C)) col col' ->
  levels_ok C pr col -> levels_ok C pr' col'.
Proof.
  intros F [L R] T H j c Hj Hc Hd. pose proof F as (Nv & _ & Ln & Sm & _). destruct (Sm j) as (_ & Ed & _). rewrite Ed in Hd. rewrite Ln in Hj.
  destruct (H j c Hj Hc Hd) as [A (r & Hr & Rr)].
  assert (forall v, nth v col' 0 = Z.of_nat c <-> nth v col 0 = Z.of_nat c) as K.
  { intros v. destruct T as [_ T]. destruct (T v) as [E|(_ & B & D)]; [rewrite E; tauto|]. split; intros E; exfalso; lia. }
  split.
  - apply (coloured_frame c _ _ _ j F). intros _. destruct (A Hd) as (v & O & E). exists v. split; [auto|]. apply K. auto.
  - destruct (R j Hj) as [l El]. exists r. split; [rewrite El; apply in_or_app; auto|]. intros k Hk. rewrite Nv in Hk. specialize (Rr k Hk).
    rewrite Ed, (vertex_offset_frame _ _ j F). destruct (Z.eqb_spec (nth (vertex_offset pr j + k) col' 0) (Z.of_nat c)) as [E|E].
    + apply K in E. rewrite E, Z.eqb_refl in Rr. exact Rr.
    + destruct (Z.eqb_spec (nth (vertex_offset pr j + k) col 0) (Z.of_nat c)) as [E'|E']; [apply K in E'; contradiction|exact Rr].
Qed.

Lemma dfp_level_step C cs cs' : inv (c_state cs) -> scc_ok (c_state cs) -> lone (st_prog (c_state cs)) ->
  levels_ok C (st_prog (c_state cs)) (c_col cs) ->
  dfp_level is_emptyb solve build refresh skip o fuse delayed_cut (S C) cs = Some cs' ->
  good (c_state cs) (c_state cs') /\ scc_ok (c_state cs') /\ levels_ok (S C) (st_prog (c_state cs')) (c_col cs') /\ length (c_col cs') = length (c_col cs).
Proof.
  intros I OK LO LV H. pose proof (dfp_level_good is_emptyb solve build refresh skip o fuse delayed_cut EX SOL _ _ _ I H) as G.
  split; [exact G|]. unfold dfp_level, colour_fcg in H.
  destruct (colour_sccs _ _ _ _ _ _ _ _) as [c1|] eqn:E1; [|discriminate].
  apply colour_sccs_step in E1 as (G1 & X1 & T1 & C1); auto; [|lia|apply seq_NoDup|intros i Hi; apply in_seq in Hi; lia].
  assert (levels_ok C (st_prog (c_state c1)) (c_col c1)) as LV1 by (eapply levels_ok_step; [apply G1|apply ext_rows; exact X1|exact T1|exact LV]).
  assert (forall j, (j < length (p_stmts (st_prog (c_state c1))))%nat -> coloured (S C) (st_prog (c_state c1)) (c_col c1) j) as CC.
  { intros j Hj. apply (coloured_frame (S C) _ _ _ j (proj2 G1)). destruct X1 as (N1 & _). rewrite N1 in Hj.
    pose proof (i_scc _ _ I j Hj) as Sj. unfold scc_of in Sj. apply (C1 (Z.to_nat (s_scc (stmt_of (st_prog (c_state cs)) j)))); [apply in_seq; lia|].
    apply scc_stmts_spec. split; [auto|lia]. }
  destruct (scale_shift _ _ _ _ _ _) as [c2|] eqn:E2; [|discriminate]. apply scale_shift_spec in E2 as (s1 & sol & Gs & Es & S2 & G2 & Ec2 & Ls & _ & CR); auto; [|apply G1].
  assert (ext (c_state c1) s1) as Xs by (destruct Es as [->| ->]; [apply ext_refl|apply cut_smart_ext; apply G1]).
  cbv zeta in H. injection H as <-. cbn [c_state c_col] in *. rewrite Ec2 in *.
  rewrite S2 in *. cbn [st_prog st_adj st_num st_max] in *. rewrite hyperplane_app in *.
  set (q0 := app_level _ _ _ _) in *. set (q := fst (dep_satisfaction_update is_emptyb q0 (nrows0 q0 - 1))) in *.
  assert (nrows0 q0 - 1 < length (p_hprops q0))%nat as HL by (apply last_level_lt; apply Gs).
  destruct (inv_update LAZY is_emptyb EX q0 _ _ _ _ (proj1 G2) HL) as [I3 F3]. fold q in I3, F3.
  change (compute_scc (ddg_update (mkState q (st_adj s1) (st_num s1) (st_max s1)))) with (fresh q (st_num s1) (st_max s1)) in *.
  assert (frame (st_prog (c_state c1)) q) as F1q by (eapply frame_trans; [apply Gs|]; eapply frame_trans; [apply G2|exact F3]).
  assert (frame (st_prog (c_state cs)) q) as Fq by (eapply frame_trans; [apply G1|exact F1q]).
  destruct (fresh_prog q (st_num s1) (st_max s1)) as (f & Ef).
  pose proof (with_scc_frame q f) as Ff. rewrite <- Ef in Ff.
  assert (rows_ext (st_prog (c_state c1)) q) as R1q.
  { eapply rows_ext_trans; [apply ext_rows; exact Xs|]. destruct s1 as [pr1 a1 n1 m1]. apply (ext_rows (mkState pr1 a1 n1 m1) (mkState q a1 n1 m1)). apply ext_app. }
  assert (rows_ext q (st_prog (fresh q (st_num s1) (st_max s1)))) as Rf.
  { apply same_rows_ext; [apply Ff|]. rewrite Ef. split; [apply with_scc_trans|reflexivity]. }
  split; [|split; [|apply T1]].
  - apply scc_ok_fresh; [apply (i_wf _ _ I3)|]. eapply lone_frame; eauto.
  - assert (levels_ok C (st_prog (fresh q (st_num s1) (st_max s1))) (c_col c1)) as LV2.
    { eapply (levels_ok_step C (st_prog (c_state c1)) _ (fun _ => False)); [eapply frame_trans; [exact F1q|exact Ff]|eapply rows_ext_trans; [exact R1q|exact Rf]|apply touch_refl|exact LV1]. }
    change (levels_ok (S C) (st_prog (fresh q (st_num s1) (st_max s1))) (c_col c1)). intros j c Hj Hc Hd. destruct (Nat.eq_dec c (S C)) as [->|Nc]; [|apply LV2; auto; lia].
    assert (frame (st_prog (c_state c1)) (st_prog (fresh q (st_num s1) (st_max s1)))) as FF by (eapply frame_trans; [exact F1q|exact Ff]).
    pose proof FF as (Nv & Np & Ln & Sm & _). destruct (Sm j) as (_ & Ed & _). assert (j < length (p_stmts (st_prog (c_state c1))))%nat as Hj1 by (rewrite <- Ln; exact Hj).
    split; [apply (coloured_frame (S C) _ _ _ j FF); auto|].
    assert (j < length (p_stmts (st_prog s1)))%nat as Hjs by (destruct Xs as (-> & _); auto).
    exists (hyp_row (st_prog s1) sol j). split.
    + destruct Rf as [_ Rf]. destruct (Rf j) as [l El]; [destruct F1q as (_ & _ & L & _); lia|]. change (In (hyp_row (st_prog s1) sol j) (mrows (s_trans (stmt_of (st_prog (fresh q (st_num s1) (st_max s1))) j)))). rewrite El. apply in_or_app. left.
      change (stmt_of q j) with (stmt_of q0 j). unfold q0. rewrite app_level_stmt by auto. rewrite append_row_rows. apply in_or_app. simpl. auto.
    + intros k Hk. rewrite Nv in Hk. rewrite Ed, (vertex_offset_frame _ _ j FF).
      specialize (CR j Hj1). unfold colour_rule in CR. destruct (Nat.ltb_spec (s_dim_orig (stmt_of (st_prog (c_state c1)) j)) (S C)) as [L|L]; [lia|].
      specialize (CR k ltac:(apply in_seq; lia)).
      destruct (i_orig _ _ (proj1 G1) _ (stmt_of_in _ j Hj1)) as [O1 O2]. rewrite O2 in CR.
      assert (nth k (repeat true (s_dim_orig (stmt_of (st_prog (c_state c1)) j)) ++ repeat false (p_nvar (st_prog (c_state c1)) - s_dim_orig (stmt_of (st_prog (c_state c1)) j))) false = (k <? s_dim_orig (stmt_of (st_prog (c_state c1)) j))%nat) as Em.
      { destruct (Nat.ltb_spec k (s_dim_orig (stmt_of (st_prog (c_state c1)) j))).
        - rewrite app_nth1 by (rewrite repeat_length; auto). rewrite (nth_indep _ false true) by (rewrite repeat_length; auto). apply nth_repeat.
        - rewrite app_nth2 by (rewrite repeat_length; auto). apply nth_repeat. }
      rewrite Em in CR.
      assert (nth k (hyp_row (st_prog s1) sol j) 0 = hcoef (st_prog (c_state c1)) sol j k) as ->; [|exact CR].
      destruct Gs as [_ (V1 & P1 & _)]. unfold hyp_row, hcoef, stmt_offset. rewrite V1, P1.
      rewrite app_nth1 by (rewrite map_length, seq_length; auto). rewrite nth_map_seq by auto. f_equal.
Qed.

Lemma dfp_levels_step l : forall C cs cs', inv (c_state cs) -> scc_ok (c_state cs) -> lone (st_prog (c_state cs)) ->
  levels_ok C (st_prog (c_state cs)) (c_col cs) ->
  dfp_levels is_emptyb solve build refresh skip o fuse delayed_cut (seq (S C) l) cs = Some cs' ->
  levels_ok (C + l) (st_prog (c_state cs')) (c_col cs').
Proof.
  induction l as [|l IH]; intros C cs cs' I OK LO LV H; cbn [seq dfp_levels] in H.
  { injection H as <-. rewrite Nat.add_0_r. auto. }
  destruct (dfp_level _ _ _ _ _ _ _ _ _ _) as [c1|] eqn:E; [|discriminate]. apply dfp_level_step in E as (G1 & OK1 & LV1 & _); auto.
  apply IH in H; auto; [rewrite Nat.add_succ_r; exact H|apply G1|eapply lone_frame; [apply G1|auto]].
Qed.
End Ext.

(** ** One loop per colour *)

Lemma classes_single D (f : nat -> Z) : (forall c, (1 <= c <= D)%nat -> exists k, (k < D)%nat /\ f k = Z.of_nat c) ->
  forall k, (k < D)%nat -> exists c, (1 <= c <= D)%nat /\ f k = Z.of_nat c /\ forall k', (k' < D)%nat -> f k' = Z.of_nat c -> k' = k.
Proof.
  intros H. set (A := map Z.of_nat (seq 1 D)). set (M := map f (seq 0 D)).
  assert (NoDup A) as NA by (apply FinFun.Injective_map_NoDup; [intros x y E; lia|apply seq_NoDup]).
  assert (length A = D /\ length M = D) as [LA LM] by (unfold A, M; rewrite !map_length, !seq_length; auto).
  assert (incl A M) as IN.
  { intros x Hx. unfold A in Hx. apply in_map_iff in Hx as (c & <- & Hc). apply in_seq in Hc. destruct (H c ltac:(lia)) as (k & Hk & E). unfold M. rewrite <- E. apply in_map. apply in_seq. lia. }
  assert (NoDup M) as NM by (apply (NoDup_incl_NoDup (l := A)); auto; lia).
  assert (incl M A) as IN' by (apply NoDup_length_incl; auto; lia).
  intros k Hk. assert (In (f k) A) as Ha by (apply IN'; unfold M; apply in_map; apply in_seq; lia).
  unfold A in Ha. apply in_map_iff in Ha as (c & E & Hc). apply in_seq in Hc. exists c. split; [lia|]. split; [auto|].
  intros k' Hk' E'. apply (proj1 (NoDup_nth M 0) NM); [lia|lia|]. unfold M. rewrite !nth_map_seq by auto. simpl. congruence.
Qed.

Lemma single_coef r x k n : (k < n)%nat -> (n <= length r)%nat -> length x = n -> (forall k', (k' < n)%nat -> k' <> k -> nth k' r 0 = 0) ->
  forall y, length y = n -> forall p, dot r (x ++ p) - dot r (y ++ p) = nth k r 0 * (nth k x 0 - nth k y 0).
Proof.
  revert x k n. induction r as [|a r IH]; intros x k n Hk Hl Lx Hz y Ly p; [simpl in Hl; lia|].
  destruct x as [|b x]; [simpl in Lx; lia|]. destruct y as [|e y]; [simpl in Ly; lia|]. simpl in Lx, Ly, Hl. cbn [app dot].
  destruct k as [|k].
  - assert (dot r (x ++ p) = dot r (y ++ p)) as E.
    { clear - Hz Lx Ly Hl. assert (forall k', (k' < length x)%nat -> nth k' r 0 = 0) as Hz' by (intros k' Hk'; apply (Hz (S k')); lia).
      assert (length x <= length r)%nat as Hr by lia. assert (length y = length x) as Ly' by lia. clear - Hz' Hr Ly'.
      revert x y Hz' Hr Ly'. induction r as [|a r IH]; intros x y Hz Hr Ly; [destruct x; [destruct y; [auto|simpl in Ly; lia]|simpl in Hr; lia]|].
      destruct x as [|b x], y as [|e y]; try (simpl in Ly; lia). cbn [app dot]. pose proof (Hz 0%nat ltac:(simpl; lia)) as Z0. simpl in Z0. subst a.
      rewrite (IH x y); [lia| |simpl in Hr; lia|simpl in Ly; lia]. intros k' Hk'. apply (Hz (S k')). simpl; lia. }
    simpl nth. lia.
  - pose proof (Hz 0%nat ltac:(lia) ltac:(lia)) as Z0. simpl in Z0. subst a.
    assert (dot r (x ++ p) - dot r (y ++ p) = nth k r 0 * (nth k x 0 - nth k y 0)) as E.
    { apply (IH x k (n - 1)%nat); try lia. intros k' Hk' N. apply (Hz (S k')); lia. }
    simpl nth. lia.
Qed.

Lemma rows_one_to_one pr j (f : nat -> Z) : wf_prog pr -> padded pr -> orig_first pr -> (j < length (p_stmts pr))%nat ->
  (forall c, (1 <= c <= s_dim_orig (stmt_of pr j))%nat ->
     (exists k, (k < s_dim_orig (stmt_of pr j))%nat /\ f k = Z.of_nat c) /\
     exists r, In r (mrows (s_trans (stmt_of pr j))) /\
       forall k, (k < p_nvar pr)%nat -> if (k <? s_dim_orig (stmt_of pr j))%nat && (f k =? Z.of_nat c) then 1 <= nth k r 0 else nth k r 0 = 0) ->
  one_to_one pr (stmt_of pr j).
Proof.
  intros W P O Hj LV x y p Lx Ly Lp Es Et. pose proof (stmt_of_in _ j Hj) as Hin. rewrite (P _ Hin) in Lx, Ly. destruct (O _ Hin) as [Od _].
  set (D := s_dim_orig (stmt_of pr j)) in *.
  assert (forall k, (k < D)%nat -> nth k x 0 = nth k y 0) as K.
  { intros k Hk. destruct (classes_single D f) with (k := k) as (c & Hc & Ec & Uc); auto.
    { intros c Hc. destruct (LV c Hc) as [A _]. exact A. }
    destruct (LV c Hc) as [_ (r & Hr & Rr)].
    assert (aff r (x ++ p) = aff r (y ++ p)) as Ea.
    { unfold timestamp in Et. clear - Hr Et. induction (mrows (s_trans (stmt_of pr j))) as [|a l IH]; [destruct Hr|]. cbn [map] in Et. injection Et as E1 E2. destruct Hr as [<-|Hr]; auto. }
    unfold aff in Ea. rewrite <- !app_assoc in Ea.
    assert (length r = (p_nvar pr + p_npar pr + 1)%nat) as Lr.
    { destruct (proj1 (wf_prog_shapes _ W) _ Hin) as (A & B & C & _). rewrite (C r Hr), B, (P _ Hin). auto. }
    assert (forall k', (k' < p_nvar pr)%nat -> k' <> k -> nth k' r 0 = 0) as Rz.
    { intros k' Hk' N. specialize (Rr k' Hk'). destruct (Nat.ltb_spec k' D); [|exact Rr]. destruct (Z.eqb_spec (f k') (Z.of_nat c)) as [E|E]; [|exact Rr].
      exfalso. apply N. apply Uc; auto. }
    pose proof (single_coef r x k (p_nvar pr) ltac:(lia) ltac:(lia) Lx Rz y Ly (p ++ [1])) as Q.
    specialize (Rr k ltac:(lia)). rewrite Ec, Z.eqb_refl in Rr. destruct (Nat.ltb_spec k D); [|lia]. cbn [andb] in Rr. nia. }
  apply (list_ext_nth 0); [congruence|]. intros k Hk. destruct (Nat.lt_ge_cases k D) as [L|L]; [auto|].
  assert (nth (k - D) (skipn D x) 0 = nth (k - D) (skipn D y) 0) as E by (rewrite Es; auto). rewrite !nth_skipn in E. replace (D + (k - D))%nat with k in E by lia. exact E.
Qed.
Lemma levels_one_to_one pr col j : wf_prog pr -> padded pr -> orig_first pr -> (j < length (p_stmts pr))%nat ->
  levels_ok (p_nvar pr) pr col -> one_to_one pr (stmt_of pr j).
Proof.
  intros W P O Hj LV. apply (rows_one_to_one pr j (fun k => nth (vertex_offset pr j + k) col 0)); auto.
  intros c Hc. destruct (O _ (stmt_of_in _ j Hj)) as [Od _]. destruct (LV j c Hj ltac:(lia) ltac:(lia)) as [A B]. split; [|exact B].
  destruct (A ltac:(lia)) as (v & Ov & Ev). unfold own in Ov. exists (v - vertex_offset pr j)%nat. split; [lia|]. rewrite <- Ev. f_equal. lia.
Qed.

(** ** The start *)

Lemma start_frame pr : input_ok pr -> lone_scalars pr ->
  scc_ok (start_state pr) /\ scc_ok (compute_scc (mkState (clear_schedules pr) (graph_of (clear_schedules pr)) 0 [])) /\ lone (st_prog (start_state pr)).
Proof.
  intros IN LS. pose proof (start_inv pr IN) as [I AG].
  assert (forall u, s_dim_orig (stmt_of (st_prog (start_state pr)) u) = s_dim_orig (stmt_of pr u)) as ED by (intros u; apply (ag_dim0 _ _ AG u)).
  assert (lone (st_prog (start_state pr))) as LO.
  { intros u v Hu Hv D A B. rewrite (ag_n _ _ AG) in Hu, Hv. rewrite ED in D. apply LS; auto.
    - rewrite (input_simple pr IN u Hu). exact D.
    - apply (agree_depends _ _ u v AG). auto.
    - apply (agree_depends _ _ v u AG). auto. }
  enough (scc_ok (start_state pr) /\ scc_ok (compute_scc (mkState (clear_schedules pr) (graph_of (clear_schedules pr)) 0 []))) by tauto.
  set (pr0 := set_hprops (clear_schedules pr) []).
  pose proof (clear_frame pr) as F0. destruct IN as [[W1 W2] Hi].
  assert (frame pr pr0) as F0' by (destruct F0 as (A & B & C & D & E); repeat split; auto; apply D).
  assert (wf_prog pr0) as W0.
  { split; [|exact (frame_deps_wf _ _ F0' W2)]. intros st Hst. change (In st (p_stmts (clear_schedules pr))) in Hst.
    apply in_stmt_of in Hst as (s & Hs & <-). rewrite clear_n in Hs. rewrite clear_stmt by auto.
    destruct (W1 _ (stmt_of_in pr s Hs)) as (A & B & C & D & G & K). unfold wf_stmt. cbn [set_hyp set_trans s_orig s_dim s_trans s_hyp s_domain s_reads s_writes mncols mnrows mrows].
    change (p_npar pr0) with (p_npar pr). split; [exact A|]. split; [auto|]. split; [intros r []|]. split; [reflexivity|]. split; [reflexivity|]. auto. }
  assert (lone pr0) as L0.
  { intros u v Hu Hv D A B. pose proof F0' as (_ & _ & Ln & Sm & _). destruct (Sm u) as (E1 & E2 & _). rewrite Ln in Hu, Hv. apply LS; auto.
    - destruct (Hi _ (stmt_of_in pr u Hu)) as (X & _). congruence.
    - apply (frame_depends _ _ u v F0'). auto.
    - apply (frame_depends _ _ v u F0'). auto. }
  pose proof (scc_ok_fresh pr0 0 [] W0 L0) as OK.
  assert (scc_ok (compute_scc (mkState (clear_schedules pr) (graph_of (clear_schedules pr)) 0 []))) as OK1.
  { unfold fresh, compute_scc in *. cbn [st_prog st_adj] in *. change (p_stmts pr0) with (p_stmts (clear_schedules pr)) in OK.
    change (graph_of pr0) with (graph_of (clear_schedules pr)) in OK.
    destruct (GraphModel.ddg_compute_scc _ _ _ _) as [scc num]. exact OK. }
  destruct (compute_scc_prog (mkState (clear_schedules pr) (graph_of (clear_schedules pr)) 0 [])) as (f & Ef).
  split; [|exact OK1]. unfold start_state. cbv zeta. set (s0 := compute_scc _) in *. cbn [st_prog] in Ef.
  change (st_prog s0 = with_scc (clear_schedules pr) f) in Ef.
  destruct (clear_cleared pr f (conj (conj W1 W2) Hi)) as [CL SI]. rewrite <- Ef in CL, SI.
  destruct (normalize_ok (st_prog s0) CL SI) as [[P1 P2 P3 P4] P5]. destruct OK1 as (A & B & C).
  unfold scc_ok. cbn [st_prog st_num st_max]. set (z := normalize_domains (st_prog s0)) in *.
  assert (forall u, s_dim_orig (stmt_of (set_hprops z []) u) = s_dim_orig (stmt_of (st_prog s0) u)) as Kd by (intros u; apply (ag_dim0 _ _ P2 u)).
  assert (forall u, s_scc (stmt_of (set_hprops z []) u) = s_scc (stmt_of (st_prog s0) u)) as Ks by (intros u; apply (P3 u)).
  change (p_stmts (set_hprops z [])) with (p_stmts z). rewrite (ag_n _ _ P2). split; [|split].
  - intros u Hu. rewrite Kd, Ks. auto.
  - intros k Hk. destruct (B k Hk) as (u & Hu & X & Y). exists u. rewrite Kd, Ks. auto.
  - intros u v Hu Hv. rewrite Kd, !Ks. auto.
Qed.

(** Components found from the same graph and the same dimensionalities. *)
Lemma scc_ok_again a b adj n m n' m' : length (p_stmts b) = length (p_stmts a) -> (forall u, s_dim_orig (stmt_of b u) = s_dim_orig (stmt_of a u)) ->
  scc_ok (compute_scc (mkState a adj n m)) -> scc_ok (compute_scc (mkState b adj n' m')).
Proof.
  intros L D. unfold compute_scc. cbn [st_prog st_adj]. rewrite L.
  assert (map s_dim_orig (p_stmts b) = map s_dim_orig (p_stmts a)) as ->.
  { apply (list_ext_nth 0%nat); [rewrite !map_length; auto|]. intros k _. change 0%nat with (s_dim_orig dummy_stmt). rewrite !List.map_nth. apply D. }
  destruct (GraphModel.ddg_compute_scc _ _ _ _) as [scc num]. fold (with_scc a (fun i => nth i scc 0)).
  replace (set_stmts b _) with (with_scc b (fun i => nth i scc 0)) by (unfold with_scc; rewrite L; reflexivity).
  intros (A & B & C). unfold scc_ok in *. cbn [st_prog st_num st_max] in *. rewrite with_scc_nstmts in *. rewrite L.
  assert (forall u, (u < length (p_stmts a))%nat -> s_dim_orig (stmt_of (with_scc b (fun i => nth i scc 0)) u) = s_dim_orig (stmt_of (with_scc a (fun i => nth i scc 0)) u)) as Kd.
  { intros u Hu. rewrite !with_scc_stmt by lia. apply D. }
  assert (forall u, (u < length (p_stmts a))%nat -> s_scc (stmt_of (with_scc b (fun i => nth i scc 0)) u) = s_scc (stmt_of (with_scc a (fun i => nth i scc 0)) u)) as Ks.
  { intros u Hu. rewrite !with_scc_stmt by lia. reflexivity. }
  split; [|split].
  - intros u Hu. rewrite Kd, Ks by auto. auto.
  - intros k Hk. destruct (B k Hk) as (u & Hu & X & Y). exists u. rewrite Kd, Ks by auto. auto.
  - intros u v Hu Hv. rewrite Kd, !Ks by auto. auto.
Qed.

Section Search.
Variables (is_emptyb : cst -> bool) (solve : prog -> cst -> option point).
Variables (build : dstate -> list Z -> nat -> fcg) (refresh : dstate -> fcg -> nat -> nat -> option fcg) (skip : dstate -> nat -> nat -> bool).
Variables (o : options) (fuse : fusion) (delayed_cut : bool).
Hypothesis EX : exact_empty is_emptyb.
Hypothesis SOL : solver_sound solve.

Lemma dfp_search_one_to_one pr cs : input_ok pr -> lone_scalars pr -> inv LAZY (start_state pr) ->
  dfp_search is_emptyb solve build refresh skip o fuse delayed_cut (start_state pr) = Some cs ->
  forall j, (j < length (p_stmts (st_prog (c_state cs))))%nat -> one_to_one (st_prog (c_state cs)) (stmt_of (st_prog (c_state cs)) j).
Proof.
  intros IN LS I H j Hj. destruct (start_frame pr IN LS) as (OK & OK0 & LO).
  pose proof (dfp_search_good is_emptyb solve build refresh skip o fuse delayed_cut EX SOL _ _ I H) as [I' _].
  unfold dfp_search in H. cbv zeta in H. set (s1 := match fuse with NoFuse => _ | _ => _ end) in H.
  assert (inv LAZY s1 /\ scc_ok s1 /\ lone (st_prog s1)) as (I1 & OK1 & LO1).
  { unfold s1. destruct fuse; auto. destruct (inv_compute_scc LAZY _ I) as [Ic Fc].
    pose proof (cut_all_good LAZY is_emptyb EX _ Ic) as [Ia Fa]. split; [exact Ia|].
    assert (lone (st_prog (compute_scc (start_state pr)))) as Lc by (eapply lone_frame; eauto).
    split; [|eapply lone_frame; eauto]. eapply scc_ok_ext; [exact Fa|apply cut_all_ext|].
    unfold start_state. cbv zeta. set (s0 := compute_scc (mkState (clear_schedules pr) _ _ _)) in *.
    assert (st_adj s0 = graph_of (clear_schedules pr)) as -> by (unfold s0, compute_scc; cbn [st_prog st_adj]; destruct (GraphModel.ddg_compute_scc _ _ _ _); reflexivity).
    destruct (start_inv pr IN) as [_ AG]. unfold start_state in AG. cbv zeta in AG. fold s0 in AG. cbn [st_prog] in AG. pose proof (clear_frame pr) as (_ & _ & Ln & Sm & _).
    eapply scc_ok_again; [| |exact OK0].
    - rewrite (ag_n _ _ AG). auto.
    - intros u. destruct (Sm u) as (_ & -> & _). apply (ag_dim0 _ _ AG u). }
  clearbody s1. pose proof H as H0. apply (dfp_levels_step is_emptyb solve build refresh skip o fuse delayed_cut EX SOL _ 0) in H; cbn [c_state c_col]; auto.
  - apply dfp_levels_good in H0 as [_ F]; auto. cbn [c_state] in F.
    apply levels_one_to_one with (col := c_col cs); [apply I'|apply I'|apply I'|auto|]. destruct F as (-> & _). exact H.
  - intros k c Hk Hc. lia.
Qed.

Lemma timestamp_eq pr d s t p : wf_prog pr -> wf_dep pr d ->
  (forall k, (k < length (p_hprops pr))%nat -> distance pr d k s t p = 0) ->
  timestamp (stmt_of pr (d_src d)) s p = timestamp (stmt_of pr (d_dst d)) t p.
Proof.
  intros W (D1 & D2 & _) H. apply (list_ext_nth 0); [rewrite !timestamp_length, !(wf_nrows pr); auto|].
  intros k Hk. rewrite timestamp_length, (wf_nrows pr) in Hk by auto. rewrite !timestamp_nth, !(wf_nrows pr) by auto.
  destruct (Nat.ltb_spec k (length (p_hprops pr))); [|lia]. specialize (H k Hk). unfold distance in H. lia.
Qed.
Lemma weak_ordered pr d s t p : wf_prog pr -> wf_dep pr d -> weak_all pr d -> instance pr d s t p ->
  lexlt (timestamp (stmt_of pr (d_src d)) s p) (timestamp (stmt_of pr (d_dst d)) t p) \/
  timestamp (stmt_of pr (d_src d)) s p = timestamp (stmt_of pr (d_dst d)) t p.
Proof.
  intros W WD Wk In. destruct (existsb (fun k => 0 <? distance pr d k s t p) (seq 0 (length (p_hprops pr)))) eqn:E.
  - left. apply existsb_exists in E as (k & Hk & Pk). apply in_seq in Hk. apply Z.ltb_lt in Pk. apply weak_pos_lexlt; auto.
    + intros k' Hk'. apply (Wk k' Hk' s t p In).
    + exists k. split; [lia|auto].
  - right. apply timestamp_eq; auto. intros k Hk. pose proof (Wk k Hk s t p In) as Q.
    destruct (Z.ltb_spec 0 (distance pr d k s t p)) as [P|P]; [|lia].
    exfalso. assert (existsb (fun k => 0 <? distance pr d k s t p) (seq 0 (length (p_hprops pr))) = true) as X; [|congruence].
    apply existsb_exists. exists k. split; [apply in_seq; lia|apply Z.ltb_lt; auto].
Qed.

Lemma search_tail pr s1 pr1 pr' : input_ok pr -> p_stmts pr <> [] -> inv LAZY s1 -> frame (st_prog (start_state pr)) (st_prog s1) ->
  introduce_skew is_emptyb solve o (st_prog s1) = Some (pr1, false) ->
  denormalize_domains (st_prog (dfp_finish is_emptyb pr1 s1)) = pr' ->
  same_program pr pr' /\
  (forall s i p, (s < length (p_stmts pr))%nat -> length i = s_dim (stmt_of pr s) -> length p = p_npar pr ->
     length (timestamp (stmt_of pr' s) i p) = length (p_hprops pr')) /\
  (forall d, In d (p_deps pr) -> d_rar d = false -> forall s t p, instance pr d s t p ->
     lexlt (timestamp (stmt_of pr' (d_src d)) s p) (timestamp (stmt_of pr' (d_dst d)) t p) \/
     (timestamp (stmt_of pr' (d_src d)) s p = timestamp (stmt_of pr' (d_dst d)) t p /\ depends pr (d_dst d) (d_src d))) /\
  ((forall u, (u < length (p_stmts (st_prog s1)))%nat -> one_to_one (st_prog s1) (stmt_of (st_prog s1) u)) ->
     forall s i j p, (s < length (p_stmts pr))%nat -> length i = s_dim (stmt_of pr s) -> length j = s_dim (stmt_of pr s) -> length p = p_npar pr ->
     timestamp (stmt_of pr' s) i p = timestamp (stmt_of pr' s) j p -> i = j).
Proof.
  intros IN NE I1 F1 EK E1. destruct (start_inv pr IN) as [I0 A0].
  assert (inv LAZY (mkState (st_prog s1) (st_adj s1) (st_num s1) (st_max s1))) as I1' by (destruct s1; exact I1).
  destruct (introduce_no_skew is_emptyb solve o EX _ _ _ _ _ I1' EK) as ((a1 & n1 & m1 & I2) & F2 & R2).
  assert (p_stmts pr1 <> []) as NE1.
  { destruct F2 as (_ & _ & L2 & _), F1 as (_ & _ & L1 & _). pose proof (ag_n _ _ A0) as L0. intros E. rewrite E in L2. simpl in L2. destruct (p_stmts pr); [congruence|]. simpl in *. lia. }
  destruct (dfp_finish_spec is_emptyb EX pr1 s1 _ _ _ I2 NE1) as ((a' & n' & m' & I) & F3 & (c & RC) & DR).
  set (q := st_prog (dfp_finish is_emptyb pr1 s1)) in *. set (s := mkState q a' n' m').
  assert (frame (st_prog s1) q) as F23 by (eapply frame_trans; eauto).
  assert (frame (st_prog (start_state pr)) (st_prog s)) as F' by (eapply frame_trans; [exact F1|exact F23]).
  destruct (end_ok _ pr s IN I F') as (A & SI & T & AF). cbn [s st_prog] in A, SI, T, AF. rewrite E1 in *.
  pose proof (input_simple pr IN) as SP. pose proof (input_deps pr IN) as DI.
  assert (agree pr q) as AS by (eapply agree_trans; [exact A|apply agree_sym; exact AF]).
  assert (forall u x p, (u < length (p_stmts pr))%nat -> length x = s_dim (stmt_of pr u) -> length p = p_npar pr ->
    timestamp (stmt_of pr' u) x p = timestamp (stmt_of q u) (zp q u x) p) as TT.
  { intros u x p Hu Lx Lp. rewrite SP in Lx by auto. rewrite <- (ag_dim0 _ _ A u) in Lx.
    rewrite <- T.
    - rewrite zp_simple; auto. rewrite (ag_n _ _ A). auto.
    - rewrite <- (ag_n _ _ AF), (ag_n _ _ A). auto.
    - rewrite <- (ag_dim0 _ _ AF). auto.
    - rewrite <- (ag_par _ _ AF), (ag_par _ _ A). auto. }
  assert (p_hprops pr' = p_hprops q) as HP by (rewrite <- E1; apply denormalize_hprops).
  pose proof (i_wf _ _ I) as Wq. cbn [s st_prog] in Wq.
  split; [|split; [|split]].
  - apply agree_same; auto.
  - intros u i p Hu Li Lp. rewrite TT by auto. rewrite timestamp_length, HP. apply wf_nrows; auto. rewrite (ag_n _ _ AS). auto.
  - intros d Hd Hr x y p Inst. destruct (DI d Hd) as [D1 D2]. destruct Inst as (Lx & Ly & Lp & M). rewrite !TT by auto.
    destruct (Forall2_in_l _ _ _ d (ag_dep _ _ AS) Hd) as (d' & Hd' & X1 & X2 & X3 & X4).
    rewrite SP in Lx, Ly by auto. specialize (X4 x y p Lx Ly Lp). rewrite (zp_simple pr), (zp_simple pr (d_dst d)) in X4 by auto.
    assert (forall u, (u < length (p_stmts pr))%nat -> (dim0 pr u <= s_dim (stmt_of q u))%nat) as DD.
    { intros u Hu. assert (In (stmt_of q u) (p_stmts q)) as Hin by (apply stmt_of_in; rewrite (ag_n _ _ AS); auto).
      rewrite (i_pad _ _ I _ Hin). rewrite <- (ag_dim0 _ _ AS). apply (i_orig _ _ I _ Hin). }
    assert (instance q d' (zp q (d_src d) x) (zp q (d_dst d) y) p) as Inst'.
    { unfold instance. rewrite X1, X2. split; [apply zp_length; rewrite Lx; auto|]. split; [apply zp_length; rewrite Ly; auto|].
      split; [rewrite (ag_par _ _ AS); auto|]. apply X4. auto. }
    assert (d_rar d' = false) as Hr' by congruence. assert (wf_dep q d') as WD by (apply Wq; auto).
    destruct (DR d' Hd' Hr') as [R|CH]; [left; rewrite <- X1, <- X2; apply R; rewrite X1, X2; auto|].
    assert (depends pr (d_dst d) (d_src d)) as DP.
    { apply (agree_depends _ _ _ _ AS). rewrite <- X1, <- X2. eapply (depends_map (dep_satisfaction_reset q)); [|apply chain_depends; exact CH].
      unfold dep_satisfaction_reset. cbn [set_deps p_deps]. clear. induction (p_deps q); constructor; auto. }
    destruct (inv_weak_ok _ I d' Hd' Hr') as [R|Wk]; cbn [s st_prog] in *.
    + left; rewrite <- X1, <- X2; apply R; rewrite X1, X2; auto.
    + rewrite <- X1, <- X2 in Inst' |- *. destruct (weak_ordered q d' _ _ _ Wq WD Wk Inst') as [L|Et]; [auto|]. right. split; [exact Et|]. rewrite X1, X2. exact DP.
  - intros OO u x y p Hu Lx Ly Lp E. rewrite !TT in E by auto.
    assert (u < length (p_stmts q))%nat as Hu' by (rewrite (ag_n _ _ AS); auto). set (q1 := st_prog s1) in *.
    assert (u < length (p_stmts q1))%nat as Hu1 by (destruct F23 as (_ & _ & L & _); lia).
    pose proof (stmt_of_in _ u Hu1) as Hin. pose proof (i_pad _ _ I1 _ Hin) as Pd. destruct (i_orig _ _ I1 _ Hin) as [Od _]. fold q1 in Pd, Od.
    assert (one_to_one q1 (stmt_of q1 u)) as O by (apply OO; auto).
    pose proof F23 as (V & Np & _ & Sm & _). destruct (Sm u) as (Sd & So & _).
    rewrite SP in Lx, Ly by auto. rewrite <- (ag_dim0 _ _ AS u) in Lx, Ly. unfold dim0 in Lx, Ly.
    assert (length (zp q u x) = s_dim (stmt_of q1 u) /\ length (zp q u y) = s_dim (stmt_of q1 u)) as [Zx Zy].
    { rewrite <- Sd. split; apply zp_length; rewrite Sd, Pd; rewrite So in *; lia. }
    assert (length p = p_npar q1) as Lp1 by (rewrite <- Np, (ag_par _ _ AS); auto).
    assert (timestamp (stmt_of q1 u) (zp q u x) p = timestamp (stmt_of q1 u) (zp q u y) p) as E'.
    { assert (forall x p, timestamp (stmt_of pr1 u) x p = timestamp (stmt_of q1 u) x p) as T1 by (intros; unfold timestamp; destruct R2 as [R _]; fold q1 in R; rewrite R; auto).
      destruct RC as [[R _]|[_ R]].
      - unfold timestamp in E |- *. rewrite R in E. destruct R2 as [R2 _]. fold q1 in R2. rewrite R2 in E. exact E.
      - pose proof F2 as (_ & Np2 & Ln2 & Sm2 & _). destruct (Sm2 u) as (Sd2 & _). fold q1 in Np2, Ln2, Sd2. rewrite !R in E by lia. apply app_inj_tail in E as [E _]. rewrite <- !T1. exact E. }
    apply O in E'; auto.
    + unfold zp in E'. rewrite Lx, Ly in E'. apply app_inv_tail in E'. auto.
    + unfold zp. rewrite !skipn_app, Lx, Ly, <- So. rewrite (skipn_all2 x), (skipn_all2 y) by lia. auto.
Qed.
Lemma dfp_success pr pr' : input_ok pr -> p_stmts pr <> [] ->
  dfp_transform is_emptyb solve build refresh skip o fuse delayed_cut pr = Some (pr', false) ->
  same_program pr pr' /\
  (forall s i p, (s < length (p_stmts pr))%nat -> length i = s_dim (stmt_of pr s) -> length p = p_npar pr ->
     length (timestamp (stmt_of pr' s) i p) = length (p_hprops pr')) /\
  (forall d, In d (p_deps pr) -> d_rar d = false -> forall s t p, instance pr d s t p ->
     lexlt (timestamp (stmt_of pr' (d_src d)) s p) (timestamp (stmt_of pr' (d_dst d)) t p) \/
     (timestamp (stmt_of pr' (d_src d)) s p = timestamp (stmt_of pr' (d_dst d)) t p /\ depends pr (d_dst d) (d_src d))) /\
  (lone_scalars pr -> forall s i j p, (s < length (p_stmts pr))%nat -> length i = s_dim (stmt_of pr s) -> length j = s_dim (stmt_of pr s) -> length p = p_npar pr ->
     timestamp (stmt_of pr' s) i p = timestamp (stmt_of pr' s) j p -> i = j).
Proof.
  intros IN NE H. unfold dfp_transform in H. change (dfp_start pr) with (start_state pr) in H.
  destruct (start_inv pr IN) as [I0 A0]. apply inv_lazy in I0.
  destruct (dfp_search _ _ _ _ _ _ _ _ _) as [cs|] eqn:ES; [|discriminate].
  pose proof (dfp_search_good is_emptyb solve build refresh skip o fuse delayed_cut EX SOL _ _ I0 ES) as [I1 F1].
  destruct (introduce_skew _ _ _ _) as [[pr1 b]|] eqn:EK; [|discriminate]. injection H as E1 E2. subst b.
  destruct (search_tail pr _ pr1 pr' IN NE I1 F1 EK E1) as (A & B & C & D). split; [exact A|]. split; [exact B|]. split; [exact C|].
  intros LS. apply D. eapply dfp_search_one_to_one; eauto.
Qed.
End Search.
