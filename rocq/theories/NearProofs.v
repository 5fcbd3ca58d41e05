(** * The search with a solver that is good on programs whose dependences join only
    neighbouring statements. *)
From Coq Require Import ZArith QArith List Bool Arith Lia.
From Verif Require Import SpecLinear SpecMatrix VecProofs MathModel ConstraintsModel EditProofs RankProofs MatrixProofs FarkasProofs SpecGraph GraphModel GraphProofs GraphProofs2
  SpecProg SpecDriver FrameworkModel FrameworkProofs ProgModel ProgProofs DriverModel HypProofs KeepProofs DepProofs DriverProofs PadProofs AutoProofs SpecGlpk GlpkModel GlpkProofs GlpkProofs2.
Import ListNotations.
Open Scope Z_scope.

Definition close (d : dep) : Prop := d_rar d = false -> (d_src d <= d_dst d + 1)%nat /\ (d_dst d <= d_src d + 1)%nat.
Definition near (pr : prog) : Prop := forall d, In d (p_deps pr) -> close d.
Definition closeb (d : dep) : bool := d_rar d || ((d_src d <=? d_dst d + 1) && (d_dst d <=? d_src d + 1))%nat.
Definition nearb (pr : prog) : bool := forallb closeb (p_deps pr).
Lemma nearb_ok pr : nearb pr = true <-> near pr.
Proof.
  unfold nearb, near, close. rewrite forallb_forall. split; intros H d Hd; specialize (H d Hd).
  - intros R. unfold closeb in H. rewrite R in H. cbn [orb] in H. apply andb_true_iff in H as [A B]. apply Nat.leb_le in A, B. auto.
  - unfold closeb. destruct (d_rar d); auto. cbn [orb]. destruct (H eq_refl) as [A B]. apply andb_true_iff. rewrite !Nat.leb_le. auto.
Qed.

Lemma near_deps a b : p_deps b = p_deps a -> near a -> near b.
Proof. unfold near. intros ->. auto. Qed.
Lemma same_dep_close d d' : same_dep d d' -> close d -> close d'.
Proof. unfold same_dep, close. intros S H R. destruct S as (A & B & C & _). rewrite A, B. apply H. congruence. Qed.
Lemma near_frame a b : frame a b -> near a -> near b.
Proof.
  intros (_ & _ & _ & _ & F) H d Hd. destruct (Forall2_in_r _ _ _ d F Hd) as (d0 & Hd0 & S). apply (same_dep_close d0); auto.
Qed.

Lemma near_intervals pr : wf_prog pr -> near pr -> intervals pr.
Proof.
  intros W N.
  assert (forall u m, edge (graph_of pr) u m -> (u <= m + 1)%nat /\ (m <= u + 1)%nat) as E.
  { intros u m H. unfold graph_of in H. apply ddg_create_edge in H as (q & Hq & A & B & C & D).
    - apply in_map_iff in Hq as (d & <- & Hd). cbn in *. subst. apply (N d Hd). auto.
    - intros q Hq. apply in_map_iff in Hq as (e & <- & He). cbn. destruct (proj2 W e He) as (A & B & _). auto. }
  assert (forall u w, connected (graph_of pr) u w -> forall v, (u <= v <= w)%nat \/ (w <= v <= u)%nat -> connected (graph_of pr) u v) as G.
  { intros u w C. induction C as [u|u m w H C IH]; intros v Hv.
    - assert (v = u) as -> by lia. constructor.
    - destruct (Nat.eq_dec v u) as [->|Ne]; [constructor|]. apply (conn_step _ u m v H). apply IH.
      assert ((u <= m + 1)%nat /\ (m <= u + 1)%nat) by (destruct H as [H|H]; apply E in H; tauto). lia. }
  intros u v w A B C. apply (G u w C). lia.
Qed.

Section Agree.
Variables (is_emptyb isl_emptyb : cst -> bool) (kernel : matrix -> matrix) (solve : prog -> cst -> option point) (o : options).
Definition only_near (pr : prog) (c : cst) : option point := if nearb pr then solve pr c else None.
Hypothesis SOL : lexmin_hkeeps only_near.
Hypothesis EX : exact_empty is_emptyb.

Lemma lexmin_near pr c : near pr -> prog_constraints_lexmin only_near pr c = prog_constraints_lexmin solve pr c.
Proof. intros N. unfold prog_constraints_lexmin, only_near. rewrite (proj2 (nearb_ok pr) N). reflexivity. Qed.

Lemma find_near mode n : forall base pr, near pr -> find_hyperplanes isl_emptyb kernel only_near o mode n base pr = find_hyperplanes isl_emptyb kernel solve o mode n base pr.
Proof.
  induction n as [|n IH]; intros base pr N; cbn [find_hyperplanes]; auto. rewrite lexmin_near by auto.
  destruct (if (_ =? 0)%nat then None else _); auto. rewrite IH; auto.
Qed.

Lemma round_near fuse depth mode s : inv mode s -> near (st_prog s) ->
  round is_emptyb isl_emptyb kernel only_near o fuse depth mode s = round is_emptyb isl_emptyb kernel solve o fuse depth mode s.
Proof.
  intros I N. unfold round. cbv zeta.
  set (s1 := match fuse with NoFuse => fst (cut_all_sccs is_emptyb (compute_scc s)) | _ => s end).
  assert (near (st_prog s1)) as N1.
  { unfold s1. destruct fuse; auto. destruct (inv_compute_scc mode s I) as [A B].
    destruct (cut_all_good mode is_emptyb EX _ A) as [_ F]. apply (near_frame (st_prog s)); auto. eapply frame_trans; [exact B|exact F]. }
  unfold find_permutable_hyperplanes. rewrite find_near by auto. reflexivity.
Qed.

Lemma drive_near fuse fuel : forall depth mode s, inv mode s -> near (st_prog s) ->
  drive is_emptyb isl_emptyb kernel only_near o fuse fuel depth mode s = drive is_emptyb isl_emptyb kernel solve o fuse fuel depth mode s.
Proof.
  induction fuel as [|fuel IH]; intros depth mode s I N; cbn [drive]; auto.
  rewrite <- round_near by auto. pose proof (round_good isl_emptyb kernel only_near o SOL is_emptyb EX fuse depth mode s I) as R.
  destruct (round _ _ _ _ _ _ _ _ _) as [s' mode'|s']; auto. destruct (_ && _); auto. cbn in R. destruct R as [I' F].
  apply IH; auto. apply (near_frame (st_prog s)); auto.
Qed.

Lemma near_start pr : near pr -> input_ok pr -> near (st_prog (start_state pr)).
Proof.
  intros N IN. destruct (start_inv pr IN) as [_ A]. pose proof (ag_dep _ _ A) as F. intros d Hd.
  destruct (Forall2_in_r _ _ _ d F Hd) as (d0 & Hd0 & A1 & A2 & A3 & _). intros R. rewrite A1, A2. apply (N d0 Hd0). congruence.
Qed.

Lemma auto_near fuse fuel pr : input_ok pr -> near pr ->
  auto_transform is_emptyb isl_emptyb kernel only_near o fuse fuel pr = auto_transform is_emptyb isl_emptyb kernel solve o fuse fuel pr.
Proof.
  intros IN N. unfold auto_transform, auto_search. destruct (_ =? 0)%nat; auto. cbv zeta. fold (start_state pr).
  destruct (second_inv is_emptyb EX pr fuse IN) as [I F].
  rewrite drive_near; auto. apply (near_frame (st_prog (start_state pr))); auto. apply near_start; auto.
Qed.
End Agree.

Lemma glpk_near_keeps glpk dfp : scales_precisely glpk -> lexmin_keeps (only_near (glpk_solver glpk true dfp)).
Proof.
  intros SP pr c x W O Wc Nc NE H. destruct (nearb pr) eqn:N.
  - apply nearb_ok in N. apply (lp_kept glpk dfp pr c x SP W O (near_intervals pr W N) Wc Nc NE). rewrite <- lexmin_near; auto.
  - unfold prog_constraints_lexmin, only_near in H. rewrite N in H. discriminate.
Qed.
