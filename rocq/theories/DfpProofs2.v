(** * Proofs about the colouring of the fusion conflict graph. *)
From Coq Require Import ZArith List Bool Arith Lia.
From Verif Require Import SpecLinear VecProofs MathModel ConstraintsModel RankProofs SpecGraph GraphModel SpecProg SpecDriver SpecDfp
  FrameworkModel ProgModel DriverModel DfpModel.
Import ListNotations.
Open Scope Z_scope.

(** Only vertices in [V] that had no colour or colour [c] have changed, to colour
    [c] or to none. *)
Definition touch (V : nat -> Prop) (c : Z) (col col' : list Z) : Prop :=
  length col' = length col /\
  forall v, nth v col' 0 = nth v col 0 \/
    (V v /\ (nth v col 0 = c \/ nth v col 0 <= 0) /\ (nth v col' 0 = c \/ nth v col' 0 = 0)).

Lemma touch_refl V c col : touch V c col col.
Proof. split; auto. Qed.
Lemma touch_trans V c a b d : touch V c a b -> touch V c b d -> touch V c a d.
Proof.
  intros [L1 H1] [L2 H2]. split; [congruence|]. intros v. destruct (H1 v) as [E1|(V1 & A1 & B1)], (H2 v) as [E2|(V2 & A2 & B2)].
  - left. congruence.
  - right. rewrite <- E1. auto.
  - right. rewrite E2. auto.
  - right. auto.
Qed.
Lemma touch_weaken (V W : nat -> Prop) c a b : (forall v, V v -> W v) -> touch V c a b -> touch W c a b.
Proof. intros H [L T]. split; [auto|]. intros v. destruct (T v) as [E|(A & B)]; auto. Qed.
Lemma touch_set (V : nat -> Prop) c v x col : V v -> (x = c \/ x = 0) -> (nth v col 0 = c \/ nth v col 0 <= 0) -> touch V c col (set_nth v x col).
Proof.
  intros Hv Hx Hc. split; [apply set_nth_length|]. intros w. destruct (Nat.eq_dec w v) as [->|N].
  - destruct (le_lt_dec (length col) v) as [L|L].
    + left. rewrite !nth_overflow; rewrite ?set_nth_length; auto.
    + right. rewrite nth_set_nth_eq by auto. auto.
  - left. apply nth_set_nth_neq. auto.
Qed.
Lemma touch_out V c a b v : touch V c a b -> ~ V v -> nth v b 0 = nth v a 0.
Proof. intros [_ T] N. destruct (T v) as [E|(A & _)]; [auto|contradiction]. Qed.
Lemma touch_other V c a b v : touch V c a b -> 0 < nth v a 0 -> nth v a 0 <> c -> nth v b 0 = nth v a 0.
Proof. intros [_ T] P N. destruct (T v) as [E|(_ & [A|A] & _)]; [auto|contradiction|lia]. Qed.

Lemma next_lt skip off dim disc : (1 <= dim)%nat -> (get_next_min_vertex skip off dim disc < dim)%nat.
Proof.
  intros H. unfold get_next_min_vertex. destruct (find _ _) eqn:E; [|lia]. apply find_some in E as [E _]. apply in_seq in E. lia.
Qed.
Lemma valid_spec v c g col w : is_valid_colour v c g col = true -> (w < length col)%nat -> nth w col 0 = c -> ~ conflict g v w.
Proof.
  unfold is_valid_colour. rewrite forallb_forall. intros H Hw E C. specialize (H w ltac:(apply in_seq; lia)).
  rewrite E, Z.eqb_refl, andb_true_r in H. apply negb_true_iff, orb_false_iff in H as [H1 H2]. apply Z.eqb_neq in H1, H2.
  unfold adj, conflict in *. destruct C; contradiction.
Qed.

Section Colour.
Variables (skip : nat -> nat -> bool) (pr : prog) (g : fcg) (c : Z).

(** The vertices of statement [u]. *)
Definition own (u v : nat) : Prop := (vertex_offset pr u <= v < vertex_offset pr u + s_dim_orig (stmt_of pr u))%nat.

Lemma try_dims_spec rec (V : nat -> Prop) sk u pv : (1 <= s_dim_orig (stmt_of pr u))%nat ->
  (forall a v b a', rec a v = Some (b, a') -> touch V c a a') ->
  forall k disc col b col', try_dims rec sk g c (vertex_offset pr u) (s_dim_orig (stmt_of pr u)) pv k disc col = Some (b, col') ->
  touch (fun v => own u v \/ V v) c col col' /\
  (b = true -> exists v col0, own u v /\ touch (fun v => own u v \/ V v) c col col0 /\ (v < length col0)%nat /\
     is_valid_colour v c g col0 = true /\ adj g v v = 0 /\ (nth v col0 0 = c \/ nth v col0 0 <= 0) /\
     rec (set_nth v c col0) v = Some (true, col')).
Proof.
  intros D R. induction k as [|k IH]; intros disc col b col' H; cbn [try_dims] in H.
  - injection H as <- <-. split; [apply touch_refl|discriminate].
  - cbv zeta in H. set (v := (vertex_offset pr u + get_next_min_vertex sk _ _ disc)%nat) in *.
    assert (own u v) as O by (unfold own, v; pose proof (next_lt sk (vertex_offset pr u) _ disc D); lia).
    destruct (Nat.leb_spec (length col) v) as [L|L]; [discriminate|].
    destruct ((0 <? nth v col 0) && negb (nth v col 0 =? c)) eqn:T1; [apply IH in H; exact H|].
    assert (nth v col 0 = c \/ nth v col 0 <= 0) as T1'.
    { apply andb_false_iff in T1 as [T1|T1]; [right; apply Z.ltb_ge in T1; auto|left]. apply negb_false_iff, Z.eqb_eq in T1. auto. }
    destruct (negb (adj g v v =? 0)) eqn:T2; [apply IH in H; exact H|]. apply negb_false_iff, Z.eqb_eq in T2.
    destruct (match pv with Some w => is_adjacent g v w | None => false end); [apply IH in H; exact H|].
    destruct (is_valid_colour v c g col) eqn:T3.
    + assert (touch (fun v => own u v \/ V v) c col (set_nth v c col)) as TS by (apply touch_set; auto).
      destruct (rec (set_nth v c col) v) as [[[|] col1]|] eqn:Er; [| |discriminate].
      * injection H as <- <-. split.
        -- eapply touch_trans; [exact TS|]. eapply touch_weaken; [|apply (R _ _ _ _ Er)]. auto.
        -- intros _. exists v, col. split; [auto|]. split; [apply touch_refl|]. auto.
      * pose proof (R _ _ _ _ Er) as R1.
        assert (touch (fun v => own u v \/ V v) c col (set_nth v 0 col1)) as T4.
        { eapply touch_trans; [exact TS|]. assert (touch (fun v => own u v \/ V v) c (set_nth v c col) col1) as R2 by (eapply touch_weaken; [|exact R1]; auto).
          eapply touch_trans; [exact R2|]. apply touch_set; auto. destruct R2 as [_ R2]. destruct (R2 v) as [E|(_ & _ & E)]; [|destruct E; [auto|right; lia]].
          left. rewrite E. apply nth_set_nth_eq. auto. }
        apply IH in H as [A B]. split; [eapply touch_trans; eauto|]. intros Hb. destruct (B Hb) as (v' & col0 & X1 & X2 & X3).
        exists v', col0. split; [auto|]. split; [eapply touch_trans; eauto|auto].
    + assert (touch (fun v => own u v \/ V v) c col (set_nth v 0 col)) as TS by (apply touch_set; auto).
      apply IH in H as [A B]. split; [eapply touch_trans; eauto|]. intros Hb. destruct (B Hb) as (v' & col0 & X1 & X2 & X3).
      exists v', col0. split; [auto|]. split; [eapply touch_trans; eauto|auto].
Qed.

Lemma offset_step u : (u < length (p_stmts pr))%nat -> vertex_offset pr (S u) = (vertex_offset pr u + s_dim_orig (stmt_of pr u))%nat.
Proof.
  intros H. unfold vertex_offset, stmt_of. rewrite <- !firstn_map.
  assert (nth u (map s_dim_orig (p_stmts pr)) 0%nat = s_dim_orig (nth u (p_stmts pr) dummy_stmt)) as E by (change 0%nat with (s_dim_orig dummy_stmt); apply List.map_nth).
  rewrite <- E. clear E. assert (u < length (map s_dim_orig (p_stmts pr)))%nat as L by (rewrite map_length; auto).
  rewrite (firstn_S_nth 0%nat) by auto. rewrite fold_left_app. reflexivity.
Qed.
Lemma offset_le u v : (u < v)%nat -> (v <= length (p_stmts pr))%nat -> (vertex_offset pr u + s_dim_orig (stmt_of pr u) <= vertex_offset pr v)%nat.
Proof.
  intros H L. induction v as [|v IH]; [lia|]. destruct (Nat.eq_dec u v) as [->|N].
  - rewrite offset_step by lia. lia.
  - rewrite (offset_step v) by lia. specialize (IH ltac:(lia) ltac:(lia)). lia.
Qed.
Lemma own_disjoint u w v : (u < length (p_stmts pr))%nat -> (w < length (p_stmts pr))%nat -> own u v -> own w v -> u = w.
Proof.
  intros Hu Hw A B. unfold own in *. destruct (Nat.lt_total u w) as [L|[E|L]]; [|auto|].
  - pose proof (offset_le u w L ltac:(lia)). lia.
  - pose proof (offset_le w u L ltac:(lia)). lia.
Qed.

Definition own_any (l : list nat) (v : nat) : Prop := exists u, In u l /\ own u v.

(** One statement after the other: a vertex for each, of the right colour and
    without conflicts. *)
Lemma colour_stmts_spec l : (forall u, In u l -> (u < length (p_stmts pr))%nat /\ (1 <= s_dim_orig (stmt_of pr u))%nat) -> NoDup l ->
  forall pv col b col', colour_stmts skip pr g c l pv col = Some (b, col') ->
  touch (own_any l) c col col' /\
  (b = true -> exists f, forall u, In u l -> own u (f u) /\ (f u < length col)%nat /\ nth (f u) col' 0 = c /\ adj g (f u) (f u) = 0 /\
     (forall w, In w l -> w <> u -> ~ conflict g (f u) (f w)) /\
     (forall w, ~ own_any l w -> (w < length col)%nat -> nth w col 0 = c -> ~ conflict g (f u) w)).
Proof.
  induction l as [|u l IH]; intros H ND pv col b col' E; cbn [colour_stmts] in E.
  - injection E as <- <-. split; [apply touch_refl|]. intros _. exists (fun _ => 0%nat). intros u [].
  - apply NoDup_cons_iff in ND as [Nu ND]. destruct (H u (or_introl eq_refl)) as [Hu Du].
    assert (forall w, In w l -> (w < length (p_stmts pr))%nat /\ (1 <= s_dim_orig (stmt_of pr w))%nat) as Hl by (intros; apply H; right; auto).
    specialize (IH Hl ND).
    apply (try_dims_spec _ (own_any l)) in E as [T S]; [|exact Du|intros a v b0 a' E0; apply IH in E0; apply E0].
    assert (forall v, own u v \/ own_any l v -> own_any (u :: l) v) as OA.
    { intros v [O|(w & Hw & O)]; [exists u; split; [left; auto|auto]|exists w; split; [right; auto|auto]]. }
    split; [eapply touch_weaken; [exact OA|exact T]|]. intros Hb. destruct (S Hb) as (v & col0 & O & T0 & Lv & Va & Sv & Cv & Er). apply IH in Er as [T1 S1].
    destruct (S1 eq_refl) as [f F].
    assert (length col0 = length col) as L0 by apply T0.
    assert (~ own_any l v) as Nv. { intros (w & Hw & Ow). apply Nu. replace u with w; [auto|]. apply (own_disjoint w u v); auto. apply Hl; auto. }
    exists (fun x => if (x =? u)%nat then v else f x). intros x Hx. destruct (Nat.eqb_spec x u) as [->|Nx].
    + split; [auto|]. split; [lia|]. split; [rewrite (touch_out _ _ _ _ v T1 Nv); apply nth_set_nth_eq; auto|]. split; [auto|]. split.
      * intros w Hw Nw. destruct Hw as [Ew|Hw]; [congruence|]. destruct (Nat.eqb_spec w u); [contradiction|].
        destruct (F w Hw) as (_ & _ & _ & _ & _ & G). intros C. apply (G v Nv); [rewrite set_nth_length; auto|apply nth_set_nth_eq; auto|].
        destruct C as [C|C]; [right|left]; auto.
      * intros w Nw Lw Ew. apply (valid_spec v c g col0 w Va); [lia|]. rewrite (touch_out _ _ _ _ w T0); [auto|]. intros X. apply Nw. apply OA. auto.
    + destruct Hx as [Ex|Hx]; [congruence|]. destruct (F x Hx) as (F1 & F2 & F3 & F4 & F5 & F6). rewrite set_nth_length in F2.
      split; [auto|]. split; [lia|]. split; [auto|]. split; [auto|]. split.
      * intros w Hw Nw. destruct (Nat.eqb_spec w u) as [->|Nwu].
        -- apply F6; [auto|rewrite set_nth_length; auto|apply nth_set_nth_eq; auto].
        -- destruct Hw as [Ew|Hw]; [congruence|]. apply F5; auto.
      * intros w Nw Lw Ew. apply F6.
        -- intros X. apply Nw. apply OA. auto.
        -- rewrite set_nth_length. lia.
        -- rewrite nth_set_nth_neq by (intros ->; apply Nw; apply OA; auto). rewrite (touch_out _ _ _ _ w T0); [auto|]. intros X. apply Nw. apply OA. auto.
Qed.
End Colour.
