(** * Loops of the transformed program. *)
From Coq Require Import ZArith List Bool Lia Arith Permutation.
From Verif Require Import SpecLinear MathModel ConstraintsModel VecProofs EditProofs MatrixProofs SpecProg SpecTile SpecLoop
  RankProofs SumProofs FrameworkModel ProgModel DepProofs SimplifyProofs LexProofs ProgProofs TileModel TileProofs TileProofs2 TileProofs3 LoopModel.
Import ListNotations.
Open Scope Z_scope.

Lemma member_In s l : stmt_is_member_of s l = true <-> In s l.
Proof.
  unfold stmt_is_member_of. rewrite existsb_exists. split.
  - intros (x & H & E). apply Nat.eqb_eq in E. subst. auto.
  - intros H. exists s. rewrite Nat.eqb_refl. auto.
Qed.
Lemma subset_In l1 l2 : stmt_is_subset_of l1 l2 = true <-> forall s, In s l1 -> In s l2.
Proof. unfold stmt_is_subset_of. rewrite forallb_forall. split; intros H s Hs; apply member_In; auto. Qed.
Lemma dep_in_loop_In lp d : dep_in_loop lp d = true <-> In (d_src d) (l_stmts lp) /\ In (d_dst d) (l_stmts lp).
Proof. unfold dep_in_loop. rewrite andb_true_iff, !member_In. tauto. Qed.

(** ** Regrouping *)
Section Regroup.
Variable key : nat -> Z.
Let cls (l : list nat) (s : nat) : list nat := filter (fun t => key t =? key s) l.

Definition grouped (l : list nat) (gs : list (list nat)) : Prop :=
  (forall g, In g gs <-> exists s, In s l /\ g = cls l s) /\
  ForallOrdPairs (fun g g' => forall s t, In s g -> In t g' -> key s <> key t) gs.

Lemma cls_In l s t : In t (cls l s) <-> In t l /\ key t = key s.
Proof. unfold cls. rewrite filter_In, Z.eqb_eq. tauto. Qed.
Lemma cls_app l x s : cls (l ++ [x]) s = cls l s ++ if key x =? key s then [x] else [].
Proof. unfold cls. rewrite filter_app. cbn. destruct (key x =? key s); auto. Qed.
Lemma cls_key l s t : key s = key t -> cls l s = cls l t.
Proof. intros E. unfold cls. rewrite E. auto. Qed.
Lemma cls_hd l s : In s l -> cls l s <> [] /\ In (hd 0%nat (cls l s)) l /\ key (hd 0%nat (cls l s)) = key s.
Proof.
  intros H. assert (In s (cls l s)) as H' by (apply cls_In; auto).
  destruct (cls l s) as [|a r] eqn:E; [destruct H'|]. split; [discriminate|]. cbn. apply cls_In. rewrite E. simpl; auto.
Qed.

Lemma fop_map_change (P : list nat -> list nat -> Prop) gs1 g g' gs2 :
  ForallOrdPairs P (gs1 ++ g :: gs2) -> (forall h, In h gs1 -> P h g -> P h g') -> (forall h, In h gs2 -> P g h -> P g' h) ->
  ForallOrdPairs P (gs1 ++ g' :: gs2).
Proof.
  induction gs1 as [|a r IH]; cbn; intros H H1 H2.
  - inversion H; subst. constructor; auto. rewrite Forall_forall in *. auto.
  - inversion H; subst. constructor.
    + rewrite Forall_forall in *. intros x Hx. apply in_app_or in Hx as [Hx|[<-|Hx]].
      * apply H4. apply in_or_app; auto.
      * apply H1; auto. apply H4. apply in_or_app; simpl; auto.
      * apply H4. apply in_or_app; simpl; auto.
    + apply IH; auto.
Qed.
Lemma fop_snoc (P : list nat -> list nat -> Prop) gs g :
  ForallOrdPairs P gs -> (forall h, In h gs -> P h g) -> ForallOrdPairs P (gs ++ [g]).
Proof.
  induction gs as [|a r IH]; cbn; intros H H1. constructor; constructor.
  inversion H; subst. constructor; [|apply IH; auto]. rewrite Forall_forall in *. intros x Hx. apply in_app_or in Hx as [Hx|[<-|[]]]; auto.
Qed.

Lemma add_to_group_cases s gs :
  (exists gs1 g gs2, gs = gs1 ++ g :: gs2 /\ key s = key (hd 0%nat g) /\ add_to_group key s gs = gs1 ++ (g ++ [s]) :: gs2) \/
  ((forall g, In g gs -> key s <> key (hd 0%nat g)) /\ add_to_group key s gs = gs ++ [[s]]).
Proof.
  induction gs as [|g r IH]; cbn.
  - right. auto.
  - destruct (Z.eqb_spec (key s) (key (hd 0%nat g))).
    + left. exists [], g, r. auto.
    + destruct IH as [(gs1 & g1 & gs2 & -> & E & ->)|[H ->]].
      * left. exists (g :: gs1), g1, gs2. auto.
      * right. split; auto. intros h [<-|H']; auto.
Qed.

Lemma grouped_add l s gs : grouped l gs -> grouped (l ++ [s]) (add_to_group key s gs).
Proof.
  intros [G1 G2]. assert (forall g x, In g gs -> In x g -> key x = key (hd 0%nat g)) as HD.
  { intros g x Hg Hx. apply G1 in Hg as (y & Hy & ->). apply cls_In in Hx as [_ E]. rewrite E. symmetry. apply cls_hd. auto. }
  assert (forall g, In g gs -> In (hd 0%nat g) g) as HH.
  { intros g Hg. apply G1 in Hg as (y & Hy & ->). destruct (cls_hd l y Hy) as (A & _). destruct (cls l y); [congruence|simpl; auto]. }
  destruct (add_to_group_cases s gs) as [(gs1 & g & gs2 & E & K & ->)|[N ->]].
  - assert (In g gs) as Hg by (rewrite E; apply in_or_app; simpl; auto).
    pose proof Hg as Hg'. apply G1 in Hg' as (y & Hy & Eg). pose proof (cls_hd l y Hy) as (_ & _ & Ky). rewrite <- Eg in Ky.
    assert (forall h, In h gs1 \/ In h gs2 -> key (hd 0%nat h) <> key (hd 0%nat g)) as NE.
    { rewrite E in G2. intros h Hh. assert (In h gs) as Hhg by (rewrite E; apply in_or_app; simpl; tauto).
      clear - G2 Hh HH Hhg Hg. revert G2. induction gs1 as [|a r IH]; cbn; intros G2.
      - inversion G2; subst. destruct Hh as [[]|Hh]. rewrite Forall_forall in H1. intros Q. symmetry in Q. revert Q. apply (H1 h Hh); auto.
      - inversion G2; subst. destruct Hh as [[<-|Hh]|Hh].
        + rewrite Forall_forall in H1. apply (H1 g). apply in_or_app; simpl; auto. auto. auto.
        + apply IH; auto.
        + apply IH; auto. }
    split.
    + intros h. split.
      * intros Hh. apply in_app_or in Hh as [Hh|[<-|Hh]].
        -- assert (In h gs) as Hh' by (rewrite E; apply in_or_app; auto). pose proof (NE h (or_introl Hh)) as Nh.
           apply G1 in Hh' as (z & Hz & ->). exists z. split; [apply in_or_app; auto|]. rewrite cls_app.
           destruct (Z.eqb_spec (key s) (key z)) as [Q|Q]; [|rewrite app_nil_r; auto]. exfalso. apply Nh.
           destruct (cls_hd l z Hz) as (_ & _ & Kz). congruence.
        -- exists s. split; [apply in_or_app; simpl; auto|]. rewrite cls_app, Z.eqb_refl. f_equal. rewrite Eg. apply cls_key. congruence.
        -- assert (In h gs) as Hh' by (rewrite E; apply in_or_app; simpl; auto). pose proof (NE h (or_intror Hh)) as Nh.
           apply G1 in Hh' as (z & Hz & ->). exists z. split; [apply in_or_app; auto|]. rewrite cls_app.
           destruct (Z.eqb_spec (key s) (key z)) as [Q|Q]; [|rewrite app_nil_r; auto]. exfalso. apply Nh.
           destruct (cls_hd l z Hz) as (_ & _ & Kz). congruence.
      * intros (z & Hz & ->). rewrite cls_app. destruct (Z.eqb_spec (key s) (key z)) as [Q|Q].
        -- apply in_or_app. right. left. f_equal. rewrite Eg. apply cls_key. congruence.
        -- rewrite app_nil_r. apply in_app_or in Hz as [Hz|[->|[]]]; [|congruence].
           assert (In (cls l z) gs) as H by (apply G1; exists z; auto). rewrite E in H. apply in_app_or in H as [H|[H|H]].
           ++ apply in_or_app; auto.
           ++ exfalso. destruct (cls_hd l z Hz) as (_ & _ & Kz). apply Q. rewrite <- H in Kz. congruence.
           ++ apply in_or_app; simpl; auto.
    + rewrite E in G2. eapply fop_map_change; [exact G2| |].
      * intros h Hh Ph x t Hx Ht. apply in_app_or in Ht as [Ht|[<-|[]]]; auto.
        assert (In h gs) as Hh' by (rewrite E; apply in_or_app; auto). rewrite (HD h x Hh' Hx), K. apply NE; auto.
      * intros h Hh Ph x t Hx Ht. apply in_app_or in Hx as [Hx|[<-|[]]]; auto.
        assert (In h gs) as Hh' by (rewrite E; apply in_or_app; simpl; auto). rewrite (HD h t Hh' Ht), K. intros Q. symmetry in Q. revert Q. apply NE; auto.
  - assert (forall z, In z l -> key s <> key z) as NZ.
    { intros z Hz. assert (In (cls l z) gs) as H by (apply G1; exists z; auto). apply N in H. destruct (cls_hd l z Hz) as (_ & _ & Kz). congruence. }
    split.
    + intros h. rewrite in_app_iff. split.
      * intros [Hh|[<-|[]]].
        -- apply G1 in Hh as (z & Hz & ->). exists z. split; [apply in_or_app; auto|]. rewrite cls_app.
           destruct (Z.eqb_spec (key s) (key z)); [exfalso; eapply NZ; eauto|rewrite app_nil_r; auto].
        -- exists s. split; [apply in_or_app; simpl; auto|]. rewrite cls_app, Z.eqb_refl.
           destruct (cls l s) as [|a r] eqn:C; auto. exfalso. assert (In a (cls l s)) as H by (rewrite C; simpl; auto).
           apply cls_In in H as [H Q]. apply (NZ a H). auto.
      * intros (z & Hz & ->). rewrite cls_app. destruct (Z.eqb_spec (key s) (key z)) as [Q|Q].
        -- apply in_app_or in Hz as [Hz|[->|[]]]; [exfalso; eapply NZ; eauto|]. right. left.
           destruct (cls l z) as [|a r] eqn:C; auto. exfalso. assert (In a (cls l z)) as H by (rewrite C; simpl; auto).
           apply cls_In in H as [H Q']. apply (NZ a H). auto.
        -- rewrite app_nil_r. apply in_app_or in Hz as [Hz|[->|[]]]; [|congruence]. left. apply G1. exists z. auto.
    + apply fop_snoc; auto. intros h Hh x t Hx [<-|[]]. rewrite (HD h x Hh Hx). intros Q. symmetry in Q. revert Q. apply N; auto.
Qed.

Lemma regroup_grouped l : grouped l (regroup key l).
Proof.
  unfold regroup. assert (forall m gs l0, grouped l0 gs -> grouped (l0 ++ m) (fold_left (fun gs s => add_to_group key s gs) m gs)) as H.
  { induction m as [|s m IH]; cbn; intros gs l0 G. rewrite app_nil_r; auto.
    replace (l0 ++ s :: m) with ((l0 ++ [s]) ++ m) by (rewrite <- app_assoc; auto). apply IH. apply grouped_add. auto. }
  apply (H l [] []). split. intros g; split; [intros []|intros (s & [] & _)]. constructor.
Qed.

Lemma regroup_In l g : In g (regroup key l) <-> exists s, In s l /\ g = filter (fun t => key t =? key s) l.
Proof. apply (regroup_grouped l). Qed.
Lemma regroup_disjoint l : ForallOrdPairs (fun g g' => forall s, In s g -> In s g' -> False) (regroup key l).
Proof.
  destruct (regroup_grouped l) as [_ G]. induction G as [|g gs H G IH]; constructor; auto.
  rewrite Forall_forall in *. intros g' Hg' s H1 H2. apply (H g' Hg' s s); auto.
Qed.
End Regroup.

(** ** The loops *)
Section Loops.
Variable pr : prog.
Let lev (s k : nat) := is_hyperplane_loop (stmt_of pr s) k.

Lemma loops_under_basic n stmts depth lp : In lp (loops_under pr n stmts depth) ->
  (depth <= l_depth lp < depth + n)%nat /\ l_stmts lp <> [] /\ (forall s, In s (l_stmts lp) -> In s stmts /\ lev s (l_depth lp) = true) /\
  (NoDup stmts -> NoDup (l_stmts lp)).
Proof.
  revert stmts depth. induction n as [|n IH]; intros stmts depth; cbn [loops_under]; [intros []|].
  destruct (existsb _ stmts) eqn:E.
  - intros H. apply in_app_or in H as [H|[<-|[]]].
    + destruct (IH _ _ H) as (A & B & C & D). split; [lia|auto].
    + cbn [l_depth l_stmts]. split; [lia|]. split; [|split].
      * apply existsb_exists in E as (s & Hs & L). intros Q. assert (In s []) as []. rewrite <- Q. apply filter_In. split; auto.
      * intros s Hs. apply filter_In in Hs as [Hs L]. split; auto.
      * intros ND. apply NoDup_filter. auto.
  - intros H. apply in_flat_map in H as (g & Hg & H). apply regroup_In in Hg as (x & Hx & ->). destruct (IH _ _ H) as (A & B & C & D).
    split; [lia|]. split; auto. split.
    + intros s Hs. destruct (C s Hs) as [Q1 Q2]. apply filter_In in Q1. tauto.
    + intros ND. apply D. apply NoDup_filter. auto.
Qed.

(** Every loop level of every statement is in one of the loops. *)
Lemma loops_under_complete n stmts depth s k : In s stmts -> (depth <= k < depth + n)%nat -> lev s k = true ->
  exists lp, In lp (loops_under pr n stmts depth) /\ l_depth lp = k /\ In s (l_stmts lp).
Proof.
  revert stmts depth. induction n as [|n IH]; intros stmts depth Hs Hk L; [lia|]. cbn [loops_under].
  destruct (existsb _ stmts) eqn:E.
  - destruct (Nat.eq_dec k depth) as [->|N].
    + eexists. split; [apply in_or_app; right; left; reflexivity|]. split; auto. cbn. apply filter_In. split; auto.
    + destruct (IH stmts (S depth) Hs) as (lp & A & B & C); [lia|auto|]. exists lp. split; auto. apply in_or_app; auto.
  - destruct (Nat.eq_dec k depth) as [->|N].
    + exfalso. assert (existsb (fun s => is_hyperplane_loop (stmt_of pr s) depth) stmts = true); [|congruence]. apply existsb_exists. exists s. auto.
    + set (key := fun s => row_const (stmt_of pr s) depth). set (g := filter (fun t => key t =? key s) stmts).
      destruct (IH g (S depth)) as (lp & A & B & C); [apply filter_In; rewrite Z.eqb_refl; auto|lia|auto|].
      exists lp. split; auto. apply in_flat_map. exists g. split; auto. apply regroup_In. exists s. auto.
Qed.

Definition apart (l1 l2 : ploop) : Prop := l_depth l1 = l_depth l2 -> forall s, In s (l_stmts l1) -> In s (l_stmts l2) -> False.

Lemma fop_app {A} (P : A -> A -> Prop) l1 l2 : ForallOrdPairs P l1 -> ForallOrdPairs P l2 ->
  (forall x y, In x l1 -> In y l2 -> P x y) -> ForallOrdPairs P (l1 ++ l2).
Proof.
  induction l1 as [|a r IH]; cbn; intros H1 H2 H; auto. inversion H1; subst. constructor.
  - rewrite Forall_forall in *. intros x Hx. apply in_app_or in Hx as [Hx|Hx]; auto. 
  - apply IH; auto.
Qed.

Lemma loops_under_apart n stmts depth : ForallOrdPairs apart (loops_under pr n stmts depth).
Proof.
  revert stmts depth. induction n as [|n IH]; intros stmts depth; cbn [loops_under]; [constructor|].
  destruct (existsb _ stmts) eqn:E.
  - apply fop_app; auto. constructor; auto; constructor. intros x y Hx [<-|[]] Q. apply loops_under_basic in Hx as (A & _). cbn in Q. lia.
  - pose proof (regroup_disjoint (fun s => row_const (stmt_of pr s) depth) stmts) as D. revert D.
    generalize (regroup (fun s => row_const (stmt_of pr s) depth) stmts) as gs. induction gs as [|g gs IHg]; cbn; intros D; [constructor|].
    inversion D; subst. apply fop_app; auto. intros x y Hx Hy Q s H1s H2s.
    apply in_flat_map in Hy as (g' & Hg' & Hy). rewrite Forall_forall in H1. apply (H1 g' Hg' s).
    + apply loops_under_basic in Hx as (_ & _ & C & _). apply C; auto.
    + apply loops_under_basic in Hy as (_ & _ & C & _). apply C; auto.
Qed.

(** ... and in only one. *)
Lemma fop_unique l1 l2 l s : ForallOrdPairs apart l -> In l1 l -> In l2 l -> l_depth l1 = l_depth l2 -> In s (l_stmts l1) -> In s (l_stmts l2) -> l1 = l2.
Proof.
  intros F. induction F as [|a r H F IH]; cbn; [intros []|]. rewrite Forall_forall in H.
  intros [<-|H1] [<-|H2] E S1 S2; auto.
  - exfalso. apply (H l2 H2 E s); auto.
  - exfalso. apply (H l1 H1 (eq_sym E) s); auto.
Qed.
End Loops.
