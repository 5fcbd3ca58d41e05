(** * Lemmas: vectorizable loops. *)
From Coq Require Import ZArith List Bool Lia Arith.
From Verif Require Import SpecLinear SpecMatrix SpecExport SpecVector MathModel ConstraintsModel VecProofs SpecProg ProgModel ExportModel
  RemapProofs RemapProofs2 LoopModel VectorModel.
Import ListNotations.
Open Scope Z_scope.

Lemma steps_dot : forall t t' r q k n, length t' = length t -> (k < length t)%nat ->
  (forall j, nth j t' 0 = nth j t 0 + (if (j =? k)%nat then n else 0)) -> dot r (t' ++ q) = dot r (t ++ q) + n * nth k r 0.
Proof.
  induction t as [|a t IH]; intros t' r q k n L K H; [simpl in K; lia|]. destruct t' as [|b t']; [discriminate|].
  destruct r as [|c r]; [destruct k; cbn; lia|]. pose proof (H 0%nat) as H0. cbn [nth] in H0. cbn [app dot]. destruct k as [|k].
  - cbn [Nat.eqb] in H0. assert (t' = t) as ->.
    { apply (nth_ext _ _ 0 0); [simpl in L; lia|]. intros j _. specialize (H (S j)). cbn in H. lia. }
    cbn [nth]. rewrite H0. lia.
  - cbn [Nat.eqb] in H0. cbn [nth]. rewrite (IH t' r q k n); [rewrite H0; lia|simpl in L; lia|simpl in K; lia|]. intros j. specialize (H (S j)). cbn in H. exact H.
Qed.

(** ** Counting *)
Lemma count_spec test pr lp n : count_accesses test pr lp = Some n ->
  (forall a, In a (loop_accesses pr lp) -> exists b, test (stmt_of pr (fst a)) (snd a) (l_depth lp) = Some b) /\
  n = length (filter (fun a => match test (stmt_of pr (fst a)) (snd a) (l_depth lp) with Some b => b | None => false end) (loop_accesses pr lp)).
Proof.
  unfold count_accesses. generalize (loop_accesses pr lp) as l. 
  assert (forall l m n, fold_left (fun o (a : nat * matrix) => match o, test (stmt_of pr (fst a)) (snd a) (l_depth lp) with
      | Some n, Some b => Some (n + Nat.b2n b)%nat | _, _ => None end) l (Some m) = Some n ->
    (forall a, In a l -> exists b, test (stmt_of pr (fst a)) (snd a) (l_depth lp) = Some b) /\
    n = (m + length (filter (fun a => match test (stmt_of pr (fst a)) (snd a) (l_depth lp) with Some b => b | None => false end) l))%nat) as G.
  { induction l as [|a l IH]; intros m n' H; cbn [fold_left] in H.
    - injection H as <-. split; [intros ? []|]. simpl. lia.
    - destruct (test (stmt_of pr (fst a)) (snd a) (l_depth lp)) as [b|] eqn:E.
      + destruct (IH _ _ H) as [A B]. split; [intros x [<-|Hx]; eauto|]. cbn [filter]. rewrite E. destruct b; cbn [length Nat.b2n] in *; lia.
      + exfalso. clear -H. induction l; cbn in H; [discriminate|auto]. }
  intros l H. apply G in H. exact H.
Qed.

Lemma count_some test pr lp : (forall a, In a (loop_accesses pr lp) -> test (stmt_of pr (fst a)) (snd a) (l_depth lp) <> None) ->
  count_accesses test pr lp <> None.
Proof.
  unfold count_accesses. generalize (loop_accesses pr lp) as l. generalize 0%nat as m. intros m l. revert m.
  induction l as [|a l IH]; intros m H; cbn [fold_left]; [discriminate|].
  destruct (test _ _ _) eqn:E; [apply IH; intros; apply H; right; auto|]. exfalso. apply (H a); [left; auto|auto].
Qed.

Lemma num_accesses pr lp : get_num_accesses pr lp = length (loop_accesses pr lp).
Proof.
  unfold get_num_accesses, loop_accesses. 
  assert (forall l n, fold_left (fun n s => (n + (length (s_reads (stmt_of pr s)) + length (s_writes (stmt_of pr s))))%nat) l n =
     (n + length (flat_map (fun s => map (pair s) (s_reads (stmt_of pr s) ++ s_writes (stmt_of pr s))) l))%nat) as G.
  { induction l as [|s l IH]; intros n; cbn [fold_left flat_map]; [simpl; lia|]. rewrite IH, app_length, map_length, app_length. lia. }
  rewrite G. lia.
Qed.

Lemma disjoint_filters {A} (f g : A -> bool) l : (forall x, In x l -> f x = true -> g x = true -> False) ->
  (length (filter f l) + length (filter g l) <= length l)%nat /\
  ((length (filter f l) + length (filter g l) = length l)%nat <-> forall x, In x l -> f x || g x = true).
Proof.
  induction l as [|a l IH]; intros D; [split; [simpl; lia|split; [intros _ x []|reflexivity]]|].
  destruct IH as [I1 I2]; [intros x Hx; apply D; right; auto|]. cbn [filter].
  assert (f a = true -> g a = true -> False) as DA by (apply D; left; auto).
  assert ((forall x, In x (a :: l) -> f x || g x = true) <-> f a || g a = true /\ forall x, In x l -> f x || g x = true) as Q.
  { split; [intros H; split; [apply H; left; auto|intros; apply H; right; auto]|intros [H1 H2] x [<-|Hx]; auto]. }
  destruct (f a) eqn:F, (g a) eqn:G; cbn [length orb] in *; try (exfalso; auto; fail).
  - split; [lia|]. rewrite Q, <- I2. split; [split; [auto|lia]|lia].
  - split; [lia|]. rewrite Q, <- I2. split; [split; [auto|lia]|lia].
  - split; [lia|]. rewrite Q, <- I2. split; [lia|intros [X _]; discriminate].
Qed.

(** ** One access *)
Section Access.
Variables (st : stmt) (npar : nat) (acc m : matrix) (L : Z) (k : nat).
Hypothesis LP : 0 < L.
Hypothesis NR : mnrows m = mnrows acc.
Hypothesis NC : mncols m = (mnrows (s_trans st) + npar + 1)%nat.
Hypothesis E : forall x p, length x = s_dim st -> length p = npar -> access_val (timestamp st x p) p m = map (Z.mul L) (access_val x p acc).
Hypothesis K : (k < mnrows (s_trans st))%nat.

Lemma row_step n x x' p i : length x = s_dim st -> length x' = s_dim st -> length p = npar -> steps_later st k n x x' p ->
  (i < mnrows acc)%nat -> L * (nth i (access_val x' p acc) 0 - nth i (access_val x p acc) 0) = n * mget m i k.
Proof using LP NR NC E K.
  intros Lx Lx' Lp S Hi. pose proof (E x p Lx Lp) as E1. pose proof (E x' p Lx' Lp) as E2.
  apply (f_equal (fun l => nth i l 0)) in E1. apply (f_equal (fun l => nth i l 0)) in E2.
  assert (forall v, nth i (map (Z.mul L) v) 0 = L * nth i v 0) as MN.
  { intros v. rewrite <- (Z.mul_0_r L) at 1. apply List.map_nth. }
  rewrite MN in E1, E2. rewrite Z.mul_sub_distr_l, <- E1, <- E2. unfold access_val.
  assert (forall y, nth i (map (fun r => aff r (y ++ p)) (mrows m)) 0 = aff (nth i (mrows m) []) (y ++ p)) as A.
  { intros y. rewrite (nth_indep _ 0 (aff [] (y ++ p))); [apply (List.map_nth (fun r => aff r (y ++ p)))|]. rewrite map_length. unfold mnrows in *. lia. }
  rewrite !A. unfold aff, mget. rewrite <- !app_assoc.
  rewrite (steps_dot (timestamp st x p) (timestamp st x' p) _ (p ++ [1]) k n); [ring| | |exact S].
  - unfold timestamp. rewrite !map_length. auto.
  - unfold timestamp. rewrite map_length. exact K.
Qed.

Lemma val_length x p : length (access_val x p acc) = mnrows acc.
Proof. unfold access_val. apply map_length. Qed.

Lemma nth_removelast {A} (l : list A) d : length (removelast l) = (length l - 1)%nat /\
  forall i, (i < length l - 1)%nat -> nth i (removelast l) d = nth i l d.
Proof.
  induction l as [|a [|b l] IH]; [split; [reflexivity|simpl; lia]|split; [reflexivity|simpl; lia]|].
  destruct IH as [A1 A2]. change (removelast (a :: b :: l)) with (a :: removelast (b :: l)). split; [cbn [length] in *; lia|].
  intros [|i] Hi; [reflexivity|]. cbn [nth]. change (nth i (removelast (b :: l)) d = nth i (b :: l) d). apply A2. cbn [length] in *. lia.
Qed.
Lemma last_nth {A} (l : list A) d : last l d = nth (length l - 1) l d.
Proof.
  induction l as [|a [|b l] IH]; [reflexivity|reflexivity|]. change (last (a :: b :: l) d) with (last (b :: l) d). rewrite IH. cbn [length].
  replace (S (S (length l)) - 1)%nat with (S (S (length l) - 1)) by lia. reflexivity.
Qed.

Lemma removelast_eq a b : length a = length b -> (removelast a = removelast b <-> forall i, (i < length a - 1)%nat -> nth i a 0 = nth i b 0).
Proof.
  intros LE. destruct (nth_removelast a 0) as [A1 A2]. destruct (nth_removelast b 0) as [B1 B2]. split.
  - intros H i Hi. rewrite <- A2, <- B2 by lia. rewrite H. auto.
  - intros H. apply (nth_ext _ _ 0 0); [lia|]. intros i Hi. rewrite A2, B2 by lia. apply H. lia.
Qed.

Definition col_zero (i : nat) : Prop := mget m i k = 0.
Definition spatial : Prop := (0 < mnrows acc)%nat /\ (forall i, (i < mnrows acc - 1)%nat -> col_zero i) /\ 1 <= mget m (mnrows acc - 1) k <= 4.
Definition invariant : Prop := forall i, (i < mnrows acc)%nat -> col_zero i.

Lemma invariant_same n x x' p : length x = s_dim st -> length x' = s_dim st -> length p = npar -> steps_later st k n x x' p -> invariant -> same_element acc x x' p.
Proof using LP NR NC E K.
  intros Lx Lx' Lp S I. unfold same_element. apply (nth_ext _ _ 0 0); [rewrite !val_length; auto|]. rewrite val_length. intros i Hi.
  pose proof (row_step n x x' p i Lx Lx' Lp S Hi) as R. rewrite (I i Hi) in R. nia.
Qed.
Lemma spatial_short n x x' p : length x = s_dim st -> length x' = s_dim st -> length p = npar -> steps_later st k n x x' p -> 0 < n -> spatial -> short_step acc n x x' p.
Proof using LP NR NC E K.
  intros Lx Lx' Lp S N (I0 & I1 & I2). split; [|split].
  - intros X. pose proof (val_length x p) as Y. rewrite X in Y. simpl in Y. lia.
  - apply removelast_eq; rewrite !val_length; auto. intros i Hi. pose proof (row_step n x x' p i Lx Lx' Lp S ltac:(lia)) as R. rewrite (I1 i Hi) in R. nia.
  - rewrite !last_nth, !val_length. pose proof (row_step n x x' p (mnrows acc - 1) Lx Lx' Lp S ltac:(lia)) as R. nia.
Qed.
Lemma same_invariant n x x' p : length x = s_dim st -> length x' = s_dim st -> length p = npar -> steps_later st k n x x' p -> 0 < n -> same_element acc x x' p -> invariant.
Proof using LP NR NC E K.
  intros Lx Lx' Lp S N I i Hi. pose proof (row_step n x x' p i Lx Lx' Lp S Hi) as R. rewrite I in R. unfold col_zero. nia.
Qed.
Lemma short_spatial x x' p : L = 1 -> length x = s_dim st -> length x' = s_dim st -> length p = npar -> steps_later st k 1 x x' p -> short_step acc 1 x x' p -> spatial.
Proof using LP NR NC E K.
  intros L1 Lx Lx' Lp S (I0 & I1 & I2). assert (0 < mnrows acc)%nat as NZ.
  { pose proof (val_length x p). destruct (access_val x p acc); [contradiction|]. simpl in *. lia. }
  pose proof (proj1 (removelast_eq _ _ ltac:(rewrite !val_length; reflexivity)) I1) as I3. clear I1. rename I3 into I1. rewrite val_length in I1. rewrite !last_nth, !val_length in I2.
  split; auto. split.
  - intros i Hi. pose proof (row_step 1 x x' p i Lx Lx' Lp S ltac:(lia)) as R. rewrite I1 in R by auto. unfold col_zero. nia.
  - pose proof (row_step 1 x x' p (mnrows acc - 1) Lx Lx' Lp S ltac:(lia)) as R. nia.
Qed.

Hypothesis G : exists dv, get_new_access_func acc st = Some (m, dv).

Lemma new_access_at_eq : new_access_at st acc k = Some m.
Proof using G NC K NR. destruct G as [dv D]. unfold new_access_at. rewrite D. destruct (Nat.leb_spec k (mncols m - 1)); auto. lia. Qed.

Lemma spatial_iff : exists b, has_spatial_reuse st acc k = Some b /\ (b = true <-> spatial).
Proof using G NC K NR.
  unfold has_spatial_reuse. rewrite new_access_at_eq, NR. destruct (Nat.eqb_spec (mnrows acc) 0) as [Z|Z].
  - exists false. split; auto. split; [discriminate|]. intros (X & _). lia.
  - destruct (existsb _ _) eqn:X.
    + exists false. split; auto. split; [discriminate|]. intros (_ & Y & _). apply existsb_exists in X as (i & Hi & X). apply in_seq in Hi.
      rewrite Y in X by lia. discriminate.
    + eexists. split; [reflexivity|]. rewrite andb_true_iff, !Z.leb_le. unfold SHORT_STRIDE, spatial. split; [|tauto]. intros Y. split; [lia|]. split; auto.
      intros i Hi. unfold col_zero. destruct (Z.eqb_spec (mget m i k) 0) as [Q|Q]; auto. exfalso.
      assert (existsb (fun i => negb (mget m i k =? 0)) (seq 0 (mnrows acc - 1)) = true); [|congruence].
      apply existsb_exists. exists i. split; [apply in_seq; lia|]. destruct (Z.eqb_spec (mget m i k) 0); auto.
Qed.
Lemma invariant_iff : exists b, is_invariant st acc k = Some b /\ (b = true <-> invariant).
Proof using G NC K NR.
  unfold is_invariant. rewrite new_access_at_eq, NR. eexists. split; [reflexivity|]. rewrite forallb_forall. unfold invariant, col_zero. split.
  - intros H i Hi. apply Z.eqb_eq, H, in_seq. lia.
  - intros H i Hi. apply in_seq in Hi. apply Z.eqb_eq, H. lia.
Qed.
Lemma not_both : spatial -> invariant -> False.
Proof using. intros (A & _ & B) I. specialize (I (mnrows acc - 1)%nat ltac:(clear -A; lia)). unfold col_zero in I. clear -B I. lia. Qed.
End Access.
