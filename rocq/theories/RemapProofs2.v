(** * Lemmas for the remapping (C33, C34): the functions as a whole. *)
From Coq Require Import ZArith List Bool Lia Arith.
From Verif Require Import SpecLinear SpecMatrix MathModel ConstraintsModel GcdProofs VecProofs EditProofs MatrixProofs SpecProg ProgModel
  ProgProofs ExportModel ExportProofs SpecExport RemapProofs.
Import ListNotations.
Open Scope Z_scope.

Lemma zip_with_app' {A B C} (f : A -> B -> C) a b c d : length a = length c -> zip_with f (a ++ b) (c ++ d) = zip_with f a c ++ zip_with f b d.
Proof. revert c; induction a; destruct c; simpl; intros; try lia; [reflexivity|]. f_equal. apply IHa. lia. Qed.
Lemma zip_ones l : zip_with Z.mul (repeat 1 (length l)) l = l.
Proof. induction l as [|x l IH]; [reflexivity|]. cbn [length repeat zip_with]. rewrite IH. f_equal. lia. Qed.

Lemma dot_single i a x : (forall j, (j < length a)%nat -> j <> i -> nth j a 0 = 0) -> dot a x = nth i a 0 * nth i x 0.
Proof.
  revert i x. induction a as [|u a IH]; intros i x H; [destruct i; simpl; lia|]. destruct x as [|w x]; [destruct i; simpl; lia|]. simpl.
  destruct i as [|i].
  - assert (dot a x = 0) as ->; [|lia]. assert (forall j, nth j a 0 = 0) as Z0.
    { intros j. destruct (Nat.lt_ge_cases j (length a)); [apply (H (S j)); simpl; lia|apply nth_overflow; auto]. }
    clear - Z0. revert x. induction a as [|u a IH]; intros [|w x]; simpl; auto. rewrite IH by (intros j; apply (Z0 (S j))). pose proof (Z0 0%nat) as E. simpl in E. subst. lia.
  - pose proof (H 0%nat ltac:(simpl; lia) ltac:(lia)) as E. simpl in E. subst. rewrite (IH i x); [lia|]. intros j Hj NE. apply (H (S j)); simpl; lia.
Qed.

Section Remap.
Variables (st : stmt) (npar : nat).
Let dim := s_dim st.
Let nr := mnrows (s_trans st).
Let t := s_trans st.
Hypothesis WT : wf_mat t.
Hypothesis WC : mncols t = (dim + npar + 1)%nat.
Hypothesis WD : ncols (s_domain st) = (dim + npar + 1)%nat.
Hypothesis SC : small_coefs st.

Let m0 := iterators_left dim (schedule_matrix t).
Let n := (nr + dim + npar + 1)%nat.

Lemma m0_spec : mncols m0 = n /\ length (mrows m0) = nr /\ width n (mrows m0) /\
  (forall k x s q, (k < nr)%nat -> length s = nr -> length x = dim -> dot (rw (mrows m0) k) (x ++ s ++ q) = nth k s 0 - dot (rw (mrows t) k) (x ++ q)).
Proof.
  destruct (left_spec t dim WT ltac:(lia) SC) as (A & B & C). fold m0 in A, B, C. fold t in nr. 
  assert (forall k, (k < nr)%nat -> length (rw (mrows t) k) = mncols t) as LR by (intros k Hk; apply WT, nth_In; exact Hk).
  split; [rewrite A, WC; unfold n, nr; fold t; lia|]. split; [exact B|]. split.
  - intros k Hk. rewrite B in Hk. rewrite C by auto. unfold left_row. rewrite !app_length, !map_length, set_nth_length, repeat_length, firstn_length, skipn_length, LR by auto.
    rewrite WC. unfold n, nr. fold t. lia.
  - intros k x s q Hk Ls Lx. rewrite C by auto. apply left_row_dot; auto. rewrite LR by auto. lia.
Qed.

Lemma time_kernel x p : length x = dim -> length p = npar -> kernel (mrows m0) (x ++ timestamp st x p ++ p ++ [1]).
Proof.
  intros Lx Lp. destruct m0_spec as (A & B & C & D). intros k Hk. rewrite B in Hk. rewrite D; auto.
  - unfold timestamp. fold t. rewrite nth_indep with (d' := aff [] (x ++ p)) by (rewrite map_length; exact Hk).
    rewrite (List.map_nth (fun r => aff r (x ++ p))). fold (rw (mrows t) k). unfold aff. rewrite <- app_assoc. lia.
  - unfold timestamp. rewrite map_length. reflexivity.
Qed.

Lemma kernel_not_inj v i : length v = n -> (i < dim)%nat -> nth i v 0 <> 0 -> (forall j, (i < j)%nat -> nth j v 0 = 0) -> kernel (mrows m0) v ->
  ~ one_to_one npar st.
Proof.
  intros Lv Hi N Z0 K H. set (x := firstn dim v).
  assert (length x = dim) as Lx by (unfold x; rewrite firstn_length, Lv; unfold n; lia).
  assert (forall j, (dim <= j)%nat -> nth j v 0 = 0) as Z1 by (intros; apply Z0; lia).
  assert (v = x ++ repeat 0 nr ++ repeat 0 (npar + 1)) as EV.
  { rewrite <- (firstn_skipn dim v) at 1. fold x. f_equal. rewrite <- repeat_app. apply (nth_ext _ _ 0 0).
    - rewrite skipn_length, Lv, repeat_length. unfold n. lia.
    - intros j _. rewrite nth_repeat. assert (nth j (skipn dim v) 0 = nth (dim + j) v 0) as ->.
      { clear. revert v. induction dim as [|d IH]; intros v; [reflexivity|]. destruct v; [destruct j; reflexivity|]. apply IH. }
      apply Z1. lia. }
  destruct m0_spec as (A & B & C & D).
  assert (forall k, (k < nr)%nat -> dot (firstn dim (rw (mrows t) k)) x = 0) as D0.
  { intros k Hk. specialize (K k ltac:(lia)). rewrite EV, D in K; auto; [|apply repeat_length]. rewrite nth_repeat in K.
    assert (length (rw (mrows t) k) = mncols t) as LR by (apply WT, nth_In; exact Hk).
    rewrite <- (firstn_skipn dim (rw (mrows t) k)) in K. rewrite dot_app in K by (rewrite firstn_length; lia). rewrite dot_repeat0_r in K. lia. }
  assert (x = repeat 0 dim) as E.
  { apply (H x (repeat 0 dim) (repeat 0 npar) Lx (repeat_length _ _) (repeat_length _ _)). unfold timestamp. fold t.
    apply map_ext_in. intros r Hr. apply (In_nth _ _ []) in Hr. destruct Hr as (k & Hk & <-). fold (rw (mrows t) k).
    assert (length (rw (mrows t) k) = mncols t) as LR by (apply WT, nth_In; exact Hk).
    unfold aff. rewrite <- !app_assoc. rewrite <- (firstn_skipn dim (rw (mrows t) k)).
    rewrite !dot_app by (rewrite firstn_length, ?repeat_length; lia). rewrite D0 by exact Hk. rewrite dot_repeat0_r. lia. }
  apply N. rewrite EV, app_nth1 by lia. rewrite E. apply nth_repeat.
Qed.

Lemma forward_fails : remap_forward dim m0 = None -> ~ one_to_one npar st.
Proof.
  intros E. destruct m0_spec as (A & B & C & D). pose proof (forward_spec n m0 C dim) as F. rewrite E in F.
  destruct F as (i & l & F1 & F2 & F3 & F4 & F5 & F6).
  destruct (kernel_vector n l i F2 F3 F5 ltac:(unfold n; lia) F4) as (v & V1 & V2 & V3 & V4).
  apply (kernel_not_inj v i); auto. apply F6. auto.
Qed.

Lemma too_few_rows : (nr < dim)%nat -> ~ one_to_one npar st.
Proof.
  intros L. destruct m0_spec as (A & B & C & D). pose proof (forward_spec n m0 C nr) as F. destruct (remap_forward nr m0) as [m1|].
  - destruct F as (F1 & F2 & F3 & F4 & F5).
    destruct (kernel_vector n (mrows m1) nr F3 F4 ltac:(lia) ltac:(unfold n; lia)) as (v & V1 & V2 & V3 & V4).
    + intros k Hk. unfold ent. rewrite nth_overflow with (l := mrows m1) by lia. destruct nr; reflexivity.
    + apply (kernel_not_inj v nr); auto. apply F5. auto.
  - destruct F as (i & l & F1 & F2 & F3 & F4 & F5 & F6).
    destruct (kernel_vector n l i F2 F3 F5 ltac:(unfold n; lia) F4) as (v & V1 & V2 & V3 & V4).
    apply (kernel_not_inj v i); auto; [lia|]. apply F6. auto.
Qed.

Lemma remapping_spec :
  match stmt_get_remapping st with
  | Some (m, divs) => exists D, remaps npar st m D /\ divs = map wrap32 D
  | None => ~ one_to_one npar st
  end.
Proof.
  destruct m0_spec as (A & B & C & D). unfold stmt_get_remapping. fold dim. fold t. fold m0. rewrite WD.
  replace (dim + npar + 1 - dim - 1)%nat with npar by lia.
  destruct (Nat.leb_spec dim (mnrows m0)) as [HD|HD]; [|apply too_few_rows; unfold mnrows in HD at 1; lia].
  pose proof (forward_spec n m0 C dim) as F. destruct (remap_forward dim m0) as [m1|] eqn:FE; [|apply forward_fails; auto].
  destruct F as (F1 & F2 & F3 & F4 & F5). clear FE.
  destruct (backward_spec n dim m1 F3 F4) as (G1 & G2 & G3 & G4 & G5). cbv zeta in *. set (m2 := remap_backward dim m1) in *.
  assert (forall x p, length x = dim -> length p = npar -> kernel (mrows m2) (x ++ timestamp st x p ++ p ++ [1])) as K2.
  { intros x p Lx Lp. apply G5, F5. apply time_kernel; auto. }
  assert (mncols m2 = n) as C2 by congruence. assert (length (mrows m2) = nr) as L2 by congruence. unfold mnrows in HD.
  clearbody m2. clear m1 F1 F2 F3 F4 F5 G1 G2 G5.
  rewrite drop_rows_eq by (unfold mnrows; lia).
  rewrite (fold_mat_rows _ (fun i r => if nth i r 0 <=? -1 then map Z.opp r else r)) by (intros; apply sign_eq). cbn [mncols mrows].
  set (l3 := firstn dim (mrows m2)).
  destruct (fold_rows_nth (fun i r => if nth i r 0 <=? -1 then map Z.opp r else r) dim l3) as [L4 N4]. cbv zeta in *.
  set (l4 := fold_left _ (seq 0 dim) l3) in *.
  assert (length l3 = dim) as L3 by (unfold l3; rewrite firstn_length; lia).
  assert (forall k, (k < dim)%nat -> rw l3 k = rw (mrows m2) k) as R3.
  { intros k Hk. unfold rw, l3. rewrite <- (firstn_skipn dim (mrows m2)) at 2. rewrite app_nth1 by (fold l3; lia). reflexivity. }
  destruct G4 as [[T1 T2] T3].
  assert (forall k, (k < dim)%nat -> rw l4 k = if ent (mrows m2) k k <=? -1 then map Z.opp (rw (mrows m2) k) else rw (mrows m2) k) as R4.
  { intros k Hk. unfold rw at 1. rewrite N4 by lia. rewrite (proj2 (Nat.ltb_lt _ _) Hk). fold (rw l3 k). rewrite R3 by auto. reflexivity. }
  assert (forall k, (k < dim)%nat -> length (rw l4 k) = n) as W4.
  { intros k Hk. rewrite R4 by auto. destruct (ent (mrows m2) k k <=? -1); rewrite ?map_length; apply G3; lia. }
  assert (forall k j, (k < dim)%nat -> (j < dim)%nat -> j <> k -> ent l4 k j = 0) as Z4.
  { intros k j Hk Hj NE. unfold ent. fold (rw l4 k). rewrite R4 by auto.
    assert (ent (mrows m2) k j = 0) as E by (destruct (Nat.lt_ge_cases j k); [apply T1; lia|apply T3; lia]).
    destruct (ent (mrows m2) k k <=? -1); [|exact E]. change 0 with (Z.opp 0) at 1. rewrite List.map_nth. unfold ent in E. unfold rw. rewrite E. reflexivity. }
  assert (forall k, (k < dim)%nat -> 0 < ent l4 k k) as P4.
  { intros k Hk. unfold ent. fold (rw l4 k). rewrite R4 by auto. pose proof (T2 k Hk) as NZ.
    destruct (Z.leb_spec (ent (mrows m2) k k) (-1)).
    - change 0 with (Z.opp 0) at 2. rewrite List.map_nth. unfold ent in H. unfold rw. lia.
    - unfold ent in *. unfold rw. lia. }
  assert (forall k x p, (k < dim)%nat -> length x = dim -> length p = npar -> dot (rw l4 k) (x ++ timestamp st x p ++ p ++ [1]) = 0) as K4.
  { intros k x p Hk Lx Lp. rewrite R4 by auto. pose proof (K2 x p Lx Lp k ltac:(lia)) as E. destruct (ent (mrows m2) k k <=? -1); rewrite ?dot_map_opp; lia. }
  assert (length l4 = dim) as LL4 by lia.
  clearbody l4. clear T1 T2 T3 R4 N4 L4 K2 R3 L3 G3.
  assert (forallb (fun i => negb (mget {| mncols := mncols m2; mrows := l4 |} i i =? 0)) (seq 0 dim) = true) as ->.
  { apply forallb_forall. intros i Hi. apply in_seq in Hi. unfold mget. cbn [mrows]. pose proof (P4 i ltac:(lia)) as P. unfold ent in P.
    apply negb_true_iff, Z.eqb_neq. lia. }
  rewrite remove_cols_eq by (cbn [mncols]; rewrite C2; unfold n; lia). cbn [mncols mrows].
  rewrite (fold_mat_rows _ (fun _ => map Z.opp)) by reflexivity. cbn [mncols mrows].
  destruct (fold_rows_nth (fun _ => map Z.opp) dim (map (skipn dim) l4)) as [L6 N6]. cbv zeta in *.
  set (l6 := fold_left _ (seq 0 dim) (map (skipn dim) l4)) in *. rewrite map_length in L6, N6.
  assert (forall k, (k < dim)%nat -> nth k l6 [] = map Z.opp (skipn dim (rw l4 k))) as R6.
  { intros k Hk. rewrite N6 by lia. rewrite (proj2 (Nat.ltb_lt _ _) Hk). f_equal. rewrite nth_map_row by (right; lia). reflexivity. }
  clearbody l6. rewrite unit_rows_eq. cbn [mncols mrows].
  replace (mncols m2 - dim)%nat with (nr + npar + 1)%nat by (rewrite C2; unfold n; lia).
  set (w := (nr + npar + 1)%nat).
  exists (map (fun i => Z.abs (ent l4 i i)) (seq 0 dim) ++ repeat 1 (npar + 1)). split.
  2: { rewrite map_app, map_map. f_equal. clear. induction (npar + 1)%nat as [|c IH]; [reflexivity|]. cbn [repeat map]. rewrite <- IH. reflexivity. }
  unfold remaps. fold dim. fold t. fold nr. cbn [mncols mrows].
  assert (length (unit_rows w npar (npar + 1)) = (npar + 1)%nat) as LU by (unfold unit_rows; rewrite map_length, seq_length; reflexivity).
  split; [|split; [|split; [|split; [|split]]]].
  - intros r Hr. cbn [mrows mncols] in *. apply in_app_or in Hr. destruct Hr as [Hr|Hr].
    + apply (In_nth _ _ []) in Hr. destruct Hr as (k & Hk & <-). rewrite R6 by lia. rewrite map_length, skipn_length, W4 by lia. unfold n, w. lia.
    + unfold unit_rows in Hr. apply in_map_iff in Hr. destruct Hr as (i & <- & _). rewrite set_nth_length, repeat_length. reflexivity.
  - unfold mnrows. cbn [mrows]. rewrite app_length, LU. lia.
  - reflexivity.
  - rewrite app_length, map_length, seq_length, repeat_length. lia.
  - intros d Hd. apply in_app_or in Hd. destruct Hd as [Hd|Hd].
    + apply in_map_iff in Hd. destruct Hd as (i & <- & Hi). apply in_seq in Hi. pose proof (P4 i ltac:(lia)). lia.
    + apply repeat_spec in Hd. lia.
  - intros x p Lx Lp. set (s := timestamp st x p) in *. assert (length s = nr) as Ls by (unfold s, timestamp; rewrite map_length; reflexivity).
    unfold mat_vec. rewrite map_app. rewrite zip_with_app' by (rewrite map_length, seq_length; auto). f_equal.
    + apply (nth_ext _ _ 0 0).
      * rewrite map_length, zip_with_length; rewrite map_length, seq_length; lia.
      * intros k Hk. rewrite map_length in Hk. rewrite nth_zip_with by (rewrite map_length, seq_length; lia).
        rewrite nth_indep with (d' := dot [] (s ++ p ++ [1])) by (rewrite map_length; lia).
        rewrite (List.map_nth (fun r => dot r (s ++ p ++ [1]))). rewrite R6 by lia. rewrite dot_map_opp.
        rewrite nth_map_seq by lia. pose proof (K4 k x p ltac:(lia) Lx Lp) as E. fold s in E.
        rewrite <- (firstn_skipn dim (rw l4 k)) in E. rewrite dot_app in E by (rewrite firstn_length, W4 by lia; unfold n; lia).
        rewrite (dot_single k (firstn dim (rw l4 k))) in E.
        -- assert (nth k (firstn dim (rw l4 k)) 0 = ent l4 k k) as EN.
           { unfold ent. fold (rw l4 k). rewrite <- (firstn_skipn dim (rw l4 k)) at 2. rewrite app_nth1; [reflexivity|]. rewrite firstn_length, W4 by lia. unfold n. lia. }
           rewrite EN in E. pose proof (P4 k ltac:(lia)). rewrite Z.abs_eq by lia. lia.
        -- intros j Hj NE. rewrite firstn_length in Hj. transitivity (ent l4 k j); [|apply Z4; lia]. unfold ent. fold (rw l4 k).
           rewrite <- (firstn_skipn dim (rw l4 k)) at 2. rewrite app_nth1; [reflexivity|]. rewrite firstn_length. lia.
    + assert (length (p ++ [1]) = (npar + 1)%nat) as LP by (rewrite app_length; simpl; lia). rewrite <- LP at 2. rewrite zip_ones.
      unfold unit_rows. rewrite map_map. apply (nth_ext _ _ 0 0); [rewrite map_length, seq_length; lia|].
      intros k Hk. rewrite map_length, seq_length in Hk. rewrite nth_map_seq by lia.
      rewrite dot_comm, dot_unit by (rewrite ?app_length in *; cbn [length] in *; unfold w; lia).
      rewrite app_nth2 by (unfold w; lia). f_equal. unfold w. lia.
Qed.
End Remap.

(** ** New access functions *)
Lemma remaps_unique npar st m D D' : remaps npar st m D -> remaps npar st m D' -> D = D'.
Proof.
  intros (_ & _ & _ & L & _ & E) (_ & _ & _ & L' & _ & E').
  specialize (E (repeat 1 (s_dim st)) (repeat 1 npar) (repeat_length _ _) (repeat_length _ _)).
  specialize (E' (repeat 1 (s_dim st)) (repeat 1 npar) (repeat_length _ _) (repeat_length _ _)). rewrite E in E'. clear E.
  change [1] with (repeat 1 1) in E'. rewrite <- !repeat_app in E'.
  replace (s_dim st + (npar + 1))%nat with (length D) in E' at 1 by lia. replace (s_dim st + (npar + 1))%nat with (length D') in E' by lia.
  assert (forall l, zip_with Z.mul l (repeat 1 (length l)) = l) as O.
  { intros l. induction l as [|x l IH]; [reflexivity|]. cbn [length repeat zip_with]. rewrite IH. f_equal. lia. }
  rewrite !O in E'. exact E'.
Qed.

Lemma remaps_inj npar st m D : remaps npar st m D -> one_to_one npar st.
Proof.
  intros (_ & _ & _ & L & P & E) x y p Lx Ly Lp T. pose proof (E x p Lx Lp) as E1. rewrite T, (E y p Ly Lp) in E1.
  rewrite <- (firstn_skipn (s_dim st) D) in E1. rewrite !zip_with_app' in E1 by (rewrite firstn_length; lia).
  assert (forall a b c d : list Z, a ++ b = c ++ d -> length a = length c -> a = c) as AI.
  { clear. induction a; destruct c; simpl; intros d E L; try lia; [reflexivity|]. injection E as -> E. f_equal. eapply IHa; eauto. }
  apply AI in E1; [|rewrite !zip_with_length; rewrite ?firstn_length; lia].
  assert (forall d, In d (firstn (s_dim st) D) -> 0 < d) as P'.
  { intros d Hd. apply P. rewrite <- (firstn_skipn (s_dim st) D). apply in_or_app. auto. }
  assert (length (firstn (s_dim st) D) = s_dim st) as LF by (rewrite firstn_length; lia).
  revert E1 P' LF Lx Ly. generalize (firstn (s_dim st) D) as l. generalize (s_dim st) as n. clear. intros n l. revert x y n. induction l as [|d l IH]; intros [|u x] [|v y] n E P L Lx Ly; simpl in *; try lia; [reflexivity|].
  injection E as E1 E2. f_equal; [pose proof (P d ltac:(auto)); nia|]. apply (IH x y (n - 1)%nat); auto; lia.
Qed.

Lemma lcm_pos_eq a b : 0 < a -> 0 < b -> lcm a b = Z.lcm a b.
Proof. intros. rewrite <- lcm_zlcm. pose proof (lcm_pos a b). lia. Qed.

Lemma fold_lcm_props D : forall l, 0 < l -> (forall d, In d D -> 0 < d) ->
  0 < fold_left Z.lcm D l /\ (l | fold_left Z.lcm D l) /\ forall d, In d D -> (d | fold_left Z.lcm D l).
Proof.
  induction D as [|d D IH]; intros l Hl P; cbn [fold_left].
  - split; [auto|]. split; [apply Z.divide_refl|contradiction].
  - assert (0 < Z.lcm l d) as HL by (rewrite <- lcm_pos_eq by (auto; apply P; simpl; auto); apply lcm_pos; auto; apply P; simpl; auto).
    destruct (IH _ HL) as (A & B & C); [intros; apply P; simpl; auto|]. split; [auto|]. split; [eapply Z.divide_trans; [apply Z.divide_lcm_l|eauto]|].
    intros x [<-|Hx]; [eapply Z.divide_trans; [apply Z.divide_lcm_r|eauto]|auto].
Qed.

Lemma lcm_all_fits D : forall l, 0 < l -> (forall d, In d D -> 0 < d) -> fits32 (fold_left Z.lcm D l) ->
  fold_left (fun l d => wrap32 (lcm l d)) D l = fold_left Z.lcm D l.
Proof.
  induction D as [|d D IH]; intros l Hl P F; cbn [fold_left] in *; [reflexivity|].
  assert (0 < d) as Hd by (apply P; simpl; auto).
  assert (0 < Z.lcm l d) as HL by (rewrite <- lcm_pos_eq by auto; apply lcm_pos; auto).
  destruct (fold_lcm_props D (Z.lcm l d) HL) as (A & B & _); [intros; apply P; simpl; auto|].
  apply Z.divide_pos_le in B; auto. rewrite lcm_pos_eq by auto. rewrite wrap32_fits by (unfold fits32 in *; lia).
  apply IH; auto. intros; apply P; simpl; auto.
Qed.

Lemma dot_scaled (v : list Z) L d k r : d <> 0 -> L = k * d -> dot (map (fun u => Z.quot (u * L) d) r) v = k * dot r v.
Proof.
  intros Hd ->. rewrite <- dot_map_mul. f_equal. apply map_ext. intros u. replace (u * (k * d)) with (k * u * d) by ring. apply Z.quot_mul. auto.
Qed.

Lemma scaled_vec L rows D y v : length rows = length D -> length y = length D -> (forall d, In d D -> 0 < d /\ (d | L)) ->
  mat_vec rows v = zip_with Z.mul D y -> mat_vec (zip_with (fun r d => map (fun u => Z.quot (u * L) d) r) rows D) v = map (Z.mul L) y.
Proof.
  revert D y. induction rows as [|r rows IH]; intros [|d D] [|u y] L1 L2 P E; simpl in *; try lia; [reflexivity|].
  injection E as E1 E2. f_equal; [|apply IH; auto; lia]. destruct (P d (or_introl eq_refl)) as [Hd [k Hk]].
  rewrite (dot_scaled v L d k) by (auto; lia). rewrite E1, Hk. ring.
Qed.

Section Access.
Variables (st : stmt) (npar : nat) (acc remap : matrix) (divs D : list Z).
Hypothesis G : stmt_get_remapping st = Some (remap, divs).
Hypothesis R : remaps npar st remap D.
Hypothesis DW : divs = map wrap32 D.
Hypothesis F : fits32 (fold_left Z.lcm D 1).
Hypothesis WA : wf_mat acc.
Hypothesis CA : mncols acc = (s_dim st + npar + 1)%nat.
Let L := fold_left Z.lcm D 1.

Lemma new_access : exists m, get_new_access_func acc st = Some (m, repeat L (mnrows acc)) /\ 0 < L /\
  mnrows m = mnrows acc /\ mncols m = (mnrows (s_trans st) + npar + 1)%nat /\
  forall x p, length x = s_dim st -> length p = npar ->
    mat_vec (mrows m) (timestamp st x p ++ p ++ [1]) = map (Z.mul L) (mat_vec (mrows acc) (x ++ p ++ [1])).
Proof.
  pose proof R as (R1 & R2 & R3 & R4 & R5 & R6).
  destruct (fold_lcm_props D 1 ltac:(lia) R5) as (L1 & _ & L2). fold L in L1, L2.
  assert (divs = D) as ED.
  { rewrite DW. transitivity (map (fun x : Z => x) D); [|apply map_id]. apply map_ext_in. intros d Hd. apply wrap32_fits.
    pose proof (Z.divide_pos_le d L L1 (L2 d Hd)). pose proof (R5 d Hd). fold L in F. unfold fits32 in *. lia. }
  unfold get_new_access_func. rewrite G, ED.
  assert (existsb (Z.eqb 0) D = false) as ->.
  { apply not_true_is_false. intros E. apply existsb_exists in E. destruct E as (d & Hd & E). apply Z.eqb_eq in E. pose proof (R5 d Hd). lia. }
  unfold lcm_all. rewrite lcm_all_fits by (auto; lia). fold L.
  set (sc := scale_rows L remap D).
  assert (length (mrows remap) = length D) as LR by (unfold mnrows in R2; lia).
  assert (wf_mat sc) as WS.
  { intros r Hr. unfold sc, scale_rows in *. cbn [mrows mncols] in *. clear - Hr R1.
    assert (forall (a : list (list Z)) b, In r (zip_with (fun r d => map (fun v => Z.quot (v * L) d) r) a b) -> exists q, In q a /\ length r = length q) as I.
    { induction a as [|q a IH]; intros [|d b] H; simpl in H; try contradiction. destruct H as [<-|H]; [exists q; rewrite map_length; simpl; auto|].
      destruct (IH b H) as (q' & Q1 & Q2). exists q'. simpl. auto. }
    destruct (I _ _ Hr) as (q & Hq & ->). apply R1. auto. }
  assert (mnrows sc = mnrows remap) as NS by (unfold sc, scale_rows, mnrows; cbn [mrows]; rewrite zip_with_length by auto; lia).
  assert (mncols sc = mncols remap) as CS by reflexivity.
  destruct (product_wf acc sc) as (P1 & P2 & P3).
  exists (matrix_product acc sc). split; [rewrite P2; reflexivity|]. split; [exact L1|]. split; [exact P2|]. split; [congruence|].
  intros x p Lx Lp. assert (length (timestamp st x p) = mnrows (s_trans st)) as LT by (unfold timestamp; rewrite map_length; reflexivity).
  rewrite product_vec; auto; [|lia|rewrite !app_length; simpl; lia].
  unfold sc, scale_rows. cbn [mrows]. rewrite (scaled_vec L (mrows remap) D (x ++ p ++ [1])); auto.
  - unfold mat_vec. rewrite map_map. apply map_ext. intros r. apply dot_map_mul_r.
  - rewrite !app_length. simpl. lia.
Qed.
End Access.
