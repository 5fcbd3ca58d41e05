(** * Proofs: the moves made inside tiles are allowed. *)
From Coq Require Import ZArith List Bool Lia Arith.
From Verif Require Import SpecLinear MathModel ConstraintsModel VecProofs EditProofs MatrixProofs ListProofs SpecProg SpecTile SpecLoop
  RankProofs SumProofs FrameworkModel ProgModel DepProofs SimplifyProofs LexProofs ProgProofs TileModel TileProofs TileProofs2 TileProofs3
  LoopModel LoopProofs LoopProofs2 LoopProofs3 LoopProofs4 LoopProofs5 WaveProofs WaveProofs2 IntraModel IntraProofs IntraProofs2 IntraProofs3 IntraProofs4.
Import ListNotations.
Open Scope Z_scope.

(** ** Statements that have not changed *)
Lemma forallb_ext_in {A} (f g : A -> bool) l : (forall x, In x l -> f x = g x) -> forallb f l = forallb g l.
Proof. induction l as [|a l IH]; cbn; intros H; auto. rewrite H, IH; auto. Qed.
Lemma existsb_ext_in {A} (f g : A -> bool) l : (forall x, In x l -> f x = g x) -> existsb f l = existsb g l.
Proof. induction l as [|a l IH]; cbn; intros H; auto. rewrite H, IH; auto. Qed.

Lemma regroup_ext k1 k2 l : (forall s, In s l -> k1 s = k2 s) -> regroup k1 l = regroup k2 l.
Proof.
  unfold regroup. intros H.
  assert (forall m gs, (forall s, In s m -> In s l) -> (forall g, In g gs -> g <> [] /\ forall s, In s g -> In s l) ->
    fold_left (fun gs s => add_to_group k1 s gs) m gs = fold_left (fun gs s => add_to_group k2 s gs) m gs) as K; [|apply K; auto; intros g []].
  assert (forall gs s, In s l -> (forall g, In g gs -> g <> [] /\ forall s, In s g -> In s l) -> add_to_group k1 s gs = add_to_group k2 s gs /\
     forall g, In g (add_to_group k1 s gs) -> g <> [] /\ forall s, In s g -> In s l) as A.
  { induction gs as [|g gs IH]; intros s Hs G; cbn [add_to_group].
    - split; auto. intros g [<-|[]]. split; [discriminate|]. intros x [<-|[]]; auto.
    - destruct (IH s Hs (fun g' Hg => G g' (or_intror Hg))) as [E1 E2]. destruct (G g (or_introl eq_refl)) as [N I].
      assert (k1 (hd 0%nat g) = k2 (hd 0%nat g)) as EH. { apply H. apply I. destruct g; [congruence|simpl; auto]. }
      rewrite <- H, <- EH by auto. destruct (k1 s =? k1 (hd 0%nat g)).
      + split; auto. intros g' [<-|Hg'].
        * split; [destruct g; discriminate|]. intros x Hx. apply in_app_or in Hx as [Hx|[<-|[]]]; auto.
        * apply G. simpl; auto.
      + split; [congruence|]. intros g' [<-|Hg']; auto. }
  induction m as [|s m IH]; intros gs M G; cbn [fold_left]; auto. destruct (A gs s (M s (or_introl eq_refl)) G) as [E1 E2]. rewrite <- E1.
  apply IH; auto. intros; apply M; simpl; auto.
Qed.

Section Ext.
Variables p q : prog.
Hypothesis HP : p_hprops p = p_hprops q.

Lemma loops_under_ext n stmts depth : (forall s, In s stmts -> stmt_of p s = stmt_of q s) -> loops_under p n stmts depth = loops_under q n stmts depth.
Proof.
  revert stmts depth. induction n as [|n IH]; intros stmts depth E; cbn [loops_under]; auto.
  rewrite (existsb_ext_in _ (fun s => is_hyperplane_loop (stmt_of q s) depth)) by (intros s Hs; rewrite E; auto).
  destruct (existsb _ stmts).
  - rewrite (IH stmts (S depth)) by auto. do 3 f_equal. apply filter_ext_in. intros s Hs. rewrite E; auto.
  - rewrite (regroup_ext _ (fun s => row_const (stmt_of q s) depth)) by (intros s Hs; rewrite E; auto).
    assert (forall gs, (forall g s, In g gs -> In s g -> In s stmts) -> flat_map (fun g => loops_under p n g (S depth)) gs = flat_map (fun g => loops_under q n g (S depth)) gs) as K.
    { induction gs as [|g gs IG]; intros G; cbn; auto. rewrite IG by (intros; eapply G; simpl; eauto). f_equal. apply IH. intros s Hs. apply E. apply (G g); simpl; auto. }
    apply K. intros g s Hg Hs. apply regroup_In in Hg as (x & _ & ->). apply filter_In in Hs. tauto.
Qed.
Lemma get_loops_under_ext stmts depth : (forall s, In s stmts -> stmt_of p s = stmt_of q s) -> get_loops_under p stmts depth = get_loops_under q stmts depth.
Proof. intros E. unfold get_loops_under. rewrite HP. apply loops_under_ext; auto. Qed.

Lemma band_innermost_ext b L m : (forall s, In s (l_stmts (pb_loop b)) -> stmt_of p s = stmt_of q s) -> is_band_innermost p b L m = is_band_innermost q b L m.
Proof. intros E. unfold is_band_innermost. apply forallb_ext_in. intros s Hs. rewrite E; auto. Qed.

Lemma fuse_ext first n stmts : (forall s, In s stmts -> stmt_of p s = stmt_of q s) -> fuse_per_stmt_bands p first n stmts = fuse_per_stmt_bands q first n stmts.
Proof.
  intros E. unfold fuse_per_stmt_bands.
  set (f1 := fun i j => fused_in_band p first n _ _). set (f2 := fun i j => fused_in_band q first n _ _).
  assert (band_map f1 (length stmts) = band_map f2 (length stmts)) as ->; auto.
  assert (forall i j, (i < length stmts)%nat -> (j < length stmts)%nat -> f1 i j = f2 i j) as K.
  { intros i j Hi Hj. unfold f1, f2, fused_in_band. rewrite !E by (apply nth_In; auto). auto. }
  generalize dependent f2. generalize dependent f1. intros f1 f2 K. unfold band_map.
  assert (forall m i bm, (i < m)%nat -> (forall i j, (i < m)%nat -> (j < m)%nat -> f1 i j = f2 i j) -> map_inner f1 m i bm = map_inner f2 m i bm) as M.
  { intros m i bm Hi Q. unfold map_inner.
    assert (forall r bm, (forall j, In j r -> (j < m)%nat) ->
      fold_left (fun bm j => if (nth i bm 0 =? nth j bm 0)%nat then bm else if f1 i j then set_nth j (nth i bm 0%nat) bm else bm) r bm =
      fold_left (fun bm j => if (nth i bm 0 =? nth j bm 0)%nat then bm else if f2 i j then set_nth j (nth i bm 0%nat) bm else bm) r bm) as Z.
    { induction r as [|j r IR]; intros bm0 R; cbn [fold_left]; auto. rewrite Q by (auto; apply R; simpl; auto). apply IR. intros; apply R; simpl; auto. }
    apply Z. intros j Hj. apply in_seq in Hj. lia. }
  assert (forall r a, (forall i, In i r -> (i < length stmts)%nat) ->
    fold_left (fun (a : list nat * nat) i => if (nth i (fst a) 0 <? i)%nat then a else (map_inner f1 (length stmts) i (set_nth i (snd a) (fst a)), S (snd a))) r a =
    fold_left (fun (a : list nat * nat) i => if (nth i (fst a) 0 <? i)%nat then a else (map_inner f2 (length stmts) i (set_nth i (snd a) (fst a)), S (snd a))) r a) as Z.
  { induction r as [|i r IR]; intros a R; cbn [fold_left]; auto. rewrite M by (auto; apply R; simpl; auto). apply IR. intros; apply R; simpl; auto. }
  apply Z. intros i Hi. apply in_seq in Hi. lia.
Qed.
End Ext.

Lemma best_loop_In score loops lp : best_loop score loops = Some lp -> In lp loops.
Proof.
  unfold best_loop.
  assert (forall r a, (forall x, fst a = Some x -> In x loops) -> (forall x, In x r -> In x loops) ->
    forall x, fst (fold_left (fun (a : option ploop * Z) lp => if snd a <? score lp then (Some lp, score lp) else a) r a) = Some x -> In x loops) as K.
  { induction r as [|y r IR]; intros a A R x; cbn [fold_left]; auto. apply IR; [|intros; apply R; simpl; auto].
    destruct (snd a <? score y); auto. cbn. intros z [= <-]. apply R. simpl; auto. }
  apply K; [discriminate|auto].
Qed.

(** ** Loops below a level *)
Section Under.
Variables (q : prog) (L : nat) (b : pband).
Hypothesis W : wf_levels q.
Hypothesis PL : plain_levels q.
Hypothesis UN : uniform q.
Hypothesis LG : legal q.
Hypothesis B : bstate q L b.
Let l := l_stmts (pb_loop b).
Let f := l_depth (pb_loop b).
Let w := pb_width b.
Let m := (f + L * w)%nat.
Let H := length (p_hprops q).

Definition relclass (stmts : list nat) (depth : nat) : Prop :=
  (forall s, In s stmts -> In s l) /\ forall s t, In s stmts -> In t l -> (In t stmts <-> agree q m depth s t).

Lemma un_stmt s : In s l -> (s < length (p_stmts q))%nat.
Proof. apply (bs_class _ _ _ B). Qed.

Lemma agree_S k s t : (m <= k)%nat -> (agree q m (S k) s t <-> agree q m k s t /\
  (loop_level (stmt_of q s) k = false -> loop_level (stmt_of q t) k = false -> row_const (stmt_of q s) k = row_const (stmt_of q t) k)).
Proof.
  intros Hk. split.
  - intros A. split; [intros j Hj; apply A; lia|apply A; lia].
  - intros [A K] j Hj. destruct (Nat.eq_dec j k) as [->|]; auto. apply A. lia.
Qed.

Lemma loops_rel i stmts depth lp : (depth + i = H)%nat -> (m <= depth)%nat -> relclass stmts depth -> In lp (loops_under q i stmts depth) ->
  relclass (l_stmts lp) (l_depth lp).
Proof.
  revert stmts depth. induction i as [|i IH]; intros stmts depth E Hm C; cbn [loops_under]; [intros []|]. destruct C as [C1 C2].
  assert (forall s, In s l -> is_hyperplane_loop (stmt_of q s) depth = loop_level (stmt_of q s) depth /\ is_hyperplane_scalar (stmt_of q s) depth = negb (loop_level (stmt_of q s) depth)) as UR.
  { intros s Hs. apply (uni_row q W PL); [apply un_stmt; auto|fold H; lia]. }
  destruct (existsb _ stmts) eqn:X.
  - apply existsb_exists in X as (x & Hx & Lx).
    assert (forall s, In s stmts -> loop_level (stmt_of q s) depth = true) as AL.
    { intros s Hs. rewrite <- (bs_shift _ _ _ B x s depth); auto; try (apply C1; auto).
      - destruct (UR x) as [<- _]; auto.
      - fold f w m H. lia.
      - fold f w m. apply C2; auto. }
    intros HH. apply in_app_or in HH as [HH|[<-|[]]].
    + apply (IH stmts (S depth)); auto; try lia. split; auto. intros s t Hs Ht. rewrite (C2 s t Hs Ht). rewrite agree_S by lia.
      split; [|tauto]. intros F. split; auto. rewrite AL by auto. discriminate.
    + cbn [l_stmts l_depth]. assert (filter (fun s => negb (is_hyperplane_scalar (stmt_of q s) depth)) stmts = stmts) as ->; [|split; auto].
      assert (forall s, In s stmts -> negb (is_hyperplane_scalar (stmt_of q s) depth) = true) as F.
      { intros s Hs. destruct (UR s) as [_ ->]; auto. rewrite AL; auto. }
      clear - F. induction stmts as [|a r IH]; cbn; auto. rewrite F by (simpl; auto). f_equal. apply IH. intros; apply F; simpl; auto.
  - assert (forall s, In s stmts -> loop_level (stmt_of q s) depth = false) as AL.
    { intros s Hs. destruct (loop_level (stmt_of q s) depth) eqn:LV; auto. assert (existsb (fun s => is_hyperplane_loop (stmt_of q s) depth) stmts = true); [|congruence].
      apply existsb_exists. exists s. split; auto. destruct (UR s) as [-> _]; auto. }
    intros HH. apply in_flat_map in HH as (g & Hg & HH). apply regroup_In in Hg as (x & Hx & ->).
    refine (IH _ (S depth) _ _ _ HH); try lia. split.
    + intros s Hs. apply filter_In in Hs as [Hs _]. auto.
    + intros s t Hs Ht. apply filter_In in Hs as [Hs Es]. apply Z.eqb_eq in Es. rewrite filter_In, Z.eqb_eq, (C2 s t Hs Ht), agree_S by lia.
      split.
      * intros [F K]. split; auto. congruence.
      * intros [F K]. split; auto. rewrite <- Es. symmetry. apply K; auto. apply AL. apply (C2 s t); auto.
Qed.

(** Two statements with different constants at a level are ordered up to it. *)
Lemma differ_separated d j k : In d (p_deps q) -> d_rar d = false -> (j < k <= H)%nat -> loop_level (stmt_of q (d_src d)) j = false ->
  loop_level (stmt_of q (d_dst d)) j = false -> row_const (stmt_of q (d_src d)) j <> row_const (stmt_of q (d_dst d)) j -> separated_before q d k.
Proof.
  intros Hd R Hk L1 L2 NE. destruct (proj2 (proj1 W) d Hd) as (S1 & S2 & _). apply separated_distance; auto; [fold H; lia|].
  intros s t p I. pose proof (LG d Hd R s t p I) as LT. apply lexlt_distance in LT; auto. destruct LT as (a & A1 & A2 & A3).
  exists a. split; auto. destruct (Nat.lt_ge_cases a k) as [X|X]; auto. exfalso. specialize (A2 j ltac:(lia)).
  rewrite (distance_const q W PL d j s t p) in A2; auto; [lia|]. fold H; lia.
Qed.

Lemma class_separated stmts k d : class q stmts k -> (k <= H)%nat -> In d (p_deps q) -> d_rar d = false -> ~ (In (d_src d) stmts <-> In (d_dst d) stmts) ->
  separated_before q d k.
Proof.
  intros [C1 C2] Hk Hd R N. destruct (proj2 (proj1 W) d Hd) as (S1 & S2 & _).
  destruct (fused_cases q W PL k (d_src d) (d_dst d)) as [F|(j & Hj & A & A' & C)]; auto.
  - exfalso. apply N. split; intros X; [apply (C2 (d_src d)); auto|apply (C2 (d_dst d)); auto; apply fused_sym; auto].
  - apply (differ_separated d j); auto.
Qed.

(** ** The innermost band: any loop of the tile may be moved *)
Lemma fused_in_band_iff s t : (1 <= L)%nat -> In s l -> In t l -> (fused_in_band q f (L * w) s t = true <-> fused q m s t).
Proof.
  intros HL Hs Ht. pose proof (un_stmt s Hs) as Ns. pose proof (un_stmt t Ht) as Nt. pose proof (bs_range _ _ _ B) as R. fold f w in R. fold H in R.
  assert (fused q f s t) as FU by (apply (proj2 (bs_class _ _ _ B)); auto).
  assert (m <= H)%nat as Hm by (unfold m; lia).
  rewrite fused_agree by auto. apply fused_agree in FU; auto; [|fold H; lia].
  assert (forall k, (k < H)%nat -> is_hyperplane_scalar (stmt_of q s) k = negb (loop_level (stmt_of q s) k)) as SC.
  { intros k Hk. apply (uni_row q W PL s k); auto. }
  unfold fused_in_band. rewrite forallb_forall. split.
  - intros A j Hj L1 L2. destruct (Nat.lt_ge_cases j f) as [X|X]; [apply FU; auto; lia|]. specialize (A j ltac:(apply in_seq; unfold m in Hj; lia)).
    rewrite SC, L1 in A by lia. cbn in A. apply Z.eqb_eq in A. auto.
  - intros A j Hj. apply in_seq in Hj. fold m in Hj. rewrite SC by lia. destruct (loop_level (stmt_of q s) j) eqn:L1; auto. cbn. apply Z.eqb_eq.
    apply A; auto; [lia|]. rewrite <- (UN s t j); auto; [fold H; lia|]. apply fused_agree; auto; [fold H; lia|]. intros i Hi. apply A. lia.
Qed.

Lemma group_class g : (1 <= L)%nat -> In g (fuse_per_stmt_bands q f (L * w) l) -> class q g m /\ NoDup g /\ (forall s, In s g -> In s l).
Proof.
  intros HL Hg. pose proof (bs_range _ _ _ B) as R. fold f w in R. fold H in R. assert (m <= H)%nat as Hm by (unfold m; lia).
  destruct (fuse_groups q f (L * w)%nat l) as (_ & G & _).
  - apply (bs_nodup _ _ _ B).
  - intros s Hs. apply fused_in_band_iff; auto. apply fused_refl; auto using un_stmt.
  - intros s t Hs Ht X. apply fused_in_band_iff in X; auto. apply fused_in_band_iff; auto. apply fused_sym; auto.
  - intros s t u Hs Ht Hu X Y. apply fused_in_band_iff in X, Y; auto. apply fused_in_band_iff; auto. apply (fused_trans q W PL UN m s t u); auto using un_stmt.
  - destruct (G g Hg) as [ND K]. split; [|split; auto; intros s Hs; apply K; auto]. split.
    + intros s Hs. apply un_stmt. apply K; auto.
    + intros s t Hs Ht. destruct (K s Hs) as [Is Q]. split.
      * intros It. destruct (K t It) as [It' _]. apply (fused_in_band_iff s t); auto. apply (proj1 (Q t It') It).
      * intros FU. assert (In t l) as It. { apply (proj2 (bs_class _ _ _ B) s t); auto. eapply fused_le; [|exact FU]. unfold m; fold f; lia. }
        apply (Q t It). apply fused_in_band_iff; auto.
Qed.

Lemma tile_loop_ok g lp : (1 <= L)%nat -> is_band_innermost q b L 0 = true -> In g (fuse_per_stmt_bands q f (L * w) l) -> In lp (get_loops_under q g m) ->
  let e := (f + (L + 1) * w - 1)%nat in
  NoDup (l_stmts lp) /\ (forall s, In s (l_stmts lp) -> In s g /\ In s l) /\ (m <= l_depth lp <= e)%nat /\ (e < H)%nat /\ move_ok q (l_stmts lp) (l_depth lp) e.
Proof.
  intros HL IN Hg HP e. destruct (group_class g HL Hg) as (CG & NG & GL). pose proof (bs_range _ _ _ B) as R. fold f w in R. fold H in R.
  pose proof (bs_width _ _ _ B) as WI. fold w in WI.
  destruct (loops_under_basic _ _ _ _ _ HP) as (A1 & A2 & A3 & A4). fold H in A1.
  assert (class q (l_stmts lp) (l_depth lp)) as C. { apply (loops_class q W PL UN _ g m lp) in HP; auto. fold H. unfold m. lia. }
  assert (l_depth lp <= e)%nat as LE.
  { destruct (Nat.le_gt_cases (l_depth lp) e) as [X|X]; auto. exfalso. destruct (l_stmts lp) as [|s r] eqn:E; [congruence|]. destruct (A3 s (or_introl eq_refl)) as [Sg Lv].
    unfold is_band_innermost in IN. rewrite forallb_forall in IN. specialize (IN s (GL s Sg)). rewrite forallb_forall in IN.
    specialize (IN (l_depth lp)). rewrite in_seq in IN. fold f w in IN. pose proof (proj2 W s (un_stmt s (GL s Sg))) as NR. fold H in NR.
    specialize (IN ltac:(unfold e in X; lia)). rewrite Lv in IN. discriminate. }
  split; [apply A4; auto|]. split; [intros s Hs; destruct (A3 s Hs); auto|]. split; [lia|]. split; [unfold e; lia|].
  intros d Hd RR. split.
  - intros I1 I2. left. destruct (A3 _ I1) as [G1 _]. destruct (A3 _ I2) as [G2 _]. pose proof (GL _ G1) as T1. pose proof (GL _ G2) as T2.
    intros s t p I Z k Hk.
    destruct (bs_point _ _ _ B d s t p Hd RR T1 T2 I) with (k := k) as [K|(j & J1 & J2 & J3 & J4)]; auto.
    + intros j Hj. apply Z. fold f in Hj. unfold m in A1. lia.
    + fold f w. unfold m in A1. unfold e in Hk. lia.
    + exfalso. fold f w in J1. fold m in J1.
      destruct (bs_period _ _ _ B (d_src d) (j - w)%nat T1) as [P1 P2]; [fold f w; unfold m in J1; unfold e in Hk; nia|].
      destruct (bs_period _ _ _ B (d_dst d) (j - w)%nat T2) as [Q1 Q2]; [fold f w; unfold m in J1; unfold e in Hk; nia|].
      fold w in P1, P2, Q1, Q2. assert (w <= j)%nat as WJ by (unfold m in J1; nia). replace (j - w + w)%nat with j in * by lia.
      assert (j - w < m)%nat as JM by (unfold m in *; unfold e in Hk; nia).
      specialize (Z (j - w)%nat ltac:(lia)).
      rewrite (distance_const q W PL d (j - w) s t p) in Z; auto; try congruence; [|fold H; lia].
      rewrite (distance_const q W PL d j s t p) in J4; auto; [|fold H; unfold e in Hk; lia]. rewrite P2, Q2 in J4 by congruence. lia.
  - intros N. apply (class_separated (l_stmts lp)); auto. lia.
Qed.

(** ** Other bands: parallel loops may be moved *)
Lemma parallel_loop_ok lp e : satvecs_ok q -> In lp (get_loops_under q l m) -> loop_is_parallel q lp = true ->
  (l_depth lp <= e < H)%nat ->
  NoDup (l_stmts lp) /\ (forall s, In s (l_stmts lp) -> In s l) /\ (m <= l_depth lp)%nat /\ move_ok q (l_stmts lp) (l_depth lp) e.
Proof.
  intros [SV _] HP PA HE. pose proof (bs_range _ _ _ B) as R. fold f w in R. fold H in R. assert (m <= H)%nat as Hm by (unfold m; lia).
  destruct (loops_under_basic _ _ _ _ _ HP) as (A1 & A2 & A3 & A4). fold H in A1.
  assert (relclass (l_stmts lp) (l_depth lp)) as [C1 C2].
  { apply (loops_rel (H - m) l m lp) in HP; auto; [lia|]. split; auto. intros s t Hs Ht. split; auto. intros _ j Hj. lia. }
  split; [apply A4; apply (bs_nodup _ _ _ B)|]. split; auto. split; [lia|]. intros d Hd RR. split.
  - intros I1 I2. right. apply (parallel_sound q lp SV ltac:(fold H; lia) PA d Hd RR I1 I2).
  - intros N. destruct (in_dec Nat.eq_dec (d_src d) l) as [I1|I1], (in_dec Nat.eq_dec (d_dst d) l) as [I2|I2].
    + assert (~ agree q m (l_depth lp) (d_src d) (d_dst d)) as NA.
      { intros A. apply N. split; intros X; [apply (C2 (d_src d)); auto|apply (C2 (d_dst d)); auto]. intros j Hj L1 L2. symmetry. apply A; auto. }
      assert (exists j, (m <= j < l_depth lp)%nat /\ loop_level (stmt_of q (d_src d)) j = false /\ loop_level (stmt_of q (d_dst d)) j = false /\
        row_const (stmt_of q (d_src d)) j <> row_const (stmt_of q (d_dst d)) j) as (j & J1 & J2 & J3 & J4).
      { destruct (existsb (fun j => negb (loop_level (stmt_of q (d_src d)) j) && negb (loop_level (stmt_of q (d_dst d)) j) &&
          negb (row_const (stmt_of q (d_src d)) j =? row_const (stmt_of q (d_dst d)) j)) (seq m (l_depth lp - m))) eqn:X.
        - apply existsb_exists in X as (j & Hj & X). apply in_seq in Hj. rewrite !andb_true_iff, !negb_true_iff, Z.eqb_neq in X. exists j. split; [lia|tauto].
        - exfalso. apply NA. intros j Hj L1 L2. destruct (Z.eq_dec (row_const (stmt_of q (d_src d)) j) (row_const (stmt_of q (d_dst d)) j)) as [|NE]; auto. exfalso.
          rewrite <- not_true_iff_false in X. apply X. apply existsb_exists. exists j. split; [apply in_seq; lia|]. rewrite L1, L2. cbn. apply negb_true_iff, Z.eqb_neq. auto. }
      apply (differ_separated d j); auto. lia.
    + apply (separated_le q (l_depth lp) e W HE f); auto; [fold H; unfold m in *; lia|]. apply (class_separated l); auto; [apply (bs_class _ _ _ B)|lia|tauto].
    + apply (separated_le q (l_depth lp) e W HE f); auto; [fold H; unfold m in *; lia|]. apply (class_separated l); auto; [apply (bs_class _ _ _ B)|lia|tauto].
    + exfalso. apply N. split; intros X; exfalso; auto.
Qed.
End Under.
