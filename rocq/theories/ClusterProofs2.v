(** * Proofs about the framework "dfp" with clustered components: every colour gives
      every statement a loop of its own if statements on a common cycle have as
      many loops. *)
From Coq Require Import ZArith List Bool Arith Lia.
From Verif Require Import SpecLinear SpecMatrix VecProofs MathModel ConstraintsModel EditProofs FarkasProofs RankProofs SpecGraph GraphModel GraphProofs SpecProg SpecDriver SpecDfp
  FrameworkModel FrameworkProofs DepProofs ProgModel ProgProofs DriverModel HypProofs DriverProofs PadProofs AutoProofs DfpModel DfpProofs DfpProofs2 DfpProofs3 FcgModel ClusterModel ClusterProofs.
Import ListNotations.
Open Scope Z_scope.

(** Statements on a common cycle of dependences have as many original loops. *)
Definition even (pr : prog) : Prop := forall u v, (u < length (p_stmts pr))%nat -> (v < length (p_stmts pr))%nat ->
  depends pr u v -> depends pr v u -> s_dim_orig (stmt_of pr v) = s_dim_orig (stmt_of pr u).
Lemma even_frame a b : frame a b -> even a -> even b.
Proof.
  intros F H u v Hu Hv A B. pose proof F as (_ & _ & L & S & _). destruct (S u) as (_ & E & _), (S v) as (_ & E' & _). rewrite E, E'.
  apply H; try lia; apply (frame_depends a b); auto.
Qed.

(** ** Dependences are satisfied for good *)

Definition none_yet (pr : prog) : Prop := p_hprops pr = [] -> forall d, In d (p_deps pr) -> d_rar d = false -> d_sat d = false.
Definition grow (a b : prog) : Prop := forall d', In d' (p_deps b) -> d_rar d' = false ->
  exists d, In d (p_deps a) /\ d_src d' = d_src d /\ d_dst d' = d_dst d /\ d_rar d = false /\ (d_sat d' = false -> d_sat d = false).
Definition later (a b : prog) : Prop := none_yet a -> none_yet b /\ grow a b.
Lemma later_refl a : later a a.
Proof. intros N. split; [auto|]. intros d Hd Hr. exists d. auto. Qed.
Lemma later_trans a b c : later a b -> later b c -> later a c.
Proof.
  intros H1 H2 N. destruct (H1 N) as [N1 G1]. destruct (H2 N1) as [N2 G2]. split; [auto|]. intros d Hd Hr.
  destruct (G2 d Hd Hr) as (d1 & A1 & A2 & A3 & A4 & A5). destruct (G1 d1 A1 A4) as (d2 & B1 & B2 & B3 & B4 & B5).
  exists d2. split; [auto|]. split; [congruence|]. split; [congruence|]. split; [auto|]. auto.
Qed.
Lemma grow_map pr q g : p_deps q = map g (p_deps pr) ->
  (forall d, d_src (g d) = d_src d /\ d_dst (g d) = d_dst d /\ d_rar (g d) = d_rar d /\ (d_sat (g d) = false -> d_sat d = false)) -> grow pr q.
Proof.
  intros E H d' Hd Hr. rewrite E in Hd. apply in_map_iff in Hd as (d & <- & Hd). destruct (H d) as (A & B & C & D). exists d. rewrite <- C. auto.
Qed.
Lemma update_dep_keeps is_emptyb q k d : d_src (update_dep is_emptyb q k d) = d_src d /\ d_dst (update_dep is_emptyb q k d) = d_dst d /\
  d_rar (update_dep is_emptyb q k d) = d_rar d /\ (d_sat (update_dep is_emptyb q k d) = false -> d_sat d = false).
Proof. unfold update_dep. destruct (d_sat d) eqn:E; [rewrite E; auto|]. destruct (dep_satisfaction_test _ _ _ _); cbn; auto. Qed.
Lemma later_app is_emptyb pr h ht row k :
  later pr (fst (dep_satisfaction_update is_emptyb (app_level pr h ht row) k)).
Proof.
  intros N. split.
  - intros E. cbn in E. destruct (p_hprops pr); discriminate.
  - eapply grow_map; [reflexivity|]. intros d. apply update_dep_keeps.
Qed.

Section Later.
Variable is_emptyb : cst -> bool.
Variable fuse : fusion.
Hypothesis EX : exact_empty is_emptyb.
Local Notation inv := (inv LAZY).
Local Notation good := (good LAZY).

Lemma keep_later s f : wf_prog (st_prog s) -> later (st_prog s) (st_prog (fst (keep_if_useful is_emptyb s (add_scalar_level (st_prog s) f)))).
Proof.
  intros W. destruct s as [pr a n m]. cbn [st_prog] in *. rewrite scalar_level_app. unfold keep_if_useful.
  pose proof (later_app is_emptyb pr H_SCALAR (fun _ => H_SCALAR) (fun s => const_row pr (f (stmt_of pr s)))) as L. set (q := app_level _ _ _ _) in *.
  specialize (L (nrows0 q - 1)%nat). unfold dep_satisfaction_update in *. cbn [fst] in L. destruct (Nat.leb_spec 1 (length (filter (fun d => negb (d_sat d) && negb (d_rar d) && dep_satisfaction_test is_emptyb q d (nrows0 q - 1)) (p_deps q)))) as [H|H]; cbn [fst st_prog ddg_update].
  - exact L.
  - destruct (drop_app pr H_SCALAR (fun _ => H_SCALAR) (fun s => const_row pr (f (stmt_of pr s))) (update_dep is_emptyb q (nrows0 q - 1)) W) as (D1 & D2 & D3 & D4).
    { intros d; apply update_same. }
    fold q in D1, D2, D3, D4. change (p_deps q) with (p_deps pr) in *. intros N. split.
    + intros E d' Hd Hr. rewrite D2 in E. rewrite D3 in Hd. apply in_map_iff in Hd as (d & <- & Hd).
      destruct (update_dep_keeps is_emptyb q (nrows0 q - 1) d) as (_ & _ & R & _). rewrite R in Hr. specialize (N E d Hd Hr).
      unfold update_dep. rewrite N. destruct (dep_satisfaction_test is_emptyb q d (nrows0 q - 1)) eqn:T; [|auto]. exfalso.
      match type of H with (length ?l < 1)%nat => assert (In d l) as X end.
      { apply filter_In. split; [auto|]. rewrite N, Hr, T. reflexivity. }
      destruct (filter _ _); [destruct X|simpl in H; lia].
    + eapply grow_map; [exact D3|]. intros d. apply update_dep_keeps.
Qed.
Lemma cut_between_later s i j : inv s -> later (st_prog s) (st_prog (fst (cut_between_sccs is_emptyb s i j))).
Proof. intros I. unfold cut_between_sccs. destruct (negb _); [apply later_refl|]. apply keep_later. apply I. Qed.
Lemma cut_all_later s : later (st_prog s) (st_prog (fst (cut_all_sccs is_emptyb s))).
Proof.
  unfold cut_all_sccs. destruct (st_num s =? 1)%nat; [apply later_refl|]. cbv zeta. destruct s as [pr a n m]. cbn [st_prog st_adj st_num st_max].
  rewrite scalar_level_app. match goal with |- context[dep_satisfaction_update _ ?q ?l] => pose proof (later_app is_emptyb pr H_SCALAR (fun _ => H_SCALAR) (fun s => const_row pr (s_scc (stmt_of pr s))) l) as L end.
  exact L.
Qed.
Lemma cut_dim_later s : inv s -> later (st_prog s) (st_prog (fst (cut_scc_dim_based is_emptyb s))).
Proof. intros I. unfold cut_scc_dim_based. destruct (_ =? _)%nat; [apply later_refl|]. apply keep_later. apply I. Qed.
Lemma cut_far_smart_later l : forall s, inv s -> later (st_prog s) (st_prog (cut_far_smart is_emptyb l s)).
Proof.
  induction l as [|[i j] l IH]; intros s I; cbn [cut_far_smart]; [apply later_refl|].
  destruct (_ <=? _)%nat; [|apply cut_all_later].
  destruct (sccs_direct_connected _ _ _); [|apply IH; auto].
  eapply later_trans; [apply cut_between_later; auto|]. apply IH. apply (cut_between_good LAZY is_emptyb EX); auto.
Qed.
Lemma cut_smart_later s : inv s -> later (st_prog s) (st_prog (cut_smart is_emptyb s)).
Proof.
  intros I. unfold cut_smart. destruct (_ =? _)%nat; [apply later_refl|].
  destruct (transformations_full_ranked _); [apply cut_all_later|].
  pose proof (cut_dim_good LAZY is_emptyb EX s I) as G1. pose proof (cut_dim_later s I) as X1. destruct (cut_scc_dim_based is_emptyb s) as [s1 k1]. cbn [fst] in G1, X1.
  destruct (1 <=? k1)%nat; [auto|].
  pose proof (cut_between_good LAZY is_emptyb EX s1 (half_up (st_num s1) - 1) (half_up (st_num s1)) (proj1 G1)) as G2.
  pose proof (cut_between_later s1 (half_up (st_num s1) - 1) (half_up (st_num s1)) (proj1 G1)) as X2.
  destruct (cut_between_sccs is_emptyb s1 _ _) as [s2 k2]. cbn [fst] in G2, X2.
  destruct (1 <=? k2)%nat; [eapply later_trans; eauto|].
  eapply later_trans; [exact X1|]. eapply later_trans; [exact X2|]. apply cut_far_smart_later. apply G2.
Qed.
Lemma cut_around_later scc js : forall s, inv s -> later (st_prog s) (st_prog (cut_around is_emptyb fuse scc js s)).
Proof.
  induction js as [|j l IH]; intros s I; cbn [cut_around]; [apply later_refl|].
  destruct (j =? scc)%nat; [apply IH; auto|].
  destruct ((j <? scc)%nat && _).
  - pose proof (cut_between_good LAZY is_emptyb EX s (Z.of_nat j) (Z.of_nat scc) I) as G. pose proof (cut_between_later s (Z.of_nat j) (Z.of_nat scc) I) as L.
    destruct fuse.
    + eapply later_trans; [apply cut_all_later|]. apply IH. apply (cut_all_good LAZY is_emptyb EX s I).
    + cbv zeta. destruct (find _ _); [|exact L]. eapply later_trans; [exact L|]. apply cut_between_later. apply G.
    + cbv zeta. destruct (find _ _); [|exact L]. eapply later_trans; [exact L|]. apply cut_between_later. apply G.
  - destruct (sccs_direct_connected s (Z.of_nat scc) (Z.of_nat j)); [|apply IH; auto].
    destruct fuse; [apply cut_all_later|apply cut_between_later; auto|apply cut_between_later; auto].
Qed.
Lemma cut_around_ext scc js : forall s, inv s -> ext s (cut_around is_emptyb fuse scc js s).
Proof.
  induction js as [|j l IH]; intros s I; cbn [cut_around]; [apply ext_refl|].
  destruct (j =? scc)%nat; [apply IH; auto|].
  destruct ((j <? scc)%nat && _).
  - pose proof (cut_between_good LAZY is_emptyb EX s (Z.of_nat j) (Z.of_nat scc) I) as G. pose proof (cut_between_ext is_emptyb s (Z.of_nat j) (Z.of_nat scc) I) as L.
    destruct fuse.
    + eapply ext_trans; [apply cut_all_ext|]. apply IH. apply (cut_all_good LAZY is_emptyb EX s I).
    + cbv zeta. destruct (find _ _); [|exact L]. eapply ext_trans; [exact L|]. apply cut_between_ext. apply G.
    + cbv zeta. destruct (find _ _); [|exact L]. eapply ext_trans; [exact L|]. apply cut_between_ext. apply G.
  - destruct (sccs_direct_connected s (Z.of_nat scc) (Z.of_nat j)); [|apply IH; auto].
    destruct fuse; [apply cut_all_ext|apply cut_between_ext; auto|apply cut_between_ext; auto].
Qed.
Lemma distribute_later i s : later (st_prog s) (st_prog (distribute is_emptyb i s)).
Proof.
  unfold distribute. cbv zeta. destruct s as [pr a n m]. cbn [st_prog st_adj st_num st_max]. rewrite scalar_level_app.
  match goal with |- context[dep_satisfaction_update _ ?q ?l] => exact (later_app is_emptyb pr H_SCALAR (fun _ => H_SCALAR) _ l) end.
Qed.
Lemma cut_before_later i s : inv s -> later (st_prog s) (st_prog (cut_before is_emptyb fuse i s)).
Proof.
  intros I. unfold cut_before. destruct fuse; [apply cut_all_later| |]; (destruct (find _ _); [apply cut_between_later; auto|apply later_refl]).
Qed.
Lemma lexlt_pos pr d s t p : wf_prog pr -> wf_dep pr d -> lexlt (timestamp (stmt_of pr (d_src d)) s p) (timestamp (stmt_of pr (d_dst d)) t p) ->
  exists k, (k < length (p_hprops pr))%nat /\ 0 < distance pr d k s t p.
Proof.
  intros W (D1 & D2 & _) H. pose proof (wf_nrows pr (d_src d) W D1) as N1. pose proof (wf_nrows pr (d_dst d) W D2) as N2.
  assert (forall a b, lexlt a b -> exists k, (k < length a)%nat /\ (k < length b)%nat /\ nth k a 0 < nth k b 0) as K.
  { induction a as [|x a IH]; intros [|y b] L; simpl in L; try tauto. destruct L as [L|[-> L]].
    - exists 0%nat. simpl. split; [lia|]. split; [lia|auto].
    - destruct (IH b L) as (k & A & B & C). exists (S k). simpl. split; [lia|]. split; [lia|auto]. }
  destruct (K _ _ H) as (k & A & _ & C). rewrite timestamp_length in A. exists k. split; [lia|].
  rewrite !timestamp_nth, N1, N2 in C. destruct (Nat.ltb_spec k (length (p_hprops pr))); [|lia]. unfold distance. lia.
Qed.
Lemma precise_later pr a n m : inv (mkState pr a n m) -> later pr (compute_dep_directions is_emptyb (compute_dep_satisfaction_precise is_emptyb pr)).
Proof.
  intros I. pose proof (i_wf _ _ I) as W. cbn [st_prog] in W. apply later_trans with (b := compute_dep_satisfaction_precise is_emptyb pr).
  - intros N. split.
    + intros E d' Hd _. cbn [compute_dep_satisfaction_precise set_deps p_deps p_hprops] in *. apply in_map_iff in Hd as (d & <- & Hd).
      unfold precise_dep. rewrite E. reflexivity.
    + intros d' Hd Hr. cbn [compute_dep_satisfaction_precise set_deps p_deps] in Hd. apply in_map_iff in Hd as (d & <- & Hd). exists d.
      destruct (precise_same is_emptyb pr d) as (A & B & C & _). split; [auto|]. split; [auto|]. split; [auto|]. rewrite C in Hr. split; [auto|].
      intros Hs. destruct (d_sat d) eqn:Sd; [exfalso|auto]. assert (wf_dep pr d) as WD by (apply W; auto).
      destruct (precise_dep_spec is_emptyb EX pr d W WD) as (_ & P & _). destruct (i_dep _ _ I d Hd Hr) as [O _]. cbn [st_prog] in O. specialize (O Sd). cbn [ord] in O.
      destruct (Nat.eq_dec (length (p_hprops pr)) 0) as [Z0|NZ].
      * apply length_zero_iff_nil in Z0. rewrite (N Z0 d Hd Hr) in Sd. discriminate.
      * destruct (P Hs ltac:(lia)) as (s & t & p & Inst & Neg). destruct (lexlt_pos pr d s t p W WD (O s t p Inst)) as (k & Hk & Pk). specialize (Neg k Hk). lia.
  - intros N. split.
    + intros E d' Hd Hr. unfold compute_dep_directions in Hd, E. cbn [set_deps p_deps p_hprops] in Hd, E. apply in_map_iff in Hd as (d & <- & Hd). cbn [d_sat d_rar] in *. apply N; auto.
    + unfold compute_dep_directions. eapply grow_map; [reflexivity|]. intros d. cbn. auto.
Qed.
End Later.

(** ** Components *)

Definition comps_ok (s : dstate) : Prop :=
  let pr := st_prog s in let n := length (p_stmts pr) in
  (forall u, (u < n)%nat -> nth (Z.to_nat (s_scc (stmt_of pr u))) (st_max s) 0 = Z.of_nat (s_dim_orig (stmt_of pr u))) /\
  (forall k, (k < st_num s)%nat -> exists u, (u < n)%nat /\ s_scc (stmt_of pr u) = Z.of_nat k) /\
  (forall d, In d (p_deps pr) -> d_rar d = false -> d_sat d = false -> s_scc (stmt_of pr (d_src d)) <= s_scc (stmt_of pr (d_dst d))) /\
  none_yet pr /\ even pr.

Lemma comps_ok_step s s' : wf_prog (st_prog s) -> frame (st_prog s) (st_prog s') -> ext s s' -> later (st_prog s) (st_prog s') -> comps_ok s -> comps_ok s'.
Proof.
  intros W F (N & _ & C & E1 & E2) L (A & B & D & NY & EV). destruct (L NY) as [NY' G]. pose proof F as (_ & _ & _ & S & _). unfold comps_ok. rewrite N, E1, E2.
  assert (forall u, s_dim_orig (stmt_of (st_prog s') u) = s_dim_orig (stmt_of (st_prog s) u)) as K by (intros u; apply S).
  split; [|split; [|split; [|split; [exact NY'|eapply even_frame; eauto]]]].
  - intros u Hu. rewrite K, C by auto. auto.
  - intros k Hk. destruct (B k Hk) as (u & Hu & X). exists u. rewrite C by auto. auto.
  - intros d' Hd Hr Hs. destruct (G d' Hd Hr) as (d & X1 & X2 & X3 & X4 & X5). rewrite X2, X3. destruct (proj2 W d X1) as (D1 & D2 & _). rewrite !C by auto. auto.
Qed.
Lemma comps_ok_fresh pr n m : wf_prog pr -> even pr -> none_yet pr -> comps_ok (fresh pr n m).
Proof.
  intros W EV NY. destruct (fresh_comp pr n m W) as (C1 & C2 & C3 & C4). destruct (fresh_prog pr n m) as (g & E).
  assert (length (p_stmts (st_prog (fresh pr n m))) = length (p_stmts pr)) as N by (rewrite E; apply with_scc_nstmts).
  assert (forall u, (u < length (p_stmts pr))%nat -> s_dim_orig (stmt_of (st_prog (fresh pr n m)) u) = s_dim_orig (stmt_of pr u)) as K.
  { intros u Hu. rewrite E, with_scc_stmt by auto. auto. }
  pose proof (with_scc_frame pr g) as F. rewrite <- E in F.
  unfold comps_ok. rewrite N. split; [|split; [|split; [|split]]].
  - intros u Hu. rewrite K by auto. pose proof (C1 u Hu) as Cu. unfold comp in *. destruct (C4 (Z.to_nat (s_scc (stmt_of (st_prog (fresh pr n m)) u)))) as [_ (w & Hw & X & ->)]; [lia|].
    f_equal. symmetry. rewrite Z2Nat.id in X by lia. symmetry in X. apply (C2 u w Hu Hw) in X as [P Q]. apply EV; auto using chain_depends.
  - intros k Hk. destruct (C4 k Hk) as [_ (u & Hu & X & _)]. exists u. auto.
  - intros d Hd Hr Hs. rewrite E in Hd. change (In d (p_deps pr)) in Hd. destruct (proj2 W d Hd) as (D1 & D2 & _). apply C3; auto. apply chain_step; auto. constructor.
  - rewrite E. exact NY.
  - eapply even_frame; eauto.
Qed.
Lemma comps_chain s u v : comps_ok s -> dep_chain (st_prog s) u v -> s_scc (stmt_of (st_prog s) u) <= s_scc (stmt_of (st_prog s) v).
Proof. intros (_ & _ & D & _) H. induction H as [u|d w Hd Hr Hs _ IH]; [lia|]. specialize (D d Hd Hr Hs). lia. Qed.

(** ** The vertices of a component *)

Lemma scc_offset_S s i : scc_offset s (S i) = (scc_offset s i + scc_dim s i)%nat.
Proof. unfold scc_offset. rewrite seq_S, map_app, fold_left_app. reflexivity. Qed.
Lemma scc_offset_le s i j : (i <= j)%nat -> (scc_offset s i <= scc_offset s j)%nat.
Proof. induction 1; [lia|]. rewrite scc_offset_S. lia. Qed.
Lemma vertex_lt s i j : (i < st_num s)%nat -> (j < scc_dim s i)%nat -> (scc_offset s i + j < scc_vertices s)%nat.
Proof. intros Hi Hj. unfold scc_vertices. pose proof (scc_offset_le s (S i) (st_num s) ltac:(lia)). rewrite scc_offset_S in *. lia. Qed.
Lemma scc_offset_ext s s' i : st_max s' = st_max s -> scc_offset s' i = scc_offset s i.
Proof. intros E. unfold scc_offset, scc_dim. rewrite E. auto. Qed.
Lemma scc_vertices_ext s s' : ext s s' -> scc_vertices s' = scc_vertices s.
Proof. intros (_ & _ & _ & E1 & E2). unfold scc_vertices. rewrite E1. apply scc_offset_ext. auto. Qed.

Lemma colours_length s (f : nat -> nat -> Z) n : length (flat_map (fun i => map (f i) (seq 0 (scc_dim s i))) (seq 0 n)) = scc_offset s n.
Proof.
  induction n as [|n IH]; [reflexivity|]. rewrite seq_S, flat_map_app, app_length, IH, scc_offset_S. cbn [flat_map]. rewrite app_nil_r, map_length, seq_length. auto.
Qed.
Lemma colours_nth s (f : nat -> nat -> Z) n i j : (i < n)%nat -> (j < scc_dim s i)%nat ->
  nth (scc_offset s i + j) (flat_map (fun i => map (f i) (seq 0 (scc_dim s i))) (seq 0 n)) 0 = f i j.
Proof.
  intros Hi Hj. induction n as [|n IH]; [lia|]. rewrite seq_S, flat_map_app. cbn [flat_map]. rewrite app_nil_r.
  destruct (Nat.eq_dec i n) as [->|N].
  - rewrite app_nth2; rewrite colours_length; [|simpl; lia]. replace (scc_offset s n + j - scc_offset s n)%nat with j by lia. simpl. rewrite nth_map_seq by auto. reflexivity.
  - rewrite app_nth1; [apply IH; lia|]. rewrite colours_length. pose proof (scc_offset_le s (S i) n ltac:(lia)) as X. rewrite scc_offset_S in X. lia.
Qed.

Lemma last_in {A} (l : list A) d : l <> [] -> In (last l d) l.
Proof. intros H. destruct (exists_last H) as (l' & a & ->). rewrite last_last. apply in_or_app. simpl. auto. Qed.
Lemma representative_in s i : comps_ok s -> (i < st_num s)%nat -> In (scc_representative s i) (scc_stmts s i).
Proof.
  intros (_ & B & _) Hi. unfold scc_representative. destruct (find _ _) as [u|] eqn:E; [apply find_some in E as [E _]; auto|].
  apply last_in. destruct (B i Hi) as (u & Hu & X). intros Y. assert (In u (scc_stmts s i)) as Z by (apply stmts_in; auto). rewrite Y in Z. destruct Z.
Qed.

(** ** The colours *)

(** The colour of loop [j] of statement [u]. *)
Definition colour_of (s : dstate) (col : list Z) (u j : nat) : Z := nth (scc_offset s (Z.to_nat (s_scc (stmt_of (st_prog s) u))) + j) col 0.
Definition levels (C : nat) (s : dstate) (col : list Z) : Prop :=
  let pr := st_prog s in
  forall u c, (u < length (p_stmts pr))%nat -> (1 <= c <= C)%nat -> (c <= s_dim_orig (stmt_of pr u))%nat ->
    (exists j, (j < s_dim_orig (stmt_of pr u))%nat /\ colour_of s col u j = Z.of_nat c) /\
    exists r, In r (mrows (s_trans (stmt_of pr u))) /\
      forall k, (k < p_nvar pr)%nat -> if (k <? s_dim_orig (stmt_of pr u))%nat && (colour_of s col u k =? Z.of_nat c) then 1 <= nth k r 0 else nth k r 0 = 0.

(** Only vertices without a colour get one. *)
Definition recolour (c : Z) (col col' : list Z) : Prop :=
  length col' = length col /\ forall v, nth v col' 0 = nth v col 0 \/ (nth v col' 0 = c /\ (nth v col 0 = c \/ nth v col 0 <= 0)).
Lemma recolour_refl c col : recolour c col col.
Proof. split; auto. Qed.
Lemma recolour_trans c a b d : recolour c a b -> recolour c b d -> recolour c a d.
Proof.
  intros [L1 H1] [L2 H2]. split; [congruence|]. intros v. destruct (H1 v) as [E1|[E1 F1]], (H2 v) as [E2|[E2 F2]]; rewrite E1 in *; rewrite ?E2; auto.
Qed.

Lemma levels_step C s s' col col' : frame (st_prog s) (st_prog s') -> ext s s' -> recolour (Z.of_nat (S C)) col col' -> levels C s col -> levels C s' col'.
Proof.
  intros F (N & R & Sc & En & Em) [_ T] H u c Hu Hc Hd. rewrite N in Hu. pose proof F as (Nv & _ & _ & Sm & _). destruct (Sm u) as (_ & Ed & _). rewrite Ed in Hd.
  destruct (H u c Hu Hc Hd) as [(j & Hj & Ej) (r & Hr & Rr)].
  assert (forall k, colour_of s' col' u k = Z.of_nat c <-> colour_of s col u k = Z.of_nat c) as K.
  { intros k. unfold colour_of. rewrite Sc by auto. rewrite (scc_offset_ext s s') by auto. set (v := (_ + k)%nat).
    destruct (T v) as [->|[E1 E2]]; [tauto|]. split; intros E; exfalso; lia. }
  split.
  - exists j. rewrite Ed. split; [auto|]. apply K. auto.
  - destruct (R u Hu) as [l El]. exists r. split; [rewrite El; apply in_or_app; auto|]. intros k Hk. rewrite Nv in Hk. specialize (Rr k Hk). rewrite Ed.
    destruct (Z.eqb_spec (colour_of s' col' u k) (Z.of_nat c)) as [E|E].
    + apply K in E. rewrite E, Z.eqb_refl in Rr. exact Rr.
    + destruct (Z.eqb_spec (colour_of s col u k) (Z.of_nat c)) as [E'|E']; [apply K in E'; contradiction|exact Rr].
Qed.

Definition kinv (C : nat) (k : kstate) : Prop :=
  inv LAZY (k_state k) /\ comps_ok (k_state k) /\ length (k_col k) = scc_vertices (k_state k) /\ levels C (k_state k) (k_col k).
Definition kstep (c : nat) (k k' : kstate) : Prop :=
  good LAZY (k_state k) (k_state k') /\ ext (k_state k) (k_state k') /\ later (st_prog (k_state k)) (st_prog (k_state k')) /\
  recolour (Z.of_nat c) (k_col k) (k_col k') /\ k_done k' = k_done k.
Lemma kstep_refl c k : inv LAZY (k_state k) -> kstep c k k.
Proof. intros I. split; [apply good_refl; auto|]. split; [apply ext_refl|]. split; [apply later_refl|]. split; [apply recolour_refl|auto]. Qed.
Lemma kstep_trans c a b d : kstep c a b -> kstep c b d -> kstep c a d.
Proof.
  intros (A1 & A2 & A3 & A4 & A5) (B1 & B2 & B3 & B4 & B5). split; [eapply good_trans; eauto|]. split; [eapply ext_trans; eauto|]. split; [eapply later_trans; eauto|].
  split; [eapply recolour_trans; eauto|congruence].
Qed.
Lemma kstep_inv C k k' : kstep (S C) k k' -> kinv C k -> kinv C k'.
Proof.
  intros (A1 & A2 & A3 & A4 & A5) (I & CO & L & LV). split; [apply A1|]. split; [eapply comps_ok_step; eauto; [apply I|apply A1]|].
  split; [rewrite (scc_vertices_ext _ _ A2), (proj1 A4); auto|]. eapply levels_step; eauto. apply A1.
Qed.

(** Component [i] has a vertex of colour [c], if it has as many loops. *)
Definition has_colour (c : nat) (s : dstate) (col : list Z) (i : nat) : Prop :=
  Z.of_nat c <= nth i (st_max s) 0 -> exists j, (j < scc_dim s i)%nat /\ nth (scc_offset s i + j) col 0 = Z.of_nat c.
Lemma has_colour_step c k k' i : kstep c k k' -> has_colour c (k_state k) (k_col k) i -> has_colour c (k_state k') (k_col k') i.
Proof.
  intros (_ & (_ & _ & _ & _ & Em) & _ & [_ T] & _) H D. rewrite Em in D. destruct (H D) as (j & Hj & Ej). exists j.
  unfold scc_dim. rewrite Em, (scc_offset_ext _ _ i Em). split; [exact Hj|]. destruct (T (scc_offset (k_state k) i + j)%nat) as [->|[-> _]]; auto.
Qed.

Section Steps.
Variables (is_emptyb : cst -> bool) (solve : prog -> cst -> option point).
Variables (build : dstate -> list Z -> nat -> fcg) (refresh : dstate -> fcg -> nat -> nat -> option fcg).
Variables (o : options) (fuse : fusion) (delayed_cut : bool).
Hypothesis EX : exact_empty is_emptyb.
Hypothesis SOL : solver_sound solve.
Local Notation inv := (inv LAZY).
Local Notation good := (good LAZY).

Lemma state_step c k s g b : good (k_state k) s -> ext (k_state k) s -> later (st_prog (k_state k)) (st_prog s) -> kstep c k (mkK s (k_col k) g b (k_done k)).
Proof. intros G X L. split; [exact G|]. split; [exact X|]. split; [exact L|]. split; [apply recolour_refl|reflexivity]. Qed.

Lemma colour_cluster_step c i k b k' : inv (k_state k) -> length (k_col k) = scc_vertices (k_state k) -> (1 <= c)%nat -> (i < st_num (k_state k))%nat ->
  colour_scc_cluster is_emptyb fuse delayed_cut c i k = (b, k') ->
  kstep c k k' /\ (b = true -> has_colour c (k_state k') (k_col k') i).
Proof.
  intros I L Hc Hi H. unfold colour_scc_cluster in H. cbv zeta in H. set (s := k_state k) in *.
  destruct (Z.ltb_spec (nth i (st_max s) 0) (Z.of_nat (c - 1))) as [A|A].
  { injection H as <- <-. split; [apply kstep_refl; auto|]. intros _ D. fold s in D. lia. }
  destruct (Z.eqb_spec (nth i (st_max s) 0) (Z.of_nat (c - 1))) as [B|B].
  { injection H as <- <-. set (s' := if delayed_cut then s else _). assert (good s s' /\ ext s s' /\ later (st_prog s) (st_prog s')) as (G & X & LT).
    { unfold s'. destruct delayed_cut; [split; [apply good_refl; auto|]; split; [apply ext_refl|apply later_refl]|].
      split; [apply cut_around_good; auto|]. split; [apply cut_around_ext; auto|apply cut_around_later; auto]. }
    split; [apply state_step; auto|]. intros _ D. cbn [k_state] in D. destruct X as (_ & _ & _ & _ & Em). rewrite Em in D. lia. }
  destruct (find _ _) as [j|] eqn:F; injection H as <- <-; [|split; [apply kstep_refl; auto|discriminate]].
  apply find_some in F as [Fj Fc]. apply in_seq in Fj. unfold colourable in Fc. apply andb_prop in Fc as [Fc _]. apply andb_prop in Fc as [Fc _].
  set (v := (scc_offset s i + j)%nat) in *.
  assert (v < length (k_col k))%nat as Hv by (rewrite L; apply vertex_lt; lia).
  assert (nth v (k_col k) 0 = Z.of_nat c \/ nth v (k_col k) 0 <= 0) as Fv.
  { destruct (Z.ltb_spec 0 (nth v (k_col k) 0)); [|right; lia]. destruct (Z.eqb_spec (nth v (k_col k) 0) (Z.of_nat c)); [auto|discriminate]. }
  split.
  - split; [apply good_refl; auto|]. split; [apply ext_refl|]. split; [apply later_refl|]. split; [|reflexivity]. cbn [k_col].
    split; [apply set_nth_length|]. intros w. destruct (Nat.eq_dec w v) as [->|N]; [right; rewrite nth_set_nth_eq by auto; auto|left; apply nth_set_nth_neq; auto].
  - intros _ _. cbn [k_state k_col]. exists j. split; [fold s; lia|]. fold s. fold v. apply nth_set_nth_eq. auto.
Qed.

Lemma distributed_step c i k k' : inv (k_state k) -> cluster_distributed is_emptyb refresh i k = Some k' -> kstep c k k'.
Proof.
  intros I H. unfold cluster_distributed in H. destruct (_ && _); [|injection H as <-; apply kstep_refl; auto].
  cbv zeta in H. destruct (update_graph _ _ _ _ _ _); [|discriminate]. injection H as <-.
  apply state_step; [apply distribute_good; auto|apply distribute_ext|apply distribute_later].
Qed.
Lemma retry_step c i k b k' : inv (k_state k) -> length (k_col k) = scc_vertices (k_state k) -> (1 <= c)%nat -> (i < st_num (k_state k))%nat ->
  cluster_retry is_emptyb refresh fuse delayed_cut c i k = Some (b, k') -> kstep c k k' /\ (b = true -> has_colour c (k_state k') (k_col k') i).
Proof.
  intros I L Hc Hi H. unfold cluster_retry in H. cbv zeta in H. pose proof (cut_before_good is_emptyb fuse EX i _ I) as G. pose proof (cut_before_ext is_emptyb fuse i _ I) as X.
  pose proof (cut_before_later is_emptyb fuse i _ I) as LT. set (s := cut_before _ _ _ _) in *.
  destruct (refreshed _ _ _ _ _) as [g|]; [|discriminate]. injection H as H. apply colour_cluster_step in H as [A B]; auto.
  - split; [|exact B]. eapply kstep_trans; [|exact A]. apply state_step; auto.
  - apply G.
  - cbn [k_col k_state]. rewrite (scc_vertices_ext _ _ X). auto.
  - cbn [k_state]. destruct X as (_ & _ & _ & -> & _). auto.
Qed.
Lemma precise_step c i k b k' : inv (k_state k) -> length (k_col k) = scc_vertices (k_state k) -> (1 <= c)%nat -> (i < st_num (k_state k))%nat ->
  cluster_precise is_emptyb build fuse delayed_cut c i k = (b, k') -> kstep c k k' /\ (b = true -> has_colour c (k_state k') (k_col k') i).
Proof.
  intros I L Hc Hi H. unfold cluster_precise in H. cbv zeta in H. destruct k as [[pr a n m] col g rb dn]. cbn [k_state k_col k_done st_prog st_adj st_num st_max] in *.
  pose proof (precise_good is_emptyb EX pr a n m I) as G. match type of G with good _ ?x => set (s1 := x) in * end.
  assert (ext (mkState pr a n m) s1) as X by (eapply ext_trans; [apply ext_flags with (a' := a)|apply ext_flags]).
  pose proof (precise_later is_emptyb EX pr a n m I) as LT.
  apply colour_cluster_step in H as [A B]; auto; [|apply G].
  split; [|exact B]. eapply kstep_trans; [|exact A]. apply (state_step c (mkK (mkState pr a n m) col g rb dn)); auto.
Qed.
Lemma before_rebuild_step c k : inv (k_state k) -> kstep c k (mkK (before_rebuild is_emptyb fuse (k_state k)) (k_col k) (k_fcg k) (k_rebuild k) (k_done k)).
Proof.
  intros I. apply state_step; [apply before_rebuild_good; auto| |]; unfold before_rebuild; destruct fuse; first [apply cut_all_ext|apply ext_refl|apply cut_all_later|apply later_refl].
Qed.

Lemma rebuild_ok C k : kinv C k -> let k' := rebuild_cluster build (S C) k in
  kinv C k' /\ forall i, (i < st_num (k_state k'))%nat -> nth i (k_done k') false = true -> has_colour (S C) (k_state k') (k_col k') i.
Proof.
  intros (I & CO & L & LV). cbv zeta. unfold rebuild_cluster. set (scol := stmt_colour (k_state k) (k_col k)).
  assert (compute_scc (ddg_update (k_state k)) = fresh (st_prog (k_state k)) (st_num (k_state k)) (st_max (k_state k))) as E by reflexivity. rewrite E. clear E.
  set (pr := st_prog (k_state k)) in *. set (s := fresh pr _ _). cbn [k_state k_col k_done].
  pose proof (i_wf _ _ I) as W. fold pr in W. pose proof CO as (CA & CB & CC & CD & CE). fold pr in CA, CC, CD, CE.
  assert (comps_ok s) as CO' by (apply comps_ok_fresh; auto).
  destruct (inv_compute_scc LAZY _ (inv_ddg_update LAZY _ I)) as [I' F]. change (compute_scc (ddg_update (k_state k))) with s in I', F. cbn [ddg_update st_prog] in F. fold pr in F.
  destruct (fresh_comp pr (st_num (k_state k)) (st_max (k_state k)) W) as (C1 & C2 & _ & _). fold s in C1, C2. unfold comp in C1, C2.
  destruct (fresh_prog pr (st_num (k_state k)) (st_max (k_state k))) as (g & Eg). fold s in Eg.
  assert (length (p_stmts (st_prog s)) = length (p_stmts pr)) as N by (rewrite Eg; apply with_scc_nstmts).
  assert (forall u, (u < length (p_stmts pr))%nat -> s_dim_orig (stmt_of (st_prog s) u) = s_dim_orig (stmt_of pr u)) as Kd by (intros u Hu; rewrite Eg, with_scc_stmt by auto; auto).
  pose proof CO' as (CA' & _).
  assert (forall i j, (i < st_num s)%nat -> (j < scc_dim s i)%nat -> nth (scc_offset s i + j) (scc_colours s scol) 0 = scol (scc_representative s i) j) as KN.
  { intros i j Hi Hj. unfold scc_colours. apply (colours_nth s (fun i => scol (scc_representative s i))); auto. }
  assert (forall u j, (u < length (p_stmts pr))%nat -> (j < s_dim_orig (stmt_of pr u))%nat -> colour_of s (scc_colours s scol) u j = colour_of (k_state k) (k_col k) u j) as KC.
  { intros u j Hu Hj. unfold colour_of at 1. pose proof (C1 u Hu) as Cu. set (i := Z.to_nat (s_scc (stmt_of (st_prog s) u))) in *.
    assert (i < st_num s)%nat as Hi by (unfold i; lia).
    assert (scc_dim s i = s_dim_orig (stmt_of pr u)) as Di by (unfold scc_dim, i; rewrite CA' by lia; rewrite Nat2Z.id; auto).
    rewrite KN by (auto; lia). pose proof (representative_in s i CO' Hi) as Rp. apply stmts_in in Rp as [R1 R2]. set (w := scc_representative s i) in *. rewrite N in R1.
    assert (s_scc (stmt_of (st_prog s) u) = s_scc (stmt_of (st_prog s) w)) as Es by (rewrite R2; unfold i; lia).
    apply (C2 u w Hu R1) in Es as [P Q].
    pose proof (comps_chain (k_state k) u w CO P) as L1. pose proof (comps_chain (k_state k) w u CO Q) as L2.
    assert (s_dim_orig (stmt_of pr w) = s_dim_orig (stmt_of pr u)) as Dw by (apply CE; auto using chain_depends).
    unfold scol, stmt_colour. fold pr. rewrite Dw. destruct (Nat.ltb_spec j (s_dim_orig (stmt_of pr u))); [|lia]. unfold colour_of. fold pr in L1, L2 |- *. do 3 f_equal. lia. }
  split; [split; [exact I'|]; split; [exact CO'|]; split|].
  - unfold scc_colours. apply colours_length.
  - unfold levels. cbn [k_state k_col]. intros u c Hu Hc Hd. rewrite N in Hu. rewrite Kd in Hd by auto. destruct (LV u c Hu Hc Hd) as [(j & Hj & Ej) (r & Hr & Rr)]. fold pr in Hj, Hr, Rr. rewrite Kd by auto. split.
    + exists j. rewrite KC; auto.
    + exists r. split; [rewrite Eg, with_scc_stmt by auto; exact Hr|]. intros q Hq. replace (p_nvar (st_prog s)) with (p_nvar pr) in Hq by (rewrite Eg; auto). specialize (Rr q Hq).
      destruct (Nat.ltb_spec q (s_dim_orig (stmt_of pr u))); [|exact Rr]. rewrite KC by auto. exact Rr.
  - intros i Hi Hdn _. unfold scc_coloured in Hdn. rewrite nth_map_seq in Hdn by auto.
    apply existsb_exists in Hdn as (j & Hj & Ej). apply in_seq in Hj. apply Z.eqb_eq in Ej. simpl in Ej, Hj. exists j. split; [lia|].
    rewrite KN by (auto; lia). exact Ej.
Qed.

Definition linv (C n i : nat) (k : kstate) : Prop :=
  kinv C k /\ n = st_num (k_state k) /\
  (forall i', (i' < n)%nat -> nth i' (k_done k) false = true -> has_colour (S C) (k_state k) (k_col k) i') /\
  (forall i', (i' < i)%nat -> has_colour (S C) (k_state k) (k_col k) i').
Lemma linv_step C n i k k' : linv C n i k -> kstep (S C) k k' -> linv C n i k'.
Proof.
  intros (K & N & A & B) S. split; [eapply kstep_inv; eauto|]. pose proof S as (_ & X & _ & _ & D). split; [destruct X as (_ & _ & _ & -> & _); auto|].
  split; [intros i' Hi' H; eapply has_colour_step; eauto; apply A; auto; congruence|]. intros i' Hi'. eapply has_colour_step; eauto.
Qed.
Lemma linv_next C n i k : linv C n i k -> has_colour (S C) (k_state k) (k_col k) i -> linv C n (S i) (mark_done i k).
Proof.
  intros (K & N & A & B) H. split; [exact K|]. split; [exact N|]. unfold mark_done. cbn [k_state k_col k_done]. split.
  - intros i' Hi' E. destruct (Nat.eq_dec i' i) as [->|Ne]; [exact H|]. rewrite nth_set_nth_neq in E by auto. auto.
  - intros i' Hi'. destruct (Nat.eq_dec i' i) as [->|Ne]; [exact H|]. apply B. lia.
Qed.

Lemma cluster_loop_ok C fuel : forall n i k k', linv C n i k ->
  cluster_loop is_emptyb build refresh fuse delayed_cut fuel (S C) n i k = KDone k' ->
  kinv C k' /\ forall i', (i' < st_num (k_state k'))%nat -> has_colour (S C) (k_state k') (k_col k') i'.
Proof.
  induction fuel as [|f IH]; intros n i k k' LI H; cbn [cluster_loop] in H; [discriminate|].
  destruct (Nat.leb_spec n i) as [Hn|Hn].
  { injection H as <-. destruct LI as (K & N & _ & B). split; [exact K|]. intros i' Hi'. apply B. lia. }
  destruct (_ || _) eqn:ED.
  { apply IH in H; [exact H|]. pose proof LI as (K & N & A & B). split; [exact K|]. split; [exact N|]. split; [exact A|]. intros i' Hi'.
    destruct (Nat.eq_dec i' i) as [->|Ne]; [|apply B; lia]. apply orb_prop in ED as [E|E]; [apply A; auto|]. intros D. apply Z.ltb_lt in E. lia. }
  assert (forall k1, linv C n i k1 -> inv (k_state k1) /\ length (k_col k1) = scc_vertices (k_state k1) /\ (i < st_num (k_state k1))%nat) as FACT.
  { intros k1 ((I & _ & L & _) & N & _). split; [exact I|]. split; [exact L|]. lia. }
  destruct (cluster_distributed _ _ i k) as [k1|] eqn:E1; [|discriminate]. apply (distributed_step (S C)) in E1; [|apply FACT; auto].
  apply (linv_step _ _ _ _ _ LI) in E1. clear k LI ED. rename E1 into LI. destruct (FACT _ LI) as (I1 & L1 & Hi1).
  destruct (colour_scc_cluster _ _ _ (S C) i k1) as [b k2] eqn:E2. apply colour_cluster_step in E2 as [S2 B2]; auto; [|lia].
  apply (linv_step _ _ _ _ _ LI) in S2. clear k1 LI I1 L1 Hi1. destruct (FACT _ S2) as (I2 & L2 & Hi2). destruct b.
  { apply IH in H; [exact H|]. apply linv_next; auto. }
  destruct (k_rebuild k2 || (i =? 0)%nat).
  - cbv zeta in H. fold (before_rebuild is_emptyb fuse (k_state k2)) in H. pose proof (before_rebuild_step (S C) k2 I2) as S3. set (ks := mkK _ _ _ _ _) in *.
    destruct (rebuild_ok C ks) as [K4 D4]; [eapply kstep_inv; [exact S3|apply S2]|]. apply IH in H; [exact H|].
    split; [exact K4|]. split; [reflexivity|]. split; [exact D4|]. intros i' Hi'. lia.
  - destruct (cluster_retry _ _ _ _ (S C) i k2) as [[b k3]|] eqn:E3; [|discriminate]. apply retry_step in E3 as [S3 B3]; auto; [|lia].
    apply (linv_step _ _ _ _ _ S2) in S3. destruct b; [apply IH in H; [exact H|]; apply linv_next; auto|].
    destruct (FACT _ S3) as (I3 & L3 & Hi3).
    destruct (cluster_precise _ _ _ _ (S C) i k3) as [[|] k4] eqn:E4; [|discriminate]. apply precise_step in E4 as [S4 B4]; auto; [|lia].
    apply (linv_step _ _ _ _ _ S3) in S4. apply IH in H; [exact H|]. apply linv_next; auto.
Qed.

Lemma cluster_level_ok C fuel k k' : kinv C k -> cluster_level is_emptyb solve build refresh o fuse delayed_cut fuel (S C) k = KDone k' -> kinv (S C) k'.
Proof.
  intros K H. unfold cluster_level in H. cbv zeta in H. destruct (cluster_loop _ _ _ _ _ _ _ _ _ _) as [k1| |] eqn:E1; [|discriminate|discriminate].
  apply cluster_loop_ok in E1 as [(I1 & CO1 & L1 & LV1) HC].
  2:{ split; [exact K|]. split; [reflexivity|]. split; [|intros i' Hi'; lia]. cbn [k_done]. intros i' Hi' E. exfalso. revert E. cbn [k_state] in *.
      rewrite nth_repeat. discriminate. }
  destruct (cluster_shift _ _ _ _ _ _) as [k2|] eqn:E2; [|discriminate]. apply cluster_shift_spec in E2 as (s1 & sol & Gs & Es & S2 & G2 & Ec2 & Mc & Zs); auto.
  injection H as <-.
  assert (ext (k_state k1) s1 /\ later (st_prog (k_state k1)) (st_prog s1)) as [Xs Ls].
  { destruct Es as [->| ->]; [split; [apply ext_refl|apply later_refl]|split; [apply cut_smart_ext; auto|apply cut_smart_later; auto]]. }
  rewrite S2 in *. cbn [st_prog st_adj st_num st_max] in *. rewrite hyperplane_app in *. set (q0 := app_level _ _ _ _) in *.
  set (q := fst (dep_satisfaction_update is_emptyb q0 (nrows0 q0 - 1))) in *.
  assert (nrows0 q0 - 1 < length (p_hprops q0))%nat as HL by (apply last_level_lt; apply Gs).
  destruct (inv_update LAZY is_emptyb EX q0 _ _ _ _ (proj1 G2) HL) as [I3 F3]. fold q in I3, F3.
  set (s2 := mkState q (st_adj s1) (st_num s1) (st_max s1)) in *.
  assert (frame (st_prog (k_state k1)) q) as Fq by (eapply frame_trans; [apply Gs|]; eapply frame_trans; [apply G2|exact F3]).
  assert (ext (k_state k1) s2) as Xq.
  { eapply ext_trans; [exact Xs|]. unfold s2. destruct s1 as [pr1 a1 n1 m1]. apply ext_app. }
  assert (later (st_prog (k_state k1)) q) as Lq by (eapply later_trans; [exact Ls|apply later_app]).
  assert (comps_ok s2) as CO2 by (apply (comps_ok_step (k_state k1)); auto; apply I1).
  unfold kinv. cbn [k_state k_col]. rewrite Ec2. split; [exact I3|]. split; [exact CO2|]. split; [change (length (k_col k1) = scc_vertices s2); rewrite (scc_vertices_ext _ _ Xq); auto|].
  change (levels (S C) s2 (k_col k1)).
  assert (levels C s2 (k_col k1)) as LV2 by (eapply levels_step; [exact Fq|exact Xq|apply recolour_refl|exact LV1]).
  intros u c Hu Hc Hd. destruct (Nat.eq_dec c (S C)) as [->|Nc]; [|apply LV2; auto; lia].
  pose proof Xq as (Nq & Rq & Sq & Eqn & Eqm). pose proof Fq as (Vq & Pq & _ & Smq & _). destruct (Smq u) as (_ & Ed & _). cbn [s2 st_prog] in Nq, Sq, Hu, Hd |- *. rewrite Nq in Hu. rewrite Ed in Hd |- *.
  set (s := k_state k1) in *. pose proof CO1 as (CA & CB & _). pose proof (i_scc _ _ I1 u Hu) as Si. unfold scc_of in Si. set (i := Z.to_nat (s_scc (stmt_of (st_prog s) u))) in *.
  assert (nth i (st_max s) 0 = Z.of_nat (s_dim_orig (stmt_of (st_prog s) u))) as Mi by (apply CA; auto).
  assert (scc_dim s i = s_dim_orig (stmt_of (st_prog s) u)) as Di by (unfold scc_dim; rewrite Mi; apply Nat2Z.id).
  assert (forall k0, colour_of s2 (k_col k1) u k0 = nth (scc_offset s i + k0) (k_col k1) 0) as KC.
  { intros k0. unfold colour_of. cbn [s2 st_prog]. rewrite Sq by auto. rewrite (scc_offset_ext s s2) by auto. reflexivity. }
  split.
  - destruct (HC i) as (j & Hj & Ej); [unfold i; lia|lia|]. exists j. split; [lia|]. rewrite KC. exact Ej.
  - assert (u < length (p_stmts (st_prog s1)))%nat as Hus by (destruct Xs as (-> & _); auto).
    exists (hyp_row (st_prog s1) sol u). split.
    + change (stmt_of q u) with (stmt_of q0 u). unfold q0. rewrite app_level_stmt by auto. rewrite append_row_rows. apply in_or_app. simpl. auto.
    + intros k0 Hk. rewrite Vq in Hk. rewrite KC.
      assert (nth k0 (hyp_row (st_prog s1) sol u) 0 = hcoef (st_prog s) sol u k0) as ->.
      { destruct Gs as [_ (V1 & P1 & _)]. fold s in V1, P1. unfold hyp_row, hcoef, stmt_offset. rewrite V1, P1. rewrite app_nth1 by (rewrite map_length, seq_length; auto). rewrite nth_map_seq by auto. f_equal. }
      destruct (i_orig _ _ I1 _ (stmt_of_in _ u Hu)) as [O1 O2]. fold s in O1, O2.
      assert (forall b, nth k0 (s_orig (stmt_of (st_prog s) u)) b = (k0 <? s_dim_orig (stmt_of (st_prog s) u))%nat) as Em.
      { intros b. rewrite O2. destruct (Nat.ltb_spec k0 (s_dim_orig (stmt_of (st_prog s) u))).
        - rewrite app_nth1 by (rewrite repeat_length; auto). rewrite (nth_indep _ b true) by (rewrite repeat_length; auto). apply nth_repeat.
        - rewrite app_nth2 by (rewrite repeat_length; auto). rewrite (nth_indep _ b false) by (rewrite !repeat_length; lia). apply nth_repeat. }
      destruct (bounding_wf o (st_prog s)) as [B1 B2].
      destruct (cluster_constraints_spec s (k_col k1) (S C) _ B1 B2) as (_ & _ & SP).
      apply SP in Mc as [_ CR].
      2:{ intros j Hj. destruct (CB j Hj) as (w & Hw & Ew). unfold scc_dim. replace (nth j (st_max s) 0) with (Z.of_nat (s_dim_orig (stmt_of (st_prog s) w))) by (rewrite <- CA by auto; rewrite Ew, Nat2Z.id; auto).
          rewrite Nat2Z.id. apply (i_orig _ _ I1 _ (stmt_of_in _ w Hw)). }
      destruct (Nat.ltb_spec k0 (s_dim_orig (stmt_of (st_prog s) u))) as [Lk|Lk]; cbn [andb].
      * specialize (CR i ltac:(apply in_seq; unfold i; lia) u ltac:(apply stmts_in; split; [exact Hu|unfold i; lia]) k0 ltac:(apply in_seq; lia)).
        unfold cluster_rule in CR. rewrite Em in CR. destruct (Nat.ltb_spec k0 (s_dim_orig (stmt_of (st_prog s) u))); [|lia].
        destruct (Z.ltb_spec (nth i (st_max s) 0) (Z.of_nat (S C))); [lia|]. rewrite andb_true_r in CR. exact CR.
      * assert (hcoef (st_prog s) sol u k0 = 0) as ->; [|reflexivity].
        destruct Gs as [_ (V1 & P1 & _ & Sm1 & _)]. fold s in V1, P1, Sm1. specialize (Zs u k0 Hus). rewrite V1, P1 in Zs. specialize (Zs Hk).
        destruct (Sm1 u) as (_ & _ & O & _). rewrite O in Zs. rewrite Em in Zs. destruct (Nat.ltb_spec k0 (s_dim_orig (stmt_of (st_prog s) u))); [lia|].
        unfold hcoef, stmt_offset. apply Zs. reflexivity.
Qed.

Lemma cluster_levels_ok fuel l : forall C k k', kinv C k -> cluster_levels is_emptyb solve build refresh o fuse delayed_cut fuel (seq (S C) l) k = KDone k' -> kinv (C + l) k'.
Proof.
  induction l as [|l IH]; intros C k k' K H; cbn [seq cluster_levels] in H.
  { injection H as <-. rewrite Nat.add_0_r. auto. }
  destruct (cluster_level _ _ _ _ _ _ _ _ _ _) as [k1| |] eqn:E; [|discriminate|discriminate]. apply cluster_level_ok in E; auto.
  apply IH in H; auto. rewrite Nat.add_succ_r. exact H.
Qed.
End Steps.

(** ** The start *)

Lemma comps_ok_again a b adj n m n' m' : length (p_stmts b) = length (p_stmts a) -> (forall u, s_dim_orig (stmt_of b u) = s_dim_orig (stmt_of a u)) ->
  wf_prog b -> none_yet b -> even b ->
  (forall d', In d' (p_deps b) -> d_rar d' = false -> exists d, In d (p_deps a) /\ d_src d' = d_src d /\ d_dst d' = d_dst d /\ d_rar d = false /\ (d_sat d' = false -> d_sat d = false)) ->
  comps_ok (compute_scc (mkState a adj n m)) -> comps_ok (compute_scc (mkState b adj n' m')).
Proof.
  intros L D W NY EV G. unfold compute_scc. cbn [st_prog st_adj]. rewrite L.
  assert (map s_dim_orig (p_stmts b) = map s_dim_orig (p_stmts a)) as ->.
  { apply (list_ext_nth 0%nat); [rewrite !map_length; auto|]. intros k _. change 0%nat with (s_dim_orig dummy_stmt). rewrite !List.map_nth. apply D. }
  destruct (GraphModel.ddg_compute_scc _ _ _ _) as [scc num]. fold (with_scc a (fun i => nth i scc 0)).
  replace (set_stmts b _) with (with_scc b (fun i => nth i scc 0)) by (unfold with_scc; rewrite L; reflexivity).
  intros (A & B & C & _). unfold comps_ok in *. cbn [st_prog st_num st_max] in *. rewrite with_scc_nstmts in *. rewrite L.
  assert (forall u, (u < length (p_stmts a))%nat -> s_dim_orig (stmt_of (with_scc b (fun i => nth i scc 0)) u) = s_dim_orig (stmt_of (with_scc a (fun i => nth i scc 0)) u)) as Kd.
  { intros u Hu. rewrite !with_scc_stmt by lia. apply D. }
  assert (forall u, (u < length (p_stmts a))%nat -> s_scc (stmt_of (with_scc b (fun i => nth i scc 0)) u) = s_scc (stmt_of (with_scc a (fun i => nth i scc 0)) u)) as Ks.
  { intros u Hu. rewrite !with_scc_stmt by lia. reflexivity. }
  split; [|split; [|split; [|split]]].
  - intros u Hu. rewrite Kd, Ks by auto. auto.
  - intros k Hk. destruct (B k Hk) as (u & Hu & X). exists u. rewrite Ks by auto. auto.
  - intros d' Hd Hr Hs. change (In d' (p_deps b)) in Hd. destruct (G d' Hd Hr) as (d & X1 & X2 & X3 & X4 & X5). destruct (proj2 W d' Hd) as (D1 & D2 & _).
    rewrite !Ks by lia. rewrite X2, X3. apply C; auto.
  - exact NY.
  - eapply even_frame; [apply with_scc_frame|auto].
Qed.

Lemma start_comps pr : input_ok pr -> even pr ->
  comps_ok (start_state pr) /\ comps_ok (compute_scc (start_state pr)).
Proof.
  intros IN EV. pose proof (start_inv pr IN) as [I AG].
  set (pr0 := set_hprops (clear_schedules pr) []).
  pose proof (clear_frame pr) as F0. pose proof IN as [[W1 W2] Hi].
  assert (frame pr pr0) as F0' by (destruct F0 as (A & B & C & D & E); repeat split; auto; apply D).
  assert (wf_prog pr0) as W0.
  { split; [|exact (frame_deps_wf _ _ F0' W2)]. intros st Hst. change (In st (p_stmts (clear_schedules pr))) in Hst.
    apply in_stmt_of in Hst as (s & Hs & <-). rewrite clear_n in Hs. rewrite clear_stmt by auto.
    destruct (W1 _ (stmt_of_in pr s Hs)) as (A & B & C & D & G & K). unfold wf_stmt. cbn [set_hyp set_trans s_orig s_dim s_trans s_hyp s_domain s_reads s_writes mncols mnrows mrows].
    change (p_npar pr0) with (p_npar pr). split; [exact A|]. split; [auto|]. split; [intros r []|]. split; [reflexivity|]. split; [reflexivity|]. auto. }
  assert (forall d, In d (p_deps (clear_schedules pr)) -> d_sat d = false) as NS.
  { intros d Hd. cbn [clear_schedules p_deps] in Hd. apply in_map_iff in Hd as (d0 & <- & _). reflexivity. }
  assert (comps_ok (fresh pr0 0 [])) as OK.
  { apply comps_ok_fresh; auto; [eapply even_frame; eauto|]. intros _ d Hd _. apply NS. exact Hd. }
  assert (comps_ok (compute_scc (mkState (clear_schedules pr) (graph_of (clear_schedules pr)) 0 []))) as OK1.
  { unfold fresh, compute_scc in *. cbn [st_prog st_adj] in *. change (p_stmts pr0) with (p_stmts (clear_schedules pr)) in OK.
    change (graph_of pr0) with (graph_of (clear_schedules pr)) in OK.
    destruct (GraphModel.ddg_compute_scc _ _ _ _) as [scc num]. destruct OK as (A & B & C & D & E). split; [exact A|]. split; [exact B|]. split; [exact C|]. split; [|eapply even_frame; [exact (frame_trans _ _ _ F0 (with_scc_frame _ _))|exact EV]].
    intros _ d Hd _. apply NS. exact Hd. }
  assert (even (st_prog (start_state pr))) as EV1.
  { intros u v Hu Hv A B. rewrite (ag_n _ _ AG) in Hu, Hv. pose proof (ag_dim0 _ _ AG u) as E1. pose proof (ag_dim0 _ _ AG v) as E2. unfold dim0 in E1, E2. rewrite E1, E2.
    apply EV; auto; apply (agree_depends _ _ _ _ AG); auto. }
  pose proof I as I0. revert I EV1 AG. unfold start_state. cbv zeta. set (s0 := compute_scc _) in *. intros I EV1 AG. cbn [st_prog] in EV1, AG.
  destruct (compute_scc_prog (mkState (clear_schedules pr) (graph_of (clear_schedules pr)) 0 [])) as (f & Ef). cbn [st_prog] in Ef.
  change (st_prog s0 = with_scc (clear_schedules pr) f) in Ef.
  destruct (clear_cleared pr f IN) as [CL SI]. rewrite <- Ef in CL, SI.
  destruct (normalize_ok (st_prog s0) CL SI) as [[P1 P2 P3 P4] P5]. set (z := normalize_domains (st_prog s0)) in *.
  assert (forall u, s_dim_orig (stmt_of (set_hprops z []) u) = s_dim_orig (stmt_of (st_prog s0) u)) as Kd by (intros u; apply (ag_dim0 _ _ P2 u)).
  assert (forall u, s_scc (stmt_of (set_hprops z []) u) = s_scc (stmt_of (st_prog s0) u)) as Ks by (intros u; apply (P3 u)).
  assert (forall d', In d' (p_deps z) -> exists d, In d (p_deps (st_prog s0)) /\ d_src d' = d_src d /\ d_dst d' = d_dst d /\ d_rar d' = d_rar d /\ d_sat d' = d_sat d) as KD.
  { intros d' Hd'. pose proof (ag_dep _ _ P2) as A. unfold sat_kept in P4. clear - A P4 Hd'. revert A P4 Hd'. generalize (p_deps (st_prog s0)) (p_deps z). intros l l' A. induction A as [|d d1 l l' H A IH]; intros B Hd; [destruct Hd|].
    inversion B as [|? ? ? ? B1 B2]; subst. destruct Hd as [<-|Hd]; [|destruct (IH B2 Hd) as (e & X & Y); exists e; split; [right; auto|auto]].
    exists d. split; [left; auto|]. destruct H as (X1 & X2 & X3 & _). auto. }
  assert (forall d, In d (p_deps (st_prog s0)) -> d_sat d = false) as NS0 by (intros d Hd; rewrite Ef in Hd; apply NS; exact Hd).
  assert (none_yet (set_hprops z [])) as NZ.
  { intros _ d' Hd' _. destruct (KD d' Hd') as (d & X1 & _ & _ & _ & X5). rewrite X5. apply NS0. auto. }
  destruct OK1 as (A & B & C & D & E) eqn:EOK. clear EOK.
  split.
  - unfold comps_ok. cbn [st_prog st_num st_max]. change (p_stmts (set_hprops z [])) with (p_stmts z). rewrite (ag_n _ _ P2). split; [|split; [|split; [|split]]].
    + intros u Hu. rewrite Kd, Ks. auto.
    + intros k Hk. destruct (B k Hk) as (u & Hu & X). exists u. rewrite Ks. auto.
    + intros d' Hd' Hr _. destruct (KD d' Hd') as (d & X1 & X2 & X3 & X4 & X5). rewrite !Ks, X2, X3. apply C; auto. congruence.
    + exact NZ.
    + exact EV1.
  - assert (st_adj s0 = graph_of (clear_schedules pr)) as -> by (unfold s0, compute_scc; cbn [st_prog st_adj]; destruct (GraphModel.ddg_compute_scc _ _ _ _); reflexivity).
    eapply comps_ok_again; [| | |exact NZ|exact EV1| |exact OK1].
    + change (length (p_stmts z) = length (p_stmts (clear_schedules pr))). rewrite (ag_n _ _ P2), Ef. apply with_scc_nstmts.
    + intros u. rewrite Kd, Ef. destruct (with_scc_frame (clear_schedules pr) f) as (_ & _ & _ & S & _). apply S.
    + apply (i_wf _ _ I).
    + intros d' Hd' Hr. destruct (KD d' Hd') as (d & X1 & X2 & X3 & X4 & X5). exists d. rewrite Ef in X1. split; [exact X1|]. split; [auto|]. split; [auto|]. split; [congruence|]. congruence.
Qed.

Section Search.
Variables (is_emptyb : cst -> bool) (solve : prog -> cst -> option point).
Variables (build : dstate -> list Z -> nat -> fcg) (refresh : dstate -> fcg -> nat -> nat -> option fcg).
Variables (o : options) (fuse : fusion) (delayed_cut : bool).
Hypothesis EX : exact_empty is_emptyb.
Hypothesis SOL : solver_sound solve.

Lemma cluster_search_one_to_one fuel pr k : input_ok pr -> even pr -> inv LAZY (start_state pr) ->
  cluster_search is_emptyb solve build refresh o fuse delayed_cut fuel (start_state pr) = KDone k ->
  forall j, (j < length (p_stmts (st_prog (k_state k))))%nat -> one_to_one (st_prog (k_state k)) (stmt_of (st_prog (k_state k)) j).
Proof.
  intros IN EV I H j Hj. destruct (start_comps pr IN EV) as [OK OK0].
  unfold cluster_search in H. cbv zeta in H. set (s1 := match fuse with NoFuse => _ | _ => _ end) in H.
  assert (inv LAZY s1 /\ comps_ok s1) as [I1 OK1].
  { unfold s1. destruct fuse; auto. destruct (inv_compute_scc LAZY _ I) as [Ic Fc].
    pose proof (cut_all_good LAZY is_emptyb EX _ Ic) as [Ia Fa]. split; [exact Ia|].
    eapply comps_ok_step; [apply Ic|exact Fa|apply cut_all_ext|apply cut_all_later|exact OK0]. }
  clearbody s1. pose proof H as H0. apply (cluster_levels_ok is_emptyb solve build refresh o fuse delayed_cut EX SOL fuel _ 0) in H.
  - destruct H as (I' & _ & _ & LV). apply cluster_levels_good in H0 as [_ F]; auto. cbn [k_state] in F.
    apply rows_one_to_one with (f := colour_of (k_state k) (k_col k) j); [apply I'|apply I'|apply I'|auto|].
    intros c Hc. apply LV; auto; [|lia]. destruct F as (<- & _). destruct (i_orig _ _ I' _ (stmt_of_in _ j Hj)) as [O _]. lia.
  - split; [exact I1|]. split; [exact OK1|]. cbn [k_col k_state]. split; [apply repeat_length|]. intros u c _ Hc. lia.
Qed.

Lemma cluster_success fuel pr pr' : input_ok pr -> p_stmts pr <> [] ->
  cluster_transform is_emptyb solve build refresh o fuse delayed_cut fuel pr = Transformed pr' false ->
  same_program pr pr' /\
  (forall s i p, (s < length (p_stmts pr))%nat -> length i = s_dim (stmt_of pr s) -> length p = p_npar pr ->
     length (timestamp (stmt_of pr' s) i p) = length (p_hprops pr')) /\
  (forall d, In d (p_deps pr) -> d_rar d = false -> forall s t p, instance pr d s t p ->
     lexlt (timestamp (stmt_of pr' (d_src d)) s p) (timestamp (stmt_of pr' (d_dst d)) t p) \/
     (timestamp (stmt_of pr' (d_src d)) s p = timestamp (stmt_of pr' (d_dst d)) t p /\ depends pr (d_dst d) (d_src d))) /\
  (even pr -> forall s i j p, (s < length (p_stmts pr))%nat -> length i = s_dim (stmt_of pr s) -> length j = s_dim (stmt_of pr s) -> length p = p_npar pr ->
     timestamp (stmt_of pr' s) i p = timestamp (stmt_of pr' s) j p -> i = j).
Proof.
  intros IN NE H. unfold cluster_transform in H. change (dfp_start pr) with (start_state pr) in H.
  destruct (start_inv pr IN) as [I0 A0]. apply inv_lazy in I0.
  destruct (cluster_search _ _ _ _ _ _ _ _ _) as [k| |] eqn:ES; [|discriminate|discriminate].
  pose proof (cluster_search_good is_emptyb solve build refresh o fuse delayed_cut EX SOL fuel _ _ I0 ES) as [I1 F1].
  destruct (introduce_skew _ _ _ _) as [[pr1 b]|] eqn:EK; [|discriminate]. injection H as E1 E2. subst b.
  destruct (search_tail is_emptyb solve o EX pr _ pr1 pr' IN NE I1 F1 EK E1) as (A & B & C & D). split; [exact A|]. split; [exact B|]. split; [exact C|].
  intros EV. apply D. eapply cluster_search_one_to_one; eauto.
Qed.
End Search.
