(** * Proofs about typed fusion: the edges that prevent parallelism. *)
From Coq Require Import ZArith QArith List Bool Arith Lia Lqa.
From Verif Require Import SpecLinear VecProofs MathModel ConstraintsModel SpecProg SpecDriver SpecGraph SpecDfp SpecFcg SpecTyped GraphModel GraphProofs GraphProofs2
  FrameworkModel ProgModel DriverModel HypProofs PadProofs AutoProofs DfpModel DfpProofs2 FcgModel FcgProofs FcgProofs2 FcgProofs3 ClusterModel TypedModel TypedProofs2 ProgProofs SumProofs.
Import ListNotations.
Open Scope Z_scope.

(** ** Steps that only add edges *)
Section Grow.
Variable n : nat.
Definition grows (f : fcg -> fcg) : Prop := forall g, wf_graph n g -> wf_graph n (f g) /\ forall v w, adj g v w = 1 -> adj (f g) v w = 1.
Lemma grows_id : grows (fun g => g).
Proof. intros g W. auto. Qed.
Lemma grows_comp f h : grows f -> grows h -> grows (fun g => h (f g)).
Proof. intros F H g W. destruct (F g W) as [W1 A1]. destruct (H _ W1) as [W2 A2]. auto. Qed.
Lemma grows_set i j : (i < n)%nat -> (j < n)%nat -> grows (fun g => set_adj g i j 1).
Proof. intros Hi Hj g W. split; [apply set_adj_wf; auto|]. intros v w A. rewrite (set_adj_get n) by auto. destruct (_ && _); auto. Qed.
Lemma grows_if (b : fcg -> bool) f h : grows f -> grows h -> grows (fun g => if b g then f g else h g).
Proof. intros F H g W. destruct (b g); auto. Qed.
Lemma grows_fold {X} (f : fcg -> X -> fcg) l : (forall x, In x l -> grows (fun g => f g x)) -> grows (fun g => fold_left f l g).
Proof.
  induction l as [|x l IH]; intros H; [apply grows_id|]. cbn [fold_left].
  apply (grows_comp (fun g => f g x) (fun g => fold_left f l g)); [apply H; left; auto|]. apply IH. intros y Hy. apply H. right; auto.
Qed.
(** An edge added at one step is there at the end. *)
Lemma grows_hit {X} (f : fcg -> X -> fcg) l x v w : (forall y, In y l -> grows (fun g => f g y)) -> In x l ->
  (forall g, wf_graph n g -> adj (f g x) v w = 1) -> forall g, wf_graph n g -> adj (fold_left f l g) v w = 1.
Proof.
  induction l as [|y l IH]; intros H Hx E g W; [destruct Hx|]. cbn [fold_left].
  destruct (H y (or_introl eq_refl) g W) as [W1 A1]. destruct Hx as [->|Hx].
  - destruct (grows_fold f l (fun z Hz => H z (or_intror Hz)) _ W1) as [_ A2]. apply A2. auto.
  - apply IH; auto. intros z Hz. apply H. right; auto.
Qed.
End Grow.

Lemma offset_lt s a i : (a < st_num s)%nat -> (i < scc_dim s a)%nat -> (scc_offset s a + i < scc_vertices s)%nat.
Proof. intros Ha Hi. apply (dims_lt s a); auto. apply in_dims. lia. Qed.

Section Edges.
Variables (lp : prog -> cst -> option bool) (o : options) (hybridcut : bool).
Variable s : dstate.
Let n := scc_vertices s.

(** ** The conflict graph *)
Section Conflicts.
Variable feasible : cst -> bool.
Lemma permute_grows col c : grows n (cluster_permute_edges feasible o s col c).
Proof.
  apply (grows_fold n (fun g i => _)). intros i Hi. apply in_seq in Hi. destruct (scc_deps o (st_prog s) (fun z => z =? Z.of_nat i)); [apply grows_id|].
  apply (grows_fold n (fun g j => _)). intros j Hj. apply in_seq in Hj. cbv zeta.
  apply (grows_if n (fun _ => _)); [apply grows_id|]. apply (grows_if n (fun _ => _)); [apply grows_id|]. apply grows_set; apply offset_lt; lia.
Qed.
Lemma pair_grows col c a b : (a < st_num s)%nat -> (b < st_num s)%nat -> grows n (cluster_pair_edges feasible o s col c a b).
Proof.
  intros Ha Hb. apply (grows_fold n (fun g i => _)). intros i Hi. apply in_seq in Hi. apply (grows_if n (fun _ => _)); [apply grows_id|].
  apply (grows_if n (fun g => adj g _ _ =? 1)).
  - apply (grows_fold n (fun g j => _)). intros j Hj. apply in_seq in Hj. apply grows_set; apply offset_lt; lia.
  - apply (grows_fold n (fun g j => _)). intros j Hj. apply in_seq in Hj. apply (grows_if n (fun _ => _)); [apply grows_id|].
    apply (grows_if n (fun g => adj g _ _ =? 1)); [apply grows_set; apply offset_lt; lia|]. apply (grows_if n (fun _ => _)); [apply grows_id|]. apply grows_set; apply offset_lt; lia.
Qed.
Lemma inter_grows col c : grows n (cluster_inter_edges feasible o s col c).
Proof.
  apply (grows_fold n (fun g a => _)). intros a Ha. apply in_seq in Ha. apply (grows_fold n (fun g b => _)). intros b Hb. apply in_seq in Hb.
  apply (grows_if n (fun _ => _)); [|apply grows_id]. apply pair_grows; lia.
Qed.
Lemma intra_grows : grows n (cluster_intra_edges s).
Proof.
  apply (grows_fold n (fun g i => _)). intros i Hi. apply in_seq in Hi. apply (grows_fold n (fun g j => _)). intros j Hj. apply in_seq in Hj.
  apply (grows_fold n (fun g k => _)). intros k Hk. apply in_seq in Hk.
  apply (grows_comp n (fun g => set_adj g _ _ 1) (fun g => set_adj g _ _ 1)); apply grows_set; apply offset_lt; lia.
Qed.
Lemma distribute_grows : grows n (cluster_distribute_edges s).
Proof.
  apply (grows_fold n (fun g a => _)). intros a Ha. apply in_seq in Ha. apply (grows_fold n (fun g b => _)). intros b Hb. apply in_seq in Hb.
  apply (grows_if n (fun _ => _)); [|apply grows_id]. apply (grows_fold n (fun g k => _)). intros k Hk. apply in_seq in Hk.
  apply (grows_fold n (fun g l => _)). intros l Hl. apply in_seq in Hl. apply grows_set; apply offset_lt; lia.
Qed.
Lemma uncoloured col c v : nth v col 0 = 0 -> coloured col c v = false.
Proof. intros E. unfold coloured. rewrite E. reflexivity. Qed.

(** Two dimensions of connected SCCs without an edge have a solution. *)
Lemma no_conflict_pair col c a i b j : (a < b < st_num s)%nat -> (i < scc_dim s a)%nat -> (j < scc_dim s b)%nat -> scc_edge s a b = true ->
  nth (scc_offset s a + i) col 0 = 0 -> nth (scc_offset s b + j) col 0 = 0 ->
  adj (build_cluster_fcg feasible o s col c) (scc_offset s a + i) (scc_offset s b + j) <> 1 -> feasible (pair_cst o s a i b j) = true.
Proof.
  intros Hab Hi Hj E C1 C2 N. destruct (feasible (pair_cst o s a i b j)) eqn:F; [auto|exfalso]. apply N. clear N. unfold build_cluster_fcg. cbv zeta. fold n.
  assert (wf_graph n (repeat (repeat 0 n) n)) as W0 by apply wf_zero.
  destruct (permute_grows col c _ W0) as [W1 _]. destruct (inter_grows col c _ W1) as [W2 _]. destruct (intra_grows _ W2) as [W3 A3].
  assert (adj (cluster_inter_edges feasible o s col c (cluster_permute_edges feasible o s col c (repeat (repeat 0 n) n))) (scc_offset s a + i) (scc_offset s b + j) = 1) as K.
  { unfold cluster_inter_edges. apply (grows_hit n _ _ a); [| |intros g W|exact W1].
    - intros y Hy. apply in_seq in Hy. apply (grows_fold n (fun g b => _)). intros z Hz. apply in_seq in Hz. apply (grows_if n (fun _ => _)); [|apply grows_id]. apply pair_grows; lia.
    - apply in_seq. lia.
    - apply (grows_hit n _ _ b); [| |intros g' W'|exact W].
      + intros z Hz. apply in_seq in Hz. apply (grows_if n (fun _ => _)); [|apply grows_id]. apply pair_grows; lia.
      + apply in_seq. lia.
      + unfold scc_edge in E. rewrite E. unfold cluster_pair_edges. cbv zeta. apply (grows_hit n _ _ i); [| |intros g2 W2'|exact W'].
        * intros y Hy. apply in_seq in Hy. apply (grows_if n (fun _ => _)); [apply grows_id|].
          apply (grows_if n (fun g => adj g _ _ =? 1)).
          -- apply (grows_fold n (fun g j => _)). intros z Hz. apply in_seq in Hz. apply grows_set; apply offset_lt; lia.
          -- apply (grows_fold n (fun g j => _)). intros z Hz. apply in_seq in Hz. apply (grows_if n (fun _ => _)); [apply grows_id|].
             apply (grows_if n (fun g => adj g _ _ =? 1)); [apply grows_set; apply offset_lt; lia|]. apply (grows_if n (fun _ => _)); [apply grows_id|]. apply grows_set; apply offset_lt; lia.
        * apply in_seq. lia.
        * rewrite (uncoloured col c _ C1). destruct (adj g2 _ _ =? 1).
          -- apply (grows_hit n _ _ j); [|apply in_seq; lia| |auto].
             ++ intros z Hz. apply in_seq in Hz. apply grows_set; apply offset_lt; lia.
             ++ intros g3 W3'. rewrite (set_adj_get n) by (auto; apply offset_lt; lia). rewrite !Nat.eqb_refl. reflexivity.
          -- apply (grows_hit n _ _ j); [|apply in_seq; lia| |auto].
             ++ intros z Hz. apply in_seq in Hz. apply (grows_if n (fun _ => _)); [apply grows_id|].
                apply (grows_if n (fun g => adj g _ _ =? 1)); [apply grows_set; apply offset_lt; lia|]. apply (grows_if n (fun _ => _)); [apply grows_id|]. apply grows_set; apply offset_lt; lia.
             ++ intros g3 W3'. rewrite (uncoloured col c _ C2). fold (pair_cst o s a i b j). rewrite F.
                assert (adj (set_adj g3 (scc_offset s a + i) (scc_offset s b + j) 1) (scc_offset s a + i) (scc_offset s b + j) = 1) as K.
                { rewrite (set_adj_get n) by (auto; apply offset_lt; lia). rewrite !Nat.eqb_refl. reflexivity. }
                destruct (adj g3 _ _ =? 1); exact K. }
  specialize (A3 _ _ K). destruct (c =? 1)%nat; [|exact A3]. destruct (distribute_grows _ W3) as [_ A4]. apply A4, A3.
Qed.
Lemma no_conflict_self col c i j : (i < st_num s)%nat -> (j < scc_dim s i)%nat -> scc_has_deps o s i = true -> nth (scc_offset s i + j) col 0 = 0 ->
  adj (build_cluster_fcg feasible o s col c) (scc_offset s i + j) (scc_offset s i + j) <> 1 -> feasible (self_cst o s i j) = true.
Proof.
  intros Hi Hj D C1 N. destruct (feasible (self_cst o s i j)) eqn:F; [auto|exfalso]. apply N. clear N. unfold build_cluster_fcg. cbv zeta. fold n.
  assert (wf_graph n (repeat (repeat 0 n) n)) as W0 by apply wf_zero.
  destruct (permute_grows col c _ W0) as [W1 _]. destruct (inter_grows col c _ W1) as [W2 A2]. destruct (intra_grows _ W2) as [W3 A3].
  assert (adj (cluster_permute_edges feasible o s col c (repeat (repeat 0 n) n)) (scc_offset s i + j) (scc_offset s i + j) = 1) as K.
  { unfold cluster_permute_edges. cbv zeta. apply (grows_hit n _ _ i); [|apply in_seq; lia|intros g W|exact W0].
    - intros y Hy. apply in_seq in Hy. destruct (scc_deps o (st_prog s) (fun z => z =? Z.of_nat y)); [apply grows_id|].
      apply (grows_fold n (fun g j => _)). intros z Hz. apply in_seq in Hz. apply (grows_if n (fun _ => _)); [apply grows_id|]. apply (grows_if n (fun _ => _)); [apply grows_id|]. apply grows_set; apply offset_lt; lia.
    - unfold scc_has_deps in D. destruct (scc_deps o (st_prog s) (fun z => z =? Z.of_nat i)) as [|d0 l0]; [discriminate|].
      apply (grows_hit n _ _ j); [|apply in_seq; lia|intros g' W'|exact W].
      + intros z Hz. apply in_seq in Hz. apply (grows_if n (fun _ => _)); [apply grows_id|]. apply (grows_if n (fun _ => _)); [apply grows_id|]. apply grows_set; apply offset_lt; lia.
      + rewrite (uncoloured col c _ C1). unfold self_cst in F. cbv zeta in F. rewrite F. rewrite (set_adj_get n) by (auto; apply offset_lt; lia). rewrite !Nat.eqb_refl. reflexivity. }
  specialize (A3 _ _ (A2 _ _ K)). destruct (c =? 1)%nat; [|exact A3]. destruct (distribute_grows _ W3) as [_ A4]. apply A4, A3.
Qed.
End Conflicts.

(** ** The other matrix *)
Lemma par_self_grows col c : grows n (par_self_edges lp o s col c).
Proof.
  apply (grows_fold n (fun g i => _)). intros i Hi. apply in_seq in Hi. apply (grows_fold n (fun g j => _)). intros j Hj. apply in_seq in Hj.
  apply (grows_if n (fun _ => _)); [|apply grows_id]. apply grows_set; apply offset_lt; lia.
Qed.
Lemma par_pair_grows col c g a b : (a < st_num s)%nat -> (b < st_num s)%nat -> grows n (par_pair_edges lp o s col c g a b).
Proof.
  intros Ha Hb. apply (grows_fold n (fun q i => _)). intros i Hi. apply in_seq in Hi. apply (grows_fold n (fun q j => _)). intros j Hj. apply in_seq in Hj.
  apply (grows_if n (fun _ => _)); [|apply grows_id]. apply grows_set; apply offset_lt; lia.
Qed.
Lemma par_self_edge col c i j : (i < st_num s)%nat -> (j < scc_dim s i)%nat -> scc_has_deps o s i = true -> nth (scc_offset s i + j) col 0 = 0 ->
  lp_feasible lp (st_prog s) (self_cst o s i j) = true -> lp_parallel lp (st_prog s) (self_cst o s i j) = false ->
  forall g, wf_graph n g -> adj (par_self_edges lp o s col c g) (scc_offset s i + j) (scc_offset s i + j) = 1.
Proof.
  intros Hi Hj D C1 F P g0 W0. unfold par_self_edges. apply (grows_hit n _ _ i); [|apply in_seq; lia|intros g W|exact W0].
  - intros y Hy. apply in_seq in Hy. apply (grows_fold n (fun g j => _)). intros z Hz. apply in_seq in Hz.
    apply (grows_if n (fun _ => _)); [|apply grows_id]. apply grows_set; apply offset_lt; lia.
  - apply (grows_hit n _ _ j); [|apply in_seq; lia|intros g' W'|exact W].
    + intros z Hz. apply in_seq in Hz. apply (grows_if n (fun _ => _)); [|apply grows_id]. apply grows_set; apply offset_lt; lia.
    + cbv zeta. rewrite D, (uncoloured col c _ C1), F, P. cbn [negb andb]. rewrite (set_adj_get n) by (auto; apply offset_lt; lia). rewrite !Nat.eqb_refl. reflexivity.
Qed.
Lemma par_pair_edge col c g a i b j : (a < st_num s)%nat -> (b < st_num s)%nat -> (i < scc_dim s a)%nat -> (j < scc_dim s b)%nat ->
  nth (scc_offset s a + i) col 0 = 0 -> nth (scc_offset s b + j) col 0 = 0 ->
  adj g (scc_offset s a + i) (scc_offset s a + i) <> 1 -> adj g (scc_offset s b + j) (scc_offset s b + j) <> 1 ->
  lp_feasible lp (st_prog s) (pair_cst o s a i b j) = true -> lp_parallel lp (st_prog s) (pair_cst o s a i b j) = false ->
  forall q, wf_graph n q -> adj (par_pair_edges lp o s col c g a b q) (scc_offset s a + i) (scc_offset s b + j) = 1.
Proof.
  intros Ha Hb Hi Hj C1 C2 G1 G2 F P q0 W0. unfold par_pair_edges. apply (grows_hit n _ _ i); [|apply in_seq; lia|intros q W|exact W0].
  - intros y Hy. apply in_seq in Hy. apply (grows_fold n (fun g j => _)). intros z Hz. apply in_seq in Hz.
    apply (grows_if n (fun _ => _)); [|apply grows_id]. apply grows_set; apply offset_lt; lia.
  - apply (grows_hit n _ _ j); [|apply in_seq; lia|intros q' W'|exact W].
    + intros z Hz. apply in_seq in Hz. apply (grows_if n (fun _ => _)); [|apply grows_id]. apply grows_set; apply offset_lt; lia.
    + cbv zeta. rewrite (uncoloured col c _ C1), (uncoloured col c _ C2), F, P, (proj2 (Z.eqb_neq _ 1) G1), (proj2 (Z.eqb_neq _ 1) G2). cbn [negb andb].
      rewrite (set_adj_get n) by (auto; apply offset_lt; lia). rewrite !Nat.eqb_refl. reflexivity.
Qed.
Lemma par_inter_step par hyp sten col c g l : (forall ab, In ab l -> (fst ab < st_num s)%nat /\ (snd ab < st_num s)%nat) -> forall st, wf_graph n (snd st) ->
  let r := fold_left (fun st ab => if scc_edge s (fst ab) (snd ab) then
        let check := fst st || wants_check hybridcut par hyp sten (fst ab) (snd ab) in
        (check, if check then par_pair_edges lp o s col c g (fst ab) (snd ab) (snd st) else snd st) else st) l st in
  wf_graph n (snd r) /\ forall v w, adj (snd st) v w = 1 -> adj (snd r) v w = 1.
Proof.
  induction l as [|ab l IH]; intros Hl st W; cbv zeta; cbn [fold_left]; [auto|].
  match goal with |- context [fold_left _ l ?x] => set (st1 := x) end.
  assert (wf_graph n (snd st1) /\ forall v w, adj (snd st) v w = 1 -> adj (snd st1) v w = 1) as [W1 A1].
  { unfold st1. destruct (scc_edge s (fst ab) (snd ab)); [|auto]. cbv zeta. cbn [snd]. destruct (_ || _); [|auto].
    destruct (Hl ab (or_introl eq_refl)). apply par_pair_grows; auto. }
  destruct (IH (fun x Hx => Hl x (or_intror Hx)) st1 W1) as [W2 A2]. split; [exact W2|]. intros v w A. apply A2, A1, A.
Qed.
Lemma par_inter_hit par hyp sten col c g a i b j : (i < scc_dim s a)%nat -> (j < scc_dim s b)%nat -> scc_edge s a b = true -> wants_check hybridcut par hyp sten a b = true ->
  nth (scc_offset s a + i) col 0 = 0 -> nth (scc_offset s b + j) col 0 = 0 ->
  adj g (scc_offset s a + i) (scc_offset s a + i) <> 1 -> adj g (scc_offset s b + j) (scc_offset s b + j) <> 1 ->
  lp_feasible lp (st_prog s) (pair_cst o s a i b j) = true -> lp_parallel lp (st_prog s) (pair_cst o s a i b j) = false ->
  forall l, (forall ab, In ab l -> (fst ab < st_num s)%nat /\ (snd ab < st_num s)%nat) -> In (a, b) l -> forall st, wf_graph n (snd st) ->
  adj (snd (fold_left (fun st ab => if scc_edge s (fst ab) (snd ab) then
        let check := fst st || wants_check hybridcut par hyp sten (fst ab) (snd ab) in
        (check, if check then par_pair_edges lp o s col c g (fst ab) (snd ab) (snd st) else snd st) else st) l st)) (scc_offset s a + i) (scc_offset s b + j) = 1.
Proof.
  intros Hi Hj E WC C1 C2 G1 G2 F P. induction l as [|ab l IH]; intros Hl Hin st W; [destruct Hin|]. cbn [fold_left]. destruct Hin as [->|Hin].
  - cbn [fst snd]. rewrite E. cbv zeta. rewrite WC, orb_true_r. destruct (Hl (a, b) (or_introl eq_refl)) as [La Lb]. cbn [fst snd] in La, Lb.
    set (q1 := par_pair_edges lp o s col c g a b (snd st)). assert (wf_graph n q1) as W1 by (apply par_pair_grows; auto).
    destruct (par_inter_step par hyp sten col c g l (fun x Hx => Hl x (or_intror Hx)) (true, q1) W1) as [_ A]. apply A. cbn [snd]. apply par_pair_edge; auto.
  - apply IH; auto; [intros x Hx; apply Hl; right; auto|]. destruct (scc_edge s (fst ab) (snd ab)); [|auto]. cbv zeta. cbn [snd]. destruct (_ || _); [|auto].
    destruct (Hl ab (or_introl eq_refl)). apply par_pair_grows; auto.
Qed.

Lemma pairs_lt : forall ab, In ab (flat_map (fun a => map (fun b => (a, b)) (seq (S a) (st_num s - S a))) (seq 0 (st_num s))) -> (fst ab < st_num s)%nat /\ (snd ab < st_num s)%nat.
Proof. intros ab H. apply in_flat_map in H as (x & Hx & H). apply in_map_iff in H as (y & <- & Hy). apply in_seq in Hx. apply in_seq in Hy. cbn [fst snd]. lia. Qed.
(** Without an edge in the two matrices, there is a solution with zero distances. *)
Lemma no_edge_pair hyp sten col c a i b j g q par : build_typed lp o hybridcut s hyp sten col c = (g, q, par) ->
  (a < b < st_num s)%nat -> (i < scc_dim s a)%nat -> (j < scc_dim s b)%nat -> scc_edge s a b = true -> wants_check hybridcut par hyp sten a b = true ->
  nth (scc_offset s a + i) col 0 = 0 -> nth (scc_offset s b + j) col 0 = 0 ->
  adj g (scc_offset s a + i) (scc_offset s a + i) <> 1 -> adj g (scc_offset s b + j) (scc_offset s b + j) <> 1 ->
  adj g (scc_offset s a + i) (scc_offset s b + j) <> 1 -> adj q (scc_offset s a + i) (scc_offset s b + j) <> 1 ->
  lp_parallel lp (st_prog s) (pair_cst o s a i b j) = true.
Proof.
  intros B Hab Hi Hj E WC C1 C2 G1 G2 G Q. unfold build_typed in B. injection B as B1 B2 B3.
  destruct (lp_parallel lp (st_prog s) (pair_cst o s a i b j)) eqn:P; [auto|exfalso]. apply Q. rewrite <- B2, B1, B3. unfold par_inter_edges.
  apply par_inter_hit; auto.
  - rewrite <- B1 in G. eapply no_conflict_pair; eauto.
  - intros ab H. apply in_flat_map in H as (x & Hx & H). apply in_map_iff in H as (y & <- & Hy). apply in_seq in Hx. apply in_seq in Hy. cbn [fst snd]. lia.
  - apply in_flat_map. exists a. split; [apply in_seq; lia|]. apply in_map_iff. exists b. split; [auto|]. apply in_seq. lia.
  - cbn [snd]. apply par_self_grows. apply wf_zero.
Qed.
Lemma no_edge_self hyp sten col c i j g q par : build_typed lp o hybridcut s hyp sten col c = (g, q, par) ->
  (i < st_num s)%nat -> (j < scc_dim s i)%nat -> scc_has_deps o s i = true -> nth (scc_offset s i + j) col 0 = 0 ->
  adj g (scc_offset s i + j) (scc_offset s i + j) <> 1 -> adj q (scc_offset s i + j) (scc_offset s i + j) <> 1 ->
  lp_parallel lp (st_prog s) (self_cst o s i j) = true.
Proof.
  intros B Hi Hj D C1 G Q. unfold build_typed in B. injection B as B1 B2 B3.
  destruct (lp_parallel lp (st_prog s) (self_cst o s i j)) eqn:P; [auto|exfalso]. apply Q. rewrite <- B2. unfold par_inter_edges.
  match goal with |- adj (snd (fold_left _ ?l ?st)) _ _ = 1 => destruct (par_inter_step (map (scc_is_parallel lp o s col c) (seq 0 (st_num s))) hyp sten col c (build_cluster_fcg (lp_feasible lp (st_prog s)) o s col c) l ltac:(apply pairs_lt) st ltac:(apply par_self_grows, wf_zero)) as [_ A] end.
  apply A. cbn [snd]. apply par_self_edge; auto; [|apply wf_zero]. rewrite <- B1 in G. eapply no_conflict_self; eauto.
Qed.
End Edges.

(** ** What a solution stands for *)
Section Systems.
Variables (o : options) (s : dstate).
Let pr := st_prog s.
Hypothesis W : wf_prog pr.
Hypothesis PD : padded pr.
Hypothesis OF : orig_first pr.
Hypothesis NE : forall d, In d (p_deps pr) -> (exists x, qmem (d_poly d) x) /\ (exists x, qmem (d_bpoly d) x).

Lemma filter_all {X} (f : X -> bool) l : (forall x, In x l -> f x = true) -> filter f l = l.
Proof. induction l as [|x l IH]; intros H; cbn; [auto|]. rewrite (H x (or_introl eq_refl)), IH; [auto|]. intros y Hy. apply H. right; auto. Qed.
Lemma in_scc_stmts i u : In u (scc_stmts s i) <-> (u < length (p_stmts pr))%nat /\ s_scc (stmt_of pr u) = Z.of_nat i.
Proof. unfold scc_stmts. rewrite filter_In, in_seq, Z.eqb_eq. fold pr. split; intros [A B]; split; auto; lia. Qed.
Lemma in_scc_deps f d : In d (scc_deps o pr f) <-> In d (p_deps pr) /\ (d_rar d = true -> o_rar o = true) /\ d_sat d = false /\
  f (s_scc (stmt_of pr (d_src d))) = true /\ f (s_scc (stmt_of pr (d_dst d))) = true.
Proof.
  unfold scc_deps. rewrite filter_In, !andb_true_iff, !negb_true_iff. split.
  - intros (A & ((B & C) & D) & E). repeat (split; [assumption|]). split; [|auto]. intros R. rewrite R in B. destruct (o_rar o); auto.
  - intros (A & B & C & D & E). repeat split; auto. destruct (d_rar d); [rewrite B by auto|]; destruct (o_rar o); auto.
Qed.
Lemma dep_stmts d : In d (p_deps pr) -> (d_src d < length (p_stmts pr))%nat /\ (d_dst d < length (p_stmts pr))%nat.
Proof. intros H. destruct W as (_ & W2). apply W2 in H. unfold wf_dep in H. tauto. Qed.
Lemma inter_conflict ones free deps x : qmem (inter_cst o pr ones free deps) x <-> qmem (conflict_cst o pr ones free deps) x.
Proof.
  unfold qmem, inter_cst, conflict_cst. cbn [ncols rows]. split; intros [L H]; split; auto; intros r Hr; apply H; rewrite !in_app_iff in *; tauto.
Qed.
Lemma inter_wf ones free L : wf_cst (inter_cst o pr ones free (flat_map (fun d => rows (dep_cst o pr d)) L)).
Proof.
  pose proof (conflict_wf o pr ones free L) as H. unfold wf_cst, inter_cst, conflict_cst in *. cbn [ncols rows] in *. destruct H as [H0 H]. split; [auto|]. intros r Hr. apply H. rewrite !in_app_iff in *. tauto.
Qed.

Lemma self_system i j : (forall u, In u (scc_stmts s i) -> is_loop pr u j) ->
  self_cst o s i j = conflict_cst o pr (map (fun u => coef_col pr u j) (scc_stmts s i)) [] (flat_map (fun d => rows (dep_cst o pr d)) (scc_deps o pr (fun z => z =? Z.of_nat i))).
Proof.
  intros H. unfold self_cst. fold pr. cbv zeta. rewrite filter_all; [reflexivity|]. intros u Hu. apply H in Hu as [H1 H2].
  destruct (OF (stmt_of pr u)) as [_ E]; [apply stmt_of_in; auto|]. rewrite E, app_nth1 by (rewrite repeat_length; auto). clear - H2. revert j H2. induction (s_dim_orig (stmt_of pr u)) as [|m IH]; intros [|j] L; cbn; auto; try lia. apply IH. lia.
Qed.
Definition loop_of (a i j u : nat) : nat := if s_scc (stmt_of pr u) =? Z.of_nat a then i else j.
Lemma pair_system a i b j : a <> b -> (forall u, In u (scc_stmts s a) -> is_loop pr u i) -> (forall u, In u (scc_stmts s b) -> is_loop pr u j) ->
  pair_cst o s a i b j = inter_cst o pr (map (fun u => coef_col pr u (loop_of a i j u)) (scc_stmts s a ++ scc_stmts s b))
    (map (fun u => coef_col pr u (p_nvar pr)) (scc_stmts s a ++ scc_stmts s b))
    (flat_map (fun d => rows (dep_cst o pr d)) (scc_deps o pr (fun z => (z =? Z.of_nat a) || (z =? Z.of_nat b)))).
Proof.
  intros N H1 H2. unfold pair_cst, with_bound. fold pr. cbv zeta. rewrite !filter_all.
  - unfold scc_rows. f_equal. rewrite map_app. f_equal; apply map_ext_in; intros u Hu; apply in_scc_stmts in Hu as [_ E]; unfold loop_of; rewrite E.
    + rewrite Z.eqb_refl. reflexivity.
    + rewrite (proj2 (Z.eqb_neq _ _)) by lia. reflexivity.
  - intros u Hu. apply H2 in Hu as [_ L]. apply Nat.leb_le. lia.
  - intros u Hu. apply H1 in Hu as [_ L]. apply Nat.leb_le. lia.
Qed.

Lemma qqdot_zero : forall u p : qpoint, (forall v, In v u -> (v == 0)%Q) -> (qqdot u p == 0)%Q.
Proof.
  induction u as [|a u IH]; intros [|b p] H; cbn; try reflexivity. rewrite (H a (or_introl eq_refl)), IH; [ring|]. intros v Hv. apply H. right; auto.
Qed.
Lemma zero_same d f g u w : o_nodepbound o = false -> d_rar d = false -> ordered o pr d f g u w -> (forall v, In v u -> (v == 0)%Q) -> (w == 0)%Q -> in_step pr d f g.
Proof.
  intros B R [H1 H2] U Z s1 t p Ls Lt Lp M1 M2. specialize (H1 R s1 t p Ls Lt Lp M1). specialize (H2 B s1 t p Ls Lt Lp M2). rewrite (qqdot_zero u p U), Z in H2. lra.
Qed.
Lemma first_zero (x : qpoint) n : (forall i, (i <= n)%nat -> (nth i x 0 == 0)%Q) -> forall v, In v (firstn n x) -> (v == 0)%Q.
Proof.
  intros H v Hv. apply (In_nth _ _ 0%Q) in Hv as (i & Hi & <-). rewrite firstn_length in Hi. rewrite nth_firstn_lt by lia. apply H. lia.
Qed.

(** The two systems with a solution where the bound of the distances is zero. *)
Lemma self_zero i j x : o_nodepbound o = false -> (forall u, In u (scc_stmts s i) -> is_loop pr u j) ->
  qmem (self_cst o s i j) x -> (forall k, (k <= p_npar pr)%nat -> (nth k x 0 == 0)%Q) ->
  exists a : nat -> Q, (forall u, In u (scc_stmts s i) -> (1 <= a u)%Q /\ within o pr (a u)) /\
    forall d, In d (p_deps pr) -> d_sat d = false -> d_rar d = false -> s_scc (stmt_of pr (d_src d)) = Z.of_nat i -> s_scc (stmt_of pr (d_dst d)) = Z.of_nat i ->
      in_step pr d (line (a (d_src d)) 0 j) (line (a (d_dst d)) 0 j).
Proof.
  intros NB AL M Z. rewrite self_system in M by auto.
  assert (forall d, In d (scc_deps o pr (fun z => z =? Z.of_nat i)) -> In d (p_deps pr) /\ In (d_src d) (scc_stmts s i) /\ In (d_dst d) (scc_stmts s i)) as HL.
  { intros d Hd. apply in_scc_deps in Hd as (D & _ & _ & A & B). apply Z.eqb_eq in A. apply Z.eqb_eq in B. destruct (dep_stmts d D). split; [auto|]. split; apply in_scc_stmts; auto. }
  pose proof (lp_at o pr W PD OF (scc_stmts s i) (fun _ => j) false (scc_deps o pr (fun z => z =? Z.of_nat i)) AL HL x M) as (A & _ & D).
  exists (fun u => nth (coef_col pr u j) x 0%Q). split; [intros u Hu; destruct (A u Hu) as (A1 & A2 & _); auto|].
  intros d Hd S R E1 E2. assert (In d (scc_deps o pr (fun z => z =? Z.of_nat i))) as K.
  { apply in_scc_deps. rewrite E1, E2, Z.eqb_refl. repeat (split; [solve [auto|congruence]|]). auto. }
  specialize (D d K). pose proof (zero_same d _ _ _ _ NB R D (first_zero x _ Z) (Z _ (le_n _))) as Y. destruct (HL d K) as (_ & K1 & K2).
  destruct (A _ K1) as (_ & _ & _ & _ & C1). destruct (A _ K2) as (_ & _ & _ & _ & C2). intros s1 t p Ls Lt Lp M1 M2. specialize (Y s1 t p Ls Lt Lp M1 M2).
  unfold line in *. cbv beta in *. rewrite (C1 eq_refl), (C2 eq_refl) in Y. exact Y.
Qed.
Lemma pair_zero a i b j x : o_nodepbound o = false -> a <> b -> (forall u, In u (scc_stmts s a) -> is_loop pr u i) -> (forall u, In u (scc_stmts s b) -> is_loop pr u j) ->
  qmem (pair_cst o s a i b j) x -> (forall k, (k <= p_npar pr)%nat -> (nth k x 0 == 0)%Q) ->
  exists m c : nat -> Q, (forall u, In u (scc_stmts s a) \/ In u (scc_stmts s b) -> (1 <= m u)%Q /\ within o pr (m u) /\ (0 <= c u)%Q /\ within o pr (c u)) /\
    forall d, In d (p_deps pr) -> d_sat d = false -> d_rar d = false -> In (d_src d) (scc_stmts s a ++ scc_stmts s b) -> In (d_dst d) (scc_stmts s a ++ scc_stmts s b) ->
      in_step pr d (line (m (d_src d)) (c (d_src d)) (loop_of a i j (d_src d))) (line (m (d_dst d)) (c (d_dst d)) (loop_of a i j (d_dst d))).
Proof.
  intros NB N A1 A2 M Z. rewrite pair_system in M by auto. apply inter_conflict in M.
  set (f := fun z => (z =? Z.of_nat a) || (z =? Z.of_nat b)) in *. set (act := scc_stmts s a ++ scc_stmts s b) in *.
  assert (forall u, In u act <-> (u < length (p_stmts pr))%nat /\ f (s_scc (stmt_of pr u)) = true) as IA.
  { intros u. unfold act, f. rewrite in_app_iff, !in_scc_stmts, orb_true_iff, !Z.eqb_eq. tauto. }
  assert (forall u, In u act -> is_loop pr u (loop_of a i j u)) as AL.
  { intros u Hu. unfold act in Hu. apply in_app_iff in Hu as [Hu|Hu]; pose proof Hu as E; apply in_scc_stmts in E as [_ E]; unfold loop_of; rewrite E.
    - rewrite Z.eqb_refl. auto.
    - rewrite (proj2 (Z.eqb_neq _ _)) by lia. auto. }
  assert (forall d, In d (scc_deps o pr f) -> In d (p_deps pr) /\ In (d_src d) act /\ In (d_dst d) act) as HL.
  { intros d Hd. apply in_scc_deps in Hd as (D & _ & _ & A & B). destruct (dep_stmts d D). split; [auto|]. split; apply IA; auto. }
  pose proof (lp_at o pr W PD OF act (loop_of a i j) true (scc_deps o pr f) AL HL x M) as (A & _ & D).
  exists (fun u => nth (coef_col pr u (loop_of a i j u)) x 0%Q), (fun u => nth (coef_col pr u (p_nvar pr)) x 0%Q). split.
  - intros u Hu. destruct (A u) as (B1 & B2 & B3 & B4 & _); [unfold act; apply in_app_iff; auto|]. auto.
  - intros d Hd S R E1 E2. apply IA in E1 as [_ E1]. apply IA in E2 as [_ E2]. assert (In d (scc_deps o pr f)) as K.
    { apply in_scc_deps. repeat (split; [solve [auto|congruence]|]). auto. }
    exact (zero_same d _ _ _ _ NB R (D d K) (first_zero x _ Z) (Z _ (le_n _))).
Qed.
End Systems.
