(** * Connected components, transitive closure, graph construction. *)
From Coq Require Import ZArith List Bool Arith Lia Permutation Sorting.
From Verif Require Import SpecLinear SpecGraph VecProofs MathModel GraphModel RankProofs MatrixProofs GraphProofs.
Import ListNotations.
Open Scope nat_scope.

(** ** The undirected graph *)
Lemma undirected_wf n g : wf_graph n (get_undirected_graph n g).
Proof.
  unfold wf_graph, get_undirected_graph. rewrite map_length, seq_length. split; auto.
  intros r Hr. apply in_map_iff in Hr as (j & <- & _). rewrite map_length, seq_length. auto.
Qed.

Lemma undirected_edge n g u v : wf_graph n g -> edge (get_undirected_graph n g) u v <-> edge g u v \/ edge g v u.
Proof.
  intros W.
  assert (u < n -> v < n -> (edge (get_undirected_graph n g) u v <-> edge g u v \/ edge g v u)) as K.
  { intros Hu Hv. unfold edge, adj at 1, get_undirected_graph. rewrite !nth_map_seq0 by auto. cbv zeta.
    destruct (Nat.le_ge_cases u v) as [C|C].
    - rewrite Nat.max_r, Nat.min_l by auto. destruct (Z.eqb_spec (adj g v u) 0); lia.
    - rewrite Nat.max_l, Nat.min_r by auto. destruct (Z.eqb_spec (adj g u v) 0); lia. }
  split; intros E.
  - destruct (edge_lt n _ _ _ (undirected_wf n g) E). apply K; auto.
  - apply K; auto; destruct E as [E|E]; destruct (edge_lt n _ _ _ W E); auto.
Qed.

Lemma undirected_reach n g u v : wf_graph n g -> reach (get_undirected_graph n g) u v <-> connected g u v.
Proof.
  intros W. split; induction 1; try constructor.
  - apply (proj1 (undirected_edge n g u v W)) in H. econstructor; eauto.
  - apply (proj2 (undirected_edge n g u v W)) in H. econstructor; eauto.
Qed.

Lemma conn_trans g u v w : connected g u v -> connected g v w -> connected g u w.
Proof. induction 1; auto. intros. econstructor; eauto. Qed.
Lemma conn_sym g u v : connected g u v -> connected g v u.
Proof.
  induction 1; [constructor|]. eapply conn_trans; eauto. econstructor; [|constructor]. tauto.
Qed.
Lemma conn_lt n g u v : wf_graph n g -> u < n -> connected g u v -> v < n.
Proof.
  intros W Hu C. induction C; auto. apply IHC. destruct H as [H|H]; destruct (edge_lt n _ _ _ W H); auto.
Qed.

Lemma dfs_vertex_ccid n g : forall fuel v st, length (ccid (dfs_vertex fuel n g v st)) = length (ccid st).
Proof.
  induction fuel as [|f IH]; intros v st; auto. cbn [dfs_vertex ccid].
  match goal with |- length (ccid (fold_left ?F _ _)) = _ => set (G := F) end.
  assert (forall l s, length (ccid (fold_left G l s)) = length (ccid s)) as K.
  { induction l as [|a l IHl]; intros s; cbn [fold_left]; auto. rewrite IHl. unfold G.
    destruct (truth (adj g v a)); auto. cbv zeta.
    match goal with |- context [if ?b then _ else _] => destruct b end; [rewrite IH|]; cbn; apply set_nth_length. }
  rewrite K. auto.
Qed.

(** A vertex that is the smallest of its connected component. *)
Definition leader (g : list (list Z)) (i : nat) : Prop := forall j, j < i -> ~ connected g j i.

Lemma ddg_compute_cc_spec n g cc0 : wf_graph n g -> length cc0 = n ->
  let '(out, num) := ddg_compute_cc n g cc0 in
  length out = n /\
  exists R, length R = num /\ NoDup R /\ (forall u, In u R <-> u < n /\ leader g u) /\
    forall i, i < n -> nth i out 0%Z = (Z.of_nat (length (filter (fun r => (r <=? i)%nat) R)) - 1)%Z.
Proof.
  intros W Lc. unfold ddg_compute_cc. set (gU := get_undirected_graph n g).
  set (step := fun (acc : dstate * list Z * nat * Z) (i : nat) => _).
  assert (forall k, k <= n -> exists st out R,
     fold_left step (seq 0 k) (mkD 0 (repeat 0 n) (repeat 0 n) cc0, [], 0, (-1)%Z) = (st, out, length R, (Z.of_nat (length R) - 1)%Z) /\
     length (vn st) = n /\ length (fn st) = n /\ length (ccid st) = n /\
     (forall u, visited st u <-> exists j, j < k /\ connected g j u) /\
     NoDup R /\ (forall u, In u R <-> u < k /\ leader g u) /\
     length out = k /\
     forall i, i < k -> nth i out 0%Z = (Z.of_nat (length (filter (fun r => (r <=? i)%nat) R)) - 1)%Z) as K.
  { induction k as [|k IH]; intros Hk.
    - exists (mkD 0 (repeat 0 n) (repeat 0 n) cc0), [], []. cbn. rewrite repeat_length.
      split; [auto|]. split; [auto|]. split; [auto|]. split; [auto|].
      split. { intros u. split. { intros V. exfalso. apply V. cbn. apply nth_repeat. } intros (j & Hj & _). lia. }
      split; [constructor|]. split; [intros; lia|]. split; [auto|]. intros; lia.
    - destruct IH as (st & out & R & E & L1 & L2 & L3 & V & ND & HR & Lo & Ho); [lia|].
      assert (forall x, In x R -> (x <=? k) = true) as Rle.
      { intros x Hx. apply HR in Hx. apply Nat.leb_le. lia. }
      assert (forall (P : list nat), (forall x, In x P -> (x <=? k) = true) -> filter (fun r => r <=? k) P = P) as Fall.
      { induction P as [|p P IHP]; intros HP; cbn; auto. rewrite (HP p) by (left; auto). f_equal. apply IHP.
        intros; apply HP; right; auto. }
      rewrite seq_S, fold_left_app, E. cbn [fold_left plus]. unfold step at 1.
      destruct (Nat.eqb_spec (nth k (vn st) 0) 0) as [Z|Z].
      + set (st0 := mkD (dtime st) (vn st) (fn st) (set_nth k (Z.of_nat (length R) - 1 + 1)%Z (ccid st))).
        destruct (dfs_vertex_spec n gU (undirected_wf n g) n k st0) as (new & RR & Re); auto.
        { apply unvisited_le. }
        set (st' := dfs_vertex n n gU k st0) in *.
        pose proof (r_vis _ _ _ _ _ RR) as V'. pose proof (r_len _ _ _ _ _ RR) as [L1' L2'].
        assert (forall u, visited st0 u <-> visited st u) as V0 by (intros; unfold visited, st0; cbn; tauto).
        assert (leader g k) as Ld.
        { intros j Hj C. assert (visited st k) by (apply V; exists j; auto). auto. }
        (* the length of cc_id is not tracked by dfs_res *)
        assert (length (ccid st') = n) as L3'.
        { unfold st'. rewrite dfs_vertex_ccid. unfold st0; cbn [ccid]. rewrite set_nth_length. auto. }
        assert (forall u, visited st' u <-> exists j, j < S k /\ connected g j u) as VV.
        { intros u. rewrite V'. rewrite V0, V. split.
          - intros [(j & Hj & C)|Hu].
            + exists j. split; auto.
            + exists k. split; auto. destruct Hu as [<-|Hu]; [constructor|].
              apply Re in Hu. apply (proj1 (undirected_reach n g k u W)). auto.
          - intros (j & Hj & C). destruct (Nat.eq_dec j k) as [->|N].
            + right. apply (proj2 (undirected_reach n g k u W)) in C.
              assert (forall a z, reach gU a z -> In a (k :: new) -> In z (k :: new)) as Cn.
              { intros a z Rz. induction Rz as [|a b z E' _ IHz]; auto. intros Ha. apply IHz.
                destruct (r_closed _ _ _ _ _ RR a b Ha E') as [X|X]; auto.
                exfalso. apply V0, V in X as (j & Hj' & Cj). apply (Ld j); auto.
                eapply conn_trans; [exact Cj|]. apply conn_sym.
                assert (reach gU k a) as Rka by (destruct Ha as [<-|Ha]; [constructor|auto]).
                apply (proj1 (undirected_reach n g k b W)). eapply reach_snoc; eauto. }
              eapply Cn; eauto. simpl; auto.
            + left. exists j. split; auto. lia. }
        set (stF := mkD (dtime st') (vn st') (fn st') (set_nth k (Z.of_nat (length R) - 1 + 1)%Z (set_nth k (Z.of_nat (length R) - 1 + 1)%Z (ccid st')))).
        exists stF, (out ++ [nth k (ccid stF) 0%Z]), (R ++ [k]).
        split. { rewrite app_length. cbn [length]. replace (length R + 1) with (S (length R)) by lia.
          replace (Z.of_nat (S (length R)) - 1)%Z with (Z.of_nat (length R) - 1 + 1)%Z by lia. reflexivity. }
        split; [unfold stF; cbn; auto|]. split; [unfold stF; cbn; auto|].
        split; [unfold stF; cbn; rewrite !set_nth_length; auto|].
        split; [intros u; rewrite <- VV; unfold visited, stF; cbn; tauto|].
        assert (nth k (ccid stF) 0%Z = Z.of_nat (length R)) as Ek.
        { unfold stF; cbn [ccid]. rewrite nth_set_nth_eq by (rewrite set_nth_length; lia). lia. }
        split.
        { apply NoDup_app_intro; auto. { repeat constructor; simpl; tauto. }
          intros x Hx [<-|[]]. apply HR in Hx. lia. }
        split.
        { intros u. rewrite in_app_iff, HR. simpl. split.
          - intros [[A B]|[<-|[]]]; auto.
          - intros [A B]. destruct (Nat.eq_dec u k); [auto|left; split; auto; lia]. }
        split; [rewrite app_length; simpl; lia|].
        intros i Hi. rewrite filter_app, app_length.
        destruct (Nat.eq_dec i k) as [->|N].
        * rewrite app_nth2, Lo, Nat.sub_diag by lia. cbn [nth filter]. rewrite Ek, Nat.leb_refl. cbn [length].
          rewrite Fall by auto. lia.
        * rewrite app_nth1 by lia. rewrite Ho by lia. cbn [filter]. destruct (Nat.leb_spec k i); [lia|]. cbn [length]. f_equal. lia.
      + set (stF := mkD (dtime st) (vn st) (fn st) (set_nth k (Z.of_nat (length R) - 1)%Z (ccid st))).
        assert (visited st k) as Vk by exact Z.
        exists stF, (out ++ [nth k (ccid stF) 0%Z]), R.
        split; auto. split; [unfold stF; cbn; auto|]. split; [unfold stF; cbn; auto|].
        split; [unfold stF; cbn; rewrite !set_nth_length; auto|].
        assert (nth k (ccid stF) 0%Z = Z.of_nat (length R) - 1)%Z as Ek.
        { unfold stF; cbn [ccid]. rewrite nth_set_nth_eq by lia. lia. }
        apply V in Vk as (j & Hj & Cj).
        split.
        { intros u. transitivity (visited st u); [unfold visited, stF; cbn; tauto|]. rewrite V. split.
          - intros (i & Hi & C). exists i. split; auto.
          - intros (i & Hi & C). destruct (Nat.eq_dec i k) as [->|N].
            + exists j. split; auto. eapply conn_trans; eauto.
            + exists i. split; auto. lia. }
        split; auto.
        split.
        { intros u. rewrite HR. split.
          - intros [A B]; auto.
          - intros [A B]. split; auto. destruct (Nat.eq_dec u k) as [->|]; [|lia]. exfalso. apply (B j); auto. }
        split; [rewrite app_length; simpl; lia|].
        intros i Hi. destruct (Nat.eq_dec i k) as [->|N].
        * rewrite app_nth2, Lo, Nat.sub_diag by lia. cbn [nth]. rewrite Ek.
          rewrite Fall by auto. auto.
        * rewrite app_nth1 by lia. apply Ho; lia. }
  destruct (K n (le_n n)) as (st & out & R & E & _ & _ & _ & _ & ND & HR & Lo & Ho).
  rewrite E. split; auto. exists R. auto.
Qed.

Lemma reach_decided n g u : wf_graph n g -> u < n -> forall w, reach g u w \/ ~ reach g u w.
Proof.
  intros W Hu. set (st := mkD 0 (repeat 0 n) (repeat 0 n) (repeat 0%Z n)).
  assert (forall x, ~ visited st x) as NV by (intros x X; apply X; cbn; apply nth_repeat).
  destruct (dfs_vertex_spec n g W n u st) as (new & R & Re); auto.
  { apply repeat_length. } { apply repeat_length. }
  { apply unvisited_le. }
  intros w. destruct (in_dec Nat.eq_dec w (u :: new)) as [I|I].
  - left. destruct I as [<-|I]; [constructor|auto].
  - right. intros X. apply I. assert (In u (u :: new)) as Iu by (simpl; auto).
    revert Iu. pose proof (r_closed _ _ _ _ _ R) as Cl. clear R Re I. revert X Cl. generalize (u :: new). clear -st. intros l X Cl. induction X as [|a b z E _ IH]; auto.
    intros Ha. apply IH. destruct (Cl a b Ha E) as [V|V]; auto.
    exfalso. apply V. cbn. apply nth_repeat.
Qed.

Lemma connected_decided n g u : wf_graph n g -> u < n -> forall w, connected g u w \/ ~ connected g u w.
Proof.
  intros W Hu w. destruct (reach_decided n (get_undirected_graph n g) u (undirected_wf n g) Hu w) as [R|R].
  - left. apply (proj1 (undirected_reach n g u w W)); auto.
  - right. intros C. apply R. apply (proj2 (undirected_reach n g u w W)); auto.
Qed.

Lemma leader_exists n g : wf_graph n g -> forall u, u < n -> exists r, r <= u /\ leader g r /\ connected g r u.
Proof.
  intros W. induction u as [u IH] using lt_wf_ind. intros Hu.
  assert (forall k, k <= u -> (exists j, j < k /\ connected g j u) \/ (forall j, j < k -> ~ connected g j u)) as D.
  { induction k as [|k IHk]; intros Hk; [right; intros; lia|].
    destruct IHk as [(j & Hj & C)|N]; [lia|left; exists j; auto|].
    destruct (connected_decided n g k W ltac:(lia) u) as [C|C]; [left; exists k; auto|].
    right. intros j Hj. destruct (Nat.eq_dec j k) as [->|]; auto. apply N. lia. }
  destruct (D u (le_n u)) as [(j & Hj & C)|N].
  - destruct (IH j Hj ltac:(lia)) as (r & Hr & Ld & Cr). exists r. split; [lia|]. split; auto. eapply conn_trans; eauto.
  - exists u. split; auto. split; [exact N|constructor].
Qed.

Lemma leader_unique g r s : leader g r -> leader g s -> connected g r s -> r = s.
Proof.
  intros Lr Ls C. destruct (Nat.lt_trichotomy r s) as [H|[H|H]]; auto; exfalso.
  - apply (Ls r); auto.
  - apply (Lr s); auto. apply conn_sym; auto.
Qed.

Lemma cc_count n g cc0 : wf_graph n g -> length cc0 = n ->
  exists R, length R = snd (ddg_compute_cc n g cc0) /\ NoDup R /\ (forall r, In r R -> r < n) /\
    forall u, u < n -> exists r, In r R /\ connected g u r /\ forall s, In s R -> connected g u s -> s = r.
Proof.
  intros W L. pose proof (ddg_compute_cc_spec n g cc0 W L) as K. destruct (ddg_compute_cc n g cc0) as [out num].
  destruct K as (_ & R & LR & ND & HR & _). exists R. split; auto. split; auto.
  split; [intros r Hr; apply HR in Hr; tauto|].
  intros u Hu. destruct (leader_exists n g W u Hu) as (r & Hr & Ld & C). exists r.
  assert (In r R) by (apply HR; split; auto; lia).
  split; auto. split; [apply conn_sym; auto|].
  intros s Hs Cs. apply HR in Hs as [_ Ls]. apply (leader_unique g); auto. apply conn_sym.
  eapply conn_trans; eauto.
Qed.

Lemma filter_le_eq R u v : u <= v ->
  (length (filter (fun r => r <=? u) R) = length (filter (fun r => r <=? v) R) <-> forall r, In r R -> r <= v -> r <= u).
Proof.
  intros H. split.
  - intros E r Hr Hv. destruct (Nat.le_gt_cases r u) as [|G]; auto. exfalso.
    assert (length (filter (fun r => r <=? u) R) < length (filter (fun r => r <=? v) R)); [|lia].
    clear E. induction R as [|x R IH]; [destruct Hr|].
    assert (length (filter (fun r => r <=? u) R) <= length (filter (fun r => r <=? v) R)) as M.
    { clear -H. induction R as [|y R IH]; cbn; auto.
      destruct (Nat.leb_spec y u); destruct (Nat.leb_spec y v); cbn; lia. }
    destruct Hr as [->|Hr].
    + cbn. destruct (Nat.leb_spec r u); destruct (Nat.leb_spec r v); cbn; lia.
    + specialize (IH Hr). cbn. destruct (Nat.leb_spec x u); destruct (Nat.leb_spec x v); cbn; lia.
  - intros A. f_equal. apply filter_ext_in. intros r Hr. specialize (A r Hr).
    destruct (Nat.leb_spec r u); destruct (Nat.leb_spec r v); auto; lia.
Qed.

Lemma cc_intervals n g cc0 : wf_graph n g -> length cc0 = n ->
  (forall u v w, u < v -> v < w -> connected g u w -> connected g u v) ->
  forall u v, u < n -> v < n ->
  (nth u (fst (ddg_compute_cc n g cc0)) 0%Z = nth v (fst (ddg_compute_cc n g cc0)) 0%Z <-> connected g u v).
Proof.
  intros W L C. pose proof (ddg_compute_cc_spec n g cc0 W L) as K. destruct (ddg_compute_cc n g cc0) as [out num].
  destruct K as (_ & R & LR & ND & HR & Ho). cbn [fst].
  assert (forall u v, u <= v -> u < n -> v < n -> (nth u out 0%Z = nth v out 0%Z <-> connected g u v)) as M.
  { intros u v Le Hu Hv. rewrite !Ho by auto.
    transitivity (forall r, In r R -> r <= v -> r <= u).
    { rewrite <- filter_le_eq by auto. lia. }
    split.
    - intros A. destruct (leader_exists n g W v Hv) as (r & Hr & Ld & Cr).
      assert (r <= u) as Hru by (apply A; auto; apply HR; split; auto; lia).
      destruct (Nat.eq_dec r u) as [->|N1]; auto. destruct (Nat.eq_dec u v) as [->|N2]; [constructor|].
      eapply conn_trans; [|exact Cr]. apply conn_sym. apply (C r u v); auto; lia.
    - intros Cuv r Hr Hrv. destruct (Nat.le_gt_cases r u) as [|G]; auto. exfalso.
      apply HR in Hr as [_ Ld]. apply (Ld u); auto.
      destruct (Nat.eq_dec r v) as [->|]; auto. apply (C u r v); auto; lia. }
  intros u v Hu Hv. destruct (Nat.le_ge_cases u v); [apply M; auto|].
  specialize (M v u ltac:(auto) Hv Hu). split; intros X.
  - apply conn_sym. apply M. auto.
  - symmetry. apply M. apply conn_sym. auto.
Qed.

(** ** Entries *)
Lemma set_adj_wf n g i j v : wf_graph n g -> wf_graph n (set_adj g i j v).
Proof.
  intros [L R]. unfold set_adj. split; [rewrite map_nth_length; auto|].
  intros r Hr. apply In_nth with (d := []) in Hr as (k & Hk & <-). rewrite map_nth_length in Hk.
  rewrite map_nth_nth. destruct ((k =? i) && (i <? length g)) eqn:E.
  - apply andb_true_iff in E as [E1 E2]. apply Nat.ltb_lt in E2. rewrite set_nth_length. apply R. apply nth_In; auto.
  - apply R. apply nth_In; auto.
Qed.

Lemma set_adj_get n g i j v a b : wf_graph n g -> i < n -> j < n ->
  adj (set_adj g i j v) a b = if (a =? i) && (b =? j) then v else adj g a b.
Proof.
  intros [L R] Hi Hj. unfold adj, set_adj.
  rewrite map_nth_nth. rewrite (proj2 (Nat.ltb_lt i (length g))) by lia. rewrite andb_true_r.
  destruct (Nat.eqb_spec a i) as [->|N]; cbn [andb]; auto.
  assert (length (nth i g []) = n) by (apply R, nth_In; lia).
  destruct (Nat.eqb_spec b j) as [->|N].
  - rewrite nth_set_nth_eq; auto. lia.
  - rewrite nth_set_nth_neq; auto.
Qed.

(** ** Transitive closure *)
Definition path1 (g : list (list Z)) (u v : nat) : Prop := exists w, edge g u w /\ reach g w v.

Lemma path1_trans g u v w : path1 g u v -> path1 g v w -> path1 g u w.
Proof.
  intros (a & E & R) (b & E' & R'). exists a. split; auto. eapply reach_trans; eauto. econstructor; eauto.
Qed.

Definition same_closure (n : nat) (g h : list (list Z)) : Prop :=
  wf_graph n h /\ (forall u v, edge g u v -> edge h u v) /\ (forall u v, edge h u v -> path1 g u v).

Lemma truth_or h i j k : truth (adj h i j) || truth (adj h i k) && truth (adj h k j) = true <->
  edge h i j \/ (edge h i k /\ edge h k j).
Proof. rewrite orb_true_iff, andb_true_iff, !truth_true. unfold edge. tauto. Qed.

Lemma closure_step_edge n h i j k a b : wf_graph n h -> i < n -> j < n ->
  edge (closure_step h i j k) a b <-> edge h a b \/ (a = i /\ b = j /\ edge h i k /\ edge h k j).
Proof.
  intros W Hi Hj. unfold closure_step, edge at 1. rewrite (set_adj_get n) by auto.
  destruct (Nat.eqb_spec a i) as [->|N]; destruct (Nat.eqb_spec b j) as [->|M]; cbn [andb]; try (unfold edge; tauto).
  pose proof (truth_or h i j k) as T.
  destruct (truth (adj h i j) || truth (adj h i k) && truth (adj h k j)).
  - split; [intros _|intros; lia]. destruct T as [T _]. specialize (T eq_refl). tauto.
  - split; [lia|]. intros X. destruct T as [_ T]. assert (false = true); [|discriminate]. apply T. tauto.
Qed.

Lemma closure_step_same n g h i j k : same_closure n g h -> i < n -> j < n -> same_closure n g (closure_step h i j k).
Proof.
  intros (W & M & S) Hi Hj. split; [apply set_adj_wf; auto|]. split.
  - intros u v E. apply (closure_step_edge n); auto.
  - intros u v E. apply (closure_step_edge n) in E as [E|(-> & -> & E1 & E2)]; auto.
    eapply path1_trans; eauto.
Qed.

Lemma fold_inv {A B} (P : A -> Prop) (f : A -> B -> A) l : forall a, P a -> (forall a b, In b l -> P a -> P (f a b)) -> P (fold_left f l a).
Proof.
  induction l as [|b l IH]; intros a Ha Hf; cbn; auto. apply IH; [apply Hf; simpl; auto|].
  intros; apply Hf; simpl; auto.
Qed.

Lemma closure_same n g : wf_graph n g -> same_closure n g (compute_transitive_closure n g).
Proof.
  intros W. unfold compute_transitive_closure.
  apply fold_inv. { split; auto. split; auto. intros u v E. exists v. split; auto. constructor. }
  intros h i Hi Sh. apply in_seq in Hi. apply fold_inv; auto.
  intros h' j Hj Sh'. apply in_seq in Hj. apply fold_inv; auto.
  intros h'' k Hk Sh''. apply closure_step_same; auto; lia.
Qed.

Lemma closure_two n g u w v : wf_graph n g -> edge g u w -> edge g w v -> edge (compute_transitive_closure n g) u v.
Proof.
  intros W E1 E2. destruct (edge_lt n g u w W E1) as [Hu Hw]. destruct (edge_lt n g w v W E2) as [_ Hv].
  unfold compute_transitive_closure.
  (* split every loop at the iteration in question *)
  assert (forall x, x < n -> seq 0 n = seq 0 x ++ x :: seq (S x) (n - S x)) as Sp.
  { intros x Hx. replace n with (x + S (n - S x)) at 1 by lia. rewrite seq_app. cbn. auto. }
  set (inner := fun (i j : nat) (h : list (list Z)) => fold_left (fun g k => closure_step g i j k) (seq 0 n) h).
  set (mid := fun (i : nat) (h : list (list Z)) => fold_left (fun g j => inner i j g) (seq 0 n) h).
  assert (forall i j h, i < n -> j < n -> same_closure n g h -> same_closure n g (inner i j h)) as Si.
  { intros. apply fold_inv; auto. intros. apply closure_step_same; auto. }
  assert (forall i h, i < n -> same_closure n g h -> same_closure n g (mid i h)) as Sm.
  { intros. apply fold_inv; auto. intros a b Hb Ha. apply in_seq in Hb. apply Si; auto; lia. }
  assert (forall ks i j h, i < n -> j < n -> wf_graph n h -> forall a b, edge h a b ->
     let h' := fold_left (fun g k => closure_step g i j k) ks h in wf_graph n h' /\ edge h' a b) as Mk.
  { induction ks as [|k ks IH]; intros i j h Hi Hj Wh a b E; cbn; auto. apply IH; auto.
    - apply set_adj_wf; auto.
    - apply (closure_step_edge n); auto. }
  assert (forall js i h, i < n -> (forall j, In j js -> j < n) -> wf_graph n h -> forall a b, edge h a b ->
     let h' := fold_left (fun g j => inner i j g) js h in wf_graph n h' /\ edge h' a b) as Mj.
  { induction js as [|j js IH]; intros i h Hi Hj Wh a b E; cbn; auto.
    destruct (Mk (seq 0 n) i j h Hi (Hj j ltac:(simpl; auto)) Wh a b E) as [X Y].
    apply IH; auto. intros; apply Hj; simpl; auto. }
  assert (forall is h, (forall j, In j is -> j < n) -> wf_graph n h -> forall a b, edge h a b ->
     let h' := fold_left (fun g i => mid i g) is h in wf_graph n h' /\ edge h' a b) as Mi.
  { induction is as [|i is IH]; intros h Hi Wh a b E; cbn; auto.
    destruct (Mj (seq 0 n) i h) with (a := a) (b := b) as [X Y]; auto; try (intros; apply Hi; simpl; auto; fail).
    { intros j Hj. apply in_seq in Hj. lia. }
    apply IH; auto. intros; apply Hi; simpl; auto. }
  change (edge (fold_left (fun g i => mid i g) (seq 0 n) g) u v).
  assert (forall x y k, In k (seq x y) -> x + y <= n -> k < n) as Sq by (intros x y k Hk; apply in_seq in Hk; lia).
  rewrite (Sp u Hu), fold_left_app. cbn [fold_left].
  set (h0 := fold_left (fun g i => mid i g) (seq 0 u) g).
  assert (same_closure n g h0) as S0.
  { apply fold_inv; [split; auto; split; auto; intros a b E; exists b; split; auto; constructor|].
    intros a b Hb Ha. apply Sm; auto. eapply Sq; eauto. lia. }
  refine (proj2 (Mi _ _ _ _ _ _ _)). { intros k Hk. eapply Sq; eauto. lia. } { apply Sm; auto. }
  unfold mid. rewrite (Sp v Hv), fold_left_app. cbn [fold_left].
  set (h1 := fold_left (fun g j => inner u j g) (seq 0 v) h0).
  assert (same_closure n g h1) as S1.
  { apply fold_inv; auto. intros a b Hb Ha. apply Si; auto. eapply Sq; eauto. lia. }
  refine (proj2 (Mj _ _ _ _ _ _ _ _ _)); auto. { intros k Hk. eapply Sq; eauto. lia. } { apply Si; auto. }
  unfold inner. rewrite (Sp w Hw), fold_left_app. cbn [fold_left].
  set (h2 := fold_left (fun g k => closure_step g u v k) (seq 0 w) h1).
  assert (same_closure n g h2) as S2.
  { apply fold_inv; auto. intros a b Hb Ha. apply closure_step_same; auto. }
  refine (proj2 (Mk _ _ _ _ _ _ _ _ _ _)); auto. { apply set_adj_wf. apply S2. }
  apply (closure_step_edge n); auto. { apply S2. } right. repeat split; auto; apply S2; auto.
Qed.

(** ** Construction of the graph *)
Definition ddeps_ok (n : nat) (deps : list ddep) : Prop := forall d, In d deps -> dsrc d < n /\ ddst d < n.

Lemma repeat_adj n u v : adj (repeat (repeat 0%Z n) n) u v = 0%Z.
Proof.
  unfold adj. destruct (Nat.lt_ge_cases u n).
  - rewrite nth_indep with (d' := repeat 0%Z n) by (rewrite repeat_length; auto). rewrite nth_repeat. apply nth_repeat.
  - rewrite (nth_overflow (repeat _ n)) by (rewrite repeat_length; auto). destruct v; auto.
Qed.

Definition counts (u v : nat) (d : ddep) : bool :=
  negb (drar d) && negb (dsat d) && (dsrc d =? u) && (ddst d =? v).

Lemma ddg_create_count n deps : ddeps_ok n deps ->
  wf_graph n (ddg_create n deps) /\
  forall u v, adj (ddg_create n deps) u v = Z.of_nat (length (filter (counts u v) deps)).
Proof.
  intros OK. unfold ddg_create.
  match goal with |- context [fold_left ?F deps ?z] => set (G := F); set (z0 := z) end.
  assert (forall ds g, ddeps_ok n ds -> wf_graph n g -> wf_graph n (fold_left G ds g) /\
     forall u v, adj (fold_left G ds g) u v = (adj g u v + Z.of_nat (length (filter (counts u v) ds)))%Z) as K.
  { induction ds as [|d ds IH]; intros g O W.
    - cbn [fold_left filter length]. split; auto. intros; lia.
    - assert (ddeps_ok n ds) as O' by (intros x Hx; apply O; simpl; auto).
      destruct (O d ltac:(simpl; auto)) as [Hs Hd].
      cbn [fold_left].
      assert (wf_graph n (G g d)) as W' by (unfold G; destruct (drar d); auto; apply set_adj_wf; auto).
      destruct (IH (G g d) O' W') as [A B]. split; auto. intros u v. rewrite B. cbn [filter].
      assert (adj (G g d) u v = (adj g u v + if counts u v d then 1 else 0)%Z) as ->.
      { unfold G, counts. destruct (drar d); cbn [negb andb]; [lia|].
        rewrite (set_adj_get n) by auto. rewrite (Nat.eqb_sym (dsrc d) u), (Nat.eqb_sym (ddst d) v).
        destruct (Nat.eqb_spec u (dsrc d)) as [->|]; destruct (Nat.eqb_spec v (ddst d)) as [->|];
          destruct (dsat d); cbn [negb andb]; try lia; try congruence. }
      destruct (counts u v d); cbn [length]; lia. }
  destruct (K deps z0 OK) as [A B].
  { unfold z0. split; [apply repeat_length|]. intros r Hr. apply repeat_spec in Hr as ->. apply repeat_length. }
  split; auto. intros u v. rewrite B. unfold z0. rewrite repeat_adj. auto.
Qed.

Lemma ddg_create_edge n deps u v : ddeps_ok n deps ->
  (edge (ddg_create n deps) u v <-> exists d, In d deps /\ drar d = false /\ dsat d = false /\ dsrc d = u /\ ddst d = v).
Proof.
  intros OK. unfold edge. rewrite (proj2 (ddg_create_count n deps OK)). split.
  - intros H. destruct (filter (counts u v) deps) as [|d l] eqn:E; [cbn in H; lia|].
    assert (In d (filter (counts u v) deps)) as I by (rewrite E; simpl; auto).
    apply filter_In in I as [I C]. unfold counts in C. rewrite !andb_true_iff, !negb_true_iff, !Nat.eqb_eq in C.
    exists d. tauto.
  - intros (d & I & A & B & C & D).
    assert (In d (filter (counts u v) deps)) as J.
    { apply filter_In. split; auto. unfold counts. rewrite A, B, C, D, !Nat.eqb_refl. auto. }
    destruct (filter (counts u v) deps); [destruct J|]. cbn [length]. lia.
Qed.

Lemma scc_vertices_in n scc id v : In v (scc_vertices n scc id) <-> v < n /\ nth v scc 0%Z = id.
Proof. unfold scc_vertices. rewrite filter_In, in_seq, Z.eqb_eq. intuition lia. Qed.

Lemma scc_vertices_length scc id : length (scc_vertices (length scc) scc id) = get_scc_size scc id.
Proof.
  unfold scc_vertices, get_scc_size. induction scc as [|s scc IH] using rev_ind; auto.
  rewrite app_length. cbn [length]. rewrite Nat.add_1_r, seq_S, !filter_app, !app_length. cbn [plus filter].
  f_equal.
  - rewrite <- IH. f_equal. apply filter_ext_in. intros a Ha. apply in_seq in Ha. rewrite app_nth1 by lia. auto.
  - rewrite app_nth2, Nat.sub_diag by lia. cbn [nth]. destruct (s =? id)%Z; auto.
Qed.

Lemma max_dim_spec scc dims id : length scc = length dims ->
  let m := get_max_orig_dim_in_scc scc dims id in
  (forall u, u < length scc -> nth u scc 0%Z = id -> (Z.of_nat (nth u dims 0%nat) <= m)%Z) /\
  (m = (-1)%Z \/ exists u, u < length scc /\ nth u scc 0%Z = id /\ m = Z.of_nat (nth u dims 0%nat)).
Proof.
  intros L. unfold get_max_orig_dim_in_scc.
  match goal with |- context [fold_left ?F _ _] => set (G := F) end.
  assert (forall scc dims m0, length scc = length dims ->
    let m := fold_left G (combine scc dims) m0 in (m0 <= m)%Z /\
    (forall u, u < length scc -> nth u scc 0%Z = id -> (Z.of_nat (nth u dims 0%nat) <= m)%Z) /\
    (m = m0 \/ exists u, u < length scc /\ nth u scc 0%Z = id /\ m = Z.of_nat (nth u dims 0%nat))) as K.
  { clear. induction scc as [|s scc IH]; intros [|d dims] m0 L; cbn in L; try discriminate.
    - cbn. split; [lia|]. split; [intros; lia|auto].
    - cbn [combine fold_left]. destruct (IH dims (G m0 (s, d)) ltac:(lia)) as (A & B & C).
      assert (G m0 (s, d) = if (s =? id)%Z then Z.max m0 (Z.of_nat d) else m0) as E by reflexivity.
      cbv zeta. split; [|split].
      + destruct (s =? id)%Z; lia.
      + intros [|u] Hu Hs; cbn in *.
        * subst s. rewrite Z.eqb_refl in E. lia.
        * apply B; auto. lia.
      + destruct C as [C|(u & Hu & Hs & C)].
        * rewrite C. destruct (Z.eqb_spec s id) as [->|].
          -- rewrite E. destruct (Z.max_spec m0 (Z.of_nat d)) as [[_ ->]|[_ ->]]; auto.
             right. exists 0. cbn. split; [lia|auto].
          -- auto.
        * right. exists (S u). cbn. split; [lia|auto]. }
  destruct (K scc dims (-1)%Z L) as (_ & A & B). auto.
Qed.
