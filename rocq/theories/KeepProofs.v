(** * Rows of the system for the next hyperplane that survive the scaling of rational
    solutions. *)
From Coq Require Import ZArith List Bool Arith Lia.
From Verif Require Import SpecLinear SpecMatrix VecProofs MathModel ConstraintsModel EditProofs FMProofs FarkasProofs SimplifyProofs SpecProg SpecDriver SpecGraph GraphModel
  GraphProofs2 FrameworkModel FrameworkProofs DepProofs ProgModel ProgProofs DriverModel HypProofs.
Import ListNotations.
Open Scope Z_scope.

(** The row says nothing about the bound of the distances, a point that satisfies it
    satisfies it after scaling by a factor of at least 1, and the statements it
    speaks about are connected by dependences. *)
Record scalable (pr : prog) (r : row) : Prop := mkScalable {
  sc_bound : forall k, (k < p_npar pr + 1)%nat -> nth k (coef r) 0 = 0;
  sc_const : last (coef r) 0 <= 0;
  sc_eq : is_eq r = true -> last (coef r) 0 = 0;
  sc_conn : forall s s' j j', (s < length (p_stmts pr))%nat -> (s' < length (p_stmts pr))%nat -> (j <= p_nvar pr)%nat -> (j' <= p_nvar pr)%nat ->
    nth (stmt_offset pr s + j) (coef r) 0 <> 0 -> nth (stmt_offset pr s' + j') (coef r) 0 <> 0 -> connected (graph_of pr) s s' }.

Definition kept (pr : prog) (c : cst) (x : point) : Prop :=
  S (length x) = ncols c /\ forall r, In r (rows c) -> scalable pr r -> holds x r.

(** The same for the rows without a constant. *)
Definition hkept (pr : prog) (c : cst) (x : point) : Prop :=
  S (length x) = ncols c /\ forall r, In r (rows c) -> scalable pr r -> last (coef r) 0 = 0 -> holds x r.
Lemma kept_hkept pr c x : kept pr c x -> hkept pr c x.
Proof. intros [A B]. split; auto. Qed.

(** What legality of the search needs of a solver. *)
Definition lexmin_hkeeps (solve : prog -> cst -> option point) : Prop :=
  forall pr c x, wf_prog pr -> orig_first pr -> wf_cst c -> ncols c = cst_width pr -> rows c <> [] ->
    prog_constraints_lexmin solve pr c = Some x -> hkept pr c x /\ zpadding_zero pr x.

(** What the search needs of a solver to find independent rows. *)
Definition lexmin_keeps (solve : prog -> cst -> option point) : Prop :=
  forall pr c x, wf_prog pr -> orig_first pr -> wf_cst c -> ncols c = cst_width pr -> rows c <> [] ->
    prog_constraints_lexmin solve pr c = Some x -> kept pr c x /\ zpadding_zero pr x.

Lemma keeps_weak solve : lexmin_keeps solve -> lexmin_hkeeps solve.
Proof. intros K pr c x A B C D E F. destruct (K pr c x A B C D E F). split; auto. apply kept_hkept; auto. Qed.
Coercion keeps_weak : lexmin_keeps >-> lexmin_hkeeps.

Lemma hkept_add pr a b x : ncols a = ncols b -> hkept pr (cst_add a b) x -> hkept pr a x /\ hkept pr b x.
Proof.
  intros E [L H]. cbn [cst_add ncols rows] in *. split; (split; [congruence|]); intros r Hr; apply H; apply in_or_app; auto.
Qed.

Lemma kept_mem pr c x : mem c x -> kept pr c x.
Proof. intros [L H]. split; auto. Qed.

Lemma kept_add pr a b x : ncols a = ncols b -> kept pr (cst_add a b) x -> kept pr a x /\ kept pr b x.
Proof.
  intros E [L H]. cbn [cst_add ncols rows] in *. split; (split; [congruence|]); intros r Hr; apply H; apply in_or_app; auto.
Qed.

Lemma scalable_frame a b r : p_npar b = p_npar a -> p_nvar b = p_nvar a -> length (p_stmts b) = length (p_stmts a) -> p_deps b = p_deps a ->
  scalable a r -> scalable b r.
Proof.
  intros E1 E2 E3 E4 [A B C D]. constructor; auto.
  - rewrite E1. auto.
  - unfold stmt_offset, graph_of in *. rewrite E1, E2, E3, E4. exact D.
Qed.
Lemma hkept_frame a b c x : p_npar b = p_npar a -> p_nvar b = p_nvar a -> length (p_stmts b) = length (p_stmts a) -> p_deps b = p_deps a ->
  hkept b c x -> hkept a c x.
Proof. intros E1 E2 E3 E4 [L H]. split; auto. intros r Hr S. apply H; auto. eapply scalable_frame; eauto. Qed.

(** ** Normalisation *)
Lemma last_map_mul g (l : list Z) : last (map (Z.mul g) l) 0 = g * last l 0.
Proof. induction l as [|a [|b l] IH]; [cbn; lia|reflexivity|]. cbn [map last] in *. exact IH. Qed.
Lemma nth_map_mul g (l : list Z) k : nth k (map (Z.mul g) l) 0 = g * nth k l 0.
Proof. replace 0 with (g * 0) at 1 by lia. apply (List.map_nth (Z.mul g)). Qed.

Lemma scalable_norm pr r : scalable pr (map_coef norm_row r) <-> scalable pr r.
Proof.
  destruct (norm_row_scaled (coef r)) as (g & Hg & E). set (n := norm_row (coef r)) in *.
  assert (forall k, nth k (coef r) 0 = 0 <-> nth k n 0 = 0) as N by (intros k; rewrite E, nth_map_mul; nia).
  assert (last (coef r) 0 = g * last n 0) as Q by (rewrite E at 1; apply last_map_mul).
  split; intros [A B C D]; cbn [map_coef coef is_eq] in *; fold n in A, B, C, D || idtac; constructor; cbn [map_coef coef is_eq]; fold n.
  - intros k Hk. apply N. auto.
  - nia.
  - intros X. specialize (C X). nia.
  - intros s s' j j' H1 H2 H3 H4 X Y. apply (D s s' j j'); auto; intros Z; [apply X|apply Y]; apply N; auto.
  - intros k Hk. apply N. auto.
  - nia.
  - intros X. specialize (C X). nia.
  - intros s s' j j' H1 H2 H3 H4 X Y. apply (D s s' j j'); auto; intros Z; [apply X|apply Y]; apply N; auto.
Qed.

Lemma simplify_hkept pr c x : (forall r, In r (rows (simplify c)) -> scalable pr r -> last (coef r) 0 = 0 -> holds x r) <-> (forall r, In r (rows c) -> scalable pr r -> last (coef r) 0 = 0 -> holds x r).
Proof.
  apply (simplify_rows (fun r => scalable pr r -> last (coef r) 0 = 0 -> holds x r)).
  - intros r. rewrite scalable_norm, holds_norm.
    assert (last (coef (map_coef norm_row r)) 0 = 0 <-> last (coef r) 0 = 0) as ->; [|tauto].
    cbn [map_coef coef]. destruct (norm_row_scaled (coef r)) as (g & Hg & E). rewrite E at 2. rewrite last_map_mul. nia.
  - intros r Z _ _. apply holds_all_zero. auto.
Qed.

(** ** Systems without constants *)
Definition homog (c : cst) : Prop := forall r, In r (rows c) -> last (coef r) 0 = 0.

Lemma simplify_homog c : homog (simplify c) <-> homog c.
Proof.
  unfold homog. apply (simplify_rows (fun r => last (coef r) 0 = 0)).
  - intros r. cbn [map_coef coef]. destruct (norm_row_scaled (coef r)) as (g & Hg & E). rewrite E at 2. rewrite last_map_mul. nia.
  - intros r Z. apply all_zero_repeat in Z. rewrite Z. generalize (length (coef r)). intros n. induction n as [|[|n] IH]; auto.
Qed.

Lemma last_nth (l : list Z) : last l 0 = nth (length l - 1) l 0.
Proof.
  induction l as [|a [|b l] IH]; auto. change (last (a :: b :: l) 0) with (last (b :: l) 0). rewrite IH.
  cbn [length]. replace (S (S (length l)) - 1)%nat with (S (S (length l) - 1)) by lia. reflexivity.
Qed.

Lemma last_zip_with f (a b : list Z) : length a = length b -> a <> [] -> last (zip_with f a b) 0 = f (last a 0) (last b 0).
Proof.
  revert b. induction a as [|x [|y a] IH]; intros [|u [|v b]] L N; cbn in L; try lia; try congruence; [reflexivity|].
  cbn [zip_with last] in *. apply (IH (v :: b)); cbn; [lia|discriminate].
Qed.
Lemma last_remove_at pos (l : list Z) : (pos < length l - 1)%nat -> last (remove_at pos l) 0 = last l 0.
Proof.
  intros H. assert (length (remove_at pos l) = (length l - 1)%nat) as L by (rewrite remove_at_length; lia).
  rewrite !last_nth, L. rewrite nth_remove_at_ge by lia. f_equal. lia.
Qed.

Lemma remove_dim_homog c pos : wf_cst c -> (pos < ncols c - 1)%nat -> homog c -> homog (remove_dim c pos).
Proof.
  intros [_ W] Hp H r Hr. unfold remove_dim in Hr. cbn [rows] in Hr. apply in_map_iff in Hr as (q & <- & Hq).
  cbn [map_coef coef]. rewrite last_remove_at; auto. rewrite W; auto.
Qed.

Lemma smart_homog c pos : wf_cst c -> (pos < ncols c - 1)%nat -> homog c -> homog (fm_eliminate_smart c pos).
Proof.
  intros W Hp H. pose proof W as [N L]. unfold fm_eliminate_smart. destruct (existsb _ _).
  - unfold gaussian_eliminate_cst. destruct (find_eq pos 0 (rows c)) as [k|]; auto. destruct (nth_error (rows c) k) as [e|] eqn:E; auto.
    apply nth_error_In in E. apply simplify_homog.
    assert (forall r, In r (remove_at k (rows c)) -> In r (rows c)) as I.
    { clear. generalize (rows c). induction k; intros [|a l] r; cbn; intros; auto. destruct H as [->|H]; auto. }
    apply remove_dim_homog.
    + split; auto. cbn [ncols rows]. intros r Hr. apply in_map_iff in Hr as (q & <- & Hq). cbn [map_coef coef].
      rewrite ge_row_length; [apply L; auto|]. rewrite !L; auto.
    + auto.
    + intros r Hr. cbn [rows] in Hr. apply in_map_iff in Hr as (q & <- & Hq). apply I in Hq. cbn [map_coef coef]. unfold ge_row.
      destruct (nth pos (coef q) 0 =? 0). apply H; auto.
      rewrite last_zip_with; [rewrite (H q Hq), (H e E); lia|rewrite !L; auto|]. intros X. specialize (L q Hq). rewrite X in L. cbn in L. lia.
  - cbv zeta. apply simplify_homog. destruct (forallb _ _). apply remove_dim_homog; auto.
    intros r Hr. cbn [rows] in Hr. apply in_flat_map in Hr as (q & Hq & Hr). unfold fm_row in Hr.
    destruct (nth pos (coef q) 0 <? 0).
    + apply in_map_iff in Hr as (l & <- & Hl). apply filter_In in Hl as [Hl _]. cbn [coef]. unfold fm_combine.
      assert (length (coef q) = length (coef l)) as E by (rewrite !L; auto).
      rewrite last_remove_at; [rewrite last_zip_with; [rewrite (H q Hq), (H l Hl); lia|auto|]|].
      * intros X. specialize (L q Hq). rewrite X in L. cbn in L. lia.
      * rewrite zip_with_length; auto. rewrite L; auto.
    + destruct (nth pos (coef q) 0 =? 0); [|contradiction]. destruct Hr as [<-|[]]. cbn [coef]. rewrite last_remove_at; auto. rewrite L; auto.
Qed.

Lemma farkas_eliminate_homog n : forall f nv, wf_cst f -> ncols f = (nv + n + 1)%nat -> homog f -> homog (farkas_eliminate f n).
Proof.
  induction n as [|n IH]; intros f nv W N H; cbn [farkas_eliminate]; auto.
  pose proof (best_elim_range f (S n) ltac:(lia) ltac:(lia)) as Hr.
  set (p := best_elim_candidate f (S n)) in *.
  destruct (fm_smart_wf f p W ltac:(lia)) as [W' N'].
  apply (IH _ nv); auto; [lia|]. apply smart_homog; auto. lia.
Qed.

Lemma farkas_homog dom phi : wf_cst dom -> wf_phi dom phi -> (forall i, (i < ncols dom)%nat -> mget phi i (mncols phi - 1) = 0) ->
  homog (farkas_lemma_affine dom phi).
Proof.
  intros W Wp Z. rewrite farkas_unfold. pose proof (fdom_wf dom W) as WF.
  assert (wf_phi (fdom dom) phi) as Wp'.
  { destruct Wp as (A & B & C). destruct (fdom_rows dom) as [_ E]. unfold wf_phi. rewrite E. auto. }
  apply (farkas_eliminate_homog _ _ (mncols phi - 1)).
  - apply farkas_system_wf; auto.
  - cbn [farkas_system ncols]. destruct Wp as (A & B & C). lia.
  - intros r Hr. cbn [farkas_system rows] in Hr. apply in_app_or in Hr as [Hr|Hr]; apply in_map_iff in Hr as (i & <- & Hi); apply in_seq in Hi; cbn [coef].
    + rewrite app_assoc, last_last. apply Z. destruct (fdom_rows dom) as [_ E]. lia.
    + rewrite last_nth, set_nth_length, repeat_length. destruct Wp as (A & B & C). rewrite nth_set_nth_neq by lia. apply nth_repeat.
Qed.

(** ** The validity constraints of a dependence *)
Lemma dep_edge pr d : wf_prog pr -> In d (p_deps pr) -> d_rar d = false -> d_sat d = false -> edge (graph_of pr) (d_src d) (d_dst d).
Proof.
  intros W Hd R U. apply ddg_create_edge.
  - intros q Hq. apply in_map_iff in Hq as (e & <- & He). cbn. destruct (proj2 W e He) as (A & B & _). auto.
  - exists (to_ddep d). split. apply in_map; auto. cbn. auto.
Qed.

Lemma valid_homog pr d : padded_dep pr d -> homog (tiling_valid_cst pr d).
Proof.
  intros [W N]. pose proof W as (_ & _ & Wp & _). apply farkas_homog; auto. apply phi_valid_wf; auto.
  intros i Hi. rewrite phi_valid_ncols. unfold phi_valid, mat_of, mget. cbn [mrows].
  rewrite N in Hi. rewrite nth_map_seq by lia.
  set (nc := if same_stmt d then _ else _). assert (2 + p_nvar pr <= nc)%nat as Hn by (unfold nc; destruct (same_stmt d); lia).
  rewrite nth_map_seq by lia. rewrite Nat.eqb_refl.
  destruct (Nat.ltb_spec i (p_nvar pr)) as [A|A]. { destruct (Nat.eqb_spec (nc - 1) i); auto. lia. }
  destruct (Nat.ltb_spec i (2 * p_nvar pr)) as [B|B]. 
  { destruct (Nat.eqb_spec (nc - 1) (if same_stmt d then i - p_nvar pr else p_nvar pr + 1 + (i - p_nvar pr))) as [E|E]; auto.
    unfold nc in E. destruct (same_stmt d); lia. }
  destruct (_ =? _)%nat; reflexivity.
Qed.

Lemma valid_scalable pr d r : wf_prog pr -> padded_dep pr d -> In d (p_deps pr) -> d_rar d = false -> d_sat d = false ->
  In r (rows (zero_pads pr d (mkCst (cst_width pr) (rows (scatter pr d 0 (tiling_valid_cst pr d)))))) -> scalable pr r /\ last (coef r) 0 = 0.
Proof.
  intros W PD Hd R U Hr. pose proof (dep_edge pr d W Hd R U) as ED. pose proof (valid_homog pr d PD) as HO.
  destruct (valid_ncols pr d 0 PD) as [WV NV]. fold (tiling_valid_cst pr d) in WV, NV.
  destruct PD as [(B1 & B2 & _) _].
  unfold zero_pads in Hr. cbn [rows ncols] in Hr. apply in_map_iff in Hr as (r1 & <- & Hr). unfold scatter in Hr. cbn [rows] in Hr.
  apply in_map_iff in Hr as (r0 & <- & Hr). specialize (HO r0 Hr). pose proof (proj2 WV r0 Hr) as L0. rewrite NV in L0.
  pose proof (cst_width_S pr) as CW. pose proof (offset_in pr _ B1) as O1. pose proof (offset_in pr _ B2) as O2.
  assert (p_npar pr + 1 <= stmt_offset pr (d_src d) /\ p_npar pr + 1 <= stmt_offset pr (d_dst d))%nat as [O3 O4] by (unfold stmt_offset; lia).
  assert (forall k, nth k (coef (map_coef (fun r : list Z => map (fun j : nat =>
         if pad_col pr (d_src d) j || (negb (d_src d =? stmt_offset pr (d_dst d))%nat && pad_col pr (d_dst d) j) then 0 else nth j r 0)
         (seq 0 (cst_width pr))) (map_coef (scatter_row pr d 0) r0))) 0 <> 0 -> (k < cst_width pr)%nat /\ nth k (scatter_row pr d 0 (coef r0)) 0 <> 0) as K.
  { intros k Hk. cbn [map_coef coef] in Hk. destruct (Nat.lt_ge_cases k (cst_width pr)) as [L|L].
    - split; auto. rewrite nth_map_seq in Hk by auto. destruct (_ || _); [lia|auto].
    - rewrite nth_overflow in Hk by (rewrite map_length, seq_length; auto). lia. }
  assert (forall k, (k < cst_width pr - 1)%nat -> nth k (scatter_row pr d 0 (coef r0)) 0 <> 0 ->
    (stmt_offset pr (d_src d) <= k < stmt_offset pr (d_src d) + (p_nvar pr + 1))%nat \/ (stmt_offset pr (d_dst d) <= k < stmt_offset pr (d_dst d) + (p_nvar pr + 1))%nat) as Q.
  { intros k Hk N. unfold scatter_row in N. rewrite nth_map_seq in N by lia.
    destruct (Nat.eqb_spec k (cst_width pr - 1)); [lia|]. destruct (Nat.ltb_spec k 0); [lia|].
    destruct (negb (d_src d =? d_dst d)%nat && (stmt_offset pr (d_dst d) <=? k)%nat && (k <? stmt_offset pr (d_dst d) + (p_nvar pr + 1))%nat) eqn:E1.
    { right. apply andb_prop in E1 as [E1 E3]. apply andb_prop in E1 as [_ E1]. apply Nat.leb_le in E1. apply Nat.ltb_lt in E3. lia. }
    destruct ((stmt_offset pr (d_src d) <=? k)%nat && (k <? stmt_offset pr (d_src d) + (p_nvar pr + 1))%nat) eqn:E2; [|lia].
    left. apply andb_prop in E2 as [E2 E3]. apply Nat.leb_le in E2. apply Nat.ltb_lt in E3. lia. }
  assert (nth (cst_width pr - 1) (scatter_row pr d 0 (coef r0)) 0 = 0) as Z.
  { unfold scatter_row. rewrite nth_map_seq by lia. rewrite Nat.eqb_refl. rewrite last_nth, L0 in HO. unfold same_stmt in HO.
    destruct (d_src d =? d_dst d)%nat; rewrite <- HO at 2; f_equal; lia. }
  set (R1 := map_coef _ (map_coef _ r0)) in *.
  assert (last (coef R1) 0 = 0) as LZ.
  { destruct (Z.eq_dec (last (coef R1) 0) 0) as [E|E]; auto. exfalso.
    assert (length (coef R1) = cst_width pr) as LR by (unfold R1; cbn [map_coef coef]; rewrite map_length, seq_length; auto).
    rewrite last_nth, LR in E. apply K in E as [_ E]. auto. }
  split; [|exact LZ]. constructor.
  - intros k Hk. destruct (Z.eq_dec (nth k (coef R1) 0) 0) as [E|E]; auto. exfalso. apply K in E as [E1 E2]. apply Q in E2; [|nia]. lia.
  - lia.
  - auto.
  - assert (forall s j, (s < length (p_stmts pr))%nat -> (j <= p_nvar pr)%nat -> nth (stmt_offset pr s + j) (coef R1) 0 <> 0 -> s = d_src d \/ s = d_dst d) as ST.
    { intros s j Hs Hj N. apply K in N as [N1 N2]. pose proof (offset_in pr s Hs). apply Q in N2; [|lia].
      destruct N2 as [N2|N2]; [left|right]; match goal with |- _ = ?t => destruct (Nat.lt_trichotomy s t) as [X|[X|X]]; auto; pose proof (FrameworkProofs.offset_disjoint pr _ _ X); lia end. }
    intros s s' j j' H1 H2 H3 H4 X Y. apply ST in X; auto. apply ST in Y; auto.
    destruct X as [-> | ->], Y as [-> | ->]; try apply conn_refl; apply conn_step with (2 := conn_refl _ _); auto.
Qed.

Lemma dep_hkept o pr d c : wf_prog pr -> padded pr -> In d (p_deps pr) -> d_rar d = false -> d_sat d = false -> zpadding_zero pr c ->
  hkept pr (dep_cst o pr d) c -> preserves pr d 0 (zpoint c).
Proof.
  intros W P Hd R U Z [L H]. assert (padded_dep pr d) as PD by (apply padded_dep_intro; auto).
  assert (S (length c) = cst_width pr) as Lc by exact L.
  apply valid_sound; auto. { rewrite zpoint_length; auto. }
  apply (zero_pads_qmem pr d); auto; [apply PD|apply (scatter_wf pr d 0 (tiling_valid_cst pr d)); auto|rewrite zpoint_length; auto|apply zpadding; auto|].
  apply qmem_zpoint. split; [exact L|]. intros r Hr. destruct (valid_scalable pr d r W PD Hd R U Hr) as [SC LC].
  apply H; auto. unfold dep_cst. rewrite R. unfold zero_pads in *. cbn [rows ncols] in *. rewrite map_app. apply in_or_app. left. exact Hr.
Qed.

Lemma add_dep_hkept o pr skip l : forall g inc x, ncols g = cst_width pr ->
  hkept pr (fst (fold_left (add_dep_cst o pr skip) l (g, inc))) x ->
  hkept pr g x /\ forall i d, In (i, d) l -> selected o skip i d = true -> hkept pr (dep_cst o pr d) x.
Proof.
  induction l as [|[i d] l IH]; intros g inc x Hg H.
  - split; auto. intros ? ? [].
  - cbn [fold_left] in H. unfold add_dep_cst at 2 in H. destruct (skip i || (negb (o_rar o) && d_rar d) || d_sat d) eqn:E.
    + destruct (IH g inc x Hg H) as [A B]. split; auto. intros i' d' [X|X] Y; [|eauto]. injection X as <- <-. unfold selected in Y. rewrite E in Y. discriminate.
    + cbv zeta in H. set (g' := cst_add g (dep_cst o pr d)) in *.
      assert (ncols g' = cst_width pr) as Hg' by exact Hg.
      assert (hkept pr g' x /\ forall i0 d0, In (i0, d0) l -> selected o skip i0 d0 = true -> hkept pr (dep_cst o pr d0) x) as [K1 K2].
      { destruct ((_ <=? _) && _) in H.
        - apply IH in H as [A B]; [|rewrite simplify_ncols; auto]. split; auto. destruct A as [A1 A2]. rewrite simplify_ncols in A1. split; auto.
          intros r Hr. apply (proj1 (simplify_hkept pr g' x) A2 r Hr).
        - apply IH in H; auto. }
      apply hkept_add in K1 as [K1 K3]; [|rewrite Hg; reflexivity]. split; auto.
      intros i' d' [X|X] Y; [injection X as <- <-; auto|eauto].
Qed.

Lemma perm_hkept o skip pr x i d : hkept pr (get_permutability_constraints o skip pr) x ->
  nth_error (p_deps pr) i = Some d -> selected o skip i d = true -> hkept pr (dep_cst o pr d) x.
Proof.
  intros [L H] Hi Hs. unfold get_permutability_constraints in *. rewrite simplify_ncols in L. rewrite simplify_hkept in H.
  destruct (add_dep_hkept o pr skip _ (universe (cst_width pr)) 0 x eq_refl (conj L H)) as [_ K]. apply (K i); auto.
  apply combine_seq_in. rewrite Nat.sub_0_r. split; [lia|auto].
Qed.

Lemma perm_hkept_int o skip pr c i d : wf_prog pr -> padded pr -> zpadding_zero pr c ->
  hkept pr (get_permutability_constraints o skip pr) c ->
  nth_error (p_deps pr) i = Some d -> skip i = false -> d_sat d = false -> d_rar d = false ->
  forall s t p, instance pr d s t p -> (aff (zhyp pr c (d_src d)) s <= aff (zhyp pr c (d_dst d)) t)%Z.
Proof.
  intros W P Z M Hi Sk Sa Ra s t p In.
  assert (padded_dep pr d) as PD by (apply padded_dep_intro; auto; eapply nth_error_In; eauto).
  apply (perm_hkept o skip pr c i d) in M; auto. 2:{ unfold selected. rewrite Sk, Sa, Ra, andb_false_r. reflexivity. }
  apply dep_hkept in M; auto. 2:{ eapply nth_error_In; eauto. }
  pose proof (preserves_int pr d 0 c PD P M s t p In). lia.
Qed.

(** ** Rows of one statement *)
Lemma stmt_row_scalable pr s r : (s < length (p_stmts pr))%nat -> length (coef r) = cst_width pr ->
  last (coef r) 0 <= 0 -> (is_eq r = true -> last (coef r) 0 = 0) ->
  (forall k, (k < cst_width pr - 1)%nat -> nth k (coef r) 0 <> 0 -> (stmt_offset pr s <= k < stmt_offset pr s + (p_nvar pr + 1))%nat) -> scalable pr r.
Proof.
  intros Hs L C E K. pose proof (cst_width_S pr) as CW. constructor; auto.
  - intros k Hk. destruct (Z.eq_dec (nth k (coef r) 0) 0) as [X|X]; auto. apply K in X; [|nia]. unfold stmt_offset in X. lia.
  - assert (forall u j, (u < length (p_stmts pr))%nat -> (j <= p_nvar pr)%nat -> nth (stmt_offset pr u + j) (coef r) 0 <> 0 -> u = s) as ST.
    { intros u j Hu Hj N. pose proof (offset_in pr u Hu). apply K in N; [|lia].
      destruct (Nat.lt_trichotomy u s) as [X|[X|X]]; auto; pose proof (FrameworkProofs.offset_disjoint pr _ _ X); lia. }
    intros u u' j j' H1 H2 H3 H4 X Y. apply ST in X; auto. apply ST in Y; auto. subst. apply conn_refl.
Qed.

Lemma eager_scalable isl_emptyb kernel o pr cur r :
  In r (rows (get_linear_ind_constraints isl_emptyb kernel o pr cur EAGER)) -> scalable pr r.
Proof.
  intros Hr. unfold get_linear_ind_constraints in Hr. cbv zeta in Hr.
  match type of Hr with context [match ?q with [] => _ | _ :: _ => _ end] => set (orth := q) in Hr; assert (In r (flat_map (fun l => rows (last l (mkCst (cst_width pr) []))) orth)) as Hf by (destruct orth; [destruct Hr|exact Hr]) end.
  clear Hr. apply in_flat_map in Hf as (l & Hl & Hr). apply filter_In in Hl as [Hl NE]. apply in_map_iff in Hl as (s & <- & Hs). apply in_seq in Hs.
  destruct (lin_ind_form isl_emptyb kernel o pr cur s) as [E|[_ E]]; [rewrite E in NE; discriminate|].
  rewrite E in Hr. destruct Hr as [<-|[]].
  pose proof (orth_sum_length isl_emptyb kernel o pr cur s) as L. pose proof (cst_width_S pr) as CW.
  apply (stmt_row_scalable pr s); cbn [coef is_eq].
  - lia.
  - rewrite set_nth_length. auto.
  - rewrite last_nth, set_nth_length, L. rewrite nth_set_nth_eq by lia. lia.
  - discriminate.
  - intros k Hk. rewrite nth_set_nth_neq by lia. intros N.
    destruct (Nat.lt_ge_cases k (stmt_offset pr s)) as [A|A]; [exfalso; apply N|destruct (Nat.lt_ge_cases k (stmt_offset pr s + (p_nvar pr + 1))) as [B|B]; [lia|exfalso; apply N]].
    all: unfold orth_sum; rewrite sum_rows_nth by apply orth_rows_length;
      assert (forall q, In q (orth_rows isl_emptyb kernel o pr cur s) -> nth k q 0 = 0) as Z0;
      [intros q Hq; unfold orth_rows in Hq; apply in_map_iff in Hq as (j & <- & _);
       match goal with |- context [orient_row _ _ _ _ ?v] => destruct (orient_row_pm isl_emptyb o pr cur v []) as (e & _ & _ & _ & ->) end;
       unfold spread_column; rewrite nth_map_seq by lia;
       destruct (Nat.leb_spec (stmt_offset pr s) k); [|cbn [andb]; lia];
       destruct (Nat.ltb_spec (k - stmt_offset pr s) (p_nvar pr)); [lia|cbn [andb]; lia]
      |induction (orth_rows isl_emptyb kernel o pr cur s) as [|a l IH]; cbn [map fold_right]; auto; rewrite Z0 by (simpl; auto); rewrite IH; auto; intros; apply Z0; simpl; auto].
Qed.

Lemma eager_kept isl_emptyb kernel o pr cur x : kept pr (get_linear_ind_constraints isl_emptyb kernel o pr cur EAGER) x ->
  mem (get_linear_ind_constraints isl_emptyb kernel o pr cur EAGER) x.
Proof. intros [L H]. split; auto. intros r Hr. apply H; auto. eapply eager_scalable; eauto. Qed.

(** ** Sound solvers *)
Lemma sound_keeps solve : solver_sound solve -> lexmin_keeps solve.
Proof.
  intros S pr c x W O Wc Nc NE H.
  apply (lexmin_sound pr (orig_first_wf pr O)) in H as [M Z]; auto.
  - split; auto. apply kept_mem; auto.
  - intros st Hst. apply (orig_first_mask pr st O Hst).
Qed.
#[global] Hint Resolve sound_keeps : core.
Lemma sound_hkeeps solve : solver_sound solve -> lexmin_hkeeps solve.
Proof. intros S. exact (sound_keeps solve S). Qed.
#[global] Hint Resolve sound_hkeeps : core.
