(** * Tiling: proofs. *)
From Coq Require Import ZArith List Bool Lia Arith.
From Verif Require Import SpecLinear MathModel ConstraintsModel VecProofs EditProofs MatrixProofs SpecProg SpecTile
  RankProofs FrameworkModel ProgModel DepProofs SimplifyProofs LexProofs ProgProofs TileModel.
Import ListNotations.
Open Scope Z_scope.

(** ** Constraints of a domain added to dependences *)
Lemma iter_add_dim_wf n c pos : wf_cst c -> wf_cst (Nat.iter n (fun c => add_dim c pos) c).
Proof. intros W. induction n; cbn [Nat.iter nat_rect]; auto. apply add_dim_wf; auto. Qed.
Lemma iter_add_dim_ncols n c pos : ncols (Nat.iter n (fun c => add_dim c pos) c) = (n + ncols c)%nat.
Proof. induction n; cbn [Nat.iter nat_rect]; auto. cbn. f_equal. apply IHn. Qed.

Lemma iter_add_dim_mem n c a b z : wf_cst c -> length b = n ->
  mem (Nat.iter n (fun c => add_dim c (length a)) c) (a ++ b ++ z) <-> mem c (a ++ z).
Proof.
  intros W. revert b. induction n; intros b Hb.
  - destruct b; [|discriminate]. reflexivity.
  - destruct b as [|v b]; [discriminate|]. injection Hb as Hb. cbn [Nat.iter nat_rect].
    replace (a ++ (v :: b) ++ z) with (insert_at (length a) v (a ++ b ++ z)).
    + rewrite add_dim_mem by (try apply iter_add_dim_wf; auto; rewrite app_length; lia). apply (IHn b Hb).
    + rewrite <- (Nat.add_0_r (length a)), insert_app_r. reflexivity.
Qed.

Lemma one_row_wf n b r : length r = n -> (1 <= n)%nat -> wf_cst (mkCst n [mkRow b r]).
Proof. intros. split; cbn; auto. intros x [<-|[]]. auto. Qed.
Lemma one_row_mem n r x : S (length x) = n -> mem (mkCst n [mkRow false r]) x <-> 0 <= aff r x.
Proof.
  intros H. unfold mem; cbn. split.
  - intros [_ K]. apply (K _ (or_introl eq_refl)).
  - intros K. split; auto. intros x' [<-|[]]. exact K.
Qed.

Lemma set_domain_stmt_of pr sid f s : (sid < length (p_stmts pr))%nat ->
  stmt_of (set_stmts pr (map_nth sid f (p_stmts pr))) s = if (s =? sid)%nat then f (stmt_of pr sid) else stmt_of pr s.
Proof. intros. apply stmt_of_map; auto. Qed.

Section AddRow.
Variables (pr : prog) (sid : nat) (r : list Z).
Hypothesis W : wf_core pr.
Hypothesis Hs : (sid < length (p_stmts pr))%nat.
Hypothesis Hr : length r = ncols (s_domain (stmt_of pr sid)).

Let dom := s_domain (stmt_of pr sid).
Let stf (st : stmt) : stmt :=
  set_domain st (mkCst (ncols (s_domain st)) (rows (s_domain st) ++ [mkRow false r])).
Let pr1 := set_stmts pr (map_nth sid stf (p_stmts pr)).
Let one := mkCst (ncols dom) [mkRow false r].
Let depf (d : dep) : dep :=
    let d1 := if (d_src d =? sid)%nat
              then set_polys d (cst_add (d_poly d)
                     (Nat.iter (s_dim (stmt_of pr1 (d_dst d))) (fun c => add_dim c (s_dim (stmt_of pr1 sid))) one)) (d_bpoly d)
              else d in
    if (d_dst d =? sid)%nat
    then set_polys d1 (cst_add (d_poly d1)
           (Nat.iter (s_dim (stmt_of pr1 (d_src d))) (fun c => add_dim c 0) one)) (d_bpoly d1)
    else d1.

Lemma adr_eq : add_domain_row pr sid r = set_deps pr1 (map depf (p_deps pr)).
Proof.
  unfold add_domain_row, update_deps. fold stf. fold pr1. cbv zeta.
  assert (select_row (s_domain (stmt_of pr1 sid)) (nrows (s_domain (stmt_of pr1 sid)) - 1) = one) as E.
  { unfold pr1. rewrite set_domain_stmt_of, Nat.eqb_refl by auto. unfold stf; cbn [set_domain s_domain].
    unfold select_row, nrows; cbn [rows ncols]. rewrite app_length; cbn [length].
    rewrite nth_error_app2 by lia. replace (_ + 1 - 1 - _)%nat with 0%nat by lia. reflexivity. }
  rewrite E. reflexivity.
Qed.

Lemma adr_stmt s : stmt_of (add_domain_row pr sid r) s = if (s =? sid)%nat then stf (stmt_of pr sid) else stmt_of pr s.
Proof. rewrite adr_eq. apply (set_domain_stmt_of pr sid stf s Hs). Qed.
Lemma adr_dim1 s : s_dim (stmt_of pr1 s) = s_dim (stmt_of pr s).
Proof. unfold pr1. rewrite set_domain_stmt_of by auto. destruct (Nat.eqb_spec s sid); subst; reflexivity. Qed.
Lemma adr_dim s : s_dim (stmt_of (add_domain_row pr sid r) s) = s_dim (stmt_of pr s).
Proof. rewrite adr_eq. apply adr_dim1. Qed.
Lemma adr_len : length (p_stmts (add_domain_row pr sid r)) = length (p_stmts pr).
Proof. rewrite adr_eq. cbn. apply map_nth_length. Qed.
Lemma adr_other s : let st' := stmt_of (add_domain_row pr sid r) s in let st := stmt_of pr s in
  s_trans st' = s_trans st /\ s_hyp st' = s_hyp st /\ s_reads st' = s_reads st /\ s_writes st' = s_writes st /\ s_orig st' = s_orig st /\
  ncols (s_domain st') = ncols (s_domain st).
Proof. cbv zeta. rewrite adr_stmt. destruct (Nat.eqb_spec s sid); subst; repeat split; reflexivity. Qed.

Lemma adr_dom x : mem (s_domain (stmt_of (add_domain_row pr sid r) sid)) x <-> mem dom x /\ 0 <= aff r x.
Proof.
  rewrite adr_stmt, Nat.eqb_refl. unfold stf; cbn [set_domain s_domain]. rewrite mem_app.
  fold dom. replace (mkCst (ncols dom) (rows dom)) with dom by (destruct dom; auto).
  split; intros [H1 H2]; split; auto. apply (H2 _ (or_introl eq_refl)). intros x' [<-|[]]. exact H2.
Qed.

Let nc : ncols dom = (s_dim (stmt_of pr sid) + p_npar pr + 1)%nat.
Proof. destruct (proj1 W _ (stmt_of_in pr sid Hs)) as ((A & B & C & D & E & F) & G). auto. Qed.

Lemma adr_one : wf_cst one.
Proof. apply one_row_wf. auto. rewrite nc. lia. Qed.

Lemma adr_ends d : d_src (depf d) = d_src d /\ d_dst (depf d) = d_dst d /\ d_rar (depf d) = d_rar d /\ d_sat (depf d) = d_sat d /\
  d_level (depf d) = d_level d /\ d_satvec (depf d) = d_satvec d.
Proof. unfold depf. destruct (_ =? _)%nat, (_ =? _)%nat; repeat split; reflexivity. Qed.

Lemma adr_poly d : In d (p_deps pr) ->
  wf_cst (d_poly (depf d)) /\ ncols (d_poly (depf d)) = ncols (d_poly d) /\
  forall s t p, length s = s_dim (stmt_of pr (d_src d)) -> length t = s_dim (stmt_of pr (d_dst d)) -> length p = p_npar pr ->
    (mem (d_poly (depf d)) (s ++ t ++ p) <->
     mem (d_poly d) (s ++ t ++ p) /\ (d_src d = sid -> 0 <= aff r (s ++ p)) /\ (d_dst d = sid -> 0 <= aff r (t ++ p))).
Proof.
  intros Hd. destruct (proj2 W d Hd) as (A1 & A2 & A3 & A4).
  assert (forall c1 c2, wf_cst c1 -> wf_cst c2 -> ncols c1 = ncols c2 -> wf_cst (cst_add c1 c2)) as Wadd.
  { intros c1 c2 [X1 X2] [Y1 Y2] E. split; cbn; auto. intros x Hx. apply in_app_iff in Hx as [Hx|Hx]; auto. rewrite E; auto. }
  unfold depf. cbv zeta.
  set (c1 := Nat.iter (s_dim (stmt_of pr1 (d_dst d))) _ one).
  set (c2 := Nat.iter (s_dim (stmt_of pr1 (d_src d))) _ one).
  assert (wf_cst c1 /\ wf_cst c2) as [W1 W2] by (split; apply iter_add_dim_wf, adr_one).
  assert (d_src d = sid -> ncols (d_poly d) = ncols c1) as N1.
  { intros E. unfold c1. rewrite iter_add_dim_ncols. cbn [one ncols]. rewrite nc, adr_dim1, <- E. lia. }
  assert (d_dst d = sid -> ncols (d_poly d) = ncols c2) as N2.
  { intros E. unfold c2. rewrite iter_add_dim_ncols. cbn [one ncols]. rewrite nc, adr_dim1, <- E. lia. }
  assert (d_src d = sid -> forall s t p, length s = s_dim (stmt_of pr (d_src d)) -> length t = s_dim (stmt_of pr (d_dst d)) -> length p = p_npar pr ->
     (mem c1 (s ++ t ++ p) <-> 0 <= aff r (s ++ p))) as M1.
  { intros E s t p Ls Lt Lp. unfold c1. rewrite !adr_dim1. replace (s_dim (stmt_of pr sid)) with (length s) by (rewrite Ls, E; auto).
    rewrite iter_add_dim_mem by (auto using adr_one). apply one_row_mem. rewrite app_length, nc, <- E. lia. }
  assert (d_dst d = sid -> forall s t p, length s = s_dim (stmt_of pr (d_src d)) -> length t = s_dim (stmt_of pr (d_dst d)) -> length p = p_npar pr ->
     (mem c2 (s ++ t ++ p) <-> 0 <= aff r (t ++ p))) as M2.
  { intros E s t p Ls Lt Lp. unfold c2. rewrite !adr_dim1.
    pose proof (iter_add_dim_mem (s_dim (stmt_of pr (d_src d))) one [] s (t ++ p) adr_one Ls) as K. cbn [app length] in K.
    rewrite K. apply one_row_mem. rewrite app_length, nc, <- E. lia. }
  destruct (Nat.eqb_spec (d_src d) sid) as [E1|E1], (Nat.eqb_spec (d_dst d) sid) as [E2|E2]; cbn [set_polys d_poly].
  - split; [|split; [reflexivity|]]. apply Wadd; auto. cbn; auto.
    intros s t p Ls Lt Lp. rewrite !cst_add_mem by (cbn; auto). rewrite M1, M2 by auto. tauto.
  - split; [|split; [reflexivity|]]. apply Wadd; auto.
    intros s t p Ls Lt Lp. rewrite !cst_add_mem by (cbn; auto). rewrite M1 by auto. tauto.
  - split; [|split; [reflexivity|]]. apply Wadd; auto.
    intros s t p Ls Lt Lp. rewrite !cst_add_mem by (cbn; auto). rewrite M2 by auto. tauto.
  - split; auto. split; auto. intros s t p Ls Lt Lp. tauto.
Qed.

Lemma adr_wf : wf_core (add_domain_row pr sid r).
Proof.
  split.
  - intros st Hst. rewrite adr_eq in Hst. cbn [set_deps set_stmts p_stmts pr1] in Hst.
    apply in_map_nth in Hst; auto.
    assert (p_npar (add_domain_row pr sid r) = p_npar pr) as En by (rewrite adr_eq; auto).
    destruct Hst as [Hst| ->].
    + destruct (proj1 W _ Hst) as (A & B). split; auto.
    + destruct (proj1 W _ (stmt_of_in pr sid Hs)) as ((A & B & C & D & E & F) & G). split; [|exact G].
      repeat (split; [assumption|]). split; [|split; [exact E|exact F]].
      destruct D as [D1 D2]. split; [exact D1|]. unfold stf; cbn. intros x Hx.
      apply in_app_iff in Hx as [Hx|[<-|[]]]; auto.
  - rewrite adr_len. intros d Hd. rewrite adr_eq in Hd. cbn [set_deps p_deps] in Hd. apply in_map_iff in Hd as (d0 & <- & Hd).
    destruct (adr_ends d0) as (E1 & E2 & _). destruct (adr_poly d0 Hd) as (P1 & P2 & _).
    destruct (proj2 W d0 Hd) as (A1 & A2 & A3 & A4). rewrite E1, E2, P2, !adr_dim. auto.
Qed.

Lemma adr_deps : Forall2 (fun d d' =>
     d_src d' = d_src d /\ d_dst d' = d_dst d /\ d_rar d' = d_rar d /\ d_sat d' = d_sat d /\ d_level d' = d_level d /\
     forall x y p, instance (add_domain_row pr sid r) d' x y p <-> instance pr d x y p /\
       (d_src d = sid -> 0 <= aff r (x ++ p)) /\ (d_dst d = sid -> 0 <= aff r (y ++ p)))
  (p_deps pr) (p_deps (add_domain_row pr sid r)).
Proof.
  assert (forall d, In d (p_deps pr) -> forall x y p, instance (add_domain_row pr sid r) (depf d) x y p <-> instance pr d x y p /\
       (d_src d = sid -> 0 <= aff r (x ++ p)) /\ (d_dst d = sid -> 0 <= aff r (y ++ p))) as K.
  { intros d Hd x y p. destruct (adr_ends d) as (E1 & E2 & _). destruct (adr_poly d Hd) as (P1 & P2 & P3).
    unfold instance. rewrite E1, E2, !adr_dim.
    assert (p_npar (add_domain_row pr sid r) = p_npar pr) as En by (rewrite adr_eq; auto). rewrite En.
    split.
    - intros (L1 & L2 & L3 & M). apply P3 in M; auto. tauto.
    - intros ((L1 & L2 & L3 & M) & X). repeat (split; [assumption|]). apply P3; auto. }
  replace (p_deps (add_domain_row pr sid r)) with (map depf (p_deps pr)) by (rewrite adr_eq; auto).
  induction (p_deps pr) as [|d l IH]; simpl; constructor.
  - destruct (adr_ends d) as (E1 & E2 & E3 & E4 & E5 & E6). repeat (split; [assumption|]). apply K. simpl; auto.
  - apply IH. intros; apply K; simpl; auto.
Qed.
End AddRow.

(** ** The rows of a tile *)
Lemma nth_add_const v r j : nth j (add_const v r) 0 = (if (S j =? length r)%nat then nth j r 0 + v else nth j r 0).
Proof.
  unfold add_const. rewrite map_nth_nth. natb; subst; try lia; auto.
Qed.
Lemma tile_row_eq t0 nsup w sign T extra : length t0 = (w - 1)%nat -> (nsup + 2 <= w)%nat ->
  (forall j, (j < nsup)%nat -> nth j t0 0 = 0) ->
  tile_row (insert_at nsup 0 t0) nsup w sign T extra =
  insert_at nsup (- (sign * T)) (add_const extra (map (Z.mul sign) t0)).
Proof.
  intros Hl Hn Hz. apply (list_eq_nth 0).
  - unfold tile_row. rewrite map_length, seq_length, insert_at_length, add_const_length, map_length. lia.
  - intros j Hj. unfold tile_row in *. rewrite map_length, seq_length in Hj. rewrite nth_map_seq by auto.
    assert (forall j, nth j (map (Z.mul sign) t0) 0 = sign * nth j t0 0) as N.
    { intros j'. rewrite <- (Z.mul_0_r sign) at 1. apply List.map_nth. }
    destruct (Nat.lt_trichotomy j nsup) as [L|[L|L]].
    + rewrite !nth_insert_at_lt by (rewrite ?add_const_length, ?map_length; lia).
      rewrite nth_add_const, N, map_length, Hz by auto. natb; try lia.
    + subst j. rewrite !nth_insert_at_eq by (rewrite ?add_const_length, ?map_length; lia).
      natb; try lia.
    + destruct j as [|j]; [lia|].
      rewrite !nth_insert_at_ge by (rewrite ?add_const_length, ?map_length; lia).
      rewrite nth_add_const, N, map_length. natb; try lia.
Qed.

Lemma zero_insert n dim (r : list Z) : (n <= dim)%nat -> (dim <= length r)%nat ->
  ((forall j, (j < S dim)%nat -> nth j (insert_at n 0 r) 0 = 0) <-> (forall j, (j < dim)%nat -> nth j r 0 = 0)).
Proof.
  intros H1 H2. split; intros H j Hj.
  - destruct (Nat.lt_ge_cases j n).
    + rewrite <- (H j) at 2 by lia. symmetry. apply nth_insert_at_lt; lia.
    + rewrite <- (H (S j)) at 2 by lia. symmetry. apply nth_insert_at_ge; lia.
  - destruct (Nat.lt_trichotomy j n) as [L|[->|L]].
    + rewrite nth_insert_at_lt by lia. apply H; lia.
    + apply nth_insert_at_eq; lia.
    + destruct j; [lia|]. rewrite nth_insert_at_ge by lia. apply H; lia.
Qed.

(** What one step does to the types: [lv] is the level that is tiled. *)
Definition type_step (st st' : stmt) (depth lv : nat) : Prop :=
  (forall l, (l < depth)%nat -> nth l (s_hyp st') H_UNKNOWN = nth l (s_hyp st) H_UNKNOWN) /\
  loop_level st' depth = loop_level st lv /\ (types_ok st -> types_ok st').

(** What one step does to the rows from [depth] on: [ins] is what happens to
    the columns. *)
Definition row_step (st st' : stmt) (depth : nat) (ins : list Z -> list Z) : Prop :=
  s_evict st' = s_evict st /\ s_dim_orig st' = s_dim_orig st /\
  forall l, (depth <= l < mnrows (s_trans st))%nat ->
    nth (S l) (mrows (s_trans st')) [] = ins (nth l (mrows (s_trans st)) []).

(** ** One step: what tiling one level of one statement does *)

(** [pr'] is [pr] with one level inserted at [depth] in the schedule of statement
    [sid]; iteration [i] of the statement becomes iteration [E i p], the
    value of the new level is [tau i p]; the first [n] columns of the rows from
    [depth] on were zero and the first [n'] are now zero. *)
Definition stepped (pr pr' : prog) (sid depth n n' : nat) (E : point -> point -> point) (tau : point -> point -> Z) : Prop :=
  wf_core pr' /\
  length (p_stmts pr') = length (p_stmts pr) /\ p_npar pr' = p_npar pr /\ p_hprops pr' = p_hprops pr /\
  (forall s, s <> sid -> stmt_of pr' s = stmt_of pr s) /\
  (s_dim (stmt_of pr' sid) + n = s_dim (stmt_of pr sid) + n')%nat /\
  mnrows (s_trans (stmt_of pr' sid)) = S (mnrows (s_trans (stmt_of pr sid))) /\
  (forall l, (depth <= l)%nat -> nth (S l) (s_hyp (stmt_of pr' sid)) H_UNKNOWN = nth l (s_hyp (stmt_of pr sid)) H_UNKNOWN) /\
  (forall l, (depth <= l < mnrows (s_trans (stmt_of pr sid)))%nat ->
     (forall j, (j < n)%nat -> nth j (nth l (mrows (s_trans (stmt_of pr sid))) []) 0 = 0) ->
     (forall j, (j < n')%nat -> nth j (nth (S l) (mrows (s_trans (stmt_of pr' sid))) []) 0 = 0)) /\
  (forall x p, length p = p_npar pr ->
     (iteration (stmt_of pr' sid) x p <-> exists i, iteration (stmt_of pr sid) i p /\ x = E i p)) /\
  (forall i p, length i = s_dim (stmt_of pr sid) -> length p = p_npar pr ->
     length (E i p) = s_dim (stmt_of pr' sid) /\
     timestamp (stmt_of pr' sid) (E i p) p = insert_at depth (tau i p) (timestamp (stmt_of pr sid) i p) /\
     map (access_val (E i p) p) (s_reads (stmt_of pr' sid)) = map (access_val i p) (s_reads (stmt_of pr sid)) /\
     map (access_val (E i p) p) (s_writes (stmt_of pr' sid)) = map (access_val i p) (s_writes (stmt_of pr sid))) /\
  Forall2 (fun d d' =>
     d_src d' = d_src d /\ d_dst d' = d_dst d /\ d_rar d' = d_rar d /\ d_sat d' = d_sat d /\ d_level d' = d_level d /\
     forall x y p, instance pr' d' x y p <->
       exists s t, instance pr d s t p /\ x = (if (d_src d =? sid)%nat then E s p else s) /\
                   y = (if (d_dst d =? sid)%nat then E t p else t))
    (p_deps pr) (p_deps pr').

Lemma core_add_dim pr sid pos k ht : wf_core pr -> (sid < length (p_stmts pr))%nat ->
  (pos <= s_dim (stmt_of pr sid))%nat -> (k <= mnrows (s_trans (stmt_of pr sid)))%nat ->
  wf_core (stmt_add_dim pr sid pos (Some k) ht).
Proof.
  intros [W1 W2] Hs Hpos Hk. set (pr' := stmt_add_dim pr sid pos (Some k) ht). split.
  - intros st Hst. apply in_map_nth in Hst; auto. destruct Hst as [Hst| ->].
    + destruct (W1 st Hst); split; auto.
    + destruct (W1 _ (stmt_of_in pr sid Hs)) as ((A & B & C & D & E & F) & G).
      destruct (add_dim_trans_wf (p_npar pr) (stmt_of pr sid) pos (Some k) ht) as [G1 G2]; auto.
      split.
      * unfold wf_cols. change (p_npar pr') with (p_npar pr).
        split; [cbn; rewrite insert_at_length; lia|]. split; [rewrite G2; cbn; lia|]. split; [auto|].
        split; [cbn; apply add_dim_wf; auto|]. split; [cbn; lia|].
        intros a Ha. cbn in Ha. rewrite <- map_app in Ha. apply in_map_iff in Ha as (a0 & <- & Ha0).
        destruct (F a0 Ha0). split. apply add_col_wf; auto. cbn; lia.
      * cbn. rewrite insert_at_length, G. unfold mnrows. cbn. rewrite map_nth_length, insert_at_length, map_length. reflexivity.
  - intros d Hd. cbn in Hd. apply in_map_iff in Hd as (d0 & <- & Hd0).
    destruct (W2 d0 Hd0) as (S1 & S2 & X1 & X2).
    change (map_nth sid (stmt_add_dim1 pos (Some k) ht) (p_stmts pr)) with (p_stmts pr').
    pose proof (dep_add_poly pr sid pos (Some k) ht d0) as E1. apply proj1 in E1. fold pr' in E1.
    set (d' := dep_add_dim sid pos (p_stmts pr') d0) in *.
    assert (d_src d' = d_src d0) as Es by (unfold d', dep_add_dim; destruct (_ =? _)%nat, (_ =? _)%nat; auto).
    assert (d_dst d' = d_dst d0) as Ed by (unfold d', dep_add_dim; destruct (_ =? _)%nat, (_ =? _)%nat; auto).
    rewrite Es, Ed. unfold d' in *. rewrite E1.
    assert (forall s, s_dim (stmt_of pr' s) = (s_dim (stmt_of pr s) + if (s =? sid)%nat then 1 else 0)%nat) as Dm
      by (intros; apply add_dim_dims; auto).
    assert (length (p_stmts pr') = length (p_stmts pr)) as Ln by apply add_dim_len.
    rewrite !Dm, Ln. change (p_npar pr') with (p_npar pr).
    repeat (split; [first [lia|apply poly_add_wf; auto]|]).
    rewrite !poly_add_ncols by auto. lia.
Qed.

Lemma floor_iff T h v : 1 <= T -> (0 <= - T * v + h /\ 0 <= T * v - h + (T - 1)) <-> v = h / T.
Proof.
  intros HT. split.
  - intros [H1 H2]. apply Z.div_unique with (r := h - T * v); lia.
  - intros ->. pose proof (Z.div_mod h T ltac:(lia)). pose proof (Z.mod_pos_bound h T ltac:(lia)). lia.
Qed.

Lemma tile_row_aff t0 nsup dim npar sign T extra v i p : length t0 = (dim + npar + 1)%nat -> (nsup <= dim)%nat ->
  (forall j, (j < nsup)%nat -> nth j t0 0 = 0) -> length i = dim -> length p = npar ->
  length (tile_row (insert_at nsup 0 t0) nsup (dim + npar + 2) sign T extra) = (dim + npar + 2)%nat /\
  aff (tile_row (insert_at nsup 0 t0) nsup (dim + npar + 2) sign T extra) (insert_at nsup v i ++ p) =
  - (sign * T) * v + sign * aff t0 (i ++ p) + extra.
Proof.
  intros L Hn Hz Li Lp. rewrite tile_row_eq by (auto; lia).
  split. rewrite insert_at_length, add_const_length, map_length. lia.
  rewrite <- insert_at_app by lia.
  rewrite aff_insert_both by (rewrite ?add_const_length, ?map_length, ?app_length; lia).
  rewrite add_const_aff by (rewrite map_length, app_length; lia). rewrite aff_map_mul. ring.
Qed.

Lemma Forall2_map_r {A B C} (R : A -> C -> Prop) (f : B -> C) l l' :
  Forall2 (fun a b => R a (f b)) l l' -> Forall2 R l (map f l').
Proof. induction 1; simpl; constructor; auto. Qed.
Lemma Forall2_map_l {A B C} (R : C -> B -> Prop) (f : A -> C) l l' :
  Forall2 R (map f l) l' -> Forall2 (fun a b => R (f a) b) l l'.
Proof. revert l'. induction l; simpl; intros l' H; inversion H; subst; constructor; auto. Qed.
Lemma Forall2_diag {A} (R : A -> A -> Prop) l : (forall a, In a l -> R a a) -> Forall2 R l l.
Proof. induction l; constructor. apply H; simpl; auto. apply IHl. intros; apply H; simpl; auto. Qed.
Lemma Forall2_trans' {A} (R1 R2 R3 : A -> A -> Prop) l1 l2 l3 :
  (forall a b c, R1 a b -> R2 b c -> R3 a c) -> Forall2 R1 l1 l2 -> Forall2 R2 l2 l3 -> Forall2 R3 l1 l3.
Proof.
  intros H F1. revert l3. induction F1; intros l3 F2; inversion F2; subst; constructor; eauto.
Qed.
Lemma Forall2_impl_in {A B} (R R' : A -> B -> Prop) l l' :
  (forall a b, In a l -> R a b -> R' a b) -> Forall2 R l l' -> Forall2 R' l l'.
Proof. intros H F. induction F; constructor. apply H; simpl; auto. apply IHF. intros; apply H; simpl; auto. Qed.

Section StepLoop.
Variables (b : band) (pr : prog) (sid k nsup : nat) (T : Z).
Let depth := (b_first b + k)%nat.
Let st := stmt_of pr sid.
Hypothesis W : wf_core pr.
Hypothesis Hs : (sid < length (p_stmts pr))%nat.
Hypothesis Hn : (nsup <= s_dim st)%nat.
Hypothesis Hd : (depth + k < mnrows (s_trans st))%nat.
Hypothesis HT : 1 <= T.
Hypothesis Hz : forall j, (j < nsup)%nat -> nth j (nth (depth + k) (mrows (s_trans st)) []) 0 = 0.
Hypothesis Hloop : loop_level st (depth + k) = true.

Let tau (i p : point) : Z := theta st (depth + k) i p / T.
Let E (i p : point) : point := insert_at nsup (tau i p) i.
Let pr1 := stmt_add_dim pr sid nsup (Some depth) H_TILE_SPACE_LOOP.
Let t0 := nth (depth + k) (mrows (s_trans st)) [].
Let npar := p_npar pr.
Let rlo := tile_row (insert_at nsup 0 t0) nsup (s_dim st + npar + 2) 1 T 0.
Let rhi := tile_row (insert_at nsup 0 t0) nsup (s_dim st + npar + 2) (-1) T (T - 1).
Let pr2 := add_domain_row pr1 sid rlo.
Let pr3 := add_domain_row pr2 sid rhi.

Lemma sl_core : wf_cols pr st /\ length (s_hyp st) = mnrows (s_trans st).
Proof. apply (proj1 W). apply stmt_of_in. auto. Qed.

Lemma sl_st1 : stmt_of pr1 sid = stmt_add_dim1 nsup (Some depth) H_TILE_SPACE_LOOP st.
Proof. unfold pr1. rewrite add_dim_stmt by auto. rewrite Nat.eqb_refl. reflexivity. Qed.

Lemma sl_t0len : length t0 = (s_dim st + npar + 1)%nat.
Proof.
  destruct sl_core as ((A & B & C & D & EE & F) & G). unfold t0. rewrite (C (nth (depth + k) (mrows (s_trans st)) [])). auto.
  apply nth_In. auto.
Qed.

Lemma sl_row l : (depth <= l < mnrows (s_trans st))%nat ->
  nth (S l) (mrows (s_trans (stmt_of pr1 sid))) [] = insert_at nsup 0 (nth l (mrows (s_trans st)) []).
Proof.
  intros Hl. rewrite sl_st1. unfold stmt_add_dim1; cbn [s_trans mrows mncols matrix_add_col matrix_add_row].
  unfold mnrows in Hl.
  rewrite map_nth_insert by (rewrite map_length; lia).
  rewrite nth_insert_at_ge by (rewrite ?map_length; lia).
  rewrite (nth_indep _ [] (insert_at nsup 0 [])) by (rewrite map_length; lia). apply List.map_nth.
Qed.

Lemma sl_eq : tile_step b pr sid k nsup T =
  (set_stmts pr3 (map_nth sid (fun st => set_tile st (S (s_num_tiled st)) (Z.of_nat (b_first b))
     (Z.of_nat (b_first b + length (b_sizes b)) - 1)) (p_stmts pr3)), S nsup).
Proof.
  unfold tile_step. fold depth. fold st. rewrite Hloop. fold pr1.
  replace (depth + k + 1)%nat with (S (depth + k)) by lia. rewrite sl_row by lia. fold t0.
  destruct sl_core as ((A & B & C & D & EE & F) & G).
  assert (ncols (s_domain (stmt_of pr1 sid)) = (s_dim st + npar + 2)%nat) as Ew.
  { rewrite sl_st1. cbn. rewrite EE. unfold npar. lia. }
  rewrite Ew. reflexivity.
Qed.

Lemma sl_wf1 : wf_core pr1.
Proof. apply core_add_dim; auto. fold st; lia. Qed.
Lemma sl_len1 : length (p_stmts pr1) = length (p_stmts pr).
Proof. apply add_dim_len. Qed.
Lemma sl_lo x : length rlo = (s_dim st + npar + 2)%nat /\ length rhi = (s_dim st + npar + 2)%nat /\
  forall v i p, length i = s_dim st -> length p = npar -> x = insert_at nsup v i ->
    (0 <= aff rlo (x ++ p) /\ 0 <= aff rhi (x ++ p) <-> v = tau i p).
Proof.
  pose proof sl_t0len as L.
  split; [|split].
  - apply (proj1 (tile_row_aff t0 nsup (s_dim st) npar 1 T 0 0 (repeat 0 (s_dim st)) (repeat 0 npar) L Hn Hz (repeat_length _ _) (repeat_length _ _))).
  - apply (proj1 (tile_row_aff t0 nsup (s_dim st) npar (-1) T (T-1) 0 (repeat 0 (s_dim st)) (repeat 0 npar) L Hn Hz (repeat_length _ _) (repeat_length _ _))).
  - intros v i p Li Lp ->. unfold rlo, rhi.
    rewrite (proj2 (tile_row_aff t0 nsup (s_dim st) npar 1 T 0 v i p L Hn Hz Li Lp)).
    rewrite (proj2 (tile_row_aff t0 nsup (s_dim st) npar (-1) T (T-1) v i p L Hn Hz Li Lp)).
    unfold tau. rewrite <- floor_iff by auto. unfold theta. fold t0. split; intros [H1 H2]; split; lia.
Qed.

Lemma sl_hr1 : length rlo = ncols (s_domain (stmt_of pr1 sid)).
Proof.
  destruct (sl_lo []) as (L1 & _). rewrite L1, sl_st1. cbn.
  destruct sl_core as ((A & B & C & D & EE & F) & G). rewrite EE. unfold npar. lia.
Qed.
Lemma sl_hs1 : (sid < length (p_stmts pr1))%nat.
Proof. rewrite sl_len1. auto. Qed.
Lemma sl_wf2 : wf_core pr2.
Proof. apply adr_wf. apply sl_wf1. apply sl_hs1. apply sl_hr1. Qed.
Lemma sl_len2 : length (p_stmts pr2) = length (p_stmts pr).
Proof. unfold pr2. rewrite adr_len by (auto using sl_wf1, sl_hs1, sl_hr1). apply sl_len1. Qed.
Lemma sl_hs2 : (sid < length (p_stmts pr2))%nat.
Proof. rewrite sl_len2. auto. Qed.
Lemma sl_hr2 : length rhi = ncols (s_domain (stmt_of pr2 sid)).
Proof.
  unfold pr2. rewrite (proj2 (proj2 (proj2 (proj2 (proj2 (adr_other pr1 sid rlo sl_hs1 sl_hr1 sid)))))).
  rewrite <- sl_hr1. destruct (sl_lo []) as (L1 & L2 & _). lia.
Qed.

Lemma sl_lohi x p v i : length i = s_dim st -> length p = npar -> x = insert_at nsup v i ->
    (0 <= aff rlo (x ++ p) /\ 0 <= aff rhi (x ++ p) <-> v = tau i p).
Proof. destruct (sl_lo x) as (_ & _ & H). apply H. Qed.

Let mark (st : stmt) := set_tile st (S (s_num_tiled st)) (Z.of_nat (b_first b)) (Z.of_nat (b_first b + length (b_sizes b)) - 1).
Let pr' := set_stmts pr3 (map_nth sid mark (p_stmts pr3)).

Lemma sl_len3 : length (p_stmts pr3) = length (p_stmts pr).
Proof. unfold pr3. rewrite adr_len by (auto using sl_wf2, sl_hs2, sl_hr2). apply sl_len2. Qed.
Lemma sl_hs3 : (sid < length (p_stmts pr3))%nat.
Proof. rewrite sl_len3. auto. Qed.
Lemma sl_st' s : stmt_of pr' s = if (s =? sid)%nat then mark (stmt_of pr3 sid) else stmt_of pr3 s.
Proof. apply set_domain_stmt_of. apply sl_hs3. Qed.
Lemma sl_mark s : exists c, stmt_of pr' s = (if (s =? sid)%nat then mark (set_domain (stmt_of pr1 sid) c) else stmt_of pr s).
Proof.
  rewrite sl_st'. unfold pr3, pr2. rewrite !adr_stmt by (auto using sl_hs1, sl_hs2, sl_hr1, sl_hr2).
  rewrite Nat.eqb_refl. destruct (Nat.eqb_spec s sid).
  - eexists. reflexivity.
  - exists (mkCst 0 []). unfold pr1. rewrite add_dim_stmt by auto. rewrite (proj2 (Nat.eqb_neq _ _) n). auto.
Qed.
Lemma sl_dim s : s_dim (stmt_of pr' s) = s_dim (stmt_of pr1 s).
Proof.
  destruct (sl_mark s) as [c ->]. destruct (Nat.eqb_spec s sid).
  - subst. reflexivity.
  - unfold pr1. rewrite add_dim_stmt by auto. rewrite (proj2 (Nat.eqb_neq _ _) n). auto.
Qed.
Lemma sl_dim3 s : s_dim (stmt_of pr' s) = s_dim (stmt_of pr3 s).
Proof. rewrite sl_st'. destruct (Nat.eqb_spec s sid); subst; reflexivity. Qed.
Lemma sl_npar3 : p_npar pr3 = npar.
Proof. unfold pr3, pr2. rewrite !adr_eq by (auto using sl_hs1, sl_hs2, sl_hr1, sl_hr2). reflexivity. Qed.

Lemma sl_wf3 : wf_core pr3.
Proof. apply adr_wf. apply sl_wf2. apply sl_hs2. apply sl_hr2. Qed.
Lemma sl_wf' : wf_core pr'.
Proof.
  destruct sl_wf3 as [W1 W2]. split.
  - intros s Hs'. apply in_map_nth in Hs'; [|apply sl_hs3]. destruct Hs' as [H| ->].
    + exact (W1 s H).
    + exact (W1 _ (stmt_of_in pr3 sid sl_hs3)).
  - intros d Hd'. destruct (W2 d Hd') as (A1 & A2 & A3 & A4).
    rewrite !sl_dim3. replace (length (p_stmts pr')) with (length (p_stmts pr3)) by (symmetry; apply map_nth_length).
    auto.
Qed.

Lemma sl_dom x : mem (s_domain (stmt_of pr' sid)) x <->
  mem (add_dim (s_domain st) nsup) x /\ 0 <= aff rlo x /\ 0 <= aff rhi x.
Proof.
  rewrite sl_st', Nat.eqb_refl. cbn [mark set_tile s_domain]. unfold pr3, pr2.
  rewrite adr_dom by (auto using sl_hs2, sl_hr2). rewrite adr_dom by (auto using sl_hs1, sl_hr1).
  rewrite sl_st1. cbn [stmt_add_dim1 s_domain]. tauto.
Qed.

Lemma sl_split (x : point) : length x = S (s_dim st) -> exists (v : Z) (i : point), x = insert_at nsup v i /\ length i = s_dim st.
Proof.
  intros L. exists (nth nsup x 0), (remove_at nsup x). split. symmetry; apply insert_remove'. lia.
  rewrite remove_at_length by lia. lia.
Qed.
Lemma sl_inj (v w : Z) (i j : point) : length i = s_dim st -> length j = s_dim st -> insert_at nsup v i = insert_at nsup w j -> v = w /\ i = j.
Proof.
  intros Li Lj H. split.
  - rewrite <- (nth_insert_at_eq nsup v 0 i), H by lia. apply nth_insert_at_eq. lia.
  - rewrite <- (remove_insert nsup v i), H by lia. apply remove_insert. lia.
Qed.

Lemma sl_iter x p : length p = npar ->
  (iteration (stmt_of pr' sid) x p <-> exists i, iteration st i p /\ x = E i p).
Proof.
  intros Lp. destruct sl_core as ((A & B & C & D & EE & F) & G).
  unfold iteration. rewrite sl_dom, sl_dim. replace (s_dim (stmt_of pr1 sid)) with (S (s_dim st)) by (rewrite sl_st1; reflexivity).
  split.
  - intros (L & M1 & M2). destruct (sl_split x L) as (v & i & -> & Li). exists i.
    apply (sl_lohi _ p v i Li Lp eq_refl) in M2. unfold E. rewrite <- M2. split; auto. split; auto.
    rewrite <- insert_at_app in M1 by lia. apply add_dim_mem in M1; auto. rewrite app_length. lia.
  - intros (i & (Li & M) & ->). unfold E. split. rewrite insert_at_length. lia. split.
    + rewrite <- insert_at_app by lia. apply add_dim_mem; auto. rewrite app_length. lia.
    + apply (sl_lohi _ p _ i Li Lp eq_refl). reflexivity.
Qed.

Lemma sl_deps : Forall2 (fun d d' =>
     d_src d' = d_src d /\ d_dst d' = d_dst d /\ d_rar d' = d_rar d /\ d_sat d' = d_sat d /\ d_level d' = d_level d /\
     forall x y p, instance pr' d' x y p <->
       exists s t, instance pr d s t p /\ x = (if (d_src d =? sid)%nat then E s p else s) /\
                   y = (if (d_dst d =? sid)%nat then E t p else t))
    (p_deps pr) (p_deps pr').
Proof.
  pose proof (adr_deps pr1 sid rlo sl_wf1 sl_hs1 sl_hr1) as F1. fold pr2 in F1.
  pose proof (adr_deps pr2 sid rhi sl_wf2 sl_hs2 sl_hr2) as F2. fold pr3 in F2.
  assert (Forall2 (fun d d' =>
     d_src d' = d_src d /\ d_dst d' = d_dst d /\ d_rar d' = d_rar d /\ d_sat d' = d_sat d /\ d_level d' = d_level d /\
     forall x y p, instance pr3 d' x y p <-> instance pr1 d x y p /\
       (d_src d = sid -> 0 <= aff rlo (x ++ p) /\ 0 <= aff rhi (x ++ p)) /\
       (d_dst d = sid -> 0 <= aff rlo (y ++ p) /\ 0 <= aff rhi (y ++ p))) (p_deps pr1) (p_deps pr3)) as F.
  { eapply Forall2_trans'; [|exact F1|exact F2].
    intros a b0 c (A1 & A2 & A3 & A4 & A5 & A6) (B1 & B2 & B3 & B4 & B5 & B6).
    rewrite B1, B2, B3, B4, B5. repeat (split; [assumption|]). intros x y p. rewrite B6, A6, A1, A2. tauto. }
  clear F1 F2. change (p_deps pr') with (p_deps pr3).
  change (p_deps pr1) with (map (dep_add_dim sid nsup (p_stmts pr1)) (p_deps pr)) in F.
  apply Forall2_map_l in F. eapply Forall2_impl_in; [|exact F]. clear F.
  intros d y1 Hd' X. destruct (proj2 W d Hd') as (H1 & H2 & Wd & _).
  destruct X as (A1 & A2 & A3 & A4 & A5 & A6).
  set (d1 := dep_add_dim sid nsup (p_stmts pr1) d) in *.
  assert (d_src d1 = d_src d /\ d_dst d1 = d_dst d /\ d_rar d1 = d_rar d /\ d_sat d1 = d_sat d /\ d_level d1 = d_level d) as (B1 & B2 & B3 & B4 & B5)
    by (unfold d1, dep_add_dim; destruct (_ =? _)%nat, (_ =? _)%nat; repeat split; reflexivity).
  rewrite A1, A2, A3, A4, A5. repeat (split; [assumption|]). intros x y p.
  assert (instance pr' y1 x y p <-> instance pr3 y1 x y p) as I3.
  { unfold instance. rewrite !sl_dim3. reflexivity. }
  rewrite I3, A6, B1, B2. clear I3 A6.
  assert (forall s t v w, length s = s_dim (stmt_of pr (d_src d)) -> length t = s_dim (stmt_of pr (d_dst d)) ->
    (instance pr1 d1 (widen sid nsup (d_src d) v s) (widen sid nsup (d_dst d) w t) p <-> instance pr d s t p)) as KI.
  { intros s t v w Ls Lt. pose proof (proj1 (dep_add_poly pr sid nsup (Some depth) H_TILE_SPACE_LOOP d)) as E1.
    fold pr1 in E1. fold d1 in E1. unfold instance. rewrite B1, B2, E1. unfold pr1 at 1 2 3.
    rewrite !add_dim_dims by auto. rewrite !(widen_length pr sid nsup Hs Hn). rewrite poly_add_mem by auto.
    change (p_npar (stmt_add_dim pr sid nsup (Some depth) H_TILE_SPACE_LOOP)) with (p_npar pr).
    split; intros (C1 & C2 & C3 & C4); (split; [lia|split; [lia|split; auto]]). }
  assert (forall s, s_dim (stmt_of pr1 s) = (s_dim (stmt_of pr s) + if (s =? sid)%nat then 1 else 0)%nat) as Dm
    by (intros; apply add_dim_dims; auto).
  split.
  - intros (I & R1 & R2). pose proof I as (L1 & L2 & L3 & _). rewrite B1, B2 in *. rewrite !Dm in *.
    change (p_npar pr1) with npar in L3.
    assert (exists s v, length s = s_dim (stmt_of pr (d_src d)) /\ x = widen sid nsup (d_src d) v s) as (s & v & Ls & ->).
    { unfold widen. destruct (Nat.eqb_spec (d_src d) sid) as [e|e].
      - rewrite e in *. destruct (sl_split x) as (v & i & -> & Li). fold st in L1. lia. exists i, v. auto.
      - exists x, 0. split; auto. lia. }
    assert (exists t w, length t = s_dim (stmt_of pr (d_dst d)) /\ y = widen sid nsup (d_dst d) w t) as (t & w & Lt & ->).
    { unfold widen. destruct (Nat.eqb_spec (d_dst d) sid) as [e|e].
      - rewrite e in *. destruct (sl_split y) as (v' & i & -> & Li). fold st in L2. lia. exists i, v'. auto.
      - exists y, 0. split; auto. lia. }
    apply KI in I; auto. exists s, t. split; auto. unfold widen in *. split.
    + destruct (Nat.eqb_spec (d_src d) sid) as [e|e]; auto. unfold E. f_equal.
      apply (sl_lohi _ p v s) with (3 := eq_refl); auto. rewrite Ls, e. reflexivity.
    + destruct (Nat.eqb_spec (d_dst d) sid) as [e|e]; auto. unfold E. f_equal.
      apply (sl_lohi _ p w t) with (3 := eq_refl); auto. rewrite Lt, e. reflexivity.
  - intros (s & t & I & -> & ->). pose proof I as (L1 & L2 & L3 & _).
    split; [|split].
    + pose proof (proj2 (KI s t (tau s p) (tau t p) L1 L2) I) as Q. exact Q.
    + intros e. rewrite (proj2 (Nat.eqb_eq _ _) e). apply (sl_lohi _ p _ s) with (3 := eq_refl); auto. rewrite L1, e. reflexivity.
    + intros e. rewrite (proj2 (Nat.eqb_eq _ _) e). apply (sl_lohi _ p _ t) with (3 := eq_refl); auto. rewrite L2, e. reflexivity.
Qed.

Lemma step_loop : snd (tile_step b pr sid k nsup T) = S nsup /\
  stepped pr (fst (tile_step b pr sid k nsup T)) sid depth nsup (S nsup) E tau.
Proof.
  rewrite sl_eq. fold mark. fold pr'. cbn [fst snd]. split; auto.
  destruct sl_core as ((A & B & C & D & EE & F) & G).
  split; [exact sl_wf'|]. split; [unfold pr'; cbn; rewrite map_nth_length; apply sl_len3|].
  split; [exact sl_npar3|]. split; [reflexivity|].
  split; [intros s Hne; destruct (sl_mark s) as [c ->]; rewrite (proj2 (Nat.eqb_neq _ _) Hne); auto|].
  destruct (sl_mark sid) as [c Em]. rewrite Nat.eqb_refl in Em.
  split; [|split; [|split; [|split; [|split; [|split; [|exact sl_deps]]]]]].
  - rewrite sl_dim, sl_st1. cbn. unfold st. lia.
  - rewrite Em. cbn [mark set_tile set_domain s_trans]. rewrite sl_st1. unfold mnrows. cbn. rewrite map_nth_length, insert_at_length, map_length. reflexivity.
  - intros l Hl. rewrite Em. cbn [mark set_tile set_domain s_hyp]. rewrite sl_st1. cbn [stmt_add_dim1 s_hyp].
    apply nth_insert_at_ge; auto. fold st; rewrite G; lia.
  - intros l Hl Hz' j Hj. rewrite Em. cbn [mark set_tile set_domain s_trans]. rewrite sl_row by auto. fold st in Hz', Hl.
    assert (length (nth l (mrows (s_trans st)) []) = (s_dim st + npar + 1)%nat) as L.
    { rewrite (C (nth l (mrows (s_trans st)) [])). auto. apply nth_In. unfold mnrows in Hl; lia. }
    destruct (Nat.eq_dec j nsup).
    + subst j. apply nth_insert_at_eq. lia.
    + rewrite nth_insert_at_lt by lia. apply Hz'. lia.
  - exact sl_iter.
  - intros i p Li Lp. fold st in Li. fold npar in Lp. rewrite Em. cbn [mark set_tile set_domain s_trans s_reads s_writes s_dim timestamp].
    split; [|split; [|split]].
    + unfold E. rewrite insert_at_length, sl_st1. cbn. lia.
    + change (timestamp (stmt_of pr1 sid) (E i p) p = insert_at depth (tau i p) (timestamp st i p)).
      rewrite sl_st1. unfold E. apply (add_dim_timestamp npar st nsup (Some depth) H_TILE_SPACE_LOOP); auto. lia.
    + rewrite sl_st1. cbn [stmt_add_dim1 s_reads]. rewrite map_map. apply map_ext_in. intros a Ha.
      destruct (F a) as [F1 F2]. apply in_app_iff; auto. apply (access_ins npar (s_dim st)); auto.
    + rewrite sl_st1. cbn [stmt_add_dim1 s_writes]. rewrite map_map. apply map_ext_in. intros a Ha.
      destruct (F a) as [F1 F2]. apply in_app_iff; auto. apply (access_ins npar (s_dim st)); auto.
Qed.

Lemma step_loop_types : type_step st (stmt_of (fst (tile_step b pr sid k nsup T)) sid) depth (depth + k).
Proof.
  rewrite sl_eq. fold mark. fold pr'. cbn [fst snd].
  destruct sl_core as ((A & B & C & D & EE & F) & G).
  destruct (sl_mark sid) as [c Em]. rewrite Nat.eqb_refl in Em. rewrite Em, sl_st1. clear Em.
  set (st' := mark _).
  assert (s_hyp st' = insert_at depth H_TILE_SPACE_LOOP (s_hyp st)) as E1 by reflexivity.
  assert (mrows (s_trans st') = insert_at depth (set_nth nsup 1 (repeat 0 (S (mncols (s_trans st))))) (map (insert_at nsup 0) (mrows (s_trans st)))) as E2.
  { unfold st', mark. cbn [set_tile set_domain s_trans stmt_add_dim1 mrows matrix_add_row matrix_add_col mncols].
    rewrite map_nth_insert by (rewrite map_length; unfold mnrows in *; lia). reflexivity. }
  assert (s_dim st' = S (s_dim st)) as E3 by reflexivity. clearbody st'.
  assert (loop_level st' depth = true) as LD by (unfold loop_level; rewrite E1, nth_insert_at_eq by (fold st; lia); reflexivity).
  assert (forall l, (l < depth)%nat -> nth l (s_hyp st') H_UNKNOWN = nth l (s_hyp st) H_UNKNOWN) as LB
    by (intros l Hl; rewrite E1; apply nth_insert_at_lt; fold st; lia).
  split; [exact LB|]. split; [rewrite LD; symmetry; exact Hloop|].
  intros TO l Hl. unfold mnrows in Hl. rewrite E2, insert_at_length, map_length in Hl. rewrite E2, E3.
  assert (forall l0, (l0 < mnrows (s_trans st))%nat ->
     (forall j, (j < S (s_dim st))%nat -> nth j (nth l0 (map (insert_at nsup 0) (mrows (s_trans st))) []) 0 = 0) <->
     (forall j, (j < s_dim st)%nat -> nth j (nth l0 (mrows (s_trans st)) []) 0 = 0)) as Z0.
  { intros l0 Hl0. rewrite (nth_indep _ [] (insert_at nsup 0 [])) by (rewrite map_length; exact Hl0). rewrite List.map_nth.
    apply zero_insert; auto. rewrite (C (nth l0 (mrows (s_trans st)) [])). fold st; lia. apply nth_In. exact Hl0. }
  destruct (Nat.lt_trichotomy l depth) as [Ll|[->|Ll]].
  - rewrite nth_insert_at_lt by (rewrite ?map_length; unfold mnrows in *; lia).
    rewrite Z0 by lia. unfold loop_level. rewrite LB by auto. apply TO; lia.
  - rewrite LD. split; [discriminate|]. intros H. exfalso.
    rewrite nth_insert_at_eq in H by (rewrite map_length; unfold mnrows in *; lia).
    specialize (H nsup ltac:(lia)). rewrite nth_set_nth_eq in H by (rewrite repeat_length; fold st; lia). discriminate.
  - destruct l; [lia|]. rewrite nth_insert_at_ge by (rewrite ?map_length; unfold mnrows in *; lia).
    rewrite Z0 by (unfold mnrows; fold st in Hl; lia). unfold loop_level. rewrite E1, nth_insert_at_ge by (fold st; lia). apply TO. unfold mnrows; fold st in Hl; lia.
Qed.

Lemma step_loop_rows : row_step st (stmt_of (fst (tile_step b pr sid k nsup T)) sid) depth (insert_at nsup 0).
Proof.
  rewrite sl_eq. fold mark. fold pr'. cbn [fst snd].
  destruct (sl_mark sid) as [c Em]. rewrite Nat.eqb_refl in Em. rewrite Em.
  split; [|split].
  - rewrite sl_st1. reflexivity.
  - rewrite sl_st1. reflexivity.
  - intros l Hl. exact (sl_row l Hl).
Qed.
End StepLoop.

Section StepScalar.
Variables (b : band) (pr : prog) (sid k nsup : nat) (T : Z).
Let depth := (b_first b + k)%nat.
Let st := stmt_of pr sid.
Hypothesis W : wf_core pr.
Hypothesis Hs : (sid < length (p_stmts pr))%nat.
Hypothesis Hd : (depth + k < mnrows (s_trans st))%nat.
Hypothesis Hloop : loop_level st (depth + k) = false.
Let tau (i p : point) : Z := theta st (depth + k) i p.
Let t0 := nth (depth + k) (mrows (s_trans st)) [].
Let mark (st : stmt) := set_tile st (S (s_num_tiled st)) (Z.of_nat (b_first b)) (Z.of_nat (b_first b + length (b_sizes b)) - 1).
Let g (st : stmt) :=
  let st1 := stmt_add_hyperplane st H_SCALAR depth in
  let t := nth (depth + k + 1) (mrows (s_trans st1)) [] in
  mark (set_trans st1 (mkMat (mncols (s_trans st1)) (map_nth depth (fun _ => t) (mrows (s_trans st1))))).
Let pr' := set_stmts pr (map_nth sid g (p_stmts pr)).

Lemma ss_eq : tile_step b pr sid k nsup T = (pr', nsup).
Proof. unfold tile_step. fold depth. fold st. rewrite Hloop. reflexivity. Qed.
Lemma ss_st s : stmt_of pr' s = if (s =? sid)%nat then g st else stmt_of pr s.
Proof. apply set_domain_stmt_of. auto. Qed.
Lemma ss_rows : mrows (s_trans (g st)) = insert_at depth t0 (mrows (s_trans st)).
Proof.
  unfold g, mark. cbn [set_tile set_trans s_trans mrows]. unfold stmt_add_hyperplane; cbn [s_trans mrows matrix_add_row].
  replace (depth + k + 1)%nat with (S (depth + k)) by lia. unfold mnrows in Hd.
  rewrite nth_insert_at_ge by lia. fold t0. rewrite map_nth_insert by lia. reflexivity.
Qed.
Lemma ss_dim s : s_dim (stmt_of pr' s) = s_dim (stmt_of pr s).
Proof. rewrite ss_st. destruct (Nat.eqb_spec s sid); subst; reflexivity. Qed.

Lemma step_scalar : snd (tile_step b pr sid k nsup T) = nsup /\
  stepped pr (fst (tile_step b pr sid k nsup T)) sid depth nsup nsup (fun i _ => i) tau.
Proof.
  rewrite ss_eq. cbn [fst snd]. split; auto.
  destruct (proj1 W _ (stmt_of_in pr sid Hs)) as ((A & B & C & D & EE & F) & G). fold st in A, B, C, D, EE, F, G.
  assert (stmt_of pr' sid = g st) as Eg by (rewrite ss_st, Nat.eqb_refl; auto).
  pose proof ss_rows as R. unfold mnrows in Hd.
  assert (wf_core pr') as Wc.
  { destruct W as [W1 W2]. split.
    - intros s Hs'. apply in_map_nth in Hs'; auto. destruct Hs' as [H| ->]. exact (W1 s H).
      fold st. split.
      + split; [exact A|]. split; [exact B|]. split; [|split; [exact D|split; [exact EE|exact F]]].
        intros r Hr. rewrite R in Hr. apply In_insert_at in Hr as [->|Hr]; [|exact (C r Hr)].
        apply (C t0). apply nth_In. auto.
      + unfold mnrows. rewrite R, insert_at_length. cbn. rewrite insert_at_length, G. reflexivity.
    - intros d Hd'. destruct (W2 d Hd') as (A1 & A2 & A3 & A4).
      rewrite !ss_dim. replace (length (p_stmts pr')) with (length (p_stmts pr)) by (symmetry; apply map_nth_length). auto. }
  split; [exact Wc|]. split; [apply map_nth_length|]. split; [reflexivity|]. split; [reflexivity|].
  split; [intros s Hne; rewrite ss_st, (proj2 (Nat.eqb_neq _ _) Hne); auto|].
  split; [rewrite ss_dim; auto|]. rewrite Eg.
  split; [unfold mnrows; rewrite R, insert_at_length; reflexivity|].
  split; [|split; [|split; [|split]]].
  - intros l Hl. unfold g, mark. cbn [set_tile set_trans s_hyp stmt_add_hyperplane].
    apply nth_insert_at_ge; auto. fold st. rewrite G. unfold mnrows. lia.
  - intros l Hl Hz j Hj. rewrite R. fold st in Hl, Hz. unfold mnrows in Hl. rewrite nth_insert_at_ge by lia. auto.
  - intros x p Lp. split.
    + intros I. exists x. split; auto.
    + intros (i & I & ->). exact I.
  - intros i p Li Lp. split; [exact Li|]. split; [|split; reflexivity].
    unfold timestamp. rewrite R, map_insert_at. reflexivity.
  - apply Forall2_diag. intros d Hd'. repeat (split; [reflexivity|]). intros x y p.
    assert (instance pr' d x y p <-> instance pr d x y p) as I by (unfold instance; rewrite !ss_dim; reflexivity).
    rewrite I. split.
    + intros K. exists x, y. destruct (_ =? _)%nat, (_ =? _)%nat; auto.
    + intros (s & t & K & -> & ->). destruct (_ =? _)%nat, (_ =? _)%nat; auto.
Qed.

Lemma step_scalar_types : type_step st (stmt_of (fst (tile_step b pr sid k nsup T)) sid) depth (depth + k).
Proof.
  rewrite ss_eq. cbn [fst snd]. rewrite ss_st, Nat.eqb_refl.
  destruct (proj1 W _ (stmt_of_in pr sid Hs)) as ((A & B & C & D & EE & F) & G). fold st in A, B, C, D, EE, F, G.
  pose proof ss_rows as R.
  assert (s_hyp (g st) = insert_at depth H_SCALAR (s_hyp st)) as E1 by reflexivity.
  assert (s_dim (g st) = s_dim st) as E3 by reflexivity. set (st' := g st) in *. clearbody st'.
  assert (loop_level st' depth = false) as LD by (unfold loop_level; rewrite E1, nth_insert_at_eq by lia; reflexivity).
  assert (forall l, (l < depth)%nat -> nth l (s_hyp st') H_UNKNOWN = nth l (s_hyp st) H_UNKNOWN) as LB
    by (intros l Hl; rewrite E1; apply nth_insert_at_lt; lia).
  split; [exact LB|]. split; [rewrite LD; symmetry; exact Hloop|].
  intros TO l Hl. unfold mnrows in Hl. rewrite R, insert_at_length in Hl. rewrite R, E3.
  destruct (Nat.lt_trichotomy l depth) as [Ll|[->|Ll]].
  - rewrite nth_insert_at_lt by (unfold mnrows in *; lia).
    unfold loop_level. rewrite LB by auto. apply TO; lia.
  - rewrite LD. rewrite nth_insert_at_eq by (unfold mnrows in *; lia). transitivity (loop_level st (depth + k) = false); [rewrite Hloop; tauto|]. apply TO. auto.
  - destruct l; [lia|]. rewrite nth_insert_at_ge by (unfold mnrows in *; lia).
    unfold loop_level. rewrite E1, nth_insert_at_ge by lia. apply TO. unfold mnrows; lia.
Qed.

Lemma step_scalar_rows : row_step st (stmt_of (fst (tile_step b pr sid k nsup T)) sid) depth (fun r => r).
Proof.
  rewrite ss_eq. cbn [fst snd]. rewrite ss_st, Nat.eqb_refl. split; [reflexivity|]. split; [reflexivity|].
  intros l Hl. rewrite ss_rows. unfold mnrows in *. apply nth_insert_at_ge; lia.
Qed.
End StepScalar.

(** ** All levels *)
Section Band.
Variables (pr0 : prog) (b : band).
Hypothesis W0 : wf_core pr0.
Hypothesis HB : wf_band pr0 b.
Let f := b_first b.
Let sizes := b_sizes b.
Let st0 (s : nat) := stmt_of pr0 s.
Definition nl (K : nat -> nat) (s : nat) : nat := num_loops (st0 s) f (firstn (K s) sizes).
Definition tpt (K : nat -> nat) (s : nat) (i p : point) : point := tile_coords (st0 s) f (firstn (K s) sizes) i p ++ i.
Definition tst (K : nat -> nat) (s : nat) (i p : point) : list Z :=
  let ts := timestamp (st0 s) i p in
  firstn f ts ++ tile_times (st0 s) f (firstn (K s) sizes) i p ++ skipn f ts.

(** State of the loops: [K s] levels of statement [s] have been treated. *)
Definition tinv (pr : prog) (K : nat -> nat) : Prop :=
  wf_core pr /\
  length (p_stmts pr) = length (p_stmts pr0) /\ p_npar pr = p_npar pr0 /\ p_hprops pr = p_hprops pr0 /\
  (forall s, K s = 0%nat -> stmt_of pr s = st0 s) /\
  (forall s, (s < length (p_stmts pr0))%nat ->
     s_dim (stmt_of pr s) = (nl K s + s_dim (st0 s))%nat /\
     mnrows (s_trans (stmt_of pr s)) = (mnrows (s_trans (st0 s)) + K s)%nat /\
     (forall l, (f <= l)%nat -> nth (l + K s) (s_hyp (stmt_of pr s)) H_UNKNOWN = nth l (s_hyp (st0 s)) H_UNKNOWN) /\
     (forall l j, (f <= l < mnrows (s_trans (st0 s)))%nat -> (j < nl K s)%nat ->
        nth j (nth (l + K s) (mrows (s_trans (stmt_of pr s))) []) 0 = 0) /\
     (forall x p, length p = p_npar pr0 ->
        (iteration (stmt_of pr s) x p <-> exists i, iteration (st0 s) i p /\ x = tpt K s i p)) /\
     (forall i p, length i = s_dim (st0 s) -> length p = p_npar pr0 ->
        timestamp (stmt_of pr s) (tpt K s i p) p = tst K s i p /\
        map (access_val (tpt K s i p) p) (s_reads (stmt_of pr s)) = map (access_val i p) (s_reads (st0 s)) /\
        map (access_val (tpt K s i p) p) (s_writes (stmt_of pr s)) = map (access_val i p) (s_writes (st0 s)))) /\
  Forall2 (fun d d' =>
     d_src d' = d_src d /\ d_dst d' = d_dst d /\ d_rar d' = d_rar d /\ d_sat d' = d_sat d /\ d_level d' = d_level d /\
     forall x y p, instance pr d' x y p <->
       exists s t, instance pr0 d s t p /\ x = tpt K (d_src d) s p /\ y = tpt K (d_dst d) t p)
    (p_deps pr0) (p_deps pr).

Lemma tinv_ext pr K K' : (forall s, K s = K' s) -> tinv pr K -> tinv pr K'.
Proof.
  intros E (A1 & A2 & A3 & A4 & A5 & A6 & A7).
  assert (forall s, nl K s = nl K' s) as E1 by (intros; unfold nl; rewrite E; auto).
  assert (forall s i p, tpt K s i p = tpt K' s i p) as E2 by (intros; unfold tpt; rewrite E; auto).
  assert (forall s i p, tst K s i p = tst K' s i p) as E3 by (intros; unfold tst; rewrite E; auto).
  split; [auto|]. split; [auto|]. split; [auto|]. split; [auto|]. split; [intros; apply A5; rewrite E; auto|]. split.
  - intros s Hs. destruct (A6 s Hs) as (B1 & B2 & B3 & B4 & B5 & B6). rewrite <- E1, <- E.
    split; [auto|]. split; [auto|]. split; [auto|]. split; [auto|]. split.
    + intros x p Lp. rewrite B5 by auto. split; intros (i & I & ->); exists i; rewrite ?E2; auto.
    + intros i p Li Lp. rewrite <- E2, <- E3. auto.
  - eapply Forall2_impl_in; [|exact A7]. cbv beta. intros d d' _ (B1 & B2 & B3 & B4 & B5 & B6).
    repeat (split; [assumption|]). intros x y p. rewrite B6.
    split; intros (s & t & I & -> & ->); exists s, t; rewrite ?E2; auto.
Qed.

Lemma num_loops_firstn_S st k l n T : nth_error l n = Some T ->
  num_loops st k (firstn (S n) l) = ((if loop_level st (k + n) then 1 else 0) + num_loops st k (firstn n l))%nat.
Proof.
  revert k l; induction n; intros k l; destruct l as [|a l]; intros H; try discriminate.
  - simpl. rewrite !Nat.add_0_r. reflexivity.
  - change (firstn (S (S n)) (a :: l)) with (a :: firstn (S n) l). change (firstn (S n) (a :: l)) with (a :: firstn n l).
    cbn [num_loops]. rewrite (IHn (S k) l H). replace (S k + n)%nat with (k + S n)%nat by lia. lia.
Qed.
Lemma tile_coords_firstn_S st k l n T i p : nth_error l n = Some T ->
  tile_coords st k (firstn (S n) l) i p =
  tile_coords st k (firstn n l) i p ++ (if loop_level st (k + n) then [theta st (k + n) i p / T] else []).
Proof.
  revert k l; induction n; intros k l; destruct l as [|a l]; intros H; try discriminate.
  - injection H as ->. simpl. rewrite Nat.add_0_r, app_nil_r. reflexivity.
  - change (firstn (S (S n)) (a :: l)) with (a :: firstn (S n) l). change (firstn (S n) (a :: l)) with (a :: firstn n l).
    cbn [tile_coords]. rewrite (IHn (S k) l H). replace (S k + n)%nat with (k + S n)%nat by lia. apply app_assoc.
Qed.
Lemma tile_times_firstn_S st k l n T i p : nth_error l n = Some T ->
  tile_times st k (firstn (S n) l) i p = tile_times st k (firstn n l) i p ++ [tile_time st (k + n) T i p].
Proof.
  revert k l; induction n; intros k l; destruct l as [|a l]; intros H; try discriminate.
  - injection H as ->. simpl. rewrite Nat.add_0_r. reflexivity.
  - change (firstn (S (S n)) (a :: l)) with (a :: firstn (S n) l). change (firstn (S n) (a :: l)) with (a :: firstn n l).
    cbn [tile_times]. rewrite (IHn (S k) l H). replace (S k + n)%nat with (k + S n)%nat by lia. reflexivity.
Qed.
Lemma tile_coords_length st k l i p : length (tile_coords st k l i p) = num_loops st k l.
Proof. revert k; induction l; intros k; cbn [tile_coords num_loops]; auto. rewrite app_length, IHl. destruct (loop_level st k); auto. Qed.
Lemma tile_times_length st k l i p : length (tile_times st k l i p) = length l.
Proof. revert k; induction l; intros k; cbn [tile_times length]; auto. Qed.

Definition upd (K : nat -> nat) (sid : nat) : nat -> nat := fun s => if (s =? sid)%nat then S (K s) else K s.

Lemma tpt_length pr K s i p : tinv pr K -> (s < length (p_stmts pr0))%nat ->
  length i = s_dim (st0 s) -> length (tpt K s i p) = s_dim (stmt_of pr s).
Proof.
  intros (A1 & A2 & A3 & A4 & A5 & A6 & A7) Hs Li. destruct (A6 s Hs) as (B1 & _).
  unfold tpt. rewrite app_length, tile_coords_length, B1, Li. reflexivity.
Qed.

Lemma tinv_stepped pr pr' K sid T E tau : tinv pr K -> (sid < length (p_stmts pr0))%nat ->
  nth_error sizes (K sid) = Some T ->
  (f + length sizes <= mnrows (s_trans (st0 sid)))%nat ->
  stepped pr pr' sid (f + K sid) (nl K sid) (nl (upd K sid) sid) E tau ->
  (forall i p, length i = s_dim (st0 sid) -> length p = p_npar pr0 ->
     E (tpt K sid i p) p = tpt (upd K sid) sid i p /\ tau (tpt K sid i p) p = tile_time (st0 sid) (f + K sid) T i p) ->
  tinv pr' (upd K sid).
Proof.
  intros TI Hs0 HT Hw (S1 & S2 & S3 & S4 & S5 & S6 & S7 & S8 & S9 & S10 & S11 & S12) HE.
  pose proof TI as (A1 & A2 & A3 & A4 & A5 & A6 & A7).
  assert (K sid < length sizes)%nat as Hk by (apply nth_error_Some; rewrite HT; discriminate).
  assert (forall s, s <> sid -> upd K sid s = K s) as U by (intros s Hne; unfold upd; rewrite (proj2 (Nat.eqb_neq _ _) Hne); auto).
  assert (upd K sid sid = S (K sid)) as U0 by (unfold upd; rewrite Nat.eqb_refl; auto).
  assert (forall s i p, s <> sid -> tpt (upd K sid) s i p = tpt K s i p) as UT by (intros; unfold tpt; rewrite U; auto).
  split; [auto|]. split; [lia|]. split; [lia|]. split; [congruence|].
  split.
  { intros s Hz. destruct (Nat.eq_dec s sid). subst; lia. rewrite S5 by auto. apply A5. rewrite <- U; auto. }
  split.
  - intros s Hs. destruct (Nat.eq_dec s sid) as [->|Hne].
    + destruct (A6 sid Hs) as (B1 & B2 & B3 & B4 & B5 & B6). rewrite U0.
      split; [lia|]. split; [lia|]. split; [|split; [|split]].
      * intros l Hl. replace (l + S (K sid))%nat with (S (l + K sid)) by lia. rewrite S8 by lia. auto.
      * intros l j Hl Hj. replace (l + S (K sid))%nat with (S (l + K sid)) by lia. apply S9; auto. lia.
      * intros x p Lp. rewrite S10 by lia. split.
        -- intros (i & I & ->). apply B5 in I; auto. destruct I as (i0 & I0 & ->). exists i0. split; auto.
           apply HE; auto. apply I0.
        -- intros (i0 & I0 & ->). exists (tpt K sid i0 p). split. apply B5; eauto. symmetry. apply HE; auto. apply I0.
      * intros i p Li Lp. destruct (HE i p Li Lp) as [E1 E2]. destruct (B6 i p Li Lp) as (TS & R1 & R2).
        destruct (S11 (tpt K sid i p) p) as (_ & TS' & R1' & R2'). apply tpt_length; auto. lia.
        rewrite E1 in *. rewrite TS', TS, E2, R1', R2'. split; [|auto].
        unfold tst. rewrite U0, (tile_times_firstn_S _ _ _ _ T i p HT).
        destruct (proj1 W0 _ (stmt_of_in pr0 sid Hs0)) as ((_ & _ & C & _) & _).
        assert (length (timestamp (st0 sid) i p) = mnrows (s_trans (st0 sid))) as LT by (unfold timestamp; rewrite map_length; auto).
        set (ts := timestamp (st0 sid) i p) in *. set (tt := tile_times (st0 sid) f (firstn (K sid) sizes) i p).
        assert (f + K sid = length (firstn f ts ++ tt))%nat as EL.
        { unfold tt. rewrite app_length, tile_times_length, !firstn_length. lia. }
        rewrite EL, app_assoc. rewrite <- (Nat.add_0_r (length _)), insert_app_r. cbn [insert_at].
        rewrite <- EL. rewrite <- !app_assoc. reflexivity.
    + destruct (A6 s Hs) as (B1 & B2 & B3 & B4 & B5 & B6). unfold nl, tpt, tst. rewrite U, S5 by auto.
      repeat (split; [assumption|]). assumption.
  - eapply Forall2_impl_in; [|eapply Forall2_trans' with (R3 := fun d d' => d_src d' = d_src d /\ d_dst d' = d_dst d /\ d_rar d' = d_rar d /\ d_sat d' = d_sat d /\ d_level d' = d_level d /\
       (forall x y p, instance pr' d' x y p <-> exists s t, (exists s0 t0, instance pr0 d s0 t0 p /\ s = tpt K (d_src d) s0 p /\ t = tpt K (d_dst d) t0 p) /\
          x = (if (d_src d =? sid)%nat then E s p else s) /\ y = (if (d_dst d =? sid)%nat then E t p else t))); [|exact A7|exact S12]].
    + cbv beta. intros d d' Hd (B1 & B2 & B3 & B4 & B5 & B6). repeat (split; [assumption|]).
      intros x y p. rewrite B6.
      assert (forall s0 t0, instance pr0 d s0 t0 p ->
        (if (d_src d =? sid)%nat then E (tpt K (d_src d) s0 p) p else tpt K (d_src d) s0 p) = tpt (upd K sid) (d_src d) s0 p /\
        (if (d_dst d =? sid)%nat then E (tpt K (d_dst d) t0 p) p else tpt K (d_dst d) t0 p) = tpt (upd K sid) (d_dst d) t0 p) as Q.
      { intros s0 t0 (L1 & L2 & L3 & _). split.
        - destruct (Nat.eqb_spec (d_src d) sid) as [e|e]. rewrite e in *. apply HE; auto. rewrite UT; auto.
        - destruct (Nat.eqb_spec (d_dst d) sid) as [e|e]. rewrite e in *. apply HE; auto. rewrite UT; auto. }
      split.
      * intros (s & t & (s0 & t0 & I & -> & ->) & -> & ->). exists s0, t0. destruct (Q s0 t0 I) as [-> ->]. auto.
      * intros (s0 & t0 & I & -> & ->). eexists _, _. split. eexists _, _. split. exact I. split; reflexivity.
        destruct (Q s0 t0 I) as [-> ->]. auto.
    + cbv beta. intros d d1 d' (B1 & B2 & B3 & B4 & B5 & B6) (C1 & C2 & C3 & C4 & C5 & C6).
      rewrite C1, C2, C3, C4, C5. repeat (split; [assumption|]). intros x y p. rewrite C6, B1, B2.
      split.
      * intros (s & t & I & -> & ->). exists s, t. apply B6 in I. auto.
      * intros (s & t & I & -> & ->). exists s, t. apply B6 in I. auto.
Qed.

Lemma tinv_step pr K sid T : tinv pr K -> In sid (b_stmts b) -> nth_error sizes (K sid) = Some T ->
  let r := tile_step b pr sid (K sid) (nl K sid) T in
  tinv (fst r) (upd K sid) /\ snd r = nl (upd K sid) sid.
Proof.
  intros (A1 & A2 & A3 & A4 & A5 & A6 & A7) Hin HT r.
  destruct HB as (HB1 & HB2 & HB3). destruct (HB3 sid Hin) as (Hs0 & Hw).
  set (k := K sid) in *.
  assert (k < length sizes)%nat as Hk by (apply nth_error_Some; rewrite HT; discriminate).
  assert (1 <= T) as HT1 by (apply HB2; eapply nth_error_In; eauto).
  assert (sid < length (p_stmts pr))%nat as Hs by lia.
  destruct (A6 sid Hs0) as (B1 & B2 & B3 & B4 & B5 & B6).
  fold f in Hw. fold sizes in Hw. fold (st0 sid) in Hw.
  assert (loop_level (stmt_of pr sid) (f + k + k) = loop_level (st0 sid) (f + k)) as EL.
  { unfold loop_level. unfold k. rewrite B3 by lia. reflexivity. }
  assert (forall i p, length i = s_dim (st0 sid) -> length p = p_npar pr0 ->
    theta (stmt_of pr sid) (f + k + k) (tpt K sid i p) p = theta (st0 sid) (f + k) i p) as ET.
  { intros i p Li Lp. destruct (B6 i p Li Lp) as (TS & _).
    destruct (proj1 W0 _ (stmt_of_in pr0 sid Hs0)) as ((_ & _ & C & _) & _).
    assert (length (timestamp (st0 sid) i p) = mnrows (s_trans (st0 sid))) as LT by (unfold timestamp; rewrite map_length; auto).
    rewrite <- !timestamp_nth by (unfold k in *; lia). rewrite TS. unfold tst.
    rewrite app_nth2 by (rewrite firstn_length; lia). rewrite firstn_length, Nat.min_l by lia.
    rewrite app_nth2 by (rewrite tile_times_length, firstn_length; fold k; lia).
    rewrite tile_times_length, firstn_length. fold k. rewrite Nat.min_l by lia.
    rewrite nth_skipn. f_equal. lia. }
  destruct (loop_level (st0 sid) (f + k)) eqn:EQ.
  - assert (nl K sid <= s_dim (stmt_of pr sid))%nat as Hn by lia.
    assert (f + k + k < mnrows (s_trans (stmt_of pr sid)))%nat as Hd by (unfold k in *; lia).
    destruct (step_loop b pr sid k (nl K sid) T A1 Hs Hn Hd HT1) as [S1 S2]; auto.
    { intros j Hj. fold f. unfold k at 2. apply B4; auto. lia. }
    fold r in S1, S2. fold f in S2.
    assert (nl (upd K sid) sid = S (nl K sid)) as En.
    { unfold nl, upd. rewrite Nat.eqb_refl. fold k. rewrite (num_loops_firstn_S _ _ _ _ T HT), EQ. reflexivity. }
    rewrite S1, En. split; auto.
    eapply tinv_stepped; try eassumption; eauto.
    + split; [exact A1|]. repeat (split; [assumption|]). assumption.
    + rewrite En. exact S2.
    + intros i p Li Lp. cbv beta. split.
      * rewrite ET by auto. unfold tpt, upd. rewrite Nat.eqb_refl. fold k.
        rewrite (tile_coords_firstn_S _ _ _ _ T i p HT), EQ, <- app_assoc. cbn [app].
        assert (length (tile_coords (st0 sid) f (firstn k sizes) i p) = nl K sid) as L by (rewrite tile_coords_length; reflexivity).
        rewrite <- L. rewrite <- (Nat.add_0_r (length _)), insert_app_r. reflexivity.
      * unfold tile_time. fold k. rewrite EQ, ET by auto. reflexivity.
  - assert (f + k + k < mnrows (s_trans (stmt_of pr sid)))%nat as Hd by (unfold k in *; lia).
    destruct (step_scalar b pr sid k (nl K sid) T A1 Hs Hd) as [S1 S2]; auto.
    fold r in S1, S2. fold f in S2.
    assert (nl (upd K sid) sid = nl K sid) as En.
    { unfold nl, upd. rewrite Nat.eqb_refl. fold k. rewrite (num_loops_firstn_S _ _ _ _ T HT), EQ. reflexivity. }
    rewrite S1, En. split; auto.
    eapply tinv_stepped; try eassumption; eauto.
    + split; [exact A1|]. repeat (split; [assumption|]). assumption.
    + rewrite En. exact S2.
    + intros i p Li Lp. cbv beta. split.
      * unfold tpt, upd. rewrite Nat.eqb_refl. fold k.
        rewrite (tile_coords_firstn_S _ _ _ _ T i p HT), EQ, app_nil_r. reflexivity.
      * unfold tile_time. fold k. rewrite EQ, ET by auto. reflexivity.
Qed.

(** Types of the levels. *)
Definition tyinv (pr : prog) (K : nat -> nat) : Prop :=
  forall s, (s < length (p_stmts pr0))%nat ->
    (forall l, (l < f + K s)%nat -> loop_level (stmt_of pr s) l = loop_level (st0 s) l) /\
    (types_ok (st0 s) -> types_ok (stmt_of pr s)) /\
    s_evict (stmt_of pr s) = s_evict (st0 s) /\ (s_dim_orig (stmt_of pr s) = s_dim_orig (st0 s))%nat /\
    (forall l, (f <= l < mnrows (s_trans (st0 s)))%nat ->
       nth (l + K s) (mrows (s_trans (stmt_of pr s))) [] = repeat 0 (nl K s) ++ nth l (mrows (s_trans (st0 s))) []).

Lemma tyinv_step pr K sid T : tinv pr K -> tyinv pr K -> In sid (b_stmts b) -> nth_error sizes (K sid) = Some T ->
  tyinv (fst (tile_step b pr sid (K sid) (nl K sid) T)) (upd K sid).
Proof.
  intros TI TY Hin HT. pose proof (tinv_step pr K sid T TI Hin HT) as [TI' _]. cbv zeta in TI'.
  pose proof TI as (A1 & A2 & A3 & A4 & A5 & A6 & A7).
  destruct HB as (HB1 & HB2 & HB3). destruct (HB3 sid Hin) as (Hs0 & Hw).
  assert (K sid < length sizes)%nat as Hk by (apply nth_error_Some; rewrite HT; discriminate).
  assert (1 <= T) as HT1 by (apply HB2; eapply nth_error_In; eauto).
  assert (sid < length (p_stmts pr))%nat as Hs by lia.
  destruct (A6 sid Hs0) as (B1 & B2 & B3 & B4 & B5 & B6).
  fold f in Hw. fold sizes in Hw. fold (st0 sid) in Hw.
  assert (f + K sid + K sid < mnrows (s_trans (stmt_of pr sid)))%nat as Hd by lia.
  assert (loop_level (stmt_of pr sid) (f + K sid + K sid) = loop_level (st0 sid) (f + K sid)) as EL.
  { unfold loop_level. rewrite B3 by lia. reflexivity. }
  assert (nl (upd K sid) sid = ((if loop_level (st0 sid) (f + K sid) then 1 else 0) + nl K sid)%nat) as En.
  { unfold nl, upd. rewrite Nat.eqb_refl. apply (num_loops_firstn_S _ _ _ _ T HT). }
  assert (type_step (stmt_of pr sid) (stmt_of (fst (tile_step b pr sid (K sid) (nl K sid) T)) sid) (f + K sid) (f + K sid + K sid) /\
    row_step (stmt_of pr sid) (stmt_of (fst (tile_step b pr sid (K sid) (nl K sid) T)) sid) (f + K sid)
      (if loop_level (st0 sid) (f + K sid) then insert_at (nl K sid) 0 else fun r => r) /\
    forall s, s <> sid -> stmt_of (fst (tile_step b pr sid (K sid) (nl K sid) T)) s = stmt_of pr s) as (TS & RS & O).
  { destruct (loop_level (st0 sid) (f + K sid)) eqn:EQ.
    - assert (nl K sid <= s_dim (stmt_of pr sid))%nat as Hn by lia.
      assert (forall j, (j < nl K sid)%nat -> nth j (nth (f + K sid + K sid) (mrows (s_trans (stmt_of pr sid))) []) 0 = 0) as Hz
        by (intros j Hj; apply B4; auto; lia).
      split; [|split].
      + apply step_loop_types; auto.
      + apply step_loop_rows; auto.
      + destruct (step_loop b pr sid (K sid) (nl K sid) T A1 Hs Hn Hd HT1) as [_ S2]; auto. apply S2.
    - split; [|split].
      + apply step_scalar_types; auto.
      + apply step_scalar_rows; auto.
      + destruct (step_scalar b pr sid (K sid) (nl K sid) T A1 Hs Hd) as [_ S2]; auto. apply S2. }
  intros s Hss. destruct (Nat.eq_dec s sid) as [->|Hne].
  - destruct (TY sid Hss) as (Y1 & Y2 & Y3 & Y4 & Y5). destruct TS as (T1 & T2 & T3). destruct RS as (R1 & R2 & R3).
    split; [|split; [auto|split; [congruence|split; [congruence|]]]].
    + unfold upd. rewrite Nat.eqb_refl. intros l Hl. destruct (Nat.eq_dec l (f + K sid)) as [->|].
      * rewrite T2. exact EL.
      * unfold loop_level at 1. rewrite T1 by lia. apply Y1. lia.
    + intros l Hl. rewrite En. unfold upd. rewrite Nat.eqb_refl, <- plus_n_Sm, R3 by lia. rewrite Y5 by auto.
      destruct (loop_level (st0 sid) (f + K sid)); auto. cbn [Nat.add repeat].
      rewrite repeat_cons, <- app_assoc. cbn [app].
      generalize (nl K sid) (nth l (mrows (s_trans (st0 sid))) []). intros n r.
      pose proof (insert_app_r 0 (repeat 0 n) r 0) as Q. rewrite repeat_length, Nat.add_0_r in Q. exact Q.
  - rewrite O by auto. unfold nl, upd. rewrite (proj2 (Nat.eqb_neq _ _) Hne). apply TY; auto.
Qed.

Definition jinv (acc : prog * list nat) (K : nat -> nat) : Prop :=
  tinv (fst acc) K /\ length (snd acc) = length (p_stmts pr0) /\
  (forall s, (s < length (p_stmts pr0))%nat -> nth s (snd acc) 0%nat = nl K s) /\ tyinv (fst acc) K.

Lemma jinv_ext acc K K' : (forall s, K s = K' s) -> jinv acc K -> jinv acc K'.
Proof.
  intros E (A & B & C & D). split; [eapply tinv_ext; eauto|]. split; auto. split.
  - intros s Hs. rewrite C by auto. unfold nl. rewrite E. auto.
  - intros s Hs. unfold nl. rewrite <- E. apply D; auto.
Qed.

Lemma jinv_step acc K sid T k : jinv acc K -> In sid (b_stmts b) -> K sid = k -> nth_error sizes k = Some T ->
  jinv (let '(pr', n) := tile_step b (fst acc) sid k (nth sid (snd acc) 0%nat) T in (pr', set_nth sid n (snd acc))) (upd K sid).
Proof.
  intros (A & B & C & D) Hin Ek HT. destruct HB as (HB1 & HB2 & HB3). destruct (HB3 sid Hin) as (Hs0 & Hw).
  rewrite C by auto. subst k. pose proof (tinv_step _ _ _ _ A Hin HT) as [S1 S2].
  pose proof (tyinv_step _ _ _ _ A D Hin HT) as S3.
  destruct (tile_step b (fst acc) sid (K sid) (nl K sid) T) as [pr' n]. cbn [fst snd] in *.
  split; [exact S1|]. cbn [fst snd]. rewrite set_nth_length. split; auto. split; [|exact S3].
  intros s Hs. destruct (Nat.eq_dec s sid) as [->|Hne].
  - rewrite nth_set_nth_eq by lia. exact S2.
  - rewrite nth_set_nth_neq by auto. rewrite C by auto. unfold nl, upd. rewrite (proj2 (Nat.eqb_neq _ _) Hne). auto.
Qed.

Lemma jinv_level_aux todo acc K T k : NoDup todo -> incl todo (b_stmts b) -> jinv acc K ->
  (forall s, In s todo -> K s = k) -> nth_error sizes k = Some T ->
  jinv (fold_left (fun (a : prog * list nat) sid =>
    let '(pr', n) := tile_step b (fst a) sid k (nth sid (snd a) 0%nat) T in
    (pr', set_nth sid n (snd a))) todo acc) (fun s => if existsb (Nat.eqb s) todo then S (K s) else K s).
Proof.
  revert acc K. induction todo as [|sid l IH]; intros acc K ND Hin J HK HT; cbn [fold_left].
  - eapply jinv_ext; [|exact J]. reflexivity.
  - inversion ND as [|x y N1 N2]; subst. eapply jinv_ext; [|apply (IH _ (upd K sid)); auto].
    + intros s. cbn [existsb]. unfold upd. destruct (Nat.eqb_spec s sid) as [->|Hne]; cbn [orb].
      * destruct (existsb (Nat.eqb sid) l) eqn:EX; auto. exfalso. apply existsb_exists in EX as (x & Hx & Hx').
        apply Nat.eqb_eq in Hx'. subst. auto.
      * reflexivity.
    + intros s Hs; apply Hin; simpl; auto.
    + apply jinv_step; auto. apply Hin; simpl; auto. apply HK; simpl; auto.
    + intros s Hs. unfold upd. destruct (Nat.eqb_spec s sid) as [->|Hne]; [contradiction|]. apply HK; simpl; auto.
Qed.

Definition Kband (k : nat) (s : nat) : nat := if in_band b s then k else 0%nat.

Lemma jinv_level acc k T : jinv acc (Kband k) -> nth_error sizes k = Some T ->
  jinv (tile_level b acc (k, T)) (Kband (S k)).
Proof.
  intros J HT. unfold tile_level. cbn [fst snd]. eapply jinv_ext; [|apply jinv_level_aux with (K := Kband k); auto].
  - intros s. cbv beta. unfold Kband. fold (in_band b s). destruct (in_band b s); auto.
  - apply HB.
  - apply incl_refl.
  - intros s Hs. unfold Kband. replace (in_band b s) with true; auto. symmetry. apply existsb_exists.
    exists s. split; auto. apply Nat.eqb_refl.
Qed.

Lemma jinv_levels n acc k : jinv acc (Kband k) -> (k + n = length sizes)%nat ->
  jinv (fold_left (tile_level b) (combine (seq k n) (skipn k sizes)) acc) (Kband (k + n)).
Proof.
  revert acc k. induction n; intros acc k J Hk; cbn [seq combine fold_left].
  - rewrite Nat.add_0_r. auto.
  - destruct (skipn k sizes) as [|T l] eqn:ES.
    + exfalso. apply (f_equal (@length Z)) in ES. rewrite skipn_length in ES. simpl in ES. lia.
    + cbn [combine fold_left].
      assert (nth_error sizes k = Some T) as HT.
      { rewrite <- (firstn_skipn k sizes), ES. rewrite nth_error_app2 by (rewrite firstn_length; lia).
        rewrite firstn_length, Nat.min_l by lia. rewrite Nat.sub_diag. auto. }
      replace l with (skipn (S k) sizes).
      * replace (k + S n)%nat with (S k + n)%nat by lia. apply IHn. apply jinv_level; auto. lia.
      * clear - ES. revert ES. generalize sizes. intros z ES. change (skipn (S k) z = l).
        revert z ES. induction k; intros z ES; destruct z; simpl in *; try discriminate. congruence. apply IHk; auto.
Qed.

Lemma jinv_init : jinv (pr0, repeat 0%nat (length (p_stmts pr0))) (Kband 0).
Proof.
  assert (forall s, Kband 0 s = 0%nat) as K0 by (intros s; unfold Kband; destruct (in_band b s); auto).
  apply (jinv_ext _ (fun _ => 0%nat)); [intros s; symmetry; apply K0|].
  split; [|split; [|split]]; cbn [fst snd].
  - split; [auto|]. split; [auto|]. split; [auto|]. split; [auto|]. split; [auto|]. split.
    + intros s Hs. split; [reflexivity|]. split; [rewrite Nat.add_0_r; reflexivity|]. split; [intros; rewrite Nat.add_0_r; auto|].
      split; [intros l j _ Hj; unfold nl in Hj; simpl in Hj; lia|]. split.
      * intros x p Lp. split. intros I; exists x; split; auto. intros (i & I & ->). exact I.
      * intros i p Li Lp. split; [|split; reflexivity]. unfold tst, tpt. simpl. symmetry. apply firstn_skipn.
    + apply Forall2_diag. intros d Hd. repeat (split; [reflexivity|]). intros x y p. split.
      * intros I. exists x, y. auto.
      * intros (s & t & I & -> & ->). exact I.
  - apply repeat_length.
  - intros s Hs. unfold nl. simpl. apply nth_repeat.
  - intros s Hs. split; [auto|]. split; [auto|]. split; [auto|]. split; [auto|].
    intros l Hl. rewrite Nat.add_0_r. reflexivity.
Qed.

Theorem tile_band_tiled : wf_core (tile_band pr0 b) /\ tiled pr0 (tile_band pr0 b) b.
Proof.
  pose proof (jinv_levels (length sizes) _ 0 jinv_init (Nat.add_0_l _)) as (TI & _ & _ & _).
  cbn [skipn] in TI. rewrite Nat.add_0_l in TI. unfold sizes in TI at 1 2. fold (tile_band pr0 b) in TI.
  destruct TI as (A1 & A2 & A3 & A4 & A5 & A6 & A7).
  assert (forall s i p, tpt (Kband (length sizes)) s i p = tile_point pr0 b s i p) as ET.
  { intros s i p. unfold tpt, tile_point, Kband. destruct (in_band b s).
    - rewrite firstn_all. reflexivity.
    - reflexivity. }
  split; [exact A1|]. split; [exact A2|]. split; [exact A3|]. split; [exact A4|]. split; [|split].
  - intros s Hb. apply A5. unfold Kband. rewrite Hb. auto.
  - intros s Hs Hb. destruct (A6 s Hs) as (B1 & B2 & B3 & B4 & B5 & B6).
    split; [|split].
    + rewrite B1. unfold nl, Kband. rewrite Hb, firstn_all. reflexivity.
    + intros x p Lp. rewrite B5 by auto. split; intros (i & I & ->); exists i; rewrite ET; auto.
    + intros i p Li Lp. destruct (B6 i p Li Lp) as (C1 & C2 & C3). rewrite ET in *.
      split; [|auto]. rewrite C1. unfold tst, tile_stamp, Kband. rewrite Hb, firstn_all. reflexivity.
  - eapply Forall2_impl_in; [|exact A7]. cbv beta. intros d d' _ (B1 & B2 & B3 & B4 & B5 & B6).
    repeat (split; [assumption|]). intros x y p. rewrite B6.
    split; intros (s & t & I & -> & ->); exists s, t; rewrite ?ET; auto.
Qed.

(** The tile levels have the types of the tiled levels. *)
Lemma tile_band_types : tyinv (tile_band pr0 b) (fun s => if in_band b s then length sizes else 0%nat).
Proof.
  pose proof (jinv_levels (length sizes) _ 0 jinv_init (Nat.add_0_l _)) as (_ & _ & _ & TY).
  cbn [skipn] in TY. rewrite Nat.add_0_l in TY. unfold sizes in TY at 1 2. fold (tile_band pr0 b) in TY. exact TY.
Qed.
End Band.
