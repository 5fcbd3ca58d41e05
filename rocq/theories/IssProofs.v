(** * Index-set splitting: proofs. *)
From Coq Require Import ZArith List Bool Lia Arith.
From Verif Require Import SpecLinear MathModel ConstraintsModel VecProofs EditProofs MatrixProofs SpecProg SpecTile
  RankProofs FrameworkModel ProgModel DepProofs SimplifyProofs LexProofs ProgProofs TileModel TileProofs LoopModel
  IssModel SpecIss Checkers.
Import ListNotations.
Open Scope Z_scope.

(** ** Counting *)
Definition count {A} (P : A -> bool) (l : list A) : nat := length (filter P l).
Definition b2n (b : bool) : nat := if b then 1%nat else 0%nat.
Definition nsum {A} (f : A -> nat) (l : list A) : nat := fold_right (fun a n => (f a + n)%nat) 0%nat l.

Lemma count_app {A} (P : A -> bool) l1 l2 : count P (l1 ++ l2) = (count P l1 + count P l2)%nat.
Proof. unfold count. rewrite filter_app, app_length. auto. Qed.
Lemma count_flat_map {A B} (P : B -> bool) (f : A -> list B) l :
  count P (flat_map f l) = nsum (fun a => count P (f a)) l.
Proof. induction l; simpl; auto. rewrite count_app, IHl. auto. Qed.
Lemma count_nsum {A} (P : A -> bool) l : count P l = nsum (fun a => b2n (P a)) l.
Proof. induction l; simpl; auto. unfold count in *. simpl. destruct (P a); simpl; auto. Qed.
Lemma nsum_ext {A} (f g : A -> nat) l : (forall a, In a l -> f a = g a) -> nsum f l = nsum g l.
Proof. induction l; simpl; intros H; auto. Qed.
Lemma nsum_mul {A} k (f : A -> nat) l : nsum (fun a => (k * f a)%nat) l = (k * nsum f l)%nat.
Proof. induction l; simpl; [lia|]. rewrite IHl. lia. Qed.
Lemma nsum_map {A B} (g : A -> B) (f : B -> nat) l : nsum f (map g l) = nsum (fun a => f (g a)) l.
Proof. induction l; simpl; auto. Qed.
Lemma nsum_seq_nth {A} (d : A) (f : A -> nat) l : nsum (fun k => f (nth k l d)) (seq 0 (length l)) = nsum f l.
Proof.
  rewrite <- (nsum_map (fun k => nth k l d)). f_equal.
  apply (list_eq_nth d). rewrite map_length, seq_length; auto.
  intros k Hk. rewrite map_length, seq_length in Hk. rewrite nth_map_seq; auto.
Qed.

Lemma count_one {A} (d : A) (P : A -> bool) l : count P l = 1%nat <->
  exactly_one (length l) (fun k => P (nth k l d) = true).
Proof.
  induction l as [|a l IH].
  - split. discriminate. intros (k & H & _). simpl in H. lia.
  - unfold count in *. simpl. destruct (P a) eqn:E.
    + simpl. split.
      * intros H. exists 0%nat. split; [simpl; lia|]. split; auto. intros [|k'] Hk Hp; auto. exfalso.
        assert (In (nth k' l d) (filter P l)) as I by (apply filter_In; split; auto; apply nth_In; simpl in Hk; lia).
        destruct (filter P l); [destruct I|discriminate].
      * intros (k & H1 & H2 & H3). f_equal.
        assert (k = 0)%nat as -> by (symmetry; apply H3; simpl; auto; lia).
        destruct (filter P l) as [|b l'] eqn:F; auto. exfalso.
        assert (In b (filter P l)) as I by (rewrite F; simpl; auto). apply filter_In in I as [I J].
        apply (In_nth _ _ d) in I as (n & I1 & I2). specialize (H3 (S n)). simpl in H3. rewrite I2 in H3.
        assert (S n = 0)%nat by (apply H3; auto; lia). lia.
    + rewrite IH. split; intros (k & H1 & H2 & H3).
      * exists (S k). split; [simpl; lia|]. split; auto. intros [|k'] Hk Hp; [simpl in Hp; congruence|].
        f_equal. apply H3; auto. simpl in Hk; lia.
      * destruct k; [simpl in H2; congruence|]. exists k. split; [simpl in H1; lia|]. split; auto.
        intros k' Hk Hp. assert (S k' = S k) by (apply H3; auto; simpl; lia). lia.
Qed.

Lemma exactly_one_ext n (P Q : nat -> Prop) : (forall k, (k < n)%nat -> P k <-> Q k) ->
  exactly_one n P -> exactly_one n Q.
Proof.
  intros E (k & H1 & H2 & H3). exists k. split; auto. split. apply E; auto.
  intros k' Hk Hq. apply H3; auto. apply E; auto.
Qed.

(** ** The cuts *)
Definition parts (n : nat) (cuts : list cst) : Prop :=
  (forall c, In c cuts -> wf_cst c /\ ncols c = S n) /\
  forall z, length z = n -> count (fun c => memb c z) cuts = 1%nat.

Lemma parts_partition n cuts : parts n cuts <-> partition n cuts.
Proof.
  unfold parts, partition. split; intros [A B]; split; auto; intros z Hz; specialize (B z Hz).
  - apply (count_one (mkCst 0 [])) in B. eapply exactly_one_ext; [|apply B]. intros; apply memb_ok.
  - apply (count_one (mkCst 0 [])). eapply exactly_one_ext; [|apply B]. intros; symmetry; apply memb_ok.
Qed.

Lemma memb_eq c x c' x' : (mem c x <-> mem c' x') -> memb c x = memb c' x'.
Proof.
  intros H. destruct (memb c' x') eqn:E.
  - apply memb_ok, H, memb_ok; auto.
  - destruct (memb c x) eqn:F; auto. apply memb_ok, H, memb_ok in F. congruence.
Qed.
Lemma memb_add c1 c2 x : ncols c1 = ncols c2 -> memb (cst_add c1 c2) x = memb c1 x && memb c2 x.
Proof.
  intros H. pose proof (cst_add_mem c1 c2 x H) as E.
  destruct (memb c1 x && memb c2 x) eqn:F.
  - apply andb_true_iff in F as [F1 F2]. apply memb_ok. apply E. split; apply memb_ok; auto.
  - destruct (memb (cst_add c1 c2) x) eqn:G; auto. apply memb_ok, E in G as [G1 G2].
    apply memb_ok in G1, G2. rewrite G1, G2 in F. discriminate.
Qed.

Lemma cst_add_wf c1 c2 : wf_cst c1 -> wf_cst c2 -> ncols c1 = ncols c2 -> wf_cst (cst_add c1 c2).
Proof.
  intros [A B] [C D] E. split; cbn; auto. intros r Hr. apply in_app_or in Hr as [Hr|Hr]; auto. rewrite D; auto.
Qed.

Lemma half_parts n h a : rows h = [mkRow true a] -> wf_cst h -> ncols h = S n ->
  (wf_cst (negative_half_space h) /\ ncols (negative_half_space h) = S n) /\
  (wf_cst (non_negative_half_space h) /\ ncols (non_negative_half_space h) = S n) /\
  forall z, length z = n -> (b2n (memb (negative_half_space h) z) + b2n (memb (non_negative_half_space h) z) = 1)%nat.
Proof.
  intros R W N. pose proof W as [W1 W2]. rewrite R in W2. specialize (W2 _ (or_introl eq_refl)). cbn in W2.
  split; [|split].
  - split; auto. split; cbn [negative_half_space ncols rows]; auto. rewrite R. cbn [map_nth]. intros r [<-|[]]. cbn [coef].
    rewrite set_nth_length, map_length. auto.
  - split; auto. split; cbn [non_negative_half_space ncols rows]; auto. rewrite R. cbn [map_nth]. intros r [<-|[]]. cbn [coef]. auto.
  - intros z Hz. destruct (half_spaces h a z R W) as [P Q]; [lia|].
    destruct (memb (negative_half_space h) z) eqn:E1; destruct (memb (non_negative_half_space h) z) eqn:E2; simpl; auto; exfalso.
    + apply memb_ok in E1, E2. apply P in E2. apply Q in E1. lia.
    + apply memb_false in E1, E2. rewrite P in E2. rewrite Q in E1. lia.
Qed.

Lemma add_cut_parts n cuts h : cuts = [] \/ parts n cuts -> hyperplane n h -> parts n (add_cut cuts h).
Proof.
  intros C (a & R & W & N). destruct (half_parts n h a R W N) as ((A1 & A2) & (B1 & B2) & S).
  destruct C as [->|C].
  - cbn. split. intros c [<-|[<-|[]]]; auto. intros z Hz. rewrite count_nsum. cbn [nsum fold_right]. specialize (S z Hz). lia.
  - unfold add_cut.
    assert (parts n (map (fun c => cst_add c (negative_half_space h)) cuts ++ map (fun c => cst_add c (non_negative_half_space h)) cuts)) as P.
    { destruct C as [C1 C2]. split.
      - intros c Hc. apply in_app_or in Hc as [Hc|Hc]; apply in_map_iff in Hc as (c' & <- & Hc); destruct (C1 c' Hc);
          (split; [apply cst_add_wf; auto; congruence|cbn; auto]).
      - intros z Hz. rewrite count_app, !count_nsum, !nsum_map.
        rewrite (nsum_ext _ (fun c => b2n (memb (negative_half_space h) z) * b2n (memb c z))%nat).
        2:{ intros c Hc. destruct (C1 c Hc). rewrite memb_add by congruence.
            destruct (memb c z), (memb (negative_half_space h) z); auto. }
        rewrite (nsum_ext (fun a => b2n (memb (cst_add a _) z)) (fun c => b2n (memb (non_negative_half_space h) z) * b2n (memb c z))%nat).
        2:{ intros c Hc. destruct (C1 c Hc). rewrite memb_add by congruence.
            destruct (memb c z), (memb (non_negative_half_space h) z); auto. }
        rewrite !nsum_mul, <- !count_nsum, C2 by auto. specialize (S z Hz). lia. }
    destruct (length cuts) as [|[|[|k]]] eqn:L; auto. destruct cuts; [|discriminate].
    exfalso. destruct C as [_ C]. specialize (C (repeat 0 n) (repeat_length _ _)). discriminate.
Qed.

(** ** One dependence *)
Lemma iter_add_dim_mem' n pos c a b z : wf_cst c -> length a = pos -> length b = n ->
  mem (Nat.iter n (fun c => add_dim c pos) c) (a ++ b ++ z) <-> mem c (a ++ z).
Proof. intros W <-. apply iter_add_dim_mem; auto. Qed.

Lemma nth_cut n cuts k : parts n cuts -> (k < length cuts)%nat ->
  wf_cst (nth k cuts (universe 1)) /\ ncols (nth k cuts (universe 1)) = S n.
Proof. intros [P _] H. apply P. apply nth_In; auto. Qed.

Section Split.
Variables (is_empty : cst -> bool) (pr : prog) (cuts : list cst) (sid base D : nat).
Hypothesis E : forall c, wf_cst c -> is_empty c = true -> forall x, ~ mem c x.
Hypothesis C : parts (D + p_npar pr) cuts.
Hypothesis SD : s_dim (stmt_of pr sid) = D.

Definition dep_shape (d : dep) : Prop :=
  wf_cst (d_poly d) /\
  ncols (d_poly d) = (s_dim (stmt_of pr (d_src d)) + s_dim (stmt_of pr (d_dst d)) + p_npar pr + 1)%nat.

Definition nsrc (d : dep) : nat := if (d_src d =? sid)%nat then length cuts else 1%nat.
Definition ndst (d : dep) : nat := if (d_dst d =? sid)%nat then length cuts else 1%nat.
Definition at_cut (e k : nat) (x p : point) : bool :=
  if (e =? sid)%nat then memb (nth k cuts (universe 1)) (x ++ p) else true.

Lemma iss_poly_spec d s t : dep_shape d -> (s < nsrc d)%nat -> (t < ndst d)%nat ->
  wf_cst (iss_poly pr cuts sid d s t) /\ ncols (iss_poly pr cuts sid d s t) = ncols (d_poly d) /\
  forall x y p, length x = s_dim (stmt_of pr (d_src d)) -> length y = s_dim (stmt_of pr (d_dst d)) ->
    memb (iss_poly pr cuts sid d s t) (x ++ y ++ p) =
    memb (d_poly d) (x ++ y ++ p) && at_cut (d_src d) s x p && at_cut (d_dst d) t y p.
Proof.
  intros [W N] Hs Ht. unfold iss_poly, nsrc, ndst, at_cut in *.
  set (sd := s_dim (stmt_of pr (d_src d))) in *. set (dd := s_dim (stmt_of pr (d_dst d))) in *.
  set (c1 := if (d_src d =? sid)%nat then cst_add (d_poly d) (Nat.iter dd (fun c => add_dim c sd) (nth s cuts (universe 1))) else d_poly d).
  assert (wf_cst c1 /\ ncols c1 = ncols (d_poly d) /\
    forall x y p, length x = sd -> length y = dd -> memb c1 (x ++ y ++ p) =
      memb (d_poly d) (x ++ y ++ p) && (if (d_src d =? sid)%nat then memb (nth s cuts (universe 1)) (x ++ p) else true)) as (A1 & A2 & A3).
  { unfold c1. destruct (Nat.eqb_spec (d_src d) sid) as [F|F].
    - destruct (nth_cut _ _ s C Hs) as [K1 K2].
      assert (sd = D) as F' by (unfold sd; rewrite F; auto).
      split; [apply cst_add_wf; auto; [apply iter_add_dim_wf; auto|rewrite iter_add_dim_ncols; lia]|].
      split; [reflexivity|]. intros x y p Hx Hy. rewrite memb_add by (rewrite iter_add_dim_ncols; lia). f_equal.
      apply memb_eq. apply iter_add_dim_mem'; auto.
    - split; auto. split; auto. intros. rewrite andb_true_r. auto. }
  destruct (Nat.eqb_spec (d_dst d) sid) as [F|F].
  - destruct (nth_cut _ _ t C Ht) as [K1 K2].
    assert (dd = D) as F' by (unfold dd; rewrite F; auto).
    split; [apply cst_add_wf; auto; [apply iter_add_dim_wf; auto|rewrite iter_add_dim_ncols; lia]|].
    split; [cbn; auto|]. intros x y p Hx Hy. rewrite memb_add by (rewrite iter_add_dim_ncols; lia). rewrite A3 by auto. f_equal.
    apply memb_eq. apply (iter_add_dim_mem sd _ [] x (y ++ p)); auto.
  - split; auto. split; auto. intros. rewrite andb_true_r. auto.
Qed.

Lemma nsum_at_cut e x p : length x = s_dim (stmt_of pr e) -> length p = p_npar pr ->
  nsum (fun k => b2n (at_cut e k x p)) (seq 0 (if (e =? sid)%nat then length cuts else 1%nat)) = 1%nat.
Proof.
  intros Hx Hp. unfold at_cut. destruct (Nat.eqb_spec e sid) as [->|F]; [|reflexivity].
  rewrite (nsum_seq_nth (universe 1) (fun c => b2n (memb c (x ++ p))) cuts).
  rewrite <- count_nsum. apply C. rewrite app_length. lia.
Qed.

Lemma split_count d x y p : dep_shape d ->
  length x = s_dim (stmt_of pr (d_src d)) -> length y = s_dim (stmt_of pr (d_dst d)) -> length p = p_npar pr ->
  count (fun d' => memb (d_poly d') (x ++ y ++ p)) (iss_split_dep is_empty pr cuts sid base d) =
  b2n (memb (d_poly d) (x ++ y ++ p)).
Proof.
  intros S Hx Hy Hp. unfold iss_split_dep.
  destruct (negb (d_src d =? sid)%nat && negb (d_dst d =? sid)%nat).
  { unfold count. cbn [filter]. destruct (memb _ _); reflexivity. }
  fold (nsrc d) (ndst d). rewrite count_flat_map.
  transitivity (nsum (fun s => nsum (fun t => b2n (memb (d_poly d) (x ++ y ++ p) && at_cut (d_src d) s x p && at_cut (d_dst d) t y p))
     (seq 0 (ndst d))) (seq 0 (nsrc d))).
  { apply nsum_ext. intros s Hs. rewrite count_flat_map. apply nsum_ext. intros t Ht. apply in_seq in Hs, Ht.
    destruct (iss_poly_spec d s t S) as (A1 & A2 & A3); [lia|lia|]. rewrite <- A3 by auto.
    destruct (is_empty _) eqn:F.
    - unfold count; cbn. destruct (memb _ _) eqn:G; auto. apply memb_ok in G. destruct (E _ A1 F _ G).
    - unfold count; cbn [filter d_poly iss_dep_dup]. destruct (memb _ _); auto. }
  rewrite (nsum_ext _ (fun s => b2n (memb (d_poly d) (x ++ y ++ p)) * b2n (at_cut (d_src d) s x p))%nat).
  - rewrite nsum_mul. unfold nsrc. rewrite nsum_at_cut by auto. lia.
  - intros s _. rewrite (nsum_ext _ (fun t => (b2n (memb (d_poly d) (x ++ y ++ p)) * b2n (at_cut (d_src d) s x p)) * b2n (at_cut (d_dst d) t y p))%nat).
    + rewrite nsum_mul. unfold ndst. rewrite nsum_at_cut by auto. lia.
    + intros t _. destruct (memb _ _), (at_cut (d_src d) s x p), (at_cut (d_dst d) t y p); reflexivity.
Qed.

(** The end [e'] of a new dependence for the end [e] of the old one. *)
Definition new_end (e e' : nat) (k : nat) : Prop :=
  if (e =? sid)%nat then (k < length cuts)%nat /\ e' = (base + k)%nat else e' = e.

Lemma split_in d d' : dep_shape d -> In d' (iss_split_dep is_empty pr cuts sid base d) ->
  d_rar d' = d_rar d /\ d_sat d' = d_sat d /\ d_level d' = d_level d /\ d_bpoly d' = d_bpoly d /\
  wf_cst (d_poly d') /\ ncols (d_poly d') = ncols (d_poly d) /\
  exists s t, new_end (d_src d) (d_src d') s /\ new_end (d_dst d) (d_dst d') t /\
    forall x y p, length x = s_dim (stmt_of pr (d_src d)) -> length y = s_dim (stmt_of pr (d_dst d)) ->
      memb (d_poly d') (x ++ y ++ p) = true ->
      memb (d_poly d) (x ++ y ++ p) = true /\ at_cut (d_src d) s x p = true /\ at_cut (d_dst d) t y p = true.
Proof.
  intros S H. unfold iss_split_dep in H. unfold new_end, at_cut.
  destruct (d_src d =? sid)%nat eqn:F; destruct (d_dst d =? sid)%nat eqn:G; cbn [negb andb] in H.
  4:{ destruct H as [<-|[]]. destruct S. do 6 (split; [solve [auto]|]). exists 0%nat, 0%nat. repeat (split; auto). }
  all: apply in_flat_map in H as (s & Hs & H); apply in_flat_map in H as (t & Ht & H); cbv zeta in H;
    destruct (is_empty _); [destruct H|]; destruct H as [<-|[]]; cbn [d_rar d_sat d_level d_bpoly d_poly d_src d_dst iss_dep_dup];
    apply in_seq in Hs, Ht;
    destruct (iss_poly_spec d s t S) as (A1 & A2 & A3);
    [unfold nsrc; rewrite F; lia
    |unfold ndst; rewrite G; lia|];
    do 6 (split; [solve [auto]|]); exists s, t;
    (split; [solve [auto | split; [lia|auto]]|]); (split; [solve [auto | split; [lia|auto]]|]);
    intros x y p Hx Hy M; rewrite A3 in M by auto; unfold at_cut in M;
    rewrite F, G in M;
    apply andb_true_iff in M as [M M3]; apply andb_true_iff in M as [M1 M2]; auto.
Qed.
End Split.
