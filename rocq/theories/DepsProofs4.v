(** * Proofs: the access maps and schedules given to isl describe the program read
    from OpenScop. *)
From Coq Require Import ZArith List Bool Lia Arith Permutation.
From Verif Require Import SpecLinear MathModel ConstraintsModel VecProofs SpecProg SpecExec SpecOsl OslModel OslProofs SpecDeps DepsModel ExecProofs ExecProofs2 DepsProofs DepsProofs2.
Import ListNotations.
Open Scope Z_scope.

Lemma all_rows_nth {A B} (f : A -> option B) l : forall ys, all_rows f l = Some ys -> forall k,
  (forall x, nth_error l k = Some x -> exists y, f x = Some y /\ nth_error ys k = Some y) /\
  (forall y, nth_error ys k = Some y -> exists x, f x = Some y /\ nth_error l k = Some x).
Proof.
  induction l as [|a l IH]; intros ys H k; cbn in H.
  - injection H as <-. split; intros x E; destruct k; discriminate.
  - destruct (f a) as [b|] eqn:F; [|discriminate]. destruct (all_rows f l) as [bs|]; [|discriminate]. injection H as <-.
    destruct k as [|k]; cbn; [|apply (IH bs eq_refl)]. split; intros x E; injection E as <-; eauto.
Qed.

Lemma all_rows_exists {A B} (f : A -> option B) l : (forall x, In x l -> exists y, f x = Some y) -> exists ys, all_rows f l = Some ys.
Proof.
  induction l as [|a l IH]; intros H; cbn; [eauto|]. destruct (H a (or_introl eq_refl)) as (y & ->).
  destruct IH as (ys & ->); [intros x I; apply H; now right|]. eauto.
Qed.

Lemma nth_error_combine {A B} (a : list A) : forall (b : list B) k x y,
  nth_error (combine a b) k = Some (x, y) <-> nth_error a k = Some x /\ nth_error b k = Some y.
Proof.
  induction a as [|u a IH]; intros b k x y; destruct k as [|k]; cbn; try (split; [discriminate|intros [? _]; discriminate]).
  - destruct b; cbn; [split; [discriminate|intros [_ ?]; discriminate]|]. split; [intros E; injection E as -> ->; auto|intros [E1 E2]; injection E1 as ->; injection E2 as ->; auto].
  - destruct b; cbn; [|apply IH]. split; [discriminate|intros [_ ?]; discriminate].
Qed.

Lemma combine_seq {A} (l : list A) : forall s k x, In (k, x) (combine (seq s (length l)) l) <-> (s <= k)%nat /\ nth_error l (k - s) = Some x.
Proof.
  induction l as [|a l IH]; intros s k x; cbn [length seq combine].
  - split; [intros []|]. intros [_ E]. destruct (k - s)%nat; discriminate.
  - cbn [In]. rewrite IH. split.
    + intros [E|[L E]]; [injection E as -> ->; rewrite Nat.sub_diag; split; [lia|reflexivity]|].
      split; [lia|]. replace (k - s)%nat with (S (k - S s)) by lia. exact E.
    + intros [L E]. destruct (Nat.eq_dec k s) as [->|N].
      * left. rewrite Nat.sub_diag in E. cbn in E. congruence.
      * right. split; [lia|]. replace (k - s)%nat with (S (k - S s)) in E by lia. exact E.
Qed.

(** The cells accessed by a statement read from OpenScop. *)
Lemma cells_nth (F : list (osl_type * nat * osl_rel)) ms i p k l :
  all_rows (fun x => access_to_matrix (snd x)) F = Some ms ->
  nth_error (cells (map (fun x => snd (fst x)) F) ms i p) k = Some l <->
  exists x m, nth_error F k = Some x /\ access_to_matrix (snd x) = Some m /\ l = (snd (fst x), access_val i p m).
Proof.
  intros H. destruct l as [u v]. unfold cells. etransitivity; [apply nth_error_combine|].
  destruct (all_rows_nth _ _ _ H k) as [H1 H2]. split.
  - intros [E1 E2]. rewrite nth_error_map in E1, E2.
    destruct (nth_error F k) as [x|] eqn:X; [|discriminate]. cbn in E1. injection E1 as <-.
    destruct (H1 x eq_refl) as (m & M & E). rewrite E in E2. cbn in E2. injection E2 as <-. exists x, m. auto.
  - intros (x & m & X & M & E). injection E as -> ->. rewrite !nth_error_map, X. split; auto.
    destruct (H1 x X) as (m' & M' & E). rewrite M in M'. injection M' as <-. rewrite E. reflexivity.
Qed.

Section Osl.
Variables (npar ns : nat) (os : list osl_stmt) (pr : prog).
Hypothesis FORM : forall o, In o os -> exists dim A, stmt_form npar o dim A /\ length A = ns.
Hypothesis STMTS : all_rows (osl_to_stmt ns) os = Some (p_stmts pr).

Let dummy := mkOslStmt [] (mkRel 0 0 0 0 []) [].
Definition arrays (keep : osl_type -> bool) (s : nat) : list nat := osl_ids keep (nth s os dummy).

Definition keeps (rd : bool) (x : osl_type * nat * osl_rel) : bool := if rd then is_read (fst (fst x)) else is_write (fst (fst x)).
Definition mats_of (rd : bool) (st : stmt) := if rd then s_reads st else s_writes st.

Lemma stmt_read k o : nth_error os k = Some o -> forall dim A, stmt_form npar o dim A -> length A = ns ->
  (k < length (p_stmts pr))%nat /\ s_dim (stmt_of pr k) = dim /\
  (forall i p, iteration (stmt_of pr k) i p <-> length i = dim /\ union_mem (os_domain o) (i ++ p)) /\
  mrows (s_trans (stmt_of pr k)) = A /\
  (forall rd, all_rows (fun x => access_to_matrix (snd x)) (filter (keeps rd) (os_acc o)) = Some (mats_of rd (stmt_of pr k))).
Proof.
  intros K dim A (D & S & AC) LA.
  destruct (all_rows_nth _ _ _ STMTS k) as [H _]. destruct (H o K) as (st & T & N). clear H.
  assert (E : stmt_of pr k = st) by (unfold stmt_of; eapply nth_error_nth; eauto).
  split; [apply nth_error_Some; congruence|]. rewrite E. clear E N.
  unfold osl_to_stmt in T. destruct D as (c & D & Dc & Din & Dl & Dp). destruct S as (S1 & S2 & S3 & S4 & S5).
  rewrite D in T. cbn [read_domain] in T.
  assert (R : relation_to_constraints c = Some (mkCst (o_cols c - 1) (map (fun l => mkRow (nth 0 l 0 =? 0) (tl l)) (o_rows c)))).
  { unfold relation_to_constraints. rewrite Dl. reflexivity. }
  rewrite R in T. rewrite (scattering_read A _ S1 S2 S4) in T.
  rewrite !filter_walk_spec in T. cbn [rev app] in T.
  destruct (all_rows _ (filter (fun x => is_write (fst (fst x))) (os_acc o))) as [ws|] eqn:W; [|discriminate].
  destruct (all_rows _ (filter (fun x => is_read (fst (fst x))) (os_acc o))) as [rs|] eqn:RR; [|discriminate].
  injection T as <-. cbn [s_dim s_domain s_trans s_reads s_writes].
  split; [rewrite Dc, Din; lia|]. split; [|split].
  - intros i p. unfold iteration. cbn [s_dim s_domain]. rewrite Dc, Din, Nat.add_0_r, D. unfold union_mem, rel_mem, mem. cbn [ncols rows].
    split.
    + intros (L & L2 & H). split; auto. exists c. split; [now left|]. split.
      * unfold o_cols in L2. lia.
      * intros l I. apply holds_list. apply (H (mkRow (nth 0 l 0 =? 0) (tl l))). apply in_map_iff. eauto.
    + intros (L & c' & [<-|[]] & L2 & H). split; auto. split.
      * unfold o_cols. lia.
      * intros r I. apply in_map_iff in I. destruct I as (l & <- & I). apply holds_list. exact (H l I).
  - unfold pad_trans. unfold mnrows. cbn [mrows]. rewrite LA, Nat.sub_diag. reflexivity.
  - intros [|]; [exact RR|exact W].
Qed.

(** An element of the list of entries. *)
Lemma entry_in accw rd es e : osl_entries accw rd os = Some es -> In e es ->
  exists k o nx, nth_error os k = Some o /\ n_stmt (fst nx) = k /\ In (snd nx) (filter (keeps rd) (os_acc o)) /\ entry_of o nx = Some e /\
    (accw = true -> In nx (name_accesses k 0 0 (os_acc o))).
Proof.
  unfold osl_entries. match goal with |- context [all_rows ?f ?l] => destruct (all_rows f l) as [ll|] eqn:R; [|discriminate] end. intros ES I. assert (ES' : concat ll = es) by congruence. subst es.
  apply in_concat in I. destruct I as (l & Il & I).
  destruct (all_rows_in _ _ _ R) as (_ & H & _). destruct (H l Il) as ([k o] & Iko & SE).
  apply combine_seq in Iko. rewrite Nat.sub_0_r in Iko. destruct Iko as [_ K]. cbn [fst snd] in SE.
  unfold stmt_entries in SE. destruct (all_rows_in _ _ _ SE) as (_ & H2 & _). destruct (H2 e I) as (nx & Inx & EO).
  exists k, o, nx. split; auto. destruct accw.
  - apply filter_In in Inx. destruct Inx as [Inx Kp]. split; [eapply name_accesses_stmt; eauto|]. split; [|split; auto].
    apply filter_In. split; [|exact Kp]. rewrite <- (name_accesses_snd k (os_acc o) 0 0). now apply in_map.
  - rewrite filter_walk_spec in Inx. cbn [rev app] in Inx. apply in_map_iff in Inx. destruct Inx as (x & <- & Ix).
    split; [reflexivity|]. split; [exact Ix|]. split; auto. discriminate.
Qed.

(** What an entry relates. *)
Lemma entry_cell k o nx e i p l dim A rd : nth_error os k = Some o -> stmt_form npar o dim A -> length A = ns ->
  In (snd nx) (filter (keeps rd) (os_acc o)) -> entry_of o nx = Some e ->
  e_name e = fst nx /\
  exists m, access_to_matrix (snd (snd nx)) = Some m /\
    (length p = npar -> entry_rel e i p l <-> iteration (stmt_of pr k) i p /\ l = (snd (fst (snd nx)), access_val i p m)).
Proof.
  intros K SF LA Ix EO. destruct (stmt_read k o K dim A SF LA) as (_ & SD & IT & _ & _).
  apply filter_In in Ix. destruct Ix as [Ix _]. destruct SF as (_ & _ & AC). destruct (AC _ Ix) as (w & id & B & P & O & L & IN & PA).
  destruct (access_map_matrix w id B _ P O L) as (eqs & m & E1 & E2 & H).
  unfold entry_of in EO. rewrite E1 in EO. injection EO as <-. split; [reflexivity|]. exists m. split; auto.
  intros LP. unfold entry_rel. cbn [e_array e_dim e_dom e_eqs]. rewrite IT, IN. destruct l as [u v]. cbn [fst snd].
  unfold access_val. split.
  - intros (-> & Li & U & HH). split; [split; auto|]. f_equal. apply (H v (i ++ p)); auto. rewrite app_length. lia.
  - intros ((Li & U) & E). injection E as -> ->. split; auto. split; auto. split; auto.
    apply (H _ (i ++ p)); auto. rewrite app_length. lia.
Qed.

Lemma arrays_nth (rd : bool) k o : nth_error os k = Some o ->
  arrays (if rd then is_read else is_write) k = map (fun x => snd (fst x)) (filter (keeps rd) (os_acc o)).
Proof.
  intros K. unfold arrays, osl_ids. rewrite (nth_error_nth _ _ _ K), filter_walk_spec. cbn [rev app]. destruct rd; reflexivity.
Qed.

Lemma In_nth_error_iff {A} (l : list A) x : In x l <-> exists k, nth_error l k = Some x.
Proof. split; [apply In_nth_error|]. intros (k & E). eapply nth_error_In; eauto. Qed.

Lemma osl_accesses accw (rd : bool) es p : osl_entries accw rd os = Some es -> length p = npar ->
  accesses_of pr (arrays (if rd then is_read else is_write)) (mats_of rd) (entries_amap es) p.
Proof.
  intros ES LP. split.
  - intros a i l (e & I & En & R). destruct (entry_in accw rd es e ES I) as (k & o & nx & K & NS & Ix & EO & _).
    destruct (FORM o (nth_error_In _ _ K)) as (dim & A & SF & LA).
    destruct (entry_cell k o nx e i p l dim A rd K SF LA Ix EO) as (EN & m & M & H). apply (H LP) in R. destruct R as [IT ->].
    destruct (stmt_read k o K dim A SF LA) as (LK & _ & _ & _ & MT).
    rewrite EN in En. subst a. rewrite NS. split; [split; auto|]. rewrite (arrays_nth rd k o K).
    apply In_nth_error_iff. apply In_nth_error_iff in Ix. destruct Ix as (j & J). exists j.
    apply (cells_nth _ _ _ _ _ _ (MT rd)). eauto.
  - intros k i l (LK & IT) I. cbn [fst snd] in LK, IT.
    destruct (all_rows_in _ _ _ STMTS) as (_ & _ & LE). rewrite LE in LK.
    destruct (nth_error os k) as [o|] eqn:K; [|apply nth_error_None in K; lia].
    destruct (FORM o (nth_error_In _ _ K)) as (dim & A & SF & LA).
    destruct (stmt_read k o K dim A SF LA) as (_ & _ & _ & _ & MT).
    rewrite (arrays_nth rd k o K) in I. apply In_nth_error_iff in I. destruct I as (j & J).
    apply (cells_nth _ _ _ _ _ _ (MT rd)) in J. destruct J as (x & m & J & M & ->).
    assert (NM : exists nm, n_stmt nm = k /\ In (nm, x) (if accw then filter (fun x => keeps rd (snd x)) (name_accesses k 0 0 (os_acc o))
               else map (pair (mkName k None)) (filter_walk (keeps rd) (os_acc o) []))).
    { pose proof (nth_error_In _ _ J) as Ix. destruct accw.
      - apply filter_In in Ix. destruct Ix as [Ix Kp]. rewrite <- (name_accesses_snd k (os_acc o) 0 0) in Ix.
        apply in_map_iff in Ix. destruct Ix as ([nm y] & E & Iy). cbn in E. subst y. exists nm. split; [change nm with (fst (nm, x)); eapply name_accesses_stmt; eauto|].
        apply filter_In. split; auto.
      - exists (mkName k None). split; [reflexivity|]. rewrite filter_walk_spec. cbn [rev app]. now apply in_map. }
    destruct NM as (nm & NS & NI). exists nm. split; auto.
    unfold osl_entries in ES. match type of ES with context [all_rows ?f ?l] => destruct (all_rows f l) as [ll|] eqn:R; [|discriminate] end. injection ES as <-.
    destruct (all_rows_in _ _ _ R) as (H & _). destruct (H (k, o)) as (el & SE & Iel).
    { apply combine_seq. rewrite Nat.sub_0_r. split; [lia|exact K]. }
    cbn [fst snd] in SE. unfold stmt_entries in SE.
    destruct (all_rows_in _ _ _ SE) as (H2 & _).
    destruct (H2 (nm, x)) as (e & EO & Ie); [destruct accw; exact NI|].
    exists e. split; [apply in_concat; eauto|].
    destruct (entry_cell k o (nm, x) e i p (snd (fst x), access_val i p m) dim A rd K SF LA (nth_error_In _ _ J) EO) as (EN & m' & M' & HH).
    cbn [snd] in M'. rewrite M in M'. injection M' as <-. split; [exact EN|]. apply (HH LP). split; auto.
Qed.

Lemma osl_names (rd : bool) es p : osl_entries true rd os = Some es -> length p = npar ->
  names_access pr (arrays (if rd then is_read else is_write)) (mats_of rd) (negb rd) (entries_amap es) p.
Proof.
  intros ES LP a i l (e & I & En & R). destruct (entry_in true rd es e ES I) as (k & o & nx & K & NS & Ix & EO & NA).
  destruct (FORM o (nth_error_In _ _ K)) as (dim & A & SF & LA).
  destruct (entry_cell k o nx e i p l dim A rd K SF LA Ix EO) as (EN & m & M & H). apply (H LP) in R. destruct R as [IT ->].
  destruct (stmt_read k o K dim A SF LA) as (LK & _ & _ & _ & MT).
  rewrite EN in En. subst a. rewrite NS. specialize (NA eq_refl).
  assert (NN : exists b j, n_acc (fst nx) = Some (b, j)).
  { clear - NA. revert NA. generalize 0%nat at 1. generalize 0%nat.
    induction (os_acc o) as [|y l IH]; intros r w; cbn; [easy|]. destruct (is_read _); intros [<-|J]; cbn; eauto. }
  destruct NN as (b & j & NJ). destruct nx as [[n q] x]. cbn in NJ. subst q.
  apply name_accesses_number in NA. destruct NA as (B1 & B2 & _). cbn [fst snd] in *.
  apply filter_In in Ix. destruct Ix as [_ Kp].
  assert (BB : b = negb rd) by (unfold keeps in Kp; destruct rd, (fst (fst x)); cbn in *; congruence). clear B1. subst b.
  exists j. split; [reflexivity|]. rewrite (arrays_nth rd k o K). apply (cells_nth _ _ _ _ _ _ (MT rd)). exists x, m. split; auto.
  destruct rd; cbn in B2; rewrite Nat.sub_0_r in B2; exact B2.
Qed.

Lemma osl_entries_exist accw rd : exists es, osl_entries accw rd os = Some es.
Proof.
  unfold osl_entries.
  match goal with |- context [all_rows ?f ?l] => destruct (all_rows_exists f l) as (ys & ->) end; [|eauto].
  intros [k o] I. apply combine_seq in I. rewrite Nat.sub_0_r in I. destruct I as [_ K].
  destruct (FORM o (nth_error_In _ _ K)) as (dim & A & SF & LA). cbn [fst snd]. unfold stmt_entries. apply all_rows_exists.
  intros nx Inx.
  assert (Ix : In (snd nx) (os_acc o)).
  { destruct accw.
    - apply filter_In in Inx. destruct Inx as [Inx _]. rewrite <- (name_accesses_snd k (os_acc o) 0 0). now apply in_map.
    - rewrite filter_walk_spec in Inx. cbn [rev app] in Inx. apply in_map_iff in Inx. destruct Inx as (x & <- & Ix).
      apply filter_In in Ix. apply Ix. }
  destruct SF as (_ & _ & AC). destruct (AC _ Ix) as (w & id & B & P & O & L & _).
  destruct (access_map_matrix w id B _ P O L) as (eqs & m & E1 & _). unfold entry_of. rewrite E1. eauto.
Qed.

(** The schedule of isl: the timestamps of the program. *)
Lemma osl_dates a i p u : length p = npar -> runs pr p (n_stmt a, i) -> osl_smap os a i p u <-> u = time_of pr p (n_stmt a, i).
Proof.
  intros LP (LK & IT). cbn [fst snd] in *. destruct (all_rows_in _ _ _ STMTS) as (_ & _ & LE). rewrite LE in LK.
  destruct (nth_error os (n_stmt a)) as [o|] eqn:K; [|apply nth_error_None in K; lia].
  destruct (FORM o (nth_error_In _ _ K)) as (dim & A & SF & LA).
  destruct (stmt_read _ o K dim A SF LA) as (_ & SD & _ & TR & _).
  destruct SF as (_ & (S1 & S2 & S3 & S4 & S5) & _). unfold time_of, timestamp. cbn [fst snd]. rewrite TR.
  unfold osl_smap. rewrite K. split.
  - intros (o' & eqs & E & EQ & Li & H). injection E as <-. rewrite (equalities_osl_form A _ S1 S2) in EQ. injection EQ as <-.
    apply eqs_mean in H. exact H.
  - intros ->. exists o. eexists. split; [reflexivity|]. split; [apply (equalities_osl_form A _ S1 S2)|]. split.
    + destruct IT as [Li _]. rewrite Li, SD, S3. reflexivity.
    + apply eqs_mean. reflexivity.
Qed.

Lemma lexlt_total a : forall b, length a = length b -> lexlt a b \/ lexlt b a \/ a = b.
Proof.
  induction a as [|x a IH]; intros [|y b] L; try discriminate; [auto|]. cbn. injection L as L.
  destruct (Z.lt_trichotomy x y) as [H|[H|H]]; auto. subst y. destruct (IH b L) as [H|[H|H]]; subst; auto.
Qed.

Lemma osl_scheduled (acc : amap) p orig : length p = npar ->
  (forall a i l, acc a i p l -> runs pr p (n_stmt a, i)) ->
  all_instances pr p orig -> follows_times pr p orig ->
  (forall x y, runs pr p x -> runs pr p y -> time_of pr p x = time_of pr p y -> x = y) ->
  scheduled (osl_smap os) acc p orig.
Proof.
  intros LP RUN (ND & ALL) FT DT a s b t l l' A1 A2.
  pose proof (RUN _ _ _ A1) as R1. pose proof (RUN _ _ _ A2) as R2.
  assert (LT : forall x, runs pr p x -> length (time_of pr p x) = ns).
  { intros [k i] (LK & _). cbn [fst snd] in *. destruct (all_rows_in _ _ _ STMTS) as (_ & _ & LE). rewrite LE in LK.
    destruct (nth_error os k) as [o|] eqn:K; [|apply nth_error_None in K; lia].
    destruct (FORM o (nth_error_In _ _ K)) as (dim & A & SF & LA).
    destruct (stmt_read _ o K dim A SF LA) as (_ & _ & _ & TR & _). unfold time_of, timestamp. cbn [fst snd]. rewrite TR, map_length. auto. }
  assert (SO : forall c u d v, runs pr p (n_stmt c, u) -> runs pr p (n_stmt d, v) ->
            sooner (osl_smap os) c u d v p <-> lexlt (time_of pr p (n_stmt c, u)) (time_of pr p (n_stmt d, v))).
  { intros c u d v Rc Rd. split.
    - intros (x & y & H1 & H2 & H3). apply (osl_dates _ _ _ _ LP Rc) in H1. apply (osl_dates _ _ _ _ LP Rd) in H2. subst. exact H3.
    - intros H. exists (time_of pr p (n_stmt c, u)), (time_of pr p (n_stmt d, v)). split; [now apply osl_dates|]. split; [now apply osl_dates|exact H]. }
  split.
  - rewrite (SO a s b t R1 R2). split.
    + intros H. apply FT; auto; now apply ALL.
    + intros B. destruct (lexlt_total (time_of pr p (n_stmt a, s)) (time_of pr p (n_stmt b, t))) as [H|[H|H]]; auto.
      * rewrite !LT; auto.
      * exfalso. apply (before_irrefl orig (n_stmt a, s) ND). eapply before_trans; [exact ND|exact B|]. apply FT; auto; now apply ALL.
      * exfalso. apply DT in H; auto. rewrite <- H in B. now apply (before_irrefl orig _ ND) in B.
  - intros (u & H1 & H2). apply (osl_dates _ _ _ _ LP R1) in H1. apply (osl_dates _ _ _ _ LP R2) in H2. apply DT; congruence.
Qed.
End Osl.
