(** * Properties of index-set splitting: C39, C40, C61. *)
From Coq Require Import ZArith QArith List Bool Lia Arith Cantor ConstructiveEpsilon ClassicalDescription.
From Verif Require Import SpecLinear MathModel ConstraintsModel VecProofs EditProofs MatrixProofs SpecProg SpecTile
  FrameworkModel ProgModel TileModel LoopModel IssModel SpecIss Checkers IssProofs IssProofs2 IssProofs3 ExProg PropFramework PropAuto.
Import ListNotations.
Open Scope Z_scope.

(** ** C39 *)

(** The half-spaces built from the hyperplanes found are pairwise disjoint and
    cover the space. *)
Theorem C39_cuts_partition : forall n hs, hs <> [] -> (forall h, In h hs -> hyperplane n h) ->
  partition n (fold_left add_cut hs []).
Proof.
  intros n hs Ne H. apply parts_partition.
  assert (forall l cuts, (forall h, In h l -> hyperplane n h) -> parts n cuts -> parts n (fold_left add_cut l cuts)) as K.
  { induction l as [|h l IH]; intros cuts Hl P; cbn [fold_left]; auto. apply IH. intros; apply Hl; simpl; auto.
    apply add_cut_parts; auto. apply Hl; simpl; auto. }
  destruct hs as [|h l]; [congruence|]. cbn [fold_left]. apply K. intros; apply H; simpl; auto.
  apply add_cut_parts; auto. apply H; simpl; auto.
Qed.
Print Assumptions C39_cuts_partition.

Lemma pieces_split npar cuts st : wf_cst (s_domain st) -> ncols (s_domain st) = (s_dim st + npar + 1)%nat ->
  partition (s_dim st + npar) cuts -> splits_into npar st (map (iss_stmt st) cuts).
Proof.
  intros Ws N P. split; [|].
  - intros st' H. apply in_map_iff in H as (c & <- & _). repeat split.
  - assert (forall c i p, In c cuts -> iteration npar (iss_stmt st c) i p <-> iteration npar st i p /\ mem c (i ++ p)) as IT.
    { intros c i p Hc. unfold iteration. cbn [iss_stmt stmt_dup set_domain s_dim s_domain].
      destruct (proj1 P c Hc) as [_ Nc]. rewrite cst_add_mem by lia. tauto. }
    intros i p. split.
    + intros I. pose proof I as (I1 & I2 & I3). rewrite map_length.
      pose proof (proj2 P (i ++ p)) as E. specialize (E ltac:(rewrite app_length; lia)).
      eapply exactly_one_ext; [|exact E]. intros k Hk. cbn beta.
      rewrite (nth_indep _ dummy_stmt (iss_stmt st (mkCst 0 []))) by (rewrite map_length; auto).
      rewrite List.map_nth. rewrite IT by (apply nth_In; auto). tauto.
    + intros st' H. apply in_map_iff in H as (c & <- & Hc). rewrite IT by auto. tauto.
Qed.

(** Splitting one statement: the new statements follow the old ones, and they
    are the parts of the statement in the sets of the partition. *)
Theorem C39_split_statement : forall is_empty pr sid cuts pr',
  wf_prog pr -> (sid < length (p_stmts pr))%nat ->
  partition (s_dim (stmt_of pr sid) + p_npar pr) cuts ->
  iss is_empty pr sid cuts = Some pr' ->
  exists l, p_stmts pr' = p_stmts pr ++ l /\ length l = length cuts /\
    splits_into (p_npar pr) (stmt_of pr sid) l /\
    (forall k i p, (k < length cuts)%nat -> iteration (p_npar pr) (nth k l dummy_stmt) i p -> mem (nth k cuts (mkCst 0 [])) (i ++ p)).
Proof.
  intros is_empty pr sid cuts pr' W Hs P E.
  assert (In (stmt_of pr sid) (p_stmts pr)) as Is by (apply nth_In; auto).
  destruct (proj1 W _ Is) as (_ & _ & _ & T1 & _ & T2 & T3 & _).
  assert (cuts <> []) as NC.
  { intros ->. destruct (proj2 P (repeat 0 (s_dim (stmt_of pr sid) + p_npar pr)) (repeat_length _ _)) as (k & K & _). simpl in K. lia. }
  exists (map (iss_stmt (stmt_of pr sid)) cuts). split; [|split; [apply map_length|split; [apply pieces_split; auto|]]].
  - unfold iss in E. destruct (add_given_fold (stmt_of pr sid) cuts pr (length (p_hprops pr))) as (_ & A & _); auto.
    { intros st H. apply (proj1 W) in H. apply H. }
    rewrite update_eq in E by auto. cbv zeta in E. destruct (nilb _ && _); [discriminate|]. injection E as <-. cbn [p_stmts]. exact A.
  - intros k i p Hk. rewrite (nth_indep _ dummy_stmt (iss_stmt (stmt_of pr sid) (mkCst 0 []))) by (rewrite map_length; auto).
    rewrite List.map_nth. intros (_ & _ & M). cbn [iss_stmt stmt_dup set_domain s_domain] in M.
    apply cst_add_mem in M; [apply M|]. destruct (proj1 P (nth k cuts (mkCst 0 [])) (nth_In _ _ Hk)) as [_ ->]. lia.
Qed.
Print Assumptions C39_split_statement.

(** The pass: both outcomes, with or without splitting. *)
Lemma program_spec is_empty is_long lexmin pr :
  (forall c, wf_cst c -> is_empty c = true -> forall x, ~ mem c x) -> sound_solver lexmin -> wf_prog pr ->
  iss_program is_empty is_long lexmin pr = Some pr \/
  exists cuts D, (2 <= length cuts)%nat /\ parts (D + p_npar pr) cuts /\
    (forall st, In st (p_stmts pr) -> s_dim st = D) /\
    iss_program is_empty is_long lexmin pr = split_all is_empty pr cuts.
Proof.
  intros E L W. unfold iss_program.
  destruct (length (p_stmts pr) =? 0)%nat; auto.
  destruct (forallb _ _) eqn:F; cbn [negb]; auto.
  destruct (are_stmts_fused pr); cbn [negb]; auto.
  destruct (length (p_deps pr) =? 0)%nat; auto.
  set (D := s_dim (stmt_of pr 0)) in *.
  assert (forall st, In st (p_stmts pr) -> s_dim st = D) as SD.
  { rewrite forallb_forall in F. intros st H. apply Nat.eqb_eq. apply F; auto. }
  pose proof (iss_cuts_parts is_long lexmin pr D L W SD) as C. cbv zeta in C |- *.
  set (cuts := iss_cuts is_long lexmin pr D) in *. clearbody cuts.
  destruct (Nat.leb_spec 2 (length cuts)); auto. right. exists cuts, D. split; auto. split; auto.
  destruct C as [->|C]; auto. simpl in *. lia.
Qed.

Lemma pieces_segment cuts l s : (s < length l)%nat ->
  firstn (length cuts) (skipn (s * length cuts) (pieces cuts l)) = map (iss_stmt (nth s l dummy_stmt)) cuts.
Proof.
  unfold pieces. revert s; induction l as [|a l IH]; simpl; intros s Hs; [lia|]. destruct s.
  - cbn [Nat.mul skipn]. rewrite firstn_app, map_length, Nat.sub_diag. cbn [firstn]. rewrite app_nil_r.
    apply firstn_all2. rewrite map_length. auto.
  - replace (S s * length cuts)%nat with (length cuts + s * length cuts)%nat by lia.
    rewrite skipn_app, map_length. rewrite skipn_all2 by (rewrite map_length; lia). cbn [app].
    replace (length cuts + s * length cuts - length cuts)%nat with (s * length cuts)%nat by lia. apply IH. lia.
Qed.

Lemma one_split npar st : splits_into npar st [st].
Proof.
  split. intros st' [<-|[]]. repeat split. intros i p. split.
  - intros I. exists 0%nat. split; [simpl; auto|]. split; auto. intros k' H _. simpl in H. lia.
  - intros st' [<-|[]]; auto.
Qed.

Lemma firstn_one {A} s (l : list A) (d : A) : (s < length l)%nat -> firstn 1 (skipn s l) = [nth s l d].
Proof. revert s; induction l; destruct s; simpl; intros; try lia; auto. apply IHl. lia. Qed.

(** The whole pass: statement [s] becomes the [m] statements numbered from
    [s * m], which together do its work. *)
Theorem C39_split_program : forall is_empty is_long lexmin pr pr',
  (forall c, wf_cst c -> is_empty c = true -> forall x, ~ mem c x) -> sound_solver lexmin -> wf_prog pr ->
  iss_program is_empty is_long lexmin pr = Some pr' ->
  p_npar pr' = p_npar pr /\
  exists m, (1 <= m)%nat /\ length (p_stmts pr') = (length (p_stmts pr) * m)%nat /\
    forall s, (s < length (p_stmts pr))%nat ->
      splits_into (p_npar pr) (stmt_of pr s) (firstn m (skipn (s * m) (p_stmts pr'))).
Proof.
  intros is_empty is_long lexmin pr pr' E L W H.
  destruct (program_spec is_empty is_long lexmin pr E L W) as [K|(cuts & D & C1 & C2 & SD & K)]; rewrite K in H.
  - injection H as <-. split; auto. exists 1%nat. split; [lia|]. split; [lia|]. intros s Hs.
    rewrite Nat.mul_1_r, (firstn_one s _ dummy_stmt) by auto. apply one_split.
  - pose proof (split_all_spec is_empty pr cuts D E C2 W SD) as S. rewrite H in S.
    destruct S as (S1 & _ & S3 & _). split; auto. exists (length cuts). split; [lia|].
    split; [rewrite S3, pieces_length; auto|]. intros s Hs. rewrite S3, pieces_segment by auto.
    assert (In (stmt_of pr s) (p_stmts pr)) as Is by (apply nth_In; auto).
    destruct (proj1 W _ Is) as (_ & _ & _ & _ & _ & T2 & T3 & _).
    apply (pieces_split (p_npar pr) cuts (stmt_of pr s)); auto. rewrite (SD _ Is). apply parts_partition; auto.
Qed.
Print Assumptions C39_split_program.

(** ** C40 *)
Theorem C40_dependences : forall is_empty is_long lexmin pr pr',
  (forall c, wf_cst c -> is_empty c = true -> forall x, ~ mem c x) -> sound_solver lexmin -> wf_prog pr ->
  iss_program is_empty is_long lexmin pr = Some pr' ->
  exists m G, (1 <= m)%nat /\ length (p_stmts pr') = (length (p_stmts pr) * m)%nat /\
    p_deps pr' = concat G /\ Forall2 (replaces m pr pr') (p_deps pr) G.
Proof.
  intros is_empty is_long lexmin pr pr' E L W H.
  destruct (program_spec is_empty is_long lexmin pr E L W) as [K|(cuts & D & C1 & C2 & SD & K)]; rewrite K in H.
  - injection H as <-. exists 1%nat, (map (fun d => [d]) (p_deps pr)). split; [lia|]. split; [lia|]. split.
    + induction (p_deps pr); simpl; congruence.
    + assert (forall d, replaces 1 pr pr d [d]) as R.
      { intros d. split; [|split].
        - intros s t p. split.
          + intros I. exists 0%nat. split; [simpl; auto|]. split; auto. intros k' Hk _. simpl in Hk. lia.
          + intros d' [<-|[]]; auto.
        - intros d' [<-|[]]. repeat split; exists 0%nat; lia.
        - intros d' s t p [<-|[]]; auto. }
      induction (p_deps pr); simpl; constructor; auto.
  - pose proof (split_all_spec is_empty pr cuts D E C2 W SD) as S. rewrite H in S.
    destruct S as (S1 & S2 & S3 & G & S4 & S5). exists (length cuts), G. split; [lia|].
    split; [rewrite S3, pieces_length; auto|]. auto.
Qed.
Print Assumptions C40_dependences.

(** Splitting neither adds nor removes constraints on the order of execution:
    the program is legal before exactly if it is legal after. *)
Theorem C40_legal : forall is_empty is_long lexmin pr pr',
  (forall c, wf_cst c -> is_empty c = true -> forall x, ~ mem c x) -> sound_solver lexmin -> wf_prog pr ->
  iss_program is_empty is_long lexmin pr = Some pr' ->
  legal pr' <-> legal pr.
Proof.
  intros is_empty is_long lexmin pr pr' E L W H.
  destruct (program_spec is_empty is_long lexmin pr E L W) as [K|(cuts & D & C1 & C2 & SD & K)]; rewrite K in H.
  { injection H as <-. tauto. }
  pose proof (split_all_spec is_empty pr cuts D E C2 W SD) as S. rewrite H in S.
  destruct S as (S1 & S2 & S3 & G & S4 & S5). set (m := length cuts) in *.
  assert (TR : forall s k i p, (s < length (p_stmts pr))%nat -> (k < m)%nat ->
    timestamp (stmt_of pr' (s * m + k)) i p = timestamp (stmt_of pr s) i p).
  { intros s k i p Hs Hk. unfold stmt_of. rewrite S3. unfold m. rewrite pieces_nth by auto. reflexivity. }
  assert (RS : forall d g, In d (p_deps pr) -> replaces m pr pr' d g ->
    (respected pr d <-> forall d', In d' g -> respected pr' d')).
  { intros d g Hd (R1 & R2 & _). destruct (proj2 W d Hd) as (W1 & W2 & _). split.
    - intros R d' H' s t p I. destruct (R2 d' H') as (_ & _ & _ & _ & (k & Hk & ->) & (k2 & Hk2 & ->)).
      rewrite !TR by auto. apply R. apply (proj2 (R1 s t p) d'); auto.
    - intros R s t p I. destruct (proj1 (R1 s t p) I) as (k & K1 & K2 & _).
      assert (In (nth k g d) g) as Ik by (apply nth_In; auto).
      destruct (R2 _ Ik) as (_ & _ & _ & _ & (k1 & Hk1 & Q1) & (k2 & Hk2 & Q2)).
      specialize (R _ Ik s t p K2). rewrite Q1, Q2, !TR in R by auto. auto. }
  unfold legal. rewrite S4.
  assert (forall l G, (forall d, In d l -> In d (p_deps pr)) -> Forall2 (replaces m pr pr') l G ->
    ((forall d', In d' (concat G) -> d_rar d' = false -> respected pr' d') <-> (forall d, In d l -> d_rar d = false -> respected pr d))) as KK.
  { intros l G0 Hl F. induction F as [|d g l G0 R F IH]; [simpl; split; intros ? ? []|].
    specialize (IH (fun d H => Hl d (or_intror H))). cbn [concat].
    assert (forall d', In d' g -> d_rar d' = d_rar d) as RR by (intros d' H'; apply (proj1 (proj2 R) d' H')).
    specialize (RS d g (Hl d (or_introl eq_refl)) R). split.
    - intros A d0 [<-|H0] Hr.
      + apply RS. intros d' H'. apply A; [apply in_or_app; auto|]. rewrite RR; auto.
      + apply IH; auto. intros d' H' Hr'. apply A; auto. apply in_or_app; auto.
    - intros A d' H' Hr. apply in_app_or in H' as [H'|H'].
      + apply RS; auto. apply A; simpl; auto. rewrite <- (RR d'); auto.
      + apply IH; auto. intros d0 H0 Hr0. apply A; simpl; auto. }
  apply KK; auto.
Qed.
Print Assumptions C40_legal.

(** The pass is well defined as soon as one dependence has an instance. *)
Theorem C40_defined : forall is_empty is_long lexmin pr,
  (forall c, wf_cst c -> is_empty c = true -> forall x, ~ mem c x) -> sound_solver lexmin -> wf_prog pr ->
  (exists d s t p, In d (p_deps pr) /\ instance pr d s t p) ->
  iss_program is_empty is_long lexmin pr <> None.
Proof.
  intros is_empty is_long lexmin pr E L W (d & s & t & p & Hd & I) H.
  destruct (program_spec is_empty is_long lexmin pr E L W) as [K|(cuts & D & C1 & C2 & SD & K)]; rewrite K in H; [discriminate|].
  pose proof (split_all_spec is_empty pr cuts D E C2 W SD) as S. rewrite H in S. apply (S d s t p Hd I).
Qed.
Print Assumptions C40_defined.

(** ** C61 *)

(** The cut a.(i,p) = 0 separates the two ends of every dependence it was made
    for about in the middle: the values of the cut at the two ends cancel up to
    5.  Its coefficients of the iterators are non-negative and not all zero. *)
Theorem C61_cut_near_midpoints : forall lexmin n npar doms h,
  sound_solver lexmin ->
  (forall dom, In dom doms -> wf_cst dom /\ ncols dom = (2 * n + npar + 1)%nat) ->
  find_iss lexmin npar doms = Some h ->
  exists a, rows h = [mkRow true a] /\ length a = (n + npar + 1)%nat /\ ncols h = (n + npar + 1)%nat /\
    (forall j, (j < n)%nat -> 0 <= nth j a 0) /\ 1 <= zsum (firstn n a) /\
    forall dom s t p, In dom doms -> length s = n -> length t = n -> length p = npar -> mem dom (s ++ t ++ p) ->
      -5 <= aff a (s ++ p) + aff a (t ++ p) <= 5.
Proof. intros lexmin n npar doms h L WD. apply (find_iss_sound lexmin n npar doms WD h L). Qed.
Print Assumptions C61_cut_near_midpoints.

(** No cut is found only if there is none with such coefficients (on the
    rational points of the dependences). *)
Theorem C61_no_cut : forall lexmin n npar doms,
  complete_solver lexmin ->
  (forall dom, In dom doms -> wf_cst dom /\ ncols dom = (2 * n + npar + 1)%nat) ->
  doms <> [] -> (forall dom, In dom doms -> exists x, qmem dom x) ->
  find_iss lexmin npar doms = None ->
  forall h v, length h = n -> length v = (npar + 1)%nat -> Forall (Z.le 0) h -> Forall (Z.le 0) v -> 1 <= zsum h ->
  ~ forall dom s t p, In dom doms -> length s = n -> length t = n -> length p = npar -> qmem dom (s ++ t ++ p) ->
      (- (5) <= qaff (h ++ map Z.opp v) (s ++ p) + qaff (h ++ map Z.opp v) (t ++ p) <= 5)%Q.
Proof. intros lexmin n npar doms L WD. apply (find_iss_complete lexmin n npar doms WD L). Qed.
Print Assumptions C61_no_cut.

(** ** Solvers

    There is a sound and complete solver (isl and PIP are two). *)
Fixpoint decode (k n : nat) : list Z :=
  match k with
  | O => []
  | S k' => let (a, b) := Cantor.of_nat n in Z.of_nat a :: decode k' b
  end.
Lemma decode_onto k : forall x, length x = k -> Forall (Z.le 0) x -> exists n, decode k n = x.
Proof.
  induction k; intros [|a x] Hl F; try discriminate.
  - exists 0%nat. reflexivity.
  - inversion F; subst. destruct (IHk x) as [m M]; auto. exists (Cantor.to_nat (Z.to_nat a, m)).
    cbn [decode]. rewrite Cantor.cancel_of_to, M, Z2Nat.id by auto. reflexivity.
Qed.
Lemma decode_pos k : forall n, Forall (Z.le 0) (decode k n).
Proof. induction k; intros n; cbn [decode]; [constructor|]. destruct (Cantor.of_nat n). constructor; [lia|auto]. Qed.

Theorem C61_solver_exists : exists lexmin, sound_solver lexmin /\ complete_solver lexmin.
Proof.
  exists (fun c =>
    match excluded_middle_informative (exists n, memb c (decode (ncols c - 1) n) = true) with
    | left H => Some (decode (ncols c - 1) (proj1_sig
        (constructive_indefinite_ground_description_nat _ (fun n => bool_dec (memb c (decode (ncols c - 1) n)) true) H)))
    | right _ => None
    end).
  split.
  - intros c x W E. destruct (excluded_middle_informative _) as [H|H]; [|discriminate]. injection E as <-.
    destruct (constructive_indefinite_ground_description_nat _ _ H) as [n N]. cbn [proj1_sig].
    split; [apply memb_ok; auto|apply decode_pos].
  - intros c W E x P M. destruct (excluded_middle_informative _) as [H|H]; [discriminate|]. apply H.
    destruct (decode_onto (ncols c - 1) x) as [n N]; auto. { destruct M as [M _]. lia. }
    exists n. rewrite N. apply memb_ok; auto.
Qed.
Print Assumptions C61_solver_exists.

(** ** Examples *)

(** for i in 0..N { S0; S1 }: S0 at i and at N - i are dependent (a periodic
    stencil folded at N/2), and S1 uses the value of S0 at i. *)
Definition iss_s (c : Z) : stmt := mkStmt 1 1 [true] (mkCst 3 [ge [1;0;0]; ge [-1;1;0]])
  (mkMat 3 [[1;0;0]; [0;0;c]]) [H_LOOP; H_SCALAR] 0 0 [mkMat 3 [[1;0;0]]] [mkMat 3 [[-1;1;0]]] None 0 (-1) (-1).
Definition iss_mirror : dep := ex_dep 0 0 false (mkCst 4 [mkRow true [1;1;-1;0]; ge [1;0;0;0]; ge [-1;1;0;-1]; ge [0;-1;1;0]]).
Definition iss_same : dep := ex_dep 0 1 false (mkCst 4 [mkRow true [1;-1;0;0]; ge [1;0;0;0]; ge [-1;0;1;0]]).
Definition iss_prog : prog := mkProg 1 1 [iss_s 0; iss_s 1] [iss_mirror; iss_same] [H_LOOP; H_SCALAR].
Definition iss_lexmin (c : cst) : option point := if memb c [0;2;2;1;0] then Some [0;2;2;1;0] else None.

Lemma iss_lexmin_sound : sound_solver iss_lexmin.
Proof.
  intros c x _. unfold iss_lexmin. destruct (memb c _) eqn:M; [|discriminate]. intros [= <-]. split; [apply memb_ok; auto|].
  repeat constructor; lia.
Qed.
Lemma iss_prog_wf : wf_prog iss_prog.
Proof.
  split.
  - intros st [<-|[<-|[]]]; (split; [reflexivity|]); repeat (split; [first [reflexivity|wf]|]);
      simpl; intuition (subst; first [wf|reflexivity]).
  - intros d [<-|[<-|[]]]; (split; [simpl; lia|split; [simpl; lia|split; [wf|split; [reflexivity|split; [wf|reflexivity]]]]]).
Qed.

Example C39_cuts_met :
  exists hs : list cst, length hs = 2%nat /\ (forall h, In h hs -> hyperplane 3 h) /\
    length (fold_left add_cut hs []) = 4%nat.
Proof.
  exists [mkCst 4 [mkRow true [2;0;-1;0]]; mkCst 4 [mkRow true [0;2;-1;0]]].
  split; [reflexivity|split; [|reflexivity]].
  intros h [<-|[<-|[]]]; eexists; (split; [reflexivity|split; [wf|reflexivity]]).
Qed.

Example C39_met :
  exists is_empty, (forall c, wf_cst c -> is_empty c = true -> forall x, ~ mem c x) /\
    sound_solver iss_lexmin /\ wf_prog iss_prog /\
    iss_cuts (fun _ _ => true) iss_lexmin iss_prog 1 =
      [mkCst 3 [ge [-2;1;-1]]; mkCst 3 [ge [2;-1;0]]] /\
    exists pr', iss_program is_empty (fun _ _ => true) iss_lexmin iss_prog = Some pr' /\
      length (p_stmts pr') = 4%nat /\
      map (fun d => (d_src d, d_dst d)) (p_deps pr') = [(0, 1); (0, 2); (1, 3)]%nat /\
      instance iss_prog iss_mirror [2] [7] [9] /\ instance pr' (nth 0 (p_deps pr') iss_same) [2] [7] [9].
Proof.
  destruct C12_oracle_exists as [f F]. exists (dec_empty f). split.
  { intros c W E. pose proof (dec_empty_exact f F c W) as D. rewrite E in D. auto. }
  split; [apply iss_lexmin_sound|]. split; [apply iss_prog_wf|]. split; [vm_compute; reflexivity|].
  eexists. split; [vm_compute; reflexivity|]. split; [reflexivity|]. split; [reflexivity|].
  split; (split; [reflexivity|split; [reflexivity|split; [reflexivity|inset]]]).
Qed.
Print Assumptions C39_met.

(** If every dependence is found to be empty when it is split, the program's
    dependences are freed and the array is not replaced: the pass leaves
    dangling pointers (and the old number of dependences). *)
Theorem C40_all_freed_refuted : exists is_empty pr cuts,
  (forall c, wf_cst c -> match is_empty c with true => forall x, ~ mem c x | false => exists x, mem c x end) /\
  wf_prog pr /\ p_deps pr <> [] /\ partition (s_dim (stmt_of pr 0) + p_npar pr) cuts /\
  iss is_empty pr 0 cuts = None.
Proof.
  destruct C12_oracle_exists as [f F]. exists (dec_empty f).
  exists (mkProg 1 1 [iss_s 0] [ex_dep 0 0 false (mkCst 4 [mkRow true [1;-1;0;0]; ge [1;-1;0;-1]])] [H_LOOP; H_SCALAR]).
  exists (fold_left add_cut [mkCst 3 [mkRow true [2;-1;0]]] []).
  split.
  { intros c W. pose proof (dec_empty_exact f F c W) as D. exact D. }
  split; [|split; [discriminate|split]].
  - split.
    + intros st [<-|[]]; (split; [reflexivity|]); repeat (split; [first [reflexivity|wf]|]);
        simpl; intuition (subst; first [wf|reflexivity]).
    + intros d [<-|[]]; (split; [simpl; lia|split; [simpl; lia|split; [wf|split; [reflexivity|split; [wf|reflexivity]]]]]).
  - apply C39_cuts_partition; [discriminate|]. intros h [<-|[]]. eexists; split; [reflexivity|split; [wf|reflexivity]].
  - vm_compute. reflexivity.
Qed.
Print Assumptions C40_all_freed_refuted.

Example C61_met : exists h, find_iss iss_lexmin 1 [d_poly iss_mirror] = Some h /\ rows h = [mkRow true [2;-1;0]].
Proof. eexists. split; vm_compute; reflexivity. Qed.

(** A dependence whose mid-points fill a plane cannot be cut. *)
Example C61_no_cut_met : exists lexmin, sound_solver lexmin /\ complete_solver lexmin /\
  find_iss lexmin 0 [mkCst 3 [ge [1;0;0]; ge [0;1;0]]] = None.
Proof.
  destruct C61_solver_exists as (lexmin & S1 & S2). exists lexmin. split; [auto|split; [auto|]].
  assert (forall dom, In dom [mkCst 3 [ge [1;0;0]; ge [0;1;0]]] -> wf_cst dom /\ ncols dom = (2 * 1 + 0 + 1)%nat) as WD.
  { intros dom [<-|[]]. split; [wf|reflexivity]. }
  destruct (find_iss lexmin 0 _) as [h|] eqn:E; auto.
  destruct (C61_cut_near_midpoints lexmin 1 0 _ h S1 WD E) as (a & _ & L & _ & N & Z1 & B).
  destruct a as [|a0 [|a1 [|]]]; try discriminate. cbn in Z1.
  pose proof (B _ [0] [0] [] (or_introl eq_refl) eq_refl eq_refl eq_refl ltac:(inset)) as B0.
  pose proof (B _ [10] [10] [] (or_introl eq_refl) eq_refl eq_refl eq_refl ltac:(inset)) as B1.
  unfold aff in B0, B1. cbn -[Z.mul Z.add] in B0, B1. lia.
Qed.
Print Assumptions C61_no_cut_met.
