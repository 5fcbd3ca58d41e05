(** * C70 - C72: exchange with OpenScop and Candl. *)
From Coq Require Import ZArith List Bool Lia Arith Permutation.
From Verif Require Import SpecLinear MathModel ConstraintsModel VecProofs SpecOsl OslModel OslProofs OslProofs2.
Import ListNotations.
Open Scope Z_scope.

(** ** C70: reading domains, schedules and accesses *)

(** A domain given by one relation keeps its points. *)
Theorem C70_domain r c : relation_to_constraints r = Some c -> forall x, mem c x <-> rel_mem r x.
Proof.
  unfold relation_to_constraints. destruct (Nat.ltb_spec 0 (o_local r)) as [|L]; [discriminate|]. intros E x. inversion E; subst c. clear E.
  unfold mem, rel_mem. cbn [ncols rows]. split; intros (A & H).
  - split; [unfold o_cols in A; lia|]. intros l I. apply holds_list. apply (H (mkRow (nth 0 l 0 =? 0) (tl l))). apply in_map_iff. eauto.
  - split; [unfold o_cols; lia|]. intros q I. apply in_map_iff in I. destruct I as (l & <- & I). apply holds_list. auto.
Qed.
Print Assumptions C70_domain.

(** It is read whenever it has no local dimensions. *)
Theorem C70_domain_read_partial r rs : o_local r = 0%nat -> exists c, read_domain (r :: rs) = Some c /\ forall x, mem c x <-> rel_mem r x.
Proof.
  intros L. cbn [read_domain]. destruct (relation_to_constraints r) as [c|] eqn:E.
  - exists c. split; [auto|]. apply C70_domain; auto.
  - unfold relation_to_constraints in E. rewrite L in E. discriminate.
Qed.
Print Assumptions C70_domain_read_partial.

(** Schedules in the form [eq -I A c], rows in any order: the matrix read is A,
    and the relation is the graph of A. *)
Theorem C70_schedule_partial r A :
  Permutation (schedule_rows A) (o_rows r) -> o_out r = length A -> o_local r = 0%nat ->
  exists m, scattering_to_trans r = Some m /\ mrows m = A /\
    forall t x, length t = o_out r -> length x = (o_in r + o_par r)%nat ->
      (rel_mem r (t ++ x) <-> t = map (fun a => aff a x) (mrows m)).
Proof.
  intros P O L. eexists. split; [apply scattering_read; eauto|]. cbn [mrows]. split; [reflexivity|]. intros t x T X.
  rewrite <- (schedule_rows_holds A t x) by lia. unfold rel_mem. split.
  - intros (_ & H) l I. apply H. eapply Permutation_in; eauto.
  - intros H. split; [rewrite app_length; lia|]. intros l I. apply H. eapply Permutation_in; [apply Permutation_sym, P|auto].
Qed.
Print Assumptions C70_schedule_partial.

(** Accesses in the form [eq -I A c], the first output dimension being the array:
    the matrix read gives the subscripts; a scalar gets the subscript 0. *)
Theorem C70_access_partial r id A :
  Permutation (access_rows (o_in r + o_par r) id A) (o_rows r) -> o_out r = S (length A) -> o_local r = 0%nat ->
  exists m, access_to_matrix r = Some m /\
    (A <> [] -> mrows m = A) /\ (A = [] -> mrows m = [repeat 0 (o_in r + o_par r + 1)]) /\
    forall b t x, length t = length A -> length x = (o_in r + o_par r)%nat ->
      (rel_mem r ((b :: t) ++ x) <-> b = id /\ t = firstn (length A) (map (fun a => aff a x) (mrows m))).
Proof.
  intros P O L. eexists. split; [apply (access_read _ _ _ _ P); auto|]. cbn [mrows].
  split; [intros N; destruct A; [congruence|reflexivity]|]. split; [intros ->; reflexivity|]. intros b t x T X.
  assert (firstn (length A) (map (fun a => aff a x) (if (length A =? 0)%nat then [repeat 0 (o_in r + o_par r + 1)] else A)) =
          map (fun a => aff a x) A) as ->.
  { destruct A as [|a A]; [reflexivity|]. cbn [length Nat.eqb]. apply firstn_all2. rewrite map_length. simpl. lia. }
  rewrite <- (access_rows_holds (o_in r + o_par r) id A b t x) by auto. unfold rel_mem. split.
  - intros (_ & H) l I. apply H. eapply Permutation_in; eauto.
  - intros H. split; [rewrite app_length; simpl; lia|]. intros l I. apply H. eapply Permutation_in; [apply Permutation_sym, P|auto].
Qed.
Print Assumptions C70_access_partial.

(** Relations that do not have exactly one row for each output dimension are
    rejected: if a schedule is read, all its rows are equations and each output
    dimension occurs in exactly one of them; likewise for accesses with
    subscripts. *)
Theorem C70_one_row_per_dimension r m :
  (scattering_to_trans r = Some m -> o_local r = 0%nat /\ forall i, (i < length (o_rows r))%nat ->
     nth 0 (nth i (o_rows r) []) 0 = 0 /\ length (filter (fun l => negb (nth (i + 1) l 0 =? 0)) (o_rows r)) = 1%nat) /\
  (access_to_matrix r = Some m -> o_local r = 0%nat /\ forall i, (1 <= i < length (o_rows r))%nat ->
     length (filter (fun l => negb (nth (i + 1) l 0 =? 0)) (o_rows r)) = 1%nat).
Proof.
  assert (forall d k, row_id_for_dim r d = Some k -> length (filter (fun l => negb (nth d l 0 =? 0)) (o_rows r)) = 1%nat) as R.
  { intros d k E. unfold row_id_for_dim in E. destruct (_ <? _)%nat; [discriminate|]. cbv zeta in E.
    destruct (fold_rows d (o_rows r) _ (le_n _)) as (F & _). cbv zeta in F. rewrite firstn_all in F.
    set (f := fold_left _ _ _) in *. clearbody f. destruct (Nat.eqb_spec (fst f) 1) as [E1|]; [|discriminate]. rewrite F in E1. exact E1. }
  assert (forall A B (f : A -> option B) l ys, all_rows f l = Some ys -> forall x, In x l -> f x <> None) as AL.
  { intros A B f. induction l as [|a l IH]; intros ys E x Hx; [destruct Hx|]. cbn [all_rows] in E. destruct (f a) as [y|] eqn:Ef; [|discriminate].
    destruct (all_rows f l) eqn:El; [|discriminate]. destruct Hx as [<-|Hx]; [congruence|]. eapply IH; eauto. }
  split; intros H.
  - unfold scattering_to_trans in H. destruct (Nat.ltb_spec 0 (o_local r)); [discriminate|]. split; [lia|].
    destruct (all_rows _ _) as [l|] eqn:E; [|discriminate]. intros i Hi. pose proof (AL _ _ _ _ _ E i ltac:(apply in_seq; lia)) as N. cbv beta in N.
    destruct (Z.eqb_spec (nth 0 (nth i (o_rows r) []) 0) 0); [|congruence]. split; [auto|]. destruct (row_id_for_dim r (i + 1)) eqn:Er; [|congruence]. eapply R; eauto.
  - unfold access_to_matrix in H. destruct (Nat.ltb_spec 0 (o_local r)); [discriminate|]. split; [lia|]. cbv zeta in H. intros i Hi.
    destruct (Nat.eqb_spec (length (o_rows r)) 1); [lia|]. destruct (all_rows _ _) as [l|] eqn:E; [|discriminate].
    pose proof (AL _ _ _ _ _ E i ltac:(apply in_seq; lia)) as N. cbv beta in N. destruct (row_id_for_dim r (i + 1)) eqn:Er; [|congruence]. eapply R; eauto.
Qed.
Print Assumptions C70_one_row_per_dimension.
Example C70_one_row_met : scattering_to_trans (mkRel 1 1 0 0 [[0; -1; 1; 0]]) = Some (mkMat 2 [[1; 0]]) /\
  scattering_to_trans (mkRel 2 1 0 0 [[0; -1; 0; 1; 0]; [0; -1; -1; 1; 0]]) = None /\
  access_to_matrix (mkRel 2 1 0 0 [[0; -1; 0; 0; 7]; [0; 0; -1; 1; 3]]) = Some (mkMat 2 [[1; 3]]).
Proof. repeat split. Qed.

(** Schedules are padded with zero rows to a common length. *)
Theorem C70_padding n m : (mnrows m <= n)%nat ->
  mncols (pad_trans n m) = mncols m /\
  mrows (pad_trans n m) = mrows m ++ repeat (repeat 0 (mncols m)) (n - mnrows m).
Proof.
  intros H. unfold pad_trans.
  assert (forall q k, mncols q = mncols m ->
    mncols (fold_left (fun m j => matrix_add_row m j) (seq (mnrows q) k) q) = mncols m /\
    mrows (fold_left (fun m j => matrix_add_row m j) (seq (mnrows q) k) q) = mrows q ++ repeat (repeat 0 (mncols m)) k) as G.
  { intros q k. revert q. induction k as [|k IH]; intros q C; cbn [seq fold_left repeat]; [rewrite app_nil_r; auto|].
    assert (mrows (matrix_add_row q (mnrows q)) = mrows q ++ [repeat 0 (mncols m)]) as E.
    { unfold matrix_add_row, mnrows. cbn [mrows]. rewrite C. clear.
      induction (mrows q) as [|r l IHl]; simpl; [reflexivity|]. rewrite IHl. reflexivity. }
    assert (mnrows (matrix_add_row q (mnrows q)) = S (mnrows q)) as N.
    { unfold mnrows at 1. rewrite E, app_length. simpl. unfold mnrows. lia. }
    destruct (IH (matrix_add_row q (mnrows q)) C) as (A & B). rewrite N in A, B. split; [exact A|]. rewrite B, E, <- app_assoc. reflexivity. }
  apply G. reflexivity.
Qed.
Print Assumptions C70_padding.

(** Example: for (i..N) A[i+1][2j] at iteration (i, j), the rows of the
    relations are not in the order of the dimensions. *)
Definition ex_scat : osl_rel :=
  mkRel 3 2 0 1 [[0; 0; -1; 0; 1; 0; 0; 0]; [0; -1; 0; 0; 0; 0; 0; 4]; [0; 0; 0; -1; 0; 1; 0; 0]].
Definition ex_acc : osl_rel :=
  mkRel 3 2 0 1 [[0; 0; 0; -1; 0; 2; 0; 0]; [0; -1; 0; 0; 0; 0; 0; 7]; [0; 0; -1; 0; 1; 0; 0; 1]].
Example C70_met :
  (exists A, Permutation (schedule_rows A) (o_rows ex_scat) /\ o_out ex_scat = length A /\
     scattering_to_trans ex_scat = Some (mkMat 4 A) /\ A = [[0; 0; 0; 4]; [1; 0; 0; 0]; [0; 1; 0; 0]]) /\
  (exists A, Permutation (access_rows 3 7 A) (o_rows ex_acc) /\ o_out ex_acc = S (length A) /\
     access_to_matrix ex_acc = Some (mkMat 4 A) /\ A = [[1; 0; 0; 1]; [0; 2; 0; 0]]) /\
  wf_rel ex_scat /\ wf_rel ex_acc.
Proof.
  split; [|split; [|split]].
  - exists [[0; 0; 0; 4]; [1; 0; 0; 0]; [0; 1; 0; 0]]. cbn. repeat split. apply perm_swap.
  - exists [[1; 0; 0; 1]; [0; 2; 0; 0]]. cbn. repeat split.
    eapply Permutation_trans; [apply perm_skip, perm_swap|]. apply perm_swap.
  - intros l [<-|[<-|[<-|[]]]]; reflexivity.
  - intros l [<-|[<-|[<-|[]]]]; reflexivity.
Qed.

(** Limit 1: only the first relation of a union of domains is read.  The domain
    of the statement under "if (i <= 2 || i >= 5)" loses the iterations i >= 5. *)
Theorem C70_union_refuted : exists rs c x,
  (forall r, In r rs -> wf_rel r /\ o_local r = 0%nat) /\ read_domain rs = Some c /\ union_mem rs x /\ ~ mem c x.
Proof.
  exists [mkRel 1 0 0 0 [[1; 1; 0]; [1; -1; 2]]; mkRel 1 0 0 0 [[1; 1; -5]; [1; -1; 9]]].
  eexists. exists [6]. split; [|split; [reflexivity|split]].
  - intros r [<-|[<-|[]]]; (split; [|reflexivity]); intros l [<-|[<-|[]]]; reflexivity.
  - eexists. split; [right; left; reflexivity|]. split; [reflexivity|]. intros l [<-|[<-|[]]]; unfold osl_holds, aff; simpl; lia.
  - intros (_ & H). specialize (H _ (or_intror (or_introl eq_refl))). unfold holds, aff in H. simpl in H. lia.
Qed.
Print Assumptions C70_union_refuted.

(** Limit 2: the sign of the output coefficient is not looked at.  The relation
    "t + i = 0" gives every iteration the date - i; it is read as the date i,
    that is, in reversed order. *)
Theorem C70_sign_refuted : exists r m,
  wf_rel r /\ o_local r = 0%nat /\ scattering_to_trans r = Some m /\
  (forall i t, rel_mem r [t; i] <-> t = - i) /\
  (forall i j t u, rel_mem r [t; i] -> rel_mem r [u; j] ->
     (lexlt [t] [u] <-> lexlt (map (fun a => aff a [j]) (mrows m)) (map (fun a => aff a [i]) (mrows m)))).
Proof.
  exists (mkRel 1 1 0 0 [[0; 1; 1; 0]]), (mkMat 2 [[1; 0]]). split; [|split; [reflexivity|split; [reflexivity|]]].
  - intros l [<-|[]]. reflexivity.
  - assert (forall i t, rel_mem (mkRel 1 1 0 0 [[0; 1; 1; 0]]) [t; i] <-> t = - i) as G.
    { intros i t. unfold rel_mem. split.
      - intros (_ & H). specialize (H _ (or_introl eq_refl)). unfold osl_holds, aff in H. cbn [nth tl Z.eqb app dot] in H. lia.
      - intros ->. split; [reflexivity|]. intros l [<-|[]]. unfold osl_holds, aff. cbn [nth tl Z.eqb app dot]. lia. }
    split; [exact G|]. intros i j t u H1 H2. apply G in H1. apply G in H2. subst. unfold aff. cbn [map mrows app dot lexlt]. lia.
Qed.
Print Assumptions C70_sign_refuted.

(** ** C71: writing domains, schedules and accesses *)

(** The written domain has the same points. *)
Theorem C71_domain npar c : wf_cst c -> (npar + 1 <= ncols c)%nat ->
  wf_rel (constraints_to_domain npar c) /\ forall x, rel_mem (constraints_to_domain npar c) x <-> mem c x.
Proof.
  intros (W1 & W2) N. split.
  - intros l I. unfold constraints_to_domain in *. cbn [o_rows] in I. apply in_map_iff in I. destruct I as (r & <- & I).
    unfold o_cols. cbn [o_out o_in o_local o_par length]. rewrite W2 by auto. lia.
  - intros x. unfold rel_mem, mem, constraints_to_domain. cbn [o_out o_in o_local o_par o_rows]. split; intros (L & H).
    + split; [lia|]. intros r I. apply holds_row. apply (H ((if is_eq r then 0 else 1) :: coef r)). apply in_map_iff. eauto.
    + split; [lia|]. intros l I. apply in_map_iff in I. destruct I as (r & <- & I). apply holds_row. auto.
Qed.
Print Assumptions C71_domain.

(** The written schedule relates exactly the date of an iteration to it. *)
Theorem C71_schedule npar m : wf_mat m -> (npar + 1 <= mncols m)%nat ->
  wf_rel (trans_to_scattering npar m) /\
  forall t x, length t = mnrows m -> S (length x) = mncols m ->
    (rel_mem (trans_to_scattering npar m) (t ++ x) <-> t = map (fun a => aff a x) (mrows m)).
Proof.
  intros W N. split.
  - intros l I. unfold trans_to_scattering in *. cbn [o_rows] in I. apply in_map_iff in I. destruct I as (i & <- & _).
    rewrite map_length, seq_length. unfold o_cols. cbn [o_out o_in o_local o_par]. lia.
  - intros t x T X. unfold rel_mem. rewrite written_rows by auto. rewrite schedule_rows_holds by auto.
    split; [tauto|]. intros E. split; [|auto]. rewrite app_length. unfold trans_to_scattering. cbn [o_out o_in o_local o_par]. lia.
Qed.
Print Assumptions C71_schedule.

(** Writing followed by reading gives back the same matrices. *)
Theorem C71_round_trip npar m c : wf_mat m -> (npar + 1 <= mncols m)%nat -> wf_cst c -> (npar + 1 <= ncols c)%nat ->
  scattering_to_trans (trans_to_scattering npar m) = Some m /\
  read_domain [constraints_to_domain npar c] = Some c.
Proof.
  intros W N (W1 & W2) N'. split.
  - rewrite (scattering_read (mrows m)).
    + unfold trans_to_scattering. cbn [o_in o_par]. replace (mncols m - npar - 1 + npar + 1)%nat with (mncols m) by lia. destruct m; reflexivity.
    + rewrite written_rows by auto. apply Permutation_refl.
    + reflexivity.
    + reflexivity.
  - cbn [read_domain]. unfold relation_to_constraints, constraints_to_domain. cbn [o_local o_rows Nat.ltb Nat.leb]. unfold o_cols. cbn [o_out o_in o_local o_par].
    f_equal. destruct c as [w rs]. cbn [ncols rows] in *. f_equal; [lia|]. rewrite map_map. rewrite <- (map_id rs) at 2. apply map_ext.
    intros [e l]. cbn. destruct e; reflexivity.
Qed.
Print Assumptions C71_round_trip.

(** New iterators in front of the old ones do not change what an access touches. *)
Theorem C71_new_iterators k : forall r u z y, wf_rel r -> length u = o_out r -> length z = k ->
  length y = (o_in r + o_local r + o_par r)%nat ->
  o_in (update_access k r) = (k + o_in r)%nat /\
  (rel_mem (update_access k r) (u ++ z ++ y) <-> rel_mem r (u ++ y)).
Proof.
  induction k as [|k IH]; intros r u z y W U Z Y.
  - destruct z; [|discriminate]. simpl. split; [auto|reflexivity].
  - destruct z as [|v z _] using rev_ind; [discriminate|]. rewrite app_length in Z. simpl in Z.
    assert (wf_rel (insert_blank_column r)) as W'.
    { intros l I. cbn [insert_blank_column o_rows] in I. apply in_map_iff in I. destruct I as (l' & <- & I). apply W in I.
      rewrite insert_at_length. rewrite I. unfold o_cols. cbn [insert_blank_column o_out o_in o_local o_par]. lia. }
    destruct (IH (insert_blank_column r) u z (v :: y) W' U ltac:(lia)) as (A & B); [cbn; lia|]. cbn [update_access].
    split; [rewrite A; cbn [insert_blank_column o_in]; lia|]. rewrite <- app_assoc. cbn [app]. rewrite B.
    unfold rel_mem. cbn [insert_blank_column o_out o_in o_local o_par o_rows]. split; intros (L & H).
    + split; [rewrite app_length in *; simpl in L; lia|]. intros l I. apply (blank_column_holds r l u v y); auto.
      apply H. apply in_map, I.
    + split; [rewrite app_length in *; simpl; lia|]. intros l I. apply in_map_iff in I. destruct I as (l' & <- & I).
      apply (blank_column_holds r l' u v y); auto.
Qed.
Print Assumptions C71_new_iterators.

(** Example: a tiled statement with one parameter. *)
Definition ex_trans : matrix := mkMat 4 [[1; 0; 0; 0]; [0; 1; 0; 0]; [0; 0; 0; 2]].
Definition ex_dom : cst := mkCst 4 [mkRow false [-32; 1; 0; 0]; mkRow false [32; -1; 0; 31]; mkRow true [0; 1; -1; 0]].
Example C71_met :
  wf_mat ex_trans /\ wf_cst ex_dom /\ mem ex_dom [1; 40; 40] /\ ~ mem ex_dom [1; 70; 70] /\
  rel_mem (constraints_to_domain 1 ex_dom) [1; 40; 40] /\ rel_mem (trans_to_scattering 1 ex_trans) [1; 40; 2; 1; 40; 40] /\
  wf_rel ex_acc /\ rel_mem ex_acc [7; 4; 10; 3; 5; 100] /\ rel_mem (update_access 2 ex_acc) [7; 4; 10; 0; 8; 3; 5; 100].
Proof.
  assert (wf_mat ex_trans) as A by (intros r [<-|[<-|[<-|[]]]]; reflexivity).
  assert (wf_cst ex_dom) as B by (split; [simpl; lia|intros r [<-|[<-|[<-|[]]]]; reflexivity]).
  assert (mem ex_dom [1; 40; 40]) as C.
  { split; [reflexivity|]. intros r [<-|[<-|[<-|[]]]]; unfold holds, aff; simpl; lia. }
  assert (wf_rel ex_acc) as D by (intros l [<-|[<-|[<-|[]]]]; reflexivity).
  assert (rel_mem ex_acc [7; 4; 10; 3; 5; 100]) as E.
  { split; [reflexivity|]. intros l [<-|[<-|[<-|[]]]]; unfold osl_holds, aff; cbn; lia. }
  split; [auto|]. split; [auto|]. split; [auto|]. split.
  { intros (_ & H). specialize (H _ (or_intror (or_introl eq_refl))). unfold holds, aff in H. simpl in H. lia. }
  split. { apply (C71_domain 1 ex_dom B); [simpl; lia|auto]. }
  split. { apply (proj2 (C71_schedule 1 ex_trans A ltac:(simpl; lia)) [1; 40; 2] [1; 40; 40]); reflexivity. }
  split; [auto|]. split; [auto|].
  apply (C71_new_iterators 2 ex_acc [7; 4; 10] [0; 8] [3; 5; 100]); auto.
Qed.

(** ** C72: dependences computed by Candl *)

(** The polyhedron read from the dependence system of Candl consists exactly of
    the source and target iterations that the system allows. *)
Theorem C72_polyhedron k s t p : wf_candl k -> k_sarr k = k_tarr k ->
  length s = k_ns k -> length t = k_nt k -> length p = k_np k ->
  (mem (remove_zero_rows (candl_poly k)) (s ++ t ++ p) <-> candl_mem k s t p).
Proof.
  intros W E S_ T P. rewrite remove_zero_mem, poly_meaning by auto. rewrite candl_meaning by auto. tauto.
Qed.
Print Assumptions C72_polyhedron.

(** These are the iterations of the two domains that access the same element of
    the same array in the given order. *)
Theorem C72_system k s t p : wf_candl k -> length s = k_ns k -> length t = k_nt k -> length p = k_np k ->
  (candl_mem k s t p <-> k_sarr k = k_tarr k /\ dep_meaning k s t p).
Proof. intros W S_ T P. apply candl_meaning; auto. Qed.
Print Assumptions C72_system.

(** The position found for an access designates it in the list of the reads or
    writes of the statement. *)
Theorem C72_positions (l : list osl_type) (k : nat) : (k < length l)%nat ->
  (is_write (nth k l T_READ) = true -> exists j, access_position is_write l k (-1) = Z.of_nat j /\
     nth_error (map fst (filter_walk (fun it => is_write (snd it)) (combine (seq 0 (length l)) l) [])) j = Some k) /\
  (is_read (nth k l T_READ) = true -> exists j, access_position is_read l k (-1) = Z.of_nat j /\
     nth_error (map fst (filter_walk (fun it => is_read (snd it)) (combine (seq 0 (length l)) l) [])) j = Some k).
Proof.
  intros K.
  assert (forall keep : osl_type -> bool, keep (nth k l T_READ) = true -> exists j, access_position keep l k (-1) = Z.of_nat j /\
     nth_error (map fst (filter_walk (fun it => keep (snd it)) (combine (seq 0 (length l)) l) [])) j = Some k) as G; [|split; apply G].
  intros keep H. rewrite filter_walk_spec. cbn [rev app].
  assert (forall o num, access_position keep l k num = access_position (fun it => keep (snd it)) (combine (seq o (length l)) l) k num) as E.
  { clear. revert k. induction l as [|a l IH]; intros k o num; simpl; auto. destruct k; auto. }
  rewrite (E 0%nat). set (c := combine (seq 0 (length l)) l).
  assert (length c = length l) as L by (unfold c; rewrite combine_length, seq_length; lia).
  assert (nth k c (0%nat, T_READ) = (k, nth k l T_READ)) as N.
  { unfold c. rewrite combine_nth by (rewrite seq_length; auto). rewrite seq_nth by auto. reflexivity. }
  destruct (access_position_spec (fun it => keep (snd it)) (0%nat, T_READ) c k (-1)) as (j & A & B); [lia|rewrite N; auto|].
  exists j. split; [lia|]. rewrite nth_error_map, B, N. reflexivity.
Qed.
Print Assumptions C72_positions.

(** The lists of reads and writes keep exactly the accesses of their kind, in order. *)
Theorem C72_filter (A : Type) (kind : A -> osl_type) (l : list A) :
  filter_walk (fun a => is_write (kind a)) l [] = filter (fun a => is_write (kind a)) l /\
  filter_walk (fun a => is_read (kind a)) l [] = filter (fun a => is_read (kind a)) l.
Proof. split; rewrite filter_walk_spec; reflexivity. Qed.
Print Assumptions C72_filter.

(** Example: S1: A[i][0] = ..; S2: .. = A[j-1][0], 0 <= i, j < N, order i < j at level 0. *)
Definition ex_candl : candl_dep :=
  mkCandl 1 1 1 [mkRow false [1; 0; 0]; mkRow false [-1; 1; -1]] [mkRow false [1; 0; 0]; mkRow false [-1; 1; -1]]
    3 3 [[1; 0; 0]; [0; 0; 0]] [[1; 0; -1]; [0; 0; 0]] [(false, -1, 1, -1)].
Example C72_met : wf_candl ex_candl /\ k_sarr ex_candl = k_tarr ex_candl /\
  candl_mem ex_candl [2] [3] [10] /\ ~ candl_mem ex_candl [2] [4] [10] /\ ~ candl_mem ex_candl [9] [10] [10] /\
  rows (remove_zero_rows (candl_poly ex_candl)) =
    [mkRow false [1; 0; 0; 0]; mkRow false [-1; 0; 1; -1]; mkRow false [0; 1; 0; 0]; mkRow false [0; -1; 1; -1];
     mkRow true [1; -1; 0; 1]; mkRow false [-1; 1; 0; -1]].
Proof.
  assert (wf_candl ex_candl) as W.
  { unfold wf_candl. cbn. repeat split; try lia; intros r [<-|[<-|[]]]; reflexivity. }
  split; [auto|]. split; [reflexivity|]. split; [|split; [|split; [|reflexivity]]].
  - apply C72_system; auto. split; [reflexivity|]. unfold dep_meaning. cbn [ex_candl k_sdom k_tdom k_sacc k_tacc k_order].
    split; [|split; [|split]].
    + intros r [<-|[<-|[]]]; unfold holds, aff; simpl; lia.
    + intros r [<-|[<-|[]]]; unfold holds, aff; simpl; lia.
    + intros [|[|j]] J; simpl in J; try lia; reflexivity.
    + intros [|[|i]] e a b c N; inversion N; subst. simpl. lia.
  - rewrite C72_system by auto. intros (_ & _ & _ & H & _). specialize (H 0%nat ltac:(simpl; lia)). unfold aff in H. simpl in H. lia.
  - rewrite C72_system by auto. intros (_ & _ & H & _). specialize (H (mkRow false [-1; 1; -1]) (or_intror (or_introl eq_refl))). unfold holds, aff in H. simpl in H. lia.
Qed.

(** If the type were taken over, source and target access would be the right ones:
    the numbers kept designate, among the writes of the statement if the type says
    that it writes, else among its reads, the accesses Candl names. *)
Definition source_writes (t : dep_type) : bool := match t with D_RAW | D_WAW => true | _ => false end.
Definition target_writes (t : dep_type) : bool := match t with D_WAR | D_WAW => true | _ => false end.
Definition numbers_of (w : bool) (l : list osl_type) : list nat :=
  map fst (filter (fun it => if w then is_write (snd it) else is_read (snd it)) (combine (seq 0 (length l)) l)).
Theorem C72_accesses_partial (i : candl_item) : ki_type i <> D_UNDEFINED ->
  (ki_sacc i < length (ki_slist i))%nat -> (ki_tacc i < length (ki_tlist i))%nat ->
  In (ki_sacc i) (numbers_of (source_writes (ki_type i)) (ki_slist i)) ->
  In (ki_tacc i) (numbers_of (target_writes (ki_type i)) (ki_tlist i)) ->
  exists r a b, read_one (fun t => t) i = Some r /\ rd_src r = ki_src i /\ rd_dst r = ki_dst i /\ rd_type r = ki_type i /\
    rd_poly r = remove_zero_rows (candl_poly (ki_dep i)) /\ rd_sacc r = Z.of_nat a /\ rd_tacc r = Z.of_nat b /\
    nth_error (numbers_of (source_writes (ki_type i)) (ki_slist i)) a = Some (ki_sacc i) /\
    nth_error (numbers_of (target_writes (ki_type i)) (ki_tlist i)) b = Some (ki_tacc i).
Proof.
  assert (forall w l k, (k < length l)%nat -> In k (numbers_of w l) -> exists j, access_position (if w then is_write else is_read) l k (-1) = Z.of_nat j /\ nth_error (numbers_of w l) j = Some k) as G.
  { intros w l k K H. unfold numbers_of in H. apply in_map_iff in H as ([k' ty] & E & H). cbn [fst] in E. subst k'. apply filter_In in H as [H1 H2].
    assert (nth k l T_READ = ty) as N.
    { apply In_nth with (d := (0%nat, T_READ)) in H1 as (n & Ln & En). rewrite combine_length, seq_length in Ln.
      rewrite combine_nth in En by apply seq_length. rewrite seq_nth in En by lia. injection En as -> ->. reflexivity. }
    destruct (C72_positions l k K) as [P1 P2]. unfold numbers_of. cbn [snd] in H2. rewrite <- N in H2.
    destruct w; [destruct (P1 H2) as (j & A & B)|destruct (P2 H2) as (j & A & B)]; exists j; (split; [exact A|]);
      [rewrite (proj1 (C72_filter _ (fun it : nat * osl_type => snd it) _)) in B|rewrite (proj2 (C72_filter _ (fun it : nat * osl_type => snd it) _)) in B]; exact B. }
  intros U S_ T_ IS IT. destruct (G _ _ _ S_ IS) as (a & A1 & A2). destruct (G _ _ _ T_ IT) as (b & B1 & B2).
  unfold read_one. cbv zeta. destruct (ki_type i) eqn:Et; try congruence; cbn [source_writes target_writes] in *; cbv iota in A1, B1; rewrite A1, B1;
    rewrite !(proj2 (Z.ltb_ge _ _)) by lia; eexists; exists a, b; (split; [reflexivity|]); cbn; auto 10.
Qed.
Print Assumptions C72_accesses_partial.
Example C72_accesses_met : let i := mkItem 0 1 D_WAR ex_candl [T_READ; T_WRITE; T_READ] 2 [T_READ; T_WRITE; T_WRITE] 2 in
  In (ki_sacc i) (numbers_of (source_writes (ki_type i)) (ki_slist i)) /\ In (ki_tacc i) (numbers_of (target_writes (ki_type i)) (ki_tlist i)) /\
  option_map (fun r => (rd_sacc r, rd_tacc r)) (read_one (fun t => t) i) = Some (1, 1).
Proof. cbn. auto 10. Qed.

(** The type of a dependence is not taken over: the cases of the switch run into
    each other, every type becomes "undefined", and the assertion that follows
    stops the program as soon as Candl reports one dependence of whatever kind. *)
Theorem C72_types_refuted :
  (forall t, read_type t = D_UNDEFINED) /\ (forall l, l <> [] -> deps_read l = None) /\
  (* the same code with the type Candl gave would accept every well-formed dependence *)
  (exists i r, ki_type i = D_RAW /\ wf_candl (ki_dep i) /\ read_one (fun t => t) i = Some r /\ rd_type r = D_RAW /\ rd_sacc r = 0 /\ rd_tacc r = 1).
Proof.
  assert (forall t, read_type t = D_UNDEFINED) as R by (intros []; reflexivity).
  split; [exact R|]. split.
  - intros [|i l] H; [congruence|]. unfold deps_read. cbn [all_rows]. unfold read_one. rewrite R. reflexivity.
  - exists (mkItem 0 1 D_RAW ex_candl [T_WRITE; T_READ] 0 [T_WRITE; T_READ; T_READ] 2). eexists.
    split; [reflexivity|]. split; [apply C72_met|]. split; [reflexivity|]. repeat split.
Qed.
Print Assumptions C72_types_refuted.
