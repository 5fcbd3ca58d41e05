(** * The command line: theorems. *)
From Coq Require Import ZArith List Bool String Ascii Lia.
From Verif Require Import SpecMain MainModel MainProofs.
Import ListNotations.
Open Scope Z_scope.

(** ** C98.  Options.

    Whatever the command line, the options the tool works with go together. *)
Theorem C98_consistent : forall b args o src out, main_options b args = Run o src out -> consistent b o.
Proof.
  intros b args o src out H. unfold main_options in H. destruct args as [|a l]; [discriminate|].
  destruct (read_args b (a :: l) start) as [e|r] eqn:R; [discriminate|]. destruct (r_files r); [discriminate|].
  destruct (make_consistent b (r_nolast r) (r_opts r)) as [e|o'] eqn:M; [discriminate|]. injection H as <- _ _.
  apply read_sane in R; [|apply sane_alloc]. unfold make_consistent in M. destruct (basic_checks _ _) as [e|o1] eqn:B; [discriminate|].
  pose proof (basic_sane _ _ _ _ R B) as S1. destruct (basic_spec _ _ _ _ R B) as (B1 & B2 & B3 & B4 & B5 & _).
  set (o2 := if has_glpk b || has_gurobi b then lp_options o1 else o1) in M.
  assert (sane b o2) as S2. { unfold o2. destruct (has_glpk b || has_gurobi b) eqn:E; auto. apply lp_sane; auto. }
  assert (forall f, lp_fields f = false -> o2 f = o1 f) as F2. { intros f Hf. unfold o2. destruct (_ || _); auto. apply lp_frame; auto. }
  assert ((o2 dfp <> 0 -> o2 lp <> 0 \/ o2 ilp <> 0) /\ (o2 lp <> 0 \/ o2 dfp <> 0 -> o2 glpk <> 0 \/ o2 gurobi <> 0) /\
    (o2 glpk <> 0 \/ o2 gurobi <> 0 -> o2 islsolve = 0 /\ o2 pipsolve = 0)) as (P1 & P2 & P3).
  { unfold o2. destruct (has_glpk b || has_gurobi b) eqn:E.
    - destruct (lp_spec b o1 S1) as (_ & L2 & L3 & L4 & _). auto.
    - apply orb_false_elim in E as [E1 E2].
      pose proof (proj2 (S1 dfp) eq_refl E1 E2). pose proof (proj2 (S1 lp) eq_refl E1 E2). pose proof (proj2 (S1 glpk) eq_refl E1 E2). pose proof (proj2 (S1 gurobi) eq_refl E1 E2). lia. }
  pose proof (late_sane _ _ _ S2 M) as S3. destruct (late_spec _ _ _ S2 M) as (Q1 & Q2 & Q3 & Q4 & Q5 & Q6).
  assert (forall f, late_fields f = false -> o' f = o2 f) as F3 by (intros f Hf; eapply late_frame; eauto).
  constructor; unfold on, off.
  - rewrite !F3, !F2 by reflexivity. auto.
  - rewrite !F3, !F2 by reflexivity. auto.
  - rewrite !F3, !F2 by reflexivity. auto.
  - rewrite !F3, !F2 by reflexivity. auto.
  - rewrite !F3, !F2 by reflexivity. auto.
  - auto.
  - auto.
  - auto.
  - auto.
  - rewrite !F3 by reflexivity. auto.
  - rewrite !F3 by reflexivity. auto.
  - rewrite (F3 glpk), (F3 gurobi), (F3 pipsolve) by reflexivity. intros G. destruct (P3 G). auto.
  - auto.
  - intros E1 E2. repeat split; [apply (S3 glpk)|apply (S3 gurobi)|apply (S3 lp)|apply (S3 dfp)]; auto.
  - split; [apply (S3 data_element_size)|]. split; [apply (S3 cache_size)|apply (S3 coeff_bound)].
Qed.
Print Assumptions C98_consistent.
Definition glpk_only : build := mkBuild true false.
Definition dec_opts (o : opts) : list Z := map o [isldep; candldep; tile; parallel; fuse; dfp; lp; glpk; islsolve; pipsolve; lastwriter; scc_cluster; diamondtile].
Definition chosen (r : outcome) : option (list Z * string * option string) := match r with Run o s f => Some (dec_opts o, s, f) | _ => None end.
Example C98_consistent_met :
  chosen (main_options glpk_only [File "a.c"]) = Some ([1; 0; 1; 1; 2; 0; 0; 0; 1; 0; 0; 0; 1], "a.c"%string, None) /\
  chosen (main_options glpk_only [Long "typedfuse" 0; File "a.c"; Long "notile" 0; Output "b.c"]) =
    Some ([1; 0; 0; 1; 3; 1; 1; 1; 0; 0; 1; 1; 0], "a.c"%string, Some "b.c"%string).
Proof. split; vm_compute; reflexivity. Qed.

(** Options that could be read are refused exactly if they exclude each other, with
    exit code 1. *)
Theorem C98_refused : forall b args r src l, args <> [] -> read_args b args start = inr r -> r_files r = src :: l ->
  ((exists e, main_options b args = Exit e) <-> conflicting b (r_opts r)) /\ (forall e, main_options b args = Exit e -> e = 1).
Proof.
  intros b args r src l NE R F. unfold main_options. destruct args as [|a args]; [contradiction|]. rewrite R, F. clear NE.
  apply read_sane in R; [|apply sane_alloc]. unfold make_consistent. destruct (basic_checks (r_nolast r) (r_opts r)) as [e|o1] eqn:B.
  - pose proof (basic_code _ _ _ B) as ->. split; [|intros e H; injection H as <-; reflexivity].
    pose proof (proj1 (basic_refuses (r_nolast r) (r_opts r)) (ex_intro _ 1 B)). unfold conflicting. split; [intros _; destruct H as [X|[X|X]]; auto|eauto].
  - pose proof (basic_sane _ _ _ _ R B) as S1. destruct (basic_spec _ _ _ _ R B) as (_ & _ & _ & _ & _ & BF).
    assert (~ exists e, basic_checks (r_nolast r) (r_opts r) = inl e) as NB by (intros [e E]; congruence). rewrite basic_refuses in NB.
    assert (forall f, basic_fields f = false -> o1 f = r_opts r f) as F1 by (intros f Hf; eapply basic_frame; eauto).
    set (o2 := if has_glpk b || has_gurobi b then lp_options o1 else o1).
    assert (sane b o2) as S2. { unfold o2. destruct (has_glpk b || has_gurobi b) eqn:E; auto. apply lp_sane; auto. }
    assert ((exists e, match late_checks o2 with inl e => Exit e | inr o => Run o src (r_out r) end = Exit e) <-> exists e, late_checks o2 = inl e) as ->.
    { split; intros [e E]; [destruct (late_checks o2); [eauto|discriminate]|rewrite E; eauto]. }
    split; [|intros e E; destruct (late_checks o2) eqn:L; [apply late_code in L; congruence|discriminate]].
    rewrite (late_refuses b) by auto. unfold conflicting, on in *.
    set (asked := r_opts r fuse = kTypedFuse \/ r_opts r hybridcut <> 0 \/ r_opts r delayed_cut <> 0 \/ r_opts r dfp <> 0).
    assert (o1 fuse = kTypedFuse \/ o1 delayed_cut <> 0 \/ o1 dfp <> 0 <-> asked) as AK.
    { unfold asked. rewrite BF, (F1 delayed_cut), (F1 dfp) by reflexivity. clear. destruct (Z.eqb_spec (r_opts r hybridcut) 0) as [Z0|Z0]; cbn [negb].
      - split; [intros [X|[X|X]]; auto|intros [X|[X|[X|X]]]; auto; contradiction].
      - split; [auto|auto]. }
    unfold o2. destruct (has_glpk b || has_gurobi b) eqn:E.
    + destruct (lp_spec b o1 S1) as (L1 & _ & L3 & _ & L5). rewrite AK in L5. rewrite (lp_frame o1 per_cc_obj) by reflexivity. rewrite (F1 per_cc_obj) by reflexivity.
      clear - L1 L3 L5 NB. split.
      * intros [(H & H1 & H2)|[[H H1]|[H H1]]]; [exfalso; destruct (L3 (or_intror H)); auto|exfalso; exact (L1 H H1)|]. right. right. right. split; [apply L5; auto|auto].
      * intros [X|[X|[X|[X Y]]]]; [exfalso; apply NB; auto|exfalso; apply NB; auto|exfalso; apply NB; auto|]. right. right. split; [apply L5; auto|auto].
    + apply orb_false_elim in E as [E1 E2]. pose proof (proj2 (S1 dfp) eq_refl E1 E2). clear - AK NB H. split.
      * intros [(H1 & _)|[[[H1|H1] _]|(H1 & _)]]; [contradiction|right; right; right; apply AK; auto|right; right; right; apply AK; auto|contradiction].
      * intros [X|[X|[X|X]]]; [exfalso; apply NB; auto|exfalso; apply NB; auto|exfalso; apply NB; auto|]. right. left. apply AK in X as [X|[X|X]]; [auto|auto|contradiction].
Qed.
Print Assumptions C98_refused.
Example C98_refused_met :
  main_options glpk_only [Long "lastwriter" 0; Long "candldep" 0; File "a.c"] = Exit 1 /\
  main_options (mkBuild false false) [Long "typedfuse" 0; File "a.c"] = Exit 1 /\
  main_options glpk_only [Long "nosuchoption" 0; File "a.c"] = Exit 4 /\ main_options glpk_only [Long "tile" 0] = Exit 5.
Proof. repeat split. Qed.

(** The option given last is the one that counts: [name] stores [v] in [f], and no
    later argument stores anything in [f]. *)
Definition stores (b : build) (a : arg) (f : field) : Prop :=
  exists name x v, a = Long name x /\ List.In (name, ToVar f v) (options_of b).
Lemma handle_only_args c v r r' f : handle_char c v r = inr r' ->
  ~ List.In f [data_element_size; cloogf; cloogl; cache_size; bee; codegen_context; coeff_bound; ft; lt; forceparallel; silent; ufactor] -> r_opts r' f = r_opts r f.
Proof.
  intros H N. assert (forall g x, List.In g [data_element_size; cloogf; cloogl; cache_size; bee; codegen_context; coeff_bound; ft; lt; forceparallel; silent; ufactor] ->
    r_opts (with_opt r g x) f = r_opts r f) as K.
  { intros g x Hg. cbn [with_opt r_opts]. unfold upd. rewrite beq_neq; auto. intros ->. contradiction. }
  destruct c as [[|] [|] [|] [|] [|] [|] [|] [|]]; cbn -[Z.modulo Z.leb Z.pow] in H; try discriminate H;
    try (injection H as <-; first [reflexivity|apply K; simpl; tauto]; fail);
    cbv zeta in H; match type of H with context [?a <=? 0] => destruct (a <=? 0) end; try discriminate H; injection H as <-; apply K; simpl; tauto.
Qed.
Theorem C98_last_wins : forall b args1 name x args2 f v r,
  find (fun p => String.eqb (fst p) name) (options_of b) = Some (name, ToVar f v) -> ~ List.In f [bee; silent] ->
  (forall a, List.In a args2 -> ~ stores b a f) ->
  read_args b (args1 ++ Long name x :: args2) start = inr r -> r_opts r f = v.
Proof.
  intros b args1 name x args2 f v r Fd Nf NS H.
  assert (~ List.In f [data_element_size; cloogf; cloogl; cache_size; bee; codegen_context; coeff_bound; ft; lt; forceparallel; silent; ufactor]) as Nc.
  { pose proof Fd as Fd'. apply find_some in Fd' as [I _].
    assert (forallb (fun p => match snd p with ToVar g _ => negb (existsb (field_beq g) [data_element_size; cloogf; cloogl; cache_size; codegen_context; coeff_bound; ft; lt; forceparallel; ufactor]) | _ => true end) (options_of b) = true) as G.
    { destruct b as [[|] [|]]; vm_compute; reflexivity. }
    rewrite forallb_forall in G. specialize (G _ I). cbn [snd] in G. apply negb_true_iff in G. intros X.
    assert (existsb (field_beq f) [data_element_size; cloogf; cloogl; cache_size; codegen_context; coeff_bound; ft; lt; forceparallel; ufactor] = true); [|congruence].
    apply existsb_exists. exists f. split; [|apply beq_refl]. cbn [List.In] in *. destruct f; intuition discriminate. }
  revert H. generalize start. induction args1 as [|a l IH]; intros r0 H.
  - cbn [app read_args step] in H. rewrite Fd in H. cbn [step] in H.
    assert (forall r1, r_opts r1 f = v -> read_args b args2 r1 = inr r -> r_opts r f = v) as K; [|eapply K; [|exact H]; cbn; unfold upd; rewrite beq_refl; reflexivity].
    clear - NS Nc. induction args2 as [|a l IH]; intros r1 E H; cbn in H; [injection H as <-; auto|].
    destruct (step b a r1) as [e|r2] eqn:ST; [discriminate|]. apply (IH (fun a Ha => NS a (or_intror Ha)) r2); auto. rewrite <- E.
    destruct a as [n y|c y|n|n]; cbn [step] in ST; try (injection ST as <-; reflexivity).
    + destruct (find _ _) as [[n' [g w| |c ar]]|] eqn:Ef; [| | |discriminate].
      * injection ST as <-. cbn. unfold upd. rewrite beq_neq; auto. intros ->. apply find_some in Ef as [Ef Q]. cbn in Q. apply String.eqb_eq in Q. subst n'.
        apply (NS (Long n y) (or_introl eq_refl)). exists n, y, w. auto.
      * injection ST as <-. reflexivity.
      * eapply handle_only_args; eauto.
    + destruct (existsb _ _); [|discriminate]. eapply handle_only_args; eauto.
  - cbn [app read_args] in H. destruct (step b a r0); [discriminate|]. apply (IH _ H).
Qed.
Print Assumptions C98_last_wins.
Example C98_last_wins_met : exists r, read_args glpk_only [Long "notile" 0; Long "maxfuse" 0; Long "tile" 0; Long "nofuse" 0; File "a.c"] start = inr r /\
  r_opts r tile = 1 /\ r_opts r fuse = kNoFuse /\
  find (fun p => String.eqb (fst p) "tile") (options_of glpk_only) = Some ("tile"%string, ToVar tile 1).
Proof.
  destruct (read_args glpk_only _ start) as [e|r] eqn:E; [vm_compute in E; discriminate|]. exists r. split; [reflexivity|].
  assert (match read_args glpk_only [Long "notile" 0; Long "maxfuse" 0; Long "tile" 0; Long "nofuse" 0; File "a.c"] start with inr r => r_opts r tile = 1 /\ r_opts r fuse = kNoFuse | inl _ => False end) as H by (vm_compute; split; reflexivity).
  rewrite E in H. destruct H. repeat split; auto.
Qed.

(** All other options stay as they were given. *)
Theorem C98_kept : forall b args r o src out f, read_args b args start = inr r -> main_options b args = Run o src out ->
  ~ List.In f [isldep; lastwriter; diamondtile; fulldiamondtile; parallel; fuse; glpk; dfp; lp; pipsolve; islsolve; scc_cluster] -> o f = r_opts r f.
Proof.
  intros b args r o src out f R H N. unfold main_options in H. destruct args as [|a l]; [discriminate|]. rewrite R in H.
  destruct (r_files r); [discriminate|]. destruct (make_consistent b (r_nolast r) (r_opts r)) as [e|o'] eqn:M; [discriminate|]. injection H as <- _ _.
  unfold make_consistent in M. destruct (basic_checks _ _) as [e|o1] eqn:B; [discriminate|].
  rewrite (late_frame _ _ f M) by (destruct f; try reflexivity; exfalso; apply N; simpl; tauto).
  assert (o1 f = r_opts r f) as E by (apply (basic_frame _ _ _ _ B); destruct f; try reflexivity; exfalso; apply N; simpl; tauto).
  destruct (_ || _); auto. rewrite lp_frame; auto. destruct f; try reflexivity; exfalso; apply N; simpl; tauto.
Qed.
Print Assumptions C98_kept.

(** A solver is called, and one that was built in, unless the tool was built with
    Gurobi but without GLPK. *)
Theorem C98_solver_partial : forall b args o src out, has_glpk b = true \/ has_gurobi b = false ->
  main_options b args = Run o src out -> exists s, solver_called b o = Some s /\ available b s = true.
Proof.
  intros b args o src out HB H. pose proof (C98_consistent _ _ _ _ _ H) as C. unfold solver_called.
  assert (o gurobi <> 0 -> has_gurobi b = true) as GU.
  { intros G. destruct (has_gurobi b) eqn:E; auto. exfalso. unfold main_options in H. destruct args as [|a l]; [discriminate|].
    destruct (read_args b (a :: l) start) as [e|r] eqn:R; [discriminate|].
    assert (o gurobi = r_opts r gurobi) as K.
    { apply (C98_kept b (a :: l) r o src out gurobi R); [unfold main_options; rewrite R; exact H|simpl; intuition discriminate]. }
    assert (r_opts r gurobi = 0) as Z0; [|congruence].
    clear - R E. revert R. assert (r_opts start gurobi = 0) as S0 by reflexivity. revert S0. generalize start. generalize (a :: l). clear a l.
    intros l. induction l as [|a l IH]; intros r0 S0 R; cbn in R; [injection R as <-; auto|].
    destruct (step b a r0) as [e|r1] eqn:ST; [discriminate|]. apply (IH r1); auto.
    destruct a as [n y|c y|n|n]; cbn [step] in ST; try (injection ST as <-; exact S0).
    - destruct (find _ _) as [[n' [g w| |c ar]]|] eqn:Ef; [| | |discriminate].
      + injection ST as <-. cbn. unfold upd. destruct (field_beq g gurobi) eqn:Eg; auto. apply beq_eq in Eg. subst g. apply find_some in Ef as [Ef _]. exfalso.
        unfold options_of in Ef. rewrite E in Ef. destruct (has_glpk b); cbn in Ef; intuition discriminate.
      + injection ST as <-. exact S0.
      + rewrite (handle_only_args _ _ _ _ gurobi ST); auto. simpl. intuition discriminate.
    - destruct (existsb _ _); [|discriminate]. rewrite (handle_only_args _ _ _ _ gurobi ST); auto. simpl. intuition discriminate. }
  destruct C as [_ _ _ _ _ _ _ _ _ _ C1 C2 _ C3 _]. unfold on, off, nz in *.
  destruct (Z.eqb_spec (o islsolve) 0) as [Ei|Ei]; cbn [negb]; [|exists Isl; auto].
  destruct (Z.eqb_spec (o glpk) 0) as [Eg|Eg]; cbn [negb orb].
  - destruct (Z.eqb_spec (o gurobi) 0) as [Er|Er]; cbn [negb]; rewrite ?orb_false_r, ?orb_true_r.
    + assert (o lp = 0 /\ o dfp = 0) as [-> ->] by lia. cbn. exists Pip. auto.
    + rewrite GU by auto. exists Gurobi. cbn. auto.
  - destruct (has_glpk b) eqn:E; [exists Glpk; auto|]. exfalso. destruct HB as [|HB]; [discriminate|]. specialize (C3 eq_refl HB). tauto.
Qed.
Print Assumptions C98_solver_partial.
Example C98_solver_met : option_map (fun o => solver_called glpk_only o) (match main_options glpk_only [Long "dfp" 0; Long "pipsolve" 0; File "a.c"] with Run o _ _ => Some o | _ => None end) = Some (Some Glpk) /\
  option_map (fun o => solver_called glpk_only o) (match main_options glpk_only [Long "pipsolve" 0; File "a.c"] with Run o _ _ => Some o | _ => None end) = Some (Some Pip).
Proof. split; vm_compute; reflexivity. Qed.

Lemma run_some b args (Q : opts -> Prop) : match main_options b args with Run o _ _ => Q o | Exit _ => False end ->
  exists o src out, main_options b args = Run o src out /\ Q o.
Proof. destruct (main_options b args); [intros []|eauto]. Qed.

(** With Gurobi only, options lp and dfp choose GLPK, and nothing is solved. *)
Theorem C98_solver_refuted : exists b args o src out, main_options b args = Run o src out /\ solver_called b o = None.
Proof. exists (mkBuild false true), [Long "dfp" 0; File "a.c"]. apply run_some. vm_compute. reflexivity. Qed.
Print Assumptions C98_solver_refuted.

(** Last-writer analysis is refused with candldep, yet option dfp turns it on with
    candldep, and with nolastwriter. *)
Theorem C98_lastwriter_refuted :
  (exists b o src out, main_options b [Long "candldep" 0; Long "dfp" 0; File "a.c"] = Run o src out /\ on o candldep /\ on o lastwriter) /\
  (exists b o src out, main_options b [Long "nolastwriter" 0; Long "dfp" 0; File "a.c"] = Run o src out /\ on o lastwriter).
Proof. split; exists glpk_only; apply run_some; vm_compute; [split|]; discriminate. Qed.
Print Assumptions C98_lastwriter_refuted.

(** Option clusterscc announces that the dfp framework is used, which it is not;
    negative sizes are accepted; hybridfuse overrides a fusion option given after
    it; and a second source file is dropped. *)
Theorem C98_taken_refuted :
  (exists b o src out, main_options b [Long "clusterscc" 0; File "a.c"] = Run o src out /\ on o scc_cluster /\ off o dfp) /\
  (exists b o src out, main_options b [Long "cache-size" (-1); Long "data-element-size" (-8); File "a.c"] = Run o src out /\ o cache_size = 2 ^ 64 - 1 /\ o data_element_size = 2 ^ 32 - 8) /\
  (exists b o src out, main_options b [Long "hybridfuse" 0; Long "nofuse" 0; File "a.c"] = Run o src out /\ o fuse = kTypedFuse) /\
  (forall b, chosen (main_options b [File "a.c"; File "b.c"]) = chosen (main_options b [File "a.c"])).
Proof.
  split; [|split; [|split]].
  - exists glpk_only. apply run_some. vm_compute. split; [discriminate|reflexivity].
  - exists glpk_only. apply run_some. vm_compute. split; reflexivity.
  - exists glpk_only. apply run_some. vm_compute. reflexivity.
  - intros [[|] [|]]; vm_compute; reflexivity.
Qed.
Print Assumptions C98_taken_refuted.

(** ** What is asked for *)
Definition char_field (c : ascii) : option field :=
  match c with
  | "D"%char => Some data_element_size | "F"%char => Some cloogf | "L"%char => Some cloogl | "S"%char => Some cache_size | "b"%char => Some bee
  | "c"%char => Some codegen_context | "C"%char => Some coeff_bound | "f"%char => Some ft | "l"%char => Some lt | "p"%char => Some forceparallel
  | "q"%char => Some silent | "u"%char => Some ufactor | _ => None
  end.
Definition char_value (f : field) (v : Z) : Z :=
  match f with data_element_size => v mod 2 ^ 32 | cache_size => v mod 2 ^ 64 | bee | silent => 1 | _ => v end.
Lemma handle_field c v r r' : handle_char c v r = inr r' ->
  match char_field c with Some f => r' = with_opt r f (char_value f v) | None => r' = r end.
Proof.
  intros H. destruct c as [[|] [|] [|] [|] [|] [|] [|] [|]]; cbn -[Z.modulo Z.leb Z.pow] in H; try discriminate H;
    try (injection H as <-; reflexivity);
    cbv zeta in H; match type of H with context [?a <=? 0] => destruct (a <=? 0) end; try discriminate H; injection H as <-; reflexivity.
Qed.
Definition pair_eqb {A} (e : A -> A -> bool) (p q : A * field) : bool := e (fst p) (fst q) && field_beq (snd p) (snd q).
Definition known (b : build) (p : string * action) : bool :=
  match snd p with
  | ToVar f v => existsb (fun q => String.eqb (fst q) (fst p) && field_beq (fst (snd q)) f && (snd (snd q) =? v)) switches
  | NoLast => true
  | Char c _ => match char_field c with Some f => existsb (pair_eqb String.eqb (fst p, f)) numbers && negb (existsb (field_beq f) [bee; silent]) | None => true end
  end.
Lemma all_known b : forallb (known b) (options_of b) = true.
Proof. destruct b as [[|] [|]]; vm_compute; reflexivity. Qed.
Lemma known_to b n f v : List.In (n, ToVar f v) (options_of b) -> List.In (n, (f, v)) switches.
Proof.
  intros I. pose proof (all_known b) as K. rewrite forallb_forall in K. specialize (K _ I). cbn [known snd fst] in K.
  apply existsb_exists in K as ([m [g w]] & Hq & E). cbn [fst snd] in E. apply andb_prop in E as [E E3]. apply andb_prop in E as [E1 E2].
  apply String.eqb_eq in E1. apply beq_eq in E2. apply Z.eqb_eq in E3. subst. exact Hq.
Qed.
Lemma known_char b n c ar f : List.In (n, Char c ar) (options_of b) -> char_field c = Some f -> List.In (n, f) numbers /\ f <> bee /\ f <> silent.
Proof.
  intros I E. pose proof (all_known b) as K. rewrite forallb_forall in K. specialize (K _ I). unfold known in K. cbn [snd fst] in K. rewrite E in K.
  apply andb_prop in K as [K N]. apply existsb_exists in K as ([m g] & Hq & Q). unfold pair_eqb in Q. cbn [fst snd] in Q. apply andb_prop in Q as [Q1 Q2].
  apply String.eqb_eq in Q1. apply beq_eq in Q2. subst. split; [exact Hq|]. split; intros ->; discriminate N.
Qed.
Lemma step_frame b a r r' f : step b a r = inr r' -> ~ mentions a f -> r_opts r' f = r_opts r f.
Proof.
  intros ST N. destruct a as [n y|c y|n|n]; cbn [step] in ST; try (injection ST as <-; reflexivity).
  - destruct (find _ _) as [[n' [g w| |c ar]]|] eqn:Ef; [| | |discriminate]; try (injection ST as <-); try reflexivity; apply find_some in Ef as [Ef Q]; cbn in Q; apply String.eqb_eq in Q; subst n'.
    + cbn. unfold upd. rewrite beq_neq; auto. intros ->. apply N. left. exists w. eapply known_to; eauto.
    + apply handle_field in ST. destruct (char_field c) as [g|] eqn:Ec; [|subst; reflexivity]. subst r'. cbn. unfold upd. rewrite beq_neq; auto. intros ->. apply N. right. eapply known_char; eauto.
  - destruct (existsb _ _) eqn:Es; [|discriminate]. apply handle_field in ST. destruct (char_field c) as [g|] eqn:Ec; [|subst; reflexivity]. subst r'. cbn. unfold upd. rewrite beq_neq; auto. intros ->.
    apply N. apply existsb_exists in Es as (c' & Hc & E). apply Ascii.eqb_eq in E. subst c'. cbn in Hc.
    repeat (destruct Hc as [<-|Hc]; [cbn in Ec; try discriminate Ec; injection Ec as <-; cbn; tauto|]). destruct Hc.
Qed.
Definition found (b : build) (q : string * (field * Z)) : bool :=
  match find (fun p => String.eqb (fst p) (fst q)) (options_of b) with
  | Some (_, ToVar f v) => field_beq f (fst (snd q)) && (v =? snd (snd q))
  | Some _ => false
  | None => true
  end.
Definition found_number (b : build) (q : string * field) : bool :=
  match find (fun p => String.eqb (fst p) (fst q)) (options_of b) with
  | Some (_, Char c _) => match char_field c with Some f => field_beq f (snd q) | None => false end
  | Some _ => false
  | None => true
  end.
Lemma all_found b : forallb (found b) switches = true /\ forallb (found_number b) numbers = true.
Proof. destruct b as [[|] [|]]; split; vm_compute; reflexivity. Qed.
Lemma number_value f n v : List.In (n, f) numbers -> (f = data_element_size -> 0 <= v < 2 ^ 32) -> (f = cache_size -> 0 <= v < 2 ^ 64) -> char_value f v = v.
Proof.
  intros I A B. assert (f <> bee /\ f <> silent) as [N1 N2].
  { split; intros ->; unfold numbers in I; cbn in I; intuition discriminate. }
  destruct f; try reflexivity; try contradiction; cbn; apply Z.mod_small; auto.
Qed.
Lemma step_asks b a r r' f v : step b a r = inr r' -> asks a f v -> r_opts r' f = v.
Proof.
  intros ST H. destruct (all_found b) as [A1 A2]. rewrite forallb_forall in A1, A2. destruct a as [n y|c y|n|n]; [| |destruct H|destruct H]; cbn [step] in ST; cbn [asks] in H.
  - destruct H as [H|(H & -> & S1 & S2)].
    + specialize (A1 _ H). unfold found in A1. cbn [fst snd] in A1. destruct (find _ _) as [[n' [g w| |c ar]]|]; try discriminate.
      apply andb_prop in A1 as [E1 E2]. apply beq_eq in E1. apply Z.eqb_eq in E2. subst. injection ST as <-. cbn. unfold upd. rewrite beq_refl. reflexivity.
    + specialize (A2 _ H). unfold found_number in A2. cbn [fst snd] in A2. destruct (find _ _) as [[n' [g w| |c ar]]|]; try discriminate.
      apply handle_field in ST. destruct (char_field c) as [g|]; [|discriminate]. apply beq_eq in A2. subst. cbn. unfold upd. rewrite beq_refl. eapply number_value; eauto.
  - destruct (existsb _ _); [|discriminate]. apply handle_field in ST. destruct H as [[H ->]|[H ->]]; cbn in H;
      repeat (destruct H as [H|H]; [injection H as <- <-; cbn in ST; subst r'; reflexivity|]); destruct H.
Qed.

(** The last argument about [f] counts, and it means what the table in SpecMain.v says. *)
Theorem C98_given : forall b args1 a args2 f v r,
  asks a f v -> (forall a', List.In a' args2 -> ~ mentions a' f) -> read_args b (args1 ++ a :: args2) start = inr r -> r_opts r f = v.
Proof.
  intros b args1 a args2 f v r H N. generalize start. induction args1 as [|c l IH]; intros r0 R; cbn [app read_args] in R.
  - destruct (step b a r0) as [e|r1] eqn:ST; [discriminate|]. pose proof (step_asks _ _ _ _ _ _ ST H) as E. clear ST.
    revert r1 R E. induction args2 as [|c l IH]; intros r1 R E; cbn [read_args] in R; [injection R as <-; exact E|].
    destruct (step b c r1) as [e|r2] eqn:ST; [discriminate|]. apply (IH (fun a' Ha => N a' (or_intror Ha)) r2 R).
    rewrite (step_frame _ _ _ _ f ST); auto. apply N. left; auto.
  - destruct (step b c r0); [discriminate|]. eapply IH; eauto.
Qed.
Print Assumptions C98_given.
Example C98_given_met : match read_args glpk_only ([Long "maxfuse" 0; Long "ufactor" 4] ++ Long "nofuse" 0 :: [Short "q" 0; File "a.c"]) start with
  | inr r => r_opts r fuse = kNoFuse /\ r_opts r ufactor = 4 /\ r_opts r silent = 1 | inl _ => False end /\ asks (Long "nofuse" 0) fuse kNoFuse /\ ~ mentions (Short "q" 0) fuse.
Proof.
  split; [vm_compute; repeat split; reflexivity|]. split; [left; cbn; tauto|]. cbn. intuition discriminate.
Qed.

(** So the tool works with it, unless [f] is one of the options that are made
    consistent with others. *)
Theorem C98_taken : forall b args1 a args2 f v o src out,
  asks a f v -> (forall a', List.In a' args2 -> ~ mentions a' f) -> main_options b (args1 ++ a :: args2) = Run o src out ->
  ~ List.In f [isldep; lastwriter; diamondtile; fulldiamondtile; parallel; fuse; glpk; dfp; lp; pipsolve; islsolve; scc_cluster] -> o f = v.
Proof.
  intros b args1 a args2 f v o src out A N H NF. destruct (read_args b (args1 ++ a :: args2) start) as [e|r] eqn:R.
  - exfalso. unfold main_options in H. destruct (args1 ++ a :: args2)%list; [discriminate|]. rewrite R in H. discriminate.
  - rewrite (C98_kept _ _ _ _ _ _ _ R H NF). eapply C98_given; eauto.
Qed.
Print Assumptions C98_taken.
Example C98_taken_met : exists o src out, main_options glpk_only ([Long "tile" 0; Long "lt" 2] ++ Long "notile" 0 :: [Short "f" 1; File "a.c"]) = Run o src out /\
  o tile = 0 /\ o lt = 2 /\ o ft = 1.
Proof. apply run_some. vm_compute. repeat split; reflexivity. Qed.

(** The options made consistent, apart from those of the solvers, are changed in these
    cases only. *)
Lemma turn_get c f v o g : turn c f v o g = if c && field_beq f g then v else o g.
Proof. unfold turn, upd. destruct c; reflexivity. Qed.
Lemma basic_values nolast o o1 : basic_checks nolast o = inr o1 ->
  o1 isldep = (if (o isldep =? 0) && (o candldep =? 0) then 1 else o isldep) /\
  o1 parallel = (if (o multipar =? 1) && (o parallel =? 0) then 1 else o parallel) /\
  o1 fuse = (if o hybridcut =? 0 then o fuse else kTypedFuse) /\
  o1 diamondtile = (if (o tile =? 0) && ((o diamondtile =? 1) || (o fulldiamondtile =? 1)) then 0 else o diamondtile) /\
  o1 fulldiamondtile = (if (o tile =? 0) && (o fulldiamondtile =? 1) then 0 else o fulldiamondtile).
Proof.
  unfold basic_checks. destruct (_ && _); [discriminate|]. cbv zeta. destruct (_ && _); [discriminate|]. destruct (_ && _); [discriminate|]. intros H. injection H as <-.
  unfold nz. rewrite ?turn_get. cbn [field_beq]. rewrite ?andb_false_r, ?andb_true_r, ?turn_get. cbn [field_beq]. rewrite ?andb_false_r, ?andb_true_r, ?turn_get. cbn [field_beq]. rewrite ?andb_false_r, ?andb_true_r, ?negb_involutive.
  split; [reflexivity|]. split; [reflexivity|]. split; [|split].
  - destruct (o hybridcut =? 0); cbn [negb andb]; auto. destruct (Z.eqb_spec (o fuse) kTypedFuse); auto.
  - destruct (o tile =? 0), (o diamondtile =? 1), (o fulldiamondtile =? 1); reflexivity.
  - destruct (o tile =? 0), (o fulldiamondtile =? 1); reflexivity.
Qed.
Theorem C98_adjusted : forall b args r o src out, read_args b args start = inr r -> main_options b args = Run o src out ->
  let g := r_opts r in
  o isldep = (if (g isldep =? 0) && (g candldep =? 0) then 1 else g isldep) /\
  o parallel = (if (g multipar =? 1) && (g parallel =? 0) then 1 else g parallel) /\
  o fuse = (if g hybridcut =? 0 then g fuse else kTypedFuse) /\
  o diamondtile = (if (g tile =? 0) && ((g diamondtile =? 1) || (g fulldiamondtile =? 1)) then 0 else g diamondtile) /\
  o fulldiamondtile = (if (g tile =? 0) && (g fulldiamondtile =? 1) then 0 else g fulldiamondtile).
Proof.
  intros b args r o src out R H g. unfold main_options in H. destruct args as [|a l]; [discriminate|]. rewrite R in H.
  destruct (r_files r); [discriminate|]. destruct (make_consistent b (r_nolast r) (r_opts r)) as [e|o'] eqn:M; [discriminate|]. injection H as <- _ _.
  unfold make_consistent in M. destruct (basic_checks _ _) as [e|o1] eqn:B; [discriminate|]. apply basic_values in B. fold g in B.
  assert (forall f, late_fields f = false -> lp_fields f = false -> o' f = o1 f) as F.
  { intros f F1 F2. rewrite (late_frame _ _ f M F1). destruct (has_glpk b || has_gurobi b); auto. apply lp_frame; auto. }
  rewrite (F isldep), (F parallel), (F fuse), (F diamondtile), (F fulldiamondtile) by reflexivity. exact B.
Qed.
Print Assumptions C98_adjusted.
Example C98_adjusted_met : exists o src out, main_options glpk_only [Long "notile" 0; Long "noparallel" 0; Long "multipar" 0; Long "maxfuse" 0; File "a.c"] = Run o src out /\
  o isldep = 1 /\ o parallel = 1 /\ o fuse = kMaximalFuse /\ o diamondtile = 0 /\ o fulldiamondtile = 0.
Proof. apply run_some. vm_compute. repeat split; reflexivity. Qed.

(** Without an argument about [f] it has the default of the help text; partial: not for
    tiling and parallelization. *)
Theorem C98_default_partial : forall b args f v r, List.In (f, v) defaults -> f <> tile -> f <> parallel ->
  (forall a, List.In a args -> ~ mentions a f) -> read_args b args start = inr r -> r_opts r f = v.
Proof.
  intros b args f v r D N1 N2 N R. assert (r_opts start f = v) as E.
  { cbn in D. repeat (destruct D as [D|D]; [injection D as <- <-; try contradiction; reflexivity|]). destruct D. }
  revert R E. generalize start. induction args as [|c l IH]; intros r1 R E; cbn [read_args] in R; [injection R as <-; exact E|].
  destruct (step b c r1) as [e|r2] eqn:ST; [discriminate|]. apply (IH (fun a' Ha => N a' (or_intror Ha)) r2 R).
  rewrite (step_frame _ _ _ _ f ST); auto. apply N. left; auto.
Qed.
Print Assumptions C98_default_partial.
(** The help text says that --tile and --parallel are disabled by default; both are
    enabled. *)
Theorem C98_default_refuted : List.In (tile, 0) defaults /\ List.In (parallel, 0) defaults /\
  forall b, exists o src out, main_options b [File "a.c"] = Run o src out /\ on o tile /\ on o parallel.
Proof.
  split; [cbn; tauto|]. split; [cbn; tauto|]. intros b. apply run_some. destruct b as [[|] [|]]; vm_compute; split; discriminate.
Qed.
Print Assumptions C98_default_refuted.

(** The source is the first file named, the output the last one given with -o. *)
Theorem C98_files : forall b args o src out, main_options b args = Run o src out ->
  (exists l1 l2, args = (l1 ++ File src :: l2)%list /\ forall n, ~ List.In (File n) l1) /\
  match out with
  | None => forall n, ~ List.In (Output n) args
  | Some n => exists l1 l2, args = (l1 ++ Output n :: l2)%list /\ forall m, ~ List.In (Output m) l2
  end.
Proof.
  intros b args o src out H. unfold main_options in H. destruct args as [|a0 l0]; [discriminate|]. set (args := (a0 :: l0)%list) in *. clearbody args.
  destruct (read_args b args start) as [e|r] eqn:R; [discriminate|]. destruct (r_files r) as [|s0 fs] eqn:F; [discriminate|].
  destruct (make_consistent _ _ _); [discriminate|]. injection H as _ <- <-.
  assert (forall a r1 r2, step b a r1 = inr r2 -> r_out r2 = match a with Output n => Some n | _ => r_out r1 end /\ r_files r2 = (r_files r1 ++ match a with File n => [n] | _ => [] end)%list) as ST.
  { intros a r1 r2 S. destruct a as [n y|c y|n|n]; cbn [step] in S.
    - destruct (find _ _) as [[n' [g w| |c ar]]|]; [| | |discriminate]; try (injection S as <-; cbn; rewrite app_nil_r; auto; fail).
      apply handle_field in S. destruct (char_field c); subst; cbn; rewrite app_nil_r; auto.
    - destruct (existsb _ _); [|discriminate]. apply handle_field in S. destruct (char_field c); subst; cbn; rewrite app_nil_r; auto.
    - injection S as <-. cbn. rewrite app_nil_r. auto.
    - injection S as <-. cbn. auto. }
  assert (r_files start = [] /\ r_out start = None) as [S1 S2] by (split; reflexivity). split.
  - revert R S1. generalize start. clear S2. induction args as [|a l IH]; intros r1 R E; cbn [read_args] in R; [injection R as <-; congruence|].
    destruct (step b a r1) as [e|r2] eqn:S; [discriminate|]. destruct (ST _ _ _ S) as [_ K]. rewrite E in K. cbn [app] in K. destruct a as [n y|c y|n|n].
    1, 2, 3: (destruct (IH r2 R K) as (l1 & l2 & -> & N); eexists (_ :: l1)%list, l2; split; [reflexivity|intros m [M|M]; [discriminate|exact (N m M)]]).
    exists [], l. split; [|intros m []]. cbn [app]. f_equal. f_equal.
    assert (forall l r1, read_args b l r1 = inr r -> exists t, r_files r = (r_files r1 ++ t)%list) as P.
    { clear - ST. induction l as [|a l IH]; intros r1 R; cbn [read_args] in R; [injection R as <-; exists []; rewrite app_nil_r; auto|].
      destruct (step b a r1) as [e|r2] eqn:S; [discriminate|]. destruct (ST _ _ _ S) as [_ K]. destruct (IH _ R) as [t T]. rewrite T, K, <- app_assoc. eauto. }
    destruct (P l r2 R) as [t T]. rewrite T, K in F. cbn in F. congruence.
  - clear F S1. assert (forall l r1, read_args b l r1 = inr r ->
      ((forall n, ~ List.In (Output n) l) /\ r_out r = r_out r1) \/ exists n l1 l2, r_out r = Some n /\ l = (l1 ++ Output n :: l2)%list /\ forall m, ~ List.In (Output m) l2) as P.
    { clear - ST. induction l as [|a l IH]; intros r1 R; cbn [read_args] in R; [injection R as <-; left; auto|].
      destruct (step b a r1) as [e|r2] eqn:S; [discriminate|]. destruct (ST _ _ _ S) as [K _]. destruct (IH _ R) as [[N E]|(n & l1 & l2 & E & -> & N)].
      - destruct a as [n y|c y|n|n].
        1, 2, 4: (left; split; [intros m [M|M]; [discriminate|exact (N m M)]|congruence]).
        right. exists n, [], l. split; [congruence|]. split; auto.
      - right. exists n, (a :: l1)%list, l2. auto. }
    destruct (P args start R) as [[N E]|(n & l1 & l2 & E & -> & N)]; rewrite E; [rewrite S2; exact N|eauto].
Qed.
Print Assumptions C98_files.
Example C98_files_met : chosen (main_options glpk_only [Output "x.c"; File "a.c"; Long "pet" 0; Output "y.c"; File "b.c"]) =
  Some ([1; 0; 1; 1; 2; 0; 0; 0; 1; 0; 0; 0; 1], "a.c"%string, Some "y.c"%string).
Proof. vm_compute. reflexivity. Qed.

(** ** C99.  Output files.

    Without option -o the output of a source *.c is written to *.pluto.c in the
    current directory, and its CLooG file is *.pluto.cloog; other names get the
    endings appended; with -o the output has the name given. *)
Open Scope nat_scope.
Open Scope string_scope.
Definition plain (s : string) : Prop := ~ List.In "/"%char (list_ascii_of_string s).

Lemma list_app s t : list_ascii_of_string (s ++ t) = (list_ascii_of_string s ++ list_ascii_of_string t)%list.
Proof. induction s as [|c s IH]; cbn; [reflexivity|]. rewrite IH. reflexivity. Qed.
Lemma length_app s t : String.length (s ++ t) = String.length s + String.length t.
Proof. induction s as [|c s IH]; cbn; auto. Qed.
Lemma app_string_inj s t u : s ++ t = s ++ u -> t = u.
Proof. induction s as [|c s IH]; cbn; intros H; auto. injection H. auto. Qed.
Lemma slash_in s : existsb (Ascii.eqb "/") (list_ascii_of_string s) = true <-> List.In "/"%char (list_ascii_of_string s).
Proof.
  rewrite existsb_exists. split; [intros (x & Hx & E); apply Ascii.eqb_eq in E; subst; auto|intros H; exists "/"%char; split; [auto|apply Ascii.eqb_refl]].
Qed.
Lemma basename_plain s : plain s -> basename s = s.
Proof.
  unfold plain. destruct s as [|c r]; cbn; auto. intros H. destruct (existsb _ _) eqn:E; [apply slash_in in E; tauto|].
  destruct (Ascii.eqb_spec c "/"%char); auto. subst. tauto.
Qed.
Lemma basename_dir d s : plain s -> basename (d ++ String "/" s) = s.
Proof.
  intros P. induction d as [|c d IH]; cbn.
  - destruct (existsb _ _) eqn:E; [apply slash_in in E; contradiction|reflexivity].
  - destruct (existsb _ _) eqn:E; [auto|]. exfalso. assert (existsb (Ascii.eqb "/") (list_ascii_of_string (d ++ String "/" s)) = true); [|congruence].
    apply slash_in. rewrite list_app. apply in_or_app. right. left. reflexivity.
Qed.
Lemma basename_is_plain s : plain (basename s).
Proof.
  unfold plain. induction s as [|c r IH]; cbn; auto. destruct (existsb _ _) eqn:E; auto.
  assert (~ List.In "/"%char (list_ascii_of_string r)) as N by (intros H; apply slash_in in H; congruence).
  destruct (Ascii.eqb_spec c "/"%char) as [->|Nc]; auto. cbn. intros [H|H]; auto.
Qed.

Lemma substring_app_r s t : substring (String.length s) (String.length t) (s ++ t) = t.
Proof. induction s as [|c s IH]; cbn; auto. induction t as [|c t IH]; cbn; auto. f_equal. auto. Qed.
Lemma substring_app_l s t : substring 0 (String.length s) (s ++ t) = s.
Proof. induction s as [|c s IH]; cbn; [destruct t; reflexivity|]. f_equal. auto. Qed.
Lemma substring_split s n : n <= String.length s -> substring 0 n s ++ substring n (String.length s - n) s = s.
Proof.
  revert n. induction s as [|c s IH]; intros n H; cbn in *; [assert (n = 0) as -> by lia; reflexivity|].
  destruct n as [|n]; cbn [substring append]; [|rewrite IH by lia; reflexivity].
  cbn. f_equal. clear. induction s as [|c s IH]; cbn; auto. f_equal. auto.
Qed.
Lemma ends_app s : ends_in_c (s ++ ".c") = true /\ without_c (s ++ ".c") = s.
Proof.
  assert (ends_in_c (s ++ ".c") = true) as E.
  { unfold ends_in_c. rewrite length_app. cbn [String.length]. rewrite Nat.add_sub. pose proof (substring_app_r s ".c") as X. cbn [String.length] in X. rewrite X, String.eqb_refl, andb_true_r. apply Nat.leb_le. lia. }
  split; [exact E|]. unfold without_c. rewrite E, length_app. cbn [String.length]. rewrite Nat.add_sub. apply substring_app_l.
Qed.
Lemma ends_split s : ends_in_c s = true -> s = without_c s ++ ".c".
Proof.
  intros E. unfold without_c. rewrite E. unfold ends_in_c in E. apply andb_prop in E as [E1 E2]. apply Nat.leb_le in E1. apply String.eqb_eq in E2.
  rewrite <- E2. replace 2 with (String.length s - (String.length s - 2)) at 3 by lia. symmetry. apply substring_split. lia.
Qed.

Theorem C99_names : forall dir s out,
  plain s ->
  (fst (out_name (dir ++ "/" ++ s ++ ".c") None) = s ++ ".pluto.c" /\ fst (out_name (s ++ ".c") None) = s ++ ".pluto.c" /\
   fst (fst (cloog_name (dir ++ "/" ++ s ++ ".c") None)) = s ++ ".pluto.cloog" /\ fst (fst (cloog_name (s ++ ".c") None)) = s ++ ".pluto.cloog") /\
  ((forall t, s <> t ++ ".c") -> fst (out_name (dir ++ "/" ++ s) None) = s ++ ".pluto.c" /\ fst (fst (cloog_name (dir ++ "/" ++ s) None)) = s ++ ".pluto.cloog") /\
  (forall src, fst (out_name src (Some out)) = out).
Proof.
  intros dir s out P. assert (plain (s ++ ".c")) as P2.
  { unfold plain. rewrite list_app. cbn. intros H. apply in_app_or in H as [H|[H|[H|[]]]]; [exact (P H)|discriminate|discriminate]. }
  destruct (ends_app s) as [E1 E2]. split; [|split; [|reflexivity]].
  - unfold out_name, cloog_name. cbn [fst snd]. change (dir ++ "/" ++ s ++ ".c") with (dir ++ String "/" (s ++ ".c")).
    rewrite basename_dir, basename_plain, E2 by auto. auto.
  - intros N. unfold out_name, cloog_name. cbn [fst snd]. change (dir ++ "/" ++ s) with (dir ++ String "/" s). rewrite basename_dir by auto.
    unfold without_c. destruct (ends_in_c s) eqn:E; auto. exfalso. apply (N (without_c s)). apply ends_split. auto.
Qed.
Print Assumptions C99_names.
Example C99_names_met : fst (out_name "kernels/mm.c" None) = "mm.pluto.c" /\ fst (fst (cloog_name "kernels/mm.c" None)) = "mm.pluto.cloog" /\
  fst (out_name "mm.cc" None) = "mm.cc.pluto.c" /\ fst (out_name ".c" None) = ".pluto.c" /\ fst (fst (cloog_name "mm.c" (Some "out/x.c"))) = "x.pluto.cloog".
Proof. repeat split. Qed.

(** The names fit into the buffers allocated for them. *)
Theorem C99_fit : forall src out,
  (let (name, size) := out_name src out in String.length name < size) /\
  (let '(name, size, longest) := cloog_name src out in String.length name < size /\ longest < size).
Proof.
  assert (forall s, String.length (without_c s) + (if ends_in_c s then 2 else 0) = String.length s) as L.
  { intros s. destruct (ends_in_c s) eqn:E; [|unfold without_c; rewrite E; lia]. rewrite (ends_split s E) at 2. rewrite length_app. reflexivity. }
  intros src out. unfold out_name, cloog_name. split.
  - destruct out as [n|]; [lia|]. cbv zeta. rewrite length_app. specialize (L (basename src)). destruct (ends_in_c _); cbn [String.length]; lia.
  - cbv zeta. set (bn := basename _). rewrite length_app. specialize (L bn). destruct (ends_in_c bn) eqn:E; cbn [String.length]; lia.
Qed.
Print Assumptions C99_fit.

(** Without -o the source is never overwritten, nor is one output by the other. *)
Theorem C99_distinct : forall src out,
  fst (out_name src out) <> fst (fst (cloog_name src out)) /\
  (out = None -> fst (out_name src out) <> src /\ fst (fst (cloog_name src out)) <> src).
Proof.
  assert (forall b, without_c b ++ ".pluto.cloog" <> b) as K2.
  { intros b H. destruct (ends_in_c b) eqn:E.
    - rewrite (ends_split b E) in H at 2. apply app_string_inj in H. discriminate.
    - unfold without_c in H. rewrite E in H. apply (f_equal String.length) in H. rewrite length_app in H. cbn in H. lia. }
  assert (forall b, without_c b ++ ".pluto.c" <> b) as K1.
  { intros b H. destruct (ends_in_c b) eqn:E.
    - rewrite (ends_split b E) in H at 2. apply app_string_inj in H. discriminate.
    - unfold without_c in H. rewrite E in H. apply (f_equal String.length) in H. rewrite length_app in H. cbn in H. lia. }
  assert (forall b e, plain b -> plain e -> plain (without_c b ++ e)) as PL.
  { intros b e Pb Pe. unfold plain. rewrite list_app. intros H. apply in_app_or in H as [H|H]; [|exact (Pe H)]. apply Pb.
    destruct (ends_in_c b) eqn:E; [|unfold without_c in H; rewrite E in H; auto]. rewrite (ends_split b E), list_app. apply in_or_app. auto. }
  assert (plain ".pluto.c" /\ plain ".pluto.cloog") as [PA PB] by (split; unfold plain; cbn; intuition discriminate).
  intros src out. unfold out_name, cloog_name. destruct out as [n|]; cbn [fst].
  - split; [|discriminate]. intros H. apply (f_equal basename) in H. rewrite (basename_plain (_ ++ _)) in H by (apply PL; auto; apply basename_is_plain).
    symmetry in H. exact (K2 _ H).
  - split; [intros H; apply app_string_inj in H; discriminate|]. intros _. split; intros H.
    + apply (f_equal basename) in H. rewrite (basename_plain (_ ++ _)) in H by (apply PL; auto; apply basename_is_plain). exact (K1 _ H).
    + apply (f_equal basename) in H. rewrite (basename_plain (_ ++ _)) in H by (apply PL; auto; apply basename_is_plain). exact (K2 _ H).
Qed.
Print Assumptions C99_distinct.
Example C99_distinct_met : fst (out_name "a.pluto.c" None) = "a.pluto.pluto.c" /\ fst (fst (cloog_name "a.pluto.cloog" None)) = "a.pluto.cloog.pluto.cloog".
Proof. split; reflexivity. Qed.

(** Different sources can have the same output; and with -o the CLooG file can be the
    source. *)
Theorem C99_overwrite_refuted :
  (exists src1 src2, basename src1 <> basename src2 /\ fst (out_name src1 None) = fst (out_name src2 None) /\ fst (fst (cloog_name src1 None)) = fst (fst (cloog_name src2 None))) /\
  (exists dir1 dir2 s, dir1 <> dir2 /\ fst (out_name (dir1 ++ "/" ++ s) None) = fst (out_name (dir2 ++ "/" ++ s) None)) /\
  (exists src out, out <> src /\ fst (fst (cloog_name src (Some out))) = src).
Proof.
  split; [|split].
  - exists "a.c", "a". repeat split. discriminate.
  - exists "x", "y", "a.c". split; [discriminate|reflexivity].
  - exists "a.pluto.cloog", "a.c". split; [discriminate|reflexivity].
Qed.
Print Assumptions C99_overwrite_refuted.
