(** * The command line: proofs. *)
From Coq Require Import ZArith List Bool String Ascii Lia.
From Verif Require Import SpecMain MainModel.
Import ListNotations.
Open Scope Z_scope.

(** ** Values of options as read *)
Definition mip_field (f : field) : bool := match f with glpk | gurobi | lp | dfp | ilp => true | _ => false end.
Definition good_value (b : build) (f : field) (v : Z) : Prop :=
  match f with
  | ufactor | codegen_context | cloogf | cloogl | forceparallel | ft | lt => True
  | fuse => v = 0 \/ v = 1 \/ v = 2 \/ v = 3
  | coeff_bound => 0 < v \/ v = -1
  | data_element_size => 0 < v < 2 ^ 32
  | cache_size => 0 < v < 2 ^ 64
  | _ => (v = 0 \/ v = 1) /\ (mip_field f = true -> has_glpk b = false -> has_gurobi b = false -> v = 0)
  end.
Definition sane (b : build) (o : opts) : Prop := forall f, good_value b f (o f).

Lemma sane_alloc b : sane b pluto_options_alloc.
Proof. intros f. destruct f; cbn; unfold kSmartFuse; try exact I; try lia; (split; [auto|intros; first [reflexivity|discriminate]]). Qed.

Lemma beq_eq f g : field_beq f g = true <-> f = g.
Proof. split; [apply internal_field_dec_bl|apply internal_field_dec_lb]. Qed.
Lemma beq_refl f : field_beq f f = true.
Proof. apply beq_eq. reflexivity. Qed.
Lemma beq_neq f g : f <> g -> field_beq f g = false.
Proof. intros N. destruct (field_beq f g) eqn:E; auto. apply beq_eq in E. contradiction. Qed.

Lemma sane_upd b o f v : sane b o -> good_value b f v -> sane b (upd o f v).
Proof. intros S G g. unfold upd. destruct (field_beq f g) eqn:E; [|apply S]. apply beq_eq in E. subst. auto. Qed.

Definition good_action (b : build) (a : action) : Prop := match a with ToVar f v => good_value b f v | _ => True end.
Lemma options_good b : Forall (fun p => good_action b (snd p)) (options_of b).
Proof.
  unfold options_of. destruct b as [[|] [|]]; cbn [has_glpk has_gurobi orb app];
    repeat (constructor; [cbn; unfold kNoFuse, kMaximalFuse, kSmartFuse, kTypedFuse; try exact I; try lia; (split; [auto|intros; first [reflexivity|discriminate]])|]); constructor.
Qed.

Lemma handle_sane b c v r r' : sane b (r_opts r) -> handle_char c v r = inr r' -> sane b (r_opts r').
Proof.
  intros S H. pose proof (Z.mod_pos_bound v (2 ^ 32) ltac:(lia)). pose proof (Z.mod_pos_bound v (2 ^ 64) ltac:(lia)).
  destruct c as [[|] [|] [|] [|] [|] [|] [|] [|]]; cbn -[Z.modulo Z.leb Z.pow] in H; try discriminate H;
    try (injection H as <-; cbn [with_opt r_opts]; first [exact S|apply sane_upd; [exact S|cbn; try exact I; (split; [auto|intros; discriminate])]]; fail);
    cbv zeta in H; match type of H with context [?a <=? 0] => destruct (Z.leb_spec a 0) end; try discriminate H; injection H as <-; cbn [with_opt r_opts]; apply sane_upd; auto; unfold good_value; change 18446744073709551616 with (2 ^ 64) in *; change 4294967296 with (2 ^ 32) in *; lia.
Qed.
Lemma step_sane b a r r' : sane b (r_opts r) -> step b a r = inr r' -> sane b (r_opts r').
Proof.
  intros S H. destruct a as [name v|c v|n|n]; cbn [step] in H.
  - destruct (find _ _) as [[n' [f x| |c a]]|] eqn:E; [| | |discriminate].
    + injection H as <-. cbn. apply sane_upd; auto. apply find_some in E as [E _].
      pose proof (options_good b) as G. rewrite Forall_forall in G. exact (G _ E).
    + injection H as <-. exact S.
    + eapply handle_sane; eauto.
  - destruct (existsb _ _); [|discriminate]. eapply handle_sane; eauto.
  - injection H as <-. exact S.
  - injection H as <-. exact S.
Qed.
Lemma read_sane b args : forall r r', sane b (r_opts r) -> read_args b args r = inr r' -> sane b (r_opts r').
Proof.
  induction args as [|a l IH]; intros r r' S H; cbn in H; [injection H as <-; auto|].
  destruct (step b a r) as [e|r1] eqn:E; [discriminate|]. eapply IH; [|exact H]. eapply step_sane; eauto.
Qed.

(** ** Making options consistent *)
Lemma turn_eq c f v o g : turn c f v o g = if field_beq f g then (if c then v else o g) else o g.
Proof. unfold turn, upd. destruct c, (field_beq f g); reflexivity. Qed.

Lemma turn_other c f v o g : field_beq f g = false -> turn c f v o g = o g.
Proof. intros E. rewrite turn_eq, E. reflexivity. Qed.

Ltac boolv S f := let H := fresh in pose proof (S f) as H; cbn in H; destruct H as [H _]; destruct H as [H|H]; rewrite ?H in *.
Ltac fusev S := let H := fresh in pose proof (S fuse) as H; cbn in H; destruct H as [H|[H|[H|H]]]; rewrite ?H in *.
Ltac turns := unfold nz; repeat (rewrite turn_eq; cbn [field_beq]).

Definition basic_fields (f : field) : bool :=
  match f with isldep | lastwriter | diamondtile | fulldiamondtile | parallel | fuse => true | _ => false end.
Definition lp_fields (f : field) : bool := match f with glpk | dfp | lp | pipsolve | islsolve => true | _ => false end.
Definition late_fields (f : field) : bool := match f with islsolve | lastwriter | scc_cluster => true | _ => false end.

Lemma turn_sane b c f v o : sane b o -> good_value b f v -> sane b (turn c f v o).
Proof. intros S G. unfold turn. destruct c; auto. apply sane_upd; auto. Qed.

Lemma basic_frame nolast o0 o f : basic_checks nolast o0 = inr o -> basic_fields f = false -> o f = o0 f.
Proof.
  intros H N. unfold basic_checks in H. cbv zeta in H. destruct (_ && _) in H; [discriminate|]. destruct (_ && _) in H; [discriminate|]. destruct (_ && _) in H; [discriminate|].
  injection H as <-. rewrite !turn_other; auto; apply beq_neq; intros <-; discriminate.
Qed.
Lemma basic_sane b nolast o0 o : sane b o0 -> basic_checks nolast o0 = inr o -> sane b o.
Proof.
  intros S H. unfold basic_checks in H. cbv zeta in H. destruct (_ && _) in H; [discriminate|]. destruct (_ && _) in H; [discriminate|]. destruct (_ && _) in H; [discriminate|].
  injection H as <-. repeat apply turn_sane; auto; cbn; unfold kTypedFuse; try lia; (split; [auto|intros; discriminate]).
Qed.
Lemma basic_refuses nolast o0 : (exists e, basic_checks nolast o0 = inl e) <-> (on o0 isldep /\ on o0 candldep) \/ (on o0 lastwriter /\ on o0 candldep) \/ (on o0 second_level_tile /\ on o0 find_tile_sizes).
Proof.
  unfold basic_checks, on. cbv zeta. turns.
  destruct (Z.eqb_spec (o0 isldep) 0), (Z.eqb_spec (o0 candldep) 0), (Z.eqb_spec (o0 lastwriter) 0), (Z.eqb_spec (o0 second_level_tile) 0), (Z.eqb_spec (o0 find_tile_sizes) 0);
    cbn [negb andb]; (split; [intros [x X]; try discriminate X; tauto|intros X; first [eexists; reflexivity|exfalso; tauto]]).
Qed.
Lemma basic_code nolast o0 e : basic_checks nolast o0 = inl e -> e = 1.
Proof. unfold basic_checks. cbv zeta. repeat (destruct (_ && _); [intros H; injection H as <-; reflexivity|]). discriminate. Qed.

Lemma basic_spec b nolast o0 o : sane b o0 -> basic_checks nolast o0 = inr o ->
  (o isldep <> 0 /\ o candldep = 0 \/ o isldep = 0 /\ o candldep <> 0) /\ (o find_tile_sizes <> 0 -> o second_level_tile = 0) /\
  (o diamondtile <> 0 \/ o fulldiamondtile <> 0 -> o tile <> 0) /\ (o multipar <> 0 -> o parallel <> 0) /\ (o hybridcut <> 0 -> o fuse = kTypedFuse) /\
  (o fuse = if negb (o0 hybridcut =? 0) then kTypedFuse else o0 fuse).
Proof.
  intros S H. unfold basic_checks in H. cbv zeta in H. destruct (nz o0 isldep && nz o0 candldep) eqn:A1; [discriminate|]. destruct (_ && _) in H; [discriminate|].
  destruct (_ && _) eqn:A2 in H; [discriminate|]. injection H as <-. revert A1 A2. turns. intros A1 A2.
  split; [|split; [|split; [|split; [|split]]]].
  - boolv S isldep; boolv S candldep; cbn in *; try discriminate; lia.
  - boolv S second_level_tile; boolv S find_tile_sizes; cbn in *; try discriminate; lia.
  - boolv S diamondtile; boolv S fulldiamondtile; boolv S tile; cbn in *; lia.
  - boolv S multipar; boolv S parallel; cbn in *; lia.
  - boolv S hybridcut; fusev S; cbn in *; unfold kTypedFuse; lia.
  - boolv S hybridcut; fusev S; cbn in *; reflexivity.
Qed.

Lemma lp_frame o f : lp_fields f = false -> lp_options o f = o f.
Proof. intros N. unfold lp_options. cbv zeta. rewrite !turn_other; auto; apply beq_neq; intros <-; discriminate. Qed.
Lemma lp_sane b o : (has_glpk b || has_gurobi b)%bool = true -> sane b o -> sane b (lp_options o).
Proof.
  intros B S. unfold lp_options. cbv zeta. repeat apply turn_sane; auto; cbn; (split; [auto|]); intros; try reflexivity;
    exfalso; destruct b as [[|] [|]]; cbn in *; discriminate.
Qed.
Lemma lp_spec b o : sane b o -> let o' := lp_options o in
  (o' fuse = kTypedFuse \/ o' delayed_cut <> 0 -> o' dfp <> 0) /\ (o' dfp <> 0 -> o' lp <> 0 \/ o' ilp <> 0) /\
  (o' lp <> 0 \/ o' dfp <> 0 -> o' glpk <> 0 \/ o' gurobi <> 0) /\ (o' glpk <> 0 \/ o' gurobi <> 0 -> o' islsolve = 0 /\ o' pipsolve = 0) /\
  (o' dfp <> 0 <-> o fuse = kTypedFuse \/ o delayed_cut <> 0 \/ o dfp <> 0).
Proof.
  intros S. cbv zeta. unfold lp_options. cbv zeta. turns.
  split; [|split; [|split; [|split]]].
  - boolv S delayed_cut; boolv S dfp; fusev S; cbn; unfold kTypedFuse; lia.
  - boolv S dfp; boolv S ilp; boolv S lp; boolv S delayed_cut; fusev S; cbn; lia.
  - boolv S glpk; boolv S gurobi; boolv S lp; boolv S dfp; boolv S ilp; boolv S delayed_cut; fusev S; cbn; lia.
  - boolv S glpk; boolv S gurobi; boolv S lp; boolv S dfp; boolv S ilp; boolv S delayed_cut; fusev S; cbn; lia.
  - boolv S dfp; boolv S delayed_cut; fusev S; cbn; unfold kTypedFuse; lia.
Qed.

Lemma late_frame o0 o f : late_checks o0 = inr o -> late_fields f = false -> o f = o0 f.
Proof.
  intros H N. unfold late_checks in H. cbv zeta in H. repeat (destruct (_ && _) in H; [discriminate|]).
  injection H as <-. rewrite !turn_other; auto; apply beq_neq; intros <-; discriminate.
Qed.
Lemma late_sane b o0 o : sane b o0 -> late_checks o0 = inr o -> sane b o.
Proof.
  intros S H. unfold late_checks in H. cbv zeta in H. repeat (destruct (_ && _) in H; [discriminate|]).
  injection H as <-. repeat apply turn_sane; auto; cbn; (split; [auto|intros; discriminate]).
Qed.
Lemma late_code o0 e : late_checks o0 = inl e -> e = 1.
Proof. unfold late_checks. cbv zeta. repeat (destruct (_ && _); [intros H; injection H as <-; reflexivity|]). discriminate. Qed.
Lemma late_refuses b o : sane b o -> (exists e, late_checks o = inl e) <->
  (o dfp <> 0 /\ o glpk = 0 /\ o gurobi = 0) \/ ((o fuse = kTypedFuse \/ o delayed_cut <> 0) /\ o dfp = 0) \/ (o dfp <> 0 /\ o per_cc_obj <> 0).
Proof.
  intros S. unfold late_checks. cbv zeta. turns.
  boolv S dfp; boolv S glpk; boolv S gurobi; boolv S delayed_cut; boolv S per_cc_obj; fusev S; cbn; unfold kTypedFuse;
    (split; [intros [x X]; first [discriminate X|lia]|intros X; first [eexists; reflexivity|exfalso; lia]]).
Qed.
Lemma late_spec b o0 o : sane b o0 -> late_checks o0 = inr o ->
  (o dfp <> 0 -> o lastwriter <> 0) /\ (o dfp <> 0 -> o per_cc_obj = 0) /\ (o pipsolve <> 0 -> o islsolve = 0) /\
  (o fuse = kTypedFuse -> o scc_cluster <> 0) /\ (o fuse = kTypedFuse \/ o delayed_cut <> 0 -> o dfp <> 0) /\ (o0 islsolve = 0 -> o islsolve = 0).
Proof.
  intros S H. assert (~ exists e, late_checks o0 = inl e) as NR by (intros [e E]; congruence). rewrite (late_refuses b) in NR by auto.
  unfold late_checks in H. cbv zeta in H. repeat (destruct (_ && _) in H; [discriminate|]). injection H as <-. turns.
  split; [|split; [|split; [|split; [|split]]]].
  - boolv S dfp; boolv S lastwriter; cbn; lia.
  - clear -NR. lia.
  - boolv S pipsolve; cbn; lia.
  - assert (o0 fuse = kTypedFuse -> o0 dfp <> 0) as K by (clear -NR; lia). clear NR. boolv S dfp; boolv S scc_cluster; fusev S; cbn; unfold kTypedFuse in *; lia.
  - clear -NR. lia.
  - boolv S pipsolve; cbn; lia.
Qed.
