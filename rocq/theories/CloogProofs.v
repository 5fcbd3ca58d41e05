(** * Reading the CLooG file back. *)
From Coq Require Import Ascii String DecimalString DecimalZ DecimalPos Decimal DecimalFacts ZArith List Bool Arith Lia.
From Verif Require Import SpecLinear MathModel ConstraintsModel SpecProg ProgModel ExportModel LoopModel MarkModel SpecLib SpecSolve SolveModel SpecCloog CloogModel.
Import ListNotations.
Open Scope string_scope.
Open Scope Z_scope.

Lemma sapp_assoc a b c : (a ++ b) ++ c = a ++ (b ++ c).
Proof. induction a; cbn; [auto|f_equal; auto]. Qed.
Lemma sapp_nil a : a ++ "" = a.
Proof. induction a; cbn; [auto|f_equal; auto]. Qed.

Lemma split_at_ne p s : split_at p s <> [].
Proof. destruct s as [|c r]; cbn; [discriminate|]. destruct (p c); [discriminate|]. destruct (split_at p r); discriminate. Qed.

Lemma split_at_app p a c b : p c = true -> split_at p (a ++ String c b) = (split_at p a ++ split_at p b)%list.
Proof.
  intros H. induction a as [|x a IH]; cbn; [rewrite H; auto|].
  destruct (p x); [rewrite IH; auto|]. rewrite IH.
  destruct (split_at p a) eqn:E; [destruct (split_at_ne _ _ E)|]. auto.
Qed.
Lemma split_at_none p s : all_chars (fun c => negb (p c)) s = true -> split_at p s = [s].
Proof.
  induction s as [|c s IH]; cbn; [auto|]. intros H. apply andb_prop in H as [H1 H2]. apply negb_true_iff in H1. rewrite H1, IH; auto.
Qed.
Lemma all_chars_app p a b : all_chars p (a ++ b) = all_chars p a && all_chars p b.
Proof. induction a; cbn; [auto|]. rewrite IHa, andb_assoc. auto. Qed.
Lemma all_chars_impl (p q : ascii -> bool) s : (forall c, p c = true -> q c = true) -> all_chars p s = true -> all_chars q s = true.
Proof. intros H. induction s; cbn; [auto|]. intros E. apply andb_prop in E as [E1 E2]. rewrite (H _ E1). cbn. auto. Qed.

(** ** Lines *)
Lemma content_nl a b : content (a ++ nl ++ b) = (content a ++ content b)%list.
Proof.
  unfold content, lines, nl. cbn [String.append]. rewrite split_at_app by reflexivity. rewrite map_app, filter_app. auto.
Qed.
Lemma content_nl0 b : content (nl ++ b) = content b.
Proof. apply (content_nl "" b). Qed.
Lemma content_end a : content (a ++ nl) = content a.
Proof. rewrite <- (sapp_nil nl). rewrite content_nl. cbn. apply app_nil_r. Qed.
Lemma content_line s : one_line s -> content s = filter is_read [words s].
Proof. intros H. unfold content, lines. rewrite split_at_none by exact H. auto. Qed.
Lemma content_comment s : one_line s -> content (String "#" s) = [].
Proof.
  intros H. rewrite content_line by exact H. unfold words. cbn [split_at]. change (is_blank "#") with false. cbn.
  destruct (split_at is_blank s) as [|w ws] eqn:E; [destruct (split_at_ne _ _ E)|]. cbn. destruct w; reflexivity.
Qed.

(** ** Words *)
Lemma words_blank a b : words (a ++ " " ++ b) = (words a ++ words b)%list.
Proof. unfold words. cbn [String.append]. rewrite split_at_app by reflexivity. apply filter_app. Qed.
Lemma plain_split w : all_chars (fun c => negb (is_newline c || is_blank c)) w = true -> split_at is_blank w = [w].
Proof.
  intros H. apply split_at_none. revert H. apply all_chars_impl. intros c. rewrite !negb_true_iff. intros H. apply orb_false_iff in H as [_ H]. auto.
Qed.
Lemma words_plain w : plain_word w -> words w = [w].
Proof.
  intros (N & A & _). unfold words. rewrite plain_split by auto. cbn. destruct (String.eqb_spec w ""); [contradiction|auto].
Qed.
Lemma plain_one_line w : plain_word w -> one_line w.
Proof.
  intros (_ & A & _). revert A. apply all_chars_impl. intros c. rewrite !negb_true_iff. intros H. apply orb_false_iff in H as [H _]. auto.
Qed.
Lemma one_line_app a b : one_line a -> one_line b -> one_line (a ++ b).
Proof. unfold one_line. rewrite all_chars_app. intros -> ->. auto. Qed.
Lemma words_list {A} (f : A -> string) l : (forall a, In a l -> plain_word (f a)) -> words (print_each (fun a => f a ++ " ") l) = map f l.
Proof.
  induction l as [|a l IH]; intros H; [reflexivity|]. cbn [print_each map]. rewrite sapp_assoc, words_blank, IH by (intros; apply H; cbn; auto).
  rewrite words_plain by (apply H; cbn; auto). auto.
Qed.
Lemma one_line_list {A} (f : A -> string) l : (forall a, In a l -> plain_word (f a)) -> one_line (print_each (fun a => f a ++ " ") l).
Proof.
  induction l as [|a l IH]; intros H; [reflexivity|]. cbn [print_each]. apply one_line_app; [|apply IH; intros; apply H; cbn; auto].
  apply one_line_app; [apply plain_one_line, H; cbn; auto|reflexivity].
Qed.

(** ** Numbers *)
Definition numeral (c : ascii) : bool :=
  existsb (Ascii.eqb c) ["-"; "0"; "1"; "2"; "3"; "4"; "5"; "6"; "7"; "8"; "9"]%char.
Lemma uint_numeral d : all_chars numeral (NilEmpty.string_of_uint d) = true.
Proof. induction d; cbn; auto. Qed.
Lemma nonnil_pos p : Pos.to_uint p <> Nil.
Proof. apply Unsigned.to_uint_nonnil. Qed.
Lemma fmt_numeral z : all_chars numeral (fmt_d z) = true /\ fmt_d z <> "" /\ String.prefix "#" (fmt_d z) = false.
Proof.
  assert (forall d, d <> Nil -> all_chars numeral (NilZero.string_of_uint d) = true /\ NilZero.string_of_uint d <> "" /\ String.prefix "#" (NilZero.string_of_uint d) = false) as H.
  { intros d N. destruct d; [contradiction|..]; split; [|split| |split| |split| |split| |split| |split| |split| |split| |split| |split];
      try discriminate; try reflexivity; cbn; apply uint_numeral. }
  unfold fmt_d. destruct z as [|p|p]; cbn [Z.to_int NilZero.string_of_int].
  - split; [reflexivity|]. split; [discriminate|reflexivity].
  - apply H, nonnil_pos.
  - destruct (H (Pos.to_uint p) (nonnil_pos p)) as (A & B & C). split; [cbn; auto|]. split; [discriminate|reflexivity].
Qed.
Lemma fmt_plain z : plain_word (fmt_d z).
Proof.
  destruct (fmt_numeral z) as (A & B & C). split; [auto|]. split; [|auto]. revert A. apply all_chars_impl. intros c H.
  unfold numeral in H. apply existsb_exists in H as (x & Hx & E). apply Ascii.eqb_eq in E as <-.
  repeat destruct Hx as [<-|Hx]; [reflexivity..|destruct Hx].
Qed.
Lemma number_fmt z : number (fmt_d z) = Some z.
Proof.
  unfold number, fmt_d. rewrite NilZero.isi.
  - cbn. rewrite DecimalZ.of_to. auto.
  - destruct z; cbn; [discriminate| |discriminate]. intros H. injection H as H. apply (nonnil_pos _ H).
  - destruct z; cbn; [discriminate|discriminate|]. intros H. injection H as H. apply (nonnil_pos _ H).
Qed.
Lemma numbers_fmt l : numbers (map fmt_d l) = Some l.
Proof. induction l; cbn; [auto|]. rewrite number_fmt, IHl. auto. Qed.

(** ** Sets *)
Definition row_words (r : row) : list string := (if is_eq r then "0" else "1") :: map fmt_d (coef r).
Definition poly_lines (c : cst) : text := [fmt_d (Z.of_nat (nrows c)); fmt_d (Z.of_nat (ncols c + 1))] :: map row_words (rows c).
Definition union_lines (l : clist) : text :=
  ((if (2 <=? num_in_list l)%nat then [[fmt_d (Z.of_nat (num_in_list l))]] else []) ++ flat_map poly_lines l)%list.

Lemma row_content r X : content (row_text r ++ X) = row_words r :: content X.
Proof.
  unfold row_text. rewrite !sapp_assoc.
  replace ((if is_eq r then "0" else "1") ++ " " ++ print_each (fun v => fmt_d v ++ " ") (coef r) ++ nl ++ X)
    with (((if is_eq r then "0" else "1") ++ " " ++ print_each (fun v => fmt_d v ++ " ") (coef r)) ++ nl ++ X) by (rewrite !sapp_assoc; auto).
  rewrite content_nl, content_line.
  - rewrite words_blank, words_list by (intros; apply fmt_plain). unfold row_words. destruct (is_eq r); reflexivity.
  - apply one_line_app; [destruct (is_eq r); reflexivity|]. apply one_line_app; [reflexivity|]. apply one_line_list. intros; apply fmt_plain.
Qed.
Lemma rows_content l X : content (print_each row_text l ++ X) = (map row_words l ++ content X)%list.
Proof.
  induction l as [|r l IH]; [reflexivity|]. cbn [print_each map app]. rewrite sapp_assoc, row_content, IH. auto.
Qed.
Lemma is_read_fmt z l : is_read (fmt_d z :: l) = true.
Proof. unfold is_read. destruct (fmt_numeral z) as (_ & _ & ->). auto. Qed.
Lemma fmt_line z X : content (fmt_d z ++ nl ++ X) = [fmt_d z] :: content X.
Proof.
  rewrite content_nl, content_line by (apply plain_one_line, fmt_plain). rewrite words_plain by apply fmt_plain. cbn [filter]. rewrite is_read_fmt. auto.
Qed.
Lemma poly_content c X : content (poly_text c ++ X) = (poly_lines c ++ content X)%list.
Proof.
  unfold poly_text, poly_lines.
  replace ((fmt_d (Z.of_nat (nrows c)) ++ " " ++ fmt_d (Z.of_nat (ncols c + 1)) ++ nl ++ print_each row_text (rows c)) ++ X)
    with ((fmt_d (Z.of_nat (nrows c)) ++ " " ++ fmt_d (Z.of_nat (ncols c + 1))) ++ nl ++ (print_each row_text (rows c) ++ X)) by (rewrite !sapp_assoc; auto).
  rewrite content_nl, content_line.
  - rewrite words_blank, !words_plain by apply fmt_plain. cbn [app filter]. rewrite is_read_fmt, rows_content. auto.
  - apply one_line_app; [apply plain_one_line, fmt_plain|]. apply one_line_app; [reflexivity|]. apply plain_one_line, fmt_plain.
Qed.
Lemma polys_content l X : content (print_each poly_text l ++ X) = (flat_map poly_lines l ++ content X)%list.
Proof. induction l as [|c l IH]; [reflexivity|]. cbn [print_each flat_map]. rewrite sapp_assoc, poly_content, IH, app_assoc. auto. Qed.
Lemma union_content l X : content (polylib_text l ++ X) = (union_lines l ++ content X)%list.
Proof.
  unfold polylib_text, union_lines. destruct (2 <=? num_in_list l)%nat.
  - replace (((fmt_d (Z.of_nat (num_in_list l)) ++ nl) ++ print_each poly_text l) ++ X)
      with (fmt_d (Z.of_nat (num_in_list l)) ++ nl ++ (print_each poly_text l ++ X)) by (rewrite !sapp_assoc; auto).
    rewrite fmt_line, polys_content. auto.
  - cbn [String.append app]. apply polys_content.
Qed.

Lemma numbers_row r : numbers (row_words r) = Some ((if is_eq r then 0 else 1) :: coef r).
Proof. unfold row_words. cbn [numbers]. rewrite numbers_fmt. destruct (is_eq r); reflexivity. Qed.
Lemma read_matrix_rows l nc t : (forall r, In r l -> List.length (coef r) = nc) -> read_matrix (List.length l) nc (map row_words l ++ t)%list = Some (l, t).
Proof.
  induction l as [|r l IH]; intros H; [reflexivity|]. cbn [List.length map app read_matrix]. rewrite numbers_row.
  rewrite (proj2 (Nat.eqb_eq _ _)) by (apply H; cbn; auto). rewrite IH by (intros; apply H; cbn; auto).
  destruct r as [[|] v]; reflexivity.
Qed.
Lemma read_poly_lines c t : wf_cst c -> read_poly (poly_lines c ++ t)%list = Some (c, t).
Proof.
  intros [W1 W2]. unfold poly_lines. cbn [app read_poly numbers]. rewrite !number_fmt.
  replace (0 <=? Z.of_nat (nrows c)) with true by (symmetry; apply Z.leb_le; lia).
  replace (1 <=? Z.of_nat (ncols c + 1)) with true by (symmetry; apply Z.leb_le; lia). cbn [andb].
  replace (Z.to_nat (Z.of_nat (ncols c + 1) - 1)) with (ncols c) by lia. rewrite Nat2Z.id. unfold nrows. rewrite read_matrix_rows by auto.
  destruct c; auto.
Qed.
Lemma read_many_ok {A} (rd : text -> option (A * text)) (f : A -> text) l t : (forall a u, In a l -> rd (f a ++ u)%list = Some (a, u)) ->
  read_many rd (List.length l) (flat_map f l ++ t)%list = Some (l, t).
Proof.
  induction l as [|a l IH]; intros H; [reflexivity|]. cbn [List.length flat_map read_many]. rewrite <- app_assoc, H by (cbn; auto).
  rewrite IH by (intros; apply H; cbn; auto). auto.
Qed.
Lemma read_union_lines l t : l <> [] -> (forall c, In c l -> wf_cst c) -> read_union (union_lines l ++ t)%list = Some (l, t).
Proof.
  intros N W. assert (forall a u, In a l -> read_poly (poly_lines a ++ u)%list = Some (a, u)) as R by (intros; apply read_poly_lines; auto).
  unfold union_lines, num_in_list. destruct (2 <=? List.length l)%nat eqn:E.
  - cbn [app read_union numbers]. rewrite number_fmt, Nat2Z.id. apply (read_many_ok read_poly poly_lines); auto.
  - apply Nat.leb_gt in E. destruct l as [|c [|? ?]]; [contradiction| |cbn in E; lia].
    pose proof (read_many_ok read_poly poly_lines [c] t R) as M. cbn [app flat_map List.length] in M |- *.
    unfold read_union. unfold poly_lines in M |- *. cbn [app] in M |- *. cbn [numbers] in M |- *. rewrite !number_fmt. exact M.
Qed.

(** ** The whole file *)
Lemma comment_line a X : one_line a -> content (String "#" a ++ nl ++ X) = content X.
Proof. intros H. rewrite content_nl, content_comment by exact H. auto. Qed.
Lemma comment_line2 a b X : one_line a -> one_line b -> content (String "#" a ++ b ++ nl ++ X) = content X.
Proof.
  intros H K. rewrite <- (comment_line (a ++ b) X) by (apply one_line_app; auto). f_equal. cbn [String.append]. rewrite sapp_assoc. auto.
Qed.
Lemma literal_line w X : plain_word w -> content (w ++ nl ++ X) = [w] :: content X.
Proof.
  intros P. rewrite content_nl, content_line by (apply plain_one_line; auto). rewrite words_plain by auto. cbn [filter is_read].
  destruct P as (_ & _ & ->). auto.
Qed.
Definition names_lines (l : list string) : text := match l with [] => [] | _ => [l] end.
Lemma names_content {A} (f : A -> string) l X : (forall a, In a l -> plain_word (f a)) ->
  content (print_each (fun a => f a ++ " ") l ++ nl ++ X) = (names_lines (map f l) ++ content X)%list.
Proof.
  intros H. rewrite content_nl, content_line by (apply one_line_list; auto). rewrite words_list by auto. f_equal.
  destruct l as [|a l]; [reflexivity|]. cbn [map filter is_read names_lines]. destruct (H a (or_introl eq_refl)) as (_ & _ & ->). auto.
Qed.
Lemma print_each_ext {A} (f g : A -> string) l : (forall a, In a l -> f a = g a) -> print_each f l = print_each g l.
Proof. induction l; cbn; intros H; [auto|]. rewrite H, IHl by auto. auto. Qed.
Lemma texts_content {A} (f : A -> string) (g : A -> text) l X : (forall a Y, In a l -> content (f a ++ Y) = (g a ++ content Y)%list) ->
  content (print_each f l ++ X) = (flat_map g l ++ content X)%list.
Proof.
  induction l as [|a l IH]; intros H; [reflexivity|]. cbn [print_each flat_map]. rewrite sapp_assoc, (H a) by (cbn; auto). rewrite IH by (intros; apply H; cbn; auto). apply app_assoc.
Qed.

Definition domain_lines (pr : prog) (s : nat) : text := (union_lines [s_domain (stmt_of pr s)] ++ [["0"; "0"; "0"]])%list.
Lemma domain_content pr texts s X : Forall one_line texts -> content (domain_text pr texts s ++ X) = (domain_lines pr s ++ content X)%list.
Proof.
  intros T. unfold domain_text, domain_lines.
  replace (("# S" ++ fmt_d (Z.of_nat (s + 1)) ++ " (" ++ nth s texts "" ++ ")" ++ nl ++ polylib_text [s_domain (stmt_of pr s)] ++ "0 0 0" ++ nl ++ nl) ++ X)
    with ("# S" ++ (fmt_d (Z.of_nat (s + 1)) ++ " (" ++ nth s texts "" ++ ")") ++ nl ++ (polylib_text [s_domain (stmt_of pr s)] ++ ("0 0 0" ++ nl ++ (nl ++ X))))
    by (rewrite !sapp_assoc; auto).
  rewrite comment_line2; [|reflexivity|].
  - rewrite union_content, content_nl, content_nl0, <- app_assoc. reflexivity.
  - apply one_line_app; [apply plain_one_line, fmt_plain|]. apply one_line_app; [reflexivity|]. apply one_line_app; [|reflexivity].
    destruct (nth_in_or_default s texts "") as [I| ->]; [|reflexivity]. rewrite Forall_forall in T. apply T; auto.
Qed.
Definition scattering_lines (pr : prog) (s : nat) : text := union_lines [stmt_get_schedule (stmt_of pr s)].
Lemma scattering_content pr s X : content (scattering_text pr s ++ X) = (scattering_lines pr s ++ content X)%list.
Proof.
  unfold scattering_text, scattering_lines.
  replace (("# T(S" ++ fmt_d (Z.of_nat (s + 1)) ++ ")" ++ nl ++ polylib_text [stmt_get_schedule (stmt_of pr s)] ++ nl) ++ X)
    with ("# T(S" ++ (fmt_d (Z.of_nat (s + 1)) ++ ")") ++ nl ++ (polylib_text [stmt_get_schedule (stmt_of pr s)] ++ (nl ++ X)))
    by (rewrite !sapp_assoc; auto).
  rewrite comment_line2; [|reflexivity|].
  - rewrite union_content, content_nl0. auto.
  - apply one_line_app; [apply plain_one_line, fmt_plain|reflexivity].
Qed.

Definition tail_lines (pr : prog) : text :=
  let n := List.length (p_stmts pr) in
  if (1 <=? n)%nat then
    [fmt_d (Z.of_nat n)] :: flat_map (scattering_lines pr) (seq 0 n) ++
    [fmt_d (Z.of_nat (mnrows (s_trans (stmt_of pr 0))))] :: names_lines (map loop_name (seq 0 (mnrows (s_trans (stmt_of pr 0)))))
  else [["0"]].

Lemma loop_name_plain k : plain_word (loop_name k).
Proof.
  unfold loop_name, plain_word. change (decimal (Z.of_nat (k + 1))) with (fmt_d (Z.of_nat (k + 1))).
  destruct (fmt_plain (Z.of_nat (k + 1))) as (A & B & C). split; [discriminate|]. split; [cbn; exact B|reflexivity].
Qed.

Lemma file_content version params texts ctx pr : one_line version -> Forall plain_word params -> List.length params = p_npar pr -> Forall one_line texts ->
  content (cloog_text version params texts ctx pr) =
  (["c"] :: union_lines ctx ++ ["1"] :: names_lines params ++ [fmt_d (Z.of_nat (List.length (p_stmts pr)))] ::
   flat_map (domain_lines pr) (seq 0 (List.length (p_stmts pr))) ++ ["0"] :: tail_lines pr)%list.
Proof.
  intros V P L T. rewrite Forall_forall in P. unfold cloog_text. rewrite comment_line2 by (reflexivity || auto).
  rewrite comment_line by reflexivity. rewrite literal_line by (split; [discriminate|]; split; reflexivity).
  rewrite content_nl0, union_content, content_nl0. rewrite literal_line by (split; [discriminate|]; split; reflexivity).
  rewrite firstn_all2 by lia. rewrite (names_content (fun w => w)) by auto. rewrite map_id, content_nl0, comment_line by reflexivity.
  rewrite fmt_line, content_nl0. rewrite (texts_content _ (domain_lines pr)) by (intros; apply domain_content; auto).
  rewrite comment_line by reflexivity. rewrite literal_line by (split; [discriminate|]; split; reflexivity).
  rewrite content_nl0, comment_line by reflexivity. unfold tail_lines. do 2 f_equal. f_equal. f_equal. f_equal. f_equal.
  destruct (1 <=? List.length (p_stmts pr))%nat.
  - rewrite fmt_line, content_nl0. rewrite (texts_content _ (scattering_lines pr)) by (intros; apply scattering_content).
    rewrite comment_line by reflexivity. rewrite fmt_line.
    rewrite (print_each_ext _ (fun i => loop_name i ++ " ")) by (intros; unfold loop_name; rewrite sapp_assoc; reflexivity).
    rewrite <- (sapp_nil nl). rewrite (names_content loop_name) by (intros; apply loop_name_plain). cbn [content]. rewrite app_nil_r. reflexivity.
  - reflexivity.
Qed.

Lemma read_names_lines f l t : f <> 0 -> read_names (List.length l) ([fmt_d f] :: names_lines l ++ t)%list = Some (Some l, t).
Proof.
  intros F. unfold read_names. cbn [numbers]. rewrite number_fmt. destruct (Z.eqb_spec f 0); [contradiction|].
  destruct l as [|w l]; [reflexivity|]. cbn [names_lines app List.length]. rewrite Nat.eqb_refl. auto.
Qed.
