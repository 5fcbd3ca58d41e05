(** * Decision procedures used only to discharge the hypotheses of examples. *)
From Coq Require Import ZArith QArith List Bool Lia.
From Verif Require Import SpecLinear MathModel VecProofs.
Import ListNotations.
Open Scope Z_scope.

Definition wf_cstb (c : cst) : bool :=
  (1 <=? ncols c)%nat && forallb (fun r => (length (coef r) =? ncols c)%nat) (rows c).
Lemma wf_cstb_ok c : wf_cstb c = true -> wf_cst c.
Proof.
  unfold wf_cstb, wf_cst. rewrite andb_true_iff, forallb_forall. intros [H1 H2].
  apply Nat.leb_le in H1. split; auto. intros r Hr. apply Nat.eqb_eq. auto.
Qed.

Definition wf_matb (m : matrix) : bool := forallb (fun r => (length r =? mncols m)%nat) (mrows m).
Lemma wf_matb_ok m : wf_matb m = true -> wf_mat m.
Proof. unfold wf_matb, wf_mat. rewrite forallb_forall. intros H r Hr. apply Nat.eqb_eq. auto. Qed.

Definition holdsb (x : point) (r : row) : bool :=
  if is_eq r then aff (coef r) x =? 0 else 0 <=? aff (coef r) x.
Lemma holdsb_ok x r : holdsb x r = true <-> holds x r.
Proof. unfold holdsb, holds. destruct (is_eq r). apply Z.eqb_eq. apply Z.leb_le. Qed.

Definition memb (c : cst) (x : point) : bool :=
  (S (length x) =? ncols c)%nat && forallb (holdsb x) (rows c).
Lemma memb_ok c x : memb c x = true <-> mem c x.
Proof.
  unfold memb, mem. rewrite andb_true_iff, forallb_forall, Nat.eqb_eq.
  split; intros [H1 H2]; split; auto; intros r Hr; apply holdsb_ok; auto.
Qed.
Lemma memb_false c x : memb c x = false -> ~ mem c x.
Proof. intros H M. apply memb_ok in M. congruence. Qed.

Definition umemb (l : list cst) (x : point) : bool := existsb (fun c => memb c x) l.
Lemma umemb_ok l x : umemb l x = true <-> umem l x.
Proof.
  unfold umemb, umem. rewrite existsb_exists. split; intros (c & H1 & H2); exists c; split; auto; apply memb_ok; auto.
Qed.
Lemma umemb_false l x : umemb l x = false -> ~ umem l x.
Proof. intros H M. apply umemb_ok in M. congruence. Qed.

Lemma qmem_of_mem c x : mem c x -> qmem c (zpoint x).
Proof. apply qmem_zpoint. Qed.

Ltac wf := first [apply wf_cstb_ok; vm_compute; reflexivity | apply wf_matb_ok; vm_compute; reflexivity].
Ltac inset := first
  [ apply memb_ok; vm_compute; reflexivity | apply memb_false; vm_compute; reflexivity
  | apply umemb_ok; vm_compute; reflexivity | apply umemb_false; vm_compute; reflexivity
  | apply qmem_of_mem; apply memb_ok; vm_compute; reflexivity ].
