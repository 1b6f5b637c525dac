(** Lemmas for C20: which exception the constructor of the embedding circuit raises. *)
From Coq Require Import List ZArith Bool Ascii String Reals Lia Lra.
From Coquelicot Require Import Complex.
From Verif Require Import Base Model_QtCurrent Model_Circuit Proof_Circuit Proof_Circuit2.
Import ListNotations.
Open Scope R_scope.

Definition checked (num_f num_p : pynum) (vb_min vb_max : R) (vb_npts : pynum) : Prop :=
  (pynum_val num_f = 1 \/ pynum_val num_f = 2 \/ pynum_val num_f = 3 \/ pynum_val num_f = 4) /\
  (exists k, num_p = PInt k /\ (1 <= k)%Z) /\ (exists k, vb_npts = PInt k /\ (1 <= k)%Z) /\ vb_min <= vb_max.

Lemma whole_check n : (Rleb 1 (pynum_val n) && is_int n)%bool = true <-> exists k, n = PInt k /\ (1 <= k)%Z.
Proof.
  destruct n as [z|x]; cbn [pynum_val is_int].
  - rewrite andb_true_r. split.
    + intros H. exists z. split; [reflexivity|]. destruct (Rleb_spec 1 (IZR z)); [|discriminate]. now apply le_IZR.
    + intros (k & E & K). injection E as ->. apply IZR_le in K. destruct (Rleb_spec 1 (IZR k)); [reflexivity|lra].
  - rewrite andb_false_r. split; [discriminate|]. intros (k & E & _). discriminate.
Qed.
Lemma init_errors h e num_f num_p vb_min vb_max vb_npts fgap vgap rn name :
  let r := init h e num_f num_p vb_min vb_max vb_npts fgap vgap rn name in
  (checked num_f num_p vb_min vb_max vb_npts -> r <> Err AssertionError) /\
  (~ checked num_f num_p vb_min vb_max vb_npts -> r = Err AssertionError) /\
  (checked num_f num_p vb_min vb_max vb_npts -> vgap <> None -> rn = Some 0 -> r = Err ZeroDivisionError) /\
  (checked num_f num_p vb_min vb_max vb_npts -> ~ (vgap <> None /\ rn = Some 0) -> (exists x, num_f = PFloat x) -> r = Err TypeError).
Proof.
  cbv zeta. unfold checked. rewrite <- num_f_check, <- !whole_check. unfold init. rewrite (andb_comm (is_int vb_npts)).
  destruct (existsb _ _); cbn [guard bind]; [|repeat split; try (intros [? _]; discriminate); intros _; reflexivity].
  destruct (Rleb 1 (pynum_val num_p) && is_int num_p)%bool; cbn [guard bind]; [|repeat split; try (intros (_ & ? & _); discriminate); intros _; reflexivity].
  destruct (Rleb 1 (pynum_val vb_npts) && is_int vb_npts)%bool; cbn [guard bind]; [|repeat split; try (intros (_ & _ & ? & _); discriminate); intros _; reflexivity].
  destruct (Rleb_spec vb_min vb_max) as [L|L]; cbn [guard bind]; [|repeat split; try (intros (_ & _ & _ & ?); lra); intros _; reflexivity].
  destruct vgap as [v|], rn as [r0|]; cbn [bind].
  1: destruct (Reqb_spec r0 0) as [E|E]; cbn [bind].
  all: repeat split; try discriminate; try (intros K; exfalso; apply K; tauto); try (intros; congruence); destruct num_f, num_p, vb_npts; try discriminate; try (intros; congruence); try (intros _ _ [x K]; discriminate); try (intros; reflexivity).
  all: intros _ K _; exfalso; apply K; split; congruence.
Qed.
