(** str.lower() makes names equal exactly if they differ at most in case. *)
From Coq Require Import List ZArith Bool Ascii String Lia.
From Verif Require Import Spec_Case.
From Verif Require Model_Circuit.
Import ListNotations.

Definition all_chars : list ascii := List.map ascii_of_nat (seq 0 256).
Lemma all_chars_in a : In a all_chars.
Proof.
  unfold all_chars. apply in_map_iff. exists (nat_of_ascii a). split; [apply ascii_nat_embedding|]. apply in_seq. pose proof (nat_ascii_bounded a). lia.
Qed.

Definition pair_eqb (p q : ascii * ascii) : bool := Ascii.eqb (fst p) (fst q) && Ascii.eqb (snd p) (snd q).
Definition same_letterb (a b : ascii) : bool :=
  Ascii.eqb a b || existsb (pair_eqb (a, b)) (List.combine capitals smalls) || existsb (pair_eqb (b, a)) (List.combine capitals smalls).

Lemma existsb_in p l : existsb (pair_eqb p) l = true <-> In p l.
Proof.
  rewrite existsb_exists. split.
  - intros [q [H E]]. unfold pair_eqb in E. apply andb_true_iff in E as [E1 E2]. apply Ascii.eqb_eq in E1, E2. destruct p, q; cbn in *; subst; exact H.
  - intros H. exists p. split; [exact H|]. unfold pair_eqb. now rewrite !Ascii.eqb_refl.
Qed.

Lemma same_letterb_iff a b : same_letterb a b = true <-> same_letter a b.
Proof.
  unfold same_letterb, same_letter. rewrite !orb_true_iff, !existsb_in, Ascii.eqb_eq. tauto.
Qed.

Definition agrees (low : ascii -> ascii) : bool :=
  forallb (fun a => forallb (fun b => Bool.eqb (same_letterb a b) (Ascii.eqb (low a) (low b))) all_chars) all_chars.

Lemma letters_by low : agrees low = true -> forall a b, same_letter a b <-> low a = low b.
Proof.
  intros H a b. unfold agrees in H. rewrite forallb_forall in H. specialize (H a (all_chars_in a)). rewrite forallb_forall in H.
  specialize (H b (all_chars_in b)). apply eqb_prop in H. rewrite <- same_letterb_iff, H. apply Ascii.eqb_eq.
Qed.

Lemma circuit_letter : forall a b, same_letter a b <-> Model_Circuit.lower_ascii a = Model_Circuit.lower_ascii b.
Proof. apply letters_by. vm_compute. reflexivity. Qed.

Lemma circuit_case s t : same_letters s t <-> Model_Circuit.lower s = Model_Circuit.lower t.
Proof.
  split.
  - induction 1 as [|a b s t H _ IH]; [reflexivity|]. cbn [Model_Circuit.lower]. apply circuit_letter in H. now rewrite H, IH.
  - revert t. induction s as [|a s IH]; intros [|b t] H; try discriminate; [constructor|]. cbn [Model_Circuit.lower] in H. injection H as H1 H2.
    constructor; [now apply circuit_letter|now apply IH].
Qed.
