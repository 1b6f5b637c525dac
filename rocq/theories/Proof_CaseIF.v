(** The same for the selector of the best bias point. *)
From Coq Require Import List ZArith Bool Ascii String Lia.
From Verif Require Import Spec_Case Proof_Case.
From Verif Require Model_IFData.
Import ListNotations.

Lemma if_letter : forall a b, same_letter a b <-> Model_IFData.lower_char a = Model_IFData.lower_char b.
Proof. apply letters_by. vm_compute. reflexivity. Qed.

Lemma if_case s t : same_letters s t <-> Model_IFData.lower s = Model_IFData.lower t.
Proof.
  split.
  - induction 1 as [|a b s t H _ IH]; [reflexivity|]. cbn [Model_IFData.lower]. apply if_letter in H. now rewrite H, IH.
  - revert t. induction s as [|a s IH]; intros [|b t] H; try discriminate; [constructor|]. cbn [Model_IFData.lower] in H. injection H as H1 H2.
    constructor; [now apply if_letter|now apply IH].
Qed.

Lemma same_dec s t : {same_letters s t} + {~ same_letters s t}.
Proof. destruct (string_dec (Model_IFData.lower s) (Model_IFData.lower t)) as [H|H]; [left|right]; now rewrite if_case. Qed.
