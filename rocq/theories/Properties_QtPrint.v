(** Property C160: what qtcurrent prints.  The vocabulary is in Spec_QtPrint.v.  [qtcurrent_p]
    gives the messages and the result; the duration that is measured is the parameter t. *)
From Coq Require Import List ZArith Lia Bool Arith Reals Lra String.
From Coquelicot Require Import Complex.
From Verif Require Import Base Bessel Spec_QtCurrent Spec_QtApi Model_Misc Model_Print Model_Said Model_QtCurrent Model_QtPrint Spec_QtPrint Proof_QtCurrent2 Proof_QtApi Proof_QtPrint.
Import ListNotations.
Local Notation length := List.length.
Open Scope list_scope.

(** ** C160 *)
(** Printing changes no result, and nor does verbose. *)
Theorem C160_same_result : forall J t vj cct resp freqs num_b verbose rm,
  snd (qtcurrent_p J t vj cct resp freqs num_b verbose rm) = qtcurrent J vj cct resp freqs num_b rm.
Proof. exact qt_same. Qed.
Print Assumptions C160_same_result.
(** What is printed: nothing without verbose, but for one message. *)
Theorem C160_messages : forall J t vj cct resp freqs num_b verbose rm, let call := qtcurrent_p J t vj cct resp freqs num_b verbose rm in
  (exists y, snd call = Ok y /\ fst call = opening verbose cct ++ if verbose then [Finished; Elapsed t] else []) \/
  (exists e, snd call = Err e /\ (fst call = [] \/ fst call = opening verbose cct \/ (fst call = opening verbose cct ++ [BadTones] /\ e = ValueError /\ rm = None /\ (q_num_f cct = 0 \/ 5 <= q_num_f cct)%nat))).
Proof. exact qt_said. Qed.
Print Assumptions C160_messages.
(** Frequencies that are not positive and too few summation limits are noticed before anything
    is printed. *)
Theorem C160_early : forall J t vj cct resp freqs num_b verbose rm,
  (exists f, (1 <= f <= q_num_f cct)%nat /\ (q_freq cct f <= 0)%R) \/ (length (nbtuple num_b (q_num_f cct)) < q_num_f cct)%nat ->
  qtcurrent_p J t vj cct resp freqs num_b verbose rm = ([], Err AssertionError).
Proof. exact qt_early. Qed.
Print Assumptions C160_early.
(** More than four tones: the message is printed whatever verbose is. *)
Theorem C160_many_tones : forall J t vj cct resp freqs num_b verbose, (forall f, (1 <= f <= q_num_f cct)%nat -> (0 < q_freq cct f)%R) ->
  (q_num_f cct <= length (nbtuple num_b (q_num_f cct)))%nat -> (5 <= q_num_f cct)%nat -> (1 <= q_num_p cct)%nat ->
  qtcurrent_p J t vj cct resp freqs num_b verbose None = (opening verbose cct ++ [BadTones], Err ValueError).
Proof. exact qt_many. Qed.
Print Assumptions C160_many_tones.
(** The text of each message says what the message means. *)
Theorem C160_text : forall m, qsays m (qtext m).
Proof. exact qtext_says. Qed.
Print Assumptions C160_text.

(** Calls that return and print, that stop early, and with five tones. *)
Definition qp_cct (n : nat) (f : R) : qcct := {| q_num_f := n; q_num_p := 1; q_npts := 3; q_freq := fun _ => f; q_vb := INR |}.
Example C160_case : forall J t vj resp,
  (exists y, qtcurrent_p J t vj (qp_cct 2 (3 / 10)) resp (FScalar 0) (NbInt 3) true None = ([Calculating; Tones 2; Harmonics 1; Finished; Elapsed t], Ok y)) /\
  qtcurrent_p J t vj (qp_cct 2 0) resp (FScalar 0) (NbInt 3) true None = ([], Err AssertionError) /\
  qtcurrent_p J t vj (qp_cct 5 (3 / 10)) resp (FScalar 0) (NbInt 3) false None = ([BadTones], Err ValueError).
Proof.
  intros J t vj resp. split; [|split].
  - assert (A : args_ok (qp_cct 2 (3 / 10)) (NbInt 3)). { unfold args_ok. cbn [qp_cct q_num_f q_num_p q_freq]. repeat split; try lia. intros f _. lra. }
    assert (E := C160_same_result J t vj (qp_cct 2 (3 / 10)) resp (FScalar 0) (NbInt 3) true None). rewrite (qtcurrent_spec J vj (qp_cct 2 (3 / 10)) resp (FScalar 0) (NbInt 3) None A) in E by auto.
    destruct (C160_messages J t vj (qp_cct 2 (3 / 10)) resp (FScalar 0) (NbInt 3) true None) as [(y & S1 & S2)|(e & S1 & _)].
    + exists y. rewrite (surjective_pairing (qtcurrent_p J t vj (qp_cct 2 (3 / 10)) resp (FScalar 0) (NbInt 3) true None)), S1, S2. reflexivity.
    + rewrite S1 in E. destruct (Reqb _ _) in E; discriminate E.
  - apply C160_early. left. exists 1%nat. cbn [qp_cct q_num_f q_freq]. split; [lia|lra].
  - rewrite C160_many_tones; [reflexivity| | | |]; cbn [qp_cct q_num_f q_freq q_num_p nbtuple]; [intros; lra|rewrite repeat_length; lia|lia|lia].
Qed.
