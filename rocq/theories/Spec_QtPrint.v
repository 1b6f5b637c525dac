(** What the messages of qtcurrent mean. *)
From Coq Require Import List Reals String.
From Verif Require Import Model_QtCurrent Model_QtPrint Spec_Misc Spec_Print Spec_HBText.
Import ListNotations.
Open Scope string_scope.

Definition qsays (m : qmsg) (s : string) : Prop :=
  match m with
  | Calculating => s = line "Calculating tunneling current..."
  | Tones n => exists a, s = line (" - " ++ a ++ " tone(s)") /\ natural a n
  | Harmonics n => exists a, s = line (" - " ++ a ++ " harmonic(s)") /\ natural a n
  | BadTones => s = line "num_f must be 1, 2, 3 or 4!"
  | Finished => s = line "Done."
  | Elapsed t => exists a, s = (line ("Time: " ++ a ++ " s") ++ line "")%string /\ near 4 a t
  end.
(** What is printed before the calculation. *)
Definition opening (verbose : bool) (cct : qcct) : list qmsg :=
  if verbose then [Calculating; Tones (q_num_f cct); Harmonics (q_num_p cct)] else [].
