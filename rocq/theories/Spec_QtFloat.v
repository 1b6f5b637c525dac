(** Vocabulary for the floating-point decisions of the tunnelling-current module. *)
From Coq Require Import List ZArith Reals.
From Coquelicot Require Import Complex.
From Verif Require Import Base Sums Model_QtCurrent Spec_QtCurrent Spec_QtApi Model_QtFloat.
Import ListNotations.
Open Scope R_scope.

(** x is at least 1e-7 away from every midpoint between two consecutive multiples of 1e-4. *)
Definition clear (x : R) : Prop := exists n : Z, Rabs (x - IZR n / 10000) <= 499 / 10000000.
(** The same request without the kind of float. *)
Definition exact_request (fl : freq_arg_f) : freq_arg := match fl with SList l => FList (map value l) | SScalar x => FScalar x end.
Definition requested (fl : freq_arg_f) : list R := flist (exact_request fl).
(** Sizes for which binary64 is precise enough: fewer than 2^50 harmonics and Bessel functions,
    frequencies times harmonics at most 100000 and requests at most 1000000 gap frequencies. *)
Definition moderate (cct : qcct) (num_b : numb) (fl : freq_arg_f) : Prop :=
  (Z.of_nat (q_num_p cct) < 2 ^ 50)%Z /\ (Z.of_nat (list_max (nbtuple num_b (q_num_f cct))) < 2 ^ 50)%Z /\
  (forall f, (1 <= f <= q_num_f cct)%nat -> INR (q_num_p cct) * Rabs (q_freq cct f) <= 100000) /\
  (forall w, In w (requested fl) -> Rabs w <= 1000000).
