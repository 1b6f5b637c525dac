(** Vocabulary for truncations of circuits of several tones without harmonics. *)
From Coq Require Import List ZArith Reals.
From Coquelicot Require Import Complex.
From Verif Require Import Base Model_QtCurrent Spec_QtCurrent Spec_QtApi Spec_Power Model_HB Spec_HB.
Open Scope R_scope.

(** The photons of tone f + 1 that are summed over, either way. *)
Definition photons (num_b : numb) (num_f f : nat) : nat := nth f (nbtuple num_b num_f) O.
(** One truncation leaves out what another leaves out. *)
Definition no_larger (q : qcct) (num_b num_b' : numb) : Prop := forall f, (f < q_num_f q)%nat -> (photons num_b (q_num_f q) f <= photons num_b' (q_num_f q) f)%nat.
(** What a truncation leaves out: the root of the probability of absorbing or emitting more
    photons, summed over the tones. *)
Definition missed (q : qcct) (num_b : numb) (v : arr3) (i : nat) : R :=
  rsum_to (q_num_f q) (fun f => sqrt (1 - captured (photons num_b (q_num_f q) f) (Cmod (v (S f) 1%nat i) / q_freq q (S f)))).
(** The impedances of all tones together. *)
Definition impedances (c : hcct) : R := rsum_to (q_num_f (h_q c)) (fun f => Cmod (h_zt c (S f) 1%nat)).
