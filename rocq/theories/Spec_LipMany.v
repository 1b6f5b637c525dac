(** Vocabulary for circuits of several tones without harmonics. *)
From Coq Require Import List ZArith Reals.
From Coquelicot Require Import Complex.
From Verif Require Import Base Model_QtCurrent Spec_QtCurrent Spec_QtApi Spec_Power Model_HB Spec_HB.
Open Scope R_scope.

(** How far two sets of junction voltages are apart, each tone counted in its photon steps. *)
Definition photon_steps (q : qcct) (v w : arr3) (i : nat) : R :=
  rsum_to (q_num_f q) (fun f => Cmod (v (S f) 1%nat i - w (S f) 1%nat i)%C / q_freq q (S f)).
(** At the frequency of a tone there is at most one mixing product. *)
Definition separate (q : qcct) : Prop := forall f, (1 <= f <= q_num_f q)%nat -> exists a, alone q (q_freq q f) a.
