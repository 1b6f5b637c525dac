(** Vocabulary for comparing tunnelling currents. *)
From Coq Require Import List ZArith Reals.
From Coquelicot Require Import Complex.
From Verif Require Import Base Sums Round Model_QtCurrent Spec_QtCurrent Spec_QtApi.
Import ListNotations.
Open Scope R_scope.

(** The same junction voltages at the bias points i and j. *)
Definition same_drive (vj : nat -> nat -> vec) (cct : qcct) (i j : nat) : Prop :=
  forall f p, (1 <= f <= q_num_f cct)%nat -> (1 <= p <= q_num_p cct)%nat -> vj f p i = vj f p j.
(** The largest voltage that the photons add: the sum of truncation times photon voltage. *)
Definition reach (bs : list nat) (fs : list R) : R := fold_right Rplus 0 (map (fun p => INR (fst p) * Rabs (snd p)) (List.combine bs fs)).
