(** Vocabulary for how results change along the bias sweep. *)
From Coq Require Import List ZArith Reals.
From Coquelicot Require Import Complex.
From Verif Require Import Base Model_QtCurrent Spec_QtCurrent Spec_QtApi Model_HB Spec_HB Spec_HBConv.
Open Scope R_scope.

(** How far the junction voltages at two bias points are apart... *)
Definition apart (q : qcct) (v : arr3) (i j : nat) : R := total q (fun f p => Cmod (v f p i - v f p j)%C).
(** ...and the same with each tone counted in its photon steps, without harmonics. *)
Definition steps_apart (q : qcct) (v : arr3) (i j : nat) : R := rsum_to (q_num_f q) (fun f => Cmod (v (S f) 1%nat i - v (S f) 1%nat j)%C / q_freq q (S f)).
(** A response function that rises by at most [L] per unit of voltage. *)
Definition slope_at_most (resp : R -> C) (L : R) : Prop := forall x y, Cmod (resp x - resp y)%C <= L * Rabs (x - y).
