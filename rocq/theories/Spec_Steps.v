(** Vocabulary for the photon steps of a pumped ideal junction. *)
From Coq Require Import List ZArith Reals.
From Verif Require Import Base.
Open Scope R_scope.

(** The steps of the ideal curve that lie below the voltage v, those below 0 counted as
    negative: a step of height 1 at v = 1 and at v = -1, half of it at the step itself. *)
Definition steps_passed (v k : R) : Prop :=
  (Rabs v < 1 -> k = 0) /\ (v = 1 -> k = 1 / 2) /\ (v = - (1) -> k = - (1 / 2)) /\ (1 < v -> k = 1) /\ (v < - (1) -> k = - (1)).
