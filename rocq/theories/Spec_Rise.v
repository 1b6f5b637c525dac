(** Vocabulary for junctions whose response is dominated by the first photon step. *)
From Coq Require Import List ZArith Reals.
From Coquelicot Require Import Complex.
From Verif Require Import Bessel Spec_Known.
Open Scope R_scope.

(** The sum of the currents n photon steps above and below the bias v, and how much it grows
    from n to n + 1 steps. *)
Definition pair (idc : R -> R) (vph v : R) (n : nat) : R := idc (v + INR n * vph) + idc (v - INR n * vph).
Definition gain (idc : R -> R) (vph v : R) (n : nat) : R := pair idc vph v (S n) - pair idc vph v n.
(** How much n photons can matter at drive levels up to 9/4. *)
Definition weight (n : nat) : R := (81 / 64) ^ n / (INR (fact n) * INR (fact (S n))).
Definition sum_to (b : nat) (f : nat -> R) : R := fold_right Rplus 0 (map f (seq 1 (b - 1))).
(** One photon step raises the current, further steps raise it by no more than twice as much
    in all, and the weights of the steps that lower it and of the photon numbers beyond b are small. *)
Definition first_step (idc : R -> R) (vph : R) (b : nat) (v : R) : Prop :=
  0 < gain idc vph v 0 /\
  sum_to b (fun n => Rmax 0 (gain idc vph v n)) <= 2 * gain idc vph v 0 /\
  sum_to b (fun n => weight n * Rmax 0 (- gain idc vph v n)) + weight b * Rabs (pair idc vph v b) <= gain idc vph v 0 / 50.
(** The samples B have been measured on a junction with these currents, at most M, behind the
    circuit zs, Vs, at drive levels between D and A - D, where the first photon step dominates. *)
Definition pumped_with (idc ikk : R -> R) (vph : R) (b : nat) (B : list (R * R)) (zs : C) (Vs M A D : R) : Prop :=
  forall v i, In (v, i) B -> first_step idc vph b v /\ bounded_steps idc ikk vph b M v /\
    exists a, D < a <= A - D /\ dc_current idc vph b v a = i /\ driven_to idc ikk vph b zs Vs v a.
