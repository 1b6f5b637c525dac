(** Vocabulary for measurements made with a known circuit. *)
From Coq Require Import List ZArith Reals.
From Coquelicot Require Import Complex.
From Verif Require Import Bessel Model_ExpData Spec_QtCurrent Spec_Power Spec_ExpData.
Open Scope R_scope.

(** The currents of a junction biased at v and driven at the photon energy vph to level a, with
    the photon numbers -num_b .. num_b: the direct current, and the current at the drive
    frequency. *)
Definition dc_current (idc : R -> R) (vph : R) (num_b : nat) (v a : R) : R :=
  zsum num_b (fun n => besselZ besselJ n a ^ 2 * idc (v + IZR n * vph)).
Definition rf_current (idc ikk : R -> R) (vph : R) (num_b : nat) (v a : R) : C :=
  (zsum num_b (fun n => besselZ besselJ n a * (besselZ besselJ (n - 1) a + besselZ besselJ (n + 1) a) * idc (v + IZR n * vph)),
   zsum num_b (fun n => besselZ besselJ n a * (besselZ besselJ (n - 1) a - besselZ besselJ (n + 1) a) * ikk (v + IZR n * vph))).
(** The voltage across the junction and its impedance. *)
Definition rf_sample (idc ikk : R -> R) (vph : R) (num_b : nat) (v a : R) : C * C :=
  (RtoC (a * vph), Cdiv (RtoC (a * vph)) (rf_current idc ikk vph num_b v a)).
(** A source of amplitude Vs behind the impedance zs drives the junction, biased at v, to
    drive level a: the source voltage is the voltage across the junction plus the voltage
    that the current of the junction drops across zs. *)
Definition driven_to (idc ikk : R -> R) (vph : R) (num_b : nat) (zs : C) (Vs v a : R) : Prop :=
  Cmod (Cplus (RtoC (a * vph)) (Cmult zs (rf_current idc ikk vph num_b v a))) = Vs.
(** The search for the drive level can find a: the current i at v is that of drive level a,
    it rises with the drive level, and the linear first guess is not too far off. *)
Definition findable (idc : R -> R) (vph : R) (num_b : nat) (amax v i a : R) : Prop :=
  dc_current idc vph num_b v a = i /\
  increasing_on (dc_current idc vph num_b v) 0 (a + amax / 2) /\
  Rabs (Rmax 0 ((i - idc v) / (dc_current idc vph num_b v amax - idc v) * amax) - a) <= amax / 2.
(** The currents at the photon steps of v are at most M. *)
Definition bounded_steps (idc ikk : R -> R) (vph : R) (num_b : nat) (M v : R) : Prop :=
  forall n, (Z.abs n <= Z.of_nat num_b)%Z -> Rabs (idc (v + IZR n * vph)) <= M /\ Rabs (ikk (v + IZR n * vph)) <= M.
(** The current i at v has been measured with the circuit zs, Vs at the drive level a. *)
Definition measured_at (idc ikk : R -> R) (vph : R) (q : recparams) (zs : C) (Vs v i a : R) : Prop :=
  findable idc vph (r_num_b q) (r_alpha_max q) v i a /\ driven_to idc ikk vph (r_num_b q) zs Vs v a.
(** The samples used for the recovery have been measured with the circuit zs, Vs, on a
    junction whose current is at most M, at drive levels between the resolution D of the
    search and T - D. *)
Definition measured_with (idc ikk : R -> R) (vph : R) (q : recparams) (B : list (R * R)) (zs : C) (Vs M T D : R) : Prop :=
  forall v i, In (v, i) B -> idc (v - vph) < idc (v + vph) /\ bounded_steps idc ikk vph (r_num_b q) M v /\
    exists a, D < a <= T - D /\ measured_at idc ikk vph q zs Vs v i a.
