(** Vocabulary for the physical properties of the tunnelling currents. *)
From Coq Require Import List ZArith Reals.
From Coquelicot Require Import Complex.
From Verif Require Import Base Sums Round Bessel Model_QtCurrent Spec_QtCurrent Spec_QtApi.
Import ListNotations.
Open Scope R_scope.

(** The sum of f n for n from -b to b. *)
Definition zsum (b : nat) (f : Z -> R) : R := fold_right Rplus 0 (map f (sym b)).
(** The probability that at most b photons are absorbed or emitted at drive level x. *)
Definition captured (b : nat) (x : R) : R := zsum b (fun n => besselZ besselJ n x ^ 2).
(** The same for several tones with truncations bs and drive levels xs. *)
Definition captured_all (bs : list nat) (xs : list R) : R := fold_right Rmult 1 (map (fun p => captured (fst p) (snd p)) (List.combine bs xs)).
(** The drive levels of the tones at bias point i, without harmonics. *)
Definition levels (vj : nat -> nat -> vec) (cct : qcct) (i : nat) : list R := map (fun f => Cmod (vj f 1%nat i) / q_freq cct f) (seq 1 (q_num_f cct)).
(** The truncations that are used. *)
Definition truncations (num_b : numb) (num_f : nat) : list nat := firstn num_f (nbtuple num_b num_f).
(** a is the only mixing product whose frequency rounds like w. *)
Definition alone (cct : qcct) (w : R) (a : list Z) : Prop :=
  forall a', In a' (index_vectors (q_num_p cct) (q_num_f cct)) -> round4 (dot a' (freqs cct)) = round4 w -> a' = a.
(** The voltages the response function is read at: the bias shifted by photons. *)
Definition shifted (vb : R) (bs : list nat) (fs : list R) (v : R) : Prop := exists ks, in_box bs ks /\ v = vb + dot ks fs.
(** A sequence indexed by the truncation comes closer than any distance to x. *)
Definition approaches (u : nat -> R) (x : R) : Prop := forall eps, 0 < eps -> exists N, forall b, (N <= b)%nat -> Rabs (u b - x) < eps.
