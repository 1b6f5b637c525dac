(** Vocabulary for the rounding error of the currents. *)
From Coq Require Import List ZArith Bool Reals.
From Coquelicot Require Import Complex.
From Verif Require Import Base Sums Model_QtCurrent Spec_QtCurrent Spec_QtApi.
Import ListNotations.
Local Notation length := List.length.
Open Scope R_scope.

(** The modulus, as a complex number. *)
Definition size (z : C) : C := RtoC (Cmod z).

(** The formula of the current with moduli in place of all numbers: the sums of
    Spec_QtCurrent.v without any cancellation. *)
Definition tones_size (J : nat -> R -> R) (vj : nat -> nat -> vec) (cct : qcct) (num_b : numb) (i : nat) : list tone :=
  let nbt := nbtuple num_b (q_num_f cct) in
  map (fun f => let b := nth (f - 1) nbt O in
         Tone b (phase_factor (list_max nbt) b
           (fun p n => size (jacobi_anger J (Cmod (vj f p i) / (INR p * q_freq cct f)) (angle (vj f p i)) n)) (q_num_p cct)))
      (seq 1 (q_num_f cct)).
Definition coeff_size (ts : list tone) (a : list Z) (rk : list Z -> C) : C :=
  if forallb (fun x => x =? 0)%Z a then rs_sum ts a rk else Cplus (rs_sum ts a rk) (rs_sum ts (map Z.opp a) rk).
Definition current_size (P : nat) (ts : list tone) (fs : list R) (vb : R) (resp : R -> C) (w : R) : R :=
  Re (csum (index_vectors P (length ts)) (fun a =>
    if same_freq (dot a fs) w then coeff_size ts a (fun ks => size (resp (vb + dot ks fs))) else 0c)).

(** How many roundings a number passes through at most, for n tones with P harmonics and the
    truncations bs, the largest of all given truncations being B: the convolution of the
    coefficients, the product of 2n coefficients and a response, the sum over the indices, the
    combination of two sums, and the sum over the products of the tones. *)
Definition roundings (n P B : nat) (bs : list nat) : nat :=
  (2 * n * ((P - 1) * (2 * B + 2)) + 2 * n + fold_right (fun b s => (2 * b + 1) * s) 1 bs + 1 + (2 * P + 1) ^ n)%nat.

(** Relative error of K successive roundings: 2^-53 for a sum and less than 3 * 2^-53 for a
    product of two complex numbers. *)
Definition error_factor (K : nat) : R := (1 + 3 / 2 ^ 53) ^ K - 1.

(** The largest error of the current at frequency w and bias point i. *)
Definition rounding_bound (J : nat -> R -> R) (vj : nat -> nat -> vec) (cct : qcct) (resp : R -> C) (num_b : numb) (w : R) (i : nat) : R :=
  error_factor (roundings (q_num_f cct) (q_num_p cct) (list_max (nbtuple num_b (q_num_f cct))) (truncations num_b (q_num_f cct))) *
  current_size (q_num_p cct) (tones_size J vj cct num_b i) (freqs cct) (q_vb cct i) resp w.
