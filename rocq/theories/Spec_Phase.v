(** Vocabulary for the meaning of the phase-factor coefficients. *)
From Coq Require Import List ZArith Reals.
From Coquelicot Require Import Complex.
From Verif Require Import Base Sums Round Bessel Model_QtCurrent Spec_QtCurrent Spec_QtApi.
Import ListNotations.
Open Scope R_scope.

(** The voltage of tone f at bias point i as a function of (normalised) time: the
    sum over the harmonics of |V_p| cos(p w t - arg V_p). *)
Definition waveform (vj : nat -> nat -> vec) (freq : nat -> R) (num_p f i : nat) (t : R) : R :=
  fold_right Rplus 0 (map (fun p => Cmod (vj f p i) * cos (INR p * (freq f * t) - angle (vj f p i))) (seq 1 num_p)).
(** The phase that this voltage builds up. *)
Definition junction_phase (vj : nat -> nat -> vec) (freq : nat -> R) (num_p f i : nat) (t : R) : R :=
  fold_right Rplus 0 (map (fun p => Cmod (vj f p i) / (INR p * freq f) * sin (INR p * (freq f * t) - angle (vj f p i))) (seq 1 num_p)).
(** The coefficient number k of tone f at bias point i. *)
Definition coefficient (ccc : carr) (f : nat) (k : Z) (i : nat) : C :=
  match cc_get ccc (Z.of_nat f) k with Ok v => v i | _ => RtoC 0 end.
(** The harmonic series with the coefficients of tone f up to order b. *)
Definition series (ccc : carr) (f b i : nat) (x : R) : C := csum (sym b) (fun k => Cmult (coefficient ccc f k i) (cis (IZR k * x))).
(** The index vector of harmonic p of tone f alone. *)
Definition single (num_f f p : nat) : list Z := map (fun f' => if Nat.eqb f' f then Z.of_nat p else 0%Z) (seq 1 num_f).
(** An index vector that mixes at least two tones. *)
Definition mixed (a : list Z) : Prop := exists j j', j <> j' /\ nth j a 0%Z <> 0%Z /\ nth j' a 0%Z <> 0%Z.
(** The mean of a function of the photon numbers of independent tones, each with the
    largest number that is counted and the probability of each number. *)
Fixpoint mean (d : list (nat * (Z -> R))) (h : list Z -> R) : R :=
  match d with
  | [] => h []
  | (b, p) :: d' => fold_right Rplus 0 (map (fun k => p k * mean d' (fun ks => h (k :: ks))) (sym b))
  end.
(** The probabilities of the photon numbers at bias point i. *)
Definition photons (ccc : carr) (num_b : numb) (num_f i : nat) : list (nat * (Z -> R)) :=
  map (fun f => (nth (f - 1) (nbtuple num_b num_f) O, fun k => Cmod (coefficient ccc f k i) ^ 2)) (seq 1 num_f).
(** The power that the bias and all harmonics of all tones deliver. *)
Definition delivered (vj : nat -> nat -> vec) (cct : qcct) (dc : list R) (ac : nat -> nat -> list C) (i : nat) : R :=
  q_vb cct i * nth i dc 0 +
  fold_right Rplus 0 (map (fun f => fold_right Rplus 0 (map (fun p => / 2 * Re (Cmult (Cconj (vj f p i)) (nth i (ac f p) (RtoC 0)))) (seq 1 (q_num_p cct)))) (seq 1 (q_num_f cct))).
