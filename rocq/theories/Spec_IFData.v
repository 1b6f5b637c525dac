(** Specification vocabulary for IF power measurements. *)
From Coq Require Import List ZArith Bool Reals String.
From Verif Require Import Base Float NumPy Proof_NumPy Spec_CleanData Spec_MathFn Spec_IVData.
From Verif Require Model_IFData.
Import ListNotations.
Open Scope R_scope.

(** Boltzmann constant. *)
Definition boltzmann : R := 1380649 / 10 ^ 29.
(** Radiation temperature of a black body at temperature T at frequency f: the Planck
    distribution with half a photon (Callen-Welton). *)
Definition callen_welton (f T : R) : R :=
  let a := planck * f / boltzmann in a * (1 / (exp (a / T) - 1) + 1 / 2).

(** k is a position with the smallest (largest) value. *)
Definition smallest (l : list R) (k : nat) : Prop := (k < List.length l)%nat /\ forall j, (j < List.length l)%nat -> nth k l 0 <= nth j l 0.
Definition largest (l : list R) (k : nat) : Prop := (k < List.length l)%nat /\ forall j, (j < List.length l)%nat -> nth j l 0 <= nth k l 0.

(** A file with voltages in column 0 and powers in column 1: the powers multiplied by c. *)
Definition times (c : R) (rows : list (list fl)) : list (list fl) := map (fun r => [nth 0 r FNaN; fmul (nth 1 r FNaN) (FV c)]) rows.

(** The ranges given as one pair or as a list of pairs. *)
Definition ranges_of (s : Model_IFData.shot_ranges) : list (R * R) := match s with Model_IFData.One lo hi => [(lo, hi)] | Model_IFData.Several l => l end.
(** The samples whose voltage (x times vgap) lies in one of the ranges. *)
Definition in_ranges (ranges : list (R * R)) (u : R) : bool :=
  existsb (fun r => if Rlt_dec (fst r) u then if Rlt_dec u (snd r) then true else false else false) ranges.
Definition shot_samples (ranges : list (R * R)) (vgap : R) (x y : list R) : list (R * R) :=
  filter (fun p => in_ranges ranges (fst p * vgap)) (List.combine x y).
(** The samples that the shot-noise line is fitted to: those in the ranges, or those above
    2 vgap if there are fewer than five. *)
Definition fit_samples (ranges : list (R * R)) (vgap : R) (x y : list R) : list (R * R) :=
  let P := shot_samples ranges vgap x y in
  if (List.length P <? 5)%nat then filter (fun p => if Rlt_dec 2 (fst p) then true else false) (List.combine x y) else P.

(** A hot/cold spectrum as an array with one row per frequency, or with one row per
    quantity. *)
Definition by_frequency (f h c : list fl) : list (list fl) := map (fun k => [nth k f FNaN; nth k h FNaN; nth k c FNaN]) (seq 0 (List.length f)).
Definition by_quantity (f h c : list fl) : list (list fl) := [f; h; c].
(** The linear power of a power in dB. *)
Definition linear (db : R) : R := Rpower 10 (db / 10).

(** The static resistance of a sample of the DC I-V curve, at least 0.  (No current at a
    positive voltage: there is none.) *)
Definition static_resistance (v i r : R) : Prop := (i <> 0 /\ r = Rmax 0 (v / i)) \/ (i = 0 /\ v < 0 /\ r = 0).
(** The voltage c across the junction when t is measured through the series resistance rs:
    the current at t times the static resistance at t without rs.  Both are read from the DC
    curve v, i (r: the static resistances of its samples). *)
Definition junction_voltage (v i r : list R) (rs t c : R) : Prop :=
  let at_ y a := joined v y (nth 0 y 0) (nth (List.length v - 1) y 0) t a in
  exists cur res, at_ i cur /\ at_ r res /\ c = cur * (res - rs).

(** y: the values x averaged with the weights of a bell curve of w samples that is cut off at
    three times its width; the values are mirrored at the ends. *)
Definition bell_average (w : R) (x y : list R) : Prop :=
  exists m, window_points (w * 3) m /\ (m <= List.length x)%nat /\ List.length y = List.length x /\
  forall k, (k < List.length x)%nat ->
    nth k y 0 * nsum m (fun j => bell w (INR j - w * 3)) =
    nsum m (fun j => bell w (INR j - w * 3) * nth (mirror (List.length x) (Z.of_nat k + Z.of_nat (m / 2) - Z.of_nat j)) x 0).
(** P: the powers P0 at the voltages V (in units of the gap voltage), smoothed with a width that
    is a number of samples if it exceeds 0.5, otherwise volts. *)
Definition smoothed_powers (vgap : R) (V P0 : list R) (width : option R) (P : list R) : Prop :=
  match width with
  | None => P = P0
  | Some s => exists w, bell_average w P0 P /\ (1 / 2 < s -> w = s) /\ (s <= 1 / 2 -> w * (nth 1 V 0 * vgap - nth 0 V 0 * vgap) = s)
  end.
