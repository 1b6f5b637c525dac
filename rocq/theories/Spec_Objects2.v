(** Specification vocabulary for the keyword arguments of the data objects. *)
From Coq Require Import List ZArith Bool Reals String.
From Verif Require Import Base Float NumPy Spec_CleanData Spec_RespFn Spec_IVData Spec_IFData Spec_IFShot Model_CleanData Model_IVData Model_IFData Spec_Case.
Import ListNotations.
Open Scope R_scope.
Local Notation length := List.length.

(** V, P: a file of voltages (in the unit fmt) and powers on a grid of npts voltages from 0 to
    vmax (in units of the gap voltage).  The voltages are multiplied by mult; the offset and
    the drop across the series resistance are taken off; the powers are joined by straight
    lines, 0 outside, and smoothed with a Gaussian of width sigma. *)
Definition loaded_powers (argsort : list fl -> list nat) (dc : dcivdata) (m : matrix) (fmt : string) (mult : R) (rseries : option R)
    (vmax : R) (npts : nat) (sigma : option R) (V P : list R) : Prop :=
  exists u x y x', volts fmt = Some u /\
    clean_xy argsort (map (fun r => fmul (nth 0 r FNaN) (FV u)) (rows m)) (map (fun r => nth 1 r FNaN) (rows m)) = Ok (map FV x, map FV y) /\ length x = length y /\ length x' = length x /\
    match rseries with
    | None => x' = map (fun a => a * mult - fst (dc_offset dc)) x
    | Some rs => length (dc_vraw dc) = length (dc_iraw dc) -> increasing (dc_vraw dc) ->
        exists r, length r = length (dc_vraw dc) /\ (forall k, (k < length (dc_vraw dc))%nat -> static_resistance (nth k (dc_vraw dc) 0) (nth k (dc_iraw dc) 0) (nth k r 0)) /\
          forall k, (k < length x)%nat -> junction_voltage (dc_vraw dc) (dc_iraw dc) r rs (nth k x 0 * mult - fst (dc_offset dc)) (nth k x' 0)
    end /\
    increasing x' /\ length V = npts /\ length P = npts /\
    (forall k, (k < npts)%nat -> nth k V 0 * dc_vgap dc = INR k * (vmax / INR (npts - 1))) /\
    exists P0, length P0 = npts /\ (forall k, (k < npts)%nat -> joined x' y 0 0 (nth k V 0 * dc_vgap dc) (nth k P0 0)) /\
      smoothed_powers (dc_vgap dc) V P0 sigma P.

(** The calibration with powers p at voltages v: the least-squares line through the samples in
    the ranges rises by 5.8 K per millivolt; the noise is its value where the normal-state
    line meets zero current. *)
Definition calibrated_with (P : list (R * R)) (dc : dcivdata) (v : list R) (c : dcifdata) : Prop :=
  let line := snd (if_shot c) in
  exists a b, P <> [] /\ best_line P a b /\ a <> 0 /\ if_corr c * a = 5800 * dc_vgap dc /\ if_shot c = (v, map (fun t => (a * t + b) * if_corr c) v) /\
    joined v line (nth 0 line 0) (nth (length v - 1) line 0) (dc_vint dc / dc_vgap dc) (if_noise c) /\
    (if_fit c = true <-> 0 < if_noise c < 50).
Definition calibrated_by (ranges : list (R * R)) (dc : dcivdata) (v p : list R) (c : dcifdata) : Prop := calibrated_with (fit_samples ranges (dc_vgap dc) v p) dc v c.
(** The same with the samples found if no ranges are given (C147). *)
Definition calibrated_alone (smooth : list R -> Z -> Z -> list R) (dc : dcivdata) (v p : list R) (c : dcifdata) : Prop :=
  exists d1 d2 P, derivatives smooth v p d1 d2 /\ found_samples v p d1 d2 P /\ calibrated_with P dc v c.

(** Noise temperature and gain for the powers h and c of loads that radiate like Th and Tc:
    the receiver adds T.  Ratios of the powers below 1 + 1e-10 count as that. *)
Definition hot_cold (Th Tc h c : R) (tn gain : fl) : Prop :=
  gain = FV ((h - c) / (Th - Tc)) /\
  (c <> 0 -> 1 + / 10 ^ 10 <= h / c -> exists T, tn = FV T /\ h * (Tc + T) = c * (Th + T)) /\
  (c <> 0 -> h / c < 1 + / 10 ^ 10 -> tn = FV ((Th - Tc) * 10 ^ 10 - Tc)) /\
  (c = 0 -> 0 <= h -> tn = FNaN).
(** The selected position. *)
Definition selected (vbest : option R) (best_pt : string) (vgap : R) (v : list R) (tn gain : list fl) (idx : nat) : Prop :=
  match vbest with
  | Some vb => smallest (map (fun a => Rabs (a * vgap - vb)) v) idx
  | None =>
      (same_letters best_pt "max gain" /\ exists g, gain = map FV g /\ largest g idx) \/
      (same_letters best_pt "min tn" /\ exists t, (idx < length tn)%nat /\ nth idx tn FNaN = FV t /\ forall u, In (FV u) tn -> t <= u)
  end.
