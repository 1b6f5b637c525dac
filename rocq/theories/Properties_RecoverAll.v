(** Property C162: the recovery of the embedding circuit when a drive level is not finite. *)
From Coq Require Import List ZArith Reals Lra Lia Bool Arith.
From Coquelicot Require Import Coquelicot.
From Verif Require Import Base Float NumPy Bessel Model_QtCurrent Model_CleanData Model_Tucker Model_IVData Model_ExpData Model_RecoverAll Spec_ExpData Proof_Rise Proof_RecoverAll.
Import ListNotations.
Open Scope R_scope.
Local Notation length := List.length.

(** ** C162 *)
(** Where Model_ExpData.v defines a result, this model gives the same one. *)
Theorem C162_agrees : forall J idc ikk voltage current vph q r, length voltage = length current -> recover_zemb J idc ikk voltage current vph q = Ok r ->
  recover_all J idc ikk voltage current vph q =
  Ok {| all_zt := rec_zt r; all_vt := rec_vt r; all_fit := rec_fit r; all_zw := rec_zw r; all_alpha := FV (rec_alpha r); all_err := rec_err r |}.
Proof. exact all_agrees. Qed.
Print Assumptions C162_agrees.
(** The recovery returns whenever there is a sample on the step. *)
Theorem C162_returns : forall J idc ikk voltage current vph q lo hi, length voltage = length current -> range_used q lo hi -> step_samples vph lo hi voltage current <> [] ->
  exists r, recover_all J idc ikk voltage current vph q = Ok r.
Proof. exact all_runs. Qed.
Print Assumptions C162_returns.
(** The drive level of a sample (v, i): NaN or infinite exactly if pumping at alpha_max leaves
    the current where it is and the measured current is there, or above; otherwise it is a
    number that is not negative. *)
Theorem C162_levels : forall J idc vph amax nb B, 0 < amax -> exists l, find_levels J idc (map fst B) (map snd B) vph amax nb = Ok l /\ length l = length B /\
  forall k v i, nth_error B k = Some (v, i) -> exists x, nth_error l k = Some x /\
    let same := pumped_iv J idc vph amax nb v = idc v in
    (x = FNaN <-> same /\ i = idc v) /\ (x = FPInf <-> same /\ idc v < i) /\ x <> FNInf /\ (forall a, x = FV a -> 0 <= a).
Proof. exact (fun J idc => all_levels J idc idc). Qed.
Print Assumptions C162_levels.
(** A single sample on the step spoils the whole result if pumping at alpha_max does not change
    its current, or if pumping raises the current and the measured one is not above the unpumped
    curve: every error is NaN, the result is the first point of the grid (or the impedance that
    was given), and the source voltage is NaN. *)
Theorem C162_spoiled : forall J idc ikk voltage current vph q lo hi V I, J 0%nat 0 = 1 -> (forall n, (0 < n)%nat -> J n 0 = 0) -> length voltage = length current -> range_used q lo hi -> 0 < r_alpha_max q ->
  In (V, I) (step_samples vph lo hi voltage current) ->
  (let p := pumped_iv J idc vph (r_alpha_max q) (r_num_b q) V in p = idc V \/ (I <= idc V /\ idc V < p)) ->
  exists r, recover_all J idc ikk voltage current vph q = Ok r /\
    all_zt r = match r_zemb q with None => (fst (r_remb q), fst (r_xemb q)) | Some z => z end /\ all_vt r = FNaN /\ all_fit r = false /\
    all_err r = repeat (repeat FNaN 201) 101.
Proof. exact all_spoiled. Qed.
Print Assumptions C162_spoiled.
(** A junction with a current step: at the bias voltage 6/10 pumping raises the current, at
    4/10 it does not reach the step.  The drive level there is infinite. *)
Example C162_case : let idc := fun v : R => if Rle_dec v (3 / 2) then 0 else 1 in
  let q := {| r_fit_range := None; r_cut_low := None; r_cut_high := None; r_remb := (1, 2); r_xemb := (-1, 1); r_zemb := None; r_alpha_max := 3 / 2; r_num_b := 1 |} in
  let v := [4 / 10; 6 / 10] in let i := [1 / 10; 2 / 10] in
  besselJ 0 0 = 1 /\ (forall n, (0 < n)%nat -> besselJ n 0 = 0) /\ range_used q (1 / 4) (8 / 10) /\ step_samples 1 (1 / 4) (8 / 10) v i = [(4 / 10, 1 / 10); (6 / 10, 2 / 10)] /\
  pumped_iv besselJ idc 1 (3 / 2) 1 (4 / 10) = idc (4 / 10) /\ idc (6 / 10) < pumped_iv besselJ idc 1 (3 / 2) 1 (6 / 10) /\
  exists x a, find_levels besselJ idc v i 1 (3 / 2) 1 = Ok [x; FV a] /\ x = FPInf.
Proof. exact all_case. Qed.
