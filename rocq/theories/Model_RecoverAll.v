(** Model of the impedance recovery of qmix/exp/exp_data.py with drive levels that are not
    finite.

    Model_ExpData.v stops where the first guess of a drive level divides by zero.  Here the
    division gives NaN or an infinity, as in NumPy, and the recovery goes on. *)
From Coq Require Import List ZArith Bool Arith Reals.
From Coquelicot Require Import Complex.
From Verif Require Import Base Model_QtCurrent Float NumPy Model_CleanData Model_IVData Model_Tucker Model_ExpData.
Import ListNotations.
Local Notation length := List.length.

Section Response.
Variable J : nat -> R -> R.
Variables idc ikk : R -> R.

(** qmix/exp/exp_data.py:1914-1918 _find_alpha at one bias voltage: the first guess.  (A
    difference of equal numbers is +0.) *)
Definition first_level (vph alpha_max : R) (num_b : nat) (v i : R) : fl :=
  let idc_tmp := pumped_iv J idc vph alpha_max num_b v in
  let idciv := idc v in
  let alpha := fmul (fdiv (FV (i - idciv)) (FV (idc_tmp - idciv))) (FV alpha_max) in
  if flt alpha (FV 0) then FV 0 else alpha.
(** Lines 1922-1930: one refinement.  NaN stays NaN because comparisons with NaN are false and
    NaN plus a step is NaN; an infinite level stays infinite whatever the pumped current is,
    because the step is finite. *)
Definition refine_level (pumped : R -> R) (i : R) (s : fl * R) : fl * R :=
  match fst s with
  | FV a => let (a', step) := refine pumped i (a, snd s) in (FV a', step)
  | x => (x, (snd s / 2)%R)
  end.
(** qmix/exp/exp_data.py:1907-1932 _find_alpha *)
Definition find_levels (v i : list R) (vph alpha_max : R) (num_b : nat) : res (list fl) :=
  let* p := bcast (fun v i => (v, i)) v i in
  Ok (map (fun vi => fst (Nat.iter 15 (refine_level (fun a => pumped_iv J idc vph a num_b (fst vi)) (snd vi))
                            (first_level vph alpha_max num_b (fst vi) (snd vi), (alpha_max / 4)%R))) p).

(** The results of the recovery. *)
Record recovered_all := {
  all_zt : C; all_vt : fl; all_fit : bool; all_zw : option C; all_alpha : fl; all_err : list (list fl) }.

(** Lines 745-755 of qmix/exp/exp_data.py: the AC voltage and the AC impedance at one sample.
    If the drive level is not finite, neither is the impedance: the level is NaN, or it is
    infinite and the AC current is 0 or NaN.  The voltage then only enters sums that are NaN
    because of the impedance, and 0 stands for it. *)
Definition ac_voltage (vph : R) (alpha : fl) : C := match alpha with FV a => RtoC (a * vph) | _ => RtoC 0 end.
Definition ac_impedance (vph : R) (num_b : nat) (alpha : fl) (v : R) : option C :=
  match alpha with FV a => cdiv (RtoC (a * vph)) (ac_current J idc ikk vph a num_b v) | _ => None end.

(** qmix/exp/exp_data.py:680-800 PumpedData._recover_zemb; vph is the photon voltage. *)
Definition recover_all (voltage current : list R) (vph : R) (q : recparams) : res recovered_all :=
  let* (fit_low, fit_high) := fit_limits q in
  let* (v, i) := on_step voltage current vph fit_low fit_high in
  let* idx_middle := fargmin (map (fun a => FV (Rabs (a - (1 - vph / 2)))) v) in
  let* alpha := find_levels v i vph (r_alpha_max q) (r_num_b q) in
  let* impedances := bcast (ac_impedance vph (r_num_b q)) alpha v in
  let* zw := pyget impedances (Z.of_nat idx_middle) in
  let* g := grid_search (map (ac_voltage vph) alpha) impedances q in
  let '(err_surf, zt_best, vt_best, good_fit) := g in
  let* a := pyget alpha (Z.of_nat idx_middle) in
  Ok {| all_zt := zt_best; all_vt := vt_best; all_fit := good_fit; all_zw := zw; all_alpha := a; all_err := err_surf |}.
End Response.
