(** C91: what smearing adds to the ideal curve. *)
From Coq Require Import List ZArith Bool Lia Reals Lra.
From Verif Require Import Base Float NumPy Model_MathFn Spec_RespFn Spec_Perfect Model_IVModels Model_RespFn Proof_Perfect Properties_RespFn.
Import ListNotations.
Open Scope R_scope.
Local Notation length := List.length.

(** C91 — with smearing, RespFnPerfect is the smeared ideal curve plus a spike of height 1 at the gap, smeared twice: once
    before the reflection about 0 and once after it.  200 s is the width of the smearing in steps of the grid. *)
Theorem C91_excess_partial : forall spline dspline p s, v_smear p = Some s -> 1 / 600 <= s <= 1 / 4 -> (1 <= kk_n p)%Z -> (1 <= spline_order p <= 5)%Z -> check_error p = false ->
  exists r0 r g gg, respfn_init spline dspline VINIT (map ideal_current VINIT) p = Ok r0 /\ respfn_perfect spline dspline p = Ok r /\
    gauss_conv (pulse 1 VINIT) (200 * s) 3 = Ok g /\ gauss_conv (reflect g) (200 * s) 3 = Ok gg /\
    rf_voltage r = rf_voltage r0 /\ length (rf_current r) = length (rf_current r0) /\ forall k, (k < length (rf_current r0))%nat -> nth k (rf_current r) 0 = nth k (rf_current r0) 0 + nth k gg 0.
Proof. exact perfect_pulse. Qed.
Print Assumptions C91_excess_partial.
Example C91_excess_case : exists p, v_smear p = Some (1 / 10) /\ 1 / 600 <= 1 / 10 <= 1 / 4 /\ (1 <= kk_n p)%Z /\ (1 <= spline_order p <= 5)%Z /\ check_error p = false.
Proof. exists {| v_smear := Some (1 / 10); kk_n := kk_n usual; spline_order := spline_order usual; check_error := false; max_npts_dc := max_npts_dc usual; max_npts_kk := max_npts_kk usual; max_interp_error := max_interp_error usual |}. cbn. repeat split; try lra; lia. Qed.
