(** C44 and C90, for splines that go through their nodes and for their derivatives. *)
From Coq Require Import List ZArith Bool Lia Reals Lra.
From Coquelicot Require Import Coquelicot.
From Verif Require Import Base NumPy Spec_RespFn Spec_Interp Model_IVModels Model_RespFn Proof_RespFn Proof_RespFn2 Proof_RespFn3 Proof_RespFn4 Proof_Interp Properties_RespFn.
Import ListNotations.
Open Scope R_scope.
Local Notation length := List.length.

(** C44 — both interpolations take the values of their own table at both ends and near 0 and the gap. *)
Theorem C44_table_values : forall spline dspline v c p r, interpolating spline -> increasing v -> length c = length v -> (1 <= kk_n p)%Z -> respfn_init spline dspline v c p = Ok r -> length (rf_current r) = length (rf_voltage r) ->
  forall k, (k < length (rf_voltage r))%nat ->
    k = 0%nat \/ k = (length (rf_voltage r) - 1)%nat \/ Rabs (nth k (rf_voltage r) 0) < 1 / 20 \/ Rabs (nth k (rf_voltage r) 0 - 1) < 1 / 10 \/ Rabs (nth k (rf_voltage r) 0 + 1) < 1 / 10 ->
    idc r (nth k (rf_voltage r) 0) = nth k (rf_current r) 0 /\ ikk r (nth k (rf_voltage r) 0) = nth k (rf_current_kk r) 0.
Proof. exact table_values. Qed.
Print Assumptions C44_table_values.
Example C44_table_case : interpolating (fun x y _ => lookup x y) /\ increasing VINIT /\ exists r, respfn_init (fun x y _ => lookup x y) (fun x y _ => lookup x y) VINIT VINIT usual = Ok r.
Proof. split; [exact lookup_interpolating|]. split. { intros i j L J. rewrite vinit_length in J. rewrite !vinit_nth by lia. apply lt_INR in L. lra. } exact (vinit_accepts _ _ VINIT usual (proj1 usual_usable) eq_refl). Qed.

(** C90 — each slope is the derivative of its own interpolation. *)
Theorem C90_derivatives : forall spline dspline v c p r, derivative_of spline dspline -> respfn_init spline dspline v c p = Ok r ->
  forall t, didc r t = Ok (Derive (idc r) t) /\ dikk r t = Ok (Derive (ikk r) t).
Proof. exact slopes_derive. Qed.
Print Assumptions C90_derivatives.
Example C90_derivatives_case : derivative_of (fun _ _ _ t => t ^ 2) (fun _ _ _ t => 2 * t) /\ exists r, respfn_init (fun _ _ _ t => t ^ 2) (fun _ _ _ t => 2 * t) VINIT VINIT usual = Ok r.
Proof.
  split; [|exact (vinit_accepts _ _ VINIT usual (proj1 usual_usable) eq_refl)]. intros x y k t. symmetry. apply is_derive_unique. auto_derive; [exact I|ring].
Qed.
