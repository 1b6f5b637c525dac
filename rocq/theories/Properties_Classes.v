(** C153: the tables of the response functions made from I-V curve models. *)
From Coq Require Import List ZArith Bool Lia Reals Lra.
From Coquelicot Require Import Coquelicot.
From Verif Require Import Base NumPy Spec_RespFn Spec_Classes Model_IVModels Model_RespFn Proof_RespFn Proof_RespFn2 Proof_RespFn4 Proof_Classes Properties_RespFn.
Import ListNotations.
Open Scope R_scope.
Local Notation length := List.length.

Theorem C153_polynomial : forall spline dspline n p r, v_smear p = None -> respfn_polynomial spline dspline n p = Ok r ->
  length (rf_current r) = length (rf_voltage r) /\
  forall k, (k < length (rf_voltage r))%nat -> nth k (rf_voltage r) 0 = INR k / 200 - 35 /\ nth k (rf_current r) 0 = polynomial_curve n (nth k (rf_voltage r) 0).
Proof. exact polynomial_table. Qed.
Print Assumptions C153_polynomial.
Theorem C153_exponential : forall spline dspline vgap rn rsg agap p r, vgap <> 0 -> rn <> 0 -> rsg <> 0 -> v_smear p = None -> respfn_exponential spline dspline vgap rn rsg agap p = Ok r ->
  length (rf_current r) = length (rf_voltage r) /\
  forall k, (k < length (rf_voltage r))%nat -> nth k (rf_voltage r) 0 = INR k / 200 - 35 /\ nth k (rf_current r) 0 = exponential_curve vgap rn rsg agap (nth k (rf_voltage r) 0).
Proof. exact exponential_table. Qed.
Print Assumptions C153_exponential.
Example C153_case : (exists r, respfn_polynomial (fun _ _ _ _ => 0) (fun _ _ _ _ => 0) 50 usual = Ok r) /\ exists r, respfn_exponential (fun _ _ _ _ => 0) (fun _ _ _ _ => 0) (28 / 10000) 14 1000 40000 usual = Ok r.
Proof. split; [exact (polynomial_accepts _ _ 50 usual (proj1 usual_usable))|]. exact (exponential_accepts _ _ _ 14 _ _ usual (proj1 usual_usable) ltac:(lra)). Qed.
