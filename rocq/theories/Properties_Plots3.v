(** C144: the figures of response functions (vocabulary in Spec_Plots.v). *)
From Coq Require Import List ZArith Bool Lia Reals Lra String.
From Verif Require Import Base NumPy Spec_RespFn Model_IVModels Model_RespFn Spec_RespParams Proof_RespFn4 Model_Plots Spec_Plots Proof_Plots6.
Import ListNotations.
Open Scope R_scope.
Local Notation length := List.length.

(** ** C144 *)
(** Every response function that is accepted can be drawn, and both figures show all samples. *)
Theorem C144_figures : forall spline dspline v c p r, length c = length v -> (1 <= kk_n p)%Z ->
  respfn_init spline dspline v c p = Ok r -> draws_resp r /\ draws_interpolation r.
Proof. exact resp_figures. Qed.
Print Assumptions C144_figures.
(** The same for imported I-V data and for the perfect curve, with and without smearing. *)
Theorem C144_imported : forall spline dspline v c vmax p r, (1 <= kk_n p)%Z ->
  respfn_from_iv spline dspline v c vmax p = Ok r -> draws_resp r /\ draws_interpolation r.
Proof. exact from_iv_figures. Qed.
Print Assumptions C144_imported.
Theorem C144_perfect : forall spline dspline p r, (1 <= kk_n p)%Z ->
  respfn_perfect spline dspline p = Ok r -> draws_resp r /\ draws_interpolation r.
Proof. exact perfect_figures. Qed.
Print Assumptions C144_perfect.
(** Data for which C144_figures applies, and a perfect curve. *)
Definition drawn_params : params := {| max_npts_dc := 101; max_npts_kk := 151; max_interp_error := 1 / 1000;
  check_error := false; v_smear := None; kk_n := 50; spline_order := 3 |}.
Example C144_case : (1 <= kk_n drawn_params)%Z /\ (exists r, respfn_init (fun _ _ _ _ => 0) (fun _ _ _ _ => 0) VINIT VINIT drawn_params = Ok r) /\
  exists r, respfn_perfect (fun _ _ _ _ => 0) (fun _ _ _ _ => 0) drawn_params = Ok r.
Proof.
  assert (U : usable_params drawn_params) by (unfold usable_params; simpl; repeat split; try lia; lra).
  split; [simpl; lia|]. split; [exact (vinit_accepts _ _ VINIT drawn_params U eq_refl)|]. destruct (perfect_accepts (fun _ _ _ _ => 0) (fun _ _ _ _ => 0) drawn_params U eq_refl) as [r [E _]]. now exists r.
Qed.
