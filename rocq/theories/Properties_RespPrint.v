(** Properties C157: what response functions print. *)
From Coq Require Import List ZArith Lia Bool Reals Lra String.
From Coquelicot Require Import Complex.
From Verif Require Import Base Model_IVModels Model_RespFn Proof_RespFn Proof_RespFn3 Proof_RespFn4 Model_Misc Model_Print Model_Said Model_RespPrint Spec_Misc Spec_Print Spec_HBText Spec_RespPrint Proof_RespPrint Proof_RespPrint2.
Import ListNotations.
Local Notation length := List.length.
Open Scope list_scope.
Open Scope R_scope.

(** ** C157 *)
(** Printing does not change the object. *)
Theorem C157_same_result : forall spline dspline verbose p, (1 <= kk_n p)%Z ->
  (forall v c, length c = length v -> snd (respfn_init_p spline dspline verbose v c p) = respfn_init spline dspline v c p) /\
  (forall v c vmax, snd (respfn_from_iv_p spline dspline verbose v c vmax p) = respfn_from_iv spline dspline v c vmax p) /\
  (forall order, snd (respfn_polynomial_p spline dspline verbose order p) = respfn_polynomial spline dspline order p) /\
  (forall vgap rn rsg agap, snd (respfn_exponential_p spline dspline verbose vgap rn rsg agap p) = respfn_exponential spline dspline vgap rn rsg agap p) /\
  snd (respfn_perfect_p spline dspline verbose p) = respfn_perfect spline dspline p.
Proof.
  exact (fun s d b p H => conj (fun v c L => init_same s d b v c p L H) (conj (fun v c m => from_iv_same s d b v c m p H) (conj (fun n => polynomial_same s d b n p H)
    (conj (fun w x y z => exponential_same s d b w x y z p H) (perfect_same s d b p H))))).
Qed.
Print Assumptions C157_same_result.
(** With verbose=False nothing is printed. *)
Theorem C157_quiet : forall spline dspline p, (forall v c, fst (respfn_init_p spline dspline false v c p) = []) /\
  (forall v c vmax, fst (respfn_from_iv_p spline dspline false v c vmax p) = []) /\ (forall order, fst (respfn_polynomial_p spline dspline false order p) = []) /\
  (forall vgap rn rsg agap, fst (respfn_exponential_p spline dspline false vgap rn rsg agap p) = []) /\ fst (respfn_perfect_p spline dspline false p) = [].
Proof. exact (fun s d p => conj (fun v c => init_quiet s d v c p) (classes_quiet s d p)). Qed.
Print Assumptions C157_quiet.
(** The report of an object: the smear if there is one; for the I-V curve and for its transform,
    the number of nodes of the interpolation, its mean distance from the samples between -34 and
    34, and the largest value of sample minus interpolation with its voltage. *)
Theorem C157_report : forall spline dspline v c p out r, length c = length v -> (1 <= kk_n p)%Z -> respfn_init_p spline dspline true v c p = (out, Ok r) ->
  exists xd yd xk yk a1 t1 w1 a2 t2 w2,
    f_idc r = spline xd yd (spline_order p) /\ f_ikk r = spline xk yk (spline_order p) /\
    nodes_of (rf_voltage r) (rf_current r) xd yd /\ nodes_of (rf_voltage r) (rf_current_kk r) xk yk /\
    deviations (rf_voltage r) (rf_current r) (f_idc r) a1 t1 w1 /\ deviations (rf_voltage r) (rf_current_kk r) (f_ikk r) a2 t2 w2 /\
    out = [Generating] ++ match v_smear p with Some s => [Smear s] | None => [] end ++ [Interpolating] ++
          [CurveDC; NodesDC (length xd); MeanError a1; MaxError t1 w1] ++ [CurveKK; NodesKK (length xk); MeanError a2; MaxError t2 w2] ++ [Gap].
Proof. exact init_report. Qed.
Print Assumptions C157_report.
(** The report comes before the check: it is the same whatever error is allowed. *)
Theorem C157_before_check : forall spline dspline verbose v c p q, same_but_check p q ->
  fst (respfn_init_p spline dspline verbose v c p) = fst (respfn_init_p spline dspline verbose v c q).
Proof. exact init_unchecked. Qed.
Print Assumptions C157_before_check.
(** The largest error that is shown is not the largest distance: here it is less than 0.001
    although the interpolation is a thousand too high at some sample. *)
Theorem C157_refuted : exists out r e w k, respfn_init_p spiky spiky true VINIT VINIT checked = (out, Ok r) /\ nth_error out 5 = Some (MaxError e w) /\ e < 1 / 1000 /\
  (k < length (rf_voltage r))%nat /\ -34 < nth k (rf_voltage r) 0 < 34 /\ Rabs (nth k (rf_current r) 0 - idc r (nth k (rf_voltage r) 0)) > 1000.
Proof. exact shown_blind. Qed.
Print Assumptions C157_refuted.
(** RespFnPerfect: one line without smearing; with it, the first lines are printed twice. *)
Theorem C157_perfect : forall spline dspline p,
  (v_smear p = None -> exists r, respfn_perfect_p spline dspline true p = ([Generating], Ok r)) /\
  (forall s out r, v_smear p = Some s -> respfn_perfect_p spline dspline true p = (out, Ok r) -> exists rest, out = [Generating; Smear s; Generating; Smear s] ++ rest).
Proof. exact (fun s d p => conj (perfect_plain s d p) (perfect_twice s d p)). Qed.
Print Assumptions C157_perfect.
(** The text of each message says what the message means. *)
Theorem C157_text : forall m, rsays m (rtext m).
Proof. exact rtext_says. Qed.
Print Assumptions C157_text.
(** str and repr name the class. *)
Theorem C157_names : forall c, resp_repr c = resp_str c /\
  resp_str c = ("Response function object: " ++ match c with Base => "RespFn" | FromIVData => "RespFnFromIVData" | Polynomial => "RespFnPolynomial" | Exponential => "RespFnExponential" | Perfect => "RespFnPerfect" end)%string.
Proof. destruct c; split; reflexivity. Qed.
Print Assumptions C157_names.

(** An object whose report is printed. *)
Example C157_case : exists out r, respfn_init_p spiky spiky true VINIT VINIT checked = (out, Ok r) /\ length VINIT = length VINIT /\ (1 <= kk_n checked)%Z.
Proof. destruct shown_blind as [out [r [_ [_ [_ [H _]]]]]]. exists out, r. split; [exact H|]. split; [reflexivity|]. change (1 <= 50)%Z. clear. lia. Qed.
(** Two sets of parameters that differ in the check only. *)
Example C157_check_case : same_but_check checked {| max_npts_dc := 101; max_npts_kk := 151; max_interp_error := 2; check_error := false; v_smear := None; kk_n := 50; spline_order := 3 |}.
Proof. repeat split. Qed.
(** A smeared ideal curve. *)
Example C157_perfect_case : forall spline dspline, exists p s out r, v_smear p = Some s /\ respfn_perfect_p spline dspline true p = (out, Ok r).
Proof.
  intros sp ds. set (p := {| max_npts_dc := 101; max_npts_kk := 151; max_interp_error := 1 / 1000; check_error := false; v_smear := Some (1 / 10); kk_n := 50; spline_order := 3 |}).
  assert (HN : (1 <= kk_n p)%Z) by (change (1 <= 50)%Z; clear; lia). assert (HO : (1 <= spline_order p <= 5)%Z) by (change (1 <= 3 <= 5)%Z; clear; lia). assert (HS : 1 / 600 <= 1 / 10 <= 1 / 4) by (clear; lra).
  destruct (perfect_peak sp ds p (1 / 10) eq_refl HS HN HO eq_refl) as [_ [r [_ [_ [H _]]]]].
  pose proof (perfect_same sp ds true p HN) as E. rewrite H in E. destruct (respfn_perfect_p sp ds true p) as [out rr] eqn:P. exists p, (1 / 10), out, r. split; [reflexivity|]. rewrite P. cbn [snd] in E. now rewrite E.
Qed.
