(** Measurements whose analysis prints. *)
From Coq Require Import List ZArith Lia Bool Reals Lra String.
From Coquelicot Require Import Complex.
From Verif Require Import Base Bessel Model_QtCurrent Float NumPy Model_MathFn Model_CleanData Model_RespFn Spec_CleanData Proof_CleanData Proof_BesselVal Model_IVData Model_IFData Model_ExpData Model_Objects Proof_Objects2 Proof_Objects3 Proof_Objects4
  Spec_IVData Spec_IFData Spec_IFShot Proof_IFShot4 Model_Misc Model_Print Model_Said Spec_Misc Spec_Print Spec_HBText Model_ExpPrint Spec_ExpPrint Proof_ExpPrint Proof_ExpPrint2.
Import ListNotations.
Local Notation length := List.length.
Open Scope list_scope.
Open Scope R_scope.

Lemma quiet_dc argsort minimize savgol spline dspline : keeps_length savgol -> sorting argsort -> forall comment m dcif o out d,
  dc_data_p argsort minimize savgol spline dspline false comment m dcif o = (out, Ok d) ->
  1 <= dc_rn (d_dc d) <= 50 -> dcif = None -> out = [].
Proof.
  intros KL SO comment m dcif o out d H RN E. destruct (dc_report argsort minimize savgol spline dspline KL SO false comment m dcif o out d H) as [shot [-> S]]. rewrite E in S. subst shot. unfold warnings.
  destruct (Rlt_dec (dc_rn (d_dc d)) 1); [exfalso; clear - RN r; lra|]. destruct (Rlt_dec 50 (dc_rn (d_dc d))); [exfalso; clear - RN r; lra|]. reflexivity.
Qed.
Lemma pumped_there minimize dspline verbose comment : exists d out u n r, 
  dc_data insertion_argsort minimize as_is (fun _ _ _ _ => 1) dspline file None full = Ok d /\
  pumped_data_p insertion_argsort as_is besselJ verbose comment (pumped_file besselJ) d (Some hot_file) (Some cold_file) full = (out, Ok u) /\ u_recovered u = Some r /\ u_if u = Some n /\ d_if d = None.
Proof.
  destruct bessel_3_2 as (H0 & H1 & H2). destruct (full_case minimize as_is besselJ H0 H1 H2 dspline) as [d [u [n [r [al [D [U [_ [DI [UI [UR _]]]]]]]]]]].
  pose proof (pumped_same insertion_argsort as_is besselJ verbose insertion_sorts comment (pumped_file besselJ) d (Some hot_file) (Some cold_file) full) as E. rewrite U in E.
  destruct (pumped_data_p _ _ _ _ _ _ _ _ _ _) as [out res] eqn:P. cbn [snd] in E. rewrite E in P. exists d, out, u, n, r. split; [exact D|]. split; [rewrite P; reflexivity|]. split; [exact UR|]. split; [exact UI|exact DI].
Qed.
Lemma dc_there minimize dspline verbose comment : exists out d, dc_data_p insertion_argsort minimize as_is (fun _ _ _ _ => 1) dspline verbose comment file (Some cold_file) full = (out, Ok d).
Proof.
  destruct (dc_if_case minimize as_is dspline) as [d [v [q [c [D _]]]]].
  assert (E : snd (dc_data_p insertion_argsort minimize as_is (fun _ _ _ _ => 1) dspline verbose comment file (Some cold_file) full) = Ok d) by (etransitivity; [apply dc_same|exact D]).
  destruct (dc_data_p _ _ _ _ _ _ _ _ _ _) as [out res] eqn:P. cbn [snd] in E. rewrite E in P. exists out, d. now rewrite E.
Qed.
Lemma not_silent minimize dspline : exists d out u r, 
  dc_data insertion_argsort minimize as_is (fun _ _ _ _ => 1) dspline file None full = Ok d /\
  pumped_data_p insertion_argsort as_is besselJ false "" (pumped_file besselJ) d (Some hot_file) (Some cold_file) full = (out, Ok u) /\ u_recovered u = Some r /\
  In Recovery out /\ In (DriveLevel (rec_alpha r)) out /\ In AnalyzeIF out.
Proof.
  destruct (pumped_there minimize dspline false "") as [d [out [u [n [r [D [P [UR [UI _]]]]]]]]]. exists d, out, u, r. split; [exact D|]. split; [exact P|]. split; [exact UR|].
  destruct (pumped_report _ _ _ as_is_length insertion_sorts _ _ _ _ _ _ _ _ _ P) as [rec [iff [-> [RR II]]]]. rewrite UR in RR. rewrite UI in II. destruct RR as [av [de [-> _]]]. destruct II as [shot [best [-> _]]].
  cbn [app]. split; [now left|]. split; [do 7 right; now left|]. do 10 right. now left.
Qed.
