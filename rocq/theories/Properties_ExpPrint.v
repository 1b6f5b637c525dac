(** Properties C158: what the analysis of experimental data prints. *)
From Coq Require Import List ZArith Lia Bool Reals Lra String.
From Coquelicot Require Import Complex.
From Verif Require Import Base Bessel Model_QtCurrent Float NumPy Model_MathFn Model_CleanData Model_RespFn Spec_CleanData Proof_CleanData Model_IVData Model_IFData Model_ExpData Model_Objects Proof_Objects2 Proof_Objects4
  Spec_IVData Spec_IFData Spec_IFShot Proof_IFShot4 Model_Misc Model_Print Model_Said Spec_Misc Spec_Print Spec_HBText Model_ExpPrint Spec_ExpPrint Proof_ExpPrint Proof_ExpPrint2 Proof_ExpPrint3.
Import ListNotations.
Local Notation length := List.length.
Open Scope list_scope.
Open Scope R_scope.

(** ** C158 *)
(** Printing does not change the results. *)
Theorem C158_same_result : forall argsort minimize savgol J spline dspline verbose comment, sorting argsort ->
  (forall m dcif o, snd (dc_data_p argsort minimize savgol spline dspline verbose comment m dcif o) = dc_data argsort minimize savgol spline dspline m dcif o) /\
  (forall m d hot cold o, snd (pumped_data_p argsort savgol J verbose comment m d hot cold o) = pumped_data argsort savgol J m d hot cold o).
Proof. exact (fun s mi sa J sp ds b c S => conj (dc_same s mi sa sp ds b c) (pumped_same s sa J b S c)). Qed.
Print Assumptions C158_same_result.
(** DCData: a warning about the normal resistance if it is below 1 or above 50 ohms; a warning if
    fewer than five samples are in the range for the shot noise; the summary if verbose. *)
Theorem C158_dc : forall argsort minimize savgol spline dspline, keeps_length savgol -> sorting argsort -> forall verbose comment m dcif o out d,
  dc_data_p argsort minimize savgol spline dspline verbose comment m dcif o = (out, Ok d) ->
  exists shot, out = warnings (dc_rn (d_dc d)) ++ shot ++ (if verbose then [Summary comment d] else []) /\
  match dcif with
  | None => shot = []
  | Some i => exists v p0 p c n, d_if d = Some (v, p, c) /\ load_if argsort i (d_dc d) (if_options o) = Ok (v, p0) /\
      samples_in_range savgol v p0 (dc_vgap (d_dc d)) (o_vshot o) n /\ shot = shot_warning n
  end.
Proof. exact dc_report. Qed.
Print Assumptions C158_dc.
(** PumpedData: the heading if verbose; the report of the recovery; the IF data with the warning
    about the shot noise, unless it is known from the dc data, and the best values if verbose. *)
Theorem C158_pumped : forall argsort savgol J, keeps_length savgol -> sorting argsort -> forall verbose comment m d hot cold o out u,
  pumped_data_p argsort savgol J verbose comment m d hot cold o = (out, Ok u) ->
  exists rec iff, out = (if verbose then heading comment (both_given hot cold) (u_freq u) else []) ++ rec ++ iff ++ (if verbose then [Blank] else []) /\
    match u_recovered u with Some r => reports_recovery (dc_vgap (d_dc d)) (dc_rn (d_dc d)) (u_vph u) r rec | None => rec = [] end /\
    match u_if u with
    | None => iff = []
    | Some n => exists shot best, iff = [AnalyzeIF] ++ shot ++ best /\ (if verbose then reports_best n best else best = []) /\
        match d_if d with
        | Some _ => shot = []
        | None => exists hm cm h c k, hot = Some hm /\ cold = Some cm /\ load_if argsort hm (d_dc d) (if_options o) = Ok (n_voltage n, h) /\ load_if argsort cm (d_dc d) (if_options o) = Ok (n_voltage n, c) /\
            samples_in_range savgol (n_voltage n) (map (fun k => (nth k h 0 + nth k c 0) / 2) (seq 0 (length (n_voltage n)))) (dc_vgap (d_dc d)) (o_vshot o) k /\ shot = shot_warning k
        end
    end.
Proof. exact pumped_report. Qed.
Print Assumptions C158_pumped.
(** The heading is printed before the data are analysed, even if that fails. *)
Theorem C158_heading : forall argsort savgol J comment m d hot cold o f, o_freq o = Some f -> dc_fgap (d_dc d) <> 0 ->
  exists rest, fst (pumped_data_p argsort savgol J true comment m d hot cold o) = heading comment (both_given hot cold) f ++ rest.
Proof. exact heading_first. Qed.
Print Assumptions C158_heading.
(** With verbose=False the dc data give warnings only ... *)
Theorem C158_quiet_dc : forall argsort minimize savgol spline dspline, keeps_length savgol -> sorting argsort -> forall comment m dcif o out d,
  dc_data_p argsort minimize savgol spline dspline false comment m dcif o = (out, Ok d) ->
  1 <= dc_rn (d_dc d) <= 50 -> dcif = None -> out = [].
Proof. exact quiet_dc. Qed.
Print Assumptions C158_quiet_dc.
(** ... but the pumped data still print the report of the recovery and the title of the IF
    analysis. *)
Theorem C158_refuted : forall minimize dspline, exists d out u r, 
  dc_data insertion_argsort minimize as_is (fun _ _ _ _ => 1) dspline file None full = Ok d /\
  pumped_data_p insertion_argsort as_is besselJ false "" (pumped_file besselJ) d (Some hot_file) (Some cold_file) full = (out, Ok u) /\ u_recovered u = Some r /\
  In Recovery out /\ In (DriveLevel (rec_alpha r)) out /\ In AnalyzeIF out.
Proof. exact not_silent. Qed.
Print Assumptions C158_refuted.
(** The text of each message says what the message means. *)
Theorem C158_text : forall m, esays m (etext m).
Proof. exact etext_says. Qed.
Print Assumptions C158_text.

(** Measurements that are analysed: with the best values, and dc data with IF data. *)
Example C158_case : (forall minimize dspline, exists d out u n r, 
  dc_data insertion_argsort minimize as_is (fun _ _ _ _ => 1) dspline file None full = Ok d /\
  pumped_data_p insertion_argsort as_is besselJ true "test" (pumped_file besselJ) d (Some hot_file) (Some cold_file) full = (out, Ok u) /\ u_recovered u = Some r /\ u_if u = Some n /\ d_if d = None) /\
  keeps_length as_is /\ sorting insertion_argsort.
Proof. exact (conj (fun m d => pumped_there m d true "test") (conj as_is_length insertion_sorts)). Qed.
Example C158_dc_case : forall minimize dspline, exists out d, dc_data_p insertion_argsort minimize as_is (fun _ _ _ _ => 1) dspline true "test" file (Some cold_file) full = (out, Ok d).
Proof. exact (fun m d => dc_there m d true "test"). Qed.
(** A normal resistance of 10 ohms gives no warning, 0.5 ohms and 60 ohms do. *)
Example C158_warnings : warnings 10 = [] /\ warnings (1 / 2) = [LowResistance] /\ warnings 60 = [HighResistance].
Proof.
  unfold warnings. split; [|split]; repeat match goal with |- context [Rlt_dec ?a ?b] => let H := fresh in destruct (Rlt_dec a b) as [H|H]; try (exfalso; clear - H; lra); clear H end; reflexivity.
Qed.
