(** Properties C133-C136: what the figures of the data objects show (vocabulary in
    Spec_Plots.v and Spec_IVData.v; colours, line styles and sizes are not modelled).  The
    optimiser, the Savitzky-Golay filter, the Bessel functions and the splines are arbitrary
    functions. *)
From Coq Require Import List ZArith Bool Reals Lra Lia String.
From Coquelicot Require Import Complex.
From Verif Require Import Base Float NumPy Spec_CleanData Spec_RespFn Model_CleanData Model_RespFn Model_MathFn Spec_IVData Model_IVData Spec_IFData Model_IFData Model_Tucker Model_ExpData Spec_ExpData Model_Objects Spec_Objects Spec_Objects2
  Bessel Proof_CleanData Proof_IFShot Proof_BesselVal Proof_Objects2 Proof_Objects4 Model_Misc Model_Plots Spec_Plots Proof_Plots Proof_Plots2 Proof_Plots3.
Import ListNotations.
Open Scope R_scope.
Local Notation length := List.length.

(** ** C133 *)
(** DCData.plot_dciv: the curve in mV and uA, the gap voltage marked on it, the leakage
    current marked at 2 mV, the normal-state line, the least-squares line around the leakage
    voltage, and limits at the sample nearest to vmax_plot. *)
Theorem C133_figure_partial : forall argsort minimize savgol spline dspline m f o d vmax a,
  dc_data argsort minimize savgol spline dspline m f o = Ok d -> 0 < dc_vgap (d_dc d) -> 0 < o_vmax o -> (2 <= o_npts o)%nat -> plot_dciv d (o_vleak o) vmax = Ok a ->
  let dc := d_dc d in let V := millivolts dc (d_voltage d) in let I := microamps dc (d_current d) in
  exists gap leak s b k,
    shows a [("DC I-V"%string, List.combine V (map FV I));
             mark ("$V_\mathrm{{gap}}$ = " ++ fixed false 0 2 (dc_vgap dc * 10 ^ 3) ++ " mV")%string (dc_vgap dc * 10 ^ 3) (FV gap);
             mark ("$I_\mathrm{{leak}}$ = " ++ fixed false 0 2 leak ++ " $\mu$A")%string 2 (FV leak);
             ("$R_\mathrm{{n}}$ = " ++ fixed false 0 2 (dc_rn dc) ++ " $\Omega$", map (fun x => (x, FV ((x - dc_vint dc * 10 ^ 3) / dc_rn dc * 10 ^ 3))) V)%string;
             ("$R_\mathrm{{sg}}$ = " ++ fixed false 0 1 (dc_rsg dc) ++ " $\Omega$", map (fun x => (x, FV (s * x + b))) V)%string] [] /\
    on_curve V I (dc_vgap dc * 10 ^ 3) gap /\ on_curve V I (o_vleak o * 10 ^ 3) leak /\
    best_line (samples_within (o_vleak o * 10 ^ 3 - 2 / 10) (o_vleak o * 10 ^ 3 + 2 / 10) V I) s b /\
    (k < length V)%nat /\ (forall j, (j < length V)%nat -> Rabs (vmax - nth k V 0) <= Rabs (vmax - nth j V 0)) /\
    g_xlabel a = "Bias Voltage (mV)"%string /\ g_ylabel a = "Current ($\mu$A)"%string /\
    g_xlim a = (Some 0, Some (nth k V 0)) /\ g_ylim a = (Some 0, Some (nth k I 0)).
Proof. intros *. apply dciv_figure. Qed.
Print Assumptions C133_figure_partial.
(** It is drawn if two samples lie within 0.2 mV of the leakage voltage. *)
Theorem C133_drawn : forall argsort minimize savgol spline dspline m f o d vmax,
  dc_data argsort minimize savgol spline dspline m f o = Ok d -> 0 < dc_vgap (d_dc d) -> 0 < o_vmax o -> (2 <= o_npts o)%nat ->
  spread (samples_within (o_vleak o * 10 ^ 3 - 2 / 10) (o_vleak o * 10 ^ 3 + 2 / 10) (millivolts (d_dc d) (d_voltage d)) (microamps (d_dc d) (d_current d))) ->
  exists a, plot_dciv d (o_vleak o) vmax = Ok a.
Proof. intros *. apply dciv_total. Qed.
Print Assumptions C133_drawn.
(** For a leakage voltage of 4.5 mV the leakage current is marked away from the curve, and the
    line with the label of the subgap resistance has three times the slope of that resistance. *)
Theorem C133_refuted : forall minimize savgol dspline, exists d a leak s b,
  dc_data insertion_argsort minimize savgol (fun _ _ _ _ => 1) dspline file None leaky = Ok d /\ 0 < dc_vgap (d_dc d) /\ plot_dciv d (o_vleak leaky) 5 = Ok a /\
  nth_error (g_items a) 2 = Some (Curve ("$I_\mathrm{{leak}}$ = " ++ fixed false 0 2 leak ++ " $\mu$A") [2] [FV leak]) /\
  nth_error (g_items a) 4 = Some (Curve ("$R_\mathrm{{sg}}$ = " ++ fixed false 0 1 (dc_rsg (d_dc d)) ++ " $\Omega$") (millivolts (d_dc d) (d_voltage d)) (map (fun x => FV (s * x + b)) (millivolts (d_dc d) (d_voltage d)))) /\
  ~ on_curve (millivolts (d_dc d) (d_voltage d)) (microamps (d_dc d) (d_current d)) 2 leak /\ s * dc_rsg (d_dc d) = 3 * 10 ^ 3.
Proof. exact leaky_case. Qed.
Print Assumptions C133_refuted.
Example C133_case : o_vleak leaky = 45 / 10 ^ 4 /\ 0 < o_vmax leaky /\ (2 <= o_npts leaky)%nat.
Proof. cbn. split; [reflexivity|]. split; [lra|lia]. Qed.

(** ** C134 *)
(** DCData.plot_offset: the samples within 0.2 mV of zero. *)
Theorem C134_offset : forall argsort minimize savgol spline dspline m f o d a,
  dc_data argsort minimize savgol spline dspline m f o = Ok d -> 0 < dc_vgap (d_dc d) -> plot_offset d = Ok a ->
  let V := millivolts (d_dc d) (d_voltage d) in let I := microamps (d_dc d) (d_current d) in
  shows a [(""%string, map (fun p => (fst p, FV (snd p))) (samples_within (- (2 / 10)) (2 / 10) V I))] [] /\
  g_xlabel a = "Bias Voltage (mV)"%string /\ g_ylabel a = "Current ($\mu$A)"%string /\ g_xlim a = (Some (- (2 / 10)), Some (2 / 10)).
Proof. intros *. apply offset_figure. Qed.
Print Assumptions C134_offset.
(** DCData.plot_if_noise: nothing without IF data; else the curve with the normal-state line,
    and the IF power with the shot noise and the IF noise, both with a vertical line where
    the normal-state line meets zero current. *)
Theorem C134_if_noise : forall argsort minimize savgol spline dspline m f o d r,
  dc_data argsort minimize savgol spline dspline m f o = Ok d -> 0 < dc_vgap (d_dc d) -> plot_if_noise d = Ok r ->
  match f with
  | None => r = None
  | Some _ => exists a b v q c, r = Some (a, b) /\ d_if d = Some (v, q, c) /\
      let dc := d_dc d in let V := millivolts dc (d_voltage d) in let I := microamps dc (d_current d) in
      shows a [("I-V curve"%string, List.combine V (map FV I)); ("Normal-state"%string, map (fun x => (x, FV ((x - dc_vint dc * 10 ^ 3) / dc_rn dc * 10 ^ 3))) V)] [Vertical (dc_vint dc * 10 ^ 3)] /\
      shows b [("IF Power"%string, List.combine (millivolts dc v) (map FV q)); ("5.8 K/mV"%string, List.combine (millivolts dc (fst (if_shot c))) (map FV (snd (if_shot c))));
               mark ("IF noise: " ++ fixed false 0 2 (if_noise c) ++ " K")%string (dc_vint dc * 10 ^ 3) (FV (if_noise c))] [Vertical (dc_vint dc * 10 ^ 3)] /\
      g_ylabel a = "Current ($\mu$A)"%string /\ g_xlabel b = "Bias Voltage (mV)"%string /\ g_ylabel b = "IF Power (K)"%string
  end.
Proof. intros *. apply noise_figure. Qed.
Print Assumptions C134_if_noise.
(** With shot-noise ranges the line with the label 5.8 K/mV rises by 5.8 K per millivolt, the
    IF noise is marked on it, and the figure is drawn. *)
Theorem C134_shot_line : forall argsort minimize savgol spline dspline m f o d v q c vs,
  sorting argsort -> dc_data argsort minimize savgol spline dspline m f o = Ok d -> d_if d = Some (v, q, c) -> 0 < dc_vgap (d_dc d) -> 0 < o_vmax o -> (2 <= o_ifdata_npts o)%nat ->
  o_vshot o = Some vs -> ranges_of vs <> [] -> let V := millivolts (d_dc d) v in
  exists b, List.combine (millivolts (d_dc d) (fst (if_shot c))) (map FV (snd (if_shot c))) = map (fun x => (x, FV (58 / 10 * x + b))) V /\
    on_curve V (map (fun x => 58 / 10 * x + b) V) (dc_vint (d_dc d) * 10 ^ 3) (if_noise c).
Proof. intros *. apply noise_line. Qed.
Print Assumptions C134_shot_line.
Theorem C134_drawn : forall argsort minimize savgol spline dspline m f o d v q c vs,
  sorting argsort -> dc_data argsort minimize savgol spline dspline m f o = Ok d -> d_if d = Some (v, q, c) -> 0 < dc_vgap (d_dc d) -> 0 < o_vmax o -> (2 <= o_ifdata_npts o)%nat ->
  o_vshot o = Some vs -> ranges_of vs <> [] -> exists r, plot_if_noise d = Ok r.
Proof. intros *. apply noise_shown. Qed.
Print Assumptions C134_drawn.
Example C134_case : forall minimize savgol dspline, let o := shown None (Some (25 / 100, 8 / 10)) None None in exists d v q c,
  dc_data insertion_argsort minimize savgol (fun _ _ _ _ => 1) dspline file (Some cold_file) o = Ok d /\ d_if d = Some (v, q, c) /\ dc_vgap (d_dc d) = 3 / 10 ^ 3 /\ length v = 31%nat.
Proof. intros. apply dc_if_shown. Qed.

(** ** C135 *)
(** PumpedData.plot_iv: the unpumped and the pumped curve, the gap and the photon step. *)
Theorem C135_plot_iv : forall argsort minimize savgol J spline dspline m0 f0 o0 d m hot cold o u f vmax,
  dc_data argsort minimize savgol spline dspline m0 f0 o0 = Ok d -> 0 < dc_vgap (d_dc d) -> 0 < o_vmax o0 -> (2 <= o_npts o0)%nat ->
  pumped_data argsort savgol J m d hot cold o = Ok u -> o_freq o = Some f ->
  exists a top, plot_iv d u vmax = Ok a /\ shows a (pumped_curves d u) (step_lines (d_dc d) f) /\ on_curve (millivolts (d_dc d) (d_voltage d)) (microamps (d_dc d) (d_current d)) vmax top /\
    g_xlim a = (Some 0, Some vmax) /\ g_ylim a = (Some 0, Some top) /\ g_xlabel a = "Bias Voltage (mV)"%string /\ g_ylabel a = "DC Current (uA)"%string /\ g_title a = lo_legend f.
Proof. intros argsort minimize savgol J spline dspline m0 f0 o0 d m hot cold o u f vmax H1 H2 H3 H4 H5 H6. eapply iv_figure; eassumption. Qed.
Print Assumptions C135_plot_iv.
(** PumpedData.plot_if: hot and cold IF power, and the power without LO if it is known. *)
Theorem C135_plot_if : forall argsort minimize savgol J spline dspline m0 f0 o0 d m hot cold o u f n vmax,
  dc_data argsort minimize savgol spline dspline m0 f0 o0 = Ok d -> 0 < dc_vgap (d_dc d) -> pumped_data argsort savgol J m d hot cold o = Ok u -> o_freq o = Some f -> u_if u = Some n ->
  sorting argsort -> 0 < f -> 0 < o_t_cold o < o_t_hot o ->
  exists a, plot_if d u vmax = Ok a /\
    shows a (("Hot"%string, power_points (d_dc d) n (n_hot n)) :: ("Cold"%string, power_points (d_dc d) n (n_cold n)) ::
             match d_if d with Some (v, q, _) => [("No LO"%string, List.combine (millivolts (d_dc d) v) (map FV q))] | None => [] end) [] /\
    g_xlabel a = "Bias Voltage (mV)"%string /\ g_ylabel a = "IF Power (K)"%string /\ g_title a = lo_legend f /\ g_xlim a = (Some 0, Some vmax).
Proof. intros. eapply if_figure; eassumption. Qed.
Print Assumptions C135_plot_if.
(** PumpedData.plot_ivif: both together; zero powers are left out. *)
Theorem C135_plot_ivif : forall argsort minimize savgol J spline dspline m0 f0 o0 d m hot cold o u f n vmax,
  dc_data argsort minimize savgol spline dspline m0 f0 o0 = Ok d -> 0 < dc_vgap (d_dc d) -> 0 < o_vmax o0 -> (2 <= o_npts o0)%nat -> pumped_data argsort savgol J m d hot cold o = Ok u -> o_freq o = Some f -> u_if u = Some n ->
  sorting argsort -> 0 < f -> 0 < o_t_cold o < o_t_hot o ->
  exists a b top, plot_ivif d u vmax = Ok (a, b) /\ shows a (pumped_curves d u) (step_lines (d_dc d) f) /\ on_curve (millivolts (d_dc d) (d_voltage d)) (microamps (d_dc d) (d_current d)) vmax top /\
    shows b [("Hot"%string, where_nonzero (n_hot n) (power_points (d_dc d) n (n_hot n))); ("Cold"%string, where_nonzero (n_cold n) (power_points (d_dc d) n (n_cold n)))] [] /\
    g_xlim a = (Some 0, Some vmax) /\ g_ylim a = (Some 0, Some top) /\ g_xlim b = (Some 0, Some vmax) /\ g_xlabel a = "Bias Voltage (mV)"%string /\ g_ylabel a = "DC Current ($\mu$A)"%string /\ g_ylabel b = "IF Power (K)"%string.
Proof. intros. eapply ivif_figure; eassumption. Qed.
Print Assumptions C135_plot_ivif.

(** ** C136 *)
(** PumpedData.plot_noise_temp: the smoothed powers, the noise temperature and the best
    bias point; samples without hot power are left out. *)
Theorem C136_noise_temp : forall argsort minimize savgol J spline dspline m0 f0 o0 d m hot cold o u f n vmax r,
  dc_data argsort minimize savgol spline dspline m0 f0 o0 = Ok d -> 0 < dc_vgap (d_dc d) -> pumped_data argsort savgol J m d hot cold o = Ok u -> o_freq o = Some f -> u_if u = Some n ->
  sorting argsort -> 0 < f -> 0 < o_t_cold o < o_t_hot o -> plot_noise_temp d u vmax = Ok r ->
  let V := millivolts (d_dc d) (n_voltage n) in let best := best_voltage (d_dc d) n in
  exists a b sh sc t top, r = (a, b) /\ nth (n_best n) (n_tn n) FNaN = FV t /\
    gauss_conv (where_nonzero (n_hot n) (n_hot n)) 5 3 = Ok sh /\ gauss_conv (where_nonzero (n_hot n) (n_cold n)) 5 3 = Ok sc /\
    shows a [("Hot IF"%string, List.combine (where_nonzero (n_hot n) V) (map FV sh)); ("Cold IF"%string, List.combine (where_nonzero (n_hot n) V) (map FV sc))] [] /\
    shows b [("Noise Temp."%string, where_nonzero (n_hot n) (List.combine V (n_tn n))); mark ("$T_\mathrm{n}=" ++ fixed false 0 1 t ++ "$ K")%string best (FV t)] [] /\
    (nth (n_best n) (n_hot n) 0 <> 0 -> In (best, FV t) (where_nonzero (n_hot n) (List.combine V (n_tn n)))) /\
    In top sh /\ (forall p, In p sh -> p <= top) /\ g_ylim a = (Some 0, Some (top * (13 / 10))) /\ g_ylim b = (Some 0, Some (t * 5)) /\ g_xlim b = (Some 0, Some vmax) /\
    g_xlabel a = "Bias Voltage (mV)"%string /\ g_ylabel a = "IF Power (K)"%string /\ g_ylabel b = "Noise Temperature (K)"%string.
Proof. intros. eapply noise_temp_figure; eassumption. Qed.
Print Assumptions C136_noise_temp.
Theorem C136_noise_temp_drawn : forall argsort minimize savgol J spline dspline m0 f0 o0 d m hot cold o u f n vmax t,
  dc_data argsort minimize savgol spline dspline m0 f0 o0 = Ok d -> 0 < dc_vgap (d_dc d) -> pumped_data argsort savgol J m d hot cold o = Ok u -> o_freq o = Some f -> u_if u = Some n ->
  sorting argsort -> 0 < f -> 0 < o_t_cold o < o_t_hot o -> (31 <= length (where_nonzero (n_hot n) (n_hot n)))%nat -> nth (n_best n) (n_tn n) FNaN = FV t ->
  exists r, plot_noise_temp d u vmax = Ok r.
Proof. intros. eapply noise_temp_total; eassumption. Qed.
Print Assumptions C136_noise_temp_drawn.
(** PumpedData.plot_yfac_noise_temp: the ratio of the smoothed powers. *)
Theorem C136_yfac : forall argsort minimize savgol J spline dspline m0 f0 o0 d m hot cold o u f n vmax r,
  dc_data argsort minimize savgol spline dspline m0 f0 o0 = Ok d -> 0 < dc_vgap (d_dc d) -> pumped_data argsort savgol J m d hot cold o = Ok u -> o_freq o = Some f -> u_if u = Some n ->
  sorting argsort -> 0 < f -> 0 < o_t_cold o < o_t_hot o -> plot_yfac_noise_temp d u vmax = Ok r ->
  let V := millivolts (d_dc d) (n_voltage n) in let best := best_voltage (d_dc d) n in
  exists a b sh sc y, r = (a, b) /\ gauss_conv (n_hot n) 5 3 = Ok sh /\ gauss_conv (n_cold n) 5 3 = Ok sc /\
    length y = length (n_voltage n) /\ (forall k, (k < length (n_voltage n))%nat -> nth k y FNaN = fdiv (FV (nth k sh 0)) (FV (nth k sc 0))) /\
    let t := nth (n_best n) (n_tn n) FNaN in
    shows a [("Y-factor"%string, List.combine V y)] [Horizontal (293 / 77)] /\
    shows b [("Noise Temp."%string, List.combine V (n_tn n)); mark "" best t] [Note (show_fl 1 t ++ " K") (FV best) t] /\
    In (best, t) (List.combine V (n_tn n)) /\ g_xlim a = (Some 0, Some vmax) /\ g_ylim a = (Some 1, Some 4) /\ g_ylim b = (Some 0, Some 300) /\
    g_xlabel a = "Bias Voltage (mV)"%string /\ g_ylabel a = "Y-factor"%string /\ g_ylabel b = "Noise Temperature (K)"%string.
Proof. intros. eapply yfac_figure; eassumption. Qed.
Print Assumptions C136_yfac.
Theorem C136_yfac_drawn : forall argsort minimize savgol J spline dspline m0 f0 o0 d m hot cold o u f n vmax,
  dc_data argsort minimize savgol spline dspline m0 f0 o0 = Ok d -> 0 < dc_vgap (d_dc d) -> pumped_data argsort savgol J m d hot cold o = Ok u -> o_freq o = Some f -> u_if u = Some n ->
  sorting argsort -> 0 < f -> 0 < o_t_cold o < o_t_hot o -> (31 <= length (n_voltage n))%nat -> exists r, plot_yfac_noise_temp d u vmax = Ok r.
Proof. intros. eapply yfac_total; eassumption. Qed.
Print Assumptions C136_yfac_drawn.
(** PumpedData.plot_gain_noise_temp: both curves with the best bias point on them. *)
Theorem C136_gain_noise_temp : forall argsort minimize savgol J spline dspline m0 f0 o0 d m hot cold o u f n vmax t,
  dc_data argsort minimize savgol spline dspline m0 f0 o0 = Ok d -> 0 < dc_vgap (d_dc d) -> pumped_data argsort savgol J m d hot cold o = Ok u -> o_freq o = Some f -> u_if u = Some n ->
  sorting argsort -> 0 < f -> 0 < o_t_cold o < o_t_hot o -> nth (n_best n) (n_tn n) FNaN = FV t ->
  let V := millivolts (d_dc d) (n_voltage n) in let best := best_voltage (d_dc d) n in
  exists a b, plot_gain_noise_temp d u vmax = Ok (a, b) /\ let g := nth (n_best n) (n_gain n) FNaN in
    shows a [("Gain"%string, List.combine V (n_gain n)); mark "" best g] [Note ("$G_\mathrm{c}=" ++ show_fl 2 g ++ "$") (FV best) g] /\
    shows b [("Noise Temp."%string, List.combine V (n_tn n)); mark "" best (FV t)] [Note ("$T_\mathrm{N}=" ++ fixed false 0 1 t ++ "$ K") (FV best) (FV t)] /\
    In (best, g) (List.combine V (n_gain n)) /\ In (best, FV t) (List.combine V (n_tn n)) /\
    g_xlim a = (Some 0, Some vmax) /\ g_ylim b = (Some 0, Some (t * 5)) /\ g_xlabel a = "Bias Voltage (mV)"%string /\ g_ylabel a = "Gain"%string /\ g_ylabel b = "Noise Temperature (K)"%string.
Proof. intros. eapply gain_noise_ok; eassumption. Qed.
Print Assumptions C136_gain_noise_temp.
(** A noise temperature that is not a number stops it. *)
Theorem C136_not_a_number : forall argsort minimize savgol J spline dspline m0 f0 o0 d m hot cold o u f n vmax,
  dc_data argsort minimize savgol spline dspline m0 f0 o0 = Ok d -> 0 < dc_vgap (d_dc d) -> pumped_data argsort savgol J m d hot cold o = Ok u -> o_freq o = Some f -> u_if u = Some n ->
  sorting argsort -> 0 < f -> 0 < o_t_cold o < o_t_hot o -> (exists t, nth (n_best n) (n_tn n) FNaN = FV t) \/ plot_gain_noise_temp d u vmax = Err ValueError.
Proof. intros. eapply gain_noise_figure; eassumption. Qed.
Print Assumptions C136_not_a_number.
(** PumpedData.plot_gain: the gain in percent. *)
Theorem C136_gain : forall argsort minimize savgol J spline dspline m0 f0 o0 d m hot cold o u f n vmax,
  dc_data argsort minimize savgol spline dspline m0 f0 o0 = Ok d -> 0 < dc_vgap (d_dc d) -> pumped_data argsort savgol J m d hot cold o = Ok u -> o_freq o = Some f -> u_if u = Some n ->
  sorting argsort -> 0 < f -> 0 < o_t_cold o < o_t_hot o -> (forall x, In x (n_gain n) -> exists y, x = FV y) ->
  exists a top, plot_gain d u vmax = Ok a /\ In (FV top) (n_gain n) /\ (forall z, In (FV z) (n_gain n) -> z <= top) /\
    shows a [("$G_{{c}}$"%string, List.combine (millivolts (d_dc d) (n_voltage n)) (map (fun g => fmul g (FV 100)) (n_gain n)))] [] /\
    g_xlim a = (Some 0, Some vmax) /\ g_ylim a = (Some 0, Some (top * 105)) /\ g_xlabel a = "Bias Voltage (mV)"%string /\ g_ylabel a = "Gain (%)"%string.
Proof. intros. eapply gain_figure; eassumption. Qed.
Print Assumptions C136_gain.
(** Without IF results none of these is drawn. *)
Theorem C136_no_if_results : forall d u vmax, u_if u = None ->
  plot_if d u vmax = Err TypeError /\ plot_noise_temp d u vmax = Err TypeError /\ plot_yfac_noise_temp d u vmax = Err TypeError /\ plot_gain_noise_temp d u vmax = Err TypeError /\ plot_gain d u vmax = Err TypeError.
Proof. exact no_if. Qed.
Print Assumptions C136_no_if_results.
(** A measurement for which the theorems of C135 and C136 apply. *)
Example C136_case : forall minimize savgol dspline, let o := shown None (Some (25 / 100, 8 / 10)) None None in exists d u n,
  dc_data insertion_argsort minimize savgol (fun _ _ _ _ => 1) dspline file None o = Ok d /\ dc_vgap (d_dc d) = 3 / 10 ^ 3 /\
  pumped_data insertion_argsort savgol besselJ (pumped_file besselJ) d (Some hot_file) (Some cold_file) o = Ok u /\ o_freq o = Some 230 /\ u_if u = Some n /\
  sorting insertion_argsort /\ 0 < o_t_cold o < o_t_hot o /\ 0 < o_vmax o /\ (2 <= o_npts o)%nat /\
  (31 <= length (where_nonzero (n_hot n) (n_hot n)))%nat /\ (31 <= length (n_voltage n))%nat /\ (exists t, nth (n_best n) (n_tn n) FNaN = FV t) /\ (forall x, In x (n_gain n) -> exists y, x = FV y).
Proof.
  intros minimize savgol dspline. destruct bessel_3_2 as (H0 & H1 & H2). apply (shown_hypotheses minimize savgol besselJ H0 H1 H2 dspline).
Qed.
