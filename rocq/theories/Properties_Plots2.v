(** C137-C138: the figures of the impedance recovery. *)
From Coq Require Import List ZArith Bool Reals String.
From Coquelicot Require Import Complex.
From Verif Require Import Base Float NumPy Model_CleanData Model_RespFn Spec_RespFn Spec_CleanData Spec_IVData Model_IVData Spec_IFData Model_IFData Model_Tucker Model_QtCurrent Model_ExpData Spec_ExpData Model_Objects Spec_Objects Bessel Proof_BesselVal
  Model_Misc Model_Plots Spec_Plots Proof_CleanData Proof_Objects2 Proof_Objects4 Proof_Plots3 Proof_Plots4 Proof_Plots5.
From Verif Require Model_HB.
Import ListNotations.
Open Scope R_scope.
Local Notation length := List.length.

(** ** C137 *)
(** plot_simulated: the measured curves, the I-V curve simulated with the recovered circuit and
    the ends of the interval used for the recovery.
    Partial: the interval has to be given with fit_range; see C137_refuted. *)
Theorem C137_simulated_partial : forall argsort minimize savgol J spline dspline inv m0 f0 o0 d m hot cold o u f lo hi vmax a,
  dc_data argsort minimize savgol spline dspline m0 f0 o0 = Ok d -> 0 < dc_vgap (d_dc d) -> 0 < o_vmax o0 -> (2 <= o_npts o0)%nat ->
  pumped_data argsort savgol J m d hot cold o = Ok u -> o_freq o = Some f -> / 10000 < f * 10 ^ 9 / dc_fgap (d_dc d) -> o_fit_range o = Some (lo, hi) ->
  plot_simulated J inv d u o vmax = Ok a -> exists r vt c vj y1 y2 top,
  let dc := d_dc d in let vph := f * 10 ^ 9 / dc_fgap dc in
  u_recovered u = Some r /\ rec_vt r = FV vt /\ recovered_source vph (rec_zt r) (RtoC vt) c /\
  Model_HB.r_ret (Model_HB.harmonic_balance J inv c (resp (d_resp_smear d)) (NbInt 30) 10 (1 / 1000) None 1 "o" (RtoC (67 / 100))) = Ok (Model_HB.RetV vj) /\
  let X := millivolts dc sim_voltages in let Y := microamps dc (tucker_curve J (idc (d_resp_smear d)) vph 30 (vj 1%nat 1%nat)) in
  let x1 := on_photon_step dc f lo in let x2 := on_photon_step dc f hi in
  shows a (pumped_curves d u ++ [("Simulated"%string, List.combine X (map FV Y)); marks "Fit Interval" (x1, y1) (x2, y2)]) (step_lines dc f) /\
  on_curve X Y x1 y1 /\ on_curve X Y x2 y2 /\ on_curve (millivolts dc (d_voltage d)) (microamps dc (d_current d)) vmax top /\
  g_xlim a = (Some 0, Some vmax) /\ g_ylim a = (Some 0, Some top) /\ g_xlabel a = "Bias Voltage (mV)"%string /\ g_ylabel a = "DC Current (uA)"%string /\ g_title a = circuit_legend dc f vt (rec_zt r).
Proof. exact simulated_given. Qed.
Print Assumptions C137_simulated_partial.
(** Without an embedding impedance the figure is always drawn, and the whole source voltage is
    on the junction. *)
Theorem C137_no_impedance : forall argsort minimize savgol J spline dspline inv m0 f0 o0 d m hot cold o u f r vt vmax,
  dc_data argsort minimize savgol spline dspline m0 f0 o0 = Ok d -> 0 < dc_vgap (d_dc d) -> 0 < o_vmax o0 -> (2 <= o_npts o0)%nat ->
  pumped_data argsort savgol J m d hot cold o = Ok u -> o_freq o = Some f -> / 10000 < f * 10 ^ 9 / dc_fgap (d_dc d) ->
  u_recovered u = Some r -> rec_zt r = RtoC 0 -> rec_vt r = FV vt -> exists a y1 y2, plot_simulated J inv d u o vmax = Ok a /\
  let dc := d_dc d in let vph := f * 10 ^ 9 / dc_fgap dc in
  let X := millivolts dc sim_voltages in let Y := microamps dc (tucker_curve J (idc (d_resp_smear d)) vph 30 (fun _ => RtoC vt)) in
  let x1 := on_photon_step dc f (fst (simulated_limits o)) in let x2 := on_photon_step dc f (1 - snd (simulated_limits o)) in
  shows a (pumped_curves d u ++ [("Simulated"%string, List.combine X (map FV Y)); marks "Fit Interval" (x1, y1) (x2, y2)]) (step_lines dc f) /\
  on_curve X Y x1 y1 /\ on_curve X Y x2 y2.
Proof. exact simulated_zero. Qed.
Print Assumptions C137_no_impedance.
(** With cut_low = 0.25 and cut_high = 0.2 the recovery uses the photon step from 0.25 to
    0.8, but the figure marks 0.25 and 0.2. *)
Theorem C137_refuted : forall minimize savgol dspline inv vmax, let o := shown (Some (RtoC 0)) None (Some (25 / 100)) (Some (2 / 10)) in exists d u r a y1 y2 s1 s2,
  dc_data insertion_argsort minimize savgol (fun _ _ _ _ => 1) dspline file None o = Ok d /\ pumped_data insertion_argsort savgol besselJ (pumped_file besselJ) d (Some hot_file) (Some cold_file) o = Ok u /\
  u_recovered u = Some r /\ recover_zemb besselJ (idc (d_resp d)) (ikk (d_resp d)) (u_voltage u) (u_current u) (230 * 10 ^ 9 / dc_fgap (d_dc d)) (rec_options (shown (Some (RtoC 0)) (Some (25 / 100, 8 / 10)) (Some (25 / 100)) (Some (2 / 10)))) = Ok r /\
  plot_simulated besselJ inv d u o vmax = Ok a /\
  shows a (pumped_curves d u ++ [("Simulated"%string, s1); s2]) (step_lines (d_dc d) 230) /\
  s2 = marks "Fit Interval" (on_photon_step (d_dc d) 230 (25 / 100), y1) (on_photon_step (d_dc d) 230 (2 / 10), y2) /\
  on_photon_step (d_dc d) 230 (2 / 10) < on_photon_step (d_dc d) 230 (8 / 10).
Proof. destruct bessel_3_2 as (H0 & H1 & H2). intros minimize savgol. exact (simulated_cuts minimize savgol besselJ H0 H1 H2). Qed.
Print Assumptions C137_refuted.
(** Data for which C137_simulated_partial and C137_no_impedance apply. *)
Example C137_case : forall minimize savgol dspline inv vmax, let o := shown (Some (RtoC 0)) (Some (25 / 100, 8 / 10)) None None in exists d u r vt a,
  dc_data insertion_argsort minimize savgol (fun _ _ _ _ => 1) dspline file None o = Ok d /\ 0 < dc_vgap (d_dc d) /\ 0 < o_vmax o /\ (2 <= o_npts o)%nat /\
  pumped_data insertion_argsort savgol besselJ (pumped_file besselJ) d (Some hot_file) (Some cold_file) o = Ok u /\ o_freq o = Some 230 /\ / 10000 < 230 * 10 ^ 9 / dc_fgap (d_dc d) /\ o_fit_range o = Some (25 / 100, 8 / 10) /\
  u_recovered u = Some r /\ rec_zt r = RtoC 0 /\ rec_vt r = FV vt /\ plot_simulated besselJ inv d u o vmax = Ok a.
Proof. destruct bessel_3_2 as (H0 & H1 & H2). intros minimize savgol. exact (simulated_hypotheses minimize savgol besselJ H0 H1 H2). Qed.

(** ** C138 *)
(** plot_error_surface: the logarithm of the error over the embedding impedance in ohms.
    Partial: the marked point has the smallest error if no impedance is given; see
    C138_refuted. *)
Theorem C138_surface_partial : forall argsort savgol J m d hot cold o u f r lo hi a,
  pumped_data argsort savgol J m d hot cold o = Ok u -> o_freq o = Some f -> u_recovered u = Some r -> o_fit_range o = Some (lo, hi) ->
  plot_error_surface d u o = Ok a ->
  let idc := idc (d_resp d) in let ikk := ikk (d_resp d) in let vph := f * 10 ^ 9 / dc_fgap (d_dc d) in let rn := dc_rn (d_dc d) in
  let B := step_samples vph lo hi (u_voltage u) (u_current u) in
  exists al, find_alpha J idc (map fst B) (map snd B) vph (o_alpha_max o) (o_num_b o) = Ok al /\
  let pts := map (fun p => junction_sample J idc ikk vph (o_num_b o) (fst (fst p)) (snd p)) (List.combine B al) in
  let z := grid_point (o_remb_range o) (o_xemb_range o) in
  ((forall p, In p (List.combine B al) -> ac_current J idc ikk vph (snd p) (o_num_b o) (fst (fst p)) <> RtoC 0) ->
   (forall i j, (i <= 100)%nat -> (j <= 200)%nat -> connectable pts (z i j)) ->
   exists X Y Z text x y, g_items a = [Surface X Y Z; Note text (FV x) (FV y)] /\ length X = 101%nat /\ length Y = 201%nat /\ length Z = 201%nat /\
     (forall i j, (i <= 100)%nat -> (j <= 200)%nat -> nth i X 0 = Re (z i j) * rn /\ nth j Y 0 = Im (z i j) * rn /\ length (nth j Z []) = 101%nat /\
        exists e, least_mismatch pts (z i j) e /\ nth i (nth j Z []) FNaN = log_error e) /\
     match o_zemb o with
     | None => exists i j e, (i <= 100)%nat /\ (j <= 200)%nat /\ x = nth i X 0 /\ y = nth j Y 0 /\ least_mismatch pts (z i j) e /\
         forall i' j' e', (i' <= 100)%nat -> (j' <= 200)%nat -> least_mismatch pts (z i' j') e' -> e <= e'
     | Some w => x = Re w * rn /\ y = Im w * rn
     end).
Proof. intros *. apply error_surface. Qed.
Print Assumptions C138_surface_partial.
(** With zemb = 0 the note "Minimum Error at" is at 0, which is not on the surface. *)
Theorem C138_refuted : forall minimize savgol dspline, let o := shown (Some (RtoC 0)) (Some (25 / 100, 8 / 10)) None None in exists d u a X Y Z text,
  dc_data insertion_argsort minimize savgol (fun _ _ _ _ => 1) dspline file None o = Ok d /\ pumped_data insertion_argsort savgol besselJ (pumped_file besselJ) d (Some hot_file) (Some cold_file) o = Ok u /\
  plot_error_surface d u o = Ok a /\ g_items a = [Surface X Y Z; Note text (FV 0) (FV 0)] /\ String.substring 0 16 text = "Minimum Error at"%string /\ (forall x, In x X -> 10 <= x) /\ length X = 101%nat.
Proof. destruct bessel_3_2 as (H0 & H1 & H2). intros minimize savgol. exact (forced_note minimize savgol besselJ H0 H1 H2). Qed.
Print Assumptions C138_refuted.
(** Without a recovered impedance neither figure is drawn. *)
Theorem C138_no_recovery : forall J inv d u o vmax, dc_fgap (d_dc d) <> 0 -> u_recovered u = None -> plot_error_surface d u o = Err TypeError /\ plot_simulated J inv d u o vmax = Err TypeError.
Proof. exact no_recovery. Qed.
Print Assumptions C138_no_recovery.
(** Data for which C138_surface_partial applies. *)
Example C138_case : forall minimize savgol dspline, let o := shown None (Some (25 / 100, 8 / 10)) None None in exists d u r al a,
  dc_data insertion_argsort minimize savgol (fun _ _ _ _ => 1) dspline file None o = Ok d /\ pumped_data insertion_argsort savgol besselJ (pumped_file besselJ) d (Some hot_file) (Some cold_file) o = Ok u /\
  u_recovered u = Some r /\ plot_error_surface d u o = Ok a /\
  let idc := idc (d_resp d) in let ikk := ikk (d_resp d) in let vph := 230 * 10 ^ 9 / dc_fgap (d_dc d) in
  let B := step_samples vph (25 / 100) (8 / 10) (u_voltage u) (u_current u) in
  find_alpha besselJ idc (map fst B) (map snd B) vph (o_alpha_max o) (o_num_b o) = Ok al /\ B <> [] /\
  (forall p, In p (List.combine B al) -> ac_current besselJ idc ikk vph (snd p) (o_num_b o) (fst (fst p)) <> RtoC 0) /\
  (forall i j, (i <= 100)%nat -> (j <= 200)%nat -> connectable (map (fun p => junction_sample besselJ idc ikk vph (o_num_b o) (fst (fst p)) (snd p)) (List.combine B al)) (grid_point (o_remb_range o) (o_xemb_range o) i j)).
Proof. destruct bessel_3_2 as (H0 & H1 & H2). intros minimize savgol. exact (surface_hypotheses minimize savgol besselJ H0 H1 H2). Qed.
