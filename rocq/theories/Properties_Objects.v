(** Properties C107-C115: the data objects DCData and PumpedData (vocabulary in
    Spec_Objects.v, Spec_IVData.v and Spec_IFData.v).  The sort, the optimiser, the
    Savitzky-Golay filter, the Bessel functions and the splines are arbitrary functions
    (where it matters, the sort sorts). *)
From Coq Require Import List ZArith Bool Reals Lra Lia String Permutation.
From Coquelicot Require Import Complex.
From Verif Require Import Base Float NumPy Spec_CleanData Spec_RespFn Model_CleanData Model_RespFn Spec_IVData Model_IVData Spec_IFData Model_IFData Model_ExpData Model_Objects Spec_Objects Proof_CleanData Proof_Objects Proof_Objects2 Proof_Negative.
Import ListNotations.
Open Scope R_scope.
Local Notation length := List.length.

(** ** C107 *)
(** All defaults are the documented ones, except vrn and voffset_range. *)
Theorem C107_defaults_partial : with_ranges PARAMS (o_vrn documented_defaults) (o_voffset_range documented_defaults) = documented_defaults.
Proof. reflexivity. Qed.
Print Assumptions C107_defaults_partial.

(** Missing: those two.  For the file below (millivolts and milliamperes, 10 ohms between 3.5
    and 4.5 mV) the defaults give 5 ohms. *)
Theorem C107_refuted : forall minimize savgol spline dspline, exists d d',
  dc_data insertion_argsort minimize savgol spline dspline file None (unfiltered PARAMS (28 / 10 ^ 4)) = Ok d /\
  dc_data insertion_argsort minimize savgol spline dspline file None (unfiltered documented_defaults (28 / 10 ^ 4)) = Ok d' /\
  dc_rn (d_dc d) = 5 /\ dc_rn (d_dc d') = 10.
Proof. exact defaults_differ. Qed.
Print Assumptions C107_refuted.
Example C107_file : file = {| ncols := 2; rows := [[FV (195 / 100); FV (195 / 1000)]; [FV (205 / 100); FV (205 / 1000)]; [FV (36 / 10); FV (36 / 100)]; [FV (42 / 10); FV (42 / 100)]; [FV (48 / 10); FV (60 / 100)]] |}.
Proof. reflexivity. Qed.

(** ** C108 *)
(** e times the photon voltage in volts is h times the frequency (given in GHz). *)
Theorem C108_photon_voltage : forall argsort minimize savgol J spline dspline m0 f0 o0 d m hot cold o p f,
  dc_data argsort minimize savgol spline dspline m0 f0 o0 = Ok d -> pumped_data argsort savgol J m d hot cold o = Ok p -> o_freq o = Some f ->
  elementary_charge * (u_vph p * dc_vgap (d_dc d)) = planck * (f * 10 ^ 9).
Proof. intros *. apply photon_voltage. Qed.
Print Assumptions C108_photon_voltage.
Theorem C108_no_frequency : forall argsort savgol J m d hot cold o, o_freq o = None -> pumped_data argsort savgol J m d hot cold o = Err ValueError.
Proof. exact no_frequency. Qed.
Print Assumptions C108_no_frequency.
Example C108_case : forall minimize savgol J spline dspline, exists d p,
  dc_data insertion_argsort minimize savgol spline dspline file None quick = Ok d /\ pumped_data insertion_argsort savgol J file d None None quick = Ok p /\ 0 < dc_vgap (d_dc d).
Proof. exact quick_case. Qed.
Example C108_case_frequency : o_freq quick = Some 230 /\ o_freq PARAMS = None. Proof. split; reflexivity. Qed.

(** ** C109 *)
Theorem C109_common_grid : forall argsort minimize savgol J spline dspline m0 f0 o0 d m hot cold o p,
  dc_data argsort minimize savgol spline dspline m0 f0 o0 = Ok d -> pumped_data argsort savgol J m d hot cold o = Ok p ->
  o_vmax o = o_vmax o0 -> o_npts o = o_npts o0 ->
  u_voltage p = d_voltage d /\ length (u_current p) = length (d_current d) /\ length (u_current p) = o_npts o.
Proof. intros *. apply common_grid. Qed.
Print Assumptions C109_common_grid.
(** (C108_case meets the hypotheses.) *)

(** ** C110 *)
Theorem C110_analysed : forall argsort savgol J m d hot cold o p, pumped_data argsort savgol J m d hot cold o = Ok p ->
  (u_recovered p <> None <-> o_analyze_iv o = true) /\
  (u_if p <> None <-> hot <> None /\ cold <> None /\ o_analyze_if o = true) /\
  forall n c, u_if p = Some n -> calibration d = Some c ->
    if_noise (n_dcif n) = if_noise c /\ if_corr (n_dcif n) = if_corr c /\ if_fit (n_dcif n) = if_fit c /\ if_shot (n_dcif n) = if_shot c.
Proof. exact analysed. Qed.
Print Assumptions C110_analysed.
(** (C108_case meets the hypothesis.) *)

(** ** C111 *)
(** The results that are always there. *)
Theorem C111_attributes_partial : forall a b, 
  incl ["zt"; "vt"; "fit_good"; "zw"; "alpha"]%string (recovery_attributes a) /\
  incl ["good_if_noise_fit"; "idx_best"; "if_hot"; "if_cold"; "tn"; "gain"; "if_noise"; "shot_slope"; "tn_best"; "g_db"]%string (if_attributes b).
Proof. intros a b. split; [destruct a|destruct b]; cbn; intros x H; cbn in *; tauto. Qed.
Print Assumptions C111_attributes_partial.
(** Missing: these exist only if the data are analysed. *)
Theorem C111_refuted : forall x, 
  (In x (recovery_attributes true) /\ ~ In x (recovery_attributes false) <-> x = "err_surf"%string) /\
  (In x (if_attributes true) /\ ~ In x (if_attributes false) <-> In x ["corr"; "gain_best"; "v_best"; "zj_if"]%string).
Proof.
  intros x. cbn. split; split; intros H.
  - intuition congruence.
  - subst. split; [tauto|]. intros K. repeat (destruct K as [K|K]; [discriminate|]). assumption.
  - destruct H as [H N]. repeat (destruct H as [H|H]; [subst; try tauto; exfalso; apply N; tauto|]). contradiction.
  - repeat (destruct H as [H|H]; [subst; split; [tauto|]; intros K; repeat (destruct K as [K|K]; [discriminate|]); assumption|]). contradiction.
Qed.
Print Assumptions C111_refuted.

(** ** C112 *)
(** The same measurement in other units gives the same object. *)
Theorem C112_dc_units : forall argsort minimize savgol spline dspline m f o u u' w w' x x' y y',
  volts u = Some x -> volts u' = Some x' -> amperes w = Some y -> amperes w' = Some y' ->
  dc_data argsort minimize savgol spline dspline (rescaled (x / x') (y / y') m) (option_map (rescaled (x / x') 1) f) (with_units o u' w') =
  dc_data argsort minimize savgol spline dspline m f (with_units o u w).
Proof. intros. apply dc_units; assumption. Qed.
Print Assumptions C112_dc_units.
Theorem C112_pumped_units : forall argsort savgol J m d hot cold o u u' w w' x x' y y',
  volts u = Some x -> volts u' = Some x' -> amperes w = Some y -> amperes w' = Some y' ->
  pumped_data argsort savgol J (rescaled (x / x') (y / y') m) d (option_map (rescaled (x / x') 1) hot) (option_map (rescaled (x / x') 1) cold) (with_units o u' w') =
  pumped_data argsort savgol J m d hot cold (with_units o u w).
Proof. intros. apply pumped_units; assumption. Qed.
Print Assumptions C112_pumped_units.
Example C112_case : volts "mV" = Some (/ 10 ^ 3) /\ volts "uV" = Some (/ 10 ^ 6) /\ amperes "mA" = Some (/ 10 ^ 3) /\ amperes "A" = Some 1 /\ with_units quick "mV" "mA" = quick.
Proof. repeat split; reflexivity. Qed.

(** ** C113 *)
(** A sweep in one direction gives the same object whichever the direction. *)
Theorem C113_dc_direction : forall argsort minimize savgol spline dspline v i f o, sorting argsort -> length i = length v -> (2 <= length v)%nat -> rises v 0 (length v - 1) ->
  dc_data argsort minimize savgol spline dspline (backwards {| ncols := 2; rows := measured v i |}) f o =
  dc_data argsort minimize savgol spline dspline {| ncols := 2; rows := measured v i |} f o.
Proof. intros. apply dc_direction; assumption. Qed.
Print Assumptions C113_dc_direction.
Theorem C113_pumped_direction : forall argsort savgol J v i d hot cold o, sorting argsort -> length i = length v -> (2 <= length v)%nat -> rises v 0 (length v - 1) ->
  pumped_data argsort savgol J (backwards {| ncols := 2; rows := measured v i |}) d hot cold o =
  pumped_data argsort savgol J {| ncols := 2; rows := measured v i |} d hot cold o.
Proof. intros. apply pumped_direction; assumption. Qed.
Print Assumptions C113_pumped_direction.
Example C113_case : let v := [195 / 100; 205 / 100; 36 / 10; 42 / 10; 48 / 10] in
  sorting insertion_argsort /\ rises v 0 (length v - 1) /\ exists i, length i = length v /\ file = {| ncols := 2; rows := measured v i |}.
Proof.
  cbv zeta. split; [exact insertion_sorts|]. split; [|eexists; split; [|reflexivity]; reflexivity].
  cbn [List.length]. intros j k IJ K. destruct j as [|[|[|[|[|j]]]]], k as [|[|[|[|[|k]]]]]; try lia; cbn; lra.
Qed.

(** ** C114 *)
(** The order of the rows of IF data does not matter if no voltage occurs twice. *)
Theorem C114_dc_if_order : forall argsort minimize savgol spline dspline m f f' o, sorting argsort -> ncols f' = ncols f -> Permutation (rows f) (rows f') -> NoDup (valid_voltages f) ->
  dc_data argsort minimize savgol spline dspline m (Some f') o = dc_data argsort minimize savgol spline dspline m (Some f) o.
Proof. intros. apply dc_if_order; assumption. Qed.
Print Assumptions C114_dc_if_order.
Theorem C114_pumped_if_order : forall argsort savgol J m d hot cold hot' cold' o, sorting argsort ->
  ncols hot' = ncols hot -> Permutation (rows hot) (rows hot') -> NoDup (valid_voltages hot) ->
  ncols cold' = ncols cold -> Permutation (rows cold) (rows cold') -> NoDup (valid_voltages cold) ->
  pumped_data argsort savgol J m d (Some hot') (Some cold') o = pumped_data argsort savgol J m d (Some hot) (Some cold) o.
Proof. intros. apply (pumped_if_order argsort (fun _ p => p)); assumption. Qed.
Print Assumptions C114_pumped_if_order.
Example C114_case : Permutation [[FV 1; FV 5]; [FNaN; FV 1]; [FV 2; FV 6]] [[FV 2; FV 6]; [FV 1; FV 5]; [FNaN; FV 1]] /\
  NoDup (valid_voltages {| ncols := 2; rows := [[FV 1; FV 5]; [FNaN; FV 1]; [FV 2; FV 6]] |}).
Proof.
  split; [apply Permutation_sym; exact (Permutation_middle [[FV 1; FV 5]; [FNaN; FV 1]] [] [FV 2; FV 6])|]. cbn.
  repeat constructor; cbn; [|tauto]. intros [H|[]]. injection H as H. lra.
Qed.

(** ** C115 *)
(** Between 0 and 1.8 gap voltages the response function of DCData has, at every point of its
    own grid, the current of the curve it was made from (straight lines between the samples),
    and minus that at the opposite voltage. *)
Theorem C115_response_partial : forall argsort minimize savgol spline dspline m f o d k j,
  dc_data argsort minimize savgol spline dspline m f o = Ok d -> 0 < dc_vgap (d_dc d) -> 0 < o_vmax o -> (2 <= o_npts o)%nat ->
  let v := d_voltage d in let c := d_current d in let t := nth k (rf_voltage (d_resp d)) 0 in
  (k < length (rf_voltage (d_resp d)))%nat -> (S j < length v)%nat -> 0 < nth j v 0 -> nth (S j) v 0 < 18 / 10 ->
  (nth j v 0 <= t <= nth (S j) v 0 -> nth k (rf_current (d_resp d)) 0 = chord (nth j v 0) (nth j c 0) (nth (S j) v 0) (nth (S j) c 0) t) /\
  (nth j v 0 <= - t <= nth (S j) v 0 -> nth k (rf_current (d_resp d)) 0 = - chord (nth j v 0) (nth j c 0) (nth (S j) v 0) (nth (S j) c 0) (- t)).
Proof. exact response_nodes. Qed.
Print Assumptions C115_response_partial.
(** Missing: the measured currents at negative voltages are not used.  For the file below
    (millivolts and milliamperes) the curve has the current 39/56 at 1/20 and at -1/20 gap
    voltages, and the response function has -39/56 at -1/20. *)
Theorem C115_refuted : forall minimize savgol spline dspline, exists d k j,
  dc_data insertion_argsort minimize savgol spline dspline lopsided None quick = Ok d /\
  (k < length (rf_voltage (d_resp d)))%nat /\ (j < length (d_voltage d))%nat /\
  nth k (rf_voltage (d_resp d)) 0 = - (1 / 20) /\ nth j (d_voltage d) 0 = - (1 / 20) /\
  nth j (d_current d) 0 = 39 / 56 /\ nth k (rf_current (d_resp d)) 0 = - (39 / 56).
Proof. exact lopsided_case. Qed.
Print Assumptions C115_refuted.
Example C115_file : lopsided = {| ncols := 2; rows := [[FV (- (1 / 2)); FV (195 / 1000)]; [FV (195 / 100); FV (195 / 1000)]; [FV (205 / 100); FV (205 / 1000)]; [FV (36 / 10); FV (36 / 100)]; [FV (42 / 10); FV (42 / 100)]] |}.
Proof. reflexivity. Qed.
