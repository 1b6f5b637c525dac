(** Properties C73-C76, C78 and C94-C97: IF power measurements (vocabulary in Spec_IFData.v
    and Spec_IVData.v).  savgol stands for SciPy's function and is arbitrary. *)
From Coq Require Import List ZArith Bool Lia Reals Lra String.
From Verif Require Import Base Float NumPy Spec_CleanData Proof_CleanData Model_CleanData Model_MathFn Spec_RespFn Model_RespFn Spec_IVData Model_IVData Spec_IFData Model_IFData Proof_IFNoise Proof_IFLoad Proof_IFLoad2 Proof_IFShot Proof_IFResponse Proof_IFCases Spec_Case.
Import ListNotations.
Open Scope R_scope.

(** ** C73 *)
(** Powers G (T_load + T), with G and T depending on the bias voltage.  (T up to 1e10 times
    the difference of the load temperatures.) *)
Theorem C73_recovers : forall v G T vgap q f, q_freq q = Some f -> 0 < f -> 0 < q_t_cold q < q_t_hot q -> List.length G = List.length v -> List.length T = List.length v ->
  let Th := callen_welton (f * 10 ^ 9) (q_t_hot q) in let Tc := callen_welton (f * 10 ^ 9) (q_t_cold q) in
  (forall k, (k < List.length v)%nat -> nth k G 0 <> 0 /\ 0 < Tc + nth k T 0 <= (Th - Tc) * 10 ^ 10) ->
  forall tn gain idx, find_tn_gain v (zipwith (fun g t => g * (Th + t)) G T) v (zipwith (fun g t => g * (Tc + t)) G T) vgap q = Ok (tn, gain, idx) ->
  tn = map FV T /\ gain = map FV G.
Proof. exact analysis_recovers. Qed.
Print Assumptions C73_recovers.
(** Files whose hot and cold powers are in the ratio of a receiver with noise temperature
    T: it is found at every voltage of the result with a cold power, whatever the
    smoothing, the calibration, the series resistance and the order of the rows. *)
Theorem C73_measured : forall savgol argsort hot cold dc dcif q f T v ph pc tn gain idx meta, sorting argsort -> q_freq q = Some f -> 0 < f -> 0 < q_t_cold q < q_t_hot q ->
  let Th := callen_welton (f * 10 ^ 9) (q_t_hot q) in let Tc := callen_welton (f * 10 ^ 9) (q_t_cold q) in
  0 < Tc + T <= (Th - Tc) * 10 ^ 10 -> hot = {| ncols := ncols cold; rows := times ((Th + T) / (Tc + T)) (rows cold) |} ->
  if_data savgol argsort hot cold dc dcif q = Ok (v, ph, pc, tn, gain, idx, meta) ->
  List.length tn = q_npts q /\ List.length gain = q_npts q /\ List.length pc = q_npts q /\ forall k, (k < q_npts q)%nat ->
    (nth k pc 0 <> 0 -> nth k tn FNaN = FV T /\ nth k gain FNaN = FV (nth k pc 0 / (Tc + T))) /\ (nth k pc 0 = 0 -> nth k tn FPInf = FNaN /\ nth k gain FNaN = FV 0).
Proof. exact if_recovers. Qed.
Print Assumptions C73_measured.
Example C73_case : forall savgol r, 0 < r -> exists V ph pc tn gain idx meta,
  if_data savgol insertion_argsort {| ncols := ncols cold0; rows := times r (rows cold0) |} cold0 dc0 (Some dcif0) (q0 "Max Gain" (Some 1)) = Ok (V, ph, pc, tn, gain, idx, meta).
Proof. exact run_case. Qed.

(** ** C74 *)
(** All powers times k, with a calibration from elsewhere. *)
Theorem C74_given : forall savgol argsort hot cold dc d q f k v ph pc tn gain idx meta, sorting argsort -> 0 < k -> q_freq q = Some f -> 0 < f -> 0 < q_t_hot q -> 0 < q_t_cold q ->
  if_data savgol argsort hot cold dc (Some d) q = Ok (v, ph, pc, tn, gain, idx, meta) ->
  if_data savgol argsort {| ncols := ncols hot; rows := times k (rows hot) |} {| ncols := ncols cold; rows := times k (rows cold) |} dc (Some d) q =
    Ok (v, map (fun a => a * k) ph, map (fun a => a * k) pc, tn, map (fmul (FV k)) gain, idx, meta).
Proof. exact if_scaled_given. Qed.
Print Assumptions C74_given.
(** With ranges for the shot noise the calibration makes up for k. *)
Theorem C74_shot : forall savgol argsort hot cold dc q vs k v ph pc tn gain idx meta, sorting argsort -> 0 < k -> q_vshot q = Some vs ->
  if_data savgol argsort hot cold dc None q = Ok (v, ph, pc, tn, gain, idx, meta) ->
  if_data savgol argsort {| ncols := ncols hot; rows := times k (rows hot) |} {| ncols := ncols cold; rows := times k (rows cold) |} dc None q =
    Ok (v, ph, pc, tn, gain, idx, {| if_noise := if_noise meta; if_corr := if_corr meta / k; if_fit := if_fit meta; if_shot := if_shot meta; if_vmax := if_vmax meta |}).
Proof. exact if_scaled_shot. Qed.
Print Assumptions C74_shot.
(** Whatever the calibrations, as long as they are positive. *)
Theorem C74_any_calibration : forall savgol argsort hot cold dc d d' q f k v ph pc tn gain idx meta v' ph' pc' tn' gain' idx' meta', sorting argsort -> 0 < k -> q_freq q = Some f -> 0 < f -> 0 < q_t_hot q -> 0 < q_t_cold q ->
  if_data savgol argsort hot cold dc d q = Ok (v, ph, pc, tn, gain, idx, meta) ->
  if_data savgol argsort {| ncols := ncols hot; rows := times k (rows hot) |} {| ncols := ncols cold; rows := times k (rows cold) |} dc d' q = Ok (v', ph', pc', tn', gain', idx', meta') ->
  0 < if_corr meta -> 0 < if_corr meta' ->
  v' = v /\ tn' = tn /\ idx' = idx /\ gain' = map (fmul (FV (k * if_corr meta' / if_corr meta))) gain.
Proof. exact if_any_calibration. Qed.
Print Assumptions C74_any_calibration.

(** ** C75 *)
Theorem C75_requested : forall savgol argsort hot cold dc d q f vb v ph pc tn gain idx meta, sorting argsort -> q_freq q = Some f -> 0 < f -> 0 < q_t_hot q -> 0 < q_t_cold q ->
  if_data savgol argsort hot cold dc d q = Ok (v, ph, pc, tn, gain, idx, meta) -> q_vbest q = Some vb -> smallest (map (fun a => Rabs (a * dc_vgap dc - vb)) v) idx.
Proof. exact if_requested. Qed.
Print Assumptions C75_requested.
Theorem C75_max_gain : forall savgol argsort hot cold dc d q f v ph pc tn gain idx meta, sorting argsort -> q_freq q = Some f -> 0 < f -> 0 < q_t_hot q -> 0 < q_t_cold q -> q_t_cold q <> q_t_hot q ->
  if_data savgol argsort hot cold dc d q = Ok (v, ph, pc, tn, gain, idx, meta) -> q_vbest q = None -> same_letters (q_best_pt q) "max gain" ->
  exists g, gain = map FV g /\ largest g idx.
Proof. exact if_max_gain. Qed.
Print Assumptions C75_max_gain.
(** The smallest of the noise temperatures that are numbers. *)
Theorem C75_min_tn : forall savgol argsort hot cold dc d q f v ph pc tn gain idx meta, sorting argsort -> q_freq q = Some f -> 0 < f -> 0 < q_t_cold q < q_t_hot q ->
  if_data savgol argsort hot cold dc d q = Ok (v, ph, pc, tn, gain, idx, meta) -> q_vbest q = None -> same_letters (q_best_pt q) "min tn" ->
  exists t, (idx < List.length tn)%nat /\ nth idx tn FNaN = FV t /\ forall u, In (FV u) tn -> t <= u.
Proof. exact if_min_tn. Qed.
Print Assumptions C75_min_tn.
(** Other selectors: an error, and the selection itself ends with ValueError. *)
Theorem C75_unknown : forall savgol argsort hot cold dc d q f r, sorting argsort -> q_freq q = Some f -> 0 < f -> 0 < q_t_hot q -> 0 < q_t_cold q ->
  q_vbest q = None -> ~ same_letters (q_best_pt q) "max gain" -> ~ same_letters (q_best_pt q) "min tn" -> if_data savgol argsort hot cold dc d q <> Ok r.
Proof. exact if_unknown. Qed.
Print Assumptions C75_unknown.
Theorem C75_value_error : forall v h c vgap q f, q_freq q = Some f -> 0 < f -> 0 < q_t_hot q -> 0 < q_t_cold q -> List.length h = List.length v -> List.length c = List.length v ->
  q_vbest q = None -> ~ same_letters (q_best_pt q) "max gain" -> ~ same_letters (q_best_pt q) "min tn" -> find_tn_gain v h v c vgap q = Err ValueError.
Proof. exact best_unknown_name. Qed.
Print Assumptions C75_value_error.
Example C75_case : same_letters "Max Gain" "max gain" /\ same_letters "MIN TN" "min tn" /\ ~ same_letters "best" "max gain" /\ ~ same_letters "best" "min tn".
Proof. exact best_names. Qed.

(** ** C76 *)
Theorem C76_value : forall f T, 0 < f -> 0 < T -> temp_cw f T = Ok (FV (callen_welton f T)).
Proof. exact cw_eq. Qed.
Print Assumptions C76_value.
Theorem C76_bounds : forall f T, 0 < f -> 0 < T -> T < callen_welton f T /\ planck * f / (2 * boltzmann) < callen_welton f T /\ callen_welton f T < T + planck * f / (2 * boltzmann).
Proof. exact (fun f T F P => conj (cw_above_T f T F P) (conj (cw_above_half f T F P) (cw_below f T F P))). Qed.
Print Assumptions C76_bounds.
Theorem C76_increasing : forall f f' T T', 0 < f -> 0 < T -> (T < T' -> callen_welton f T < callen_welton f T') /\ (f < f' -> callen_welton f T < callen_welton f' T).
Proof. exact (fun f f' T T' F P => conj (fun H => cw_rises f T T' F (conj P H)) (fun H => cw_rises_f f f' T P (conj F H))). Qed.
Print Assumptions C76_increasing.
(** Absolute zero and frequency zero. *)
Theorem C76_refuted_zero : (forall f, temp_cw f 0 = Err ZeroDivisionError) /\ (forall T, 0 < T -> temp_cw 0 T = Ok FNaN).
Proof. exact (conj cw_zero cw_dc). Qed.
Print Assumptions C76_refuted_zero.
Example C76_case : 0 < 230 * 10 ^ 9 /\ 0 < 79 < 293. Proof. split; lra. Qed.

(** ** C78 *)
Theorem C78_clamped : forall f h c th tc mx, List.length h = List.length f -> List.length c = List.length f -> 0 <= mx ->
  exists tn, if_response {| ncols := 3; rows := by_frequency (map FV f) (map FV h) (map FV c) |} th tc mx = Ok (map FV f, map FV tn, map FV h, map FV c) /\
    List.length tn = List.length f /\ forall k, (k < List.length f)%nat -> 0 <= nth k tn 0 <= mx.
Proof. exact response_clamped. Qed.
Print Assumptions C78_clamped.
(** The other orientation gives the same result. *)
Theorem C78_orientation_partial : forall f h c th tc mx, List.length h = List.length f -> List.length c = List.length f -> List.length f <> 3%nat ->
  if_response {| ncols := List.length f; rows := by_quantity f h c |} th tc mx = if_response {| ncols := 3; rows := by_frequency f h c |} th tc mx.
Proof. exact response_orientation. Qed.
Print Assumptions C78_orientation_partial.
(** Missing: three frequencies, where the orientation is ambiguous, *)
Theorem C78_refuted_square : exists f h c th tc mx, List.length h = List.length f /\ List.length c = List.length f /\
  if_response {| ncols := List.length f; rows := by_quantity f h c |} th tc mx <> if_response {| ncols := 3; rows := by_frequency f h c |} th tc mx.
Proof. exact square_wrong. Qed.
Print Assumptions C78_refuted_square.
(** and spectra without any cold power at some frequency. *)
Theorem C78_refuted_no_power : exists f h c th tc mx tn r1 r2 r3, List.length h = List.length f /\ List.length c = List.length f /\ 0 < tc < th /\ 0 < mx /\
  if_response {| ncols := 3; rows := by_frequency f h c |} th tc mx = Ok (r1, tn, r2, r3) /\ In FNaN tn.
Proof. exact dark_wrong. Qed.
Print Assumptions C78_refuted_no_power.
Example C78_case : List.length [FV 1; FV 2] = List.length [FV 3; FV 4] /\ List.length [FV 1; FV 2] <> 3%nat. Proof. split; [reflexivity|discriminate]. Qed.

(** ** C94 *)
Theorem C94_bounds : forall savgol argsort hot cold dc d q f v ph pc tn gain idx meta k, sorting argsort -> q_freq q = Some f -> 0 < f -> 0 < q_t_cold q < q_t_hot q ->
  if_data savgol argsort hot cold dc d q = Ok (v, ph, pc, tn, gain, idx, meta) -> (k < q_npts q)%nat ->
  let Th := callen_welton (f * 10 ^ 9) (q_t_hot q) in let Tc := callen_welton (f * 10 ^ 9) (q_t_cold q) in
  List.length tn = q_npts q /\ List.length gain = q_npts q /\
  (nth k tn FPInf = FNaN <-> nth k pc 0 = 0 /\ 0 <= nth k ph 0) /\
  (nth k tn FPInf <> FNaN -> exists t, nth k tn FPInf = FV t /\ - Tc < t <= (Th - Tc) * 10 ^ 10 - Tc) /\
  nth k gain FPInf = FV ((nth k ph 0 - nth k pc 0) / (Th - Tc)).
Proof. exact if_bounds. Qed.
Print Assumptions C94_bounds.

(** ** C95 *)
(** The calibrated shot-noise line rises by 5.8 K per millivolt. *)
Theorem C95_calibrated : forall savgol argsort m dc q vs v p meta, sorting argsort -> dcif_data savgol argsort m dc q = Ok (v, p, meta) -> q_vshot q = Some vs -> ranges_of vs <> [] -> 0 < dc_vgap dc -> 0 < q_vmax q -> (2 <= q_npts q)%nat ->
  exists p0 a b, load_if argsort m dc q = Ok (v, p0) /\ p = map (fun a => a * if_corr meta) p0 /\
    best_line (fit_samples (ranges_of vs) (dc_vgap dc) v p0) a b /\ fit_samples (ranges_of vs) (dc_vgap dc) v p0 <> [] /\ a <> 0 /\
    if_corr meta * a = 5800 * dc_vgap dc /\ if_shot meta = (v, map (fun t => (a * t + b) * if_corr meta) v) /\
    joined v (snd (if_shot meta)) (nth 0 (snd (if_shot meta)) 0) (nth (List.length v - 1) (snd (if_shot meta)) 0) (dc_vint dc / dc_vgap dc) (if_noise meta) /\
    (if_fit meta = true <-> 0 < if_noise meta < 50) /\ if_vmax meta = q_vmax q.
Proof. exact dcif_calibrated. Qed.
Print Assumptions C95_calibrated.
(** Samples on a straight line: the calibrated powers rise by 5.8 K per millivolt. *)
Theorem C95_exact : forall savgol x y dc s a b, List.length x = List.length y -> x <> [] -> ranges_of s <> [] -> dc_vgap dc <> 0 -> a <> 0 ->
  let P := fit_samples (ranges_of s) (dc_vgap dc) x y in spread P -> on_the_line P a b ->
  exists n corr line fit, find_if_noise savgol x y dc (Some s) = Ok (n, corr, line, fit) /\ corr * a = 5800 * dc_vgap dc /\ line = map (fun t => (a * t + b) * corr) x /\
    forall p1 p2, In p1 P -> In p2 P -> snd p2 * corr - snd p1 * corr = 5800 * (fst p2 * dc_vgap dc - fst p1 * dc_vgap dc).
Proof. exact shot_exact. Qed.
Print Assumptions C95_exact.
Example C95_case : let x := [1; 2; 3; 4; 5] in let y := map (fun t => 3 * t + 1) x in let P := fit_samples [(0, 6)] 1 x y in List.length P = 5%nat /\ spread P /\ on_the_line P 3 1.
Proof. exact fit_case. Qed.

(** ** C96 *)
(** The voltages are evenly spaced from 0 to vmax; the powers join the measured ones by
    straight lines and are 0 outside; then they are smoothed. *)
Theorem C96_samples : forall argsort m dc q V P, sorting argsort -> load_if argsort m dc q = Ok (V, P) -> q_rseries q = None -> 0 < dc_vgap dc ->
  exists u x y, volts (q_v_fmt q) = Some u /\
    clean_xy argsort (map (fun r => fmul (nth 0 r FNaN) (FV u)) (rows m)) (map (fun r => nth 1 r FNaN) (rows m)) = Ok (map FV x, map FV y) /\ List.length x = List.length y /\
    let x' := map (fun a => a * q_v_multiplier q - fst (dc_offset dc)) x in
    Spec_RespFn.increasing x' /\ List.length V = q_npts q /\ List.length P = q_npts q /\
    (forall k, (k < q_npts q)%nat -> nth k V 0 * dc_vgap dc = INR k * (q_vmax q / INR (q_npts q - 1))) /\
    exists P0, List.length P0 = q_npts q /\ (forall k, (k < q_npts q)%nat -> joined x' y 0 0 (nth k V 0 * dc_vgap dc) (nth k P0 0)) /\
      smoothed_powers (dc_vgap dc) V P0 (q_sigma q) P.
Proof. exact samples_smoothed. Qed.
Print Assumptions C96_samples.
(** Measured through a series resistance: the same with the voltages across the junction,
    which are read from the DC curve. *)
Theorem C96_series : forall argsort m dc q rs V P, sorting argsort -> load_if argsort m dc q = Ok (V, P) -> q_rseries q = Some rs -> 0 < dc_vgap dc ->
  List.length (dc_vraw dc) = List.length (dc_iraw dc) -> Spec_RespFn.increasing (dc_vraw dc) ->
  exists u x y x' r, volts (q_v_fmt q) = Some u /\
    clean_xy argsort (map (fun r => fmul (nth 0 r FNaN) (FV u)) (rows m)) (map (fun r => nth 1 r FNaN) (rows m)) = Ok (map FV x, map FV y) /\ List.length x = List.length y /\
    List.length x' = List.length x /\ List.length r = List.length (dc_vraw dc) /\
    (forall k, (k < List.length (dc_vraw dc))%nat -> static_resistance (nth k (dc_vraw dc) 0) (nth k (dc_iraw dc) 0) (nth k r 0)) /\
    (forall k, (k < List.length x)%nat -> junction_voltage (dc_vraw dc) (dc_iraw dc) r rs (nth k x 0 * q_v_multiplier q - fst (dc_offset dc)) (nth k x' 0)) /\
    Spec_RespFn.increasing x' /\ List.length V = q_npts q /\ List.length P = q_npts q /\
    (forall k, (k < q_npts q)%nat -> nth k V 0 * dc_vgap dc = INR k * (q_vmax q / INR (q_npts q - 1))) /\
    exists P0, List.length P0 = q_npts q /\ (forall k, (k < q_npts q)%nat -> joined x' y 0 0 (nth k V 0 * dc_vgap dc) (nth k P0 0)) /\
      smoothed_powers (dc_vgap dc) V P0 (q_sigma q) P.
Proof. exact series_smoothed. Qed.
Print Assumptions C96_series.
(** At a voltage of the DC curve with a positive resistance this is the measured voltage
    without the drop across the series resistance. *)
Theorem C96_drop : forall v i r rs k c, Spec_RespFn.increasing v -> (forall j, (j < List.length v)%nat -> static_resistance (nth j v 0) (nth j i 0) (nth j r 0)) ->
  (k < List.length v)%nat -> nth k i 0 <> 0 -> 0 <= nth k v 0 / nth k i 0 -> junction_voltage v i r rs (nth k v 0) c -> c = nth k v 0 - rs * nth k i 0.
Proof. exact junction_at. Qed.
Print Assumptions C96_drop.
(** No power is created: the powers stay within the measured range extended to 0. *)
Theorem C96_range : forall argsort m dc q V P lo hi, sorting argsort -> load_if argsort m dc q = Ok (V, P) -> 0 < dc_vgap dc -> lo <= 0 <= hi ->
  (forall r b, In r (rows m) -> nth 1 r FNaN = FV b -> lo <= b <= hi) -> Forall (fun a => lo <= a <= hi) P.
Proof. exact load_range_all. Qed.
Print Assumptions C96_range.
(** Files with increasing voltages are accepted. *)
Theorem C96_accepted : forall argsort dc q u v p, sorting argsort -> volts (q_v_fmt q) = Some u -> List.length p = List.length v -> (2 <= List.length v)%nat -> Spec_RespFn.increasing v ->
  q_rseries q = None -> q_sigma q = None -> 0 < q_v_multiplier q -> 0 < dc_vgap dc ->
  exists V P, load_if argsort {| ncols := 2; rows := measured v p |} dc q = Ok (V, P).
Proof. exact load_total. Qed.
Print Assumptions C96_accepted.
Example C96_case : Spec_RespFn.increasing [0; 1000; 3000] /\ volts (q_v_fmt (q0 "" None)) = Some (/ 10 ^ 3) /\ 0 < dc_vgap dc0.
Proof. split; [apply rising3; lra|]. split; [reflexivity|cbn; lra]. Qed.
Example C96_series_case : exists V P, load_if insertion_argsort {| ncols := 2; rows := measured [1000; 2000; 3000] [1; 2; 3] |} series_dc series_q = Ok (V, P) /\
  Spec_RespFn.increasing (dc_vraw series_dc) /\ List.length (dc_vraw series_dc) = List.length (dc_iraw series_dc).
Proof. exact series_case. Qed.

(** ** C97 *)
Theorem C97_recovers : forall th tc mx h c G T, tc < th -> 0 < G -> 0 < tc + T -> 0 <= T <= mx -> linear h = G * (th + T) -> linear c = G * (tc + T) ->
  response_tn th tc mx (FV h) (FV c) = FV T.
Proof. exact response_recovers. Qed.
Print Assumptions C97_recovers.
(** A gain in dB changes nothing. *)
Theorem C97_units : forall f h c th tc mx k, List.length h = List.length f -> List.length c = List.length f ->
  exists tn, if_response {| ncols := 3; rows := by_frequency (map FV f) (map FV h) (map FV c) |} th tc mx = Ok (map FV f, tn, map FV h, map FV c) /\
  if_response {| ncols := 3; rows := by_frequency (map FV f) (map (fun a => FV (a + k)) h) (map (fun a => FV (a + k)) c) |} th tc mx = Ok (map FV f, tn, map (fun a => FV (a + k)) h, map (fun a => FV (a + k)) c).
Proof. exact response_gain. Qed.
Print Assumptions C97_units.
(** No more hot than cold power: the maximum is reported (if it is below 1e6 times the
    difference of the temperatures). *)
Theorem C97_no_signal : forall th tc mx h c, h <= c -> mx < (th - tc) * 10 ^ 6 - tc -> response_tn th tc mx (FV h) (FV c) = FV mx.
Proof. exact response_no_signal. Qed.
Print Assumptions C97_no_signal.
Example C97_case : linear 30 = 1 * (901 + 99) /\ linear 20 = 1 * (1 + 99) /\ 1 < 901 /\ 0 < 1 + 99 /\ 0 <= 99 <= 100.
Proof. exact response_case. Qed.
