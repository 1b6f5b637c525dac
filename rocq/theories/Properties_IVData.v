(** Properties C64, C66, C68, C70, C71, C92 and C93: experimental I-V data (vocabulary in
    Spec_IVData.v).  minimize and savgol stand for SciPy's functions and are arbitrary. *)
From Coq Require Import List ZArith Bool Lia Reals Lra String.
From Verif Require Import Base Float NumPy Spec_CleanData Proof_CleanData Model_CleanData Model_MathFn Spec_RespFn Model_RespFn Spec_IVData Spec_Offset Model_IVData Proof_Offset Proof_IVLoad Proof_IVData Proof_IVCurve Proof_IVCurve2 Proof_IVCases Proof_IVCases2.
Import ListNotations.
Open Scope R_scope.

(** ** C64 *)
(** Loaded data: strictly increasing voltages, only measured pairs (in volts and amperes),
    both extremes of the measured voltages kept. *)
Theorem C64_loaded : forall argsort m v_fmt i_fmt x y, sorting argsort -> load_iv argsort m v_fmt i_fmt = Ok (x, y) ->
  exists uv ui, volts v_fmt = Some uv /\ amperes i_fmt = Some ui /\
  List.length x = List.length y /\ Forall number x /\ Forall number y /\ Spec_CleanData.increasing x /\
  (forall a b, point x y a b -> exists r, In r (rows m) /\ a = fmul (nth 0 r FNaN) (FV uv) /\ b = fmul (nth 1 r FNaN) (FV ui)) /\
  (exists lo hi, In lo x /\ In hi x /\
     forall r, In r (rows m) -> number (nth 0 r FNaN) -> number (nth 1 r FNaN) ->
       fle lo (fmul (nth 0 r FNaN) (FV uv)) = true /\ fle (fmul (nth 0 r FNaN) (FV uv)) hi = true).
Proof. exact load_props. Qed.
Print Assumptions C64_loaded.

(** A sweep up from the first voltage to the maximum (position a), down to the minimum
    (position b) and back up: kept is the way up to the maximum and, of the way down, the
    part from the sample closest to the first voltage on.  The way back is dropped. *)
Theorem C64_sweep : forall argsort v_fmt i_fmt uv ui v i a b, sorting argsort -> volts v_fmt = Some uv -> amperes i_fmt = Some ui ->
  (a < b < List.length v)%nat -> rises v 0 a -> falls v a b -> rises v b (List.length v - 1) ->
  nth (List.length v - 1) v 0 <= nth a v 0 -> nth b v 0 < nth 0 v 0 ->
  exists x y start, load_iv argsort {| ncols := 2; rows := measured v i |} v_fmt i_fmt = Ok (x, y) /\ (a <= start <= b)%nat /\
    (forall j, (a <= j <= b)%nat -> Rabs (nth start v 0 - nth 0 v 0) <= Rabs (nth j v 0 - nth 0 v 0)) /\
    kept (fun k => (k <= a \/ start <= k <= b)%nat) v i uv ui x y.
Proof. exact sweep_down. Qed.
Print Assumptions C64_sweep.
(** The mirrored sweep. *)
Theorem C64_mirrored : forall argsort v_fmt i_fmt uv ui v i a b, sorting argsort -> volts v_fmt = Some uv -> amperes i_fmt = Some ui ->
  (a < b < List.length v)%nat -> falls v 0 a -> rises v a b -> falls v b (List.length v - 1) ->
  nth a v 0 <= nth (List.length v - 1) v 0 -> nth 0 v 0 < nth b v 0 ->
  exists x y start, load_iv argsort {| ncols := 2; rows := measured v i |} v_fmt i_fmt = Ok (x, y) /\ (a <= start <= b)%nat /\
    (forall j, (a <= j <= b)%nat -> Rabs (nth start v 0 - nth 0 v 0) <= Rabs (nth j v 0 - nth 0 v 0)) /\
    kept (fun k => (k <= a \/ start <= k <= b)%nat) v i uv ui x y.
Proof. exact sweep_up. Qed.
Print Assumptions C64_mirrored.
(** A single pass is loaded as it is. *)
Theorem C64_single_pass : forall argsort v_fmt i_fmt uv ui v i, sorting argsort -> volts v_fmt = Some uv -> amperes i_fmt = Some ui ->
  List.length i = List.length v -> (2 <= List.length v)%nat -> rises v 0 (List.length v - 1) ->
  load_iv argsort {| ncols := 2; rows := measured v i |} v_fmt i_fmt = Ok (map (fun a => FV (a * uv)) v, map (fun a => FV (a * ui)) i).
Proof. exact load_rising. Qed.
Print Assumptions C64_single_pass.
Example C64_case : let v := [0; 1; 0; -1; 0] in sorting insertion_argsort /\ volts "mV" = Some (/ 10 ^ 3) /\ amperes "uA" = Some (/ 10 ^ 6) /\
  (1 < 3 < List.length v)%nat /\ rises v 0 1 /\ falls v 1 3 /\ rises v 3 (List.length v - 1) /\ nth (List.length v - 1) v 0 <= nth 1 v 0 /\ nth 3 v 0 < nth 0 v 0.
Proof. exact sweep_case. Qed.

(** ** C66 *)
(** What becomes of each sample (only samples at the origin are dropped). *)
Theorem C66_corrected : forall v i rs, List.length v = List.length i ->
  exists v' i', correct_series_resistance v i (Some rs) = Ok (v', i') /\ List.length v' = List.length i' /\
  Forall2 (fun p q => corrected (fst p) (snd p) rs (fst q) /\ snd q = FV (snd p)) (filter nonzero (List.combine v i)) (List.combine v' i').
Proof. exact series_props. Qed.
Print Assumptions C66_corrected.
Theorem C66_none : forall v i, correct_series_resistance v i None = Ok (map FV v, map FV i).
Proof. exact series_none. Qed.
Print Assumptions C66_none.
(** The voltages across the junction come back from the voltages across junction and
    series resistance. *)
Theorem C66_junction_partial : forall vj i rs, List.length vj = List.length i -> 0 <= rs -> Forall2 (fun v c => c <> 0 /\ 0 <= v / c) vj i ->
  correct_series_resistance (zipwith (fun v c => v + c * rs) vj i) i (Some rs) = Ok (map FV vj, map FV i).
Proof. exact series_junction. Qed.
Print Assumptions C66_junction_partial.
(** Missing: a sample without current at a positive voltage becomes NaN. *)
Theorem C66_refuted : exists v i rs, List.length v = List.length i /\ 0 < rs /\ exists x y, correct_series_resistance v i (Some rs) = Ok (x, y) /\ In FNaN x.
Proof. exact series_nan. Qed.
Print Assumptions C66_refuted.
Example C66_case : Forall2 (fun v c => c <> 0 /\ 0 <= v / c) [1; -2] [3; -1].
Proof. repeat constructor; lra. Qed.

(** ** C68 *)
(** Data on one side of the range only: exactly the given offsets are removed (0 for those
    not given). *)
Theorem C68_one_sided_partial : forall minimize v i vo io range, v <> [] -> ~ bipolar (search_range range) v ->
  let o := (match vo with Some a => a | None => 0 end, match io with Some b => b | None => 0 end) in
  correct_offset minimize v i vo io range = Ok (map (fun a => a - fst o) v, map (fun a => a - snd o) i, o).
Proof. exact one_sided. Qed.
Print Assumptions C68_one_sided_partial.
(** Otherwise the given offsets only start the search, and what it returns is removed. *)
Theorem C68_two_sided : forall minimize v i vo io range, List.length v = List.length i -> bipolar (search_range range) v ->
  let P := samples_between (search_range range) v i in
  (P = [] -> correct_offset minimize v i vo io range = Err ValueError) /\
  (P <> [] -> exists o, searched minimize P (search_range range) vo io o /\ correct_offset minimize v i vo io range = Ok (map (fun a => a - fst o) v, map (fun a => a - snd o) i, o)).
Proof. exact two_sided. Qed.
Print Assumptions C68_two_sided.
(** Missing: for two-sided data, any optimiser that finds minima replaces the given offset. *)
Theorem C68_refuted : forall minimize, (forall f x0 p, (exists q, forall r, f q <= f r) -> f (minimize f x0) <= f p) ->
  exists v i range x y o, List.length v = List.length i /\ correct_offset minimize v i (Some 0) (Some 1) range = Ok (x, y, o) /\ snd o = 0 /\ y = i.
Proof. exact offset_ignored. Qed.
Print Assumptions C68_refuted.
Example C68_case : [1; 2] <> [] /\ ~ bipolar (search_range (Width (1 / 2))) [1; 2] /\ bipolar (search_range (Width (1 / 2))) [-1; 0; 2] /\ samples_between (search_range (Width (1 / 2))) [-1; 0; 2] [-1; 0; 2] <> [].
Proof. exact offset_case. Qed.

(** ** C70 *)
Theorem C70_rotate_back : forall x y t, List.length x = List.length y ->
  exists x1 y1, rotate x y t = Ok (x1, y1) /\ List.length x1 = List.length x /\ List.length y1 = List.length y /\ rotate x1 y1 (- t) = Ok (x, y) /\
  forall i j, (i < List.length x)%nat -> (j < List.length x)%nat ->
    (nth i x1 0 - nth j x1 0) ^ 2 + (nth i y1 0 - nth j y1 0) ^ 2 = (nth i x 0 - nth j x 0) ^ 2 + (nth i y 0 - nth j y 0) ^ 2.
Proof. exact rotate_back. Qed.
Print Assumptions C70_rotate_back.
(** Each point is rotated about the origin, and rotations compose. *)
Theorem C70_rotation : forall x y t, List.length x = List.length y ->
  (forall i, (i < List.length x)%nat -> exists x1 y1, rotate x y t = Ok (x1, y1) /\
    nth i x1 0 = cos t * nth i x 0 - sin t * nth i y 0 /\ nth i y1 0 = sin t * nth i x 0 + cos t * nth i y 0) /\
  (forall s x1 y1, rotate x y t = Ok (x1, y1) -> rotate x1 y1 s = rotate x y (t + s)).
Proof. exact (fun x y t L => conj (fun i => rotate_point x y t i L) (fun s x1 y1 => rotate_compose x y t s x1 y1 L)). Qed.
Print Assumptions C70_rotation.
Example C70_case : rotate [1; 0] [0; 2] (PI / 2) = Ok ([cos (PI / 2) * 1 - sin (PI / 2) * 0; cos (PI / 2) * 0 - sin (PI / 2) * 2], [sin (PI / 2) * 1 + cos (PI / 2) * 0; sin (PI / 2) * 0 + cos (PI / 2) * 2]).
Proof. reflexivity. Qed.

(** ** C71 *)
(** Data on a line a v + b in the window: normal resistance 1 / a, intercept - b / a. *)
Theorem C71_normal_line : forall v i lo hi a b, List.length v = List.length i -> spread (samples_within lo hi v i) ->
  on_the_line (samples_within lo hi v i) a b -> a <> 0 -> find_normal_resistance v i (lo, hi) = Ok (/ a, - b / a).
Proof. exact normal_line. Qed.
Print Assumptions C71_normal_line.
Theorem C71_subgap_line : forall v i vrsg a b, List.length v = List.length i ->
  spread (samples_within (vrsg - 1 / 10 ^ 4) (vrsg + 1 / 10 ^ 4) v i) ->
  on_the_line (samples_within (vrsg - 1 / 10 ^ 4) (vrsg + 1 / 10 ^ 4) v i) a b -> a <> 0 -> find_subgap_resistance v i vrsg = Ok (/ a).
Proof. exact subgap_line. Qed.
Print Assumptions C71_subgap_line.
(** Any data: the results belong to least-squares lines. *)
Theorem C71_least_squares : forall v i, List.length v = List.length i ->
  (forall lo hi rn vint, find_normal_resistance v i (lo, hi) = Ok (rn, vint) -> rn <> 0 /\ best_line (samples_within lo hi v i) (/ rn) (- vint / rn)) /\
  (forall vrsg rsg, find_subgap_resistance v i vrsg = Ok rsg ->
     rsg <> 0 /\ exists b, best_line (samples_within (vrsg - 1 / 10 ^ 4) (vrsg + 1 / 10 ^ 4) v i) (/ rsg) b).
Proof. exact (fun v i L => conj (fun lo hi rn vint => normal_best v i lo hi rn vint L) (fun vrsg rsg => subgap_best v i vrsg rsg L)). Qed.
Print Assumptions C71_least_squares.
(** The least-squares line of data on a line is that line. *)
Theorem C71_unique : forall P a b a' b', spread P -> on_the_line P a b -> best_line P a' b' -> a' = a /\ b' = b.
Proof. exact polyfit_unique. Qed.
Print Assumptions C71_unique.
(** The gap: g0 is the sample above 2 mV with the steepest smoothed slope; the least-squares
    lines of the normal state and around g0 meet in a corner, and the line around g0 reaches
    half of the corner's current at the gap voltage. *)
Theorem C71_gap_corner : forall v i lo hi g, List.length v = List.length i -> find_gap_voltage v i (lo, hi) = Ok g ->
  exists a1 b1 a2 b2 vc g0 k vm im der sd sigma,
    best_line (samples_within lo hi v i) a1 b1 /\
    List.combine vm im = filter (fun p => if Rlt_dec (2 / 10 ^ 3) (fst p) then true else false) (List.combine v i) /\
    slope vm im = Ok (map FV der) /\ sigma = 2 / 10 ^ 4 / (nth 1 v 0 - nth 0 v 0) /\ gauss_conv der sigma 3 = Ok sd /\
    (k < List.length sd)%nat /\ (forall j, (j < List.length sd)%nat -> nth j sd 0 <= nth k sd 0) /\ nth_error vm k = Some g0 /\
    best_line (samples_within (g0 - 1 / 10 ^ 5) (g0 + 1 / 10 ^ 5) v i) a2 b2 /\
    a1 * vc + b1 = a2 * vc + b2 /\ a2 <> 0 /\ a2 * g + b2 = (a1 * vc + b1) / 2.
Proof. exact gap_corner. Qed.
Print Assumptions C71_gap_corner.
Example C71_case : spread (samples_within 0 4 [1; 2; 5] [2; 4; 7]) /\ on_the_line (samples_within 0 4 [1; 2; 5] [2; 4; 7]) 2 0.
Proof. exact fit_case. Qed.

(** ** C92 *)
(** The metadata of the imported DC I-V curve fit together. *)
Theorem C92_metadata : forall minimize savgol argsort m p V I d, dciv_curve minimize savgol argsort m p = Ok (V, I, d) ->
  V = dc_vnorm d /\ I = dc_inorm d /\ List.length V = p_npts p /\ List.length I = p_npts p /\
  (forall k, (k < p_npts p)%nat -> nth k V 0 * dc_vgap d = - p_vmax p + INR k * (2 * p_vmax p / INR (p_npts p - 1))) /\
  dc_vgap d <> 0 /\ dc_rn d <> 0 /\ dc_igap d * dc_rn d = dc_vgap d /\ dc_fgap d * planck = elementary_charge * dc_vgap d /\ dc_rseries d = p_rseries p /\
  (forall g, p_vgap p = Some g -> dc_vgap d = g).
Proof. exact dc_metadata. Qed.
Print Assumptions C92_metadata.
(** The normalised DC curve joins the measured samples by straight lines, constant beyond the
    first and last, after units, multipliers, offset, filter and series resistance (as long
    as the voltages still rise then).  The resistances, the gap voltage and the offset of a
    one-sided curve are those of these samples and parameters. *)
Theorem C92_dc_samples : forall savgol minimize argsort m p V I d, sorting argsort -> dciv_curve minimize savgol argsort m p = Ok (V, I, d) ->
  exists v i x y, load_iv argsort m (p_v_fmt p) (p_i_fmt p) = Ok (map FV v, map FV i) /\
    (let range := search_range (p_voffset_range p) in let V := map (fun a => a * p_v_multiplier p) v in let I := map (fun a => a * p_i_multiplier p) i in
     (~ bipolar range V -> dc_offset d = (match p_voffset p with Some a => a | None => 0 end, match p_ioffset p with Some b => b | None => 0 end)) /\
     (bipolar range V -> searched minimize (samples_between range V I) range (p_voffset p) (p_ioffset p) (dc_offset d))) /\
    filter_iv_data savgol (map (fun a => a * p_v_multiplier p - fst (dc_offset d)) v) (map (fun a => a * p_i_multiplier p - snd (dc_offset d)) i)
      (p_filter_data p) (p_filter_nwind p) (p_filter_npoly p) (p_filter_theta p) (p_npts p) = Ok (dc_vraw d, dc_iraw d) /\
    junction_curve (p_rseries p) (dc_vraw d) (dc_iraw d) x y /\
    best_line (samples_within (fst (p_vrn p)) (snd (p_vrn p)) x y) (/ dc_rn d) (- dc_vint d / dc_rn d) /\
    (exists b, best_line (samples_within (p_vrsg p - 1 / 10 ^ 4) (p_vrsg p + 1 / 10 ^ 4) x y) (/ dc_rsg d) b) /\
    match p_vgap p with Some g => dc_vgap d = g | None => find_gap_voltage x y (p_vrn p) = Ok (dc_vgap d) end /\
    (Spec_RespFn.increasing x -> 0 < dc_vgap d -> forall k, (k < p_npts p)%nat ->
       joined x y (nth 0 y 0) (nth (List.length x - 1) y 0) (nth k V 0 * dc_vgap d) (nth k I 0 * dc_igap d)).
Proof. exact dc_curve. Qed.
Print Assumptions C92_dc_samples.
(** The pumped curve likewise, but zero beyond the measured range; the offset is the given
    one if both parts are given, otherwise that of the DC curve. *)
Theorem C92_pumped_samples : forall savgol argsort m dc p V I vo io, sorting argsort -> iv_curve savgol argsort m dc p = Ok (V, I) ->
  (p_voffset p = Some vo /\ p_ioffset p = Some io) \/ ((p_voffset p = None \/ p_ioffset p = None) /\ dc_offset dc = (vo, io)) ->
  exists v i xf yf x y, load_iv argsort m (p_v_fmt p) (p_i_fmt p) = Ok (map FV v, map FV i) /\
    filter_iv_data savgol (map (fun a => a * p_v_multiplier p - vo) v) (map (fun a => a * p_i_multiplier p - io) i)
      (p_filter_data p) (p_filter_nwind p) (p_filter_npoly p) (p_filter_theta p) (p_npts p) = Ok (xf, yf) /\
    junction_curve (p_rseries p) xf yf x y /\ List.length V = p_npts p /\ List.length I = p_npts p /\
    (forall k, (k < p_npts p)%nat -> nth k V 0 * dc_vgap dc = - p_vmax p + INR k * (2 * p_vmax p / INR (p_npts p - 1))) /\
    (Spec_RespFn.increasing x -> 0 < dc_vgap dc -> forall k, (k < p_npts p)%nat -> joined x y 0 0 (nth k V 0 * dc_vgap dc) (nth k I 0 * dc_igap dc)).
Proof. exact pumped_curve. Qed.
Print Assumptions C92_pumped_samples.
(** Without filter and series resistance the voltages do rise: the curve joins the measured
    samples. *)
Theorem C92_dc_plain : forall minimize savgol argsort m p V I d, sorting argsort -> dciv_curve minimize savgol argsort m p = Ok (V, I, d) ->
  p_filter_data p = false -> p_rseries p = None -> 0 < p_v_multiplier p -> 0 < dc_vgap d ->
  exists v i, load_iv argsort m (p_v_fmt p) (p_i_fmt p) = Ok (map FV v, map FV i) /\
    let x := map (fun a => a * p_v_multiplier p - fst (dc_offset d)) v in
    let y := map (fun a => a * p_i_multiplier p - snd (dc_offset d)) i in
    dc_vraw d = x /\ dc_iraw d = y /\
    forall k, (k < p_npts p)%nat -> joined x y (nth 0 y 0) (nth (List.length x - 1) y 0) (nth k V 0 * dc_vgap d) (nth k I 0 * dc_igap d).
Proof. exact dc_samples. Qed.
Print Assumptions C92_dc_plain.
Theorem C92_pumped_plain : forall savgol argsort m dc p V I vo io, sorting argsort -> iv_curve savgol argsort m dc p = Ok (V, I) ->
  p_filter_data p = false -> p_rseries p = None -> 0 < p_v_multiplier p -> 0 < dc_vgap dc ->
  (p_voffset p = Some vo /\ p_ioffset p = Some io) \/ ((p_voffset p = None \/ p_ioffset p = None) /\ dc_offset dc = (vo, io)) ->
  exists v i, load_iv argsort m (p_v_fmt p) (p_i_fmt p) = Ok (map FV v, map FV i) /\
    let x := map (fun a => a * p_v_multiplier p - vo) v in let y := map (fun a => a * p_i_multiplier p - io) i in
    List.length V = p_npts p /\ List.length I = p_npts p /\
    forall k, (k < p_npts p)%nat -> nth k V 0 * dc_vgap dc = - p_vmax p + INR k * (2 * p_vmax p / INR (p_npts p - 1)) /\
      joined x y 0 0 (nth k V 0 * dc_vgap dc) (nth k I 0 * dc_igap dc).
Proof. exact pumped_samples. Qed.
Print Assumptions C92_pumped_plain.
(** An import that succeeds: a line of slope 1/2 A/V, one-sided. *)
Example C92_case : forall minimize savgol, exists p V I d, 0 < dc_vgap d /\ p_filter_data p = false /\ p_rseries p = None /\ 0 < p_v_multiplier p /\
  dciv_curve minimize savgol insertion_argsort {| ncols := 2; rows := measured [1; 2; 3; 4] [1 / 2; 1; 3 / 2; 2] |} p = Ok (V, I, d) /\
  exists r, iv_curve savgol insertion_argsort {| ncols := 2; rows := measured [1; 2; 3; 4] [1 / 2; 1; 3 / 2; 2] |} d p = Ok r.
Proof. exact import_case. Qed.
(** The same with filter and series resistance. *)
Example C92_filtered_case : forall minimize, exists p V I d, 0 < dc_vgap d /\ p_filter_data p = true /\ p_rseries p = Some (1 / 2) /\
  dciv_curve minimize (fun l _ _ => l) insertion_argsort {| ncols := 2; rows := measured [1; 2; 3; 4] [1 / 2; 1; 3 / 2; 2] |} p = Ok (V, I, d) /\
  (forall x y, junction_curve (p_rseries p) (dc_vraw d) (dc_iraw d) x y -> Spec_RespFn.increasing x) /\
  exists r, iv_curve (fun l _ _ => l) insertion_argsort {| ncols := 2; rows := measured [1; 2; 3; 4] [1 / 2; 1; 3 / 2; 2] |} d p = Ok r.
Proof. exact import_case2. Qed.

(** ** C93 *)
(** If the Savitzky-Golay filter keeps evenly spaced straight data, then filtering keeps a
    straight I-V curve and resamples it evenly between its ends. *)
Theorem C93_line : forall savgol v a b nwind npoly theta npts, Spec_RespFn.increasing v -> (2 <= List.length v)%nat -> (2 <= npts)%nat ->
  (forall p q, savgol (linspace p q npts) nwind npoly = linspace p q npts) ->
  let i := map (fun u => a * u + b) v in let vm := nth (List.length v - 1) v 0 in
  forall im, amax i = Ok im -> 0 < vm -> im <> 0 -> 0 < cos theta + sin theta * (a * vm / im) ->
  filter_iv_data savgol v i true nwind npoly theta npts = Ok (linspace (nth 0 v 0) vm npts, map (fun u => a * u + b) (linspace (nth 0 v 0) vm npts)).
Proof. exact filter_line. Qed.
Print Assumptions C93_line.
Theorem C93_off : forall savgol v i nwind npoly theta npts, filter_iv_data savgol v i false nwind npoly theta npts = Ok (v, i).
Proof. exact filter_off. Qed.
Print Assumptions C93_off.
Example C93_case : Spec_RespFn.increasing [-1; 1; 2] /\ amax (map (fun u => 2 * u + 1) [-1; 1; 2]) = Ok 5 /\ 0 < cos (1 / 10) + sin (1 / 10) * (2 * 2 / 5).
Proof. exact filter_case. Qed.
