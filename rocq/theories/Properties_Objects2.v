(** Properties C130-C132: the keyword arguments of the data objects (vocabulary in
    Spec_Objects2.v, Spec_IVData.v, Spec_IFData.v and Spec_ExpData.v).  The sort sorts; the
    optimiser, the Savitzky-Golay filter, the Bessel functions and the splines are arbitrary
    functions. *)
From Coq Require Import List ZArith Bool Reals Lra Lia String.
From Coquelicot Require Import Complex.
From Verif Require Import Base Float NumPy Spec_CleanData Spec_RespFn Model_CleanData Model_RespFn Spec_IVData Spec_Offset Model_IVData Spec_IFData Model_IFData Model_Tucker Model_ExpData Spec_ExpData Model_Objects Spec_Objects Spec_IFShot
  Bessel Proof_CleanData Proof_IFShot Proof_BesselVal Proof_Objects2 Proof_Objects3 Proof_Objects4 Spec_Objects2.
Import ListNotations.
Open Scope R_scope.
Local Notation length := List.length.
Local Notation rising := Spec_RespFn.increasing.

(** ** C130 *)
(** The I-V curve of DCData. *)
Theorem C130_dc_curve : forall argsort minimize savgol spline dspline m f o d,
  sorting argsort -> dc_data argsort minimize savgol spline dspline m f o = Ok d ->
  exists v i x y, load_iv argsort m (o_v_fmt o) (o_i_fmt o) = Ok (map FV v, map FV i) /\
    (let range := search_range (o_voffset_range o) in let V := map (fun a => a * o_v_multiplier o) v in let I := map (fun a => a * o_i_multiplier o) i in
     (~ bipolar range V -> dc_offset (d_dc d) = (match o_voffset o with Some a => a | None => 0 end, match o_ioffset o with Some b => b | None => 0 end)) /\
     (bipolar range V -> searched minimize (samples_between range V I) range (o_voffset o) (o_ioffset o) (dc_offset (d_dc d)))) /\
    filter_iv_data savgol (map (fun a => a * o_v_multiplier o - fst (dc_offset (d_dc d))) v) (map (fun a => a * o_i_multiplier o - snd (dc_offset (d_dc d))) i)
      (o_filter_data o) (o_filter_nwind o) (o_filter_npoly o) (o_filter_theta o) (o_npts o) = Ok (dc_vraw (d_dc d), dc_iraw (d_dc d)) /\
    junction_curve (o_rseries o) (dc_vraw (d_dc d)) (dc_iraw (d_dc d)) x y /\
    best_line (samples_within (fst (o_vrn o)) (snd (o_vrn o)) x y) (/ dc_rn (d_dc d)) (- dc_vint (d_dc d) / dc_rn (d_dc d)) /\
    (exists b, best_line (samples_within (o_vrsg o - 1 / 10 ^ 4) (o_vrsg o + 1 / 10 ^ 4) x y) (/ dc_rsg (d_dc d)) b) /\
    match o_vgap o with Some g => dc_vgap (d_dc d) = g | None => find_gap_voltage x y (o_vrn o) = Ok (dc_vgap (d_dc d)) end /\
    length (d_voltage d) = o_npts o /\ length (d_current d) = o_npts o /\
    (forall k, (k < o_npts o)%nat -> nth k (d_voltage d) 0 * dc_vgap (d_dc d) = - o_vmax o + INR k * (2 * o_vmax o / INR (o_npts o - 1))) /\
    (rising x -> 0 < dc_vgap (d_dc d) -> forall k, (k < o_npts o)%nat ->
       joined x y (nth 0 y 0) (nth (length x - 1) y 0) (nth k (d_voltage d) 0 * dc_vgap (d_dc d)) (nth k (d_current d) 0 * dc_igap (d_dc d))).
Proof. intros *. apply dc_arguments. Qed.
Print Assumptions C130_dc_curve.
(** Its quality factor, resistance-area product, critical current density and leakage current. *)
Theorem C130_dc_summary : forall argsort minimize savgol spline dspline m f o d,
  dc_data argsort minimize savgol spline dspline m f o = Ok d -> 0 < dc_vgap (d_dc d) -> 0 < o_vmax o -> (2 <= o_npts o)%nat ->
  let s := d_summary d in
  s_q s * dc_rn (d_dc d) = dc_rsg (d_dc d) /\ s_rna s = dc_rn (d_dc d) * o_area o / 10 ^ 12 /\ s_jc s * s_rna s = dc_vgap (d_dc d) /\
  exists c, joined (d_voltage d) (d_current d) (nth 0 (d_current d) 0) (nth (length (d_voltage d) - 1) (d_current d) 0) (o_vleak o / dc_vgap (d_dc d)) c /\ s_ileak s = c * dc_igap (d_dc d).
Proof. intros *. apply dc_summary_arguments. Qed.
Print Assumptions C130_dc_summary.
(** The I-V curve of PumpedData. *)
Theorem C130_pumped_curve : forall argsort savgol J m d hot cold o p vo io,
  sorting argsort -> pumped_data argsort savgol J m d hot cold o = Ok p ->
  (o_voffset o = Some vo /\ o_ioffset o = Some io) \/ ((o_voffset o = None \/ o_ioffset o = None) /\ dc_offset (d_dc d) = (vo, io)) ->
  exists v i xf yf x y, load_iv argsort m (o_v_fmt o) (o_i_fmt o) = Ok (map FV v, map FV i) /\
    filter_iv_data savgol (map (fun a => a * o_v_multiplier o - vo) v) (map (fun a => a * o_i_multiplier o - io) i)
      (o_filter_data o) (o_filter_nwind o) (o_filter_npoly o) (o_filter_theta o) (o_npts o) = Ok (xf, yf) /\
    junction_curve (o_rseries o) xf yf x y /\ length (u_voltage p) = o_npts o /\ length (u_current p) = o_npts o /\
    (forall k, (k < o_npts o)%nat -> nth k (u_voltage p) 0 * dc_vgap (d_dc d) = - o_vmax o + INR k * (2 * o_vmax o / INR (o_npts o - 1))) /\
    (rising x -> 0 < dc_vgap (d_dc d) -> forall k, (k < o_npts o)%nat -> joined x y 0 0 (nth k (u_voltage p) 0 * dc_vgap (d_dc d)) (nth k (u_current p) 0 * dc_igap (d_dc d))).
Proof. intros *. apply pumped_arguments. Qed.
Print Assumptions C130_pumped_curve.
Example C130_case : forall minimize savgol J spline dspline, exists d p,
  dc_data insertion_argsort minimize savgol spline dspline file None quick = Ok d /\ pumped_data insertion_argsort savgol J file d None None quick = Ok p /\ 0 < dc_vgap (d_dc d).
Proof. exact quick_case. Qed.

(** ** C131 *)
(** The IF data of DCData. *)
Theorem C131_dc_if : forall argsort minimize savgol spline dspline m mif o d v q c,
  sorting argsort -> dc_data argsort minimize savgol spline dspline m (Some mif) o = Ok d -> d_if d = Some (v, q, c) -> 0 < dc_vgap (d_dc d) ->
  exists P, loaded_powers argsort (d_dc d) mif (o_v_fmt o) (o_v_multiplier o) (o_rseries o) (o_vmax o) (o_ifdata_npts o) (o_ifdata_sigma o) v P /\ q = map (fun a => a * if_corr c) P /\
    (0 < o_vmax o -> (2 <= o_ifdata_npts o)%nat -> if_vmax c = o_vmax o /\
      (forall vs, o_vshot o = Some vs -> ranges_of vs <> [] -> calibrated_by (ranges_of vs) (d_dc d) v P c) /\
      (o_vshot o = None -> keeps_length savgol -> calibrated_alone savgol (d_dc d) v P c)).
Proof. intros *. apply dcif_arguments. Qed.
Print Assumptions C131_dc_if.
(** The IF data of PumpedData. *)
Theorem C131_pumped_if : forall argsort savgol J m hot cold o d p n f,
  sorting argsort -> pumped_data argsort savgol J m d (Some hot) (Some cold) o = Ok p -> u_if p = Some n -> o_freq o = Some f -> 0 < f -> 0 < o_t_cold o < o_t_hot o -> 0 < dc_vgap (d_dc d) ->
  let Th := callen_welton (f * 10 ^ 9) (o_t_hot o) in let Tc := callen_welton (f * 10 ^ 9) (o_t_cold o) in let c := if_corr (n_dcif n) in
  exists P Q,
    loaded_powers argsort (d_dc d) hot (o_v_fmt o) (o_v_multiplier o) (o_rseries o) (o_vmax o) (o_ifdata_npts o) (o_ifdata_sigma o) (n_voltage n) P /\
    loaded_powers argsort (d_dc d) cold (o_v_fmt o) (o_v_multiplier o) (o_rseries o) (o_vmax o) (o_ifdata_npts o) (o_ifdata_sigma o) (n_voltage n) Q /\
    n_hot n = map (fun a => a * c) P /\ n_cold n = map (fun a => a * c) Q /\ length (n_tn n) = o_ifdata_npts o /\ length (n_gain n) = o_ifdata_npts o /\
    (forall k, (k < o_ifdata_npts o)%nat -> hot_cold Th Tc (nth k (n_hot n) 0) (nth k (n_cold n) 0) (nth k (n_tn n) FNaN) (nth k (n_gain n) FNaN)) /\
    selected (o_vbest o) (o_best_pt o) (dc_vgap (d_dc d)) (n_voltage n) (n_tn n) (n_gain n) (n_best n) /\
    (0 < o_vmax o -> (2 <= o_ifdata_npts o)%nat -> if_vmax (n_dcif n) = o_vmax o /\
      (d_if d = None -> let M := map (fun k => (nth k P 0 + nth k Q 0) / 2) (seq 0 (o_ifdata_npts o)) in
        (forall vs, o_vshot o = Some vs -> ranges_of vs <> [] -> calibrated_by (ranges_of vs) (d_dc d) (n_voltage n) M (n_dcif n)) /\
        (o_vshot o = None -> keeps_length savgol -> calibrated_alone savgol (d_dc d) (n_voltage n) M (n_dcif n)))).
Proof. intros *. apply if_arguments. Qed.
Print Assumptions C131_pumped_if.
Example C131_dc_case : forall minimize savgol dspline, exists d v q c,
  dc_data insertion_argsort minimize savgol (fun _ _ _ _ => 1) dspline file (Some cold_file) full = Ok d /\ d_if d = Some (v, q, c) /\ 0 < dc_vgap (d_dc d) /\
  o_vshot full = Some (One (-1) 1) /\ ranges_of (One (-1) 1) <> [] /\ 0 < o_vmax full /\ (2 <= o_ifdata_npts full)%nat.
Proof. exact dc_if_case. Qed.

(** ** C132 *)
(** The recovery of the embedding impedance. *)
Theorem C132_recovery : forall argsort savgol J m d hot cold o p f r lo hi,
  pumped_data argsort savgol J m d hot cold o = Ok p -> o_freq o = Some f -> u_recovered p = Some r -> o_fit_range o = Some (lo, hi) ->
  let idc := idc (d_resp d) in let ikk := ikk (d_resp d) in let vph := f * 10 ^ 9 / dc_fgap (d_dc d) in
  let B := step_samples vph lo hi (u_voltage p) (u_current p) in
  exists al mid, find_alpha J idc (map fst B) (map snd B) vph (o_alpha_max o) (o_num_b o) = Ok al /\ (mid < length B)%nat /\
  (forall k, (k < length B)%nat -> Rabs (fst (nth mid B (0, 0)) - (1 - vph / 2)) <= Rabs (fst (nth k B (0, 0)) - (1 - vph / 2))) /\
  rec_alpha r = nth mid al 0 /\
  (ac_current J idc ikk vph (nth mid al 0) (o_num_b o) (fst (nth mid B (0, 0))) <> RtoC 0 -> rec_zw r = Some (snd (junction_sample J idc ikk vph (o_num_b o) (fst (nth mid B (0, 0))) (nth mid al 0)))) /\
  let pts := map (fun p => junction_sample J idc ikk vph (o_num_b o) (fst (fst p)) (snd p)) (List.combine B al) in
  ((forall p, In p (List.combine B al) -> ac_current J idc ikk vph (snd p) (o_num_b o) (fst (fst p)) <> RtoC 0) ->
   (forall i j, (i <= 100)%nat -> (j <= 200)%nat -> connectable pts (grid_point (o_remb_range o) (o_xemb_range o) i j)) ->
   match o_zemb o with
   | None => exists i j V, (i <= 100)%nat /\ (j <= 200)%nat /\ rec_zt r = grid_point (o_remb_range o) (o_xemb_range o) i j /\ rec_vt r = FV V /\
       (forall i' j' V', (i' <= 100)%nat -> (j' <= 200)%nat -> mismatch pts (rec_zt r) V <= mismatch pts (grid_point (o_remb_range o) (o_xemb_range o) i' j') V') /\
       (rec_fit r = true <-> mismatch pts (rec_zt r) V <= 7 / 10 ^ 7)
   | Some z => connectable pts z -> rec_zt r = z /\ (exists V, rec_vt r = FV V /\ forall V', mismatch pts z V <= mismatch pts z V') /\
       (rec_fit r = true <-> exists i j V, (i <= 100)%nat /\ (j <= 200)%nat /\ mismatch pts (grid_point (o_remb_range o) (o_xemb_range o) i j) V <= 7 / 10 ^ 7)
   end).
Proof. intros *. apply recovery_arguments. Qed.
Print Assumptions C132_recovery.
(** A measurement with IF data for which everything is found. *)
Example C132_case : forall minimize savgol dspline, exists d p n r al,
  dc_data insertion_argsort minimize savgol (fun _ _ _ _ => 1) dspline file None full = Ok d /\ pumped_data insertion_argsort savgol besselJ (pumped_file besselJ) d (Some hot_file) (Some cold_file) full = Ok p /\
  0 < dc_vgap (d_dc d) /\ d_if d = None /\ u_if p = Some n /\ u_recovered p = Some r /\
  let idc := idc (d_resp d) in let ikk := ikk (d_resp d) in let vph := 230 * 10 ^ 9 / dc_fgap (d_dc d) in
  let B := step_samples vph (25 / 100) (8 / 10) (u_voltage p) (u_current p) in
  find_alpha besselJ idc (map fst B) (map snd B) vph (o_alpha_max full) (o_num_b full) = Ok al /\ B <> [] /\
  (forall p, In p (List.combine B al) -> ac_current besselJ idc ikk vph (snd p) (o_num_b full) (fst (fst p)) <> RtoC 0) /\
  (forall i j, (i <= 100)%nat -> (j <= 200)%nat -> connectable (map (fun p => junction_sample besselJ idc ikk vph (o_num_b full) (fst (fst p)) (snd p)) (List.combine B al)) (grid_point (o_remb_range full) (o_xemb_range full) i j)).
Proof. intros minimize savgol dspline. destruct bessel_3_2 as (H0 & H1 & H2). exact (full_case minimize savgol besselJ H0 H1 H2 dspline). Qed.
Example C132_case_arguments : o_freq full = Some 230 /\ o_fit_range full = Some (25 / 100, 8 / 10) /\ o_t_cold full = 78 /\ o_t_hot full = 293 /\ o_vbest full = Some (3 / 10 ^ 3) /\ o_remb_range full = (1, 2) /\ o_xemb_range full = (-1, 1).
Proof. repeat split. Qed.
