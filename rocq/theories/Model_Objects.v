(** Model of the classes DCData and PumpedData of qmix/exp/exp_data.py: the default
    parameters and the constructors.  What they print is modelled in Model_ExpPrint.v,
    plots in Model_Plots.v; file names are not modelled. *)
From Coq Require Import List ZArith Bool Arith Reals String.
From Coquelicot Require Import Complex.
From Verif Require Import Base Model_QtCurrent Float NumPy Model_MathFn Model_CleanData Model_RespFn Model_IVData Model_Tucker Model_IFData Model_ExpData.
Import ListNotations.
Open Scope Z_scope.
Local Notation length := List.length.

(** ** Parameters *)
(** The dictionary of qmix/exp/parameters.py:153-215 after the keyword arguments have been
    merged in.  None stands for the value None.  cut_low and cut_high are not in the
    dictionary: None if not given.  (debug, vmax_plot, comment and verbose only affect plots
    and what is printed; analyze and ifresp_maxtn are not used by the constructors.) *)
Record options := {
  o_v_fmt : string; o_i_fmt : string; o_vmax : R; o_npts : nat;
  o_ioffset : option R; o_voffset : option R; o_voffset_range : vrange;
  o_rseries : option R; o_i_multiplier : R; o_v_multiplier : R; o_ifdata_npts : nat;
  o_filter_data : bool; o_filter_theta : R; o_filter_nwind : Z; o_filter_npoly : Z;
  o_ifdata_sigma : option R; o_analyze_iv : bool; o_analyze_if : bool;
  o_area : R; o_freq : option R; o_vgap : option R; o_vrn : R * R; o_vrsg : R; o_vleak : R;
  o_vshot : option shot_ranges; o_fit_range : option (R * R); o_remb_range : R * R; o_xemb_range : R * R;
  o_zemb : option C; o_alpha_max : R; o_num_b : nat; o_t_cold : R; o_t_hot : R;
  o_vbest : option R; o_best_pt : string; o_v_smear : option R;
  o_cut_low : option R; o_cut_high : option R }.

(** qmix/exp/parameters.py:153-215 params *)
Definition PARAMS : options := {|
  o_v_fmt := "mV"; o_i_fmt := "mA"; o_vmax := 6 / 10 ^ 3; o_npts := Z.to_nat 6001;
  o_ioffset := None; o_voffset := None; o_voffset_range := Limits (- (1 / 10 ^ 3)) (1 / 10 ^ 3);
  o_rseries := None; o_i_multiplier := 1; o_v_multiplier := 1; o_ifdata_npts := Z.to_nat 3000;
  o_filter_data := true; o_filter_theta := 785 / 1000; o_filter_nwind := 21; o_filter_npoly := 3;
  o_ifdata_sigma := Some (1 / 10 ^ 5)%R; o_analyze_iv := true; o_analyze_if := true;
  o_area := 15 / 10; o_freq := None; o_vgap := None; o_vrn := (35 / 10 ^ 4, 5 * 10 ^ 3)%R; o_vrsg := 2 / 10 ^ 3; o_vleak := 2 / 10 ^ 3;
  o_vshot := None; o_fit_range := Some (25 / 100, 8 / 10)%R; o_remb_range := (0, 1)%R; o_xemb_range := (-1, 1)%R;
  o_zemb := None; o_alpha_max := 15 / 10; o_num_b := 20; o_t_cold := 78; o_t_hot := 293;
  o_vbest := None; o_best_pt := "Max Gain"; o_v_smear := Some (20 / 1000)%R;
  o_cut_low := None; o_cut_high := None |}.

(** What dciv_curve, iv_curve (qmix/exp/iv_data.py:109-124, 262-270), the functions of
    qmix/exp/if_data.py and the recovery look up in the dictionary. *)
Definition iv_options (o : options) : ivparams := {|
  p_v_fmt := o_v_fmt o; p_i_fmt := o_i_fmt o; p_vmax := o_vmax o; p_npts := o_npts o;
  p_voffset := o_voffset o; p_ioffset := o_ioffset o; p_voffset_range := o_voffset_range o;
  p_rseries := o_rseries o; p_i_multiplier := o_i_multiplier o; p_v_multiplier := o_v_multiplier o;
  p_filter_data := o_filter_data o; p_filter_theta := o_filter_theta o; p_filter_nwind := o_filter_nwind o; p_filter_npoly := o_filter_npoly o;
  p_vgap := o_vgap o; p_vrn := o_vrn o; p_vrsg := o_vrsg o |}.
Definition if_options (o : options) : ifparams := {|
  q_v_fmt := o_v_fmt o; q_v_multiplier := o_v_multiplier o; q_sigma := o_ifdata_sigma o; q_vmax := o_vmax o; q_npts := o_ifdata_npts o;
  q_rseries := o_rseries o; q_vshot := o_vshot o; q_freq := o_freq o; q_t_hot := o_t_hot o; q_t_cold := o_t_cold o;
  q_vbest := o_vbest o; q_best_pt := o_best_pt o |}.
Definition rec_options (o : options) : recparams := {|
  r_fit_range := Some (o_fit_range o); r_cut_low := o_cut_low o; r_cut_high := o_cut_high o;
  r_remb := o_remb_range o; r_xemb := o_xemb_range o; r_zemb := o_zemb o; r_alpha_max := o_alpha_max o; r_num_b := o_num_b o |}.
(** The parameters of RespFnFromIVData(..., check_error=False, v_smear=s), lines 181-188 of
    qmix/exp/exp_data.py with the defaults of qmix/respfn.py:526-529. *)
Definition resp_options (s : option R) : params := {|
  max_npts_dc := 81; max_npts_kk := 101; max_interp_error := 1 / 1000; check_error := false;
  v_smear := s; kk_n := 50; spline_order := 3 |}.
Definition vlimit : R := 18 / 10.

Section Oracles.
(** argsort, minimize and savgol_filter, as in Model_IVData and Model_IFData; the Bessel
    functions; the spline and its derivative. *)
Variable argsort : list fl -> list nat.
Variable minimize : (R * R -> R) -> R * R -> R * R.
Variable savgol : list R -> Z -> Z -> list R.
Variable J : nat -> R -> R.
Variable spline dspline : list R -> list R -> Z -> R -> R.

(** ** DC data *)
(** The attributes voltage, current, dc, the summary (q, rna, jc, ileak), resp, resp_smear
    and, if there are IF data, if_data and dcif. *)
Record dcdata := {
  d_voltage : list R; d_current : list R; d_dc : dcivdata; d_summary : dcsummary;
  d_resp : respfn; d_resp_smear : respfn; d_if : option (list R * list R * dcifdata) }.
(** qmix/exp/exp_data.py:139-209 DCData.__init__ for 2-D arrays (any other value raises a
    ValueError). *)
Definition dc_data (dciv : matrix) (dcif : option matrix) (o : options) : res dcdata :=
  let* d := dciv_curve minimize savgol argsort dciv (iv_options o) in
  let '(voltage, current, dc) := d in
  let* s := dc_summary dc voltage current (o_area o) (o_vleak o) in
  let* r := respfn_from_iv spline dspline voltage current vlimit (resp_options None) in
  let* rs := respfn_from_iv spline dspline voltage current vlimit (resp_options (o_v_smear o)) in
  let* f := match dcif with
            | None => Ok None
            | Some m => let* f := dcif_data savgol argsort m dc (if_options o) in Ok (Some f)
            end in
  Ok {| d_voltage := voltage; d_current := current; d_dc := dc; d_summary := s; d_resp := r; d_resp_smear := rs; d_if := f |}.

(** ** Pumped data *)
(** The results of the IF analysis: the columns voltage, hot and cold power, noise
    temperature and gain; the best position; the calibration; the values at the best
    position. *)
Record ifresults := {
  n_voltage : list R; n_hot : list R; n_cold : list R; n_tn : list fl; n_gain : list fl;
  n_best : nat; n_dcif : dcifdata; n_summary : ifsummary }.
(** The attributes freq, vph, voltage, current, rdyn and the results of the recovery and of
    the IF analysis, if any. *)
Record pumpeddata := {
  u_freq : R; u_vph : R; u_voltage : list R; u_current : list R; u_rdyn : list fl;
  u_recovered : option recovered; u_if : option ifresults }.
Definition calibration (d : dcdata) : option dcifdata := match d_if d with Some f => Some (snd f) | None => None end.
(** qmix/exp/exp_data.py:556-678 PumpedData.__init__ for 2-D arrays (any other I-V data
    raise a ValueError).  (A gap frequency of 0 is not modelled.) *)
Definition pumped_data (ivdata : matrix) (d : dcdata) (hot cold : option matrix) (o : options) : res pumpeddata :=
  let dc := d_dc d in
  let* freq := match o_freq o with None => Err ValueError | Some f => Ok f end in
  let* r := quot freq (dc_fgap dc) in
  let vph := (r * 10 ^ 9)%R in
  let* (voltage, current) := iv_curve savgol argsort ivdata dc (iv_options o) in
  let* rdyn := slope_span_n current voltage 21 true in
  let* rec := if o_analyze_iv o then
                let* vph := quot (freq * 10 ^ 9) (dc_fgap dc) in
                let* r := recover_zemb J (idc (d_resp d)) (ikk (d_resp d)) voltage current vph (rec_options o) in Ok (Some r)
              else Ok None in
  let* f := match hot, cold with
            | Some hot, Some cold =>
                if o_analyze_if o then
                  let* f := if_data savgol argsort hot cold dc (calibration d) (if_options o) in
                  let '(vh, ph, pc, tn, gain, idx, cal) := f in
                  let* s := if_summary voltage current vh tn gain idx (dc_rn dc) in
                  Ok (Some {| n_voltage := vh; n_hot := ph; n_cold := pc; n_tn := tn; n_gain := gain; n_best := idx; n_dcif := cal; n_summary := s |})
                else Ok None
            | _, _ => Ok None
            end in
  Ok {| u_freq := freq; u_vph := vph; u_voltage := voltage; u_current := current; u_rdyn := rdyn; u_recovered := rec; u_if := f |}.
End Oracles.

(** Lines 626-675 of qmix/exp/exp_data.py: the names of the attributes that hold the results
    of the recovery (lines 794-800 or 629-633) and of the IF analysis, as they are set if
    the analysis is done or not. *)
Definition recovery_attributes (analyzed : bool) : list string :=
  (if analyzed then ["zt"; "vt"; "fit_good"; "zw"; "alpha"; "err_surf"] else ["zt"; "vt"; "fit_good"; "zw"; "alpha"])%string.
Definition if_attributes (analyzed : bool) : list string :=
  (if analyzed then
     ["good_if_noise_fit"; "idx_best"; "if_hot"; "if_cold"; "tn"; "gain"; "if_noise"; "corr"; "shot_slope";
      "tn_best"; "gain_best"; "g_db"; "v_best"; "zj_if"]
   else
     ["good_if_noise_fit"; "filename_hot"; "filename_cold"; "if_hot"; "if_cold"; "tn"; "gain"; "idx_best"; "if_noise"; "shot_slope";
      "tn_best"; "g_db"])%string.
