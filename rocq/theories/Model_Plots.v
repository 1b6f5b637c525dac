(** Model of the plot methods of DCData and PumpedData in qmix/exp/exp_data.py and of the
    response functions in qmix/respfn.py: what is drawn.  Colours, line styles, legends'
    places, grids and sizes are not modelled. *)
From Coq Require Import List ZArith Bool Arith Reals String.
From Coquelicot Require Import Complex.
From Verif Require Import Base Model_QtCurrent Float NumPy Model_MathFn Model_CleanData Model_RespFn Model_IVData Model_Tucker Model_IFData Model_ExpData Model_Objects Model_Misc Model_Print.
From Verif Require Model_Circuit Model_HB.
Import ListNotations.
Open Scope Z_scope.
Local Notation length := List.length.

(** ** Figures *)
(** What can be drawn: points joined by lines or marked (with the label for the legend), a
    vertical or horizontal line, a coloured surface (z has one row for every y), a text that
    points at a place. *)
Inductive item :=
| Curve (label : string) (x : list R) (y : list fl)
| Vertical (x : R) | Horizontal (y : R)
| Surface (x y : list R) (z : list (list fl))
| Note (text : string) (x y : fl).
(** Axes: what is drawn, the labels of the two axes, the title of the legend and the limits
    that are set (None: chosen by matplotlib). *)
Record axes := {
  g_items : list item; g_xlabel : string; g_ylabel : string; g_title : string;
  g_xlim : option R * option R; g_ylim : option R * option R }.
(** ax.plot(x, y): ValueError for different lengths. *)
Definition curve (label : string) (x : list R) (y : list fl) : res item :=
  let* _ := guard (length x =? length y)%nat ValueError in Ok (Curve label x y).
Definition numbers (l : list R) : list fl := map FV l.
(** A limit: ValueError if it is not finite. *)
Definition limit (x : fl) : res R := match x with FV x => Ok x | _ => Err ValueError end.
(** ndarray.max(): NaN if there is one. *)
Definition fmax2 (a b : fl) : fl := if fisnan a then a else if fisnan b then b else if flt a b then b else a.
Definition fmaximum (l : list fl) : res fl := match l with [] => Err ValueError | a :: l' => Ok (fold_left fmax2 l' a) end.
(** np.log10 *)
Definition flog10 (x : fl) : fl :=
  match x with
  | FV x => if Rltb 0 x then FV (log10 x) else if Reqb x 0 then FNInf else FNaN
  | FPInf => FPInf
  | _ => FNaN
  end.
(** {:.df} of a value that may not be finite. *)
Definition show_fl (d : nat) (x : fl) : string :=
  match x with FV x => fixed false 0 d x | FPInf => "inf" | FNInf => "-inf" | FNaN => "nan" end%string.
(** Values times a unit. *)
Definition in_units (l : list R) (u : R) : list R := map (fun a => a * u)%R l.
(** array[mask] where mask = array != 0 *)
Definition nonzero_mask (l : list R) : list bool := map (fun a => negb (Reqb a 0)) l.

(** ** DCData *)
(** qmix/exp/exp_data.py:250-328 plot_dciv; vleak is the keyword argument of the constructor. *)
Definition plot_dciv (d : dcdata) (vleak vmax_plot : R) : res axes :=
  let dc := d_dc d in
  let mv := (dc_vgap dc * 10 ^ 3)%R in
  let* c := quot (dc_vgap dc) (dc_rn dc) in
  let ua := (c * 10 ^ 6)%R in
  let v_mv := in_units (d_voltage d) mv in
  let i_ua := in_units (d_current d) ua in
  let v_v := map (fun a => a / 1000)%R v_mv in
  let* r := quot (- dc_vint dc) (dc_rn dc) in
  let rn_slope := map (fun a => r * 10 ^ 6 + a * ua)%R (d_voltage d) in
  let* g := np_interp [1%R] (d_voltage d) (d_current d) in
  let i_at_gap := in_units g ua in
  let* at_ := quot vleak (dc_vgap dc) in
  let* l := np_interp [at_] (d_voltage d) (d_current d) in
  let i_leak := nth 0 l 0%R in
  let mask := map (fun a => Rltb (vleak - 2 / 10 ^ 4) a && Rltb a (vleak + 2 / 10 ^ 4)) v_v in
  let* x := select mask v_mv in
  let* y := select mask i_ua in
  let* psg := polyfit1 x y in
  let* c1 := curve "DC I-V" v_mv (numbers i_ua) in
  let* c2 := curve (String.append "$V_\mathrm{{gap}}$ = " (String.append (fixed false 0 2 (dc_vgap dc * 10 ^ 3)) " mV")) [(dc_vgap dc * 10 ^ 3)%R] (numbers i_at_gap) in
  let* c3 := curve (String.append "$I_\mathrm{{leak}}$ = " (String.append (fixed false 0 2 (i_leak * ua)) " $\mu$A")) [2%R] [FV (i_leak * ua)] in
  let* c4 := curve (String.append "$R_\mathrm{{n}}$ = " (String.append (fixed false 0 2 (dc_rn dc)) " $\Omega$")) v_mv (numbers rn_slope) in
  let* c5 := curve (String.append "$R_\mathrm{{sg}}$ = " (String.append (fixed false 0 1 (dc_rsg dc)) " $\Omega$")) v_mv (numbers (map (fun a => fst psg * a + snd psg)%R v_mv)) in
  let* idx := fargmin (map (fun a => FV (Rabs (vmax_plot - a))) v_mv) in
  let* xm := pyget v_mv (Z.of_nat idx) in
  let* ym := pyget i_ua (Z.of_nat idx) in
  Ok {| g_items := [c1; c2; c3; c4; c5]; g_xlabel := "Bias Voltage (mV)"; g_ylabel := "Current ($\mu$A)"; g_title := "";
        g_xlim := (Some 0%R, Some xm); g_ylim := (Some 0%R, Some ym) |}.
(** qmix/exp/exp_data.py:330-374 plot_offset *)
Definition plot_offset (d : dcdata) : res axes :=
  let dc := d_dc d in
  let mv := (dc_vgap dc * 10 ^ 3)%R in
  let* c := quot (dc_vgap dc) (dc_rn dc) in
  let ua := (c * 10 ^ 6)%R in
  let v_mv := in_units (d_voltage d) mv in
  let i_ua := in_units (d_current d) ua in
  let mask := map (fun a => Rltb (- (2 / 10)) a && Rltb a (2 / 10)) v_mv in
  let* x := select mask v_mv in
  let* y := select mask i_ua in
  let* c1 := curve "" x (numbers y) in
  Ok {| g_items := [c1]; g_xlabel := "Bias Voltage (mV)"; g_ylabel := "Current ($\mu$A)"; g_title := "";
        g_xlim := (Some (- (2 / 10))%R, Some (2 / 10)%R); g_ylim := (None, None) |}.
(** qmix/exp/exp_data.py:376-448 plot_if_noise: the two axes (which share the voltage
    axis), or nothing without IF data. *)
Definition plot_if_noise (d : dcdata) : res (option (axes * axes)) :=
  match d_if d with
  | None => Ok None
  | Some (vif, pif, cal) =>
  let dc := d_dc d in
  let* r := quot (dc_vint dc) (dc_rn dc) in
  let* _ := quot 1 (dc_rn dc) in
  let rslope := map (fun a => (a * dc_vgap dc / dc_rn dc - r) * 10 ^ 6)%R (d_voltage d) in
  let mv := (dc_vgap dc * 10 ^ 3)%R in
  let ua := (dc_igap dc * 10 ^ 6)%R in
  let v_mv := in_units (d_voltage d) mv in
  let i_ua := in_units (d_current d) ua in
  let* c1 := curve "I-V curve" v_mv (numbers i_ua) in
  let* c2 := curve "Normal-state" v_mv (numbers rslope) in
  let v_mv := in_units vif mv in
  let* c3 := curve "IF Power" v_mv (numbers pif) in
  let* c4 := curve "5.8 K/mV" (map (fun a => a * dc_vgap dc * 10 ^ 3)%R (fst (if_shot cal))) (numbers (snd (if_shot cal))) in
  let* c5 := curve (String.append "IF noise: " (String.append (fixed false 0 2 (if_noise cal)) " K")) [(dc_vint dc * 10 ^ 3)%R] [FV (if_noise cal)] in
  let* top := amax v_mv in
  Ok (Some ({| g_items := [c1; c2; Vertical (dc_vint dc * 10 ^ 3)]; g_xlabel := ""; g_ylabel := "Current ($\mu$A)"; g_title := "";
               g_xlim := (Some 0%R, Some top); g_ylim := (Some 0%R, None) |},
            {| g_items := [c3; c4; c5; Vertical (dc_vint dc * 10 ^ 3)]; g_xlabel := "Bias Voltage (mV)"; g_ylabel := "IF Power (K)"; g_title := "";
               g_xlim := (Some 0%R, Some top); g_ylim := (Some 0%R, None) |}))
  end.

(** ** PumpedData *)
Definition lo_title (u : pumpeddata) : string := String.append "LO: " (String.append (fixed false 0 1 (u_freq u)) " GHz").
(** The pumped curve without the samples of zero current, and the two vertical lines at the
    gap and one photon step below; mv and ua are the units. *)
Definition draw_iv (d : dcdata) (u : pumpeddata) (mv ua : R) : res (list item) :=
  let* c1 := curve "Unpumped" (in_units (d_voltage d) mv) (numbers (in_units (d_current d) ua)) in
  let mask := nonzero_mask (u_current u) in
  let* x := select mask (u_voltage u) in
  let* y := select mask (u_current u) in
  let* c2 := curve "Pumped" (in_units x mv) (numbers (in_units y ua)) in
  Ok [c1; c2; Vertical (dc_vgap (d_dc d) * 10 ^ 3); Vertical (dc_vgap (d_dc d) * 10 ^ 3 - u_vph u * mv)].
(** qmix/exp/exp_data.py:802-851 plot_iv *)
Definition plot_iv (d : dcdata) (u : pumpeddata) (vmax_plot : R) : res axes :=
  let dc := d_dc d in
  let vmv := (dc_vgap dc * 10 ^ 3)%R in
  let iua := (dc_igap dc * 10 ^ 6)%R in
  let* imax := np_interp [vmax_plot] (in_units (d_voltage d) vmv) (in_units (d_current d) iua) in
  let* items := draw_iv d u vmv iua in
  Ok {| g_items := items; g_xlabel := "Bias Voltage (mV)"; g_ylabel := "DC Current (uA)"; g_title := lo_title u;
        g_xlim := (Some 0%R, Some vmax_plot); g_ylim := (Some 0%R, Some (nth 0 imax 0%R)) |}.
(** The IF results; without them the attribute if_hot is None, which cannot be subscripted. *)
Definition if_results (u : pumpeddata) : res ifresults := match u_if u with Some n => Ok n | None => Err TypeError end.
(** qmix/exp/exp_data.py:853-897 plot_if *)
Definition plot_if (d : dcdata) (u : pumpeddata) (vmax_plot : R) : res axes :=
  let vgap := dc_vgap (d_dc d) in
  let* n := if_results u in
  let v_mv := map (fun a => a * vgap * 10 ^ 3)%R (n_voltage n) in
  let* c1 := curve "Hot" v_mv (numbers (n_hot n)) in
  let* c2 := curve "Cold" v_mv (numbers (n_cold n)) in
  let* c3 := match d_if d with
             | Some (vif, pif, _) => let* c := curve "No LO" (map (fun a => a * vgap * 10 ^ 3)%R vif) (numbers pif) in Ok [c]
             | None => Ok []
             end in
  Ok {| g_items := c1 :: c2 :: c3; g_xlabel := "Bias Voltage (mV)"; g_ylabel := "IF Power (K)"; g_title := lo_title u;
        g_xlim := (Some 0%R, Some vmax_plot); g_ylim := (Some 0%R, None) |}.
(** qmix/exp/exp_data.py:899-962 plot_ivif.  (The second axes are always new ones that share
    the voltage axis, also if the caller has passed axes: line 941.) *)
Definition plot_ivif (d : dcdata) (u : pumpeddata) (vmax_plot : R) : res (axes * axes) :=
  let dc := d_dc d in
  let mv := (dc_vgap dc * 10 ^ 3)%R in
  let* c := quot (dc_vgap dc) (dc_rn dc) in
  let ua := (c * 10 ^ 6)%R in
  let* imax := np_interp [vmax_plot] (in_units (d_voltage d) mv) (in_units (d_current d) ua) in
  let* items := draw_iv d u mv ua in
  let* n := if_results u in
  let v_mv := map (fun a => a * dc_vgap dc * 10 ^ 3)%R (n_voltage n) in
  let mask := nonzero_mask (n_hot n) in
  let* x := select mask v_mv in
  let* y := select mask (n_hot n) in
  let* c1 := curve "Hot" x (numbers y) in
  let mask := nonzero_mask (n_cold n) in
  let* x := select mask v_mv in
  let* y := select mask (n_cold n) in
  let* c2 := curve "Cold" x (numbers y) in
  Ok ({| g_items := items; g_xlabel := "Bias Voltage (mV)"; g_ylabel := "DC Current ($\mu$A)"; g_title := "";
         g_xlim := (Some 0%R, Some vmax_plot); g_ylim := (Some 0%R, Some (nth 0 imax 0%R)) |},
      {| g_items := [c1; c2]; g_xlabel := ""; g_ylabel := "IF Power (K)"; g_title := "";
         g_xlim := (Some 0%R, Some vmax_plot); g_ylim := (Some 0%R, None) |}).
(** qmix/exp/exp_data.py:964-1027 plot_noise_temp.  (The two axes share the voltage axis, so
    that the limits of line 999 are replaced by those of line 1012, unless the caller passes
    axes that do not; not modelled.) *)
Definition plot_noise_temp (d : dcdata) (u : pumpeddata) (vmax_plot : R) : res (axes * axes) :=
  let vgap := dc_vgap (d_dc d) in
  let* n := if_results u in
  let mask := nonzero_mask (n_hot n) in
  let* v := select mask (n_voltage n) in
  let v_mv := map (fun a => a * vgap * 10 ^ 3)%R v in
  let* h := select mask (n_hot n) in
  let* hot := gauss_conv h 5 3 in
  let* c := select mask (n_cold n) in
  let* cold := gauss_conv c 5 3 in
  let* l1 := curve "Hot IF" v_mv (numbers hot) in
  let* l2 := curve "Cold IF" v_mv (numbers cold) in
  let* top := amax hot in
  let* t := select mask (n_tn n) in
  let* l3 := curve "Noise Temp." v_mv t in
  let* vb := pyget (n_voltage n) (Z.of_nat (n_best n)) in
  let tn_best := b_tn (n_summary n) in
  let* l4 := curve (String.append "$T_\mathrm{n}=" (String.append (show_fl 1 tn_best) "$ K")) [(vb * vgap * 10 ^ 3)%R] [tn_best] in
  let* ym := limit (fmul tn_best (FV 5)) in
  Ok ({| g_items := [l1; l2]; g_xlabel := "Bias Voltage (mV)"; g_ylabel := "IF Power (K)"; g_title := "";
         g_xlim := (Some 0%R, Some vmax_plot); g_ylim := (Some 0%R, Some (top * (13 / 10))%R) |},
      {| g_items := [l3; l4]; g_xlabel := ""; g_ylabel := "Noise Temperature (K)"; g_title := "";
         g_xlim := (Some 0%R, Some vmax_plot); g_ylim := (Some 0%R, Some ym) |}).
(** qmix/exp/exp_data.py:1029-1093 plot_yfac_noise_temp *)
Definition plot_yfac_noise_temp (d : dcdata) (u : pumpeddata) (vmax_plot : R) : res (axes * axes) :=
  let* n := if_results u in
  let v_mv := map (fun a => a * dc_vgap (d_dc d) * 10 ^ 3)%R (n_voltage n) in
  let* hot := gauss_conv (n_hot n) 5 3 in
  let* cold := gauss_conv (n_cold n) 5 3 in
  let* yfac := bcast (fun a b => fdiv (FV a) (FV b)) hot cold in
  let* c1 := curve "Y-factor" v_mv yfac in
  let* c2 := curve "Noise Temp." v_mv (n_tn n) in
  let* vb := pyget v_mv (Z.of_nat (n_best n)) in
  let tn_best := b_tn (n_summary n) in
  let* c3 := curve "" [vb] [tn_best] in
  Ok ({| g_items := [c1; Horizontal (293 / 77)]; g_xlabel := "Bias Voltage (mV)"; g_ylabel := "Y-factor"; g_title := "";
         g_xlim := (Some 0%R, Some vmax_plot); g_ylim := (Some 1%R, Some 4%R) |},
      {| g_items := [c2; c3; Note (String.append (show_fl 1 tn_best) " K") (FV vb) tn_best]; g_xlabel := ""; g_ylabel := "Noise Temperature (K)"; g_title := "";
         g_xlim := (Some 0%R, Some vmax_plot); g_ylim := (Some 0%R, Some 300%R) |}).
(** qmix/exp/exp_data.py:1095-1165 plot_gain_noise_temp *)
Definition plot_gain_noise_temp (d : dcdata) (u : pumpeddata) (vmax_plot : R) : res (axes * axes) :=
  let* n := if_results u in
  let v_mv := map (fun a => a * dc_vgap (d_dc d) * 10 ^ 3)%R (n_voltage n) in
  let* c1 := curve "Gain" v_mv (n_gain n) in
  let* vb := pyget v_mv (Z.of_nat (n_best n)) in
  let* gb := pyget (n_gain n) (Z.of_nat (n_best n)) in
  let* c2 := curve "" [vb] [gb] in
  let* c3 := curve "Noise Temp." v_mv (n_tn n) in
  let tn_best := b_tn (n_summary n) in
  let* c4 := curve "" [vb] [tn_best] in
  let* ym := limit (fmul tn_best (FV 5)) in
  Ok ({| g_items := [c1; c2; Note (String.append "$G_\mathrm{c}=" (String.append (show_fl 2 gb) "$")) (FV vb) gb]; g_xlabel := "Bias Voltage (mV)"; g_ylabel := "Gain"; g_title := "";
         g_xlim := (Some 0%R, Some vmax_plot); g_ylim := (Some 0%R, None) |},
      {| g_items := [c3; c4; Note (String.append "$T_\mathrm{N}=" (String.append (show_fl 1 tn_best) "$ K")) (FV vb) tn_best]; g_xlabel := ""; g_ylabel := "Noise Temperature (K)"; g_title := "";
         g_xlim := (Some 0%R, Some vmax_plot); g_ylim := (Some 0%R, Some ym) |}).
(** qmix/exp/exp_data.py:1167-1204 plot_gain *)
Definition plot_gain (d : dcdata) (u : pumpeddata) (vmax_plot : R) : res axes :=
  let* n := if_results u in
  let v_mv := map (fun a => a * dc_vgap (d_dc d) * 10 ^ 3)%R (n_voltage n) in
  let* c1 := curve "$G_{{c}}$" v_mv (map (fun g => fmul g (FV 100)) (n_gain n)) in
  let* m := fmaximum (n_gain n) in
  let* ym := limit (fmul m (FV 105)) in
  Ok {| g_items := [c1]; g_xlabel := "Bias Voltage (mV)"; g_ylabel := "Gain (%)"; g_title := "";
        g_xlim := (Some 0%R, Some vmax_plot); g_ylim := (Some 0%R, Some ym) |}.
(** The recovered circuit; without it the attribute zt is None, which cannot be multiplied. *)
Definition rec_results (u : pumpeddata) : res recovered := match u_recovered u with Some r => Ok r | None => Err TypeError end.
Definition transpose (n : nat) (m : list (list fl)) : list (list fl) := map (fun j => map (fun r => nth j r FNaN) m) (seq 0 n).
(** qmix/exp/exp_data.py:1206-1290 plot_error_surface.  (The place of the text and the text
    box are not modelled.) *)
Definition plot_error_surface (d : dcdata) (u : pumpeddata) (o : options) : res axes :=
  let rn := dc_rn (d_dc d) in
  let zt_real := in_units (linspace (fst (o_remb_range o)) (snd (o_remb_range o)) 101) rn in
  let zt_imag := in_units (linspace (fst (o_xemb_range o)) (snd (o_xemb_range o)) 201) rn in
  let* r := rec_results u in
  let zt_best := (Re (rec_zt r) * rn, Im (rec_zt r) * rn)%R in
  let zz := map (map flog10) (rec_err r) in
  let text := String.append "Minimum Error at" (String.append newline (String.append "$Z_\mathrm{T}$=" (String.append (fixed_complex 2 zt_best) " $\Omega$"))) in
  Ok {| g_items := [Surface zt_real zt_imag (transpose 201 zz); Note text (FV (fst zt_best)) (FV (snd zt_best))];
        g_xlabel := "$R_\mathrm{{T}}$ ($\Omega$)"; g_ylabel := "$X_\mathrm{{T}}$ ($\Omega$)"; g_title := "";
        g_xlim := (None, None); g_ylim := (None, None) |}.

Section Simulation.
(** Bessel functions and matrix inversion, as in Model_HB. *)
Variable J : nat -> R -> R.
Variable inv : nat -> (nat -> nat -> R) -> option (nat -> nat -> R).
(** Lines 1315-1328 of qmix/exp/exp_data.py: the parts of the photon step left out. *)
Definition simulated_limits (o : options) : R * R :=
  let '(fit_low, fit_high) :=
    match o_fit_range o with
    | Some r => r
    | None => match o_cut_low o, o_cut_high o with Some l, Some h => (l, h) | _, _ => (25 / 100, 8 / 10)%R end
    end in
  (fit_low, (1 - fit_high)%R).
(** Lines 1332-1336: the recovered circuit. *)
Definition recovered_circuit (vph : R) (zt : C) (vt : C) : res Model_Circuit.circ :=
  let* c := Model_Circuit.init sc_h sc_e (Model_Circuit.PInt 1) (Model_Circuit.PInt 1) 0 2 (Model_Circuit.PInt 201) None None None "" in
  let* c := Model_Circuit.put_freq c 1 vph in
  let* c := Model_Circuit.put_zt c 1 1 zt in
  Model_Circuit.put_vt c 1 1 (Some vt).
(** Lines 1338-1341: the bias voltages and the simulated dc current. *)
Definition simulate (resp : R -> C) (c : Model_Circuit.circ) : res (list R * list R) :=
  let r := Model_HB.harmonic_balance J inv (Model_HB.of_circ c) resp (NbInt 30) 10 (1 / 1000) None 1 "o" (RtoC (67 / 100)) in
  let* v := Model_HB.r_ret r in
  let* vj := match v with Model_HB.RetV vj => Ok vj | _ => Err NotModelled end in
  let* vph := pyget (Model_Circuit.c_freq c) 1 in
  let* out := qtcurrent J vj (Model_HB.h_q (Model_HB.r_cct r)) resp (FList [0%R; vph]) (NbInt 30) None in
  let* rows := match out with QRows rows => Ok rows | _ => Err NotModelled end in
  let* row := pyget rows 0 in
  Ok (Model_Circuit.c_vb c, map Re row).
(** qmix/exp/exp_data.py:1292-1372 plot_simulated.  (A recovered voltage that is not finite
    and a gap frequency of 0 are not modelled.) *)
Definition plot_simulated (d : dcdata) (u : pumpeddata) (o : options) (vmax_plot : R) : res axes :=
  let dc := d_dc d in
  let vgap := dc_vgap dc in
  let* vph := quot (u_freq u * 10 ^ 9) (dc_fgap dc) in
  let '(fit_low, fit_high) := simulated_limits o in
  let v_min := ((1 - vph + vph * fit_low) * vgap * 10 ^ 3)%R in
  let v_max := ((1 - vph * fit_high) * vgap * 10 ^ 3)%R in
  let* r := rec_results u in
  let* vt := match rec_vt r with FV x => Ok x | _ => Err NotModelled end in
  let* c := recovered_circuit vph (rec_zt r) (RtoC vt) in
  let* (vb, current) := simulate (resp (d_resp_smear d)) c in
  let mv := (vgap * 10 ^ 3)%R in
  let ua := (dc_igap dc * 10 ^ 6)%R in
  let* items := draw_iv d u mv ua in
  let* c3 := curve "Simulated" (in_units vb mv) (numbers (in_units current ua)) in
  let* ys := np_interp [v_min; v_max] (in_units vb mv) (in_units current ua) in
  let* c4 := curve "Fit Interval" [v_min; v_max] (numbers ys) in
  let* ymax := np_interp [vmax_plot] (in_units (d_voltage d) mv) (in_units (d_current d) ua) in
  let msg := String.append (lo_title u) (String.append newline (
             String.append "$V_{ph}$ = " (String.append (fixed false 0 2 (u_vph u * mv)) (String.append " mV" (String.append newline (
             String.append "$V_T$ = " (String.append (fixed false 0 2 (vt * vgap * 10 ^ 3)) (String.append " mV" (String.append newline (
             String.append "$Z_T$ = " (String.append (fixed_complex 2 (Re (rec_zt r) * dc_rn dc, Im (rec_zt r) * dc_rn dc)%R) " $\Omega$"))))))))))) in
  match items with
  | [c1; c2; l1; l2] =>
      Ok {| g_items := [c1; c2; c3; c4; l1; l2]; g_xlabel := "Bias Voltage (mV)"; g_ylabel := "DC Current (uA)"; g_title := msg;
            g_xlim := (Some 0%R, Some vmax_plot); g_ylim := (Some 0%R, Some (nth 0 ymax 0%R)) |}
  | _ => Err NotModelled
  end.
End Simulation.

(** ** Response functions *)
(** qmix/respfn.py:210-265 plot_interpolation (and 318-342 show_current, its old name) *)
Definition plot_interpolation (r : respfn) : res axes :=
  let* c1 := curve "$I_\mathrm{{dc}}^0(V_0)$: imported" (rf_voltage r) (numbers (rf_current r)) in
  let* c2 := curve "$I_\mathrm{{kk}}^0(V_0)$: imported" (rf_voltage r) (numbers (rf_current_kk r)) in
  let* c3 := curve "$I_\mathrm{{dc}}^0(V_0)$: interpolated" (rf_voltage r) (numbers (map (f_idc r) (rf_voltage r))) in
  let* c4 := curve "$I_\mathrm{{kk}}^0(V_0)$: interpolated" (rf_voltage r) (numbers (map (f_ikk r) (rf_voltage r))) in
  Ok {| g_items := [c1; c2; c3; c4]; g_xlabel := "Bias Voltage / $V_\mathrm{{gap}}$"; g_ylabel := "Current / $I_\mathrm{{gap}}$"; g_title := "";
        g_xlim := (Some (-2)%R, Some 2%R); g_ylim := (Some (-2)%R, Some 2%R) |}.
(** qmix/respfn.py:267-316 plot *)
Definition plot_resp (r : respfn) : res axes :=
  let* c1 := curve "$I_\mathrm{{dc}}^0(V_0)$" (rf_voltage r) (numbers (rf_current r)) in
  let* c2 := curve "$I_\mathrm{{kk}}^0(V_0)$" (rf_voltage r) (numbers (rf_current_kk r)) in
  Ok {| g_items := [c1; c2]; g_xlabel := "Bias Voltage (normalized)"; g_ylabel := "Current (normalized)"; g_title := "";
        g_xlim := (Some 0%R, Some 2%R); g_ylim := (Some (- (12 / 10))%R, Some 2%R) |}.
