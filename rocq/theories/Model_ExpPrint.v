(** Model of what is printed while experimental data are analysed: DCData and PumpedData
    (qmix/exp/exp_data.py), dciv_curve (qmix/exp/iv_data.py), dcif_data and if_data
    (qmix/exp/if_data.py).

    The calculations are those of Model_IVData.v, Model_IFData.v, Model_ExpData.v and
    Model_Objects.v, with the messages at the places where the code prints them.  Numbers are
    exact. *)
From Coq Require Import List ZArith Bool Arith Reals String.
From Coquelicot Require Import Complex.
From Verif Require Import Base Model_QtCurrent Float NumPy Model_MathFn Model_CleanData Model_RespFn Model_IVData Model_Tucker Model_IFData Model_ExpData Model_Objects Model_Misc Model_Print Model_Said.
Import ListNotations.
Local Notation length := List.length.
Open Scope list_scope.
Open Scope Z_scope.

(** The messages. *)
Inductive emsg :=
| LowResistance | HighResistance | ShotFailed | Summary (comment : string) (d : dcdata)
| Importing (comment : string) | Files | IVFile | HotFile | ColdFile | Frequency (f : R)
| Recovery | GoodFit | BadFit | EmbeddingCircuit | SourceVoltage (v : fl) | SourceImpedance (z : C) | AvailPower (nw : fl)
| Junction | DriveLevel (a : R) | JunctionImpedance (z : option C) | DelivPower (nw : fl)
| AnalyzeIF | NoiseTemp (t : fl) | Gain (db : fl) | IFNoise (t : R) | Blank.

(** ** Their text *)
(** {:w.df} and {:+w.df} of a float *)
Definition fixed_fl (plus : bool) (w d : nat) (x : fl) : string :=
  match x with
  | FV x => fixed plus w d x
  | FPInf => pad_left w ((if plus then "+" else "") ++ "inf") | FNInf => pad_left w "-inf" | FNaN => pad_left w ((if plus then "+" else "") ++ "nan")
  end%string.
(** {:+w.df} of a complex number.  (A number that is not finite: both parts as nan.) *)
Definition signed_complex (w d : nat) (z : option C) : string :=
  pad_left w match z with Some z => fixed true 0 d (Re z) ++ fixed true 0 d (Im z) ++ "j" | None => "+nan+nanj" end%string.
Definition etext (m : emsg) : string :=
  match m with
  | LowResistance => cprint "" (newline ++ "Warning: Normal resistance is very low...") (Some "RED") ++              (* iv_data.py:195-196 *)
                     cprint "" ("         Are you sure you have the right units?" ++ newline) (Some "RED")
  | HighResistance => cprint "" (newline ++ "Warning: Normal resistance is very high...") (Some "RED") ++            (* iv_data.py:198-199 *)
                      cprint "" ("         Are you sure you have the right units?" ++ newline) (Some "RED")
  | ShotFailed => cprint "" (tab ++ tab ++ "Shot noise fit failed.") (Some "RED") ++                                 (* if_data.py:321-322 *)
                  cprint "" (tab ++ tab ++ "Selecting all voltages above 2*Vgap.") (Some "RED")
  | Summary comment d => print (dc_str comment d)                                                                  (* exp_data.py:209 *)
  | Importing comment => cprint "" ("Importing: " ++ comment) (Some "HEADER")                                      (* 610 *)
  | Files => print " -> Files:"
  | IVFile => print (tab ++ "I-V file:    " ++ tab ++ "Numpy array")
  | HotFile => print (tab ++ "IF hot file: " ++ tab ++ "Numpy array")
  | ColdFile => print (tab ++ "IF cold file:" ++ tab ++ "Numpy array")
  | Frequency f => print (" -> Frequency: " ++ fixed false 0 1 f ++ " GHz")                                        (* 617 *)
  | Recovery => cprint "" " -> Impedance recovery:" None                                                           (* 727 *)
  | GoodFit => cprint "" (tab ++ "- good fit") (Some "OKGREEN")                                                    (* 777 *)
  | BadFit => cprint "" (tab ++ "- bad fit") (Some "WARNING")
  | EmbeddingCircuit => print (tab ++ "- embedding circuit:")
  | SourceVoltage v => print (tab ++ tab ++ "- voltage:     " ++ tab ++ fixed_fl true 6 2 v ++ tab ++ tab ++ "* Vgap")
  | SourceImpedance z => print (tab ++ tab ++ "- impedance:   " ++ tab ++ signed_complex 12 2 (Some z) ++ tab ++ "* Rn")
  | AvailPower p => print (tab ++ tab ++ "- avail. power:" ++ tab ++ fixed_fl true 7 2 p ++ tab ++ tab ++ "nW")
  | Junction => print (tab ++ "- junction:")
  | DriveLevel a => print (tab ++ tab ++ "- drive level:" ++ tab ++ fixed true 6 2 a)
  | JunctionImpedance z => print (tab ++ tab ++ "- impedance:" ++ tab ++ signed_complex 12 2 z ++ tab ++ "* Rn")
  | DelivPower p => print (tab ++ tab ++ "- deliv. power:" ++ tab ++ fixed_fl true 7 2 p ++ tab ++ tab ++ "nW")    (* 791 *)
  | AnalyzeIF => print (escape "95" ++ " -> Analyze IF data:" ++ escape "0")                                       (* if_data.py:131 *)
  | NoiseTemp t => print (tab ++ "- noise temp:" ++ tab ++ fixed_fl false 6 1 t ++ " K")                           (* if_data.py:238 *)
  | Gain g => print (tab ++ "- gain:" ++ tab ++ tab ++ fixed_fl true 6 2 g ++ " dB")
  | IFNoise t => print (tab ++ "- IF noise:" ++ tab ++ fixed true 6 2 t ++ " K")                                   (* if_data.py:162 *)
  | Blank => print ""                                                                                              (* exp_data.py:678 *)
  end%string.

(** 10 * np.log10(x) *)
Definition decibel (x : fl) : fl :=
  match x with
  | FV x => if Rltb 0 x then FV (10 * log10 x) else if Reqb x 0 then FNInf else FNaN
  | FPInf => FPInf | _ => FNaN
  end.

Section Oracles.
Variable argsort : list fl -> list nat.
Variable minimize : (R * R -> R) -> R * R -> R * R.
Variable savgol : list R -> Z -> Z -> list R.
Variable J : nat -> R -> R.
Variable spline dspline : list R -> list R -> Z -> R -> R.
Variable verbose : bool.

(** qmix/exp/iv_data.py:69-218 dciv_curve *)
Definition dciv_curve_p (ivdata : matrix) (p : ivparams) : said emsg (list R * list R * dcivdata) :=
  let! (v, i) := quietly (loaded argsort ivdata p) in
  let! o := quietly (correct_offset minimize v i (p_voffset p) (p_ioffset p) (p_voffset_range p)) in
  let '(v, i, offset) := o in
  let! q := quietly (processed savgol p v i) in
  let '(vraw, iraw, (v, i)) := q in
  let! vgap := quietly (match p_vgap p with Some g => Ok g | None => find_gap_voltage v i (p_vrn p) end) in
  let! r := quietly (find_normal_resistance v i (p_vrn p)) in
  let '(rn, vint) := r in
  let! rsg := quietly (find_subgap_resistance v i (p_vrsg p)) in
  let fgap := (sc_e * vgap / sc_h)%R in
  let! igap := quietly (quot vgap rn) in
  let! _ := say_if (Rltb rn 1) [LowResistance] in
  let! _ := say_if (Rltb 50 rn) [HighResistance] in
  let! _ := quietly (guard (negb (Reqb vgap 0)) NotModelled) in
  let voltage := map (fun a => a / vgap)%R v in
  let current := map (fun a => a / igap)%R i in
  let v_temp := map (fun a => a / vgap)%R (linspace (- p_vmax p) (p_vmax p) (p_npts p)) in
  let! current := quietly (np_interp v_temp voltage current) in
  quietly (Ok (v_temp, current,
      {| dc_vraw := vraw; dc_iraw := iraw; dc_vnorm := v_temp; dc_inorm := current;
         dc_vgap := vgap; dc_igap := igap; dc_fgap := fgap; dc_rn := rn; dc_rsg := rsg; dc_offset := offset;
         dc_vint := vint; dc_rseries := p_rseries p |})).

(** qmix/exp/if_data.py:255-362 _find_if_noise *)
Definition find_if_noise_p (x y : list R) (dc : dcivdata) (vshot : option shot_ranges) : said emsg (R * R * list R * bool) :=
  let! mask := quietly (match vshot with None => auto_mask savgol x y | Some s => range_mask x (dc_vgap dc) s end) in
  let! _ := say_if (count_true mask <? 5)%nat [ShotFailed] in
  let mask := if (count_true mask <? 5)%nat then map (fun a => Rltb 2 a) x else mask in
  let! x_red := quietly (select mask x) in
  let! y_red := quietly (select mask y) in
  let! (slope, intercept) := quietly (linregress x_red y_red) in
  let i_slope := map (fun a => slope * a + intercept)%R x in
  let! c := quietly (quot (58 / 10) slope) in
  let corr := (c * dc_vgap dc * 10 ^ 3)%R in
  let i_slope := map (fun a => a * corr)%R i_slope in
  let! at_ := quietly (quot (dc_vint dc) (dc_vgap dc)) in
  let! n := quietly (np_interp [at_] x i_slope) in
  let if_noise := nth 0 n 0%R in
  quietly (Ok (if_noise, corr, i_slope, Rltb 0 if_noise && Rltb if_noise 50)).

(** qmix/exp/if_data.py:51-93 dcif_data *)
Definition dcif_data_p (ifdata : matrix) (dc : dcivdata) (q : ifparams) : said emsg (list R * list R * dcifdata) :=
  let! (v, p) := quietly (load_if argsort ifdata dc q) in
  let! r := find_if_noise_p v p dc (q_vshot q) in
  let '(noise, corr, i_slope, fit) := r in
  let p := map (fun a => a * corr)%R p in
  let! top := quietly (amax v) in
  quietly (Ok (v, p, {| if_noise := noise; if_corr := corr; if_fit := fit; if_shot := (v, i_slope); if_vmax := (top * dc_vgap dc)%R |})).

(** Lines 235-239 of qmix/exp/if_data.py, at the end of _find_tn_gain *)
Definition find_tn_gain_p (vnorm p_hot vcold p_cold : list R) (vgap : R) (q : ifparams) : said emsg (list fl * list fl * nat) :=
  let! t := quietly (find_tn_gain vnorm p_hot vcold p_cold vgap q) in
  let '(tn, gain, idx) := t in
  let! _ := (if verbose then
               let! tn_best := quietly (pyget tn (Z.of_nat idx)) in
               let! gain_best := quietly (pyget gain (Z.of_nat idx)) in
               say_if true [NoiseTemp tn_best; Gain (decibel gain_best)]
             else say_if false []) in
  quietly (Ok (tn, gain, idx)).

(** qmix/exp/if_data.py:96-164 if_data *)
Definition if_data_p (hot cold : matrix) (dc : dcivdata) (dcif : option dcifdata) (q : ifparams)
  : said emsg ((list R * list R * list R * list fl * list fl) * nat * dcifdata) :=
  let! _ := say_if true [AnalyzeIF] in
  let! (vh, ph) := quietly (load_if argsort hot dc q) in
  let! (vc, pc) := quietly (load_if argsort cold dc q) in
  let! r := match dcif with
            | None =>
                let! v := quietly (bcast (fun a b => (a + b) / 2)%R vh vc) in
                let! p := quietly (bcast (fun a b => (a + b) / 2)%R ph pc) in
                let! r := find_if_noise_p v p dc (q_vshot q) in
                let '(noise, corr, i_slope, fit) := r in
                quietly (Ok (noise, corr, fit, (vc, i_slope)))
            | Some d => quietly (Ok (if_noise d, if_corr d, if_fit d, if_shot d))
            end in
  let '(noise, corr, fit, shot) := r in
  let ph := map (fun a => a * corr)%R ph in
  let pc := map (fun a => a * corr)%R pc in
  let! t := find_tn_gain_p vh ph vc pc (dc_vgap dc) q in
  let '(tn, gain, idx) := t in
  let! top := quietly (amax vh) in
  let! _ := say_if verbose [IFNoise noise] in
  quietly (Ok (vh, ph, pc, tn, gain, idx,
      {| if_noise := noise; if_corr := corr; if_fit := fit; if_shot := shot; if_vmax := (top * dc_vgap dc)%R |})).

(** qmix/exp/exp_data.py:139-209 DCData.__init__; the response functions are made with
    verbose=False. *)
Definition dc_data_p (comment : string) (dciv : matrix) (dcif : option matrix) (o : options) : said emsg dcdata :=
  let! d := dciv_curve_p dciv (iv_options o) in
  let '(voltage, current, dc) := d in
  let! s := quietly (dc_summary dc voltage current (o_area o) (o_vleak o)) in
  let! r := quietly (respfn_from_iv spline dspline voltage current vlimit (resp_options None)) in
  let! rs := quietly (respfn_from_iv spline dspline voltage current vlimit (resp_options (o_v_smear o))) in
  let! f := match dcif with
            | None => quietly (Ok None)
            | Some m => let! f := dcif_data_p m dc (if_options o) in quietly (Ok (Some f))
            end in
  let d := {| d_voltage := voltage; d_current := current; d_dc := dc; d_summary := s; d_resp := r; d_resp_smear := rs; d_if := f |} in
  let! _ := say_if verbose [Summary comment d] in
  quietly (Ok d).

(** Lines 784-785 and 789-790 of qmix/exp/exp_data.py: the powers in nW.  (The impedance of the
    junction that is not finite gives nan.) *)
Definition avail_power (vt : fl) (vgap : R) (zt : C) (rn : R) : fl :=
  let v := fabs (fmul vt (FV vgap)) in
  fdiv (fdiv (fdiv (fmul v v) (FV 8)) (FV (Re zt * rn))) (FV (1 / 10 ^ 9)).
Definition deliv_power (v : R) (vgap : R) (zw : option C) (rn : R) : fl :=
  match zw with
  | Some zw => fdiv (fdiv (FV (Rabs (v * vgap) ^ 2 / 2)) (FV (Re zw * rn))) (FV (1 / 10 ^ 9))
  | None => FNaN
  end.
(** qmix/exp/exp_data.py:680-800 PumpedData._recover_zemb: everything is printed whatever
    verbose is. *)
Definition recover_zemb_p (idc ikk : R -> R) (vgap rn : R) (voltage current : list R) (vph : R) (q : recparams) : said emsg recovered :=
  let! (fit_low, fit_high) := quietly (fit_limits q) in
  let! _ := say_if true [Recovery] in
  let! (v, i) := quietly (on_step voltage current vph fit_low fit_high) in
  let! idx_middle := quietly (fargmin (map (fun a => FV (Rabs (a - (1 - vph / 2)))) v)) in
  let! ac := quietly (ac_side J idc ikk v i vph q) in
  let '(alpha, ac_voltage, ac_impedance) := ac in
  let! zw := quietly (pyget ac_impedance (Z.of_nat idx_middle)) in
  let! g := quietly (grid_search ac_voltage ac_impedance q) in
  let '(err_surf, zt_best, vt_best, good_fit) := g in
  let! _ := say_if true [if good_fit then GoodFit else BadFit] in
  let! _ := say_if true [EmbeddingCircuit; SourceVoltage vt_best; SourceImpedance zt_best; AvailPower (avail_power vt_best vgap zt_best rn)] in
  let! a := quietly (pyget alpha (Z.of_nat idx_middle)) in
  let! _ := say_if true [Junction; DriveLevel a; JunctionImpedance zw; DelivPower (deliv_power (a * vph) vgap zw rn)] in
  quietly (Ok {| rec_zt := zt_best; rec_vt := vt_best; rec_fit := good_fit; rec_zw := zw; rec_alpha := a; rec_err := err_surf |}).

(** qmix/exp/exp_data.py:556-678 PumpedData.__init__ *)
Definition pumped_data_p (comment : string) (ivdata : matrix) (d : dcdata) (hot cold : option matrix) (o : options) : said emsg pumpeddata :=
  let dc := d_dc d in
  let! freq := quietly (match o_freq o with None => Err ValueError | Some f => Ok f end) in
  let! r := quietly (quot freq (dc_fgap dc)) in
  let vph := (r * 10 ^ 9)%R in
  let! _ := say_if verbose ([Importing comment; Files; IVFile] ++ match hot, cold with Some _, Some _ => [HotFile; ColdFile] | _, _ => [] end ++ [Frequency freq]) in
  let! (voltage, current) := quietly (iv_curve savgol argsort ivdata dc (iv_options o)) in
  let! rdyn := quietly (slope_span_n current voltage 21 true) in
  let! rec := (if o_analyze_iv o then
                 let! vph := quietly (quot (freq * 10 ^ 9) (dc_fgap dc)) in
                 let! r := recover_zemb_p (idc (d_resp d)) (ikk (d_resp d)) (dc_vgap dc) (dc_rn dc) voltage current vph (rec_options o) in
                 quietly (Ok (Some r))
               else quietly (Ok None)) in
  let! f := match hot, cold with
            | Some hot, Some cold =>
                if o_analyze_if o then
                  let! f := if_data_p hot cold dc (calibration d) (if_options o) in
                  let '(vh, ph, pc, tn, gain, idx, cal) := f in
                  let! s := quietly (if_summary voltage current vh tn gain idx (dc_rn dc)) in
                  quietly (Ok (Some {| n_voltage := vh; n_hot := ph; n_cold := pc; n_tn := tn; n_gain := gain; n_best := idx; n_dcif := cal; n_summary := s |}))
                else quietly (Ok None)
            | _, _ => quietly (Ok None)
            end in
  let! _ := say_if verbose [Blank] in
  quietly (Ok {| u_freq := freq; u_vph := vph; u_voltage := voltage; u_current := current; u_rdyn := rdyn; u_recovered := rec; u_if := f |}).
End Oracles.

(** qmix/exp/exp_data.py:240-248 DCData.print_info *)
Definition dc_print_info (comment : string) (d : dcdata) : list emsg := [Summary comment d].
