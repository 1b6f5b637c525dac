(** Model of the analysis of pumped data of qmix/exp/exp_data.py for gains, slopes and drive
    levels of any kind.

    Model_ExpData.v and Model_Objects.v stop where the gain at the best bias voltage is not
    positive, where the I-V curve is flat there or where only one of its samples is left, and
    where a drive level is not finite.  Here the logarithm, the quotient, the fit and the
    recovery give what NumPy gives. *)
From Coq Require Import List ZArith Bool Arith Reals.
From Coquelicot Require Import Complex.
From Verif Require Import Base Model_QtCurrent Float NumPy Model_MathFn Model_CleanData Model_RespFn Model_IVData Model_Tucker Model_IFData Model_ExpData Model_Objects Model_RecoverAll.
Import ListNotations.
Local Notation length := List.length.

(** np.log10: minus infinity at zero and NaN, with a warning, below. *)
Definition log10_all (x : fl) : fl :=
  match x with
  | FV x => if Rltb 0 x then FV (log10 x) else if Reqb x 0 then FNInf else FNaN
  | FPInf => FPInf
  | _ => FNaN
  end.
(** np.polyfit(x, y, 1)[0].  If all x are equal, polyfit warns and returns, among the lines
    through the mean of y, the one with the smallest coefficients after its columns x and 1
    have been scaled to length 1.  (If they are all 0, the scaled column is NaN, and the
    decomposition in np.linalg.lstsq does not converge.) *)
Definition slope_all (x y : list R) : res fl :=
  let* _ := guard (negb (length x =? 0)%nat) TypeError in
  let* _ := guard (length x =? length y)%nat TypeError in
  let n := INR (length x) in
  let sx := rsum x in let sy := rsum y in
  let sxx := rsum (map (fun a => a * a)%R x) in
  let sxy := rsum (zipwith Rmult x y) in
  let det := (n * sxx - sx * sx)%R in
  let x0 := nth 0 x 0%R in
  if Reqb det 0 then
    if Reqb x0 0 then Err LinAlgError else Ok (FV (sy / n / (2 * x0))%R)
  else Ok (FV ((n * sxy - sx * sy) / det)%R).

(** Lines 647-655 of qmix/exp/exp_data.py: the values at the best bias voltage in
    PumpedData: noise temperature, gain, gain in dB, voltage, impedance at the IF.  (A slope of
    zero is +0.) *)
Record ifsummary_all := { c_tn : fl; c_gain : fl; c_gdb : fl; c_v : R; c_zj : fl }.
Definition if_summary_all (voltage current v_if : list R) (tn gain : list fl) (idx : nat) (rn : R) : res ifsummary_all :=
  let* t := pyget tn (Z.of_nat idx) in
  let* g := pyget gain (Z.of_nat idx) in
  let g_db := fmul (FV 10) (log10_all g) in
  let* vb := pyget v_if (Z.of_nat idx) in
  let* i := fargmin (map (fun a => FV (Rabs (a - vb))) voltage) in
  let* p := slope_all (segment voltage i (i + 10)) (segment current i (i + 10)) in
  Ok {| c_tn := t; c_gain := g; c_gdb := g_db; c_v := vb; c_zj := fdiv (FV rn) p |}.

(** The results of the IF analysis and the attributes, as in Model_Objects.v. *)
Record ifresults_all := {
  m_voltage : list R; m_hot : list R; m_cold : list R; m_tn : list fl; m_gain : list fl;
  m_best : nat; m_dcif : dcifdata; m_summary : ifsummary_all }.
Record pumpeddata_all := {
  x_freq : R; x_vph : R; x_voltage : list R; x_current : list R; x_rdyn : list fl;
  x_recovered : option recovered_all; x_if : option ifresults_all }.
Section Oracles.
(** argsort, savgol_filter and the Bessel functions, as in Model_Objects.v. *)
Variable argsort : list fl -> list nat.
Variable savgol : list R -> Z -> Z -> list R.
Variable J : nat -> R -> R.
(** qmix/exp/exp_data.py:556-678 PumpedData.__init__ for 2-D arrays (any other I-V data
    raise a ValueError).  (A gap frequency of 0 is not modelled.) *)
Definition pumped_all (ivdata : matrix) (d : dcdata) (hot cold : option matrix) (o : options) : res pumpeddata_all :=
  let dc := d_dc d in
  let* freq := match o_freq o with None => Err ValueError | Some f => Ok f end in
  let* r := quot freq (dc_fgap dc) in
  let vph := (r * 10 ^ 9)%R in
  let* (voltage, current) := iv_curve savgol argsort ivdata dc (iv_options o) in
  let* rdyn := slope_span_n current voltage 21 true in
  let* rec := if o_analyze_iv o then
                let* vph := quot (freq * 10 ^ 9) (dc_fgap dc) in
                let* r := recover_all J (idc (d_resp d)) (ikk (d_resp d)) voltage current vph (rec_options o) in Ok (Some r)
              else Ok None in
  let* f := match hot, cold with
            | Some hot, Some cold =>
                if o_analyze_if o then
                  let* f := if_data savgol argsort hot cold dc (calibration d) (if_options o) in
                  let '(vh, ph, pc, tn, gain, idx, cal) := f in
                  let* s := if_summary_all voltage current vh tn gain idx (dc_rn dc) in
                  Ok (Some {| m_voltage := vh; m_hot := ph; m_cold := pc; m_tn := tn; m_gain := gain; m_best := idx; m_dcif := cal; m_summary := s |})
                else Ok None
            | _, _ => Ok None
            end in
  Ok {| x_freq := freq; x_vph := vph; x_voltage := voltage; x_current := current; x_rdyn := rdyn; x_recovered := rec; x_if := f |}.
End Oracles.
