(** Specification vocabulary for the figures. *)
From Coq Require Import List Bool Reals String.
From Coquelicot Require Import Complex.
From Verif Require Model_QtCurrent Model_HB Model_Tucker Model_Print.
From Verif Require Import Base Float NumPy Model_CleanData Model_RespFn Spec_IVData Spec_IFData Model_IVData Model_IFData Spec_ExpData Spec_Objects Model_Objects Model_Misc Model_Plots.
Import ListNotations.
Open Scope R_scope.
Local Notation length := List.length.

(** The axes show these curves (label and points), these vertical and horizontal lines and
    nothing else. *)
Definition shows (a : axes) (curves : list (string * list (R * fl))) (lines : list item) : Prop :=
  g_items a = app (map (fun c => Curve (fst c) (map fst (snd c)) (map snd (snd c))) curves) lines.
(** Voltages and currents in units of the gap voltage and the gap current, in mV and uA. *)
Definition millivolts (dc : dcivdata) (v : list R) : list R := map (fun a => a * (dc_vgap dc * 10 ^ 3)) v.
Definition microamps (dc : dcivdata) (i : list R) : list R := map (fun a => a * (dc_igap dc * 10 ^ 6)) i.
(** The point (t, c) is on the straight lines that join the samples x, y. *)
Definition on_curve (x y : list R) (t c : R) : Prop := joined x y (nth 0 y 0) (nth (length x - 1) y 0) t c.
(** A single marked point. *)
Definition mark (label : string) (x : R) (y : fl) : string * list (R * fl) := (label, [(x, y)]).
(** The entries of l at the positions where h is not 0. *)
Definition where_nonzero {A} (h : list R) (l : list A) : list A := map snd (filter (fun p => if Req_EM_T (fst p) 0 then false else true) (List.combine h l)).
(** The legend of the figures of pumped data. *)
Definition lo_legend (f : R) : string := ("LO: " ++ fixed false 0 1 f ++ " GHz")%string.
(** The unpumped and the pumped I-V curve in mV and uA; samples of zero pumped current are
    left out. *)
Definition pumped_curves (d : dcdata) (u : pumpeddata) : list (string * list (R * fl)) :=
  [("Unpumped"%string, List.combine (millivolts (d_dc d) (d_voltage d)) (map FV (microamps (d_dc d) (d_current d))));
   ("Pumped"%string, where_nonzero (u_current u) (List.combine (millivolts (d_dc d) (u_voltage u)) (map FV (microamps (d_dc d) (u_current u)))))].
(** Vertical lines at the gap voltage and one photon voltage h f / e below it, in mV; f in GHz. *)
Definition step_lines (dc : dcivdata) (f : R) : list item := [Vertical (dc_vgap dc * 10 ^ 3); Vertical ((dc_vgap dc - planck * (f * 10 ^ 9) / elementary_charge) * 10 ^ 3)].
(** An IF power (K) over the bias voltage of the IF data (mV). *)
Definition power_points (dc : dcivdata) (n : ifresults) (p : list R) : list (R * fl) := List.combine (millivolts dc (n_voltage n)) (map FV p).
(** The selected bias point in mV. *)
Definition best_voltage (dc : dcivdata) (n : ifresults) : R := nth (n_best n) (millivolts dc (n_voltage n)) 0.

(** A circuit of one tone of photon voltage vph with the source voltage vt and the impedance zt,
    at bias voltages from 0 to 2 in steps of 0.01. *)
Definition recovered_source (vph : R) (zt vt : C) (c : Model_HB.hcct) : Prop :=
  let q := Model_HB.h_q c in
  Model_QtCurrent.q_num_f q = 1%nat /\ Model_QtCurrent.q_num_p q = 1%nat /\ Model_QtCurrent.q_npts q = 201%nat /\ Model_QtCurrent.q_freq q 1%nat = vph /\
  (forall i, (i < 201)%nat -> Model_QtCurrent.q_vb q i = INR i / 100) /\ Model_HB.h_wvt c = true /\
  forall f p, Model_HB.h_vt c f p = (if (f =? 1)%nat && (p =? 1)%nat then vt else RtoC 0) /\ Model_HB.h_zt c f p = (if (f =? 1)%nat && (p =? 1)%nat then zt else RtoC 0).
(** Two marked points. *)
Definition marks (label : string) (p q : R * R) : string * list (R * fl) := (label, [(fst p, FV (snd p)); (fst q, FV (snd q))]).
(** The position x of the first photon step (0: one photon voltage below the gap, 1: the gap)
    in mV, for frequency f in GHz. *)
Definition on_photon_step (dc : dcivdata) (f x : R) : R := (1 - f * 10 ^ 9 / dc_fgap dc + f * 10 ^ 9 / dc_fgap dc * x) * (dc_vgap dc * 10 ^ 3).
(** The smallest error for an impedance z, whatever the source voltage is. *)
Definition least_mismatch (pts : list (C * C)) (z : C) (e : R) : Prop := (exists V, e = mismatch pts z V) /\ forall V, e <= mismatch pts z V.
(** The logarithm of an error as a floating-point number. *)
Definition log_error (e : R) : fl := if Req_EM_T e 0 then FNInf else FV (ln e / ln 10).
(** The bias voltages 0, 0.01, ..., 2, and the pumped I-V curve there for a junction voltage v
    (by bias point) of photon voltage vph, with up to nb photons. *)
Definition sim_voltages : list R := map (fun i => INR i / 100) (seq 0 201).
Definition tucker_curve (J : nat -> R -> R) (idc : R -> R) (vph : R) (nb : nat) (v : nat -> C) : list R :=
  map (fun i => Model_Tucker.pumped_iv J idc vph (Cmod (v i) / vph) nb (INR i / 100)) (seq 0 201).
(** The legend of the simulated curve: frequency, photon voltage, source voltage and impedance. *)
Definition circuit_legend (dc : dcivdata) (f vt : R) (zt : C) : string :=
  (lo_legend f ++ newline ++ "$V_{ph}$ = " ++ fixed false 0 2 (planck * (f * 10 ^ 9) / elementary_charge * 10 ^ 3) ++ " mV" ++ newline ++
   "$V_T$ = " ++ fixed false 0 2 (vt * dc_vgap dc * 10 ^ 3) ++ " mV" ++ newline ++
   "$Z_T$ = " ++ Model_Print.fixed_complex 2 (Re zt * dc_rn dc, Im zt * dc_rn dc) ++ " $\Omega$")%string.

(** The points (x, y). *)
Definition points (x y : list R) : list (R * fl) := List.combine x (map FV y).
(** plot draws the DC I-V curve and its Kramers-Kronig transform. *)
Definition draws_resp (r : respfn) : Prop := exists a, plot_resp r = Ok a /\
  shows a [("$I_\mathrm{{dc}}^0(V_0)$"%string, points (rf_voltage r) (rf_current r)); ("$I_\mathrm{{kk}}^0(V_0)$"%string, points (rf_voltage r) (rf_current_kk r))] [] /\
  g_xlabel a = "Bias Voltage (normalized)"%string /\ g_ylabel a = "Current (normalized)"%string /\ g_title a = ""%string /\ g_xlim a = (Some 0, Some 2) /\ g_ylim a = (Some (- (12 / 10)), Some 2).
(** plot_interpolation draws the same two curves and the values of idc and ikk at the same
    voltages. *)
Definition draws_interpolation (r : respfn) : Prop := exists a, plot_interpolation r = Ok a /\
  shows a [("$I_\mathrm{{dc}}^0(V_0)$: imported"%string, points (rf_voltage r) (rf_current r)); ("$I_\mathrm{{kk}}^0(V_0)$: imported"%string, points (rf_voltage r) (rf_current_kk r));
           ("$I_\mathrm{{dc}}^0(V_0)$: interpolated"%string, points (rf_voltage r) (map (idc r) (rf_voltage r))); ("$I_\mathrm{{kk}}^0(V_0)$: interpolated"%string, points (rf_voltage r) (map (ikk r) (rf_voltage r)))] [] /\
  g_xlabel a = "Bias Voltage / $V_\mathrm{{gap}}$"%string /\ g_ylabel a = "Current / $I_\mathrm{{gap}}$"%string /\ g_title a = ""%string /\ g_xlim a = (Some (-2), Some 2) /\ g_ylim a = (Some (-2), Some 2).
