(** Specification vocabulary for the reports: what a program does to the disk. *)
From Coq Require Import List Bool Reals String.
From Coquelicot Require Import Complex.
From Verif Require Import Base Float NumPy Model_IVData Model_IFData Model_ExpData Model_Objects Model_Misc Model_Print Model_Files Model_Plots Model_Report Spec_Plots.
Import ListNotations.
Open Scope string_scope.

(** What the file p holds, if there is one. *)
Definition contents (w : disk content) (p : path) : option content :=
  match find (fun f => path_eqb p (fst f)) (files w) with Some f => Some (snd f) | None => None end.
(** p is a directory. *)
Definition directory (w : disk content) (p : path) : Prop := is_dir w p = true.
(** q is p or a directory on the way to p. *)
Definition leads_to (q p : path) : Prop := fst q = fst p /\ exists r, snd p = app (snd q) r.
(** The path of sub in folder, and of a file in the directory p. *)
Definition sub_path (folder sub : string) : path := (fst (path_of folder), app (snd (path_of folder)) (snd (path_of sub))).
Definition file_in (p : path) (name : string) : path := (fst p, app (snd p) [name]).
(** A name of a file, without directories. *)
Fixpoint no_slash (s : string) : Prop := match s with "" => True | String c s' => c <> slash /\ no_slash s' end.
(** A folder and a sub-folder that are not both empty; the sub-folder is not a path from the root. *)
Definition below (folder sub : string) : Prop := (folder <> "" \/ sub <> "") /\ starts_with_slash sub = false.

(** Of w, the program made w': the folders exist now, the files news were written, everything
    else is as before. *)
Definition changes (w w' : disk content) (folders : list path) (news : list (path * content)) : Prop :=
  (forall p, directory w p -> directory w' p) /\
  (forall p, In p folders -> directory w' p) /\
  (forall p, directory w' p -> directory w p \/ exists f, In f folders /\ leads_to p f) /\
  (forall p c, In (p, c) news -> contents w' p = Some c) /\
  (forall p, ~ In p (map fst news) -> contents w' p = contents w p).
(** There is room for the folders and the files: no file is where a directory is needed and no
    directory where a file is needed. *)
Definition room (w : disk content) (folders : list path) (targets : list path) : Prop :=
  (forall f q, In f folders -> leads_to q f -> contents w q = None) /\
  (forall t, In t targets -> ~ directory w t /\ forall f, In f folders -> ~ leads_to t f).
(** An empty disk. *)
Definition blank : disk content := {| dirs := []; files := [] |}.

(** The sub-folders of a report (qmix/exp/exp_data.py:58-67). *)
Definition sub_folders : list string := ["dciv/"; "iv-curves/"; "iv-if/"; "impedance/"; "impedance-sim/"; "if-noise/"; "noise-temp/"; "if-spectrum/"; "overall-results/"; "csv/"].

(** ** PumpedData.plot_all *)
(** A dictionary has the entry k : v. *)
Definition entry (d : list (string * string)) (k v : string) : Prop := NoDup (map fst d) /\ In (k, v) d.
(** The sub-folders for the I-V curve, the I-V curve with IF data, the error surface, the
    simulated curve and the noise temperature, as selected by file_struc. *)
Definition selects (a : struc_arg) (iv ivif surf sim tn : string) : Prop :=
  match a with
  | SNone => (iv, ivif, surf, sim, tn) = ("iv-curves/", "iv-if/", "impedance/", "impedance-sim/", "noise-temp/")
  | SString s => s = "" /\ (iv, ivif, surf, sim, tn) = ("", "", "", "", "")
  | SDict d => entry d "Pumped IV curve" iv /\ entry d "IV + IF" ivif /\ entry d "Impedance recovery" surf /\ entry d "Impedance recovery (sim)" sim /\ entry d "Noise temperature" tn
  | SOther => False
  end.
(** The keys listed in the documentation. *)
Definition documented_keys : list string := ["Pumped IV curve"; "IV + IF"; "Impedance recovery"; "Noise temperature"].

(** ** plot_overall_results *)
(** Pumped data with its IF results and its recovered circuit. *)
Definition dataset := (pumpeddata * ifresults * recovered)%type.
Definition pumped_of (x : dataset) : pumpeddata := fst (fst x).
Definition if_of (x : dataset) : ifresults := snd (fst x).
Definition circuit_of (x : dataset) : recovered := snd x.
Definition complete (x : dataset) : Prop := u_if (pumped_of x) = Some (if_of x) /\ u_recovered (pumped_of x) = Some (circuit_of x).
Definition freq_of (x : dataset) : R := u_freq (pumped_of x).
(** The recovered source voltage in mV and impedance in ohms. *)
Definition source_mv (dc : dcivdata) (x : dataset) : fl := fmul (fmul (rec_vt (circuit_of x)) (FV (dc_vgap dc))) (FV (10 ^ 3)).
Definition source_ohms (dc : dcivdata) (x : dataset) : C := (Re (rec_zt (circuit_of x)) * dc_rn dc, Im (rec_zt (circuit_of x)) * dc_rn dc)%R.
Definition yes_no (b : bool) : string := if b then "True" else "False".
(** The text files, line by line. *)
Definition text_of (l : list string) : content := Text (String.concat "" (map (fun s => s ++ newline) l)).
Section Texts.
Variable str : R -> string.
Definition curve_line (p : R * R) : string := sci false "e" 18 (fst p) ++ " " ++ sci false "e" 18 (snd p).
Definition circuit_line (dc : dcivdata) (x : dataset) : string :=
  str (freq_of x) ++ tab ++ show_width 5 2 (source_mv dc x) ++ tab ++
  fixed false 6 2 (Re (source_ohms dc x)) ++ " + 1j * (" ++ fixed false 6 2 (Im (source_ohms dc x)) ++ ")" ++ tab ++ yes_no (rec_fit (circuit_of x)).
Definition info_lines (dc : dcivdata) : list string :=
  ["Gap voltage      " ++ tab ++ fixed false 6 2 (dc_vgap dc * 10 ^ 3) ++ " [mV]";
   "Normal resistance" ++ tab ++ fixed false 6 2 (dc_rn dc) ++ " [ohms]";
   "Gap frequency    " ++ tab ++ fixed false 6 2 (dc_fgap dc / 10 ^ 9) ++ " [GHz]"].
Definition header_line : string :=
  "Frequency (GHz), IV Filename, IF Filename (Hot), IF Filename (Cold), Noise Temperature (K), Gain (dB), Drive Level, Embedding Impedance (ohms), Embedding Voltage (mV), Embedding Circuit Recovered, IF Noise (K), IF Noise Recovered".
Definition result_line (dc : dcivdata) (x : dataset) : string :=
  str (freq_of x) ++ ", Numpy array, Numpy array, Numpy array, " ++ show_fl 2 (b_tn (n_summary (if_of x))) ++ ", " ++ fixed false 0 2 (b_gdb (n_summary (if_of x))) ++ ", " ++
  fixed false 0 2 (rec_alpha (circuit_of x)) ++ ", " ++ fixed_complex 4 (source_ohms dc x) ++ ", " ++ show_fl 4 (source_mv dc x) ++ ", " ++ yes_no (rec_fit (circuit_of x)) ++ ", " ++
  str (if_noise (n_dcif (if_of x))) ++ ", " ++ yes_no (if_fit (n_dcif (if_of x))).
Definition overall_texts (d : dcdata) (l : list dataset) : list (string * content) :=
  [("dciv-data.txt", text_of (map curve_line (List.combine (d_voltage d) (d_current d))));
   ("recovered-emb.txt", text_of (map (circuit_line (d_dc d)) l));
   ("dciv-info.txt", text_of (info_lines (d_dc d)));
   ("results.txt", text_of (header_line :: map (result_line (d_dc d)) l))].
(** A quantity against the frequency. *)
Definition against (l : list dataset) (label : string) (y : dataset -> fl) : string * list (R * fl) := (label, map (fun x => (freq_of x, y x)) l).
Definition part_of (f : C -> R) (rn : R) (z : option C) : fl := match z with Some z => FV (f z * rn) | None => FNaN end.
Definition noise_of (x : dataset) : fl := b_tn (n_summary (if_of x)).
(** The figures: file name and, for each axes, label of the y axis and curves.  The second list
    needs a curve through the noise temperatures. *)
Definition figure := (string * list (string * list (string * list (R * fl))))%type.
Definition first_figures (d : dcdata) (l : list dataset) : list figure :=
  let dc := d_dc d in
  [("iv_curves.png", [("Current (uA)", ("", List.combine (millivolts dc (d_voltage d)) (map FV (microamps dc (d_current d)))) ::
      map (fun x => (str (freq_of x), List.combine (millivolts dc (u_voltage (pumped_of x))) (map FV (microamps dc (u_current (pumped_of x)))))) l)]);
   ("rdyn.png", [("Dynamic resistance ($\Omega$)", [against l "" (fun x => FV (b_zj (n_summary (if_of x))))])]);
   ("noise_temperature.png", [("Noise Temperature (K)", [against l "" noise_of])])].
Definition other_figures (d : dcdata) (l : list dataset) (spline : list (R * fl)) : list figure :=
  let rn := dc_rn (d_dc d) in
  let good := filter (fun x => rec_fit (circuit_of x)) l in
  let impedance l := [against l "Real" (fun x => FV (Re (source_ohms (d_dc d) x))); against l "Imaginary" (fun x => FV (Im (source_ohms (d_dc d) x)))] in
  [("noise_temperature_spline_fit.png", [("Noise Temperature (K)", [against l "" noise_of; ("", spline)])]);
   ("noise_temperature_logy.png", [("Noise Temperature (K)", [against l "" noise_of])]);
   ("noise_temperature_and_gain.png", [("Noise Temperature (K)", [against l "" noise_of]); ("Gain (dB)", [against l "" (fun x => FV (b_gdb (n_summary (if_of x))))])]);
   ("if_noise.png", [("IF Noise Contribution (K)", [against (filter (fun x => if_fit (n_dcif (if_of x))) l) "" (fun x => FV (if_noise (n_dcif (if_of x))))])]);
   ("embedding_impedance.png", [("Embedding Impedance ($\Omega$)", impedance good)]);
   ("embedding_impedance_all.png", [("Embedding Impedance ($\Omega$)", impedance l)]);
   ("embedding_voltage.png", [("Embedding Voltage (mV)", [against good "" (source_mv (d_dc d))])]);
   ("drive_level.png", [("Drive Level, $\alpha$", [against l "" (fun x => FV (rec_alpha (circuit_of x)))])]);
   ("junction_impedance.png", [("Junction Impedance ($\Omega$)", [against l "Re$\{Z_J\}$" (fun x => part_of Re rn (rec_zw (circuit_of x))); against l "Im$\{Z_J\}$" (fun x => part_of Im rn (rec_zw (circuit_of x)))])])].
End Texts.
(** The ranges of the axes of these twelve figures, None standing for Matplotlib's choice: the
    largest voltage vmax and the current top at it, the LO frequencies f_range, and the noise
    temperatures from 0 to tn_max. *)
Definition ranges := ((option R * option R) * (option R * option R))%type.
Definition overall_ranges (vmax top : R) (tn_max : option R) (f_range : option (R * R)) : list (list ranges) :=
  let f := (option_map fst f_range, option_map snd f_range) in let any := (None, None) in let positive := (Some 0%R, None) in let tn := (Some 0%R, tn_max) in
  [[((Some 0%R, Some vmax), (Some 0%R, Some top))]; [(f, positive)]; [(f, tn)];
   [(f, tn)]; [(f, any)]; [(f, tn); (f, any)]; [(f, positive)]; [(f, any)]; [(f, any)]; [(f, positive)]; [(f, (Some 0%R, Some (12 / 10)%R))]; [(f, any)]].
Definition ranges_of (p : string * content) : list ranges := match snd p with Picture l => map (fun a => (g_xlim a, g_ylim a)) l | Text _ => [] end.
(** The file p holds a picture of this figure. *)
Definition pictured (p : string * content) (f : figure) : Prop :=
  fst p = fst f /\ exists l, snd p = Picture l /\ Forall2 (fun a s => g_ylabel a = fst s /\ shows a (snd s) []) l (snd f).
(** Files in a sub-folder. *)
Definition put (folder sub : string) (l : list (string * content)) : list (path * content) := map (fun p => (file_in (sub_path folder sub) (fst p), snd p)) l.
Definition names_in (folder sub : string) (l : list string) : list path := map (file_in (sub_path folder sub)) l.
