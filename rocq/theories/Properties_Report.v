(** Properties C139-C143: the files that the reports of the data objects write (vocabulary in
    Spec_Report.v; the disk is in Model_Files.v).  str() of a number and the spline through
    the noise temperatures are arbitrary functions. *)
From Coq Require Import List ZArith Bool Reals Lra Lia String Sorted.
From Coquelicot Require Import Complex.
From Verif Require Import Base Float NumPy Model_MathFn Model_CleanData Model_RespFn Model_IVData Model_IFData Model_Tucker Model_ExpData Model_Objects Bessel Proof_CleanData Proof_Objects2 Proof_Objects4 Proof_Plots2 Proof_Plots3
  Model_Misc Model_Print Model_Files Model_Plots Spec_Plots Model_Report Spec_Report Proof_Report Proof_Report2.
Import ListNotations.
Open Scope string_scope.
Local Notation length := List.length.

(** ** C139 *)
(** DCData.plot_all: the folder exists afterwards, it holds the figure of the I-V curve and, if
    there are IF data, the figure of the IF noise; nothing else on the disk changes. *)
Theorem C139_plot_all : forall d vleak fig sub vmax a p w, plot_dciv d vleak vmax = Ok a -> plot_if_noise d = Ok p ->
  let sub' := match sub with None => "dciv/" | Some s => s end in below fig sub' ->
  let folder := sub_path fig sub' in
  let news := (file_in folder "dciv.png", Picture [a]) :: match p with None => [] | Some (b, c) => [(file_in folder "dcif.png", Picture [b; c])] end in
  room w [folder] (map fst news) -> exists w', dc_plot_all d vleak fig sub vmax w = (w', Ok tt) /\ changes w w' [folder] news.
Proof. exact dc_report. Qed.
Print Assumptions C139_plot_all.
(** The current directory cannot be given as "". *)
Theorem C139_nowhere : forall d vleak vmax w, dc_plot_all d vleak "" (Some "") vmax w = (w, Err OSError).
Proof. exact dc_report_nowhere. Qed.
Print Assumptions C139_nowhere.
Example C139_case : forall minimize savgol dspline, exists d a,
  dc_data insertion_argsort minimize savgol (fun _ _ _ _ => 1%R) dspline file None leaky = Ok d /\ plot_dciv d (o_vleak leaky) 5 = Ok a /\ plot_if_noise d = Ok None /\
  below "results" "dciv/" /\ room blank [sub_path "results" "dciv/"] [file_in (sub_path "results" "dciv/") "dciv.png"].
Proof. exact leaky_report. Qed.

(** ** C140 *)
(** PumpedData.plot_all: the figures, with the LO frequency in their names, in the folders that
    file_struc selects; nothing else changes.
    Partial: with IF results only, and file_struc needs five keys; see C140_refuted_keys and
    C140_refuted_no_if. *)
Theorem C140_plot_all_partial : forall J inv str d u o fig struc vmax iv ivif surf sim tn a1 a2 a3 l4 w, selects struc iv ivif surf sim tn ->
  below fig iv -> below fig ivif -> below fig surf -> below fig sim -> below fig tn -> no_slash (str (u_freq u)) ->
  plot_iv d u vmax = Ok a1 -> plot_ivif d u vmax = Ok a2 -> plot_noise_temp d u vmax = Ok a3 ->
  match u_recovered u with
  | None => l4 = None
  | Some _ => exists a4 a5, l4 = Some (a4, a5) /\ plot_error_surface d u o = Ok a4 /\ plot_simulated J inv d u o vmax = Ok a5
  end ->
  let folders := map (sub_path fig) [iv; ivif; surf; sim; tn] in
  let name s := str (u_freq u) ++ s in
  let news := app [(file_in (sub_path fig iv) (name "-iv.png"), Picture [a1]); (file_in (sub_path fig ivif) (name "-iv-if.png"), Picture [fst a2; snd a2]); (file_in (sub_path fig tn) (name "-tn.png"), Picture [fst a3; snd a3])]
    match l4 with None => [] | Some (a4, a5) => [(file_in (sub_path fig surf) (name "-err-surf.png"), Picture [a4]); (file_in (sub_path fig sim) (name "-sim.png"), Picture [a5])] end in
  room w folders (map fst news) -> exists w', pumped_plot_all J inv str d u o fig struc vmax w = (w', Ok tt) /\ changes w w' folders news.
Proof. exact pumped_report. Qed.
Print Assumptions C140_plot_all_partial.
(** With the four keys of the documentation nothing is written. *)
Theorem C140_refuted_keys : forall J inv str d u o fig e vmax w, map fst e = documented_keys -> pumped_plot_all J inv str d u o fig (SDict e) vmax w = (w, Err KeyError).
Proof. exact pumped_four_keys. Qed.
Print Assumptions C140_refuted_keys.
(** Without IF results only the first figure is written, the recovered impedance is not shown. *)
Theorem C140_refuted_no_if : forall J inv str d u o fig struc vmax iv ivif surf sim tn a1 w, selects struc iv ivif surf sim tn ->
  below fig iv -> below fig ivif -> below fig surf -> below fig sim -> below fig tn -> no_slash (str (u_freq u)) ->
  plot_iv d u vmax = Ok a1 -> plot_ivif d u vmax = Err TypeError ->
  let folders := map (sub_path fig) [iv; ivif; surf; sim; tn] in
  let news := [(file_in (sub_path fig iv) (str (u_freq u) ++ "-iv.png"), Picture [a1])] in
  room w folders (map fst news) -> exists w', pumped_plot_all J inv str d u o fig struc vmax w = (w', Err TypeError) /\ changes w w' folders news.
Proof. exact pumped_no_if. Qed.
Print Assumptions C140_refuted_no_if.
(** Other values of file_struc are refused before anything is written. *)
Theorem C140_other : forall J inv str d u o fig s vmax w, s <> "" -> pumped_plot_all J inv str d u o fig (SString s) vmax w = (w, Err ValueError) /\ pumped_plot_all J inv str d u o fig SOther vmax w = (w, Err ValueError).
Proof. exact pumped_other. Qed.
Print Assumptions C140_other.
(** A measurement with all five figures, and a disk with room for them. *)
Example C140_case : forall minimize savgol dspline inv vmax, let o := shown (Some (RtoC 0)) (Some (25 / 100, 8 / 10)%R) None None in exists d u n r p a1 a2 a3 a4 a5,
  dc_data insertion_argsort minimize savgol (fun _ _ _ _ => 1%R) dspline file None o = Ok d /\ (0 < dc_vgap (d_dc d))%R /\ pumped_data insertion_argsort savgol besselJ (pumped_file besselJ) d (Some hot_file) (Some cold_file) o = Ok u /\
  u_freq u = 230%R /\ complete (u, n, r) /\ plot_if_noise d = Ok p /\
  plot_iv d u vmax = Ok a1 /\ plot_ivif d u vmax = Ok a2 /\ plot_noise_temp d u vmax = Ok a3 /\ plot_error_surface d u o = Ok a4 /\ plot_simulated besselJ inv d u o vmax = Ok a5.
Proof. exact measured_case. Qed.
Example C140_room : selects SNone "iv-curves/" "iv-if/" "impedance/" "impedance-sim/" "noise-temp/" /\ below "results" "iv-curves/" /\ no_slash "230.0" /\
  room blank (map (sub_path "results") ["iv-curves/"; "iv-if/"; "impedance/"; "impedance-sim/"; "noise-temp/"]) [file_in (sub_path "results" "iv-curves/") "230.0-iv.png"; file_in (sub_path "results" "noise-temp/") "230.0-tn.png"].
Proof.
  split; [reflexivity|]. split; [split; [left; discriminate|reflexivity]|]. split; [cbn; repeat split; discriminate|]. apply room_blank.
  - intros t [<-|[<-|[]]]; discriminate.
  - intros t f [<-|[<-|[]]] F; cbn in F; repeat (destruct F as [<-|F]; [cbn; lia|]); destruct F.
Qed.

(** ** C141 *)
(** initialize_dir: the folder and all its sub-folders exist afterwards.
    Partial: the name of the folder has to end with a slash; see C141_refuted. *)
Theorem C141_directories_partial : forall fig w, ends_with_slash fig = true -> let folders := path_of fig :: map (sub_path fig) sub_folders in room w folders [] ->
  exists w', initialize_dir fig w = (w', Ok tt) /\ changes w w' folders [].
Proof. exact directories. Qed.
Print Assumptions C141_directories_partial.
(** Without the slash the sub-folders are made beside the folder. *)
Theorem C141_refuted : exists w, initialize_dir "results" blank = (w, Ok tt) /\ directory w (path_of "results") /\ ~ directory w (sub_path "results" "dciv/") /\ directory w (path_of "resultsdciv").
Proof. exact directories_glued. Qed.
Print Assumptions C141_refuted.
Example C141_case : ends_with_slash "results/" = true /\ room blank (path_of "results/" :: map (sub_path "results/") sub_folders) [].
Proof. split; [reflexivity|]. apply room_blank; [intros t []|intros t f []]. Qed.

(** ** C142 *)
(** plot_overall_results: ten folders, four texts, twelve figures, and nothing else changes.
    Partial: more than three sets of pumped data, in the order of their frequencies, each with
    IF results and a recovered circuit; see C142_refuted and C142_refuted_incomplete. *)
Theorem C142_overall_partial : forall argsort minimize savgol J spline dspline str smooth m0 f0 o0 d l folder vmax tn_max f_range w,
  dc_data argsort minimize savgol spline dspline m0 f0 o0 = Ok d -> (0 < dc_vgap (d_dc d))%R -> (0 < o_vmax o0)%R -> (2 <= o_npts o0)%nat ->
  (forall x, In x l -> complete x /\ exists m hot cold o, pumped_data argsort savgol J m d hot cold o = Ok (pumped_of x)) -> (3 < length l)%nat -> Sorted Rle (map freq_of l) ->
  let folders := map (sub_path folder) sub_folders in let texts := overall_texts str d l in
  room w folders (app (names_in folder "csv/" (map fst texts)) (names_in folder "overall-results/" (map fst (app (first_figures str d l) (other_figures d l []))))) ->
  exists w' F lo hi, plot_overall_results str smooth d (map pumped_of l) folder vmax tn_max f_range w = (w', Ok tt) /\
    In lo (map freq_of l) /\ In hi (map freq_of l) /\ (forall x, In x l -> (lo <= freq_of x <= hi)%R) /\
    (let spline := map (fun t => (t, smooth (map freq_of l) (map noise_of l) t)) (linspace lo hi (Z.to_nat 1001)) in
     Forall2 pictured F (app (first_figures str d l) (other_figures d l spline))) /\
    (exists top, on_curve (millivolts (d_dc d) (d_voltage d)) (microamps (d_dc d) (d_current d)) vmax top /\ map ranges_of F = overall_ranges vmax top tn_max f_range) /\
    changes w w' folders (app (put folder "csv/" texts) (put folder "overall-results/" F)).
Proof. exact overall_report. Qed.
Print Assumptions C142_overall_partial.
(** Up to three sets of data, or sets in another order: nine figures are missing. *)
Theorem C142_refuted : forall argsort minimize savgol J spline dspline str smooth m0 f0 o0 d l folder vmax tn_max f_range w,
  dc_data argsort minimize savgol spline dspline m0 f0 o0 = Ok d -> (0 < dc_vgap (d_dc d))%R -> (0 < o_vmax o0)%R -> (2 <= o_npts o0)%nat ->
  (forall x, In x l -> complete x /\ exists m hot cold o, pumped_data argsort savgol J m d hot cold o = Ok (pumped_of x)) -> (0 < length l)%nat -> (length l <= 3)%nat \/ ~ Sorted Rle (map freq_of l) ->
  let folders := map (sub_path folder) sub_folders in let texts := overall_texts str d l in
  room w folders (app (names_in folder "csv/" (map fst texts)) (names_in folder "overall-results/" (map fst (first_figures str d l)))) ->
  exists w' F, plot_overall_results str smooth d (map pumped_of l) folder vmax tn_max f_range w = (w', Err ValueError) /\ Forall2 pictured F (first_figures str d l) /\
    (exists top, on_curve (millivolts (d_dc d) (d_voltage d)) (microamps (d_dc d) (d_current d)) vmax top /\ map ranges_of F = firstn 3 (overall_ranges vmax top tn_max f_range)) /\
    changes w w' folders (app (put folder "csv/" texts) (put folder "overall-results/" F)).
Proof. exact overall_stops. Qed.
Print Assumptions C142_refuted.
(** One set without IF results or without a recovered circuit: no file is written. *)
Theorem C142_refuted_incomplete : forall str smooth d l u m folder vmax tn_max f_range w, (forall x, In x l -> complete x) -> u_if u = None \/ (exists n, u_if u = Some n) /\ u_recovered u = None ->
  room w (map (sub_path folder) sub_folders) [] -> exists w', plot_overall_results str smooth d (app (map pumped_of l) (u :: m)) folder vmax tn_max f_range w = (w', Err (match u_if u with None => AttributeError | Some _ => TypeError end)) /\
  changes w w' (map (sub_path folder) sub_folders) [].
Proof. exact overall_incomplete. Qed.
Print Assumptions C142_refuted_incomplete.
(** Four sets of data, and an empty disk. *)
Example C142_case : forall minimize savgol dspline, let o := shown (Some (RtoC 0)) (Some (25 / 100, 8 / 10)%R) None None in exists d x, let l := [x; x; x; x] in
  dc_data insertion_argsort minimize savgol (fun _ _ _ _ => 1%R) dspline file None o = Ok d /\ (0 < dc_vgap (d_dc d))%R /\ (0 < o_vmax o)%R /\ (2 <= o_npts o)%nat /\
  (forall x, In x l -> complete x /\ exists m hot cold o, pumped_data insertion_argsort savgol besselJ m d hot cold o = Ok (pumped_of x)) /\ (3 < length l)%nat /\ Sorted Rle (map freq_of l) /\
  forall F T, room blank (map (sub_path "results") sub_folders) (app (names_in "results" "csv/" F) (names_in "results" "overall-results/" T)).
Proof.
  intros minimize savgol dspline o. destruct (measured_case minimize savgol dspline (fun _ _ => None) 5) as [d [u [n [r [p [a1 [a2 [a3 [a4 [a5 [D [G [U [F [CO _]]]]]]]]]]]]]]]. exists d, (u, n, r). intros l.
  split; [exact D|]. split; [exact G|]. split; [cbn; lra|]. split; [cbn; lia|]. split; [|split; [cbn; lia|split; [cbn; repeat constructor; apply Rle_refl|exact blank_folders]]].
  intros x X. assert (E : x = (u, n, r)) by (cbn in X; intuition). subst x. split; [exact CO|]. eexists _, _, _, _. exact U.
Qed.

(** ** C143 *)
(** plot_if_spectrum: no spectrum that is found is ever drawn, because its name is given to
    if_response instead of its data. *)
Theorem C143_refuted : forall smoothed name found fig w, plot_if_spectrum smoothed (name :: found) fig w = (w, Err ValueError).
Proof. exact spectrum_refused. Qed.
Print Assumptions C143_refuted.
(** The default value of fig_folder is refused as well. *)
Theorem C143_refuted_default : forall smoothed w, plot_if_spectrum smoothed [] None w = (w, Err TypeError).
Proof. exact spectrum_nowhere. Qed.
Print Assumptions C143_refuted_default.
(** Without spectra four empty figures are written. *)
Theorem C143_nothing_partial : forall smoothed fig w, fig <> "" -> let folder := path_of fig in
  let news := map (fun x => (file_in folder (fst x), Picture [spectra (snd x) []])) [("if_spectra.png", 500%R); ("if_spectra2.png", 2000%R); ("if_spectra_smooth.png", 500%R); ("if_spectra_smooth2.png", 2000%R)] in
  directory w folder -> (forall t, In t (map fst news) -> ~ directory w t) -> exists w', plot_if_spectrum smoothed [] (Some fig) w = (w', Ok tt) /\ changes w w' [] news.
Proof. exact spectrum_nothing. Qed.
Print Assumptions C143_nothing_partial.
Example C143_case : let w := {| dirs := [path_of "results"]; files := [] |} in directory w (path_of "results") /\ ~ directory w (file_in (path_of "results") "if_spectra.png").
Proof. split; [reflexivity|discriminate]. Qed.
