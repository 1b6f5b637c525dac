(** Model of the reports of qmix/exp/exp_data.py: the methods plot_all, the functions
    plot_overall_results, plot_if_spectrum and initialize_dir.  What is printed is not
    modelled. *)
From Coq Require Import List ZArith Bool Arith Reals String.
From Coquelicot Require Import Complex.
From Verif Require Import Base Model_QtCurrent Float NumPy Model_MathFn Model_CleanData Model_RespFn Model_IVData Model_Tucker Model_IFData Model_ExpData Model_Objects Model_Misc Model_Print Model_Files Model_Plots.
Import ListNotations.
Open Scope string_scope.
Local Notation length := List.length.

(** ** Files *)
(** What a file holds: a picture (one or more axes) or a text. *)
Inductive content := Picture (l : list axes) | Text (s : string).
Definition program := io content unit.
(** The idiom of the code: make sure that a directory exists. *)
Definition need_dir (s : string) : program := effect (fun w => ensure w s).
(** fig.savefig(name).  (matplotlib adds an extension to names without one; not modelled.) *)
Definition save (name : string) (l : list axes) : program := effect (fun w => write_file w name (Picture l)).
Definition write_text (name s : string) : program := effect (fun w => write_file w name (Text s)).
(** A plot method called with a figure name. *)
Definition saved1 (name : string) (m : res axes) : program := do a <- value m; save name [a].
Definition saved2 (name : string) (m : res (axes * axes)) : program := do a <- value m; save name [fst a; snd a].

(** qmix/exp/exp_data.py:58-67 _file_structure *)
Definition file_structure : list (string * string) :=
  [("DC IV curve", "dciv/"); ("Pumped IV curve", "iv-curves/"); ("IV + IF", "iv-if/"); ("Impedance recovery", "impedance/");
   ("Impedance recovery (sim)", "impedance-sim/"); ("IF noise", "if-noise/"); ("Noise temperature", "noise-temp/");
   ("IF spectrum", "if-spectrum/"); ("Overall performance", "overall-results/"); ("CSV data", "csv/")].
Fixpoint entry_of (d : list (string * string)) (k : string) : res string :=
  match d with [] => Err KeyError | (k', v) :: d' => if String.eqb k k' then Ok v else entry_of d' k end.

(** ** Data objects *)
(** qmix/exp/exp_data.py:450-487 DCData.plot_all; the only keyword argument is vmax_plot. *)
Definition dc_plot_all (d : dcdata) (vleak : R) (fig_folder : string) (sub_folder : option string) (vmax_plot : R) : program :=
  let sub := match sub_folder with None => "dciv/" | Some s => s end in
  let folder := join fig_folder sub in
  do _ <- need_dir folder;
  do _ <- saved1 (join folder "dciv.png") (plot_dciv d vleak vmax_plot);
  do p <- value (plot_if_noise d);
  match p with None => ret tt | Some (a, b) => save (join folder "dcif.png") [a; b] end.

(** The argument file_struc of PumpedData.plot_all. *)
Inductive struc_arg := SNone | SString (s : string) | SDict (d : list (string * string)) | SOther.
Definition pumped_folders (a : struc_arg) : res (list string) :=
  let from d := mapM (entry_of d) ["Pumped IV curve"; "IV + IF"; "Impedance recovery"; "Impedance recovery (sim)"; "Noise temperature"] in
  match a with
  | SNone => from file_structure
  | SString s => if String.eqb s "" then Ok ["" ; "" ; "" ; "" ; ""] else Err ValueError
  | SDict d => from d
  | SOther => Err ValueError
  end.

Section Objects.
(** Bessel functions and matrix inversion (Model_HB); str() of a float, which is not
    modelled; UnivariateSpline. *)
Variable J : nat -> R -> R.
Variable inv : nat -> (nat -> nat -> R) -> option (nat -> nat -> R).
Variable str : R -> string.
Variable smooth : list R -> list fl -> R -> fl.

(** qmix/exp/exp_data.py:1374-1449 PumpedData.plot_all; the only keyword argument is
    vmax_plot. *)
Definition pumped_plot_all (d : dcdata) (u : pumpeddata) (o : options) (fig_folder : string) (file_struc : struc_arg) (vmax_plot : R) : program :=
  do l <- value (pumped_folders file_struc);
  let l := map (join fig_folder) l in
  let folder k := nth k l "" in
  do _ <- io_each l need_dir;
  let f := str (u_freq u) in
  do _ <- saved1 (join (folder 0%nat) (f ++ "-iv.png")) (plot_iv d u vmax_plot);
  do _ <- saved2 (join (folder 1%nat) (f ++ "-iv-if.png")) (plot_ivif d u vmax_plot);
  do _ <- saved2 (join (folder 4%nat) (f ++ "-tn.png")) (plot_noise_temp d u vmax_plot);
  match u_recovered u with
  | None => ret tt
  | Some _ =>
      do _ <- saved1 (join (folder 2%nat) (f ++ "-err-surf.png")) (plot_error_surface d u o);
      saved1 (join (folder 3%nat) (f ++ "-sim.png")) (plot_simulated J inv d u o vmax_plot)
  end.

(** ** Overall results *)
(** Lines 1558-1577: what is gathered from one set of pumped data.  Without IF results the
    attribute zj_if does not exist; without a recovered circuit zt is None.  The gap voltage
    and the normal resistance of the pumped data are those of the dc data that they were made
    with; here they are taken from the dc data that are passed (simplification: the same). *)
Record gathered := {
  t_freq : R; t_tn : fl; t_gain : R; t_alpha : R; t_zw : option C; t_rdyn : R;
  t_zt : C; t_vt : fl; t_fit : bool; t_if_noise : R; t_if_fit : bool }.
Definition gather (u : pumpeddata) : res gathered :=
  let* n := match u_if u with Some n => Ok n | None => Err AttributeError end in
  let* r := rec_results u in
  let s := n_summary n in
  Ok {| t_freq := u_freq u; t_tn := b_tn s; t_gain := b_gdb s; t_alpha := rec_alpha r; t_zw := rec_zw r; t_rdyn := b_zj s;
        t_zt := rec_zt r; t_vt := rec_vt r; t_fit := rec_fit r; t_if_noise := if_noise (n_dcif n); t_if_fit := if_fit (n_dcif n) |}.
Definition ohms (rn : R) (z : C) : C := (Re z * rn, Im z * rn)%R.
(** {:w.df} of a value that may not be finite. *)
Definition show_width (w d : nat) (x : fl) : string := pad_left w (show_fl d x).
Definition show_bool (b : bool) : string := if b then "True" else "False".

(** Lines 1593-1594: np.savetxt of the normalised dc curve. *)
Definition dciv_text (d : dcdata) : string :=
  String.concat "" (map (fun p => sci false "e" 18 (fst p) ++ " " ++ sci false "e" 18 (snd p) ++ newline) (List.combine (d_voltage d) (d_current d))).
(** Lines 1597-1608: recovered-emb.txt *)
Definition emb_line (dc : dcivdata) (g : gathered) : string :=
  let z := ohms (dc_rn dc) (t_zt g) in
  str (t_freq g) ++ tab ++ show_width 5 2 (fmul (fmul (t_vt g) (FV (dc_vgap dc))) (FV (10 ^ 3))) ++ tab ++
  fixed false 6 2 (Re z) ++ " + 1j * (" ++ fixed false 6 2 (Im z) ++ ")" ++ tab ++ show_bool (t_fit g) ++ newline.
(** Lines 1611-1614: dciv-info.txt *)
Definition info_text (dc : dcivdata) : string :=
  "Gap voltage      " ++ tab ++ fixed false 6 2 (dc_vgap dc * 10 ^ 3) ++ " [mV]" ++ newline ++
  "Normal resistance" ++ tab ++ fixed false 6 2 (dc_rn dc) ++ " [ohms]" ++ newline ++
  "Gap frequency    " ++ tab ++ fixed false 6 2 (dc_fgap dc / 10 ^ 9) ++ " [GHz]" ++ newline.
(** Lines 1617-1645: results.txt *)
Definition results_header : list string :=
  ["Frequency (GHz)"; "IV Filename"; "IF Filename (Hot)"; "IF Filename (Cold)"; "Noise Temperature (K)"; "Gain (dB)"; "Drive Level";
   "Embedding Impedance (ohms)"; "Embedding Voltage (mV)"; "Embedding Circuit Recovered"; "IF Noise (K)"; "IF Noise Recovered"].
Definition results_row (dc : dcivdata) (g : gathered) : list string :=
  [str (t_freq g); "Numpy array"; "Numpy array"; "Numpy array"; show_fl 2 (t_tn g); fixed false 0 2 (t_gain g); fixed false 0 2 (t_alpha g);
   fixed_complex 4 (ohms (dc_rn dc) (t_zt g)); show_fl 4 (fmul (fmul (t_vt g) (FV (dc_vgap dc))) (FV (10 ^ 3)));
   show_bool (t_fit g); str (t_if_noise g); show_bool (t_if_fit g)].
Definition results_text (dc : dcivdata) (gs : list gathered) : string :=
  String.concat "" (map (fun r => String.concat ", " r ++ newline) (results_header :: map (results_row dc) gs)).

(** A figure of a quantity against the LO frequency.  (The automatic limits and f_range are
    not modelled, except for the lower limit 0.) *)
Definition against_freq (ylabel : string) (items : list item) (xlim ylim : option R * option R) : axes :=
  {| g_items := items; g_xlabel := "Frequency (GHz)"; g_ylabel := ylabel; g_title := ""; g_xlim := xlim; g_ylim := ylim |}.
Definition tn_top (tn_max : option R) : option R * option R := (Some 0%R, tn_max).
Definition zoom (f_range : option (R * R)) : option R * option R := match f_range with Some r => (Some (fst r), Some (snd r)) | None => (None, None) end.
(** UnivariateSpline(x, y) needs more than three points (ValueError, or dfitpack.error in old
    versions of SciPy) and increasing x. *)
Fixpoint ascending (l : list R) : bool :=
  match l with a :: (b :: _) as l' => Rleb a b && ascending l' | _ => true end.
Definition fit_spline (x : list R) (y : list fl) : res (R -> fl) :=
  let* _ := guard (3 <? length x)%nat ValueError in
  let* _ := guard (ascending x) ValueError in
  Ok (smooth x y).
(** Complex values that may not be finite times rn. *)
Definition part (f : C -> R) (rn : R) (z : option C) : fl := match z with Some z => FV (f z * rn) | None => FNaN end.

(** qmix/exp/exp_data.py:1522-1831 plot_overall_results *)
Definition plot_overall_results (d : dcdata) (data : list pumpeddata) (fig_folder : string) (vmax_plot : R) (tn_max : option R) (f_range : option (R * R)) : program :=
  do _ <- io_each (map snd file_structure) (fun sub => need_dir (join fig_folder sub));
  let csv := join fig_folder "csv/" in
  let fig := join fig_folder "overall-results/" in
  do gs <- value (mapM gather data);
  let dc := d_dc d in
  let freq := map t_freq gs in
  let good := filter t_fit gs in
  let noisy := filter t_if_fit gs in
  let mv := (dc_vgap dc * 10 ^ 3)%R in
  let ua := (dc_igap dc * 10 ^ 6)%R in
  do imax <- value (np_interp [vmax_plot] (in_units (d_voltage d) mv) (in_units (d_current d) ua));
  do _ <- write_text (join csv "dciv-data.txt") (dciv_text d);
  do _ <- write_text (join csv "recovered-emb.txt") (String.concat "" (map (emb_line dc) gs));
  do _ <- write_text (join csv "dciv-info.txt") (info_text dc);
  do _ <- write_text (join csv "results.txt") (results_text dc gs);
  do c0 <- value (curve "" (in_units (d_voltage d) mv) (numbers (in_units (d_current d) ua)));
  do cs <- value (mapM (fun u => curve (str (u_freq u)) (in_units (u_voltage u) mv) (numbers (in_units (u_current u) ua))) data);
  do _ <- save (join fig "iv_curves.png") [{| g_items := c0 :: cs; g_xlabel := "Voltage (mV)"; g_ylabel := "Current (uA)"; g_title := "LO (GHz)";
             g_xlim := (Some 0%R, Some vmax_plot); g_ylim := (Some 0%R, Some (nth 0 imax 0%R)) |}];
  do _ <- save (join fig "rdyn.png") [against_freq "Dynamic resistance ($\Omega$)" [Curve "" freq (numbers (map t_rdyn gs))] (zoom f_range) (Some 0%R, None)];
  let tn := Curve "" freq (map t_tn gs) in
  do _ <- save (join fig "noise_temperature.png") [against_freq "Noise Temperature (K)" [tn] (zoom f_range) (tn_top tn_max)];
  do lo <- value (rmin freq);
  do hi <- value (amax freq);
  let freq_t := linspace lo hi (Z.to_nat 1001) in
  do sp <- value (fit_spline freq (map t_tn gs));
  do _ <- save (join fig "noise_temperature_spline_fit.png") [against_freq "Noise Temperature (K)" [tn; Curve "" freq_t (map sp freq_t)] (zoom f_range) (tn_top tn_max)];
  do _ <- save (join fig "noise_temperature_logy.png") [against_freq "Noise Temperature (K)" [tn] (zoom f_range) (None, None)];
  do _ <- save (join fig "noise_temperature_and_gain.png") [against_freq "Noise Temperature (K)" [tn] (zoom f_range) (tn_top tn_max);
             {| g_items := [Curve "" freq (numbers (map t_gain gs))]; g_xlabel := ""; g_ylabel := "Gain (dB)"; g_title := ""; g_xlim := zoom f_range; g_ylim := (None, None) |}];
  do _ <- save (join fig "if_noise.png") [against_freq "IF Noise Contribution (K)" [Curve "" (map t_freq noisy) (numbers (map t_if_noise noisy))] (zoom f_range) (Some 0%R, None)];
  let impedance gs := [Curve "Real" (map t_freq gs) (map (fun g => FV (Re (t_zt g) * dc_rn dc)) gs); Curve "Imaginary" (map t_freq gs) (map (fun g => FV (Im (t_zt g) * dc_rn dc)) gs)] in
  do _ <- save (join fig "embedding_impedance.png") [against_freq "Embedding Impedance ($\Omega$)" (impedance good) (zoom f_range) (None, None)];
  do _ <- save (join fig "embedding_impedance_all.png") [against_freq "Embedding Impedance ($\Omega$)" (impedance gs) (zoom f_range) (None, None)];
  do _ <- save (join fig "embedding_voltage.png") [against_freq "Embedding Voltage (mV)" [Curve "" (map t_freq good) (map (fun g => fmul (fmul (t_vt g) (FV (dc_vgap dc))) (FV (10 ^ 3))) good)] (zoom f_range) (Some 0%R, None)];
  do _ <- save (join fig "drive_level.png") [against_freq "Drive Level, $\alpha$" [Curve "" freq (numbers (map t_alpha gs))] (zoom f_range) (Some 0%R, Some (12 / 10)%R)];
  save (join fig "junction_impedance.png") [against_freq "Junction Impedance ($\Omega$)"
     [Curve "Re$\{Z_J\}$" freq (map (fun g => part Re (dc_rn dc) (t_zw g)) gs); Curve "Im$\{Z_J\}$" freq (map (fun g => part Im (dc_rn dc) (t_zw g)) gs)] (zoom f_range) (None, None)].
End Objects.

(** ** Directories *)
(** qmix/exp/exp_data.py:1937-1953 initialize_dir *)
Definition initialize_dir (fig_folder : string) : program :=
  io_each ("" :: map snd file_structure) (fun folder => need_dir (fig_folder ++ folder)).

(** ** IF spectra *)
(** The argument of if_response: an array or anything else (qmix/exp/if_response.py:44-51). *)
Inductive array_arg := Array (m : matrix) | FileName (s : string).
Definition if_response_of (a : array_arg) (o_t_hot o_t_cold maxtn : R) : res (list fl * list fl * list fl * list fl) :=
  match a with Array m => if_response m o_t_hot o_t_cold maxtn | FileName _ => Err ValueError end.
Definition spectra (ytop : R) (items : list item) : axes :=
  {| g_items := items; g_xlabel := "Frequency (GHz)"; g_ylabel := "Noise Temperature (K)"; g_title := ""; g_xlim := (Some 0%R, Some 20%R); g_ylim := (Some 0%R, Some ytop) |}.
(** os.path.join(fig_folder, name) where fig_folder may be None. *)
Definition join_opt (a : option string) (b : string) : res string := match a with Some a => Ok (join a b) | None => Err TypeError end.
(** name[:-4] of the last component, and split('_')[0][1:] of it. *)
Definition base_name (s : string) : string := let n := List.last (split_at "" s) "" in substring 0 (String.length n - 4) n.
Fixpoint before_underscore (s : string) : string :=
  match s with "" => "" | String c s' => if Ascii.eqb c (Ascii.ascii_of_nat 95) then "" else String c (before_underscore s') end.
Definition lo_name (s : string) : string := match before_underscore (base_name s) with "" => "" | String _ s' => s' end.
(** qmix/exp/exp_data.py:1455-1517 plot_if_spectrum; found are the names that match *comb*.dat
    in the data folder, in the order of glob.  smoothed is gauss_conv with sigma 1 (for values
    that may not be finite).  The state is what is drawn on ax1 and on the last ax2. *)
Definition finite_freq (f : list fl) : res (list R) := mapM (fun x => match x with FV x => Ok x | _ => Err NotModelled end) f.
Definition plot_if_spectrum (smoothed : list fl -> res (list fl)) (found : list string) (fig_folder : option string) : program :=
  let fix each (l : list string) (ax1 ax2 : list item) : io content (list item * list item) :=
    match l with
    | [] => ret (ax1, ax2)
    | name :: l' =>
        do r <- value (if_response_of (FileName name) 293 78 (10 ^ 6));
        let '(freq, t_n, p_hot, p_cold) := r in
        do f <- value (finite_freq freq);
        do sm <- value (smoothed t_n);
        let label := lo_name name ++ " GHz" in
        let fig2 := [Curve "" f t_n; Curve label f sm] in
        do _ <- match fig_folder with
                | Some folder =>
                    do _ <- save (join folder (base_name name) ++ ".png") [spectra 400 fig2];
                    save (join folder (base_name name) ++ "2.png") [spectra 2000 fig2]
                | None => ret tt
                end;
        each l' (app ax1 [Curve label f t_n]) fig2
    end in
  do s <- each found [] [];
  do n <- value (join_opt fig_folder "if_spectra.png");
  do _ <- save n [spectra 500 (fst s)];
  do n <- value (join_opt fig_folder "if_spectra2.png");
  do _ <- save n [spectra 2000 (fst s)];
  do n <- value (join_opt fig_folder "if_spectra_smooth.png");
  do _ <- save n [spectra 500 (snd s)];
  do n <- value (join_opt fig_folder "if_spectra_smooth2.png");
  save n [spectra 2000 (snd s)].
