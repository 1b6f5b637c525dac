{
 "claims": [
  {
   "property": "C01",
   "status": "proved",
   "theorems": [
    "C01_multi_tone_formula",
    "C01_scalar_request"
   ],
   "note": "Exact real arithmetic; Bessel functions are an arbitrary parameter J."
  },
  {
   "property": "C02",
   "status": "proved",
   "theorems": [
    "C02_phase_factor_coefficients",
    "C02_angle"
   ],
   "note": "The cells with |k| <= max(num_b) are all the cells of the array. C02_angle characterises the phase of a complex number that the specifications use."
  },
  {
   "property": "C03",
   "status": "proved",
   "theorems": [
    "C03_in_range",
    "C03_larger_matrix",
    "C03_smaller_matrix_out_of_bounds_refuted",
    "C03_smaller_matrix_wrong_value_refuted"
   ],
   "note": "The two _refuted theorems show what the accepted smaller matrix does: out-of-bounds reads (all one-tone cases with 2b'+1 <= b) and wrong values (a witness)."
  },
  {
   "property": "C04",
   "status": "proved",
   "theorems": [
    "C04_no_drive",
    "besselJ_like"
   ],
   "note": ""
  },
  {
   "property": "C05",
   "status": "proved",
   "theorems": [
    "C05_relabelling"
   ],
   "note": "num_b tuples have exactly one entry per tone."
  },
  {
   "property": "C06",
   "status": "partial",
   "theorems": [
    "C06_idle_tone_partial",
    "C06_idle_tone_refuted"
   ],
   "note": "Proved for num_p <= 2 or a num_b entry not above the others; refuted by a witness with three harmonics otherwise."
  },
  {
   "property": "C07",
   "status": "proved",
   "theorems": [
    "C07_negative_frequency",
    "C07_dc_real"
   ],
   "note": ""
  },
  {
   "property": "C08",
   "status": "proved",
   "theorems": [
    "C08_time_shift",
    "C08_one_tone"
   ],
   "note": ""
  },
  {
   "property": "C09",
   "status": "proved",
   "theorems": [
    "C09_reversal"
   ],
   "note": ""
  },
  {
   "property": "C10",
   "status": "proved",
   "theorems": [
    "C10_linearity"
   ],
   "note": ""
  },
  {
   "property": "C100",
   "status": "partial",
   "theorems": [
    "C100_number",
    "C100_pvalf",
    "C100_printc_partial",
    "C100_printc_refuted",
    "C100_pvalf_real"
   ],
   "note": "printc prints a double sign for negative imaginary parts, which reads as the complex conjugate."
  },
  {
   "property": "C101",
   "status": "proved",
   "theorems": [
    "C101_middle"
   ],
   "note": ""
  },
  {
   "property": "C102",
   "status": "proved",
   "theorems": [
    "C102_cprint"
   ],
   "note": "The list of colour names in the message is a parameter."
  },
  {
   "property": "C103",
   "status": "proved",
   "theorems": [
    "C103_dc_bound",
    "C103_ac_bound"
   ],
   "note": "One harmonic per tone; Bessel functions by power series."
  },
  {
   "property": "C104",
   "status": "proved",
   "theorems": [
    "C104_truncation_error",
    "C104_missed_probability",
    "C104_converges"
   ],
   "note": "One harmonic per tone; Bessel functions by power series."
  },
  {
   "property": "C105",
   "status": "proved",
   "theorems": [
    "C105_helpers",
    "C105_passive",
    "C105_qtcurrent"
   ],
   "note": "One tone, real drive; Bessel functions by power series."
  },
  {
   "property": "C106",
   "status": "proved",
   "theorems": [
    "C106_ohm"
   ],
   "note": "One tone, real drive; Bessel functions by power series."
  },
  {
   "property": "C107",
   "status": "partial",
   "theorems": [
    "C107_defaults_partial",
    "C107_refuted"
   ],
   "note": "False for vrn and voffset_range: the code has (3.5e-3, 5e3) and (-1e-3, 1e-3), the documentation (3.5e-3, 4.5e-3) and (-5e-4, 5e-4); a file for which the normal resistance halves is given."
  },
  {
   "property": "C108",
   "status": "proved",
   "theorems": [
    "C108_photon_voltage",
    "C108_no_frequency"
   ],
   "note": ""
  },
  {
   "property": "C109",
   "status": "proved",
   "theorems": [
    "C109_common_grid"
   ],
   "note": ""
  },
  {
   "property": "C11",
   "status": "proved",
   "theorems": [
    "C11_bias_points_independent"
   ],
   "note": ""
  },
  {
   "property": "C110",
   "status": "proved",
   "theorems": [
    "C110_analysed"
   ],
   "note": ""
  },
  {
   "property": "C111",
   "status": "partial",
   "theorems": [
    "C111_attributes_partial",
    "C111_refuted"
   ],
   "note": "False for err_surf, corr, gain_best, v_best and zj_if; the attribute names are read off the code."
  },
  {
   "property": "C112",
   "status": "proved",
   "theorems": [
    "C112_dc_units",
    "C112_pumped_units"
   ],
   "note": ""
  },
  {
   "property": "C113",
   "status": "proved",
   "theorems": [
    "C113_dc_direction",
    "C113_pumped_direction"
   ],
   "note": ""
  },
  {
   "property": "C114",
   "status": "proved",
   "theorems": [
    "C114_dc_if_order",
    "C114_pumped_if_order"
   ],
   "note": ""
  },
  {
   "property": "C115",
   "status": "partial",
   "theorems": [
    "C115_response_partial",
    "C115_refuted",
    "C115_built"
   ],
   "note": "Proved between 0 and 1.8 gap voltages and for the mirror image.  Refuted at negative voltages, where the measured currents are not used (see also C47 for 0 V)."
  },
  {
   "property": "C116",
   "status": "proved",
   "theorems": [
    "C116_error",
    "C116_limit"
   ],
   "note": ""
  },
  {
   "property": "C117",
   "status": "proved",
   "theorems": [
    "C117_phase",
    "C117_series",
    "C117_probabilities"
   ],
   "note": ""
  },
  {
   "property": "C118",
   "status": "proved",
   "theorems": [
    "C118_ohm"
   ],
   "note": ""
  },
  {
   "property": "C119",
   "status": "proved",
   "theorems": [
    "C119_balance",
    "C119_passive"
   ],
   "note": "Assumes that no two mixing products have the same frequency to four decimals, otherwise the API returns their sum."
  },
  {
   "property": "C12",
   "status": "proved",
   "theorems": [
    "C12_list_scalar_agree"
   ],
   "note": ""
  },
  {
   "property": "C120",
   "status": "proved",
   "theorems": [
    "C120_integer_division",
    "C120_coefficients"
   ],
   "note": ""
  },
  {
   "property": "C121",
   "status": "proved",
   "theorems": [
    "C121_selection"
   ],
   "note": ""
  },
  {
   "property": "C122",
   "status": "partial",
   "theorems": [
    "C122_request_kinds_partial",
    "C122_own_frequency_refuted"
   ],
   "note": "Refuted for a number next to a rounding tie (0.30025): Python rounds the request exactly, NumPy rounds the product by multiplying with 10000.  Proved: both kinds of request agree away from ties."
  },
  {
   "property": "C123",
   "status": "partial",
   "theorems": [
    "C123_normalized_partial",
    "C123_units_partial",
    "C123_imaginary_refuted"
   ],
   "note": "Only the real part of the source voltage is printed, and the photon voltage is not finite for zero frequencies (excluded with units).  Everything else is proved."
  },
  {
   "property": "C124",
   "status": "proved",
   "theorems": [
    "C124_number",
    "C124_pvale_real",
    "C124_pvale_complex"
   ],
   "note": ""
  },
  {
   "property": "C125",
   "status": "proved",
   "theorems": [
    "C125_str",
    "C125_repr"
   ],
   "note": ""
  },
  {
   "property": "C126",
   "status": "proved",
   "theorems": [
    "C126_available_power"
   ],
   "note": ""
  },
  {
   "property": "C127",
   "status": "proved",
   "theorems": [
    "C127_same_count",
    "C127_selection"
   ],
   "note": "The matrix inverse may read only the entries of its argument."
  },
  {
   "property": "C128",
   "status": "proved",
   "theorems": [
    "C128_restart"
   ],
   "note": ""
  },
  {
   "property": "C129",
   "status": "proved",
   "theorems": [
    "C129_harmonic_balance",
    "C129_check"
   ],
   "note": ""
  },
  {
   "property": "C13",
   "status": "proved",
   "theorems": [
    "C13_four_decimals",
    "C13_tones_not_separated_refuted"
   ],
   "note": "The refuted claim is that distinct tones are separated; the property states that they are not."
  },
  {
   "property": "C130",
   "status": "proved",
   "theorems": [
    "C130_dc_curve",
    "C130_dc_summary",
    "C130_pumped_curve"
   ],
   "note": ""
  },
  {
   "property": "C131",
   "status": "proved",
   "theorems": [
    "C131_dc_if",
    "C131_pumped_if"
   ],
   "note": ""
  },
  {
   "property": "C132",
   "status": "proved",
   "theorems": [
    "C132_recovery"
   ],
   "note": ""
  },
  {
   "property": "C133",
   "status": "partial",
   "theorems": [
    "C133_figure_partial",
    "C133_drawn",
    "C133_refuted"
   ],
   "note": "The leakage current is marked on the curve only if vleak is 2 mV: the mark is always drawn at 2 mV.  The line with the label of the subgap resistance is the least-squares line around the leakage voltage, not a line with that resistance (refuted by a file with a gap structure at 4.5 mV)."
  },
  {
   "property": "C134",
   "status": "proved",
   "theorems": [
    "C134_offset",
    "C134_if_noise",
    "C134_shot_line",
    "C134_drawn"
   ],
   "note": ""
  },
  {
   "property": "C135",
   "status": "proved",
   "theorems": [
    "C135_plot_iv",
    "C135_plot_if",
    "C135_plot_ivif"
   ],
   "note": ""
  },
  {
   "property": "C136",
   "status": "proved",
   "theorems": [
    "C136_noise_temp",
    "C136_noise_temp_drawn",
    "C136_yfac",
    "C136_yfac_drawn",
    "C136_gain_noise_temp",
    "C136_not_a_number",
    "C136_gain",
    "C136_no_if_results",
    "C136_number_text"
   ],
   "note": "The horizontal line in plot_yfac_noise_temp is at 293/77 whatever the load temperatures are."
  },
  {
   "property": "C137",
   "status": "partial",
   "theorems": [
    "C137_simulated_partial",
    "C137_no_impedance",
    "C137_refuted"
   ],
   "note": "Proved if the interval is given by fit_range.  With cut_low and cut_high the upper mark is at cut_high where the recovery used 1 - cut_high (refuted)."
  },
  {
   "property": "C138",
   "status": "partial",
   "theorems": [
    "C138_surface_partial",
    "C138_refuted",
    "C138_no_recovery"
   ],
   "note": "The note is at the smallest error if no impedance is given.  With zemb it is at zemb, which need not be on the surface (refuted)."
  },
  {
   "property": "C139",
   "status": "proved",
   "theorems": [
    "C139_plot_all",
    "C139_nowhere"
   ],
   "note": "The documentation also lists figures of the offset and the dynamic resistance, which are not drawn."
  },
  {
   "property": "C14",
   "status": "proved",
   "theorems": [
    "C14_matrix_reuse"
   ],
   "note": ""
  },
  {
   "property": "C140",
   "status": "partial",
   "theorems": [
    "C140_plot_all_partial",
    "C140_refuted_keys",
    "C140_refuted_no_if",
    "C140_other"
   ],
   "note": "Proved with five keys and IF results.  With the four documented keys KeyError; without IF results TypeError after the first figure (refuted)."
  },
  {
   "property": "C141",
   "status": "partial",
   "theorems": [
    "C141_directories_partial",
    "C141_refuted"
   ],
   "note": "Proved for names that end with a slash; without it the sub-folders are made beside the folder (refuted)."
  },
  {
   "property": "C142",
   "status": "partial",
   "theorems": [
    "C142_overall_partial",
    "C142_refuted",
    "C142_refuted_incomplete",
    "C142_number_text"
   ],
   "note": "Proved for more than three sets of data in the order of their frequencies, each with IF results and a circuit.  Otherwise it stops with an error after the first three figures, or before the first text (refuted)."
  },
  {
   "property": "C143",
   "status": "partial",
   "theorems": [
    "C143_nothing_partial",
    "C143_refuted",
    "C143_refuted_default"
   ],
   "note": "Refuted: any spectrum makes it stop, because its name is passed instead of its data; without fig_folder it stops in any case.  Proved: without spectra four empty figures are written."
  },
  {
   "property": "C144",
   "status": "proved",
   "theorems": [
    "C144_figures",
    "C144_imported",
    "C144_perfect"
   ],
   "note": ""
  },
  {
   "property": "C145",
   "status": "proved",
   "theorems": [
    "C145_relabel",
    "C145_mask",
    "C145_inverse"
   ],
   "note": "Exact matrix inverse.  The numbering is that of one Bessel count per tone (a tuple)."
  },
  {
   "property": "C146",
   "status": "proved",
   "theorems": [
    "C146_unique"
   ],
   "note": "Exact matrix inverse."
  },
  {
   "property": "C147",
   "status": "partial",
   "theorems": [
    "C147_range",
    "C147_hot_cold",
    "C147_above",
    "C147_exact",
    "C147_found_partial",
    "C147_refuted_straight"
   ],
   "note": "SciPy's savgol_filter is any function that keeps the length; for C147_found_partial and the refutation it leaves lines unchanged.  Refuted: an exactly straight curve, of which no sample is found."
  },
  {
   "property": "C148",
   "status": "proved",
   "theorems": [
    "C148_search",
    "C148_centre",
    "C148_symmetric",
    "C148_line"
   ],
   "note": "SciPy's optimiser is an arbitrary function; C148_symmetric assumes that it finds minima where there are any.  C148_line shows that the offset is not unique for straight curves."
  },
  {
   "property": "C149",
   "status": "proved",
   "theorems": [
    "C149_list",
    "C149_scalar",
    "C149_factor",
    "C149_one_product"
   ],
   "note": "Rounding to 53 bits without overflow and underflow; the Bessel functions, the phases exp(-j n phi) and the values of the response function are taken to be exact.  The decisions which products count are those of C121."
  },
  {
   "property": "C15",
   "status": "proved",
   "theorems": [
    "C15_int_and_tuple",
    "C15_too_short",
    "C15_extra_entries_partial",
    "C15_extra_entries_refuted"
   ],
   "note": "The original reading (extra entries always ignored) is refuted for three harmonics."
  },
  {
   "property": "C150",
   "status": "proved",
   "theorems": [
    "C150_padding",
    "C150_integral"
   ],
   "note": "The integral is written over the distance from V, without the singularity.  Real arithmetic."
  },
  {
   "property": "C151",
   "status": "proved",
   "theorems": [
    "C151_dc",
    "C151_ac"
   ],
   "note": "Bessel functions by their power series, real arithmetic."
  },
  {
   "property": "C152",
   "status": "proved",
   "theorems": [
    "C152_dc",
    "C152_ac"
   ],
   "note": "Bessel functions by their power series, real arithmetic."
  },
  {
   "property": "C153",
   "status": "proved",
   "theorems": [
    "C153_polynomial",
    "C153_exponential"
   ],
   "note": "Real arithmetic; the spline is arbitrary. rsg = 0 and vgap = 0 are not modelled."
  },
  {
   "property": "C154",
   "status": "proved",
   "theorems": [
    "C154_order",
    "C154_monotone",
    "C154_slopes",
    "C154_gap"
   ],
   "note": "Real arithmetic. No mixing product other than the trivial one may round to frequency 0. Order, monotony and gap hold for any Bessel functions."
  },
  {
   "property": "C155",
   "status": "proved",
   "theorems": [
    "C155_photon_steps",
    "C155_plateau",
    "C155_one_step"
   ],
   "note": "Real arithmetic, one tone and one harmonic, drive the same at every bias point, Bessel functions as power series."
  },
  {
   "property": "C156",
   "status": "partial",
   "theorems": [
    "C156_same_result",
    "C156_quiet",
    "C156_warning",
    "C156_no_warning_partial",
    "C156_transcript",
    "C156_done",
    "C156_refuted",
    "C156_check_same",
    "C156_check",
    "C156_text"
   ],
   "note": "The verdict 'achieved' and the missing warning are wrong if an error is undefined (C156_refuted), as in C31; otherwise proved. Durations are parameters; errors in real arithmetic."
  },
  {
   "property": "C157",
   "status": "partial",
   "theorems": [
    "C157_same_result",
    "C157_quiet",
    "C157_report",
    "C157_before_check",
    "C157_refuted",
    "C157_perfect",
    "C157_text",
    "C157_names"
   ],
   "note": "The maximum error that is shown is the largest value of data minus interpolation, not the largest distance (C157_refuted; the cause of C89_refuted); everything else is proved. RespFnPerfect prints its first lines twice if it smears (C157_perfect)."
  },
  {
   "property": "C158",
   "status": "partial",
   "theorems": [
    "C158_same_result",
    "C158_dc",
    "C158_pumped",
    "C158_heading",
    "C158_quiet_dc",
    "C158_refuted",
    "C158_text"
   ],
   "note": "verbose=False does not silence PumpedData: the report of the recovery and the title of the IF analysis are printed whatever verbose is (C158_refuted; C158_pumped says exactly what is printed in both cases). Everything else is proved."
  },
  {
   "property": "C159",
   "status": "proved",
   "theorems": [
    "C159_explains",
    "C159_smooth",
    "C159_absorbs",
    "C159_refuted"
   ],
   "note": "C159_refuted shows the stronger reading, that the impedance itself is recovered, to be false. The drive levels must be findable by the bisection (its conditions are those of C83_finds)."
  },
  {
   "property": "C16",
   "status": "proved",
   "theorems": [
    "C16_response_matrix",
    "C16_other_tone_counts"
   ],
   "note": ""
  },
  {
   "property": "C160",
   "status": "proved",
   "theorems": [
    "C160_same_result",
    "C160_messages",
    "C160_early",
    "C160_many_tones",
    "C160_text"
   ],
   "note": "The duration is a parameter."
  },
  {
   "property": "C161",
   "status": "proved",
   "theorems": [
    "C161_rises",
    "C161_qtcurrent",
    "C161_finds",
    "C161_inexact",
    "C161_recovers"
   ],
   "note": "Exact arithmetic; the conditions on the I-V curve are in Spec_Rise.v."
  },
  {
   "property": "C162",
   "status": "proved",
   "theorems": [
    "C162_agrees",
    "C162_returns",
    "C162_levels",
    "C162_spoiled"
   ],
   "note": "Exact arithmetic with NaN and infinities."
  },
  {
   "property": "C163",
   "status": "proved",
   "theorems": [
    "C163_recovers",
    "C163_near"
   ],
   "note": "Exact arithmetic; the conditions are in Spec_Noisy.v and Spec_Rise.v."
  },
  {
   "property": "C164",
   "status": "proved",
   "theorems": [
    "C164_circuits",
    "C164_unique",
    "C164_recovers"
   ],
   "note": "Exact arithmetic; the conditions are in Spec_Noisy.v and Spec_Rise.v. The constants of the bound for the recovered circuit are coarse: they use the greatest current of the junction for its slope, so the bound says how the difference shrinks with the errors rather than how large it is in practice."
  },
  {
   "property": "C165",
   "status": "proved",
   "theorems": [
    "C165_agrees",
    "C165_returns",
    "C165_best",
    "C165_cold"
   ],
   "note": "Exact arithmetic. np.polyfit with a single sample is modelled as documented by NumPy: the smallest coefficients after scaling the columns. C165_exchanged shows a measurement whose hot and cold files have been exchanged."
  },
  {
   "property": "C166",
   "status": "proved",
   "theorems": [
    "C166_contracts",
    "C166_one_solution",
    "C166_converges",
    "C166_how_many",
    "C166_accurate"
   ],
   "note": "Exact arithmetic and an exact matrix inverse. The share k is a hypothesis here; C167 shows that small impedances meet it."
  },
  {
   "property": "C167",
   "status": "proved",
   "theorems": [
    "C167_small_impedances"
   ],
   "note": "Exact arithmetic, the Bessel functions' power series and an exact matrix inverse. L is not computed in the statement; it comes from C168."
  },
  {
   "property": "C168",
   "status": "proved",
   "theorems": [
    "C168_proportion",
    "C168_coefficients"
   ],
   "note": "Exact arithmetic and the Bessel functions' power series. Among other things it excludes a jump where the phase of a voltage wraps around or the voltage passes through zero."
  },
  {
   "property": "C169",
   "status": "proved",
   "theorems": [
    "C169_derivatives",
    "C169_three_values",
    "C169_cleaning"
   ],
   "note": "The statement includes the mismatches that the code accepts."
  },
  {
   "property": "C17",
   "status": "proved",
   "theorems": [
    "C17_pumped_iv_curve",
    "C17_ac_current"
   ],
   "note": ""
  },
  {
   "property": "C170",
   "status": "proved",
   "theorems": [
    "C170_one_tone",
    "C170_converges"
   ],
   "note": "The Bessel functions are the power series."
  },
  {
   "property": "C171",
   "status": "proved",
   "theorems": [
    "C171_current",
    "C171_estimate",
    "C171_converges",
    "C171_solutions"
   ],
   "note": "The Bessel functions are the power series. C171_estimate asks for non-zero returned voltages."
  },
  {
   "property": "C172",
   "status": "proved",
   "theorems": [
    "C172_same_circuit",
    "C172_two_circuits",
    "C172_solutions"
   ],
   "note": "C167 and C170 give circuits for which k < 1 holds."
  },
  {
   "property": "C173",
   "status": "proved",
   "theorems": [
    "C173_alternating",
    "C173_direct",
    "C173_converges"
   ],
   "note": "The counterpart of C170 for several tones; C104 is about the truncation itself."
  },
  {
   "property": "C174",
   "status": "proved",
   "theorems": [
    "C174_current",
    "C174_estimate",
    "C174_converges"
   ],
   "note": "The counterpart of C171 for several tones, with truncations that may differ from tone to tone. C174_converges asks for a response function that is bounded at all voltages, C174_current and C174_estimate only within the larger truncation."
  },
  {
   "property": "C175",
   "status": "proved",
   "theorems": [
    "C175_current",
    "C175_solution",
    "C175_run"
   ],
   "note": "Bias points are handled together by the code; the bound says that their results nevertheless fit together."
  },
  {
   "property": "C176",
   "status": "proved",
   "theorems": [
    "C176_dc",
    "C176_ac",
    "C176_same_dc"
   ],
   "note": "The run and the currents use the same truncation. The 0/0 exclusion holds for all driven circuits in which every source voltage exceeds 2*M times its impedance (lemma driven_defined)."
  },
  {
   "property": "C177",
   "status": "proved",
   "theorems": [
    "C177_ac",
    "C177_dc"
   ],
   "note": "The estimate uses only what the run returns, so that it can be evaluated after a simulation."
  },
  {
   "property": "C178",
   "status": "proved",
   "theorems": [
    "C178_simulations"
   ],
   "note": "The response function has to be bounded at all voltages, as all truncations are covered. That there are converged runs is C173_converges; C178_case shows it for a circuit."
  },
  {
   "property": "C179",
   "status": "proved",
   "theorems": [
    "C179_solution",
    "C179_run",
    "C179_dc"
   ],
   "note": "C175 bounds the current for given voltages and the voltages; this is the bound for the simulation as a whole."
  },
  {
   "property": "C18",
   "status": "proved",
   "theorems": [
    "C18_idle_harmonics_coefficients",
    "C18_idle_harmonics_one_tone",
    "C18_idle_harmonics"
   ],
   "note": ""
  },
  {
   "property": "C180",
   "status": "proved",
   "theorems": [
    "C180_solutions",
    "C180_runs"
   ],
   "note": "C172 gives the voltages; this is the bound for the currents. A source voltage of less than the least one that the code uses counts as that one, as in C172."
  },
  {
   "property": "C20",
   "status": "proved",
   "theorems": [
    "C20_constructor_domain",
    "C20_new_circuit",
    "C20_gap_consistent",
    "C20_shapes_kept",
    "C20_initial_voltage",
    "C20_rejected",
    "C20_not_built"
   ],
   "note": ""
  },
  {
   "property": "C21",
   "status": "proved",
   "theorems": [
    "C21_power_round_trip",
    "C21_setting_succeeds",
    "C21_unknown_units_raise"
   ],
   "note": "Over exact reals."
  },
  {
   "property": "C22",
   "status": "proved",
   "theorems": [
    "C22_set_freq",
    "C22_set_available_power",
    "C22_set_alpha",
    "C22_set_name"
   ],
   "note": ""
  },
  {
   "property": "C23",
   "status": "partial",
   "theorems": [
    "C23_units",
    "C23_units_agree",
    "C23_norm_partial",
    "C23_norm_refuted"
   ],
   "note": "The units agree for every circuit with a gap. The last clause is false of the code: line 442 compares the method units.lower with 'norm', so normalised values need a gap too (C23_norm_refuted)."
  },
  {
   "property": "C24",
   "status": "partial",
   "theorems": [
    "C24_igap_partial",
    "C24_igap_refuted"
   ],
   "note": "True when the gap is given as a voltage; false of the code when it is given as a frequency (igap stays None)."
  },
  {
   "property": "C25",
   "status": "proved",
   "theorems": [
    "C25_locked_unchanged",
    "C25_as_if_never_locked"
   ],
   "note": ""
  },
  {
   "property": "C26",
   "status": "proved",
   "theorems": [
    "C26_round_trip",
    "C26_second_time_exact",
    "C26_rounding",
    "C26_last_newline"
   ],
   "note": "Character-level model of the file. The voltages that are not finite count as one value."
  },
  {
   "property": "C27",
   "status": "proved",
   "theorems": [
    "C27_bias_sweep"
   ],
   "note": ""
  },
  {
   "property": "C28",
   "status": "partial",
   "theorems": [
    "C28_fundamental_partial",
    "C28_harmonic_refuted"
   ],
   "note": "True for p=1. For harmonic p the drive is alpha/p, so the property is false of the code for p>=2 (C28_harmonic_refuted computes the value)."
  },
  {
   "property": "C29",
   "status": "partial",
   "theorems": [
    "C29_vph_refuted"
   ],
   "note": "False of the code: vph returns self.cct, which does not exist, so reading it always raises AttributeError."
  },
  {
   "property": "C31",
   "status": "partial",
   "theorems": [
    "C31_convergence_means_balance_partial",
    "C31_last_signal",
    "C31_refuted"
   ],
   "note": "Proved for runs in which no relative error is undefined (0/0). An undefined error at any signal but the last is swallowed by Python's max, so the full statement is false of the code (C31_refuted)."
  },
  {
   "property": "C32",
   "status": "partial",
   "theorems": [
    "C32_iterations_partial",
    "C32_met_target_ends",
    "C32_refuted_last_iteration",
    "C32_refuted_negative_limit",
    "C32_refuted_extra_correction"
   ],
   "note": "Exact description of count and flag proved. False of the code: target met in the last iteration reported as False; max_it=-1 reports True; one correction too many when the error is undefined in the last iteration."
  },
  {
   "property": "C33",
   "status": "partial",
   "theorems": [
    "C33_undefined_last_partial",
    "C33_refuted"
   ],
   "note": "Proved for an undefined error at the last signal; false of the code for other signals."
  },
  {
   "property": "C34",
   "status": "partial",
   "theorems": [
    "C34_type_by_mode_partial",
    "C34_same_voltages",
    "C34_refuted"
   ],
   "note": "Proved for circuits with an impedance; false of the code when all impedances are zero (bare voltages in every mode)."
  },
  {
   "property": "C35",
   "status": "partial",
   "theorems": [
    "C35_circuit_partial",
    "C35_sources_after",
    "C35_guess_kept_partial",
    "C35_guess_overwritten",
    "C35_refuted_guess",
    "C35_refuted_source"
   ],
   "note": "Exact effect on circuit and guess proved; false of the code: sources below 1e-10 are clamped in the caller's circuit, and the guess is overwritten for num_f=1 or num_p=1."
  },
  {
   "property": "C36",
   "status": "partial",
   "theorems": [
    "C36_refuted",
    "C36_no_impedance_partial",
    "C36_unlocking_restores"
   ],
   "note": "False of the code for every locked circuit with an impedance (ValueError); proved for locked circuits without impedance and after unlocking."
  },
  {
   "property": "C37",
   "status": "proved",
   "theorems": [
    "C37_affine_correction",
    "C37_affine_run",
    "C37_undamped_exact"
   ],
   "note": "Matrix inverse assumed exact, with failure for singular matrices only."
  },
  {
   "property": "C38",
   "status": "proved",
   "theorems": [
    "C38_numbering",
    "C38_own_current",
    "C38_check_current"
   ],
   "note": ""
  },
  {
   "property": "C39",
   "status": "partial",
   "theorems": [
    "C39_check_partial",
    "C39_converged_accepted_partial",
    "C39_refuted"
   ],
   "note": "The check is characterised exactly; acceptance proved when the error is strictly below the target; at equality check_hb_error rejects what harmonic_balance accepts (C39_refuted)."
  },
  {
   "property": "C40",
   "status": "partial",
   "theorems": [
    "C40_mask_partial",
    "C40_refuted"
   ],
   "note": "Sound unless the last iteration met an undefined error; then the mask belongs to the voltages before the final correction (C40_refuted)."
  },
  {
   "property": "C41",
   "status": "partial",
   "theorems": [
    "C41_converged_partial",
    "C41_one_correction",
    "C41_no_impedance_at_all"
   ],
   "note": "Same exclusion of undefined errors as C31."
  },
  {
   "property": "C43",
   "status": "partial",
   "theorems": [
    "C43_voltage",
    "C43_current_partial",
    "C43_smeared_partial",
    "C43_kk_even",
    "C43_refuted"
   ],
   "note": "The voltages are odd, increasing and 2n-1 always; the currents are odd iff the first current is 0 (nothing checks this: C43_refuted). Smearing keeps the curve odd when 3 v_smear is a whole number of voltage steps; for other radii the window is lopsided."
  },
  {
   "property": "C44",
   "status": "proved",
   "theorems": [
    "C44_nodes",
    "C44_curvature",
    "C44_table_values"
   ],
   "note": "For data with at least 201 points. Only the step between a node and the point before the next node is below 1, i.e. the gap is below 1 plus one data step. The curvature bound is for tables that are not straight lines."
  },
  {
   "property": "C45",
   "status": "partial",
   "theorems": [
    "C45_accepts_partial",
    "C45_polynomial",
    "C45_exponential",
    "C45_from_iv_data",
    "C45_rejects",
    "C45_refuted_few_points",
    "C45_refuted_uneven"
   ],
   "note": "Evenly spaced data with at least 101 points is accepted, but data with at most 100 points or with fewer points in linear regions (which the docstring asks for) never is. Reals instead of float64; the spline is an oracle."
  },
  {
   "property": "C46",
   "status": "proved",
   "theorems": [
    "C46_responses"
   ],
   "note": ""
  },
  {
   "property": "C47",
   "status": "partial",
   "theorems": [
    "C47_resampled_partial",
    "C47_nothing_left",
    "C47_refuted",
    "C47_lengths"
   ],
   "note": "Linear interpolation and unit slope are proved; the current at 0 V is that of the first positive voltage instead of 0 (C47_refuted)."
  },
  {
   "property": "C48",
   "status": "partial",
   "theorems": [
    "C48_accepted",
    "C48_smoothing",
    "C48_reversal_partial",
    "C48_weighted_average",
    "C48_refuted"
   ],
   "note": "Length, constants, bounds and linearity hold for every accepted window. Reversal is proved when sigma*ext_x is a whole number and refuted otherwise (sigma=1, ext_x=3/2): the sampled window is then not symmetric."
  },
  {
   "property": "C50",
   "status": "proved",
   "theorems": [
    "C50_resistor_gives_zero",
    "C50_length",
    "C50_affine",
    "C50_odd_to_even",
    "C50_kernel",
    "C50_analytic_signal",
    "C50_trapezoid"
   ],
   "note": "scipy.signal.hilbert is modelled by its DFT definition; the closed form of the kernel and the real part of the analytic signal are proved as checks."
  },
  {
   "property": "C51",
   "status": "partial",
   "theorems": [
    "C51_kk_trans_rejects",
    "C51_kk_trans_other_errors",
    "C51_trapezoid_rejects_partial",
    "C51_refuted"
   ],
   "note": "Proved for kk_trans. kk_trans_trapz only rejects steps that are too long (no absolute value): steps 1, 1/2 are accepted."
  },
  {
   "property": "C52",
   "status": "proved",
   "theorems": [
    "C52_slope_exact",
    "C52_span_exact",
    "C52_no_zeros",
    "C52_sizes"
   ],
   "note": "Valid sizes are at least 2 samples for slope and (3n+1)/2 for slope_span_n with odd n>=3. With nozeros a slope of 0 is returned as 1e-10."
  },
  {
   "property": "C53",
   "status": "partial",
   "theorems": [
    "C53_span_partial",
    "C53_refuted_parabola",
    "C53_refuted_single",
    "C53_slope_centred"
   ],
   "note": "The quotient reaches (n+1)/2 samples back and (n-1)/2 samples forward, so it is off centre by half a sample; n=1 raises ValueError."
  },
  {
   "property": "C54",
   "status": "proved",
   "theorems": [
    "C54_perfect_odd",
    "C54_polynomial_odd",
    "C54_exponential_odd",
    "C54_expanded_odd",
    "C54_model_names"
   ],
   "note": ""
  },
  {
   "property": "C55",
   "status": "partial",
   "theorems": [
    "C55_ideal_values_partial",
    "C55_ideal_is_function",
    "C55_infinite",
    "C55_refuted",
    "C55_kk"
   ],
   "note": "Values proved for float arrays and Python scalars; refuted for integer arrays (the value 1/2 at the gap is truncated to 0) and for NumPy scalars other than float64 (None is returned)."
  },
  {
   "property": "C56",
   "status": "partial",
   "theorems": [
    "C56_between",
    "C56_increasing",
    "C56_gap",
    "C56_finite_partial",
    "C56_refuted"
   ],
   "note": "Finite on |V|<=35 for orders up to 99; for every order from 100 on v**(2n) overflows at V=35 and the result is inf/inf = NaN."
  },
  {
   "property": "C57",
   "status": "proved",
   "theorems": [
    "C57_below_gap",
    "C57_above_gap",
    "C57_limits"
   ],
   "note": ""
  },
  {
   "property": "C58",
   "status": "proved",
   "theorems": [
    "C58_precedence",
    "C58_keys"
   ],
   "note": "A dict is an association list with unique keys; dicts are values in the model, and the code makes a new dict each time, so the caller's cannot change."
  },
  {
   "property": "C60",
   "status": "partial",
   "theorems": [
    "C60_cleaned",
    "C60_again_partial",
    "C60_refuted",
    "C60_any_algorithm"
   ],
   "note": "All parts proved for every sorting algorithm; cleaning again is proved when two points are left and refuted for one (ValueError)."
  },
  {
   "property": "C61",
   "status": "proved",
   "theorems": [
    "C61_matrix",
    "C61_conversion"
   ],
   "note": ""
  },
  {
   "property": "C62",
   "status": "partial",
   "theorems": [
    "C62_succeeds_partial",
    "C62_refuted"
   ],
   "note": "Exact conditions proved; refuted for a single point (ValueError) and for two points at the same infinite x (AssertionError)."
  },
  {
   "property": "C64",
   "status": "proved",
   "theorems": [
    "C64_loaded",
    "C64_sweep",
    "C64_mirrored",
    "C64_single_pass"
   ],
   "note": "For every sorting algorithm. Extremes and measured pairs are proved for all data that loads; which part of the sweep is kept for sweeps that are monotonic between the turning points."
  },
  {
   "property": "C66",
   "status": "partial",
   "theorems": [
    "C66_corrected",
    "C66_none",
    "C66_junction_partial",
    "C66_refuted"
   ],
   "note": "A sample with zero current and positive voltage becomes NaN and stays in the data (C66_refuted). Zero currents count as +0."
  },
  {
   "property": "C68",
   "status": "partial",
   "theorems": [
    "C68_one_sided_partial",
    "C68_two_sided",
    "C68_refuted",
    "C92_pumped_samples"
   ],
   "note": "With DC data on both sides of voffset_range the given offsets only start the optimiser, whose result is removed (C68_refuted). For pumped data the given offsets are used if both are given."
  },
  {
   "property": "C70",
   "status": "proved",
   "theorems": [
    "C70_rotate_back",
    "C70_rotation"
   ],
   "note": ""
  },
  {
   "property": "C71",
   "status": "proved",
   "theorems": [
    "C71_normal_line",
    "C71_subgap_line",
    "C71_least_squares",
    "C71_unique",
    "C71_gap_corner"
   ],
   "note": "np.polyfit is modelled by the normal equations; windows with fewer than two different voltages are not modelled."
  },
  {
   "property": "C73",
   "status": "proved",
   "theorems": [
    "C73_recovers",
    "C73_measured"
   ],
   "note": "Real arithmetic. C73_measured covers loading, smoothing, series resistance and calibration."
  },
  {
   "property": "C74",
   "status": "proved",
   "theorems": [
    "C74_given",
    "C74_shot",
    "C74_any_calibration"
   ],
   "note": "With automatically chosen shot-noise samples the calibrations of the two analyses need not correspond, but the noise temperatures agree for any positive calibrations."
  },
  {
   "property": "C75",
   "status": "proved",
   "theorems": [
    "C75_requested",
    "C75_max_gain",
    "C75_min_tn",
    "C75_unknown",
    "C75_value_error"
   ],
   "note": "A requested bias hides an invalid selector."
  },
  {
   "property": "C76",
   "status": "partial",
   "theorems": [
    "C76_value",
    "C76_bounds",
    "C76_increasing",
    "C76_refuted_zero"
   ],
   "note": "For positive frequencies and temperatures. At absolute zero a ZeroDivisionError is raised and at frequency zero the result is NaN (C76_refuted_zero)."
  },
  {
   "property": "C78",
   "status": "partial",
   "theorems": [
    "C78_clamped",
    "C78_orientation_partial",
    "C78_refuted_square",
    "C78_refuted_no_power"
   ],
   "note": "Clamping for finite powers in dB; NaN without any cold power. The orientation is ambiguous for three frequencies."
  },
  {
   "property": "C80",
   "status": "proved",
   "theorems": [
    "C80_least_squares",
    "C80_exact",
    "C80_zero_means_match",
    "C80_never_negative"
   ],
   "note": "Real arithmetic; impedances that are not finite are covered by C80_never_negative."
  },
  {
   "property": "C81",
   "status": "partial",
   "theorems": [
    "C81_best_partial",
    "C81_runs",
    "C81_forced",
    "C81_flag_refuted",
    "C81_undriven_refuted"
   ],
   "note": "The best-on-grid part holds if every sample on the step draws AC current. One sample at or below the unpumped curve makes the whole error surface NaN and the first grid corner is returned (C81_undriven_refuted). With a forced impedance the flag refers to the best grid point (C81_flag_refuted)."
  },
  {
   "property": "C83",
   "status": "proved",
   "theorems": [
    "C83_not_negative",
    "C83_finds",
    "C83_reach"
   ],
   "note": "Bessel functions and response function arbitrary."
  },
  {
   "property": "C84",
   "status": "partial",
   "theorems": [
    "C84_cuts_partial",
    "C84_window",
    "C84_low_missing",
    "C84_cuts_ignored",
    "C84_high_missing_refuted"
   ],
   "note": "A missing cut_high fails with TypeError; a missing cut_low makes cut_high ignored."
  },
  {
   "property": "C85",
   "status": "proved",
   "theorems": [
    "C85_defaults",
    "C85_dc",
    "C85_pumped",
    "C85_frequency"
   ],
   "note": "Option values are immutable in the model."
  },
  {
   "property": "C86",
   "status": "partial",
   "theorems": [
    "C86_title",
    "C86_bar",
    "C86_nothing_to_do_refuted",
    "C86_beyond_total_refuted",
    "C86_title_printed"
   ],
   "note": "The bar itself has constant width; the percentage text does not (its digits are an arbitrary function show). Zero iterations divide by zero and more iterations than announced lengthen the bar."
  },
  {
   "property": "C87",
   "status": "partial",
   "theorems": [
    "C87_unchecked_partial",
    "C87_refuted"
   ],
   "note": "Proved without the check. With the check the call fails for columns other than 0, because column 0 is checked."
  },
  {
   "property": "C88",
   "status": "partial",
   "theorems": [
    "C88_documented_partial",
    "C88_points_partial",
    "C88_refuted"
   ],
   "note": "Fails for max_npts_dc and max_npts_kk of RespFnFromIVData and max_npts_kk of RespFnExponential."
  },
  {
   "property": "C89",
   "status": "partial",
   "theorems": [
    "C89_checked_partial",
    "C89_refuted"
   ],
   "note": "The code takes the maximum of the signed error, so only interpolations that are too low are noticed."
  },
  {
   "property": "C90",
   "status": "partial",
   "theorems": [
    "C90_slopes_partial",
    "C90_refuted",
    "C90_derivatives"
   ],
   "note": "RespFnPerfect without v_smear stores None for both slopes, so that the methods raise TypeError."
  },
  {
   "property": "C91",
   "status": "partial",
   "theorems": [
    "C91_ideal_partial",
    "C91_excess_partial",
    "C91_refuted"
   ],
   "note": "Without v_smear the ideal curve is proved. With v_smear the code adds a Gaussian peak at the gap and smears the sum again, so the claim fails for every v_smear between 1/600 and 1/4; C91_excess_partial gives exactly what is added at every voltage."
  },
  {
   "property": "C92",
   "status": "proved",
   "theorems": [
    "C92_metadata",
    "C92_dc_samples",
    "C92_pumped_samples",
    "C92_dc_plain",
    "C92_pumped_plain"
   ],
   "note": ""
  },
  {
   "property": "C93",
   "status": "proved",
   "theorems": [
    "C93_line",
    "C93_off"
   ],
   "note": "savgol_filter is any function that keeps evenly spaced straight data; the rotated curve has to be a function of the rotated voltage."
  },
  {
   "property": "C94",
   "status": "proved",
   "theorems": [
    "C94_bounds"
   ],
   "note": ""
  },
  {
   "property": "C95",
   "status": "proved",
   "theorems": [
    "C95_calibrated",
    "C95_exact"
   ],
   "note": "linregress is modelled by the normal equations; a horizontal line is not modelled. The automatic choice of the samples is modelled but not characterised."
  },
  {
   "property": "C96",
   "status": "proved",
   "theorems": [
    "C96_samples",
    "C96_series",
    "C96_drop",
    "C96_range",
    "C96_accepted"
   ],
   "note": "The voltage drop is stated for DC curves with increasing voltages."
  },
  {
   "property": "C97",
   "status": "proved",
   "theorems": [
    "C97_recovers",
    "C97_units",
    "C97_no_signal"
   ],
   "note": ""
  },
  {
   "property": "C98",
   "status": "proved",
   "theorems": [
    "C98_summary",
    "C98_runs"
   ],
   "note": ""
  },
  {
   "property": "C99",
   "status": "proved",
   "theorems": [
    "C99_best_bias"
   ],
   "note": "Positive gains."
  }
 ]
}
