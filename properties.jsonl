{"id": "C01", "title": "qtcurrent equals the multi-tone formula", "statement": "For 1, 2, 3 and 4 tones, the value qtcurrent returns for each requested frequency at each bias point equals the multi-tone spectral-domain sum: over every integer index vector a in [-num_p,num_p]^num_f whose frequency sum(a_f*freq_f) agrees with the request after rounding to 4 decimals, add the coefficient I(a) given by one closed formula that is the same for any number of tones.", "quantifier": "all tone counts 1-4, num_p>=1, num_b>=0 (int or tuple), all voltages, frequencies>0, response functions, sweep lengths and frequency lists", "why_tests_cant": "four separately hand-unrolled loop nests; tests compare a few numeric cases of each with loose tolerance", "anchors": ["qmix/qtcurrent.py:qtcurrent", "qmix/qtcurrent.py:_current_1_tone", "qmix/qtcurrent.py:_current_2_tones", "qmix/qtcurrent.py:_current_3_tones", "qmix/qtcurrent.py:_current_4_tones", "qmix/qtcurrent.py:_current_coeff_4_tones"]}
{"id": "C02", "title": "Phase-factor coefficients are the truncated Jacobi-Anger convolution, with no wild index", "statement": "The phase-factor coefficients are the order-by-order convolution of the single-harmonic Bessel coefficients, where a product is included exactly when both indices lie in [-N,N] (N = the largest num_b); the loop that computes them never touches an array index outside the array and never skips a valid product.", "quantifier": "all num_p>=1, num_b>=0, all tone counts, all coefficient values", "why_tests_cant": "the loop is compiled without bounds checking, so an out-of-range index is silent; a finite test set cannot cover all (num_b, num_p, k)", "anchors": ["qmix/qtcurrent.py:calculate_phase_factor_coeff", "qmix/qtcurrent.py:_convolve_coefficients"]}
{"id": "C03", "title": "Compiled current loops stay inside their arrays", "statement": "When qtcurrent builds the response matrix itself, every array access of the compiled current loops is in range. When the caller passes a matrix built for at least as many Bessel terms the result is unchanged. A matrix built for fewer terms is accepted too: depending on the deficit the compiled loops then read outside the matrix or take the entries of other photon steps and return a wrong current.", "quantifier": "all tone counts, num_b of the call and of the supplied matrix, all voltages", "why_tests_cant": "numba does no bounds check, an overrun returns garbage instead of failing, so a test cannot observe it reliably", "anchors": ["qmix/qtcurrent.py:qtcurrent", "qmix/qtcurrent.py:interpolate_respfn", "qmix/qtcurrent.py:_current_coeff_1_tone", "qmix/qtcurrent.py:_current_coeff_2_tones", "qmix/qtcurrent.py:_current_coeff_3_tones", "qmix/qtcurrent.py:_current_coeff_4_tones"]}
{"id": "C04", "title": "No drive gives the unpumped I-V curve", "statement": "With all junction voltages zero, qtcurrent at frequency 0 returns exactly the DC I-V curve at the bias voltage, and returns zero at every requested frequency that does not round to 0.", "quantifier": "all tone counts, num_p, num_b, frequencies, bias sweeps and response functions", "why_tests_cant": "must hold for every tone count, truncation and coincidence of mixing products", "anchors": ["qmix/qtcurrent.py:qtcurrent"]}
{"id": "C05", "title": "Relabelling tones does not change any current", "statement": "Permuting the tones (frequencies, voltages and num_b entries together) leaves every returned current unchanged.", "quantifier": "all permutations of 2, 3 or 4 tones, all voltages, frequencies, truncations", "why_tests_cant": "all inputs and permutations; each unrolled loop could mix up one axis for one combination only", "anchors": ["qmix/qtcurrent.py:_current_2_tones", "qmix/qtcurrent.py:_current_3_tones", "qmix/qtcurrent.py:_current_4_tones", "qmix/qtcurrent.py:interpolate_respfn"]}
{"id": "C06", "title": "An idle tone is invisible", "statement": "Adding a tone with zero voltage (any frequency > 0, any num_b entry) to a 1-, 2- or 3-tone simulation leaves the current at every requested frequency unchanged. (False for three or more harmonics when the new num_b entry exceeds the others.)", "quantifier": "all simulations of 1-3 tones, any idle tone frequency, all requested frequencies", "why_tests_cant": "relates four independent implementations on all inputs, including accidental mixing-product matches", "anchors": ["qmix/qtcurrent.py:qtcurrent"]}
{"id": "C07", "title": "DC current is real, and negative frequencies give the conjugate", "statement": "The current returned at -w is the complex conjugate of that at w, and the current at frequency 0 has zero imaginary part, so the real-part conversion for a scalar request of 0 loses nothing, even when mixing products of several tones coincide at DC.", "quantifier": "all inputs of qtcurrent, all requested frequencies", "why_tests_cant": "depends on pairing of every coincident product, for every frequency combination", "anchors": ["qmix/qtcurrent.py:qtcurrent", "qmix/qtcurrent.py:_current_coeff_1_tone"]}
{"id": "C08", "title": "Time-shift covariance", "statement": "Multiplying voltage (f,p) by exp(i*p*theta_f) for all f,p multiplies the contribution of index vector a by exp(i*sum(a_f*theta_f)); so DC currents from the unmixed product are unchanged and a current at harmonic a of one tone only changes phase by a*theta.", "quantifier": "all phase shifts theta_f, all voltages, truncations and responses", "why_tests_cant": "a real-valued family of symmetries over all inputs", "anchors": ["qmix/qtcurrent.py:calculate_phase_factor_coeff", "qmix/qtcurrent.py:qtcurrent"]}
{"id": "C09", "title": "Reversing bias and drive reverses all currents", "statement": "For a junction whose DC curve is odd and whose Kramers-Kronig curve is even, qtcurrent with all bias and signal voltages negated returns the negated currents at every frequency.", "quantifier": "all symmetric response functions, voltages, truncations, tone counts", "why_tests_cant": "symmetry over all inputs and all truncations", "anchors": ["qmix/qtcurrent.py:qtcurrent"]}
{"id": "C10", "title": "Currents are linear in the response function", "statement": "qtcurrent with response function a*R1+b*R2 (real a,b) returns a times the current for R1 plus b times the current for R2.", "quantifier": "all response functions, real weights and inputs", "why_tests_cant": "quantifies over all pairs of functions", "anchors": ["qmix/qtcurrent.py:qtcurrent", "qmix/qtcurrent.py:interpolate_respfn"]}
{"id": "C11", "title": "Bias points are independent", "statement": "The current at one bias point depends only on the bias voltage and signal voltages at that point: any selection, reordering or splitting of the sweep selects, reorders or splits the result.", "quantifier": "all sweeps, all index maps between sweeps", "why_tests_cant": "all sweeps and all ways of splitting them", "anchors": ["qmix/qtcurrent.py:qtcurrent"]}
{"id": "C12", "title": "Frequency list, scalar request and row order agree", "statement": "Row r of the result depends only on entry r of the frequency list; the result for a list is the stack of results for its entries; a scalar request returns the same values as a one-element list (as real numbers when the frequency is exactly 0).", "quantifier": "all lists of requested frequencies and all other inputs", "why_tests_cant": "all list lengths and orders", "anchors": ["qmix/qtcurrent.py:qtcurrent"]}
{"id": "C13", "title": "Requests are resolved to 4 decimals only", "statement": "The result depends on the requested frequency only through its value rounded to 4 decimals. Hence two tones closer than the resolution are not separated: the current reported for one then contains that of the other.", "quantifier": "all requested frequencies and tone frequencies", "why_tests_cant": "needs all near-coincident frequencies", "anchors": ["qmix/qtcurrent.py:qtcurrent", "qmix/qtcurrent.py:ROUND_FREQ"]}
{"id": "C14", "title": "A precomputed response matrix can be reused", "statement": "A response matrix computed once from a circuit can be used for any number of later calls with other voltages and frequency lists (same bias sweep, frequencies and num_b): each call returns what it would return without the matrix.", "quantifier": "all histories of calls with changing voltages and requests", "why_tests_cant": "all call histories", "anchors": ["qmix/qtcurrent.py:qtcurrent", "qmix/qtcurrent.py:interpolate_respfn"]}
{"id": "C15", "title": "num_b forms agree", "statement": "An integer num_b and the tuple repeating it once per tone give the same result; a tuple with too few entries is rejected with AssertionError before any computation; entries beyond the number of tones are ignored when at most two harmonics are simulated or they do not exceed the used entries (in general they are not: they widen an intermediate truncation).", "quantifier": "all num_b values and tone counts", "why_tests_cant": "all tuples and tone counts", "anchors": ["qmix/qtcurrent.py:_unpack_num_b", "qmix/qtcurrent.py:calculate_phase_factor_coeff"]}
{"id": "C16", "title": "Response matrix holds the response at every photon-shifted voltage", "statement": "For 1 to 4 tones, the matrix entry addressed by (k,l,..) (negative indices counted from the end) is the response function at vb + k*f1 + l*f2 + ..; another tone count raises ValueError.", "quantifier": "all tone counts, num_b tuples, frequencies, sweeps", "why_tests_cant": "vectorised and looped variants must agree on all sizes", "anchors": ["qmix/qtcurrent.py:interpolate_respfn", "qmix/qtcurrent.py:_interpolate_respfn_1_tone", "qmix/qtcurrent.py:_interpolate_respfn_2_tone", "qmix/qtcurrent.py:_interpolate_respfn_3_tone", "qmix/qtcurrent.py:_interpolate_respfn_4_tone"]}
{"id": "C17", "title": "Tucker-theory helpers agree with qtcurrent", "statement": "For one tone and one harmonic driven at alpha*vph, qtcurrent at frequency 0 equals the pumped I-V curve helper used for experimental data, and qtcurrent at the tone frequency equals the AC-current helper minus the two explicit terms at the truncation edge.", "quantifier": "all response functions, alpha, photon voltages, num_b", "why_tests_cant": "equality of two implementations on all inputs", "anchors": ["qmix/exp/exp_data.py:_find_pumped_iv_curve", "qmix/exp/exp_data.py:_find_ac_current", "qmix/qtcurrent.py:qtcurrent"]}
{"id": "C18", "title": "Idle harmonics are invisible to one tone", "statement": "In a one-tone simulation, adding higher harmonics with zero voltage does not change the phase-factor coefficients, nor the current at any requested frequency that is a multiple of the tone up to the old num_p.", "quantifier": "all num_p and added harmonics, all inputs", "why_tests_cant": "all truncations and harmonics", "anchors": ["qmix/qtcurrent.py:calculate_phase_factor_coeff", "qmix/qtcurrent.py:_current_1_tone"]}
{"id": "C20", "title": "Constructor accepts exactly the documented arguments and builds consistent arrays", "statement": "EmbeddingCircuit succeeds exactly for an int num_f in 1..4, an int num_p>=1, an int vb_npts>=1, vb_max>=vb_min, and not (vgap given with rn=0, which raises ZeroDivisionError); then all arrays have matching shapes and keep them whatever is done with the circuit, all sources are zero, initialize_vj gives zeros of the matching shape, and fgap/vgap are consistent with vgap = fgap*h/e when only one is given.", "quantifier": "all argument values", "why_tests_cant": "all argument combinations", "anchors": ["qmix/circuit.py:EmbeddingCircuit.__init__", "qmix/circuit.py:EmbeddingCircuit.initialize_vj"]}
{"id": "C21", "title": "Available power round-trips in every unit", "statement": "After set_available_power(P, f, p, units) on a signal with positive source resistance, available_power(f, p, units) returns P (P>=0, or any P in dBm/dBW), and the value read in another unit is the unit conversion of P. Unit names are case-insensitive; unknown ones raise ValueError.", "quantifier": "all powers, units, circuits, signals", "why_tests_cant": "all real powers and impedances", "anchors": ["qmix/circuit.py:EmbeddingCircuit.set_available_power", "qmix/circuit.py:EmbeddingCircuit.available_power"]}
{"id": "C22", "title": "Setters touch one entry, failed setters touch nothing", "statement": "set_freq, set_available_power, set_alpha and set_name change exactly the addressed entry; if they raise, the circuit is as before.", "quantifier": "all circuits, indices (including negative and out of range) and arguments", "why_tests_cant": "all states and arguments", "anchors": ["qmix/circuit.py:EmbeddingCircuit.set_freq", "qmix/circuit.py:EmbeddingCircuit.set_available_power", "qmix/circuit.py:EmbeddingCircuit.set_alpha", "qmix/circuit.py:EmbeddingCircuit.set_name"]}
{"id": "C23", "title": "set_freq units agree", "statement": "Setting the frequency in Hz, MHz, GHz, THz, V, mV or norm gives the same normalised frequency for equivalent values; normalised values are accepted for any circuit.", "quantifier": "all values, units, circuits", "why_tests_cant": "all values and circuits, including those without a gap", "anchors": ["qmix/circuit.py:EmbeddingCircuit.set_freq"]}
{"id": "C24", "title": "Gap current is set whenever it is determined", "statement": "A circuit created with a normal resistance and a gap (given as voltage or as frequency) has igap = vgap/rn.", "quantifier": "all constructor arguments", "why_tests_cant": "all argument combinations", "anchors": ["qmix/circuit.py:EmbeddingCircuit.__init__"]}
{"id": "C25", "title": "A locked circuit does not change until unlocked", "statement": "Between lock() and the next unlock(), no sequence of setters or element writes changes freq, vt, zt or vb; each such attempt raises; after unlock they behave as if never locked.", "quantifier": "all histories of operations", "why_tests_cant": "all operation sequences", "anchors": ["qmix/circuit.py:EmbeddingCircuit.lock", "qmix/circuit.py:EmbeddingCircuit.unlock"]}
{"id": "C26", "title": "save_info / read_circuit round trip", "statement": "Reading a file written by save_info gives a circuit with the same number of tones and harmonics, frequencies and Thevenin voltages equal to the saved ones rounded to 4 decimals (undefined voltages stay undefined), impedances rounded to 2 decimals; saving and reading again changes nothing more. A file whose last newline was cut off is read alike.", "quantifier": "all circuits (any num_p, any values of either sign and any magnitude)", "why_tests_cant": "all values and sizes; a text codec", "anchors": ["qmix/circuit.py:EmbeddingCircuit.save_info", "qmix/circuit.py:read_circuit"]}
{"id": "C27", "title": "Bias sweep spans the requested range", "statement": "The bias voltages start at vb_min, end at vb_max (two or more points), are equally spaced and non-decreasing.", "quantifier": "all ranges and sizes", "why_tests_cant": "all sizes", "anchors": ["qmix/circuit.py:EmbeddingCircuit.__init__"]}
{"id": "C28", "title": "set_alpha yields the requested drive through the voltage divider", "statement": "After set_alpha(alpha,f,p,zj), a junction of impedance zj sees an AC voltage whose drive level (|vj| over the photon voltage of that signal) is alpha.", "quantifier": "all alpha, harmonics, impedances", "why_tests_cant": "all harmonics and impedances", "anchors": ["qmix/circuit.py:EmbeddingCircuit.set_alpha", "qmix/qtcurrent.py:calculate_phase_factor_coeff"]}
{"id": "C29", "title": "vph alias", "statement": "The backwards-compatible attribute vph returns the normalised frequencies.", "quantifier": "all circuits", "why_tests_cant": "must hold for all circuits", "anchors": ["qmix/circuit.py:EmbeddingCircuit.vph"]}
{"id": "C31", "title": "Reported convergence means balance", "statement": "If harmonic_balance stops because of the error target, then at every bias point and signal |vt - zt*I(vj) - vj| <= stop_rerror*|vj| for the returned voltages, with I the tunnelling current of exactly those voltages.", "quantifier": "all circuits, responses, initial guesses, iteration counts, targets", "why_tests_cant": "all iteration histories", "anchors": ["qmix/harmonic_balance.py:harmonic_balance"]}
{"id": "C32", "title": "Iteration bound and flag", "statement": "harmonic_balance applies at most max_it corrections; in mode x the iteration count is the number of corrections applied and the flag is True only if the target was met; it is True whenever the target was met.", "quantifier": "all runs, max_it, targets", "why_tests_cant": "all iteration histories including convergence on the last one", "anchors": ["qmix/harmonic_balance.py:harmonic_balance"]}
{"id": "C33", "title": "Undefined errors are never taken for convergence", "statement": "If any relative error is not a number, harmonic_balance does not report convergence.", "quantifier": "all runs including those meeting NaN at any signal", "why_tests_cant": "NaN position and order over all signals", "anchors": ["qmix/harmonic_balance.py:harmonic_balance"]}
{"id": "C34", "title": "Return type follows mode", "statement": "mode o returns the voltages, x a triple and m a pair, for every circuit.", "quantifier": "all circuits and modes", "why_tests_cant": "all circuits including those with no impedance", "anchors": ["qmix/harmonic_balance.py:harmonic_balance"]}
{"id": "C35", "title": "harmonic_balance does not modify its inputs", "statement": "The circuit and the initial guess passed by the caller are unchanged by a run.", "quantifier": "all circuits, guesses and runs", "why_tests_cant": "aliasing depends on sizes and values", "anchors": ["qmix/harmonic_balance.py:harmonic_balance"]}
{"id": "C36", "title": "Locked circuits can be simulated", "statement": "Locking a circuit does not affect harmonic_balance.", "quantifier": "all locked circuits", "why_tests_cant": "all circuits", "anchors": ["qmix/harmonic_balance.py:harmonic_balance", "qmix/circuit.py:EmbeddingCircuit.lock"]}
{"id": "C37", "title": "Newton correction is exact on linear junctions", "statement": "If the junction current is a (real-)affine function of the voltages, one undamped iteration solves the balance equations exactly; with damping d the residual shrinks by exactly (1-d) per iteration.", "quantifier": "all affine junctions, impedances, sources, numbers of signals and points", "why_tests_cant": "all linear systems of any size", "anchors": ["qmix/harmonic_balance.py:_inv_jacobian", "qmix/harmonic_balance.py:harmonic_balance"]}
{"id": "C38", "title": "Signals are paired with their own current", "statement": "The residual for signal (f,p) uses the current at p*freq[f], its own vt and zt; flattening to a signal index and back is a bijection.", "quantifier": "all num_f, num_p", "why_tests_cant": "all sizes", "anchors": ["qmix/harmonic_balance.py:_qt_current_for_hb", "qmix/harmonic_balance.py:_k_to_fp", "qmix/harmonic_balance.py:_qtcurrent_all_freq"]}
{"id": "C39", "title": "check_hb_error accepts converged solutions", "statement": "check_hb_error with the same target accepts what harmonic_balance reported converged, and rejects any vector with a larger error.", "quantifier": "all circuits and voltages", "why_tests_cant": "all runs and targets", "anchors": ["qmix/harmonic_balance.py:check_hb_error"]}
{"id": "C40", "title": "Convergence mask is sound", "statement": "In mode m, every bias point marked True satisfies the error target at every signal with the returned voltages.", "quantifier": "all runs", "why_tests_cant": "all iteration histories", "anchors": ["qmix/harmonic_balance.py:harmonic_balance"]}
{"id": "C41", "title": "A signal without impedance keeps its source voltage", "statement": "For a signal with zero embedding impedance, the solution voltage equals the source voltage at convergence with target 0, and with all impedances zero the source voltages are returned at every bias point.", "quantifier": "all circuits", "why_tests_cant": "all circuits", "anchors": ["qmix/harmonic_balance.py:harmonic_balance"]}
{"id": "C43", "title": "Reflected I-V data is odd", "statement": "RespFn extends data measured for V>=0 to negative V as an odd curve on a symmetric, strictly increasing grid with 2n-1 points.", "quantifier": "all data lengths and values", "why_tests_cant": "all arrays", "anchors": ["qmix/respfn.py:RespFn.__init__"]}
{"id": "C44", "title": "Spline nodes are valid", "statement": "The sample indices chosen for the splines are strictly increasing and inside the data, include both ends and the centre, and leave no voltage gap of more than 1 plus one data step below vmax. The nodes follow the curvature: the points strictly between two neighbouring nodes carry at most one part in max_npts of the smoothed absolute second derivative of the whole table. A spline that goes through its nodes gives idc and ikk the values of their own tables at both ends and near 0 and the gap.", "quantifier": "all I-V data long enough, all smoothing results", "why_tests_cant": "all curves", "anchors": ["qmix/respfn.py:_sample_curve"]}
{"id": "C45", "title": "RespFn accepts any I-V data meeting its documented preconditions", "statement": "Data starting at 0 V and ending above 5 V (possibly with fewer points in linear regions) yields a response function.", "quantifier": "all data", "why_tests_cant": "all data grids", "anchors": ["qmix/respfn.py:RespFn.__init__", "qmix/respfn.py:_sample_curve", "qmix/mathfn/kktrans.py:kk_trans"]}
{"id": "C46", "title": "resp, resp_conj, resp_swap are consistent", "statement": "resp = ikk + i*idc; resp_conj is its conjugate; resp_swap is i times the conjugate; calling the object is resp.", "quantifier": "all voltages and response functions", "why_tests_cant": "all functions", "anchors": ["qmix/respfn.py:RespFn.resp", "qmix/respfn.py:RespFn.resp_conj", "qmix/respfn.py:RespFn.resp_swap"]}
{"id": "C47", "title": "Imported I-V data is resampled faithfully", "statement": "RespFnFromIVData interpolates the masked data linearly, continues it with unit slope above the last used point, and gives zero current at zero bias.", "quantifier": "all sorted data", "why_tests_cant": "all data sets", "anchors": ["qmix/respfn.py:RespFnFromIVData.__init__"]}
{"id": "C48", "title": "Gaussian smoothing preserves length, constants, bounds and symmetry", "statement": "gauss_conv returns as many points as it got, keeps constants, never exceeds the data range, is linear, and commutes with reversing the data.", "quantifier": "all data, sigma and window extents accepted", "why_tests_cant": "all lengths, window sizes", "anchors": ["qmix/mathfn/filters.py:gauss_conv", "qmix/mathfn/filters.py:_gauss"]}
{"id": "C50", "title": "Kramers-Kronig transform: linear, zero for a resistor, even for an odd curve", "statement": "kk_trans of i=v is 0; it is affine-linear in the current; for an odd I-V curve on a symmetric grid the result is even; it has as many points as the input.", "quantifier": "all grids, currents, padding factors", "why_tests_cant": "all data", "anchors": ["qmix/mathfn/kktrans.py:kk_trans"]}
{"id": "C51", "title": "KK transforms reject uneven grids", "statement": "kk_trans and kk_trans_trapz raise AssertionError unless every voltage step is within 1e-5 of the first.", "quantifier": "all grids", "why_tests_cant": "all grids", "anchors": ["qmix/mathfn/kktrans.py:kk_trans", "qmix/mathfn/kktrans.py:kk_trans_trapz"]}
{"id": "C52", "title": "Numerical derivatives are exact on straight lines", "statement": "slope and slope_span_n return exactly a at every point of y=a*x+b (for all valid sizes); with nozeros no returned value is 0.", "quantifier": "all lines, grids, spans", "why_tests_cant": "all sizes", "anchors": ["qmix/mathfn/misc.py:slope", "qmix/mathfn/misc.py:slope_span_n"]}
{"id": "C53", "title": "slope_span_n is a centred difference", "statement": "Away from the ends slope_span_n(n) is the centred difference over n points, for every odd n>=1.", "quantifier": "all odd n, data", "why_tests_cant": "all n", "anchors": ["qmix/mathfn/misc.py:slope_span_n"]}
{"id": "C54", "title": "All I-V curve models are odd and pass through the origin", "statement": "perfect, polynomial, exponential (both models) and expanded are odd functions with zero current at zero voltage; unknown exponential models raise ValueError.", "quantifier": "all voltages and parameters", "why_tests_cant": "all parameters", "anchors": ["qmix/mathfn/ivcurve_models.py:perfect", "qmix/mathfn/ivcurve_models.py:polynomial", "qmix/mathfn/ivcurve_models.py:exponential", "qmix/mathfn/ivcurve_models.py:expanded"]}
{"id": "C55", "title": "Ideal model values", "statement": "perfect gives 0 below the gap, 1/2 of the voltage at the gap, and the voltage above; scalar and array calls agree for every numeric input; perfect_kk is even and equals max_kk at the gap.", "quantifier": "all voltages, scalars and arrays", "why_tests_cant": "all inputs", "anchors": ["qmix/mathfn/ivcurve_models.py:perfect", "qmix/mathfn/ivcurve_models.py:perfect_kk"]}
{"id": "C56", "title": "Polynomial model bounds", "statement": "The polynomial model lies between 0 and the voltage for V>=0, is increasing, equals 1/2 at the gap, and is finite on the whole simulation range.", "quantifier": "all orders, voltages", "why_tests_cant": "all orders", "anchors": ["qmix/mathfn/ivcurve_models.py:polynomial", "qmix/respfn.py:RespFnPolynomial"]}
{"id": "C57", "title": "Exponential model subgap resistance", "statement": "As the gap sharpness grows, the fixed exponential model tends to V*rn/rsg below the gap and to V above it; the original model tends to twice that below the gap.", "quantifier": "all parameters and voltages", "why_tests_cant": "limit statement", "anchors": ["qmix/mathfn/ivcurve_models.py:exponential"]}
{"id": "C58", "title": "Parameter precedence", "statement": "User keyword arguments override subclass defaults, which override base defaults; every default is present; the caller dictionary is unchanged.", "quantifier": "all keyword dictionaries", "why_tests_cant": "all dictionaries", "anchors": ["qmix/respfn.py:_default_params"]}
{"id": "C60", "title": "Cleaned data is NaN-free and strictly increasing", "statement": "clean_xy returns x values without NaN in strictly increasing order; every returned pair is an input pair; every distinct non-NaN x with its pair is represented; cleaning again changes nothing.", "quantifier": "all x-y data incl. NaN and infinities, every sorting order chosen for ties", "why_tests_cant": "all data and tie orders", "anchors": ["qmix/exp/clean_data.py:clean_xy"]}
{"id": "C61", "title": "Matrix and x-y cleaning agree", "statement": "clean_matrix on the two-column matrix gives the same result as clean_xy.", "quantifier": "all data", "why_tests_cant": "all data", "anchors": ["qmix/exp/clean_data.py:clean_matrix", "qmix/exp/clean_data.py:clean_xy"]}
{"id": "C62", "title": "Cleaning succeeds on all data", "statement": "clean_xy returns for any data containing numbers.", "quantifier": "all data", "why_tests_cant": "all sizes", "anchors": ["qmix/exp/clean_data.py:remove_doubles_xy"]}
{"id": "C64", "title": "One pass of a hysteresis sweep", "statement": "_load_iv keeps only pairs that were measured; for a sweep zero->max->min->zero it keeps both extremes; the loaded voltages are strictly increasing.", "quantifier": "all sweeps", "why_tests_cant": "all sweep shapes", "anchors": ["qmix/exp/iv_data.py:_load_iv", "qmix/exp/iv_data.py:_take_one_pass"]}
{"id": "C66", "title": "Series resistance correction", "statement": "With a series resistance, the corrected voltage of a sample is v - i*Rs whenever v/i >= 0; no corrected voltage is undefined.", "quantifier": "all samples incl. zero currents", "why_tests_cant": "all data", "anchors": ["qmix/exp/iv_data.py:_correct_series_resistance"]}
{"id": "C68", "title": "Given offsets are used", "statement": "If the user supplies voffset and ioffset, exactly these are removed from the DC data and from the pumped data.", "quantifier": "all data and offsets, any optimiser result", "why_tests_cant": "all optimiser outcomes", "anchors": ["qmix/exp/iv_data.py:_correct_offset", "qmix/exp/iv_data.py:iv_curve"]}
{"id": "C70", "title": "Rotation is invertible", "statement": "Rotating I-V data and rotating back returns the data; rotation keeps distances.", "quantifier": "all data, angles", "why_tests_cant": "all data", "anchors": ["qmix/exp/iv_data.py:_rotate"]}
{"id": "C71", "title": "Normal resistance and gap fits recover exact lines", "statement": "For data exactly on a line in the fit window the fitted slope and intercept are those of the line, so the normal resistance is recovered exactly; the gap corner is on both fitted lines.", "quantifier": "all lines, windows, samples", "why_tests_cant": "all data", "anchors": ["qmix/exp/iv_data.py:_find_normal_resistance", "qmix/exp/iv_data.py:_find_gap_voltage"]}
{"id": "C73", "title": "Y-factor analysis recovers noise temperature and gain", "statement": "If the hot and cold powers are G*(T+Tn) at the Callen-Welton load temperatures, the reported noise temperature is Tn and the gain is G, for noise temperatures up to 1e10 times the difference of the load temperatures; whole measurements with hot and cold powers in that ratio give Tn wherever there is cold power.", "quantifier": "all gains, noise temperatures, loads; all files, row orders, smoothing and calibration parameters", "why_tests_cant": "all values", "anchors": ["qmix/exp/if_data.py:_find_tn_gain"]}
{"id": "C74", "title": "Noise temperature does not depend on power units", "statement": "Scaling all IF powers by a positive factor leaves noise temperature unchanged and scales gain.", "quantifier": "all data, factors", "why_tests_cant": "all data", "anchors": ["qmix/exp/if_data.py:_find_tn_gain", "qmix/exp/if_data.py:if_data", "qmix/exp/if_data.py:_load_if"]}
{"id": "C75", "title": "Best bias selection", "statement": "The selected index has the largest gain / smallest noise temperature / bias closest to the requested one (which takes precedence); other selectors fail with ValueError if no bias is requested.", "quantifier": "all data", "why_tests_cant": "all data", "anchors": ["qmix/exp/if_data.py:_find_tn_gain"]}
{"id": "C76", "title": "Callen-Welton temperature", "statement": "The load temperature used is at least the physical temperature and at least h*f/2k, and increases with the physical temperature.", "quantifier": "all frequencies, temperatures", "why_tests_cant": "all reals", "anchors": ["qmix/exp/if_data.py:_temp_cw"]}
{"id": "C78", "title": "IF response noise temperatures are clamped", "statement": "if_response returns noise temperatures between 0 and the configured maximum for all spectra, with frequencies unchanged, in either orientation of the input.", "quantifier": "all spectra", "why_tests_cant": "all data", "anchors": ["qmix/exp/if_response.py:if_response"]}
{"id": "C80", "title": "Impedance-recovery error is a least-squares residual", "statement": "The error function is the minimum over source voltages of the mean squared mismatch between junction voltage magnitudes and those of the embedding circuit; it is never negative; it is zero for data produced by that circuit, and the source voltage is then recovered exactly.", "quantifier": "all data, impedances", "why_tests_cant": "all data", "anchors": ["qmix/exp/exp_data.py:_error_function", "qmix/exp/exp_data.py:_find_source_voltage"]}
{"id": "C81", "title": "Recovered impedance is the best on the grid", "statement": "Without a forced value the recovered embedding impedance has the least mismatch of all grid points with any source voltage, and the fit flag tells whether the mismatch of the returned circuit is at most 7e-7.", "quantifier": "all measured curves, response functions and parameters; the refutations say when it fails (forced impedance; a sample on the step at or below the unpumped curve)", "why_tests_cant": "all data", "anchors": ["qmix/exp/exp_data.py:PumpedData._recover_zemb"]}
{"id": "C83", "title": "Drive-level search", "statement": "The returned drive levels are never negative; if the pumped current increases with drive level and the first guess is within alpha_max/2 of the solution, the result is within alpha_max/2^16 of it; a drive level further than alpha_max/2 from the first guess is never returned.", "quantifier": "all curves, Bessel functions, currents and sample counts", "why_tests_cant": "all functions", "anchors": ["qmix/exp/exp_data.py:_find_alpha"]}
{"id": "C84", "title": "Fit-range options", "statement": "fit_range=None falls back to the cut_low/cut_high options (interval from cut_low to 1-cut_high of the photon step), to the default range if these are missing; only samples in the interval influence the result.", "quantifier": "all option combinations and data", "why_tests_cant": "all combinations", "anchors": ["qmix/exp/exp_data.py:PumpedData._recover_zemb"]}
{"id": "C85", "title": "Analysis defaults never change", "statement": "Creating any sequence of data objects with keyword overrides and editing their options leaves the package defaults unchanged, so each object uses its own overrides and otherwise the defaults; pumped data without frequency are rejected.", "quantifier": "all sequences of constructions and edits", "why_tests_cant": "all histories", "anchors": ["qmix/exp/exp_data.py:DCData.__init__", "qmix/exp/exp_data.py:PumpedData.__init__", "qmix/exp/parameters.py:params"]}
{"id": "C86", "title": "Terminal output widths", "statement": "A title line has exactly the requested width when the text fits and is centred; a progress bar has constant width, fills in proportion to the progress and ends the line exactly at completion.", "quantifier": "all strings, widths, counts", "why_tests_cant": "all strings", "anchors": ["qmix/misc/terminal.py:title", "qmix/misc/progbar.py:progress_bar"]}
{"id": "C87", "title": "Doubles can be removed from any sorted column", "statement": "A matrix sorted by a column with sort_matrix is accepted by remove_doubles_matrix for that column, which leaves the column strictly increasing.", "quantifier": "all matrices and columns", "why_tests_cant": "all data", "anchors": ["qmix/exp/clean_data.py:remove_doubles_matrix", "qmix/exp/clean_data.py:sort_matrix"]}
{"id": "C88", "title": "Default parameters of the response functions are the documented ones", "statement": "Every keyword argument that is not given has the value that the docstring of the class states.", "quantifier": "all response function classes and keyword arguments", "why_tests_cant": "the code and the docstrings must agree for every class and key", "anchors": ["qmix/respfn.py:_default_params", "qmix/respfn.py:RespFnFromIVData", "qmix/respfn.py:RespFnExponential"]}
{"id": "C89", "title": "check_error bounds the interpolation error", "statement": "If check_error is set and a response function is returned, the interpolated I-V curve and its Kramers-Kronig transform differ from the data by less than max_interp_error at every data point between -34 and 34.", "quantifier": "all I-V data, parameters and interpolation methods", "why_tests_cant": "all curves and interpolations", "anchors": ["qmix/respfn.py:_setup_interpolation"]}
{"id": "C90", "title": "Slopes are available for every response function", "statement": "didc and dikk return a value for every response function object and voltage. They are the derivatives of idc and ikk.", "quantifier": "all classes, parameters and voltages", "why_tests_cant": "all classes and parameters", "anchors": ["qmix/respfn.py:RespFn.didc", "qmix/respfn.py:RespFn.dikk", "qmix/respfn.py:RespFnPerfect.__init__"]}
{"id": "C91", "title": "RespFnPerfect is the ideal curve, smeared once", "statement": "RespFnPerfect gives the ideal I-V curve, and with v_smear the ideal curve convolved with a Gaussian of this standard deviation, i.e. what RespFn gives for the ideal curve and this v_smear.", "quantifier": "all v_smear", "why_tests_cant": "all real v_smear", "anchors": ["qmix/respfn.py:RespFnPerfect.__init__"]}
{"id": "C92", "title": "Imported I-V curves and their metadata agree", "statement": "The gap current times the normal resistance is the gap voltage, the gap frequency is e vgap / h, and the normalised curve consists of npts voltages from -vmax to vmax in units of the gap voltage with the measured current (offset removed, filtered if asked for, at the voltage across the junction without the series resistance) interpolated at these voltages; the pumped curve is zero beyond the measured range.", "quantifier": "all I-V data, filters and parameters (for the interpolated currents: positive gap voltage, voltages that increase after the corrections)", "why_tests_cant": "all measurements and parameters", "anchors": ["qmix/exp/iv_data.py:dciv_curve", "qmix/exp/iv_data.py:iv_curve"]}
{"id": "C93", "title": "Filtering keeps straight I-V curves", "statement": "Filtering a straight I-V curve returns points on the same line, evenly spaced between the same end points.", "quantifier": "all lines, samples up to a positive voltage, filters that keep straight data, and angles for which the rotated curve is a function", "why_tests_cant": "all data and angles", "anchors": ["qmix/exp/iv_data.py:_filter_iv_data"]}
{"id": "C94", "title": "Noise temperatures are bounded or undefined", "statement": "Every reported noise temperature lies above minus the cold load temperature and below 1e10 times the difference of the load temperatures, except that it is NaN exactly where the cold power is zero and the hot power is not negative; the gain is the difference of the powers over the difference of the load temperatures.", "quantifier": "all hot and cold measurements", "why_tests_cant": "all data", "anchors": ["qmix/exp/if_data.py:if_data", "qmix/exp/if_data.py:_find_tn_gain"]}
{"id": "C95", "title": "Shot-noise calibration", "statement": "With given voltage ranges, the powers are scaled so that the least-squares line through the samples in these ranges (or above 2 vgap if there are fewer than five) rises by 5.8 K per millivolt; the IF noise is the value of that line where the normal-state line meets zero current, and the fit counts as good exactly if it is between 0 and 50; the largest voltage reported with the calibration is vmax.", "quantifier": "all measurements and ranges", "why_tests_cant": "all data", "anchors": ["qmix/exp/if_data.py:_find_if_noise", "qmix/exp/if_data.py:dcif_data"]}
{"id": "C96", "title": "Loaded IF powers", "statement": "IF data are resampled at npts voltages from 0 to vmax by joining the measured powers with straight lines, zero outside the measured range, at the voltages across the junction (offset removed, and the voltage across a series resistance, which is found from the DC curve); smoothing never leaves the measured range extended to zero.", "quantifier": "all files, sorting algorithms and parameters with a positive gap voltage", "why_tests_cant": "all data", "anchors": ["qmix/exp/if_data.py:_load_if"]}
{"id": "C97", "title": "IF response recovers the noise temperature", "statement": "Spectra in dB of powers G*(T+Tn) give Tn (between 0 and the maximum), a common gain in dB does not matter, and without more hot than cold power the maximum is reported.", "quantifier": "all gains, noise temperatures, temperatures and frequencies", "why_tests_cant": "all reals", "anchors": ["qmix/exp/if_response.py:if_response"]}
{"id": "C98", "title": "Summary of a DC measurement", "statement": "The quality factor is the ratio of subgap and normal resistance, the resistance-area product is in ohm times square metre for an area in square micrometres, the current density times it is the gap voltage, and the leakage current is the measured current at the given voltage (joined by straight lines).", "quantifier": "all measurements, areas, voltages", "why_tests_cant": "all data", "anchors": ["qmix/exp/exp_data.py:DCData.__init__"]}
{"id": "C99", "title": "Values at the best bias", "statement": "The summary values of pumped data are the noise temperature, gain, gain in dB and voltage at the selected index, and the IF impedance is the normal resistance over the slope of the least-squares line through ten samples of the pumped curve starting at the nearest one.", "quantifier": "all measurements", "why_tests_cant": "all data", "anchors": ["qmix/exp/exp_data.py:PumpedData.__init__"]}
{"id": "C100", "title": "Printed numbers denote the values", "statement": "Reading back the text printed for a real or complex number gives its value rounded to the printed number of decimals. The line also holds the name, the unit and the comment.", "quantifier": "all numbers", "why_tests_cant": "all reals", "anchors": ["qmix/misc/terminal.py:pvalf", "qmix/misc/terminal.py:printc"]}
{"id": "C101", "title": "Recovered junction values", "statement": "The reported drive level and junction impedance are those of the sample nearest to the middle of the photon step.", "quantifier": "all curves, parameters", "why_tests_cant": "all data", "anchors": ["qmix/exp/exp_data.py:PumpedData._recover_zemb"]}
{"id": "C102", "title": "Coloured output keeps the text", "statement": "Coloured output contains the text unchanged between the code of the requested colour (in any letter case) and the reset code; unknown colours print the text after a message.", "quantifier": "all texts and colour names", "why_tests_cant": "all strings", "anchors": ["qmix/misc/terminal.py:cprint"]}
{"id": "C103", "title": "Currents are bounded by the response function", "statement": "Without harmonics, the simulated DC current is at most the largest DC current found on the unpumped curve at the bias shifted by the photons kept, times the probability captured by the truncation, hence never above that current; a lone AC mixing product is at most twice the largest magnitude of the response function there.", "quantifier": "all junction voltages, one to four tones, frequencies whose mixing products do not coincide with the requested one, response functions, truncations, bias points", "why_tests_cant": "the Bessel sums are infinite and the inputs continuous; tests sample a few voltages", "anchors": ["qmix/qtcurrent.py:qtcurrent"]}
{"id": "C104", "title": "Truncation error of the DC current", "statement": "Raising the truncation changes the simulated DC current by at most the missed probability times the bound of the unpumped current; the missed probability falls like 1/(b!(b+1)!); for one tone and any unpumped curve that grows at most linearly the results converge as the truncation grows.", "quantifier": "all voltages, tones, truncations, response functions", "why_tests_cant": "the Bessel sums are infinite and the inputs continuous; tests sample a few voltages", "anchors": ["qmix/qtcurrent.py:qtcurrent", "qmix/qtcurrent.py:calculate_phase_factor_coeff"]}
{"id": "C105", "title": "Power balance of a pumped junction", "statement": "Bias power plus pump power absorbed by the junction, computed from the DC and AC currents, equals the mean of voltage times unpumped current over the photon-shifted voltages, so a passive unpumped curve never gives net emission; exact for the experimental-data helpers, and for simulated currents up to explicit terms at the edge of the truncation.", "quantifier": "all drive levels, frequencies, truncations, response functions, bias voltages (one tone)", "why_tests_cant": "the Bessel sums are infinite and the inputs continuous; tests sample a few voltages", "anchors": ["qmix/qtcurrent.py:qtcurrent", "qmix/exp/exp_data.py:_find_pumped_iv_curve", "qmix/exp/exp_data.py:_find_ac_current"]}
{"id": "C106", "title": "A resistor obeys Ohm's law", "statement": "For a junction that is a resistor, the simulated DC current converges to conductance times bias and the AC current at the pump frequency to conductance times pump voltage, with no reactive part at any truncation.", "quantifier": "all conductances, drive levels, frequencies, bias voltages (one tone)", "why_tests_cant": "the Bessel sums are infinite and the inputs continuous; tests sample a few voltages", "anchors": ["qmix/qtcurrent.py:qtcurrent"]}
{"id": "C107", "title": "Defaults are the documented ones", "statement": "Every default that DCData and PumpedData use for loading and analysis is the value the documentation of qmix.exp.parameters lists.", "quantifier": "all parameters; for the consequences, a measured file", "why_tests_cant": "tests pass the parameters that matter explicitly and would not notice a wrong default", "anchors": ["qmix/exp/parameters.py:params"]}
{"id": "C108", "title": "Photon voltage", "statement": "The photon voltage reported by PumpedData, in volts, times the elementary charge is Planck's constant times the LO frequency in hertz; without a frequency the constructor raises ValueError.", "quantifier": "all measured files, parameters and frequencies for which the objects can be made", "why_tests_cant": "inputs are arbitrary measured files and continuous parameters; tests use a few recorded files", "anchors": ["qmix/exp/exp_data.py:PumpedData", "qmix/exp/exp_data.py:DCData"]}
{"id": "C109", "title": "Common bias grid", "statement": "If DCData and PumpedData are made with the same vmax and npts, their normalised bias voltages are the same list and their currents have npts values.", "quantifier": "all measured files and parameters", "why_tests_cant": "inputs are arbitrary measured files and continuous parameters; tests use a few recorded files", "anchors": ["qmix/exp/exp_data.py:PumpedData", "qmix/exp/exp_data.py:DCData"]}
{"id": "C110", "title": "What PumpedData analyses", "statement": "The embedding circuit is recovered exactly if analyze_iv is set; IF data are analysed exactly if both files are given and analyze_if is set, and then with the calibration of the DC IF data whenever there is one.", "quantifier": "all measured files and parameters", "why_tests_cant": "inputs are arbitrary measured files and continuous parameters; tests use a few recorded files", "anchors": ["qmix/exp/exp_data.py:PumpedData"]}
{"id": "C111", "title": "Attributes of PumpedData", "statement": "A PumpedData object has the same result attributes whether or not the I-V and IF data are analysed (None where there is no result).", "quantifier": "all combinations of the two switches", "why_tests_cant": "the branch without analysis is marked as not covered by the tests", "anchors": ["qmix/exp/exp_data.py:PumpedData"]}
{"id": "C112", "title": "Units do not matter", "statement": "A measurement whose voltages and currents are expressed in other units, with v_fmt and i_fmt set accordingly, gives the same DCData and the same PumpedData (or the same error).", "quantifier": "all measured files (NaN and infinite values included), units and other parameters", "why_tests_cant": "inputs are arbitrary measured files and continuous parameters; tests use a few recorded files", "anchors": ["qmix/exp/exp_data.py:PumpedData", "qmix/exp/exp_data.py:DCData", "qmix/exp/iv_data.py:dciv_curve", "qmix/exp/if_data.py:if_data"]}
{"id": "C113", "title": "Sweep direction does not matter", "statement": "A file that contains one monotonic sweep gives the same DCData and PumpedData if its rows are in the opposite order.", "quantifier": "all monotonic sweeps, other files and parameters", "why_tests_cant": "inputs are arbitrary measured files and continuous parameters; tests use a few recorded files", "anchors": ["qmix/exp/exp_data.py:PumpedData", "qmix/exp/exp_data.py:DCData", "qmix/exp/iv_data.py:iv_curve"]}
{"id": "C114", "title": "Row order of IF data does not matter", "statement": "If no voltage occurs twice, IF files give the same DCData and PumpedData whatever the order of their rows.", "quantifier": "all IF files and permutations, NaN rows included", "why_tests_cant": "inputs are arbitrary measured files and continuous parameters; tests use a few recorded files", "anchors": ["qmix/exp/exp_data.py:PumpedData", "qmix/exp/exp_data.py:DCData", "qmix/exp/if_data.py:if_data"]}
{"id": "C115", "title": "The response function reproduces the measured curve", "statement": "At every point of its grid the response function of DCData has the measured DC current, by straight lines between samples.", "quantifier": "all measured files and parameters; all grid points within the measured range", "why_tests_cant": "inputs are arbitrary measured files and continuous parameters; tests use a few recorded files", "anchors": ["qmix/exp/exp_data.py:DCData", "qmix/respfn.py:RespFnFromIVData"]}
{"id": "C116", "title": "Simulated currents converge", "statement": "As the number of Bessel functions of every tone grows, the currents returned by qtcurrent converge, at every bias point and frequency, to one limit and faster than any geometric sequence, whatever the combination of truncations.", "quantifier": "all circuits with one to four tones and any number of harmonics, all voltages, all response functions of at most exponential growth, all truncations", "why_tests_cant": "a limit over all truncations; a test compares a few truncations to a tolerance", "anchors": ["qmix/qtcurrent.py:qtcurrent", "qmix/qtcurrent.py:calculate_phase_factor_coeff", "qmix/qtcurrent.py:_convolve_coefficients"]}
{"id": "C117", "title": "Coefficients are those of the phase factor", "statement": "The coefficients returned by calculate_phase_factor_coeff are the Fourier coefficients of exp(j phase), where the time derivative of the phase is the voltage of the tone with all its harmonics: their series converges to exp(j phase) at every time, and their squares add up to one in the limit.", "quantifier": "all numbers of tones, harmonics and truncations, all voltages, all times", "why_tests_cant": "a limit over all truncations; a test compares a few truncations to a tolerance", "anchors": ["qmix/qtcurrent.py:calculate_phase_factor_coeff", "qmix/qtcurrent.py:_convolve_coefficients"]}
{"id": "C118", "title": "Ohm's law at every frequency", "statement": "For a resistor, the current returned by qtcurrent tends to conductance times voltage at DC and at every harmonic of every tone, and to zero at mixing products of several tones.", "quantifier": "all circuits with one to four tones and any number of harmonics, all voltages (complex), all conductances, all truncations", "why_tests_cant": "a limit over all truncations; a test compares a few truncations to a tolerance", "anchors": ["qmix/qtcurrent.py:qtcurrent", "qmix/qtcurrent.py:calculate_phase_factor_coeff"]}
{"id": "C119", "title": "Power balance", "statement": "The power that the bias and all harmonics of all tones deliver (from the currents returned by qtcurrent) tends to the mean of voltage times current over the photon numbers; it is not negative in the limit if the DC I-V curve is that of a passive junction.", "quantifier": "all circuits with one to four tones and any number of harmonics without coinciding products, all voltages, all response functions of at most exponential growth, all truncations", "why_tests_cant": "a limit over all truncations; a test compares a few truncations to a tolerance", "anchors": ["qmix/qtcurrent.py:qtcurrent", "qmix/qtcurrent.py:calculate_phase_factor_coeff"]}
{"id": "C120", "title": "Limits of the coefficient convolution in double precision", "statement": "The limits int((k - num_b) / p) and int((k + num_b) / p), computed with a division of doubles, are the exact integer quotients rounded towards zero, so the coefficients are the same as with exact integers.", "quantifier": "all integers below 2^53; all circuits, voltages and truncations below 2^50", "why_tests_cant": "needs every pair of integers; tests use a few truncations", "anchors": ["qmix/qtcurrent.py:_convolve_coefficients", "qmix/qtcurrent.py:calculate_phase_factor_coeff"]}
{"id": "C121", "title": "Selection of mixing products in double precision", "statement": "qtcurrent computes the frequencies of the products in double precision, rounds them to four decimals and compares them with the rounded requests.  If neither the requests nor the products lie within a small margin of a rounding tie, it selects the same products as exact arithmetic and returns the same currents.", "quantifier": "all circuits with one to four tones whose frequencies are of moderate size, all requests, response functions and truncations", "why_tests_cant": "depends on the rounding errors of every combination of frequencies", "anchors": ["qmix/qtcurrent.py:qtcurrent", "qmix/qtcurrent.py:_current_1_tone", "qmix/qtcurrent.py:_current_2_tones", "qmix/qtcurrent.py:_current_3_tones", "qmix/qtcurrent.py:_current_4_tones"]}
{"id": "C122", "title": "A tone's own frequency selects it", "statement": "Asking qtcurrent for the current at the frequency of one of the circuit's tones, with the number or with a list of it, returns the current of that tone.", "quantifier": "all frequencies that are doubles, both kinds of request", "why_tests_cant": "fails only for doubles next to a rounding tie", "anchors": ["qmix/qtcurrent.py:qtcurrent", "qmix/qtcurrent.py:_current_1_tone"]}
{"id": "C123", "title": "Printed summary of a circuit", "statement": "print_info prints the numbers of tones and harmonics and the name, then for every harmonic of every tone in order its frequency, comment, source voltage and source impedance, rounded to the digits shown; with gap frequency, gap voltage and normal resistance it prints the frequency in GHz, the voltage also in photon voltages, and the available power in watts and dBm.", "quantifier": "all circuits with any numbers of tones and harmonics and any values", "why_tests_cant": "print output is excluded from coverage; needs all numbers of tones, harmonics and digits", "anchors": ["qmix/circuit.py:EmbeddingCircuit.print_info", "qmix/circuit.py:EmbeddingCircuit.__str__"]}
{"id": "C124", "title": "Numbers in scientific notation", "statement": "pvale prints the name in a field of 15 characters, the value in scientific notation within half a unit of its last digit (real and imaginary parts of complex values), the units in brackets and the comment.", "quantifier": "all names, real and complex values, units and comments", "why_tests_cant": "needs all magnitudes, including those that round up to the next power of ten", "anchors": ["qmix/misc/terminal.py:pvale"]}
{"id": "C125", "title": "Printed summary of DC data", "statement": "str of a DCData object lists the gap voltage and frequency, resistances, quality factor, current density, leakage current, offsets, the intercept voltage and, if there is IF data, the IF noise, each in the unit shown and rounded to two decimals; repr shows the gap voltage in mV and the normal resistance in ohms.", "quantifier": "all DCData objects and comments", "why_tests_cant": "needs all values; excluded from coverage", "anchors": ["qmix/exp/exp_data.py:DCData.__str__", "qmix/exp/exp_data.py:DCData.__repr__"]}
{"id": "C126", "title": "A junction never takes more than the available power", "statement": "After a converged harmonic balance, the mean power that the junction takes at any harmonic of any tone, in watts, is at most the available power that the circuit reports for that source, up to a factor given by the error target.", "quantifier": "all circuits with a gap voltage and normal resistance, all signals with a source of positive resistance, all response functions, guesses and parameters of a converged run", "why_tests_cant": "a bound for all circuits and operating points", "anchors": ["qmix/harmonic_balance.py:harmonic_balance", "qmix/circuit.py:EmbeddingCircuit.available_power"]}
{"id": "C127", "title": "Bias points are solved independently", "statement": "Simulating a selection of the bias points of a sweep (fewer points, another order, repeated points) gives, after the same number of iterations, the voltages of the sweep at those points.", "quantifier": "all circuits, selections of bias points, guesses, response functions and parameters; runs with equal numbers of iterations", "why_tests_cant": "needs every sweep and selection", "anchors": ["qmix/harmonic_balance.py:harmonic_balance"]}
{"id": "C128", "title": "Restarting from a solution", "statement": "Calling harmonic_balance again with the voltages of a converged run as the guess, and the same or a larger error target, ends without a correction, returns these voltages and leaves the circuit as it is.", "quantifier": "all circuits and converged runs with nonzero voltages, all parameters of the second call", "why_tests_cant": "needs every converged run", "anchors": ["qmix/harmonic_balance.py:harmonic_balance"]}
{"id": "C129", "title": "Harmonic balance in double precision selects the right products", "statement": "The harmonic balance and its check ask for the currents at multiples of the tone frequencies.  With the products computed in double precision and rounded to four decimals they select the same products as with exact numbers and return the same, also if the frequencies lie next to rounding ties.", "quantifier": "all circuits with one to four tones of moderate size in which no other product lies within 11e-5 of a harmonic", "why_tests_cant": "depends on the rounding errors of every combination of frequencies", "anchors": ["qmix/harmonic_balance.py:harmonic_balance", "qmix/harmonic_balance.py:check_hb_error", "qmix/harmonic_balance.py:_qt_current_for_hb", "qmix/harmonic_balance.py:_qtcurrent_all_freq"]}
{"id": "C130", "title": "Keyword arguments of the I-V analysis", "statement": "A DCData object has the I-V curve that its keyword arguments describe: the voltages and currents of the file (v_fmt, i_fmt, v_multiplier, i_multiplier), less voffset and ioffset, filtered (filter_data, filter_nwind, filter_npoly, filter_theta), without the voltage across rseries, on npts voltages up to vmax; its normal resistance is the one of the line through the samples in vrn, the subgap resistance that of the samples around vrsg, the gap voltage is vgap if given, and the resistance-area product and leakage current belong to area and vleak.  The same holds for the curve of a PumpedData object, with the offsets of the DC curve if none are given.", "quantifier": "all files and keyword arguments for which the object is created", "why_tests_cant": "all combinations of keyword arguments", "anchors": ["qmix/exp/exp_data.py:DCData.__init__", "qmix/exp/exp_data.py:PumpedData.__init__", "qmix/exp/exp_data.py:PARAMS"]}
{"id": "C131", "title": "Keyword arguments of the IF analysis", "statement": "The IF data of DCData and PumpedData objects are those that the keyword arguments describe: voltages in v_fmt times v_multiplier, less the offset and the voltage across rseries, on ifdata_npts voltages up to vmax, smoothed with ifdata_sigma, calibrated with the shot noise in the ranges vshot, or on the samples found automatically (C147) if vshot is None; noise temperature and gain belong to loads at t_hot and t_cold at the frequency freq, and the selected point is the one nearest to vbest if given, or else the one that best_pt asks for.", "quantifier": "all files and keyword arguments for which the object is created (positive frequency and gap voltage, hot load hotter than the cold load)", "why_tests_cant": "all combinations of keyword arguments", "anchors": ["qmix/exp/exp_data.py:DCData.__init__", "qmix/exp/exp_data.py:PumpedData.__init__", "qmix/exp/exp_data.py:PARAMS"]}
{"id": "C132", "title": "Keyword arguments of the impedance recovery", "statement": "The drive levels of a PumpedData object are found for the samples in the part fit_range of the first photon step, with alpha_max and num_b; the embedding impedance is zemb if given, or else the best one on the grid given by remb_range and xemb_range.", "quantifier": "all files, DC data and keyword arguments for which the object is created (for the impedance: circuits that can be connected to all samples)", "why_tests_cant": "all combinations of keyword arguments", "anchors": ["qmix/exp/exp_data.py:PumpedData.__init__", "qmix/exp/exp_data.py:PARAMS"]}
{"id": "C133", "title": "Figure of the DC I-V curve", "statement": "DCData.plot_dciv shows the I-V curve in mV and uA, marks the gap voltage and the leakage current on it, draws the normal-state line (slope 1/Rn through the point where it meets zero current) and the line of the subgap resistance, each with a label that gives the value, and limits the axes to the sample nearest to vmax_plot.", "quantifier": "all DC data objects and plot limits", "why_tests_cant": "the plotting code is excluded from the tests; all curves and options", "anchors": ["qmix/exp/exp_data.py:DCData.plot_dciv"]}
{"id": "C134", "title": "Figures of the offset and of the IF noise", "statement": "DCData.plot_offset shows the samples within 0.2 mV of zero.  DCData.plot_if_noise does nothing without IF data; otherwise it shows the I-V curve with the normal-state line, and the IF power with a line of 5.8 K/mV on which the IF noise is marked where the normal-state line meets zero current.", "quantifier": "all DC data objects (for the 5.8 K/mV line: with shot-noise ranges)", "why_tests_cant": "the plotting code is excluded from the tests; all curves and options", "anchors": ["qmix/exp/exp_data.py:DCData.plot_offset", "qmix/exp/exp_data.py:DCData.plot_if_noise"]}
{"id": "C135", "title": "Figures of the pumped I-V and IF data", "statement": "PumpedData.plot_iv shows the unpumped and the pumped I-V curve with lines at the gap voltage and the photon steps; plot_if shows the hot and cold IF power, and the one without LO if known; plot_ivif shows both, without the zero powers; the axes are limited to vmax_plot and to the unpumped current there.", "quantifier": "all pumped data objects and plot limits", "why_tests_cant": "the plotting code is excluded from the tests; all curves and options", "anchors": ["qmix/exp/exp_data.py:PumpedData.plot_iv", "qmix/exp/exp_data.py:PumpedData.plot_if", "qmix/exp/exp_data.py:PumpedData.plot_ivif"]}
{"id": "C136", "title": "Figures of noise temperature and gain", "statement": "plot_noise_temp, plot_yfac_noise_temp, plot_gain_noise_temp and plot_gain of PumpedData show the smoothed powers or their ratio, the noise temperature and the gain against bias voltage, and mark the selected bias point on these curves with its value; without IF results they stop with an error.", "quantifier": "all pumped data objects with IF results (at least 31 samples for the smoothed ones), and all without", "why_tests_cant": "the plotting code is excluded from the tests; all curves and options", "anchors": ["qmix/exp/exp_data.py:PumpedData.plot_noise_temp", "qmix/exp/exp_data.py:PumpedData.plot_yfac_noise_temp", "qmix/exp/exp_data.py:PumpedData.plot_gain_noise_temp", "qmix/exp/exp_data.py:PumpedData.plot_gain"]}
{"id": "C137", "title": "Figure of the simulated I-V curve", "statement": "PumpedData.plot_simulated shows the measured curves, the curve that the simulation predicts for the recovered embedding circuit (its source voltage and impedance at the LO frequency, smeared response function), and marks the ends of the interval that was used for the recovery on the simulated curve; the legend gives frequency, source voltage and impedance.", "quantifier": "all pumped data objects with a recovered circuit (photon voltage above 1e-4), all options", "why_tests_cant": "the plotting code is excluded from the tests; all curves and options", "anchors": ["qmix/exp/exp_data.py:PumpedData.plot_simulated"]}
{"id": "C138", "title": "Figure of the error surface", "statement": "PumpedData.plot_error_surface shows the logarithm of the error of each embedding impedance on the grid, in ohms, and notes the point with the smallest error.", "quantifier": "all pumped data objects with a recovered circuit", "why_tests_cant": "the plotting code is excluded from the tests; 20301 impedances for each object", "anchors": ["qmix/exp/exp_data.py:PumpedData.plot_error_surface"]}
{"id": "C139", "title": "Report of the DC data", "statement": "DCData.plot_all makes the folder fig_folder/sub_folder if needed and writes the figure of the I-V curve to it and, if there are IF data, the figure of the IF noise; it changes nothing else on the disk.", "quantifier": "all DC data objects, folders and states of the disk with room for the files", "why_tests_cant": "the plotting code is excluded from the tests; all states of the disk", "anchors": ["qmix/exp/exp_data.py:DCData.plot_all"]}
{"id": "C140", "title": "Report of the pumped data", "statement": "PumpedData.plot_all writes the I-V curve, the IF power, the noise temperature and, if a circuit was recovered, the error surface and the simulated curve to files named after the LO frequency, in the sub-folders that file_struc gives (a dictionary with the documented keys, None for the defaults, '' for none); it changes nothing else on the disk.", "quantifier": "all pumped data objects, values of file_struc and states of the disk with room for the files", "why_tests_cant": "the plotting code is excluded from the tests; all states of the disk", "anchors": ["qmix/exp/exp_data.py:PumpedData.plot_all"]}
{"id": "C141", "title": "Folders for results", "statement": "After initialize_dir(folder) the folder and its ten sub-folders exist; nothing else on the disk has changed.", "quantifier": "all folder names and states of the disk with room for the folders", "why_tests_cant": "excluded from the tests; all states of the disk", "anchors": ["qmix/exp/exp_data.py:initialize_dir"]}
{"id": "C142", "title": "Overall results", "statement": "plot_overall_results makes the ten sub-folders, writes the DC I-V curve, the recovered circuits, the DC parameters and a table of all results as texts, and twelve figures of I-V curves, noise temperature, gain, IF noise, impedances, source voltage and drive level against the LO frequency; each line and each point is the value of its data set, and the ranges of the axes are those given by the arguments; nothing else on the disk changes.", "quantifier": "all lists of pumped data objects of one DC data object, all states of the disk with room for the files", "why_tests_cant": "the plotting code is excluded from the tests; all lists of data sets and states of the disk", "anchors": ["qmix/exp/exp_data.py:plot_overall_results"]}
{"id": "C143", "title": "Figures of IF spectra", "statement": "plot_if_spectrum draws the noise temperature of every spectrum that it finds in the data folder and writes the figures to fig_folder (if given).", "quantifier": "all folders with spectra", "why_tests_cant": "the plotting code is excluded from the tests", "anchors": ["qmix/exp/exp_data.py:plot_if_spectrum"]}
{"id": "C144", "title": "Figures of response functions", "statement": "RespFn.plot shows the DC I-V curve and its Kramers-Kronig transform at all voltages of the response function; plot_interpolation also shows the interpolated values at the same voltages.  Every response function can be drawn.", "quantifier": "all response functions from arrays, imported I-V data, or the perfect curve; all parameters", "why_tests_cant": "the plotting code is excluded from the tests; all curves and parameters", "anchors": ["qmix/respfn.py:RespFn.plot", "qmix/respfn.py:RespFn.plot_interpolation"]}
{"id": "C145", "title": "Numbering of the tones and choice of the inverse in harmonic balance", "statement": "Numbering the tones differently (sources, impedances, number of Bessel functions and initial guess permuted together) permutes the tones of the voltages that harmonic_balance returns and changes nothing else: not the number of iterations, not the flag, not the mask of bias points.  Nor does it matter which exact matrix inverse is used.  This holds as long as no relative error on the way is 0/0.", "quantifier": "all circuits, permutations, response functions, initial guesses, damping factors, numbers of iterations and stopping errors; all exact matrix inverses", "why_tests_cant": "all permutations and circuits; tests use one numbering", "anchors": ["qmix/harmonic_balance.py:harmonic_balance"]}
{"id": "C146", "title": "Result of harmonic balance is the only one", "statement": "If harmonic_balance converges after n corrections, any voltages that solve n linearised (Newton) balance equations from the same start are the returned voltages: the method leaves no freedom.", "quantifier": "all circuits, response functions, guesses, damping factors and limits for which the run converges; all exact matrix inverses", "why_tests_cant": "all sequences of voltages that solve the equations", "anchors": ["qmix/harmonic_balance.py:harmonic_balance"]}
{"id": "C147", "title": "Automatic range of the shot-noise fit", "statement": "Without vshot the shot-noise line is fitted to the samples above 1.7 gap voltages where the smoothed second derivative is below a hundredth of its maximum, the slope is positive and less than twice the median slope there, and the next sample qualifies too; if there are fewer than five, to all samples above 2 gap voltages.  The calibration is as with a given range.  If the powers above 1.7 gap voltages lie on a line that reaches 2, the calibration is exact; if the curve bends elsewhere, all samples above 1.7 but the last are found.", "quantifier": "all IF measurements, filters that keep the number of samples, and parameters without vshot", "why_tests_cant": "all curves and filters; the tests analyse a few files with given ranges", "anchors": ["qmix/exp/if_data.py:_find_if_noise", "qmix/exp/if_data.py:dcif_data", "qmix/exp/if_data.py:if_data"]}
{"id": "C148", "title": "The offset search looks for the centre of symmetry", "statement": "For DC data on both sides of voffset_range, the offset removed is what the optimiser returns for the asymmetry of the samples within the range: the sum, over 101 equally spaced voltages t from half the lower to half the upper limit, of |c(t) + c(-t)|, where c is the curve that joins the shifted samples.  It starts at the given offsets, or at zero voltage and the average current.  The asymmetry is never negative and is zero at a centre of symmetry of the samples, so that an optimiser that finds minima leaves an odd curve.  For samples on a straight line all points of the line (near the middle) qualify.", "quantifier": "all data, ranges, given or missing offsets, and optimisers", "why_tests_cant": "all curves, offsets and optimiser outcomes; the tests correct one simulated offset", "anchors": ["qmix/exp/iv_data.py:_correct_offset"]}
{"id": "C149", "title": "Rounding error of the tunnelling currents", "statement": "When every sum and product in the loops of qtcurrent is rounded to 53 bits, the call still succeeds and each current differs from the exact sum by at most ((1 + 3 * 2^-53)^K - 1) * S.  S is the same sum with the moduli of all factors, that is without cancellation.  K counts the roundings: 2 n (P - 1)(2 B + 2) + 2 n + the product of (2 b_f + 1) + 1 + (2 P + 1)^n for n tones, P harmonics, truncations b_f and largest truncation B.  The factor is at most K * 1e-15 for K up to 1e15.  Without harmonics S is at most twice the largest modulus of the response, if the frequency belongs to one product only.", "quantifier": "1-4 tones, all numbers of harmonics, truncations, voltages, response functions, precalculated matrices, lists and single frequencies, as long as frequencies and products stay 1e-7 away from ties of the fourth decimal", "why_tests_cant": "an error bound for all inputs and sizes of the sums; the tests compare a few values with a tolerance", "anchors": ["qmix/qtcurrent.py:qtcurrent", "qmix/qtcurrent.py:_convolve_coefficients", "qmix/qtcurrent.py:_current_coeff_1_tone", "qmix/qtcurrent.py:_current_coeff_4_tones"]}
{"id": "C150", "title": "The Kramers-Kronig transform approximates the principal value integral", "statement": "For an evenly spaced voltage grid with step h and a current that differs from the resistor line I = V by a smooth function f that vanishes outside the grid, kk_trans gives at each voltage V of the grid the integral (1/pi) P int f(x)/(x-V) dx up to an error that is at most proportional to h and, for padding n, to 1/n^2: at most M L h / pi + 6 F / n^2, with M the largest second derivative of f, F the largest value of f and L the range of integration. For arbitrary data the padding error of the discrete sum is at most 6 F / n^2.", "quantifier": "all grids (any number of points, any step), all currents, all paddings n of at least 2, all points", "why_tests_cant": "The error bound ranges over all smooth curves, grids and paddings; a test compares a few curves with a known transform.", "anchors": ["qmix/mathfn/kktrans.py:kk_trans"]}
{"id": "C151", "title": "Small-signal response of the tunnelling currents", "statement": "For a single tone of small drive level a (at most 1 in size) at photon voltage f, qtcurrent gives Tucker's small-signal results. The direct current at bias V is I(V) + a^2/4 (I(V+f) - 2 I(V) + I(V-f)) up to F a^4, and the current at the tone's frequency is the voltage a f times the admittance G + iB with G = (I(V+f) - I(V-f))/(2f) and B = (K(V+f) - 2 K(V) + K(V-f))/(2f), up to 4 F |a|^3 in each part. I and K are the imaginary and real part of the response function and F bounds both within num_b photon voltages of V.", "quantifier": "all response functions, bias voltages, frequencies above 0.0001, drive levels up to 1, truncations num_b of at least 1", "why_tests_cant": "The orders of the errors in the drive level hold for every response function and truncation; a test compares a few numbers with a tolerance.", "anchors": ["qmix/qtcurrent.py:qtcurrent"]}
{"id": "C152", "title": "Classical limit of the tunnelling currents", "statement": "For a single tone of amplitude v = a f at photon voltage f on a smooth I-V curve I, qtcurrent tends to the currents of a classical nonlinear resistor as the photon voltage and the amplitude become small. For large truncations the direct current at bias V differs from I(V) + v^2/4 I''(V) by at most M/24 (3 v^4/8 + f^2 v^2/2), where M bounds the fourth derivative, and the real part of the current at the tone's frequency differs from v I'(V) by at most M (|v|^3/8 + f^2 |v|/6), where M bounds the third.", "quantifier": "all response functions whose imaginary part has a bounded fourth (third) derivative, all bias voltages, drive levels and frequencies above 0.0001; the limit of large truncations", "why_tests_cant": "The bounds hold for every smooth curve and every drive level in the limit of infinitely many Bessel terms; a test uses one curve and one truncation.", "anchors": ["qmix/qtcurrent.py:qtcurrent"]}
{"id": "C153", "title": "Tables of the model response functions", "statement": "Without smearing, RespFnPolynomial and RespFnExponential tabulate their curves at the voltages from -35 to 35 in steps of 1/200. The current is v^(2n+1)/(1+v^(2n)) for the polynomial model of order n. For the exponential model it is v ((1-s) rn/rsg + s), where s is the sum of the two logistic functions of sharpness agap that rise beyond the negative and the positive gap (the corrected model, not the original one).", "quantifier": "all orders, all gap voltages, resistances other than 0 and sharpnesses, all parameters without smearing, every voltage of the table", "why_tests_cant": "Tests compare the curve at a few parameters; the property ties the table to the closed form for all parameters and all points, both signs.", "anchors": ["qmix/respfn.py:RespFnPolynomial", "qmix/respfn.py:RespFnExponential", "qmix/mathfn/ivcurve_models.py:exponential", "qmix/mathfn/ivcurve_models.py:polynomial"]}
{"id": "C154", "title": "The pumped I-V curve inherits order, slopes and gap", "statement": "If one response function carries less dc current than another at every photon-shifted voltage, qtcurrent gives less direct current. If the I-V curve is nondecreasing, so is the pumped curve at the same drive: pumping alone makes no negative differential resistance. If the slope of the I-V curve is between a and b, the slope of the pumped curve is between a and b times the captured probability. If the curve carries no current below a gap that bias and photons together do not reach, the direct current is exactly 0.", "quantifier": "all numbers of tones and harmonics (one harmonic for the slopes), all drives, truncations, bias points and response functions", "why_tests_cant": "The claims range over all response functions and drives.", "anchors": ["qmix/qtcurrent.py:qtcurrent"]}
{"id": "C155", "title": "Photon steps of a pumped ideal junction", "statement": "If the dc I-V curve is the ideal one and one tone of drive level alpha and frequency f pumps the junction, the direct current from qtcurrent shows photon steps: between two bias points it rises by J_n(alpha)^2 for every photon number n (up to the truncation) whose voltage V + n f crosses the gap, plus at most the voltage difference times the captured probability. Between the steps the curve is a straight line whose slope is the sum of J_n(alpha)^2 over the photon numbers with V + n f outside the gap.", "quantifier": "all drive levels, frequencies, truncations, pairs of bias points and response functions whose imaginary part is the ideal I-V curve", "why_tests_cant": "Places and heights of the steps depend on drive, frequency and truncation, which are all arbitrary.", "anchors": ["qmix/qtcurrent.py:qtcurrent", "qmix/mathfn/ivcurve_models.py:perfect"]}
{"id": "C156", "title": "Messages of harmonic balance", "statement": "Printing does not change what harmonic_balance and check_hb_error compute. With verbose=False harmonic_balance prints nothing but the warning that the target was not achieved, which appears only if the iteration limit is reached with an error above the target, and always if the returned voltages miss the target. With verbose=True it prints the number of tones and harmonics, the number of calls per iteration, the iteration limit and the estimated time; then for every iteration the errors of all signals in order (median, largest, percentage of finished bias points), a progress bar and the correction; then the verdict, which says that the target was achieved only if it was, and the time used. check_hb_error prints a passed line for each signal up to the first failure. The text of each line shows the numbers it is about, rounded to the digits shown.", "quantifier": "all circuits, response functions, guesses, targets, damping factors, iteration limits, and both values of verbose", "why_tests_cant": "The messages depend on every iterate of runs of any length with any number of signals and bias points.", "anchors": ["qmix/harmonic_balance.py:harmonic_balance", "qmix/harmonic_balance.py:check_hb_error"]}
{"id": "C157", "title": "Report of a response function", "statement": "Printing does not change a response function, and with verbose=False none of the classes prints anything. With verbose=True RespFn prints a heading, the smear if there is one, and for the I-V curve and for its Kramers-Kronig transform the number of nodes of the interpolation, the mean absolute interpolation error over the samples between -34 and 34 and the maximum error with its voltage. The report is printed before the error is checked, so that it is there when the check fails. The text of each line shows the numbers it is about, rounded to the digits shown; str and repr name the class.", "quantifier": "all I-V curves, all parameters, all interpolation methods, all classes of response functions", "why_tests_cant": "The numbers in the report depend on thousands of samples of an arbitrary curve; no test reads the output.", "anchors": ["qmix/respfn.py:RespFn", "qmix/respfn.py:_setup_interpolation", "qmix/respfn.py:RespFnPerfect", "qmix/respfn.py:RespFnFromIVData", "qmix/respfn.py:RespFnPolynomial", "qmix/respfn.py:RespFnExponential"]}
{"id": "C158", "title": "Messages of the analysis of measured data", "statement": "What DCData and PumpedData print does not change what they compute. With verbose=False nothing is printed but warnings. DCData warns if the normal resistance is below 1 ohm or above 50 ohms, and if fewer than five samples are in the range for the fit of the shot noise; with verbose=True it also prints its summary. With verbose=True PumpedData prints a heading with the comment, the kind of data and the frequency before it analyses anything; then whether the recovery found a good fit, the recovered voltage and impedance with the available power, and the drive level and the impedance of the junction with the delivered power, powers in nW; then the noise temperature and the gain in dB at the best bias point and the IF noise. Each line shows its numbers rounded to the digits shown.", "quantifier": "all measurements, all options, all outcomes of the analysis, sorts, optimisers, smoothing filters, Bessel functions and interpolation methods", "why_tests_cant": "No test reads the output, and the powers and warnings depend on arbitrary measured data.", "anchors": ["qmix/exp/exp_data.py:DCData", "qmix/exp/exp_data.py:PumpedData", "qmix/exp/exp_data.py:_recover_zemb", "qmix/exp/if_data.py:if_data", "qmix/exp/if_data.py:dcif_data", "qmix/exp/if_data.py:_find_if_noise", "qmix/exp/if_data.py:_find_tn_gain", "qmix/exp/iv_data.py:dciv_curve"]}
{"id": "C159", "title": "Recovery of the circuit that has produced the data", "statement": "If a source of amplitude Vs behind an impedance on the searched grid has driven the junction while the pumped I-V curve was measured (source voltage = voltage across the junction + current of the junction times the impedance), the circuit that PumpedData recovers explains the junction voltages of all samples of the photon step: the mean squared mismatch is at most e^2, with e = T vph K / (Vs - K), K = (vph + 6 M |Z|) alpha_max / 2^16, M a bound of the response function at the photon steps and T of the drive levels (at most 3/2). The fit is reported good if e^2 is at most 7e-7. The junction absorbs power at these drive levels, and its current at the drive frequency changes by at most 6 M times the change of the drive level. The impedance itself need not be found: data with one sample fit every circuit.", "quantifier": "all non-decreasing I-V curves and all Kramers-Kronig curves, all circuits on the grid (positive resistances), all sample counts and voltages, photon energies, numbers of Bessel functions from 1, and search ranges of the drive level, for which the drive-level search can find the level (C83)", "why_tests_cant": "The tests recover one impedance from one simulated curve; the bound depends on the curve, the circuit and the bisection error together.", "anchors": ["qmix/exp/exp_data.py:PumpedData._recover_zemb", "qmix/exp/exp_data.py:_find_alpha", "qmix/exp/exp_data.py:_find_ac_current", "qmix/exp/exp_data.py:_error_function", "qmix/exp/exp_data.py:_find_source_voltage"]}
{"id": "C160", "title": "Messages of the tunnelling-current calculation", "statement": "What qtcurrent prints does not change what it computes, nor does verbose. With verbose=True a call that returns prints a heading, the numbers of tones and harmonics, Done. and the time in seconds to four decimals; with verbose=False it prints nothing. Frequencies that are not positive and too few summation limits are noticed before anything is printed. A circuit with more than four tones and no given response matrix raises ValueError after a message that is printed whatever verbose is.", "quantifier": "all circuits, voltages, response functions, frequencies, summation limits, given matrices and durations", "why_tests_cant": "No test reads the output; circuits with more than four tones are not tested with every way of calling.", "anchors": ["qmix/qtcurrent.py:qtcurrent", "qmix/qtcurrent.py:interpolate_respfn"]}
{"id": "C161", "title": "A junction with a dominant first photon step gives back its drive level", "statement": "At a bias where one photon step raises the current, further steps raise it by at most twice as much in all, and the steps that lower it and the omitted photon numbers carry little weight, the pumped direct current rises strictly with the drive level up to 9/4, both in the Tucker sum and in what qtcurrent returns for one tone. There the search for the drive level undoes the pumping: from currents computed at levels up to alpha_max (at most 3/2, the default) it returns these levels to alpha_max/2^16, and a current that is off by d moves the square of the level by at most 14 d over the gain of the first step. The recovery of the embedding circuit from data measured with a circuit of the search grid on such a junction therefore returns, and its circuit explains the voltages across the junction up to the error that this resolution leaves; the fit is reported good if that error is small.", "quantifier": "all I-V curves, photon energies, bias voltages, drive levels, truncations, sample lists and circuits of the grid that satisfy the stated conditions on the I-V curve", "why_tests_cant": "The tests recover drive levels for one simulated junction; they cannot show that the bisection starts close enough to the solution, and that the current rises, for every junction.", "anchors": ["qmix/exp/exp_data.py:_find_alpha", "qmix/exp/exp_data.py:_find_pumped_iv_curve", "qmix/exp/exp_data.py:PumpedData._recover_zemb", "qmix/qtcurrent.py:qtcurrent"]}
{"id": "C162", "title": "Drive levels that are not finite spoil the recovered circuit", "statement": "The recovery of the embedding circuit returns whenever there is a sample on the photon step, also if the first guess of a drive level divides by zero. The drive level of a sample is NaN exactly if pumping at alpha_max does not change the current and the measured current is the unpumped one, infinite exactly if pumping does not change the current and the measured current is above it, and otherwise a number that is not negative. One sample on the step where pumping does not change the current, or where pumping raises it and the measured current is not above the unpumped curve, makes every error NaN: the result is then the first point of the search grid (or the given impedance), with a source voltage of NaN, and the fit is not reported good.", "quantifier": "all I-V curves, sample lists, photon energies, fit ranges, search grids, given impedances and truncations", "why_tests_cant": "The tests recover the circuit from one clean simulated curve; they do not reach the division by zero, and no set of examples shows that a single bad sample always decides the result.", "anchors": ["qmix/exp/exp_data.py:_find_alpha", "qmix/exp/exp_data.py:_find_pumped_iv_curve", "qmix/exp/exp_data.py:PumpedData._recover_zemb"]}
{"id": "C163", "title": "A circuit of the search range is recovered from inexact currents", "statement": "A junction with a dominant first photon step, whose direct current does not fall with the voltage, is driven through any circuit whose resistance and reactance lie in the search ranges, and its current is measured with errors of at most d. The recovery of the embedding circuit then returns. Its drive levels are off by at most D = alpha_max/2^16 + 14 d/(g a0), where g bounds the gain of the first photon step and a0 the drive levels from below, and at these levels its circuit explains the voltages across the junction up to an error that is computed from D and half a cell of the search grid; the fit is reported good if that error is small.", "quantifier": "all I-V curves, photon energies, sample lists, measurement errors, circuits in the search ranges (on the grid or not) and truncations that satisfy the stated conditions", "why_tests_cant": "The tests recover one circuit from exact simulated currents; they cannot bound the effect of every measurement error and of every position of the circuit between the points of the grid.", "anchors": ["qmix/exp/exp_data.py:_find_alpha", "qmix/exp/exp_data.py:_error_function", "qmix/exp/exp_data.py:PumpedData._recover_zemb"]}
{"id": "C164", "title": "The recovered circuit agrees with the measured circuit on what the samples determine", "statement": "The balance of a source behind an impedance, |v + z I| = V at every sample, is linear in the resistance, the reactance, the squared modulus of z and the squared source voltage. If a weighted sum of the balances eliminates the last two, the samples tell a combination of resistance and reactance: two circuits that explain the samples, one of them only up to eta, agree on this combination up to a multiple of eta, and samples that tell resistance and reactance separately have only one circuit. The circuit that the recovery returns for inexact currents agrees, on everything the samples tell, with the circuit of the measurement, up to a bound that is computed from the errors of the currents, the resolution of the drive levels and half a cell of the search grid.", "quantifier": "all sample lists, weights, circuits, I-V curves with a dominant first photon step, photon energies, measurement errors and search ranges that satisfy the stated conditions", "why_tests_cant": "The tests compare one recovered circuit with the simulated one; they cannot say which measurements determine the circuit, nor bound the difference for every measurement error.", "anchors": ["qmix/exp/exp_data.py:_find_alpha", "qmix/exp/exp_data.py:_error_function", "qmix/exp/exp_data.py:PumpedData._recover_zemb"]}
{"id": "C165", "title": "PumpedData returns for gains of either sign and best bias voltages anywhere on the curve", "statement": "PumpedData returns whenever its I-V curve and IF data can be read and, if the impedance is recovered, some sample lies on the photon step: no drive level, gain or slope makes it fail. The values at the best bias voltage are the entries of the noise temperatures, gains and voltages there. The gain in decibels is the decadic logarithm of the gain times ten if the gain is positive, minus infinity if it is zero and NaN if it is negative; if the hot load gives no more power than the cold load it is never a number. The impedance at the IF is the normal resistance over the slope of the line of least squares through up to ten samples of the I-V curve from the best bias voltage on; if that is the last sample, it is instead twice the normal resistance times voltage over current.", "quantifier": "all I-V, hot and cold data, DC data with a positive gap voltage, keyword arguments, sorting functions, filters and Bessel functions", "why_tests_cant": "The tests use one good measurement with a positive gain and a best bias voltage in the middle of the curve.", "anchors": ["qmix/exp/exp_data.py:PumpedData", "qmix/exp/if_data.py:if_data", "qmix/exp/if_data.py:_find_tn_gain"]}
{"id": "C166", "title": "harmonic_balance converges if the voltages across the embedding impedances hardly follow the junction voltages", "statement": "Suppose that a change of the junction voltages changes the voltages across the embedding impedances by at most the share k of it, summed over the signals. If k < 1, exactly one set of junction voltages balances the circuit, and a run that reports convergence to the target stop with non-zero voltages v is within stop*sum|v|/(1-k) of it. If k < 1/4, each correction damped by d leaves at most the share 1 - d*(1 - 5k/(2-3k)) < 1 of the imbalance, the Jacobian can always be inverted, and if no voltage of the balance is zero the run reports convergence from any initial voltages within a number of corrections computed from that share, whatever larger number of iterations is allowed.", "quantifier": "all circuits, response functions, truncations, Bessel functions, initial voltages, damping in (0,1], targets and numbers of iterations", "why_tests_cant": "The tests run a few circuits to convergence; they cannot show that a run always converges, nor that there is no other balance.", "anchors": ["qmix/harmonic_balance.py:harmonic_balance", "qmix/harmonic_balance.py:_inv_jacobian"]}
{"id": "C167", "title": "Circuits with small embedding impedances have one balance and harmonic_balance finds it", "statement": "For any frequencies, bias voltages, response function and truncations there is a number L such that every circuit with L*|z| at most 1 and at most the source voltage at every signal has exactly one set of junction voltages that balances it, and harmonic_balance reports convergence from any initial voltages, for any damping in (0,1] and any positive target, once enough iterations are allowed.", "quantifier": "all numbers of tones and harmonics, frequencies, bias sweeps, response functions, truncations, source voltages, small impedances, initial voltages, damping and targets", "why_tests_cant": "A test can run a finite number of circuits; it cannot show convergence for all small impedances or the uniqueness of the balance.", "anchors": ["qmix/harmonic_balance.py:harmonic_balance", "qmix/qtcurrent.py:qtcurrent"]}
{"id": "C168", "title": "Tunnelling currents are bounded and change at most in proportion to the junction voltages", "statement": "For any frequencies, bias voltages, response function and truncations there is a number L such that every current qtcurrent returns is at most L in size, whatever the junction voltages, and the currents for two sets of junction voltages differ by at most L times the sum of the differences of the voltages at that bias point. Each coefficient of a single harmonic is at most 1 and changes by at most the change of the voltage over the harmonic's photon voltage.", "quantifier": "all numbers of tones and harmonics, frequencies, bias sweeps, response functions, truncations, requested frequencies and pairs of junction voltages", "why_tests_cant": "Tests compare currents at a few junction voltages; a jump or an unbounded growth elsewhere would not be seen.", "anchors": ["qmix/qtcurrent.py:qtcurrent"]}
{"id": "C169", "title": "Arrays of different length", "statement": "slope and slope_span_n raise a ValueError for x and y of different length if both have enough points (four, or two more than the span); but slope accepts three values of y with any longer x and then uses their overall rise at every point. remove_nans_xy and remove_doubles_xy never return for arrays of different length. sort_xy raises an IndexError if x is longer, and silently drops the last values of y if y is longer.", "quantifier": "all arrays of different length, odd spans, flags and sorting functions", "why_tests_cant": "The tests only use arrays of equal length; the accepted mismatch needs exactly three values.", "anchors": ["qmix/mathfn/misc.py:slope", "qmix/mathfn/misc.py:slope_span_n", "qmix/exp/clean_data.py:remove_nans_xy", "qmix/exp/clean_data.py:sort_xy", "qmix/exp/clean_data.py:remove_doubles_xy"]}
{"id": "C170", "title": "One tone: bounds on current and impedance that do not depend on the truncation", "statement": "For one tone of one harmonic whose response function is at most R0 in magnitude at the bias voltage plus up to num_b photon steps, qtcurrent returns a direct current of at most R0 and an alternating one of at most 2*R0, and a change of the junction voltage by d photon steps changes them by at most 2*R0*d and 4*R0*d, whatever num_b. Therefore harmonic_balance on such a circuit has one solution and reports convergence from any initial voltage and for any target if 16*R0*|zt| is below the photon voltage and 2*R0*|zt| below the source voltage.", "quantifier": "all one-tone circuits with frequency above 1/10000, response functions, truncations, junction voltages, initial voltages, damping in (0,1], targets and iteration limits above the needed number", "why_tests_cant": "The bounds hold for every voltage and truncation; tests sample a few.", "anchors": ["qmix/qtcurrent.py:qtcurrent", "qmix/harmonic_balance.py:harmonic_balance"]}
{"id": "C171", "title": "One tone: the balanced junction voltage converges as the truncation grows", "statement": "For one tone of one harmonic and a response function of at most R0 in magnitude, the alternating currents from qtcurrent with two values of num_b differ by at most 4*R0*sqrt(1 - P), where P is the sum of the squared Bessel functions of the drive level up to the smaller num_b. If 4*R0*|zt| is below the photon voltage, the voltage v that a converged harmonic_balance run returns differs from the one that balances the circuit with any larger num_b by at most (stop*|v| + 4*R0*|zt|*sqrt(1 - P)) / (1 - 4*R0*|zt|/photon voltage), with P taken at v itself; and the balanced voltages exist and converge as num_b grows, at all bias points together.", "quantifier": "all one-tone circuits with frequency above 1/10000, bounded response functions, truncations, initial voltages, damping, targets and iteration limits", "why_tests_cant": "A test compares two truncations for one circuit; the estimate holds for every larger truncation.", "anchors": ["qmix/qtcurrent.py:qtcurrent", "qmix/harmonic_balance.py:harmonic_balance"]}
{"id": "C172", "title": "Results of harmonic_balance hardly depend on the start and change little with the circuit", "statement": "If the voltages across the embedding impedances follow the junction voltages with at most a share k < 1 of their change, two converged runs of harmonic_balance on one circuit, whatever their initial voltages, damping, targets and iteration limits, return voltages whose distance is at most (stop1*|v1| + stop2*|v2|)/(1-k). For two circuits with the same tones and bias voltages but other source voltages and impedances, the distance grows by at most the sum over the signals of |source1 - source2| + |zt1 - zt2|*|current|, over 1-k.", "quantifier": "all circuits, response functions, truncations, Bessel functions, matrix inverses, initial voltages, dampings, targets and iteration limits; returned voltages without a 0/0 error", "why_tests_cant": "Tests compare a few starting values; the bound covers every pair of converged runs and every pair of circuits.", "anchors": ["qmix/harmonic_balance.py:harmonic_balance"]}
{"id": "C173", "title": "Tunnelling currents of several tones change no faster than the response function allows, and harmonic_balance converges for small impedances", "statement": "For tones without harmonics, if the response function is at most M in magnitude at the bias voltage plus the photon steps summed over, then changing the junction voltages changes the direct current from qtcurrent by at most 2*M and the current of any lone mixing product by at most 4*M per photon step, that is per sum over the tones of |change|/photon voltage, whatever the truncations. So if the embedding impedances together are below 1/16 of every photon voltage over M, and a current 2*M through each drops less than its source voltage, the circuit has exactly one solution and harmonic_balance converges from any initial voltages.", "quantifier": "all circuits of one to four tones with one harmonic, response functions, junction voltages, truncations given as a number or per tone, bias points, matrix inverses, initial voltages, dampings and targets; no second mixing product at the frequency in question", "why_tests_cant": "The bound holds for every truncation and every pair of voltages at once; a simulation shows only some.", "anchors": ["qmix/qtcurrent.py:qtcurrent", "qmix/harmonic_balance.py:harmonic_balance"]}
{"id": "C174", "title": "For several tones the truncations change currents and balanced voltages no more than the photons left out", "statement": "For tones without harmonics, if the response function is at most M at the voltages summed over, the currents of a lone mixing product that qtcurrent gives for a truncation num_b and for one that is at least as large for every tone differ by at most 4*M times the sum over the tones of sqrt(1 - p), p being the probability of at most num_b photons at the drive level of the tone. The voltages that a converged harmonic_balance returns for num_b are at a distance from those that balance the circuit with the larger truncation of at most (stop*|v| + 4*M*Z*that sum)/(1 - 4*M*Z/nu), Z being the sum of the impedances and nu the lowest photon voltage, if this is positive. If the response function is bounded everywhere and 4*M*Z < nu, the balanced voltages converge as num_b grows, for all tones and bias points together.", "quantifier": "all circuits of one to four tones with one harmonic, response functions, junction voltages, pairs of truncations (numbers or one per tone), bias points, matrix inverses, starts, dampings and targets; no second mixing product at the frequency of a tone; returned voltages without a 0/0 error", "why_tests_cant": "A simulation compares a few truncations; the bound holds for every pair and says what a larger truncation could still change.", "anchors": ["qmix/qtcurrent.py:qtcurrent", "qmix/harmonic_balance.py:harmonic_balance"]}
{"id": "C175", "title": "Currents and balanced voltages change in proportion along the bias sweep", "statement": "For tones without harmonics, a response function of at most M at the voltages summed over and slope at most L: the current that qtcurrent gives for a lone mixing product at two bias points differs by at most 2*L*|difference of the bias voltages| plus 4*M per photon step between the junction voltages. Junction voltages that balance a circuit differ at two bias points by at most 2*L*Z*|difference of the bias voltages|/(1 - 4*M*Z/nu), Z being the sum of the impedances and nu the lowest photon voltage, if this is positive; those that a converged harmonic_balance returns by at most stop times their sizes over the same factor more.", "quantifier": "all circuits of one to four tones with one harmonic, response functions, truncations, pairs of bias points, junction voltages, matrix inverses, starts, dampings and targets; no second mixing product at the frequency in question; returned voltages without a 0/0 error", "why_tests_cant": "Plots suggest that results are smooth along the sweep; the bound excludes jumps for every sweep and every circuit that meets the conditions.", "anchors": ["qmix/qtcurrent.py:qtcurrent", "qmix/harmonic_balance.py:harmonic_balance"]}
{"id": "C176", "title": "Currents that follow from a converged run are accurate", "statement": "For tones without harmonics and a response function of at most M at the voltages summed over, if 4*M*Z is less than nu, Z being the sum of the impedances and nu the lowest photon voltage: the DC current that qtcurrent gives for the junction voltages of a converged harmonic_balance differs from the one for voltages that balance the circuit exactly by at most 2*M*stop*(sum of the sizes of the voltages returned)/(nu - 4*M*Z), and the current of any lone mixing product by at most twice that. The DC currents that follow from two converged runs for one circuit, with any starts, dampings, matrix inverses and targets, differ by at most the sum of the two bounds.", "quantifier": "all circuits of one to four tones with one harmonic, response functions, truncations, matrix inverses, starts, dampings, targets and bias points; no second mixing product at the frequency in question; returned voltages without a 0/0 error", "why_tests_cant": "Tests compare the currents of a few simulations with stored values; how the stop criterion on voltages limits the error of currents for every circuit is not observable from any number of runs.", "anchors": ["qmix/qtcurrent.py:qtcurrent", "qmix/harmonic_balance.py:harmonic_balance"]}
{"id": "C177", "title": "The whole error of simulated currents, from target and truncation", "statement": "For tones without harmonics and a response function of at most M at the voltages summed over, if 4*M*Z is less than nu, Z being the sum of the impedances and nu the lowest photon voltage: the DC current, or that of any lone mixing product, that qtcurrent gives for the junction voltages v of a converged harmonic_balance differs from the one that a larger truncation gives for the voltages that balance the circuit exactly with that truncation by at most 4*M*(stop*(sum of the sizes of v) + nu*m)/(nu - 4*M*Z), m being the sum over the tones of the root of the probability, at v, of photon numbers left out by the truncation of the run.", "quantifier": "all circuits of one to four tones with one harmonic, response functions, truncations and larger truncations, matrix inverses, starts, dampings, targets and bias points; no second mixing product at the frequency in question; returned voltages without a 0/0 error", "why_tests_cant": "Tests repeat a simulation with a larger truncation and compare; the bound covers all larger truncations at once and needs only the results of the smaller one.", "anchors": ["qmix/qtcurrent.py:qtcurrent", "qmix/harmonic_balance.py:harmonic_balance"]}
{"id": "C178", "title": "Simulated currents converge as the truncation grows and the target shrinks", "statement": "For tones without harmonics and a response function of at most M at all voltages, if 4*M*Z is less than every photon voltage, Z being the sum of the impedances: for every bias point and every frequency with at most one mixing product there is one value such that, for every eps > 0, all converged runs of harmonic_balance with enough photons and a small enough stop_error give voltages for which qtcurrent returns a current within eps of it, whatever the start, damping, number of iterations and matrix inverse.", "quantifier": "all circuits of one to four tones with one harmonic, bounded response functions, frequencies with a lone mixing product, eps > 0, truncations and targets beyond the thresholds for eps, matrix inverses, starts, dampings and limits of iterations; returned voltages without a 0/0 error", "why_tests_cant": "A limit over unboundedly many truncations and targets cannot be reached by runs; tests only see that two settings agree to some digits.", "anchors": ["qmix/qtcurrent.py:qtcurrent", "qmix/harmonic_balance.py:harmonic_balance"]}
{"id": "C179", "title": "Simulated currents have no jumps along the bias sweep", "statement": "For tones without harmonics, a response function of at most M at the voltages summed over and slope at most L, if 4*M*Z is less than nu, Z being the sum of the impedances and nu the lowest photon voltage: the current of a lone mixing product that qtcurrent gives for junction voltages that balance the circuit changes between two bias points by at most 2*L*nu/(nu - 4*M*Z) times the difference of the bias voltages. For the voltages of a converged harmonic_balance this holds, for the DC current too, up to 4*M*stop*(sum of the sizes of the voltages at both points)/(nu - 4*M*Z).", "quantifier": "all circuits of one to four tones with one harmonic, response functions, truncations, pairs of bias points, matrix inverses, starts, dampings and targets; no second mixing product at the frequency in question; returned voltages without a 0/0 error", "why_tests_cant": "That simulated curves look smooth in the sampled examples says nothing about other circuits and sweeps; the bound on the slope excludes jumps for all of them.", "anchors": ["qmix/qtcurrent.py:qtcurrent", "qmix/harmonic_balance.py:harmonic_balance"]}
{"id": "C180", "title": "Simulated currents depend in proportion on the embedding circuit", "statement": "For tones without harmonics and a response function of at most M at the voltages summed over, if 4*M*Z is less than nu, Z being the sum of the impedances of one of two circuits and nu the lowest photon voltage: if the circuits differ only in their source voltages and impedances, the currents of a lone mixing product that qtcurrent gives for their balanced junction voltages differ by at most 4*M/(nu - 4*M*Z) times the sum over the tones of the difference of the source voltages and 2*M times the difference of the impedances. For converged runs of harmonic_balance the stop errors times the sizes of the voltages are added to that sum.", "quantifier": "all pairs of circuits with the same one to four tones, one harmonic and the same sweep, response functions, truncations, bias points, matrix inverses, starts, dampings and targets; no second mixing product at the frequency in question; returned voltages without a 0/0 error", "why_tests_cant": "Tests fix a few embedding circuits; that no small change of a circuit makes the result jump is a statement about all pairs of circuits.", "anchors": ["qmix/qtcurrent.py:qtcurrent", "qmix/harmonic_balance.py:harmonic_balance"]}
