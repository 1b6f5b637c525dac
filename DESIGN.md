# Formal model of QMix in Rocq (Coq 8.16.1)

The model lives in `rocq/theories`.  `/repo` was read as text only; nothing was run.

## 1. How the code is modelled

* **Shallow, branch by branch.** Every Python function becomes a Gallina function.
  Exceptions are values: a function that can raise returns `res A = Ok a | Err e`
  (`Base.v`), with one constructor of `e` per Python exception class used.  An access
  outside an array in numba-compiled code (which Python would not report) is the
  separate error `OutOfBounds`.  `NotModelled` marks branches whose result is not
  described (for instance a least-squares line through samples at one voltage); theorems
  about successful runs do not cover them.
* **Numbers.** Python/NumPy floats are modelled in one of three ways; each model file says
  which.
  * `R` (Coq's classical reals): exact arithmetic.  Rounding, overflow and NaN are *not*
    seen by these theorems.
  * `fl` (`Float.v`): reals extended by `+inf`, `-inf` and NaN, with the IEEE rules for
    special values and comparisons, exact on finite values, without a signed zero.  Used
    where NaN or infinities decide what happens (cleaning, errors of the harmonic balance,
    noise temperatures, the error surface, series resistance).
  * `rnd` (`Model_QtFloat.v`): binary64 rounding to nearest even (Flocq's `round` with the
    exponents of binary64; no overflow), for the decisions that qtcurrent takes with floats
    (C120-C122, C129).  round of a Python float is exact rounding to the nearest decimal followed by
    binary64 rounding; round of a NumPy float is rint(x * 1e4) / 1e4.
  * `rnd53` (`Model_QtRound.v`): rounding to 53 bits, to nearest even, without limits of the
    exponent.  It is used for all sums and products in the loops of the tunnelling current
    (C149); Bessel functions, phases and responses are exact there.
  * C56 models overflow of the polynomial model by comparison with 2^1024.
* **Complex numbers** are pairs (Coquelicot's `C` over `R`).
* **Integers** are unbounded `Z` / `nat`.  `round(x, d)` rounds half to even (`Round.v`).
* **Arrays.** 1-D data arrays are lists.  The multi-dimensional arrays of `qtcurrent` and of
  the circuit are index functions together with their axis lengths; element access goes
  through Python's negative-index rule and a bounds check.
* **State.** Objects are records; methods return the new record.  Where aliasing decides the
  outcome (arrays shared between the caller and harmonic_balance, the default parameter
  dictionary) the effect on the caller's object is explicit (returned state, or a heap).
* **External library calls** are either defined mathematically (DFT for
  `scipy.signal.hilbert`, normal equations for `polyfit` and `linregress`, `numpy.interp`,
  `numpy.convolve`, Bessel power series) or universally quantified parameters of the model:
  * `argsort`: any function that returns a sorting permutation (NumPy's default is not
    stable, so no more is assumed);
  * `scipy.optimize.minimize`: any function; `savgol_filter`: any function, exact on straight
    data where a theorem says so;
  * splines: any functions, for `check_error` any function;
  * matrix inverse: fails for singular matrices only, otherwise exact (C127: depends on the
    entries only);
  * Bessel functions: any `J : nat -> R -> R` (negative orders by the reflection formula),
    with `J_0(0) = 1`, `J_n(0) = 0` or the power series where a theorem says so;
  * the decimal text of a percentage in the progress bar: any function.

## 2. Files

`Base, Float, NumPy, Sums, Round, Bessel` - common definitions; `Model_*` - the code;
`Spec_*` - small independent specifications; `Proof_*` - lemmas; `Properties_*` - the property
theorems only, each followed by `Print Assumptions`, with `Example`s showing that the
hypotheses can be met.

| model | code |
|---|---|
| Model_QtCurrent | qmix/qtcurrent.py: qtcurrent, calculate_phase_factor_coeff, interpolate_respfn, the loop nests |
| Model_QtFloat | qmix/qtcurrent.py: the same functions with the selection of products and the integer limits in binary64 |
| Model_Circuit, Model_CircuitFile | qmix/circuit.py: EmbeddingCircuit, read_circuit |
| Model_HB | qmix/harmonic_balance.py: harmonic_balance, check_hb_error and helpers |
| Model_QtRound | qmix/qtcurrent.py: the same functions with rounded sums and products |
| Model_HBFloat | qmix/harmonic_balance.py with the selection of products in binary64 |
| Model_RespFn | qmix/respfn.py: RespFn and its subclasses |
| Model_IVModels | qmix/mathfn/ivcurve_models.py |
| Model_MathFn | qmix/mathfn/filters.py, misc.py, kktrans.py |
| Model_CleanData | qmix/exp/clean_data.py |
| Model_IVData | qmix/exp/iv_data.py |
| Model_IFData | qmix/exp/if_data.py, if_response.py |
| Model_ExpData, Model_Tucker | qmix/exp/exp_data.py (impedance recovery, summaries, option dictionaries, Tucker helpers) |
| Model_Objects | qmix/exp/parameters.py; qmix/exp/exp_data.py: the constructors of DCData and PumpedData |
| Model_Misc | qmix/misc/terminal.py, progbar.py |
| Model_Print | print_info and str of circuits; str and repr of DCData; header and pvale of qmix/misc/terminal.py |
| Model_Plots | qmix/exp/exp_data.py: the plot methods of DCData and PumpedData; qmix/respfn.py: plot, plot_interpolation |
| Model_Files, Model_Report | directories and files; qmix/exp/exp_data.py: plot_all, plot_overall_results, plot_if_spectrum, initialize_dir |

## 3. Plan per property

| id | property | model and proof |
|---|---|---|
| C01 | qtcurrent equals the multi-tone formula | Model_QtCurrent.v models all four loop nests with bounds-checked accesses; Spec_QtCurrent.v gives one recursive formula over a list of tones; refinement proof model = Ok spec. |
| C02 | Phase-factor coefficients are the truncated Jacobi-Anger convolution, with no wild index | Loop model with bounds checks; spec is a zero-extended convolution; induction on the harmonic number, plus an arithmetic lemma that the loop limits describe exactly the valid index set. |
| C03 | Compiled current loops stay inside their arrays | The loop models return OutOfBounds on a bad index; prove they never do for the internal matrix and for larger ones, and exhibit the bad read for a smaller one (`_refuted`). |
| C04 | No drive gives the unpumped I-V curve | Corollary of C01; needs J_0(0)=1, J_n(0)=0, which is proved for the Bessel power series. |
| C05 | Relabelling tones does not change any current | Fubini for finite sums on the spec, lifted by C01. |
| C06 | An idle tone is invisible | Delta coefficients collapse a sum; induction on tones; lifted by C01. |
| C07 | DC current is real, and negative frequencies give the conjugate | Pairing a with -a; rounding is odd; lifted by C01. |
| C08 | Time-shift covariance | Gauge covariance of the coefficients; lifted by C01. |
| C09 | Reversing bias and drive reverses all currents | Reindexing k -> -k; lifted by C01. |
| C10 | Currents are linear in the response function | Linearity of sums; lifted by C01. |
| C11 | Bias points are independent | The spec is pointwise in the bias index; lifted by C01. |
| C12 | Frequency list, scalar request and row order agree | Direct from the model of the top-level function. |
| C13 | Requests are resolved to 4 decimals only | Rounding lemma plus a witness where two tones are merged (`_refuted` for separation). |
| C14 | A precomputed response matrix can be reused | The matrix does not depend on the voltages; induction over a list of calls. |
| C15 | num_b forms agree | Case analysis; extra entries only proved harmless for num_p<=2 (they change the truncation otherwise). |
| C16 | Response matrix holds the response at every photon-shifted voltage | Loop-with-writes model; lemma on writes to distinct cells. |
| C17 | Tucker-theory helpers agree with qtcurrent | Both helpers modelled; sums compared. |
| C18 | Idle harmonics are invisible to one tone | Induction on the number of added harmonics. |
| C20 | Constructor accepts exactly the documented arguments and builds consistent arrays | State record and constructor model with the assertions as branches. |
| C21 | Available power round-trips in every unit | Algebra over R with sqrt and log10. |
| C22 | Setters touch one entry, failed setters touch nothing | Frame lemmas for list update, error branches return the old state. |
| C23 | set_freq units agree | Algebra; normalised values on a circuit without a gap are refuted. |
| C24 | Gap current is set whenever it is determined | Refuted for the gap-frequency form, proved for the voltage form. |
| C25 | A locked circuit does not change until unlocked | Invariant by induction over a list of operations. |
| C26 | save_info / read_circuit round trip | Character-level model of the writer and the parser; round-trip proof. |
| C27 | Bias sweep spans the requested range | linspace as a list; induction. |
| C28 | set_alpha yields the requested drive through the voltage divider | Algebra; exact for p=1, refuted for p>=2. |
| C29 | vph alias | Refuted: the property always raises AttributeError. |
| C31 | Reported convergence means balance | Loop invariant on the Newton iteration, over R, junction current arbitrary. |
| C32 | Iteration bound and flag | Induction on the loop; the converse direction refuted on the last iteration. |
| C33 | Undefined errors are never taken for convergence | Errors in `fl` (NaN and infinities); refuted with a witness, proved when the NaN is at the last signal. |
| C34 | Return type follows mode | Refuted for circuits without impedance, proved otherwise. |
| C35 | harmonic_balance does not modify its inputs | Explicit in-place effects (clamped sources, aliased initial guess); refuted plus exact description. |
| C36 | Locked circuits can be simulated | Refuted; exact condition proved. |
| C37 | Newton correction is exact on linear junctions | Finite-difference Jacobian model with a matrix-inverse oracle; linear algebra with finite sums. |
| C38 | Signals are paired with their own current | Index arithmetic. |
| C39 | check_hb_error accepts converged solutions | Proved for strict inequality, refuted at equality. |
| C40 | Convergence mask is sound | Loop invariant. |
| C41 | A signal without impedance keeps its source voltage | Loop invariant / early return. |
| C43 | Reflected I-V data is odd | List reversal lemmas. |
| C44 | Spline nodes are valid | Model of the index selection; sortedness and gap invariants. |
| C45 | RespFn accepts any I-V data meeting its documented preconditions | Refuted (uneven grids, too few points); exact acceptance conditions. |
| C46 | resp, resp_conj, resp_swap are consistent | Algebra. |
| C47 | Imported I-V data is resampled faithfully | Model of numpy.interp; zero-bias part refuted. |
| C48 | Gaussian smoothing preserves length, constants, bounds and symmetry | Model of padding, valid convolution and trimming; reversal needs a symmetric window, refuted otherwise. |
| C50 | Kramers-Kronig transform: linear, zero for a resistor, even for an odd curve | DFT-based model of scipy.signal.hilbert; kernel parity. |
| C51 | KK transforms reject uneven grids | kk_trans proved, kk_trans_trapz refuted. |
| C52 | Numerical derivatives are exact on straight lines | List models; index arithmetic. |
| C53 | slope_span_n is a centred difference | Refuted (n=1 raises; half-sample shift for quadratics). |
| C54 | All I-V curve models are odd and pass through the origin | Real analysis identities. |
| C55 | Ideal model values | Case analysis; integer arrays refuted. |
| C56 | Polynomial model bounds | Real inequalities; finiteness via an integer bound on powers against 2^1024. |
| C57 | Exponential model subgap resistance | Explicit exponential bounds. |
| C58 | Parameter precedence | Association-list model of dict updates. |
| C60 | Cleaned data is NaN-free and strictly increasing | Model over `fl`, any sorting permutation. |
| C61 | Matrix and x-y cleaning agree | Shared model on pairs. |
| C62 | Cleaning succeeds on all data | Refuted for fewer than two numbers and for repeated infinities; exact condition proved. |
| C64 | One pass of a hysteresis sweep | List model of the pass selection. |
| C66 | Series resistance correction | Model over `fl`; NaN case refuted. |
| C68 | Given offsets are used | Optimiser as an arbitrary function; refuted for bipolar data. |
| C70 | Rotation is invertible | Trigonometric identities. |
| C71 | Normal resistance and gap fits recover exact lines | Least-squares normal equations. |
| C73 | Y-factor analysis recovers noise temperature and gain | Algebra. |
| C74 | Noise temperature does not depend on power units | Algebra. |
| C75 | Best bias selection | argmax/argmin models. |
| C76 | Callen-Welton temperature | tanh inequalities. |
| C78 | IF response noise temperatures are clamped | List model; orientation ambiguity refuted for 3 points. |
| C80 | Impedance-recovery error is a least-squares residual | Cauchy-Schwarz. |
| C81 | Recovered impedance is the best on the grid | argmin model of the grid search over `fl`, on top of C80; flag refuted for a forced impedance, grid corner for one undriven sample. |
| C83 | Drive-level search | Invariant of the 15 halving steps, pointwise. |
| C84 | Fit-range options | Option record with explicit None; cuts reduced to a range; refuted for a missing cut_high. |
| C85 | Analysis defaults never change | Store model, induction over constructions. |
| C86 | Terminal output widths | String length arithmetic; digits of the percentage are an arbitrary function. |
| C87 | Doubles can be removed from any sorted column | List model of the column check; refuted for columns other than 0. |
| C88 | Default parameters of the response functions are the documented ones | Association-list model of the parameter dictionaries; the documented table is the specification. |
| C89 | check_error bounds the interpolation error | Signed maximum; refuted with an interpolation that is too high. |
| C90 | Slopes are available for every response function | None-valued splines; refuted for RespFnPerfect without smearing. |
| C91 | RespFnPerfect is the ideal curve, smeared once | Piecewise model; the smeared value at the gap compared with the single convolution. |
| C92 | Imported I-V curves and their metadata agree | Composition of loading, offset, normalisation and cleaning; pointwise along the list. |
| C93 | Filtering keeps straight I-V curves | Savitzky-Golay filter as any function exact on straight data; rotation there and back. |
| C94 | Noise temperatures are bounded or undefined | Y-factor algebra over `fl`. |
| C95 | Shot-noise calibration | Least-squares normal equations, scaling of a line. |
| C96 | Loaded IF powers | Linear interpolation and convex combinations. |
| C97 | IF response recovers the noise temperature | Powers of ten and Y-factor algebra. |
| C98 | Summary of a DC measurement | Algebra and linear interpolation. |
| C99 | Values at the best bias | argmin and least squares on a segment. |
| C100 | Printed numbers denote the values | Character-level model of fixed-point formatting; a reader for decimals as specification. |
| C101 | Recovered junction values | argmin over the step samples. |
| C102 | Coloured output keeps the text | String concatenation and table lookup. |
| C103 | Currents are bounded by the response function | Each index sum is bounded by the weights of the phase factors (Cauchy-Schwarz), which are partial sums of squared Bessel functions; these stay below 1. |
| C104 | Truncation error of the DC current | Split the larger sum; J_0^2 + 2 sum J_n^2 tends to 1 with an explicit rate, from the derivative of the partial sums. |
| C105 | Power balance of a pumped junction | Three-term recurrence of the Bessel functions term by term; C17 links the helpers and qtcurrent. |
| C106 | A resistor obeys Ohm's law | Second moment of the squared Bessel functions tends to x^2/2; the edge terms vanish. |
| C107 | Defaults are the documented ones | The documented table against the model of params; witness file. |
| C108 | Photon voltage | Inversion of the constructors, the CODATA constants. |
| C109 | Common bias grid | Inversion of the constructors. |
| C110 | What PumpedData analyses | Inversion of the constructors. |
| C111 | Attributes of PumpedData | The attribute names set on each branch, compared. |
| C112 | Units do not matter | Rescaling commutes with the cleaning of the data (over `fl`); the rest of the constructors is congruence. |
| C113 | Sweep direction does not matter | The pass selection undoes the reversal (C64's lemmas); congruence. |
| C114 | Row order of IF data does not matter | A sorted list without repetitions is determined by its elements. |
| C115 | The response function reproduces the measured curve | Composition of C47 with the mirror image of the curve. |
| C116 | Simulated currents converge | The coefficients decay faster than geometrically (power series of the Bessel functions), uniformly in the truncation; the multiple sum is then Cauchy. |
| C117 | Coefficients are those of the phase factor | Jacobi-Anger expansion by the derivative of its partial sums; the convolution over harmonics is a product of series. |
| C118 | Ohm's law at every frequency | The sums of a linear response factorise into overlaps and first moments of the coefficients, which are discrete Fourier averages of the phase factor. |
| C119 | Power balance | Recurrence between the coefficients from the derivative of the phase factor; multilinearity of the sums. |
| C120 | Limits of the coefficient convolution in double precision | Rounding is monotone and leaves small integers fixed, so truncation of the rounded quotient is the integer quotient. |
| C121 | Selection of mixing products in double precision | Error bounds of the products and sums (Flocq), then rounding to four decimals is constant off the ties. |
| C122 | A tone's own frequency selects it | Both roundings agree off the ties; 0.30025 computed exactly as a dyadic number. |
| C123 | Printed summary of a circuit | The loops build one block per tone and harmonic; the blocks are read back with an independent reader of decimal texts. |
| C124 | Numbers in scientific notation | Read back with an independent reader of scientific notation; exponent from the logarithm. |
| C125 | Printed summary of DC data | Read back line by line with the reader of decimal texts. |
| C126 | A junction never takes more than the available power | The balance equation turned into |i + v/z| = |vt/z| up to the error; then completing the square. |
| C127 | Bias points are solved independently | Induction over the iterations: currents and Jacobians at a point depend on that point only. |
| C128 | Restarting from a solution | C31's balance of the result makes the first error test succeed. |
| C129 | Harmonic balance in double precision selects the right products | Requests and products are the same dot product up to rounding errors; separation exceeds the rounding to four decimals. |
| C130 | Keyword arguments of the I-V analysis | C92 and C98 with the arguments read from the dictionary of the object. |
| C131 | Keyword arguments of the IF analysis | C94-C97 with the arguments read from the dictionary of the object. |
| C132 | Keyword arguments of the impedance recovery | C81 and C101 with the arguments read from the dictionary of the object. |
| C133 | Figure of the DC I-V curve | Inversion of plot_dciv; C64/C92 for the grids; fits as in C71.  Refutation: a file evaluated exactly. |
| C134 | Figures of the offset and of the IF noise | Inversion of the plotting functions; C76 for the 5.8 K/mV line. |
| C135 | Figures of the pumped I-V and IF data | Array lengths and grids of the objects make every step of the plotting functions succeed. |
| C136 | Figures of noise temperature and gain | The same; smoothing needs 31 samples (C48). |
| C137 | Figure of the simulated I-V curve | Inversion of plot_simulated; C15 for the result without an impedance; C29-C31 for the balance.  Refutation: a file evaluated exactly. |
| C138 | Figure of the error surface | C81's surface node by node.  Refutation: a file evaluated exactly. |
| C139 | Report of the DC data | A model of the disk; each step changes one entry. |
| C140 | Report of the pumped data | The same, with the folders that the dictionary selects. |
| C141 | Folders for results | Paths as lists of components; the name glued to a folder with a slash at its end is the path below it. |
| C142 | Overall results | Induction over the data sets for what is gathered; then the writes one by one. |
| C143 | Figures of IF spectra | Evaluation of the first step of the loop. |
| C144 | Figures of response functions | The arrays of an accepted object have the same length (C43, C44). |
| C145 | Numbering of the tones and choice of the inverse in harmonic balance | Simulation: the two runs keep renumbered voltages; a right inverse of the Jacobian forces the corrections, whatever the numbering. |
| C146 | Result of harmonic balance is the only one | A right inverse of a square matrix has a trivial kernel, so each correction is determined; induction over the corrections. |
| C147 | Automatic range of the shot-noise fit | The masks as functions of the position; the median by sorting.  Lines: all slopes over 11 points are equal, so the second derivative is the replacement of zero. |
| C148 | The offset search looks for the centre of symmetry | Interpolation of the reversed and negated samples is the negated interpolation at -t, so that the summed error is the asymmetry; at a centre of symmetry the curve is odd. |
| C149 | Rounding error of the tunnelling currents | A relation between a rounded number, the exact number and a bound of its size that sums and products preserve, with one more rounding each; loops by induction; the sizes obey the same formula. |
| C150 | The Kramers-Kronig transform approximates the principal value integral | Kernel: bounds of cot(x) - 1/x by the mean value theorem.  Integral: the integrand (f(V+u)-f(V-u))/u is Lipschitz, midpoint rule by induction over the panels, and the sum over the grid regrouped by odd distances. |
| C151 | Small-signal response of the tunnelling currents | J_0, J_1 and J_2 bounded from the power series for |a| <= 1; the higher orders by the sums of J_n^2 (at most 1) and n^2 J_n^2 (at most a^2/2); the recurrence turns J_n (J_(n-1) + J_(n+1)) into 2n J_n^2 / a. |
| C152 | Classical limit of the tunnelling currents | Taylor's formula with remainder at every photon step; the sums of J_n^2, n^2 J_n^2 and n^4 J_n^2 (1, a^2/2 and 3 a^4/8 + a^2/2); odd terms cancel; the term at the truncation vanishes because b^3 J_b J_(b+1) does. |
| C153 | Tables of the model response functions | The table is the reflected data (C43); both curves are odd; logistic functions of x and -x add up to 1. |
| C154 | The pumped I-V curve inherits order, slopes and gap | The direct current is a sum of values of the I-V curve with weights |C_k|^2 that are not negative (induction over the tones); for one harmonic the weights add up to the captured probability. |
| C155 | Photon steps of a pumped ideal junction | The direct current is the sum over n of J_n^2 times the I-V curve at V + n f (C71); the ideal curve is a slope between 0 and 1 plus the steps passed. |
| C156 | Messages of harmonic balance | The loop is written again with its output as a list of messages; erasing them gives the loop of Model_HB (induction over the iterations); the output is related to the iterates by induction over the remaining iterations. |
| C157 | Report of a response function | The constructors are written again as programs that print; erasing the messages gives Model_RespFn; the mask and the maximum are followed through for any list of samples. |
| C158 | Messages of the analysis of measured data | The constructors are written again as programs that print (Model_ExpPrint.v); erasing the messages gives Model_Objects; the transcript of every run that returns is computed from the attributes of the object. |
| C159 | Recovery of the circuit that has produced the data | The derivative of the current in the drive level is a sum of products of Bessel functions bounded by the sum rule of their squares, so the balance of the circuit moves by at most K over the error of the drive level; the grid search is at least as good as the true circuit (C81); a non-decreasing curve gives the current a positive real part by the recurrence. |
| C160 | Messages of the tunnelling-current calculation | The function is written again as a program that prints (Model_QtPrint.v); erasing the messages gives Model_QtCurrent; the output follows by cases on where the program stops. |
| C161 | A junction with a dominant first photon step gives back its drive level | Summation by parts writes the current as a sum of gains weighted by the probability of more than n photons, whose derivative is the product of neighbouring Bessel functions; power series with alternating bounds make these positive up to 9/4 and bound them, so the current rises and lies between two multiples of the squared drive level, which puts the first guess of the search within reach. |
| C162 | Drive levels that are not finite spoil the recovered circuit | The search for the drive level is written again over numbers with NaN and infinities (Model_RecoverAll.v) and agrees with Model_ExpData.v where that has a result; the level follows by cases on the first guess, and a sample without an impedance makes every error NaN, so that argmin takes the first point. |
| C163 | A circuit of the search range is recovered from inexact currents | The nearest grid point by rounding in each direction; the balance of the circuit at this point and at the found drive level differs from the source by the level error (C159's slope of the current), the current error (C161's lower bound of the slope in the squared level) and the distance to the grid times the current. |
| C164 | The recovered circuit agrees with the measured circuit on what the samples determine | Squaring the balance makes it linear in four unknowns; the weighted sum bounds the difference of two circuits; the fit of the recovered circuit (C163) bounds its balance at the found drive levels, and the slope of the current carries it to the true levels. |
| C165 | PumpedData returns for gains of either sign and best bias voltages anywhere on the curve | The summary at the best bias voltage is written again with NumPy's logarithm, quotient and fit (Model_PumpedAll.v) and agrees with Model_Objects.v where that has a result; the uniform grid of the I-V curve makes the samples of the fit distinct, so only the last sample needs the fit of one point. |
| C166 | harmonic_balance converges if the voltages across the embedding impedances hardly follow the junction voltages | The difference quotients of the Jacobian are within 3k/2 of the identity, so the Jacobian has no kernel and a correction leaves a share of the imbalance; a matrix without kernel has an inverse (Gauss); existence of the balance by iterating v -> source - z*I(v) and completeness of the reals; the relative error is below the target once the imbalance is small against the smallest voltage. |
| C167 | Circuits with small embedding impedances have one balance and harmonic_balance finds it | C168 gives the share k of C166 for small impedances; the balance is near the source voltages, which are at least 1e-10, so it is not zero. |
| C168 | Tunnelling currents are bounded and change at most in proportion to the junction voltages | A coefficient is J_n(|v|/a) times a phase; |J_n'| <= 1 and n|J_n(x)| <= |x| from the recurrences and the sum of squares, so it follows the voltage like |v|/a itself; induction over harmonics and tones carries the bound to the current. |
| C169 | Arrays of different length | By the lengths of the slices and NumPy's broadcasting rule (equal lengths, or one of length one). |
| C170 | One tone: bounds on current and impedance that do not depend on the truncation | The squared changes of the Bessel functions of all orders add up to at most the squared change of the argument (mean value theorem on their inner product; the squares sum to at most one), so the coefficients together follow the voltage like |v|/a; Cauchy-Schwarz carries this to the current; convergence by C166. |
| C171 | One tone: the balanced junction voltage converges as the truncation grows | The coefficients that the smaller truncation drops have squared sum 1 - P; Cauchy-Schwarz as in C170 bounds the change of the current, and C166 turns an imbalance into a distance to the solution; 1 - P vanishes uniformly on bounded drive levels, so the solutions are a Cauchy sequence. |
| C172 | Results of harmonic_balance hardly depend on the start and change little with the circuit | A converged run leaves at most stop times the voltages as imbalance; the difference of two sets of voltages is the difference of their imbalances plus that of the voltages across the impedances, of which the assumption takes a share k. |
| C173 | Tunnelling currents of several tones change no faster than the response function allows, and harmonic_balance converges for small impedances | Induction over the tones: the sum over one tone is a sum of products of two square-summable sequences (C170) weighted by the sums over the other tones, so changing one tone costs 2*M per photon step and the changes of the others pass through unamplified. The convergence follows with C166. |
| C174 | For several tones the truncations change currents and balanced voltages no more than the photons left out | Induction over the tones as for C173, with the coefficients of one truncation against those of the other in place of two voltages; what differs is the tail of the squared Bessel functions. The estimate adds the imbalance a converged run leaves; the limit is that of a Cauchy sequence, since the tails vanish uniformly for bounded drive levels. |
| C175 | Currents and balanced voltages change in proportion along the bias sweep | The sums over the photon numbers are linear in the response function and their weights are square-summable, so that moving the bias costs at most the rise of the response function; moving the junction voltages costs what C173 says. The balance equations at the two points are then subtracted. |
| C176 | Currents that follow from a converged run are accurate | The distance of a converged run from the exact voltages, by C166 and C172 with the slope of C173, counted in photon steps and multiplied by the slope of the current that C173 gives. |
| C177 | The whole error of simulated currents, from target and truncation | The current for v with the truncation of the run, against the larger truncation at v (C174), then against the exact voltages (slope of C173 times the distance that C174 estimates); the two parts of the truncation error add up to nu times what is left out. |
| C178 | Simulated currents converge as the truncation grows and the target shrinks | The currents of balanced voltages are a Cauchy sequence in the truncation: C174 for what is left out, uniformly because balanced voltages are bounded, and the slope of C173 for the voltages. A converged run is near the balanced voltages of its truncation, and its voltages are bounded if the target is small. |
| C179 | Simulated currents have no jumps along the bias sweep | C175 for the current with the voltages that change, and for the change of the voltages; the two contributions add up to the factor nu/(nu - 4*M*Z). |
| C180 | Simulated currents depend in proportion on the embedding circuit | The distance of the balances of two circuits by C172 with the slope of C173, the current being at most 2*M, then the slope of the current as for C176. |

## 4. What the model shows about the code

Behaviour that contradicts the documentation or the natural reading of a property.  Each item
is witnessed by a theorem whose name contains `refuted`, unless it is marked (note).

* **qtcurrent.** A supplied response matrix with a smaller num_b is accepted and read out of
  bounds or with wrong values (C03).  Extra entries of the num_b tuple change the truncation
  for three or more harmonics (C06, C15).  Tones closer than four decimals are merged, and a
  tone below 5e-5 with DC (C13).  A frequency next to a rounding tie such as 0.30025, requested
  as a number, selects nothing and the current is zero, while the list of it works: Python and
  NumPy round differently (C122).
* **circuit.** set_freq with normalised units needs a gap (the method `units.lower` is compared
  with a string, C23).  igap stays None when the gap is given as a frequency (C24).  set_alpha
  gives the drive alpha/p at harmonic p (C28).  vph always raises AttributeError (C29).
  print_info drops the imaginary part of the source voltage (C123).
* **harmonic_balance.** An undefined error at any signal but the last is swallowed by `max`
  and reported as convergence (C31, C33), also in its messages (C156).  Convergence in the last iteration is reported as
  failure, max_it=-1 as success (C32).  Circuits without impedance return bare voltages
  whatever the mode (C34).  Zero sources are clamped to 1e-10 in the caller's circuit and the
  guess is overwritten when num_f or num_p is 1 (C35).  Locked circuits raise ValueError (C36).
  check_hb_error rejects an error equal to the target (C39).  The mask may be one iteration old
  (C40).
* **respfn.** Reflected currents are odd only if the first current is 0, which is not checked
  (C43).  Data with at most 100 points or with fewer points in linear regions is never accepted,
  although the docstring asks for the latter (C45).  Imported data has a nonzero current at 0 V
  (C47), and measured currents at negative voltages are replaced by the mirror image of the
  others (C115).  Documented defaults differ (C88).  check_error takes the maximum of the signed error
  (C89), which is also the maximum error that is printed (C157).  RespFnPerfect has no slopes (C90), and smearing adds a peak at the gap (C91).
  The nodes of the Kramers-Kronig spline are chosen from the DC current (note).
* **mathfn.** The Gaussian window is lopsided when the radius is not whole (C48).  slope
  accepts three values of y with any longer x (C169).
  kk_trans_trapz accepts uneven grids (C51).  slope_span_n is off centre by half a sample and
  fails for n=1 (C53).
* **ivcurve_models.** Integer arrays truncate the value 1/2 at the gap and NumPy scalars other
  than float64 give None (C55).  The polynomial model is NaN at V=35 for orders from 100 (C56).
* **clean_data.** sort_xy drops the last values of a longer y (C169).  One point raises ValueError, two equal infinities AssertionError (C60, C62).
  remove_doubles_matrix checks column 0 whatever column is given (C87).
* **iv_data.** The series resistance correction makes NaN at zero current (C66).  Offsets given
  for DC data on both sides are not used (C68).  Given only one offset, pumped data ignores it
  (note).
* **parameters.** The default `vrn=(3.5e-3, 5e3)` is documented as (3.5e-3, 4.5e-3) and looks
  like a typing error for 5e-3; `voffset_range` is documented as half as wide (C107).  The
  docstrings of DCData and PumpedData list keyword arguments that nothing reads:
  voffset_sigma, ifdata_vmax, vgap_guess, igap_guess, vgap_threshold, rn_vmin, rn_vmax (note).
* **if_data, if_response.** Callen-Welton fails at zero temperature and is NaN at zero frequency
  (C76).  Spectra with three frequencies are ambiguous and zero cold power gives NaN (C78).
  Without freq the default None raises TypeError (note).  if_response uses physical load
  temperatures where if_data uses Callen-Welton temperatures (note).  Without vshot no sample of
  an exactly straight shot-noise line is found, since the second derivative is set to 1e-10
  everywhere and must be a hundred times smaller than its maximum; if no voltage exceeds 2 gap
  voltages the analysis then ends with ValueError (C147).
* **exp_data.** One sample on the photon step at or below the unpumped curve makes every error
  NaN and the first grid corner is returned; with a forced impedance the fit flag is that of the
  grid (C81).  fit_range=None without cut_high raises TypeError; without cut_low cut_high is
  ignored; the cuts are ignored unless fit_range is None (C84).  Without analysis PumpedData
  lacks err_surf, corr, gain_best, v_best and zj_if (C111).  If the best bias voltage is at the
  end of the curve, zj_if comes from a fit to one sample and is twice rn v / i, not a dynamic
  resistance; a negative gain gives g_db = NaN (C165).  The plot of the simulated curve
  takes cut_high where the recovery takes 1 - cut_high (note).
* **figures.** plot_dciv marks the leakage current at 2 mV whatever vleak is, and draws the line
  with the label of the subgap resistance around vleak (C133).  plot_yfac_noise_temp draws its
  reference line for loads at 293 K and 77 K whatever the temperatures are (C136).
  plot_simulated marks a wrong fit interval with cut_low and cut_high (C137); the note "Minimum
  Error at" of the error surface is not at the minimum if the impedance is given (C138).
* **exp_data, messages.** verbose=False does not silence PumpedData: the report of the recovery and the
  title of the IF analysis are always printed (C158).
* **reports.** DCData.plot_all does not draw the offset and the dynamic resistance that its
  documentation lists (note, see C139).  PumpedData.plot_all fails with the four documented keys
  of file_struc (a fifth is needed) and, without IF results, after its first figure; the
  documented figure of gain and noise temperature is not drawn (C140).  initialize_dir glues the
  names of the sub-folders to a name without a slash at its end (C141).  plot_overall_results
  stops half way with fewer than four sets of data or with unsorted ones, and at once if one
  set lacks IF results or a circuit (C142).  plot_if_spectrum cannot read any spectrum: it
  passes the name of the file where an array is needed; with its default fig_folder it fails in
  any case (C143).
* **misc.** printc shows the complex conjugate for negative imaginary parts, with two signs
  (C100).  The progress bar divides by zero for no iterations and grows beyond its width for
  too many (C86).

## 5. Not modelled

The looks of figures (colours, styles, sizes, legends' places; what they show is modelled as
lists of curves, marks, lines and labels),
errors of the file system other than missing directories
and empty names, time measurements (the messages of harmonic_balance and qtcurrent show them as parameters),
the messages of functions other than qtcurrent, harmonic_balance, check_hb_error, the response
functions, DCData and PumpedData, floating-point rounding (except where said) and array data types other than float
(except C55).

## 6. Trusted base

* The kernel of Coq 8.16.1 and its `coqchk`.
* The axioms listed below for each theorem.  They are the standard library's own; the
  development adds none.  Coquelicot and Flocq, the only other libraries used, have none.
* The reading of `/repo` embodied in the `Model_*` files, including the models of library
  functions listed in section 1, and the specifications in `Spec_*`.

## 7. Seeded wrong programs

`seeded/LOG.jsonl` holds one line per attempt, also for edits that survived or whose rebuild
stopped early.

* `claim` is the claim as written before the attempt.  The numbers in many early lines follow a
  draft numbering of the properties and do not match `properties.jsonl`.
* `named_property_failed` says whether a theorem of the property with that number failed.
* `outcome` says whether theorems failed, none did (survived), or the rebuild could not finish
  and nothing failed before (inconclusive).
* Lines without `outcome` are from the first attempts, recorded by hand.
* Where only a `_refuted` theorem failed, the edit was noticed by a counterexample and not by a
  positive statement.

Up to commit 780c254 this file was incomplete.  The script that wrote it left out survivors
without a tightened theorem and unbuilt attempts, and put the numbers of the theorems that
failed into the claims of 160 attempts.  The lines have been restored from the raw records.

The attempts whose number did not match were then compared, definition by definition, with the
property meant.  Three had no positive theorem of it failing: the choice of the exponential
model (now C153), the range of the offset search (C148 came later; run again) and an edit of
kk_trans that did not compile.  The restored survivors led to C44_table_values, C90_derivatives,
C100_pvalf and C100_pvalf_real.

Survivors of later attempts and what became of them:

* `cumsum_from` led to C44_curvature, `perfect_smeared` to C91_excess_partial.
* Writing undefined voltages and reading a file without its last newline were outside of C26;
  both are now part of it.  That an empty text is no number stays outside: no file written by
  save_info, with or without its last newline, has one.
* `initialize_vj` had no theorem; C20_initial_voltage is new.
* The specifications of the names that are understood in any case used the model's own
  `lower`.  They now use the relation of `Spec_Case.v`.
* `is_int` led to C20_rejected and C20_not_built, `select` to C47_lengths, `show_fl` to
  C136_number_text and C142_number_text, `title` to C86_title_printed and `resp_options` to
  C115_built; the edits were run again.
* `fmax2` without its test of the first argument for nan is the same function, as no
  comparison with nan holds.  `flog10` of infinity is outside of C136 and C138, whose gains and
  errors are finite.
* `base_name`, `before_underscore`, `lo_name`, `finite_freq` and the figure of `plot_if_spectrum` belong to code that no run
  reaches: the plot raises an error at the first file that it finds (C143).
* The second branch of `ideal_current` is never taken: the perfect I-V curve of a finite voltage
  is finite.
* `bcast` without its check of the lengths led to C169; the edit was run again.
* `bcast` accepting arrays of different length led to C169; the edit was run again and
  C169_derivatives fails.

How to read `failed`: in the scratch copy, a lemma whose proof no longer passes is assumed, and
every theorem that then depends on it is listed.  An edit usually breaks the lemma that a
function of the model equals its formula (see `failed_lemmas`), on which many theorems rest.  A
theorem in the list depends on the edited function; it need not be false of the edited program.

### Axioms per theorem

`Print Assumptions` of every theorem in `Properties_*.v`, abbreviated: F = `ClassicalDedekindReals.sig_forall_dec`, N = `ClassicalDedekindReals.sig_not_dec`, C = `Classical_Prop.classic`, E = `FunctionalExtensionality.functional_extensionality_dep` (all from the standard library; the first three and E come with the real numbers), - = closed under the global context.

| property | theorems |
|---|---|
| C01 | C01_multi_tone_formula (CEFN), C01_scalar_request (CEFN) |
| C02 | C02_phase_factor_coefficients (CEFN), C02_angle (CEFN) |
| C03 | C03_in_range (CEFN), C03_larger_matrix (CEFN), C03_smaller_matrix_out_of_bounds_refuted (CEFN), C03_smaller_matrix_wrong_value_refuted (CEFN) |
| C04 | C04_no_drive (CEFN), besselJ_like (lemma) |
| C05 | C05_relabelling (CEFN) |
| C06 | C06_idle_tone_partial (CEFN), C06_idle_tone_refuted (CEFN) |
| C07 | C07_negative_frequency (CEFN), C07_dc_real (CEFN) |
| C08 | C08_time_shift (CEFN), C08_one_tone (CEFN) |
| C09 | C09_reversal (CEFN) |
| C10 | C10_linearity (CEFN) |
| C11 | C11_bias_points_independent (CEFN) |
| C12 | C12_list_scalar_agree (CEFN) |
| C13 | C13_four_decimals (CEFN), C13_tones_not_separated_refuted (CEFN) |
| C14 | C14_matrix_reuse (CEFN) |
| C15 | C15_int_and_tuple (CEFN), C15_too_short (CEFN), C15_extra_entries_partial (CEFN), C15_extra_entries_refuted (CEFN) |
| C16 | C16_response_matrix (EF), C16_other_tone_counts (F) |
| C17 | C17_pumped_iv_curve (CEFN), C17_ac_current (CEFN) |
| C18 | C18_idle_harmonics_coefficients (CEFN), C18_idle_harmonics_one_tone (CEFN), C18_idle_harmonics (CEFN) |
| C20 | C20_constructor_domain (EF), C20_new_circuit (EF), C20_gap_consistent (EF), C20_shapes_kept (CEFN), C20_initial_voltage (F), C20_rejected (EF), C20_not_built (CEF) |
| C21 | C21_power_round_trip (CEFN), C21_setting_succeeds (CEFN), C21_unknown_units_raise (CEFN) |
| C22 | C22_set_freq (EF), C22_set_available_power (CEFN), C22_set_alpha (EFN), C22_set_name (-) |
| C23 | C23_units (EF), C23_units_agree (EF), C23_norm_partial (EF), C23_norm_refuted (EF) |
| C24 | C24_igap_partial (EF), C24_igap_refuted (EF) |
| C25 | C25_locked_unchanged (CEFN), C25_as_if_never_locked (CEFN) |
| C26 | C26_round_trip (EF), C26_second_time_exact (EF), C26_rounding (EF), C26_last_newline (EF) |
| C27 | C27_bias_sweep (EF) |
| C28 | C28_fundamental_partial (EFN), C28_harmonic_refuted (EFN) |
| C29 | C29_vph_refuted (-) |
| C31 | C31_convergence_means_balance_partial (CEFN), C31_last_signal (CEFN), C31_refuted (CEFN) |
| C32 | C32_iterations_partial (CEFN), C32_met_target_ends (CEFN), C32_refuted_last_iteration (CEFN), C32_refuted_negative_limit (CEFN), C32_refuted_extra_correction (CEFN) |
| C33 | C33_undefined_last_partial (CEFN), C33_refuted (CEFN) |
| C34 | C34_type_by_mode_partial (CEFN), C34_same_voltages (CEFN), C34_refuted (CEFN) |
| C35 | C35_circuit_partial (CEFN), C35_sources_after (CEFN), C35_guess_kept_partial (CEFN), C35_guess_overwritten (CEFN), C35_refuted_guess (CEFN), C35_refuted_source (CEFN) |
| C36 | C36_refuted (CEFN), C36_no_impedance_partial (CEFN), C36_unlocking_restores (CEFN) |
| C37 | C37_affine_correction (CEFN), C37_affine_run (CEFN), C37_undamped_exact (CEFN) |
| C38 | C38_numbering (EF), C38_own_current (CEFN), C38_check_current (CEFN) |
| C39 | C39_check_partial (CEFN), C39_converged_accepted_partial (CEFN), C39_refuted (CEFN) |
| C40 | C40_mask_partial (CEFN), C40_refuted (CEFN) |
| C41 | C41_converged_partial (CEFN), C41_one_correction (CEFN), C41_no_impedance_at_all (CEFN) |
| C43 | C43_voltage (EFN), C43_current_partial (EFN), C43_smeared_partial (EFN), C43_kk_even (CEFN), C43_refuted (EFN) |
| C44 | C44_nodes (EFN), C44_curvature (EFN), C44_table_values (CEFN) |
| C45 | C45_accepts_partial (EFN), C45_polynomial (EFN), C45_exponential (EFN), C45_from_iv_data (EFN), C45_rejects (EFN), C45_refuted_few_points (EFN), C45_refuted_uneven (CEFN) |
| C46 | C46_responses (EF) |
| C47 | C47_resampled_partial (EF), C47_nothing_left (EF), C47_refuted (EF), C47_lengths (EFN) |
| C48 | C48_accepted (EFN), C48_smoothing (EFN), C48_reversal_partial (EFN), C48_weighted_average (EFN), C48_refuted (CEFN) |
| C50 | C50_resistor_gives_zero (CEFN), C50_length (EFN), C50_affine (CEFN), C50_odd_to_even (CEFN), C50_kernel (CEFN), C50_analytic_signal (EFN), C50_trapezoid (CEFN) |
| C51 | C51_kk_trans_rejects (CEFN), C51_kk_trans_other_errors (EFN), C51_trapezoid_rejects_partial (EFN), C51_refuted (EFN) |
| C52 | C52_slope_exact (EF), C52_span_exact (EF), C52_no_zeros (EF), C52_sizes (EF) |
| C53 | C53_span_partial (EF), C53_refuted_parabola (EF), C53_refuted_single (EF), C53_slope_centred (EF) |
| C54 | C54_perfect_odd (EF), C54_polynomial_odd (EF), C54_exponential_odd (EFN), C54_expanded_odd (EFN), C54_model_names (EFN) |
| C55 | C55_ideal_values_partial (EF), C55_ideal_is_function (EF), C55_infinite (EF), C55_refuted (EF), C55_kk (CEFN) |
| C56 | C56_between (EF), C56_increasing (EF), C56_gap (EF), C56_finite_partial (EF), C56_refuted (EF) |
| C57 | C57_below_gap (CEFN), C57_above_gap (CEFN), C57_limits (CEFN) |
| C58 | C58_precedence (EF), C58_keys (EF) |
| C60 | C60_cleaned (EF), C60_again_partial (EF), C60_refuted (CEF), C60_any_algorithm (CEF) |
| C61 | C61_matrix (EF), C61_conversion (EF) |
| C62 | C62_succeeds_partial (CEF), C62_refuted (CEF) |
| C64 | C64_loaded (EF), C64_sweep (CEF), C64_mirrored (CEF), C64_single_pass (EF) |
| C66 | C66_corrected (EF), C66_none (-), C66_junction_partial (EF), C66_refuted (EF) |
| C68 | C68_one_sided_partial (EF), C68_two_sided (EF), C68_refuted (EF), C92_pumped_samples (EFN) |
| C70 | C70_rotate_back (EFN), C70_rotation (EFN) |
| C71 | C71_normal_line (EF), C71_subgap_line (EF), C71_least_squares (EF), C71_unique (EF), C71_gap_corner (EFN) |
| C73 | C73_recovers (CEFN), C73_measured (CEFN) |
| C74 | C74_given (CEFN), C74_shot (EFN), C74_any_calibration (CEFN) |
| C75 | C75_requested (CEFN), C75_max_gain (CEFN), C75_min_tn (CEFN), C75_unknown (CEFN), C75_value_error (CEFN) |
| C76 | C76_value (CEFN), C76_bounds (CEFN), C76_increasing (CEFN), C76_refuted_zero (EFN) |
| C78 | C78_clamped (CEFN), C78_orientation_partial (CEFN), C78_refuted_square (CEFN), C78_refuted_no_power (CEFN) |
| C80 | C80_least_squares (EFN), C80_exact (EFN), C80_zero_means_match (EFN), C80_never_negative (CEFN) |
| C81 | C81_best_partial (EFN), C81_runs (EFN), C81_forced (EFN), C81_flag_refuted (CEFN), C81_undriven_refuted (EFN) |
| C83 | C83_not_negative (EF), C83_finds (EF), C83_reach (EF) |
| C84 | C84_cuts_partial (EFN), C84_window (EFN), C84_low_missing (EFN), C84_cuts_ignored (EFN), C84_high_missing_refuted (-) |
| C85 | C85_defaults (-), C85_dc (-), C85_pumped (-), C85_frequency (-) |
| C86 | C86_title (-), C86_bar (EF), C86_nothing_to_do_refuted (-), C86_beyond_total_refuted (EF), C86_title_printed (-) |
| C87 | C87_unchecked_partial (EF), C87_refuted (EF) |
| C88 | C88_documented_partial (EF), C88_points_partial (EF), C88_refuted (EF) |
| C89 | C89_checked_partial (CEFN), C89_refuted (CEFN) |
| C90 | C90_slopes_partial (EFN), C90_refuted (CEFN), C90_derivatives (EFN) |
| C91 | C91_ideal_partial (CEFN), C91_excess_partial (CEFN), C91_refuted (CEFN) |
| C92 | C92_metadata (EFN), C92_dc_samples (EFN), C92_pumped_samples (EFN), C92_dc_plain (EFN), C92_pumped_plain (EFN) |
| C93 | C93_line (EFN), C93_off (-) |
| C94 | C94_bounds (CEFN) |
| C95 | C95_calibrated (EFN), C95_exact (EF) |
| C96 | C96_samples (EFN), C96_series (EFN), C96_drop (EF), C96_range (EFN), C96_accepted (EFN) |
| C97 | C97_recovers (CEFN), C97_units (CEFN), C97_no_signal (CEFN) |
| C98 | C98_summary (EF), C98_runs (EF) |
| C99 | C99_best_bias (CEFN) |
| C100 | C100_number (EF), C100_pvalf (EF), C100_printc_partial (EF), C100_printc_refuted (EF), C100_pvalf_real (EF) |
| C101 | C101_middle (EFN) |
| C102 | C102_cprint (-) |
| C103 | C103_dc_bound (CEFN), C103_ac_bound (CEFN) |
| C104 | C104_truncation_error (CEFN), C104_missed_probability (CEFN), C104_converges (CEFN) |
| C105 | C105_helpers (EFN), C105_passive (EFN), C105_qtcurrent (CEFN) |
| C106 | C106_ohm (CEFN) |
| C107 | C107_defaults_partial (EF), C107_refuted (EFN) |
| C108 | C108_photon_voltage (CEFN), C108_no_frequency (CEFN) |
| C109 | C109_common_grid (CEFN) |
| C110 | C110_analysed (CEFN) |
| C111 | C111_attributes_partial (-), C111_refuted (-) |
| C112 | C112_dc_units (EFN), C112_pumped_units (CEFN) |
| C113 | C113_dc_direction (EFN), C113_pumped_direction (CEFN) |
| C114 | C114_dc_if_order (EFN), C114_pumped_if_order (CEFN) |
| C115 | C115_response_partial (EFN), C115_refuted (EFN), C115_built (EFN) |
| C116 | C116_error (CEFN), C116_limit (CEFN) |
| C117 | C117_phase (CEFN), C117_series (CEFN), C117_probabilities (CEFN) |
| C118 | C118_ohm (CEFN) |
| C119 | C119_balance (CEFN), C119_passive (CEFN) |
| C120 | C120_integer_division (CEFN), C120_coefficients (CEFN) |
| C121 | C121_selection (CEFN) |
| C122 | C122_request_kinds_partial (CEFN), C122_own_frequency_refuted (CEFN) |
| C123 | C123_normalized_partial (CEFN), C123_units_partial (CEFN), C123_imaginary_refuted (CEFN) |
| C124 | C124_number (CEFN), C124_pvale_real (CEFN), C124_pvale_complex (CEFN) |
| C125 | C125_str (EF), C125_repr (EF) |
| C126 | C126_available_power (CEFN) |
| C127 | C127_same_count (CEFN), C127_selection (CEFN) |
| C128 | C128_restart (CEFN) |
| C129 | C129_harmonic_balance (CEFN), C129_check (CEFN) |
| C130 | C130_dc_curve (EFN), C130_dc_summary (EFN), C130_pumped_curve (CEFN) |
| C131 | C131_dc_if (EFN), C131_pumped_if (CEFN) |
| C132 | C132_recovery (CEFN) |
| C133 | C133_figure_partial (EFN), C133_drawn (EFN), C133_refuted (EFN) |
| C134 | C134_offset (EFN), C134_if_noise (EFN), C134_shot_line (EFN), C134_drawn (EFN) |
| C135 | C135_plot_iv (CEFN), C135_plot_if (CEFN), C135_plot_ivif (CEFN) |
| C136 | C136_noise_temp (CEFN), C136_noise_temp_drawn (CEFN), C136_yfac (CEFN), C136_yfac_drawn (CEFN), C136_gain_noise_temp (CEFN), C136_not_a_number (CEFN), C136_gain (CEFN), C136_no_if_results (EFN), C136_number_text (EF) |
| C137 | C137_simulated_partial (CEFN), C137_no_impedance (CEFN), C137_refuted (CEFN) |
| C138 | C138_surface_partial (CEFN), C138_refuted (CEFN), C138_no_recovery (CEFN) |
| C139 | C139_plot_all (EF), C139_nowhere (-) |
| C140 | C140_plot_all_partial (CEFN), C140_refuted_keys (CEFN), C140_refuted_no_if (CEFN), C140_other (CEFN) |
| C141 | C141_directories_partial (-), C141_refuted (-) |
| C142 | C142_overall_partial (CEFN), C142_refuted (CEFN), C142_refuted_incomplete (CEFN), C142_number_text (EF) |
| C143 | C143_nothing_partial (CEFN), C143_refuted (-), C143_refuted_default (-) |
| C144 | C144_figures (CEFN), C144_imported (CEFN), C144_perfect (CEFN) |
| C145 | C145_relabel (CEFN), C145_mask (CEFN), C145_inverse (CEFN) |
| C146 | C146_unique (CEFN) |
| C147 | C147_range (EFN), C147_hot_cold (EFN), C147_above (EF), C147_exact (EF), C147_found_partial (EF), C147_refuted_straight (EFN) |
| C148 | C148_search (EF), C148_centre (EF), C148_symmetric (EF), C148_line (EF) |
| C149 | C149_list (CEFN), C149_scalar (CEFN), C149_factor (EF), C149_one_product (CEFN) |
| C150 | C150_padding (CEFN), C150_integral (CEFN) |
| C151 | C151_dc (CEFN), C151_ac (CEFN) |
| C152 | C152_dc (CEFN), C152_ac (CEFN) |
| C153 | C153_polynomial (EFN), C153_exponential (EFN) |
| C154 | C154_order (CEFN), C154_monotone (CEFN), C154_slopes (CEFN), C154_gap (CEFN) |
| C155 | C155_photon_steps (CEFN), C155_plateau (CEFN), C155_one_step (CEFN) |
| C156 | C156_same_result (CEFN), C156_quiet (CEFN), C156_warning (CEFN), C156_no_warning_partial (CEFN), C156_transcript (CEFN), C156_done (CEFN), C156_refuted (CEFN), C156_check_same (CEFN), C156_check (CEFN), C156_text (CEFN) |
| C157 | C157_same_result (CEFN), C157_quiet (CEFN), C157_report (CEFN), C157_before_check (EFN), C157_refuted (CEFN), C157_perfect (CEFN), C157_text (CEFN), C157_names (-) |
| C158 | C158_same_result (CEFN), C158_dc (EFN), C158_pumped (CEFN), C158_heading (CEFN), C158_quiet_dc (EFN), C158_refuted (CEFN), C158_text (EF) |
| C159 | C159_explains (CEFN), C159_smooth (CEFN), C159_absorbs (CEFN), C159_refuted (CEFN) |
| C160 | C160_same_result (CEFN), C160_messages (CEFN), C160_early (CEFN), C160_many_tones (CEFN), C160_text (EF) |
| C161 | C161_rises (CEFN), C161_qtcurrent (CEFN), C161_finds (CEFN), C161_inexact (CEFN), C161_recovers (CEFN) |
| C162 | C162_agrees (EFN), C162_returns (EFN), C162_levels (EF), C162_spoiled (EFN) |
| C163 | C163_recovers (CEFN), C163_near (EFN) |
| C164 | C164_circuits (EFN), C164_unique (EFN), C164_recovers (CEFN) |
| C165 | C165_agrees (CEFN), C165_returns (CEFN), C165_best (CEFN), C165_cold (CEFN) |
| C166 | C166_contracts (CEFN), C166_one_solution (CEFN), C166_converges (CEFN), C166_how_many (CEFN), C166_accurate (CEFN) |
| C167 | C167_small_impedances (CEFN) |
| C168 | C168_proportion (CEFN), C168_coefficients (CEFN) |
| C169 | C169_derivatives (EF), C169_three_values (EF), C169_cleaning (EF) |
| C170 | C170_one_tone (CEFN), C170_converges (CEFN) |
| C171 | C171_current (CEFN), C171_estimate (CEFN), C171_converges (CEFN), C171_solutions (CEFN) |
| C172 | C172_same_circuit (CEFN), C172_two_circuits (CEFN), C172_solutions (CEFN) |
| C173 | C173_alternating (CEFN), C173_direct (CEFN), C173_converges (CEFN) |
| C174 | C174_current (CEFN), C174_estimate (CEFN), C174_converges (CEFN) |
| C175 | C175_current (CEFN), C175_solution (CEFN), C175_run (CEFN) |
| C176 | C176_dc (CEFN), C176_ac (CEFN), C176_same_dc (CEFN) |
| C177 | C177_ac (CEFN), C177_dc (CEFN) |
| C178 | C178_simulations (CEFN) |
| C179 | C179_solution (CEFN), C179_run (CEFN), C179_dc (CEFN) |
| C180 | C180_solutions (CEFN), C180_runs (CEFN) |
