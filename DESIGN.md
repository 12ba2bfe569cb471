# diamondback: formal model in Rocq - design

Source under study: /repo (larryturner/diamondback, python), read as text only.
Model and proofs: rocq/theories, Coq 8.16.1, logical name `Verif`.

## 1. How the model is built

* **Python function -> Gallina function.** Every definition in a `*Model.v` file
  carries a comment with the file and lines it models; simplifications are noted there.
* **Exceptions are values** (`res X := Ok x | Err e`, Base.v). A method that mutates
  returns `new_state * res output`, so the state left behind by a failing call is
  visible and can be reasoned about.
* **Arithmetic is a parameter** (`Arith`, Base.v). Theorems come in two strengths.
  * *Any arithmetic*: quantified over every `Arith`, with no law assumed. They hold for
    IEEE floats (including NaN, infinities) and for any order of summation inside
    `numpy.dot` / `sum`, because `dot` and `sum` are separate uninterpreted fields.
  * *Exact arithmetic*: assume `Laws A` (ring, division, sums, dtype conversions).
    Instances.v proves `Laws` for the reals, the complex numbers. These theorems say nothing about
    rounding error.
  * *IEEE binary64*: witnesses over Coq's primitive floats where the claim is about NaN etc.
* **numpy dtypes** are int64 / float64 / complex128; `cast dt v` is the value stored when `v`
  is assigned into an array of dtype `dt`. Integer overflow is not modelled.
* **External code is a parameter** with a stated contract (hypothesis of the theorem),
  see the trusted base below.
* **Spec files** (`*Spec.v`) hold the small independent specifications used in the theorem
  statements; `*Props.v` files hold only the theorems, each closed by `exact`, with
  `Print Assumptions`, and the non-vacuity examples.

## 2. Plan per property

"I" = induction/invariant over the loop or the operation history; "E" = algebraic identity in
exact arithmetic; "L" = law-free (any arithmetic); "R" = refutation witness.

| Properties | Modelled | Proof |
|---|---|---|
| C01-C07 FIR run time | ctor (explicit b,s), filter, reset as state machine | I: state after n samples = last N inputs then old state; C02 L by run/append; C03 E; C07 via cast, R witness |
| C08 FIR design | validation, 500-step search loop over an abstract `firwin`, complement, gain | I over the loop with fuel = 500 |
| C09 FIR response | rotation and axis, `freqz` by contract (samples of the transfer function) | index arithmetic, E |
| C10-C17 IIR run time | ctor, filter, reset | I: direct form II internal sequence; elimination of the internal state |
| C18 IIR design | _evaluate / normalisation over abstract poles | E |
| C19-C20 Integral, C21-C22 Derivative | tables, on top of IIR/FIR models | E, finite differences of monomials |
| C23-C27 Rank | filter, argsort by contract (sorting permutation) | I; order statistics by counting |
| C28-C31 PID | filter over ordered arithmetic with optional limit | I; IEEE case over SpecFloat/PrimFloat |
| C32-C33 Window | filter, normalisation, get_window by contract | E |
| C34-C36 Goertzel | block loop over the IIR model | I |
| C37-C40 ComplexExponential | phase accumulation and wrap | I; E over R and C |
| C41-C47 adaptive filters | filter loops | I; geometric convergence in C |
| C48-C52 Polyphase | loop with fuel, row selection | I; termination measure |
| C53-C57 Polynomial | order 1 interp; higher orders with polyfit by contract (least squares) | I; E |
| C58-C63 Wavelet | bank, 1-D/2-D recursion | I on count; E |
| C64-C68 ZTransform | coefficient path after roots/residue (contract) | E; polynomial products; complex modulus |
| C69-C72 ComplexTransform | matrices and shapes | E |
| C73-C80 PSD / Fourier | frames, DFT as explicit sum, rotations | E; orthogonality of roots of unity |
| C81-C89 Gaussian models | fit/predict with inv, sklearn by contract | I; sorting; positive definiteness |
| C90-C96 Diversity | fit loop, clear, distances | I |
| C97-C101 Log | state machine over loguru registry model; small-step threads with a lock | I; simulation |
| C102-C104 RestClient | string handling and request building | structural |
| C105-C109 Serial | base-85 exactly; gzip, pickle, codecs by contract | I; bounded digit arithmetic |
| C110-C111 IIR design, bilinear | as C18 and C64, prototypes explicit | Hurwitz argument; polynomial identities |
| C112-C113 transforms | as C69-C80 | E |
| C114-C118 models | as C81-C96 | I; E |
| C119-C124 Log, RestClient, Serial | as C97-C109 | I; R witness |
| C125-C127 response and delay | freqz and group_delay from their documentation | derivative of a rational function on the unit circle; R witness |
| C128 roots | numpy.roots, argsort by contract | degrees; permutations |
| C129-C131 stability | endless signals as functions of time, over exact complex numbers | factor the recursion into one-pole steps; induct over the poles |
| C132-C134 magnitude | \|H\|^2 of designed Butterworth and Chebyshev filters as functions of the angular frequency; error of the 500-step search | product of (x - p)(x - conj p) over distinct roots equals 1 + x^2n or 1 + e^2 T_n^2; no step overshoots (Bernoulli), so 500 steps of at least the best error fit below the exact scale |
| C135-C137 rounding | the FIR/IIR model in complex arithmetic with perturbed operations (relative u, absolute eta) against the exact run; Flocq's double rounding as instance; PrimFloat run | local error of one recursion step, fed through the poles one at a time (bound up to a time, strong induction), then output perturbation |
| C138-C141 references | HeapModel: a heap of arrays shared by the caller and any number of filter objects, getters and setters of a, b, s, filter and reset as reads and writes of the heap; HeapSpec: value semantics | simulation: live references are pairwise distinct, so the heap run and the value run agree step by step; counterexample programs |
| C142-C143 cascades | filters at rest as quotients of power series (CascadeSpec: Cauchy product) | den a * y = b * x, associativity and cancellation of the Cauchy product, uniqueness of the output (C10) |
| C144 Rank | as C23-C27 | counting samples of the window by magnitude |
| C145-C147 doubles | FIR/IIR model over PrimFloat doubles with numpy.dot any summation tree (DoubleSpec `dots`, optional fused multiply-add); values by Flocq's B2R | induction over the summation tree (finite + error bound, or NaN); state invariant for NaN; strong induction with the poles one at a time for no overflow |
| C148-C152 adaptive filters | CBandModel over C, IirFilter over C, scipy.signal.hilbert by its DFT definition for the refutation | the error satisfies the notch difference equation, unique solution; geometric transients; exponential averages stay in convex cones of directions |
| C153-C155 smooth signals | DerivativeFilter, IntegralFilter, PolynomialRateFilter over R | Taylor's theorem with remainder bounds in both directions, exactness of the tables and fits on polynomials; integrals through an antiderivative |
| C156 linear invariance | GaussianModel over R | congruence of the covariance matrices, Mahalanobis distance through the kernel of a positive definite matrix |
| C157 PidFilter executions | PidModel over R, IIR model | unique solution of the difference equation; invariant on the integral; Cesaro means for the offset |
| C158-C159 threads | ThreadModel: methods as sequences of accesses to the object, arbitrary interleaving; completing a call without interruption is shown to be the sequential model | invariant: what is left of a thread's call, completed on its object, gives the sequential result; refutations by explicit schedules |
| C160 designed FIR filters | FirwinModel: windowed sinc scaled to unit sum, put into fir_design | symmetry of window and sinc; induction over the search with positive scale |
| C161 several wavelet levels | WaveletModel over R; spec: returns, scaled_delay | linearity of one level, induction hypothesis for the low band; witness impulse, two non-zero samples |
| C162 Goertzel on tones | GoertzelModel over C; spec: ctone, rtone, kernel, reports | C34 with geometric sums; both sidebands of a real tone |
| C163 shared polyphase bank | PolyThreadModel: code of accesses to B, arrays, instances | rely-guarantee invariant over all interleavings; spec: one thread alone with the finished bank |
| C164 Goertzel with windows | WindowModel and GoertzelModel; spec: lobe, ctone | spectra of cosine windows by orthogonality of roots of unity; C33, C162 |
| C165 RankFilter in doubles | RankModel over PrimFloat with numpy's order; spec: float_window, many | counting in the sorted window; key of the order through Flocq |
| C166 PolynomialRateFilter as an operator | PolynomialModel; spec: comb, gain_bound | weights of the least-squares fits (C155), windows of the padded signal |
| C167 FourierTransform laws, PsdTransform energy | DftModel; spec: mirror, circular, frame, sinusoid, power | rotations of sums, Parseval, orthogonality of roots of unity |
| C168 what the Gaussian classifiers maximise | GaussModel, GmmModel; spec: spread, normal, likelihood, before, moved | inverse is antitone on positive definite forms; density bounds |
| C169 phase of ComplexExponentialFilter in doubles | CExpModel at PrimFloat; spec: fmod_exact, sign_exact, frequencies, dyadic | Sterbenz and a bound that saturates at 2^53 |
| C170 PolyphaseRateFilter in doubles | PolyphaseModel at PrimFloat; spec: rounds, window, output_double, fits, room | loop invariant on position plus rows consumed; integer subtraction is exact |
| C171 PolynomialRateFilter in doubles | PolynomialModel at PrimFloat; spec: truncates, piece_double, lines, line_ext, suits, roomQ | loop invariant on position plus samples consumed; Lipschitz bound for lines |
| C172 DiversityModel with NaN and infinity | DivModel at PrimFloat; spec: counts, smallest, every, but, rises, dead, bad, in_use | search folds over an order with NaN; sign and NaN case analysis of the distances; dead rows held invariantly |
| C173 PidFilter in doubles | PidModel at PrimFloat; spec: kept, sumR, usedF | absorption of small terms (Flocq pred/succ); induction over samples with error accumulation; dots_good |
| C174 Haar transform in doubles | WaveletModel at PrimFloat; spec: fixed, bounded, same, close, real transform | dot products exact on a grid (dots_grid); line approximation lifted to all levels (WaveletLift) |
| C175 fixed-point data in doubles | FirModel and CalculusModel at PrimFloat; spec: multiple, sample, convolution over R | dots_grid; dots_units: partial sums stay in {-2..2} units; gam, und bounds |
| C176 IntegralFilter in doubles | CalculusModel and IirModel at PrimFloat; spec: sums, ledger, weighted | dots_units and dots_ones: feedback and order 0 round once; induction on the state as ledger of sums; dots_good for the weights; nearest_absorb |
| C177 lists in attributes | ListModel: list or array registers and coefficients; spec: sig, iir_filter of the array | induction on the signal with registers of the same kind; step equations beside those of FirProofs and IirProofs |
| C178 PidFilter, complex | PidComplexModel: PidModel over C with the magnitude in the test; spec: terms, disc, rotation, parts | step equation on triples; induction on the signal; Cmod_mult for rotations |
| C179 ZTransform, shared memory | ZViewModel: the array and two slices, divisions as writes; spec: z_transform on copies | read-over-write lemmas for slices; counterexample evaluated for any routine that solves linear equations |
| C180 derivative of integral | the two filters in series; spec: windowed signal and partial sums of the coefficients | summation by parts; power-series commutation; fixed-point exactness for doubles |
| C181 ComplexTransform in doubles | the two matrix products in IEEE doubles; spec: projections on three axes | error bound of a three-term dot product with perturbed coefficients; Lipschitz constants of the two exact maps |
| C182 adaptive filters, bad samples | AdaptDoubleModel: both filters on pairs of doubles; spec: NaN and non-finite parts | absorption lemmas of IEEE operations; invariant 'coefficient is NaN' over executions |
| C183 Serial.code, encodings | codecs of SerialModel; spec: inductive bit patterns of the RFCs | inversion of shifts by Euclidean equations; induction on texts and strong induction on byte strings |
| C184 constructors and setters accept exactly their ranges; NaN passes | CBandModel, CExpModel, PidModel, PolyphaseModel, PolynomialModel, GmmModel / `checked` in RangeProps | case analysis on the comparisons |
| C185 Bessel prototype, flat delay and poles | ZModel / `bessel_coef`, `bessel_value` in BesselProps | recursion to closed form; Wronskian identity for the phase slope |
| C186 shape of the windows | WindowModel, FirwinModel.window_point / `documented`, `bessel_i0` in WindowShapeProps | monotone cosine; termwise comparison of the I0 series |
| C187 Goertzel outputs are local to their block | GoertzelModel / `in_block`, `any_orderC` in GoertzelDoubleProps | invariant over blocks; NaN propagation through the registers |
| C188 NaN settings of the adaptive filters | AdaptDoubleModel, CExpModel / `admitted_double`, `ruined` in NanSettingsProps | comparison lemmas of Flocq; invariant: the phase is NaN |
| C189 one bank for all PolyphaseRateFilter objects | SharedBankModel / `alike`, `blank`, `designed` in SharedBankProps | simulation between the program and its projection to one name |
| C190 NaN and infinite samples in GaussianModel | GaussModel / `inv_nan`, `before` in GaussDoubleProps | propagation through mean, covariance and quadratic form |
| C191 line voltages in doubles | CTransLineModel / `gain_ok`, `line_factor`, `phase` | rounding errors in units of 2^-53 M through Smith's division |
| C192 wavelet locality | WaveletModel / `place`, `looks_at`, `reaches` | induction over the levels, windows compose |
| C193 rows of PsdTransform | DftModel / `leak`, `wave_at` | sums over the frame, triangle inequality |
| C194 rows and columns | WaveletModel / `linear_on`, `getR` | lines are linear maps with kernels, sums commute; induction over the levels |
| C195 models and threads | DivThreadModel / `offered`, `known`, `answer`, `samples_held` | rely-guarantee over the accesses of fit: `keeps`, `shared_kept` |
| C196 shared filters | ThreadModel, RankThreadModel / `register`, `heard`, `fir_answer`, `rank_answers` | rely-guarantee (`keeps`, `shared_kept` of C195) |
| C197 shared GoertzelFilter, IirFilter | ThreadModel, GoertzelThreadModel / `shaped`, `same_shape`, `gz_answer`, `iir_answer` | rely-guarantee, lifted from IirFilter to GoertzelFilter (`on_giir_keeps`) |
| C198 shared PidFilter | ThreadModel / `a_sample`, `an_integral`, `a_difference`, `three`, `pid_answer` | rely-guarantee; unboundedness by induction on the number of rounds of a schedule (`race`) |
| C199 inexact FFT | DftApproxModel / `fft_close`, `ifft_close`, `loudness` | triangle inequality on top of C73-C80 |
| C200 complex samples, real coefficients | FirModel, IirModel, WaveletModel / `casts`, `real_part`, `real_parts` | a line operation only sees real parts; lifted through blocks and levels |
| C201 shared ComplexExponentialFilter | CExpThreadModel / `held`, `as_alone` | rely-guarantee; schedule constructed symbolically |
| C202 shared RestClient | RestThreadModel / `request_of`, `answered`, `url_known` | rely-guarantee; schedule constructed symbolically |
| C203 shared GaussianMixtureModel | GmmThreadModel / `class_known`, `estimated`, `answer_ok` | rely-guarantee; schedules symbolic and computed |
| C204 shared ComplexFrequencyFilter | CFreqThreadModel / `a_coefficient`, `a_state`, `reported` | rely-guarantee; n threads in waves, symbolic |
| C205 shared ComplexBandpassFilter | CBandThreadModel / `had_coefficient`, `tone`, `bp_reported` | rely-guarantee; n threads in waves, symbolic |
| C206 shared PolynomialRateFilter | PrateThreadModel / `between`, `fitted`, `pr_answer` | rely-guarantee; schedules computed |
| C207 shared PolyphaseRateFilter | PphaseThreadModel / `pp_value`, `pp_sample`, `pp_answer` | rely-guarantee; schedule computed |

Nothing is classified as inexpressible.

## 3. Trusted base

* Coq's kernel (8.16.1) and `vm_compute` (used for witnesses).
* Axioms: the ones Coq's standard library uses for the classical reals, plus the native float
  primitives/axioms where a theorem speaks about IEEE floats; `Print Assumptions` is run under
  every property theorem and the result is summarised in section 5.
* The reading of the source: the model is tied to the code only by the cited lines.
* Contracts assumed of external code: listed in section 4.

## 4. External contracts and parts not modelled

External code is never given axioms.  It is either a parameter of the definition (nothing
assumed), a parameter with a contract that appears as a hypothesis of the theorem, or a
definition written from the documented behaviour (marked D: then the definition itself is
trusted).

| Code | External code and how it enters | Not modelled |
|---|---|---|
| FirFilter | `firwin`: parameter, no contract (NaN = `None`); for C160 D as windowed sinc (`numpy.i0`: parameter); `freqz`, `group_delay` D; `numpy.roots`: parameter with contract | numpy views (arrays given to setters: HeapModel.v, lists: ListModel.v); str/object arrays; non-ASCII style names; integer overflow |
| IirFilter | `numpy.roots`, `scipy.signal.residue`: parameters, contract "returns the roots of the prototype" where stability is claimed; `freqz`, `group_delay` D | a list given to the setter of a with one register (arrays: HeapModel.v, other lists: ListModel.v); a failing call inside the search keeps only the exception |
| Integral-, DerivativeFilter | none | - |
| RankFilter | `numpy.argsort`: parameter, contract "sorting permutation" | complex NaN ordering |
| PidFilter | none | complex samples with real gains (complex gains: PidComplexModel.v); the raw setter of b |
| WindowFilter | `scipy.signal.get_window`: parameter; contract (cosine sum formula) only for the zero-window theorems, the documented formulae for C186 | 2-D input beyond the shape check |
| GoertzelFilter | WindowFilter as above; `cos`, `exp`, `isclose`, `ceil`: parameters, instantiated D over the complex numbers; in doubles the dot product is any order of complex sums (`any_orderC`, C187) | - |
| ComplexExponentialFilter | `exp`, `fmod`, `sign`: parameters, instantiated D over the reals; the NaN theorem holds for any `fmod` that maps NaN to NaN; threads: CExpThreadModel.v | magnitude of complex input (only its imaginary parts are checked first) |
| ComplexBandpass-, ComplexFrequencyFilter | `exp`, `angle` D over the complex numbers; `scipy.signal.hilbert`: parameter, no contract; in doubles (AdaptDoubleModel.v) all parameters; both as accesses for threads (CBandThreadModel.v, CFreqThreadModel.v) | accuracy in doubles; b and s with more than one element |
| PolyphaseRateFilter | `round`, `isclose`, `firwin`: parameters; in exact arithmetic rounding is D; as accesses for threads (PphaseThreadModel.v) with a bound on idle iterations | complex input (raises TypeError) |
| PolynomialRateFilter | `polyfit`: parameter, contract "a least-squares solution" (order 4: minimum-norm solution D); as accesses for threads (PrateThreadModel.v) `linspace` a parameter, contract only for the uninterrupted call | division by a rate of zero at order one |
| WaveletTransform | none; the coefficient table is copied verbatim | - (complex input: C200) |
| ZTransform | `numpy.roots`, `residue`: parameters, contracts per theorem; `numpy.poly`, `convolve` D | complex coefficients (u and v sharing memory: ZViewModel.v) |
| ComplexTransform | `numpy.linalg.inv` of a fixed 3x3 matrix D; in doubles (C181) a parameter with an accuracy contract, as is `3.0 ** 0.5`; with line voltages (C191) GAIN and the complex division D (Smith's) | integer and object dtypes |
| PsdTransform, FourierTransform | `fft` / `ifft` D as the explicit sum, C199 any function close to it; `isclose` D | accuracy of the FFT (C199) |
| GaussianModel | `numpy.linalg.inv`: parameter, contract "inverts invertible matrices", in doubles (C190) "NaN in, NaN out"; `argsort` contract; `set` of labels D as sorted distinct labels | rounding in the covariance |
| GaussianMixtureModel | `sklearn` fit: parameter, no contract (one theorem: fails on too few samples); `exp` D; `argsort` contract; threads: GmmThreadModel.v | replacing self._model between the two halves of self._model.append |
| DiversityModel | `isclose`, the sentinel and the distances: parameters; the four distances D over the reals; threads: DivThreadModel.v | `clear` while another thread fits; NaN samples in the order theorems (C172 treats them) |
| Log | loguru registry D (handlers, ids, levels, enable/disable); `str.upper` ASCII D; the lock D as mutual exclusion | formatting of the time prefix; asynchronous sinks |
| RestClient | `requests`: parameter (a function of the history and the request); `str.lower/strip` ASCII D; threads: RestThreadModel.v | streaming, redirects, sessions |
| Serial | `base64.b85encode/b85decode` D; `gzip`, `pickle`: parameters with round-trip contracts; codecs: parameters, with utf-8/ascii/latin-1/utf-16 D | `hashlib` (a parameter) |

Python's `int` is unbounded (`Z`); recursion limits, memory, warnings and KeyboardInterrupt are
not modelled anywhere.

## 5. Assumptions reported by the kernel

Generated by `tools/assumptions.py` from `Print Assumptions` on every theorem of
MANIFEST.json.  All are axioms or primitives of Coq's standard library: the classical reals
(`sig_forall_dec`, `sig_not_dec`, `functional_extensionality_dep`, `classic` and the choice
axiom used by Coquelicot where listed), primitive floats and 63-bit integers with their
specifications.  The libraries Coquelicot and Flocq are used, they add no axiom.

<!-- assumptions:begin -->
**Group 0** - closed under the global context (no axiom)

Theorems (220): C01_fir_convolution, C01_fir_window_any_arithmetic, C02_fir_chunks, C03_fir_superposition, C04_fir_reset_steady, C05_fir_construction, C06_fir_history, C07_fir_quantised, C07_convolution_refuted, C10_iir_difference_from_rest, C10_iir_fresh_is_at_rest, C11_iir_difference_any_state, C11_iir_early_samples_refuted, C12_iir_chunks, C13_iir_superposition, C14_iir_reset_steady, C15_iir_reset_steady_iff_unit_gain, C15_iir_reset_steady_refuted, C16_iir_construction, C17_iir_zero_a_is_fir, C19_integral_orders, C22_derivative_pairs, C24_rank_from_window, C24_rank_after_reset, C25_rank_chunks, C26_documented_dilation_refuted, C26_signed_median_refuted, C27_rank_index_in_window, C27_rank_constructor, C29_pid_integral_below_limit, C30_documented_clamp_refuted, C30_pid_hold, C30_integral_within_limit_refuted, C32_window_product, C32_window_rejects, C32_window_stateless, C32_window_constructor, C40_cexp_rejects, C48_polyphase_terminates, C57_polynomial_rate_zero, C59_wavelet_shape, C81_gauss_ranking, C82_gauss_predict_rows, C82_gauss_predict_pure, C82_gauss_predict_rejects, C83_gauss_fit_replaces, C85_gauss_validation, C85_gauss_unhashable, C85_gauss_midway, C85_gauss_predict_after_failure, C88_gmm_ranking, C88_gmm_predict_pure, C88_gmm_predict_rows, C89_gmm_validation, C89_gmm_midway, C89_gmm_too_few, C90_div_monotone, C90_div_climbs, C90_div_clear, C91_div_one_row, C91_div_fills, C91_div_observed, C92_div_swap, C92_div_min_exists, C93_div_kept, C93_div_phases, C93_div_lower, C93_div_loss_refuted, C94_div_chunks_refuted, C94_div_chunks, C94_div_reachable, C96_div_clear, C96_div_order, C96_div_dead, C97_log_threshold, C97_log_unusable, C97_log_level, C98_log_one_handler, C98_log_foreign, C99_log_stream, C99_log_kept, C99_log_delivers, C99_log_lazy, C99_log_lost, C100_log_level_fails, C100_log_stream_fails, C100_log_stream_refuted, C100_log_write_fails, C101_log_serial, C101_log_prefix, C101_log_progress, C102_rest_url, C102_rest_slashes, C103_rest_method, C104_rest_live, C104_rest_live_status, C105_base85_round_trip, C105_base85_injective, C106_serial_round_trip, C106_serial_errors, C107_base85_text, C107_serial_text, C108_base85_accepts, C108_serial_decode_rejects, C108_serial_arguments, C109_ascii_compatible, C109_utf16_decode, C109_utf16_encode, C117_div_order_zero, C118_div_rejects, C118_div_make, C119_log_text, C119_log_own_traceback_refuted, C120_log_foreign_refuted, C120_log_first_stream, C121_rest_outcome, C121_rest_no_url, C122_base85_trailing, C122_base85_unique_refuted, C123_serial_masked_error, C124_serial_same_text, C138_tidy_programs, C138_constructors_copy, C138_value_models, C139_caller_sees_state, C139_one_delay_line, C139_assignment_copies_refuted, C140_switch_b, C140_switch_a_refuted, C140_unequal_lengths, C140_empty_arrays, C140_failed_call_harmless_refuted, C140_state_dtype, C141_rank_short_state, C141_poly_unequal_state, C142_iir_cascade, C142_iir_cascade_exists, C142_iir_order, C142_fir_cascade, C142_iir_parallel, C142_iir_inverse, C142_fir_inverse, C143_iir_time_invariance, C143_fir_time_invariance, C143_any_state_refuted, C157_pid_chunks, C157_pid_superposition_refuted, C158_filters_of_one_thread, C158_filters_never_wait, C158_shared_filter_refuted, C158_shared_integral_refuted, C159_gauss_shared_predictions, C159_predict_during_fit_refuted, C159_two_fits_refuted, C163_bank_race, C163_bank_finished, C177_fir_arrays, C177_fir_list_b, C177_fir_list_s, C177_list_s_like_array_refuted, C177_fir_reset_list, C177_iir_list_b, C177_list_b_like_array_refuted, C177_iir_list_a, C177_iir_reset_list, C177_iir_reset_array, C177_fir_empty, C180_order, C183_utf8, C183_utf16, C183_code_injective, C183_code_ascii, C183_code_errors, C183_code_machine_refuted, C184_iir_dtype, C184_gmm_refusals, C184_poly_reset, C189_separate, C189_write_shared, C189_rebuilt, C189_separate_refuted, C190_other_classes, C192_places, C192_forward, C192_inverse, C194_line, C195_model_of_one_thread, C195_shared_rows, C195_shared_count, C195_lost_sample_refuted, C195_gap_refuted, C195_diversity_falls_refuted, C195_diversity_wrong_refuted, C196_shared_fir, C196_rank_of_one_thread, C196_shared_rank, C196_rank_order_refuted, C196_rank_largest_refuted, C197_shared_iir, C198_shared_pid, C198_limit_refuted, C200_filters, C200_wavelet, C200_reconstruction_refuted, C201_uninterrupted, C201_shared_exponential, C202_uninterrupted, C202_shared_client, C202_fixed_settings, C202_consistent_settings_refuted, C203_gmm_shared_predictions, C203_shared_mixture, C203_rankings, C203_one_setting_refuted, C203_predict_during_fit_refuted, C206_uninterrupted, C206_one_rate_refuted, C207_uninterrupted, C207_shared_polyphase, C207_index_refuted

**Group 1** - `ClassicalDedekindReals.sig_forall_dec`, `FunctionalExtensionality.functional_extensionality_dep`

Theorems (93): C07_cast_int_truncates, C19_integral_running_sum, C23_rank_order_statistic, C23_rank_magnitude_unique, C26_rank_extremes, C28_pid_terms, C33_window_mean_one, C35_goertzel_accounting, C35_goertzel_chunks, C36_frequency_setter_no_retune, C36_frequency_checks, C48_polyphase_safe, C49_polyphase_positions, C49_polyphase_continues, C50_polyphase_count, C51_polyphase_constant, C51_polyphase_bank, C52_polyphase_consumed, C52_polyphase_loses, C52_polyphase_chunks_refuted, C53_polynomial_length, C54_polynomial_linear, C55_polynomial_affine, C55_polynomial_order4_refuted, C56_polynomial_interpolates, C56_polynomial_cubic, C57_polynomial_rate_zero_order1, C58_wavelet_haar_reconstructs, C60_wavelet_linear, C61_wavelet_bank, C61_wavelet_highpass_sum, C61_wavelet_highpass_zero_refuted, C62_wavelet_orthogonal_delay, C62_wavelet_table_delay, C63_wavelet_int_truncates, C81_gauss_nearest, C83_gauss_sample_order, C84_gauss_fit, C84_gauss_not_ml, C84_gauss_duplicate, C86_gauss_positions, C87_gauss_invertible, C87_gauss_distances, C114_gauss_own_mean, C114_gauss_translation, C115_gmm_parameters, C115_gmm_setters, C115_gauss_parameters, C144_bursts, C144_background, C144_ramps, C144_nonexpansive, C156_gauss_scaling_refuted, C157_pid_is_iir, C157_pid_bounded, C157_pid_bounded_unlimited_refuted, C157_pid_integral_action, C157_pid_no_offset, C157_pid_no_offset_limited_refuted, C157_pid_scaling, C161_levels_misaligned, C161_levels_refuted, C161_haar_energy, C166_linear, C166_bounded, C166_between, C166_overshoot_refuted, C166_local, C166_chunks, C166_chunks_refuted, C168_gauss_nested, C168_gauss_more_samples, C168_gmm_underflow, C184_exponential, C184_bandpass, C184_rates, C184_pid, C185_bessel_coefficients, C187_local, C187_blocks, C194_transpose, C194_outer, C196_shared_fir_range, C197_goertzel_of_one_thread, C197_shared_goertzel, C197_broken_for_good, C197_index_refuted, C197_outputs_refuted, C198_integral, C198_bounded, C198_unbounded_refuted, C206_shared_rate, C206_constant_signal

**Group 2** - `ClassicalDedekindReals.sig_forall_dec`, `ClassicalDedekindReals.sig_not_dec`, `FunctionalExtensionality.functional_extensionality_dep`

Theorems (155): C08_fir_design_rejects, C08_fir_design_best, C09_fir_response_even, C09_fir_response_odd, C09_fir_response_rejects, C09_odd_axis_refuted, C21_derivative_exact, C21_derivative_degree_sharp, C22_derivative_ignores_level, C22_derivative_constant_zero, C33_zero_windows, C33_hann_order_1_refuted, C34_goertzel_block_dft, C34_goertzel_stream, C37_cexp_output, C38_phase_in_range, C39_cexp_chunks, C40_cexp_accepts, C41_cband_equations, C42_cband_converges, C43_cband_bounded, C44_cband_reset_irrelevant, C64_z_unit_dc, C64_z_bilinear_numerator, C64_z_impulse_numerator, C64_z_scale, C64_z_highpass_refuted, C66_z_poles, C67_z_partial_fractions, C67_z_impulse_samples, C68_z_rejects, C68_z_in_place, C68_z_integer, C68_z_accepts, C69_complex_phases, C69_complex_round_trip, C70_three_phase_round_trip, C70_three_phase_identity_iff, C71_complex_balanced, C72_complex_shapes, C73_psd_spectrogram, C73_psd_mean, C73_psd_rejects, C74_psd_scale, C74_psd_zero, C75_psd_axis_even, C75_psd_axis_odd, C76_fourier_rejects, C76_fourier_round_trip_even, C77_fourier_round_trip_odd, C77_fourier_round_trip_refuted, C78_fourier_bins, C78_fourier_bins_even, C78_fourier_bins_refuted, C79_fourier_linear, C79_fourier_parseval, C80_fourier_mended_ends, C80_fourier_zero_ends, C111_z_bilinear_response, C111_z_bilinear_textbook_refuted, C112_complex_line_to_line, C112_complex_rotation, C113_psd_tone, C113_fourier_tone, C125_iir_response, C125_iir_response_rejects, C126_fir_delay, C126_fir_delay_rejects, C126_fir_delay_linear_phase, C126_fir_delay_first_bin_refuted, C126_fir_delay_null, C127_iir_delay, C127_iir_delay_middle, C127_iir_delay_rejects, C127_iir_delay_ends_refuted, C128_fir_roots, C128_fir_roots_negative, C128_iir_roots, C129_iir_bounded_from_rest, C129_iir_bounded, C129_pole_on_circle_refuted, C130_iir_settles, C130_iir_forgets, C135_fir_rounding, C135_rounded_operations, C136_iir_rounding, C136_iir_rounded_operations, C137_pole_on_circle_refuted, C148_cband_is_notch, C149_cband_response, C150_cband_disturbance, C151_cband_chunks, C151_real_chunks_refuted, C160_designed_shape, C160_designed_delay, C160_complement_mirrors, C160_odd_order_null, C160_polyphase_bank_symmetric, C160_order_one, C160_order_two, C160_corner_refuted, C162_complex_tone, C162_matched, C162_bounded, C162_dirichlet, C162_selective, C162_real_tone, C162_real_bin, C162_dc_refuted, C162_nyquist_refuted, C164_matched_exact, C164_bins, C164_resolution_refuted, C167_fourier_shift, C167_fourier_modulate, C167_fourier_conjugate, C167_fourier_real, C167_fourier_convolution, C167_psd_bound, C167_psd_real, C167_psd_blind_refuted, C167_psd_sinusoid, C168_gmm_density, C168_gmm_affine, C178_terms, C178_disc, C178_rotation, C178_parts, C178_parts_limited_refuted, C178_real, C179_views, C179_same_array, C179_overlap_refuted, C180_derivative_of_integral, C180_identity, C184_bandpass_first, C184_frequency, C186_window_shape, C186_normal_factor, C186_window_filter, C193_local, C193_trailing, C193_append, C193_perturb, C193_tone, C199_forward, C199_round_trip, C199_psd, C199_exact, C201_each_call_continuous, C201_continuation_refuted, C205_uninterrupted, C205_shared_bandpass, C205_without_adaptation, C205_bounded_refuted

**Group 3** - `ClassicalDedekindReals.sig_forall_dec`, `Classical_Prop.classic`, `FunctionalExtensionality.functional_extensionality_dep`

Theorems (1): C156_gauss_linear

**Group 4** - `ClassicalDedekindReals.sig_forall_dec`, `ClassicalDedekindReals.sig_not_dec`, `Classical_Prop.classic`, `FunctionalExtensionality.functional_extensionality_dep`

Theorems (53): C18_iir_candidate, C18_iir_design_rejects, C18_iir_design_gain, C18_iir_design_best, C20_integral_affine, C20_integral_constant, C45_cfreq_constructor_frequency, C46_cfreq_converges, C47_cfreq_bounds, C47_cfreq_magnitude_refuted, C65_z_stable, C88_gmm_score, C95_manhattan_value, C95_euclidean_value, C95_chebyshev_value, C95_geometric_value, C95_manhattan_metric, C95_chebyshev_metric, C95_euclidean_metric, C95_geometric_symmetric, C95_geometric_one, C95_geometric_refuted, C110_iir_design_stable, C116_gmm_single, C116_gmm_like_gauss, C128_iir_roots_designed, C131_designed_settles, C131_designed_bounded, C132_butterworth_magnitude, C132_butterworth_monotone, C133_chebyshev_magnitude, C133_chebyshev_ripple, C133_chebyshev_gain_refuted, C134_butterworth_corner, C134_half_band, C134_corner_refuted, C151_cfreq_chunks, C152_cfreq_between, C152_cfreq_eventually, C152_cfreq_disturbance, C153_derivative_accuracy, C154_integral_accuracy, C154_integral_rule, C155_polynomial_accuracy, C155_polynomial_extrapolation, C168_gauss_posterior_refuted, C168_gmm_posterior_refuted, C185_bessel_flat_delay, C185_bessel_poles, C204_uninterrupted, C204_shared_frequency, C204_without_adaptation, C204_bounded_refuted

**Group 5** - `PrimFloat.add`, `PrimFloat.div`, `PrimFloat.float`, `PrimFloat.mul`, `PrimFloat.sub`

Theorems (1): C181_columns

**Group 6** - `PrimFloat.abs`, `PrimFloat.add`, `PrimFloat.div`, `PrimFloat.eqb`, `PrimFloat.float`, `PrimFloat.leb`, `PrimFloat.mul`, `PrimFloat.sub`

Theorems (2): C191_refusals, C191_columns

**Group 7** - `PrimFloat.abs`, `PrimFloat.add`, `PrimFloat.div`, `PrimFloat.eqb`, `PrimFloat.float`, `PrimFloat.leb`, `PrimFloat.mul`, `PrimFloat.opp`, `PrimFloat.sub`

Theorems (1): C182_frequency_causal

**Group 8** - `PrimFloat.abs`, `PrimFloat.add`, `PrimFloat.div`, `PrimFloat.eqb`, `PrimFloat.float`, `PrimFloat.leb`, `PrimFloat.ltb`, `PrimFloat.mul`, `PrimFloat.opp`, `PrimFloat.sub`

Theorems (2): C182_frequency_recovered, C182_frequency_last

**Group 9** - `ClassicalDedekindReals.sig_forall_dec`, `ClassicalDedekindReals.sig_not_dec`, `Classical_Prop.classic`, `FloatAxioms.Prim2SF_valid`, `FunctionalExtensionality.functional_extensionality_dep`, `PrimFloat.abs`, `PrimFloat.add`, `PrimFloat.div`, `PrimFloat.eqb`, `PrimFloat.float`, `PrimFloat.frshiftexp`, `PrimFloat.ltb`, `PrimFloat.mul`, `PrimFloat.normfr_mantissa`, `PrimInt63.eqb`, `PrimInt63.int`, `PrimInt63.land`, `PrimInt63.lsr`

Theorems (1): C145_left_to_right

**Group 10** - `ClassicalDedekindReals.sig_forall_dec`, `ClassicalDedekindReals.sig_not_dec`, `Classical_Prop.classic`, `FloatAxioms.Prim2SF_valid`, `FunctionalExtensionality.functional_extensionality_dep`, `PrimFloat.abs`, `PrimFloat.add`, `PrimFloat.div`, `PrimFloat.eqb`, `PrimFloat.float`, `PrimFloat.frshiftexp`, `PrimFloat.ltb`, `PrimFloat.mul`, `PrimFloat.normfr_mantissa`, `PrimFloat.opp`, `PrimFloat.sub`, `PrimInt63.eqb`, `PrimInt63.int`, `PrimInt63.land`, `PrimInt63.lsr`

Theorems (1): C181_exact_refuted

**Group 11** - `PrimFloat.abs`, `PrimFloat.add`, `PrimFloat.div`, `PrimFloat.eqb`, `PrimFloat.float`, `PrimFloat.frshiftexp`, `PrimFloat.ldshiftexp`, `PrimFloat.ltb`, `PrimFloat.mul`, `PrimFloat.normfr_mantissa`, `PrimFloat.of_uint63`, `PrimFloat.opp`, `PrimFloat.sub`, `PrimInt63.eqb`, `PrimInt63.int`, `PrimInt63.land`, `PrimInt63.lor`, `PrimInt63.lsl`, `PrimInt63.lsr`, `PrimInt63.sub`

Theorems (5): C15_iir_reset_nan, C137_integral_stuck, C142_order_doubles_refuted, C145_finite_output_refuted, C147_unstable_refuted

**Group 12** - `PrimFloat.abs`, `PrimFloat.add`, `PrimFloat.div`, `PrimFloat.eqb`, `PrimFloat.float`, `PrimFloat.frshiftexp`, `PrimFloat.ldshiftexp`, `PrimFloat.leb`, `PrimFloat.ltb`, `PrimFloat.mul`, `PrimFloat.normfr_mantissa`, `PrimFloat.of_uint63`, `PrimFloat.opp`, `PrimFloat.sub`, `PrimInt63.eqb`, `PrimInt63.int`, `PrimInt63.land`, `PrimInt63.lor`, `PrimInt63.lsl`, `PrimInt63.lsr`, `PrimInt63.sub`

Theorems (2): C182_band_repaired, C182_band_causal

**Group 13** - `PrimFloat.abs`, `PrimFloat.add`, `PrimFloat.div`, `PrimFloat.eqb`, `PrimFloat.float`, `PrimFloat.frshiftexp`, `PrimFloat.ldshiftexp`, `PrimFloat.leb`, `PrimFloat.ltb`, `PrimFloat.mul`, `PrimFloat.normfr_mantissa`, `PrimFloat.of_uint63`, `PrimFloat.opp`, `PrimFloat.sqrt`, `PrimFloat.sub`, `PrimInt63.eqb`, `PrimInt63.int`, `PrimInt63.land`, `PrimInt63.lor`, `PrimInt63.lsl`, `PrimInt63.lsr`, `PrimInt63.sub`

Theorems (1): C172_refuted

**Group 14** - `FloatAxioms.eqb_spec`, `FloatAxioms.ltb_spec`, `PrimFloat.abs`, `PrimFloat.add`, `PrimFloat.div`, `PrimFloat.eqb`, `PrimFloat.float`, `PrimFloat.frshiftexp`, `PrimFloat.ldshiftexp`, `PrimFloat.leb`, `PrimFloat.ltb`, `PrimFloat.mul`, `PrimFloat.normfr_mantissa`, `PrimFloat.of_uint63`, `PrimFloat.opp`, `PrimFloat.sub`, `PrimInt63.eqb`, `PrimInt63.int`, `PrimInt63.land`, `PrimInt63.lor`, `PrimInt63.lsl`, `PrimInt63.lsr`, `PrimInt63.sub`

Theorems (1): C184_nan_accepted

**Group 15** - `ClassicalDedekindReals.sig_forall_dec`, `FloatAxioms.Prim2SF_SF2Prim`, `FloatAxioms.Prim2SF_valid`, `FloatAxioms.SF2Prim_Prim2SF`, `FloatAxioms.abs_spec`, `FloatAxioms.eqb_spec`, `FunctionalExtensionality.functional_extensionality_dep`, `PrimFloat.abs`, `PrimFloat.div`, `PrimFloat.eqb`, `PrimFloat.float`, `PrimFloat.frshiftexp`, `PrimFloat.ldshiftexp`, `PrimFloat.ltb`, `PrimFloat.normfr_mantissa`, `PrimFloat.of_uint63`, `PrimFloat.opp`, `PrimInt63.eqb`, `PrimInt63.int`, `PrimInt63.land`, `PrimInt63.lor`, `PrimInt63.lsl`, `PrimInt63.lsr`, `PrimInt63.sub`

Theorems (1): C188_hilbert

**Group 16** - `FloatAxioms.abs_spec`, `FloatAxioms.eqb_spec`, `FloatAxioms.ltb_spec`, `PrimFloat.abs`, `PrimFloat.add`, `PrimFloat.div`, `PrimFloat.eqb`, `PrimFloat.float`, `PrimFloat.frshiftexp`, `PrimFloat.ldshiftexp`, `PrimFloat.leb`, `PrimFloat.ltb`, `PrimFloat.mul`, `PrimFloat.normfr_mantissa`, `PrimFloat.of_uint63`, `PrimFloat.opp`, `PrimFloat.sub`, `PrimInt63.eqb`, `PrimInt63.int`, `PrimInt63.land`, `PrimInt63.lor`, `PrimInt63.lsl`, `PrimInt63.lsr`, `PrimInt63.sub`

Theorems (1): C31_pid_integral_finite

**Group 17** - `ClassicalDedekindReals.sig_forall_dec`, `ClassicalDedekindReals.sig_not_dec`, `Classical_Prop.classic`, `FloatAxioms.Prim2SF_valid`, `FunctionalExtensionality.functional_extensionality_dep`, `PrimFloat.abs`, `PrimFloat.add`, `PrimFloat.div`, `PrimFloat.eqb`, `PrimFloat.float`, `PrimFloat.frshiftexp`, `PrimFloat.ldshiftexp`, `PrimFloat.ltb`, `PrimFloat.mul`, `PrimFloat.normfr_mantissa`, `PrimFloat.of_uint63`, `PrimFloat.opp`, `PrimFloat.sub`, `PrimInt63.eqb`, `PrimInt63.int`, `PrimInt63.land`, `PrimInt63.lor`, `PrimInt63.lsl`, `PrimInt63.lsr`, `PrimInt63.sub`

Theorems (3): C174_exact_refuted, C175_constant_refuted, C180_doubles_identity_refuted

**Group 18** - `FloatAxioms.abs_spec`, `FloatAxioms.add_spec`, `FloatAxioms.eqb_spec`, `FloatAxioms.ltb_spec`, `PrimFloat.abs`, `PrimFloat.add`, `PrimFloat.div`, `PrimFloat.eqb`, `PrimFloat.float`, `PrimFloat.frshiftexp`, `PrimFloat.ldshiftexp`, `PrimFloat.leb`, `PrimFloat.ltb`, `PrimFloat.mul`, `PrimFloat.normfr_mantissa`, `PrimFloat.of_uint63`, `PrimFloat.opp`, `PrimFloat.sub`, `PrimInt63.eqb`, `PrimInt63.int`, `PrimInt63.land`, `PrimInt63.lor`, `PrimInt63.lsl`, `PrimInt63.lsr`, `PrimInt63.sub`

Theorems (1): C40_cexp_nan_passes

**Group 19** - `FloatAxioms.Prim2SF_SF2Prim`, `FloatAxioms.Prim2SF_valid`, `FloatAxioms.SF2Prim_Prim2SF`, `FloatAxioms.eqb_spec`, `FloatAxioms.ltb_spec`, `PrimFloat.abs`, `PrimFloat.add`, `PrimFloat.div`, `PrimFloat.eqb`, `PrimFloat.float`, `PrimFloat.frshiftexp`, `PrimFloat.ldshiftexp`, `PrimFloat.leb`, `PrimFloat.ltb`, `PrimFloat.mul`, `PrimFloat.normfr_mantissa`, `PrimFloat.of_uint63`, `PrimFloat.opp`, `PrimFloat.sub`, `PrimInt63.eqb`, `PrimInt63.int`, `PrimInt63.land`, `PrimInt63.lor`, `PrimInt63.lsl`, `PrimInt63.lsr`, `PrimInt63.sub`

Theorems (1): C173_nan_limit

**Group 20** - `ClassicalDedekindReals.sig_forall_dec`, `ClassicalDedekindReals.sig_not_dec`, `Classical_Prop.classic`, `FloatAxioms.Prim2SF_SF2Prim`, `FloatAxioms.Prim2SF_valid`, `FloatAxioms.SF2Prim_Prim2SF`, `FloatAxioms.abs_spec`, `FloatAxioms.eqb_spec`, `FloatAxioms.ltb_spec`, `FunctionalExtensionality.functional_extensionality_dep`, `PrimFloat.abs`, `PrimFloat.div`, `PrimFloat.eqb`, `PrimFloat.float`, `PrimFloat.frshiftexp`, `PrimFloat.ldshiftexp`, `PrimFloat.ltb`, `PrimFloat.normfr_mantissa`, `PrimFloat.of_uint63`, `PrimFloat.opp`, `PrimInt63.eqb`, `PrimInt63.int`, `PrimInt63.land`, `PrimInt63.lor`, `PrimInt63.lsl`, `PrimInt63.lsr`, `PrimInt63.sub`

Theorems (2): C188_band_settings, C188_frequency_settings

**Group 21** - `ClassicalDedekindReals.sig_forall_dec`, `ClassicalDedekindReals.sig_not_dec`, `Classical_Prop.classic`, `FloatAxioms.Prim2SF_SF2Prim`, `FloatAxioms.Prim2SF_valid`, `FloatAxioms.SF2Prim_Prim2SF`, `FloatAxioms.eqb_spec`, `FloatAxioms.ltb_spec`, `FunctionalExtensionality.functional_extensionality_dep`, `PrimFloat.abs`, `PrimFloat.add`, `PrimFloat.div`, `PrimFloat.eqb`, `PrimFloat.float`, `PrimFloat.frshiftexp`, `PrimFloat.ldshiftexp`, `PrimFloat.leb`, `PrimFloat.ltb`, `PrimFloat.mul`, `PrimFloat.normfr_mantissa`, `PrimFloat.of_uint63`, `PrimFloat.opp`, `PrimFloat.sub`, `PrimInt63.eqb`, `PrimInt63.int`, `PrimInt63.land`, `PrimInt63.lor`, `PrimInt63.lsl`, `PrimInt63.lsr`, `PrimInt63.sub`

Theorems (6): C172_sample, C172_chebyshev, C172_dead, C172_stuck, C172_two_rows, C172_stays

**Group 22** - `ClassicalDedekindReals.sig_forall_dec`, `ClassicalDedekindReals.sig_not_dec`, `Classical_Prop.classic`, `FloatAxioms.Prim2SF_SF2Prim`, `FloatAxioms.Prim2SF_valid`, `FloatAxioms.SF2Prim_Prim2SF`, `FloatAxioms.abs_spec`, `FloatAxioms.add_spec`, `FloatAxioms.eqb_spec`, `FloatAxioms.mul_spec`, `FunctionalExtensionality.functional_extensionality_dep`, `PrimFloat.abs`, `PrimFloat.add`, `PrimFloat.div`, `PrimFloat.eqb`, `PrimFloat.float`, `PrimFloat.frshiftexp`, `PrimFloat.ldshiftexp`, `PrimFloat.ltb`, `PrimFloat.mul`, `PrimFloat.normfr_mantissa`, `PrimFloat.of_uint63`, `PrimFloat.opp`, `PrimFloat.sub`, `PrimInt63.eqb`, `PrimInt63.int`, `PrimInt63.land`, `PrimInt63.lor`, `PrimInt63.lsl`, `PrimInt63.lsr`, `PrimInt63.sub`

Theorems (17): C145_fir_doubles, C146_iir_poisoned, C147_iir_doubles, C174_exact, C174_accurate, C175_fir_exact, C175_derivative_exact, C175_derivative_polynomial, C175_constant, C175_level, C176_running, C176_exact, C176_stall, C176_growth_refuted, C180_doubles, C181_phases, C192_nan

**Group 23** - `ClassicalDedekindReals.sig_forall_dec`, `ClassicalDedekindReals.sig_not_dec`, `Classical_Prop.classic`, `FloatAxioms.Prim2SF_SF2Prim`, `FloatAxioms.Prim2SF_valid`, `FloatAxioms.SF2Prim_Prim2SF`, `FloatAxioms.abs_spec`, `FloatAxioms.add_spec`, `FloatAxioms.eqb_spec`, `FunctionalExtensionality.functional_extensionality_dep`, `PrimFloat.abs`, `PrimFloat.add`, `PrimFloat.div`, `PrimFloat.eqb`, `PrimFloat.float`, `PrimFloat.frshiftexp`, `PrimFloat.ldshiftexp`, `PrimFloat.leb`, `PrimFloat.ltb`, `PrimFloat.mul`, `PrimFloat.normfr_mantissa`, `PrimFloat.of_uint63`, `PrimFloat.opp`, `PrimFloat.sub`, `PrimInt63.eqb`, `PrimInt63.int`, `PrimInt63.land`, `PrimInt63.lor`, `PrimInt63.lsl`, `PrimInt63.lsr`, `PrimInt63.sub`

Theorems (2): C173_stall, C173_action_refuted

**Group 24** - `ClassicalDedekindReals.sig_forall_dec`, `ClassicalDedekindReals.sig_not_dec`, `Classical_Prop.classic`, `FloatAxioms.Prim2SF_SF2Prim`, `FloatAxioms.Prim2SF_valid`, `FloatAxioms.SF2Prim_Prim2SF`, `FloatAxioms.abs_spec`, `FloatAxioms.eqb_spec`, `FloatAxioms.ltb_spec`, `FunctionalExtensionality.functional_extensionality_dep`, `PrimFloat.abs`, `PrimFloat.add`, `PrimFloat.div`, `PrimFloat.eqb`, `PrimFloat.float`, `PrimFloat.frshiftexp`, `PrimFloat.ldshiftexp`, `PrimFloat.leb`, `PrimFloat.ltb`, `PrimFloat.mul`, `PrimFloat.normfr_mantissa`, `PrimFloat.of_uint63`, `PrimFloat.opp`, `PrimFloat.sub`, `PrimInt63.eqb`, `PrimInt63.int`, `PrimInt63.land`, `PrimInt63.lor`, `PrimInt63.lsl`, `PrimInt63.lsr`, `PrimInt63.sub`

Theorems (4): C165_nan, C165_bursts, C165_recovers, C165_dilation

**Group 25** - `ClassicalDedekindReals.sig_forall_dec`, `ClassicalDedekindReals.sig_not_dec`, `Classical_Prop.classic`, `FloatAxioms.Prim2SF_SF2Prim`, `FloatAxioms.Prim2SF_valid`, `FloatAxioms.SF2Prim_Prim2SF`, `FloatAxioms.abs_spec`, `FloatAxioms.add_spec`, `FloatAxioms.eqb_spec`, `FloatAxioms.ltb_spec`, `FunctionalExtensionality.functional_extensionality_dep`, `PrimFloat.abs`, `PrimFloat.add`, `PrimFloat.div`, `PrimFloat.eqb`, `PrimFloat.float`, `PrimFloat.frshiftexp`, `PrimFloat.ldshiftexp`, `PrimFloat.leb`, `PrimFloat.ltb`, `PrimFloat.mul`, `PrimFloat.normfr_mantissa`, `PrimFloat.of_uint63`, `PrimFloat.opp`, `PrimFloat.sub`, `PrimInt63.eqb`, `PrimInt63.int`, `PrimInt63.land`, `PrimInt63.lor`, `PrimInt63.lsl`, `PrimInt63.lsr`, `PrimInt63.sub`

Theorems (3): C173_sum, C173_exact, C173_recovers

**Group 26** - `ClassicalDedekindReals.sig_forall_dec`, `ClassicalDedekindReals.sig_not_dec`, `Classical_Prop.classic`, `FloatAxioms.Prim2SF_SF2Prim`, `FloatAxioms.Prim2SF_valid`, `FloatAxioms.SF2Prim_Prim2SF`, `FloatAxioms.abs_spec`, `FloatAxioms.add_spec`, `FloatAxioms.eqb_spec`, `FloatAxioms.mul_spec`, `FloatAxioms.sub_spec`, `FunctionalExtensionality.functional_extensionality_dep`, `PrimFloat.abs`, `PrimFloat.add`, `PrimFloat.div`, `PrimFloat.eqb`, `PrimFloat.float`, `PrimFloat.frshiftexp`, `PrimFloat.ldshiftexp`, `PrimFloat.ltb`, `PrimFloat.mul`, `PrimFloat.normfr_mantissa`, `PrimFloat.of_uint63`, `PrimFloat.opp`, `PrimFloat.sub`, `PrimInt63.eqb`, `PrimInt63.int`, `PrimInt63.land`, `PrimInt63.lor`, `PrimInt63.lsl`, `PrimInt63.lsr`, `PrimInt63.sub`

Theorems (4): C181_complex, C181_round_trip, C181_three_round_trip, C181_nan

**Group 27** - `ClassicalDedekindReals.sig_forall_dec`, `ClassicalDedekindReals.sig_not_dec`, `Classical_Prop.classic`, `FloatAxioms.Prim2SF_SF2Prim`, `FloatAxioms.Prim2SF_valid`, `FloatAxioms.SF2Prim_Prim2SF`, `FloatAxioms.abs_spec`, `FloatAxioms.add_spec`, `FloatAxioms.eqb_spec`, `FloatAxioms.mul_spec`, `FunctionalExtensionality.functional_extensionality_dep`, `PrimFloat.abs`, `PrimFloat.add`, `PrimFloat.div`, `PrimFloat.eqb`, `PrimFloat.float`, `PrimFloat.frshiftexp`, `PrimFloat.ldshiftexp`, `PrimFloat.leb`, `PrimFloat.ltb`, `PrimFloat.mul`, `PrimFloat.normfr_mantissa`, `PrimFloat.of_uint63`, `PrimFloat.opp`, `PrimFloat.sub`, `PrimInt63.eqb`, `PrimInt63.int`, `PrimInt63.land`, `PrimInt63.lor`, `PrimInt63.lsl`, `PrimInt63.lsr`, `PrimInt63.sub`

Theorems (1): C171_exact_refuted

**Group 28** - `ClassicalDedekindReals.sig_forall_dec`, `ClassicalDedekindReals.sig_not_dec`, `Classical_Prop.classic`, `FloatAxioms.Prim2SF_SF2Prim`, `FloatAxioms.Prim2SF_valid`, `FloatAxioms.SF2Prim_Prim2SF`, `FloatAxioms.abs_spec`, `FloatAxioms.add_spec`, `FloatAxioms.eqb_spec`, `FloatAxioms.mul_spec`, `FloatAxioms.sub_spec`, `FunctionalExtensionality.functional_extensionality_dep`, `PrimFloat.abs`, `PrimFloat.add`, `PrimFloat.div`, `PrimFloat.eqb`, `PrimFloat.float`, `PrimFloat.frshiftexp`, `PrimFloat.ldshiftexp`, `PrimFloat.leb`, `PrimFloat.ltb`, `PrimFloat.mul`, `PrimFloat.normfr_mantissa`, `PrimFloat.of_uint63`, `PrimFloat.opp`, `PrimFloat.sub`, `PrimInt63.eqb`, `PrimInt63.int`, `PrimInt63.land`, `PrimInt63.lor`, `PrimInt63.lsl`, `PrimInt63.lsr`, `PrimInt63.sub`

Theorems (5): C182_band_call, C182_band_lost, C187_bad_sample, C191_complex, C191_nan

**Group 29** - `ClassicalDedekindReals.sig_forall_dec`, `ClassicalDedekindReals.sig_not_dec`, `Classical_Prop.classic`, `FloatAxioms.Prim2SF_SF2Prim`, `FloatAxioms.Prim2SF_valid`, `FloatAxioms.SF2Prim_Prim2SF`, `FloatAxioms.abs_spec`, `FloatAxioms.add_spec`, `FloatAxioms.eqb_spec`, `FloatAxioms.leb_spec`, `FloatAxioms.ltb_spec`, `FloatAxioms.opp_spec`, `FunctionalExtensionality.functional_extensionality_dep`, `PrimFloat.abs`, `PrimFloat.add`, `PrimFloat.div`, `PrimFloat.eqb`, `PrimFloat.float`, `PrimFloat.frshiftexp`, `PrimFloat.ldshiftexp`, `PrimFloat.leb`, `PrimFloat.ltb`, `PrimFloat.mul`, `PrimFloat.normfr_mantissa`, `PrimFloat.of_uint63`, `PrimFloat.opp`, `PrimFloat.sub`, `PrimInt63.eqb`, `PrimInt63.int`, `PrimInt63.land`, `PrimInt63.lor`, `PrimInt63.lsl`, `PrimInt63.lsr`, `PrimInt63.sub`

Theorems (1): C169_chunks_refuted

**Group 30** - `ClassicalDedekindReals.sig_forall_dec`, `ClassicalDedekindReals.sig_not_dec`, `Classical_Prop.classic`, `FloatAxioms.Prim2SF_SF2Prim`, `FloatAxioms.Prim2SF_valid`, `FloatAxioms.SF2Prim_Prim2SF`, `FloatAxioms.abs_spec`, `FloatAxioms.add_spec`, `FloatAxioms.eqb_spec`, `FloatAxioms.ltb_spec`, `FloatAxioms.mul_spec`, `FloatAxioms.sub_spec`, `FunctionalExtensionality.functional_extensionality_dep`, `PrimFloat.abs`, `PrimFloat.add`, `PrimFloat.div`, `PrimFloat.eqb`, `PrimFloat.float`, `PrimFloat.frshiftexp`, `PrimFloat.ldshiftexp`, `PrimFloat.leb`, `PrimFloat.ltb`, `PrimFloat.mul`, `PrimFloat.normfr_mantissa`, `PrimFloat.of_uint63`, `PrimFloat.opp`, `PrimFloat.sub`, `PrimInt63.eqb`, `PrimInt63.int`, `PrimInt63.land`, `PrimInt63.lor`, `PrimInt63.lsl`, `PrimInt63.lsr`, `PrimInt63.sub`

Theorems (4): C172_bad_rows, C188_band_rate, C188_frequency_nan, C190_nan_query

**Group 31** - `ClassicalDedekindReals.sig_forall_dec`, `ClassicalDedekindReals.sig_not_dec`, `Classical_Prop.classic`, `FloatAxioms.Prim2SF_SF2Prim`, `FloatAxioms.Prim2SF_valid`, `FloatAxioms.SF2Prim_Prim2SF`, `FloatAxioms.abs_spec`, `FloatAxioms.add_spec`, `FloatAxioms.div_spec`, `FloatAxioms.eqb_spec`, `FloatAxioms.leb_spec`, `FloatAxioms.mul_spec`, `FloatAxioms.sub_spec`, `FunctionalExtensionality.functional_extensionality_dep`, `PrimFloat.abs`, `PrimFloat.add`, `PrimFloat.div`, `PrimFloat.eqb`, `PrimFloat.float`, `PrimFloat.frshiftexp`, `PrimFloat.ldshiftexp`, `PrimFloat.leb`, `PrimFloat.ltb`, `PrimFloat.mul`, `PrimFloat.normfr_mantissa`, `PrimFloat.of_uint63`, `PrimFloat.opp`, `PrimFloat.sub`, `PrimInt63.eqb`, `PrimInt63.int`, `PrimInt63.land`, `PrimInt63.lor`, `PrimInt63.lsl`, `PrimInt63.lsr`, `PrimInt63.sub`

Theorems (6): C182_frequency_call, C182_frequency_lost, C182_frequency_alone, C191_phases, C191_round_trip, C191_three_round_trip

**Group 32** - `ClassicalDedekindReals.sig_forall_dec`, `ClassicalDedekindReals.sig_not_dec`, `Classical_Prop.classic`, `FloatAxioms.Prim2SF_SF2Prim`, `FloatAxioms.Prim2SF_valid`, `FloatAxioms.SF2Prim_Prim2SF`, `FloatAxioms.abs_spec`, `FloatAxioms.add_spec`, `FloatAxioms.div_spec`, `FloatAxioms.eqb_spec`, `FloatAxioms.ltb_spec`, `FloatAxioms.mul_spec`, `FloatAxioms.sub_spec`, `FunctionalExtensionality.functional_extensionality_dep`, `PrimFloat.abs`, `PrimFloat.add`, `PrimFloat.div`, `PrimFloat.eqb`, `PrimFloat.float`, `PrimFloat.frshiftexp`, `PrimFloat.ldshiftexp`, `PrimFloat.leb`, `PrimFloat.ltb`, `PrimFloat.mul`, `PrimFloat.normfr_mantissa`, `PrimFloat.of_uint63`, `PrimFloat.opp`, `PrimFloat.sub`, `PrimInt63.eqb`, `PrimInt63.int`, `PrimInt63.land`, `PrimInt63.lor`, `PrimInt63.lsl`, `PrimInt63.lsr`, `PrimInt63.sub`

Theorems (1): C190_bad_class

**Group 33** - `ClassicalDedekindReals.sig_forall_dec`, `ClassicalDedekindReals.sig_not_dec`, `Classical_Prop.classic`, `FloatAxioms.Prim2SF_SF2Prim`, `FloatAxioms.Prim2SF_valid`, `FloatAxioms.SF2Prim_Prim2SF`, `FloatAxioms.abs_spec`, `FloatAxioms.add_spec`, `FloatAxioms.eqb_spec`, `FloatAxioms.ltb_spec`, `FloatAxioms.mul_spec`, `FloatAxioms.opp_spec`, `FloatAxioms.sub_spec`, `FunctionalExtensionality.functional_extensionality_dep`, `PrimFloat.abs`, `PrimFloat.add`, `PrimFloat.div`, `PrimFloat.eqb`, `PrimFloat.float`, `PrimFloat.frshiftexp`, `PrimFloat.ldshiftexp`, `PrimFloat.leb`, `PrimFloat.ltb`, `PrimFloat.mul`, `PrimFloat.normfr_mantissa`, `PrimFloat.of_uint63`, `PrimFloat.opp`, `PrimFloat.sub`, `PrimInt63.eqb`, `PrimInt63.int`, `PrimInt63.land`, `PrimInt63.lor`, `PrimInt63.lsl`, `PrimInt63.lsr`, `PrimInt63.sub`

Theorems (6): C169_phase_range, C169_phase_drift, C169_output_error, C169_dyadic_exact, C173_output, C188_band_dead

**Group 34** - `ClassicalDedekindReals.sig_forall_dec`, `ClassicalDedekindReals.sig_not_dec`, `Classical_Prop.classic`, `FloatAxioms.Prim2SF_SF2Prim`, `FloatAxioms.Prim2SF_valid`, `FloatAxioms.SF2Prim_Prim2SF`, `FloatAxioms.abs_spec`, `FloatAxioms.add_spec`, `FloatAxioms.div_spec`, `FloatAxioms.eqb_spec`, `FloatAxioms.ltb_spec`, `FloatAxioms.mul_spec`, `FloatAxioms.opp_spec`, `FloatAxioms.sub_spec`, `FunctionalExtensionality.functional_extensionality_dep`, `PrimFloat.abs`, `PrimFloat.add`, `PrimFloat.div`, `PrimFloat.eqb`, `PrimFloat.float`, `PrimFloat.frshiftexp`, `PrimFloat.ldshiftexp`, `PrimFloat.leb`, `PrimFloat.ltb`, `PrimFloat.mul`, `PrimFloat.normfr_mantissa`, `PrimFloat.of_uint63`, `PrimFloat.opp`, `PrimFloat.sub`, `PrimInt63.eqb`, `PrimInt63.int`, `PrimInt63.land`, `PrimInt63.lor`, `PrimInt63.lsl`, `PrimInt63.lsr`, `PrimInt63.sub`

Theorems (1): C171_linear

**Group 35** - `ClassicalDedekindReals.sig_forall_dec`, `ClassicalDedekindReals.sig_not_dec`, `Classical_Prop.classic`, `FloatAxioms.Prim2SF_SF2Prim`, `FloatAxioms.Prim2SF_valid`, `FloatAxioms.SF2Prim_Prim2SF`, `FloatAxioms.abs_spec`, `FloatAxioms.add_spec`, `FloatAxioms.div_spec`, `FloatAxioms.eqb_spec`, `FloatAxioms.leb_spec`, `FloatAxioms.ltb_spec`, `FloatAxioms.mul_spec`, `FloatAxioms.opp_spec`, `FloatAxioms.sub_spec`, `FunctionalExtensionality.functional_extensionality_dep`, `PrimFloat.abs`, `PrimFloat.add`, `PrimFloat.div`, `PrimFloat.eqb`, `PrimFloat.float`, `PrimFloat.frshiftexp`, `PrimFloat.ldshiftexp`, `PrimFloat.leb`, `PrimFloat.ltb`, `PrimFloat.mul`, `PrimFloat.normfr_mantissa`, `PrimFloat.of_uint63`, `PrimFloat.opp`, `PrimFloat.sub`, `PrimInt63.eqb`, `PrimInt63.int`, `PrimInt63.land`, `PrimInt63.lor`, `PrimInt63.lsl`, `PrimInt63.lsr`, `PrimInt63.sub`

Theorems (8): C170_safe, C170_positions, C170_count, C170_exact, C170_exact_refuted, C171_positions, C171_count, C171_exact
<!-- assumptions:end -->
