{"id": "C01", "title": "FIR output is the convolution of the coefficients with the signal and its history", "statement": "FirFilter.filter(x) returns y with y[n] = sum_{i=0..N} b[i]*x[n-i], where x at negative times is read from the state the filter held before the call (state[0] is x[-1], state[1] is x[-2], ...), in exact arithmetic, whenever the samples are representable in the coefficient dtype.", "quantifier": "every non-empty coefficient array, every initial state of the same length, every non-empty signal, every sample index, real or complex", "why_tests_cant": "a test compares a handful of signals; the claim is an identity in all coefficients, states and signal lengths at once", "anchors": ["diamondback/filters/fir_filter.py:FirFilter.filter", "diamondback/filters/fir_filter.py:FirFilter.__init__"]}
{"id": "C02", "title": "FIR filtering in chunks equals filtering in one call", "statement": "For any way of cutting a signal into non-empty chunks, calling filter on the chunks in order returns the same samples, and leaves the same state, as one call on the whole signal - in any arithmetic, including IEEE floats with any dot-product summation order.", "quantifier": "every filter built by the constructor, every signal, every partition into non-empty chunks", "why_tests_cant": "the number of partitions of a signal is exponential and floats cannot be enumerated", "anchors": ["diamondback/filters/fir_filter.py:FirFilter.filter"]}
{"id": "C03", "title": "FIR filters obey superposition", "statement": "Filtering p*x + q*u from state p*s + q*t yields p*(output for x from s) + q*(output for u from t), sample by sample, in exact arithmetic.", "quantifier": "all scalars p,q, all equal-length signals x,u, all states s,t, all coefficients", "why_tests_cant": "linearity is a statement over a whole vector space, not over sampled vectors", "anchors": ["diamondback/filters/fir_filter.py:FirFilter.filter"]}
{"id": "C04", "title": "FIR reset emulates persistent operation at a level", "statement": "After reset(c), whatever the filter processed before, filtering a constant signal c returns c*sum(b) at every sample, from the first one on.", "quantifier": "every filter, every prior history of filter/reset calls, every level c, every length", "why_tests_cant": "depends on all histories before the reset", "anchors": ["diamondback/filters/fir_filter.py:FirFilter.reset", "diamondback/filters/fir_filter.py:FirFilter.filter"]}
{"id": "C05", "title": "Explicit FIR construction aligns coefficients and state by zero padding", "statement": "FirFilter(b=b, s=s) with non-empty b succeeds; the stored b and s have length max(len b, len s); the shorter one is extended by zeros at its end, the state is converted to the dtype of the stored coefficients, and the coefficient values are otherwise unchanged.", "quantifier": "every non-empty coefficient array and every state array", "why_tests_cant": "lengths are unbounded and both padding directions interact with dtype conversion", "anchors": ["diamondback/filters/fir_filter.py:FirFilter.__init__"]}
{"id": "C06", "title": "FIR calls never change the coefficients or the filter order and fail only on empty input", "statement": "Along any sequence of filter and reset calls on a constructed FirFilter: the coefficients never change, the state keeps its length, filter returns exactly one output per input sample, and the only failures are filter on an empty signal and reset with a non-scalar, both of which leave the state untouched.", "quantifier": "every call history, including failing calls", "why_tests_cant": "requires an invariant over unbounded histories with failures interleaved", "anchors": ["diamondback/filters/fir_filter.py:FirFilter.filter", "diamondback/filters/fir_filter.py:FirFilter.reset"]}
{"id": "C07", "title": "Integer coefficient arrays silently quantise the signal", "statement": "If FirFilter is given integer coefficients and a state no longer than them, its state and output have integer dtype, so every incoming sample is truncated toward zero before it is filtered: the output is the convolution with the truncated signal. Hence the convolution law of C01 is false for some integer coefficient list and fractional signal.", "quantifier": "every integer coefficient array and every real signal (characterisation); existence of a violating input", "why_tests_cant": "the suite only uses float coefficients; the exact output law for all fractional inputs needs a proof", "anchors": ["diamondback/filters/fir_filter.py:FirFilter.__init__", "diamondback/filters/fir_filter.py:FirFilter.filter"]}
{"id": "C08", "title": "The FIR design search returns its best iterate and normalises the result", "statement": "The constraint constructor rejects exactly: unknown style, frequency outside (0,1), order <= 0, count <= 0. Otherwise it evaluates at most 500 candidate designs and returns a candidate whose -3 dB error magnitude is minimal among those evaluated (the first such), times gain; with complement it returns that candidate modulated by (-1)^n and scaled so that its response at the Nyquist frequency is exactly gain.", "quantifier": "every window-design routine, style, frequency, order, count, complement, gain", "why_tests_cant": "the loop's behaviour depends on an arbitrary error sequence of up to 500 values", "anchors": ["diamondback/filters/fir_filter.py:FirFilter.__init__"]}
{"id": "C09", "title": "FIR response samples and frequency axis", "statement": "response(length, count) returns the frequency response at e^{j pi f_k} raised to count, paired with f_k = -1 + 2k/length, for every even length; for every odd length the values are paired with the wrong frequencies (the k-th value is the response at f_k - 1/length).", "quantifier": "every coefficient array, every positive length and count", "why_tests_cant": "covers every length; the suite only uses powers of two", "anchors": ["diamondback/filters/fir_filter.py:FirFilter.response", "diamondback/filters/iir_filter.py:IirFilter.response"]}
{"id": "C10", "title": "IIR output satisfies its difference equation from rest", "statement": "From a zero state, IirFilter.filter(x) returns the unique y with y[n] = sum_{i>=1} a[i]*y[n-i] + sum_{i>=0} b[i]*x[n-i] (zero history), in exact arithmetic.", "quantifier": "every coefficient pair of equal length with a[0]=0, every signal, every n", "why_tests_cant": "identity over all coefficient pairs, orders and signals", "anchors": ["diamondback/filters/iir_filter.py:IirFilter.filter"]}
{"id": "C11", "title": "IIR output satisfies its difference equation from any state after N samples", "statement": "Whatever the initial state, for every n >= N (the order) the outputs and inputs of one call satisfy y[n] = sum_{i=1..N} a[i]*y[n-i] + sum_{i=0..N} b[i]*x[n-i].", "quantifier": "every coefficients, every initial state, every signal, every n >= order", "why_tests_cant": "quantifies over arbitrary internal states", "anchors": ["diamondback/filters/iir_filter.py:IirFilter.filter"]}
{"id": "C12", "title": "IIR filtering in chunks equals filtering in one call", "statement": "For any partition of a signal into non-empty chunks, successive filter calls return the same samples and leave the same state as one call, in any arithmetic.", "quantifier": "every constructed IIR filter, every signal, every partition", "why_tests_cant": "exponentially many partitions; unbounded recursive state", "anchors": ["diamondback/filters/iir_filter.py:IirFilter.filter"]}
{"id": "C13", "title": "IIR filters obey superposition", "statement": "Filtering p*x + q*u from state p*s + q*t yields p*y + q*v, sample by sample, in exact arithmetic.", "quantifier": "all scalars, signals, states, coefficients", "why_tests_cant": "linearity is universally quantified", "anchors": ["diamondback/filters/iir_filter.py:IirFilter.filter"]}
{"id": "C14", "title": "IIR reset gives steady state exactly for unit DC gain", "statement": "If sum(b) = 1 - sum(a), b[0] != 1 and sum(a) != 1, then after reset(c), for any previous history, filtering a constant c returns c at every sample.", "quantifier": "every such filter, level, history and length", "why_tests_cant": "all coefficient sets and all histories", "anchors": ["diamondback/filters/iir_filter.py:IirFilter.reset", "diamondback/filters/iir_filter.py:IirFilter.filter"]}
{"id": "C15", "title": "IIR reset is not steady for other DC gains", "statement": "Documented: reset assumes persistent operation at the given input. In the code, for order >= 1 with sum(a) != 1, a non-zero reset denominator and a non-zero level c, filtering one further sample c after reset(c) leaves the state where it is if and only if the DC gain is one; so for some filter of DC gain two (constructor gain=2) the output on the constant is not constant. For pass-through coefficients (a=0, b=[1,0,..]) the reset divides zero by zero and poisons the float state with NaN.", "quantifier": "all filters (necessary condition); existence of violating inputs", "why_tests_cant": "counterexample plus an impossibility over all coefficient sets", "anchors": ["diamondback/filters/iir_filter.py:IirFilter.reset"]}
{"id": "C16", "title": "IIR construction validates and aligns coefficients", "statement": "IirFilter(a=a,b=b,s=s) with not both a,b empty fails with ValueError if a is non-empty with a[0] != 0; otherwise a and b are zero-padded to a common length. If s is no longer than that length, the filter works (never raises on non-empty signals) and all three arrays have that length; if s is longer, b is extended but a is not, and every later filter call on a non-empty signal raises ValueError.", "quantifier": "every triple of arrays", "why_tests_cant": "unbounded lengths, three-way case split", "anchors": ["diamondback/filters/iir_filter.py:IirFilter.__init__", "diamondback/filters/fir_filter.py:FirFilter.__init__", "diamondback/filters/iir_filter.py:IirFilter.filter"]}
{"id": "C17", "title": "IIR with zero recursive part is the FIR filter", "statement": "With a = 0 an IirFilter returns exactly the samples of FirFilter with the same b and state, for every signal.", "quantifier": "every b, state and signal", "why_tests_cant": "identity over all signals", "anchors": ["diamondback/filters/iir_filter.py:IirFilter.filter", "diamondback/filters/fir_filter.py:FirFilter.filter"]}
{"id": "C18", "title": "Designed IIR filters have unit passband gain times gain", "statement": "Whatever poles the prototype yields, a designed (non-complement) IirFilter satisfies sum(b) = gain*(1 - sum(a)), i.e. its DC gain is exactly gain, and its numerator is proportional to the binomial coefficients of (1+z^-1)^order; with complement its gain at Nyquist is exactly gain.", "quantifier": "every style, order, frequency, gain, and every value returned by the root finder (with sum conditions non-zero)", "why_tests_cant": "the root finder is arbitrary; must hold for all of its results", "anchors": ["diamondback/filters/iir_filter.py:IirFilter.__init__", "diamondback/filters/iir_filter.py:IirFilter._evaluate"]}
{"id": "C19", "title": "IntegralFilter is a running sum of weighted samples", "statement": "A fresh IntegralFilter(order) returns y[n] = sum_{m<=n} sum_i B[order][i]*x[m-i]; for order 0 this is the exact cumulative sum. Orders outside 0..4 are rejected.", "quantifier": "every order, every signal, every n", "why_tests_cant": "closed form over unbounded recursion", "anchors": ["diamondback/filters/integral_filter.py:IntegralFilter"]}
{"id": "C20", "title": "IntegralFilter integrates constants and ramps exactly up to its start-up transient", "statement": "The weights of every order sum to one, so for a constant c the output grows by exactly c per sample once order samples have been seen; for every order >= 1 and an affine signal, y[n]-y[m] for m,n >= order equals the exact integral of the affine function over the correspondingly delayed interval.", "quantifier": "every order, every affine signal, all n >= m >= order", "why_tests_cant": "exactness for a family of signals of unbounded length", "anchors": ["diamondback/filters/integral_filter.py:IntegralFilter.B"]}
{"id": "C21", "title": "DerivativeFilter is exact on polynomials", "statement": "For each (derivative d, order) in the table, filtering samples of a polynomial of degree at most the entry's exactness degree returns, for every n >= order, exactly the d-th derivative of the polynomial at time n - order/2.", "quantifier": "every table entry, every real polynomial of the stated degree, every n >= order", "why_tests_cant": "continuum of polynomials and unbounded n", "anchors": ["diamondback/filters/derivative_filter.py:DerivativeFilter.B", "diamondback/filters/derivative_filter.py:DerivativeFilter.filter"]}
{"id": "C22", "title": "DerivativeFilter ignores the level set by reset", "statement": "For every table entry, after reset(c) a signal c + u yields the same output as u after reset(0); in particular constants give exactly zero from the first sample. Unsupported (derivative, order) pairs are rejected.", "quantifier": "every table entry, level, signal", "why_tests_cant": "all levels and signals", "anchors": ["diamondback/filters/derivative_filter.py:DerivativeFilter", "diamondback/filters/fir_filter.py:FirFilter.reset"]}
{"id": "C23", "title": "RankFilter returns the magnitude order statistic of the sliding window", "statement": "y[n] is an element v of the window of the last order+1 samples (history from the state) such that at most index window elements have magnitude below |v| and more than index have magnitude at most |v|, for any correct argsort.", "quantifier": "every index/order, every signal and state, every n, every argsort meeting its contract", "why_tests_cant": "holds for every sorting routine and tie-breaking", "anchors": ["diamondback/filters/rank_filter.py:RankFilter.filter"]}
{"id": "C24", "title": "RankFilter never invents values", "statement": "Every output of RankFilter is one of the samples in its current window; so after reset(c) outputs belong to {c} union the input samples.", "quantifier": "every history, signal, n", "why_tests_cant": "universal over histories", "anchors": ["diamondback/filters/rank_filter.py:RankFilter.filter"]}
{"id": "C25", "title": "RankFilter in chunks equals one call", "statement": "Cutting the signal into non-empty chunks does not change the outputs of RankFilter nor those of any later call, in any arithmetic and for any deterministic argsort.", "quantifier": "every partition, signal, order, index", "why_tests_cant": "exponentially many partitions", "anchors": ["diamondback/filters/rank_filter.py:RankFilter.filter"]}
{"id": "C26", "title": "RankFilter ranks by magnitude and ascending, contrary to its description", "statement": "For non-negative signals index=order gives the window maximum and index=0 the minimum (the description says index 0 is dilation); for signals with negative samples the result is not the rank of the signed values: there are signals whose 'median' output is not the median.", "quantifier": "all non-negative signals; existence of violating signals", "why_tests_cant": "universal over windows plus a counterexample", "anchors": ["diamondback/filters/rank_filter.py:RankFilter.filter"]}
{"id": "C27", "title": "RankFilter index stays within the window", "statement": "After any sequence of construction, successful or failing index assignments, filter and reset calls, 0 <= index <= order, so filter never indexes outside its window; the constructor and the setter reject exactly the indices outside [0, order].", "quantifier": "every call history", "why_tests_cant": "invariant over unbounded histories", "anchors": ["diamondback/filters/rank_filter.py:RankFilter.index", "diamondback/filters/rank_filter.py:RankFilter.__init__"]}
{"id": "C28", "title": "PidFilter output combines proportional, integral and derivative terms", "statement": "y[n] = b0*x[n] + b1*I[n] + b2*(x[n]-x[n-1]), where I is the accumulated integral and x[-1] the stored previous input; with the default infinite limit I[n] is the plain running sum, in exact arithmetic.", "quantifier": "every gain triple, signal, state, n", "why_tests_cant": "identity over all signals", "anchors": ["diamondback/filters/pid_filter.py:PidFilter.filter"]}
{"id": "C29", "title": "PidFilter integral never reaches its limit", "statement": "From a fresh PidFilter with limit L set before use, after any history of filter calls the accumulated integral is strictly below L in magnitude (or is still its initial 0) - in any arithmetic including IEEE floats with NaN and infinity inputs.", "quantifier": "every history of filter calls and every input including NaN/inf", "why_tests_cant": "special values and unbounded histories", "anchors": ["diamondback/filters/pid_filter.py:PidFilter.filter", "diamondback/filters/pid_filter.py:PidFilter.limit"]}
{"id": "C30", "title": "PidFilter holds instead of clamping", "statement": "A sample that would take the integral to or past the limit is not integrated at all: I[n] = I[n-1]+x[n] if |I[n-1]+x[n]| < limit, else I[n-1]. The documented clamp max(min(sum, limit), -limit) is different: some signal violates it. A reset or a lowered limit can leave the integral outside the limit.", "quantifier": "all signals (law); existence of violating signals", "why_tests_cant": "universal law and counterexample", "anchors": ["diamondback/filters/pid_filter.py:PidFilter.filter", "diamondback/filters/fir_filter.py:FirFilter.reset"]}
{"id": "C31", "title": "A NaN sample cannot poison the PID integral", "statement": "In IEEE arithmetic, if the integral is finite it remains finite after any input sequence, including NaN and infinities, so two samples after the last non-finite input the outputs depend only on finite values.", "quantifier": "every float input sequence", "why_tests_cant": "all NaN/inf patterns", "anchors": ["diamondback/filters/pid_filter.py:PidFilter.filter"]}
{"id": "C32", "title": "WindowFilter multiplies sample by sample and rejects other lengths", "statement": "filter(x) returns b[n]*x[n] for each n when x is one-dimensional with len(b) samples, raises ValueError otherwise, and never modifies the filter (so calls are independent).", "quantifier": "every window, every input shape", "why_tests_cant": "all shapes and histories", "anchors": ["diamondback/filters/window_filter.py:WindowFilter.filter"]}
{"id": "C33", "title": "Normalised windows have unit mean magnitude", "statement": "With normal=True the coefficient magnitudes average to exactly one for every style and order whose raw window is not identically zero; the raw Hann window of order 1 is identically zero so no normalisation exists (the float code yields NaN); in exact arithmetic the Blackman window of order 1 is zero as well.", "quantifier": "every raw window, every order", "why_tests_cant": "all orders and styles", "anchors": ["diamondback/filters/window_filter.py:WindowFilter.__init__"]}
{"id": "C34", "title": "GoertzelFilter emits the windowed DFT of each block", "statement": "Over a stream, the k-th output is u*sum_{n<W} w[n]*x[kW+n]*e^{j pi f (W-1-n)} with W = len(w), u = 1/W for complex and 2/W for real input: the DFT of the k-th block at frequency f, rotated by e^{j pi f (W-1)}.", "quantifier": "every window, frequency in [-1,1], signal, block", "why_tests_cant": "closed form of a recursion over arbitrary length and frequency", "anchors": ["diamondback/filters/goertzel_filter.py:GoertzelFilter.filter"]}
{"id": "C35", "title": "GoertzelFilter block accounting", "statement": "A call on L samples starting at block position i returns exactly floor((i+L)/W) outputs and leaves block position (i+L) mod W; the preallocated output never overflows; chunking a stream (of one sample kind) changes neither outputs nor state.", "quantifier": "every L, i, W, every partition", "why_tests_cant": "arithmetic over all sizes and partitions", "anchors": ["diamondback/filters/goertzel_filter.py:GoertzelFilter.filter"]}
{"id": "C36", "title": "Assigning GoertzelFilter.frequency does not retune the filter", "statement": "Setting frequency on an existing GoertzelFilter changes only the value read back; every later output is the same as without the assignment. Constructor and setter reject exactly the frequencies outside [-1,1].", "quantifier": "every assignment, every later signal", "why_tests_cant": "all later histories", "anchors": ["diamondback/filters/goertzel_filter.py:GoertzelFilter.frequency", "diamondback/filters/goertzel_filter.py:GoertzelFilter.__init__"]}
{"id": "C37", "title": "ComplexExponentialFilter output has unit magnitude and the accumulated phase", "statement": "y[n] = e^{j pi (phase + x[0]+...+x[n-1])}: unit magnitude, and the first output of a call uses the phase before adding the first frequency.", "quantifier": "every phase, every admissible frequency signal, every n", "why_tests_cant": "all signals", "anchors": ["diamondback/filters/complex_exponential_filter.py:ComplexExponentialFilter.filter"]}
{"id": "C38", "title": "The stored phase always lies in [-1, 1]", "statement": "After construction and any sequence of phase assignments and filter calls, failing or not, the phase is in [-1,1]; the wrap-around never trips the range check inside filter.", "quantifier": "every history of calls with real (non-NaN) inputs", "why_tests_cant": "invariant over unbounded histories", "anchors": ["diamondback/filters/complex_exponential_filter.py:ComplexExponentialFilter"]}
{"id": "C39", "title": "ComplexExponentialFilter in chunks equals one call", "statement": "Cutting the frequency signal into non-empty chunks leaves the generated exponential and the final phase (modulo a full turn) unchanged, in exact arithmetic, although the phase is wrapped at each chunk boundary.", "quantifier": "every partition, signal and phase", "why_tests_cant": "wrap interacts with every partition", "anchors": ["diamondback/filters/complex_exponential_filter.py:ComplexExponentialFilter.filter"]}
{"id": "C40", "title": "ComplexExponentialFilter rejects bad input atomically; NaN slips through", "statement": "filter raises ValueError exactly when the input is empty, has a non-zero imaginary part, or has a sample of magnitude above one, and then leaves the phase unchanged. In IEEE arithmetic a NaN sample or NaN phase passes every check and makes the phase NaN.", "quantifier": "every input; existence for NaN", "why_tests_cant": "special values and atomicity over all inputs", "anchors": ["diamondback/filters/complex_exponential_filter.py:ComplexExponentialFilter.filter", "diamondback/filters/complex_exponential_filter.py:ComplexExponentialFilter.phase"]}
{"id": "C41", "title": "ComplexBandpassFilter splits the primary signal exactly", "statement": "For every sample y[n] + e[n] = d[n], y[n] = b[n]*x[n] with x the unit tone at the set frequency, and the coefficient follows b[n+1] = b[n] + rate*e[n]*conj(x[n]).", "quantifier": "every complex signal, frequency, rate, state", "why_tests_cant": "all signals", "anchors": ["diamondback/filters/complex_bandpass_filter.py:ComplexBandpassFilter.filter"]}
{"id": "C42", "title": "ComplexBandpassFilter converges geometrically on a tone", "statement": "If the primary signal is A times the filter's own tone, then b[n] - A = (1-rate)^n * (b[0]-A) and |e[n]| = (1-rate)^n*|b[0]-A|; hence for 0 < rate <= 1 the error tends to zero, for rate = 1 it is zero from the second sample, and for rate = 0 nothing adapts.", "quantifier": "every amplitude, frequency, rate, n", "why_tests_cant": "limit statement over unbounded time", "anchors": ["diamondback/filters/complex_bandpass_filter.py:ComplexBandpassFilter.filter"]}
{"id": "C43", "title": "ComplexBandpassFilter coefficient stays bounded", "statement": "For rate in [0,1], if |d[n]| <= D for all n and |b[0]| <= D then |b[n]| <= D for all n and |y[n]| <= D, |e[n]| <= 2D.", "quantifier": "every bounded signal of any length", "why_tests_cant": "stability is a property of infinite executions", "anchors": ["diamondback/filters/complex_bandpass_filter.py:ComplexBandpassFilter.filter"]}
{"id": "C44", "title": "ComplexBandpassFilter reset has no effect on outputs", "statement": "The reset used in the documentation example only writes a state that filter never reads: outputs after reset are identical to outputs without it.", "quantifier": "every history and signal", "why_tests_cant": "all histories", "anchors": ["diamondback/filters/complex_bandpass_filter.py:ComplexBandpassFilter", "diamondback/filters/fir_filter.py:FirFilter.reset"]}
{"id": "C45", "title": "ComplexFrequencyFilter ignores the constructor frequency", "statement": "Documented: b0 = e^{j pi f0}. The constructor stores the frequency but starts the coefficient at one, so the first estimate is 0 for every constructor frequency and two filters that differ only in it produce identical outputs; assigning the property does set the coefficient.", "quantifier": "every frequency, rate, signal", "why_tests_cant": "all signals and frequencies", "anchors": ["diamondback/filters/complex_frequency_filter.py:ComplexFrequencyFilter.__init__", "diamondback/filters/complex_frequency_filter.py:ComplexFrequencyFilter.frequency"]}
{"id": "C46", "title": "ComplexFrequencyFilter converges to the frequency of a tone", "statement": "On a tone A*e^{j pi (f n + p)} after reset with the preceding sample, b[n] - e^{j pi f} = (1-rate)^n (b[0] - e^{j pi f}), so for 0 < rate <= 1 the coefficient tends to e^{j pi f}; with rate 1 the estimate equals f (for f in (-1,1]) from the second sample.", "quantifier": "every tone, rate, n", "why_tests_cant": "limit statement", "anchors": ["diamondback/filters/complex_frequency_filter.py:ComplexFrequencyFilter.filter"]}
{"id": "C47", "title": "ComplexFrequencyFilter estimates and coefficient are bounded", "statement": "Every estimate lies in (-1,1]; the normalised state has magnitude at most one; for rate in [0,1] the coefficient magnitude never exceeds max(|b[0]|,1) when no sample is near zero (at most 1e-8); with near-zero samples it never exceeds max(|b[0]|,1) + rate/2, and max(|b[0]|,1) itself can be exceeded.", "quantifier": "every signal and history", "why_tests_cant": "invariant over infinite executions", "anchors": ["diamondback/filters/complex_frequency_filter.py:ComplexFrequencyFilter.filter", "diamondback/filters/complex_frequency_filter.py:ComplexFrequencyFilter.reset"]}
{"id": "C48", "title": "PolyphaseRateFilter never indexes outside its filter bank or its buffers and always terminates", "statement": "For every rate in (0,256], every position and signal: filter terminates, every selected bank row is in [0,255], the number of outputs never exceeds round(len(x)*rate), and the position stays non-negative.", "quantifier": "every rate, signal length, reachable position", "why_tests_cant": "loop safety over all rates", "anchors": ["diamondback/filters/polyphase_rate_filter.py:PolyphaseRateFilter.filter"]}
{"id": "C49", "title": "PolyphaseRateFilter samples at uniformly spaced positions", "statement": "In exact arithmetic the j-th output is the inner product of bank row min(round(t mod 256),255) with the 15 most recent samples ending at input floor(t/256), where t = position + j*256/rate.", "quantifier": "every rate, position, signal, j", "why_tests_cant": "closed form of a two-level loop for all rates", "anchors": ["diamondback/filters/polyphase_rate_filter.py:PolyphaseRateFilter.filter"]}
{"id": "C50", "title": "PolyphaseRateFilter output count from position zero", "statement": "From position zero a call on L samples returns exactly round(L*rate) outputs (half to even), in exact arithmetic.", "quantifier": "every L and rate", "why_tests_cant": "all rates", "anchors": ["diamondback/filters/polyphase_rate_filter.py:PolyphaseRateFilter.filter"]}
{"id": "C51", "title": "PolyphaseRateFilter preserves constants", "statement": "Each bank row sums to one, so after reset(c) a constant c is returned as the constant c, whatever the rate and position.", "quantifier": "every rate, position, level, length; every prototype whose rows have non-zero sums", "why_tests_cant": "all rates", "anchors": ["diamondback/filters/polyphase_rate_filter.py:PolyphaseRateFilter.__init__", "diamondback/filters/polyphase_rate_filter.py:PolyphaseRateFilter.reset"]}
{"id": "C52", "title": "PolyphaseRateFilter drops samples at chunk boundaries", "statement": "Documented: error is accumulated so that the rate is realised without bias. When len(x)*rate rounds down, the call stops before consuming its last input samples and they are lost: one-sample calls at rate below 1/2 never produce any output, while a single call on the concatenation does. The position and state after a call are characterised exactly by how many inputs were consumed.", "quantifier": "every rate below 1/2 and every number of calls; exact consumed count for every call", "why_tests_cant": "unbounded call sequences", "anchors": ["diamondback/filters/polyphase_rate_filter.py:PolyphaseRateFilter.filter"]}
{"id": "C53", "title": "PolynomialRateFilter output length", "statement": "For L >= 2 samples and rate > 0 the result has exactly round(L*rate) samples (half to even), for every order, in exact arithmetic.", "quantifier": "every L, rate, order", "why_tests_cant": "all rates", "anchors": ["diamondback/filters/polynomial_rate_filter.py:PolynomialRateFilter.filter"]}
{"id": "C54", "title": "PolynomialRateFilter of order one is linear interpolation", "statement": "With order 1 the j-th output is the piecewise-linear interpolant of the samples (linearly extended one step past the end) at time j/rate.", "quantifier": "every signal, rate, j", "why_tests_cant": "all rates and signals", "anchors": ["diamondback/filters/polynomial_rate_filter.py:PolynomialRateFilter.filter"]}
{"id": "C55", "title": "PolynomialRateFilter reproduces straight lines", "statement": "For orders 1, 2, 3 and any rate > 0 an affine signal alpha+beta*n is mapped to alpha+beta*j/rate exactly, including both edges; order 4 does not have this property: with the minimum-norm solution of the rank-deficient fit the midpoint of the signal 0, 1 at rate 2 is not 1/2.", "quantifier": "every affine signal, rate, j", "why_tests_cant": "all rates and lines", "anchors": ["diamondback/filters/polynomial_rate_filter.py:PolynomialRateFilter.filter"]}
{"id": "C56", "title": "PolynomialRateFilter of order three interpolates the samples and reproduces cubics in the interior", "statement": "With every order of 3 or more the output at an integral time equals the sample there; with order 3 a cubic signal is reproduced exactly at every output whose four-sample window lies inside the signal.", "quantifier": "every signal/cubic, rate, j", "why_tests_cant": "all rates and signals", "anchors": ["diamondback/filters/polynomial_rate_filter.py:PolynomialRateFilter.filter"]}
{"id": "C57", "title": "PolynomialRateFilter accepts rate zero but then fails for higher orders", "statement": "Rate 0 is accepted by constructor and setter; order 1 then returns an empty signal while every order above one raises ZeroDivisionError on every valid signal.", "quantifier": "every valid signal, every order", "why_tests_cant": "all orders and signals", "anchors": ["diamondback/filters/polynomial_rate_filter.py:PolynomialRateFilter.filter", "diamondback/filters/polynomial_rate_filter.py:PolynomialRateFilter.rate"]}
{"id": "C58", "title": "Haar wavelet transform reconstructs perfectly", "statement": "For style Haar, every count >= 1 and every one- or two-dimensional real signal whose dimensions are one or a multiple of 2^count, transform(transform(x,count,False),count,True) == x, in exact arithmetic.", "quantifier": "every signal of every admissible shape, every count", "why_tests_cant": "unbounded sizes and recursion depth", "anchors": ["diamondback/transforms/wavelet_transform.py:WaveletTransform.transform", "diamondback/transforms/wavelet_transform.py:WaveletTransform.__init__"]}
{"id": "C59", "title": "Wavelet transform preserves shape and rejects exactly the inadmissible shapes", "statement": "transform succeeds and returns an array of the shape of x whenever x has one or two dimensions, is non-empty, count > 0 and each dimension is one or a non-zero multiple of 2^count; other shapes and counts raise ValueError, except that a scalar raises TypeError and a matrix of several rows and no columns raises IndexError.", "quantifier": "every bank, shape, count, direction", "why_tests_cant": "all shapes and depths", "anchors": ["diamondback/transforms/wavelet_transform.py:WaveletTransform.transform"]}
{"id": "C60", "title": "Wavelet transform is linear", "statement": "transform(p*x+q*u) = p*transform(x)+q*transform(u) for both directions, all banks, sizes and counts, in exact arithmetic.", "quantifier": "all signals, scalars, banks", "why_tests_cant": "universal", "anchors": ["diamondback/transforms/wavelet_transform.py:WaveletTransform.transform"]}
{"id": "C61", "title": "Wavelet filter bank construction", "statement": "For every style/order in the table the low-pass analysis filter is the table row scaled to sum one, the synthesis low-pass is its reverse, and each high-pass is the alternating-sign (reversed when order > 1) companion of its low-pass. Analysis and synthesis high-pass filters sum to zero only up to the decimals of the table: the sum is at most 4e-5 in magnitude, and it exceeds 3e-5 for Coiflet of order 5. Style names are case-insensitive and other styles/orders raise ValueError.", "quantifier": "every table entry, every string", "why_tests_cant": "all strings; algebra over all rows", "anchors": ["diamondback/transforms/wavelet_transform.py:WaveletTransform.__init__"]}
{"id": "C62", "title": "One-level reconstruction for orthogonal banks is a delay", "statement": "If the low-pass row satisfies the double-shift orthogonality relations, one level of analysis followed by synthesis returns the signal delayed by order-1 samples (zero history), in exact arithmetic - not the signal itself. Every table entry of order > 1 satisfies this within 1e-7 of the largest sample, except Coiflet 5 and Daubechies 11 (whose coefficients are less accurate), which satisfy it within 2e-4.", "quantifier": "every orthogonal bank, every even-length signal", "why_tests_cant": "all banks and signals", "anchors": ["diamondback/transforms/wavelet_transform.py:WaveletTransform.transform"]}
{"id": "C63", "title": "Wavelet transform of integer arrays truncates", "statement": "If the input has integer dtype, subband samples are truncated toward zero when stored, so one-level Haar reconstruction returns the signal exactly when every sum x[2j]+x[2j+1] is even.", "quantifier": "existence; all float signals are unaffected", "why_tests_cant": "dtype interaction", "anchors": ["diamondback/transforms/wavelet_transform.py:WaveletTransform.transform"]}
{"id": "C64", "title": "ZTransform yields a causal filter with unit DC gain", "statement": "Whatever the root/residue finder returns, the resulting coefficients satisfy a[0] = 0 and sum(b) = 1 - sum(a) whenever the pre-normalised numerator sum is non-zero (for the bilinear method: whenever the last numerator coefficient is non-zero); scaling the s-domain numerator does not change the result.  A numerator vanishing at s = 0, such as a high-pass, therefore has no finite numerator: dividing by the zero sum.", "quantifier": "every s-domain system, frequency, both methods", "why_tests_cant": "arbitrary root finder outputs", "anchors": ["diamondback/transforms/z_transform.py:ZTransform.transform"]}
{"id": "C65", "title": "ZTransform preserves stability", "statement": "If every s-domain pole has negative real part then every root of the z-domain denominator lies strictly inside the unit circle, for both the bilinear and impulse-invariant methods and every positive frequency; and conversely.", "quantifier": "every pole, every frequency > 0", "why_tests_cant": "continuum of poles", "anchors": ["diamondback/transforms/z_transform.py:ZTransform.transform"]}
{"id": "C66", "title": "ZTransform denominator has exactly the mapped poles", "statement": "1 - sum a[i] z^-i equals prod (1 - p_i z^-1) over the mapped poles, for both methods (real parts taken of a conjugate-closed product).", "quantifier": "every pole list", "why_tests_cant": "all orders", "anchors": ["diamondback/transforms/z_transform.py:ZTransform.transform"]}
{"id": "C67", "title": "ZTransform impulse-invariant numerator realises the partial fractions", "statement": "Before DC normalisation, B(z)/A(z) = sum_i r_i/(1 - e^{p_i/t} z^-1) for every z where it is defined.", "quantifier": "every residue/pole list, every z", "why_tests_cant": "all orders", "anchors": ["diamondback/transforms/z_transform.py:ZTransform.transform"]}
{"id": "C68", "title": "ZTransform overwrites the caller's arrays", "statement": "When u and v are float arrays without leading zeros, the call divides the caller's own arrays in place by the last element of u; with a leading zero or a list argument the caller's data is untouched.  Invalid arguments raise ValueError and leave both arrays alone; an integer array u raises TypeError, after v has already been divided.", "quantifier": "every argument", "why_tests_cant": "aliasing over all arguments", "anchors": ["diamondback/transforms/z_transform.py:ZTransform.transform"]}
{"id": "C69", "title": "Complex to three-phase to complex is the identity", "statement": "For every complex signal and both neutral settings, transforming a one-dimensional complex signal to three phases and back returns the signal, in exact arithmetic.", "quantifier": "every complex signal, any length", "why_tests_cant": "continuum", "anchors": ["diamondback/transforms/complex_transform.py:ComplexTransform.transform"]}
{"id": "C70", "title": "Three-phase to complex to three-phase removes the common component", "statement": "For every three-phase signal the round trip (same neutral setting) returns each phase minus the mean of the three; it is the identity exactly on zero-sum signals.", "quantifier": "every real 3xN signal, both settings", "why_tests_cant": "continuum", "anchors": ["diamondback/transforms/complex_transform.py:ComplexTransform.transform"]}
{"id": "C71", "title": "Three-phase output is balanced and preserves power", "statement": "The three phases produced from a complex signal always sum to zero and their squares sum to 3/2 |y|^2 (neutral) or 9/2 |y|^2 (no neutral).", "quantifier": "every complex sample", "why_tests_cant": "continuum", "anchors": ["diamondback/transforms/complex_transform.py:ComplexTransform.transform"]}
{"id": "C72", "title": "ComplexTransform accepts exactly the documented shapes except the single-row matrix", "statement": "One-dimensional non-empty signals and 3xN matrices (N>0) succeed; matrices with 1 row pass the row check but always raise ValueError; everything else raises ValueError, except that a scalar raises TypeError.", "quantifier": "every shape", "why_tests_cant": "all shapes", "anchors": ["diamondback/transforms/complex_transform.py:ComplexTransform.transform"]}
{"id": "C73", "title": "PsdTransform is the mean of its spectrogram and non-negative", "statement": "With index > 0 the number of frames is floor((len x - len b)/index)+1, each has len(b)//2 non-negative bins, and the default result is the arithmetic mean over frames of the spectrogram result.", "quantifier": "every signal, window, stride", "why_tests_cant": "all sizes", "anchors": ["diamondback/transforms/psd_transform.py:PsdTransform.transform"]}
{"id": "C74", "title": "PsdTransform scales quadratically", "statement": "Scaling the signal by c scales every bin by |c|^2; a zero signal gives zero.", "quantifier": "all scalars and signals", "why_tests_cant": "continuum", "anchors": ["diamondback/transforms/psd_transform.py:PsdTransform.transform"]}
{"id": "C75", "title": "PsdTransform frequency axis", "statement": "For even window length N the axis is exactly 2k/N; for odd N > 3 it is not.", "quantifier": "every N", "why_tests_cant": "all lengths", "anchors": ["diamondback/transforms/psd_transform.py:PsdTransform.transform"]}
{"id": "C76", "title": "FourierTransform round trip for even lengths", "statement": "For every even window length N whose window has no zero and whose two ends exceed the isclose tolerance 1e-8, inverse(forward(x)) returns the first N samples of x, in exact arithmetic.", "quantifier": "every signal, window, even N", "why_tests_cant": "continuum and all lengths", "anchors": ["diamondback/transforms/fourier_transform.py:FourierTransform.transform"]}
{"id": "C77", "title": "FourierTransform round trip fails for odd lengths", "statement": "For odd N the two half-rotations compose to a rotation by N-1, so the round trip returns x[n]*e^{+-2 pi j n/N}: it is the identity only for N = 1 (or signals supported at n = 0).", "quantifier": "every odd N and signal", "why_tests_cant": "all odd lengths", "anchors": ["diamondback/transforms/fourier_transform.py:FourierTransform.transform"]}
{"id": "C78", "title": "FourierTransform forward bins match the DFT at the returned frequencies for even lengths", "statement": "For even N, y[k] = (1/N) sum_n b[n]x[n]e^{-j pi f_k n} with f_k = -1+2k/N the returned axis; for odd N > 1 the value is off by half a bin.", "quantifier": "every signal, N, k", "why_tests_cant": "all lengths", "anchors": ["diamondback/transforms/fourier_transform.py:FourierTransform.transform"]}
{"id": "C79", "title": "FourierTransform is linear and satisfies Parseval", "statement": "The forward transform is linear in x and sum|y[k]|^2 = (1/N) sum |b[n]x[n]|^2.", "quantifier": "all signals", "why_tests_cant": "continuum", "anchors": ["diamondback/transforms/fourier_transform.py:FourierTransform.transform"]}
{"id": "C80", "title": "FourierTransform inverse handles zero window ends", "statement": "If the window vanishes only at its two ends (even N >= 4), the round trip returns x in the interior and 0 at the ends.  In general, when either end is within 1e-8 of zero both ends are divided by their neighbours, so a nonzero end is returned scaled by b[end]/b[neighbour].", "quantifier": "every signal and such window", "why_tests_cant": "continuum", "anchors": ["diamondback/transforms/fourier_transform.py:FourierTransform.transform"]}
{"id": "C81", "title": "GaussianModel.predict ranks every class once by increasing distance", "statement": "Each row of predict is a permutation of 0..classes-1 in order of non-decreasing regularised Mahalanobis distance, for any correct argsort.", "quantifier": "every trained model, every batch", "why_tests_cant": "all inputs and argsorts", "anchors": ["diamondback/models/gaussian_model.py:GaussianModel.predict"]}
{"id": "C82", "title": "GaussianModel.predict treats rows independently and does not change the model", "statement": "The prediction for a row depends only on that row and the model; predict never modifies the model, so repeated calls agree.", "quantifier": "every batch", "why_tests_cant": "all batches", "anchors": ["diamondback/models/gaussian_model.py:GaussianModel.predict"]}
{"id": "C83", "title": "GaussianModel.fit does not depend on sample order or on previous fits", "statement": "Permuting the training pairs leaves the fitted model unchanged (exact arithmetic), and fit replaces the model entirely.", "quantifier": "every training set and permutation", "why_tests_cant": "factorially many permutations", "anchors": ["diamondback/models/gaussian_model.py:GaussianModel.fit"]}
{"id": "C84", "title": "GaussianModel covariance is divided by the number of features", "statement": "The estimated covariance of a class is (sum of centred outer products)/count where count is the feature dimension, not the class size; duplicating a class's samples doubles its covariance, and the fitted value equals the maximum-likelihood covariance only when class size = feature count or the scatter is zero.", "quantifier": "every training set", "why_tests_cant": "all data sets", "anchors": ["diamondback/models/gaussian_model.py:GaussianModel.fit"]}
{"id": "C85", "title": "GaussianModel.fit failure atomicity", "statement": "Validation failures leave the model unchanged; a singular class covariance raises midway and leaves a model containing only the classes before it, on which predict then works.", "quantifier": "every failing fit", "why_tests_cant": "crash points", "anchors": ["diamondback/models/gaussian_model.py:GaussianModel.fit"]}
{"id": "C86", "title": "GaussianModel.predict returns class positions, not labels", "statement": "Predicted indices refer to positions in the sorted set of distinct training labels; they coincide with labels exactly when the labels are 0..k-1.", "quantifier": "every label set", "why_tests_cant": "all label sets", "anchors": ["diamondback/models/gaussian_model.py:GaussianModel.predict", "diamondback/models/gaussian_model.py:GaussianModel.fit"]}
{"id": "C87", "title": "Positive regularisation makes GaussianModel distances well defined", "statement": "For regularize > 0 every class covariance plus regularisation is positive definite hence invertible, and distances are non-negative so the clipping at zero has no effect.", "quantifier": "every data set, every dimension", "why_tests_cant": "all dimensions", "anchors": ["diamondback/models/gaussian_model.py:GaussianModel.fit", "diamondback/models/gaussian_model.py:GaussianModel.predict"]}
{"id": "C88", "title": "GaussianMixtureModel.predict ranks every class once by decreasing score", "statement": "Each row of predict is a permutation of 0..classes-1 in order of non-increasing mixture score, and the scores lie in [0,1] when the weights are non-negative and sum to one.", "quantifier": "every trained mixture, every batch, any argsort", "why_tests_cant": "all inputs", "anchors": ["diamondback/models/gaussian_mixture_model.py:GaussianMixtureModel.predict"]}
{"id": "C89", "title": "GaussianMixtureModel.fit is not atomic under failure", "statement": "Validation failures leave the model unchanged, but a failure of the underlying fit for one class leaves a model with only the earlier classes and the new shape.", "quantifier": "every failing fit", "why_tests_cant": "crash points", "anchors": ["diamondback/models/gaussian_mixture_model.py:GaussianMixtureModel.fit"]}
{"id": "C90", "title": "DiversityModel reports a non-decreasing diversity", "statement": "Along any history of fit calls the reported diversity never decreases, and clear restores zero.", "quantifier": "every history", "why_tests_cant": "unbounded histories", "anchors": ["diamondback/models/diversity_model.py:DiversityModel.fit"]}
{"id": "C91", "title": "DiversityModel keeps only observed samples", "statement": "Every filled row of the state is one of the samples presented, the first order+1 samples fill the rows in order, and afterwards each step changes at most one row, to the current sample.", "quantifier": "every history", "why_tests_cant": "unbounded histories", "anchors": ["diamondback/models/diversity_model.py:DiversityModel.fit"]}
{"id": "C92", "title": "DiversityModel replacement is the best single swap", "statement": "Once full, a sample replaces row k only if that yields the maximum over all single replacements of the minimum pairwise distance (first such k), and only if that exceeds the stored diversity; the stored diversity then equals the actual minimum pairwise distance of the state.", "quantifier": "every state and sample, every distance", "why_tests_cant": "all states", "anchors": ["diamondback/models/diversity_model.py:DiversityModel.fit"]}
{"id": "C93", "title": "DiversityModel can lose diversity at its first replacement", "statement": "The stored diversity is 0 when the state has just been filled whatever its actual diversity, so the first replacement may strictly reduce the actual minimum pairwise distance; after the first replacement the actual minimum distance never decreases.", "quantifier": "existence; every later history", "why_tests_cant": "counterexample plus invariant", "anchors": ["diamondback/models/diversity_model.py:DiversityModel.fit"]}
{"id": "C94", "title": "DiversityModel fitting in chunks equals one call", "statement": "Splitting the batch into several fit calls gives the same reports and state, provided no sample has a first coordinate that looks like the empty-row sentinel.", "quantifier": "every partition", "why_tests_cant": "all partitions", "anchors": ["diamondback/models/diversity_model.py:DiversityModel.fit"]}
{"id": "C95", "title": "DiversityModel distances are metrics except Geometric", "statement": "Chebyshev, Euclidean and Manhattan distances are symmetric, non-negative, zero exactly on equal points and satisfy the triangle inequality in every dimension; Geometric is symmetric and non-negative but is zero for some distinct points and violates the triangle inequality.", "quantifier": "all points in all dimensions", "why_tests_cant": "continuum", "anchors": ["diamondback/models/diversity_model.py:DiversityModel.DISTANCE"]}
{"id": "C96", "title": "DiversityModel.clear changes the order", "statement": "clear resizes the state to the feature dimension instead of order+1 rows, so the retained set size changes unless dimension = order+1 (and becomes zero if nothing was fitted).", "quantifier": "every model", "why_tests_cant": "all orders and dimensions", "anchors": ["diamondback/models/diversity_model.py:DiversityModel.clear"]}
{"id": "C97", "title": "Log writes an entry exactly when its level reaches the threshold", "statement": "After any history, write(level, entry) with a known level emits the entry iff the level number is at least that of the last successfully set level; unknown levels raise ValueError and emit nothing.", "quantifier": "every history of level/stream/write and external logger operations", "why_tests_cant": "unbounded histories", "anchors": ["diamondback/commons/log.py:Log.write", "diamondback/commons/log.py:Log.level"]}
{"id": "C98", "title": "Log owns at most one handler and never touches foreign handlers", "statement": "With loguru's default handler in place at import, in every reachable state at most one handler created by Log is installed, under the id Log keeps, and no Log operation removes a handler added by other code.", "quantifier": "every interleaving of Log and external operations", "why_tests_cant": "unbounded histories", "anchors": ["diamondback/commons/log.py:Log.stream"]}
{"id": "C99", "title": "Log delivers an accepted entry exactly once to its current stream", "statement": "If no external code removed Log's handler, an accepted entry appears exactly once in the stream last set (stdout if none); if the handler was removed externally the entry is lost until stream is called again.", "quantifier": "every history", "why_tests_cant": "unbounded histories", "anchors": ["diamondback/commons/log.py:Log.write", "diamondback/commons/log.py:Log.stream"]}
{"id": "C100", "title": "Failing Log calls leave level and handlers alone, with one exception", "statement": "A failing level call changes nothing. A failing stream call changes nothing when it raises ValueError; when the object has a write attribute that is not callable it raises TypeError after Log's present handler has been removed (so \"failing calls change no handler\" is refuted). A failing write changes at most what the lazy installation of sys.stdout changes.", "quantifier": "every failing call in every state", "why_tests_cant": "all states", "anchors": ["diamondback/commons/log.py:Log"]}
{"id": "C101", "title": "Log is thread safe", "statement": "Every interleaving of the individual steps of concurrent level/stream/write calls is equivalent to executing the calls one after another in lock-acquisition order.", "quantifier": "every number of threads, every schedule", "why_tests_cant": "exponentially many schedules", "anchors": ["diamondback/commons/log.py:Log._rlock", "diamondback/commons/log.py:Log.level", "diamondback/commons/log.py:Log.stream", "diamondback/commons/log.py:Log.write"]}
{"id": "C102", "title": "RestClient joins base URL and path with exactly one slash", "statement": "The request URL is the base without leading/trailing slashes, then, if the path has anything other than slashes, one '/' and the path without leading/trailing slashes; leading/trailing slashes in either never matter.", "quantifier": "every string", "why_tests_cant": "all strings", "anchors": ["diamondback/commons/rest_client.py:RestClient.url", "diamondback/commons/rest_client.py:RestClient.request"]}
{"id": "C103", "title": "RestClient accepts exactly the seven methods, case-insensitively", "statement": "request raises ValueError without sending anything iff the method is not, ignoring ASCII case, one of delete/get/head/options/patch/post/put, or both data and json are truthy; otherwise exactly one request is sent.", "quantifier": "every string and argument", "why_tests_cant": "all strings", "anchors": ["diamondback/commons/rest_client.py:RestClient.request"]}
{"id": "C104", "title": "RestClient.live is total", "statement": "live sends exactly one head request to the base URL and returns True iff it does not raise; it never raises and never changes the client.", "quantifier": "every network behaviour", "why_tests_cant": "all outcomes", "anchors": ["diamondback/commons/rest_client.py:RestClient.live"]}
{"id": "C105", "title": "Base-85 round trip", "statement": "The text produced for any byte string decodes to the same byte string.", "quantifier": "every byte string of every length", "why_tests_cant": "infinite domain", "anchors": ["diamondback/commons/serial.py:Serial.encode", "diamondback/commons/serial.py:Serial.decode"]}
{"id": "C106", "title": "Serial round trip with and without compression", "statement": "decode(encode(x, compress)) == x for both settings whenever pickling round-trips and pickles do not start with the gzip magic; compression is detected automatically.", "quantifier": "every object, both settings", "why_tests_cant": "all objects", "anchors": ["diamondback/commons/serial.py:Serial.encode", "diamondback/commons/serial.py:Serial.decode"]}
{"id": "C107", "title": "Serial text is printable ASCII of predictable length", "statement": "The encoded text uses only the 85 alphabet characters (all ASCII), has length 5*(n div 4) + (r+1 if r = n mod 4 > 0), and is never empty, so decode and code never reject it as empty.", "quantifier": "every payload", "why_tests_cant": "infinite domain", "anchors": ["diamondback/commons/serial.py:Serial.encode"]}
{"id": "C108", "title": "Serial.decode rejects malformed text", "statement": "decode raises ValueError on empty text, on any character outside the alphabet and on any group whose value exceeds 32 bits.", "quantifier": "every text", "why_tests_cant": "infinite domain", "anchors": ["diamondback/commons/serial.py:Serial.decode"]}
{"id": "C109", "title": "Serial with a non-ASCII-compatible encoding does not round trip", "statement": "With an ASCII-compatible encoding name the round trip is unaffected; with utf-16 text re-encoding adds a byte order mark, so decoding never returns the payload.", "quantifier": "every payload", "why_tests_cant": "all payloads", "anchors": ["diamondback/commons/serial.py:Serial.encode", "diamondback/commons/serial.py:Serial.decode"]}
{"id": "C110", "title": "Every designed IIR filter is stable", "statement": "For every style, order, frequency, count, gain and either setting of complement, an IirFilter designed by constraints has all the roots of its denominator strictly inside the unit circle, provided the root finder returns the roots of the prototype it is given.", "quantifier": "every style, order and frequency; every step of the search", "why_tests_cant": "all orders; a continuum of cut-offs visited by the search", "anchors": ["diamondback/filters/iir_filter.py:IirFilter.__init__", "diamondback/filters/iir_filter.py:IirFilter._evaluate"]}
{"id": "C111", "title": "The bilinear option is the bilinear transform only for as many zeros as poles", "statement": "With n poles and m <= n zeros ZTransform(bilinear=True) realises, up to unit DC gain, the textbook bilinear transform divided by ((1+z^-1)/2)^(n-m): the missing zeros are put at z = 0 instead of z = -1.  So for 1/(s+1) the result is not the bilinear transform.", "quantifier": "every s-domain system, every frequency, every z", "why_tests_cant": "identity of rational functions", "anchors": ["diamondback/transforms/z_transform.py:ZTransform.transform"]}
{"id": "C112", "title": "ComplexTransform without neutral takes line-to-line quantities", "statement": "The three line-to-line differences (a-b, b-c, c-a) with neutral=False give exactly the result of the phases a, b, c with neutral=True; and permuting the phases cyclically multiplies the result by e^{2 pi j/3}.", "quantifier": "every three-phase signal of every length", "why_tests_cant": "continuum of signals", "anchors": ["diamondback/transforms/complex_transform.py:ComplexTransform.transform"]}
{"id": "C113", "title": "A bin-centred tone appears in exactly one bin, at its own frequency", "statement": "With a rectangular window of N ones, the tone A e^{2 pi j q n/N}, 0 <= q < N//2, gives a PsdTransform that is |A|^2 in bin q and 0 in every other bin, for every stride and for the spectrogram and the mean alike; for even N FourierTransform gives A e^0 in the bin whose returned frequency is 2q/N and 0 elsewhere.", "quantifier": "every amplitude, bin, window length, signal length and stride", "why_tests_cant": "all lengths and strides", "anchors": ["diamondback/transforms/psd_transform.py:PsdTransform.transform", "diamondback/transforms/fourier_transform.py:FourierTransform.transform"]}
{"id": "C114", "title": "A class mean is predicted in its own class, and predictions ignore a common shift", "statement": "GaussianModel: when regularize > 0 and the class means are distinct, predicting the mean of a class ranks that class first; adding one vector to every training and test row changes no prediction.", "quantifier": "every data set and every shift", "why_tests_cant": "continuum of data", "anchors": ["diamondback/models/gaussian_model.py:GaussianModel.fit", "diamondback/models/gaussian_model.py:GaussianModel.predict"]}
{"id": "C115", "title": "Model parameters stay in range", "statement": "The constructors of GaussianModel and GaussianMixtureModel raise ValueError iff order <= 0, index <= 0 or regularize < 0; the setters of index and regularize do the same and leave the model unchanged when they raise.", "quantifier": "every value", "why_tests_cant": "unbounded numbers", "anchors": ["diamondback/models/gaussian_mixture_model.py:GaussianMixtureModel.__init__", "diamondback/models/gaussian_mixture_model.py:GaussianMixtureModel.index", "diamondback/models/gaussian_mixture_model.py:GaussianMixtureModel.regularize", "diamondback/models/gaussian_model.py:GaussianModel.__init__"]}
{"id": "C116", "title": "A one-component mixture ranks by Mahalanobis distance", "statement": "With order 1 and weight 1 a class scores strictly higher than another exactly when its clipped Mahalanobis distance is strictly smaller, so GaussianMixtureModel ranks as GaussianModel does on the same means and precisions.", "quantifier": "every precision matrix, mean and sample", "why_tests_cant": "continuum of data", "anchors": ["diamondback/models/gaussian_mixture_model.py:GaussianMixtureModel.predict"]}
{"id": "C117", "title": "DiversityModel of order zero keeps its second sample for ever", "statement": "With order 0 the first sample is kept and reported as 0; the second replaces it and is reported as inf; every later sample is reported as inf and none is kept.", "quantifier": "every sequence of samples, every distance", "why_tests_cant": "unbounded sequences", "anchors": ["diamondback/models/diversity_model.py:DiversityModel.fit"]}
{"id": "C118", "title": "DiversityModel accepts exactly matrices of one width, and its four styles", "statement": "fit raises ValueError, leaving the model unchanged, exactly when x is not a non-empty matrix or has another number of columns than the state of an earlier fit; the constructor raises ValueError exactly when the style is not, ignoring ASCII case, one of the four or the order is negative.", "quantifier": "every argument and state", "why_tests_cant": "all arguments", "anchors": ["diamondback/models/diversity_model.py:DiversityModel.__init__", "diamondback/models/diversity_model.py:DiversityModel.fit"]}
{"id": "C119", "title": "Log reports the traceback of the exception being handled, not of the entry", "statement": "A text entry is written verbatim. An exception entry is written as its type name and text followed by one File/Line item per frame of sys.exc_info() at the call, outermost first; the traceback of the entry itself is never used, so outside an except clause no location is written.", "quantifier": "every entry and every stack of frames", "why_tests_cant": "unbounded stacks", "anchors": ["diamondback/commons/log.py:Log.write"]}
{"id": "C120", "title": "Without loguru's default handler Log mistakes handler 0 for none", "statement": "When loguru starts without a default handler (LOGURU_AUTOINIT) ids start at 0: a stream call then removes another program's handler 0, and the first stream set is replaced by sys.stdout at the next write.", "quantifier": "every stream and every write; refutation of the ownership claim in that setting", "why_tests_cant": "environment dependent", "anchors": ["diamondback/commons/log.py:Log.stream", "diamondback/commons/log.py:Log.write"]}
{"id": "C121", "title": "RestClient.request closes every response and turns error statuses into exceptions", "statement": "When a request is sent and answered, the response is closed exactly once, before request returns or raises; request returns the response when its status is not in 400..599 and raises otherwise; a network exception propagates. Without a URL and with a non-empty path TypeError is raised and nothing is sent.", "quantifier": "every client, argument and network behaviour", "why_tests_cant": "all outcomes", "anchors": ["diamondback/commons/rest_client.py:RestClient.request"]}
{"id": "C122", "title": "Base-85 texts are not unique", "statement": "A lone last character up to the 82nd of the alphabet after complete groups is ignored, so two different texts can decode to the same object (uniqueness is refuted).", "quantifier": "every text of complete groups", "why_tests_cant": "infinite domain", "anchors": ["diamondback/commons/serial.py:Serial.decode"]}
{"id": "C123", "title": "Serial.decode reports the wrong error for packed data that do not load", "statement": "If the data unpack with gzip but the pickle inside fails to load, decode returns or raises whatever loading the packed bytes themselves gives; the original error is lost.", "quantifier": "every text and pickle behaviour", "why_tests_cant": "all outcomes", "anchors": ["diamondback/commons/serial.py:Serial.decode"]}
{"id": "C124", "title": "Serial texts are equal exactly when the payloads are", "statement": "Two encode calls give the same text iff their payload bytes are the same; a packed and an unpacked text are never equal; so with compression the text, and with it the hash input of code, changes with the time gzip embeds.", "quantifier": "every object, time and setting", "why_tests_cant": "infinite domain", "anchors": ["diamondback/commons/serial.py:Serial.encode", "diamondback/commons/serial.py:Serial.code"]}
{"id": "C125", "title": "IirFilter.response gives the gain of each complex exponential, raised to count", "statement": "For length, count > 0 response returns length values and the axis -1 + 2k/length; the k-th value is h^count where h is the factor by which the recursion maps the complex exponential of frequency F onto itself. F is the axis value for even length and 1/length below it for odd length. Otherwise ValueError.", "quantifier": "every filter with a[0] = 0, every length and count, every bin where the denominator is not zero", "why_tests_cant": "continuum of coefficients, all lengths", "anchors": ["diamondback/filters/iir_filter.py:IirFilter.response"]}
{"id": "C126", "title": "FirFilter.delay is the slope of the phase, except in its first bin", "statement": "The k-th value is count times minus the derivative of the phase of the response at the paired frequency (1/length below it for odd length), for k > 0 or length <= 2; for length > 2 the first value is 2 y[1] - y[2] and can differ from the group delay (refuted for every bin). A linear-phase filter of n coefficients gives count (n - 1) / 2 everywhere. ValueError iff length <= 0 or count <= 0.", "quantifier": "every filter, length, count and bin where the response is not below the tolerance of scipy", "why_tests_cant": "continuum of coefficients, a derivative", "anchors": ["diamondback/filters/fir_filter.py:FirFilter.delay"]}
{"id": "C127", "title": "IirFilter.delay is the slope of the phase, except that it levels six bins at each end", "statement": "Between the first and the last six bins the value is count times minus the derivative of the phase of the response. For length > 6 the first six values, then the last six, are kept if the largest magnitude is at most ten times the smallest, and otherwise all get the smallest magnitude with their own sign, so they can differ from the group delay (refuted for every bin). ValueError iff length <= 0 or count <= 0.", "quantifier": "every filter, length, count and bin where numerator and denominator are not below the tolerance of scipy", "why_tests_cant": "continuum of coefficients, a derivative", "anchors": ["diamondback/filters/iir_filter.py:IirFilter.delay"]}
{"id": "C128", "title": "roots returns the poles and zeros of the cascade, ordered by magnitude", "statement": "For count >= 0, FirFilter.roots returns count (len b - 1) poles at 0 and the zeros, IirFilter.roots the poles and the zeros, of the count-fold cascade with multiplicity, by ascending magnitude; a number s != 0 is among them iff it is a pole or zero. Designed IIR filters have all poles inside the unit circle and exactly count * order zeros, all at -1 (1 with complement). A negative count raises ValueError for FIR filters of two or more coefficients.", "quantifier": "every filter and count, given that numpy.roots finds the roots", "why_tests_cant": "continuum of coefficients, every degree", "anchors": ["diamondback/filters/fir_filter.py:FirFilter.roots", "diamondback/filters/iir_filter.py:IirFilter.roots"]}
{"id": "C129", "title": "IirFilter with poles inside the unit circle is bounded-input bounded-output", "statement": "If all roots of the denominator have magnitude below 1 and |x[n]| <= M for all n, the endless output is bounded; from rest by M * sum|b[i]| / product(1 - |pole|). With a pole on the circle (the accumulator of IntegralFilter) it fails (refuted).", "quantifier": "every constructed and used filter with such poles, every bounded endless input", "why_tests_cant": "infinite signals; continuum of coefficients", "anchors": ["diamondback/filters/iir_filter.py:IirFilter.filter"]}
{"id": "C130", "title": "IirFilter settles on its frequency response and forgets its state", "statement": "If all poles lie inside the unit circle and the input approaches A e^{j pi F n}, the output approaches A h e^{j pi F n} with h the frequency response at F, from any state. Two instances with equal coefficients in different states give outputs whose difference tends to 0 for any input.", "quantifier": "every constructed and used filter with such poles, every endless input, every F", "why_tests_cant": "limits of infinite signals", "anchors": ["diamondback/filters/iir_filter.py:IirFilter.filter", "diamondback/filters/iir_filter.py:IirFilter.response"]}
{"id": "C131", "title": "A filter designed by constraints settles on the requested gain", "statement": "An IirFilter made from style, frequency, order, count, complement and gain, in whatever state it was left: a real input tending to c (with complement: to c (-1)^n) gives an output tending to gain * c (gain * c (-1)^n), and a bounded input gives a bounded output.", "quantifier": "every valid design and state, every endless real input", "why_tests_cant": "limits of infinite signals over a search result", "anchors": ["diamondback/filters/iir_filter.py:IirFilter.__init__", "diamondback/filters/iir_filter.py:IirFilter.filter"]}
{"id": "C132", "title": "A designed Butterworth filter has exactly the Butterworth response", "statement": "For a positive c, |H|^2 = gain^2 / (1 + (c tan(t/2))^(2 order)) at every angular frequency t (mirrored at pi/2 with complement); hence |H| falls strictly from |gain| at one end of the band to 0 at the other, without ripple or resonance.", "quantifier": "every valid Butterworth design (order, count, frequency, complement, gain)", "why_tests_cant": "continuum of frequencies, every order, result of a search", "anchors": ["diamondback/filters/iir_filter.py:IirFilter.__init__", "diamondback/transforms/z_transform.py:ZTransform.transform"]}
{"id": "C133", "title": "A designed Chebyshev filter is equal-ripple with 0.125 dB", "statement": "For a positive c, |H|^2 = gain^2 (1 + e^2 T_n(0)^2) / (1 + e^2 T_n(c tan(t/2))^2) with e^2 = 10^0.0125 - 1 and n = order; up to an edge t0 the response stays within a 0.125 dB band, and beyond t0 it falls strictly. For odd order gain is the top of that band; for even order it is the bottom, so some frequency is passed 10^0.00625 above the gain asked for (maximum = gain refuted).", "quantifier": "every valid Chebyshev design", "why_tests_cant": "continuum of frequencies, every order, result of a search", "anchors": ["diamondback/filters/iir_filter.py:IirFilter.__init__", "diamondback/transforms/z_transform.py:ZTransform.transform"]}
{"id": "C134", "title": "How close the corner of a designed Butterworth filter is to the requested frequency", "statement": "When rate * order * count <= sqrt 2, the gain at frequency after count passes is at most gain / sqrt 2 and short of it by at most (S - 1) / (500 rate), S = tan(pi f/2) / (pi f/2) / x the exact scale factor, x the root of (1 + x^(2 order))^count = 2 (or by 10^4 eps). E.g. within 2.3 % at f = 1/2. But for f >= 0.98 (<= 0.02 with complement) the 500 steps do not suffice and |H| < |gain| / 2 there for every order and count (corner refuted).", "quantifier": "every valid Butterworth design in the stated range", "why_tests_cant": "500-step search over a continuum of frequencies", "anchors": ["diamondback/filters/iir_filter.py:IirFilter.__init__"]}
{"id": "C135", "title": "Rounding errors of FirFilter stay proportional to the precision", "statement": "In any arithmetic whose sums, products, dot products and stores are within a relative error u and an absolute error eta, each output sample of FirFilter.filter is within (7 sum|b[i]| + 3)(u M + eta) of the exact one, M bounding the state and the input. Rounding every real operation to nearest (e.g. IEEE double without overflow) is such an arithmetic.", "quantifier": "every constructed and used FirFilter, every input, every such arithmetic", "why_tests_cant": "continuum of rounding behaviours and inputs", "anchors": ["diamondback/filters/fir_filter.py:FirFilter.filter"]}
{"id": "C136", "title": "Rounding errors of a stable IirFilter do not build up", "statement": "With all poles inside the unit circle there are K and u0 > 0, depending on the coefficients only, such that in any arithmetic with relative error u <= u0 and absolute error eta <= 1 every output sample, however late, is within K (u M + eta (1 + M)) of the exact one.", "quantifier": "every constructed and used IirFilter with such poles, inputs of every length, every such arithmetic", "why_tests_cant": "accumulation of errors over unbounded time", "anchors": ["diamondback/filters/iir_filter.py:IirFilter.filter"]}
{"id": "C137", "title": "Rounding errors of an accumulator do build up", "statement": "With a pole on the unit circle (IntegralFilter) no bound on the rounding error exists, however small u is (refuted by an arithmetic whose sums are low by a factor 1 - u). In IEEE doubles IntegralFilter of order 0 fed 2^53 and then ones returns 2^53 for ever, while the exact output grows by one per sample.", "quantifier": "every u in (0,1]; every number of samples", "why_tests_cant": "an endless run", "anchors": ["diamondback/filters/integral_filter.py:IntegralFilter.filter", "diamondback/filters/iir_filter.py:IirFilter.filter"]}
{"id": "C138", "title": "A program that shares no arrays sees value semantics", "statement": "Filter objects hold references to numpy arrays, but constructors copy: any program over any number of FirFilter and IirFilter objects that never fetches f.a, f.b, f.s and never again touches an array it assigned to one of them observes exactly what it would observe if every filter had its own private values, i.e. the value models; its own arrays change only by its own writes.", "quantifier": "every program of allocations, writes, constructions, assignments, filter and reset calls", "why_tests_cant": "unboundedly many programs and aliasing patterns", "anchors": ["diamondback/filters/fir_filter.py:FirFilter.__init__", "diamondback/filters/fir_filter.py:FirFilter.b", "diamondback/filters/fir_filter.py:FirFilter.s", "diamondback/filters/iir_filter.py:IirFilter.__init__", "diamondback/filters/iir_filter.py:IirFilter.a"]}
{"id": "C139", "title": "Assigning or fetching b, s or a shares the array", "statement": "A caller holding the array that is f.s finds the new delay line in it after each call; two filters given one state array have one delay line between them (the second continues where the first stopped). Hence assignment does not copy: refuted by f.s = z, g.s = z, s = f.s, f.s = f.b (which lets the signal overwrite the coefficients), f.filter(f.s) and a later write to the assigned array.", "quantifier": "every heap, object and input", "why_tests_cant": "aliasing between objects is invisible to per-object tests", "anchors": ["diamondback/filters/fir_filter.py:FirFilter.b", "diamondback/filters/fir_filter.py:FirFilter.s", "diamondback/filters/iir_filter.py:IirFilter.a", "diamondback/filters/fir_filter.py:FirFilter.filter"]}
{"id": "C140", "title": "Changing the coefficients or the state of a running filter", "statement": "Assigning f.b of the same length keeps the history: the filter continues as if it had had the new forward coefficients from the start (refuted for the recursive coefficients a). The setters check nothing: with unequal lengths filter raises ValueError only after storing the first sample (so repeating the repaired call is not harmless), with an empty b or s IndexError, and a state array of another dtype converts every sample to it.", "quantifier": "every filter, coefficient array, state array and input, any arithmetic", "why_tests_cant": "all histories and lengths", "anchors": ["diamondback/filters/fir_filter.py:FirFilter.b", "diamondback/filters/fir_filter.py:FirFilter.s", "diamondback/filters/iir_filter.py:IirFilter.a", "diamondback/filters/fir_filter.py:FirFilter.filter", "diamondback/filters/iir_filter.py:IirFilter.filter"]}
{"id": "C141", "title": "Replacing the state of RankFilter or PolyphaseRateFilter breaks their calls", "statement": "RankFilter with a state shorter than its index allows raises IndexError in filter, with the first sample already stored; PolyphaseRateFilter with a state of another length than the rows of its bank raises ValueError at its first output, with its position already advanced and the sample stored.", "quantifier": "every filter, every state of such a length, every non-empty input", "why_tests_cant": "all lengths and positions", "anchors": ["diamondback/filters/rank_filter.py:RankFilter.filter", "diamondback/filters/polyphase_rate_filter.py:PolyphaseRateFilter.s", "diamondback/filters/polyphase_rate_filter.py:PolyphaseRateFilter.filter"]}
{"id": "C142", "title": "Filters after each other or side by side are one filter", "statement": "From rest, passing a signal through IirFilter f and then g gives what the IirFilter with the multiplied coefficient polynomials gives, that filter can be constructed for any f and g, and the order of f and g does not matter; the same for FirFilter. The sum of the outputs of f and g is the output of the filter over the common denominator. A filter followed by one with reciprocal coefficients (an FirFilter with b[0] = 1 followed by the all-pole IirFilter) gives the input back. In double arithmetic the order matters (refuted).", "quantifier": "every pair of constructed and used filters at rest, every input, every exact arithmetic", "why_tests_cant": "all coefficients, orders and signals", "anchors": ["diamondback/filters/fir_filter.py:FirFilter.filter", "diamondback/filters/iir_filter.py:IirFilter.filter"]}
{"id": "C143", "title": "Filters at rest are time invariant", "statement": "From rest, an input delayed by d zero samples gives the output delayed by d zero samples, for FirFilter and IirFilter; refuted from other states.", "quantifier": "every filter at rest, input and delay, every exact arithmetic", "why_tests_cant": "all delays and signals", "anchors": ["diamondback/filters/fir_filter.py:FirFilter.filter", "diamondback/filters/iir_filter.py:IirFilter.filter"]}
{"id": "C144", "title": "RankFilter removes bursts, passes ramps and amplifies no perturbation", "statement": "If more than index samples of the window have magnitude at most c so has the output, if more than order-index have magnitude at least c so has the output; so a background of magnitude c survives any order-index larger and index smaller samples. Signals growing (shrinking) in magnitude pass with a delay of order-index (index) samples. Changing all samples and the state by at most e in magnitude changes the output by at most e in magnitude, whatever the sort does with ties.", "quantifier": "every constructed and used RankFilter, every input, every sorting permutation", "why_tests_cant": "continuum of signals, unspecified sort", "anchors": ["diamondback/filters/rank_filter.py:RankFilter.filter"]}
{"id": "C145", "title": "FirFilter in IEEE doubles", "statement": "Whatever order (and fusing of multiply and add) numpy.dot uses: where the coefficients and the last N samples are finite and (1+2^-53)^N (size + 2 N 2^-1075) < 2^1024, size the sum of |b[i]| |x[n-i]|, the output is a finite double within ((1+2^-53)^N - 1) size + 2 N (1+2^-53)^N 2^-1075 of the exact convolution. A NaN among the last N samples makes the output NaN, and only those outputs: N samples later the filter has recovered. Finite samples alone do not suffice (refuted: overflow).", "quantifier": "every constructed and used FirFilter, every input of doubles including NaN and infinities, every order of summation", "why_tests_cant": "2^64 values per sample, unspecified summation order", "anchors": ["diamondback/filters/fir_filter.py:FirFilter.filter"]}
{"id": "C146", "title": "One NaN or infinity ends an IirFilter", "statement": "After one NaN or infinite sample every output of every later filter call of an IirFilter with at least two coefficients is NaN until reset, even with all recursive coefficients zero, where the FirFilter with the same b recovers.", "quantifier": "every constructed and used IirFilter in IEEE doubles, every input before and after, every order of summation", "why_tests_cant": "endless consequences of one sample", "anchors": ["diamondback/filters/iir_filter.py:IirFilter.filter"]}
{"id": "C147", "title": "A stable IirFilter in IEEE doubles never overflows", "statement": "With finite coefficients, all poles inside the unit circle and 2 (1 + sum|a[i]|) ((1+2^-53)^(N+1) - 1) at most the product of 1 - |pole|, there is K depending on the coefficients only such that for any input and state of magnitude at most M, K (1 + M) < 2^1024, of any length and in any order of summation, all outputs and the final state are finite and every output is within K (2^-53 M + 2^-1075 (1 + M)) of the exact one. With a pole outside the circle one sample of 1 grows to infinity (refuted).", "quantifier": "every such filter, input of every length, order of summation", "why_tests_cant": "unbounded time, continuum of coefficients and samples", "anchors": ["diamondback/filters/iir_filter.py:IirFilter.filter"]}
{"id": "C148", "title": "ComplexBandpassFilter is exactly a linear notch", "statement": "For any primary signal the error output of a call equals the output of the fresh IirFilter with a = [0, (1 - rate) w], b = [1, -w], w = e^{j pi frequency}, on the same (analytic) signal, minus (1 - rate)^n times the contribution of the initial coefficient; the reference output is the rest of the primary signal.", "quantifier": "every filter, call and primary signal", "why_tests_cant": "continuum of signals; the adaptive filter looks time varying", "anchors": ["diamondback/filters/complex_bandpass_filter.py:ComplexBandpassFilter.filter", "diamondback/filters/iir_filter.py:IirFilter.filter"]}
{"id": "C149", "title": "Response of ComplexBandpassFilter to every frequency", "statement": "For a tone of any frequency t and rate > 0 the reference output approaches Y times the tone and the error 1 - Y times it, the distance shrinking exactly by 1 - rate per sample, with |Y|^2 = rate^2/D, |1-Y|^2 = 4 s/D, s = sin^2(pi (t - frequency)/2), D = rate^2 + 4 (1 - rate) s. So |Y| <= 1, with equality (rate < 1) exactly at the filter's frequency, and half the power passes exactly where 4 (1 - rate) s <= rate^2.", "quantifier": "every filter with positive rate, every frequency, amplitude and phase", "why_tests_cant": "continuum of frequencies; infinite time", "anchors": ["diamondback/filters/complex_bandpass_filter.py:ComplexBandpassFilter.filter"]}
{"id": "C150", "title": "ComplexBandpassFilter under disturbances", "statement": "If the primary signal differs from A times the filter's tone by at most delta per sample, the coefficient and the reference differ from their ideal values by at most q |b0 - A| + (1 - q) delta, q = (1 - rate)^n, and the error is at most q |b0 - A| + (2 - q) delta; hence eventually delta and 2 delta. The bound delta is attained in the limit.", "quantifier": "every filter, disturbance, amplitude", "why_tests_cant": "all disturbances", "anchors": ["diamondback/filters/complex_bandpass_filter.py:ComplexBandpassFilter.filter"]}
{"id": "C151", "title": "ComplexBandpassFilter and ComplexFrequencyFilter in chunks", "statement": "If every chunk contains a sample with a non-zero imaginary part, calls on the chunks give the outputs of one call on the whole signal and leave the same filter (up to a multiple of 2 in the phase). For real signals this is refuted: the Hilbert transform of scipy is taken per call.", "quantifier": "every filter, every division into chunks", "why_tests_cant": "all divisions", "anchors": ["diamondback/filters/complex_bandpass_filter.py:ComplexBandpassFilter.filter", "diamondback/filters/complex_frequency_filter.py:ComplexFrequencyFilter.filter"]}
{"id": "C152", "title": "The estimate of ComplexFrequencyFilter lies between the extreme phase steps of the signal", "statement": "If the phase of the signal advances by between lo and hi from sample to sample (-pi < lo <= hi <= pi, hi - lo < pi, no sample near zero), an estimate that starts between lo/pi and hi/pi stays there; from any start and with rate > 0 it comes there up to any tolerance, after a number of samples that does not depend on the signal. A tone of amplitude a disturbed by at most delta per sample is therefore estimated within (2/pi) asin(delta/a) eventually.", "quantifier": "every filter, signal of that kind, tolerance", "why_tests_cant": "all signals; infinite time", "anchors": ["diamondback/filters/complex_frequency_filter.py:ComplexFrequencyFilter.filter"]}
{"id": "C153", "title": "Accuracy of DerivativeFilter on smooth signals", "statement": "On samples taken h apart of a function whose derivative of order deg+1 is at most M (deg the degree up to which the table row is exact), every output with a full window, divided by h^derivative, is within C M h^(deg+1-derivative) of the derivative in the middle of the window, C a constant given for each of the ten rows.", "quantifier": "every constructed and used DerivativeFilter, every such function, sampling distance and length", "why_tests_cant": "continuum of functions", "anchors": ["diamondback/filters/derivative_filter.py:DerivativeFilter.B", "diamondback/filters/fir_filter.py:FirFilter.filter"]}
{"id": "C154", "title": "Accuracy of IntegralFilter on smooth signals", "statement": "On samples taken h apart of a function with second derivative at most M, h times the increase of the output from m to n (m >= order) is within C M h^3 (n-m) of the integral over the same span delayed by (order-1)/2 samples. Each single increase times h is within C M h^(p+1) of 1/order of the integral over the last order intervals, M bounding the derivative of order p = 2, 4, 4, 6 (orders 1 to 4). C is given for each order.", "quantifier": "every constructed and used IntegralFilter, every such function, sampling distance, length and span", "why_tests_cant": "continuum of functions", "anchors": ["diamondback/filters/integral_filter.py:IntegralFilter.B", "diamondback/filters/iir_filter.py:IirFilter.filter"]}
{"id": "C155", "title": "Accuracy of PolynomialRateFilter on smooth signals", "statement": "On samples taken h apart of a function whose derivative of order k+1 is at most M, the output of order k = 1, 2, 3 with index j that needs no padding is within C M h^(k+1) of the function at time j h/rate, C = 1/8, 1/2, 15/512. The extrapolated last interval of order 1 is within M h^2.", "quantifier": "every positive rate, every such function, sampling distance and length, any numpy.polyfit that returns a least-squares fit", "why_tests_cant": "continuum of functions and rates", "anchors": ["diamondback/filters/polynomial_rate_filter.py:PolynomialRateFilter.filter"]}
{"id": "C156", "title": "GaussianModel under linear changes of the features", "statement": "Replacing every row x of the training and the test data by A x, A invertible, changes no prediction, provided the class covariances (with the regularisation) are positive definite and r A A^T = r' I for the regularisations r before and r' after: any invertible A when r = r' = 0, every rotation or permutation of the features with r = r', and scaling by s with r' = r s^2. Scaling with the same positive regularisation does change predictions (refuted with an example).", "quantifier": "every number of features, classes and rows, every such matrix", "why_tests_cant": "continuum of data and matrices", "anchors": ["diamondback/models/gaussian_model.py:GaussianModel.fit", "diamondback/models/gaussian_model.py:GaussianModel.predict"]}
{"id": "C157", "title": "PidFilter over whole executions: chunks, equivalent IirFilter, bounds, integral action", "statement": "Calls on chunks give the outputs of one call. Without a limit a new PidFilter with gains P, I, D gives the outputs of the IirFilter with b = [P+I+D, -(P+2D), D], a = [0, 1, 0]. With a limit L and samples up to M every output is at most |P| M + |I| max(|integral|, L) + 2 |D| M; without a limit outputs are unbounded (refuted). Scaling all samples and levels by c and the limit by |c| scales all outputs by c; with a limit sums of signals do not give sums of outputs (refuted). Without a limit and I not 0, in whatever loop the filter is used, the sum of all samples stays at most (Y + (|P| + 2 |D|) M)/|I| while the last output is at most Y, so samples that converge while the outputs stay bounded converge to zero; with a limit an offset can stay for ever (refuted).", "quantifier": "every gain, history, limit, signal and length; every loop", "why_tests_cant": "unbounded executions and every plant", "anchors": ["diamondback/filters/pid_filter.py:PidFilter.filter", "diamondback/filters/iir_filter.py:IirFilter.filter"]}
{"id": "C158", "title": "Filters used by several threads", "statement": "A thread whose FirFilter, IirFilter and PidFilter objects no other thread uses gets, however the threads are interleaved, exactly the results of its calls made one after the other, and leaves its filters accordingly. No thread ever waits. Refuted for a shared filter: two threads can get results that no order of their calls gives, and a shared PidFilter can lose a sample of its integral.", "quantifier": "every number of threads, program, interleaving, arithmetic", "why_tests_cant": "all schedules", "anchors": ["diamondback/filters/fir_filter.py:FirFilter.filter", "diamondback/filters/iir_filter.py:IirFilter.filter", "diamondback/filters/pid_filter.py:PidFilter.filter"]}
{"id": "C159", "title": "GaussianModel used by several threads", "statement": "A thread gets the results of its calls made one after the other if each model it uses is its own or is only asked for predictions, by any number of threads. Refuted otherwise: a prediction made while the model is fitted again can raise ValueError, RuntimeError or IndexError or rank only some of the classes, although the model is trained before and after; two fits at the same time can leave a model with the classes of both.", "quantifier": "every number of threads, program, interleaving, arithmetic", "why_tests_cant": "all schedules", "anchors": ["diamondback/models/gaussian_model.py:GaussianModel.fit", "diamondback/models/gaussian_model.py:GaussianModel.predict"]}
{"id": "C160", "title": "Shape, delay and degenerate cases of designed FIR filters", "statement": "With scipy's windowed-sinc firwin, a FirFilter designed by constraints has order + 1 coefficients, is symmetric (antisymmetric for a complement of odd order), has exactly the requested gain at zero frequency (complement: at the Nyquist frequency), and its delay is count * order / 2 in every bin. A complement at frequency f is the plain design at 1 - f with alternating signs, accepted exactly when that is. A plain design of odd order blocks the Nyquist frequency, its complement zero frequency. The bank of PolyphaseRateFilter built from it is centrally symmetric. Order 1 always raises ValueError for Hann and Blackman and otherwise is the mean of two samples whatever the frequency; order 2 with Hann or Blackman only delays. Refuted: the response at the frequency asked for is 2^(-1/2).", "quantifier": "every style, frequency, order, count, gain", "why_tests_cant": "all orders and frequencies; exact arithmetic", "anchors": ["diamondback/filters/fir_filter.py:FirFilter.__init__", "diamondback/filters/fir_filter.py:FirFilter.delay", "diamondback/filters/polyphase_rate_filter.py:PolyphaseRateFilter.__init__"]}
{"id": "C161", "title": "Several levels of WaveletTransform do not reconstruct", "statement": "With an orthogonal bank of order n, decomposing x into k + 2 levels and composing again returns x delayed by n - 1 plus twice the synthesis filter applied to the difference between the low band as it comes back from the deeper levels and the low band itself: the high band is not delayed to match. Refuted: two levels return the signal up to delay and scale. For every orthogonal bank of order above 1 whose first two and last coefficients are not zero, the unit impulse of 4 n samples does not come back as any scaled delayed impulse. One Haar level halves the energy of the signal exactly.", "quantifier": "every orthogonal bank, number of levels and signal of suitable length", "why_tests_cant": "all banks, levels and signals; exact arithmetic", "anchors": ["diamondback/transforms/wavelet_transform.py:WaveletTransform.transform"]}
{"id": "C162", "title": "What GoertzelFilter reports for tones", "statement": "For a complex tone of frequency t a GoertzelFilter tuned to f with N window weights returns, per block, the tone at the first sample of the block times the spectrum of the window at t - f over N, turned by the phase of N - 1 samples. Tuned to the tone it returns the mean weight times the last sample of the block, and no tone of that size gives more than the mean magnitude of the weights. With equal weights the magnitude follows the Dirichlet kernel exactly, and tones any whole number of bins away are rejected entirely. Real tones are reported as the sum of both sidebands; with equal weights a real tone at a bin strictly between zero and Nyquist is reported with its amplitude and phase at the last sample. Refuted: every real bin-centred tone is reported with its amplitude. Constants (f = 0) and alternating signals (f = 1, even N) are reported at twice their level.", "quantifier": "every window, frequency, tone, amplitude, phase, length and block", "why_tests_cant": "all frequencies and windows; exact arithmetic", "anchors": ["diamondback/filters/goertzel_filter.py:GoertzelFilter.filter", "diamondback/filters/goertzel_filter.py:GoertzelFilter.__init__"]}
{"id": "C163", "title": "PolyphaseRateFilter built by several threads at once", "statement": "All instances share the class attribute B, which the first constructor fills without a lock. However threads that construct and use their own filters are interleaved, each gets exactly the results it would get alone with the finished bank present from the start; the attribute is always either the zeros it starts as or the finished bank, never a bank half normalised, and it is the finished bank whenever a thread holds an instance. Several threads may build it at the same time without harm.", "quantifier": "every number of threads, every program of constructor, filter, rate and reset calls, every interleaving, any arithmetic", "why_tests_cant": "races depend on scheduling; all interleavings", "anchors": ["diamondback/filters/polyphase_rate_filter.py:PolyphaseRateFilter.__init__", "diamondback/filters/polyphase_rate_filter.py:PolyphaseRateFilter.filter"]}
{"id": "C164", "title": "GoertzelFilter with the weights of a WindowFilter", "statement": "With the weights of a WindowFilter built with normal = True whose points are non-negative and not all zero, a GoertzelFilter tuned to a complex tone returns exactly the last sample of every block, so amplitude and phase are unbiased. For Hann and Blackman windows of order M, tones whole multiples m of 2 / M away are reduced exactly to 1/2 at |m| = 1 and nothing beyond (Hann), 25/42 at 1, 2/21 at 2 and nothing beyond (Blackman). Refuted: the resolution is two over the number of weights, as documented; with five Hann weights a tone two steps of 2 / 5 away still gets through.", "quantifier": "every style, order, frequency, tone and length", "why_tests_cant": "all window orders and frequencies; exact arithmetic", "anchors": ["diamondback/filters/goertzel_filter.py:GoertzelFilter.filter", "diamondback/filters/window_filter.py:WindowFilter.__init__"]}
{"id": "C165", "title": "RankFilter in IEEE doubles, with NaN and infinite samples", "statement": "In IEEE doubles every output of a RankFilter is bit for bit one of the last order + 1 samples. NaN ranks above everything and infinities above every finite sample, so an output is NaN exactly when at most index samples of its window are numbers; it is finite and at most c in magnitude as soon as more than index samples of the window are. A NaN leaves the filter after order further samples. With index = order one NaN in the window is enough to make the output NaN.", "quantifier": "every index, order, history of calls, signal of doubles (NaN, infinities, signed zeros included) and argsort meeting numpy's contract", "why_tests_cant": "special values in every position of every window; tests rarely feed NaN", "anchors": ["diamondback/filters/rank_filter.py:RankFilter.filter"]}
{"id": "C166", "title": "PolynomialRateFilter as an operator: superposition, gain, locality, chunks", "statement": "For orders one to three PolynomialRateFilter obeys superposition. A signal of magnitude at most M gives outputs of at most M (order 1), 1.3 M (order 2), 1.25 M (order 3) where no padding is used and 6.5 M anywhere; order one never overshoots its two neighbours, order three does (1, 1 may give 9/8). At any order an output at position t depends only on the samples i with t - 2 < i <= t + 2. At an integer rate, filtering a signal in two parts gives the outputs of one call except around the seam: the last interval of the first part at order one; its last two intervals and the first of the second part at higher orders. Refuted: that chunks equal one call.", "quantifier": "every rate, order, signal and split", "why_tests_cant": "all signals and positions; supremum of the amplification", "anchors": ["diamondback/filters/polynomial_rate_filter.py:PolynomialRateFilter.filter"]}
{"id": "C167", "title": "Transform laws of FourierTransform and the energy PsdTransform accounts for", "statement": "FourierTransform with a rectangular window turns a circular delay of d samples into the phase -pi d g_k, g_k being the frequency bin k really holds (its label, less 1/N for odd lengths), and a circular convolution into N times the product of the bins. Under any window a tone of q bins rotates the bins by q; under a real window conjugating the signal mirrors and conjugates the bins, so a real signal has conjugate symmetric bins and a real bin at frequency zero. For PsdTransform the powers of a frame add to at most the energy of the windowed frame over N; for real data 2 sum - P_0 plus the first power left out (counted twice for odd lengths) is exactly that energy. A sinusoid of amplitude A on a bin shows A^2/4, half its power A^2/2, and zero elsewhere. Refuted: that every tone is seen: a complex tone in the upper half of the bins, the Nyquist tone included, gives zero everywhere.", "quantifier": "every length, window, signal, delay, bin and stride", "why_tests_cant": "laws relating infinitely many pairs of calls; equalities in exact arithmetic", "anchors": ["diamondback/transforms/fourier_transform.py:FourierTransform.transform", "diamondback/transforms/psd_transform.py:PsdTransform.transform"]}
{"id": "C168", "title": "What GaussianModel and GaussianMixtureModel maximise, and that it is not the posterior", "statement": "GaussianModel: of two classes with equal means the one that spreads more in every direction is never farther from any query; it stands first unless the distances tie, and if it spreads strictly more it stands first for every query but the common mean. In particular a class that holds the rows of another class k > 1 times over wins everywhere but at the mean. Refuted: that predict maximises the posterior: with rows -1, 1 in class 0 and -3, 3 in class 1 no query but 0 is predicted in class 0, although both rows of class 0 are more likely in class 0 under the fitted and under the maximum likelihood covariances. GaussianMixtureModel: the score is the mixture density without the determinants; if the determinants of all precisions lie in [lo, hi], a score more than sqrt(hi/lo) times another means a larger density, and with equal determinants scores and densities rank alike. Refuted for variances 1 and 9. With an exponential that underflows to zero below -T, all rows at squared distance 2 T or more from every component get one ranking. An affine change of the features, with means and precisions changed along, changes no prediction.", "quantifier": "every training set, regularisation, query, order, component, determinant function, affine map and underflow threshold", "why_tests_cant": "claims over all queries and all training sets; comparison with densities in exact arithmetic", "anchors": ["diamondback/models/gaussian_model.py:GaussianModel.predict", "diamondback/models/gaussian_model.py:GaussianModel.fit", "diamondback/models/gaussian_mixture_model.py:GaussianMixtureModel.predict"]}
{"id": "C169", "title": "The phase of ComplexExponentialFilter in IEEE doubles", "statement": "With numpy.fmod exact and numpy.sign the sign, for signals and phases that are doubles and numbers: over any history of phase assignments and filter calls, of any length, the phase stays a number in [-1, 1], and every admissible signal is accepted. Over any sequence of calls of at most m samples each, the phase of sample n differs from the exact one, up to full turns, by at most n (m + 1) 2^-53, and the output from the exact exponential by at most n (m + 1) 2^-53 pi plus the error of numpy.exp. Phases and frequencies that are multiples of 2^-q are accumulated without error in calls of less than 2^(53-q) samples, so there the result does not depend on the division into calls. Refuted: that the phase never depends, beyond full turns, on the division into calls: three samples of 0.7 in one call or in two.", "quantifier": "every history of operations, phase, division of the samples into calls, and number of samples", "why_tests_cant": "rounding errors accumulate over arbitrarily many samples and depend on the division into calls", "anchors": ["diamondback/filters/complex_exponential_filter.py:ComplexExponentialFilter.filter", "diamondback/filters/complex_exponential_filter.py:ComplexExponentialFilter.phase"]}
{"id": "C170", "title": "PolyphaseRateFilter in IEEE doubles", "statement": "With int(numpy.round(.)) rounding to the nearest integer, numpy.dot any function, a bank of rr rows and signals of at most 2^49 / rr samples: over any history of filter calls, rate assignments other than NaN and resets, with any samples including NaN and infinities, the position stays a number and non-negative, and filter ends, selects a row of the bank for each output and raises nothing. Output n is the output of the exact filter at a position within n 2^-53 (rr + 3 rr / rate) rows of the exact position, and the position left for the next call is as close. From position zero every output there is room for is computed if len rate (rate + 4) is at most 2^50. If rr / rate and the position are integers, as with the rates 1, 2 and 1/2, no position is rounded. Refuted: that the positions are the exact ones for every rate: at rate 0.2 the second output is taken at sample 5, although sample 4 spans its exact position.", "quantifier": "every history of operations, rate, bank, signal length up to the bound, and sample values", "why_tests_cant": "rounding errors accumulate over arbitrarily many outputs; the loops end only because no NaN can arise", "anchors": ["diamondback/filters/polyphase_rate_filter.py:PolyphaseRateFilter.filter", "diamondback/filters/polyphase_rate_filter.py:PolyphaseRateFilter.rate"]}
{"id": "C171", "title": "PolynomialRateFilter in IEEE doubles", "statement": "With int(numpy.round(.)) rounding to the nearest integer, int(.) rounding down and numpy.polyfit any function, for a positive rate, at least two samples, and at most 2^49 samples and outputs: order 1 returns exactly round(len rate) outputs whatever the samples are, and for samples of magnitude at most M each output n is finite and within 2^-53 M (36 + 2 n / rate) + 2^-1074 of the exact value on the straight line between the samples around n / rate. Orders of two and more raise nothing, and output n is the polynomial fitted to the samples around a position within n 2^-53 (1 + 3 / rate) samples of n / rate, evaluated there, whatever the samples are; every output there is room for is computed if len rate (rate + 4) is at most 2^50; with a rate that is a power of two no position is rounded. Refuted: that each output comes from the piece that spans its exact position: at rate 0.2 the second output comes from the piece of sample 5, although the piece of sample 4 spans its exact position.", "quantifier": "every rate, order, signal length up to the bound, and sample values", "why_tests_cant": "the position accumulates rounding errors over arbitrarily many outputs; the bounds quantify over all doubles", "anchors": ["diamondback/filters/polynomial_rate_filter.py:PolynomialRateFilter.filter"]}
{"id": "C172", "title": "DiversityModel in IEEE doubles, with NaN and infinite samples", "statement": "For a full model in doubles and any distance function: one more sample either leaves the model as it is, and then no replacement of a row by it makes the smallest distance larger, or it replaces a row, and then the diversity reported is the smallest of the distances of the new rows, larger than before and not exceeded by any other replacement, where distances that are NaN or infinite are skipped and numpy.inf stands for no distance at all. In the styles Euclidean, Geometric and Manhattan no distance of a row with NaN or infinity in it is taken notice of, in Chebyshev none of a row with such a first component; Chebyshev skips NaN in the other components. So such a row goes in exactly when the rows that remain are further apart than the diversity, it is never replaced while the diversity is that of the rows held, with two rows one such sample makes the diversity infinite, and from then on no fit changes anything. Refuted: that samples with NaN are left out of a full model.", "quantifier": "every order, width, distance function, row, sample and sequence of samples", "why_tests_cant": "comparisons with NaN are false in both directions, so the outcome depends on which way each comparison in the search is written and on the positions of the NaN", "anchors": ["diamondback/models/diversity_model.py:DiversityModel.fit", "diamondback/models/diversity_model.py:DiversityModel.__init__"]}
{"id": "C173", "title": "PidFilter in IEEE doubles", "statement": "In doubles, for a PidFilter used in any way: errors whose magnitude is below 2^-54 of the integral leave the integral as it is, however many of them are filtered, so (refuted) a constant error need not move the output in the end; with a finite limit L the integral is the sum of the samples kept, up to 2^-52 L for each of them; without a limit, samples that are multiples of 2^e are integrated exactly as long as 2^53 steps are not exceeded; the limit setter accepts NaN, and then the integral never changes again; a sample that is NaN or infinite is not integrated, and from the second sample after it on outputs and integral are as if it had not been there; and one output is within 2^-50 of the sum of the magnitudes of the three terms, plus 2^-1070, of P e + I i + D (e - e'), where i is the integral held, in whatever order the dot product is evaluated.", "quantifier": "every gain, history, limit, sample sequence of any length and dot product order", "why_tests_cant": "the rounding errors of arbitrarily many additions; all doubles including NaN and infinity", "anchors": ["diamondback/filters/pid_filter.py:PidFilter.filter", "diamondback/filters/pid_filter.py:PidFilter.limit"]}
{"id": "C174", "title": "Haar transform in IEEE doubles", "statement": "In doubles, for the wavelet transform of style Haar, any number of levels, vectors and matrices, in whatever order the dot products are evaluated: data that are multiples of 2^g of magnitude at most 2^(53+g-2 count) give exactly the coefficients of the real transform and the inverse returns the data exactly; any finite data bounded by M (2^-1000 to 2^1000) give coefficients within 6 count 2^-53 M of the real ones, and transform followed by inverse returns the data within 30 count^2 2^-53 M; (refuted) arbitrary finite data are not returned exactly: after one level a nonzero sample may come back as zero.", "quantifier": "every count, shape, data and dot product order", "why_tests_cant": "rounding over all doubles, shapes, levels and summation orders", "anchors": ["diamondback/transforms/wavelet_transform.py:WaveletTransform.transform", "diamondback/transforms/wavelet_transform.py:WaveletTransform.__init__"]}
{"id": "C175", "title": "FirFilter and DerivativeFilter on fixed-point data in IEEE doubles", "statement": "In doubles, in whatever order the dot product is evaluated: a FirFilter whose coefficients are multiples of 2^a, fed multiples of 2^g, returns the exact convolution wherever the magnitudes of the products add up to at most 2^(53+a+g); the DerivativeFilter entries (1,1), (1,2), (2,2), (2,4), (3,4), (3,6) return exactly what the filter with real numbers returns on multiples of 2^g of magnitude at most 2^(50+g), and so exactly the derivative of a sampled polynomial of the degree of the entry; (1,1), (1,2), (2,2), (2,4) return exactly zero on any constant established by reset; every entry returns at most 2^-47 of the constant; (refuted) entry (1,4) does not return zero on the constant 1.", "quantifier": "every filter in any state, signal, grid and dot product order", "why_tests_cant": "all doubles and summation orders; a test compares with a tolerance and cannot tell exact from close", "anchors": ["diamondback/filters/fir_filter.py:FirFilter.filter", "diamondback/filters/derivative_filter.py:DerivativeFilter.__init__", "diamondback/filters/derivative_filter.py:DerivativeFilter.filter"]}
{"id": "C176", "title": "How IntegralFilter accumulates in IEEE doubles", "statement": "In doubles, in whatever order the dot product is evaluated and whatever finite state the filter is in: the filter keeps running sums, each the previous one plus the sample rounded once; order 0 returns them exactly, every order 0..4 returns their average with the order's weights to 2^-48 of the largest magnitude B; after n+1 samples the sum differs from the exact one by at most (n+2) * 2^-52 * B; orders 0, 1 and 3 on multiples of 2^g with sums up to 2^(49+g) return exactly, and end in exactly the state, that the filter over the real numbers does; samples below 2^-54 of the sum change nothing, however many; (refuted) the integral of the constant 1 does not grow without bound.", "quantifier": "every order, state, signal and dot product order with magnitudes between 2^-1000 and 2^1000", "why_tests_cant": "all doubles, lengths and summation orders; a test runs short signals and compares with a tolerance", "anchors": ["diamondback/filters/integral_filter.py:IntegralFilter.__init__", "diamondback/filters/integral_filter.py:IntegralFilter.filter", "diamondback/filters/iir_filter.py:IirFilter.filter"]}
{"id": "C177", "title": "Lists assigned to the attributes of FirFilter and IirFilter", "statement": "The setters store a Python list as it is, and from then on: FirFilter with a list b fails with AttributeError on every call, but only after the first sample has been shifted into the registers; with a list s and an array b it works, keeps the samples unconverted and converts only the output to the type of b; its reset raises TypeError and changes nothing. IirFilter with a list b and float arrays a and s returns the outputs of the array filter converted to the type of the first coefficient alone, registers equal; with a list a and several registers it fails with AttributeError and changes nothing; reset with list registers raises TypeError when there are several. (refuted) A list of registers, or of coefficients, acts like the array of the same numbers: b = [1, 0.5] truncates every output to an integer.", "quantifier": "every list, array, signal and arithmetic, doubles included", "why_tests_cant": "the setters are annotated list | ndarray; tests pass lists only to the constructor, where they are converted", "anchors": ["diamondback/filters/fir_filter.py:FirFilter.filter", "diamondback/filters/fir_filter.py:FirFilter.reset", "diamondback/filters/iir_filter.py:IirFilter.filter", "diamondback/filters/iir_filter.py:IirFilter.reset"]}
{"id": "C178", "title": "PidFilter on complex signals", "statement": "With complex gains, registers and samples: the output is b[0] x[n] + b[1] I[n] + b[2] (x[n] - x[n-1]), and the integral takes a sample exactly when the magnitude of the sum is below the limit, so it stays in the open disc of that radius (or at 0) over any calls; turning the registers and the signal by one angle turns outputs and registers by that angle; with real gains and no limit the real and the imaginary part are filtered like two real signals, (refuted) but not with a limit: 3 + 4i is refused by limit 5 although 3 and 4 are not; on real data the complex filter is the real one.", "quantifier": "every complex gain, limit, state, signal and sequence of calls over exact complex numbers", "why_tests_cant": "a continuum of angles, states and lengths; no test uses complex signals with this filter", "anchors": ["diamondback/filters/pid_filter.py:PidFilter.filter", "diamondback/filters/pid_filter.py:PidFilter.limit"]}
{"id": "C179", "title": "ZTransform with arguments that share memory", "statement": "ZTransform.transform called with two views of one float array that have no element in common, or with the same array twice, returns what it returns for separate copies; the views end divided as the copies would, and the rest of the array is unchanged. (refuted) This holds for any two views: for u = w[1:3], v = w[0:2] of w = [1, 2, 3] dividing v in place changes u first, and the pole returned is -7/11 instead of -1/5.", "quantifier": "every array, pair of views, frequency and both methods; any routine for roots and residues", "why_tests_cant": "all overlaps of two views; tests pass literals", "anchors": ["diamondback/transforms/z_transform.py:ZTransform.transform"]}
{"id": "C180", "title": "Differentiating an integral", "statement": "From rest, DerivativeFilter applied to the output of IntegralFilter returns at every sample, including the first ones, the integral's window averaged with the partial sums of the derivative's coefficients; these add up to 1 for first derivatives and 0 for higher ones. Derivative 1 of order 1 undoes the integral of order 0 and the integral undoes the derivative. Any FirFilter and IirFilter at rest can be exchanged. In doubles the same holds exactly for derivatives with dyadic coefficients and samples that are multiples of 2^g with running sums up to 2^(49+g), in any order of summation. (refuted) It holds in doubles for all samples: [2^53, 1] comes back as [2^53, 0].", "quantifier": "every accepted derivative, order and integral order and every signal; exact arithmetic, and doubles with every summation order", "why_tests_cant": "all signals and pairs of orders; floating tests of round trips use tolerances", "anchors": ["diamondback/filters/derivative_filter.py:DerivativeFilter.filter", "diamondback/filters/integral_filter.py:IntegralFilter.filter", "diamondback/filters/iir_filter.py:IirFilter.filter", "diamondback/filters/fir_filter.py:FirFilter.filter"]}
{"id": "C181", "title": "ComplexTransform in doubles", "statement": "With neutral=True and doubles, whatever the order in which matmul sums, samples of size up to M (2^-960 <= M <= 2^1000) give three phases that are finite and within 2^-47 M of the projections of the sample on the axes at 0, 120 and 240 degrees; three phases give a complex sample within 2^-48 M of the exact one. Complex to phases to complex returns each part within 2^-46 M, and phases to complex to phases returns each phase minus the mean of the three within 2^-46 M. Columns never mix, for all doubles. A NaN part makes the three phases of that sample NaN; a NaN phase, or an infinite first phase, makes both parts of that sample NaN. (refuted) The round trip is exact in doubles: (1, 0) comes back with real part 1 - 2^-53.", "quantifier": "every signal of doubles of any length, every order of summation, every 3.0 ** 0.5 within 2^-52 of the root and every inverse matrix within 2^-50 of the exact one", "why_tests_cant": "error bounds over all doubles and all summation orders; tests compare a few signals with a tolerance", "anchors": ["diamondback/transforms/complex_transform.py:ComplexTransform.transform"]}
{"id": "C182", "title": "A NaN or infinite sample in ComplexFrequencyFilter and ComplexBandpassFilter", "statement": "In doubles, a sample with a NaN or infinite part (of the signal after Hilbert transformation, if any) makes the error of that sample bad and all later outputs of the call and of all later calls NaN, even with rate 0. For ComplexFrequencyFilter neither reset nor rate nor later samples help; an assignment of frequency together with a reset, in either order, gives exactly the state of a new filter; without the reset the filter recovers exactly if the last sample was good, and is lost again with the next sample if it was bad. For ComplexBandpassFilter frequency, rate and reset never help; an assignment of b gives exactly the state of a filter that received good samples. Outputs before the bad sample do not depend on it when the signal is complex.", "quantifier": "every signal of doubles of any length, every history of calls and assignments", "why_tests_cant": "permanence over all later executions; tests do not feed NaN", "anchors": ["diamondback/filters/complex_frequency_filter.py:ComplexFrequencyFilter.filter", "diamondback/filters/complex_frequency_filter.py:ComplexFrequencyFilter.reset", "diamondback/filters/complex_frequency_filter.py:ComplexFrequencyFilter.frequency", "diamondback/filters/complex_bandpass_filter.py:ComplexBandpassFilter.filter"]}
{"id": "C183", "title": "Serial.code and the text encodings", "statement": "bytes(x, encoding) and str(b, encoding) follow RFC 3629 for utf-8 and RFC 2781 for utf-16 in both directions: exactly the texts of scalar values encode, exactly the well-formed byte strings decode, and what a machine of either byte order encodes every machine decodes. Serial.code fails with ValueError for an empty text or encoding name, with LookupError for an unknown name, and otherwise exactly for texts that do not encode. Two texts with one code are equal unless SHA3-256 collides on their encodings. ASCII texts have one code in utf-8, ascii and latin-1. (refuted) The code depends only on text and encoding: in utf-16 big-endian and little-endian machines hash different bytes for every text.", "quantifier": "every text, every byte string, both byte orders, every hash function", "why_tests_cant": "all Unicode texts; tests run on one machine", "anchors": ["diamondback/commons/serial.py:Serial.code"]}
{"id": "C184", "title": "Constructors and setters accept exactly their documented ranges", "statement": "Each constructor and setter of ComplexExponentialFilter, ComplexBandpassFilter, ComplexFrequencyFilter, PidFilter, PolynomialRateFilter and PolyphaseRateFilter stores a value exactly when it lies in the range it checks, and otherwise raises ValueError and leaves the object as it was. A new ComplexBandpassFilter starts from the coefficient 2^-52, so its first output sample is 2^-52. ComplexFrequencyFilter.reset stores the direction of its argument, or 1 within 1e-8 of zero. IirFilter's coefficient array a is complex exactly when a or b was. GaussianMixtureModel.predict refuses with ValueError only. In doubles every one of these range checks lets NaN through, and the NaN is stored.", "quantifier": "all objects, all values, all doubles that are NaN", "why_tests_cant": "a test tries a few values per setter; the boundary and the unordered value NaN are single points of the range", "anchors": ["diamondback/filters/complex_bandpass_filter.py:ComplexBandpassFilter.__init__", "diamondback/filters/complex_frequency_filter.py:ComplexFrequencyFilter.reset", "diamondback/filters/complex_exponential_filter.py:ComplexExponentialFilter.phase", "diamondback/filters/polynomial_rate_filter.py:PolynomialRateFilter.rate", "diamondback/filters/polyphase_rate_filter.py:PolyphaseRateFilter.rate", "diamondback/filters/pid_filter.py:PidFilter.limit"]}
{"id": "C185", "title": "Bessel designs use the reverse Bessel polynomial and inherit its flat delay", "statement": "The analog prototype of a Bessel IirFilter of order n has, in descending powers, the coefficients (n+j)!/(2^j j! (n-j)!), so its value is the reverse Bessel polynomial. Its phase on the frequency axis has slope 1 - w^(2n)/|theta_n(iw)|^2, which is the maximally flat group delay. A filter the constructor returns for style Bessel has exactly the poles exp(c p) for one c > 0, where p runs over the roots of that polynomial; with complement the poles are negated.", "quantifier": "all orders of at least 1, all real frequencies, all designs the constructor accepts", "why_tests_cant": "a test compares a few coefficients of a few orders; the closed form and the flatness of the delay hold at every order and frequency", "anchors": ["diamondback/filters/iir_filter.py:IirFilter._evaluate", "diamondback/filters/iir_filter.py:IirFilter.__init__"]}
{"id": "C186", "title": "Window shape", "statement": "When scipy.signal.get_window follows its documented formulae, a WindowFilter built with normal False has a symmetric window that rises strictly to its middle, stays between 0 and 1, is 1 at the middle of an even order, and starts at 0 (Blackman, Hann), 0.08 (Hamming) or 1/I0(7) (Kaiser). Its filter never enlarges a sample, and filtering a reversed signal gives the reversed result. With normal True the same window is scaled by one factor: 1 at order 0, strictly above 1 from order 1 on, except where the window vanishes.", "quantifier": "all styles, all orders, all signals", "why_tests_cant": "a test looks at a few orders; symmetry and bounds at every order need the monotonicity of the cosine and of I0", "anchors": ["diamondback/filters/window_filter.py:WindowFilter.__init__", "diamondback/filters/window_filter.py:WindowFilter.filter"]}
{"id": "C187", "title": "Goertzel outputs are local to their block", "statement": "Output k of GoertzelFilter.filter depends only on the samples of block k: two filters with the same settings and the same place in their block, whatever was filtered, reset or refused before, give the same output k for inputs that agree on that block, for every output after the first, and for the first too when their registers agree. A new filter gives for each block exactly what it gives for that block alone. In double precision a NaN or infinite sample makes the output of its own block NaN in at least one part and leaves every other output exactly as it would be.", "quantifier": "any arithmetic (locality); complex doubles with any order of summation (bad samples); all weights, frequencies, histories, inputs", "why_tests_cant": "needs all block lengths, chunkings and histories, and every rounding and summation order", "anchors": ["diamondback/filters/goertzel_filter.py:GoertzelFilter.filter", "diamondback/filters/goertzel_filter.py:GoertzelFilter.__init__"]}
{"id": "C188", "title": "NaN settings of the adaptive filters", "statement": "In double precision the constructors and setters of ComplexBandpassFilter and ComplexFrequencyFilter accept a frequency exactly when it is a NaN or a number in [-1, 1], and a rate exactly when it is a NaN or a number in [0, 1]; anything else, infinities included, raises ValueError and changes nothing. After one ComplexBandpassFilter.filter call with a NaN frequency every reference and error sample of every later call is NaN, whatever frequency, rate or b is assigned and however often the filter is reset. A NaN rate makes the coefficient NaN from the second sample on, until b (bandpass) or frequency (frequency filter) is assigned. The Hilbert transform is applied exactly when every imaginary part is a zero; a NaN imaginary part counts as complex.", "quantifier": "all doubles, all signals, all sequences of calls", "why_tests_cant": "NaN passes every comparison and a test that assigns a good value next sees no exception; permanence is a statement about all later calls", "anchors": ["diamondback/filters/complex_bandpass_filter.py:ComplexBandpassFilter.filter", "diamondback/filters/complex_bandpass_filter.py:ComplexBandpassFilter.__init__", "diamondback/filters/complex_frequency_filter.py:ComplexFrequencyFilter.filter", "diamondback/filters/complex_frequency_filter.py:ComplexFrequencyFilter.__init__"]}
{"id": "C189", "title": "PolyphaseRateFilter objects share one bank", "statement": "In a program that builds, filters, resets, retunes, reads and rebinds any number of PolyphaseRateFilter objects but never writes into b, every object shows exactly what it shows when it is the only one. A write into b through one object is the same write through every other: each sees exactly that element changed. Building a further object leaves a bank with any nonzero element alone, damaged or not, and replaces a bank of zeros by the designed one under all existing objects.", "quantifier": "any arithmetic, all programs, any number of objects", "why_tests_cant": "interference needs two objects and a particular order of calls; a test sees one order", "anchors": ["diamondback/filters/polyphase_rate_filter.py:PolyphaseRateFilter.b", "diamondback/filters/polyphase_rate_filter.py:PolyphaseRateFilter.__init__", "diamondback/filters/polyphase_rate_filter.py:PolyphaseRateFilter.filter"]}
{"id": "C190", "title": "GaussianModel with NaN and infinite samples", "statement": "In doubles, when fit returns on training data with a NaN or an infinity in some sample of a class, that class has a NaN distance to every query, and predict lists it after every class whose distance is a number. The other classes are exactly those fitted without the bad sample. A NaN in a query makes every distance NaN, and predict answers with a ranking all the same instead of refusing.", "quantifier": "all training data, labels and queries, every order of summation of the products", "why_tests_cant": "a test with clean samples never meets a NaN", "anchors": ["diamondback/models/gaussian_model.py:GaussianModel.fit", "diamondback/models/gaussian_model.py:GaussianModel.predict"]}
{"id": "C191", "title": "ComplexTransform with line voltages in doubles", "statement": "In doubles and for either value of neutral: phases of complex samples up to M are within 2^-43 M of the phases of the samples times the line factor, complex samples of phases up to M are within 2^-47 M of the exact ones, and transforming there and back with the same neutral restores complex samples, and phases less their mean, within 2^-42 M. Exactly the same signals are refused for both values: an empty one, or a matrix that has not three rows and a column; a one-row matrix is always refused. Samples at different times do not mix and a NaN spoils its own time only.", "quantifier": "all finite samples between 2^-960 and 2^989, any order of summation, GAIN and the inverse within 2^-50", "why_tests_cant": "rounding errors depend on the platform's constants and the order of summation", "anchors": ["diamondback/transforms/complex_transform.py:ComplexTransform.transform", "diamondback/transforms/complex_transform.py:ComplexTransform.GAIN"]}
{"id": "C192", "title": "WaveletTransform locality", "statement": "Of a one-dimensional signal, coefficient k of level L (index n / 2^L + k, or k for the approximations of the last level) depends on nothing but the samples from 2^L k - (2^L - 1)(order - 1) to 2^L (k + 1) - 1, and every index is such a coefficient. Under inverse, sample i depends on nothing but the coefficients with 2^L k <= i <= 2^L k + (2^L - 1) order. In doubles a NaN sample makes exactly the coefficients that look at it NaN, and a NaN coefficient exactly the samples it reaches.", "quantifier": "all styles, orders, counts, signals and arithmetics; for the NaN part any order of summation", "why_tests_cant": "tests compare values of whole transforms", "anchors": ["diamondback/transforms/wavelet_transform.py:WaveletTransform.transform"]}
{"id": "C193", "title": "PsdTransform rows: dependence, sensitivity, tones", "statement": "A row of PsdTransform depends on nothing but the samples of its frame under non-zero coefficients: equal frames give equal rows, whatever the hop, the position and the rest of the signal. Samples after the last full frame are ignored, for the spectrogram and for the mean, and further samples only append rows. Changing every sample by at most E changes the square root of every power by at most E times the mean magnitude of the coefficients. For a tone of any frequency every row and the mean are the squared amplitude times the squared window spectrum around that frequency.", "quantifier": "all signals, coefficients, hops and frequencies", "why_tests_cant": "tests use a few bin-centred tones and one hop", "anchors": ["diamondback/transforms/psd_transform.py:PsdTransform.transform"]}
{"id": "C194", "title": "Two-dimensional WaveletTransform treats rows and columns alike", "statement": "Over the reals, transforming the transpose of a matrix gives the transpose of the transform, in both directions and at any number of levels, and one level of an outer product is the outer product of the one-dimensional transforms of its factors. In any arithmetic a matrix of one row or of one column is transformed exactly like the signal it holds.", "quantifier": "all styles, orders, counts, shapes and matrices", "why_tests_cant": "the code filters rows first and columns second; tests compare a few matrices", "anchors": ["diamondback/transforms/wavelet_transform.py:WaveletTransform.transform"]}
{"id": "C195", "title": "DiversityModel fitted by several threads", "statement": "A thread whose models no other thread fits gets, under any schedule, the answers of its fits made one after the other. On a shared model, under any schedule, the number of rows and the distance stay, every row is one it held, an unfilled one or a sample of some fit, and the only error is ValueError, which the call's own array or a fit of another width accounts for; on a model fitted before, a fit of the right width never fails, and once it has returned the model holds the samples it held and as many as the fit had, or is full. It is false that no sample is lost, that a new model has no unfilled row between samples, that the diversity never falls, and that it is the one of the rows.", "quantifier": "all models, arrays, numbers of threads and schedules", "why_tests_cant": "races show up in few runs; tests fit models in one thread", "anchors": ["diamondback/models/diversity_model.py:DiversityModel.fit"]}
{"id": "C196", "title": "FirFilter and RankFilter shared by several threads", "statement": "Under any schedule of any number of threads that filter with and reset one FirFilter, its coefficients and number of registers stay, each register holds a value of the start or one some thread gave, no call fails that would not fail alone, and each output is the coefficients times such values: over the reals no output exceeds the largest of them times the sum of the coefficients' magnitudes, and if all are equal the outputs are as for a constant signal. A RankFilter shared in the same way, its index changed meanwhile, never fails and answers only values of the start or given ones; used by one thread it behaves as alone. It is false that the answers are those of some order of the calls, and that a filter for the largest sample answers at least the sample just given.", "quantifier": "all filters, signals, numbers of threads and schedules", "why_tests_cant": "races show up in few runs; tests filter in one thread", "anchors": ["diamondback/filters/fir_filter.py:FirFilter.filter", "diamondback/filters/rank_filter.py:RankFilter.filter"]}
{"id": "C197", "title": "GoertzelFilter and IirFilter shared by several threads", "statement": "Under any schedule of any number of threads that filter with, reset and tune one GoertzelFilter, its coefficients, weights and number of registers stay, and a call that would not fail alone returns at most one output per sample and no more than fit in its array, or raises IndexError. A shared IirFilter does not even do that: each call returns one output per sample. A GoertzelFilter used by one thread behaves as alone. It is false that calls on a shared GoertzelFilter do not fail: a thread can read past the weights while another has raised the index, and one thread can complete more windows than it has room for; the latter leaves the index past the weights, after which every call to filter raises IndexError and reset does not help.", "quantifier": "all filters, signals, numbers of threads and schedules", "why_tests_cant": "races show up in few runs; tests filter in one thread", "anchors": ["diamondback/filters/goertzel_filter.py:GoertzelFilter.filter", "diamondback/filters/iir_filter.py:IirFilter.filter"]}
{"id": "C198", "title": "PidFilter shared by several threads", "statement": "Under any schedule of any number of threads that filter with and reset one PidFilter, its gains, limit and number of registers stay, no call fails that would not fail alone, and each output is the gains times a given sample, an integral and a difference of given samples, where the integral is the start or a reset value plus given samples: over the reals no output exceeds |b0| + 2 |b2| times the largest value given if there is no integral gain. It is false that the integral of a shared filter stays below the limit: two threads can both check the limit before they add. There is then no bound at all: for every limit, every sample below it and every bound, two threads that filter only this sample and reset to zero have a schedule that brings the integral beyond the bound.", "quantifier": "all gains, limits, signals, numbers of threads and schedules", "why_tests_cant": "races show up in few runs; tests filter in one thread", "anchors": ["diamondback/filters/pid_filter.py:PidFilter.filter"]}
{"id": "C199", "title": "PsdTransform and FourierTransform with an inexact FFT", "statement": "Whatever implementation of the FFT is used: which arguments FourierTransform rejects, the shapes and the frequencies are those of the exact transforms. If the error of the FFT is at most e times the sum of the magnitudes given to it, a bin of FourierTransform is off by at most e times the mean magnitude of the windowed samples, forward and back returns each sample up to (2e + e^2) times the sum of the magnitudes of the windowed samples divided by its window coefficient, and each power of PsdTransform is not negative and off by at most (2e + e^2) times the squared mean magnitude of the windowed samples of its frame, their mean over the frames by the largest of these.", "quantifier": "all FFT implementations with an error bound, signals, windows (even length for the round trip) and hops", "why_tests_cant": "tests run one FFT on a few signals", "anchors": ["diamondback/transforms/psd_transform.py:PsdTransform.transform", "diamondback/transforms/fourier_transform.py:FourierTransform.transform"]}
{"id": "C200", "title": "Complex samples given to real coefficients", "statement": "A FirFilter or IirFilter with real coefficients, whatever its state, treats a complex signal as its real part: same output, same state. The WaveletTransform of a complex array, of any style, order, shape and number of levels and in both directions, is that of its real part, errors included, and its result has no imaginary part; only a single element is returned as it is. It is false that complex arrays are reconstructed: no array of admissible length above one with a sample that is not real comes back from the forward and the inverse transform.", "quantifier": "all banks, coefficients, states, signals, shapes and numbers of levels", "why_tests_cant": "tests transform real arrays; numpy only warns", "anchors": ["diamondback/transforms/wavelet_transform.py:WaveletTransform.transform", "diamondback/filters/fir_filter.py:FirFilter.filter", "diamondback/filters/iir_filter.py:IirFilter.filter"]}
{"id": "C201", "title": "ComplexExponentialFilter shared by several threads", "statement": "Under any schedule of any number of threads that filter with and set the phase of one ComplexExponentialFilter, it holds a phase that calls made one after another could have left, and each call answers as it would alone at such a phase: over the reals the phase stays in [-1, 1], no admissible signal is refused, and what one call returns is one exponential of unit magnitude with the given phase steps. It is false that the calls continue one another: whatever the signals of two threads and the phase, there is a schedule in which both start at that phase and the steps of one are lost.", "quantifier": "all phases, signals, numbers of threads and schedules", "why_tests_cant": "races show up in few runs; tests filter in one thread", "anchors": ["diamondback/filters/complex_exponential_filter.py:ComplexExponentialFilter.filter", "diamondback/filters/complex_exponential_filter.py:ComplexExponentialFilter.phase"]}
{"id": "C202", "title": "RestClient shared by several threads", "statement": "Under any schedule of any number of threads that use and configure one RestClient, everything it sends is the request some call asked for, with a URL, a proxy and a timeout that were each set at some time; a call with a bad method, or with both data and JSON, sends nothing and raises ValueError; every other call answers what the network answered to such a request, and its response is closed by then. If no thread changes the settings, everything is sent with those of the start. It is false that a request is sent with settings the client had together: while another thread sets first the URL and then the proxy, a request may go to the old URL through the new proxy, which no order of the three calls allows.", "quantifier": "all clients, networks, calls, numbers of threads and schedules", "why_tests_cant": "races show up in few runs; tests use one thread and a live server", "anchors": ["diamondback/commons/rest_client.py:RestClient.request", "diamondback/commons/rest_client.py:RestClient.live", "diamondback/commons/rest_client.py:RestClient.url", "diamondback/commons/rest_client.py:RestClient.proxy", "diamondback/commons/rest_client.py:RestClient.timeout"]}
{"id": "C203", "title": "GaussianMixtureModel shared by several threads", "statement": "Models that threads own, or only ask for predictions, answer as if each thread ran alone. Under any schedule of threads that fit, ask and configure one model, every class it holds was there at the start or was estimated from exactly the samples of one class of one fit by settings that were each set at some time; a fit refuses what it refuses alone, succeeds if every class could be estimated, or raises what the estimator raised; a prediction raises ValueError, RuntimeError or IndexError or ranks such classes, the same number for every sample. It is false that one fit uses one set of settings: while another thread sets regularize, the classes of one fit are estimated by different ones, whatever the estimator. It is false that a trained model that is fitted again always answers: a prediction can raise any of the three exceptions, rank some of the classes, or return empty rankings.", "quantifier": "every number of threads, program, interleaving, estimator and arithmetic", "why_tests_cant": "all schedules", "anchors": ["diamondback/models/gaussian_mixture_model.py:GaussianMixtureModel.fit", "diamondback/models/gaussian_mixture_model.py:GaussianMixtureModel.predict", "diamondback/models/gaussian_mixture_model.py:GaussianMixtureModel.regularize", "diamondback/models/gaussian_mixture_model.py:GaussianMixtureModel.index"]}
{"id": "C204", "title": "ComplexFrequencyFilter shared by several threads", "statement": "Under any schedule of threads that filter with, configure and reset one ComplexFrequencyFilter, the filter keeps one coefficient and one state; the state is the first one, a sample of unit magnitude or a reset value, the rate is the first one or one that was set, and the coefficient is the first one, the exponential of a frequency that was set, or an adaptation of coefficients, states and rates that the filter had; a call is refused exactly as it is alone; and filter reports for every sample a frequency in (-1, 1] of such a coefficient, the error of the normalised sample against such a prediction, and such a coefficient. If the rate is zero and no thread sets rate or frequency, the coefficient never changes and every sample of every thread gets the same frequency. It is false that the coefficient stays bounded, as it does for one thread: n threads that filter one sample each can move it n times too far.", "quantifier": "every number of threads, program, interleaving, rate and signal", "why_tests_cant": "all schedules", "anchors": ["diamondback/filters/complex_frequency_filter.py:ComplexFrequencyFilter.filter", "diamondback/filters/complex_frequency_filter.py:ComplexFrequencyFilter.frequency", "diamondback/filters/complex_frequency_filter.py:ComplexFrequencyFilter.rate", "diamondback/filters/complex_frequency_filter.py:ComplexFrequencyFilter.reset"]}
{"id": "C205", "title": "ComplexBandpassFilter shared by several threads", "statement": "Under any schedule of threads that filter with, configure and reset one ComplexBandpassFilter, the filter keeps one coefficient and a phase in [-1, 1]; frequency and rate are the first ones or ones that were set, and the coefficient is the first one or an adaptation of coefficients that the filter had, by such a rate and a tone of such a frequency, towards a sample of a thread; a call is refused exactly as it is alone; and each call of filter uses one tone of one such frequency, its outputs are that tone times such coefficients, and its errors are exactly the samples less the outputs. If the rate is zero and no thread sets it, the coefficient never changes and every call answers with a tone of constant amplitude. It is false that the coefficient stays within the magnitude of the signal, as it does for one thread: n threads that filter one sample each can move it n times too far.", "quantifier": "every number of threads, program, interleaving, rate and signal", "why_tests_cant": "all schedules", "anchors": ["diamondback/filters/complex_bandpass_filter.py:ComplexBandpassFilter.filter", "diamondback/filters/complex_bandpass_filter.py:ComplexBandpassFilter.frequency", "diamondback/filters/complex_bandpass_filter.py:ComplexBandpassFilter.rate", "diamondback/filters/complex_exponential_filter.py:ComplexExponentialFilter.filter"]}
{"id": "C206", "title": "PolynomialRateFilter shared by several threads", "statement": "Under any schedule of threads that filter with and configure one PolynomialRateFilter, with rates above zero, rate and order are the first ones or ones that were set; a call is refused exactly as it is alone and fails for no other reason; an answer is no longer than one of those rates allows, and its samples lie between samples of the signal, continued by one, if the order was one, or else are values of polynomials fitted to four neighbours, each of an order that the filter had. While the order is one a constant signal stays constant, whatever rates are set meanwhile. It is false that an answer is that of one rate: of a ramp, with the rate set from one to two meanwhile, filter can return half of the answer at the new rate, or samples whose distance belongs to neither rate.", "quantifier": "every number of threads, program, interleaving, signal, rounding and fit", "why_tests_cant": "all schedules", "anchors": ["diamondback/filters/polynomial_rate_filter.py:PolynomialRateFilter.filter", "diamondback/filters/polynomial_rate_filter.py:PolynomialRateFilter.rate", "diamondback/filters/polynomial_rate_filter.py:PolynomialRateFilter.order"]}
{"id": "C207", "title": "PolyphaseRateFilter shared by several threads", "statement": "Under any schedule of threads that filter with, configure and reset one PolyphaseRateFilter, it keeps its number of registers, each holds a value of the start, a sample given or a value reset to, and the rate is the first one or a valid one that was set; every output is a phase of the bank times such registers, and no answer is longer than one of those rates allows. Beyond what is refused alone, filter can only raise ZeroDivisionError, if a rate was zero, or IndexError. It is false that it does not raise IndexError: at the rate one, three threads that filter one sample each can leave the index at -512, below the 256 phases, and the next call, made when they are done, raises IndexError.", "quantifier": "every number of threads, program, interleaving, bank, arithmetic and rounding", "why_tests_cant": "all schedules", "anchors": ["diamondback/filters/polyphase_rate_filter.py:PolyphaseRateFilter.filter", "diamondback/filters/polyphase_rate_filter.py:PolyphaseRateFilter.rate", "diamondback/filters/polyphase_rate_filter.py:PolyphaseRateFilter.reset"]}
