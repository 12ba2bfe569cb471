{
 "C08": {
  "note": "firwin is a parameter; a NaN candidate raises ValueError. Exact arithmetic."
 },
 "C09": {
  "note": "freqz is modelled by its documented contract (transfer function at e^{j 2 pi k/L})."
 },
 "C18": {
  "note": "numpy.roots and scipy.signal.residue are parameters; gain and numerator hold whatever they return."
 },
 "C23": {
  "note": "argsort is any function returning a sorting permutation."
 },
 "C27": {
  "note": "Invariant over any history of operations."
 },
 "C33": {
  "note": "get_window is a parameter; its cosine-sum contract is assumed only for the zero-window theorems."
 },
 "C48": {
  "note": "Termination and row bounds also hold in any arithmetic whose order is total on the values met; in IEEE arithmetic a NaN rate already raises before the loop."
 },
 "C55": {
  "note": "polyfit by contract (a least-squares solution); for the order 4 refutation the minimum-norm one."
 },
 "C56": {
  "note": "polyfit by contract (a least-squares solution)."
 },
 "C62": {
  "note": "The numerical bounds are proved from the decimal table entries, exact rational arithmetic."
 },
 "C64": {
  "note": "roots and residue are parameters."
 },
 "C65": {
  "note": "Contract: roots/residue return the roots of the polynomial they are given."
 },
 "C66": {
  "note": "Contract: roots/residue return the roots of the polynomial they are given."
 },
 "C67": {
  "note": "Contract: residue returns poles with matching residues, closed under conjugation."
 },
 "C81": {
  "note": "argsort by contract; inv by contract for the exact-arithmetic form."
 },
 "C87": {
  "note": "inv by contract: returns a right inverse of every invertible matrix it is given."
 },
 "C89": {
  "note": "sklearn's fit is a parameter."
 },
 "C97": {
  "note": "Over a model of loguru's registry written from its documentation."
 },
 "C101": {
  "note": "Small-step model with a lock; progress includes absence of deadlock."
 },
 "C106": {
  "note": "pickle and gzip by round-trip contracts."
 },
 "C110": {
  "note": "Contract: roots/residue return the roots of the prototype they are given."
 },
 "C126": {
  "note": "scipy.signal.group_delay is modelled by its documented formula; which small denominators it replaces by 0 is a parameter."
 },
 "C127": {
  "note": "scipy.signal.group_delay is modelled by its documented formula; which small denominators it replaces by 0 is a parameter."
 },
 "C128": {
  "note": "Contracts: numpy.roots returns the roots of the polynomial with multiplicity, argsort a sorting permutation."
 },
 "C132": {
  "note": "Contract: roots/residue return the roots of the prototype they are given. Exact real arithmetic."
 },
 "C133": {
  "note": "Contract: roots/residue return the roots of the prototype they are given. Exact real arithmetic."
 },
 "C134": {
  "note": "Contract: roots/residue return the roots of the prototype they are given. Exact real arithmetic."
 },
 "C135": {
  "note": "Overflow is not modelled; an integer dtype (truncating stores) is excluded."
 },
 "C136": {
  "note": "Overflow is not modelled; an integer dtype (truncating stores) is excluded."
 },
 "C138": {
  "note": "Arguments are numpy arrays; partly overlapping views are not modelled."
 },
 "C139": {
  "note": "Arguments are numpy arrays; partly overlapping views are not modelled."
 },
 "C140": {
  "note": "Value semantics of one filter, which C138 justifies for programs that share no arrays."
 },
 "C145": {
  "note": "Real doubles, float dtype; numpy.dot is any tree of sums of products, in any order, with or without fused multiply-add. Uses the standard library's specification of primitive floats (FloatAxioms)."
 },
 "C146": {
  "note": "As C145. Only reset with a finite level ends it; a reset that divides by zero does not."
 },
 "C147": {
  "note": "As C145; the exact run is the complex model on the values of the doubles."
 },
 "C148": {
  "note": "Exact complex arithmetic; hilbert is any length-preserving function, applied by the filter as in the code."
 },
 "C149": {
  "note": "As C148."
 },
 "C150": {
  "note": "As C148."
 },
 "C151": {
  "note": "The refutation uses the definition of scipy.signal.hilbert (spectrum with negative frequencies removed). scipy raises ValueError for an array of complex dtype whose imaginary parts are all zero; the model has no such dtype and treats those samples as real."
 },
 "C152": {
  "note": "Exact arithmetic; numpy.angle without signed zeros."
 },
 "C153": {
  "note": "Exact arithmetic on the values; the constants are sums of |b_i| |node|^(deg+1)/(deg+1)!, not always the best possible."
 },
 "C154": {
  "note": "Exact arithmetic; constants not always the best possible."
 },
 "C155": {
  "note": "Exact arithmetic; numpy.polyfit by its contract (a least-squares fit), as C55. 1/8 is the best constant for order 1; the best for order 3 is 3/128."
 },
 "C156": {
  "note": "Exact arithmetic; numpy.linalg.inv by its contract and numpy.argsort as any function of the distances."
 },
 "C157": {
  "note": "Chunks in any arithmetic; the rest in exact arithmetic with float gains."
 },
 "C158": {
  "note": "Threads may switch between any two accesses to the object; one numpy operation is one access. iir_reset is taken as one access."
 },
 "C159": {
  "note": "As C158; list operations and attribute accesses are single steps."
 },
 "C160": {
  "note": "firwin is written from scipy's documented formulae (FirwinModel.v) and numpy.i0 is an arbitrary function; taps that sum to exactly zero are taken as NaN."
 },
 "C161": {
  "note": "Exact real arithmetic; the example is the exact Daubechies row of order 3. The single-level result is C62."
 },
 "C162": {
  "note": "Exact complex arithmetic; builds on C34."
 },
 "C163": {
  "note": "Steps are single accesses to the class attribute and to arrays (global interpreter lock). Instances are not shared between threads. Any arithmetic in which zero equals zero."
 },
 "C164": {
  "note": "get_window is a parameter; for Hann, Hamming and Blackman its contract is scipy's cosine formula (as in C33). Exact arithmetic."
 },
 "C165": {
  "note": "numpy.argsort is a parameter; its contract on doubles is numpy's order (npy::less), which puts NaN last, with no assumption on ties."
 },
 "C166": {
  "note": "polyfit enters through its least-squares contract (superposition and bounds) or as any function (locality, chunks). Exact arithmetic."
 },
 "C167": {
  "note": "Exact complex arithmetic; fft is its defining sum."
 },
 "C168": {
  "note": "Exact real arithmetic; inv and argsort by contract, exp exact except in the underflow theorem, where it is any function that is zero below -T."
 },
 "C169": {
  "note": "IEEE doubles. numpy.fmod is exact by contract (a Coq function meeting the contract is given), numpy.exp has an error bound as parameter."
 },
 "C170": {
  "note": "IEEE doubles. numpy.round to an integer by contract (a Coq function meeting it is given), numpy.dot any function. A NaN rate is accepted by the code and makes filter raise ValueError at int(nan); it is outside the theorems."
 },
 "C171": {
  "note": "IEEE doubles. numpy.round and int by contract (Coq functions meeting them are given), numpy.polyfit any function. Rates 0, NaN and infinity are outside the theorems (C57 treats rate 0)."
 },
 "C172": {
  "note": "IEEE doubles. x ** y is assumed not to turn NaN or infinity into a number for a positive exponent, and 1 / columns to be positive. Samples whose first component is within numpy.isclose of numpy.finfo(float).max are outside C172_two_rows and C172_stays, as fit takes them for empty rows."
 },
 "C173": {
  "note": "IEEE doubles, float coefficient arrays. C173_output speaks of magnitudes up to 2^1000."
 },
 "C174": {
  "note": "IEEE doubles, float data. C174_accurate takes at most 2^20 levels."
 },
 "C175": {
  "note": "IEEE doubles, float arrays. Constants are multiples of 2^-1072 up to 2^1000 for exactly zero."
 },
 "C176": {
  "note": "IEEE doubles, float arrays; what a non-finite sample does is C146."
 },
 "C177": {
  "note": "List elements are int, float or complex numbers; a list a with a single register is not modelled."
 },
 "C178": {
  "note": "Exact complex arithmetic; complex samples into a filter with real gains are not covered."
 },
 "C179": {
  "note": "Contiguous views of one float array, exact arithmetic; last coefficient of u nonzero for the same array."
 },
 "C180": {
  "note": "Filters newly constructed; doubles part for integral order 0 and dyadic derivative tables."
 },
 "C181": {
  "note": "neutral=True; 3.0 ** 0.5 and numpy.linalg.inv are parameters with an accuracy contract, met by the correctly rounded values."
 },
 "C182": {
  "note": "abs, isclose, angle, exp, fmod, sign and hilbert are parameters; abs, isclose and angle with contracts on NaN and infinite arguments."
 },
 "C183": {
  "note": "sha3_256 is a parameter without contract; the codecs are D from Python's documented behaviour and proved against the RFC bit patterns."
 },
 "C184": {
  "note": "real arithmetic for the ranges, doubles for NaN"
 },
 "C185": {
  "note": "exact arithmetic; the pole claim assumes that numpy's root finder returned the prototype's roots (poles_found)"
 },
 "C186": {
  "note": "exact arithmetic; get_window is assumed to follow scipy's documented formulae, I0 is its power series"
 },
 "C187": {
  "note": "locality holds for any arithmetic; the bad-sample part treats real operands as complex numbers with imaginary part 0 and assumes only that both parts of numpy.dot are sums of the right products in some order"
 },
 "C188": {
  "note": "numpy.fmod and numpy.exp of NaN are assumed to be NaN, numpy.angle of NaN to be NaN, and hilbert to keep the length; the private _filter attribute is taken to be out of the caller's reach"
 },
 "C189": {
  "note": "the caller's variables are names bound to one object each; indices into b are not negative; rebinding PolyphaseRateFilter.B itself is not modelled"
 },
 "C190": {
  "note": "numpy.linalg.inv is a parameter that never turns a matrix with a NaN into one without (inv_nan); numpy.argsort sorts NaN last; column sums run in order, products in any order"
 },
 "C191": {
  "note": "GAIN, 3 ** 0.5 and the inverse of COEFFICIENT are parameters within 2^-50; complex division is numpy's (Smith); matmul in any order"
 },
 "C192": {
  "note": "the NaN part in doubles with numpy.dot in any order"
 },
 "C194": {
  "note": "transposition and outer products in exact arithmetic; single rows and columns in any arithmetic"
 },
 "C195": {
  "note": "isolation, what sharing keeps and four refutations with schedules; clear is not a call of the thread model"
 },
 "C196": {
  "note": "any arithmetic except for the bound; argsort only permutes the indices; the setters of b and s are not calls here"
 },
 "C197": {
  "note": "any arithmetic; a reset is one access; the setters of a, b and s are not calls here; the array size ceil(n / L) + 1 is computed by any function"
 },
 "C198": {
  "note": "any arithmetic except for the bounds; the setters of b, s and limit are not calls here"
 },
 "C199": {
  "note": "the FFT is any function with the stated error; the other operations are exact"
 },
 "C200": {
  "note": "any arithmetic in which real parts are idempotent and closed under sums and products; numpy's ComplexWarning is not an error (default filter)"
 },
 "C201": {
  "note": "any arithmetic for the first part; reading and storing the phase are one access each"
 },
 "C202": {
  "note": "the network is any function of what this client sent and closed so far; reading or setting one attribute is one access"
 },
 "C203": {
  "note": "any arithmetic and estimator; self._model.append is one access"
 },
 "C204": {
  "note": "exact complex arithmetic; the inherited b and s setters are not among the calls"
 },
 "C205": {
  "note": "exact complex arithmetic; hilbert keeps the length; the inherited b and s setters are not among the calls"
 },
 "C206": {
  "note": "exact arithmetic except C206_uninterrupted (any); numpy.linspace a parameter, its contract assumed only there; a rate of zero is excluded because numpy's division by it is not modelled"
 },
 "C207": {
  "note": "any arithmetic; the bank is complete; idle iterations of the outer loop are bounded by a parameter, and the answer None means that the bound was reached"
 }
}