{
 "C01": "Exact (real) arithmetic; array as computed by numpy.linspace.",
 "C02": "Exact arithmetic.",
 "C05": "Exact characterisation over the reals of which sequences are accepted; binary64 witnesses by evaluation.",
 "C06": "Exact arithmetic; the witness shows the value is the smallest gap, not the most common one.",
 "C07": "Proved for every number system (reals, rationals, binary64) and every configuration of methods.",
 "C13": "Exact arithmetic.",
 "C14": "Samples in any field containing the reals (real and complex); axes increasing or decreasing. scipy's nan result for complex single-point relations is not modelled.",
 "C15": "Exact arithmetic, real samples.",
 "C16": "Exact arithmetic for two relations; the number case holds for every number system.",
 "C17": "Exact arithmetic, real or complex samples.",
 "C18": "Exact arithmetic; non-associativity witness in exact rationals.",
 "C19": "Exact arithmetic, every axis.",
 "C20": "Exact arithmetic.",
 "C21": "Exact arithmetic; binary64 witnesses by evaluation.",
 "C22": "Exact arithmetic; exact characterisation of failure.",
 "C23": "Exact arithmetic.",
 "C24": "Exact arithmetic; complex witness for the failure of non-negativity.",
 "C25": "Exact arithmetic, value level of Relation.correlate (not the Signal override, see C28).",
 "C26": "Exact arithmetic, real and complex samples.",
 "C27": "Exact arithmetic.",
 "C03": "Every number system, every configuration, every history of the modelled API (in-place element writes to .array are the subject of C04).",
 "C04": "Every history for assignments; in-place writes to .array modelled by write_array.",
 "C08": "Every reachable state.",
 "C09": "Every reachable state; holds for every call of the API that is not an assignment or an element write, including calls that raise.",
 "C10": "Every reachable state; independence stated as freshness of the objects and as preservation under every later history of assignments through the other side.",
 "C11": "Every reachable state.",
 "C12": "Every reachable state and every pair of configurations; current-method theorems for correlate/convolve (custom method) and equalize.",
 "C29": "Every reachable state; the error for unsupported operands is stated for the default math_operation.",
 "C34": "Every reachable state, every later history that does not convert the same object with an explicit domain.",
 "C45": "Every reachable state.",
 "C61": "Refinement between the object-level and value-level models; class Sweep excluded (its constructor recomputes laws).",
 "C28": "Exact arithmetic, default configuration; value level (object level: C62).",
 "C30": "Exact arithmetic, default configuration, real samples, every length >= 2; a single sample raises ValueError.",
 "C31": "Exact arithmetic; identity characterised as 2p-periodicity; zero fill holds on every axis; late start refuted by a two-point family of signals.",
 "C32": "Exact arithmetic; exact condition for the integer argument; without argument it always succeeds for >= 2 samples.",
 "C33": "Exact arithmetic; closed form of the spectrum (discrete Fourier transform) and linearity.",
 "C35": "Exact arithmetic, default configuration; also with negative start (extra rotation) and: every shift keeps the axis.",
 "C36": "Exact arithmetic, every spectrum with a consistent axis.",
 "C37": "Exact arithmetic; np.unwrap modelled from numpy's definition.",
 "C38": "Exact arithmetic, spectra on equal axes.",
 "C39": "Exact arithmetic, f_start = f_end = None, at least two points.",
 "C62": "Every number system and sample type, every reachable state. Methods with an axis argument assume conversion methods that return the axis they are given (proved for the defaults) and a readable axis; correlate/convolve for operands of class Signal whose spectra can be computed.",
 "C40": "Exact description of every successful call for every arithmetic and configuration; bounds and starting value at the reals; success conditions for function and array laws. sin is the real sine.",
 "C41": "Real numbers; scipy's quad assumed to return the integral of integrable functions (explicit hypothesis quad_exact).",
 "C42": "Every arithmetic, configuration and law.",
 "C43": "Real times, any sample field; increasing law times. The general formula covers any first time.",
 "C44": "Real times, any sample field, at least two law samples, start <> end.",
 "C46": "Real samples, default relation methods; the a-priori signal may carry any methods. Also the exact failure cases (zero or negative norms).",
 "C47": "Every arithmetic and configuration; the estimation methods are arbitrary.",
 "C49": "Segment arithmetic of scipy.signal.spectrogram is modelled from its documentation; the image is an arbitrary function of its shape. Witness computed in exact rationals.",
 "C50": "Exact formula for every time array with different first and last time; the natural claim (end frequencies met) is refuted for a time not starting at 0.",
 "C51": "All time arrays, tapers and locations.",
 "C52": "Coefficient 1. The natural claim that clipping never increases the force is refuted.",
 "C53": "random.shuffle is any function returning a permutation. Exact formula for the law; leaving the band by rounding is a refuted theorem.",
 "C54": "For every computed logarithm within one part in 2^40 of the exact one (rounded_log); scipy's taps table is an arbitrary function.",
 "C55": "For every computed logarithm within one part in 2^40 of the exact one (rounded_log); scipy's taps table and the random bits are arbitrary functions.",
 "C56": "Values over any VLaws instance (real or complex); exact axes whose end is a whole number of samples.",
 "C57": "Relation base: exact axes whose end is a whole number of samples. Signal base: any axis for the axis claim, real samples from 0 for the values.",
 "C58": "Value level on contents of spectra (complex samples).",
 "C59": "Value level on contents of spectra (complex samples).",
 "C60": "The decomposition is an arbitrary function; the loop is watched for any number of passes.",
 "C48": "scipy.signal.hilbert is modelled from its documented weights in exact arithmetic; np.unwrap and np.angle as in C37.",
 "C63": "Exact arithmetic; the design statement needs a time axis whose span/sample is not half-way between integers and methods of frequency and amplitude estimation that do not raise.",
 "C64": "Exact arithmetic; a later start is covered by C43 and C50 (the law is then off).",
 "C65": "Exact arithmetic; the generator of permutations is an arbitrary function.",
 "C66": "Exact arithmetic; quadrature is an oracle that agrees on real functions. scipy's nan result for complex single-point relations is not modelled.",
 "C67": "Exact arithmetic, exact axes; complex spectra, real samples.",
 "C68": "Exact arithmetic, exact axes; complex spectra, real samples.",
 "C69": "scipy's shift register is modelled; its table of taps is an arbitrary function.",
 "C70": "Taps are assumed to belong to a maximal length sequence (checked for the taps of 2 to 8 bits as examples).",
 "C71": "Exact arithmetic, exact axes from 0; real samples. C71_starts_at_zero_refuted: the convolved sweep does not begin at time 0.",
 "C72": "Exact arithmetic; the decomposition (PyEMD) is an arbitrary function that keeps the length. The window is that of C60_window.",
 "C73": "Exact arithmetic; the decomposition (PyEMD) is an arbitrary function that keeps the length. C73_subtracts_last_refuted contradicts the docstring.",
 "C74": "Refinement between programs run on heap objects and on values, by induction on programs; share_blind is discharged for the default methods at the reals and shown necessary (C74_custom_axis_refuted). Sweep objects, correlate/convolve and interpolate_extrapolate with an explicit axis are outside the program language; shift of signals (through the spectrum) is excluded by hypothesis.",
 "C75": "Python's legacy sequence iteration (call r[0], r[1], ... until IndexError) is modelled as a step function; the protocol itself is trusted. Complex indices are not modelled.",
 "C76": "Refinement of the heap-level calls by the value-level ones. The a-priori signal object is not itself a Sweep (its norm would build a further Sweep). The attribute a_prior_signal and the a-priori constructor on objects are not represented on the heap.",
 "C77": "Binary64 by SpecFloat (standard library); Flocq relates it to real rounding. numpy.linspace is modelled by its formula. Hypotheses f64_axis / f64_tame (FloatSpec.v) exclude overflow, subnormal spacing and near-ties, where C05/C21 *_refuted theorems show failures.",
 "C78": "As C77; interp1d is modelled as numpy.interp, to which scipy delegates for real 1-d data (exact at the points). The inverse of shift and associativity are refuted by witnesses.",
 "C79": "The text itself (formatting of numbers) is not modelled, only the values formatted and their order of evaluation.",
 "C80": "PyEMD is a universally quantified function of the samples; CEEMDAN's noise is part of it.",
 "C81": "ftat_method is any function of the content of the spectrum it is given. A relation passed as time is not modelled on objects (numpy.array of a relation iterates it, C75). C81_odd_signal_or_spectrum_refuted: a spectrum of an odd number of samples stands for a signal with one sample less and a larger spacing.",
 "C82": "Signals: for exact axes from 0 (C28 shows correlate succeeds there); the wrapped case is a refutation witness. Exact real arithmetic.",
 "C83": "Exact arithmetic, real samples; diff, integrate, get_norm and sweeps on axes whose length is a whole number of steps, sweeps from time 0.",
 "C84": "Default methods, exact arithmetic. Sweeps: frequency law an array, amplitude law an array or the default, last time not 0, and the spectrogram method raises in both units or in neither.",
 "C85": "Default methods; linearity in exact arithmetic.",
 "C86": "Sample between 2^-300 and 2^300, samples of at most 2^300, start and end within 2^46 samples of zero; real samples.",
 "C87": "Sample between 2^-300 and 2^300, samples of at most 2^300, at least two and at most 2^45 points, span within an eighth of a sample of n samples; real samples; equal spans, so nothing is interpolated.",
 "C88": "Float sequences with increasing times, the start at most 2^44 samples from zero; other spacings are those of C05, C05_binary64_refuted. Real samples.",
 "C89": "Interpolation, operations across axes, convolution of relations and function laws over the exact reals, the rest for every arithmetic; default methods; convolutions and correlations of relations on equal axes. For function laws the quadrature may use the function between its bounds only.",
 "C90": "Default methods. The sine, the quadrature and their error bounds are hypotheses; a sine meeting them is exhibited, and numpy's constant for 2 pi is proved to meet its bound. Together with C83, which bounds the distance between trapezoid phase and true phase.",
 "C91": "Element-wise functions (product with a phasor, amplitude, phase) are exact; the transforms' error bounds are hypotheses.",
 "C92": "Times, frequencies and results are binary64 data; every operation is the correctly rounded one.",
 "C93": "An array containing nan, for which numpy returns nan, is not covered.",
 "C94": "Real arithmetic; signals starting at time 0 on an exact axis."
}
