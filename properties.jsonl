{"id": "C01", "title": "Axis array shape", "statement": "For every start, end and non-zero sample, ArrayAxis(start,end,sample).array has round(|end-start|/|sample|)+1 points (Python half-to-even rounding), its first point is start, its last point is end when there are at least two points, and consecutive points are equally spaced; a zero sample raises an arithmetic error instead of producing an array.", "quantifier": "all real start, end, sample", "why_tests_cant": "the number of points depends on rounding of a real quotient; tests only sample a few axes", "anchors": ["sweep_design/axis.py:ArrayAxis.array", "sweep_design/axis.py:ArrayAxis.size"]}
{"id": "C02", "title": "Axis spacing is close to the requested sample", "statement": "For every axis with at least two points, the true spacing of .array differs from |sample| by at most |sample|/(2*(size-1)), and equals it exactly when the span is a whole number of samples.", "quantifier": "all axes", "why_tests_cant": "needs a bound over all reals", "anchors": ["sweep_design/axis.py:ArrayAxis.array"]}
{"id": "C03", "title": "Axis array is never stale", "statement": "After any sequence of API calls - assignments to start/end/sample, copies, reads of array, size or actual_sample, arithmetic on relations using the axis, in-place writes to y arrays - reading .array (or .size, .actual_sample) of any axis returns exactly the value computed from its current start, end and sample.", "quantifier": "all finite histories of API calls over any number of axes and relations", "why_tests_cant": "unbounded histories of cache fills, resets and shared cached arrays", "anchors": ["sweep_design/axis.py:ArrayAxis._reset_property", "sweep_design/axis.py:ArrayAxis.array", "sweep_design/axis.py:ArrayAxis.actual_sample", "sweep_design/axis.py:ArrayAxis.copy"]}
{"id": "C04", "title": "Axis copies are independent under assignment, but not under in-place writes", "statement": "Assigning start/end/sample of a copy never changes the original and vice versa, in every history; but a copy taken after .array was read shares the cached numpy array, so writing an element of one's .array changes the other's .array (witness), whereas a copy taken before does not.", "quantifier": "all heaps and histories; existential witness for the sharing", "why_tests_cant": "aliasing depends on the history of reads", "anchors": ["sweep_design/axis.py:ArrayAxis.copy", "sweep_design/axis.py:ArrayAxis.array"]}
{"id": "C05", "title": "Axis from a number sequence", "statement": "get_array_axis_from_array(x) on an equally spaced sequence reproduces x exactly as its .array when round_dx is False, when the sequence is of integer dtype, or when the spacing is a whole number or the reciprocal of a whole number; for other spacings the rounded sample can make the axis have a different number of points than x, so that Relation(x, y) raises NotEqualError although len(x)=len(y) (witnesses: spacing 3/2 and spacing 0.7, also in binary64).", "quantifier": "all equally spaced sequences of length >= 2; existential witnesses", "why_tests_cant": "quantifies over all spacings and lengths", "anchors": ["sweep_design/axis.py:get_array_axis_from_array", "sweep_design/axis.py:get_actual_sample"]}
{"id": "C06", "title": "Calculated sample is the smallest gap", "statement": "get_actual_sample(x) is the smallest difference between consecutive elements (it is one of the differences and none is smaller), and raises for sequences shorter than two - it is not the most common difference.", "quantifier": "all sequences", "why_tests_cant": "all inputs", "anchors": ["sweep_design/axis.py:get_actual_sample"]}
{"id": "C07", "title": "Relation construction guard", "statement": "Relation(x, y) succeeds exactly when y is given and the axis and y have the same number of points, raising BadInputError when y is None and NotEqualError carrying the two sizes otherwise; Relation(relation, anything) ignores the second argument and copies.", "quantifier": "all inputs x (axis, sequence, relation) and y", "why_tests_cant": "all inputs", "anchors": ["sweep_design/relation.py:Relation.__init__"]}
{"id": "C08", "title": "get_data never returns arrays of different length", "statement": "In every reachable state - including after the axis was re-dimensioned through start/end/sample setters of this or of another relation sharing the axis - get_data either returns two arrays of equal length or raises NotEqualError, and the arrays returned are fresh copies: writing into them changes no object.", "quantifier": "all histories", "why_tests_cant": "sizes can be desynchronised by any later setter on a shared axis", "anchors": ["sweep_design/relation.py:Relation.get_data", "sweep_design/relation.py:Relation.start"]}
{"id": "C09", "title": "Operations never mutate their operands", "statement": "No arithmetic operator, reflected operator, in-place operator (+=, -=, *=, **=), shift, diff, integrate, exp, select_data, interpolate_extrapolate, equalize, correlate or convolve changes start, end, sample, array or y of any object that existed before the call, whatever is shared among them and whether or not the call raises.", "quantifier": "all heaps, all operands and sharing patterns, for every configuration of numeric methods and every number system incl. binary64", "why_tests_cant": "aliasing patterns are unbounded", "anchors": ["sweep_design/relation.py:Relation._operation", "sweep_design/relation.py:Relation.shift", "sweep_design/relation.py:Relation.equalize", "sweep_design/relation.py:Relation.select_data", "sweep_design/defaults/methods.py:integrate", "sweep_design/defaults/methods.py:differentiate"]}
{"id": "C10", "title": "Results are independent objects", "statement": "The relation returned by any of those operations has an axis object and a y array that no earlier object refers to, so any later sequence of assignments to, or element writes on, the result leaves every earlier object unchanged, and vice versa.", "quantifier": "all heaps and later histories", "why_tests_cant": "independence must hold for every later history", "anchors": ["sweep_design/relation.py:Relation._operation", "sweep_design/relation.py:Relation.shift"]}
{"id": "C11", "title": "Relations built on one axis object share it", "statement": "Relation(axis, y) stores the axis itself: assigning start/end/sample through any relation changes the axis seen by exactly those relations built on the same axis object, and no others.", "quantifier": "all heaps", "why_tests_cant": "sharing structure is unbounded", "anchors": ["sweep_design/relation.py:Relation.__init__", "sweep_design/relation.py:Relation.start"]}
{"id": "C12", "title": "Configuration is captured at construction", "statement": "Replacing a numeric method in Config never changes the result of diff, integrate, get_norm, interpolate_extrapolate or arithmetic with a number on an already constructed relation; it does change correlate, convolve and the common axis used by equalize at once, and objects constructed afterwards.", "quantifier": "all configurations, all histories", "why_tests_cant": "quantifies over all replacement functions", "anchors": ["sweep_design/relation.py:Relation.__init__", "sweep_design/relation.py:Relation.correlate", "sweep_design/config/base_config.py:Config"]}
{"id": "C13", "title": "Common axis", "statement": "get_common_x(x1,x2) starts at the smaller start, ends at the larger end, uses the smaller sample, and does not depend on the order of its arguments.", "quantifier": "all pairs of axes", "why_tests_cant": "all reals", "anchors": ["sweep_design/defaults/methods.py:get_common_x"]}
{"id": "C14", "title": "Interpolation semantics", "statement": "interpolate_extrapolate(new_x) gives, at every point of the new axis, the piecewise-linear interpolant of the old samples, and 0 strictly outside the old range; at points of the old axis it returns the old sample exactly, so interpolating onto an axis with the same points changes nothing.", "quantifier": "all relations with increasing axes, all new axes", "why_tests_cant": "all reals, all sizes", "anchors": ["sweep_design/relation.py:Relation.interpolate_extrapolate", "sweep_design/defaults/methods.py:interpolate_extrapolate"]}
{"id": "C15", "title": "Interpolated values stay within the data range", "statement": "For real relations every interpolated value lies between the minimum and maximum of the samples, or is 0 outside the range.", "quantifier": "all real relations and new axes", "why_tests_cant": "all reals", "anchors": ["sweep_design/defaults/methods.py:interpolate_extrapolate"]}
{"id": "C16", "title": "Pointwise arithmetic on equal axes", "statement": "If two relations have equal start, end and sample (same axis object or not) then r1 op r2 has that axis and y[i] = r1.y[i] op r2.y[i] for every i and each of +,-,*,/,**; with a number c, r op c and the reflected c op r apply the operator in the written order to every sample.", "quantifier": "all sizes, values and operators", "why_tests_cant": "all sizes and values; the two code paths (identity vs interpolation) must agree", "anchors": ["sweep_design/relation.py:Relation._operation", "sweep_design/relation.py:Relation.equalize", "sweep_design/defaults/methods.py:math_operation", "sweep_design/relation.py:Relation.__rsub__"]}
{"id": "C17", "title": "Arithmetic across different axes", "statement": "For any two relations, r1 op r2 is defined on the common axis and its value at each point t is f1(t) op f2(t), where fi is the piecewise-linear interpolant of ri extended by zero.", "quantifier": "all pairs of relations on increasing axes", "why_tests_cant": "all axis pairs", "anchors": ["sweep_design/relation.py:Relation.equalize", "sweep_design/relation.py:Relation._operation"]}
{"id": "C18", "title": "Addition and multiplication commute, addition is not associative", "statement": "r1+r2 and r2+r1 (and r1*r2, r2*r1) have equal axes and equal samples for all relations, also on different axes; (r1+r2)+r3 = r1+(r2+r3) for relations on equal axes, but not in general (witness on misaligned axes).", "quantifier": "all relations; witness for failure", "why_tests_cant": "all axis pairs", "anchors": ["sweep_design/relation.py:Relation.__add__", "sweep_design/relation.py:Relation.equalize"]}
{"id": "C19", "title": "select_data", "statement": "select_data(a,b) returns exactly the samples with a<=x<=b in order, with their own x points and the same sample, whenever at least one point is selected, on every axis (also when the span is not a whole number of samples, where the true spacing differs from sample); it raises IndexError when nothing is selected and never anything else.", "quantifier": "all axes and bounds incl. None, increasing or decreasing", "why_tests_cant": "all bounds and sizes", "anchors": ["sweep_design/relation.py:Relation.select_data"]}
{"id": "C20", "title": "Indexing by a number returns the nearest sample", "statement": "r[v] returns a pair (x_i, y_i) of the data with |x_i - v| minimal, the first such i on ties.", "quantifier": "all relations and numbers", "why_tests_cant": "all inputs", "anchors": ["sweep_design/relation.py:Relation.__getitem__"]}
{"id": "C21", "title": "shift translates and composes", "statement": "Relation.shift(d) never fails and moves every x by d leaving y unchanged; shift(a).shift(b) equals shift(a+b) and shift(d).shift(-d) is the identity - in exact arithmetic; in binary64 shift can raise NotEqualError (witness).", "quantifier": "all relations and shifts", "why_tests_cant": "all reals", "anchors": ["sweep_design/relation.py:Relation.shift"]}
{"id": "C22", "title": "diff and integrate succeed exactly when rounding is stable", "statement": "On a relation with n>=2 points and positive span and sample, diff() and integrate() succeed with n-1 points unless span/sample is exactly half-way between two integers, in which case both always raise NotEqualError; on a single-point relation with zero span both raise NotEqualError. On success diff has y[i]=(y[i+1]-y[i])/sample and integrate the cumulative trapezoid sums.", "quantifier": "all relations with positive sample", "why_tests_cant": "boundary of rounding over the reals", "anchors": ["sweep_design/defaults/methods.py:integrate", "sweep_design/defaults/methods.py:differentiate"]}
{"id": "C23", "title": "Discrete fundamental theorem", "statement": "integrate().diff() gives the averages of neighbouring samples (from the second interval on) and diff().integrate() gives (y[k+1]+y[k+2])/2-(y[0]+y[1])/2, with x points start+3/2 sample.. and start+3/2 sample..", "quantifier": "all relations on exact axes with at least 3 points", "why_tests_cant": "all sizes", "anchors": ["sweep_design/relation.py:Relation.diff", "sweep_design/relation.py:Relation.integrate"]}
{"id": "C24", "title": "get_norm is a quadratic energy", "statement": "For real relations get_norm() is the trapezoid sum of y^2 times (true spacing)/sample; it is non-negative, zero exactly when all samples are zero (two or more points), and get_norm(c*r) = c^2*get_norm(r) for all c. For complex relations it squares instead of taking the modulus, so it can be negative (witness).", "quantifier": "all real relations and factors", "why_tests_cant": "all sizes and values", "anchors": ["sweep_design/relation.py:Relation.get_norm", "sweep_design/defaults/methods.py:one_integrate"]}
{"id": "C25", "title": "Correlation gives lags and conjugate symmetry", "statement": "Relation.correlate(r1,r2) is defined on lags -T..T (T the common duration, each relation first moved to start 0) with value at lag k samples equal to the sum over n of r1[n+k]*conj(r2[n]); correlate(r2,r1) is its conjugate mirror image; for equal axes with exact span it never fails.", "quantifier": "all pairs of relations", "why_tests_cant": "all sizes", "anchors": ["sweep_design/defaults/methods.py:correlate", "sweep_design/relation.py:Relation.correlate"]}
{"id": "C26", "title": "Autocorrelation peaks at zero lag", "statement": "For every real relation |correlate(r,r)[k]| <= correlate(r,r)[0 lag] = sum of squares.", "quantifier": "all relations", "why_tests_cant": "Cauchy-Schwarz over all samples", "anchors": ["sweep_design/defaults/methods.py:correlate"]}
{"id": "C27", "title": "Convolution is commutative but its axis is centred", "statement": "Relation.convolve(r1,r2) and convolve(r2,r1) are equal; its samples are the full discrete convolution, but its axis runs from -T to T instead of 0 to 2T, so convolving r (starting at 0) with a unit impulse at time 0 returns r moved by -T, not r.", "quantifier": "all relations on exact axes", "why_tests_cant": "all sizes", "anchors": ["sweep_design/defaults/methods.py:convolve", "sweep_design/relation.py:Relation.convolve"]}
{"id": "C28", "title": "Signal correlation and convolution require start 0", "statement": "Signal.correlate and Signal.convolve of two signals on equal axes of n >= 2 points succeed exactly when |2*end/sample| rounds to 2(n-1), and raise NotEqualError otherwise, because Signal.shift moves phases, not the axis. So they succeed when the axis starts at 0 (then the result holds the plain correlation/convolution sums on -end..end), fail for every start >= half a sample and for every start <= -half a sample with end > -half a sample; that every non-zero start fails is false (witness: start = -2(n-1)*sample).", "quantifier": "all signals on equal axes", "why_tests_cant": "all starts and sizes", "anchors": ["sweep_design/signal.py:Signal.shift", "sweep_design/signal.py:Signal.correlate", "sweep_design/signal.py:Signal.convolve", "sweep_design/defaults/methods.py:correlate"]}
{"id": "C29", "title": "Result class and conversion errors", "statement": "An arithmetic result always has the class of the left operand; a Signal converts a Spectrum operand to a signal, a Spectrum converts a Signal operand to a spectrum; unsupported operands raise TypeFuncError for Relation/Signal and ConvertingError for Spectrum, and correlate/convolve on non-relations raise TypeFuncError/ConvertingError.", "quantifier": "all operand kinds and classes", "why_tests_cant": "all combinations", "anchors": ["sweep_design/signal.py:_inp2signal_operation", "sweep_design/spectrum.py:_input2spectrum_operation", "sweep_design/relation.py:Relation.correlate", "sweep_design/defaults/methods.py:math_operation"]}
{"id": "C30", "title": "Fourier round trip for signals starting at 0", "statement": "For every real signal with at least two samples on an exact axis starting at 0, recomputing the signal from its spectrum on its own time axis returns exactly the original samples, for even and odd lengths. Without a time axis the whole signal comes back when the length is even; with an odd length one sample is lost and the spacing d becomes n*d/(n-1), unless the number of samples is given, in which case the samples come back on the wider spacing.", "quantifier": "all lengths and sample values", "why_tests_cant": "DFT inversion for every length", "anchors": ["sweep_design/defaults/methods.py:signal2spectrum", "sweep_design/defaults/methods.py:spectrum2signal", "sweep_design/signal.py:Signal.get_spectrum", "sweep_design/spectrum.py:Spectrum.get_signal"]}
{"id": "C31", "title": "Fourier round trip rotates signals with negative start", "statement": "For an exact axis with p negative points out of n, recomputing from the spectrum on the same axis returns the samples rotated left by 2p positions, hence not the original unless n divides 2p or the samples are 2p-periodic (witness); a signal starting after 0 (ending before 0) is transformed as if zeros stood before it (after it) up to time 0, so the round trip is not the identity either (witness).", "quantifier": "all lengths, p and sample values", "why_tests_cant": "every split point", "anchors": ["sweep_design/defaults/methods.py:signal2spectrum", "sweep_design/defaults/methods.py:spectrum2signal"]}
{"id": "C32", "title": "get_spectrum with a frequency argument almost always fails", "statement": "signal.get_spectrum(axis) raises NotEqualError for every axis with more than two points; signal.get_spectrum(n) raises NotEqualError for every n>=1 whose half n//2 differs from half the (zero-extended) signal length.", "quantifier": "all signals on axes spanning 0 or not, all frequency axes and all n", "why_tests_cant": "all sizes", "anchors": ["sweep_design/defaults/methods.py:_calculate_spectrum", "sweep_design/signal.py:Signal.get_spectrum"]}
{"id": "C33", "title": "Spectrum is linear", "statement": "On one exact axis starting at 0 the spectrum of a*x+b*y is a times the spectrum of x plus b times that of y, and all three share one frequency axis 0..(n//2)/(n*sample) with spacing 1/(n*sample).", "quantifier": "all signals and coefficients", "why_tests_cant": "all sizes", "anchors": ["sweep_design/defaults/methods.py:_calculate_spectrum"]}
{"id": "C34", "title": "Signal/spectrum caching", "statement": "In every reachable state a second get_spectrum() returns the same object as the first, and ignores is_start_zero and any change made to the signal's axis or samples in between (stale result); get_signal() on a spectrum obtained from a signal returns that signal object itself until get_signal(time) was called with a time. Asking for 0 frequencies or times counts as asking for nothing; any other explicit frequency or time makes a new object, which is remembered from then on.", "quantifier": "all histories", "why_tests_cant": "depends on arbitrary histories", "anchors": ["sweep_design/signal.py:Signal.get_spectrum", "sweep_design/spectrum.py:Spectrum.get_signal"]}
{"id": "C35", "title": "Signal.shift is a circular rotation", "statement": "For a real signal with n samples on an exact axis starting at 0, shift(m*sample) keeps the time axis and rotates the samples right by m modulo n, for every integer m; shift(0) is the identity.", "quantifier": "all n, m, samples", "why_tests_cant": "DFT shift theorem for every length and shift", "anchors": ["sweep_design/signal.py:Signal.shift", "sweep_design/signal.py:Signal.add_phase"]}
{"id": "C36", "title": "Amplitude and phase reconstruct the spectrum", "statement": "get_spectrum_from_amp_phase(S.get_amp_spectrum(), S.get_phase_spectrum()) has the same axis and values as S.", "quantifier": "all spectra with increasing axes", "why_tests_cant": "all complex values", "anchors": ["sweep_design/spectrum.py:Spectrum.get_spectrum_from_amp_phase", "sweep_design/spectrum.py:Spectrum.get_phase_spectrum"]}
{"id": "C37", "title": "Unwrapped phase", "statement": "get_phase_spectrum differs from the principal angle by whole multiples of 2 pi at every point and its consecutive jumps never exceed pi in absolute value.", "quantifier": "all spectra", "why_tests_cant": "all complex sequences", "anchors": ["sweep_design/spectrum.py:Spectrum.get_phase_spectrum"]}
{"id": "C38", "title": "Adding and subtracting phase", "statement": "add_phase(S,T) multiplies each value of S by the unit phasor of T's value, leaving |S| unchanged, and sub_phase(add_phase(S,T),T) returns S - for spectra on equal axes.", "quantifier": "all spectra on equal axes", "why_tests_cant": "all complex values", "anchors": ["sweep_design/spectrum.py:Spectrum.add_phase", "sweep_design/spectrum.py:Spectrum.sub_phase"]}
{"id": "C39", "title": "Reverse filter whitens", "statement": "For percent>0 and a spectrum that is not identically zero, S times S.get_reverse_filter(percent) is real and equals |S|/(|S|+max|S|*percent/100), so lies in [0,1); with subtract_phase=False the filter has S's phase instead.", "quantifier": "all spectra, all positive percents", "why_tests_cant": "all values", "anchors": ["sweep_design/spectrum.py:Spectrum.get_reverse_filter"]}
{"id": "C40", "title": "Sweep samples follow the design laws", "statement": "Calling an UncalculatedSweep gives sweep[i] = a[i]*sin(theta[i]+tht0) with theta[0]=0, where frequency_time and amplitude_time of the result are the laws evaluated on the calling axis; hence |sweep[i]|<=|a[i]| and sweep[0]=a[0]*sin(tht0).", "quantifier": "all laws (arrays, relations, callables), times and tht0", "why_tests_cant": "all inputs", "anchors": ["sweep_design/uncalculated_sweep.py:UncalculatedSweep.__call__"]}
{"id": "C41", "title": "Phase increments integrate the frequency law", "statement": "For array/relation laws theta[k+1]-theta[k] = 2*pi*sample*(f[k]+f[k+1])/2; for callable laws theta[k] = 2*pi*integral of f from start to t_k (quadrature assumed exact), which for f_t_linear_function is the closed-form quadratic. A generator given no laws produces sin(pi*(t^2 - start^2) + tht0) with unit amplitude and frequency_time equal to the time.", "quantifier": "all laws and sizes", "why_tests_cant": "all sizes and laws", "anchors": ["sweep_design/uncalculated_sweep.py:UncalculatedSweep._array_tht", "sweep_design/uncalculated_sweep.py:UncalculatedSweep._func_tht", "sweep_design/defaults/methods.py:integrate_function"]}
{"id": "C42", "title": "A generator without time can only be called with time", "statement": "UncalculatedSweep(None, f, a)() raises BadInputError for all laws f, a - also when they are Relations carrying a time axis; UncalculatedSweep(None, array, _) raises BadInputError at construction.", "quantifier": "all laws", "why_tests_cant": "all combinations", "anchors": ["sweep_design/defaults/sweep_methods.py:get_info_from_ftat", "sweep_design/defaults/sweep_methods.py:_extract_x_t", "sweep_design/uncalculated_sweep.py:UncalculatedSweep.__call__"]}
{"id": "C43", "title": "Law arrays are stretched correctly only when they start at time 0", "statement": "InterpolateArray(x,y)(axis) with x[0]=0<x[-1] returns y stretched over the whole axis: value at start is y[0], at end is y[-1], at fraction q the interpolant at fraction q; if x[0]>0 the result is 0 at the end of the axis whenever x[0]>0 and axis span and y[-1] nonzero (law lost), for every such law.", "quantifier": "all law arrays and calling axes", "why_tests_cant": "all reals", "anchors": ["sweep_design/defaults/sweep_methods.py:InterpolateArray.__call__"]}
{"id": "C44", "title": "Law arrays of another length are resampled", "statement": "A law array with m>=2 samples and a time axis with n points, m<>n, is interpreted as covering the time axis uniformly: the helper axis has exactly m points for every m, and first and last values are kept.", "quantifier": "all m, n and values", "why_tests_cant": "rounding must give m for every m", "anchors": ["sweep_design/defaults/sweep_methods.py:_extract_x_t"]}
{"id": "C45", "title": "Sweeps from one generator share the time axis", "statement": "Two sweeps returned by calling one generator without time (or twice with one ArrayAxis), and their frequency_time and amplitude_time relations, all refer to the same axis object: assigning start/end/sample on any of them changes all of them and the generator; calls with a number sequence get fresh axes.", "quantifier": "all heaps and histories", "why_tests_cant": "aliasing across calls", "anchors": ["sweep_design/uncalculated_sweep.py:UncalculatedSweep.__call__", "sweep_design/defaults/sweep_methods.py:get_f_t"]}
{"id": "C46", "title": "A-priori sweep normalisation", "statement": "ApriorUncalculatedSweep(...)() with normalisation returns a sweep whose get_norm() equals the a-priori signal's get_norm(), whenever the un-normalised sweep has positive norm, its square can be made a Sweep (get_norm builds one) and the a-priori norm is non-negative.", "quantifier": "all a-priori data and laws", "why_tests_cant": "all inputs", "anchors": ["sweep_design/uncalculated_sweep.py:ApriorUncalculatedSweep.__call__"]}
{"id": "C47", "title": "Normalised a-priori sweeps lose their design laws", "statement": "The sweep returned with normalisation has frequency_time and amplitude_time recomputed from its samples (Hilbert estimate), independent of the design laws: the scaled amplitude_time computed before is discarded, in every case.", "quantifier": "all a-priori data and laws", "why_tests_cant": "all inputs", "anchors": ["sweep_design/uncalculated_sweep.py:ApriorUncalculatedSweep.__call__", "sweep_design/relation.py:Relation.__imul__", "sweep_design/sweep.py:Sweep.__init__"]}
{"id": "C48", "title": "Envelope and instantaneous frequency", "statement": "For a Sweep built from real samples without laws, amplitude_time is the modulus of the analytic signal (real part the samples, nothing at negative frequencies; unique) and amplitude_time[i] >= |sweep[i]| for every i; frequency_time[0] = 0 and every later value is the phase change since the sample before in turns per time, at most half the sampling rate. A harmonic A cos(2 pi k j/n + phi) with 0 < 2k < n gives amplitude_time = A and frequency_time = k/(n*sample) exactly from the second sample on; a constant gives its absolute value and frequency 0; scaling the samples scales the envelope.", "quantifier": "all sizes and samples", "why_tests_cant": "needs Re(analytic signal)=signal and orthogonality for all lengths", "anchors": ["sweep_design/defaults/sweep_methods.py:get_a_t", "sweep_design/defaults/sweep_methods.py:get_f_t"]}
{"id": "C49", "title": "Spectrogram axes", "statement": "The returned Spectrogram keeps the image unpadded: for a one-column (short sweep) spectrogram the time axis has two points but the image one column, for every such sweep; the axes are rebuilt from rounded spacings, so their sizes can differ from the image also for long sweeps (witness).", "quantifier": "all spectrogram outputs", "why_tests_cant": "all sizes", "anchors": ["sweep_design/sweep.py:_get_spectrogram"]}
{"id": "C50", "title": "Linear frequency law end points", "statement": "f_t_linear_array(time,f0,f1) equals f0 at the first and f1 at the last point exactly when time[0]=0 or f0=f1; in general the end points are f0+c and f1+c with c=time[0]*(f1-f0)/(time[-1]-time[0]). f_t_linear_function has the same offset.", "quantifier": "all time arrays and frequencies", "why_tests_cant": "all reals", "anchors": ["sweep_design/utility_functions/f_t.py:f_t_linear_array", "sweep_design/utility_functions/f_t.py:f_t_linear_function"]}
{"id": "C51", "title": "Tukey envelope bounds", "statement": "tukey_a_t returns time.size values all in [0,1] for every time array, taper and location; None gives all ones; 'left' equals 'both' on the first half and is 1 on the second half, 'right' is its mirror image; the tapered end is 0 whenever some time is not after the taper, and nothing is tapered when all times are after it (the taper is compared with the times themselves, not with their distance from the first).", "quantifier": "all arrays, tapers, locations", "why_tests_cant": "all sizes", "anchors": ["sweep_design/utility_functions/a_t.py:tukey_a_t"]}
{"id": "C52", "title": "Soft clip bounds", "statement": "soft_clip fails (ValueError) exactly when there are no rows, leaves rows with |d|<=limit*percent unchanged, and with coefficient 1, limit>0 and 0<=percent<=1 multiplies the force by a positive factor such that factor*|d| <= limit, and factor*|d| is continuous and non-decreasing in |d|; the factor is below 1 only beyond the limit - between limit*percent and limit it is above 1, so the force is amplified.", "quantifier": "all data, limits, percents", "why_tests_cant": "all reals", "anchors": ["sweep_design/utility_functions/source_sweep_correction.py:soft_clip"]}
{"id": "C53", "title": "Shuffle stays inside the frequency band", "statement": "For every random permutation, the frequency law built by get_shuffle joins a permutation of ceil(end/segment)+1 equally spaced (rounded) frequencies by raised cosines of ceil(segment/sample) samples each, less the last two samples; all its values lie between min(f_start,f_end) and max(f_start,f_end) when frequencies are not rounded, within half a unit of the last digit of that band otherwise (and can leave the band); segments not longer than the sample raise SegmentSmallerThenDtError.", "quantifier": "all permutations, times and bands", "why_tests_cant": "factorially many shuffles", "anchors": ["sweep_design/prepared_sweeps/pseudorandom_shuffle.py:get_shuffle"]}
{"id": "C54", "title": "m-sequence code length", "statement": "get_m_sequence_code(L) never returns L elements: it returns L-1, or L-2 when L-1 is a power of two, for every L from 4 to 2^32+1 (where the computed logarithm of a power of two lies above the exact one, as at 2^29, it returns L-1 of a code twice as long; L-1 = 2^32 then raises); outside this range it raises (IndexError for L=2, ValueError otherwise).", "quantifier": "all L, all logarithm functions accurate to one part in 2^40", "why_tests_cant": "all L", "anchors": ["sweep_design/prepared_sweeps/code_m_sequence.py:get_m_sequence_code"]}
{"id": "C55", "title": "m-sequence relation size", "statement": "get_relation_m_sequence(time) raises NotEqualError exactly when the number of points is a power of two, or one more than a power of two whose logarithm is computed exactly (not rounded up), for every axis of 4 to 2^32+1 points, whatever the random start; with is_full it succeeds on the axis 0, sample, 2*sample, ...; a given start sequence counts only through its zeros, so the documented sequences of -1 and 1 all mean all ones. A start of zeros only is changed in the caller's array too (first element 1), and calling again with it gives the same. An array of times stands for the axis made from it, with a rounded step.", "quantifier": "all axes and all random start states", "why_tests_cant": "all sizes and states", "anchors": ["sweep_design/prepared_sweeps/code_m_sequence.py:get_relation_m_sequence"]}
{"id": "C56", "title": "Zinger code", "statement": "get_code_zinger(code,n) is n concatenated copies; get_code_zinger_relation(r,n) for n>1 has the first period counted twice: when r spans a whole number of samples and its end is a whole number of samples, it equals, sample by sample, r plus the sum over k=0..n-1 of r moved by k*end; for n<=1 it is r.", "quantifier": "all codes and periods", "why_tests_cant": "all sizes", "anchors": ["sweep_design/prepared_sweeps/code_zinger.py:get_code_zinger", "sweep_design/prepared_sweeps/code_zinger.py:get_code_zinger_relation"]}
{"id": "C57", "title": "Code segments", "statement": "get_code_sweep_segments on a Relation base places the k-th segment (k>=1) at k*end+sample, so consecutive segments from the second on overlap in one sample; on a Signal/Sweep base the result keeps the base's time axis - segments are superposed, not concatenated: for a base starting at 0 the k-th segment is the base rotated by k-1 samples, so the code [1,-1] gives silence.", "quantifier": "all codes and bases", "why_tests_cant": "all code lengths", "anchors": ["sweep_design/prepared_sweeps/sweep_from_code.py:get_code_sweep_segments"]}
{"id": "C58", "title": "Frequency-to-time laws", "statement": "simple_freq2time and proportional_freq2time return time starting at 0 and non-decreasing, one entry per frequency, with the increment (|a|^2+|b|^2)/df between neighbours, and a constant envelope; dwell returns a_t[i]=(f_i/f_0)^2 up to the cut-off and constant beyond (f_0>0), time non-decreasing.", "quantifier": "all spectra with increasing frequency", "why_tests_cant": "all sizes", "anchors": ["sweep_design/defaults/sweep_methods.py:simple_freq2time", "sweep_design/utility_functions/ftat_functions.py:proportional_freq2time", "sweep_design/utility_functions/ftat_functions.py:dwell"]}
{"id": "C59", "title": "dwell needs two frequencies below the cut-off", "statement": "dwell(...)(spectrum) raises IndexError whenever fewer than two selected frequencies are <= the cut-off - in particular always when no cut-off (None or 0) is given.", "quantifier": "all spectra and parameters", "why_tests_cant": "all inputs", "anchors": ["sweep_design/utility_functions/ftat_functions.py:dwell"]}
{"id": "C60", "title": "Source correction terminates", "statement": "get_correction_for_source with limits and an integer limit_iteration performs at most max(1, limit_iteration) rounds whatever the decomposition returns; with limits=None it performs none; without limit_iteration it need not end; on an exact axis of n>=5 points (and a decomposition that keeps the length) the result spans start+3*sample .. end-sample with n-4 points and is mass times the second difference of the last displacement.", "quantifier": "all decompositions (EMD as an arbitrary length-preserving function), all limits", "why_tests_cant": "all oracle behaviours", "anchors": ["sweep_design/utility_functions/source_sweep_correction.py:get_correction_for_source"]}
{"id": "C61", "title": "Method calls on objects compute the value-level functions", "statement": "In every reachable state, whatever is shared or cached, diff, integrate, select_data, exp, shift, interpolate_extrapolate, get_norm, indexing, the operators, Relation.correlate/convolve and the constructors Relation, Signal, Spectrum on relation objects return exactly what the corresponding function of the operands' current (start, end, sample, y) returns, or raise the same error; so every property of the value functions holds for objects in any history.", "quantifier": "all histories, all objects", "why_tests_cant": "all interleavings of sharing and caching", "anchors": ["sweep_design/relation.py:Relation"]}
{"id": "C62", "title": "Signal and spectrum methods on objects compute the value-level functions", "statement": "In every reachable state get_spectrum/get_signal (any domain argument), the amplitude and phase spectra, spectrum from amplitude and phase, add_phase/sub_phase, shift, reverse filter and reverse signal, and Signal.correlate/convolve return an object whose content is exactly that of the corresponding function of the operands' current contents, using the remembered conversion of a signal when there is one (even when it is stale) and the methods captured by the object for the first conversion and the current ones for the rest.", "quantifier": "all histories, all objects, all conversion methods that keep the axis they are given", "why_tests_cant": "all interleavings of caching, sharing and mutation", "anchors": ["sweep_design/signal.py:Signal", "sweep_design/spectrum.py:Spectrum"]}
{"id": "C63", "title": "Dwell sweep", "statement": "get_dwell_sweep returns the normalised a-priori sweep times the Tukey window of the time axis, on that axis. An array of times stands for the axis made from it, with a rounded step. For an a-priori spectrum with increasing positive frequencies f_0..f_n of non-zero amplitude in the band, at least two under the cut-off f_p, the frequency law starts at f_0, ends at f_n and stays between them, the amplitude law stays between 1 and (f_p/f_0)^2, the angle is the trapezoid integral of the frequency law, and before tapering the sweep has the norm of the a-priori signal.", "quantifier": "all a-priori data, bands, cut-offs, tapers and time axes", "why_tests_cant": "all reals and sizes", "anchors": ["sweep_design/prepared_sweeps/dwell_sweep.py:get_dwell_sweep"]}
{"id": "C64", "title": "Linear sweep is the exact chirp", "statement": "get_linear_sweep on a time axis of m>=1 exact steps from 0 to T has frequency law exactly f0+(f1-f0)t/T, amplitude law exactly the Tukey window w, and samples exactly w(t)*sin(2*pi*(f0*t+(f1-f0)*t^2/(2T))); giving the points of the axis as an array gives the same sweep.", "quantifier": "all frequencies, tapers, durations and numbers of samples", "why_tests_cant": "all reals and sizes", "anchors": ["sweep_design/prepared_sweeps/linear_sweep.py:get_linear_sweep"]}
{"id": "C65", "title": "Shuffled sweep stays in band", "statement": "For every random permutation, the sweep of get_shuffle on a time axis from 0 has a frequency law that is the shuffled law stretched over the whole axis: it starts and ends with it and never leaves [min(f_start,f_end), max(f_start,f_end)] (no rounding); the angle grows by 2*pi*sample times the mean of neighbouring frequencies; each sample is the Tukey window times the sine of the angle, so never exceeds 1 in size. An array of times stands for the axis made from it, with a rounded step.", "quantifier": "all permutations, time axes from 0, bands, segments, tapers", "why_tests_cant": "factorially many shuffles", "anchors": ["sweep_design/prepared_sweeps/pseudorandom_shuffle.py:get_shuffle"]}
{"id": "C66", "title": "Storing real samples as complex numbers changes nothing", "statement": "With the default methods, constructing a relation, the operators other than powers, diff, integrate, interpolation, selection, shift, equalize, convolve, correlate, get_norm, max, min, indexing, and calls of UncalculatedSweep and ApriorUncalculatedSweep on real samples stored as complex numbers give exactly the result - or the same exception - as on the real samples, stored as complex numbers.", "quantifier": "all relations, generators and arguments", "why_tests_cant": "all values and sizes", "anchors": ["sweep_design/relation.py:Relation", "sweep_design/uncalculated_sweep.py:UncalculatedSweep", "sweep_design/uncalculated_sweep.py:ApriorUncalculatedSweep"]}
{"id": "C67", "title": "Multiplying spectra convolves circularly", "statement": "For real signals of n>=2 samples on the same exact axis, (s1.get_spectrum()*s2.get_spectrum()).get_signal(axis) is the circular convolution of the samples when the axis starts at 0, and that convolution turned left by three times the number of samples at negative times otherwise; it is not the samples of the (linear) convolution of the signals. Dividing the product by a factor without zero samples gives the other factor back.", "quantifier": "all samples, sizes, axes reaching time 0 (or is_start_zero)", "why_tests_cant": "all reals and sizes", "anchors": ["sweep_design/spectrum.py:Spectrum", "sweep_design/defaults/methods.py:spectrum2signal", "sweep_design/relation.py:Relation.__mul__"]}
{"id": "C68", "title": "Energy is preserved by the spectrum", "statement": "For a real signal of n>=2 samples on an exact axis, n times the sum of the squared samples equals the sum of the squared sizes of the spectrum samples, each frequency other than 0 (and n/2 for even n) counted twice; so only the zero signal has the zero spectrum.", "quantifier": "all samples, sizes, axes reaching time 0 (or is_start_zero)", "why_tests_cant": "all reals and sizes", "anchors": ["sweep_design/signal.py:Signal.get_spectrum", "sweep_design/defaults/methods.py:signal2spectrum"]}
{"id": "C69", "title": "m-sequences follow the shift register's recurrence", "statement": "A code from get_m_sequence_code or get_relation_m_sequence with a register of k bits starts with the random (or given) bits, or 1,0,0,... if they are all zero, and every later bit is the sum modulo 2 of the bit k places before and of the bits at the taps counted from it; if no tap is a multiple of k, no k successive bits are all zero. k is the number of bits of the given start, else the logarithm of L-1 rounded up, 2^(k-1) <= L-1 <= 2^k.", "quantifier": "all taps, random choices, lengths, starts", "why_tests_cant": "all starts and lengths up to 2^32", "anchors": ["sweep_design/prepared_sweeps/code_m_sequence.py:get_m_sequence_code", "sweep_design/prepared_sweeps/code_m_sequence.py:get_relation_m_sequence"]}
{"id": "C70", "title": "Full m-sequences are balanced with two-valued autocorrelation", "statement": "For taps of a maximal length sequence of k bits, the full code (is_full=True) has 2^k-1 bits with exactly 2^(k-1) ones, its periodic autocorrelation as +1/-1 is -1 at every lag that is not a multiple of its length, and the codes of two calls with any random starts are rotations of one another.", "quantifier": "all maximal taps, random choices, starts and lags", "why_tests_cant": "all starts and lags", "anchors": ["sweep_design/prepared_sweeps/code_m_sequence.py:get_m_sequence_code", "sweep_design/prepared_sweeps/code_m_sequence.py:get_relation_m_sequence"]}
{"id": "C71", "title": "Where a convolved code puts the sweep", "statement": "get_convolution_sweep_and_code of a code of N>=2 elements (as a list or on the axis 0, sample, ...) and a sweep of M>=2 samples on an exact axis from 0: with n=max(N,M) the result is on the axis starting at -(n-1)*sample with min(2n-1, n+N) points, and its samples are that many samples of the convolution of code and sweep, turned left by 2(n-1)-(M-1). For N>=M the convolution begins M places after the first point (at time (M+1-N)*sample, so at time 0 only for N=M+1) and what passes the end goes on at the beginning. A code of one element raises ValueError, an empty list raises NotEqualError(2, 0).", "quantifier": "all codes, sweeps, sampling intervals", "why_tests_cant": "all reals and sizes", "anchors": ["sweep_design/prepared_sweeps/sweep_from_code.py:get_convolution_sweep_and_code"]}
{"id": "C72", "title": "Displacements in the source correction", "statement": "On an exact axis of n>=5 points with a decomposition that keeps the length, get_correction_for_source computes the displacement as the trapezoid integral of the integral of the force over the mass, takes its first component times the window, and pass c multiplies the inner force samples by the c-th power of the suppression factor (coefficient_function(c)) of those windowed displacements, then takes the windowed first component of the displacement under that force, two samples later with two zeros in front. The passes before the last each had a sample not below the limit. With coefficient 1 a factor is 1 up to limit*percent, above 1 up to the limit, below 1 beyond, always positive. The result is mass times the second difference of the last displacement.", "quantifier": "all decompositions that keep the length, forces, masses, limits, coefficient functions", "why_tests_cant": "all oracle behaviours and reals", "anchors": ["sweep_design/utility_functions/source_sweep_correction.py:get_correction_for_source", "sweep_design/utility_functions/source_sweep_correction.py:soft_clip"]}
{"id": "C73", "title": "What correct_sweep returns", "statement": "On an exact axis of n>=5 points with a decomposition that keeps the length, correct_sweep without a window returns the second difference of the first component of the displacement (the integral of the integral), on start+3*sample .. end-sample; with a window that component is first multiplied by the left Tukey window if the sample is whole or the reciprocal of a whole number, and for any other sample every long enough signal is rejected with NotEqualError. A displacement that is its own only component gives (s[i+2]+2s[i+3]+s[i+4])/4. The last component is not subtracted, contrary to the documentation.", "quantifier": "all decompositions that keep the length, signals, windows", "why_tests_cant": "all oracle behaviours and reals", "anchors": ["sweep_design/utility_functions/sweep_correction.py:correct_sweep"]}
{"id": "C74", "title": "Programs of operators, methods and augmented assignments compute on values", "statement": "Take any program over names bound to relations (or to signals, or to spectra) built from operators between names, operators with numbers on either side, diff, integrate, exp, select_data, shift, assignment, augmented assignment (+=, -=, *=, /=, **=) and counted loops. Running it on shared, aliased objects gives every name exactly the content obtained by computing on independent values, raises the same exception at the same place, leaves every object that existed before unchanged (also under its other names), and an augmented assignment always binds its name to a new object. Without the default methods this needs the common-axis method to be insensitive to sharing: with a method that refines the sample, r + r differs from r + copy_of_r.", "quantifier": "every program, every reachable heap, every binding of names (aliased or not), every relation with as many samples as axis points, real or complex samples (any methods insensitive to sharing, any number system)", "why_tests_cant": "Aliasing bugs need particular programs and particular sharing between names; there are infinitely many programs and sharing patterns.", "anchors": ["sweep_design/relation.py:Relation.__iadd__", "sweep_design/relation.py:Relation._operation", "sweep_design/relation.py:Relation.equalize", "sweep_design/signal.py:Signal.__add__", "sweep_design/spectrum.py:Spectrum.__add__"]}
{"id": "C75", "title": "A relation as a Python sequence", "statement": "len(r) is the number of axis points, for a constructed relation the number of samples; a relation is never false. r[i] is the point nearest to the abscissa i, so 'for p in r' never ends (list(r), or 'x in r' for an absent x, do not return): step i gives the point nearest to abscissa i, from the greatest abscissa on always the same point; only on the axis 0, 1, ..., n-1 are the first n items the points as stored. If the axis is changed afterwards to have more points than samples, iteration ends silently at the first abscissa whose nearest point has no sample. reversed(r) makes len(r) steps and ends. A slice selects by abscissa whatever its step, and a key of another type gives None.", "quantifier": "all relations, number systems, numbers of steps", "why_tests_cant": "non-termination cannot be tested; all sizes and axes", "anchors": ["sweep_design/relation.py:Relation.__len__", "sweep_design/relation.py:Relation.__getitem__"]}
{"id": "C76", "title": "Generators as objects", "statement": "An UncalculatedSweep object built with the methods, time and laws of a generator, when called, returns a new Sweep object whose samples, frequency_time and amplitude_time are exactly those of the computation by value (C40), or raises exactly its exception; the same for ApriorUncalculatedSweep with and without normalisation, so the normalised object has the norm of the a-priori signal object. Calling a generator twice gives two objects of equal content and leaves the first as it was. No other call changes a generator, except setting a field of the axis object it was given: later sweeps are then computed on the changed axis.", "quantifier": "all reachable states, generators, times, phases, methods, number systems", "why_tests_cant": "all heaps and histories", "anchors": ["sweep_design/uncalculated_sweep.py:UncalculatedSweep.__init__", "sweep_design/uncalculated_sweep.py:UncalculatedSweep.__call__", "sweep_design/uncalculated_sweep.py:ApriorUncalculatedSweep.__call__", "sweep_design/sweep.py:Sweep.__init__"]}
{"id": "C77", "title": "Axes in IEEE binary64", "statement": "In double precision, for finite start, end, sample between 2^-1000 and 2^1000 whose span is n samples up to (almost) half a sample: ArrayAxis has n+1 points, as many as in real arithmetic; the array is finite, starts at start, ends exactly at end (n>=1), never turns back, and each point is within 2^-50*max(|start|,|end|) of the exact equally spaced point. When no end is further than 2^46 samples from zero and the span is n samples up to a quarter, the points are all different. The arithmetic of the model is correctly rounded.", "quantifier": "all binary64 start, end, sample in that range, all sizes", "why_tests_cant": "all doubles and sizes; rounding errors depend on the bits", "anchors": ["sweep_design/axis.py:ArrayAxis.size", "sweep_design/axis.py:ArrayAxis.array"]}
{"id": "C78", "title": "Relations in IEEE binary64", "statement": "In double precision, on an axis as in C77: the constructor accepts exactly n+1 samples; r[v] returns a point and its sample such that no point is nearer to v up to one part in 2^51. If moreover no end is further than 2^46 samples from zero: select_data between any limits (infinities too) never fails on size, keeps exactly the samples whose abscissas are within the limits, and the new abscissas differ from the old ones by at most 2^-48*max(|start|,|end|); shift by up to 2^46 samples never fails, keeps the samples and moves every point up to 2^-48 relative; interpolating a relation on its own axis returns its samples bit for bit, so operators on equal axes act sample by sample whether or not the axis object is shared; + and * commute. Shifting there and back, and associativity of +, fail (witnesses).", "quantifier": "all binary64 relations of that range, limits, shifts, indices, operators", "why_tests_cant": "all doubles and sizes", "anchors": ["sweep_design/relation.py:Relation.__getitem__", "sweep_design/relation.py:Relation.select_data", "sweep_design/relation.py:Relation.shift", "sweep_design/relation.py:Relation.equalize", "sweep_design/defaults/methods.py:interpolate_extrapolate", "sweep_design/defaults/methods.py:get_common_x"]}
{"id": "C79", "title": "Printing axes and relations", "statement": "str of an axis or relation is made of the present start, end, sample, size, calculated sample (and samples), whatever was read or assigned before, and changes nothing observable; the calculated sample of an axis of n>=2 points is (end-start)/(n-1). Printing raises ValueError exactly when the span is at most half a sample (an axis of one point, although a relation can be built on it), and an arithmetic error when the sample is 0.", "quantifier": "all reachable states, all real start, end, sample", "why_tests_cant": "all histories of reads and assignments, all reals", "anchors": ["sweep_design/axis.py:ArrayAxis.__str__", "sweep_design/relation.py:Relation.__str__"]}
{"id": "C80", "title": "Components of a signal", "statement": "get_IMFs_emd and get_IMFs_ceemdan return one new Signal per component, each on its own new axis object with the start, end and sample of the data, holding that component; no existing object changes, and assigning to the axis of one component moves neither the others nor the data. A component of another length than the data's axis is refused with NotEqualError and an exception of the decomposition passes through. If the components add up to the data sample by sample, adding the signals with + gives the data.", "quantifier": "all reachable states, decompositions, numbers of components", "why_tests_cant": "all oracle behaviours and histories", "anchors": ["sweep_design/utility_functions/emd_analyze.py:get_IMFs_emd", "sweep_design/utility_functions/emd_analyze.py:get_IMFs_ceemdan"]}
{"id": "C81", "title": "Generators from a-priori data as objects", "statement": "ApriorUncalculatedSweep(time, a_prior_data, ftat_method) makes a generator object whose time and laws, and keeps a signal object whose samples, are exactly those computed from the current contents of the data, or raises exactly the exception of that computation; it changes no content of any relation or axis, whatever happens. The spectrum handed to ftat_method is the (remembered or computed) spectrum of a signal, the given spectrum itself, or the samples of a plain relation read as a spectrum; a number sequence on an axis counts as the signal of that axis. A signal given as data is kept as the very same object, so later writes to it change the norm that normalised sweeps get; data of other kinds are copied into a new signal, except that a spectrum's remembered signal is used. With a relation as data, the time does not affect the laws. get_info_from_a_prior_data reads a relation given in place of the time as a signal, a spectrum as a spectrum, and then ignores the data. With the default conversions a signal of an even number of samples and its spectrum are equivalent data; for odd numbers they are not.", "quantifier": "all reachable states, data of every kind, times, ftat methods, number systems", "why_tests_cant": "all heaps and histories, all methods", "anchors": ["sweep_design/uncalculated_sweep.py:ApriorUncalculatedSweep.__init__", "sweep_design/defaults/sweep_methods.py:get_info_from_a_prior_data", "sweep_design/defaults/sweep_methods.py:convert_freq2time"]}
{"id": "C82", "title": "Correlation with a source finds delays", "statement": "Relation.correlate and convolve do not depend on where the two relations start, so a delay made with Relation.shift is never seen. On one axis, a record that superposes delayed copies of a source with gains, none running off the axis, correlates with the source to the same superposition of delayed copies of the source's autocorrelation; a single delayed copy of a nonzero source gives its largest size, the energy of the source, at the lag of the delay and strictly smaller sizes at all others. No squared correlation exceeds the product of the two energies. Signal.shift does move samples: a signal on an exact axis from 0 ending in enough zeros is found at its delay; without the zeros the samples come round and it is not.", "quantifier": "all relations, delays, gains, numbers of echoes, real and complex samples", "why_tests_cant": "all reals, sizes and delays", "anchors": ["sweep_design/relation.py:Relation.correlate", "sweep_design/relation.py:Relation.convolve", "sweep_design/defaults/methods.py:correlate", "sweep_design/signal.py:Signal.shift"]}
{"id": "C83", "title": "Accuracy of sampled laws and numerical methods", "statement": "For samples of a function whose derivative changes by at most M per unit, interpolation inside the axis is within M/8 times the square of the spacing of the function; on exact axes diff is within M/4 times the step of the derivative at the points of its axis, integrate is within M/12 times the squared step times the elapsed length of the integral, and get_norm times the step is as near to the energy. A sweep generated from sampled frequency and amplitude laws, of any number of samples, has laws within M/8 times their squared spacing of the given functions (exactly equal when as many as the time points), and differs from the ideal a sin(2 pi integral f + tht0) by at most the amplitude times 2 pi t times the sum of the two errors. The bounds for interpolation, diff and integrate are attained.", "quantifier": "all functions with Lipschitz derivative, relations, axes, numbers of samples", "why_tests_cant": "all functions, reals and sizes", "anchors": ["sweep_design/defaults/methods.py:interpolate_extrapolate", "sweep_design/defaults/methods.py:differentiate", "sweep_design/defaults/methods.py:integrate", "sweep_design/relation.py:Relation.get_norm", "sweep_design/uncalculated_sweep.py:UncalculatedSweep.__call__", "sweep_design/defaults/sweep_methods.py:_extract_x_t"]}
{"id": "C84", "title": "The origin and the unit of time do not matter", "statement": "Counting time in another unit (factor c > 0) and from another origin changes nothing but the numbers on the axes: equalize, the operators, interpolation, select_data, shift, get_norm, indexing and whole programs of them give the same samples and the same exceptions at the converted moments, with derivatives multiplied and integrals divided by c; for another origin only the bounds of select_data are converted; correlation and convolution do not depend on the origins of either operand. In another unit, spectra are the same with frequencies in the reciprocal unit, as are the methods of signals and spectra, and a sweep from arrays with times multiplied and frequencies divided by c has the same samples. It fails for axes made from float arrays, whose step is rounded.", "quantifier": "all relations, units, origins, programs of relation operations, laws given as arrays", "why_tests_cant": "all inputs, pairs of executions", "anchors": ["sweep_design/relation.py:Relation", "sweep_design/axis.py:get_array_axis_from_array", "sweep_design/defaults/methods.py:signal2spectrum", "sweep_design/defaults/methods.py:spectrum2signal", "sweep_design/signal.py:Signal.shift", "sweep_design/spectrum.py:Spectrum.get_reverse_filter", "sweep_design/uncalculated_sweep.py:UncalculatedSweep.__call__"]}
{"id": "C85", "title": "Superposition, and what the samples do not influence", "statement": "Which exception a program of relation operations raises, and on which axes its results lie, depends only on the axes and the numbers of samples of what it is given, never on the samples; likewise interpolation, correlation, convolution and the Fourier transforms. Programs of additions and subtractions of relations, multiplication and division by numbers, diff, integrate, select_data and shift are linear: run on a*u+b*v they give a times the run on u plus b times the run on v, as values and as objects. So are interpolation, multiplication and division by a fixed relation, convolution in either operand, correlation in its first (in its second with conjugated factors), and with real factors get_spectrum and get_signal on any axis, with any requested axis, number of samples or start. Adding a number is not linear.", "quantifier": "all relations alike in axis and length, factors, programs; for the first part every number system", "why_tests_cant": "all inputs, three executions compared", "anchors": ["sweep_design/relation.py:Relation", "sweep_design/defaults/methods.py:math_operation", "sweep_design/defaults/methods.py:correlate", "sweep_design/defaults/methods.py:convolve", "sweep_design/defaults/methods.py:signal2spectrum", "sweep_design/defaults/methods.py:spectrum2signal"]}
{"id": "C86", "title": "Rounding errors of diff, integrate, interpolation and norm", "statement": "In binary64, on forward axes and samples of ordinary size: diff and integrate succeed with one sample less, on points within one part in 2^48 of the shifted ones; each sample of diff is the difference quotient up to one part in 2^51, sample k of integrate the exact trapezoid sum up to k+3 parts in 2^52 of the sum of absolute means. Interpolation gives zero outside, the very samples at the old points, and in between the straight line up to one part in 2^49 of the larger neighbour, so it can slightly exceed both. The integral over n panels is exact up to n+2 parts in 2^51 of the sum of absolute panels, and get_norm up to n+3 parts in 2^51 of itself, in whatever order the terms are added; the norm is finite and never negative, but may be zero for samples other than zero.", "quantifier": "all binary64 axes and samples of ordinary size, all new axes, all orders of summation", "why_tests_cant": "all inputs; tests compare with tolerances that are guessed", "anchors": ["sweep_design/defaults/methods.py:differentiate", "sweep_design/defaults/methods.py:integrate", "sweep_design/defaults/methods.py:interpolate_extrapolate", "sweep_design/defaults/methods.py:one_integrate", "sweep_design/relation.py:Relation.get_norm"]}
{"id": "C87", "title": "Rounding errors of correlation and convolution", "statement": "In binary64, for relations of ordinary size with the same sample and the same span T of n intervals, wherever they start: correlate and convolve succeed on the axis from -T to T with 2n+1 points within T/2^49 of the exact ones; each sample adds up exactly the products belonging to its lag, and in whatever order they are added, with or without fused multiply-add, it is finite and the exact sum up to m parts in 2^52 of the sum of the absolute products, m their number. Whole-number samples, such as the 1 and -1 of codes, give exact results as long as the absolute products add up to at most 2^53; beyond that they do not, and different orders of addition give different results.", "quantifier": "all binary64 axes and samples of ordinary size, all orders of summation", "why_tests_cant": "all inputs; tests compare with tolerances that are guessed, and codes are compared for the few lengths tried", "anchors": ["sweep_design/defaults/methods.py:correlate", "sweep_design/defaults/methods.py:convolve", "sweep_design/relation.py:Relation.correlate", "sweep_design/relation.py:Relation.convolve"]}
{"id": "C88", "title": "Sequences of numbers as axes in binary64", "statement": "In binary64, a float sequence of n+1 >= 2 times lying near X0, X0 + 1/k, X0 + 2/k, ... with each time off by at most 1/(16 k^2), from rounding or from clock jitter, becomes the axis that starts and ends with the sequence's first and last number, has the number nearest to 1/k as its sample and n+1 points, each within twice the displacement and a rounding of the given time; Relation(xs, y) accepts exactly the y of n+1 samples. The same with a whole spacing k: the sample is k exactly, for displacements up to 1/16. A relation rebuilt from what its get_data returned is therefore the relation itself when its sample is 1/k or k and its span n samples to within these tolerances. A larger displacement, an eighth of a sample for one time of six, changes the sample and gets the sequence rejected.", "quantifier": "all float sequences near such grids, k up to 2^40, n up to 2^44", "why_tests_cant": "all inputs; one test sequence cannot show for which displacements and lengths the rounding of the sample finds the spacing", "anchors": ["sweep_design/axis.py:get_array_axis_from_array", "sweep_design/relation.py:Relation.__init__", "sweep_design/relation.py:Relation.get_data"]}
{"id": "C89", "title": "Causality and locality", "statement": "Which samples a result depends on. In every number system, binary64 included: where the first m samples of the operands are the same, so are the first m samples of operations with numbers, element-wise functions, shift and operations of relations sharing an axis, and of convolutions, and of correlations with a given relation, and the first m - 1 of diff and integrate; select_data(s, e) depends on the samples between s and e only. An interpolated value, and the result of an operation of relations on different axes, depends only on samples nearer than the spacing. Sweeps are built forwards: their first m samples are determined by axis, start phase and the first m samples of the frequency and amplitude laws, and changing a law given by a function after a time T leaves sweep and frequencies up to T as they were. diff looks ahead by one sample, and what goes through the spectrum, such as Signal.shift, depends on all samples.", "quantifier": "all relations, laws, generators, numbers of samples and times; relational over two executions", "why_tests_cant": "a property of pairs of executions with arbitrary differences after a time; tests compare single runs", "anchors": ["sweep_design/relation.py:Relation", "sweep_design/defaults/methods.py", "sweep_design/uncalculated_sweep.py:UncalculatedSweep.__call__", "sweep_design/signal.py:Signal.shift"]}
{"id": "C90", "title": "Sweeps in binary64", "statement": "In IEEE binary64, with a sine that is right up to eps and never beyond 1, and numpy's 2 pi (shown to be within half a part in 2^50): every sample of a sweep is finite, never larger in size than its amplitude, and equals amplitude times sine of the exact phase up to amplitude * (eps + angle error + 2^-53) + 2^-1075. For a frequency given by points the exact phase is 2 pi times the trapezoid sum of the reported frequencies plus the initial angle, and the number of periods is off by at most (k+3) parts in 2^52 of the sum of absolute means; for a frequency given by a function the phase is the one of the true integral, off by what the quadrature is off. The angle adds one part in 2^48 of the number of periods and one in 2^53 of the initial angle.", "quantifier": "all generators, laws, axes running forward of any size up to 2^46 points, amplitudes, frequencies and initial angles up to 2^300, sine libraries and quadratures within their bounds", "why_tests_cant": "accumulated rounding of the phase is a statement about all sweeps and lengths; tests compare a few samples with a tolerance", "anchors": ["sweep_design/uncalculated_sweep.py:UncalculatedSweep.__call__", "sweep_design/uncalculated_sweep.py:UncalculatedSweep._array_tht", "sweep_design/defaults/methods.py:integrate_function"]}
{"id": "C91", "title": "Errors in spectra and signals", "statement": "get_spectrum of two signals of the same length on one axis gives spectra no value of which differs by more than the sum of the differences of the samples; get_signal never enlarges an error: spectra off by at most e at every frequency give signals off by at most e at every time, whatever axis, count or start is asked for. So with transforms that return the right axes and samples off by at most e1 and e2, as fast Fourier transforms with rounding do, every conversion succeeds where the exact one does and a signal taken to its spectrum and back, or shifted by Signal.shift, is off by at most e1 + e2. Amplitude spectra do not enlarge errors. Phase spectra do: spectra as near as one likes may differ in phase by more than pi.", "quantifier": "all signals, spectra, axes, requested domains, shifts, and all transforms within their error bounds, which may depend on the data", "why_tests_cant": "a bound for every implementation of the transform and every signal; tests compare particular signals with a tolerance", "anchors": ["sweep_design/defaults/methods.py:signal2spectrum", "sweep_design/defaults/methods.py:spectrum2signal", "sweep_design/signal.py:Signal.shift", "sweep_design/spectrum.py:Spectrum.get_phase_spectrum"]}
{"id": "C92", "title": "Linear frequency laws in binary64", "statement": "In IEEE binary64, for times and frequencies of at most 2^300 and a duration of at least 2^-300: every frequency of f_t_linear_array and f_t_linear_function is finite and equals t*(f1-f0)/(te-ts)+f0 up to one part in 2^50 of its distance from f0 and one in 2^53 of itself; later times never have frequencies on the wrong side of earlier ones; at time 0 the frequency is exactly f0, and from then on none is on the other side of f0. With whole seconds from 0 and frequencies a whole number apart (the product at most 2^53) the last frequency is exactly f1; in general it is not, and may lie outside the band asked for: 0 to 6 Hz in 0.1 s ends above 6 Hz.", "quantifier": "all times and frequencies in binary64 within the stated range, arrays of any length", "why_tests_cant": "rounding depends on every bit of the arguments; tests compare a few laws with a tolerance", "anchors": ["sweep_design/utility_functions/f_t.py:f_t_linear_array", "sweep_design/utility_functions/f_t.py:f_t_linear_function"]}
{"id": "C93", "title": "Maximum and minimum", "statement": "max() and min() of a relation return the greatest and the least sample and no other value; complex samples are compared by real part and then by imaginary part; in binary64 with finite samples the result is one of the samples and no other is greater (smaller). They fail exactly when there are no samples, with ValueError. On an object they give the value of its present samples and change nothing. Multiplying by a number k multiplies both (exchanged when k<=0), adding a number adds it, a sum of relations sharing an axis lies between the sums of minima and maxima, a selection has no greater maximum and no smaller minimum, and neither has an interpolated relation apart from the zeros beyond the ends, which may be below the minimum.", "quantifier": "all relations and samples, all heaps; for binary64 all finite samples", "why_tests_cant": "ties, signs, empty arrays and complex order need every array of samples; the tests take one real relation each for max and min", "anchors": ["sweep_design/relation.py:Relation.max", "sweep_design/relation.py:Relation.min"]}
{"id": "C94", "title": "Filters and reverse signals", "statement": "For a real signal starting at time 0 on an exact axis, multiplying its spectrum by any filter (any values on the same frequencies) and going back to the time axis gives the circular convolution of the signal with the filter's own signal. The circular convolution of a signal that is not all 0 with its reverse signal (phase subtracted, percent > 0) is a symmetric pulse: the greatest absolute value is at time 0, is positive and below 1, and the samples at equal distances before and after time 0 are equal. This also holds for the reverse signal of the frequencies up to an end frequency, when the signal contains any of them; it fails with a start frequency above 0, because the kept frequencies are moved down to 0.", "quantifier": "all real signals of two or more samples starting at 0, all filters, percentages and end frequencies", "why_tests_cant": "the shape of the result depends on every sample and on the number of samples; the tests of reverse signals and filters check the type and the axis but no value", "anchors": ["sweep_design/signal.py:Signal.get_reverse_signal", "sweep_design/spectrum.py:Spectrum.get_reverse_filter", "sweep_design/defaults/methods.py:spectrum2signal"]}
