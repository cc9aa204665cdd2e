{
 "claims": [
  {
   "property": "C01",
   "status": "proved",
   "theorems": [
    "C01_axis_array_shape",
    "C01_zero_sample_raises",
    "C01_rounding_is_a_function"
   ],
   "note": "Exact (real) arithmetic; array as computed by numpy.linspace."
  },
  {
   "property": "C02",
   "status": "proved",
   "theorems": [
    "C02_axis_spacing"
   ],
   "note": "Exact arithmetic."
  },
  {
   "property": "C03",
   "status": "proved",
   "theorems": [
    "C03_never_stale",
    "C03_assignment_takes_effect"
   ],
   "note": "Every number system, every configuration, every history of the modelled API (in-place element writes to .array are the subject of C04)."
  },
  {
   "property": "C04",
   "status": "proved",
   "theorems": [
    "C04_assignments_independent",
    "C04_copy_after_read_shares",
    "C04_copy_before_read_does_not",
    "C04_write_through_copy_refuted"
   ],
   "note": "Every history for assignments; in-place writes to .array modelled by write_array."
  },
  {
   "property": "C05",
   "status": "proved",
   "theorems": [
    "C05_axis_from_sequence_exact",
    "C05_relation_of_sequence_iff",
    "C05_long_sequences_rejected",
    "C05_binary64_refuted"
   ],
   "note": "Exact characterisation over the reals of which sequences are accepted; binary64 witnesses by evaluation."
  },
  {
   "property": "C06",
   "status": "proved",
   "theorems": [
    "C06_actual_sample",
    "C06_actual_sample_short",
    "C06_not_most_common_refuted"
   ],
   "note": "Exact arithmetic; the witness shows the value is the smallest gap, not the most common one."
  },
  {
   "property": "C07",
   "status": "proved",
   "theorems": [
    "C07_axis_and_samples",
    "C07_sequence_and_samples",
    "C07_missing_y",
    "C07_relation_ignores_y"
   ],
   "note": "Proved for every number system (reals, rationals, binary64) and every configuration of methods."
  },
  {
   "property": "C08",
   "status": "proved",
   "theorems": [
    "C08_equal_length_or_error",
    "C08_writing_the_copies_is_harmless"
   ],
   "note": "Every reachable state."
  },
  {
   "property": "C09",
   "status": "proved",
   "theorems": [
    "C09_operands_unchanged"
   ],
   "note": "Every reachable state; holds for every call of the API that is not an assignment or an element write, including calls that raise."
  },
  {
   "property": "C10",
   "status": "proved",
   "theorems": [
    "C10_results_are_new_objects",
    "C10_assigning_to_results_spares_old_objects",
    "C10_assigning_to_old_objects_spares_results"
   ],
   "note": "Every reachable state; independence stated as freshness of the objects and as preservation under every later history of assignments through the other side."
  },
  {
   "property": "C11",
   "status": "proved",
   "theorems": [
    "C11_constructor_keeps_the_axis_object",
    "C11_assignment_reaches_exactly_the_sharers"
   ],
   "note": "Every reachable state."
  },
  {
   "property": "C12",
   "status": "proved",
   "theorems": [
    "C12_replacing_methods_spares_existing_objects",
    "C12_get_norm_captured",
    "C12_new_objects_capture_the_current_methods",
    "C12_correlate_convolve_use_the_current_method",
    "C12_equalize_uses_the_current_common_axis"
   ],
   "note": "Every reachable state and every pair of configurations; current-method theorems for correlate/convolve (custom method) and equalize."
  },
  {
   "property": "C13",
   "status": "proved",
   "theorems": [
    "C13_common_axis",
    "C13_common_axis_symmetric"
   ],
   "note": "Exact arithmetic."
  },
  {
   "property": "C14",
   "status": "proved",
   "theorems": [
    "C14_interpolation",
    "C14_value_unique",
    "C14_same_points_identity"
   ],
   "note": "Samples in any field containing the reals (real and complex); axes increasing or decreasing. scipy's nan result for complex single-point relations is not modelled."
  },
  {
   "property": "C15",
   "status": "proved",
   "theorems": [
    "C15_interpolated_range",
    "C15_interpolation_bounded"
   ],
   "note": "Exact arithmetic, real samples."
  },
  {
   "property": "C16",
   "status": "proved",
   "theorems": [
    "C16_equal_axes",
    "C16_with_number"
   ],
   "note": "Exact arithmetic for two relations; the number case holds for every number system."
  },
  {
   "property": "C17",
   "status": "proved",
   "theorems": [
    "C17_different_axes"
   ],
   "note": "Exact arithmetic, real or complex samples."
  },
  {
   "property": "C18",
   "status": "proved",
   "theorems": [
    "C18_commutative",
    "C18_associative_equal_axes",
    "C18_associative_refuted"
   ],
   "note": "Exact arithmetic; non-associativity witness in exact rationals."
  },
  {
   "property": "C19",
   "status": "proved",
   "theorems": [
    "C19_select"
   ],
   "note": "Exact arithmetic, every axis."
  },
  {
   "property": "C20",
   "status": "proved",
   "theorems": [
    "C20_nearest_sample"
   ],
   "note": "Exact arithmetic."
  },
  {
   "property": "C21",
   "status": "proved",
   "theorems": [
    "C21_shift",
    "C21_shift_composes",
    "C21_shift_inverse",
    "C21_binary64_refuted"
   ],
   "note": "Exact arithmetic; binary64 witnesses by evaluation."
  },
  {
   "property": "C22",
   "status": "proved",
   "theorems": [
    "C22_diff",
    "C22_integrate",
    "C22_tie_fails",
    "C22_single_point_fails"
   ],
   "note": "Exact arithmetic; exact characterisation of failure."
  },
  {
   "property": "C23",
   "status": "proved",
   "theorems": [
    "C23_integrate_then_diff",
    "C23_diff_then_integrate"
   ],
   "note": "Exact arithmetic."
  },
  {
   "property": "C24",
   "status": "proved",
   "theorems": [
    "C24_norm_value",
    "C24_norm_nonnegative",
    "C24_norm_zero",
    "C24_norm_homogeneous",
    "C24_complex_refuted"
   ],
   "note": "Exact arithmetic; complex witness for the failure of non-negativity."
  },
  {
   "property": "C25",
   "status": "proved",
   "theorems": [
    "C25_correlate",
    "C25_correlate_equal_axes",
    "C25_correlate_mirror"
   ],
   "note": "Exact arithmetic, value level of Relation.correlate (not the Signal override, see C28)."
  },
  {
   "property": "C26",
   "status": "proved",
   "theorems": [
    "C26_autocorrelation_real",
    "C26_autocorrelation_complex"
   ],
   "note": "Exact arithmetic, real and complex samples."
  },
  {
   "property": "C27",
   "status": "proved",
   "theorems": [
    "C27_convolve_commutes",
    "C27_convolve",
    "C27_impulse_moves_axis"
   ],
   "note": "Exact arithmetic."
  },
  {
   "property": "C28",
   "status": "proved",
   "theorems": [
    "C28_equal_axes",
    "C28_start_zero",
    "C28_sums",
    "C28_other_start_fails",
    "C28_every_other_start_fails_refuted"
   ],
   "note": "Exact arithmetic, default configuration; value level (object level: C62)."
  },
  {
   "property": "C29",
   "status": "proved",
   "theorems": [
    "C29_result_classes",
    "C29_signal_converts_spectrum_operand",
    "C29_spectrum_converts_signal_operand",
    "C29_spectrum_rejects_non_numbers",
    "C29_others_raise_type_error",
    "C29_correlate_convolve_on_non_relations"
   ],
   "note": "Every reachable state; the error for unsupported operands is stated for the default math_operation."
  },
  {
   "property": "C30",
   "status": "proved",
   "theorems": [
    "C30_round_trip",
    "C30_count",
    "C30_no_axis",
    "C30_no_axis_odd_refuted",
    "C30_one_sample"
   ],
   "note": "Exact arithmetic, default configuration, real samples, every length >= 2; a single sample raises ValueError."
  },
  {
   "property": "C31",
   "status": "proved",
   "theorems": [
    "C31_rotation",
    "C31_original_iff_periodic",
    "C31_not_identity_refuted",
    "C31_zero_fill",
    "C31_late_spectrum",
    "C31_late_start_refuted"
   ],
   "note": "Exact arithmetic; identity characterised as 2p-periodicity; zero fill holds on every axis; late start refuted by a two-point family of signals."
  },
  {
   "property": "C32",
   "status": "proved",
   "theorems": [
    "C32_axis",
    "C32_int",
    "C32_none"
   ],
   "note": "Exact arithmetic; exact condition for the integer argument; without argument it always succeeds for >= 2 samples."
  },
  {
   "property": "C33",
   "status": "proved",
   "theorems": [
    "C33_fourier",
    "C33_linear"
   ],
   "note": "Exact arithmetic; closed form of the spectrum (discrete Fourier transform) and linearity."
  },
  {
   "property": "C34",
   "status": "proved",
   "theorems": [
    "C34_get_spectrum_returns_the_same_object",
    "C34_get_signal_returns_the_same_object",
    "C34_spectrum_remembers_its_signal",
    "C34_signal_remembers_its_spectrum",
    "C34_explicit_time_makes_and_remembers_a_new_signal",
    "C34_explicit_frequency_makes_and_remembers_a_new_spectrum"
   ],
   "note": "Every reachable state, every later history that does not convert the same object with an explicit domain."
  },
  {
   "property": "C35",
   "status": "proved",
   "theorems": [
    "C35_shift",
    "C35_shift_zero",
    "C35_shift_negative_start",
    "C35_axis_kept"
   ],
   "note": "Exact arithmetic, default configuration; also with negative start (extra rotation) and: every shift keeps the axis."
  },
  {
   "property": "C36",
   "status": "proved",
   "theorems": [
    "C36_rebuild",
    "C36_amplitude"
   ],
   "note": "Exact arithmetic, every spectrum with a consistent axis."
  },
  {
   "property": "C37",
   "status": "proved",
   "theorems": [
    "C37_phase",
    "C37_angle"
   ],
   "note": "Exact arithmetic; np.unwrap modelled from numpy's definition."
  },
  {
   "property": "C38",
   "status": "proved",
   "theorems": [
    "C38_add_sub"
   ],
   "note": "Exact arithmetic, spectra on equal axes."
  },
  {
   "property": "C39",
   "status": "proved",
   "theorems": [
    "C39_whitens",
    "C39_keeps_phase"
   ],
   "note": "Exact arithmetic, f_start = f_end = None, at least two points."
  },
  {
   "property": "C40",
   "status": "proved",
   "theorems": [
    "C40_call",
    "C40_samples",
    "C40_bounded",
    "C40_start",
    "C40_succeeds"
   ],
   "note": "Exact description of every successful call for every arithmetic and configuration; bounds and starting value at the reals; success conditions for function and array laws. sin is the real sine."
  },
  {
   "property": "C41",
   "status": "proved",
   "theorems": [
    "C41_array_law",
    "C41_function_law",
    "C41_linear_law",
    "C41_default_laws"
   ],
   "note": "Real numbers; scipy's quad assumed to return the integral of integrable functions (explicit hypothesis quad_exact)."
  },
  {
   "property": "C42",
   "status": "proved",
   "theorems": [
    "C42_call_without_time",
    "C42_array_law_without_time",
    "C42_amplitude_array_without_time"
   ],
   "note": "Every arithmetic, configuration and law."
  },
  {
   "property": "C43",
   "status": "proved",
   "theorems": [
    "C43_stretched_from_zero",
    "C43_late_start_lost",
    "C43_general",
    "C43_own_axis_lost"
   ],
   "note": "Real times, any sample field; increasing law times. The general formula covers any first time."
  },
  {
   "property": "C44",
   "status": "proved",
   "theorems": [
    "C44_helper_axis",
    "C44_resampled",
    "C44_same_length_kept"
   ],
   "note": "Real times, any sample field, at least two law samples, start <> end."
  },
  {
   "property": "C45",
   "status": "proved",
   "theorems": [
    "C45_axis_of_a_called_sweep",
    "C45_calls_without_time_share",
    "C45_assignment_reaches_all_of_them"
   ],
   "note": "Every reachable state."
  },
  {
   "property": "C46",
   "status": "proved",
   "theorems": [
    "C46_same_norm",
    "C46_when",
    "C46_not_normalised"
   ],
   "note": "Real samples, default relation methods; the a-priori signal may carry any methods. Also the exact failure cases (zero or negative norms)."
  },
  {
   "property": "C47",
   "status": "proved",
   "theorems": [
    "C47_estimates",
    "C47_laws_forgotten"
   ],
   "note": "Every arithmetic and configuration; the estimation methods are arbitrary."
  },
  {
   "property": "C48",
   "status": "proved",
   "theorems": [
    "C48_analytic",
    "C48_unique",
    "C48_total",
    "C48_envelope",
    "C48_frequency",
    "C48_nyquist",
    "C48_harmonic",
    "C48_constant",
    "C48_scaling"
   ],
   "note": "scipy.signal.hilbert is modelled from its documented weights in exact arithmetic; np.unwrap and np.angle as in C37."
  },
  {
   "property": "C49",
   "status": "proved",
   "theorems": [
    "C49_image_kept",
    "C49_axes",
    "C49_short_sweep",
    "C49_long_sweep_refuted"
   ],
   "note": "Segment arithmetic of scipy.signal.spectrogram is modelled from its documentation; the image is an arbitrary function of its shape. Witness computed in exact rationals."
  },
  {
   "property": "C50",
   "status": "proved",
   "theorems": [
    "C50_array",
    "C50_function",
    "C50_ends",
    "C50_wanted_ends_refuted"
   ],
   "note": "Exact formula for every time array with different first and last time; the natural claim (end frequencies met) is refuted for a time not starting at 0."
  },
  {
   "property": "C51",
   "status": "proved",
   "theorems": [
    "C51_bounds",
    "C51_none",
    "C51_left_right",
    "C51_ends"
   ],
   "note": "All time arrays, tapers and locations."
  },
  {
   "property": "C52",
   "status": "proved",
   "theorems": [
    "C52_rows",
    "C52_no_rows",
    "C52_factor",
    "C52_monotone_continuous",
    "C52_never_increases_refuted"
   ],
   "note": "Coefficient 1. The natural claim that clipping never increases the force is refuted."
  },
  {
   "property": "C53",
   "status": "proved",
   "theorems": [
    "C53_short_segment",
    "C53_law",
    "C53_in_band",
    "C53_rounding_refuted"
   ],
   "note": "random.shuffle is any function returning a permutation. Exact formula for the law; leaving the band by rounding is a refuted theorem."
  },
  {
   "property": "C54",
   "status": "proved",
   "theorems": [
    "C54_length",
    "C54_full",
    "C54_raises",
    "C54_logarithm"
   ],
   "note": "For every computed logarithm within one part in 2^40 of the exact one (rounded_log); scipy's taps table is an arbitrary function."
  },
  {
   "property": "C55",
   "status": "proved",
   "theorems": [
    "C55_size",
    "C55_start",
    "C55_full",
    "C55_start_signs",
    "C55_start_array",
    "C55_time_array"
   ],
   "note": "For every computed logarithm within one part in 2^40 of the exact one (rounded_log); scipy's taps table and the random bits are arbitrary functions."
  },
  {
   "property": "C56",
   "status": "proved",
   "theorems": [
    "C56_code",
    "C56_code_empty",
    "C56_relation",
    "C56_one_period"
   ],
   "note": "Values over any VLaws instance (real or complex); exact axes whose end is a whole number of samples."
  },
  {
   "property": "C57",
   "status": "proved",
   "theorems": [
    "C57_relation",
    "C57_overlap",
    "C57_empty_code",
    "C57_signal_axis",
    "C57_signal_superposed",
    "C57_opposite_segments_refuted"
   ],
   "note": "Relation base: exact axes whose end is a whole number of samples. Signal base: any axis for the axis claim, real samples from 0 for the values."
  },
  {
   "property": "C58",
   "status": "proved",
   "theorems": [
    "C58_simple",
    "C58_proportional",
    "C58_dwell"
   ],
   "note": "Value level on contents of spectra (complex samples)."
  },
  {
   "property": "C59",
   "status": "proved",
   "theorems": [
    "C59_dwell_raises",
    "C59_no_cut_off"
   ],
   "note": "Value level on contents of spectra (complex samples)."
  },
  {
   "property": "C60",
   "status": "proved",
   "theorems": [
    "C60_passes",
    "C60_result",
    "C60_unlimited_refuted",
    "C60_window"
   ],
   "note": "The decomposition is an arbitrary function; the loop is watched for any number of passes."
  },
  {
   "property": "C61",
   "status": "proved",
   "theorems": [
    "C61_constructors_by_value",
    "C61_methods_by_value",
    "C61_operators_by_value",
    "C61_correlate_convolve_by_value"
   ],
   "note": "Refinement between the object-level and value-level models; class Sweep excluded (its constructor recomputes laws)."
  },
  {
   "property": "C62",
   "status": "proved",
   "theorems": [
    "C62_get_spectrum",
    "C62_get_signal",
    "C62_signal_spectra",
    "C62_amplitude_phase",
    "C62_from_amp_phase",
    "C62_signal_methods",
    "C62_correlate_convolve",
    "C62_default_methods_keep_axis"
   ],
   "note": "Every number system and sample type, every reachable state. Methods with an axis argument assume conversion methods that return the axis they are given (proved for the defaults) and a readable axis; correlate/convolve for operands of class Signal whose spectra can be computed."
  },
  {
   "property": "C63",
   "status": "proved",
   "theorems": [
    "C63_tapered",
    "C63_array",
    "C63_design"
   ],
   "note": "Exact arithmetic; the design statement needs a time axis whose span/sample is not half-way between integers and methods of frequency and amplitude estimation that do not raise."
  },
  {
   "property": "C64",
   "status": "proved",
   "theorems": [
    "C64_chirp",
    "C64_time_array"
   ],
   "note": "Exact arithmetic; a later start is covered by C43 and C50 (the law is then off)."
  },
  {
   "property": "C65",
   "status": "proved",
   "theorems": [
    "C65_in_band",
    "C65_stretched",
    "C65_array"
   ],
   "note": "Exact arithmetic; the generator of permutations is an arbitrary function."
  },
  {
   "property": "C66",
   "status": "proved",
   "theorems": [
    "C66_relation",
    "C66_generator",
    "C66_default_integration"
   ],
   "note": "Exact arithmetic; quadrature is an oracle that agrees on real functions. scipy's nan result for complex single-point relations is not modelled."
  },
  {
   "property": "C67",
   "status": "proved",
   "theorems": [
    "C67_product",
    "C67_start_zero",
    "C67_divided",
    "C67_is_convolve_refuted"
   ],
   "note": "Exact arithmetic, exact axes; complex spectra, real samples."
  },
  {
   "property": "C68",
   "status": "proved",
   "theorems": [
    "C68_energy",
    "C68_zero"
   ],
   "note": "Exact arithmetic, exact axes; complex spectra, real samples."
  },
  {
   "property": "C69",
   "status": "proved",
   "theorems": [
    "C69_code",
    "C69_relation",
    "C69_no_zero_run"
   ],
   "note": "scipy's shift register is modelled; its table of taps is an arbitrary function."
  },
  {
   "property": "C70",
   "status": "proved",
   "theorems": [
    "C70_code",
    "C70_relation",
    "C70_rotations"
   ],
   "note": "Taps are assumed to belong to a maximal length sequence (checked for the taps of 2 to 8 bits as examples)."
  },
  {
   "property": "C71",
   "status": "proved",
   "theorems": [
    "C71_convolution",
    "C71_long_code",
    "C71_in_place",
    "C71_one_element",
    "C71_no_element",
    "C71_starts_at_zero_refuted"
   ],
   "note": "Exact arithmetic, exact axes from 0; real samples. C71_starts_at_zero_refuted: the convolved sweep does not begin at time 0."
  },
  {
   "property": "C72",
   "status": "proved",
   "theorems": [
    "C72_displacements",
    "C72_suppression"
   ],
   "note": "Exact arithmetic; the decomposition (PyEMD) is an arbitrary function that keeps the length. The window is that of C60_window."
  },
  {
   "property": "C73",
   "status": "proved",
   "theorems": [
    "C73_plain",
    "C73_window",
    "C73_window_rejected",
    "C73_alone",
    "C73_subtracts_last_refuted"
   ],
   "note": "Exact arithmetic; the decomposition (PyEMD) is an arbitrary function that keeps the length. C73_subtracts_last_refuted contradicts the docstring."
  },
  {
   "property": "C74",
   "status": "proved",
   "theorems": [
    "C74_programs_by_value",
    "C74_any_methods",
    "C74_other_names",
    "C74_augmented_is_new",
    "C74_start",
    "C74_custom_axis_refuted"
   ],
   "note": "Refinement between programs run on heap objects and on values, by induction on programs; share_blind is discharged for the default methods at the reals and shown necessary (C74_custom_axis_refuted). Sweep objects, correlate/convolve and interpolate_extrapolate with an explicit axis are outside the program language; shift of signals (through the spectrum) is excluded by hypothesis."
  },
  {
   "property": "C75",
   "status": "proved",
   "theorems": [
    "C75_length",
    "C75_never_false",
    "C75_length_of_object",
    "C75_iteration_goes_on",
    "C75_item",
    "C75_items_settle",
    "C75_whole_axis",
    "C75_longer_axis",
    "C75_reversed",
    "C75_keys"
   ],
   "note": "Python's legacy sequence iteration (call r[0], r[1], ... until IndexError) is modelled as a step function; the protocol itself is trusted. Complex indices are not modelled."
  },
  {
   "property": "C76",
   "status": "proved",
   "theorems": [
    "C76_new_generator",
    "C76_call",
    "C76_apriori_call",
    "C76_generator_kept",
    "C76_axis_shared",
    "C76_again",
    "C76_same_norm"
   ],
   "note": "Refinement of the heap-level calls by the value-level ones. The a-priori signal object is not itself a Sweep (its norm would build a further Sweep). The attribute a_prior_signal and the a-priori constructor on objects are not represented on the heap."
  },
  {
   "property": "C77",
   "status": "proved",
   "theorems": [
    "C77_operations",
    "C77_size",
    "C77_array",
    "C77_distinct",
    "C77_everyday"
   ],
   "note": "Binary64 by SpecFloat (standard library); Flocq relates it to real rounding. numpy.linspace is modelled by its formula. Hypotheses f64_axis / f64_tame (FloatSpec.v) exclude overflow, subnormal spacing and near-ties, where C05/C21 *_refuted theorems show failures."
  },
  {
   "property": "C78",
   "status": "proved",
   "theorems": [
    "C78_accepted",
    "C78_nearest_sample",
    "C78_select",
    "C78_shift",
    "C78_shift_inverse_refuted",
    "C78_same_points_identity",
    "C78_equal_axes",
    "C78_commutative",
    "C78_associative_refuted"
   ],
   "note": "As C77; interp1d is modelled as numpy.interp, to which scipy delegates for real 1-d data (exact at the points). The inverse of shift and associativity are refuted by witnesses."
  },
  {
   "property": "C79",
   "status": "proved",
   "theorems": [
    "C79_axis_text",
    "C79_relation_text",
    "C79_changes_nothing",
    "C79_axis_values",
    "C79_zero_sample",
    "C79_every_relation_prints_refuted"
   ],
   "note": "The text itself (formatting of numbers) is not modelled, only the values formatted and their order of evaluation."
  },
  {
   "property": "C80",
   "status": "proved",
   "theorems": [
    "C80_components",
    "C80_independent",
    "C80_wrong_length",
    "C80_decomposition_fails",
    "C80_sum"
   ],
   "note": "PyEMD is a universally quantified function of the samples; CEEMDAN's noise is part of it."
  },
  {
   "property": "C81",
   "status": "proved",
   "theorems": [
    "C81_constructor",
    "C81_changes_nothing",
    "C81_sources",
    "C81_which_object",
    "C81_target_follows",
    "C81_time_irrelevant",
    "C81_relation_as_time",
    "C81_sequence_is_signal",
    "C81_signal_or_spectrum",
    "C81_odd_signal_or_spectrum_refuted"
   ],
   "note": "ftat_method is any function of the content of the spectrum it is given. A relation passed as time is not modelled on objects (numpy.array of a relation iterates it, C75). C81_odd_signal_or_spectrum_refuted: a spectrum of an odd number of samples stands for a signal with one sample less and a larger spacing."
  },
  {
   "property": "C82",
   "status": "proved",
   "theorems": [
    "C82_start_times",
    "C82_echoes",
    "C82_delay",
    "C82_peak_real",
    "C82_peak_complex",
    "C82_bound_real",
    "C82_bound_complex",
    "C82_signal",
    "C82_signal_wraps_refuted"
   ],
   "note": "Signals: for exact axes from 0 (C28 shows correlate succeeds there); the wrapped case is a refutation witness. Exact real arithmetic."
  },
  {
   "property": "C83",
   "status": "proved",
   "theorems": [
    "C83_interpolation",
    "C83_diff",
    "C83_integrate",
    "C83_norm",
    "C83_sweep",
    "C83_interpolation_attained",
    "C83_diff_attained",
    "C83_integrate_attained"
   ],
   "note": "Exact arithmetic, real samples; diff, integrate, get_norm and sweeps on axes whose length is a whole number of steps, sweeps from time 0."
  },
  {
   "property": "C84",
   "status": "proved",
   "theorems": [
    "C84_operations",
    "C84_observations",
    "C84_lagged",
    "C84_programs",
    "C84_origin",
    "C84_objects",
    "C84_spectra",
    "C84_signals",
    "C84_sweeps",
    "C84_sequences_refuted"
   ],
   "note": "Default methods, exact arithmetic. Sweeps: frequency law an array, amplitude law an array or the default, last time not 0, and the spectrogram method raises in both units or in neither."
  },
  {
   "property": "C85",
   "status": "proved",
   "theorems": [
    "C85_shape",
    "C85_shape_lagged",
    "C85_shape_spectra",
    "C85_operations",
    "C85_programs",
    "C85_objects",
    "C85_lagged",
    "C85_spectra",
    "C85_numbers_refuted"
   ],
   "note": "Default methods; linearity in exact arithmetic."
  },
  {
   "property": "C86",
   "status": "proved",
   "theorems": [
    "C86_diff",
    "C86_integrate",
    "C86_interpolation",
    "C86_new_axes",
    "C86_between_neighbours_refuted",
    "C86_integral",
    "C86_one_sum_refuted",
    "C86_norm",
    "C86_norm_definite_refuted"
   ],
   "note": "Sample between 2^-300 and 2^300, samples of at most 2^300, start and end within 2^46 samples of zero; real samples."
  },
  {
   "property": "C87",
   "status": "proved",
   "theorems": [
    "C87_correlate",
    "C87_convolve",
    "C87_whole",
    "C87_codes",
    "C87_large_whole_refuted",
    "C87_one_value_refuted"
   ],
   "note": "Sample between 2^-300 and 2^300, samples of at most 2^300, at least two and at most 2^45 points, span within an eighth of a sample of n samples; real samples; equal spans, so nothing is interpolated."
  },
  {
   "property": "C88",
   "status": "proved",
   "theorems": [
    "C88_reciprocal",
    "C88_whole",
    "C88_own_data",
    "C88_jitter_refuted"
   ],
   "note": "Float sequences with increasing times, the start at most 2^44 samples from zero; other spacings are those of C05, C05_binary64_refuted. Real samples."
  },
  {
   "property": "C89",
   "status": "proved",
   "theorems": [
    "C89_samplewise",
    "C89_diff_integrate",
    "C89_window",
    "C89_arrays",
    "C89_lagged",
    "C89_interpolation",
    "C89_across_axes",
    "C89_sweep_points",
    "C89_sweep_function",
    "C89_diff_ahead_refuted",
    "C89_signal_shift_refuted"
   ],
   "note": "Interpolation, operations across axes, convolution of relations and function laws over the exact reals, the rest for every arithmetic; default methods; convolutions and correlations of relations on equal axes. For function laws the quadrature may use the function between its bounds only."
  },
  {
   "property": "C90",
   "status": "proved",
   "theorems": [
    "C90_points",
    "C90_function",
    "C90_two_pi"
   ],
   "note": "Default methods. The sine, the quadrature and their error bounds are hypotheses; a sine meeting them is exhibited, and numpy's constant for 2 pi is proved to meet its bound. Together with C83, which bounds the distance between trapezoid phase and true phase."
  },
  {
   "property": "C91",
   "status": "proved",
   "theorems": [
    "C91_get_spectrum",
    "C91_get_signal",
    "C91_there_and_back",
    "C91_round_trip",
    "C91_shift",
    "C91_amplitude",
    "C91_phase_refuted"
   ],
   "note": "Element-wise functions (product with a phasor, amplitude, phase) are exact; the transforms' error bounds are hypotheses."
  },
  {
   "property": "C92",
   "status": "proved",
   "theorems": [
    "C92_array",
    "C92_function",
    "C92_monotone",
    "C92_first",
    "C92_last_whole",
    "C92_last_refuted"
   ],
   "note": "Times, frequencies and results are binary64 data; every operation is the correctly rounded one."
  },
  {
   "property": "C93",
   "status": "proved",
   "theorems": [
    "C93_real",
    "C93_complex",
    "C93_binary64",
    "C93_no_samples",
    "C93_objects",
    "C93_scale",
    "C93_offset",
    "C93_sum",
    "C93_select",
    "C93_interpolate",
    "C93_interpolate_min_refuted"
   ],
   "note": "An array containing nan, for which numpy returns nan, is not covered."
  },
  {
   "property": "C94",
   "status": "proved",
   "theorems": [
    "C94_filter",
    "C94_pulse",
    "C94_pulse_up_to",
    "C94_pulse_from_refuted"
   ],
   "note": "Real arithmetic; signals starting at time 0 on an exact axis."
  }
 ]
}