# Formal model of sweep-design (Rocq / Coq 8.16.1)

This file was written before the proofs and is kept current. `properties.jsonl` lists the
properties, `MANIFEST.json` maps them to theorem names, `rocq/theories/` holds the model and proofs.

## 1. Shape of the model

* **Number systems.** Python code computes in binary64. The model is written once, over a record
  `Arith` of operations (`Num.v`), and instantiated at
  - `RA` : the real numbers of Coq's standard library (exact arithmetic; numerical theorems),
  - `QA` : rationals (executable exact arithmetic; sanity runs),
  - `FA` : IEEE binary64 through the stdlib's pure-Gallina `SpecFloat` (executable; bit-exact for
    the Python/numpy float operations used; float-specific refutations, and the rounding-error
    theorems of C77-C78 and C86-C88, which use Flocq's proofs that these operations round correctly).
  Theorems that do not depend on arithmetic laws (aliasing, caching, dispatch, error behaviour) are
  proved for *every* `Arith`, so in particular for binary64.
* **Sample values** (`y`) are elements of a record `Vals A` (real values, complex values).
* **Exceptions are values**: `result T := Ok T | Err exn` with one constructor per exception class.
* **Two levels.** The *value level* models each function as a pure function on
  `(start,end,sample)` axes and lists of samples. The *heap level* models Python objects (axis
  objects with their caches, numpy arrays, relation objects with their `_spectrum`/`_signal` links and the
  Config functions captured at construction), in a state-and-exception monad; it is proved to refine the value
  level and carries the aliasing, caching and history properties, which are proved by induction over
  arbitrary lists of API calls.
* **Configuration.** `Config` is a class whose functions users may replace. The heap level is
  parametric in a record `config` of such functions; the value level supplies the defaults.
* **Libraries.** numpy/scipy/PyEMD are not part of the repo. The functions used are modelled from
  their documented behaviour in `Numpy.v`/`Fourier.v` (linspace, diff, cumulative trapezoid, interp1d, convolve, correlate,
  unwrap, rfft/irfft/rfftfreq, hilbert, tukey/hann, max_len_seq, ...). `quad`, EMD, `random.shuffle`,
  `random.randint` and `scipy.signal.spectrogram` are universally quantified functions whose assumed
  contract is an explicit hypothesis of each theorem using them.

## 2. Files

| file | contents |
|---|---|
| `Num.v` | `result`, exceptions, `Arith`, `Vals`, instances `RA`, `QA`, `FA`, real and complex values |
| `Numpy.v` | numpy/scipy array primitives (generic) |
| `AxisModel.v` | `sweep_design/axis.py` |
| `RelModel.v` | `relation.py`, `defaults/methods.py` (generic part) |
| `HeapModel.v` | object level of `axis.py`, `relation.py`, `signal.py`, `spectrum.py`, `uncalculated_sweep.py` |
| `FourierModel.v` | DFT, `signal2spectrum`, `spectrum2signal`, `signal.py`, `spectrum.py` over R/C |
| `FourierSpec.v`, `HeapSpec.v`, `SignalSpec.v` | specification vocabulary for spectra, for objects, for remembered conversions |
| `SweepModel.v` | values computed by `sweep_methods.py`, `sweep.py`, `uncalculated_sweep.py` |
| `SweepSpec.v`, `PreparedSpec.v` | specification vocabulary for sweep generators, for prepared sweeps and utility functions |
| `HilbertModel.v`, `HilbertSpec.v` | default estimates of frequency and amplitude (`get_f_t`, `get_a_t`) and what an analytic signal is |
| `ProgModel.v`, `ProgSpec.v` | programs over names: operators, methods, (augmented) assignment (`relation.py` 425-495), loops, on objects and on values |
| `SeqModel.v` | `__len__`, `__getitem__` of `relation.py` under Python's sequence protocol |
| `PreparedModel.v` | `prepared_sweeps/*`, `utility_functions/*` |
| `UtilModel.v` | values printed by `__str__`; `utility_functions/emd_analyze.py` on objects |
| `AprioriModel.v`, `AprioriSpec.v` | `ApriorUncalculatedSweep.__init__`, `get_info_from_a_prior_data` on objects |
| `ExtremeModel.v` | `max`, `min` on objects (C93) |
| `DeconvSpec.v` | symmetric pulse (C94); no code |
| `ExtremeSpec.v` | greatest and least elements, order of complex numbers (C93); no code |
| `FloatLawSpec.v` | straight lines, laws of ordinary size (C92); no code |
| `InexactSpec.v` | samples off by a bounded error, inexact transforms (C91); no code |
| `FloatSweepSpec.v` | sine and 2 pi of a binary64 library, error of an angle and of a sample (C90); no code |
| `DelaySpec.v` | specification of delays and echoes (C82); no code |
| `TimeSpec.v` | relations, programs, sweeps in another unit and origin of time (C84); no code |
| `LinSpec.v` | relations alike but for samples, sample-wise combinations, linear programs (C85); no code |
| `CausalSpec.v` | lists with the same first elements, relations the same at chosen times, laws by element, local quadrature (C89); no code |
| `CalcSpec.v` | samples and axes of ordinary size, sums in any order, panels (C86), sums of products (C87), number sequences as axes (C88); no code |
| `AccuracySpec.v` | smooth functions and their samples (C83); no code |
| `TransferSpec.v` | samples seen through a change of number type (real samples stored as complex) |
| `Spec.v` | small independent specification vocabulary |
| `*Lemmas.v` | proofs |
| `Props*.v` | property theorems only: statement, `exact lemma`, `Print Assumptions`, non-vacuity examples |

## 3. Plan per property

C01-C02, C05-C06 axis numerics: value level over R, lemmas on half-even rounding and linspace.
C03-C04, C08-C12, C34, C45 heap level, invariants by induction over API histories, frame and freshness lemmas.
C07 generic value level. C13-C27 value level over R (C13, C16, C18 commutativity partly generic).
C28 value level with Signal.shift through the DFT model. C29 generic, by cases over operand kinds.
C30-C33, C35 DFT inversion/shift/linearity proved from orthogonality of roots of unity.
C36-C39 complex arithmetic, `unwrap` by induction.
C40-C44, C46-C47 value level of the sweep generator; `quad` is an oracle with an exactness hypothesis where needed.
C48 analytic signal by DFT inversion. C49 `_get_spectrogram` with the scipy output universally quantified.
C63-C65 whole prepared sweeps, composed from C41-C44, C50-C53, C58 by the generator lemmas; C66 a morphism of value types, generic section `Morph`.
C67-C68 the convolution theorem and Parseval's identity from the sums behind rfft (`FourierLemmas5.v`).
C69-C70 the shift register as an injective linear map on bit vectors (`MseqLemmas.v`); balance by counting the orbit, autocorrelation by linearity.
C71 composition of the exact forms of equalize, convolve, selection and shift on an axis from 0 (`PreparedLemmas9.v`).
C72-C73 values of the double integral and of repeated clipping, threaded through the passes (`PreparedLemmas10.v`).
C74 simulation of programs over names on the heap by programs over values, by induction on programs (`ProgModel.v`, `ProgLemmas.v`).
C75 induction on the steps of an iteration and least-index search (`SeqLemmas.v`).
C50-C60 value level, real analysis on sin/cos bounds, list inductions, arithmetic on `Z.log2_up`.
C76 refinement of the generator calls on the heap by the calls by value, with a contents specification of `Sweep.__init__` (`CallLemmas.v`).
C77 rounding-error analysis in binary64, on Flocq's correctness theorems for the operations of `SpecFloat` (`FloatLemmas.v`, `FloatLemmas2.v`).
C78 error propagation through select, shift and indexing; strict monotonicity gives exact interpolation on the own axis (`FloatLemmas3.v`, `FloatLemmas4.v`).
C79-C80 histories of calls that assign nothing keep every view (`UtilLemmas.v`); components by induction on their list.
C81 refinement of the a-priori constructor by `ap_new`, from the outcome theorems of C62 and the constructors by value (`AprioriLemmas.v`).
C82 linearity of `corr_at` in its first argument and induction on the list of echoes; strict peak by descent along the lag; Cauchy-Schwarz by induction (`DelayLemmas.v`).
C83 chord, trapezoid and midpoint errors from convexity of f + M t^2/2 (`AccuracyLemmas.v`), summed by induction along the axis.
C84 each operation commutes with the affine map (`TimeLemmas.v`, `TimeLemmas2.v`); programs by induction, objects through C74.
C85 each operation commutes with sample-wise combination (`LinLemmas.v`, `LinLemmas2.v`); programs by induction, objects through C74.
C86 forward error analysis operation by operation (`FloatLemmas5.v`-`FloatLemmas7.v`), sums over any tree of additions by induction.
C87 induction over the tree of products and additions (`FloatLemmas8.v`), pairs of factors identified with the exact sums of C25-C26.
C88 error analysis of the differences, of the reciprocal and of its rounding (`FloatLemmas9.v`), then the axis theorems of C77.
C89 positions of equal elements followed through the array functions (`CausalLemmas.v`), the uniqueness of C14 for interpolation, the characterisation of C40 for sweeps.
C90 standard error analysis of the angle (`FloatLemmas10.v`) on top of C86's integrals and the characterisation of C40; pi by Machin's series of the standard library summed in rational numbers.
C91 triangle inequalities through the sums of the transforms and the array functions around them (`InexactLemmas.v`); the phase example lies on both sides of the negative real axis.
C92 relative errors of the five operations and monotonicity of rounding (`FloatLemmas11.v`); whole numbers make every step exact.
C93 a fold with a total order returns a greatest element (`ExtremeLemmas.v`); binary64 by the values of the data.
C94 the inverse transform is linear and periodic, so a product of spectra is a circular convolution for any filter; real non-negative gains below 1 give a symmetric pulse (`DeconvLemmas.v`).

## 4. What is not modelled

Logging; the formatting of numbers by `__str__`; typing; complex-valued axes; integer dtype overflow of `y` and the
ValueError of integer arrays raised to negative integers; `y` with more than one dimension; `NotImplemented` returned to
Python for reflected operations with foreign types; numpy NaN payloads and the nan that `max`/`min` return for arrays containing nan; the algorithm of EMD/CEEMDAN (any function from
samples to a list of components); the C library's logarithm in `code_m_sequence.py` (any function within one part in 2^40,
`rounded_log`).

Over the exact reals and complexes (`RA`, `CV`) division by zero has an unspecified finite value where numpy would give inf
or nan, and the same holds for powers outside their domain; theorems that need it assume divisors other than zero.
`interp1d` on a single complex sample gives nan in scipy and the sample itself here (C14, C66). numpy sums pairwise
where the model sums from left to right; this makes no difference over exact numbers, and C86-C87 hold for every order. Rounding errors inside the FFT and
the adaptive quadrature are not modelled: numerical theorems are over exact reals, and C90 and C91 take bounds on these errors as hypotheses; binary64 is covered by
the generic theorems, by C77-C78, C86-C88, C90 and C92 for axes, relations, their calculus, correlations, sweeps and linear frequency laws, and by the explicit float refutations. C83 bounds the errors of the numerical methods
themselves, in exact arithmetic.

## 5. Trusted base

Coq kernel (8.16.1); the axioms printed by `Print Assumptions` under each theorem (only those of
the standard library's real numbers and classical/extensionality facts, listed per theorem at the end of this
file); the reading of the Python code and of numpy/scipy behaviour recorded in comments.

<!-- axioms -->
### Axioms per theorem (generated by tools/gen_axioms.py)

No axioms ("Closed under the global context") - 118 theorems:
`C61_constructors_by_value`, `C81_constructor`, `C81_changes_nothing`, `C81_sources`, `C81_which_object`, `C81_time_irrelevant`, `C81_relation_as_time`, `C81_sequence_is_signal`, `C06_not_most_common_refuted`, `C05_binary64_refuted`, `C76_new_generator`, `C76_call`, `C76_apriori_call`, `C76_generator_kept`, `C76_axis_shared`, `C76_again`, `C89_samplewise`, `C89_diff_integrate`, `C89_window`, `C89_arrays`, `C89_sweep_points`, `C89_diff_ahead_refuted`, `C93_no_samples`, `C93_objects`, `C93_interpolate_min_refuted`, `C78_shift_inverse_refuted`, `C78_associative_refuted`, `C86_between_neighbours_refuted`, `C86_one_sum_refuted`, `C86_norm_definite_refuted`, `C92_last_refuted`, `C03_never_stale`, `C03_assignment_takes_effect`, `C04_assignments_independent`, `C04_copy_after_read_shares`, `C04_copy_before_read_does_not`, `C04_write_through_copy_refuted`, `C08_equal_length_or_error`, `C08_writing_the_copies_is_harmless`, `C09_operands_unchanged`, `C10_results_are_new_objects`, `C10_assigning_to_results_spares_old_objects`, `C10_assigning_to_old_objects_spares_results`, `C11_constructor_keeps_the_axis_object`, `C11_assignment_reaches_exactly_the_sharers`, `C12_replacing_methods_spares_existing_objects`, `C12_get_norm_captured`, `C12_new_objects_capture_the_current_methods`, `C12_correlate_convolve_use_the_current_method`, `C12_equalize_uses_the_current_common_axis`, `C29_result_classes`, `C29_signal_converts_spectrum_operand`, `C29_spectrum_converts_signal_operand`, `C29_spectrum_rejects_non_numbers`, `C29_others_raise_type_error`, `C29_correlate_convolve_on_non_relations`, `C34_get_spectrum_returns_the_same_object`, `C34_get_signal_returns_the_same_object`, `C34_spectrum_remembers_its_signal`, `C34_signal_remembers_its_spectrum`, `C34_explicit_time_makes_and_remembers_a_new_signal`, `C34_explicit_frequency_makes_and_remembers_a_new_spectrum`, `C45_axis_of_a_called_sweep`, `C45_calls_without_time_share`, `C45_assignment_reaches_all_of_them`, `C61_methods_by_value`, `C61_operators_by_value`, `C61_correlate_convolve_by_value`, `C85_shape`, `C85_shape_lagged`, `C50_wanted_ends_refuted`, `C55_start`, `C55_start_signs`, `C55_start_array`, `C55_time_array`, `C56_code`, `C56_code_empty`, `C57_overlap`, `C74_any_methods`, `C74_other_names`, `C74_augmented_is_new`, `C74_custom_axis_refuted`, `C07_axis_and_samples`, `C07_sequence_and_samples`, `C07_missing_y`, `C07_relation_ignores_y`, `C18_associative_refuted`, `C21_binary64_refuted`, `C75_length`, `C75_never_false`, `C75_length_of_object`, `C75_iteration_goes_on`, `C75_reversed`, `C75_keys`, `C62_get_spectrum`, `C62_get_signal`, `C62_signal_spectra`, `C62_amplitude_phase`, `C62_from_amp_phase`, `C62_signal_methods`, `C62_correlate_convolve`, `C40_call`, `C42_call_without_time`, `C42_array_law_without_time`, `C42_amplitude_array_without_time`, `C46_not_normalised`, `C47_estimates`, `C47_laws_forgotten`, `C49_image_kept`, `C49_long_sweep_refuted`, `C79_axis_text`, `C79_relation_text`, `C79_changes_nothing`, `C79_every_relation_prints_refuted`, `C80_components`, `C80_independent`, `C80_wrong_length`, `C80_decomposition_fails`.

`ClassicalDedekindReals.sig_forall_dec` - 1 theorems:
`C51_none`.

`ClassicalDedekindReals.sig_forall_dec`, `FunctionalExtensionality.functional_extensionality_dep` - 82 theorems:
`C01_axis_array_shape`, `C01_zero_sample_raises`, `C01_rounding_is_a_function`, `C02_axis_spacing`, `C06_actual_sample`, `C06_actual_sample_short`, `C05_axis_from_sequence_exact`, `C05_relation_of_sequence_iff`, `C05_long_sequences_rejected`, `C89_lagged`, `C89_interpolation`, `C89_across_axes`, `C82_start_times`, `C82_echoes`, `C82_delay`, `C77_everyday`, `C87_one_value_refuted`, `C88_jitter_refuted`, `C85_operations`, `C85_programs`, `C85_objects`, `C85_lagged`, `C50_array`, `C50_function`, `C50_ends`, `C56_relation`, `C56_one_period`, `C57_relation`, `C57_empty_code`, `C74_programs_by_value`, `C74_start`, `C13_common_axis`, `C13_common_axis_symmetric`, `C14_interpolation`, `C14_value_unique`, `C14_same_points_identity`, `C16_equal_axes`, `C16_with_number`, `C17_different_axes`, `C18_commutative`, `C18_associative_equal_axes`, `C19_select`, `C20_nearest_sample`, `C21_shift`, `C21_shift_composes`, `C21_shift_inverse`, `C22_diff`, `C22_integrate`, `C22_tie_fails`, `C22_single_point_fails`, `C23_integrate_then_diff`, `C23_diff_then_integrate`, `C25_correlate`, `C25_correlate_equal_axes`, `C25_correlate_mirror`, `C27_convolve_commutes`, `C27_convolve`, `C27_impulse_moves_axis`, `C75_item`, `C75_items_settle`, `C75_whole_axis`, `C75_longer_axis`, `C43_stretched_from_zero`, `C43_late_start_lost`, `C43_general`, `C43_own_axis_lost`, `C44_helper_axis`, `C44_resampled`, `C44_same_length_kept`, `C49_axes`, `C49_short_sweep`, `C84_operations`, `C84_observations`, `C84_lagged`, `C84_programs`, `C84_origin`, `C84_objects`, `C84_sweeps`, `C84_sequences_refuted`, `C79_axis_values`, `C79_zero_sample`, `C80_sum`.

`ClassicalDedekindReals.sig_forall_dec`, `ClassicalDedekindReals.sig_not_dec`, `FunctionalExtensionality.functional_extensionality_dep` - 9 theorems:
`C48_analytic`, `C48_unique`, `C51_bounds`, `C51_left_right`, `C51_ends`, `C53_short_segment`, `C53_law`, `C53_in_band`, `C53_rounding_refuted`.

`ClassicalDedekindReals.sig_forall_dec`, `ClassicalDedekindReals.sig_not_dec`, `Classical_Prop.classic`, `FunctionalExtensionality.functional_extensionality_dep` - 195 theorems:
`C83_interpolation`, `C83_diff`, `C83_integrate`, `C83_norm`, `C83_sweep`, `C83_interpolation_attained`, `C83_diff_attained`, `C83_integrate_attained`, `C81_target_follows`, `C81_signal_or_spectrum`, `C81_odd_signal_or_spectrum_refuted`, `C76_same_norm`, `C89_sweep_function`, `C89_signal_shift_refuted`, `C94_filter`, `C94_pulse`, `C94_pulse_up_to`, `C94_pulse_from_refuted`, `C82_peak_real`, `C82_peak_complex`, `C82_bound_real`, `C82_bound_complex`, `C82_signal`, `C82_signal_wraps_refuted`, `C93_real`, `C93_complex`, `C93_binary64`, `C93_scale`, `C93_offset`, `C93_sum`, `C93_select`, `C93_interpolate`, `C77_operations`, `C77_size`, `C77_array`, `C77_distinct`, `C78_accepted`, `C78_nearest_sample`, `C78_select`, `C78_shift`, `C78_same_points_identity`, `C78_equal_axes`, `C78_commutative`, `C86_diff`, `C86_integrate`, `C86_interpolation`, `C86_new_axes`, `C86_integral`, `C86_norm`, `C87_correlate`, `C87_convolve`, `C87_whole`, `C87_codes`, `C87_large_whole_refuted`, `C88_reciprocal`, `C88_whole`, `C88_own_data`, `C90_points`, `C90_function`, `C90_two_pi`, `C92_array`, `C92_function`, `C92_monotone`, `C92_first`, `C92_last_whole`, `C28_equal_axes`, `C28_start_zero`, `C28_sums`, `C28_other_start_fails`, `C28_every_other_start_fails_refuted`, `C30_round_trip`, `C30_count`, `C30_no_axis`, `C30_no_axis_odd_refuted`, `C30_one_sample`, `C31_rotation`, `C31_original_iff_periodic`, `C31_not_identity_refuted`, `C31_zero_fill`, `C31_late_spectrum`, `C31_late_start_refuted`, `C32_axis`, `C32_int`, `C32_none`, `C33_fourier`, `C33_linear`, `C35_shift`, `C35_shift_zero`, `C35_shift_negative_start`, `C35_axis_kept`, `C36_rebuild`, `C36_amplitude`, `C37_phase`, `C37_angle`, `C38_add_sub`, `C39_whitens`, `C39_keeps_phase`, `C67_product`, `C67_start_zero`, `C67_divided`, `C67_is_convolve_refuted`, `C68_energy`, `C68_zero`, `C48_total`, `C48_envelope`, `C48_frequency`, `C48_nyquist`, `C48_harmonic`, `C48_constant`, `C48_scaling`, `C91_get_spectrum`, `C91_get_signal`, `C91_there_and_back`, `C91_round_trip`, `C91_shift`, `C91_amplitude`, `C91_phase_refuted`, `C85_shape_spectra`, `C85_spectra`, `C85_numbers_refuted`, `C52_rows`, `C52_no_rows`, `C52_factor`, `C52_monotone_continuous`, `C52_never_increases_refuted`, `C54_length`, `C54_full`, `C54_raises`, `C54_logarithm`, `C55_size`, `C55_full`, `C57_signal_axis`, `C57_signal_superposed`, `C57_opposite_segments_refuted`, `C58_simple`, `C58_proportional`, `C58_dwell`, `C59_dwell_raises`, `C59_no_cut_off`, `C60_passes`, `C60_result`, `C60_unlimited_refuted`, `C60_window`, `C63_tapered`, `C63_array`, `C63_design`, `C64_chirp`, `C64_time_array`, `C65_in_band`, `C65_stretched`, `C65_array`, `C66_relation`, `C66_generator`, `C66_default_integration`, `C69_code`, `C69_relation`, `C69_no_zero_run`, `C70_code`, `C70_relation`, `C70_rotations`, `C71_convolution`, `C71_long_code`, `C71_in_place`, `C71_one_element`, `C71_no_element`, `C71_starts_at_zero_refuted`, `C72_displacements`, `C72_suppression`, `C73_plain`, `C73_window`, `C73_window_rejected`, `C73_alone`, `C73_subtracts_last_refuted`, `C15_interpolated_range`, `C15_interpolation_bounded`, `C24_norm_value`, `C24_norm_nonnegative`, `C24_norm_zero`, `C24_norm_homogeneous`, `C24_complex_refuted`, `C26_autocorrelation_real`, `C26_autocorrelation_complex`, `C62_default_methods_keep_axis`, `C40_samples`, `C40_bounded`, `C40_start`, `C40_succeeds`, `C41_array_law`, `C41_function_law`, `C41_linear_law`, `C41_default_laws`, `C46_same_norm`, `C46_when`, `C84_spectra`, `C84_signals`.
