"""Writes MANIFEST.json from the table below (run in /verif)."""
import json
CLAIMS = [
 ("C01", "proved", ["C01_forward_is_DFT"], "class FFT behind ComplexFFT, all valid lengths, all histories and schedules, real arithmetic"),
 ("C02", "proved", ["C02_inverse_is_conjugate_DFT"], ""),
 ("C03", "proved", ["C03_scaling_variants"], ""),
 ("C04", "proved", ["C04_round_trips"], ""),
 ("C05", "proved", ["C05_energy", "C05_bluestein_energy"], ""),
 ("C06", "proved", ["C06_complex_length_1_undefined", "C06_real_length_2_undefined", "C06_dct_length_2_undefined", "C06_real_length_1", "C06_dct_length_1", "C21_bluestein_length_1"], "the identity claim is refuted for ComplexFFT length 1 and RealFFT/RealDCT length 2: null object"),
 ("C07", "proved", ["C07_memory_safety", "C07_setup_safety", "C07_real_safety", "C07_real_setup_safety", "C07_dct_safety", "C07_dct_setup_safety", "C07_bluestein_safety", "C07_bluestein_setup_safety"], "any arithmetic"),
 ("C08", "proved", ["C08_work_area_irrelevant", "C09_real_deterministic", "C09_dct_deterministic", "C09_bluestein_deterministic"], "any arithmetic"),
 ("C09", "proved", ["C09_deterministic", "C09_real_deterministic", "C09_dct_deterministic", "C09_bluestein_deterministic"], "any arithmetic"),
 ("C10", "proved", ["C10_no_data_race", "C10_setup_no_data_race", "C10_real_no_data_race", "C10_dct_no_data_race", "C10_bluestein_no_data_race", "C10_bluestein_setup_no_data_race"], "any arithmetic"),
 ("C11", "proved", ["C11_defined_iff_prime_factors_small", "C11_real_overflow", "C11_dct_setup_overflow", "C11_bluestein_setup_overflow", "C23_padding_overflows_beyond", "C11_example"], "any arithmetic; int products that are not array indices are checked in the model, array indices are bounded by the array lengths (C07)"),
 ("C12", "proved", ["C12_factor_search", "C12_passes"], ""),
 ("C13", "proved", ["C13_power_of_two_algorithms", "C13_choice_unobservable", "C13_mixed_radix"], ""),
 ("C14", "proved", ["C14_six_and_eight_step"], ""),
 ("C15", "proved", ["C15_dispatch_total"], ""),
 ("C16", "proved", ["C16_real_forward"], ""),
 ("C17", "proved", ["C17_hermitian"], ""),
 ("C18", "proved", ["C18_real_inverse", "C18_round_trip"], ""),
 ("C19", "proved", ["C19_dct_forward"], ""),
 ("C20", "proved", ["C20_dct_inverse", "C20_dct_round_trip"], ""),
 ("C21", "proved", ["C21_bluestein_forward", "C21_bluestein_length_1"], "N up to 2^29"),
 ("C22", "proved", ["C22_bluestein_inverse", "C22_bluestein_round_trip"], "N up to 2^29"),
 ("C23", "proved", ["C23_padding", "C23_padding_overflows_beyond"], "N up to 2^29; undefined beyond"),
 ("C24", "proved", ["C24_setup_forgets", "C24_real_setup_forgets", "C24_dct_setup_forgets", "C24_bluestein_setup_forgets", "C24_dct_hypotheses_met", "C09_real_deterministic", "C09_dct_deterministic", "C09_bluestein_deterministic", "C24_bluestein_setup_0_ignored"], "any arithmetic; exception: BluesteinFFT::setup(n<1) is ignored, so the previous length stays in force"),
 ("C25", "proved", ["C25_object_unchanged", "C25_real_object_unchanged", "C25_real_repeat", "C25_dct_object_unchanged", "C07_dct_safety", "C25_bluestein_object_unchanged"], "any arithmetic"),
 ("C26", "proved", ["C26_factory_picks_best_supported", "C26_factory_throws_iff", "C26_deleter_never_throws_after_create", "C26_no_cpuid_leaves", "C26_no_osxsave_illegal_instruction", "C26_created_object_is_configured"], ""),
 ("C27", "proved", ["C27_blocks_owned_exactly_once", "C27_destructor_releases_everything", "C27_throwing_constructor_leaks_nothing", "C27_tables_have_the_accessed_size", "C27_index_table_size", "C27_array", "C27_array_copy_released_twice"], ""),
 ("C28", "proved", ["C28_mixed_radix_table", "C28_power_of_two_serial_table", "C28_power_of_two_parallel_table", "C28_six_step_tables", "C28_eight_step_tables", "C28_real_table", "C28_dct_table", "C28_bluestein_table"], ""),
 ("C29", "proved", ["C29_complex_linear", "C29_real_linear", "C29_dct_linear", "C29_bluestein_linear"], ""),
 ("C30", "proved", ["C30_mixed_radix", "C30_power_of_two", "C30_six_step", "C30_eight_step"], ""),
 ("C31", "proved", ["C31_real_is_complex", "C31_bluestein_is_complex"], ""),
 ("C32", "proved", ["C32_setup_again_after_failure", "C32_stale_pointer_after_failed_setup"], ""),
 ("C33", "proved", ["C33_helpers_are_lanewise", "C33_moves", "C33_same_programs", "C33_forward_every_build", "C33_bit_for_bit", "C33_fma_differs", "C33_unused_helpers", "C33_exact_quotient", "C33_quotient_example"], "exact arithmetic: all builds; IEEE doubles: all builds without FMA (necessary: C33_fma_differs)"),
 ("C34", "proved", ["C34_accuracy", "C34_bound", "C34_example", "factorisation_exists"], "rounded real arithmetic (underflow included, no overflow: see C49, C52 for IEEE doubles with infinities), every build; binary64 instance"),
 ("C35", "proved", ["C35_round_trip_accuracy"], "as C34"),
 ("C36", "proved", ["C36_complex_aligned", "C36_own_work_area_aligned", "C36_real_aligned", "C36_dct_aligned", "C36_bluestein_aligned", "C36_complex_accesses_made", "C36_own_work_area_accesses_made", "C36_real_accesses_made", "C36_dct_accesses_made", "C36_bluestein_accesses_made", "C36_16_bytes_not_enough"], "the accesses are listed by ModelVec.v (generated, from the kernels' lanes) and ModelVecApi.v"),
 ("C37", "proved", ["C37_real_accuracy", "C37_real_inverse_accuracy", "C37_example"], "as C34; same bound as the complex transform of the same length"),
 ("C38", "proved", ["C38_real_round_trip_accuracy"], "as C34"),
 ("C39", "proved", ["C39_dct_accuracy", "C39_example"], "as C34"),
 ("C40", "proved", ["C40_dct_round_trip_accuracy"], "as C34"),
 ("C41", "proved", ["C41_mysqrt", "C41_unitary_factor"], "IEEE double precision (Flocq), round to nearest even; all 25 powers of two the library instantiates"),
 ("C42", "proved", ["C42_bluestein_accuracy", "C42_bound", "C42_example"], "as C34; every length 1..2^29"),
 ("C43", "proved", ["C43_bluestein_round_trip_accuracy"], "as C34"),
 ("C44", "proved", ["C44_ring", "C44_reals", "C44_field", "C44_conj_abs", "C44_polar", "atan2_exists", "C44_proj"], "exact arithmetic; arg for any atan2 with the defining property, which exists"),
 ("C45", "proved", ["C45_compound", "C45_compound_real", "C45_scal_exact", "C45_own_real_part"], "any arithmetic; the exception is proved to be one"),
 ("C46", "proved", ["C46_concurrent_calls", "C46_example"], "any arithmetic; interleaving semantics of application threads, each with its own OpenMP teams"),
 ("C47", "proved", ["C47_complex_object_not_shared", "C47_tiny_object_shared", "C47_hypotheses_met", "C47_dct_object_not_shared", "C47_bluestein_object_not_shared", "C47_dct_hypotheses_met", "C47_bluestein_hypotheses_met"], "ComplexFFT: a reachable racing state for every admissible length but 2, 3, 4, 5, 8; for those, sharing is safe. RealDCT, BluesteinFFT: a reachable racing state for every length (Bluestein: from 2)"),
 ("C48", "proved", ["C48_real_object_shared", "C48_real_input_shared", "C48_hypotheses_met"], "corollaries of C46_concurrent_calls"),
 ("C49", "proved", ["C49_ieee_accuracy", "C49_ieee_real_accuracy", "C49_ieee_real_inverse_accuracy", "C49_ieee_dct_accuracy", "C49_ieee_bluestein_accuracy", "libm_ideal"], "on Flocq's binary64 with infinities and NaNs; cos and sin are any functions with the stated error"),
 ("C50", "proved", ["C50_complex_nonfinite", "C50_real_nonfinite", "C50_real_inverse_nonfinite", "C50_dct_nonfinite", "C50_bluestein_nonfinite", "C50_example"], "hypothesis: error bound small, as it is for every practical length"),
 ("C51", "proved", ["C51_constants"], ""),
 ("C52", "proved", ["C52_no_overflow", "C52_no_overflow_any_length", "C52_real_no_overflow", "C52_real_inverse_no_overflow", "C52_dct_no_overflow", "C52_bluestein_no_overflow", "C52_example"], "sufficient condition on the magnitude of the input; it is not claimed to be necessary"),
 ("C53", "proved", ["C53_ieee_round_trip", "C53_ieee_real_round_trip", "C53_ieee_dct_round_trip", "C53_ieee_bluestein_round_trip"], ""),
 ("C54", "proved", ["C54_natural_lengths", "C54_negative_length_throws", "C54_real_length_minus_one", "C54_bluestein_ignores", "C54_blocks_owned_exactly_once", "C54_destructor_releases_everything", "C54_throwing_constructor_leaks_nothing", "C54_largest_int_overflows"], "Memory events only, as for C27; int 32 bits, size_t 64 bits."),
 ("C55", "proved", ["C55_bytes_exact_64", "C55_bytes_exact_32", "C55_size_wraps_on_32_bit"], ""),
 ("C56", "proved", ["C56_circular_convolution", "C56_polynomial_product", "C56_real_convolution", "C56_real_half_spectrum"], ""),
 ("C57", "proved", ["C57_shift", "C57_conjugate", "C57_twice", "C57_modulation", "C57_reversal", "C57_real_to_hermitian", "C57_hermitian_to_real", "C57_reversal_hypotheses_met"], ""),
 ("C58", "proved", ["C58_convolution_accuracy", "C58_ieee_convolution_accuracy", "C58_ieee_no_overflow", "C58_integer_convolution", "C58_real_convolution_accuracy", "C58_ieee_real_convolution", "C58_integer_real_convolution"], ""),
 ("C59", "proved", ["C59_impulse", "C59_complex_tone", "C59_real_tone", "C59_peak", "C59_peak_found"], ""),
 ("C60", "proved", ["C60_second_half_ignored", "C60_any_spectrum", "C60_imaginary_mean", "C60_hypotheses_met"], ""),
 ("C61", "proved", ["C61_complex_inner_product", "C61_bluestein_energy", "C61_real_one_sided", "C61_dct_energy", "C61_ieee_energy", "C61_two_dimensions_energy", "C61_two_dimensions_hypotheses_met"], ""),
 ("C62", "proved", ["C62_complex_negation", "C62_real_negation", "C62_real_inverse_negation", "C62_dct_negation", "C62_bluestein_negation", "C62_complex_silence", "C62_real_silence", "C62_real_inverse_silence", "C62_dct_silence", "C62_bluestein_silence", "C62_example"], "Silence assumes a libm off by at most 1 (for finiteness)."),
 ("C63", "proved", ["C63_batch_any_arithmetic", "C63_batch", "C63_two_dimensions", "C63_hypotheses_met", "C63_two_dimensions_accuracy", "C63_accuracy_example", "C63_two_dimensions_round_trip", "C63_round_trip_hypotheses_met"], ""),
 ("C64", "proved", ["C64_cross_correlation", "C64_autocorrelation", "C64_delay", "C64_real_correlation", "C64_example", "C64_delay_hypotheses_met", "C64_ieee_correlation", "C64_integer_correlation"], ""),
 ("C65", "proved", ["C65_zero_padding", "C65_repetition", "C65_decimation", "C65_hypotheses_met"], ""),
 ("C66", "proved", ["C66_complex_stable", "C66_bluestein_stable", "C66_bluestein_agrees", "C66_real_agrees", "C66_hypotheses_met"], ""),
 ("C67", "proved", ["C67_two_real_arrays", "C67_dct_by_mirroring", "C67_hypotheses_met"], ""),
 ("C68", "proved", ["C68_mylog2", "C68_reads_first_quarter", "C68_quarter_table", "C68_hypotheses_met", "C68_not_other_lengths"], "modq and mylog2 are not called anywhere in this version"),
 ("C69", "proved", ["C69_real_batch_any_arithmetic", "C69_image_spectrum", "C69_image_inverse", "C69_image_round_trip", "C69_image_filter", "C69_hypotheses_met", "C69_image_accuracy"], ""),
 ("C70", "proved", ["C70_dct_batch_any_arithmetic", "C70_two_dimensional_dct", "C70_dct_round_trip", "C70_hypotheses_met"], ""),
 ("C71", "proved", ["C71_overlap_save", "C71_every_run", "C71_causal_filter", "C71_kernel_spectrum", "C71_hypotheses_met", "C71_real_overlap_save", "C71_real_every_run", "C71_real_kernel_spectrum", "C71_real_hypotheses_met", "C71_integer_stream", "C71_integer_every_run", "C71_ieee_kernel", "C71_integer_bound", "C71_stream_hypotheses_met", "C71_integer_data"], ""),
]
json.dump({"claims": [dict(property=p, status=s, theorems=t, note=n) for p, s, t, n in CLAIMS]}, open("MANIFEST.json", "w"), indent=1)
