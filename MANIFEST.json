{
 "claims": [
  {
   "property": "C01",
   "status": "proved",
   "theorems": [
    "C01_forward_is_DFT"
   ],
   "note": "class FFT behind ComplexFFT, all valid lengths, all histories and schedules, real arithmetic"
  },
  {
   "property": "C02",
   "status": "proved",
   "theorems": [
    "C02_inverse_is_conjugate_DFT"
   ],
   "note": ""
  },
  {
   "property": "C03",
   "status": "proved",
   "theorems": [
    "C03_scaling_variants"
   ],
   "note": ""
  },
  {
   "property": "C04",
   "status": "proved",
   "theorems": [
    "C04_round_trips"
   ],
   "note": ""
  },
  {
   "property": "C05",
   "status": "proved",
   "theorems": [
    "C05_energy",
    "C05_bluestein_energy"
   ],
   "note": ""
  },
  {
   "property": "C06",
   "status": "proved",
   "theorems": [
    "C06_complex_length_1_undefined",
    "C06_real_length_2_undefined",
    "C06_dct_length_2_undefined",
    "C06_real_length_1",
    "C06_dct_length_1",
    "C21_bluestein_length_1"
   ],
   "note": "the identity claim is refuted for ComplexFFT length 1 and RealFFT/RealDCT length 2: null object"
  },
  {
   "property": "C07",
   "status": "proved",
   "theorems": [
    "C07_memory_safety",
    "C07_setup_safety",
    "C07_real_safety",
    "C07_real_setup_safety",
    "C07_dct_safety",
    "C07_dct_setup_safety",
    "C07_bluestein_safety",
    "C07_bluestein_setup_safety"
   ],
   "note": "any arithmetic"
  },
  {
   "property": "C08",
   "status": "proved",
   "theorems": [
    "C08_work_area_irrelevant",
    "C09_real_deterministic",
    "C09_dct_deterministic",
    "C09_bluestein_deterministic"
   ],
   "note": "any arithmetic"
  },
  {
   "property": "C09",
   "status": "proved",
   "theorems": [
    "C09_deterministic",
    "C09_real_deterministic",
    "C09_dct_deterministic",
    "C09_bluestein_deterministic"
   ],
   "note": "any arithmetic"
  },
  {
   "property": "C10",
   "status": "proved",
   "theorems": [
    "C10_no_data_race",
    "C10_setup_no_data_race",
    "C10_real_no_data_race",
    "C10_dct_no_data_race",
    "C10_bluestein_no_data_race",
    "C10_bluestein_setup_no_data_race"
   ],
   "note": "any arithmetic"
  },
  {
   "property": "C11",
   "status": "proved",
   "theorems": [
    "C11_defined_iff_prime_factors_small",
    "C11_real_overflow",
    "C11_dct_setup_overflow",
    "C11_bluestein_setup_overflow",
    "C23_padding_overflows_beyond",
    "C11_example"
   ],
   "note": "any arithmetic; int products that are not array indices are checked in the model, array indices are bounded by the array lengths (C07)"
  },
  {
   "property": "C12",
   "status": "proved",
   "theorems": [
    "C12_factor_search",
    "C12_passes"
   ],
   "note": ""
  },
  {
   "property": "C13",
   "status": "proved",
   "theorems": [
    "C13_power_of_two_algorithms",
    "C13_choice_unobservable",
    "C13_mixed_radix"
   ],
   "note": ""
  },
  {
   "property": "C14",
   "status": "proved",
   "theorems": [
    "C14_six_and_eight_step"
   ],
   "note": ""
  },
  {
   "property": "C15",
   "status": "proved",
   "theorems": [
    "C15_dispatch_total"
   ],
   "note": ""
  },
  {
   "property": "C16",
   "status": "proved",
   "theorems": [
    "C16_real_forward"
   ],
   "note": ""
  },
  {
   "property": "C17",
   "status": "proved",
   "theorems": [
    "C17_hermitian"
   ],
   "note": ""
  },
  {
   "property": "C18",
   "status": "proved",
   "theorems": [
    "C18_real_inverse",
    "C18_round_trip"
   ],
   "note": ""
  },
  {
   "property": "C19",
   "status": "proved",
   "theorems": [
    "C19_dct_forward"
   ],
   "note": ""
  },
  {
   "property": "C20",
   "status": "proved",
   "theorems": [
    "C20_dct_inverse",
    "C20_dct_round_trip"
   ],
   "note": ""
  },
  {
   "property": "C21",
   "status": "proved",
   "theorems": [
    "C21_bluestein_forward",
    "C21_bluestein_length_1"
   ],
   "note": "N up to 2^29"
  },
  {
   "property": "C22",
   "status": "proved",
   "theorems": [
    "C22_bluestein_inverse",
    "C22_bluestein_round_trip"
   ],
   "note": "N up to 2^29"
  },
  {
   "property": "C23",
   "status": "proved",
   "theorems": [
    "C23_padding",
    "C23_padding_overflows_beyond"
   ],
   "note": "N up to 2^29; undefined beyond"
  },
  {
   "property": "C24",
   "status": "proved",
   "theorems": [
    "C24_setup_forgets",
    "C24_real_setup_forgets",
    "C24_dct_setup_forgets",
    "C24_bluestein_setup_forgets",
    "C24_dct_hypotheses_met",
    "C09_real_deterministic",
    "C09_dct_deterministic",
    "C09_bluestein_deterministic",
    "C24_bluestein_setup_0_ignored"
   ],
   "note": "any arithmetic; exception: BluesteinFFT::setup(n<1) is ignored, so the previous length stays in force"
  },
  {
   "property": "C25",
   "status": "proved",
   "theorems": [
    "C25_object_unchanged",
    "C25_real_object_unchanged",
    "C25_real_repeat",
    "C25_dct_object_unchanged",
    "C07_dct_safety",
    "C25_bluestein_object_unchanged"
   ],
   "note": "any arithmetic"
  },
  {
   "property": "C26",
   "status": "proved",
   "theorems": [
    "C26_factory_picks_best_supported",
    "C26_factory_throws_iff",
    "C26_deleter_never_throws_after_create",
    "C26_no_cpuid_leaves",
    "C26_no_osxsave_illegal_instruction",
    "C26_created_object_is_configured"
   ],
   "note": ""
  },
  {
   "property": "C27",
   "status": "proved",
   "theorems": [
    "C27_blocks_owned_exactly_once",
    "C27_destructor_releases_everything",
    "C27_throwing_constructor_leaks_nothing",
    "C27_tables_have_the_accessed_size",
    "C27_index_table_size",
    "C27_array",
    "C27_array_copy_released_twice"
   ],
   "note": ""
  },
  {
   "property": "C28",
   "status": "proved",
   "theorems": [
    "C28_mixed_radix_table",
    "C28_power_of_two_serial_table",
    "C28_power_of_two_parallel_table",
    "C28_six_step_tables",
    "C28_eight_step_tables",
    "C28_real_table",
    "C28_dct_table",
    "C28_bluestein_table"
   ],
   "note": ""
  },
  {
   "property": "C29",
   "status": "proved",
   "theorems": [
    "C29_complex_linear",
    "C29_real_linear",
    "C29_dct_linear",
    "C29_bluestein_linear"
   ],
   "note": ""
  },
  {
   "property": "C30",
   "status": "proved",
   "theorems": [
    "C30_mixed_radix",
    "C30_power_of_two",
    "C30_six_step",
    "C30_eight_step"
   ],
   "note": ""
  },
  {
   "property": "C31",
   "status": "proved",
   "theorems": [
    "C31_real_is_complex",
    "C31_bluestein_is_complex"
   ],
   "note": ""
  },
  {
   "property": "C32",
   "status": "proved",
   "theorems": [
    "C32_setup_again_after_failure",
    "C32_stale_pointer_after_failed_setup"
   ],
   "note": ""
  },
  {
   "property": "C33",
   "status": "proved",
   "theorems": [
    "C33_helpers_are_lanewise",
    "C33_moves",
    "C33_same_programs",
    "C33_forward_every_build",
    "C33_bit_for_bit",
    "C33_fma_differs",
    "C33_unused_helpers",
    "C33_exact_quotient",
    "C33_quotient_example"
   ],
   "note": "exact arithmetic: all builds; IEEE doubles: all builds without FMA (necessary: C33_fma_differs)"
  },
  {
   "property": "C34",
   "status": "proved",
   "theorems": [
    "C34_accuracy",
    "C34_bound",
    "C34_example",
    "factorisation_exists"
   ],
   "note": "rounded real arithmetic (underflow included, no overflow: see C49, C52 for IEEE doubles with infinities), every build; binary64 instance"
  },
  {
   "property": "C35",
   "status": "proved",
   "theorems": [
    "C35_round_trip_accuracy"
   ],
   "note": "as C34"
  },
  {
   "property": "C36",
   "status": "proved",
   "theorems": [
    "C36_complex_aligned",
    "C36_own_work_area_aligned",
    "C36_real_aligned",
    "C36_dct_aligned",
    "C36_bluestein_aligned",
    "C36_complex_accesses_made",
    "C36_own_work_area_accesses_made",
    "C36_real_accesses_made",
    "C36_dct_accesses_made",
    "C36_bluestein_accesses_made",
    "C36_16_bytes_not_enough"
   ],
   "note": "the accesses are listed by ModelVec.v (generated, from the kernels' lanes) and ModelVecApi.v"
  },
  {
   "property": "C37",
   "status": "proved",
   "theorems": [
    "C37_real_accuracy",
    "C37_real_inverse_accuracy",
    "C37_example"
   ],
   "note": "as C34; same bound as the complex transform of the same length"
  },
  {
   "property": "C38",
   "status": "proved",
   "theorems": [
    "C38_real_round_trip_accuracy"
   ],
   "note": "as C34"
  },
  {
   "property": "C39",
   "status": "proved",
   "theorems": [
    "C39_dct_accuracy",
    "C39_example"
   ],
   "note": "as C34"
  },
  {
   "property": "C40",
   "status": "proved",
   "theorems": [
    "C40_dct_round_trip_accuracy"
   ],
   "note": "as C34"
  },
  {
   "property": "C41",
   "status": "proved",
   "theorems": [
    "C41_mysqrt",
    "C41_unitary_factor"
   ],
   "note": "IEEE double precision (Flocq), round to nearest even; all 25 powers of two the library instantiates"
  },
  {
   "property": "C42",
   "status": "proved",
   "theorems": [
    "C42_bluestein_accuracy",
    "C42_bound",
    "C42_example"
   ],
   "note": "as C34; every length 1..2^29"
  },
  {
   "property": "C43",
   "status": "proved",
   "theorems": [
    "C43_bluestein_round_trip_accuracy"
   ],
   "note": "as C34"
  },
  {
   "property": "C44",
   "status": "proved",
   "theorems": [
    "C44_ring",
    "C44_reals",
    "C44_field",
    "C44_conj_abs",
    "C44_polar",
    "atan2_exists",
    "C44_proj"
   ],
   "note": "exact arithmetic; arg for any atan2 with the defining property, which exists"
  },
  {
   "property": "C45",
   "status": "proved",
   "theorems": [
    "C45_compound",
    "C45_compound_real",
    "C45_scal_exact",
    "C45_own_real_part"
   ],
   "note": "any arithmetic; the exception is proved to be one"
  },
  {
   "property": "C46",
   "status": "proved",
   "theorems": [
    "C46_concurrent_calls",
    "C46_example"
   ],
   "note": "any arithmetic; interleaving semantics of application threads, each with its own OpenMP teams"
  },
  {
   "property": "C47",
   "status": "proved",
   "theorems": [
    "C47_complex_object_not_shared",
    "C47_tiny_object_shared",
    "C47_hypotheses_met",
    "C47_dct_object_not_shared",
    "C47_bluestein_object_not_shared",
    "C47_dct_hypotheses_met",
    "C47_bluestein_hypotheses_met"
   ],
   "note": "ComplexFFT: a reachable racing state for every admissible length but 2, 3, 4, 5, 8; for those, sharing is safe. RealDCT, BluesteinFFT: a reachable racing state for every length (Bluestein: from 2)"
  },
  {
   "property": "C48",
   "status": "proved",
   "theorems": [
    "C48_real_object_shared",
    "C48_real_input_shared",
    "C48_hypotheses_met"
   ],
   "note": "corollaries of C46_concurrent_calls"
  },
  {
   "property": "C49",
   "status": "proved",
   "theorems": [
    "C49_ieee_accuracy",
    "C49_ieee_real_accuracy",
    "C49_ieee_real_inverse_accuracy",
    "C49_ieee_dct_accuracy",
    "C49_ieee_bluestein_accuracy",
    "libm_ideal"
   ],
   "note": "on Flocq's binary64 with infinities and NaNs; cos and sin are any functions with the stated error"
  },
  {
   "property": "C50",
   "status": "proved",
   "theorems": [
    "C50_complex_nonfinite",
    "C50_real_nonfinite",
    "C50_real_inverse_nonfinite",
    "C50_dct_nonfinite",
    "C50_bluestein_nonfinite",
    "C50_example"
   ],
   "note": "hypothesis: error bound small, as it is for every practical length"
  },
  {
   "property": "C51",
   "status": "proved",
   "theorems": [
    "C51_constants"
   ],
   "note": ""
  },
  {
   "property": "C52",
   "status": "proved",
   "theorems": [
    "C52_no_overflow",
    "C52_no_overflow_any_length",
    "C52_real_no_overflow",
    "C52_real_inverse_no_overflow",
    "C52_dct_no_overflow",
    "C52_bluestein_no_overflow",
    "C52_example"
   ],
   "note": "sufficient condition on the magnitude of the input; it is not claimed to be necessary"
  },
  {
   "property": "C53",
   "status": "proved",
   "theorems": [
    "C53_ieee_round_trip",
    "C53_ieee_real_round_trip",
    "C53_ieee_dct_round_trip",
    "C53_ieee_bluestein_round_trip"
   ],
   "note": ""
  },
  {
   "property": "C54",
   "status": "proved",
   "theorems": [
    "C54_natural_lengths",
    "C54_negative_length_throws",
    "C54_real_length_minus_one",
    "C54_bluestein_ignores",
    "C54_blocks_owned_exactly_once",
    "C54_destructor_releases_everything",
    "C54_throwing_constructor_leaks_nothing",
    "C54_largest_int_overflows"
   ],
   "note": "Memory events only, as for C27; int 32 bits, size_t 64 bits."
  },
  {
   "property": "C55",
   "status": "proved",
   "theorems": [
    "C55_bytes_exact_64",
    "C55_bytes_exact_32",
    "C55_size_wraps_on_32_bit"
   ],
   "note": ""
  },
  {
   "property": "C56",
   "status": "proved",
   "theorems": [
    "C56_circular_convolution",
    "C56_polynomial_product",
    "C56_real_convolution",
    "C56_real_half_spectrum"
   ],
   "note": ""
  },
  {
   "property": "C57",
   "status": "proved",
   "theorems": [
    "C57_shift",
    "C57_conjugate",
    "C57_twice",
    "C57_modulation",
    "C57_reversal",
    "C57_real_to_hermitian",
    "C57_hermitian_to_real",
    "C57_reversal_hypotheses_met"
   ],
   "note": ""
  },
  {
   "property": "C58",
   "status": "proved",
   "theorems": [
    "C58_convolution_accuracy",
    "C58_ieee_convolution_accuracy",
    "C58_ieee_no_overflow",
    "C58_integer_convolution",
    "C58_real_convolution_accuracy",
    "C58_ieee_real_convolution",
    "C58_integer_real_convolution"
   ],
   "note": ""
  },
  {
   "property": "C59",
   "status": "proved",
   "theorems": [
    "C59_impulse",
    "C59_complex_tone",
    "C59_real_tone",
    "C59_peak",
    "C59_peak_found"
   ],
   "note": ""
  },
  {
   "property": "C60",
   "status": "proved",
   "theorems": [
    "C60_second_half_ignored",
    "C60_any_spectrum",
    "C60_imaginary_mean",
    "C60_hypotheses_met"
   ],
   "note": ""
  },
  {
   "property": "C61",
   "status": "proved",
   "theorems": [
    "C61_complex_inner_product",
    "C61_bluestein_energy",
    "C61_real_one_sided",
    "C61_dct_energy",
    "C61_ieee_energy",
    "C61_two_dimensions_energy",
    "C61_two_dimensions_hypotheses_met"
   ],
   "note": ""
  },
  {
   "property": "C62",
   "status": "proved",
   "theorems": [
    "C62_complex_negation",
    "C62_real_negation",
    "C62_real_inverse_negation",
    "C62_dct_negation",
    "C62_bluestein_negation",
    "C62_complex_silence",
    "C62_real_silence",
    "C62_real_inverse_silence",
    "C62_dct_silence",
    "C62_bluestein_silence",
    "C62_example"
   ],
   "note": "Silence assumes a libm off by at most 1 (for finiteness)."
  },
  {
   "property": "C63",
   "status": "proved",
   "theorems": [
    "C63_batch_any_arithmetic",
    "C63_batch",
    "C63_two_dimensions",
    "C63_hypotheses_met",
    "C63_two_dimensions_accuracy",
    "C63_accuracy_example",
    "C63_two_dimensions_round_trip",
    "C63_round_trip_hypotheses_met"
   ],
   "note": ""
  },
  {
   "property": "C64",
   "status": "proved",
   "theorems": [
    "C64_cross_correlation",
    "C64_autocorrelation",
    "C64_delay",
    "C64_real_correlation",
    "C64_example",
    "C64_delay_hypotheses_met",
    "C64_ieee_correlation",
    "C64_integer_correlation"
   ],
   "note": ""
  },
  {
   "property": "C65",
   "status": "proved",
   "theorems": [
    "C65_zero_padding",
    "C65_repetition",
    "C65_decimation",
    "C65_hypotheses_met"
   ],
   "note": ""
  },
  {
   "property": "C66",
   "status": "proved",
   "theorems": [
    "C66_complex_stable",
    "C66_bluestein_stable",
    "C66_bluestein_agrees",
    "C66_real_agrees",
    "C66_hypotheses_met"
   ],
   "note": ""
  },
  {
   "property": "C67",
   "status": "proved",
   "theorems": [
    "C67_two_real_arrays",
    "C67_dct_by_mirroring",
    "C67_hypotheses_met"
   ],
   "note": ""
  },
  {
   "property": "C68",
   "status": "proved",
   "theorems": [
    "C68_mylog2",
    "C68_reads_first_quarter",
    "C68_quarter_table",
    "C68_hypotheses_met",
    "C68_not_other_lengths"
   ],
   "note": "modq and mylog2 are not called anywhere in this version"
  },
  {
   "property": "C69",
   "status": "proved",
   "theorems": [
    "C69_real_batch_any_arithmetic",
    "C69_image_spectrum",
    "C69_image_inverse",
    "C69_image_round_trip",
    "C69_image_filter",
    "C69_hypotheses_met",
    "C69_image_accuracy"
   ],
   "note": ""
  },
  {
   "property": "C70",
   "status": "proved",
   "theorems": [
    "C70_dct_batch_any_arithmetic",
    "C70_two_dimensional_dct",
    "C70_dct_round_trip",
    "C70_hypotheses_met"
   ],
   "note": ""
  },
  {
   "property": "C71",
   "status": "proved",
   "theorems": [
    "C71_overlap_save",
    "C71_every_run",
    "C71_causal_filter",
    "C71_kernel_spectrum",
    "C71_hypotheses_met",
    "C71_real_overlap_save",
    "C71_real_every_run",
    "C71_real_kernel_spectrum",
    "C71_real_hypotheses_met",
    "C71_integer_stream",
    "C71_integer_every_run",
    "C71_ieee_kernel",
    "C71_integer_bound",
    "C71_stream_hypotheses_met",
    "C71_integer_data"
   ],
   "note": ""
  }
 ]
}