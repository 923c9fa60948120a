{
 "claims": [
  {
   "property": "C01",
   "status": "proved",
   "theorems": [
    "C01_bit_ceil",
    "C01_bit_ceil_outside"
   ],
   "note": ""
  },
  {
   "property": "C02",
   "status": "proved",
   "theorems": [
    "C02_bit_log2",
    "C02_next_order",
    "C02_order_size_inverse"
   ],
   "note": ""
  },
  {
   "property": "C03",
   "status": "proved",
   "theorems": [
    "C03_ipow",
    "C03_ipow_const",
    "C03_ipow_overflow",
    "C03_overflowing_shift_gives_wrong_value"
   ],
   "note": "Fits case proved for the loop and the shift overloads; overflow characterised, including the wrong values of the shift overloads."
  },
  {
   "property": "C04",
   "status": "proved",
   "theorems": [
    "C04_idiv",
    "C04_idiv_unsigned",
    "C04_idiv_signed_overflow",
    "C04_idiv_narrow",
    "C04_idiv_wraps_too_small",
    "C04_parity"
   ],
   "note": ""
  },
  {
   "property": "C05",
   "status": "proved",
   "theorems": [
    "C05_saturating_add",
    "C05_saturating_sub",
    "C05_saturating_neg",
    "C05_results_in_range",
    "C05_comparisons"
   ],
   "note": ""
  },
  {
   "property": "C06",
   "status": "proved",
   "theorems": [
    "C06_multiply",
    "C06_multiply_error",
    "C06_only_min_times_min_clamps"
   ],
   "note": ""
  },
  {
   "property": "C07",
   "status": "proved",
   "theorems": [
    "C07_round_trip",
    "C07_to_float_exact",
    "C07_from_float",
    "C07_from_float_high",
    "C07_from_float_low",
    "C07_from_float_undefined",
    "C07_from_float_monotone"
   ],
   "note": "Flocq binary32 rounding without upper overflow; the int32 conversion is UB before a float overflow could matter."
  },
  {
   "property": "C08",
   "status": "proved",
   "theorems": [
    "C08_array_add",
    "C08_array_subtract",
    "C08_array_multiply",
    "C08_sse41_multiply_8bit",
    "C08_sse41_multiply_16bit",
    "C08_sse41_q7_refuted",
    "C08_sse41_q15_within_one"
   ],
   "note": "add/subtract proved for every build; multiply proved for the scalar, SSE2 and NEON builds, the SSE4.1 result is characterised exactly and refutes the documented claim."
  },
  {
   "property": "C09",
   "status": "proved",
   "theorems": [
    "C09_complex_add",
    "C09_complex_sub",
    "C09_product_actual",
    "C09_product_refuted",
    "C09_product_of_reals_refuted",
    "C09_product_32bit_undefined"
   ],
   "note": "Sum and difference proved; the product is characterised exactly and the documented claim refuted."
  },
  {
   "property": "C10",
   "status": "proved",
   "theorems": [
    "C10_build"
   ],
   "note": ""
  },
  {
   "property": "C11",
   "status": "proved",
   "theorems": [
    "C11_insert_history",
    "C11_insert_get",
    "C11_reachable_wf"
   ],
   "note": ""
  },
  {
   "property": "C12",
   "status": "proved",
   "theorems": [
    "C12_multiply_add",
    "C12_multiply_add_out_of_place",
    "C12_out_of_place_refuted",
    "C12_double_insert_refuted"
   ],
   "note": ""
  },
  {
   "property": "C13",
   "status": "proved",
   "theorems": [
    "C13_split_multiply_add",
    "C13_simd_multiply_add",
    "C13_simd_equals_scalar",
    "C13_interleaved_multiply_add",
    "C13_crossed_layout_refuted"
   ],
   "note": ""
  },
  {
   "property": "C14",
   "status": "proved",
   "theorems": [
    "C14_binary",
    "C14_scale",
    "C14_scale_complex",
    "C14_fill",
    "C14_copy",
    "C14_copy_too_short",
    "C14_copy_to_split",
    "C14_copy_from_split",
    "C14_vector_view_binary",
    "C14_vector_view_unary",
    "C14_vector_view_copy",
    "C14_vector_view_multiply_add",
    "C14_matrix_binary",
    "C14_matrix_unary",
    "C14_matrix_copy"
   ],
   "note": ""
  },
  {
   "property": "C15",
   "status": "proved",
   "theorems": [
    "C15_mean",
    "C15_mean_bounds",
    "C15_mean_affine",
    "C15_variance",
    "C15_variance_sign",
    "C15_variance_affine",
    "C15_standard_deviation",
    "C15_long_vector_overflows"
   ],
   "note": ""
  },
  {
   "property": "C16",
   "status": "proved",
   "theorems": [
    "C16_allclose",
    "C16_allclose_complex",
    "C16_allclose_reflexive",
    "C16_allclose_default",
    "C16_allclose_default_reflexive",
    "C16_allclose_symmetric",
    "C16_allclose_monotone",
    "C16_allclose_exact",
    "C16_mismatched_extents_refuted",
    "C16_mse",
    "C16_complex_mse_refuted"
   ],
   "note": ""
  },
  {
   "property": "C17",
   "status": "proved",
   "theorems": [
    "C17_normalize_energy",
    "C17_normalize_energy_idempotent",
    "C17_normalize_energy_rescaled",
    "C17_normalize_peak",
    "C17_normalize_peak_idempotent",
    "C17_normalize_peak_rescaled"
   ],
   "note": ""
  },
  {
   "property": "C18",
   "status": "proved",
   "theorems": [
    "C18_normalize_impulse",
    "C18_normalize_impulse_vector"
   ],
   "note": ""
  },
  {
   "property": "C19",
   "status": "proved",
   "theorems": [
    "C19_bit_reversal",
    "C19_bit_reversal_scalar"
   ],
   "note": ""
  },
  {
   "property": "C20",
   "status": "proved",
   "theorems": [
    "C20_fft_is_dft",
    "C20_order_too_large_throws",
    "C20_order_zero_out_of_range"
   ],
   "note": "Real-number semantics; kernel v3, the one fft_plan uses. Order 0 and order > 27 characterised."
  },
  {
   "property": "C21",
   "status": "proved",
   "theorems": [
    "C21_round_trip",
    "C21_linear",
    "C21_parseval",
    "C21_convolution_theorem"
   ],
   "note": ""
  },
  {
   "property": "C22",
   "status": "proved",
   "theorems": [
    "C22_kernels_agree",
    "C22_plans_agree",
    "C22_v4_order1_differs"
   ],
   "note": "v4 differs from the others exactly at order 1, shown separately."
  },
  {
   "property": "C23",
   "status": "proved",
   "theorems": [
    "C23_split_fft",
    "C23_agrees_with_complex_plan",
    "C23_roundtrip",
    "C23_order_0_out_of_bounds"
   ],
   "note": ""
  },
  {
   "property": "C24",
   "status": "proved",
   "theorems": [
    "C24_rfft_forward",
    "C24_rfft_forward_long_output",
    "C24_plan_exists",
    "C24_real_bins"
   ],
   "note": ""
  },
  {
   "property": "C25",
   "status": "proved",
   "theorems": [
    "C25_irfft",
    "C25_roundtrip"
   ],
   "note": ""
  },
  {
   "property": "C26",
   "status": "proved",
   "theorems": [
    "C26_deinterleave"
   ],
   "note": ""
  },
  {
   "property": "C27",
   "status": "proved",
   "theorems": [
    "C27_dft_plan",
    "C27_constructor",
    "C27_roundtrip",
    "C27_size_0_out_of_bounds"
   ],
   "note": ""
  },
  {
   "property": "C28",
   "status": "proved",
   "theorems": [
    "C28_dft",
    "C28_roundtrip",
    "C28_in_place_refuted"
   ],
   "note": "Out of place proved; in place refuted."
  },
  {
   "property": "C29",
   "status": "proved",
   "theorems": [
    "C29_dif3_is_dft",
    "C29_dif5_is_dft"
   ],
   "note": ""
  },
  {
   "property": "C30",
   "status": "proved",
   "theorems": [
    "C30_stockham_dif3",
    "C30_stockham_dif4",
    "C30_stockham_dif5",
    "C30_stockham_dif8"
   ],
   "note": ""
  },
  {
   "property": "C31",
   "status": "proved",
   "theorems": [
    "C31_stockham2_runs_the_opposite_direction",
    "C31_stockham2_is_dft_refuted",
    "C31_stockham2_round_trip"
   ],
   "note": "The plans run the opposite direction: what they compute is proved, and the documented claim is refuted."
  },
  {
   "property": "C32",
   "status": "proved",
   "theorems": [
    "C32_radix4_computes_twisted_dft",
    "C32_radix4_is_dft_refuted",
    "C32_radix4_round_trip"
   ],
   "note": "The plans compute a sign-twisted DFT: characterised exactly, the documented claim is refuted at every order, the round trip is proved."
  },
  {
   "property": "C33",
   "status": "proved",
   "theorems": [
    "C33_dct",
    "C33_order_0_out_of_bounds"
   ],
   "note": ""
  },
  {
   "property": "C34",
   "status": "proved",
   "theorems": [
    "C34_digit_reversal"
   ],
   "note": ""
  },
  {
   "property": "C35",
   "status": "proved",
   "theorems": [
    "C35_forward",
    "C35_roundtrip",
    "C35_packed_dft_refuted",
    "C35_size_2_out_of_bounds"
   ],
   "note": "The documented packing is refuted at every size; what is packed instead and the round trip are proved."
  },
  {
   "property": "C36",
   "status": "proved",
   "theorems": [
    "C36_direct_convolve",
    "C36_direct_convolve_complex",
    "C36_into",
    "C36_commutative",
    "C36_bilinear",
    "C36_both_empty"
   ],
   "note": ""
  },
  {
   "property": "C37",
   "status": "proved",
   "theorems": [
    "C37_fft_convolve",
    "C37_empty",
    "C37_reused",
    "C37_single_samples_out_of_bounds"
   ],
   "note": ""
  },
  {
   "property": "C38",
   "status": "proved",
   "theorems": [
    "C38_num_frames",
    "C38_covers",
    "C38_empty_signal",
    "C38_no_hop_divides_by_zero"
   ],
   "note": "Empty signal and zero hop characterised."
  },
  {
   "property": "C39",
   "status": "proved",
   "theorems": [
    "C39_stft",
    "C39_constructor",
    "C39_stft_default",
    "C39_long_frame_out_of_bounds",
    "C39_window_cut_off_refuted"
   ],
   "note": "Frames longer than the transform are out of range; the Hann window over a longer transform does not end at zero."
  },
  {
   "property": "C40",
   "status": "proved",
   "theorems": [
    "C40_partitions",
    "C40_restores",
    "C40_any_block_size"
   ],
   "note": "Power-of-two blocks as stated; every other block size characterised through the stretched response."
  },
  {
   "property": "C41",
   "status": "proved",
   "theorems": [
    "C41_fdl_index"
   ],
   "note": ""
  },
  {
   "property": "C42",
   "status": "proved",
   "theorems": [
    "C42_overlap_save",
    "C42_block_size_3_refuted"
   ],
   "note": "Every power-of-two block size and filter length fitting the transform; block size 3 refuted."
  },
  {
   "property": "C43",
   "status": "proved",
   "theorems": [
    "C43_overlap_add",
    "C43_short_transform_out_of_bounds",
    "C43_long_filter_refuted"
   ],
   "note": "Stated sizes proved; short transforms are out of range for every block and callback, long filters refuted."
  },
  {
   "property": "C44",
   "status": "proved",
   "theorems": [
    "C44_upols",
    "C44_any_partition_size",
    "C44_partition_size_3_refuted",
    "C44_partition_size_1_out_of_bounds"
   ],
   "note": "Also every other partition size (stretched response, refuted for 3) and size 1 (out of range)."
  },
  {
   "property": "C45",
   "status": "proved",
   "theorems": [
    "C45_upola"
   ],
   "note": ""
  },
  {
   "property": "C46",
   "status": "proved",
   "theorems": [
    "C46_split",
    "C46_sparse",
    "C46_keep_all",
    "C46_convolution"
   ],
   "note": ""
  },
  {
   "property": "C47",
   "status": "proved",
   "theorems": [
    "C47_whole_blocks",
    "C47_like_upola_convolver",
    "C47_filter_again",
    "C47_fewer_partitions_out_of_bounds",
    "C47_part_block_refuted"
   ],
   "note": ""
  },
  {
   "property": "C48",
   "status": "proved",
   "theorems": [
    "C48_causal",
    "C48_causal_samples",
    "C48_linear",
    "C48_delay",
    "C48_reset"
   ],
   "note": "For arbitrary filter matrices and all six convolver classes; causality at block granularity, which is all that holds for arbitrary (e.g. sparse) matrices."
  },
  {
   "property": "C49",
   "status": "proved",
   "theorems": [
    "C49_history",
    "C49_error",
    "C49_out_of_bounds",
    "C49_overflow_refuted"
   ],
   "note": ""
  },
  {
   "property": "C50",
   "status": "proved",
   "theorems": [
    "C50_hann",
    "C50_hann_overlap",
    "C50_hamming",
    "C50_generate_window",
    "C50_rectangular",
    "C50_size_one_refuted"
   ],
   "note": ""
  },
  {
   "property": "C51",
   "status": "proved",
   "theorems": [
    "C51_decibel",
    "C51_decades",
    "C51_mel_inverse",
    "C51_mel_increasing",
    "C51_mel_frequencies",
    "C51_mel_frequencies_small"
   ],
   "note": ""
  },
  {
   "property": "C52",
   "status": "proved",
   "theorems": [
    "C52_rfftfreq",
    "C52_rfftfreq_vector",
    "C52_vector_overload_refuted"
   ],
   "note": ""
  },
  {
   "property": "C53",
   "status": "proved",
   "theorems": [
    "C53_field",
    "C53_complex",
    "C53_compound_assignment",
    "C53_conj",
    "C53_abs",
    "C53_components",
    "C53_imag_of_real_refuted"
   ],
   "note": ""
  },
  {
   "property": "C54",
   "status": "proved",
   "theorems": [
    "C54_convolve",
    "C54_convolve_missing_channels",
    "C54_convolve_long_signal",
    "C54_main"
   ],
   "note": ""
  },
  {
   "property": "C55",
   "status": "proved",
   "theorems": [
    "C55_overlap_add",
    "C55_block_sizes_do_not_matter",
    "C55_reset_starts_over",
    "C55_identity_has_gain_two",
    "C55_prepare_alone_does_not_clear"
   ],
   "note": ""
  },
  {
   "property": "C56",
   "status": "proved",
   "theorems": [
    "C56_simd_loop",
    "C56_simd_loop_split"
   ],
   "note": ""
  },
  {
   "property": "C57",
   "status": "proved",
   "theorems": [
    "C57_a_weighting",
    "C57_a_weighting_shape",
    "C57_a_weighting_reference"
   ],
   "note": ""
  },
  {
   "property": "C58",
   "status": "proved",
   "theorems": [
    "C58_load_and_prepare",
    "C58_convolution",
    "C58_sessions",
    "C58_default_passes_through",
    "C58_missing_channels",
    "C58_reset_silences_refuted"
   ],
   "note": ""
  },
  {
   "property": "C59",
   "status": "proved",
   "theorems": [
    "C59_dense",
    "C59_dense_missing_channels",
    "C59_sparse",
    "C59_sparse_keeps_all",
    "C59_sparse_silent",
    "C59_sparse_missing_channels",
    "C59_sparse_drops_bin_0_refuted"
   ],
   "note": "Bin selection in exact reals; zero low bins refutes that a low threshold gives the dense result."
  },
  {
   "property": "C60",
   "status": "proved",
   "theorems": [
    "C60_calls",
    "C60_stream",
    "C60_dry",
    "C60_process_blocks",
    "C60_other_block_sizes_out_of_bounds",
    "C60_failed_load_refuted",
    "C60_process_blocks_end_refuted"
   ],
   "note": "Refinement of call histories; the resampler is a parameter. Two expected behaviours are refuted: a failed load keeps the tail, processBlocks convolves the end of the signal."
  },
  {
   "property": "C61",
   "status": "proved",
   "theorems": [
    "C61_histogram",
    "C61_one_bucket",
    "C61_gain_invariant",
    "C61_quiet_bins_refuted",
    "C61_image",
    "C61_image_weights_refuted",
    "C61_image_flat",
    "C61_bars",
    "C61_bars_flat",
    "C61_no_bars_refuted"
   ],
   "note": "Levels in exact reals, finite weights. The image uses the weight of the mirrored bin (refuted), quiet bins share bucket 72 without weights, a histogram image without counts rounds a NaN."
  },
  {
   "property": "C62",
   "status": "proved",
   "theorems": [
    "C62_fast_log2",
    "C62_subnormal",
    "C62_subnormal_refuted",
    "C62_decibels",
    "C62_default_decibels"
   ],
   "note": "binary32 with all roundings. Zero and subnormals give about -127 to -126 (characterised; refuted as a logarithm)."
  },
  {
   "property": "C63",
   "status": "proved",
   "theorems": [
    "C63_fft_float",
    "C63_fft_float_bins",
    "C63_fft_double",
    "C63_roundtrip_float",
    "C63_roundtrip_double",
    "C63_kernels_bit_identical",
    "C63_exact"
   ],
   "note": "binary32 and binary64 with all roundings; assumes the C library cosine and sine are within 2^-24 (2^-53) and no fused multiply-add."
  },
  {
   "property": "C64",
   "status": "proved",
   "theorems": [
    "C64_fft_convolve_float",
    "C64_fft_convolve_double",
    "C64_partitioned_float",
    "C64_partitioned_double",
    "C64_split_bit_identical",
    "C64_partitioned_add_float",
    "C64_partitioned_add_double",
    "C64_split_add_bit_identical"
   ],
   "note": "binary32 and binary64 with all roundings, same assumptions on the C library as C63; norms of the operands between 2^-20 and 2^40 (partitioned: 2^20)."
  },
  {
   "property": "C65",
   "status": "proved",
   "theorems": [
    "C65_fft",
    "C65_fft_converted",
    "C65_round_trip",
    "C65_ortho_energy",
    "C65_size_throws",
    "C65_rejected",
    "C65_single_sample_out_of_bounds",
    "C65_crop_refuted",
    "C65_pad",
    "C65_pad_refuted",
    "C65_field_refuted",
    "C65_convolve",
    "C65_convolve_converted",
    "C65_convolve_rejected",
    "C65_matrix_operand_refuted",
    "C65_empty_operand_refuted",
    "C65_single_samples_out_of_bounds",
    "C65_double_input_refuted",
    "C65_rfftfreq",
    "C65_rfftfreq_length_refuted"
   ],
   "note": "Refinement to NumPy semantics of arrays. Cropping, padding, record-field strides, matrix operands, empty operands by FFT, double input and the length of rfftfreq are refuted."
  },
  {
   "property": "C66",
   "status": "proved",
   "theorems": [
    "C66_vdsp",
    "C66_mkl",
    "C66_ipp",
    "C66_ipp_copy",
    "C66_ipp_dft",
    "C66_ipp_dft_copy",
    "C66_split",
    "C66_interchangeable",
    "C66_interchangeable_dft",
    "C66_interchangeable_split",
    "C66_orders",
    "C66_order_zero",
    "C66_ipp_rfft",
    "C66_ipp_irfft",
    "C66_interchangeable_real",
    "C66_ipp_dct",
    "C66_ipp_dct_round_trip",
    "C66_dct_interchangeable_refuted",
    "C66_scale",
    "C66_scale_long_refuted"
   ],
   "note": "The library calls are contracts taken from the vendors' documentation. Agreement of the DCT between builds and scale of 2^31 elements with 32-bit BLAS are refuted."
  },
  {
   "property": "C67",
   "status": "proved",
   "theorems": [
    "C67_only_empty_plans_fail",
    "C67_full_plan_runs",
    "C67_empty_plan_undefined",
    "C67_ipp_moved_from_dangles",
    "C67_unique_owner",
    "C67_ipp_live_owned",
    "C67_leak_account",
    "C67_overwritten_is_leaked",
    "C67_all_released",
    "C67_no_leak_refuted"
   ],
   "note": "History invariant. Freedom from leaks is refuted for Accelerate and MKL; a moved-from IPP plan dangles."
  },
  {
   "property": "C68",
   "status": "proved",
   "theorems": [
    "C68_layouts",
    "C68_response",
    "C68_no_response",
    "C68_missing_channels",
    "C68_before_prepare",
    "C68_balanced",
    "C68_no_clicks",
    "C68_constant_mix",
    "C68_all_dry",
    "C68_automation",
    "C68_automation_clamped",
    "C68_defaults",
    "C68_latency_refuted",
    "C68_silence_refuted",
    "C68_tail_refuted",
    "C68_aligned_refuted"
   ],
   "note": "JUCE classes are contracts. That the reported latency and tail are right, that silence gives silence and that dry and wet are aligned is refuted."
  },
  {
   "property": "C69",
   "status": "proved",
   "theorems": [
    "C69_half8",
    "C69_half16",
    "C69_single",
    "C69_double",
    "C69_value",
    "C69_halves_agree",
    "C69_memory",
    "C69_broadcast",
    "C69_complex",
    "C69_abs",
    "C69_abs_accurate",
    "C69_abs_range_refuted",
    "C69_abs_small_refuted"
   ],
   "note": "NaN payloads and exception flags are not modelled. The accuracy of abs outside magnitudes 1/64 to 254 is refuted (infinite from 256, zero below 2^-13)."
  },
  {
   "property": "C70",
   "status": "proved",
   "theorems": [
    "C70_filter_change",
    "C70_bounded",
    "C70_rejected",
    "C70_level",
    "C70_convolution",
    "C70_threshold",
    "C70_attained"
   ],
   "note": "Real arithmetic: the cost of the changed bins alone, rounding is C62-C64. C70_threshold needs at least one low bin kept (otherwise bin 0 is always lost, C59)."
  },
  {
   "property": "C71",
   "status": "proved",
   "theorems": [
    "C71_error",
    "C71_error_practical",
    "C71_into",
    "C71_commutative",
    "C71_multiples_exact",
    "C71_impulse",
    "C71_commutative_refuted",
    "C71_agrees_with_fft"
   ],
   "note": "binary32 and binary64 with all roundings, no fused multiply-add. Bitwise commutativity is refuted for operands of equal length."
  },
  {
   "property": "C72",
   "status": "proved",
   "theorems": [
    "C72_mean",
    "C72_mean_practical",
    "C72_mean_multiples",
    "C72_mean_within_range_refuted",
    "C72_variance",
    "C72_mean_squared_error",
    "C72_mse_zero_refuted",
    "C72_normalize_peak",
    "C72_peak_exactly_one_refuted",
    "C72_normalize_energy",
    "C72_quiet_energy_refuted",
    "C72_normalize_impulse"
   ],
   "note": "binary32 and binary64 with all roundings, no fused multiply-add, std::sqrt correctly rounded. Peaks below 2^-126 or above 2^126 (float) are out of range. Mean within the range of the elements, peak exactly 1, zero error only for equal signals and normalisation of very quiet signals are refuted."
  },
  {
   "property": "C73",
   "status": "proved",
   "theorems": [
    "C73_any_schedule",
    "C73_one_plan_many_threads",
    "C73_shared_real_plan_refuted"
   ],
   "note": "Exact arithmetic; accesses of array elements are atomic and sequentially consistent (no races is proved). The portable complex and real plans. Sharing a real plan between threads is refuted."
  },
  {
   "property": "C74",
   "status": "proved",
   "theorems": [
    "C74_independent_of_data",
    "C74_complex_cost",
    "C74_complex_cost_bound",
    "C74_real_cost",
    "C74_schedule_length"
   ],
   "note": "Accesses of array elements as written in the source; what a compiler merges or keeps in registers is not modelled."
  },
  {
   "property": "C75",
   "status": "proved",
   "theorems": [
    "C75_bluestein",
    "C75_bluestein_plans_exist",
    "C75_rfft",
    "C75_irfft",
    "C75_real_roundtrip",
    "C75_stft",
    "C75_dct2",
    "C75_dft",
    "C75_plans_exist"
   ],
   "note": "binary32 and binary64 with all roundings, same assumptions on the C library as C63. The direct transform up to 2^18 points; plans of any size for inputs of norm up to X, 2^-20 <= X <= 2^40."
  },
  {
   "property": "C76",
   "status": "proved",
   "theorems": [
    "C76_sparse_file",
    "C76_neo_file",
    "C76_quality",
    "C76_renders",
    "C76_finishes",
    "C76_order",
    "C76_edit_when_idle",
    "C76_edit_while_rendering_refuted",
    "C76_snapshot_refuted",
    "C76_close",
    "C76_close_while_rendering_refuted",
    "C76_dense_files",
    "C76_dense_convolution_refuted"
   ],
   "note": "Exact arithmetic; JUCE's resampler and convolution are arbitrary functions, new buffers hold arbitrary values, listeners run at once, wall-clock times are left out. Safety under edits during a render, snapshots and closing during a render are refuted."
  },
  {
   "property": "C77",
   "status": "proved",
   "theorems": [
    "C77_percentage",
    "C77_definite",
    "C77_monotone",
    "C77_gain",
    "C77_start_ignored",
    "C77_positive",
    "C77_quiet_bins_refuted",
    "C77_short_response_refuted",
    "C77_tab"
   ],
   "note": "Exact arithmetic. Responses of up to 512 samples and ranges above 72 dB without weighting are refuted."
  },
  {
   "property": "C78",
   "status": "proved",
   "theorems": [
    "C78_forward",
    "C78_backward_only_reorders",
    "C78_backward_refuted",
    "C78_split",
    "C78_split_round_trip",
    "C78_split_functions"
   ],
   "note": "Exact arithmetic; xsimd operators act lane by lane. The backward direction of the interleaved register plan is refuted."
  },
  {
   "property": "C79",
   "status": "proved",
   "theorems": [
    "C79_success",
    "C79_writes",
    "C79_usage",
    "C79_mismatch",
    "C79_one_missing",
    "C79_both_missing_refuted",
    "C79_unwritable_refuted",
    "C79_high_rate_refuted",
    "C79_wav_round_trip"
   ],
   "note": "Exact samples; dr_wav and the file system are taken by their documentation; the third run (targets with _Float16) is left out. Two unreadable inputs, an output that cannot be created and rates of 2^31 and more are refuted."
  },
  {
   "property": "C80",
   "status": "proved",
   "theorems": [
    "C80_editors",
    "C80_prepare"
   ],
   "note": "juce::ListenerList by its documentation; single threaded; label layout left out."
  },
  {
   "property": "C81",
   "status": "proved",
   "theorems": [
    "C81_positions",
    "C81_values",
    "C81_save_restore",
    "C81_save_restore_settled",
    "C81_save_restore_refuted",
    "C81_invalid_data"
   ],
   "note": "JUCE (NormalisableRange, AudioProcessorValueTreeState) from its sources; exact numbers; trees without one of the parameters are left out. Saving the current values is refuted."
  },
  {
   "property": "C82",
   "status": "proved",
   "theorems": [
    "C82_split_radix_forward",
    "C82_split_radix_backward_refuted",
    "C82_split_radix_backward_small",
    "C82_stockham_fft",
    "C82_radix4_stockham",
    "C82_dit4_four",
    "C82_dit4_refuted",
    "C82_dit4_roundtrip",
    "C82_dit4_table_refuted",
    "C82_static_plan",
    "C82_dct"
   ],
   "note": "Exact arithmetic, 3.14159265359 taken as pi. Backward split-radix and radix-4 are refuted; the table overload of c2c_dit4 is refuted for tables long enough not to be read past their end."
  },
  {
   "property": "C83",
   "status": "proved",
   "theorems": [
    "C83_load",
    "C83_load_failed",
    "C83_long_file_refuted",
    "C83_load_and_resample",
    "C83_failed_load_resampled_refuted",
    "C83_rate_zero_refuted",
    "C83_write_then_load",
    "C83_existing_file_refuted",
    "C83_empty_buffer_undefined",
    "C83_other_depths"
   ],
   "note": "JUCE's readers, writers, streams and roundToInt() as documented; the resampler's samples and 8 to 24 bit quantisation are parameters."
  },
  {
   "property": "C84",
   "status": "proved",
   "theorems": [
    "C84_abs_integer",
    "C84_abs",
    "C84_polar",
    "C84_polar_covers",
    "C84_polar_negative_undefined"
   ],
   "note": "Exact reals for floats."
  },
  {
   "property": "C85",
   "status": "proved",
   "theorems": [
    "C85_fft",
    "C85_rfft",
    "C85_inverse",
    "C85_timed_loop",
    "C85_short_undefined"
   ],
   "note": "Exact reals for floats, 6.28318530717959F taken as 2 pi; the measured times are left out."
  },
  {
   "property": "C86",
   "status": "proved",
   "theorems": [
    "C86_split_plan",
    "C86_plans_agree",
    "C86_wrong_size_undefined",
    "C86_benchmarks_keep_signal"
   ],
   "note": "Exact reals for floats; clock, random signal and printing are left out; the interleaved benchmark rebuilds its plan per call."
  },
  {
   "property": "C87",
   "status": "proved",
   "theorems": [
    "C87_digit_reversal",
    "C87_digit_reversal_short",
    "C87_radix2",
    "C87_radix4_forward",
    "C87_radix4_backward_refuted",
    "C87_short_orders"
   ],
   "note": "Exact arithmetic; float quotients of Python that are whole numbers are natural divisions; the comparisons with numpy in the test functions are left out."
  },
  {
   "property": "C88",
   "status": "proved",
   "theorems": [
    "C88_planar_product",
    "C88_planar_product_q",
    "C88_fxp14_refuted",
    "C88_register_add_sub",
    "C88_register_widths",
    "C88_register_multiply_q15",
    "C88_register_multiply_neon",
    "C88_register_multiply_q7",
    "C88_register_product_q15",
    "C88_register_product_min_refuted",
    "C88_register_product_q7_refuted"
   ],
   "note": "Timing and the random contents of the arrays are left out; a register is the list of its lanes."
  },
  {
   "property": "C89",
   "status": "proved",
   "theorems": [
    "C89_multiply_add",
    "C89_clipped_once_refuted",
    "C89_accumulate",
    "C89_register_multiply_add"
   ],
   "note": "x and y are arrays other than the output; z may be the output."
  },
  {
   "property": "C90",
   "status": "proved",
   "theorems": [
    "C90_product",
    "C90_complex_product",
    "C90_reload",
    "C90_reload_array",
    "C90_distinct"
   ],
   "note": "Binary32 rounding modelled; complex products without fused operations, their instances being commented out in the benchmark."
  }
 ]
}