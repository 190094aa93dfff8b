{
 "claims": [
  {
   "property": "C01",
   "status": "proved",
   "theorems": [
    "C01_bitstream_is_a_list_of_bits",
    "C01_read_outside_throws",
    "C01_iarray",
    "C01_string_roundtrip",
    "C01_string_invalid"
   ],
   "note": ""
  },
  {
   "property": "C02",
   "status": "proved",
   "theorems": [
    "C02_pop_returns_the_bits",
    "C02_u32_anywhere",
    "C02_words_roundtrip",
    "C02_append_keeps_read_position_refuted"
   ],
   "note": "Reading a word at any offset of any program-built stream; finding: append onto a stream being read resets nothing, see _refuted."
  },
  {
   "property": "C03",
   "status": "proved",
   "theorems": [
    "C03_hamming",
    "C03_equality",
    "C03_equality_ignores_length_refuted",
    "C03_equality_of_contents_refuted",
    "C03_resize_clears_refuted"
   ],
   "note": "Equality and Hamming distance on append-built streams; three counterexamples for the stronger documented reading."
  },
  {
   "property": "C04",
   "status": "proved",
   "theorems": [
    "C04_pad_mult",
    "C04_altern_length",
    "C04_altern_returns_n_bits_refuted"
   ],
   "note": "altern(n) yields n+2 bits (finding)."
  },
  {
   "property": "C05",
   "status": "proved",
   "theorems": [
    "C05_symmap_values",
    "C05_symmap_then_symdemap",
    "C05_symdemap_then_symmap",
    "C05_symmap_bad_k",
    "C05_symmap_31_bits_refuted"
   ],
   "note": "1<=k<=30 (above, the code overflows int: finding)."
  },
  {
   "property": "C06",
   "status": "proved",
   "theorems": [
    "C06_diff_encode",
    "C06_documented_decoder_inverts",
    "C06_diff_decode_actual",
    "C06_decode_encode_refuted",
    "C06_decode_hard",
    "C06_decode_hard_doc_refuted",
    "C06_Barker_sidelobes",
    "C06_Barker_other_lengths"
   ],
   "note": "Encoder proved; decoder characterised exactly and documented law refuted."
  },
  {
   "property": "C07",
   "status": "proved",
   "theorems": [
    "C07_mls",
    "C07_all_states_visited_once",
    "C07_window_property",
    "C07_other_degrees",
    "C07_default_generator",
    "C07_default_generator_start_refuted"
   ],
   "note": "Periods and numbers of ones of the 16 table polynomials are finite computations inside Coq; autocorrelation, window property and state visit derived for all shifts and states."
  },
  {
   "property": "C08",
   "status": "proved",
   "theorems": [
    "C08_generator_recurrence",
    "C08_blocks",
    "C08_clean_lock",
    "C08_link",
    "C08_counts_errors",
    "C08_loses_and_reacquires",
    "C08_locks_only_on_signal_refuted"
   ],
   "note": "Counters unbounded in the model (uint64_t in the code); finding: constant zero input locks."
  },
  {
   "property": "C09",
   "status": "proved",
   "theorems": [
    "C09_packets",
    "C09_packets_spec",
    "C09_zero_terminates_refuted",
    "C09_reconfigure_refuted"
   ],
   "note": "Findings: N=0 loops for ever; reconfiguration keeps the old buffer."
  },
  {
   "property": "C10",
   "status": "proved",
   "theorems": [
    "C10_convolution",
    "C10_empty_throws"
   ],
   "note": "Exact arithmetic (any commutative ring); empty coefficient vector throws."
  },
  {
   "property": "C11",
   "status": "proved",
   "theorems": [
    "C11_delay"
   ],
   "note": ""
  },
  {
   "property": "C12",
   "status": "proved",
   "theorems": [
    "C12_decimates"
   ],
   "note": ""
  },
  {
   "property": "C13",
   "status": "proved",
   "theorems": [
    "C13_difference_equation",
    "C13_unique",
    "C13_constant_denominator_refuted"
   ],
   "note": "Exact arithmetic (any field); constant denominator is UB (finding)."
  },
  {
   "property": "C14",
   "status": "proved",
   "theorems": [
    "C14_mean"
   ],
   "note": "Exact arithmetic (any field)."
  },
  {
   "property": "C15",
   "status": "proved",
   "theorems": [
    "C15_lexp",
    "C15_lexp_constant",
    "C15_dc",
    "C15_dc_constant"
   ],
   "note": "Exact arithmetic (any commutative ring)."
  },
  {
   "property": "C16",
   "status": "proved",
   "theorems": [
    "C16_correlation",
    "C16_palindrome_iff",
    "C16_rejects_empty",
    "C16_filter_then_decimate_refuted"
   ],
   "note": "Exact arithmetic (any commutative ring). Palindromic iff the documented filter-then-decimate law holds."
  },
  {
   "property": "C17",
   "status": "proved",
   "theorems": [
    "C17_oversample",
    "C17_construct",
    "C17_filter_order_refuted"
   ],
   "note": "Exact arithmetic; finding: coefficients are applied in reverse order."
  },
  {
   "property": "C18",
   "status": "proved",
   "theorems": [
    "C18_half_band",
    "C18_same_as_decimator",
    "C18_symmetric",
    "C18_any_filter",
    "C18_design",
    "C18_design_then_filter_refuted"
   ],
   "note": "Exact arithmetic; finding: filters designed with n = 1 mod 4 taps have their nonzero taps skipped."
  },
  {
   "property": "C19",
   "status": "proved",
   "theorems": [
    "C19_roundtrip",
    "C19_edges"
   ],
   "note": ""
  },
  {
   "property": "C20",
   "status": "proved",
   "theorems": [
    "C20_decimator_one_block",
    "C20_interpolator_one_block",
    "C20_block_independence_refuted",
    "C20_short_block_refuted"
   ],
   "note": "Output gain and int overflow left out; findings: block dependence, short blocks."
  },
  {
   "property": "C21",
   "status": "proved",
   "theorems": [
    "C21_lagrange",
    "C21_ordered_field_distinct",
    "C21_linear",
    "C21_cspline"
   ],
   "note": "Exact arithmetic; the quantisation of tau to 1/256 by the spline table is outside (each table column is proved). Sinc interpolator not modelled."
  },
  {
   "property": "C22",
   "status": "proved",
   "theorems": [
    "C22_linear",
    "C22_cspline",
    "C22_value_determined",
    "C22_size_mismatch",
    "C22_any_order_refuted"
   ],
   "note": "Linear and natural cubic spline modes, exact arithmetic in any ordered field; finding: decreasing queries."
  },
  {
   "property": "C23",
   "status": "proved",
   "theorems": [
    "C23_radix2"
   ],
   "note": "Exact arithmetic (a field with roots of unity; the complex numbers are an instance)."
  },
  {
   "property": "C24",
   "status": "proved",
   "theorems": [
    "C24_fft",
    "C24_fft_complex",
    "C24_rfft",
    "C24_empty",
    "C24_fftshift"
   ],
   "note": "Lengths 1 to 2^29; exact arithmetic; the next power of two is computed with an exact logarithm. Spelled out over the complex numbers in C24_fft_complex."
  },
  {
   "property": "C25",
   "status": "proved",
   "theorems": [
    "C25_ifft_fft",
    "C25_reorder",
    "C25_parseval",
    "C25_convolution"
   ],
   "note": "Both directions, Parseval and the convolution law; exact arithmetic."
  },
  {
   "property": "C26",
   "status": "proved",
   "theorems": [
    "C26_ccorr",
    "C26_xcorr",
    "C26_mismatch_refuted"
   ],
   "note": "Circular and linear correlations; finding: length mismatch gives a null result."
  },
  {
   "property": "C27",
   "status": "proved",
   "theorems": [
    "C27_filter",
    "C27_complex_input",
    "C27_identity",
    "C27_long_refuted"
   ],
   "note": "1 to 512 real coefficients; findings: imaginary part of complex inputs is dropped, more than 512 coefficients is UB. The windowed variant is not part of this claim."
  },
  {
   "property": "C28",
   "status": "proved",
   "theorems": [
    "C28_fwht",
    "C28_twice",
    "C28_matrix",
    "C28_orthogonal",
    "C28_matrix_zero_refuted",
    "C28_matrix_three_refuted",
    "C28_three_refuted"
   ],
   "note": "Exact arithmetic (any field where 2 is not 0); findings: sizes which are not powers of two."
  },
  {
   "property": "C29",
   "status": "proved",
   "theorems": [
    "C29_offline",
    "C29_bounds",
    "C29_streaming"
   ],
   "note": "Exact arithmetic; offline value over the real numbers with the true cosine, streaming over any field."
  },
  {
   "property": "C30",
   "status": "proved",
   "theorems": [
    "C30_horner",
    "C30_vers_coefs",
    "C30_linear",
    "C30_product",
    "C30_power",
    "C30_shift",
    "C30_mixed_product_refuted",
    "C30_shift_roots_refuted"
   ],
   "note": "Exact arithmetic (any commutative ring); findings: roots * coefficients product off by 1, shift of a roots-mode polynomial."
  },
  {
   "property": "C31",
   "status": "proved",
   "theorems": [
    "C31_sum",
    "C31_product",
    "C31_quotient",
    "C31_simplify",
    "C31_scalars",
    "C31_inverse",
    "C31_power",
    "C31_developed",
    "C31_fir",
    "C31_fir_back",
    "C31_iir",
    "C31_inverse_z",
    "C31_iir_refuted",
    "C31_coefs_rif_refuted",
    "C31_z_power",
    "C31_z_power_refuted"
   ],
   "note": "Exact arithmetic (any field); findings: operator precedence in eval_inv_z/rii, coefs_rif, z_power of negative exponents. Operands of mixed representations restricted by the C30 finding."
  },
  {
   "property": "C32",
   "status": "proved",
   "theorems": [
    "C32_round_trip",
    "C32_back",
    "C32_instant",
    "C32_order",
    "C32_full_hour",
    "C32_year_10000_refuted",
    "C32_negative_refuted",
    "C32_invalid_date_refuted"
   ],
   "note": "Years 1 to 9999, with the double precision steps of the code (Flocq rounding). Findings: invalid dates accepted, instants before 1/1/1, year 10000."
  },
  {
   "property": "C33",
   "status": "proved",
   "theorems": [
    "C33_leap",
    "C33_month_length",
    "C33_valid",
    "C33_first",
    "C33_next",
    "C33_next_valid",
    "C33_julian",
    "C33_j2000_refuted"
   ],
   "note": "Julian days at every midnight and noon (double precision); finding: J2000() is off by 36525 days. Sidereal time not modelled."
  },
  {
   "property": "C34",
   "status": "proved",
   "theorems": [
    "C34_to_gps",
    "C34_from_gps",
    "C34_round_trip",
    "C34_back",
    "C34_2048_refuted"
   ],
   "note": "All microsecond instants from the epoch to January 2048, double precision included; finding: int overflow (UB) from then on. vers_GPS_us not modelled."
  },
  {
   "property": "C35",
   "status": "proved",
   "theorems": [
    "C35_float_round_trip",
    "C35_pcm16_round_trip",
    "C35_mono",
    "C35_stereo",
    "C35_extra_chunks",
    "C35_seek_mono16",
    "C35_restart",
    "C35_position",
    "C35_partial_frames_refuted",
    "C35_large_files_refuted",
    "C35_header_fields_refuted",
    "C35_chunk_loop_refuted",
    "C35_seek_refuted"
   ],
   "note": "Byte-exact file model with IEEE floats (Flocq); files below 2^29 bytes. Findings: larger files, partial frames, header fields, endless loop on a crafted chunk, seek/restart. The float product time * rate of recherche is not modelled."
  },
  {
   "property": "C36",
   "status": "proved",
   "theorems": [
    "C36_copy_value",
    "C36_assign_value",
    "C36_copy_is_a_snapshot",
    "C36_original_intact",
    "C36_families_stay_apart",
    "C36_element_write",
    "C36_segment_is_a_view",
    "C36_segment_write",
    "C36_tail_is_a_view",
    "C36_segment_assign",
    "C36_segment_assign_ok",
    "C36_column_is_a_view",
    "C36_segment_assign_wrong_size_ignored",
    "C36_resize_leaves_views_dangling",
    "C36_overlapping_assignment_undefined",
    "C36_block_only_float",
    "C36_assign_from_segment_aliases_refuted",
    "C36_block_stride_refuted",
    "C36_conservative_resize_2d_refuted"
   ],
   "note": "All programs over array variables (one element type): copies are snapshots, families stay apart under any interleaving, segment/tail/column views read and write exactly their range. Findings: size-mismatched segment assignment is ignored, resize leaves views dangling, overlapping assignment is undefined, block() only works for float and reads with the wrong stride, conservativeResize scrambles matrices, y = x.segment() aliases."
  },
  {
   "property": "C37",
   "status": "proved",
   "theorems": [
    "C37_read_checked",
    "C37_plain_programs_defined",
    "C37_write_checked",
    "C37_negative_start_undefined",
    "C37_long_tail_undefined",
    "C37_column_past_end_undefined",
    "C37_write_2d_unchecked"
   ],
   "note": "Element reads throw exactly out of range; programs without views are never undefined. Findings: negative segment offsets, tail(n) too long, col(cols()), unchecked 2-D writes. int overflow of sizes not modelled."
  },
  {
   "property": "C38",
   "status": "proved",
   "theorems": [
    "C38_vconcat",
    "C38_vconcat_matrix_refuted",
    "C38_vconcat_matrix_not_float",
    "C38_hconcat_refuted",
    "C38_rotation",
    "C38_rotation_compose",
    "C38_rotation_back",
    "C38_rotation_refuted",
    "C38_resampling",
    "C38_downsampling",
    "C38_diff_cumsum",
    "C38_cumsum_diff",
    "C38_cumsum",
    "C38_pad_zeros",
    "C38_integer_range",
    "C38_linspace"
   ],
   "note": "Any element type / ring. vconcat on the heap model of arrays; findings: matrix vconcat/hconcat, rotation by less than -n throws."
  },
  {
   "property": "C39",
   "status": "proved",
   "theorems": [
    "C39_find_all",
    "C39_find_first",
    "C39_first_local_maximum",
    "C39_find_last_refuted",
    "C39_find_last_actual",
    "C39_subvector",
    "C39_mask"
   ],
   "note": "Finding: trouve_dernier returns the position of the last false plus one."
  },
  {
   "property": "C40",
   "status": "proved",
   "theorems": [
    "C40_modulo",
    "C40_modulo_other",
    "C40_modulo_2pi",
    "C40_modulo_pm_pi",
    "C40_unwrap_congruent",
    "C40_unwrap_continuous",
    "C40_unwrap_inverts",
    "C40_unwrap_modulo",
    "C40_unwrap_other_range_refuted",
    "C40_unwrap_empty",
    "C40_float_modulo_refuted"
   ],
   "note": "Exact arithmetic over the reals; findings: other ranges than 2 pi still jump, empty vector throws, float rounding makes modulo leave its range (Flocq witness)."
  },
  {
   "property": "C41",
   "status": "proved",
   "theorems": [
    "C41_levinson",
    "C41_unique",
    "C41_levinson_throws",
    "C41_levinson_real",
    "C41_covariance_matrix",
    "C41_levinson_real_short",
    "C41_definite",
    "C41_lpc",
    "C41_lpc_documented_refuted"
   ],
   "note": "Exact arithmetic in any field; hypothesis: non-singular leading blocks (shown to follow from a definite quadratic form). lpc takes the correlation as given; finding: its documented sign is opposite."
  },
  {
   "property": "C42",
   "status": "proved",
   "theorems": [
    "C42_nearest",
    "C42_roundtrip",
    "C42_noise",
    "C42_qam_sizes",
    "C42_context",
    "C42_pi4_context",
    "C42_blocks",
    "C42_pi4_blocks_refuted"
   ],
   "note": "Exact arithmetic over the reals; ASK, PSK, QAM, FSK symbols, pi/4-QPSK. The search starts from 1e100 so received points must be that close. Findings: decoding a pi/4-QPSK stream in several calls restarts the alternation."
  },
  {
   "property": "C43",
   "status": "proved",
   "theorems": [
    "C43_matrix",
    "C43_too_short",
    "C43_target",
    "C43_least_squares",
    "C43_never_exact"
   ],
   "note": "Matrix over any commutative ring; the Eigen linear solver is a parameter, assumed to solve the normal equations in C43_least_squares. Findings: out-of-range writes for n < m in the matrix function, and of the target for (m,n) = (1,1), (1,2)."
  },
  {
   "property": "C44",
   "status": "proved",
   "theorems": [
    "C44_unit",
    "C44_rot_mat",
    "C44_rotate",
    "C44_axis_angle",
    "C44_isometry",
    "C44_inverse",
    "C44_identity",
    "C44_from_matrix",
    "C44_rebuild",
    "C44_elementary",
    "C44_cardan",
    "C44_cardan_from_matrix",
    "C44_cardan_from_quaternion",
    "C44_cardan_conventions_refuted",
    "C44_gimbal_lock_refuted",
    "C44_mat_refuted"
   ],
   "note": "Exact arithmetic over the reals. Findings: Cardan(q) has the convention opposite to Cardan(R), gimbal lock, mat() is never a homogeneous rotation matrix."
  },
  {
   "property": "C45",
   "status": "proved",
   "theorems": [
    "C45_dsss",
    "C45_dsss_despread",
    "C45_dsss_rejects",
    "C45_fhss",
    "C45_fhss_sequence_refuted",
    "C45_fhss_default_slot_refuted"
   ],
   "note": "Exact arithmetic; the half-band filter and the interpolator of the rate adapter are parameters. FHSS: first call only. Findings: FHSS oscillator index out of bounds, hop values unused, default slot duration loops for ever."
  },
  {
   "property": "C46",
   "status": "proved",
   "theorems": [
    "C46_direct_form_1",
    "C46_direct_form_2",
    "C46_direct_form_2_equation",
    "C46_chain",
    "C46_first_order_section",
    "C46_forms_agree_refuted"
   ],
   "note": "Direct form I satisfies the equation at every index, direct form II from the third sample on (first two samples given through the auxiliary signal); the two forms disagree on the start (finding). Root pairing in ChaineSOIS not modelled."
  },
  {
   "property": "C47",
   "status": "proved",
   "theorems": [
    "C47_product",
    "C47_product_cascade",
    "C47_product_response",
    "C47_filter",
    "C47_zero_phase",
    "C47_zero_phase_swap",
    "C47_kind",
    "C47_linear_phase",
    "C47_reversal",
    "C47_reversal_filter",
    "C47_inversion",
    "C47_inversion_kind",
    "C47_rational",
    "C47_moving_average",
    "C47_differentiator",
    "C47_differentiator_odd_refuted",
    "C47_differentiator_centred_refuted",
    "C47_differentiator_centred_even_refuted",
    "C47_differentiator_2_refuted",
    "C47_lexp_conversions",
    "C47_notch",
    "C47_dc_blocker",
    "C47_lexp_gain",
    "C47_lexp_cutoff_refuted"
   ],
   "note": "Exact arithmetic. Findings: differentiators of odd order (default form) and all centred ones do not differentiate, order 2 has the opposite sign; the exponential filter does not have its -3 dB point at fc."
  },
  {
   "property": "C48",
   "status": "proved",
   "theorems": [
    "C48_T_cos",
    "C48_T_recurrence",
    "C48_T_degree",
    "C48_T_product",
    "C48_T_compose",
    "C48_U_refuted",
    "C48_negative_refuted",
    "C48_T_bound",
    "C48_second_kind",
    "C48_U_value_refuted",
    "C48_dirichlet",
    "C48_sinc",
    "C48_sinc_integers"
   ],
   "note": "Over the reals. Findings: Chebychev_U returns T_n, a negative degree gives a constant."
  },
  {
   "property": "C49",
   "status": "proved",
   "theorems": [
    "C49_delay",
    "C49_back",
    "C49_too_far"
   ],
   "note": ""
  },
  {
   "property": "C50",
   "status": "proved",
   "theorems": [
    "C50_resampled",
    "C50_count",
    "C50_unique",
    "C50_linear",
    "C50_lagrange",
    "C50_configuration",
    "C50_invalid_ratio",
    "C50_cascade",
    "C50_identity",
    "C50_near_one_refuted"
   ],
   "note": "Exact arithmetic (real phase, no accumulated rounding); half-band filter and sinc interpolator are parameters, linear and Lagrange ones concrete. Finding: ratios within 1e-6 of 1 are treated as 1."
  },
  {
   "property": "C52",
   "status": "proved",
   "theorems": [
    "C52_sawtooth",
    "C52_triangle",
    "C52_triangle_odd_refuted",
    "C52_square",
    "C52_square_odd_refuted",
    "C52_small_period_refuted",
    "C52_impulse",
    "C52_nyquist"
   ],
   "note": "Exact arithmetic over the reals; findings for odd periods and too small periods. p = 1 of sigscie (0/0) is excluded."
  },
  {
   "property": "C53",
   "status": "proved",
   "theorems": [
    "C53_source_complex",
    "C53_source_real",
    "C53_retune",
    "C53_sigexp",
    "C53_table_interpolates",
    "C53_table_grid",
    "C53_table_periodic",
    "C53_table_modulus"
   ],
   "note": "Exact arithmetic over the reals (no rounding drift)."
  },
  {
   "property": "C54",
   "status": "proved",
   "theorems": [
    "C54_exact_on_affine",
    "C54_linear",
    "C54_trapezoids",
    "C54_degenerate"
   ],
   "note": "Exact arithmetic in any field."
  },
  {
   "property": "C55",
   "status": "proved",
   "theorems": [
    "C55_blocks",
    "C55_count",
    "C55_transparent",
    "C55_transparent_cma",
    "C55_null_step",
    "C55_cma_dfe_is_ffe",
    "C55_descent"
   ],
   "note": "Exact arithmetic over the reals; the window shift (memcpy on overlapping blocks, formally undefined) is taken as memmove. Finding: the backward filter never adapts with CMA."
  },
  {
   "property": "C56",
   "status": "proved",
   "theorems": [
    "C56_complex",
    "C56_real",
    "C56_carrier"
   ],
   "note": "Exact arithmetic over the reals; the image filter is a parameter. The configured ratio_ar is never used by the code."
  },
  {
   "property": "C57",
   "status": "proved",
   "theorems": [
    "C57_length_range",
    "C57_symmetric",
    "C57_peak",
    "C57_ends",
    "C57_overlap_hann",
    "C57_overlap_blackman",
    "C57_overlap_triangle",
    "C57_sum",
    "C57_odd_periodic_refuted",
    "C57_names"
   ],
   "note": "Exact arithmetic over the reals. Finding: odd periodic windows do not have period n."
  },
  {
   "property": "C58",
   "status": "proved",
   "theorems": [
    "C58_chebyshev_normalised",
    "C58_chebyshev_attenuation",
    "C58_kaiser",
    "C58_kaiser_param"
   ],
   "note": "Exact arithmetic over the reals; the inverse DFT is taken from its specification; the Bessel function is any positive non-decreasing function. Slepian windows are not modelled."
  },
  {
   "property": "C59",
   "status": "proved",
   "theorems": [
    "C59_lowpass_taps",
    "C59_lowpass_gain",
    "C59_linear_phase",
    "C59_complementary",
    "C59_bandpass",
    "C59_halfband",
    "C59_allpass",
    "C59_kaiser",
    "C59_chebyshev",
    "C59_errors",
    "C59_even_band_refuted",
    "C59_even_refuted",
    "C59_alias_refuted"
   ],
   "note": "Exact arithmetic over the reals (cut-offs above 1e-7, the threshold of sinc). Findings: even orders (band-pass throws, band-stop is undefined behaviour, low-pass not symmetric), lp and pb documented as equivalent differ."
  },
  {
   "property": "C60",
   "status": "proved",
   "theorems": [
    "C60_gaussian",
    "C60_bt_is_3dB",
    "C60_gaussian_telecom",
    "C60_telecom_symmetric_refuted",
    "C60_cs_spectrum",
    "C60_rcs_spectrum",
    "C60_zero_crossings",
    "C60_no_interference",
    "C60_cs_gain",
    "C60_rcs_design"
   ],
   "note": "Exact arithmetic over the reals; instants within 1e-7 of the removable singularities, where the code uses the limit, are excluded. Finding: the telecom Gaussian filter is never symmetric for osf >= 2."
  },
  {
   "property": "C61",
   "status": "proved",
   "theorems": [
    "C61_design",
    "C61_errors",
    "C61_stream",
    "C61_tone",
    "C61_quadrature",
    "C61_dft",
    "C61_dft_real_part_refuted"
   ],
   "note": "Exact arithmetic. Finding: hilbert_tfd doubles the DC bin (and drops the Nyquist bin), so the real part of the analytic signal differs from the input by its mean."
  },
  {
   "property": "C62",
   "status": "proved",
   "theorems": [
    "C62_response",
    "C62_freqs",
    "C62_interpolated",
    "C62_single_throws",
    "C62_grid_refuted"
   ],
   "note": "Exact arithmetic over the complex numbers. Findings: the interpolation grid k/(2M) is not the documented grid k/(2M-1); one coefficient throws."
  },
  {
   "property": "C63",
   "status": "proved",
   "theorems": [
    "C63_stable",
    "C63_prototype",
    "C63_response",
    "C63_gains",
    "C63_names",
    "C63_unknown_name_refuted"
   ],
   "note": "Exact arithmetic over the reals. Finding: unknown type names design a low-pass."
  },
  {
   "property": "C64",
   "status": "proved",
   "theorems": [
    "C64_frequencies",
    "C64_bilinear",
    "C64_bilinear_stable",
    "C64_bilinear_coefficients_refuted",
    "C64_lowpass",
    "C64_highpass",
    "C64_stable",
    "C64_highpass_sign_refuted"
   ],
   "note": "Exact arithmetic over the complex numbers. Findings: sign of the high-pass change; coefficient form refused. The band-pass change (unreachable from design_riia) is not modelled."
  },
  {
   "property": "C65",
   "status": "proved",
   "theorems": [
    "C65_prototype",
    "C65_lowpass",
    "C65_monotone",
    "C65_highpass",
    "C65_highpass_sign_refuted",
    "C65_types_refuted",
    "C65_unknown"
   ],
   "note": "Exact arithmetic. Findings: odd-order high-pass filters are inverted; band-pass and band-stop always throw."
  },
  {
   "property": "C66",
   "status": "proved",
   "theorems": [
    "C66_type1_prototype",
    "C66_type1_lowpass",
    "C66_type1_highpass",
    "C66_type1_ripple",
    "C66_even_order_refuted",
    "C66_type2_prototype",
    "C66_type2_lowpass",
    "C66_type2_highpass",
    "C66_type2_stopband"
   ],
   "note": "Exact arithmetic. Type II of odd order is excluded: one of its zeros is 1/0 in exact arithmetic (1/cos(pi/2) in floating point). Finding: even-order type I filters amplify by d dB. The elliptic prototype is not modelled."
  },
  {
   "property": "C67",
   "status": "proved",
   "theorems": [
    "C67_blocks",
    "C67_oscillator",
    "C67_order1",
    "C67_order2",
    "C67_filter1",
    "C67_filter2",
    "C67_reset",
    "C67_real_pll"
   ],
   "note": "Exact arithmetic over the reals; the oscillator table is modelled with its interpolation error. PLLConfig.freq and sortie_porteuse are ignored by the code. The low-pass filter of the real PLL is modelled but no locking property is stated for it."
  },
  {
   "property": "C68",
   "status": "proved",
   "theorems": [
    "C68_default",
    "C68_tan_loop",
    "C68_power_loop",
    "C68_costas2",
    "C68_costas4",
    "C68_costas_sizes",
    "C68_decision",
    "C68_auto",
    "C68_auto_psk",
    "C68_qpsk_sign_refuted"
   ],
   "note": "Exact arithmetic. Finding: the automatic detector repels the loop from the QPSK points of the library."
  },
  {
   "property": "C69",
   "status": "proved",
   "theorems": [
    "C69_candan_exact",
    "C69_fft_half_bin",
    "C69_quadratic",
    "C69_range",
    "C69_quadratic_impulse_refuted",
    "C69_candan_range_refuted",
    "C69_peak_even",
    "C69_peak_tone",
    "C69_peak_odd_refuted"
   ],
   "note": "Exact arithmetic over the complex numbers; index_max returns the first index of the largest element (ties matter only where the statements do not depend on them). Findings listed in the statement."
  },
  {
   "property": "C70",
   "status": "proved",
   "theorems": [
    "C70_axis_even",
    "C70_axis_odd_refuted",
    "C70_psd_even",
    "C70_psd_real_refuted",
    "C70_welch",
    "C70_welch_last_refuted",
    "C70_welch_one_refuted"
   ],
   "note": "Exact arithmetic; spectra before the conversion to decibels. Findings listed in the statement."
  },
  {
   "property": "C71",
   "status": "proved",
   "theorems": [
    "C71_best",
    "C71_align_best",
    "C71_peak",
    "C71_exact",
    "C71_integer",
    "C71_align",
    "C71_null_refuted",
    "C71_align_silence_refuted",
    "C71_coherence_refuted"
   ],
   "note": "Exact arithmetic over the complex numbers; sizes up to 2^29/3 (the transforms of the code). Findings listed in the statement."
  },
  {
   "property": "C72",
   "status": "proved",
   "theorems": [
    "C72_readings",
    "C72_rate",
    "C72_lock",
    "C72_direction",
    "C72_linear",
    "C72_detector_refuted",
    "C72_two_samples_refuted",
    "C72_overflow_refuted"
   ],
   "note": "Exact arithmetic; the plots are not modelled; the second algorithm (clock_rec2_init) is not covered. Findings listed in the statement."
  },
  {
   "property": "C73",
   "status": "proved",
   "theorems": [
    "C73_formula",
    "C73_noise",
    "C73_constant",
    "C73_scale",
    "C73_start_refuted"
   ],
   "note": "Exact real arithmetic, NaN modelled as None. Finding: NaN outputs at the start."
  },
  {
   "property": "C74",
   "status": "proved",
   "theorems": [
    "C74_score",
    "C74_range",
    "C74_select",
    "C74_match",
    "C74_found",
    "C74_precise",
    "C74_neighbour_refuted",
    "C74_one_sample_refuted",
    "C74_boundary_refuted"
   ],
   "note": "Exact arithmetic; FIR mode only (not the overlap-add mode); the noise and SNR fields of a detection are not modelled. Findings listed in the statement."
  },
  {
   "property": "C75",
   "status": "proved",
   "theorems": [
    "C75_real",
    "C75_complex",
    "C75_kernel",
    "C75_integer",
    "C75_continuous",
    "C75_energy",
    "C75_energy_real",
    "C75_imaginary_refuted",
    "C75_empty_refuted"
   ],
   "note": "Exact arithmetic; lengths up to 2^28 (2^29 for the real transforms). Findings listed in the statement."
  },
  {
   "property": "C76",
   "status": "proved",
   "theorems": [
    "C76_accepts",
    "C76_rejects",
    "C76_linear",
    "C76_flush",
    "C76_nrz",
    "C76_unshaped",
    "C76_one_per_symbol",
    "C76_power_nrz",
    "C76_delay",
    "C76_symmetric",
    "C76_matched",
    "C76_matched_weights",
    "C76_nrz_link",
    "C76_fsk_envelope",
    "C76_fsk_phase",
    "C76_fsk_restarts",
    "C76_fsk_continuity_refuted",
    "C76_fsk_deviation_refuted",
    "C76_emitter",
    "C76_emitter_header",
    "C76_retard_refuted"
   ],
   "note": "Exact arithmetic; int overflow of the number of taps not modelled; emitter theorems for the linear modulations only. Findings listed in the statement."
  },
  {
   "property": "C77",
   "status": "proved",
   "theorems": [
    "C77_dwt",
    "C77_dwt_full",
    "C77_dwt_total",
    "C77_dwt_injective",
    "C77_iwt_total",
    "C77_end_refuted",
    "C77_one_level_back",
    "C77_one_level_back_2",
    "C77_reconstruction_refuted",
    "C77_haar",
    "C77_energy_refuted",
    "C77_haar_reconstruction_refuted",
    "C77_db2",
    "C77_d4",
    "C77_polyphase",
    "C77_qmf",
    "C77_synthesis_refuted"
   ],
   "note": "Exact arithmetic; static initialisation order of Poly::z and the old wavelet classes under #if 0 not modelled. Findings listed in the statement."
  },
  {
   "property": "C78",
   "status": "proved",
   "theorems": [
    "C78_real_design",
    "C78_repfreq",
    "C78_tone",
    "C78_frmag_rif",
    "C78_frmag_rii",
    "C78_frmag_long_refuted",
    "C78_repech",
    "C78_repimp_rif",
    "C78_repimp_rii",
    "C78_gains",
    "C78_kind",
    "C78_kind_clear",
    "C78_kind_refuted",
    "C78_filter_kind",
    "C78_lowpass_refuted",
    "C78_phase",
    "C78_group_delay",
    "C78_symmetric",
    "C78_group_delay_symmetric",
    "C78_long_delay_refuted",
    "C78_filtrer_rational",
    "C78_delay_refuted"
   ],
   "note": "Exact arithmetic; magnitudes of taps for 2 n up to 2^29; the chains of second-order sections used by filtrer are a parameter here (see C46); lobe analysis and plots not modelled. Findings listed in the statement."
  },
  {
   "property": "C80",
   "status": "proved",
   "theorems": [
    "C80_discriminator",
    "C80_dsb",
    "C80_envelope",
    "C80_dsb_blocks_refuted",
    "C80_dsb_silence_refuted",
    "C80_dsb_sc",
    "C80_ssb",
    "C80_ssb_tone",
    "C80_sidebands_refuted",
    "C80_dsb_demod_refuted",
    "C80_ssb_demod",
    "C80_ssb_demod_tone",
    "C80_lsb_demod_refuted",
    "C80_rds_refuted",
    "C80_fm_stereo"
   ],
   "note": "Exact arithmetic; the resampler, audio filters, pilot PLL and RDS demodulator are parameters (any processor); Hilbert filter and local oscillator are the modelled ones (C61, C53). Findings listed in the statement."
  },
  {
   "property": "C79",
   "status": "proved",
   "theorems": [
    "C79_compare",
    "C79_delayed",
    "C79_psk",
    "C79_psk_rotation",
    "C79_silence_refuted",
    "C79_psk_constant_refuted",
    "C79_margins_refuted"
   ],
   "note": "Exact arithmetic; the array of 2^k results on the stack is not modelled. Findings listed in the statement."
  },
  {
   "property": "C81",
   "status": "proved",
   "theorems": [
    "C81_optimal",
    "C81_total",
    "C81_tracking",
    "C81_constant",
    "C81_steps",
    "C81_first_observation_refuted",
    "C81_ssm_lineaire_refuted",
    "C81_ekf_identity",
    "C81_ekf_refuted",
    "C81_ekf_dims_refuted",
    "C81_dare_scalar",
    "C81_dare_matrix_refuted",
    "C81_ssg_scalar",
    "C81_ssg_refuted",
    "C81_ssg_dims_refuted",
    "C81_simulation",
    "C81_simulation_restart_refuted",
    "C81_observation_helps",
    "C81_initial",
    "C81_rejects",
    "C81_ssg_null",
    "C81_perfect_observation"
   ],
   "note": "Exact arithmetic. The matrix inversion is any routine which inverts every invertible matrix; an expectation is any positive normalised linear functional; noise laws over a finite horizon T (arbitrary). The Kitagawa and IMU models, the numerical Jacobian and the random generator are not modelled. Findings listed in the statement (theorems with suffix _refuted)."
  },
  {
   "property": "C82",
   "status": "proved",
   "theorems": [
    "C82_emulator",
    "C82_emulator_stream",
    "C82_emulator_ebn0",
    "C82_emulator_delay_refuted",
    "C82_emulator_silence_refuted",
    "C82_awgn",
    "C82_dispersive",
    "C82_dispersive_short_block_refuted",
    "C82_rayleigh",
    "C82_rice",
    "C82_rice_refuted",
    "C82_doppler",
    "C82_thermal"
   ],
   "note": "Exact arithmetic; draws of the random generator are arbitrary functions, their laws any positive normalised linear functional. The Doppler filter followed by the resampler is an arbitrary source of gains. Findings listed in the statement (theorems with suffix _refuted)."
  },
  {
   "property": "C83",
   "status": "proved",
   "theorems": [
    "C83_resampling",
    "C83_integer_ratio",
    "C83_interpolates",
    "C83_unchanged",
    "C83_empty",
    "C83_odd_refuted",
    "C83_single_refuted",
    "C83_complex_refuted",
    "C83_czt_size_refuted",
    "C83_czt_scale_refuted",
    "C83_czt_values_refuted",
    "C83_czt_one"
   ],
   "note": "Exact arithmetic; negative sizes are not modelled; czt takes the square root of W as an argument (pow(W, 0.5)). Findings listed in the statement (theorems with suffix _refuted)."
  },
  {
   "property": "C84",
   "status": "proved",
   "theorems": [
    "C84_spectra",
    "C84_sweep",
    "C84_bad_block",
    "C84_mask_too_large",
    "C84_power",
    "C84_tone",
    "C84_sweep_level_refuted",
    "C84_plan_refuted"
   ],
   "note": "Exact arithmetic; the window is an argument (its shapes are those of C57); offsets of a mask below the first bin are undefined behaviour. Findings listed in the statement (theorems with suffix _refuted)."
  },
  {
   "property": "C85",
   "status": "proved",
   "theorems": [
    "C85_cost",
    "C85_optimal",
    "C85_large_refuted"
   ],
   "note": "Exact arithmetic; machine overflow of the cost is not modelled. Finding listed in the statement."
  },
  {
   "property": "C86",
   "status": "proved",
   "theorems": [
    "C86_amplitude",
    "C86_amplitude_anti",
    "C86_type_refuted",
    "C86_rifampn",
    "C86_rifamp",
    "C86_rifamp_anti",
    "C86_rifamp_even_refuted",
    "C86_rifamp_long_refuted",
    "C86_design",
    "C86_minimax",
    "C86_sizes",
    "C86_exact_refuted",
    "C86_target",
    "C86_nyquist_band_refuted",
    "C86_halfband",
    "C86_halfband_even"
   ],
   "note": "Exact reals and complex numbers; the least squares solver (Tab::lsq) is an arbitrary function with the least squares property, whose existence is proved (C86_ex_solver). Findings stated as _refuted theorems (type read on two taps, rifamp with an even or large number of taps, exactly attainable target, band starting at Nyquist). Convergence of the reweighting iterations towards equal errors is not proved: C86_minimax gives the lower bound that holds after any number of them."
  },
  {
   "property": "C87",
   "status": "proved",
   "theorems": [
    "C87_transfer",
    "C87_invalid",
    "C87_magnitude",
    "C87_bounds",
    "C87_capacity"
   ],
   "note": "Exact arithmetic. The plots and the other figures of cic_analyse and design_cic_comp are not modelled."
  },
  {
   "property": "C88",
   "status": "proved",
   "theorems": [
    "C88_steering",
    "C88_phase_refuted",
    "C88_covariance_refuted",
    "C88_noise_refuted"
   ],
   "note": "Exact reals; the addition of the complex product and of the real identity matrix is taken after conversion. musicdoa_1d (eigenvalue decomposition) is not modelled. Findings are stated as _refuted theorems."
  },
  {
   "property": "C89",
   "status": "proved",
   "theorems": [
    "C89_label",
    "C89_unit",
    "C89_no_unit",
    "C89_shortest",
    "C89_total",
    "C89_digits",
    "C89_axis",
    "C89_common_exponent_refuted",
    "C89_distinct_refuted",
    "C89_integer_refuted"
   ],
   "note": "Exact reals: the conversions of double to float are not modelled, nor the sign of a null number. The label is the decimal number (integer over a power of ten) and the text after it. Findings are stated as _refuted theorems."
  }
 ]
}