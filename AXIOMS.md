# What `Print Assumptions` lists for each theorem

Generated by tools/axioms.py. Every axiom is from the standard library.

## none (closed under the global context)

C01_bitstream_is_a_list_of_bits, C01_read_outside_throws, C01_iarray, C01_string_roundtrip, C01_string_invalid, C02_pop_returns_the_bits, C02_u32_anywhere, C02_words_roundtrip, C02_append_keeps_read_position_refuted, C03_hamming, C03_equality, C03_equality_ignores_length_refuted, C03_equality_of_contents_refuted, C03_resize_clears_refuted, C04_pad_mult, C04_altern_length, C04_altern_returns_n_bits_refuted, C07_mls, C07_all_states_visited_once, C07_window_property, C07_other_degrees, C07_default_generator, C07_default_generator_start_refuted, C08_generator_recurrence, C08_blocks, C08_clean_lock, C08_link, C08_counts_errors, C08_loses_and_reacquires, C08_locks_only_on_signal_refuted, C05_symmap_values, C05_symmap_then_symdemap, C05_symdemap_then_symmap, C05_symmap_bad_k, C05_symmap_31_bits_refuted, C06_diff_encode, C06_documented_decoder_inverts, C06_diff_decode_actual, C06_decode_encode_refuted, C06_decode_hard, C06_decode_hard_doc_refuted, C06_Barker_sidelobes, C06_Barker_other_lengths, C09_packets, C09_packets_spec, C09_zero_terminates_refuted, C09_reconfigure_refuted, C10_convolution, C10_empty_throws, C11_delay, C12_decimates, C13_difference_equation, C13_unique, C13_constant_denominator_refuted, C14_mean, C15_lexp, C15_lexp_constant, C15_dc, C15_dc_constant, C46_direct_form_1, C46_direct_form_2, C46_direct_form_2_equation, C46_chain, C46_first_order_section, C46_forms_agree_refuted, C16_correlation, C16_palindrome_iff, C16_rejects_empty, C16_filter_then_decimate_refuted, C17_oversample, C17_construct, C17_filter_order_refuted, C18_half_band, C18_same_as_decimator, C18_symmetric, C18_any_filter, C18_design, C18_design_then_filter_refuted, C19_roundtrip, C19_edges, C20_decimator_one_block, C20_interpolator_one_block, C20_block_independence_refuted, C20_short_block_refuted, C21_lagrange, C21_ordered_field_distinct, C21_linear, C21_cspline, C22_linear, C22_cspline, C22_value_determined, C22_size_mismatch, C22_any_order_refuted, C23_radix2, C24_fft, C24_rfft, C24_empty, C24_fftshift, C25_ifft_fft, C25_reorder, C25_parseval, C25_convolution, C26_ccorr, C26_xcorr, C26_mismatch_refuted, C27_filter, C27_complex_input, C27_identity, C27_long_refuted, C49_delay, C49_back, C49_too_far, C28_fwht, C28_twice, C28_matrix, C28_orthogonal, C28_matrix_zero_refuted, C28_matrix_three_refuted, C28_three_refuted, C29_streaming, C30_horner, C30_vers_coefs, C30_linear, C30_product, C30_power, C30_shift, C30_mixed_product_refuted, C30_shift_roots_refuted, C31_sum, C31_product, C31_quotient, C31_simplify, C31_scalars, C31_inverse, C31_power, C31_developed, C31_fir, C31_fir_back, C31_iir, C31_inverse_z, C31_iir_refuted, C31_coefs_rif_refuted, C31_z_power, C31_z_power_refuted, C32_year_10000_refuted, C32_negative_refuted, C33_leap, C33_month_length, C33_valid, C33_next_valid, C35_chunk_loop_refuted, C36_copy_value, C36_assign_value, C36_copy_is_a_snapshot, C36_original_intact, C36_families_stay_apart, C36_element_write, C36_segment_is_a_view, C36_segment_write, C36_tail_is_a_view, C36_segment_assign, C36_segment_assign_ok, C36_column_is_a_view, C36_segment_assign_wrong_size_ignored, C36_resize_leaves_views_dangling, C36_overlapping_assignment_undefined, C36_block_only_float, C37_read_checked, C37_plain_programs_defined, C37_write_checked, C37_negative_start_undefined, C37_long_tail_undefined, C37_column_past_end_undefined, C37_write_2d_unchecked, C36_assign_from_segment_aliases_refuted, C36_block_stride_refuted, C36_conservative_resize_2d_refuted, C38_vconcat, C38_vconcat_matrix_refuted, C38_vconcat_matrix_not_float, C38_hconcat_refuted, C38_rotation, C38_rotation_compose, C38_rotation_back, C38_rotation_refuted, C38_resampling, C38_downsampling, C38_diff_cumsum, C38_cumsum_diff, C38_cumsum, C38_pad_zeros, C38_integer_range, C38_linspace, C39_find_all, C39_find_first, C39_first_local_maximum, C39_find_last_refuted, C39_find_last_actual, C39_subvector, C39_mask, C54_exact_on_affine, C54_linear, C54_trapezoids, C54_degenerate, C40_unwrap_empty, C41_levinson, C41_unique, C41_levinson_throws, C41_levinson_real, C41_covariance_matrix, C41_levinson_real_short, C41_definite, C41_lpc, C41_lpc_documented_refuted, C43_matrix, C43_too_short, C43_target, C48_T_recurrence, C48_T_degree, C48_T_product, C48_T_compose, C48_U_refuted, C48_negative_refuted, C47_product, C47_product_cascade, C47_product_response, C47_filter, C47_zero_phase, C47_zero_phase_swap, C47_kind, C47_linear_phase, C47_reversal, C47_reversal_filter, C47_inversion, C47_inversion_kind, C47_rational, C47_moving_average, C57_names, C61_dft, C61_dft_real_part_refuted, C77_dwt, C77_dwt_full, C77_dwt_total, C77_dwt_injective, C77_iwt_total, C77_end_refuted, C77_one_level_back, C77_one_level_back_2, C77_reconstruction_refuted, C77_polyphase, C77_qmf, C77_synthesis_refuted, C87_transfer, C87_invalid

## `ClassicalDedekindReals.sig_forall_dec`

C52_impulse, C67_blocks, C81_steps, C81_initial, C81_rejects

## `ClassicalDedekindReals.sig_forall_dec`, `FunctionalExtensionality.functional_extensionality_dep`

C40_modulo, C40_modulo_other, C52_sawtooth, C52_triangle, C52_triangle_odd_refuted, C52_square, C52_square_odd_refuted, C52_small_period_refuted, C52_nyquist, C42_qam_sizes, C44_rot_mat, C44_rotate, C44_inverse, C44_mat_refuted, C43_least_squares, C43_never_exact, C50_resampled, C50_count, C50_unique, C50_linear, C50_lagrange, C50_configuration, C50_invalid_ratio, C50_cascade, C50_identity, C50_near_one_refuted, C45_dsss, C45_dsss_despread, C45_dsss_rejects, C62_freqs, C64_bilinear, C64_bilinear_stable, C64_bilinear_coefficients_refuted, C64_lowpass, C64_highpass, C64_stable, C64_highpass_sign_refuted, C70_axis_even, C70_axis_odd_refuted, C74_select, C74_neighbour_refuted, C76_power_nrz, C76_matched_weights, C78_real_design, C78_kind, C78_kind_clear, C78_kind_refuted, C80_envelope, C81_optimal, C81_total, C81_tracking, C81_constant, C81_first_observation_refuted, C81_ssm_lineaire_refuted, C81_ekf_identity, C81_ekf_refuted, C81_ekf_dims_refuted, C81_dare_scalar, C81_dare_matrix_refuted, C81_ssg_scalar, C81_ssg_refuted, C81_ssg_dims_refuted, C81_simulation, C81_simulation_restart_refuted, C81_observation_helps, C81_ssg_null, C81_perfect_observation, C82_awgn, C82_dispersive, C82_dispersive_short_block_refuted, C82_thermal

## `ClassicalDedekindReals.sig_forall_dec`, `ClassicalDedekindReals.sig_not_dec`, `FunctionalExtensionality.functional_extensionality_dep`

C24_fft_complex, C29_offline, C29_bounds, C40_modulo_2pi, C40_modulo_pm_pi, C40_unwrap_congruent, C40_unwrap_continuous, C40_unwrap_inverts, C40_unwrap_modulo, C40_unwrap_other_range_refuted, C53_source_complex, C53_source_real, C53_retune, C53_sigexp, C53_table_interpolates, C53_table_grid, C53_table_periodic, C53_table_modulus, C42_nearest, C42_roundtrip, C42_noise, C42_context, C42_pi4_context, C42_blocks, C42_pi4_blocks_refuted, C44_unit, C44_axis_angle, C44_isometry, C44_identity, C44_from_matrix, C44_rebuild, C44_elementary, C55_blocks, C55_count, C55_transparent, C55_transparent_cma, C55_null_step, C55_cma_dfe_is_ffe, C55_descent, C48_T_cos, C48_second_kind, C48_U_value_refuted, C47_differentiator_odd_refuted, C47_differentiator_centred_refuted, C47_differentiator_centred_even_refuted, C47_differentiator_2_refuted, C45_fhss, C45_fhss_sequence_refuted, C45_fhss_default_slot_refuted, C56_complex, C56_real, C56_carrier, C58_kaiser, C62_response, C62_interpolated, C62_single_throws, C62_grid_refuted, C65_prototype, C68_power_loop, C68_costas2, C68_costas4, C68_costas_sizes, C67_filter2, C67_reset, C69_peak_even, C69_peak_tone, C69_peak_odd_refuted, C71_peak, C71_exact, C71_integer, C71_align, C71_null_refuted, C71_align_silence_refuted, C71_coherence_refuted, C72_readings, C72_rate, C72_lock, C72_direction, C72_linear, C72_detector_refuted, C72_two_samples_refuted, C72_overflow_refuted, C73_formula, C73_noise, C73_constant, C73_scale, C73_start_refuted, C74_score, C74_range, C74_match, C74_found, C74_precise, C74_one_sample_refuted, C74_boundary_refuted, C75_real, C75_complex, C75_kernel, C75_integer, C75_energy, C75_energy_real, C75_imaginary_refuted, C75_empty_refuted, C76_symmetric, C77_haar, C77_energy_refuted, C77_haar_reconstruction_refuted, C77_db2, C77_d4, C78_repfreq, C78_tone, C78_frmag_rif, C78_frmag_rii, C78_frmag_long_refuted, C78_repech, C78_repimp_rif, C78_repimp_rii, C78_gains, C78_filter_kind, C78_lowpass_refuted, C78_symmetric, C78_filtrer_rational, C78_delay_refuted, C80_dsb_silence_refuted, C71_best, C71_align_best, C79_compare, C79_delayed, C79_psk, C79_psk_rotation, C79_silence_refuted, C79_psk_constant_refuted, C79_margins_refuted, C82_rayleigh, C82_rice, C82_rice_refuted, C83_resampling, C83_integer_ratio, C83_interpolates, C83_unchanged, C83_empty, C83_odd_refuted, C83_single_refuted, C83_complex_refuted, C83_czt_size_refuted, C83_czt_scale_refuted, C83_czt_values_refuted, C83_czt_one, C84_mask_too_large, C84_plan_refuted, C86_amplitude, C86_amplitude_anti, C86_type_refuted, C86_rifampn, C86_rifamp, C86_rifamp_anti, C86_rifamp_even_refuted, C86_rifamp_long_refuted, C86_design, C86_minimax, C86_sizes, C86_exact_refuted, C86_target, C86_nyquist_band_refuted, C86_halfband, C86_halfband_even, C87_magnitude, C87_bounds, C88_steering

## `ClassicalDedekindReals.sig_forall_dec`, `ClassicalDedekindReals.sig_not_dec`, `Classical_Prop.classic`, `FunctionalExtensionality.functional_extensionality_dep`

C32_round_trip, C32_back, C32_instant, C32_order, C32_full_hour, C32_invalid_date_refuted, C33_first, C33_next, C33_julian, C33_j2000_refuted, C34_to_gps, C34_from_gps, C34_round_trip, C34_back, C34_2048_refuted, C35_float_round_trip, C35_pcm16_round_trip, C35_mono, C35_stereo, C35_extra_chunks, C35_seek_mono16, C35_restart, C35_position, C35_partial_frames_refuted, C35_large_files_refuted, C35_header_fields_refuted, C35_seek_refuted, C40_float_modulo_refuted, C44_cardan, C44_cardan_from_matrix, C44_cardan_from_quaternion, C44_cardan_conventions_refuted, C44_gimbal_lock_refuted, C48_T_bound, C48_dirichlet, C48_sinc, C48_sinc_integers, C47_differentiator, C47_lexp_conversions, C47_notch, C47_dc_blocker, C47_lexp_gain, C47_lexp_cutoff_refuted, C57_length_range, C57_symmetric, C57_peak, C57_ends, C57_overlap_hann, C57_overlap_blackman, C57_overlap_triangle, C57_sum, C57_odd_periodic_refuted, C58_chebyshev_normalised, C58_chebyshev_attenuation, C58_kaiser_param, C59_lowpass_taps, C59_lowpass_gain, C59_linear_phase, C59_complementary, C59_bandpass, C59_halfband, C59_allpass, C59_kaiser, C59_chebyshev, C59_errors, C59_even_band_refuted, C59_even_refuted, C59_alias_refuted, C60_cs_spectrum, C60_rcs_spectrum, C60_zero_crossings, C60_no_interference, C60_cs_gain, C60_rcs_design, C60_gaussian, C60_bt_is_3dB, C60_gaussian_telecom, C60_telecom_symmetric_refuted, C61_design, C61_errors, C61_stream, C61_tone, C61_quadrature, C63_stable, C63_prototype, C63_response, C63_gains, C63_names, C63_unknown_name_refuted, C64_frequencies, C65_lowpass, C65_monotone, C65_highpass, C65_highpass_sign_refuted, C65_types_refuted, C65_unknown, C66_type1_prototype, C66_type1_lowpass, C66_type1_highpass, C66_type1_ripple, C66_even_order_refuted, C66_type2_prototype, C66_type2_lowpass, C66_type2_highpass, C66_type2_stopband, C68_default, C68_tan_loop, C68_decision, C68_auto, C68_auto_psk, C68_qpsk_sign_refuted, C67_oscillator, C67_order1, C67_order2, C67_filter1, C67_real_pll, C69_candan_exact, C69_fft_half_bin, C69_quadratic, C69_range, C69_quadratic_impulse_refuted, C69_candan_range_refuted, C70_psd_even, C70_psd_real_refuted, C70_welch, C70_welch_last_refuted, C70_welch_one_refuted, C75_continuous, C76_accepts, C76_rejects, C76_linear, C76_flush, C76_nrz, C76_unshaped, C76_one_per_symbol, C76_delay, C76_matched, C76_nrz_link, C76_fsk_envelope, C76_fsk_phase, C76_fsk_restarts, C76_fsk_continuity_refuted, C76_fsk_deviation_refuted, C76_emitter, C76_emitter_header, C76_retard_refuted, C78_phase, C78_group_delay, C78_group_delay_symmetric, C78_long_delay_refuted, C80_discriminator, C80_dsb, C80_dsb_blocks_refuted, C80_dsb_sc, C80_ssb, C80_ssb_tone, C80_sidebands_refuted, C80_dsb_demod_refuted, C80_ssb_demod, C80_ssb_demod_tone, C80_lsb_demod_refuted, C80_rds_refuted, C80_fm_stereo, C82_emulator, C82_emulator_stream, C82_emulator_ebn0, C82_emulator_delay_refuted, C82_emulator_silence_refuted, C82_doppler, C84_spectra, C84_sweep, C84_bad_block, C84_power, C84_tone, C84_sweep_level_refuted, C85_cost, C85_optimal, C85_large_refuted, C87_capacity, C88_phase_refuted, C88_covariance_refuted, C88_noise_refuted, C89_label, C89_unit, C89_no_unit, C89_shortest, C89_total, C89_digits, C89_axis, C89_common_exponent_refuted, C89_distinct_refuted, C89_integer_refuted
