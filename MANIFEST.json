{"claims": [
{"property": "C01", "status": "proved", "theorems": ["C01_fir_convolution", "C01_fir_window_any_arithmetic"], "note": ""},
{"property": "C02", "status": "proved", "theorems": ["C02_fir_chunks"], "note": ""},
{"property": "C03", "status": "proved", "theorems": ["C03_fir_superposition"], "note": ""},
{"property": "C04", "status": "proved", "theorems": ["C04_fir_reset_steady"], "note": ""},
{"property": "C05", "status": "proved", "theorems": ["C05_fir_construction"], "note": ""},
{"property": "C06", "status": "proved", "theorems": ["C06_fir_history"], "note": ""},
{"property": "C07", "status": "proved", "theorems": ["C07_fir_quantised", "C07_cast_int_truncates", "C07_convolution_refuted"], "note": ""},
{"property": "C08", "status": "proved", "theorems": ["C08_fir_design_rejects", "C08_fir_design_best"], "note": "firwin is a parameter; a NaN candidate raises ValueError. Exact arithmetic."},
{"property": "C09", "status": "proved", "theorems": ["C09_fir_response_even", "C09_fir_response_odd", "C09_fir_response_rejects", "C09_odd_axis_refuted"], "note": "freqz is modelled by its documented contract (transfer function at e^{j 2 pi k/L})."},
{"property": "C10", "status": "proved", "theorems": ["C10_iir_difference_from_rest", "C10_iir_fresh_is_at_rest"], "note": ""},
{"property": "C11", "status": "proved", "theorems": ["C11_iir_difference_any_state", "C11_iir_early_samples_refuted"], "note": ""},
{"property": "C12", "status": "proved", "theorems": ["C12_iir_chunks"], "note": ""},
{"property": "C13", "status": "proved", "theorems": ["C13_iir_superposition"], "note": ""},
{"property": "C14", "status": "proved", "theorems": ["C14_iir_reset_steady"], "note": ""},
{"property": "C15", "status": "proved", "theorems": ["C15_iir_reset_steady_iff_unit_gain", "C15_iir_reset_steady_refuted", "C15_iir_reset_nan"], "note": ""},
{"property": "C16", "status": "proved", "theorems": ["C16_iir_construction"], "note": ""},
{"property": "C17", "status": "proved", "theorems": ["C17_iir_zero_a_is_fir"], "note": ""},
{"property": "C18", "status": "proved", "theorems": ["C18_iir_candidate", "C18_iir_design_rejects", "C18_iir_design_gain", "C18_iir_design_best"], "note": "numpy.roots and scipy.signal.residue are parameters; gain and numerator hold whatever they return."},
{"property": "C19", "status": "proved", "theorems": ["C19_integral_running_sum", "C19_integral_orders"], "note": ""},
{"property": "C20", "status": "proved", "theorems": ["C20_integral_affine", "C20_integral_constant"], "note": ""},
{"property": "C21", "status": "proved", "theorems": ["C21_derivative_exact", "C21_derivative_degree_sharp"], "note": ""},
{"property": "C22", "status": "proved", "theorems": ["C22_derivative_ignores_level", "C22_derivative_constant_zero", "C22_derivative_pairs"], "note": ""},
{"property": "C23", "status": "proved", "theorems": ["C23_rank_order_statistic", "C23_rank_magnitude_unique"], "note": "argsort is any function returning a sorting permutation."},
{"property": "C24", "status": "proved", "theorems": ["C24_rank_from_window", "C24_rank_after_reset"], "note": ""},
{"property": "C25", "status": "proved", "theorems": ["C25_rank_chunks"], "note": ""},
{"property": "C26", "status": "proved", "theorems": ["C26_rank_extremes", "C26_documented_dilation_refuted", "C26_signed_median_refuted"], "note": ""},
{"property": "C27", "status": "proved", "theorems": ["C27_rank_index_in_window", "C27_rank_constructor"], "note": "Invariant over any history of operations."},
{"property": "C28", "status": "proved", "theorems": ["C28_pid_terms"], "note": ""},
{"property": "C29", "status": "proved", "theorems": ["C29_pid_integral_below_limit"], "note": ""},
{"property": "C30", "status": "proved", "theorems": ["C30_documented_clamp_refuted", "C30_pid_hold", "C30_integral_within_limit_refuted"], "note": ""},
{"property": "C31", "status": "proved", "theorems": ["C31_pid_integral_finite"], "note": ""},
{"property": "C32", "status": "proved", "theorems": ["C32_window_product", "C32_window_rejects", "C32_window_stateless", "C32_window_constructor"], "note": ""},
{"property": "C33", "status": "proved", "theorems": ["C33_window_mean_one", "C33_zero_windows", "C33_hann_order_1_refuted"], "note": "get_window is a parameter; its cosine-sum contract is assumed only for the zero-window theorems."},
{"property": "C34", "status": "proved", "theorems": ["C34_goertzel_block_dft", "C34_goertzel_stream"], "note": ""},
{"property": "C35", "status": "proved", "theorems": ["C35_goertzel_accounting", "C35_goertzel_chunks"], "note": ""},
{"property": "C36", "status": "proved", "theorems": ["C36_frequency_setter_no_retune", "C36_frequency_checks"], "note": ""},
{"property": "C37", "status": "proved", "theorems": ["C37_cexp_output"], "note": ""},
{"property": "C38", "status": "proved", "theorems": ["C38_phase_in_range"], "note": ""},
{"property": "C39", "status": "proved", "theorems": ["C39_cexp_chunks"], "note": ""},
{"property": "C40", "status": "proved", "theorems": ["C40_cexp_rejects", "C40_cexp_accepts", "C40_cexp_nan_passes"], "note": ""},
{"property": "C41", "status": "proved", "theorems": ["C41_cband_equations"], "note": ""},
{"property": "C42", "status": "proved", "theorems": ["C42_cband_converges"], "note": ""},
{"property": "C43", "status": "proved", "theorems": ["C43_cband_bounded"], "note": ""},
{"property": "C44", "status": "proved", "theorems": ["C44_cband_reset_irrelevant"], "note": ""},
{"property": "C45", "status": "proved", "theorems": ["C45_cfreq_constructor_frequency"], "note": ""},
{"property": "C46", "status": "proved", "theorems": ["C46_cfreq_converges"], "note": ""},
{"property": "C47", "status": "proved", "theorems": ["C47_cfreq_bounds", "C47_cfreq_magnitude_refuted"], "note": ""},
{"property": "C48", "status": "proved", "theorems": ["C48_polyphase_terminates", "C48_polyphase_safe"], "note": "Termination and row bounds also hold in any arithmetic whose order is total on the values met; in IEEE arithmetic a NaN rate already raises before the loop."},
{"property": "C49", "status": "proved", "theorems": ["C49_polyphase_positions", "C49_polyphase_continues"], "note": ""},
{"property": "C50", "status": "proved", "theorems": ["C50_polyphase_count"], "note": ""},
{"property": "C51", "status": "proved", "theorems": ["C51_polyphase_constant", "C51_polyphase_bank"], "note": ""},
{"property": "C52", "status": "proved", "theorems": ["C52_polyphase_consumed", "C52_polyphase_loses", "C52_polyphase_chunks_refuted"], "note": ""},
{"property": "C53", "status": "proved", "theorems": ["C53_polynomial_length"], "note": ""},
{"property": "C54", "status": "proved", "theorems": ["C54_polynomial_linear"], "note": ""},
{"property": "C55", "status": "proved", "theorems": ["C55_polynomial_affine", "C55_polynomial_order4_refuted"], "note": "polyfit by contract (a least-squares solution); for the order 4 refutation the minimum-norm one."},
{"property": "C56", "status": "proved", "theorems": ["C56_polynomial_interpolates", "C56_polynomial_cubic"], "note": "polyfit by contract (a least-squares solution)."},
{"property": "C57", "status": "proved", "theorems": ["C57_polynomial_rate_zero", "C57_polynomial_rate_zero_order1"], "note": ""},
{"property": "C58", "status": "proved", "theorems": ["C58_wavelet_haar_reconstructs"], "note": ""},
{"property": "C59", "status": "proved", "theorems": ["C59_wavelet_shape"], "note": ""},
{"property": "C60", "status": "proved", "theorems": ["C60_wavelet_linear"], "note": ""},
{"property": "C61", "status": "proved", "theorems": ["C61_wavelet_bank", "C61_wavelet_highpass_sum", "C61_wavelet_highpass_zero_refuted"], "note": ""},
{"property": "C62", "status": "proved", "theorems": ["C62_wavelet_orthogonal_delay", "C62_wavelet_table_delay"], "note": "The numerical bounds are proved from the decimal table entries, exact rational arithmetic."},
{"property": "C63", "status": "proved", "theorems": ["C63_wavelet_int_truncates"], "note": ""},
{"property": "C64", "status": "proved", "theorems": ["C64_z_unit_dc", "C64_z_bilinear_numerator", "C64_z_impulse_numerator", "C64_z_scale", "C64_z_highpass_refuted"], "note": "roots and residue are parameters."},
{"property": "C65", "status": "proved", "theorems": ["C65_z_stable"], "note": "Contract: roots/residue return the roots of the polynomial they are given."},
{"property": "C66", "status": "proved", "theorems": ["C66_z_poles"], "note": "Contract: roots/residue return the roots of the polynomial they are given."},
{"property": "C67", "status": "proved", "theorems": ["C67_z_partial_fractions", "C67_z_impulse_samples"], "note": "Contract: residue returns poles with matching residues, closed under conjugation."},
{"property": "C68", "status": "proved", "theorems": ["C68_z_rejects", "C68_z_in_place", "C68_z_integer", "C68_z_accepts"], "note": ""},
{"property": "C69", "status": "proved", "theorems": ["C69_complex_phases", "C69_complex_round_trip"], "note": ""},
{"property": "C70", "status": "proved", "theorems": ["C70_three_phase_round_trip", "C70_three_phase_identity_iff"], "note": ""},
{"property": "C71", "status": "proved", "theorems": ["C71_complex_balanced"], "note": ""},
{"property": "C72", "status": "proved", "theorems": ["C72_complex_shapes"], "note": ""},
{"property": "C73", "status": "proved", "theorems": ["C73_psd_spectrogram", "C73_psd_mean", "C73_psd_rejects"], "note": ""},
{"property": "C74", "status": "proved", "theorems": ["C74_psd_scale", "C74_psd_zero"], "note": ""},
{"property": "C75", "status": "proved", "theorems": ["C75_psd_axis_even", "C75_psd_axis_odd"], "note": ""},
{"property": "C76", "status": "proved", "theorems": ["C76_fourier_rejects", "C76_fourier_round_trip_even"], "note": ""},
{"property": "C77", "status": "proved", "theorems": ["C77_fourier_round_trip_odd", "C77_fourier_round_trip_refuted"], "note": ""},
{"property": "C78", "status": "proved", "theorems": ["C78_fourier_bins", "C78_fourier_bins_even", "C78_fourier_bins_refuted"], "note": ""},
{"property": "C79", "status": "proved", "theorems": ["C79_fourier_linear", "C79_fourier_parseval"], "note": ""},
{"property": "C80", "status": "proved", "theorems": ["C80_fourier_mended_ends", "C80_fourier_zero_ends"], "note": ""},
{"property": "C81", "status": "proved", "theorems": ["C81_gauss_nearest", "C81_gauss_ranking"], "note": "argsort by contract; inv by contract for the exact-arithmetic form."},
{"property": "C82", "status": "proved", "theorems": ["C82_gauss_predict_rows", "C82_gauss_predict_pure", "C82_gauss_predict_rejects"], "note": ""},
{"property": "C83", "status": "proved", "theorems": ["C83_gauss_sample_order", "C83_gauss_fit_replaces"], "note": ""},
{"property": "C84", "status": "proved", "theorems": ["C84_gauss_fit", "C84_gauss_not_ml", "C84_gauss_duplicate"], "note": ""},
{"property": "C85", "status": "proved", "theorems": ["C85_gauss_validation", "C85_gauss_unhashable", "C85_gauss_midway", "C85_gauss_predict_after_failure"], "note": ""},
{"property": "C86", "status": "proved", "theorems": ["C86_gauss_positions"], "note": ""},
{"property": "C87", "status": "proved", "theorems": ["C87_gauss_invertible", "C87_gauss_distances"], "note": "inv by contract: returns a right inverse of every invertible matrix it is given."},
{"property": "C88", "status": "proved", "theorems": ["C88_gmm_ranking", "C88_gmm_predict_pure", "C88_gmm_predict_rows", "C88_gmm_score"], "note": ""},
{"property": "C89", "status": "proved", "theorems": ["C89_gmm_validation", "C89_gmm_midway", "C89_gmm_too_few"], "note": "sklearn's fit is a parameter."},
{"property": "C90", "status": "proved", "theorems": ["C90_div_monotone", "C90_div_climbs", "C90_div_clear"], "note": ""},
{"property": "C91", "status": "proved", "theorems": ["C91_div_one_row", "C91_div_fills", "C91_div_observed"], "note": ""},
{"property": "C92", "status": "proved", "theorems": ["C92_div_swap", "C92_div_min_exists"], "note": ""},
{"property": "C93", "status": "proved", "theorems": ["C93_div_kept", "C93_div_phases", "C93_div_lower", "C93_div_loss_refuted"], "note": ""},
{"property": "C94", "status": "proved", "theorems": ["C94_div_chunks_refuted", "C94_div_chunks", "C94_div_reachable"], "note": ""},
{"property": "C95", "status": "proved", "theorems": ["C95_manhattan_value", "C95_euclidean_value", "C95_chebyshev_value", "C95_geometric_value", "C95_manhattan_metric", "C95_chebyshev_metric", "C95_euclidean_metric", "C95_geometric_symmetric", "C95_geometric_one", "C95_geometric_refuted"], "note": ""},
{"property": "C96", "status": "proved", "theorems": ["C96_div_clear", "C96_div_order", "C96_div_dead"], "note": ""},
{"property": "C97", "status": "proved", "theorems": ["C97_log_threshold", "C97_log_unusable", "C97_log_level"], "note": "Over a model of loguru's registry written from its documentation."},
{"property": "C98", "status": "proved", "theorems": ["C98_log_one_handler", "C98_log_foreign"], "note": ""},
{"property": "C99", "status": "proved", "theorems": ["C99_log_stream", "C99_log_kept", "C99_log_delivers", "C99_log_lazy", "C99_log_lost"], "note": ""},
{"property": "C100", "status": "proved", "theorems": ["C100_log_level_fails", "C100_log_stream_fails", "C100_log_stream_refuted", "C100_log_write_fails"], "note": ""},
{"property": "C101", "status": "proved", "theorems": ["C101_log_serial", "C101_log_prefix", "C101_log_progress"], "note": "Small-step model with a lock; progress includes absence of deadlock."},
{"property": "C102", "status": "proved", "theorems": ["C102_rest_url", "C102_rest_slashes"], "note": ""},
{"property": "C103", "status": "proved", "theorems": ["C103_rest_method"], "note": ""},
{"property": "C104", "status": "proved", "theorems": ["C104_rest_live", "C104_rest_live_status"], "note": ""},
{"property": "C105", "status": "proved", "theorems": ["C105_base85_round_trip", "C105_base85_injective"], "note": ""},
{"property": "C106", "status": "proved", "theorems": ["C106_serial_round_trip", "C106_serial_errors"], "note": "pickle and gzip by round-trip contracts."},
{"property": "C107", "status": "proved", "theorems": ["C107_base85_text", "C107_serial_text"], "note": ""},
{"property": "C108", "status": "proved", "theorems": ["C108_base85_accepts", "C108_serial_decode_rejects", "C108_serial_arguments"], "note": ""},
{"property": "C109", "status": "proved", "theorems": ["C109_ascii_compatible", "C109_utf16_decode", "C109_utf16_encode"], "note": ""},
{"property": "C110", "status": "proved", "theorems": ["C110_iir_design_stable"], "note": "Contract: roots/residue return the roots of the prototype they are given."},
{"property": "C111", "status": "proved", "theorems": ["C111_z_bilinear_response", "C111_z_bilinear_textbook_refuted"], "note": ""},
{"property": "C112", "status": "proved", "theorems": ["C112_complex_line_to_line", "C112_complex_rotation"], "note": ""},
{"property": "C113", "status": "proved", "theorems": ["C113_psd_tone", "C113_fourier_tone"], "note": ""},
{"property": "C114", "status": "proved", "theorems": ["C114_gauss_own_mean", "C114_gauss_translation"], "note": ""},
{"property": "C115", "status": "proved", "theorems": ["C115_gmm_parameters", "C115_gmm_setters", "C115_gauss_parameters"], "note": ""},
{"property": "C116", "status": "proved", "theorems": ["C116_gmm_single", "C116_gmm_like_gauss"], "note": ""},
{"property": "C117", "status": "proved", "theorems": ["C117_div_order_zero"], "note": ""},
{"property": "C118", "status": "proved", "theorems": ["C118_div_rejects", "C118_div_make"], "note": ""},
{"property": "C119", "status": "proved", "theorems": ["C119_log_text", "C119_log_own_traceback_refuted"], "note": ""},
{"property": "C120", "status": "proved", "theorems": ["C120_log_foreign_refuted", "C120_log_first_stream"], "note": ""},
{"property": "C121", "status": "proved", "theorems": ["C121_rest_outcome", "C121_rest_no_url"], "note": ""},
{"property": "C122", "status": "proved", "theorems": ["C122_base85_trailing", "C122_base85_unique_refuted"], "note": ""},
{"property": "C123", "status": "proved", "theorems": ["C123_serial_masked_error"], "note": ""},
{"property": "C124", "status": "proved", "theorems": ["C124_serial_same_text"], "note": ""},
{"property": "C125", "status": "proved", "theorems": ["C125_iir_response", "C125_iir_response_rejects"], "note": ""},
{"property": "C126", "status": "proved", "theorems": ["C126_fir_delay", "C126_fir_delay_rejects", "C126_fir_delay_linear_phase", "C126_fir_delay_first_bin_refuted", "C126_fir_delay_null"], "note": "scipy.signal.group_delay is modelled by its documented formula; which small denominators it replaces by 0 is a parameter."},
{"property": "C127", "status": "proved", "theorems": ["C127_iir_delay", "C127_iir_delay_middle", "C127_iir_delay_rejects", "C127_iir_delay_ends_refuted"], "note": "scipy.signal.group_delay is modelled by its documented formula; which small denominators it replaces by 0 is a parameter."},
{"property": "C128", "status": "proved", "theorems": ["C128_fir_roots", "C128_fir_roots_negative", "C128_iir_roots", "C128_iir_roots_designed"], "note": "Contracts: numpy.roots returns the roots of the polynomial with multiplicity, argsort a sorting permutation."},
{"property": "C129", "status": "proved", "theorems": ["C129_iir_bounded_from_rest", "C129_iir_bounded", "C129_pole_on_circle_refuted"], "note": ""},
{"property": "C130", "status": "proved", "theorems": ["C130_iir_settles", "C130_iir_forgets"], "note": ""},
{"property": "C131", "status": "proved", "theorems": ["C131_designed_settles", "C131_designed_bounded"], "note": ""},
{"property": "C132", "status": "proved", "theorems": ["C132_butterworth_magnitude", "C132_butterworth_monotone"], "note": "Contract: roots/residue return the roots of the prototype they are given. Exact real arithmetic."},
{"property": "C133", "status": "proved", "theorems": ["C133_chebyshev_magnitude", "C133_chebyshev_ripple", "C133_chebyshev_gain_refuted"], "note": "Contract: roots/residue return the roots of the prototype they are given. Exact real arithmetic."},
{"property": "C134", "status": "proved", "theorems": ["C134_butterworth_corner", "C134_half_band", "C134_corner_refuted"], "note": "Contract: roots/residue return the roots of the prototype they are given. Exact real arithmetic."},
{"property": "C135", "status": "proved", "theorems": ["C135_fir_rounding", "C135_rounded_operations"], "note": "Overflow is not modelled; an integer dtype (truncating stores) is excluded."},
{"property": "C136", "status": "proved", "theorems": ["C136_iir_rounding", "C136_iir_rounded_operations"], "note": "Overflow is not modelled; an integer dtype (truncating stores) is excluded."},
{"property": "C137", "status": "proved", "theorems": ["C137_pole_on_circle_refuted", "C137_integral_stuck"], "note": ""},
{"property": "C138", "status": "proved", "theorems": ["C138_tidy_programs", "C138_constructors_copy", "C138_value_models"], "note": "Arguments are numpy arrays; partly overlapping views are not modelled."},
{"property": "C139", "status": "proved", "theorems": ["C139_caller_sees_state", "C139_one_delay_line", "C139_assignment_copies_refuted"], "note": "Arguments are numpy arrays; partly overlapping views are not modelled."},
{"property": "C140", "status": "proved", "theorems": ["C140_switch_b", "C140_switch_a_refuted", "C140_unequal_lengths", "C140_empty_arrays", "C140_failed_call_harmless_refuted", "C140_state_dtype"], "note": "Value semantics of one filter, which C138 justifies for programs that share no arrays."},
{"property": "C141", "status": "proved", "theorems": ["C141_rank_short_state", "C141_poly_unequal_state"], "note": ""},
{"property": "C142", "status": "proved", "theorems": ["C142_iir_cascade", "C142_iir_cascade_exists", "C142_iir_order", "C142_order_doubles_refuted", "C142_fir_cascade", "C142_iir_parallel", "C142_iir_inverse", "C142_fir_inverse"], "note": ""},
{"property": "C143", "status": "proved", "theorems": ["C143_iir_time_invariance", "C143_fir_time_invariance", "C143_any_state_refuted"], "note": ""},
{"property": "C144", "status": "proved", "theorems": ["C144_bursts", "C144_background", "C144_ramps", "C144_nonexpansive"], "note": ""},
{"property": "C145", "status": "proved", "theorems": ["C145_fir_doubles", "C145_left_to_right", "C145_finite_output_refuted"], "note": "Real doubles, float dtype; numpy.dot is any tree of sums of products, in any order, with or without fused multiply-add. Uses the standard library's specification of primitive floats (FloatAxioms)."},
{"property": "C146", "status": "proved", "theorems": ["C146_iir_poisoned"], "note": "As C145. Only reset with a finite level ends it; a reset that divides by zero does not."},
{"property": "C147", "status": "proved", "theorems": ["C147_iir_doubles", "C147_unstable_refuted"], "note": "As C145; the exact run is the complex model on the values of the doubles."},
{"property": "C148", "status": "proved", "theorems": ["C148_cband_is_notch"], "note": "Exact complex arithmetic; hilbert is any length-preserving function, applied by the filter as in the code."},
{"property": "C149", "status": "proved", "theorems": ["C149_cband_response"], "note": "As C148."},
{"property": "C150", "status": "proved", "theorems": ["C150_cband_disturbance"], "note": "As C148."},
{"property": "C151", "status": "proved", "theorems": ["C151_cband_chunks", "C151_cfreq_chunks", "C151_real_chunks_refuted"], "note": "The refutation uses the definition of scipy.signal.hilbert (spectrum with negative frequencies removed). scipy raises ValueError for an array of complex dtype whose imaginary parts are all zero; the model has no such dtype and treats those samples as real."},
{"property": "C152", "status": "proved", "theorems": ["C152_cfreq_between", "C152_cfreq_eventually", "C152_cfreq_disturbance"], "note": "Exact arithmetic; numpy.angle without signed zeros."},
{"property": "C153", "status": "proved", "theorems": ["C153_derivative_accuracy"], "note": "Exact arithmetic on the values; the constants are sums of |b_i| |node|^(deg+1)/(deg+1)!, not always the best possible."},
{"property": "C154", "status": "proved", "theorems": ["C154_integral_accuracy", "C154_integral_rule"], "note": "Exact arithmetic; constants not always the best possible."},
{"property": "C155", "status": "proved", "theorems": ["C155_polynomial_accuracy", "C155_polynomial_extrapolation"], "note": "Exact arithmetic; numpy.polyfit by its contract (a least-squares fit), as C55. 1/8 is the best constant for order 1; the best for order 3 is 3/128."},
{"property": "C156", "status": "proved", "theorems": ["C156_gauss_linear", "C156_gauss_scaling_refuted"], "note": "Exact arithmetic; numpy.linalg.inv by its contract and numpy.argsort as any function of the distances."},
{"property": "C157", "status": "proved", "theorems": ["C157_pid_chunks", "C157_pid_is_iir", "C157_pid_bounded", "C157_pid_bounded_unlimited_refuted", "C157_pid_integral_action", "C157_pid_no_offset", "C157_pid_no_offset_limited_refuted", "C157_pid_scaling", "C157_pid_superposition_refuted"], "note": "Chunks in any arithmetic; the rest in exact arithmetic with float gains."},
{"property": "C158", "status": "proved", "theorems": ["C158_filters_of_one_thread", "C158_filters_never_wait", "C158_shared_filter_refuted", "C158_shared_integral_refuted"], "note": "Threads may switch between any two accesses to the object; one numpy operation is one access. iir_reset is taken as one access."},
{"property": "C159", "status": "proved", "theorems": ["C159_gauss_shared_predictions", "C159_predict_during_fit_refuted", "C159_two_fits_refuted"], "note": "As C158; list operations and attribute accesses are single steps."},
{"property": "C160", "status": "proved", "theorems": ["C160_designed_shape", "C160_designed_delay", "C160_complement_mirrors", "C160_odd_order_null", "C160_polyphase_bank_symmetric", "C160_order_one", "C160_order_two", "C160_corner_refuted"], "note": "firwin is written from scipy's documented formulae (FirwinModel.v) and numpy.i0 is an arbitrary function; taps that sum to exactly zero are taken as NaN."},
{"property": "C161", "status": "proved", "theorems": ["C161_levels_misaligned", "C161_levels_refuted", "C161_haar_energy"], "note": "Exact real arithmetic; the example is the exact Daubechies row of order 3. The single-level result is C62."},
{"property": "C162", "status": "proved", "theorems": ["C162_complex_tone", "C162_matched", "C162_bounded", "C162_dirichlet", "C162_selective", "C162_real_tone", "C162_real_bin", "C162_dc_refuted", "C162_nyquist_refuted"], "note": "Exact complex arithmetic; builds on C34."},
{"property": "C163", "status": "proved", "theorems": ["C163_bank_race", "C163_bank_finished"], "note": "Steps are single accesses to the class attribute and to arrays (global interpreter lock). Instances are not shared between threads. Any arithmetic in which zero equals zero."},
{"property": "C164", "status": "proved", "theorems": ["C164_matched_exact", "C164_bins", "C164_resolution_refuted"], "note": "get_window is a parameter; for Hann, Hamming and Blackman its contract is scipy's cosine formula (as in C33). Exact arithmetic."},
{"property": "C165", "status": "proved", "theorems": ["C165_nan", "C165_bursts", "C165_recovers", "C165_dilation"], "note": "numpy.argsort is a parameter; its contract on doubles is numpy's order (npy::less), which puts NaN last, with no assumption on ties."},
{"property": "C166", "status": "proved", "theorems": ["C166_linear", "C166_bounded", "C166_between", "C166_overshoot_refuted", "C166_local", "C166_chunks", "C166_chunks_refuted"], "note": "polyfit enters through its least-squares contract (superposition and bounds) or as any function (locality, chunks). Exact arithmetic."},
{"property": "C167", "status": "proved", "theorems": ["C167_fourier_shift", "C167_fourier_modulate", "C167_fourier_conjugate", "C167_fourier_real", "C167_fourier_convolution", "C167_psd_bound", "C167_psd_real", "C167_psd_blind_refuted", "C167_psd_sinusoid"], "note": "Exact complex arithmetic; fft is its defining sum."},
{"property": "C168", "status": "proved", "theorems": ["C168_gauss_nested", "C168_gauss_more_samples", "C168_gauss_posterior_refuted", "C168_gmm_density", "C168_gmm_posterior_refuted", "C168_gmm_underflow", "C168_gmm_affine"], "note": "Exact real arithmetic; inv and argsort by contract, exp exact except in the underflow theorem, where it is any function that is zero below -T."},
{"property": "C169", "status": "proved", "theorems": ["C169_phase_range", "C169_phase_drift", "C169_output_error", "C169_dyadic_exact", "C169_chunks_refuted"], "note": "IEEE doubles. numpy.fmod is exact by contract (a Coq function meeting the contract is given), numpy.exp has an error bound as parameter."},
{"property": "C170", "status": "proved", "theorems": ["C170_safe", "C170_positions", "C170_count", "C170_exact", "C170_exact_refuted"], "note": "IEEE doubles. numpy.round to an integer by contract (a Coq function meeting it is given), numpy.dot any function. A NaN rate is accepted by the code and makes filter raise ValueError at int(nan); it is outside the theorems."},
{"property": "C171", "status": "proved", "theorems": ["C171_linear", "C171_positions", "C171_count", "C171_exact", "C171_exact_refuted"], "note": "IEEE doubles. numpy.round and int by contract (Coq functions meeting them are given), numpy.polyfit any function. Rates 0, NaN and infinity are outside the theorems (C57 treats rate 0)."},
{"property": "C172", "status": "proved", "theorems": ["C172_sample", "C172_bad_rows", "C172_chebyshev", "C172_dead", "C172_stuck", "C172_two_rows", "C172_stays", "C172_refuted"], "note": "IEEE doubles. x ** y is assumed not to turn NaN or infinity into a number for a positive exponent, and 1 / columns to be positive. Samples whose first component is within numpy.isclose of numpy.finfo(float).max are outside C172_two_rows and C172_stays, as fit takes them for empty rows."},
{"property": "C173", "status": "proved", "theorems": ["C173_stall", "C173_sum", "C173_exact", "C173_nan_limit", "C173_recovers", "C173_output", "C173_action_refuted"], "note": "IEEE doubles, float coefficient arrays. C173_output speaks of magnitudes up to 2^1000."},
{"property": "C174", "status": "proved", "theorems": ["C174_exact", "C174_accurate", "C174_exact_refuted"], "note": "IEEE doubles, float data. C174_accurate takes at most 2^20 levels."},
{"property": "C175", "status": "proved", "theorems": ["C175_fir_exact", "C175_derivative_exact", "C175_derivative_polynomial", "C175_constant", "C175_level", "C175_constant_refuted"], "note": "IEEE doubles, float arrays. Constants are multiples of 2^-1072 up to 2^1000 for exactly zero."},
{"property": "C176", "status": "proved", "theorems": ["C176_running", "C176_exact", "C176_stall", "C176_growth_refuted"], "note": "IEEE doubles, float arrays; what a non-finite sample does is C146."},
{"property": "C177", "status": "proved", "theorems": ["C177_fir_arrays", "C177_fir_list_b", "C177_fir_list_s", "C177_list_s_like_array_refuted", "C177_fir_reset_list", "C177_iir_list_b", "C177_list_b_like_array_refuted", "C177_iir_list_a", "C177_iir_reset_list", "C177_iir_reset_array", "C177_fir_empty"], "note": "List elements are int, float or complex numbers; a list a with a single register is not modelled."},
{"property": "C178", "status": "proved", "theorems": ["C178_terms", "C178_disc", "C178_rotation", "C178_parts", "C178_parts_limited_refuted", "C178_real"], "note": "Exact complex arithmetic; complex samples into a filter with real gains are not covered."},
{"property": "C179", "status": "proved", "theorems": ["C179_views", "C179_same_array", "C179_overlap_refuted"], "note": "Contiguous views of one float array, exact arithmetic; last coefficient of u nonzero for the same array."},
{"property": "C180", "status": "proved", "theorems": ["C180_order", "C180_derivative_of_integral", "C180_identity", "C180_doubles", "C180_doubles_identity_refuted"], "note": "Filters newly constructed; doubles part for integral order 0 and dyadic derivative tables."},
{"property": "C181", "status": "proved", "theorems": ["C181_phases", "C181_complex", "C181_round_trip", "C181_three_round_trip", "C181_columns", "C181_nan", "C181_exact_refuted"], "note": "neutral=True; 3.0 ** 0.5 and numpy.linalg.inv are parameters with an accuracy contract, met by the correctly rounded values."},
{"property": "C182", "status": "proved", "theorems": ["C182_frequency_call", "C182_frequency_lost", "C182_frequency_recovered", "C182_frequency_last", "C182_frequency_alone", "C182_frequency_causal", "C182_band_call", "C182_band_lost", "C182_band_repaired", "C182_band_causal"], "note": "abs, isclose, angle, exp, fmod, sign and hilbert are parameters; abs, isclose and angle with contracts on NaN and infinite arguments."},
{"property": "C183", "status": "proved", "theorems": ["C183_utf8", "C183_utf16", "C183_code_injective", "C183_code_ascii", "C183_code_errors", "C183_code_machine_refuted"], "note": "sha3_256 is a parameter without contract; the codecs are D from Python's documented behaviour and proved against the RFC bit patterns."},
{"property": "C184", "status": "proved", "theorems": ["C184_exponential", "C184_bandpass", "C184_bandpass_first", "C184_frequency", "C184_rates", "C184_pid", "C184_iir_dtype", "C184_nan_accepted", "C184_gmm_refusals", "C184_poly_reset"], "note": "real arithmetic for the ranges, doubles for NaN"},
{"property": "C185", "status": "proved", "theorems": ["C185_bessel_coefficients", "C185_bessel_flat_delay", "C185_bessel_poles"], "note": "exact arithmetic; the pole claim assumes that numpy's root finder returned the prototype's roots (poles_found)"},
{"property": "C186", "status": "proved", "theorems": ["C186_window_shape", "C186_normal_factor", "C186_window_filter"], "note": "exact arithmetic; get_window is assumed to follow scipy's documented formulae, I0 is its power series"},
{"property": "C187", "status": "proved", "theorems": ["C187_local", "C187_blocks", "C187_bad_sample"], "note": "locality holds for any arithmetic; the bad-sample part treats real operands as complex numbers with imaginary part 0 and assumes only that both parts of numpy.dot are sums of the right products in some order"},
{"property": "C188", "status": "proved", "theorems": ["C188_band_settings", "C188_frequency_settings", "C188_hilbert", "C188_band_dead", "C188_band_rate", "C188_frequency_nan"], "note": "numpy.fmod and numpy.exp of NaN are assumed to be NaN, numpy.angle of NaN to be NaN, and hilbert to keep the length; the private _filter attribute is taken to be out of the caller's reach"},
{"property": "C189", "status": "proved", "theorems": ["C189_separate", "C189_write_shared", "C189_rebuilt", "C189_separate_refuted"], "note": "the caller's variables are names bound to one object each; indices into b are not negative; rebinding PolyphaseRateFilter.B itself is not modelled"},
{"property": "C190", "status": "proved", "theorems": ["C190_other_classes", "C190_bad_class", "C190_nan_query"], "note": "numpy.linalg.inv is a parameter that never turns a matrix with a NaN into one without (inv_nan); numpy.argsort sorts NaN last; column sums run in order, products in any order"},
{"property": "C191", "status": "proved", "theorems": ["C191_refusals", "C191_phases", "C191_complex", "C191_round_trip", "C191_three_round_trip", "C191_columns", "C191_nan"], "note": "GAIN, 3 ** 0.5 and the inverse of COEFFICIENT are parameters within 2^-50; complex division is numpy's (Smith); matmul in any order"},
{"property": "C192", "status": "proved", "theorems": ["C192_places", "C192_forward", "C192_inverse", "C192_nan"], "note": "the NaN part in doubles with numpy.dot in any order"},
{"property": "C193", "status": "proved", "theorems": ["C193_local", "C193_trailing", "C193_append", "C193_perturb", "C193_tone"], "note": ""},
{"property": "C194", "status": "proved", "theorems": ["C194_transpose", "C194_line", "C194_outer"], "note": "transposition and outer products in exact arithmetic; single rows and columns in any arithmetic"},
{"property": "C195", "status": "proved", "theorems": ["C195_model_of_one_thread", "C195_shared_rows", "C195_shared_count", "C195_lost_sample_refuted", "C195_gap_refuted", "C195_diversity_falls_refuted", "C195_diversity_wrong_refuted"], "note": "isolation, what sharing keeps and four refutations with schedules; clear is not a call of the thread model"},
{"property": "C196", "status": "proved", "theorems": ["C196_shared_fir", "C196_shared_fir_range", "C196_rank_of_one_thread", "C196_shared_rank", "C196_rank_order_refuted", "C196_rank_largest_refuted"], "note": "any arithmetic except for the bound; argsort only permutes the indices; the setters of b and s are not calls here"},
{"property": "C197", "status": "proved", "theorems": ["C197_goertzel_of_one_thread", "C197_shared_goertzel", "C197_broken_for_good", "C197_shared_iir", "C197_index_refuted", "C197_outputs_refuted"], "note": "any arithmetic; a reset is one access; the setters of a, b and s are not calls here; the array size ceil(n / L) + 1 is computed by any function"},
{"property": "C198", "status": "proved", "theorems": ["C198_shared_pid", "C198_integral", "C198_bounded", "C198_limit_refuted", "C198_unbounded_refuted"], "note": "any arithmetic except for the bounds; the setters of b, s and limit are not calls here"},
{"property": "C199", "status": "proved", "theorems": ["C199_forward", "C199_round_trip", "C199_psd", "C199_exact"], "note": "the FFT is any function with the stated error; the other operations are exact"},
{"property": "C200", "status": "proved", "theorems": ["C200_filters", "C200_wavelet", "C200_reconstruction_refuted"], "note": "any arithmetic in which real parts are idempotent and closed under sums and products; numpy's ComplexWarning is not an error (default filter)"},
{"property": "C201", "status": "proved", "theorems": ["C201_uninterrupted", "C201_shared_exponential", "C201_each_call_continuous", "C201_continuation_refuted"], "note": "any arithmetic for the first part; reading and storing the phase are one access each"},
{"property": "C202", "status": "proved", "theorems": ["C202_uninterrupted", "C202_shared_client", "C202_fixed_settings", "C202_consistent_settings_refuted"], "note": "the network is any function of what this client sent and closed so far; reading or setting one attribute is one access"},
{"property": "C203", "status": "proved", "theorems": ["C203_gmm_shared_predictions", "C203_shared_mixture", "C203_rankings", "C203_one_setting_refuted", "C203_predict_during_fit_refuted"], "note": "any arithmetic and estimator; self._model.append is one access"},
{"property": "C204", "status": "proved", "theorems": ["C204_uninterrupted", "C204_shared_frequency", "C204_without_adaptation", "C204_bounded_refuted"], "note": "exact complex arithmetic; the inherited b and s setters are not among the calls"},
{"property": "C205", "status": "proved", "theorems": ["C205_uninterrupted", "C205_shared_bandpass", "C205_without_adaptation", "C205_bounded_refuted"], "note": "exact complex arithmetic; hilbert keeps the length; the inherited b and s setters are not among the calls"},
{"property": "C206", "status": "proved", "theorems": ["C206_uninterrupted", "C206_shared_rate", "C206_constant_signal", "C206_one_rate_refuted"], "note": "exact arithmetic except C206_uninterrupted (any); numpy.linspace a parameter, its contract assumed only there; a rate of zero is excluded because numpy's division by it is not modelled"},
{"property": "C207", "status": "proved", "theorems": ["C207_uninterrupted", "C207_shared_polyphase", "C207_index_refuted"], "note": "any arithmetic; the bank is complete; idle iterations of the outer loop are bounded by a parameter, and the answer None means that the bound was reached"}
]}
