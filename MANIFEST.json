{"claims": [
  {"property": "C01", "status": "proved", "theorems": ["C01_fifo", "C01_planar_fifo", "C01_misuse_caught"], "note": ""},
  {"property": "C02", "status": "partial", "theorems": ["C02_overwrite_order_refuted", "C02_overwrite_rotated_partial"], "note": "The documented oldest-first order after an overrun is false of the code (witness); the partial theorem gives the content that is actually delivered."},
  {"property": "C03", "status": "partial", "theorems": ["C03_is_full_partial", "C03_is_full_sound_partial", "C03_is_full_refuted"], "note": "IsFull() disagrees with NumReadableEntries() after a zero-length Advance on a full buffer or an overrun; equivalence proved for histories without those."},
  {"property": "C04", "status": "proved", "theorems": ["C04_delay", "C04_delay_stream", "C04_negative_delay"], "note": ""},
  {"property": "C05", "status": "proved", "theorems": ["C05_modulo", "C05_modulo_int_min_undefined", "C05_modulo_bad_modulus", "C05_round_down", "C05_round_up", "C05_gcd", "C05_gcd_portable", "C05_gcd_vector", "C05_is_power_of_two_or_zero", "C05_log2_floor", "C05_log2_ceiling", "C05_next_power_of_two", "C05_next_power_of_two_too_big", "C05_next_power_of_two_zero_undefined"], "note": ""},
  {"property": "C06", "status": "proved", "theorems": ["C06_combinations", "C06_fuel_irrelevant", "C06_table"], "note": ""},
  {"property": "C07", "status": "partial", "theorems": ["C07_positions_differ", "C07_iteration_is_nested_loop", "C07_every_vector_once", "C07_count", "C07_empty_shape_refuted", "C07_flat_index_partial", "C07_flat_index_refuted", "C07_end_stays"], "note": "The empty shape gives an empty range although the nested loop would run once, and FlatIndex truncates indices above the int range; both refuted with witnesses, everything else proved."},
  {"property": "C08", "status": "partial", "theorems": ["C08_best_exact", "C08_best_default_partial", "C08_close_default_partial", "C08_best_default_refuted", "C08_bad_denominator"], "note": "With the default convergence tolerance the result is not best when max_denominator is large (witness); best approximation proved for tolerance 0 and for default tolerance up to max_denominator 499999999."},
  {"property": "C09", "status": "proved", "theorems": ["C09_unsigned_little_endian", "C09_unsigned_big_endian", "C09_signed", "C09_float_bits"], "note": ""},
  {"property": "C10", "status": "partial", "theorems": ["C10_write_read_round_trip_partial", "C10_many_channels_refuted", "C10_byte_rate_overflow_refuted"], "note": "Round trip proved for fewer than 65536 channels and a byte rate that fits in an int; outside these limits the writer accepts arguments for which the claim is false (witnesses)."},
  {"property": "C11", "status": "proved", "theorems": ["C11_reads_serve_one_stream", "C11_chunking_invisible", "C11_16bit"], "note": ""},
  {"property": "C12", "status": "partial", "theorems": ["C12_unknown_chunks_ignored_partial", "C12_padded_chunk_refuted"], "note": "Proved for chunks stored without the RIFF pad byte; an odd-sized chunk with its pad byte makes the reader fail (witness)."},
  {"property": "C13", "status": "partial", "theorems": ["C13_remaining_whole_frames_partial", "C13_remaining_refuted", "C13_accounting"], "note": "True when the data chunk holds whole frames; refuted otherwise."},
  {"property": "C14", "status": "partial", "theorems": ["C14_header_and_samples_report_partial", "C14_write_file_reports_refuted", "C14_write_file_partial", "C14_refuses"], "note": "The generic header and sample writers report exactly; WriteWavFile ignores failures while writing samples (witness)."},
  {"property": "C15", "status": "partial", "theorems": ["C15_portable_chunk_invariance", "C15_portable_excess", "C15_flush", "C15_cpp_chunk_invariance_partial", "C15_cpp_bit_exact_refuted"], "note": "Bit for bit for the portable resampler with arbitrary arithmetic. For QResampler and the C++ RationalFactorResampler proved when a dot product may be split (exact arithmetic); bit-for-bit equality is refuted in single precision."},
  {"property": "C16", "status": "proved", "theorems": ["C16_portable_formula", "C16_cpp_formula", "C16_resample_signal", "C16_reduced_factor"], "note": ""},
  {"property": "C17", "status": "proved", "theorems": ["C17_portable_counts", "C17_cpp_counts", "C17_next_input", "C17_fully_primed", "C17_flush_complete", "C17_portable_flush"], "note": ""},
  {"property": "C18", "status": "proved", "theorems": ["C18_top_n", "C18_unique"], "note": "For every sort and selection allowed by the C++ standard and every strict weak order."},
  {"property": "C19", "status": "proved", "theorems": ["C19_fir_convolution", "C19_fir_reset", "C19_two_tap", "C19_first_difference"], "note": "Bit for bit: no law of arithmetic is assumed."},
  {"property": "C20", "status": "proved", "theorems": ["C20_decimator", "C20_evens_are_the_even_samples"], "note": ""},
  {"property": "C21", "status": "proved", "theorems": ["C21_block_boundaries", "C21_difference_equation", "C21_equation_determines_output", "C21_init_and_reset", "C21_cascade", "C21_cascade_sample_or_block", "C21_portable", "C21_cascade_reset"], "note": "Block boundaries without any law of arithmetic; the difference equation over every field."},
  {"property": "C22", "status": "proved", "theorems": ["C22_steady_state", "C22_frequency_response"], "note": "Over every field."},
  {"property": "C23", "status": "partial", "theorems": ["C23_simplify_zero_tolerance_partial", "C23_append_well_scaled_partial", "C23_simplify_complete", "C23_append_refuted"], "note": "The claim is false of the code: coefficients below 1e-10 are treated as zero, so appending to a lowpass for a very low corner frequency changes its gain by a factor four (witness). Proved: exact with tolerance 0 for every cascade; exact with the tolerance of the code for every history of appending well scaled stages; the loops terminate within the vector bounds."},
  {"property": "C24", "status": "proved", "theorems": ["C24_biquad_is_stable_exact", "C24_zero_leading_coefficient", "C24_cascade_sound", "C24_polynomial_ratio", "C24_cascade_zero_numerator_refuted", "C24_stable_forgets", "C24_stable_bounded"], "note": "Over the reals. For the cascade version soundness is proved; it is undefined when a stage has a zero numerator."},
  {"property": "C25", "status": "proved", "theorems": ["C25_energy", "C25_bounded", "C25_unstable_coefficients_refuted"], "note": "For every history of Change, Reset and Sample calls, over the reals. The documented CHECK on coefficients of magnitude one or more does not exist: they are clamped."},
  {"property": "C26", "status": "partial", "theorems": ["C26_reflection_partial", "C26_change_accepted", "C26_no_overshoot", "C26_tap_gains_refuted", "C26_reset_refuted"], "note": "The claim is false of the code: the tap gains never reach their target because the final assignment is reversed, and Reset in mid-transition freezes the interpolated coefficients. Proved: reflection coefficients reach the target exactly and never leave the range of the requested values."},
  {"property": "C27", "status": "partial", "theorems": ["C27_lowpass", "C27_highpass", "C27_bandpass", "C27_bandstop", "C27_peak", "C27_bandpass_centre_refuted", "C27_ranged_bandpass", "C27_ranged_bandstop", "C27_low_shelf", "C27_high_shelf", "C27_symmetric_peaks_inverse", "C27_symmetric_peak_zero_gain", "C27_allpass", "C27_allpass_minimal", "C27_allpass_accepted_refuted", "C27_bad_arguments"], "note": "Everything proved over the reals except: the gain at the centre frequency fails below fs/10^7 because the code stops prewarping there (witness), an allpass at exactly the smallest accepted group delay is 0/0 (witness), and a symmetric peak with gain 0 aborts."},
  {"property": "C28", "status": "partial", "theorems": ["C28_cleared_is_transparent", "C28_coefficients_partial", "C28_order_refuted", "C28_fit_refuted", "C28_add_stage", "C28_stage_enabled", "C28_fit_gains_only", "C28_cleared_keeps"], "note": "After ClearAllGains the equaliser is exactly transparent (proved). The cascade has one stage per enabled stage only: bypassed stages are removed (order claim refuted), and fitting gains aborts whenever a stage is bypassed (refuted)."},
  {"property": "C29", "status": "proved", "theorems": ["C29_documented_curves", "C29_slopes", "C29_limiter_bound", "C29_no_amplification"], "note": "Over the real numbers; slopes give monotonicity and (Lipschitz) continuity."},
  {"property": "C30", "status": "partial", "theorems": ["C30_regions_partial", "C30_monotone", "C30_regions_refuted", "C30_zero_ratio_refuted"], "note": "The five-region curve holds whenever the soft ratio is positive; the validity check accepts non-positive soft ratios, for which it fails."},
  {"property": "C31", "status": "partial", "theorems": ["C31_output", "C31_block_size", "C31_reset_partial", "C31_crossfade_refuted", "C31_reset_params_refuted", "C31_reset_lookahead_refuted"], "note": "Output formula and block-size independence proved. The crossfade never happens (aliased buffers) and Reset loses the parameters and keeps the lookahead samples; what Reset does achieve is proved."},
  {"property": "C32", "status": "proved", "theorems": ["C32_range", "C32_recursion", "C32_reset", "C32_fast_interpolation_refuted"], "note": "Range holds for every history when the interpolation rate is at most a tenth of the sample rate; a counterexample shows the accepted rates near Nyquist overshoot."},
  {"property": "C33", "status": "proved", "theorems": ["C33_operator", "C33_sinusoid"], "note": "The operator formula is for arbitrary numbers and operations; the sinusoid is over the reals."},
  {"property": "C34", "status": "proved", "theorems": ["C34_frames", "C34_chunking", "C34_failed_initialize", "C34_reset_uninitialized_refuted"], "note": "Proved for every window (2 to 2^30 samples), step, history and sequence of calls of both kinds, with rdft as an arbitrary length-preserving function and abstract arithmetic (so also bit-exactly for floats). Finding: ResetSampleBuffer before any Initialize writes to an empty vector."},
  {"property": "C35", "status": "partial", "theorems": ["C35_overlap_add_window", "C35_overlap_add_fft", "C35_reconstruction", "C35_flush_window_refuted", "C35_flush_null_refuted", "C35_large_step_refuted"], "note": "Overlap-add, Flush tail and exact reconstruction proved for step <= frame. Refuted of the code: Flush after Initialize(window, step) loses the window and frame size; Flush(NULL) dereferences NULL; a step larger than the frame is accepted but ignored."},
  {"property": "C36", "status": "partial", "theorems": ["C36_output", "C36_latency", "C36_empty_chunk_refuted", "C36_large_hop_refuted", "C36_zero_hop_refuted", "C36_callback_frames_refuted"], "note": "Output = overlap-add of the processed blocks of the delayed input, constant latency and size preservation proved for every block, hop <= block, chunk-size list, callback and chunk sequence. Refuted of the code: an accepted empty chunk loses the overlap, hop > block is accepted but aborts, hop 0 is accepted but loops for ever, and the callback is told block/2+1 frames instead of the block length."},
  {"property": "C37", "status": "proved", "theorems": ["C37_scale", "C37_inverse", "C37_domain", "C37_monotone", "C37_products", "C37_arrays"], "note": "Over the reals."},
  {"property": "C38", "status": "partial", "theorems": ["C38_bits", "C38_log2", "C38_log2_monotone", "C38_exp2", "C38_exp2_monotone", "C38_exp2_integer", "C38_pow_partial", "C38_pow_general", "C38_pow_refuted", "C38_tanh"], "note": "All float roundings are modelled with Flocq's binary32 format; tables are checked entry by entry against proved logarithm bounds. The documented 0.5% of FastPow holds for |y| <= 1.8 and is refuted for larger exponents."},
  {"property": "C39", "status": "proved", "theorems": ["C39_oscillator", "C39_amplitude_drift", "C39_period"], "note": "Exact arithmetic, as the property says; C39_amplitude_drift also covers a rotator of any magnitude."},
  {"property": "C40", "status": "partial", "theorems": ["C40_init", "C40_level", "C40_level_bounds", "C40_convergence", "C40_gain", "C40_gain_monotone", "C40_strength_zero", "C40_header_formula_refuted"], "note": "Averages in exact arithmetic, gain with all float roundings except that of exp in Init. The header's formula for warm-up is off by one (refuted); the code averages a 1 with the samples seen so far."},
  {"property": "C41", "status": "proved", "theorems": ["C41_arithmetic", "C41_division", "C41_abs", "C41_sqrt", "C41_exp", "C41_log", "C41_hyperbolic", "C41_identities", "C41_acosh", "C41_asinh", "C41_acos", "C41_asin"], "note": "Over the reals, for every exponent frexp may choose."},
  {"property": "C42", "status": "partial", "theorems": ["C42_stops", "C42_bounds", "C42_best", "C42_lowest_partial", "C42_lowest_refuted", "C42_monotone", "C42_second_call", "C42_budget", "C42_stop_reason", "C42_tolerance_partial", "C42_tolerance_refuted", "C42_infinite_refuted"], "note": "Termination, bounds, minimum, budget and monotonicity are proved for every objective. Refuted: with Scalar=double a rounded comparison can drop the lowest value; tolerance 0 is not ignored; an infinite vertex value ends the search."},
  {"property": "C43", "status": "partial", "theorems": ["C43_compute", "C43_weights", "C43_estimate_inverse", "C43_rejects", "C43_above_nyquist_refuted", "C43_inverse_zero_refuted", "C43_failed_reinitialize_refuted"], "note": "Triangular mel filters, partition of unity, in-bounds access and inverse formula proved for upper limits up to Nyquist (real arithmetic). Refuted of the code: upper limits above Nyquist are accepted but read/write out of bounds, EstimateInverse can divide 0 by 0, and a failed re-Initialize leaves an inconsistent object that reads out of bounds."},
  {"property": "C44", "status": "partial", "theorems": ["C44_transform", "C44_linear", "C44_orthogonal", "C44_mfcc", "C44_failed_reinitialize_refuted"], "note": "Documented transform, linearity, orthogonality and the whole MFCC pipeline proved (real arithmetic); Mfcc is safe after failed initialisation, but Dct itself is not (refuted: out-of-bounds read)."},
  {"property": "C45", "status": "partial", "theorems": ["C45_bandpass_spectrum", "C45_bandpass_rounded", "C45_time_domain", "C45_highpass_partial", "C45_highpass_refuted", "C45_tolerance_refuted", "C45_float_edge_refuted"], "note": "Exact in real arithmetic, and characterised for every monotone rounding; the documented half-bin tolerance does not exist, the highpass aborts on the top half bin of its documented range, and in single precision the Nyquist bin can be dropped."},
  {"property": "C46", "status": "partial", "theorems": ["C46_eval", "C46_unimodal_partial", "C46_symmetric_samples", "C46_periodic_samples", "C46_overlap", "C46_sqrt_hann", "C46_radius_partial", "C46_radius_refuted", "C46_set_radius_refuted", "C46_quartic_refuted", "C46_history", "C46_history_refuted"], "note": "Normalisation, evenness, documented formula, support, range, unimodality, sample positions, symmetry, 50% overlap and history independence proved for every window (real arithmetic; upper bound 1 of the Kaiser window for beta < 21). Refuted of the code: Planck-taper samples depend on the radius; Eval(0)=1 fails after set_radius below epsilon; the quartic window is negative just outside the radius and may be zero at endpoints it reports as nonzero; memoized samples survive set_radius."},
  {"property": "C47", "status": "proved", "theorems": ["C47_complex_transform", "C47_real_transform", "C47_wrong_sizes", "C47_linear_convolution", "C47_linear_convolution_times"], "note": "Exact arithmetic, relative to the stated contract of the Kiss FFT functions (met by the DFT itself)."},
  {"property": "C48", "status": "partial", "theorems": ["C48_range", "C48_law", "C48_total", "C48_channels", "C48_init_refuted"], "note": "Range, exact hold/resume law, channel independence and success for valid parameters are proved for given fast and slow envelopes; 'Init validates the parameters it is given' is false (it tests the previous ones) and refuted. The computation of the two envelopes is added in C95."},
  {"property": "C49", "status": "partial", "theorems": ["C49_linkwitz_riley_partial", "C49_linkwitz_riley_gains_partial", "C49_flat_refuted", "C49_butterworth_partial", "C49_bump_refuted", "C49_refused"], "note": "Flat sum proved when no coefficient falls below the 1e-10 tolerance of the cascade; refuted otherwise (order 8 at 45 Hz). The documented 3 dB bump of Butterworth crossovers exists for even orders only."},
  {"property": "C50", "status": "proved", "theorems": ["C50_rejects", "C50_bandpass_rejects", "C50_lowpass", "C50_highpass", "C50_corner", "C50_bandpass"], "note": "Over the reals; also the whole magnitude response and the bandpass."},
  {"property": "C51", "status": "partial", "theorems": ["C51_truncated_header_refuted", "C51_complete_partial", "C51_cut_partial"], "note": "Proved: a file cut in its header is rejected or the error flag is set. Refuted: a file cut right after the data identifier is accepted with return value 1."},
  {"property": "C52", "status": "partial", "theorems": ["C52_header_robust", "C52_read_after_failure_refuted"], "note": "Header robustness proved for every byte string; reading samples after a failed header divides by zero (witness)."},
  {"property": "C53", "status": "partial", "theorems": ["C53_accepted_configuration_works_refuted", "C53_condition"], "note": "Refuted for small filter_radius_factor; proved under numerator <= denominator * taps."},
  {"property": "C54", "status": "partial", "theorems": ["C54_ladder_realises", "C54_zero_reflection_refuted"], "note": "Proved for reflection coefficients that are not zero; a zero reflection coefficient is attenuated by 1 - 10 eps per stage (witness)."},
  {"property": "C55", "status": "partial", "theorems": ["C55_peaks", "C55_periodic_peaks_partial", "C55_periodic_peaks_refuted"], "note": "Proved without wrap-around. With wrap-around the code compares the endpoints the wrong way round: a plateau at the seam is missed (witness); proved when the endpoints do not tie with their neighbours."},
  {"property": "C56", "status": "partial", "theorems": ["C56_shape", "C56_accuracy_partial", "C56_asymptotic"], "note": "Parity and positivity for every x; monotonicity and truncation accuracy for |x| < 21 (power series). For x >= 21 the result is proved to be a partial sum of the standard asymptotic expansion with the documented stopping rule. Missing: the distance of that expansion from I_n, and rounding."},
  {"property": "C57", "status": "partial", "theorems": ["C57_fourier_partial", "C57_quadrature", "C57_kaiser"], "note": "Proved for the rectangular, cosine, Hamming, Hann, Nuttall and quartic windows at all frequencies not strictly inside the 1e-8 tolerance of a removable singularity; the Planck taper's transform is the documented quadrature. The Kaiser window's transform is proved to be the Fourier integral of the window with the true Bessel function (by integrating the product series term by term), from which Eval differs by at most 2 DBL_EPSILON for beta < 21. Missing: frequencies strictly inside the tolerances and rounding."},
  {"property": "C58", "status": "proved", "theorems": ["C58_upsample_interpolates", "C58_upsample_bandlimited"], "note": "Exact arithmetic, relative to the Kiss FFT contract."},
  {"property": "C59", "status": "proved", "theorems": ["C59_periodic_resample"], "note": "Exact arithmetic, relative to the Kiss FFT contract; rounding of the size computation not modelled."},
  {"property": "C60", "status": "partial", "theorems": ["C60_gaussian", "C60_documented_sum_refuted"], "note": "The transfer function and sum are proved; the documented infinite sum is a different filter for small sigma."},
  {"property": "C61", "status": "partial", "theorems": ["C61_moves", "C61_improves", "C61_reflection_partial", "C61_reflection_refuted", "C61_standard_deviation_partial", "C61_setters_refuted", "C61_starting_guess", "C61_results"], "note": "The moves are proved. Refuted: the second worst vertex is searched without the last one, StandardDeviation lacks the division by the number of vertices, and the setters do not reset the count or apply bounds."},
  {"property": "C62", "status": "partial", "theorems": ["C62_history", "C62_coefficients_partial", "C62_balanced", "C62_gain_refuted", "C62_eval", "C62_eval_refuted"], "note": "Missing: roots within 1e-5 of zero but not zero, where the stage reduction tolerance applies. Refuted: a filter without roots loses its gain; Eval has the wrong sign for odd relative degree."},
  {"property": "C63", "status": "partial", "theorems": ["C63_bilinear_partial", "C63_sign_refuted", "C63_improper_refuted"], "note": "Proved for filters with at least as many poles as zeros that are not negative at the point k. Refuted: the sign of a negative gain is lost, and an improper filter lacks the poles at Nyquist."},
  {"property": "C64", "status": "partial", "theorems": ["C64_lowpass_partial", "C64_highpass_partial", "C64_refused", "C64_zero_corner_refuted"], "note": "Proved for every stable prototype whose mapped roots stay out of the 1e-5 tolerance (or has as many zeros as poles). Refuted: a corner frequency of zero is accepted and gives a pole on the unit circle."},
  {"property": "C65", "status": "partial", "theorems": ["C65_bandpass_partial", "C65_bandstop_partial", "C65_edges", "C65_refused", "C65_wide_band_refuted"], "note": "Proved when every real root is mapped to a complex pair and no root falls within the 1e-5 tolerance. Refuted: for wide bands real roots are replaced by complex ones, which gives a peak of gain above 3."},
  {"property": "C66", "status": "partial", "theorems": ["C66_lowpass_partial", "C66_highpass_partial", "C66_lowpass_shape_partial", "C66_highpass_shape_partial", "C66_bandpass_partial", "C66_bandstop_partial", "C66_refuses"], "note": "Orders up to 50000; odd orders in bandpass and bandstop filters need bands narrower than 3+2 sqrt 2 in warped ratio (see C65_wide_band_refuted)."},
  {"property": "C67", "status": "partial", "theorems": ["C67_type1_lowpass_partial", "C67_type1_highpass_partial", "C67_type1_lowpass_shape_partial", "C67_type1_highpass_shape_partial", "C67_type2_lowpass_partial", "C67_type2_highpass_partial", "C67_type2_lowpass_shape_partial", "C67_type2_highpass_shape_partial", "C67_type1_bandpass_partial", "C67_type1_bandstop_partial", "C67_type2_bandpass_partial", "C67_type2_bandstop_partial", "C67_refuses"], "note": "Orders up to 25000; bandpass and bandstop filters of even order (odd orders: see C65_wide_band_refuted)."},
  {"property": "C68", "status": "partial", "theorems": ["C68_well_formed_partial", "C68_riff_size_refuted"], "note": "Proved for up to 32767 channels and all but the last 12 bytes of the accepted size range; refuted there: with more than two channels the RIFF size wraps around."},
  {"property": "C69", "status": "proved", "theorems": ["C69_direct_form", "C69_chunks", "C69_convolution"], "note": ""},
  {"property": "C70", "status": "partial", "theorems": ["C70_mean_variance", "C70_z_score", "C70_z_score_refuted", "C70_max_magnitude", "C70_rms_error", "C70_find_max"], "note": "Real elements. Refuted: ZScoreNormalize of a constant signal with floor zero divides zero by zero."},
  {"property": "C71", "status": "partial", "theorems": ["C71_chunks", "C71_forward", "C71_coefficient", "C71_smooth_vector_partial", "C71_constant_refuted", "C71_block_dc", "C71_hermitian", "C71_split_combine", "C71_hermitian_extension"], "note": "SmoothVector reads past an empty container, and pulls the ends towards zero, so constants are not kept (refuted). Missing: closeness of the four-pass kernel to a Gaussian."},
  {"property": "C72", "status": "partial", "theorems": ["C72_location", "C72_maximum_partial", "C72_exact", "C72_maximum_refuted"], "note": "Maximum proved when the slope is not below the tolerance, and up to a quarter of the tolerance at a local maximum; refuted at the bottom of a symmetric valley, where the minimum is returned."},
  {"property": "C73", "status": "proved", "theorems": ["C73_phasors", "C73_sine", "C73_average", "C73_unweighted", "C73_rotation", "C73_whole_periods", "C73_single", "C73_refused"], "note": ""},
  {"property": "C74", "status": "proved", "theorems": ["C74_lowpass", "C74_zero_phase", "C74_highpass", "C74_bandpass"], "note": ""},
  {"property": "C75", "status": "partial", "theorems": ["C75_size", "C75_whole_steps", "C75_elements_partial", "C75_elements_refuted", "C75_iteration"], "note": "Over exact reals. Size, order and iteration proved in full; the last element is refuted for large steps: the threshold that decides between limit and base+step*(size-1) is multiplied by the step, so 0:2^50:1.5*2^50 ends on 1.5*2^50."},
  {"property": "C76", "status": "partial", "theorems": ["C76_init", "C76_blocks", "C76_vector", "C76_failed_init_refuted", "C76_formula", "C76_average", "C76_gain", "C76_zero_weight", "C76_tone", "C76_presets"], "note": "Refuted part: a refused Init has already replaced the channel weights, so that a working meter may read outside them. The coefficients of the K-weighting filter are a parameter here."},
  {"property": "C77", "status": "partial", "theorems": ["C77_uninitialized", "C77_same_rate", "C77_downsampled", "C77_init", "C77_formula", "C77_downsampled_formula", "C77_range", "C77_tone", "C77_constant", "C77_reset_refuted"], "note": "Refuted part: Reset keeps the value reported by most_recent_output. The resampler configuration is a parameter (its construction is C53)."},
  {"property": "C78", "status": "partial", "theorems": ["C78_init", "C78_output", "C78_five_regions", "C78_block_size", "C78_neutral", "C78_reset_partial", "C78_reset_refuted", "C78_curve_unchecked_refuted", "C78_negative_power_refuted"], "note": "Over exact reals. Refuted parts: Reset keeps the samples of the lookahead; Init accepts curves that every block then aborts on; a second-order averaging filter can produce a negative power, after which the gain is stuck."},
  {"property": "C79", "status": "partial", "theorems": ["C79_analog", "C79_roots", "C79_standard", "C79_digital_partial", "C79_sufficient_partial", "C79_common_rates", "C79_reference_gain_partial", "C79_meter_partial", "C79_low_rates_refuted"], "note": "Over exact reals. Missing: sample rates where a real pole is mapped to within 1e-5 of zero without being zero (for 8 kHz and more: 0.8 Hz around 38327.5 Hz). Refuted: below about 6.3 kHz (D) and 3.4 kHz (K) poles are dropped but not zeros, and the filter is 6 or 12 dB too loud."},
  {"property": "C80", "status": "partial", "theorems": ["C80_linkwitz_riley_partial", "C80_butterworth_partial", "C80_in_phase_partial", "C80_top_bands_partial", "C80_butterworth_in_phase_partial", "C80_band_coefficients_partial", "C80_signals_partial", "C80_block_size", "C80_reset", "C80_two_bands", "C80_three_bands_partial", "C80_order_4_partial", "C80_valid_frequencies_refuted", "C80_refuses"], "note": "Over exact reals. Missing: coefficients below the thresholds of Simplify (fine_crossover, clear_allpass); the signal theorem needs nonzero reflection coefficients (C54); acceptance is characterised for two and three bands. Refuted: Init aborts for some increasing frequencies, for example order 6 with prewarped ratio 1/sqrt 2."},
  {"property": "C81", "status": "partial", "theorems": ["C81_output", "C81_neutral", "C81_block_size", "C81_reset_partial", "C81_reset_refuted", "C81_init_forgets", "C81_parameters", "C81_setters", "C81_refuses"], "note": "Over exact reals. C81_output needs nonzero reflection coefficients in the filterbank (C54) and a sample rate above 400 Hz (as C31). C81_reset_partial: lookahead 0 and parameters given to every band since Init; without that, refuted: Reset replaces the constructor's parameters by defaults (C31)."},
  {"property": "C82", "status": "partial", "theorems": ["C82_eval", "C82_to_lowpass", "C82_to_highpass", "C82_to_bandpass", "C82_to_bandstop", "C82_band_capacity", "C82_bilinear", "C82_sort", "C82_to_biquads", "C82_to_biquads_refuses", "C82_uneven_refuted", "C82_almost_real_refuted"], "note": "Over exact reals. Refuted: ZpkToBiquads of a filter with different numbers of zeros and poles reads roots that were never written; a root that is almost real is accepted without its conjugate."},
  {"property": "C83", "status": "partial", "theorems": ["C83_butterworth_lowpass", "C83_butterworth_highpass", "C83_butterworth_bandpass", "C83_butterworth_bandstop", "C83_chebyshev1_lowpass", "C83_chebyshev1_highpass", "C83_chebyshev1_bandpass", "C83_chebyshev1_bandstop", "C83_chebyshev2_lowpass", "C83_chebyshev2_highpass", "C83_chebyshev2_bandpass", "C83_chebyshev2_bandstop", "C83_small_order", "C83_bad_frequency", "C83_too_little_room", "C83_large_order_refuted", "C83_band_order_refuted"], "note": "Over exact reals. Odd orders of the band designs also need that the real pole does not nearly give a double pole (edge_clear). Refuted: orders above 30 overflow the arrays; band designs of order 16 to 30 report success and return a filter that is not the one asked for."},
  {"property": "C84", "status": "partial", "theorems": ["C84_float_string_partial", "C84_one_sample", "C84_nan_refuted"], "note": "Float values are rationals, infinities and NaN. Refuted for NaN: it is written as -32768, not as the intended 0. Channel count and byte rate restricted as in C10."},
  {"property": "C85", "status": "partial", "theorems": ["C85_peak_partial", "C85_set_peak_gain_partial", "C85_set_gain_at_frequency"], "note": "Over exact reals. Missing: filters whose slope polynomial has a nearly but not exactly double root."},
  {"property": "C86", "status": "partial", "theorems": ["C86_bisection_partial", "C86_range_refuted", "C86_cascade_peak_partial", "C86_cascade_set_peak_gain_partial", "C86_dc_peak_refuted"], "note": "Over exact reals. Refuted: a function that is nowhere positive gives 0, which may lie outside the range; the peak of a lowpass cascade at 0 is not found, and after SetPeakGain the gain at 0 exceeds the requested peak."},
  {"property": "C87", "status": "partial", "theorems": ["C87_poles_partial", "C87_poles_near", "C87_infinite_iff_unstable", "C87_decay_rate", "C87_decay_refuted"], "note": "Over exact reals. Nearly double poles: C87_poles_near bounds the error. Refuted: the estimate is not the time to decay below the peak value; with a double pole at 0.9 the response is only about 6 dB below its peak at the time estimated for 20 dB."},
  {"property": "C88", "status": "partial", "theorems": ["C88_design_partial", "C88_unit_gain_partial", "C88_channels_partial", "C88_refuses", "C88_succeeds_partial", "C88_init_again_refuted", "C88_nyquist_refuted", "C88_selection_refuted"], "note": "Over exact reals. Missing: filterbanks with a numerator coefficient below 1e-10, which the cascade code then treats as a lower order filter. Refuted: a second Init reads past the end of a vector; max_pole_nyquist_fraction = 1 is accepted but aborts; a huge skip_every_n overflows."},
  {"property": "C89", "status": "partial", "theorems": ["C89_filterbank_partial", "C89_block_size_partial", "C89_filtered_output_partial", "C89_frequency_response_partial", "C89_no_stages_refuted"], "note": "Over exact reals, under the condition of C88. Refuted: parameters that give no stages are accepted and ProcessBlock then reads an empty vector."},
  {"property": "C90", "status": "partial", "theorems": ["C90_convolution", "C90_refuses", "C90_construct", "C90_range", "C90_repeated", "C90_documented_example_refuted"], "note": "Over exact reals. Everything claimed about the code is proved; refuted is the numeric example in the header, which belongs to the kernel [.1, .9, .1] instead of [.1, .8, .1]."},
  {"property": "C91", "status": "partial", "theorems": ["C91_sine", "C91_negative_amplitude_refuted", "C91_sine_eigen", "C91_agree", "C91_phase_refuted", "C91_impulse", "C91_impulse_refuses"], "note": "Over exact reals. Refuted: a negative amplitude is outside the domain of std::polar; GenerateSineEigen subtracts the phase that GenerateSine adds. The white noise generator is not modelled."},
  {"property": "C92", "status": "partial", "theorems": ["C92_complete", "C92_incomplete", "C92_amplitude", "C92_inverse", "C92_versions_agree", "C92_complex", "C92_path_on_axes", "C92_imaginary", "C92_imaginary_amplitude", "C92_imaginary_transformation", "C92_beyond_quarter_period_refuted", "C92_tiny_parameter_refuted"], "note": "Over exact reals, against the integral defined with Coquelicot's RInt. Accuracy for m up to 1 - 2^-53, at real arguments, on the imaginary axis and along straight paths in the open strip. Refuted: beyond the quarter period the amplitude is folded, so cn(u|m) = cos(phi) has the wrong sign; for 0 < m <= 2^-104 EllipticF returns its argument, which is wrong by any amount at large imaginary arguments."},
  {"property": "C93", "status": "partial", "theorems": ["C93_gains", "C93_solver_exists", "C93_columns_partial", "C93_previous_gains", "C93_flat", "C93_fit", "C93_returns", "C93_refused", "C93_frequency_range_refuted"], "note": "Over exact reals; Eigen's LDLT is a parameter, needed to solve positive definite systems only in C93_gains and C93_flat (and a solver that does is constructed). C93_columns_partial needs stages of second order, otherwise AppendBiquad may merge them. Refuted: the search range is not adapted to the sample rate, so the default settings abort at 44100 Hz for a starting frequency of 21 kHz."},
  {"property": "C94", "status": "partial", "theorems": ["C94_structure", "C94_versions_agree", "C94_zeros_beyond_cutoff_partial", "C94_first_order", "C94_stable_second_order_partial", "C94_stable_partial", "C94_lowpass_partial", "C94_highpass_partial", "C94_bandpass_partial", "C94_bandstop_partial", "C94_portable_lowpass_partial", "C94_portable_highpass_partial", "C94_portable_bandpass_partial", "C94_portable_bandstop_partial", "C94_roots_partial", "C94_refuses", "C94_ripple_order_refuted", "C94_large_order_refuted"], "note": "Over exact reals. Missing: stability, totality and zeros beyond the cutoff above order 10; ripples outside 1 to 3 dB and attenuations outside 20 to 100 dB at orders 3 to 10; band filters of odd order; in C, corner frequencies within a millionth and band edges within a hundredth of the sample rate from the ends or each other; the equiripple behaviour (the positions of the roots are proved for orders 2 to 10, not what the response does between frequency 0 and half the sample rate). Refuted: nothing checks that the stopband ripple exceeds the passband ripple, nor that the order fits the arrays."},
  {"property": "C95", "status": "partial", "theorems": ["C95_init", "C95_uninitialized", "C95_levels", "C95_blocks", "C95_reset", "C95_range", "C95_silence", "C95_settles", "C95_setters", "C95_most_recent_refuted", "C95_cutoff_then_reset_refuted"], "note": "Over exact reals; the resampler set up by Init is a parameter (a valid configuration, see C16 and C77), and the slow cutoff is below a quarter of the envelope rate. Refuted: MostRecentBackgroundLevelEstimate reports a linear level while GetBackgroundLevelEstimate reports decibels. Refuted too: a cutoff set with SetSlowSmootherCutoffHz is lost, for all later input, when Reset follows. The slewing itself is not specified further (see C26)."}
]}
