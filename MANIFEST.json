{
 "claims": [
  {
   "property": "C01",
   "status": "proved",
   "theorems": [
    "C01_fir_is_convolution",
    "C01_single_coefficient_raises"
   ],
   "note": "FIRFilter refines per-channel convolution for all op histories (set_n_channels, reset_state, process_sample with Python indexing); length-1 filters raise."
  },
  {
   "property": "C02",
   "status": "proved",
   "theorems": [
    "C02_iir_difference_equation",
    "C02_order_zero_raises"
   ],
   "note": "IIRFilter satisfies the difference equation for all orders >= 1 and all histories; order 0 raises."
  },
  {
   "property": "C03",
   "status": "proved",
   "theorems": [
    "C03_state_space_markov",
    "C03_order_one_cannot_be_built"
   ],
   "note": "Orders >= 2; order 1 raises in the constructor."
  },
  {
   "property": "C04",
   "status": "proved",
   "theorems": [
    "C04_state_variable_filter",
    "C04_set_parameters_resets"
   ],
   "note": "Identities, energy balance, parameter change."
  },
  {
   "property": "C05",
   "status": "proved",
   "theorems": [
    "C05_stays_in_range",
    "C05_one_step",
    "C05_rise_time",
    "C05_multichannel_raises"
   ],
   "note": "Range preservation over all histories, one-step law, documented rise time, multichannel raises."
  },
  {
   "property": "C06",
   "status": "proved",
   "theorems": [
    "C06_chain_is_composition",
    "C06_library_filters_well_typed"
   ],
   "note": "Chain of arbitrary objects equals running the whole history member by member."
  },
  {
   "property": "C07",
   "status": "proved",
   "theorems": [
    "C07_overlap_save",
    "C07_odd_length_refuted"
   ],
   "note": ""
  },
  {
   "property": "C08",
   "status": "proved",
   "theorems": [
    "C08_partitioned_in_turn",
    "C08_one_channel",
    "C08_short_filter",
    "C08_two_channels_refuted"
   ],
   "note": ""
  },
  {
   "property": "C09",
   "status": "proved",
   "theorems": [
    "C09_multichannel",
    "C09_gain_lost_refuted"
   ],
   "note": ""
  },
  {
   "property": "C10",
   "status": "proved",
   "theorems": [
    "C10_chunks_equal_whole",
    "C10_chunks_from_rest",
    "C10_single_coefficient_condition_refuted"
   ],
   "note": "blocks with carried state equal one call, any block lengths; single-coefficient filters do not satisfy the shape check (refuted)"
  },
  {
   "property": "C11",
   "status": "proved",
   "theorems": [
    "C11_first_order_mono_streams",
    "C11_state_lost_refuted",
    "C11_states_exchanged_refuted",
    "C11_sos_second_block_raises_refuted",
    "C11_sos_state_lost_refuted"
   ],
   "note": "see Claims_filter.v; _refuted theorems state defects of the code"
  },
  {
   "property": "C12",
   "status": "proved",
   "theorems": [
    "C12_fir_lattice",
    "C12_iir_lattice",
    "C12_iir_lengths",
    "C12_fir_conversion_loses_gain",
    "C12_sos_lattice",
    "C12_sos_single",
    "C12_sos_not_normalised",
    "C12_fir_conversion_refuted",
    "C12_iir_a0_refuted",
    "C12_sos_six_refuted"
   ],
   "note": "FIR with b0=1, IIR with a0=1, and cascades of second-order sections, over any field, for every order, history of sample calls, filter_signal calls, channel changes and resets. Refuted for gain b0 (FIR conversion), a0 not 1 (IIR), six non-normalised sections; non-normalised sections otherwise refused. Empty coefficient arrays not covered."
  },
  {
   "property": "C13",
   "status": "proved",
   "theorems": [
    "C13_warped_fir",
    "C13_filter_signal"
   ],
   "note": ""
  },
  {
   "property": "C14",
   "status": "proved",
   "theorems": [
    "C14_warped_iir",
    "C14_loop_unique",
    "C14_single_denominator_refuted"
   ],
   "note": ""
  },
  {
   "property": "C15",
   "status": "proved",
   "theorems": [
    "C15_constructor",
    "C15_kautz_paths_agree",
    "C15_taps_unique"
   ],
   "note": "at least one pole (with none, a wrong channel does not raise in the code)"
  },
  {
   "property": "C16",
   "status": "proved",
   "theorems": [
    "C16_polyphase_lossless",
    "C16_reported_padding_refuted"
   ],
   "note": "lossless for every length; the reported number of padded samples is wrong when the length is a multiple (refuted)"
  },
  {
   "property": "C17",
   "status": "proved",
   "theorems": [
    "C17_downsample_is_decimated_convolution",
    "C17_alignment",
    "C17_short_filter_output_empty",
    "C17_decimate"
   ],
   "note": ""
  },
  {
   "property": "C18",
   "status": "proved",
   "theorems": [
    "C18_upsample_is_interpolated_convolution",
    "C18_short_filter_output_empty",
    "C18_zero_stuffing"
   ],
   "note": ""
  },
  {
   "property": "C19",
   "status": "proved",
   "theorems": [
    "C19_stored_data",
    "C19_invariant",
    "C19_constructor",
    "C19_single_sample_refuted",
    "C19_integer_data_refuted",
    "C19_constrain_drops_imaginary_refuted"
   ],
   "note": ""
  },
  {
   "property": "C20",
   "status": "proved",
   "theorems": [
    "C20_remove_channel",
    "C20_remove_rejects",
    "C20_swap_channels",
    "C20_swap_rejects",
    "C20_get_channels",
    "C20_get_rejects",
    "C20_get_many_channels_refuted",
    "C20_sum_channels",
    "C20_add_channel",
    "C20_add_channel_turns_refuted"
   ],
   "note": ""
  },
  {
   "property": "C21",
   "status": "proved",
   "theorems": [
    "C21_getters_are_fresh",
    "C21_copy_is_fresh",
    "C21_smoothing_setter_refuted",
    "C21_plot_magnitude_refuted",
    "C21_plot_group_delay_refuted",
    "C21_window_refuted",
    "C21_spectrogram_cache_switch_refuted",
    "C21_edit_in_place_refuted"
   ],
   "note": "refinement to the machine without stored results; _refuted theorems state defects of the code"
  },
  {
   "property": "C22",
   "status": "proved",
   "theorems": [
    "C22_bands_stay_alike",
    "C22_edits",
    "C22_collapse_real",
    "C22_collapse_complex",
    "C22_first_band_overwritten_refuted",
    "C22_second_collapse_differs_refuted",
    "C22_rejected_band_changes_channel_count_refuted",
    "C22_get_all_bands"
   ],
   "note": "see Claims_filter.v; _refuted theorems state defects of the code"
  },
  {
   "property": "C23",
   "status": "proved",
   "theorems": [
    "C23_parallel",
    "C23_sequential",
    "C23_summed",
    "C23_history",
    "C23_rejected_edit",
    "C23_edits",
    "C23_rejected_assignment_changes_rate_refuted",
    "C23_multirate_parallel_refuted",
    "C23_transfer_function_sequential",
    "C23_transfer_function_summed_refuted"
   ],
   "note": "see Claims_filter.v; _refuted theorems state defects of the code"
  },
  {
   "property": "C24",
   "status": "proved",
   "theorems": [
    "C24_pad_trim",
    "C24_pad_then_trim",
    "C24_trim_below_channels_refuted",
    "C24_imaginary_lost_refuted"
   ],
   "note": ""
  },
  {
   "property": "C25",
   "status": "proved",
   "theorems": [
    "C25_delay_samples",
    "C25_rejects",
    "C25_delays_add",
    "C25_imaginary_lost_refuted"
   ],
   "note": ""
  },
  {
   "property": "C26",
   "status": "proved",
   "theorems": [
    "C26_append",
    "C26_rejects",
    "C26_multiband_first_band_refuted",
    "C26_many_channels_refuted",
    "C26_multiband"
   ],
   "note": "multi-band part of the claim is false (bands[0] is used for every band): refuted with a witness"
  },
  {
   "property": "C27",
   "status": "proved",
   "theorems": [
    "C27_trim_keeps_loud_span",
    "C27_silence_raises",
    "C27_short_result_turned_refuted"
   ],
   "note": ""
  },
  {
   "property": "C28",
   "status": "proved",
   "theorems": [
    "C28_overlap_add_counts",
    "C28_constant_overlap",
    "C28_windowed_reconstruction",
    "C28_arguments_overwritten",
    "C28_second_call_differs_refuted",
    "C28_float_length_refuted"
   ],
   "note": "counts, constant overlap and windowed reconstruction proved; caller arguments are overwritten and the float output length can be one short (refuted)"
  },
  {
   "property": "C29",
   "status": "proved",
   "theorems": [
    "C29_padded_frames",
    "C29_unpadded_frames",
    "C29_last_frame_missing_iff",
    "C29_short_signal"
   ],
   "note": ""
  },
  {
   "property": "C30",
   "status": "proved",
   "theorems": [
    "C30_pair_exact",
    "C30_two_signals_exact",
    "C30_antisymmetric",
    "C30_correlation_is_sign",
    "C30_single_signal_reversed",
    "C30_single_signal_two_channels",
    "C30_single_signal_refuted",
    "C30_latency_of_delay"
   ],
   "note": "strict Cauchy-Schwarz for shifts; reversed order of the single-signal form refuted with witness and stated as exact law"
  },
  {
   "property": "C31",
   "status": "proved",
   "theorems": [
    "C31_trim_keeps_range",
    "C31_limits_on_bins",
    "C31_trim_failures",
    "C31_exclusive_refuted",
    "C31_failed_trim_refuted"
   ],
   "note": "linear search over R; spacing type not modelled"
  },
  {
   "property": "C32",
   "status": "proved",
   "theorems": [
    "C32_interpolation_inside",
    "C32_values_on_grid",
    "C32_between_neighbours",
    "C32_edges",
    "C32_multichannel_edges_refuted",
    "C32_complex_output_refuted",
    "C32_exact_value",
    "C32_resample_same_grid"
   ],
   "note": "Linear scheme; domains Power, Magnitude, Complex; MagnitudePhase and dB output not modelled"
  },
  {
   "property": "C33",
   "status": "proved",
   "theorems": [
    "C33_no_window_is_ones",
    "C33_scaling_factor",
    "C33_conversion",
    "C33_inverse_and_chain"
   ],
   "note": "factors characterised against an independent definition of the physical units; conversion, inverse and chain"
  },
  {
   "property": "C34",
   "status": "proved",
   "theorems": [
    "C34_conversion",
    "C34_monotone",
    "C34_float_round_trip",
    "C34_most_negative_code_refuted",
    "C34_signed_unsigned",
    "C34_widen_and_back_refuted",
    "C34_dispatch"
   ],
   "note": "exact rational arithmetic; both byte orders; _refuted theorems state defects"
  },
  {
   "property": "C35",
   "status": "proved",
   "theorems": [
    "C35_values_survive",
    "C35_bytes_survive",
    "C35_bad_length_rejected",
    "C35_wraps"
   ],
   "note": "exact rational arithmetic; both byte orders; _refuted theorems state defects"
  },
  {
   "property": "C36",
   "status": "proved",
   "theorems": [
    "C36_static_curve",
    "C36_compressor_gain",
    "C36_reduction_uses_release_time",
    "C36_hard_knee_nan",
    "C36_relative_threshold_nan",
    "C36_mix_and_post_gain_ignored",
    "C36_relative_threshold_homogeneous"
   ],
   "note": "see Claims_dynamics.v"
  },
  {
   "property": "C37",
   "status": "proved",
   "theorems": [
    "C37_feedback_comb",
    "C37_length",
    "C37_zero_delay",
    "C37_peak_kept",
    "C37_parameters"
   ],
   "note": "see Claims_delay.v"
  },
  {
   "property": "C38",
   "status": "proved",
   "theorems": [
    "C38_dotted_and_triplets",
    "C38_reciprocal",
    "C38_plain_notes",
    "C38_32nd_refuted",
    "C38_tempo_refuted"
   ],
   "note": "see Claims_delay.v"
  },
  {
   "property": "C39",
   "status": "proved",
   "theorems": [
    "C39_levinson_solves",
    "C39_levinson_raises",
    "C39_yule_walker_optimal",
    "C39_columns"
   ],
   "note": "exact arithmetic over R; scipy correlate by its definition; all-zero columns (0/0 = nan in the code) excluded"
  },
  {
   "property": "C40",
   "status": "proved",
   "theorems": [
    "C40_smoothing_recurrence",
    "C40_smoothing_range",
    "C40_step_response"
   ],
   "note": "see Claims_dynamics.v"
  },
  {
   "property": "C41",
   "status": "proved",
   "theorems": [
    "C41_selected_channels",
    "C41_rejects",
    "C41_imaginary_lost_refuted"
   ],
   "note": "see Claims_filter.v; _refuted theorems state defects of the code"
  },
  {
   "property": "C42",
   "status": "proved",
   "theorems": [
    "C42_fit_is_projection"
   ],
   "note": "pole search (least squares) not modelled"
  },
  {
   "property": "C43",
   "status": "proved",
   "theorems": [
    "C43_levinson_stable",
    "C43_yule_walker_stable",
    "C43_negative_start_refuted",
    "C43_burg_stable",
    "C43_burg_too_short",
    "C43_burg_columns_padded"
   ],
   "note": "stable = no zero of A in the closed unit disc of 1/z; epsilon of Burg included"
  },
  {
   "property": "C44",
   "status": "proved",
   "theorems": [
    "C44_energy_between_bins",
    "C44_total_energy",
    "C44_energy_laws",
    "C44_split_off_grid_refuted"
   ],
   "note": ""
  },
  {
   "property": "C45",
   "status": "proved",
   "theorems": [
    "C45_get_channels",
    "C45_power_sum",
    "C45_swap_channels",
    "C45_coherence_refuted"
   ],
   "note": ""
  },
  {
   "property": "C46",
   "status": "proved",
   "theorems": [
    "C46_unity_at_reference",
    "C46_reference_channel",
    "C46_outside_range",
    "C46_apply_gain"
   ],
   "note": ""
  },
  {
   "property": "C47",
   "status": "proved",
   "theorems": [
    "C47_parseval",
    "C47_parseval_windowed",
    "C47_amplitude_squared_is_power",
    "C47_cosine_reads_rms",
    "C47_constant_reads_value",
    "C47_fft_norms"
   ],
   "note": "Parseval proved from the discrete Fourier transform, no library FFT assumed"
  },
  {
   "property": "C48",
   "status": "proved",
   "theorems": [
    "C48_total_power",
    "C48_real_and_homogeneous",
    "C48_detrend_removes_dc",
    "C48_amplitude_missing_factor",
    "C48_amplitude_refuted",
    "C48_median_grows",
    "C48_short_mono_refuted"
   ],
   "note": "positive laws for mean averaging; three refuted expectations with witnesses"
  },
  {
   "property": "C49",
   "status": "proved",
   "theorems": [
    "C49_hermitian",
    "C49_diagonal",
    "C49_entries",
    "C49_positive_semidefinite",
    "C49_fft_products",
    "C49_fft_diagonal",
    "C49_fft_diagonal_refuted",
    "C49_windowed_refuted"
   ],
   "note": "Hermitian/PSD/diagonal proved; FFT method refuted where the code deviates"
  },
  {
   "property": "C50",
   "status": "proved",
   "theorems": [
    "C50_h1_least_squares",
    "C50_coherence_and_order",
    "C50_exact_system",
    "C50_amplitude_root",
    "C50_gain",
    "C50_default_scaling_refuted"
   ],
   "note": "estimators proved for power scalings; wrong result for the default amplitude scaling refuted with witness and exact law"
  },
  {
   "property": "C51",
   "status": "proved",
   "theorems": [
    "C51_there_and_back",
    "C51_back_and_there",
    "C51_amplitude_power",
    "C51_gains_add",
    "C51_dynamic_range",
    "C51_silence_refuted"
   ],
   "note": "silence with a dynamic range refuted"
  },
  {
   "property": "C52",
   "status": "proved",
   "theorems": [
    "C52_peak_whole",
    "C52_peak_each",
    "C52_rms_each",
    "C52_rms_whole",
    "C52_rms_is_deviation",
    "C52_rms_level_refuted",
    "C52_constant_refuted",
    "C52_gains_add",
    "C52_complex_refuted",
    "C52_normalize_complex_refuted",
    "C52_gain_count",
    "C52_gains_on_mono_refuted",
    "C52_filter_gain",
    "C52_bank_gain",
    "C52_crest_at_least_one",
    "C52_crest_bands_law",
    "C52_crest_bands_refuted"
   ],
   "note": "RMS is the standard deviation; complex signals and crest factors of bands refuted"
  },
  {
   "property": "C53",
   "status": "proved",
   "theorems": [
    "C53_fade",
    "C53_gains",
    "C53_outside_unchanged",
    "C53_refusals",
    "C53_short_fades",
    "C53_default_length_refuted",
    "C53_time_vector_refuted"
   ],
   "note": "default length of logarithmic fades and the time vector refuted"
  },
  {
   "property": "C54",
   "status": "proved",
   "theorems": [
    "C54_partition",
    "C54_empty_part",
    "C54_level_follows_release",
    "C54_steady",
    "C54_attack_ignored_refuted",
    "C54_alternating_refuted",
    "C54_constant_raises_refuted",
    "C54_threshold_monotone",
    "C54_relative_scale"
   ],
   "note": "attack time, alternating signals and one-sample parts refuted"
  },
  {
   "property": "C55",
   "status": "proved",
   "theorems": [
    "C55_pointwise",
    "C55_stable",
    "C55_bounded",
    "C55_peaking",
    "C55_lowpass",
    "C55_highpass",
    "C55_bandpass",
    "C55_notch",
    "C55_allpass",
    "C55_shelf",
    "C55_first_order",
    "C55_cut_undoes_boost",
    "C55_inverter_refuted"
   ],
   "note": "The Inverter biquad does not invert the sign (C55_inverter_refuted)."
  },
  {
   "property": "C56",
   "status": "proved",
   "theorems": [
    "C56_start",
    "C56_d50",
    "C56_d50_exists",
    "C56_c80",
    "C56_centre_time",
    "C56_centre_time_refuted",
    "C56_gain",
    "C56_leading_silence",
    "C56_channels",
    "C56_bands_refuted"
   ],
   "note": "descriptors other than EDT/T20.. (reverb_time) and bass ratio; the automatic trimming index is a parameter; centre time and multi-band trimming refuted with the exact law"
  },
  {
   "property": "C57",
   "status": "proved",
   "theorems": [
    "C57_sabine",
    "C57_accepted",
    "C57_round_trip",
    "C57_both_refuted",
    "C57_shoebox",
    "C57_in_room",
    "C57_in_room_refuted",
    "C57_modes",
    "C57_lowest_mode",
    "C57_reciprocity",
    "C57_mirror",
    "C57_detailed",
    "C57_alpha",
    "C57_uniform",
    "C57_detailed_accepted",
    "C57_stale_refuted",
    "C57_dictionary_refuted",
    "C57_mode_sum"
   ],
   "note": "mixing time and the table of modes are not modelled; the parts the code does not keep are refuted"
  },
  {
   "property": "C58",
   "status": "proved",
   "theorems": [
    "C58_success",
    "C58_images",
    "C58_reciprocity",
    "C58_direct_first",
    "C58_absorption",
    "C58_direct_level",
    "C58_cube",
    "C58_long_room_refuted",
    "C58_lost_images_refuted",
    "C58_walls",
    "C58_wall_areas_refuted"
   ],
   "note": "frequency-independent part and one band of the detailed form; filter bank, noise tail and band pass not modelled; a distance of zero excluded; general sum and long rooms refuted"
  },
  {
   "property": "C59",
   "status": "proved",
   "theorems": [
    "C59_round_trip",
    "C59_late_refuted",
    "C59_drift_refuted",
    "C59_no_overlap_refuted",
    "C59_unpadded",
    "C59_unpadded_start",
    "C59_units_refuted",
    "C59_power_sign",
    "C59_power_refuted",
    "C59_shape"
   ],
   "note": "Model of _stft and istft (one channel, window values a parameter, exact real arithmetic). Refuted parts are stated as exact laws with witnesses."
  },
  {
   "property": "C60",
   "status": "proved",
   "theorems": [
    "C60_si_sdr",
    "C60_scale_invariant",
    "C60_refused",
    "C60_snr",
    "C60_offset_refuted",
    "C60_snr_laws"
   ],
   "note": "exact values including infinities, gain invariance, refusals; offset blindness of snr as a law"
  },
  {
   "property": "C61",
   "status": "proved",
   "theorems": [
    "C61_metric",
    "C61_zero",
    "C61_gain",
    "C61_level_difference",
    "C61_upper_limit_refuted",
    "C61_one_bin_refuted",
    "C61_itakura_saito",
    "C61_negative_refuted",
    "C61_negative_normalised_refuted"
   ],
   "note": "metric, zero set, gain laws for one-channel spectra; Itakura-Saito refuted as a distance with the exact law"
  },
  {
   "property": "C62",
   "status": "proved",
   "theorems": [
    "C62_range",
    "C62_silence_refuted",
    "C62_gains",
    "C62_copy"
   ],
   "note": "the model starts at the band signals the filter bank delivers"
  },
  {
   "property": "C63",
   "status": "proved",
   "theorems": [
    "C63_bands_add_to_the_cascade",
    "C63_sum_of_bands_is_allpass",
    "C63_first_order_sum_is_input",
    "C63_energy",
    "C63_magnitude_one",
    "C63_crossover_level",
    "C63_streaming",
    "C63_streaming_three_refuted",
    "C63_start_of_stream"
   ],
   "note": "orders one, two and four from closed forms of the designs; other orders share the summation and streaming theorems; streaming with three crossovers and silence at the start refuted with exact values"
  },
  {
   "property": "C64",
   "status": "proved",
   "theorems": [
    "C64_reconstruction",
    "C64_perfect_reconstruction",
    "C64_odd_prototype_refuted",
    "C64_short_prototype_refuted",
    "C64_odd_rate"
   ],
   "note": "interior samples; the ends, IIR prototypes and the full-rate modes are not covered; the parts that fail are refuted for whole families"
  },
  {
   "property": "C65",
   "status": "proved",
   "theorems": [
    "C65_sum_is_delayed_input",
    "C65_even_sum",
    "C65_linear_phase_refuted"
   ],
   "note": "the windowed sinc of even lengths is a parameter"
  },
  {
   "property": "C66",
   "status": "proved",
   "theorems": [
    "C66_distance",
    "C66_rectangular_grid",
    "C66_box_grid",
    "C66_line_grid",
    "C66_single_point_refuted",
    "C66_dimensions",
    "C66_nearest_point",
    "C66_extent",
    "C66_aperture",
    "C66_center",
    "C66_helmholtz_round_trip",
    "C66_frequency_range",
    "C66_history",
    "C66_moved_array_refuted",
    "C66_unmoved_array",
    "C66_point_lengths"
   ],
   "note": "refuted: grids with a line of one value raise; setting coordinates again keeps the old aperture and centre; exact history law proved"
  },
  {
   "property": "C67",
   "status": "proved",
   "theorems": [
    "C67_unit_gain",
    "C67_gain",
    "C67_norm",
    "C67_true_power_least_noise",
    "C67_peak_at_source",
    "C67_peak_at_source_refuted"
   ],
   "note": "refuted for inverse and true-power vectors: focusing next to the source can respond more strongly"
  },
  {
   "property": "C68",
   "status": "proved",
   "theorems": [
    "C68_band",
    "C68_nonnegative",
    "C68_recording_nonnegative",
    "C68_linear",
    "C68_source_power",
    "C68_source_location",
    "C68_self_noise",
    "C68_removed_diagonal"
   ],
   "note": "real arithmetic; steering vectors and cross-spectral matrix modelled, not assumed"
  },
  {
   "property": "C69",
   "status": "proved",
   "theorems": [
    "C69_minimum_variance",
    "C69_source_in_noise",
    "C69_fft_no_inverse_refuted",
    "C69_functional",
    "C69_functional_single_source",
    "C69_orthogonal_law",
    "C69_orthogonal_bound",
    "C69_orthogonal_sparse",
    "C69_orthogonal_total_refuted",
    "C69_orthogonal_distinct"
   ],
   "note": "inverse, eigenvalue and singular value decompositions are parameters with their defining equations; refuted: rank-one matrices have no inverse; eigenvalues with the same peak overwrite each other"
  },
  {
   "property": "C70",
   "status": "proved",
   "theorems": [
    "C70_degraded_map",
    "C70_result",
    "C70_sparse",
    "C70_one_round",
    "C70_removed_from_peak",
    "C70_overshoot_refuted",
    "C70_arguments"
   ],
   "note": "division by a zero peak not modelled; refuted: the round leaves (1-phi) times the peak"
  },
  {
   "property": "C71",
   "status": "proved",
   "theorems": [
    "C71_interpolation",
    "C71_whole_delay",
    "C71_equals_delay",
    "C71_limits",
    "C71_linear",
    "C71_time_invariant",
    "C71_attenuation"
   ],
   "note": "the modified Bessel function is a parameter; order zero (division by zero) not covered for whole delays"
  },
  {
   "property": "C72",
   "status": "proved",
   "theorems": [
    "C72_monopole",
    "C72_mixture",
    "C72_equal_lengths",
    "C72_repeated_calls",
    "C72_same_call_refuted",
    "C72_beamformer",
    "C72_focus"
   ],
   "note": "refuted: two equal calls of mix_sources_on_array give different mixtures; unit gain of the focused beamformer (gain is the mean of d/(1+d))"
  },
  {
   "property": "C73",
   "status": "proved",
   "theorems": [
    "C73_recovers_system",
    "C73_padded",
    "C73_regularised",
    "C73_two_limits",
    "C73_automatic_range",
    "C73_fast_length_refuted",
    "C73_scaling_mismatch_refuted",
    "C73_nyquist_refuted",
    "C73_first_channel_range_refuted"
   ],
   "note": "full law plus refuted deviations"
  },
  {
   "property": "C74",
   "status": "proved",
   "theorems": [
    "C74_unique",
    "C74_minimum_phase_ir",
    "C74_invariance",
    "C74_alpha",
    "C74_rejects",
    "C74_symmetric_method_refuted",
    "C74_idempotent",
    "C74_gain",
    "C74_cascade",
    "C74_minimum_phase",
    "C74_from_magnitude",
    "C74_truncation_refuted"
   ],
   "note": "full law plus refuted deviations"
  },
  {
   "property": "C75",
   "status": "proved",
   "theorems": [
    "C75_analytic",
    "C75_linear_phase",
    "C75_cascade",
    "C75_delay",
    "C75_reversed",
    "C75_group_delay",
    "C75_odd_length",
    "C75_odd_length_refuted",
    "C75_latency",
    "C75_numeric",
    "C75_numeric_delay",
    "C75_numeric_late_refuted",
    "C75_one_second_refuted"
   ],
   "note": "Coefficients and samples are real numbers, exact arithmetic. Smoothing 0; the numerical method with latency removal is not modelled. Odd lengths, one-second signals and late impulses: refutations with the exact law."
  },
  {
   "property": "C76",
   "status": "proved",
   "theorems": [
    "C76_cepstrum_defined",
    "C76_cepstrum_round_trip",
    "C76_real_cepstrum",
    "C76_real_cepstrum_convolution",
    "C76_complex_cepstrum_sum_refuted",
    "C76_hilbert",
    "C76_hilbert_unique",
    "C76_hilbert_quadrature",
    "C76_hilbert_signal",
    "C76_hilbert_constrained_refuted",
    "C76_hilbert_bands",
    "C76_mid_side_channels",
    "C76_mid_side",
    "C76_mid_side_round_trip",
    "C76_side_mid_round_trip_refuted",
    "C76_dft",
    "C76_dft_channels"
   ],
   "note": "additivity of the complex cepstrum, hilbert on amplitude-constrained signals and the side/mid round trip are refuted with witnesses"
  },
  {
   "property": "C77",
   "status": "proved",
   "theorems": [
    "C77_laguerre_energy",
    "C77_laguerre_adjoint",
    "C77_laguerre_inverse_error",
    "C77_laguerre_inversion_refuted",
    "C77_laguerre_zero",
    "C77_laguerre_signal",
    "C77_warp_is_warped_fir",
    "C77_warp_spread",
    "C77_warp_zero",
    "C77_warp_linear",
    "C77_dewarping_refuted",
    "C77_warp_turning_point",
    "C77_factor",
    "C77_factor_range",
    "C77_factor_units_refuted",
    "C77_warp_signal",
    "C77_warp_length_refuted",
    "C77_warp_filter",
    "C77_warp_filter_defined",
    "C77_warp_stable",
    "C77_warp_circle",
    "C77_warp_filter_back",
    "C77_warp_gain_refuted"
   ],
   "note": "exact inversion of laguerre, de-warping, total_length as a longer length, Bark/ERB units and the kept gain of warp_filter are refuted"
  },
  {
   "property": "C78",
   "status": "proved",
   "theorems": [
    "C78_mel_scale",
    "C78_filterbank",
    "C78_normalized",
    "C78_normalized_refuted",
    "C78_range_errors",
    "C78_log_mel",
    "C78_pitch_bands",
    "C78_chroma",
    "C78_weighting",
    "C78_weighting_db",
    "C78_weighting_shape"
   ],
   "note": "normalisation of every band is refuted (bands with an empty triangle are nan); plotting and the computation of the spectrogram itself (C32) are outside"
  },
  {
   "property": "C79",
   "status": "proved",
   "theorems": [
    "C79_dirac",
    "C79_dirac_refusals",
    "C79_dirac_wide_refuted"
   ],
   "note": "Exact samples and spectrum for at least as many samples as channels; refusals exactly characterised; transposed and single-sample cases refuted."
  },
  {
   "property": "C80",
   "status": "proved",
   "theorems": [
    "C80_sweep",
    "C80_end_frequency_refuted",
    "C80_constant_refuted",
    "C80_equal_log_refuted",
    "C80_refusals",
    "C80_default_range",
    "C80_sync",
    "C80_sync_end_phase_refuted",
    "C80_sync_offset_refuted",
    "C80_sync_short_refuted"
   ],
   "note": "Sweep law by derivatives, level/fade/padding by the predicate made, default range; clock error, equal-frequency and synchronised-chirp cases refuted."
  },
  {
   "property": "C81",
   "status": "proved",
   "theorems": [
    "C81_tone",
    "C81_harmonics",
    "C81_period",
    "C81_empty_refuted",
    "C81_refusals"
   ],
   "note": "Fourier coefficients and exact set of harmonics; empty harmonic set refuted."
  },
  {
   "property": "C82",
   "status": "proved",
   "theorems": [
    "C82_spectrum",
    "C82_power_law",
    "C82_named_colours",
    "C82_white_low_refuted",
    "C82_short_refuted",
    "C82_refusals"
   ],
   "note": "Spectrum of the raw noise for every draw; white noise below 15 Hz and short noise refuted."
  },
  {
   "property": "C83",
   "status": "proved",
   "theorems": [
    "C83_fixed",
    "C83_fixed_early_refuted",
    "C83_adaptive",
    "C83_adaptive_short_refuted",
    "C83_ratio_refuted",
    "C83_lost_peak_refuted",
    "C83_window_ir",
    "C83_tukey",
    "C83_tukey_checks"
   ],
   "note": "refuted: early peak without adaptation, short response with adaptation, flank ratio, largest offset; window types are parameters with values in [0,1] and middle 1 (Hann is an instance)"
  },
  {
   "property": "C84",
   "status": "proved",
   "theorems": [
    "C84_centred",
    "C84_crash_refuted",
    "C84_silence_refuted",
    "C84_start_refuted",
    "C84_padding_refuted",
    "C84_window_centered_ir"
   ],
   "note": "refuted: crash, silence, reported start and padding side; window types are symmetric with middle 1 (Hann is an instance)"
  },
  {
   "property": "C85",
   "status": "proved",
   "theorems": [
    "C85_times",
    "C85_pieces",
    "C85_early_refuted",
    "C85_refusals"
   ],
   "note": "Frequencies different and positive; samples and times are reals. Separations of at least four samples (after the offset) between neighbouring harmonics. C85_early_refuted: a harmonic before the start of the response makes the whole call fail."
  },
  {
   "property": "C86",
   "status": "proved",
   "theorems": [
    "C86_channel_filter",
    "C86_bank_of_channels",
    "C86_no_such_channel",
    "C86_response_of_filter",
    "C86_round_trip_filter",
    "C86_round_trip_response",
    "C86_gain_lost_refuted",
    "C86_one_tap_refuted",
    "C86_bank_responses",
    "C86_many_filters_refuted",
    "C86_fir_coefficients",
    "C86_refusals"
   ],
   "note": "Real coefficients; the minimum and linear phase modes only change the response before (C74 covers the minimum phase one) and are a parameter of the model. C86_gain_lost_refuted, C86_one_tap_refuted and C86_many_filters_refuted give exact laws of the failing cases."
  },
  {
   "property": "C87",
   "status": "proved",
   "theorems": [
    "C87_time_average",
    "C87_delayed_copies",
    "C87_normalised_law",
    "C87_normalisation_refuted",
    "C87_spectral_average",
    "C87_identical_channels",
    "C87_padded_refuted",
    "C87_opposite_signs_refuted",
    "C87_refusals"
   ],
   "note": "Whole-sample latency differences in the alignment laws (fractional ones are covered by C71); normalisation, padded spectra and opposite signs refuted with exact laws."
  },
  {
   "property": "C88",
   "status": "proved",
   "theorems": [
    "C88_bins",
    "C88_window",
    "C88_mean_refuted",
    "C88_scaled",
    "C88_delayed",
    "C88_sign_of_cycles_refuted",
    "C88_long_windows",
    "C88_refusals"
   ],
   "note": "bins, window law, scaling, delay and long-window bound; refuted: mean kept, sign of cycles"
  },
  {
   "property": "C89",
   "status": "proved",
   "theorems": [
    "C89_calibrated",
    "C89_tone",
    "C89_levels",
    "C89_offset",
    "C89_history",
    "C89_never_stale",
    "C89_changed_level_refuted",
    "C89_low_snr_refuted",
    "C89_channel_count",
    "C89_complex_refuted",
    "C89_silent_recording_refuted"
   ],
   "note": "gain law, levels, offset, histories; refuted: low SNR, changed level, complex signals, silent recordings"
  },
  {
   "property": "C90",
   "status": "proved",
   "theorems": [
    "C90_law",
    "C90_on_grid",
    "C90_inclusive_refuted",
    "C90_exclusive_refuted",
    "C90_two_parts",
    "C90_zero_refuted",
    "C90_refusals",
    "C90_short_refuted",
    "C90_bands",
    "C90_complex_refuted"
   ],
   "note": "exact window law, on-grid window, two parts, refusals, bands; refuted: off-grid bounds, zero bounds, short windows, complex signals"
  },
  {
   "property": "C91",
   "status": "proved",
   "theorems": [
    "C91_log_vector",
    "C91_upper_end_refuted",
    "C91_log_refusals",
    "C91_exact",
    "C91_range_refuted",
    "C91_iec",
    "C91_first_band_refuted",
    "C91_gap_refuted",
    "C91_descending",
    "C91_erb_scale",
    "C91_erb_grid",
    "C91_erb_reference"
   ],
   "note": "Log vectors: exact grid law; upper end refuted. Fractional octaves: IEC tables, indices, tiling; for other fractions completeness and half-band bound, range and tiling refuted; missing 20 Hz band. ERB: exact grid law, inverse scales."
  },
  {
   "property": "C92",
   "status": "proved",
   "theorems": [
    "C92_wrap",
    "C92_wrap_again",
    "C92_wrap_pi_refuted",
    "C92_powers",
    "C92_closest_rule",
    "C92_closest_refuted",
    "C92_below_one_refuted",
    "C92_not_positive",
    "C92_log_mean_range",
    "C92_log_mean_front",
    "C92_log_mean_linear",
    "C92_log_mean_ramp"
   ],
   "note": "Wrap characterised uniquely; powers of two with exact closest rule, nearest refuted, numbers below one refuted; log mean range, linearity, front weighting and places."
  },
  {
   "property": "C93",
   "status": "proved",
   "theorems": [
    "C93_one_form",
    "C93_three_forms_refuted",
    "C93_ba_response",
    "C93_is_fir",
    "C93_order",
    "C93_order_gain_refuted",
    "C93_history",
    "C93_stale_zpk_refuted",
    "C93_ba_ignored_refuted",
    "C93_unnormalised_refuted",
    "C93_merge_fir",
    "C93_merge_iir",
    "C93_merge_refused",
    "C93_order_ba",
    "C93_sections_checked"
   ],
   "note": "Constructor, setters, order, history law, merge as cascade for FIR and SOS; refuted: three forms accepted, stale zpk, ignored ba, gain sections in the order, unnormalised sections. scipy conversions are parameters."
  },
  {
   "property": "C94",
   "status": "proved",
   "theorems": [
    "C94_gates",
    "C94_bounds",
    "C94_quiet",
    "C94_uniform",
    "C94_gain",
    "C94_channels",
    "C94_short_refuted",
    "C94_tail_ignored_refuted",
    "C94_caller_refuted"
   ],
   "note": "Two gates, bounds, gain law, uniform blocks, channel weights proved for all section filters; refuted: a number for signals of one block, last full block counted, caller's signal left alone."
  },
  {
   "property": "C95",
   "status": "proved",
   "theorems": [
    "C95_law",
    "C95_accepted",
    "C95_mix_refuted",
    "C95_peak",
    "C95_peak_refuted",
    "C95_scale",
    "C95_silence_refuted",
    "C95_order",
    "C95_softclip_refuted",
    "C95_softclip_guarded",
    "C95_refused_refuted"
   ],
   "note": "Law, acceptance, peak, scale, order; refuted: amounts, peak of partial amounts, silence, soft clipping, refused calls"
  },
  {
   "property": "C96",
   "status": "proved",
   "theorems": [
    "C96_plain",
    "C96_smooth_square_refuted",
    "C96_triangle_refuted",
    "C96_tremolo",
    "C96_array_refuted",
    "C96_refused_refuted"
   ],
   "note": "Waveform laws, tremolo gain, history invariant; refuted: smooth square, triangle, arrays, refused calls"
  },
  {
   "property": "C97",
   "status": "proved",
   "theorems": [
    "C97_channel",
    "C97_apply",
    "C97_delayed_refuted",
    "C97_accepted",
    "C97_stale_refuted",
    "C97_kept",
    "C97_array_refuted"
   ],
   "note": "Channel law, application, acceptance, kept voices; refuted: delay direction, stale lists, arrays"
  },
  {
   "property": "C98",
   "status": "proved",
   "theorems": [
    "C98_realised",
    "C98_spacing_refuted",
    "C98_streaming",
    "C98_coefficients_refuted",
    "C98_unfitted",
    "C98_parameters_refuted",
    "C98_leading_zero_refuted",
    "C98_spacing_only"
   ],
   "note": "Batch and streaming proved equal after a fit; wrong tap spacing, early leading-zero section, stale coefficients and parameters refuted with exact laws. The least-squares solution and section denominators are parameters."
  },
  {
   "property": "C99",
   "status": "proved",
   "theorems": [
    "C99_hann",
    "C99_range",
    "C99_clip",
    "C99_affine",
    "C99_weighted_mean",
    "C99_width",
    "C99_additive_refuted",
    "C99_window_vector"
   ],
   "note": "Range, length, affine equivariance, clip, width and exact mean proved for all data; additivity refuted; window vector mutation and length stated exactly. Windows of zero sum are left out."
  },
  {
   "property": "C100",
   "status": "proved",
   "theorems": [
    "C100_detrend",
    "C100_detrend_unique",
    "C100_least_squares",
    "C100_energy",
    "C100_linear",
    "C100_trend",
    "C100_idempotent",
    "C100_mean",
    "C100_signal",
    "C100_constrained_refuted",
    "C100_bands",
    "C100_rms",
    "C100_rms_start_refuted",
    "C100_envelope",
    "C100_envelope_trend"
   ],
   "note": "polyfit is taken to solve the least squares problem exactly; its values are computed with an orthogonal basis. Multi-band envelope not modelled."
  },
  {
   "property": "C101",
   "status": "proved",
   "theorems": [
    "C101_difference",
    "C101_channels",
    "C101_same_grid",
    "C101_self",
    "C101_real_output_refuted",
    "C101_dynamic_range",
    "C101_unit_energy",
    "C101_gain_invariance",
    "C101_complex",
    "C101_complex_range_refuted",
    "C101_complex_magnitude"
   ],
   "note": "without smoothing; the complex difference is modelled on a common frequency grid and without normalization"
  },
  {
   "property": "C102",
   "status": "proved",
   "theorems": [
    "C102_values",
    "C102_max",
    "C102_one_khz",
    "C102_gain",
    "C102_power_amplitude",
    "C102_energy",
    "C102_calibrated",
    "C102_one_khz_outside",
    "C102_one_khz_edge_refuted",
    "C102_power_energy_first_refuted",
    "C102_power_smoothing_refuted"
   ],
   "note": "All normalizations; the smoothed case is covered by C102_calibrated and C102_power_smoothing_refuted only (smoothing itself is C98/C99)."
  },
  {
   "property": "C103",
   "status": "proved",
   "theorems": [
    "C103_response",
    "C103_symmetric",
    "C103_delay",
    "C103_room",
    "C103_short_refuted",
    "C103_flat_refuted"
   ],
   "note": "Whole function for the linear interpolation scheme of the spectrum; the minimum phase and its group delay enter as the modelled functions of C74/C75."
  },
  {
   "property": "C104",
   "status": "proved",
   "theorems": [
    "C104_impulses",
    "C104_aligned",
    "C104_second_channel_refuted",
    "C104_result",
    "C104_energy",
    "C104_peak",
    "C104_decibel"
   ],
   "note": "Whole latencies; the fractional case only through the modelled fractional delay (C71)."
  },
  {
   "property": "C105",
   "status": "proved",
   "theorems": [
    "C105_regression",
    "C105_exact",
    "C105_true_time_refuted",
    "C105_unreached",
    "C105_too_few",
    "C105_adaptive_exact",
    "C105_adaptive_fit",
    "C105_curve",
    "C105_noise_free",
    "C105_immediate_refuted",
    "C105_given_start_refuted",
    "C105_exponential",
    "C105_level_refuted"
   ],
   "note": "The stop index of the automatic trimming is a parameter of the model."
  },
  {
   "property": "C106",
   "status": "proved",
   "theorems": [
    "C106_decay_end",
    "C106_safety",
    "C106_bounds",
    "C106_last_peak_refuted",
    "C106_short_refuted",
    "C106_level_refuted",
    "C106_trim_ir",
    "C106_no_offset"
   ],
   "note": "Start, peak and end of the decay exactly as documented (analytic signal, smoothing, window means, correlations and their combination by independent specifications); line, noise floor and three quarters rule of the safety distance; common part of all channels. Refuted: responses with little after the peak raise ValueError; the end depends on the level of the response."
  },
  {
   "property": "C107",
   "status": "proved",
   "theorems": [
    "C107_plain",
    "C107_peak",
    "C107_silent_refuted",
    "C107_late_refuted",
    "C107_silence_refuted",
    "C107_gain",
    "C107_impulse",
    "C107_balance_refuted",
    "C107_errors"
   ],
   "note": "Full statement over all signals, responses and flags; exact failure laws for silent channels and late responses, balance refuted with a witness"
  },
  {
   "property": "C108",
   "status": "proved",
   "theorems": [
    "C108_noise",
    "C108_bound",
    "C108_truncated",
    "C108_default_refuted",
    "C108_bound_refuted",
    "C108_precision_refuted",
    "C108_overflow_refuted",
    "C108_shaped"
   ],
   "note": "Bounds and nearest rounding for every outcome of the draws; four exact refutations"
  },
  {
   "property": "C109",
   "status": "proved",
   "theorems": [
    "C109_reconstruction",
    "C109_symmetry",
    "C109_default_refuted"
   ],
   "note": "sum of the bands equals the delayed input times the middle value of the window when transitions are apart; symmetry of every filter; refuted for the default octaves at 32 kHz"
  },
  {
   "property": "C110",
   "status": "proved",
   "theorems": [
    "C110_response",
    "C110_frequency",
    "C110_same_rate",
    "C110_moving_average_refuted",
    "C110_lost_zero_refuted"
   ],
   "note": "response of the new filter at every mapped point and frequency, stability, realness, unchanged rate; refuted for zeros at half the sampling rate with unequal numbers of zeros and poles"
  },
  {
   "property": "C111",
   "status": "proved",
   "theorems": [
    "C111_resample",
    "C111_old_samples",
    "C111_same_rate",
    "C111_imaginary_refuted",
    "C111_few_samples_refuted",
    "C111_true_peak"
   ],
   "note": "Exact law for all rates, with the Bessel function of the window as a parameter whose windowed sinc sum is not 0; refuted for the imaginary part and for fewer samples than channels."
  },
  {
   "property": "C112",
   "status": "proved",
   "theorems": [
    "C112_mean",
    "C112_magnitude",
    "C112_equivalent",
    "C112_phase",
    "C112_constant"
   ],
   "note": "Weights characterised exactly; all six domains."
  },
  {
   "property": "C113",
   "status": "proved",
   "theorems": [
    "C113_path",
    "C113_kept",
    "C113_save_load",
    "C113_history",
    "C113_save_signal",
    "C113_dotted_name_refuted"
   ],
   "note": "Pickling itself and the encoding of sound files are taken as given."
  },
  {
   "property": "C114",
   "status": "proved",
   "theorems": [
    "C114_interpolation",
    "C114_between",
    "C114_same_decibels",
    "C114_sign_refuted"
   ],
   "note": "Linear scheme, one channel, real values. Refuted for negative values: their sign is lost or the result is nan."
  },
  {
   "property": "C115",
   "status": "proved",
   "theorems": [
    "C115_channels",
    "C115_same_frequencies",
    "C115_complex_refuted",
    "C115_refused"
   ],
   "note": "Refuted for complex spectra with the default interpolation domain: the powers are joined. Linear scheme, without the MagnitudePhase domain."
  },
  {
   "property": "C116",
   "status": "proved",
   "theorems": [
    "C116_filters",
    "C116_filtering",
    "C116_refused",
    "C116_multirate_refuted"
   ],
   "note": "Refuted for multirate banks: they are refused unless their lists of rates are equal."
  },
  {
   "property": "C117",
   "status": "proved",
   "theorems": [
    "C117_response",
    "C117_gaussian",
    "C117_order_zero_refuted"
   ],
   "note": "Real arithmetic. Refuted for order 0, which passes the check and divides by zero."
  },
  {
   "property": "C118",
   "status": "proved",
   "theorems": [
    "C118_delay",
    "C118_refused"
   ],
   "note": "Real arithmetic. Stability of the filter and the flatness of the delay away from 0 Hz are not part of the statement."
  },
  {
   "property": "C119",
   "status": "proved",
   "theorems": [
    "C119_stable",
    "C119_highpass",
    "C119_lowpass",
    "C119_bandpass",
    "C119_peaking",
    "C119_extreme",
    "C119_neutral",
    "C119_equalizer",
    "C119_refused"
   ],
   "note": "Stability in the triangle of coefficients; poles are the images of the analog poles; gains through squared magnitudes on the unit circle; the requested gain is the extreme one over all frequencies for peaking and bandpass. A nan coefficient is no result. The shelving types are not modelled."
  }
 ]
}