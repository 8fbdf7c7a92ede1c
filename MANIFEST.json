{
 "claims": [
  {
   "property": "C01",
   "status": "proved",
   "theorems": [
    "C01_framing_content"
   ],
   "note": ""
  },
  {
   "property": "C02",
   "status": "proved",
   "theorems": [
    "C02_framing_memory_safe",
    "C02_multichannel_refuted",
    "C02_negative_hop_refuted"
   ],
   "note": ""
  },
  {
   "property": "C03",
   "status": "proved",
   "theorems": [
    "C03_framing_coverage"
   ],
   "note": ""
  },
  {
   "property": "C04",
   "status": "proved",
   "theorems": [
    "C04_framing_outcomes"
   ],
   "note": ""
  },
  {
   "property": "C05",
   "status": "proved",
   "theorems": [
    "C05_duration_truncation",
    "C05_exact_samples_refuted"
   ],
   "note": "binary64 rounding by Flocq; overflow is outside the stated range of k and fs"
  },
  {
   "property": "C06",
   "status": "proved",
   "theorems": [
    "C06_pre_emphasis_equation",
    "C06_pre_emphasis_empty",
    "C06_pre_emphasis_linear",
    "C06_pre_emphasis_zero",
    "C06_pre_emphasis_recover"
   ],
   "note": ""
  },
  {
   "property": "C07",
   "status": "proved",
   "theorems": [
    "C07_pre_emphasis_causal"
   ],
   "note": ""
  },
  {
   "property": "C08",
   "status": "proved",
   "theorems": [
    "C08_zero_handling",
    "C08_negative_log"
   ],
   "note": ""
  },
  {
   "property": "C09",
   "status": "proved",
   "theorems": [
    "C09_windowing_product",
    "C09_window_symmetric_bounded",
    "C09_hamming_lower_bound",
    "C09_unknown_window"
   ],
   "note": ""
  },
  {
   "property": "C10",
   "status": "proved",
   "theorems": [
    "C10_window_formulas"
   ],
   "note": ""
  },
  {
   "property": "C11",
   "status": "proved",
   "theorems": [
    "C11_mel_of_hz_inverse",
    "C11_hz_of_mel_inverse",
    "C11_unknown_mel_scale",
    "C11_below_singularity"
   ],
   "note": ""
  },
  {
   "property": "C12",
   "status": "proved",
   "theorems": [
    "C12_mel_increasing",
    "C12_mel_anchored",
    "C12_erb_increasing",
    "C12_erb_anchored",
    "C12_bark_increasing",
    "C12_bark_anchored"
   ],
   "note": ""
  },
  {
   "property": "C13",
   "status": "proved",
   "theorems": [
    "C13_erb_of_hz_inverse",
    "C13_hz_of_erb_inverse",
    "C13_below_singularity",
    "C13_unknown_erb_scale"
   ],
   "note": ""
  },
  {
   "property": "C14",
   "status": "proved",
   "theorems": [
    "C14_bark_inverse",
    "C14_Zwicker_inverse",
    "C14_default_is_Wang",
    "C14_Terhardt_refuted",
    "C14_Traunmueller_refuted"
   ],
   "note": ""
  },
  {
   "property": "C15",
   "status": "proved",
   "theorems": [
    "C15_pieces_agree",
    "C15_increasing_below_pole",
    "C15_pole"
   ],
   "note": ""
  },
  {
   "property": "C16",
   "status": "proved",
   "theorems": [
    "C16_mel_shape",
    "C16_linear_shape",
    "C16_inverse_mel_shape"
   ],
   "note": ""
  },
  {
   "property": "C17",
   "status": "proved",
   "theorems": [
    "C17_mel_triangles",
    "C17_linear_triangles"
   ],
   "note": ""
  },
  {
   "property": "C18",
   "status": "proved",
   "theorems": [
    "C18_mel_centres",
    "C18_linear_centres"
   ],
   "note": ""
  },
  {
   "property": "C19",
   "status": "proved",
   "theorems": [
    "C19_mel_partition_of_unity",
    "C19_linear_partition_of_unity"
   ],
   "note": ""
  },
  {
   "property": "C20",
   "status": "proved",
   "theorems": [
    "C20_bark",
    "C20_gammatone",
    "C20_mel_validation",
    "C20_linear_validation",
    "C20_inverse_mel_validation"
   ],
   "note": ""
  },
  {
   "property": "C21",
   "status": "proved",
   "theorems": [
    "C21_columns_are_bins",
    "C21_default_even",
    "C21_odd_nfft_refuted",
    "C21_positive_low_refuted"
   ],
   "note": ""
  },
  {
   "property": "C22",
   "status": "proved",
   "theorems": [
    "C22_mel_inverted_band",
    "C22_linear_inverted_band"
   ],
   "note": ""
  },
  {
   "property": "C23",
   "status": "proved",
   "theorems": [
    "C23_mirror",
    "C23_mirror_valid"
   ],
   "note": ""
  },
  {
   "property": "C24",
   "status": "proved",
   "theorems": [
    "C24_imfcc_never_returns",
    "C24_imfcc_type_error",
    "C24_never_returns",
    "C24_type_error"
   ],
   "note": ""
  },
  {
   "property": "C25",
   "status": "proved",
   "theorems": [
    "C25_centres"
   ],
   "note": ""
  },
  {
   "property": "C26",
   "status": "proved",
   "theorems": [
    "C26_scale_vectors",
    "C26_descending_mirrors_ascending",
    "C26_unknown_scale",
    "C26_mel_scaling",
    "C26_linear_scaling"
   ],
   "note": ""
  },
  {
   "property": "C27",
   "status": "proved",
   "theorems": [
    "C27_masking_curve"
   ],
   "note": ""
  },
  {
   "property": "C28",
   "status": "proved",
   "theorems": [
    "C28_bank",
    "C28_roundings"
   ],
   "note": ""
  },
  {
   "property": "C29",
   "status": "proved",
   "theorems": [
    "C29_zwicker",
    "C29_terhardt",
    "C29_single_filter"
   ],
   "note": ""
  },
  {
   "property": "C30",
   "status": "proved",
   "theorems": [
    "C30_centres"
   ],
   "note": ""
  },
  {
   "property": "C31",
   "status": "proved",
   "theorems": [
    "C31_bank"
   ],
   "note": ""
  },
  {
   "property": "C32",
   "status": "proved",
   "theorems": [
    "C32_ms_centres",
    "C32_mvn_centres",
    "C32_ms_channel_invariant",
    "C32_ms_idempotent"
   ],
   "note": ""
  },
  {
   "property": "C33",
   "status": "proved",
   "theorems": [
    "C33_vn_global_unit_std",
    "C33_mvn_per_column_refuted"
   ],
   "note": ""
  },
  {
   "property": "C34",
   "status": "proved",
   "theorems": [
    "C34_mn_range_one"
   ],
   "note": ""
  },
  {
   "property": "C35",
   "status": "proved",
   "theorems": [
    "C35_mvn_affine_invariant",
    "C35_mn_affine_invariant",
    "C35_vn_gain_invariant",
    "C35_constant_matrix",
    "C35_unknown_normalisation",
    "C35_empty_matrix"
   ],
   "note": ""
  },
  {
   "property": "C36",
   "status": "proved",
   "theorems": [
    "C36_exponential_lifter",
    "C36_integer_lifter",
    "C36_lifters_compose",
    "C36_lifter_lossless",
    "C36_lifter_identity"
   ],
   "note": ""
  },
  {
   "property": "C37",
   "status": "proved",
   "theorems": [
    "C37_sine_lifter",
    "C37_first_columns_amplified",
    "C37_lossless_refuted",
    "C37_fractional_lift_nan"
   ],
   "note": ""
  },
  {
   "property": "C38",
   "status": "proved",
   "theorems": [
    "C38_deltas_formula",
    "C38_deltas_offset_invariant",
    "C38_deltas_constant_rows",
    "C38_deltas_linear_rows",
    "C38_even_odd_window"
   ],
   "note": ""
  },
  {
   "property": "C39",
   "status": "proved",
   "theorems": [
    "C39_inner_products",
    "C39_constant_row",
    "C39_linear",
    "C39_invertible"
   ],
   "note": ""
  },
  {
   "property": "C40",
   "status": "proved",
   "theorems": [
    "C40_spectrogram",
    "C40_nonneg"
   ],
   "note": ""
  },
  {
   "property": "C41",
   "status": "proved",
   "theorems": [
    "C41_shape",
    "C41_shape_psrcc",
    "C41_shape_pncc"
   ],
   "note": ""
  },
  {
   "property": "C42",
   "status": "proved",
   "theorems": [
    "C42_finite",
    "C42_finite_default_bank",
    "C42_silence"
   ],
   "note": ""
  },
  {
   "property": "C43",
   "status": "proved",
   "theorems": [
    "C43_gfcc_silence",
    "C43_msrcc_zero_band",
    "C43_pncc_silence"
   ],
   "note": ""
  },
  {
   "property": "C44",
   "status": "proved",
   "theorems": [
    "C44_spectrogram_gain",
    "C44_log_gain",
    "C44_root_gain"
   ],
   "note": ""
  },
  {
   "property": "C45",
   "status": "proved",
   "theorems": [
    "C45_row_locality",
    "C45_lpc_row_locality",
    "C45_lpcc_row_locality"
   ],
   "note": ""
  },
  {
   "property": "C46",
   "status": "proved",
   "theorems": [
    "C46_other_columns",
    "C46_column_0",
    "C46_no_columns"
   ],
   "note": ""
  },
  {
   "property": "C47",
   "status": "proved",
   "theorems": [
    "C47_nfilts",
    "C47_nfilts_psrcc",
    "C47_nfilts_pncc",
    "C47_nfilts_plp",
    "C47_nfilts_rplp"
   ],
   "note": ""
  },
  {
   "property": "C48",
   "status": "proved",
   "theorems": [
    "C48_coefficient_ignored_spectrograms",
    "C48_coefficient_ignored",
    "C48_mel_spectrogram_uses_it",
    "C48_others_use_it",
    "C48_lpc",
    "C48_lpcc"
   ],
   "note": ""
  },
  {
   "property": "C49",
   "status": "proved",
   "theorems": [
    "C49_truncation"
   ],
   "note": ""
  },
  {
   "property": "C50",
   "status": "proved",
   "theorems": [
    "C50_lpc",
    "C50_lpcc",
    "C50_unknown_name"
   ],
   "note": ""
  },
  {
   "property": "C51",
   "status": "proved",
   "theorems": [
    "C51_lpc",
    "C51_gain",
    "C51_silent_frame"
   ],
   "note": ""
  },
  {
   "property": "C52",
   "status": "proved",
   "theorems": [
    "C52_error_value",
    "C52_is_prediction_error_refuted"
   ],
   "note": ""
  },
  {
   "property": "C53",
   "status": "proved",
   "theorems": [
    "C53_values",
    "C53_too_short",
    "C53_too_long",
    "C53_recursion",
    "C53_is_cepstral_recursion_refuted"
   ],
   "note": ""
  },
  {
   "property": "C54",
   "status": "proved",
   "theorems": [
    "C54_difference",
    "C54_nonneg"
   ],
   "note": ""
  },
  {
   "property": "C55",
   "status": "proved",
   "theorems": [
    "C55_cmnd",
    "C55_gain",
    "C55_mismatch",
    "C55_range"
   ],
   "note": ""
  },
  {
   "property": "C56",
   "status": "proved",
   "theorems": [
    "C56_get_pitch",
    "C56_unique",
    "C56_short"
   ],
   "note": ""
  },
  {
   "property": "C57",
   "status": "proved",
   "theorems": [
    "C57_compute_yin",
    "C57_range",
    "C57_high_freq_refuted",
    "C57_last_window"
   ],
   "note": ""
  },
  {
   "property": "C58",
   "status": "proved",
   "theorems": [
    "C58_short_window"
   ],
   "note": ""
  },
  {
   "property": "C59",
   "status": "proved",
   "theorems": [
    "C59_value",
    "C59_true_frequency_refuted"
   ],
   "note": ""
  },
  {
   "property": "C60",
   "status": "proved",
   "theorems": [
    "C60_count",
    "C60_only_positive"
   ],
   "note": ""
  },
  {
   "property": "C61",
   "status": "proved",
   "theorems": [
    "C61_centroid",
    "C61_gain",
    "C61_silence"
   ],
   "note": ""
  },
  {
   "property": "C62",
   "status": "proved",
   "theorems": [
    "C62_range",
    "C62_geometric_over_arithmetic",
    "C62_gain",
    "C62_silence"
   ],
   "note": ""
  },
  {
   "property": "C63",
   "status": "proved",
   "theorems": [
    "C63_norm",
    "C63_zero",
    "C63_gain"
   ],
   "note": ""
  },
  {
   "property": "C64",
   "status": "proved",
   "theorems": [
    "C64_rolloff",
    "C64_extract_feats"
   ],
   "note": ""
  },
  {
   "property": "C65",
   "status": "proved",
   "theorems": [
    "C65_rows",
    "C65_none_fits"
   ],
   "note": ""
  },
  {
   "property": "C66",
   "status": "proved",
   "theorems": [
    "C66_linear"
   ],
   "note": ""
  },
  {
   "property": "C67",
   "status": "proved",
   "theorems": [
    "C67_medium_time",
    "C67_range"
   ],
   "note": ""
  },
  {
   "property": "C68",
   "status": "proved",
   "theorems": [
    "C68_recursion",
    "C68_range",
    "C68_first_row"
   ],
   "note": ""
  },
  {
   "property": "C69",
   "status": "proved",
   "theorems": [
    "C69_masking"
   ],
   "note": ""
  },
  {
   "property": "C70",
   "status": "proved",
   "theorems": [
    "C70_smoothing",
    "C70_below_one",
    "C70_channel_0",
    "C70_nan"
   ],
   "note": ""
  },
  {
   "property": "C71",
   "status": "proved",
   "theorems": [
    "C71_mean_power"
   ],
   "note": ""
  },
  {
   "property": "C72",
   "status": "proved",
   "theorems": [
    "C72_rasta_rows",
    "C72_rasta_zero_start_and_dc",
    "C72_rasta_nan_leaks_refuted"
   ],
   "note": ""
  },
  {
   "property": "C73",
   "status": "proved",
   "theorems": [
    "C73_phases",
    "C73_no_nan"
   ],
   "note": ""
  },
  {
   "property": "C74",
   "status": "proved",
   "theorems": [
    "C74_intensity_power_law"
   ],
   "note": ""
  },
  {
   "property": "C75",
   "status": "proved",
   "theorems": [
    "C75_range",
    "C75_value"
   ],
   "note": ""
  },
  {
   "property": "C76",
   "status": "proved",
   "theorems": [
    "C76_mel_decade",
    "C76_erb_decade",
    "C76_Zwicker_decade"
   ],
   "note": ""
  },
  {
   "property": "C77",
   "status": "proved",
   "theorems": [
    "C77_empty_band_is_nan"
   ],
   "note": ""
  },
  {
   "property": "C78",
   "status": "proved",
   "theorems": [
    "C78_parseval"
   ],
   "note": ""
  },
  {
   "property": "C79",
   "status": "proved",
   "theorems": [
    "C79_shift",
    "C79_lpc_shift"
   ],
   "note": ""
  },
  {
   "property": "C80",
   "status": "proved",
   "theorems": [
    "C80_psrcc_silence"
   ],
   "note": ""
  },
  {
   "property": "C81",
   "status": "proved",
   "theorems": [
    "C81_stable"
   ],
   "note": ""
  },
  {
   "property": "C82",
   "status": "proved",
   "theorems": [
    "C82_lpc_finite",
    "C82_nonfinite_frame",
    "C82_lpcc_shape"
   ],
   "note": ""
  },
  {
   "property": "C83",
   "status": "proved",
   "theorems": [
    "C83_lpcc",
    "C83_lpcc_gain"
   ],
   "note": ""
  },
  {
   "property": "C84",
   "status": "proved",
   "theorems": [
    "C84_periodic"
   ],
   "note": ""
  },
  {
   "property": "C85",
   "status": "proved",
   "theorems": [
    "C85_gain",
    "C85_offset"
   ],
   "note": ""
  },
  {
   "property": "C86",
   "status": "proved",
   "theorems": [
    "C86_constant"
   ],
   "note": ""
  },
  {
   "property": "C87",
   "status": "proved",
   "theorems": [
    "C87_shift"
   ],
   "note": ""
  },
  {
   "property": "C88",
   "status": "proved",
   "theorems": [
    "C88_gain",
    "C88_filtered",
    "C88_filtered_gain"
   ],
   "note": ""
  },
  {
   "property": "C89",
   "status": "proved",
   "theorems": [
    "C89_offset",
    "C89_nyquist"
   ],
   "note": ""
  },
  {
   "property": "C90",
   "status": "proved",
   "theorems": [
    "C90_nan_frame"
   ],
   "note": ""
  },
  {
   "property": "C91",
   "status": "proved",
   "theorems": [
    "C91_single_bin",
    "C91_true_frequency_refuted"
   ],
   "note": ""
  },
  {
   "property": "C92",
   "status": "proved",
   "theorems": [
    "C92_value",
    "C92_gain",
    "C92_dimensionless_refuted",
    "C92_dc_nan"
   ],
   "note": ""
  },
  {
   "property": "C93",
   "status": "proved",
   "theorems": [
    "C93_normalised",
    "C93_gain_refuted",
    "C93_flat",
    "C93_zero_bin"
   ],
   "note": ""
  },
  {
   "property": "C94",
   "status": "proved",
   "theorems": [
    "C94_value",
    "C94_gain"
   ],
   "note": ""
  },
  {
   "property": "C95",
   "status": "proved",
   "theorems": [
    "C95_mean_variance",
    "C95_rms",
    "C95_rms_delay_refuted"
   ],
   "note": ""
  },
  {
   "property": "C96",
   "status": "proved",
   "theorems": [
    "C96_gain",
    "C96_silence",
    "C96_nfft"
   ],
   "note": ""
  },
  {
   "property": "C97",
   "status": "proved",
   "theorems": [
    "C97_direct",
    "C97_tone"
   ],
   "note": ""
  },
  {
   "property": "C98",
   "status": "proved",
   "theorems": [
    "C98_threshold"
   ],
   "note": ""
  },
  {
   "property": "C99",
   "status": "proved",
   "theorems": [
    "C99_high_freq",
    "C99_spectrogram",
    "C99_shape",
    "C99_no_rows",
    "C99_gain"
   ],
   "note": ""
  },
  {
   "property": "C100",
   "status": "proved",
   "theorems": [
    "C100_weights",
    "C100_harmonic",
    "C100_interpolates",
    "C100_same_rows"
   ],
   "note": ""
  },
  {
   "property": "C101",
   "status": "proved",
   "theorems": [
    "C101_finite"
   ],
   "note": ""
  },
  {
   "property": "C102",
   "status": "proved",
   "theorems": [
    "C102_silent_channel"
   ],
   "note": ""
  },
  {
   "property": "C103",
   "status": "proved",
   "theorems": [
    "C103_gain"
   ],
   "note": ""
  },
  {
   "property": "C104",
   "status": "proved",
   "theorems": [
    "C104_lookahead"
   ],
   "note": ""
  },
  {
   "property": "C105",
   "status": "proved",
   "theorems": [
    "C105_bounded"
   ],
   "note": ""
  },
  {
   "property": "C106",
   "status": "proved",
   "theorems": [
    "C106_small_bank",
    "C106_large_bank"
   ],
   "note": ""
  },
  {
   "property": "C107",
   "status": "proved",
   "theorems": [
    "C107_plp_values",
    "C107_rplp_values"
   ],
   "note": ""
  },
  {
   "property": "C108",
   "status": "proved",
   "theorems": [
    "C108_polarity",
    "C108_filter_order"
   ],
   "note": ""
  },
  {
   "property": "C109",
   "status": "proved",
   "theorems": [
    "C109_gain"
   ],
   "note": ""
  },
  {
   "property": "C110",
   "status": "proved",
   "theorems": [
    "C110_plp_silence",
    "C110_rplp_empty_channel"
   ],
   "note": ""
  },
  {
   "property": "C111",
   "status": "proved",
   "theorems": [
    "C111_plp_rows",
    "C111_rplp_rows"
   ],
   "note": ""
  },
  {
   "property": "C112",
   "status": "proved",
   "theorems": [
    "C112_plp_shape"
   ],
   "note": ""
  },
  {
   "property": "C113",
   "status": "proved",
   "theorems": [
    "C113_one_channel"
   ],
   "note": ""
  },
  {
   "property": "C114",
   "status": "proved",
   "theorems": [
    "C114_colouration_refuted"
   ],
   "note": ""
  },
  {
   "property": "C115",
   "status": "proved",
   "theorems": [
    "C115_monotone",
    "C115_gain",
    "C115_negative_range",
    "C115_nan"
   ],
   "note": ""
  },
  {
   "property": "C116",
   "status": "proved",
   "theorems": [
    "C116_labels",
    "C116_order",
    "C116_mel_nan"
   ],
   "note": ""
  },
  {
   "property": "C117",
   "status": "proved",
   "theorems": [
    "C117_quiet",
    "C117_pre_emphasised"
   ],
   "note": ""
  },
  {
   "property": "C118",
   "status": "proved",
   "theorems": [
    "C118_wrapped_equations",
    "C118_coarse_samples",
    "C118_same_as_floats_refuted",
    "C118_stable_refuted"
   ],
   "note": ""
  },
  {
   "property": "C119",
   "status": "proved",
   "theorems": [
    "C119_nonneg",
    "C119_accuracy",
    "C119_log",
    "C119_binary64",
    "C119_spectrogram"
   ],
   "note": ""
  },
  {
   "property": "C120",
   "status": "proved",
   "theorems": [
    "C120_polarity",
    "C120_gain"
   ],
   "note": ""
  },
  {
   "property": "C121",
   "status": "proved",
   "theorems": [
    "C121_linear",
    "C121_stored_constants",
    "C121_pre_emphasis"
   ],
   "note": ""
  },
  {
   "property": "C122",
   "status": "proved",
   "theorems": [
    "C122_symmetric",
    "C122_range",
    "C122_hanning_ends",
    "C122_blackman_ends",
    "C122_blackman_nonneg_refuted"
   ],
   "note": ""
  },
  {
   "property": "C123",
   "status": "proved",
   "theorems": [
    "C123_whole_numbers",
    "C123_nan_refuted"
   ],
   "note": ""
  },
  {
   "property": "C124",
   "status": "proved",
   "theorems": [
    "C124_residual_mean",
    "C124_zero_mean_refuted"
   ],
   "note": ""
  },
  {
   "property": "C125",
   "status": "proved",
   "theorems": [
    "C125_features",
    "C125_spectrogram",
    "C125_lpc",
    "C125_lpcc",
    "C125_pre_emphasis_refuted"
   ],
   "note": ""
  },
  {
   "property": "C126",
   "status": "proved",
   "theorems": [
    "C126_same_start",
    "C126_every_kth"
   ],
   "note": ""
  },
  {
   "property": "C127",
   "status": "proved",
   "theorems": [
    "C127_row",
    "C127_normalised",
    "C127_no_exception"
   ],
   "note": ""
  },
  {
   "property": "C128",
   "status": "proved",
   "theorems": [
    "C128_linear_bank",
    "C128_lfcc",
    "C128_mel_band_matters",
    "C128_mel_sampling_rate"
   ],
   "note": ""
  },
  {
   "property": "C129",
   "status": "proved",
   "theorems": [
    "C129_faint_below_silence"
   ],
   "note": ""
  },
  {
   "property": "C130",
   "status": "proved",
   "theorems": [
    "C130_distance",
    "C130_injective"
   ],
   "note": ""
  },
  {
   "property": "C131",
   "status": "proved",
   "theorems": [
    "C131_zero_padding"
   ],
   "note": ""
  },
  {
   "property": "C132",
   "status": "proved",
   "theorems": [
    "C132_rows_as_bag"
   ],
   "note": ""
  },
  {
   "property": "C133",
   "status": "proved",
   "theorems": [
    "C133_pure"
   ],
   "note": ""
  },
  {
   "property": "C134",
   "status": "proved",
   "theorems": [
    "C134_readonly"
   ],
   "note": ""
  },
  {
   "property": "C135",
   "status": "proved",
   "theorems": [
    "C135_history"
   ],
   "note": ""
  },
  {
   "property": "C136",
   "status": "proved",
   "theorems": [
    "C136_threads"
   ],
   "note": ""
  },
  {
   "property": "C137",
   "status": "proved",
   "theorems": [
    "C137_framing_alias",
    "C137_overlap_refuted"
   ],
   "note": ""
  },
  {
   "property": "C138",
   "status": "proved",
   "theorems": [
    "C138_lifter_same",
    "C138_value_refuted"
   ],
   "note": ""
  },
  {
   "property": "C139",
   "status": "proved",
   "theorems": [
    "C139_pre_emphasis",
    "C139_framing",
    "C139_spectrogram",
    "C139_features",
    "C139_lpc",
    "C139_same_frames"
   ],
   "note": ""
  },
  {
   "property": "C140",
   "status": "proved",
   "theorems": [
    "C140_interleaved",
    "C140_stereo_refuted",
    "C140_channels_first_refuted",
    "C140_joined",
    "C140_pre_emphasis"
   ],
   "note": ""
  },
  {
   "property": "C141",
   "status": "proved",
   "theorems": [
    "C141_lowpass_stable",
    "C141_lowpass_rounded",
    "C141_lowpass_binary64",
    "C141_lowpass_nonneg",
    "C141_suppressed_nonneg",
    "C141_mean_power"
   ],
   "note": ""
  },
  {
   "property": "C142",
   "status": "proved",
   "theorems": [
    "C142_masking_refuted",
    "C142_suppression_refuted",
    "C142_pncc_refuted",
    "C142_away_from_ties"
   ],
   "note": ""
  },
  {
   "property": "C143",
   "status": "proved",
   "theorems": [
    "C143_linear",
    "C143_mel",
    "C143_finite_refuted"
   ],
   "note": ""
  },
  {
   "property": "C144",
   "status": "proved",
   "theorems": [
    "C144_linear",
    "C144_binary64",
    "C144_mel",
    "C144_exact"
   ],
   "note": ""
  },
  {
   "property": "C145",
   "status": "proved",
   "theorems": [
    "C145_roundtrip",
    "C145_numbers",
    "C145_relative_refuted"
   ],
   "note": ""
  },
  {
   "property": "C146",
   "status": "proved",
   "theorems": [
    "C146_accuracy",
    "C146_binary64",
    "C146_exact",
    "C146_whole_numbers",
    "C146_nonneg_refuted"
   ],
   "note": ""
  },
  {
   "property": "C147",
   "status": "proved",
   "theorems": [
    "C147_periodic",
    "C147_stable"
   ],
   "note": ""
  },
  {
   "property": "C148",
   "status": "proved",
   "theorems": [
    "C148_silence",
    "C148_whole_constant",
    "C148_constant_refuted"
   ],
   "note": ""
  },
  {
   "property": "C149",
   "status": "proved",
   "theorems": [
    "C149_gain",
    "C149_polarity",
    "C149_offset_refuted"
   ],
   "note": ""
  },
  {
   "property": "C150",
   "status": "proved",
   "theorems": [
    "C150_refused",
    "C150_default_refuted",
    "C150_default_accepted",
    "C150_filtered"
   ],
   "note": ""
  },
  {
   "property": "C151",
   "status": "proved",
   "theorems": [
    "C151_bounded",
    "C151_fades"
   ],
   "note": ""
  },
  {
   "property": "C152",
   "status": "proved",
   "theorems": [
    "C152_tone",
    "C152_band"
   ],
   "note": ""
  },
  {
   "property": "C153",
   "status": "proved",
   "theorems": [
    "C153_ends",
    "C153_offset"
   ],
   "note": ""
  },
  {
   "property": "C154",
   "status": "proved",
   "theorems": [
    "C154_log_cepstra",
    "C154_root_cepstra",
    "C154_dct",
    "C154_noise_floor",
    "C154_quiet_band_refuted"
   ],
   "note": ""
  },
  {
   "property": "C155",
   "status": "proved",
   "theorems": [
    "C155_peak",
    "C155_polarity",
    "C155_gain",
    "C155_quiet",
    "C155_binary64_gain_refuted"
   ],
   "note": ""
  },
  {
   "property": "C156",
   "status": "proved",
   "theorems": [
    "C156_quiet_is_silence"
   ],
   "note": ""
  },
  {
   "property": "C157",
   "status": "proved",
   "theorems": [
    "C157_program",
    "C157_log_cepstra",
    "C157_root_cepstra"
   ],
   "note": ""
  },
  {
   "property": "C158",
   "status": "proved",
   "theorems": [
    "C158_log_sample",
    "C158_root_sample",
    "C158_overflow",
    "C158_finite_refuted"
   ],
   "note": ""
  },
  {
   "property": "C159",
   "status": "proved",
   "theorems": [
    "C159_log_cepstra",
    "C159_root_cepstra"
   ],
   "note": ""
  },
  {
   "property": "C160",
   "status": "proved",
   "theorems": [
    "C160_exact",
    "C160_rounded",
    "C160_growth",
    "C160_programs"
   ],
   "note": ""
  },
  {
   "property": "C161",
   "status": "proved",
   "theorems": [
    "C161_log_cepstra",
    "C161_root_cepstra",
    "C161_frame_size"
   ],
   "note": ""
  },
  {
   "property": "C162",
   "status": "proved",
   "theorems": [
    "C162_cepstra",
    "C162_others",
    "C162_prediction",
    "C162_constant_q",
    "C162_spectrogram"
   ],
   "note": ""
  },
  {
   "property": "C163",
   "status": "proved",
   "theorems": [
    "C163_error",
    "C163_constant",
    "C163_model"
   ],
   "note": ""
  },
  {
   "property": "C164",
   "status": "proved",
   "theorems": [
    "C164_cepstra",
    "C164_others",
    "C164_prediction",
    "C164_ms",
    "C164_mvn",
    "C164_vn",
    "C164_mn",
    "C164_lifter",
    "C164_deltas",
    "C164_spread_refuted"
   ],
   "note": ""
  },
  {
   "property": "C165",
   "status": "proved",
   "theorems": [
    "C165_ms",
    "C165_mvn",
    "C165_vn",
    "C165_mn",
    "C165_features_ms",
    "C165_features_mvn",
    "C165_model"
   ],
   "note": ""
  },
  {
   "property": "C166",
   "status": "proved",
   "theorems": [
    "C166_energy",
    "C166_energy_fft",
    "C166_bfcc",
    "C166_bfcc_fft",
    "C166_model"
   ],
   "note": ""
  },
  {
   "property": "C167",
   "status": "proved",
   "theorems": [
    "C167_lifter",
    "C167_sine_lifter",
    "C167_deltas",
    "C167_model",
    "C167_features_ms",
    "C167_features_mvn"
   ],
   "note": ""
  },
  {
   "property": "C168",
   "status": "proved",
   "theorems": [
    "C168_spectrogram",
    "C168_log",
    "C168_bfcc",
    "C168_root",
    "C168_energy",
    "C168_log_refuted"
   ],
   "note": ""
  },
  {
   "property": "C169",
   "status": "proved",
   "theorems": [
    "C169_linear_bank",
    "C169_spectrogram",
    "C169_cepstra",
    "C169_psrcc",
    "C169_mel_refuted",
    "C169_lpc",
    "C169_yin",
    "C169_dominant",
    "C169_cqt",
    "C169_spectral"
   ],
   "note": ""
  },
  {
   "property": "C170",
   "status": "proved",
   "theorems": [
    "C170_leakage",
    "C170_bin",
    "C170_reported",
    "C170_default"
   ],
   "note": ""
  },
  {
   "property": "C171",
   "status": "proved",
   "theorems": [
    "C171_tone",
    "C171_default"
   ],
   "note": ""
  },
  {
   "property": "C172",
   "status": "proved",
   "theorems": [
    "C172_pitch",
    "C172_pitch_default",
    "C172_bin",
    "C172_reported",
    "C172_default"
   ],
   "note": ""
  },
  {
   "property": "C173",
   "status": "proved",
   "theorems": [
    "C173_spectrogram",
    "C173_offset",
    "C173_log",
    "C173_bfcc",
    "C173_root"
   ],
   "note": ""
  },
  {
   "property": "C174",
   "status": "proved",
   "theorems": [
    "C174_banks",
    "C174_budget",
    "C174_ceiling",
    "C174_energy"
   ],
   "note": ""
  },
  {
   "property": "C175",
   "status": "proved",
   "theorems": [
    "C175_spectrogram",
    "C175_offset",
    "C175_ms",
    "C175_mvn_refuted"
   ],
   "note": ""
  },
  {
   "property": "C176",
   "status": "proved",
   "theorems": [
    "C176_levinson",
    "C176_binomial",
    "C176_lpcc",
    "C176_energy"
   ],
   "note": ""
  },
  {
   "property": "C177",
   "status": "proved",
   "theorems": [
    "C177_floor",
    "C177_defect",
    "C177_computed",
    "C177_noise",
    "C177_continuous",
    "C177_uniform_refuted"
   ],
   "note": ""
  },
  {
   "property": "C178",
   "status": "proved",
   "theorems": [
    "C178_broken",
    "C178_local"
   ],
   "note": ""
  },
  {
   "property": "C179",
   "status": "proved",
   "theorems": [
    "C179_lpcc",
    "C179_psrcc",
    "C179_pncc",
    "C179_plp",
    "C179_cqt",
    "C179_cqcc",
    "C179_dominant",
    "C179_unfiltered",
    "C179_same_as_flat_refuted"
   ],
   "note": ""
  },
  {
   "property": "C180",
   "status": "proved",
   "theorems": [
    "C180_spectrogram",
    "C180_cepstra",
    "C180_crop"
   ],
   "note": ""
  },
  {
   "property": "C181",
   "status": "proved",
   "theorems": [
    "C181_spectrogram",
    "C181_root",
    "C181_log"
   ],
   "note": ""
  },
  {
   "property": "C182",
   "status": "proved",
   "theorems": [
    "C182_shape",
    "C182_centroid",
    "C182_centroid_stable_refuted",
    "C182_flatness"
   ],
   "note": ""
  },
  {
   "property": "C183",
   "status": "proved",
   "theorems": [
    "C183_window",
    "C183_noise",
    "C183_unvoiced"
   ],
   "note": ""
  },
  {
   "property": "C184",
   "status": "proved",
   "theorems": [
    "C184_burst_unvoiced_refuted",
    "C184_click"
   ],
   "note": ""
  },
  {
   "property": "C185",
   "status": "proved",
   "theorems": [
    "C185_near",
    "C185_blind",
    "C185_missed"
   ],
   "note": ""
  },
  {
   "property": "C186",
   "status": "proved",
   "theorems": [
    "C186_louder_refuted",
    "C186_rows",
    "C186_gain_refuted"
   ],
   "note": ""
  },
  {
   "property": "C187",
   "status": "proved",
   "theorems": [
    "C187_same_function",
    "C187_own_bank",
    "C187_other_arguments"
   ],
   "note": ""
  },
  {
   "property": "C188",
   "status": "proved",
   "theorems": [
    "C188_gain",
    "C188_polarity",
    "C188_rows",
    "C188_continuous_refuted"
   ],
   "note": ""
  },
  {
   "property": "C189",
   "status": "proved",
   "theorems": [
    "C189_plp_bounded",
    "C189_rplp_bounded",
    "C189_plp_near",
    "C189_rplp_near",
    "C189_plp_faint",
    "C189_plp_loud",
    "C189_level_refuted"
   ],
   "note": ""
  },
  {
   "property": "C190",
   "status": "proved",
   "theorems": [
    "C190_bark",
    "C190_bark_numbers",
    "C190_tjomov",
    "C190_tjomov_numbers",
    "C190_tjomov_relative_refuted",
    "C190_erb",
    "C190_erb_numbers",
    "C190_erb_relative_refuted",
    "C190_order",
    "C190_exact"
   ],
   "note": ""
  },
  {
   "property": "C191",
   "status": "proved",
   "theorems": [
    "C191_zwicker",
    "C191_numbers",
    "C191_order",
    "C191_exact"
   ],
   "note": ""
  },
  {
   "property": "C192",
   "status": "proved",
   "theorems": [
    "C192_resample",
    "C192_factor_refuted",
    "C192_near",
    "C192_recordings",
    "C192_continuous",
    "C192_silence_refuted"
   ],
   "note": ""
  },
  {
   "property": "C193",
   "status": "proved",
   "theorems": [
    "C193_tone",
    "C193_two_tones"
   ],
   "note": ""
  },
  {
   "property": "C194",
   "status": "proved",
   "theorems": [
    "C194_spectrogram",
    "C194_features",
    "C194_more_features",
    "C194_lpc",
    "C194_cqt",
    "C194_tone",
    "C194_gain",
    "C194_tone_rows",
    "C194_tone_features",
    "C194_tone_cqt"
   ],
   "note": ""
  },
  {
   "property": "C195",
   "status": "proved",
   "theorems": [
    "C195_spectrogram",
    "C195_features",
    "C195_psrcc",
    "C195_pncc",
    "C195_cqt",
    "C195_cqcc",
    "C195_yin",
    "C195_dominant",
    "C195_statistics",
    "C195_lpc_refuted"
   ],
   "note": ""
  },
  {
   "property": "C196",
   "status": "proved",
   "theorems": [
    "C196_spectrogram",
    "C196_features",
    "C196_psrcc",
    "C196_pncc",
    "C196_cqt",
    "C196_cqcc",
    "C196_lpc",
    "C196_lpcc",
    "C196_plp",
    "C196_yin",
    "C196_dominant",
    "C196_statistics",
    "C196_negative_hop_refuted"
   ],
   "note": ""
  },
  {
   "property": "C197",
   "status": "proved",
   "theorems": [
    "C197_spectrogram",
    "C197_features",
    "C197_psrcc",
    "C197_short"
   ],
   "note": ""
  }
 ]
}