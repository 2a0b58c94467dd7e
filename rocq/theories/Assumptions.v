(** What each claimed theorem depends on (generated list). *)
From Verif Require InterleaverProps
  BitPackerProps
  CRCProps
  PolarProps
  PunctProps
  ConvProps
  RepProps
  GaloisProps
  BCHEncProps
  BCHDecProps
  RSProps
  SparseProps
  FullProps
  LDPCProps
  DVBS2Props
  AListProps
  HardProps
  PeelProps
  PRNGProps
  UtilProps
  AdaptorProps
  ReorderProps
  SortProps
  QuantProps
  SocketProps
  ControlProps
  DistProps
  HistProps
  MonitorProps
  FrameProps
  TaskProps
  SeqProps
  SeqRunProps
  PatternProps
  FrozenProps
  MLProps
  NoiseProps
  SnrProps
  LDPCBPProps
  ModemProps
  ModemFastProps
  ModemCstlProps
  ModemSoftProps
  SourceProps
  ChannelProps
  BcjrProps
  BcjrRealProps
  TurboDecProps
  TurboBcjrProps
  TurboPostProps
  SclProps
  GalProps
  FlipProps
  RaDecProps
  TpcProps
  PyndProps
  TpdProps
  GeniusProps
  UserEncProps
  ExtractProps
  BchInterProps
  ProbeProps
  ExtractEndProps
  DbCrcProps.

(* One traversal for all the theorems: a list of proofs that is closed has closed elements. *)
Definition InterleaverProps_theorems := (tt,
  @InterleaverProps.C01_core_tables,
  @InterleaverProps.C01_roundtrip,
  @InterleaverProps.C01_roundtrip_reordering,
  @InterleaverProps.C01_gather,
  @InterleaverProps.C01_reordering_is_layout_change,
  @InterleaverProps.C01_reordering_multiwave_refuted,
  @InterleaverProps.C02_generators,
  @InterleaverProps.C02_row_column,
  @InterleaverProps.C02_column_row_is_inverse,
  @InterleaverProps.C02_too_large_size_refuted,
  @InterleaverProps.C03_LTE,
  @InterleaverProps.C03_CCSDS,
  @InterleaverProps.C03_DVB_RCS1,
  @InterleaverProps.C03_DVB_RCS2,
  @InterleaverProps.C03_DVB_RCS2_1777_refuted,
  @InterleaverProps.C04_accepted_are_permutations,
  @InterleaverProps.C04_well_formed_files,
  @InterleaverProps.C04_truncated_file_refuted).
Definition BitPackerProps_theorems := (tt,
  @BitPackerProps.C05_pack_layout,
  @BitPackerProps.C05_symbols_small,
  @BitPackerProps.C05_roundtrip,
  @BitPackerProps.C05_invalid_nbps,
  @BitPackerProps.C05_vector_roundtrip,
  @BitPackerProps.C05_pack_in_place,
  @BitPackerProps.C05_vector_check_refuted,
  @BitPackerProps.C05_unpack_per_byte_check_refuted,
  @BitPackerProps.C05_long_frames_refuted,
  @BitPackerProps.C06_single_frame_partial,
  @BitPackerProps.C06_multi_frame_refuted).
Definition CRCProps_theorems := (tt,
  @CRCProps.C07_generator,
  @CRCProps.C07_build_check_extract,
  @CRCProps.C07_check_exact,
  @CRCProps.C07_unique,
  @CRCProps.C07_linear,
  @CRCProps.C07_size_over_32_refuted,
  @CRCProps.C08_versions_agree,
  @CRCProps.C08_fast_build,
  @CRCProps.C08_fast_check,
  @CRCProps.C09_undetected_iff_multiple,
  @CRCProps.C09_bursts_detected,
  @CRCProps.C09_known_polynomials,
  @CRCProps.C10_fast_check_packed_partial,
  @CRCProps.C10_standard_check_packed_refuted,
  @CRCProps.C64_interleaved_check_partial,
  @CRCProps.C64_check_rejects_build_refuted).
Definition PolarProps_theorems := (tt,
  @PolarProps.C11_light_encode,
  @PolarProps.C11_encode,
  @PolarProps.C11_convert_inplace,
  @PolarProps.C11_involution,
  @PolarProps.C11_linear,
  @PolarProps.C11_info_bits_pos,
  @PolarProps.C11_not_power_of_2_refuted,
  @PolarProps.C12_systematic,
  @PolarProps.C12_domination_needed_refuted,
  @PolarProps.C13_is_codeword_exact,
  @PolarProps.C13_complete,
  @PolarProps.C13_last_frozen_refuted,
  @PolarProps.C14_codeword,
  @PolarProps.C14_noiseless_exact,
  @PolarProps.C14_noiseless_int,
  @PolarProps.C14_int8_min_refuted,
  @PolarProps.C15_frozen_bits,
  @PolarProps.C15_shortened_zero,
  @PolarProps.C15_puncture,
  @PolarProps.C15_depuncture,
  @PolarProps.C15_end_to_end,
  @PolarProps.C65_kronecker,
  @PolarProps.C65_ctor,
  @PolarProps.C65_arikan,
  @PolarProps.C65_injective,
  @PolarProps.C65_singular_kernel_accepted_refuted,
  @PolarProps.C66_mk_systematic).
Definition PunctProps_theorems := (tt,
  @PunctProps.C16_N,
  @PunctProps.C16_puncture,
  @PunctProps.C16_depuncture,
  @PunctProps.C16_puncture_depuncture,
  @PunctProps.C16_depuncture_puncture,
  @PunctProps.C16_buffered_tail_refuted,
  @PunctProps.C17_N,
  @PunctProps.C17_puncture,
  @PunctProps.C17_depuncture,
  @PunctProps.C17_puncture_depuncture,
  @PunctProps.C17_no_puncturing,
  @PunctProps.C17_remainder_refuted,
  @PunctProps.C18_puncture,
  @PunctProps.C18_depuncture,
  @PunctProps.C18_puncture_depuncture,
  @PunctProps.C18_standard_sizes,
  @PunctProps.C18_rates,
  @PunctProps.C18_out_of_bounds_refuted).
Definition ConvProps_theorems := (tt,
  @ConvProps.C19_encode,
  @ConvProps.C19_is_codeword,
  @ConvProps.C19_unique,
  @ConvProps.C19_linear,
  @ConvProps.C19_info_pos,
  @ConvProps.C19_trellis,
  @ConvProps.C19_cpe_encode,
  @ConvProps.C19_cpe_is_codeword,
  @ConvProps.C19_cpe_trellis,
  @ConvProps.C20_rsc_constituent,
  @ConvProps.C20_encode,
  @ConvProps.C20_is_codeword,
  @ConvProps.C20_unique,
  @ConvProps.C20_legacy_encode,
  @ConvProps.C20_legacy_is_codeword,
  @ConvProps.C20_unbuffered_refuted,
  @ConvProps.C67_encode,
  @ConvProps.C67_is_codeword,
  @ConvProps.C67_unique,
  @ConvProps.C67_info_pos,
  @ConvProps.C67_trellis_rcs1,
  @ConvProps.C67_trellis_rcs2,
  @ConvProps.C67_multiple_refuted,
  @ConvProps.C68_encode,
  @ConvProps.C68_is_codeword).
Definition RepProps_theorems := (tt,
  @RepProps.C21_encode,
  @RepProps.C21_linear,
  @RepProps.C21_injective,
  @RepProps.C22_encode,
  @RepProps.C22_is_codeword,
  @RepProps.C22_unique,
  @RepProps.C22_decode_std,
  @RepProps.C22_decode_fast,
  @RepProps.C22_maximum_likelihood,
  @RepProps.C22_fixed_point_exact,
  @RepProps.C22_noiseless,
  @RepProps.C22_noiseless_types,
  @RepProps.C22_in_range,
  @RepProps.C22_wrap_refuted,
  @RepProps.C22_saturation_refuted).
Definition GaloisProps_theorems := (tt,
  @GaloisProps.C23_tables,
  @GaloisProps.C23_default_primitive,
  @GaloisProps.C23_product,
  @GaloisProps.C23_accepts,
  @GaloisProps.C23_width_refuted,
  @GaloisProps.C23_nonprimitive_refuted).
Definition BCHEncProps_theorems := (tt,
  @BCHEncProps.C24_generator,
  @BCHEncProps.C24_encode,
  @BCHEncProps.C24_is_codeword,
  @BCHEncProps.C24_unique,
  @BCHEncProps.C24_linear).
Definition BCHDecProps_theorems := (tt,
  @BCHDecProps.C25_decode,
  @BCHDecProps.C25_message,
  @BCHDecProps.C25_distance,
  @BCHDecProps.C25_short_modulus_refuted,
  @BCHDecProps.C25_short_success_refuted).
Definition RSProps_theorems := (tt,
  @RSProps.C26_generator,
  @RSProps.C26_encode,
  @RSProps.C26_is_codeword,
  @RSProps.C26_unique,
  @RSProps.C26_decode,
  @RSProps.C26_message,
  @RSProps.C26_distance,
  @RSProps.C26_short_encode_refuted,
  @RSProps.C26_short_decode_refuted,
  @RSProps.C26_width_refuted,
  @RSProps.C26_encode,
  @RSProps.C27_positions_refuted).
Definition SparseProps_theorems := (tt,
  @SparseProps.C36_new,
  @SparseProps.C36_identity,
  @SparseProps.C36_call,
  @SparseProps.C36_history,
  @SparseProps.C36_transpose_twice,
  @SparseProps.C36_resize_empty_refuted,
  @SparseProps.C38_sparse_product,
  @SparseProps.C38_sparse_product_transposed,
  @SparseProps.C38_sparse_rejects,
  @SparseProps.C38_sparse_all_zeros).
Definition FullProps_theorems := (tt,
  @FullProps.C37_new,
  @FullProps.C37_identity,
  @FullProps.C37_call,
  @FullProps.C37_history,
  @FullProps.C37_resize,
  @FullProps.C37_resize_parse,
  @FullProps.C37_erase,
  @FullProps.C37_erase_parse,
  @FullProps.C37_resize_top_right_refuted,
  @FullProps.C37_resize_counters_refuted,
  @FullProps.C37_resize_parse_refuted,
  @FullProps.C37_erase_counters_refuted,
  @FullProps.C38_dense_product,
  @FullProps.C38_dense_product_transposed,
  @FullProps.C38_dense_rejects,
  @FullProps.C38_dense_all_zeros,
  @FullProps.C38_sparse_to_full,
  @FullProps.C38_full_to_sparse,
  @FullProps.C38_product_counters_refuted).
Definition LDPCProps_theorems := (tt,
  @LDPCProps.C28_built,
  @LDPCProps.C28_built_G,
  @LDPCProps.C28_refused,
  @LDPCProps.C28_linear,
  @LDPCProps.C28_orthogonal,
  @LDPCProps.C28_zero_syndrome,
  @LDPCProps.C28_check_GH,
  @LDPCProps.C29_from_H,
  @LDPCProps.C29_wrong_K,
  @LDPCProps.C29_inversion,
  @LDPCProps.C30_reduction_partial,
  @LDPCProps.C30_identity_refuted,
  @LDPCProps.C31_IRA,
  @LDPCProps.C31_QC,
  @LDPCProps.C31_IRA_unchecked_refuted,
  @LDPCProps.C34_hard,
  @LDPCProps.C34_soft,
  @LDPCProps.C34_agree).
Definition DVBS2Props_theorems := (tt,
  @DVBS2Props.C69_build_H,
  @DVBS2Props.C69_encode,
  @DVBS2Props.C69_tables,
  @DVBS2Props.C69_is_codeword).
Definition AListProps_theorems := (tt,
  @AListProps.C32_expand,
  @AListProps.C32_degrees,
  @AListProps.C32_pattern,
  @AListProps.C32_size,
  @AListProps.C32_negative_refuted,
  @AListProps.C32_truncated_refuted,
  @AListProps.C33_read,
  @AListProps.C33_write,
  @AListProps.C33_round_trip,
  @AListProps.C33_no_positions,
  @AListProps.C33_size,
  @AListProps.C33_check_positions,
  @AListProps.C33_zero_refuted,
  @AListProps.C33_short_file_refuted).
Definition HardProps_theorems := (tt,
  @HardProps.C54_hard,
  @HardProps.C54_fixed,
  @HardProps.C54_float,
  @HardProps.C54_unknown,
  @HardProps.C54_unknown_whole,
  @HardProps.C54_unknown_seq,
  @HardProps.C54_negative_zero_refuted,
  @HardProps.C54_unknown_tail_refuted,
  @HardProps.C54_unknown_64_refuted).
Definition PeelProps_theorems := (tt,
  @PeelProps.C35_sound,
  @PeelProps.C35_complete,
  @PeelProps.C35_info,
  @PeelProps.C35_soft,
  @PeelProps.C35_parity_not_checked,
  @PeelProps.C35_dangling_refuted,
  @PeelProps.C35_64_bits_refuted).
Definition PRNGProps_theorems := (tt,
  @PRNGProps.C63_stream,
  @PRNGProps.C63_restart,
  @PRNGProps.C63_rand,
  @PRNGProps.C63_u64_refuted,
  @PRNGProps.C70_closed,
  @PRNGProps.C70_double,
  @PRNGProps.C70_float_partial,
  @PRNGProps.C70_float_refuted,
  @PRNGProps.C70_draw).
Definition UtilProps_theorems := (tt,
  @UtilProps.C51_sort,
  @UtilProps.C51_sort_several,
  @UtilProps.C51_unique_partial,
  @UtilProps.C51_unique_refuted,
  @UtilProps.C51_uniques_refuted,
  @UtilProps.C52_closest,
  @UtilProps.C52_closest_float,
  @UtilProps.C52_empty_refuted,
  @UtilProps.C62_bits,
  @UtilProps.C62_fixed,
  @UtilProps.C62_float,
  @UtilProps.C62_lowest_refuted,
  @UtilProps.C71_linear,
  @UtilProps.C71_nearest,
  @UtilProps.C71_above_refuted,
  @UtilProps.C72_trapz_seq,
  @UtilProps.C72_rect,
  @UtilProps.C72_trapz_xy,
  @UtilProps.C72_cumul_xy,
  @UtilProps.C72_trapz_simd_refuted,
  @UtilProps.C72_rect_one_refuted,
  @UtilProps.C73_power,
  @UtilProps.C73_next_power,
  @UtilProps.C73_gcd,
  @UtilProps.C73_lcm,
  @UtilProps.C73_gcd_zero_refuted).
Definition AdaptorProps_theorems := (tt,
  @AdaptorProps.C43_fifo,
  @AdaptorProps.C43_whole_items,
  @AdaptorProps.C43_round_robin,
  @AdaptorProps.C43_no_race,
  @AdaptorProps.C43_split_merge_order,
  @AdaptorProps.C44_blocked_means_full_or_empty,
  @AdaptorProps.C44_no_deadlock,
  @AdaptorProps.C44_work_ends,
  @AdaptorProps.C44_settles,
  @AdaptorProps.C44_no_lost_wakeup,
  @AdaptorProps.C45_only_throws,
  @AdaptorProps.C45_released,
  @AdaptorProps.C45_awake,
  @AdaptorProps.C45_reset,
  @AdaptorProps.C45_other_clones_refuted).
Definition ReorderProps_theorems := (tt,
  @ReorderProps.C53_apply,
  @ReorderProps.C53_apply_static,
  @ReorderProps.C53_rev_partial,
  @ReorderProps.C53_rev_static_partial,
  @ReorderProps.C53_round_trip_partial,
  @ReorderProps.C53_rev_refuted).
Definition SortProps_theorems := (tt,
  @SortProps.C50_sort,
  @SortProps.C50_destructive,
  @SortProps.C50_new,
  @SortProps.C50_max_refuted,
  @SortProps.C50_size_refuted).
Definition QuantProps_theorems := (tt,
  @QuantProps.C55_new,
  @QuantProps.C55_levels,
  @QuantProps.C55_infinite,
  @QuantProps.C55_negative_refuted,
  @QuantProps.C74_given,
  @QuantProps.C74_auto,
  @QuantProps.C74_zero_refuted).
Definition SocketProps_theorems := (tt,
  @SocketProps.C39_mutual,
  @SocketProps.C39_shared,
  @SocketProps.C39_bind,
  @SocketProps.C39_unbind,
  @SocketProps.C39_chain_refuted,
  @SocketProps.C39_fast_refuted,
  @SocketProps.C40_reset_partial,
  @SocketProps.C40_reset_refuted).
Definition ControlProps_theorems := (tt,
  @ControlProps.C46_loop,
  @ControlProps.C46_commute,
  @ControlProps.C46_select,
  @ControlProps.C46_iterate,
  @ControlProps.C46_iterate_refuted,
  @ControlProps.C47_static,
  @ControlProps.C47_limit,
  @ControlProps.C47_limit_new,
  @ControlProps.C47_cyclic,
  @ControlProps.C47_int8_refuted).
Definition DistProps_theorems := (tt,
  @DistProps.C75_two,
  @DistProps.C75_one,
  @DistProps.C75_unknown64_refuted).
Definition HistProps_theorems := (tt,
  @HistProps.C49_counts,
  @HistProps.C49_total,
  @HistProps.C49_merge,
  @HistProps.C49_min_max,
  @HistProps.C49_int,
  @HistProps.C76_inner_partial,
  @HistProps.C76_cumul_partial,
  @HistProps.C76_single,
  @HistProps.C76_last_refuted).
Definition MonitorProps_theorems := (tt,
  @MonitorProps.C48_call,
  @MonitorProps.C48_call2,
  @MonitorProps.C48_history,
  @MonitorProps.C48_limits,
  @MonitorProps.C48_reduce,
  @MonitorProps.C48_reduce_counters,
  @MonitorProps.C48_reduction_refused,
  @MonitorProps.C48_rates,
  @MonitorProps.C77_record,
  @MonitorProps.C77_unrecord,
  @MonitorProps.C78_add,
  @MonitorProps.C78_merge).
Definition FrameProps_theorems := (tt,
  @FrameProps.C42_history,
  @FrameProps.C42_new,
  @FrameProps.C42_set,
  @FrameProps.C42_failure_refuted,
  @FrameProps.C42_large_refuted,
  @FrameProps.C42_wave_bound_refuted).
Definition TaskProps_theorems := (tt,
  @TaskProps.C41_all,
  @TaskProps.C41_every_frame,
  @TaskProps.C41_one,
  @TaskProps.C41_zero_refuted,
  @TaskProps.C41_range,
  @TaskProps.C79_partial,
  @TaskProps.C79_refuted).
Definition SeqProps_theorems := (tt,
  @SeqProps.C60,
  @SeqProps.C60_firsts_refuted,
  @SeqProps.C60_loop_refuted).
Definition SeqRunProps_theorems := (tt,
  @SeqRunProps.C61_partial,
  @SeqRunProps.C61_refuted,
  @SeqRunProps.C61_new,
  @SeqRunProps.C80_exec,
  @SeqRunProps.C80_stop,
  @SeqRunProps.C80_ends).
Definition PatternProps_theorems := (tt,
  @PatternProps.C59,
  @PatternProps.C59_decoders,
  @PatternProps.C59_incomplete_refuted,
  @PatternProps.C59_length_refuted,
  @PatternProps.C59_longer_refuted,
  @PatternProps.C81_partial,
  @PatternProps.C81_refuted).
Definition FrozenProps_theorems := (tt,
  @FrozenProps.C58_selection,
  @FrozenProps.C58_assert,
  @FrozenProps.C58_size,
  @FrozenProps.C58_file,
  @FrozenProps.C58_5G,
  @FrozenProps.C58_BEC,
  @FrozenProps.C58_GA,
  @FrozenProps.C58_duplicate_refuted,
  @FrozenProps.C58_truncated_refuted,
  @FrozenProps.C58_range_refuted,
  @FrozenProps.C58_K_refuted,
  @FrozenProps.C58_length_refuted,
  @FrozenProps.C82_order,
  @FrozenProps.C82_mean,
  @FrozenProps.C82_values).
Definition MLProps_theorems := (tt,
  @MLProps.C57_hard_std,
  @MLProps.C57_hard_naive,
  @MLProps.C57_signs,
  @MLProps.C57_info,
  @MLProps.C57_soft_std,
  @MLProps.C57_soft_naive,
  @MLProps.C57_fixed_std,
  @MLProps.C57_fixed_naive,
  @MLProps.C57_64_refuted,
  @MLProps.C57_rounding_refuted,
  @MLProps.C57_overflow_refuted,
  @MLProps.C83_partial,
  @MLProps.C83_none,
  @MLProps.C83_fixed,
  @MLProps.C83_refuted).
Definition NoiseProps_theorems := (tt,
  @NoiseProps.C84_constructors,
  @NoiseProps.C84_set_value,
  @NoiseProps.C84_set_value_throws,
  @NoiseProps.C84_set_values,
  @NoiseProps.C84_copy,
  @NoiseProps.C84_history_partial,
  @NoiseProps.C84_rejected_stays_refuted,
  @NoiseProps.C84_probability_refuted,
  @NoiseProps.C84_listeners_refuted,
  @NoiseProps.C84_copy_refuted,
  @NoiseProps.C84_default_refuted,
  @NoiseProps.C85_points,
  @NoiseProps.C85_accuracy,
  @NoiseProps.C85_strict_double,
  @NoiseProps.C85_sizes,
  @NoiseProps.C85_zero_step_refuted,
  @NoiseProps.C85_negative_step_refuted,
  @NoiseProps.C85_last_point_refuted,
  @NoiseProps.C85_strict_refuted,
  @NoiseProps.C86_check_LUT).
Definition SnrProps_theorems := (tt,
  @SnrProps.C56_ebn0_meaning,
  @SnrProps.C56_esn0_meaning,
  @SnrProps.C56_partial,
  @SnrProps.C56_rounded_partial,
  @SnrProps.C56_sigma_meaning,
  @SnrProps.C56_sigma_decreasing,
  @SnrProps.C56_sigma_back,
  @SnrProps.C56_refuted).
Definition LDPCBPProps_theorems := (tt,
  @LDPCBPProps.C87_constructor,
  @LDPCBPProps.C87_flooding,
  @LDPCBPProps.C87_cwd,
  @LDPCBPProps.C87_cwd_refuted,
  @LDPCBPProps.C87_last_iteration_refuted,
  @LDPCBPProps.C87_degree_refuted,
  @LDPCBPProps.C88_MS,
  @LDPCBPProps.C88_OMS,
  @LDPCBPProps.C88_NMS,
  @LDPCBPProps.C88_AMS,
  @LDPCBPProps.C88_NMS_integers,
  @LDPCBPProps.C88_NMS_integers_refused,
  @LDPCBPProps.C88_MS_rules,
  @LDPCBPProps.C89_horizontal,
  @LDPCBPProps.C89_horizontal_cwd,
  @LDPCBPProps.C89_vertical,
  @LDPCBPProps.C89_vertical_cwd_refuted,
  @LDPCBPProps.C90_flooding,
  @LDPCBPProps.C90_horizontal,
  @LDPCBPProps.C90_vertical,
  @LDPCBPProps.C91_flooding,
  @LDPCBPProps.C91_horizontal,
  @LDPCBPProps.C91_vertical,
  @LDPCBPProps.C91_depth_refuted).
Definition ModemProps_theorems := (tt,
  @ModemProps.C93_modulate,
  @ModemProps.C93_size_refuted,
  @ModemProps.C94_max_log,
  @ModemProps.C94_decision,
  @ModemProps.C94_noiseless,
  @ModemProps.C94_float_signs,
  @ModemProps.C94_noiseless_gains,
  @ModemProps.C94_unit_gains,
  @ModemProps.C95_history,
  @ModemProps.C95_filter_refuted,
  @ModemProps.C95_filter_general_refuted,
  @ModemProps.C96_max_log,
  @ModemProps.C96_no_prior,
  @ModemProps.C96_extrinsic,
  @ModemProps.C96_padding_refuted).
Definition ModemFastProps_theorems := (tt,
  @ModemFastProps.C97_complex,
  @ModemFastProps.C97_real_refuted,
  @ModemFastProps.C98_modulate,
  @ModemFastProps.C98_demodulate,
  @ModemFastProps.C98_noiseless,
  @ModemFastProps.C98_generic,
  @ModemFastProps.C98_filter_refuted,
  @ModemFastProps.C99_modulate,
  @ModemFastProps.C99_erasure,
  @ModemFastProps.C99_awgn_value,
  @ModemFastProps.C99_awgn_partial,
  @ModemFastProps.C99_awgn_refuted).
Definition ModemCstlProps_theorems := (tt,
  @ModemCstlProps.C92_pam,
  @ModemCstlProps.C92_pam_refuted,
  @ModemCstlProps.C92_qam,
  @ModemCstlProps.C92_qam_odd_refuted,
  @ModemCstlProps.C92_qam_one_refuted,
  @ModemCstlProps.C92_psk,
  @ModemCstlProps.C92_user_refuted).
Definition ModemSoftProps_theorems := (tt,
  @ModemSoftProps.C99_bsc,
  @ModemSoftProps.C100_exact,
  @ModemSoftProps.C100_extrinsic,
  @ModemSoftProps.C100_safe,
  @ModemSoftProps.C101_mean,
  @ModemSoftProps.C101_weights).
Definition SourceProps_theorems := (tt,
  @SourceProps.C102_frames,
  @SourceProps.C102_small_refuted,
  @SourceProps.C103_cycle_partial,
  @SourceProps.C103_refuted,
  @SourceProps.C103_empty_refuted,
  @SourceProps.C104_file,
  @SourceProps.C104_round_trip,
  @SourceProps.C105_frames,
  @SourceProps.C105_refused,
  @SourceProps.C105_azcw,
  @SourceProps.C105_negative_refuted,
  @SourceProps.C105_short_refuted).
Definition ChannelProps_theorems := (tt,
  @ChannelProps.C106_awgn,
  @ChannelProps.C106_no,
  @ChannelProps.C107_rayleigh,
  @ChannelProps.C108_rayleigh_user,
  @ChannelProps.C108_gains_partial,
  @ChannelProps.C108_gains_refuted,
  @ChannelProps.C109_user,
  @ChannelProps.C109_user_add_partial,
  @ChannelProps.C109_user_add_refuted,
  @ChannelProps.C110_bec,
  @ChannelProps.C110_bsc,
  @ChannelProps.C110_bounds,
  @ChannelProps.C110_user_be,
  @ChannelProps.C110_user_bs_partial,
  @ChannelProps.C110_user_bs_refuted).
Definition BcjrProps_theorems := (tt,
  @BcjrProps.C111_siso_alt,
  @BcjrProps.C111_siso,
  @BcjrProps.C111_layout,
  @BcjrProps.C112_siso_alt,
  @BcjrProps.C113_ml,
  @BcjrProps.C113_noiseless,
  @BcjrProps.C113_buffered_partial,
  @BcjrProps.C113_buffered_refuted,
  @BcjrProps.C113_even_refuted).
Definition BcjrRealProps_theorems := (tt,
  @BcjrRealProps.C114_map,
  @BcjrRealProps.C114_hard,
  @BcjrRealProps.C114_maxlog).
Definition TurboDecProps_theorems := (tt,
  @TurboDecProps.C115_decode,
  @TurboDecProps.C115_same,
  @TurboDecProps.C115_fast_waves_refuted,
  @TurboDecProps.C116_crc).
Definition TurboBcjrProps_theorems := (tt,
  @TurboBcjrProps.C117_buffered,
  @TurboBcjrProps.C117_standard,
  @TurboBcjrProps.C117_round_trip).
Definition TurboPostProps_theorems := (tt,
  @TurboPostProps.C118_fnc,
  @TurboPostProps.C118_other_iterations,
  @TurboPostProps.C118_short_refuted,
  @TurboPostProps.C118_before_start_refuted,
  @TurboPostProps.C119_frame_partial,
  @TurboPostProps.C119_corrected,
  @TurboPostProps.C119_history_refuted,
  @TurboPostProps.C120_keep_signs,
  @TurboPostProps.C120_seq,
  @TurboPostProps.C120_integer_factor_refuted).
Definition SclProps_theorems := (tt,
  @SclProps.C121_list_decoder,
  @SclProps.C121_ctor,
  @SclProps.C121_length_one_refuted,
  @SclProps.C122_metric,
  @SclProps.C122_best_codeword,
  @SclProps.C122_maximum_likelihood,
  @SclProps.C123_noiseless,
  @SclProps.C124_crc_aided,
  @SclProps.C124_fallback_refuted,
  @SclProps.C124_set_frozen_bits_refuted,
  @SclProps.C125_successive_cancellation,
  @SclProps.C125_list_of_one).
Definition GalProps_theorems := (tt,
  @GalProps.C126_hard_input,
  @GalProps.C126_soft_input,
  @GalProps.C126_cwd,
  @GalProps.C126_cwd_refuted,
  @GalProps.C126_last_iteration_refuted,
  @GalProps.C126_wide_refuted,
  @GalProps.C127_no_noise,
  @GalProps.C127_one_error,
  @GalProps.C128_symmetry,
  @GalProps.C129_odd_degrees,
  @GalProps.C129_even_degree_refuted,
  @GalProps.C130_frames,
  @GalProps.C130_depth_refuted).
Definition FlipProps_theorems := (tt,
  @FlipProps.C131_weighted_flipping,
  @FlipProps.C131_same_result,
  @FlipProps.C131_cwd,
  @FlipProps.C131_no_iteration_refuted,
  @FlipProps.C131_last_iteration_refuted,
  @FlipProps.C131_degree_refuted,
  @FlipProps.C132_noiseless,
  @FlipProps.C132_single_error,
  @FlipProps.C133_parallel_flipping,
  @FlipProps.C133_cwd,
  @FlipProps.C133_depth_refuted,
  @FlipProps.C133_last_iteration_refuted,
  @FlipProps.C134_noiseless,
  @FlipProps.C134_symmetry).
Definition RaDecProps_theorems := (tt,
  @RaDecProps.C135_max_log,
  @RaDecProps.C135_determined,
  @RaDecProps.C135_single_refuted,
  @RaDecProps.C136_noiseless,
  @RaDecProps.C137_symmetric).
Definition TpcProps_theorems := (tt,
  @TpcProps.C138_encode,
  @TpcProps.C138_lines_columns,
  @TpcProps.C138_bottom_refuted,
  @TpcProps.C139_distance).
Definition PyndProps_theorems := (tt,
  @PyndProps.C140_patterns,
  @PyndProps.C140_unfit_refused,
  @PyndProps.C140_least_reliable,
  @PyndProps.C140_determined,
  @PyndProps.C140_saturated_refuted,
  @PyndProps.C141_decided_word,
  @PyndProps.C141_large_values_refuted,
  @PyndProps.C142_chase,
  @PyndProps.C142_closest,
  @PyndProps.C142_noiseless,
  @PyndProps.C143_soft_output,
  @PyndProps.C143_beta).
Definition TpdProps_theorems := (tt,
  @TpdProps.C144_constructor,
  @TpdProps.C144_soft,
  @TpdProps.C144_information,
  @TpdProps.C144_codeword_square,
  @TpdProps.C144_codeword_stale_refuted,
  @TpdProps.C144_codeword_refuted,
  @TpdProps.C144_negative_beta,
  @TpdProps.C145_soft,
  @TpdProps.C145_information,
  @TpdProps.C145_codeword_square).
Definition GeniusProps_theorems := (tt,
  @GeniusProps.C146_memory,
  @GeniusProps.C146_constructor,
  @GeniusProps.C146_soft,
  @GeniusProps.C146_hard,
  @GeniusProps.C146_message,
  @GeniusProps.C146_flag_refuted,
  @GeniusProps.C147_hard_refuted,
  @GeniusProps.C147_soft_refuted).
Definition UserEncProps_theorems := (tt,
  @UserEncProps.C148_codewords,
  @UserEncProps.C148_refused,
  @UserEncProps.C148_repeated_refuted,
  @UserEncProps.C148_negative_refuted,
  @UserEncProps.C148_short_refuted).
Definition ExtractProps_theorems := (tt,
  @ExtractProps.C149_values,
  @ExtractProps.C149_message,
  @ExtractProps.C149_add,
  @ExtractProps.C149_wrong_size,
  @ExtractProps.C149_rsc,
  @ExtractProps.C149_rsc_positions,
  @ExtractProps.C149_polar,
  @ExtractProps.C149_polar_refuted,
  @ExtractProps.C149_uncoded,
  @ExtractProps.C150_parity_refuted,
  @ExtractProps.C150_never_right).
Definition BchInterProps_theorems := (tt,
  @BchInterProps.C151_frames,
  @BchInterProps.C151_codewords).
Definition ProbeProps_theorems := (tt,
  @ProbeProps.C152_queue,
  @ProbeProps.C152_below,
  @ProbeProps.C152_full_refuted,
  @ProbeProps.C153_create,
  @ProbeProps.C153_probe,
  @ProbeProps.C153_twice,
  @ProbeProps.C153_last_refuted,
  @ProbeProps.C153_unknown_refuted).
Definition ExtractEndProps_theorems := (tt,
  @ExtractEndProps.C154_polar,
  @ExtractEndProps.C154_rsc).
Definition DbCrcProps_theorems := (tt,
  @DbCrcProps.C155_check,
  @DbCrcProps.C155_winner,
  @DbCrcProps.C155_before).
Definition all_theorems := (tt,
  InterleaverProps_theorems,
  BitPackerProps_theorems,
  CRCProps_theorems,
  PolarProps_theorems,
  PunctProps_theorems,
  ConvProps_theorems,
  RepProps_theorems,
  GaloisProps_theorems,
  BCHEncProps_theorems,
  BCHDecProps_theorems,
  RSProps_theorems,
  SparseProps_theorems,
  FullProps_theorems,
  LDPCProps_theorems,
  DVBS2Props_theorems,
  AListProps_theorems,
  HardProps_theorems,
  PeelProps_theorems,
  PRNGProps_theorems,
  UtilProps_theorems,
  AdaptorProps_theorems,
  ReorderProps_theorems,
  SortProps_theorems,
  QuantProps_theorems,
  SocketProps_theorems,
  ControlProps_theorems,
  DistProps_theorems,
  HistProps_theorems,
  MonitorProps_theorems,
  FrameProps_theorems,
  TaskProps_theorems,
  SeqProps_theorems,
  SeqRunProps_theorems,
  PatternProps_theorems,
  FrozenProps_theorems,
  MLProps_theorems,
  NoiseProps_theorems,
  LDPCBPProps_theorems,
  ModemProps_theorems,
  ModemFastProps_theorems,
  SourceProps_theorems,
  ChannelProps_theorems,
  BcjrProps_theorems,
  TurboDecProps_theorems,
  TurboBcjrProps_theorems,
  TurboPostProps_theorems,
  SclProps_theorems,
  GalProps_theorems,
  FlipProps_theorems,
  RaDecProps_theorems,
  TpcProps_theorems,
  PyndProps_theorems,
  TpdProps_theorems,
  GeniusProps_theorems,
  UserEncProps_theorems,
  ExtractProps_theorems,
  BchInterProps_theorems,
  ProbeProps_theorems,
  ExtractEndProps_theorems,
  DbCrcProps_theorems).
Print Assumptions all_theorems.

(* The theorems on real numbers, with the axioms of the standard library's Reals. *)
Print Assumptions SnrProps.C56_ebn0_meaning.
Print Assumptions SnrProps.C56_esn0_meaning.
Print Assumptions SnrProps.C56_partial.
Print Assumptions SnrProps.C56_rounded_partial.
Print Assumptions SnrProps.C56_sigma_meaning.
Print Assumptions SnrProps.C56_sigma_decreasing.
Print Assumptions SnrProps.C56_sigma_back.
Print Assumptions SnrProps.C56_refuted.
Print Assumptions ModemCstlProps.C92_pam.
Print Assumptions ModemCstlProps.C92_pam_refuted.
Print Assumptions ModemCstlProps.C92_qam.
Print Assumptions ModemCstlProps.C92_qam_odd_refuted.
Print Assumptions ModemCstlProps.C92_qam_one_refuted.
Print Assumptions ModemCstlProps.C92_psk.
Print Assumptions ModemCstlProps.C92_user_refuted.
Print Assumptions ModemSoftProps.C99_bsc.
Print Assumptions ModemSoftProps.C100_exact.
Print Assumptions ModemSoftProps.C100_extrinsic.
Print Assumptions ModemSoftProps.C100_safe.
Print Assumptions ModemSoftProps.C101_mean.
Print Assumptions ModemSoftProps.C101_weights.
Print Assumptions BcjrRealProps.C114_map.
Print Assumptions BcjrRealProps.C114_hard.
Print Assumptions BcjrRealProps.C114_maxlog.
