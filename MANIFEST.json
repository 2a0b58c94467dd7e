{
 "claims": [
  {
   "property": "C01",
   "status": "proved",
   "theorems": [
    "C01_core_tables",
    "C01_roundtrip",
    "C01_roundtrip_reordering",
    "C01_gather",
    "C01_reordering_is_layout_change",
    "C01_reordering_multiwave_refuted"
   ],
   "note": "Holds for the plain layout and, with a single wave, for the reordered layout. With several waves the reordered layout accesses memory outside the wave buffers (refuted)."
  },
  {
   "property": "C02",
   "status": "proved",
   "theorems": [
    "C02_generators",
    "C02_row_column",
    "C02_column_row_is_inverse",
    "C02_too_large_size_refuted"
   ],
   "note": "Holds when the size fits in the element type; a larger size is accepted without error and gives a non-permutation (refuted)."
  },
  {
   "property": "C03",
   "status": "proved",
   "theorems": [
    "C03_LTE",
    "C03_CCSDS",
    "C03_DVB_RCS1",
    "C03_DVB_RCS2",
    "C03_DVB_RCS2_1777_refuted"
   ],
   "note": "Holds for every tabulated size except DVB-RCS2 size 1777, for which it is refuted."
  },
  {
   "property": "C04",
   "status": "proved",
   "theorems": [
    "C04_accepted_are_permutations",
    "C04_well_formed_files",
    "C04_truncated_file_refuted"
   ],
   "note": "Holds; a file that stops before its size uses an uninitialised variable (refuted)."
  },
  {
   "property": "C05",
   "status": "proved",
   "theorems": [
    "C05_pack_layout",
    "C05_symbols_small",
    "C05_roundtrip",
    "C05_invalid_nbps",
    "C05_vector_roundtrip",
    "C05_pack_in_place",
    "C05_vector_check_refuted",
    "C05_unpack_per_byte_check_refuted",
    "C05_long_frames_refuted"
   ],
   "note": "Holds for every frame of up to 2^24 bits (or a single frame of any length) with large enough buffers. Findings: above 2^24 bits several frames overlap; the size checks of the vector interface are too weak, so accepted calls can access memory out of bounds."
  },
  {
   "property": "C06",
   "status": "partial",
   "theorems": [
    "C06_single_frame_partial",
    "C06_multi_frame_refuted"
   ],
   "note": "Holds for one frame; for two frames or more every call is undefined behaviour (refuted for all inputs)."
  },
  {
   "property": "C07",
   "status": "proved",
   "theorems": [
    "C07_generator",
    "C07_build_check_extract",
    "C07_check_exact",
    "C07_unique",
    "C07_linear",
    "C07_size_over_32_refuted"
   ],
   "note": "Holds for every message, key and size up to 32; a size above 32 is undefined behaviour in the constructor (refuted)."
  },
  {
   "property": "C08",
   "status": "proved",
   "theorems": [
    "C08_versions_agree",
    "C08_fast_build",
    "C08_fast_check"
   ],
   "note": "All lengths, all keys, sizes 1 to 32; little-endian machine, as the code requires."
  },
  {
   "property": "C09",
   "status": "proved",
   "theorems": [
    "C09_undetected_iff_multiple",
    "C09_bursts_detected",
    "C09_known_polynomials"
   ],
   "note": "All messages, error patterns, burst positions."
  },
  {
   "property": "C10",
   "status": "partial",
   "theorems": [
    "C10_fast_check_packed_partial",
    "C10_standard_check_packed_refuted"
   ],
   "note": "Holds for the fast module. For the standard module every call is undefined behaviour (refuted for all inputs with at least two bits)."
  },
  {
   "property": "C100",
   "status": "proved",
   "theorems": [
    "C100_exact",
    "C100_extrinsic",
    "C100_safe"
   ],
   "note": "Over the real numbers (axioms of Reals): no rounding."
  },
  {
   "property": "C101",
   "status": "proved",
   "theorems": [
    "C101_mean",
    "C101_weights"
   ],
   "note": "Over the real numbers (axioms of Reals): no rounding. C101_example is an instance."
  },
  {
   "property": "C102",
   "status": "proved",
   "theorems": [
    "C102_frames",
    "C102_small_refuted"
   ],
   "note": "Finding: for K = 5 (and 1, 2, 3), the bits left over may exceed the next frame: write outside of the buffer. C102_example is an instance."
  },
  {
   "property": "C103",
   "status": "partial",
   "theorems": [
    "C103_cycle_partial",
    "C103_refuted",
    "C103_empty_refuted"
   ],
   "note": "Proved for frames of 4 or at least 6 bits when the frames hold whole bytes (8 divides K) or the file holds whole frames (K divides its number of bits). Refuted otherwise: reset() forgets the bits left in the middle of generate(): bits are lost and zeros appear. An empty file is read for ever. C103_example is an instance."
  },
  {
   "property": "C104",
   "status": "proved",
   "theorems": [
    "C104_file",
    "C104_round_trip"
   ],
   "note": "C104_example is an instance."
  },
  {
   "property": "C105",
   "status": "proved",
   "theorems": [
    "C105_frames",
    "C105_refused",
    "C105_azcw",
    "C105_negative_refuted",
    "C105_short_refuted"
   ],
   "note": "Findings in the refuted theorems. C105_example is an instance."
  },
  {
   "property": "C106",
   "status": "proved",
   "theorems": [
    "C106_awgn",
    "C106_no"
   ],
   "note": "C106_example is an instance."
  },
  {
   "property": "C107",
   "status": "proved",
   "theorems": [
    "C107_rayleigh"
   ],
   "note": "C107_example is an instance."
  },
  {
   "property": "C108",
   "status": "partial",
   "theorems": [
    "C108_rayleigh_user",
    "C108_gains_partial",
    "C108_gains_refuted"
   ],
   "note": "The use of the gains is proved in full; reading them is proved (for integers) for a file that does not end with white space. Refuted: with a white space (as a line feed) at the end, the last gain is taken twice; for an empty file, one uninitialised gain is taken and nothing is refused. C108_example and C108_gains_example are instances."
  },
  {
   "property": "C109",
   "status": "partial",
   "theorems": [
    "C109_user",
    "C109_user_add_partial",
    "C109_user_add_refuted"
   ],
   "note": "Proved in full for user, without add_users for user_add. Refuted: with add_users and several frames, user_add erases the noise before it adds the frames: the sum is received without noise. C109_example is an instance."
  },
  {
   "property": "C11",
   "status": "proved",
   "theorems": [
    "C11_light_encode",
    "C11_encode",
    "C11_convert_inplace",
    "C11_involution",
    "C11_linear",
    "C11_info_bits_pos",
    "C11_not_power_of_2_refuted"
   ],
   "note": "All n, inputs and patterns. Finding: a length that is not a power of two is accepted by the constructor and makes the encoder access memory out of bounds."
  },
  {
   "property": "C110",
   "status": "partial",
   "theorems": [
    "C110_bec",
    "C110_bsc",
    "C110_bounds",
    "C110_user_be",
    "C110_user_bs_partial",
    "C110_user_bs_refuted"
   ],
   "note": "Proved in full for the erasure and symmetric channels and user_be; for user_bs when the frame fills whole registers (or the numbers of the file are 0 and 1 when read as integers). Refuted otherwise: user_bs reads the floating-point 1 as an integer and, after the last register, does not flip a bit 0. C110_example and C110_events_example are instances."
  },
  {
   "property": "C111",
   "status": "proved",
   "theorems": [
    "C111_siso_alt",
    "C111_siso",
    "C111_layout"
   ],
   "note": "Exact arithmetic (no overflow, no rounding), one frame per wave; decode_siso for types without normalisation. bcjr_history and bcjr_soft are instances."
  },
  {
   "property": "C112",
   "status": "proved",
   "theorems": [
    "C112_siso_alt"
   ],
   "note": "Overflows of the 16-bit metrics are not modelled. bcjr_soft is an instance."
  },
  {
   "property": "C113",
   "status": "partial",
   "theorems": [
    "C113_ml",
    "C113_noiseless",
    "C113_buffered_partial",
    "C113_buffered_refuted",
    "C113_even_refuted"
   ],
   "note": "Proved for an odd feedback polynomial and the layout that is not buffered. Refuted in the buffered layout with one frame per wave: the parities of the tail are never loaded, the decision is that of the frame where they are erased (C113_buffered_partial). Refuted for an even feedback polynomial, which the encoder accepts: the two transitions entering a state then have the same bit, the soft output forgets transitions, and a frame without noise is decoded wrongly. bcjr_history is an instance."
  },
  {
   "property": "C114",
   "status": "proved",
   "theorems": [
    "C114_map",
    "C114_hard",
    "C114_maxlog"
   ],
   "note": "Real numbers stand for the floating-point ones; C114_hard is for the layout that is not buffered. bcjr_real is an instance."
  },
  {
   "property": "C115",
   "status": "proved",
   "theorems": [
    "C115_decode",
    "C115_same",
    "C115_fast_waves_refuted"
   ],
   "note": "Addition over an abstract type without negative zero; overflow and rounding are those of the abstract addition. C115_example and C117_example are instances."
  },
  {
   "property": "C116",
   "status": "proved",
   "theorems": [
    "C116_crc"
   ],
   "note": "The check is any function of the decisions of the wave, as the decoder lays them out. C117_example is an instance."
  },
  {
   "property": "C117",
   "status": "proved",
   "theorems": [
    "C117_buffered",
    "C117_standard",
    "C117_round_trip"
   ],
   "note": "Integers without overflow; one frame per wave (that of the generic BCJR decoder). C117_example is an instance."
  },
  {
   "property": "C118",
   "status": "proved",
   "theorems": [
    "C118_fnc",
    "C118_other_iterations",
    "C118_short_refuted",
    "C118_before_start_refuted"
   ],
   "note": "std::partial_sort is any sort that meets partial_sorts; isort_sorts is one. C118_example is an instance."
  },
  {
   "property": "C119",
   "status": "partial",
   "theorems": [
    "C119_frame_partial",
    "C119_corrected",
    "C119_history_refuted"
   ],
   "note": "Proved for the first frame. Refuted afterwards: the record of the corrections is never cleared, so the corrections of a frame depend on the last iteration of the frame before; a turbo decoder that decodes the same frame twice in a row returns two different decisions. C119_example is an instance."
  },
  {
   "property": "C12",
   "status": "proved",
   "theorems": [
    "C12_systematic",
    "C12_domination_needed_refuted"
   ],
   "note": "All n, domination-closed sets and messages; the closure condition is shown to be needed."
  },
  {
   "property": "C120",
   "status": "proved",
   "theorems": [
    "C120_keep_signs",
    "C120_seq",
    "C120_integer_factor_refuted"
   ],
   "note": "Integers without overflow."
  },
  {
   "property": "C121",
   "status": "proved",
   "theorems": [
    "C121_list_decoder",
    "C121_ctor",
    "C121_length_one_refuted"
   ],
   "note": "LLRs and metrics are exact integers. std::sort is any function that permutes and sorts by metric. C121_ex and C121_hypotheses are instances."
  },
  {
   "property": "C122",
   "status": "proved",
   "theorems": [
    "C122_metric",
    "C122_best_codeword",
    "C122_maximum_likelihood"
   ],
   "note": "Exact integers."
  },
  {
   "property": "C123",
   "status": "proved",
   "theorems": [
    "C123_noiseless"
   ],
   "note": "Exact integers."
  },
  {
   "property": "C124",
   "status": "proved",
   "theorems": [
    "C124_crc_aided",
    "C124_fallback_refuted",
    "C124_set_frozen_bits_refuted"
   ],
   "note": "The CRC check is any function of the information bits. C124_ex is an instance."
  },
  {
   "property": "C125",
   "status": "proved",
   "theorems": [
    "C125_successive_cancellation",
    "C125_list_of_one"
   ],
   "note": "Exact integers; the decision of an LLR is any function for the SC decoder and the sign for the comparison with the list decoder."
  },
  {
   "property": "C126",
   "status": "proved",
   "theorems": [
    "C126_hard_input",
    "C126_soft_input",
    "C126_cwd",
    "C126_cwd_refuted",
    "C126_last_iteration_refuted",
    "C126_wide_refuted"
   ],
   "note": "Findings: CWD with one iteration, unchecked last iteration, Gallager E with 64-bit bits."
  },
  {
   "property": "C127",
   "status": "proved",
   "theorems": [
    "C127_no_noise",
    "C127_one_error"
   ],
   "note": ""
  },
  {
   "property": "C128",
   "status": "proved",
   "theorems": [
    "C128_symmetry"
   ],
   "note": ""
  },
  {
   "property": "C129",
   "status": "proved",
   "theorems": [
    "C129_odd_degrees",
    "C129_even_degree_refuted"
   ],
   "note": "Finding: with an even degree the message of the edge itself is counted."
  },
  {
   "property": "C13",
   "status": "proved",
   "theorems": [
    "C13_is_codeword_exact",
    "C13_complete",
    "C13_last_frozen_refuted"
   ],
   "note": "Exact when the last position is free; when it is frozen (every shortened code) non-codewords are accepted (refuted for all such codes)."
  },
  {
   "property": "C130",
   "status": "proved",
   "theorems": [
    "C130_frames",
    "C130_depth_refuted"
   ],
   "note": "Finding: the syndrome depth counter is not reset between frames."
  },
  {
   "property": "C131",
   "status": "proved",
   "theorems": [
    "C131_weighted_flipping",
    "C131_same_result",
    "C131_cwd",
    "C131_no_iteration_refuted",
    "C131_last_iteration_refuted",
    "C131_degree_refuted"
   ],
   "note": "Findings: n_ite = 0 is accepted with CWD = 1; the last flip is not checked; degrees are kept in an unsigned char (256 wraps to 0); syndrome_depth is never used."
  },
  {
   "property": "C132",
   "status": "proved",
   "theorems": [
    "C132_noiseless",
    "C132_single_error"
   ],
   "note": "The maximum of type R is any positive number."
  },
  {
   "property": "C133",
   "status": "proved",
   "theorems": [
    "C133_parallel_flipping",
    "C133_cwd",
    "C133_depth_refuted",
    "C133_last_iteration_refuted"
   ],
   "note": "The random engine and the Bernoulli distribution are any function from a probability and an engine state to an outcome and a new state. Finding: with syndrome_depth 2 or with the syndrome check disabled CWD describes the bits before the last flips."
  },
  {
   "property": "C134",
   "status": "proved",
   "theorems": [
    "C134_noiseless",
    "C134_symmetry"
   ],
   "note": ""
  },
  {
   "property": "C135",
   "status": "proved",
   "theorems": [
    "C135_max_log",
    "C135_determined",
    "C135_single_refuted"
   ],
   "note": "Exact rationals: rounding of float and wrap of the fixed-point types are not modelled. Finding: N = 1 gives an out-of-bounds write."
  },
  {
   "property": "C136",
   "status": "proved",
   "theorems": [
    "C136_noiseless"
   ],
   "note": "The encoder is the one of C21."
  },
  {
   "property": "C137",
   "status": "proved",
   "theorems": [
    "C137_symmetric"
   ],
   "note": ""
  },
  {
   "property": "C138",
   "status": "proved",
   "theorems": [
    "C138_encode",
    "C138_lines_columns",
    "C138_bottom_refuted"
   ],
   "note": "The component encoders are functions of their K input bits. Finding: BOTTOM_LEFT and BOTTOM_RIGHT give wrong encodings that depend on the previous frame."
  },
  {
   "property": "C139",
   "status": "proved",
   "theorems": [
    "C139_distance"
   ],
   "note": ""
  },
  {
   "property": "C14",
   "status": "proved",
   "theorems": [
    "C14_codeword",
    "C14_noiseless_exact",
    "C14_noiseless_int",
    "C14_int8_min_refuted"
   ],
   "note": "First part for every LLR type and kernels; second part for exact arithmetic and for int8/int16. Floating-point underflow in the product of two tiny LLRs is not modelled. Refuted for the LLR -128 on 8 bits."
  },
  {
   "property": "C140",
   "status": "proved",
   "theorems": [
    "C140_patterns",
    "C140_unfit_refused",
    "C140_least_reliable",
    "C140_determined",
    "C140_saturated_refuted"
   ],
   "note": "Finding: with fixed-point values saturated at numeric_limits<R>::max(), fewer positions than asked can be found; the missing ones keep the position N and bit_flipping writes past the end of hard_Y_N. (The insertion also uses an iterator that pop_back invalidated when it is the last one; the model takes it as the end.)"
  },
  {
   "property": "C141",
   "status": "proved",
   "theorems": [
    "C141_decided_word",
    "C141_large_values_refuted"
   ],
   "note": "Exact arithmetic. Finding: the metric max/2 that marks a failed hard decoding is smaller than real metrics when the magnitudes add up to more."
  },
  {
   "property": "C142",
   "status": "proved",
   "theorems": [
    "C142_chase",
    "C142_closest",
    "C142_noiseless"
   ],
   "note": "For values that add up to less than half of the largest one (see C141)."
  },
  {
   "property": "C143",
   "status": "proved",
   "theorems": [
    "C143_soft_output",
    "C143_beta"
   ],
   "note": "Exact arithmetic."
  },
  {
   "property": "C144",
   "status": "proved",
   "theorems": [
    "C144_constructor",
    "C144_soft",
    "C144_information",
    "C144_codeword_square",
    "C144_codeword_stale_refuted",
    "C144_codeword_refuted",
    "C144_negative_beta"
   ],
   "note": "Exact arithmetic; row-column interleaver read from a top corner. Finding: the last loop of _decode for the codeword runs over n_cols lines instead of n_rows."
  },
  {
   "property": "C145",
   "status": "proved",
   "theorems": [
    "C145_soft",
    "C145_information",
    "C145_codeword_square"
   ],
   "note": "The condition on component decoders is a hypothesis, not proved here of the Chase-Pyndiah decoder: its soft output (C143) subtracts a times the channel value and can have the other sign unless a = 0."
  },
  {
   "property": "C146",
   "status": "proved",
   "theorems": [
    "C146_memory",
    "C146_constructor",
    "C146_soft",
    "C146_hard",
    "C146_message",
    "C146_flag_refuted"
   ],
   "note": "One frame per wave. Finding: Decoder_SIHO clears the flag CWD after a call of a decoder that has no CWD argument, although get_last_is_codeword is right."
  },
  {
   "property": "C147",
   "status": "proved",
   "theorems": [
    "C147_hard_refuted",
    "C147_soft_refuted"
   ],
   "note": "The English property is refuted; the proved theorems say that every call throws. The functions of the genius class that no task reaches are not modelled."
  },
  {
   "property": "C148",
   "status": "proved",
   "theorems": [
    "C148_codewords",
    "C148_refused",
    "C148_repeated_refuted",
    "C148_negative_refuted",
    "C148_short_refuted"
   ],
   "note": "The text of the file is given as its numbers; the search for the line that announces the positions is not modelled."
  },
  {
   "property": "C149",
   "status": "proved",
   "theorems": [
    "C149_values",
    "C149_message",
    "C149_add",
    "C149_wrong_size",
    "C149_rsc",
    "C149_rsc_positions",
    "C149_polar",
    "C149_polar_refuted",
    "C149_uncoded"
   ],
   "note": "The type of the values, its addition and its sign are parameters. The function _add_sys_and_ext_llr of Extractor_RSC has another signature and is never called; the general one is used and agrees with its positions."
  },
  {
   "property": "C15",
   "status": "proved",
   "theorems": [
    "C15_frozen_bits",
    "C15_shortened_zero",
    "C15_puncture",
    "C15_depuncture",
    "C15_end_to_end"
   ],
   "note": "All N, K, channel orders, messages and LLRs."
  },
  {
   "property": "C150",
   "status": "proved",
   "theorems": [
    "C150_parity_refuted",
    "C150_never_right"
   ],
   "note": "The English property is refuted; the theorems say what is returned instead. Finding not modelled: the codelet of this task captures local variables of the constructor by reference, so running the task reads dead variables in every extractor."
  },
  {
   "property": "C151",
   "status": "proved",
   "theorems": [
    "C151_frames",
    "C151_codewords"
   ],
   "note": "The reordering is the model of C53, without AVX (with AVX the registers are handled by lanes of 128 bits, not modelled)."
  },
  {
   "property": "C152",
   "status": "proved",
   "theorems": [
    "C152_queue",
    "C152_below",
    "C152_full_refuted"
   ],
   "note": "Each operation holds the mutex of its column, so threads give sequences of operations; reset does not take it in the code, and is modelled as one operation. Finding: full and empty are confused when head and tail meet."
  },
  {
   "property": "C153",
   "status": "proved",
   "theorems": [
    "C153_create",
    "C153_probe",
    "C153_twice",
    "C153_last_refuted",
    "C153_unknown_refuted"
   ],
   "note": "Names are numbers; all columns hold the same type."
  },
  {
   "property": "C154",
   "status": "proved",
   "theorems": [
    "C154_polar",
    "C154_rsc"
   ],
   "note": "The received values are any type with a sign test; the channel and the modem are a hypothesis on the signs of the frame."
  },
  {
   "property": "C155",
   "status": "proved",
   "theorems": [
    "C155_check",
    "C155_winner",
    "C155_before"
   ],
   "note": "The values are unbounded integers: the wrapping of 8 and 16 bit sums is not modelled. The frame is made of whole pairs and the buffers of four values per pair, as in the decoder when its K is the size of the frame of the CRC and it decodes one frame at a time."
  },
  {
   "property": "C16",
   "status": "proved",
   "theorems": [
    "C16_N",
    "C16_puncture",
    "C16_depuncture",
    "C16_puncture_depuncture",
    "C16_depuncture_puncture",
    "C16_buffered_tail_refuted"
   ],
   "note": "All sizes, patterns and tails accepted by the constructor; refuted for the buffered layout with a tail that is not a multiple of 4."
  },
  {
   "property": "C17",
   "status": "proved",
   "theorems": [
    "C17_N",
    "C17_puncture",
    "C17_depuncture",
    "C17_puncture_depuncture",
    "C17_no_puncturing",
    "C17_remainder_refuted"
   ],
   "note": "All accepted sizes and patterns; the positions after the last whole block are not written by depuncture (refuted when there are some)."
  },
  {
   "property": "C18",
   "status": "proved",
   "theorems": [
    "C18_puncture",
    "C18_depuncture",
    "C18_puncture_depuncture",
    "C18_standard_sizes",
    "C18_rates",
    "C18_out_of_bounds_refuted"
   ],
   "note": "Exact in-bounds condition for all accepted pairs. Finding: the rate is compared after rounding to a percent, so pairs that overrun the output are accepted, e.g. K = 112, N = 150."
  },
  {
   "property": "C19",
   "status": "proved",
   "theorems": [
    "C19_encode",
    "C19_is_codeword",
    "C19_unique",
    "C19_linear",
    "C19_info_pos",
    "C19_trellis",
    "C19_cpe_encode",
    "C19_cpe_is_codeword",
    "C19_cpe_trellis"
   ],
   "note": "All polynomials, memory sizes, lengths and messages accepted by the constructor."
  },
  {
   "property": "C20",
   "status": "proved",
   "theorems": [
    "C20_rsc_constituent",
    "C20_encode",
    "C20_is_codeword",
    "C20_unique",
    "C20_legacy_encode",
    "C20_legacy_is_codeword",
    "C20_unbuffered_refuted"
   ],
   "note": "All constituent pairs, lookup tables and messages. Finding: unbuffered constituents are accepted by the constructor and give frames the encoder itself rejects."
  },
  {
   "property": "C21",
   "status": "proved",
   "theorems": [
    "C21_encode",
    "C21_linear",
    "C21_injective"
   ],
   "note": "All sizes, lookup tables and messages."
  },
  {
   "property": "C22",
   "status": "proved",
   "theorems": [
    "C22_encode",
    "C22_is_codeword",
    "C22_unique",
    "C22_decode_std",
    "C22_decode_fast",
    "C22_maximum_likelihood",
    "C22_fixed_point_exact",
    "C22_noiseless",
    "C22_noiseless_types",
    "C22_in_range",
    "C22_wrap_refuted",
    "C22_saturation_refuted"
   ],
   "note": "All sizes, layouts, LLR types. Findings: the standard decoder wraps around on 8/16-bit LLRs (two maximal LLRs for 0 decide 1); the saturating one is not maximum likelihood after saturation. Floating-point rounding is not modelled."
  },
  {
   "property": "C23",
   "status": "proved",
   "theorems": [
    "C23_tables",
    "C23_default_primitive",
    "C23_product",
    "C23_accepts",
    "C23_width_refuted",
    "C23_nonprimitive_refuted"
   ],
   "note": "All m from 2 to 20, all primitive polynomials, all elements. Findings: the check on the element width is too weak (8-bit elements with m = 8 index a table with a negative number); a non-primitive polynomial is accepted."
  },
  {
   "property": "C24",
   "status": "proved",
   "theorems": [
    "C24_generator",
    "C24_encode",
    "C24_is_codeword",
    "C24_unique",
    "C24_linear"
   ],
   "note": "All m from 2 to 20, primitive polynomials, t with 2t < 2^m - 1, message sizes (shortened codes included) and messages."
  },
  {
   "property": "C25",
   "status": "proved",
   "theorems": [
    "C25_decode",
    "C25_message",
    "C25_distance",
    "C25_short_modulus_refuted",
    "C25_short_success_refuted"
   ],
   "note": "All fields, t, codes whose length matches the field, received words and call histories. Findings: the modulus is derived from N and not from the field, so for N < 2^(m-1) decoding a codeword indexes a table with a negative number; a shortened code can report a success with a word that is not a codeword. The product i * j of the syndromes must fit an int (2tN < 2^31)."
  },
  {
   "property": "C26",
   "status": "proved",
   "theorems": [
    "C26_generator",
    "C26_encode",
    "C26_is_codeword",
    "C26_unique",
    "C26_decode",
    "C26_message",
    "C26_distance",
    "C26_short_encode_refuted",
    "C26_short_decode_refuted",
    "C26_width_refuted"
   ],
   "note": "All fields, primitive polynomials, t, messages, error patterns and call histories. Findings: in a shortened code the encoder reduces exponents modulo N, so its output is not a codeword and is_codeword agrees with it; the decoder accesses memory after the word; 8-bit elements with m = 8 are accepted and index a table with a negative number for half of the messages."
  },
  {
   "property": "C27",
   "status": "partial",
   "theorems": [
    "C26_encode",
    "C27_positions_refuted"
   ],
   "note": "Refuted for all codes: the message is at the bits (N-K)m+k (C26_encode), the advertised positions are N-K+k."
  },
  {
   "property": "C28",
   "status": "proved",
   "theorems": [
    "C28_built",
    "C28_built_G",
    "C28_refused",
    "C28_linear",
    "C28_orthogonal",
    "C28_zero_syndrome",
    "C28_check_GH"
   ],
   "note": "All matrices in either orientation, bit widths and messages. check_GH decides orthogonality except when both matrices are vertical, where it throws."
  },
  {
   "property": "C29",
   "status": "proved",
   "theorems": [
    "C29_from_H",
    "C29_wrong_K",
    "C29_inversion"
   ],
   "note": "All H with at least one check and one information bit, any register width, all messages."
  },
  {
   "property": "C30",
   "status": "partial",
   "theorems": [
    "C30_reduction_partial",
    "C30_identity_refuted"
   ],
   "note": "Refuted for every H: the resize to N rows and N-M columns from the top right corner gives short rows and the next loop writes outside of them. Proved: the diagonalisation and the reduction give [I | A] with the same code up to the reported exchanges. Missing: the steps after the resize."
  },
  {
   "property": "C31",
   "status": "proved",
   "theorems": [
    "C31_IRA",
    "C31_QC",
    "C31_IRA_unchecked_refuted"
   ],
   "note": "All matrices with the required structure and all messages. Finding: the IRA constructor does not check the dual diagonal, and encodes words that its own is_codeword rejects."
  },
  {
   "property": "C32",
   "status": "proved",
   "theorems": [
    "C32_expand",
    "C32_degrees",
    "C32_pattern",
    "C32_size",
    "C32_negative_refuted",
    "C32_truncated_refuted"
   ],
   "note": "All QC files with positive sizes and entries in [-1, 2^15). Findings: other negative entries give blocks that are neither zero nor a shift, and entries are truncated to 16 bits (65535 becomes a zero block)."
  },
  {
   "property": "C33",
   "status": "proved",
   "theorems": [
    "C33_read",
    "C33_write",
    "C33_round_trip",
    "C33_no_positions",
    "C33_size",
    "C33_check_positions",
    "C33_zero_refuted",
    "C33_short_file_refuted"
   ],
   "note": "All matrices with a one, in all the layouts of the format. Findings: an all-zero matrix is written but cannot be read; the third reader compares the number of values with the number of rows but reads one per column."
  },
  {
   "property": "C34",
   "status": "proved",
   "theorems": [
    "C34_hard",
    "C34_soft",
    "C34_agree"
   ],
   "note": "All matrices, words and number types."
  },
  {
   "property": "C35",
   "status": "proved",
   "theorems": [
    "C35_sound",
    "C35_complete",
    "C35_info",
    "C35_soft",
    "C35_parity_not_checked",
    "C35_dangling_refuted",
    "C35_64_bits_refuted"
   ],
   "note": "All matrices, codewords, erasures, iterations and syndrome depths, with the erased element still in memory. Findings: vn_pos refers to an element that was erased (undefined by the standard); the 64-bit unknown symbol is 0; parity is not verified."
  },
  {
   "property": "C36",
   "status": "proved",
   "theorems": [
    "C36_new",
    "C36_identity",
    "C36_call",
    "C36_history",
    "C36_transpose_twice",
    "C36_resize_empty_refuted"
   ],
   "note": "All histories of calls (exceptions included), sizes below 2^31 and any outcome of std::sort. Finding: resizing to zero rows or columns dereferences the end of a vector."
  },
  {
   "property": "C37",
   "status": "proved",
   "theorems": [
    "C37_new",
    "C37_identity",
    "C37_call",
    "C37_history",
    "C37_resize",
    "C37_resize_parse",
    "C37_erase",
    "C37_erase_parse",
    "C37_resize_top_right_refuted",
    "C37_resize_counters_refuted",
    "C37_resize_parse_refuted",
    "C37_erase_counters_refuted"
   ],
   "note": "All histories and sizes. Findings: self_resize with the top right corner, more rows and fewer columns erases from the new rows (never rectangular); it gives as many column degrees as rows, so parse_connections writes out of bounds on a wide result; erase_row and erase_col leave the other counters stale."
  },
  {
   "property": "C38",
   "status": "proved",
   "theorems": [
    "C38_sparse_product",
    "C38_sparse_product_transposed",
    "C38_sparse_rejects",
    "C38_sparse_all_zeros",
    "C38_dense_product",
    "C38_dense_product_transposed",
    "C38_dense_rejects",
    "C38_dense_all_zeros",
    "C38_sparse_to_full",
    "C38_full_to_sparse",
    "C38_product_counters_refuted"
   ],
   "note": "All sizes and contents, sparse and dense, any register width. Finding: the degrees of a dense product are left at zero."
  },
  {
   "property": "C39",
   "status": "proved",
   "theorems": [
    "C39_mutual",
    "C39_shared",
    "C39_bind",
    "C39_unbind",
    "C39_chain_refuted",
    "C39_fast_refuted"
   ],
   "note": "All histories of the calls of Socket.hxx on any number of sockets; the owner tasks are not modelled."
  },
  {
   "property": "C40",
   "status": "partial",
   "theorems": [
    "C40_reset_partial",
    "C40_reset_refuted"
   ],
   "note": "False from three consumers on: reset iterates over the vector it erases from; on the usual implementations it detaches at most two consumers and throws for every larger number (the standard makes it undefined from one consumer on)."
  },
  {
   "property": "C41",
   "status": "proved",
   "theorems": [
    "C41_all",
    "C41_every_frame",
    "C41_one",
    "C41_zero_refuted",
    "C41_range"
   ],
   "note": "Not modelled: fast mode, statistics, debug output. The codelet may change the state of its module and read the previous outputs."
  },
  {
   "property": "C42",
   "status": "proved",
   "theorems": [
    "C42_history",
    "C42_new",
    "C42_set",
    "C42_failure_refuted",
    "C42_large_refuted",
    "C42_wave_bound_refuted"
   ],
   "note": "The subclasses' own set_n_frames overrides are not modelled."
  },
  {
   "property": "C43",
   "status": "proved",
   "theorems": [
    "C43_fifo",
    "C43_whole_items",
    "C43_round_robin",
    "C43_no_race",
    "C43_split_merge_order"
   ],
   "note": "Interleaving model of Adaptor_1_to_n and Adaptor_n_to_1 (copy mode), any schedule, spurious wake-ups and cancellations included; the no-copy mode is not modelled."
  },
  {
   "property": "C44",
   "status": "proved",
   "theorems": [
    "C44_blocked_means_full_or_empty",
    "C44_no_deadlock",
    "C44_work_ends",
    "C44_settles",
    "C44_no_lost_wakeup"
   ],
   "note": "Both waiting modes. Work steps exclude the turns of the active waiting loop; the bound of C44_work_ends is for schedules without spurious wake-ups."
  },
  {
   "property": "C45",
   "status": "proved",
   "theorems": [
    "C45_only_throws",
    "C45_released",
    "C45_awake",
    "C45_reset",
    "C45_other_clones_refuted"
   ],
   "note": "Finding: the cancellation flag is per clone, so cancel_waiting must be called on every clone (Pipeline does it); on one clone only, the others go on sleeping (refuted)."
  },
  {
   "property": "C46",
   "status": "proved",
   "theorems": [
    "C46_loop",
    "C46_commute",
    "C46_select",
    "C46_iterate",
    "C46_iterate_refuted"
   ],
   "note": "The graph of the loop is written as Sequence::init_recursive builds it; its execution follows exec_sequence. Copies are modelled, the no-copy mode is not."
  },
  {
   "property": "C47",
   "status": "proved",
   "theorems": [
    "C47_static",
    "C47_limit",
    "C47_limit_new",
    "C47_cyclic",
    "C47_int8_refuted"
   ],
   "note": "Paths below 128."
  },
  {
   "property": "C48",
   "status": "proved",
   "theorems": [
    "C48_call",
    "C48_call2",
    "C48_history",
    "C48_limits",
    "C48_reduce",
    "C48_reduce_counters",
    "C48_reduction_refused",
    "C48_rates"
   ],
   "note": "K and the bits of a call below 2^31. The wrong bits are those of C75."
  },
  {
   "property": "C49",
   "status": "proved",
   "theorems": [
    "C49_counts",
    "C49_total",
    "C49_merge",
    "C49_min_max",
    "C49_int"
   ],
   "note": "All histories of add, merge, assign and clear over any number of histograms."
  },
  {
   "property": "C50",
   "status": "proved",
   "theorems": [
    "C50_sort",
    "C50_destructive",
    "C50_new",
    "C50_max_refuted",
    "C50_size_refuted"
   ],
   "note": "Both partial_sort and partial_sort_destructive, with their default arguments, the growth of the sorter and every history of calls. Findings: with fewer than k metrics below numeric_limits::max() the same index is returned several times even when its metric is the smallest (C50_max_refuted); with a size that is not a power of two the last metrics are not looked at (C50_size_refuted). Metrics are integers (a float order without NaN); LC_sorter_simd is not modelled."
  },
  {
   "property": "C51",
   "status": "partial",
   "theorems": [
    "C51_sort",
    "C51_sort_several",
    "C51_unique_partial",
    "C51_unique_refuted",
    "C51_uniques_refuted"
   ],
   "note": "mutual_sort: all vectors and strict weak orders, stable, one or several companions. mutual_unique: characterised for all vectors; refuted as soon as there are two runs, since the last run is dropped, and with several companions the number of companions is cut instead of their length."
  },
  {
   "property": "C52",
   "status": "proved",
   "theorems": [
    "C52_closest",
    "C52_closest_float",
    "C52_empty_refuted"
   ],
   "note": "All non-empty sorted ranges, exact or floating-point subtraction. Finding: in an empty range the end is returned, which nearest_interpolation dereferences."
  },
  {
   "property": "C53",
   "status": "partial",
   "theorems": [
    "C53_apply",
    "C53_apply_static",
    "C53_rev_partial",
    "C53_rev_static_partial",
    "C53_round_trip_partial",
    "C53_rev_refuted"
   ],
   "note": "The interleaving is proved for every number of frames, every length, every power-of-two register width V and both the dynamic and the static class. The reverse operation and the round trip are proved when the number of frames n is not a power of two between 2 and V (scalar loop) or when log2 V mod log2 n is 0 or 1 (this covers n = V, the usual case). Refuted for every other n: frame 2 then receives the elements of frame 2^(log2 V mod log2 n); e.g. 8 frames with registers of 32 elements come back in the order 0 1 4 5 2 3 6 7. The AVX variant of the static forward core is not modelled."
  },
  {
   "property": "C54",
   "status": "proved",
   "theorems": [
    "C54_hard",
    "C54_fixed",
    "C54_float",
    "C54_unknown",
    "C54_unknown_whole",
    "C54_unknown_seq",
    "C54_negative_zero_refuted",
    "C54_unknown_tail_refuted",
    "C54_unknown_64_refuted"
   ],
   "note": "All lengths and register widths. Findings: the end of the vector loses its unknown marks; the negative zero is 1 in a register and 0 after; sat_val has no 64-bit case."
  },
  {
   "property": "C55",
   "status": "proved",
   "theorems": [
    "C55_new",
    "C55_levels",
    "C55_infinite",
    "C55_negative_refuted"
   ],
   "note": "Inputs are the numbers of precision prec (exponent unbounded); a NaN input is shown undefined (C55_infinite). Q of 8 or 16 bits; Quantizer_pow2_fast needs MIPP, which is not in the tree, and is not modelled."
  },
  {
   "property": "C56",
   "status": "partial",
   "theorems": [
    "C56_ebn0_meaning",
    "C56_esn0_meaning",
    "C56_partial",
    "C56_rounded_partial",
    "C56_sigma_meaning",
    "C56_sigma_decreasing",
    "C56_sigma_back",
    "C56_refuted"
   ],
   "note": "Es/N0 and Eb/N0 convert back exactly over the reals and, with rounding and any log10, within two half ulps; both are related by the number of information bits per symbol. Missing because false: Es/N0 to sigma and back, since sigma_to_esn0 lacks the factor 2 of esn0_to_sigma (C56_refuted, for every value). Real-number theorems use the axioms of the standard library's Reals."
  },
  {
   "property": "C57",
   "status": "proved",
   "theorems": [
    "C57_hard_std",
    "C57_hard_naive",
    "C57_signs",
    "C57_info",
    "C57_soft_std",
    "C57_soft_naive",
    "C57_fixed_std",
    "C57_fixed_naive",
    "C57_64_refuted",
    "C57_rounding_refuted",
    "C57_overflow_refuted"
   ],
   "note": "The encoder and the codeword test are arbitrary functions; the counter is expanded with the model of Bit_packer. Refuted: K = 64 (only the null message is tried), rounding ties, overflow (the output is the last frame's)."
  },
  {
   "property": "C58",
   "status": "proved",
   "theorems": [
    "C58_selection",
    "C58_assert",
    "C58_size",
    "C58_file",
    "C58_5G",
    "C58_BEC",
    "C58_GA",
    "C58_duplicate_refuted",
    "C58_truncated_refuted",
    "C58_range_refuted",
    "C58_K_refuted",
    "C58_length_refuted"
   ],
   "note": "std::sort is any function meeting its contract; the two channel-combination functions of BEC and GA are arbitrary. Refuted: duplicate or truncated file, channel out of range, K > N, N not a power of two."
  },
  {
   "property": "C59",
   "status": "proved",
   "theorems": [
    "C59",
    "C59_decoders",
    "C59_incomplete_refuted",
    "C59_length_refuted",
    "C59_longer_refuted"
   ],
   "note": "All pattern sets that are complete (as the SC and SCL decoders pass them), all frozen vectors of length 2^n and all histories of set_frozen_bits. Refuted outside."
  },
  {
   "property": "C60",
   "status": "proved",
   "theorems": [
    "C60",
    "C60_firsts_refuted",
    "C60_loop_refuted"
   ],
   "note": "Graphs without switchers (loops); the links are the bound sockets of C39. Cycles that contain no first task are allowed: their tasks are never ready."
  },
  {
   "property": "C61",
   "status": "partial",
   "theorems": [
    "C61_partial",
    "C61_refuted",
    "C61_new"
   ],
   "note": "False: the list of exceptions is never cleared, so every exec() after a failure runs its tasks normally and then throws the old exception again. Proved for the histories without exception."
  },
  {
   "property": "C62",
   "status": "proved",
   "theorems": [
    "C62_bits",
    "C62_fixed",
    "C62_float",
    "C62_lowest_refuted"
   ],
   "note": "All references and vectors. The lowest fixed-point value is its own opposite on 8 and 16 bits; the minus is undefined on 32 and 64 bits."
  },
  {
   "property": "C63",
   "status": "proved",
   "theorems": [
    "C63_stream",
    "C63_restart",
    "C63_rand",
    "C63_u64_refuted"
   ],
   "note": "All seeds and all numbers of draws. Finding: the 64-bit draw depends on the order in which the compiler evaluates the operands of |."
  },
  {
   "property": "C64",
   "status": "partial",
   "theorems": [
    "C64_interleaved_check_partial",
    "C64_check_rejects_build_refuted"
   ],
   "note": "The check is exact for the interleaved layout; build uses the frame-by-frame layout, so check rejects built waves (refuted)."
  },
  {
   "property": "C65",
   "status": "proved",
   "theorems": [
    "C65_kronecker",
    "C65_ctor",
    "C65_arikan",
    "C65_injective",
    "C65_singular_kernel_accepted_refuted"
   ],
   "note": "All kernels and stages. Finding: the constructor accepts kernels that are singular over GF(2)."
  },
  {
   "property": "C66",
   "status": "proved",
   "theorems": [
    "C66_mk_systematic"
   ],
   "note": "All self-inverse kernels, stage lists, closed sets and messages."
  },
  {
   "property": "C67",
   "status": "proved",
   "theorems": [
    "C67_encode",
    "C67_is_codeword",
    "C67_unique",
    "C67_info_pos",
    "C67_trellis_rcs1",
    "C67_trellis_rcs2",
    "C67_multiple_refuted"
   ],
   "note": "All lengths with a circulation state. Finding: for a multiple of 7 (15) couples every call reads outside of the table of circulation states (refuted for all such inputs)."
  },
  {
   "property": "C68",
   "status": "proved",
   "theorems": [
    "C68_encode",
    "C68_is_codeword"
   ],
   "note": "All lengths, lookup tables, messages and pairs of circuits with a circulation state."
  },
  {
   "property": "C69",
   "status": "proved",
   "theorems": [
    "C69_build_H",
    "C69_encode",
    "C69_tables",
    "C69_is_codeword"
   ],
   "note": "All tables with distinct addresses per line, in particular the 21 tables of the library, and all messages. The encoder has no H: its is_codeword always throws."
  },
  {
   "property": "C70",
   "status": "proved",
   "theorems": [
    "C70_closed",
    "C70_double",
    "C70_float_partial",
    "C70_float_refuted",
    "C70_draw"
   ],
   "note": "All words. Finding: randf_co and randf_oo return 1.0f for the 128 highest words, because the conversion to float rounds up to 2^32."
  },
  {
   "property": "C71",
   "status": "proved",
   "theorems": [
    "C71_linear",
    "C71_nearest",
    "C71_above_refuted"
   ],
   "note": "All tables. Finding: above the last abscissa *it is compared before it is tested against the end. Rational arithmetic."
  },
  {
   "property": "C72",
   "status": "proved",
   "theorems": [
    "C72_trapz_seq",
    "C72_rect",
    "C72_trapz_xy",
    "C72_cumul_xy",
    "C72_trapz_simd_refuted",
    "C72_rect_one_refuted"
   ],
   "note": "All sizes and register widths, in exact arithmetic. Finding: trapz_integral adds y[vec_loop_size] * step in excess, for any number of points."
  },
  {
   "property": "C73",
   "status": "proved",
   "theorems": [
    "C73_power",
    "C73_next_power",
    "C73_gcd",
    "C73_lcm",
    "C73_gcd_zero_refuted"
   ],
   "note": "All integers of a type of any width. Finding: the gcd of a and 0 is 1."
  },
  {
   "property": "C74",
   "status": "proved",
   "theorems": [
    "C74_given",
    "C74_auto",
    "C74_zero_refuted"
   ],
   "note": "Float numbers with an unbounded exponent, precision at least 20 bits (float and double), Q of 8 or 16 bits."
  },
  {
   "property": "C75",
   "status": "proved",
   "theorems": [
    "C75_two",
    "C75_one",
    "C75_unknown64_refuted"
   ],
   "note": "The narrow counters of the vector code and their flushes are modelled; the MIPP registers are lists of lanes."
  },
  {
   "property": "C76",
   "status": "partial",
   "theorems": [
    "C76_inner_partial",
    "C76_cumul_partial",
    "C76_single",
    "C76_last_refuted"
   ],
   "note": "False on the last line: with the default options, the line of the greatest value also counts the value before it."
  },
  {
   "property": "C77",
   "status": "proved",
   "theorems": [
    "C77_record",
    "C77_unrecord"
   ],
   "note": "Calls by one thread; beyond 2^32 the identifiers wrap."
  },
  {
   "property": "C78",
   "status": "proved",
   "theorems": [
    "C78_add",
    "C78_merge"
   ],
   "note": "Rationals instead of floats; the greatest value starts at 0 and the smallest at 1 as in the code."
  },
  {
   "property": "C79",
   "status": "partial",
   "theorems": [
    "C79_partial",
    "C79_refuted"
   ],
   "note": "True for one wave. False when the exception is raised after the first wave: the socket pointers stay on the wave that threw, and the next exec() reads and writes out of the memory of the sockets."
  },
  {
   "property": "C80",
   "status": "proved",
   "theorems": [
    "C80_exec",
    "C80_stop",
    "C80_ends"
   ],
   "note": "One iteration of a thread is a step; the flag is set and the exception recorded in two steps. Later calls after a failure: C61."
  },
  {
   "property": "C81",
   "status": "partial",
   "theorems": [
    "C81_partial",
    "C81_refuted"
   ],
   "note": "Leaves, types, extraction and later set_frozen_bits are the same; the copied tree is not (wrong node sizes, children without contents under terminal nodes)."
  },
  {
   "property": "C82",
   "status": "proved",
   "theorems": [
    "C82_order",
    "C82_mean",
    "C82_values"
   ],
   "note": "In exact arithmetic on rationals; the code computes with logarithms of these values in double precision."
  },
  {
   "property": "C83",
   "status": "partial",
   "theorems": [
    "C83_partial",
    "C83_none",
    "C83_fixed",
    "C83_refuted"
   ],
   "note": "Proved when some flips give a codeword (for every history), and for a decoder whose stored pattern is 0. Refuted otherwise: the best pattern of an earlier frame is applied again (best_test is never reset)."
  },
  {
   "property": "C84",
   "status": "partial",
   "theorems": [
    "C84_constructors",
    "C84_set_value",
    "C84_set_value_throws",
    "C84_set_values",
    "C84_copy",
    "C84_history_partial",
    "C84_rejected_stays_refuted",
    "C84_probability_refuted",
    "C84_listeners_refuted",
    "C84_copy_refuted",
    "C84_default_refuted"
   ],
   "note": "Proved for calls that do not throw and copies of valid sources. Missing because false: validity after an exception, of a probability set by set_value (its check is not const and does not override the virtual one), and of a copy from another type of noise."
  },
  {
   "property": "C85",
   "status": "proved",
   "theorems": [
    "C85_points",
    "C85_accuracy",
    "C85_strict_double",
    "C85_sizes",
    "C85_zero_step_refuted",
    "C85_negative_step_refuted",
    "C85_last_point_refuted",
    "C85_strict_refuted"
   ],
   "note": "Findings: infinite loop for a zero step, int overflow for a negative step on an increasing element, and in float 0:0.01:0.39 loses its last point because the scaled end is truncated."
  },
  {
   "property": "C86",
   "status": "proved",
   "theorems": [
    "C86_check_LUT"
   ],
   "note": ""
  },
  {
   "property": "C87",
   "status": "proved",
   "theorems": [
    "C87_constructor",
    "C87_flooding",
    "C87_cwd",
    "C87_cwd_refuted",
    "C87_last_iteration_refuted",
    "C87_degree_refuted"
   ],
   "note": "The messages are proved equal to those of the specification for any update rule and any rounding compatible with equality. Findings: connections is an array of unsigned char, so a variable of degree 257 loses a message (C87_degree_refuted); the last iteration never computes the syndrome."
  },
  {
   "property": "C88",
   "status": "proved",
   "theorems": [
    "C88_MS",
    "C88_OMS",
    "C88_NMS",
    "C88_AMS",
    "C88_NMS_integers",
    "C88_NMS_integers_refused",
    "C88_MS_rules"
   ],
   "note": "`computes` states it for every list of values and every index. SPA, LSPA and AMS with min*, which use transcendental functions, are not modelled."
  },
  {
   "property": "C89",
   "status": "proved",
   "theorems": [
    "C89_horizontal",
    "C89_horizontal_cwd",
    "C89_vertical",
    "C89_vertical_cwd_refuted"
   ],
   "note": "The vertical decoder adds the changes of the messages in the order the matrix stores them, so its float result is stated in exact arithmetic only. Finding: it never reports a failure."
  },
  {
   "property": "C90",
   "status": "proved",
   "theorems": [
    "C90_flooding",
    "C90_horizontal",
    "C90_vertical"
   ],
   "note": "C88_MS_rules shows that the rules meet the hypotheses of C90_flooding."
  },
  {
   "property": "C91",
   "status": "proved",
   "theorems": [
    "C91_flooding",
    "C91_horizontal",
    "C91_vertical",
    "C91_depth_refuted"
   ],
   "note": "Extrinsic values are equal as rationals. Finding: cur_syndrome_depth is not reset."
  },
  {
   "property": "C92",
   "status": "proved",
   "theorems": [
    "C92_pam",
    "C92_pam_refuted",
    "C92_qam",
    "C92_qam_odd_refuted",
    "C92_qam_one_refuted",
    "C92_psk",
    "C92_user_refuted"
   ],
   "note": "Over the real numbers (axioms of Reals). The exceptions of the statement are proved as the _refuted theorems: odd QAM sizes, 16-bit and 0-bit PAM, is_complex of user constellations."
  },
  {
   "property": "C93",
   "status": "proved",
   "theorems": [
    "C93_modulate",
    "C93_size_refuted"
   ],
   "note": "Size limit 2^24 of the statement shown necessary by C93_size_refuted."
  },
  {
   "property": "C94",
   "status": "proved",
   "theorems": [
    "C94_max_log",
    "C94_decision",
    "C94_noiseless",
    "C94_float_signs",
    "C94_noiseless_gains",
    "C94_unit_gains"
   ],
   "note": "tools::max; exact rational arithmetic for the values, any sign-keeping rounding for the noiseless case (overflow and underflow not modelled). C94_example is an instance."
  },
  {
   "property": "C95",
   "status": "proved",
   "theorems": [
    "C95_history",
    "C95_filter_refuted",
    "C95_filter_general_refuted"
   ],
   "note": "The exception (filter) is proved in general and on a concrete run."
  },
  {
   "property": "C96",
   "status": "proved",
   "theorems": [
    "C96_max_log",
    "C96_no_prior",
    "C96_extrinsic",
    "C96_padding_refuted"
   ],
   "note": "Finite a priori values; tools::max (C96_extrinsic: any maximum and rounding)."
  },
  {
   "property": "C97",
   "status": "proved",
   "theorems": [
    "C97_complex",
    "C97_real_refuted"
   ],
   "note": "The property is stated for complex constellations; C97_real_refuted shows that for real ones every run whose size is a multiple of the register and more than one symbol leaves the buffer. C97_real_example is an instance."
  },
  {
   "property": "C98",
   "status": "proved",
   "theorems": [
    "C98_modulate",
    "C98_demodulate",
    "C98_noiseless",
    "C98_generic",
    "C98_filter_refuted"
   ],
   "note": ""
  },
  {
   "property": "C99",
   "status": "partial",
   "theorems": [
    "C99_modulate",
    "C99_erasure",
    "C99_bsc",
    "C99_awgn_value",
    "C99_awgn_partial",
    "C99_awgn_refuted"
   ],
   "note": "The modulation, the erasure channel, the symmetric channel (on real numbers) and the sign on the Gaussian channel are proved. The value on the Gaussian channel is false: the code multiplies by 2 sigma^2 instead of dividing, so the LLR is right only when 4 sigma^4 = 1 (C99_awgn_refuted)."
  }
 ]
}