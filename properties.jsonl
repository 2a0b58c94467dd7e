{"id": "C01", "title": "De-interleaving undoes interleaving", "statement": "For every look-up table that is a permutation of 0..size-1, deinterleave(interleave(x)) = x and interleave(deinterleave(x)) = x for every frame buffer x, whatever the number of frames, in the frame-by-frame layout, and in the frame-reordered layout when all frames fit in one wave (with several waves the reordered layout leaves the wave buffers: the claim is refuted there); every element is moved, none duplicated.", "quantifier": "all permutations, sizes, frame counts, buffers (any element type), uniform and non-uniform cores, reordered layout or not", "why_tests_cant": "The set of permutations and buffers is infinite; tests sample a few sizes.", "anchors": ["include/Module/Interleaver/Interleaver.hxx:_interleave", "include/Module/Interleaver/Interleaver.hxx:_interleave_reordering", "include/Tools/Interleaver/Interleaver_core.hxx:refresh"]}
{"id": "C02", "title": "Generic interleaver generators always give permutations", "statement": "The table built by the NO, Row_column, Column_row, Random, Golden and Random_column interleaver generators is a permutation of 0..size-1 for every accepted size whose indices fit in the element type (a larger size is accepted but gives no permutation: refuted there), every read order and every outcome of the random generator; Column_row is the inverse of Row_column for the same read order; the inverse table exposed by the core is the exact inverse.", "quantifier": "all sizes (and row/column splits), read orders, random draws", "why_tests_cant": "Depends on every size and every random seed.", "anchors": ["src/Tools/Interleaver/Row_column/Interleaver_core_row_column.cpp:gen_lut", "src/Tools/Interleaver/Column_row/Interleaver_core_column_row.cpp:gen_lut", "src/Tools/Interleaver/Random/Interleaver_core_random.cpp:gen_lut", "src/Tools/Interleaver/Golden/Interleaver_core_golden.cpp:gen_lut", "src/Tools/Interleaver/Random_column/Interleaver_core_random_column.cpp:gen_lut", "src/Tools/Interleaver/NO/Interleaver_core_NO.cpp:gen_lut"]}
{"id": "C03", "title": "Standardised interleavers are permutations", "statement": "For every block size in the built-in tables (LTE QPP, CCSDS, DVB-RCS1, DVB-RCS2) the generated look-up table is a permutation of 0..size-1, except DVB-RCS2 size 1777 for which this is refuted.", "quantifier": "all tabulated sizes and, for each, all positions (universally quantified congruence argument for the polynomial families)", "why_tests_cant": "Exhaustive tests of every position of each of the >200 sizes are not in the suite, and the algebraic criterion (Chinese remainders) must hold for all indices.", "anchors": ["src/Tools/Interleaver/LTE/Interleaver_core_LTE.cpp:gen_lut", "src/Tools/Interleaver/CCSDS/Interleaver_core_CCSDS.cpp:gen_lut", "src/Tools/Interleaver/ARP/Interleaver_core_ARP_DVB_RCS1.cpp:gen_lut", "src/Tools/Interleaver/ARP/Interleaver_core_ARP_DVB_RCS2.cpp:gen_lut"]}
{"id": "C04", "title": "User interleavers are validated", "statement": "A user-supplied interleaver file is accepted exactly when every one of its tables has the announced size and is a permutation; an accepted interleaver always yields permutation tables. (A file that ends before its announced size makes the reader use an uninitialised value: refuted there.)", "quantifier": "all files (sequences of numbers), sizes, numbers of tables", "why_tests_cant": "The set of input files is unbounded.", "anchors": ["src/Tools/Interleaver/User/Interleaver_core_user.cpp:Interleaver_core_user"]}
{"id": "C05", "title": "Bit packing round trip", "statement": "Unpacking what was packed gives the original bits back (every non-zero input counted as 1), for both bit orders, every number of bits per symbol not exceeding the symbol width, every bit count including a partial last symbol, and every number of frames of at most 2^24 bits (or one frame of any length), when the buffers are large enough; packing yields symbols below 2^Nbps. (Longer multi-frame calls overlap, and the vector interface accepts too small buffers: refuted there.)", "quantifier": "all bit vectors, bit orders, symbol sizes, packing widths, frame counts", "why_tests_cant": "Sizes and contents are unbounded; the partial last symbol and msb shift depend on all residues.", "anchors": ["include/Tools/Algo/Bit_packer.hxx:pack", "include/Tools/Algo/Bit_packer.hxx:unpack"]}
{"id": "C06", "title": "In-place multi-frame unpack", "statement": "The in-place unpack(vec, n_bits, n_frames) reproduces, for each frame, the bits that were packed there and never reads outside its buffers.", "quantifier": "all frame counts, bit counts and buffers", "why_tests_cant": "Needs a statement on all frame counts; with one frame everything works.", "anchors": ["include/Tools/Algo/Bit_packer.hxx:unpack"]}
{"id": "C07", "title": "CRC accepts what it builds and extraction undoes build", "statement": "check(build(u)) is true and extract(build(u)) = u for every message, polynomial and CRC size up to 32 (a larger size shifts out of the 32-bit key, which is undefined); the CRC of a message is the remainder of message*x^size by the generator polynomial over GF(2), hence linear.", "quantifier": "all messages, message lengths, CRC polynomials and degrees", "why_tests_cant": "Unbounded message lengths and polynomials.", "anchors": ["src/Module/CRC/Polynomial/CRC_polynomial.cpp:_generate", "src/Module/CRC/Polynomial/CRC_polynomial.cpp:_check", "src/Module/CRC/Polynomial/CRC_polynomial.cpp:_build", "src/Module/CRC/Polynomial/CRC_polynomial.cpp:_extract"]}
{"id": "C08", "title": "The fast CRC equals the reference CRC", "statement": "The byte-wise, 32-bit-word and table-driven CRC computations all produce the same CRC as the bit-by-bit long division, for every message length (including lengths not multiple of 8 or 32), so build and check of the fast module agree with the standard module.", "quantifier": "all messages, lengths, polynomials of degree up to 32", "why_tests_cant": "Equivalence over all inputs of three algorithms; a test compares only sampled messages.", "anchors": ["src/Module/CRC/Polynomial/CRC_polynomial_fast.cpp:compute_crc_v1", "src/Module/CRC/Polynomial/CRC_polynomial_fast.cpp:compute_crc_v2", "src/Module/CRC/Polynomial/CRC_polynomial_fast.cpp:compute_crc_v3", "src/Module/CRC/Polynomial/CRC_polynomial.cpp:_generate"]}
{"id": "C09", "title": "CRC detects every burst up to its size", "statement": "If the generator polynomial has a constant term 1, then any non-zero error pattern confined to a window of at most `size` consecutive bits applied to a built frame makes check return false; more generally check(v xor e) = false iff e is not a multiple of the generator. Every polynomial of the built-in database has a constant term 1 and fits its size.", "quantifier": "all messages, all error patterns, burst positions and polynomials", "why_tests_cant": "Universal over messages and burst positions.", "anchors": ["src/Module/CRC/Polynomial/CRC_polynomial.cpp:_check"]}
{"id": "C10", "title": "Packed CRC check", "statement": "check_packed on the packed form of a built frame answers like check on the unpacked frame, and reads no bit outside the buffer.", "quantifier": "all messages, CRC sizes", "why_tests_cant": "Quantifies over every frame size; memory safety is not observable by value tests.", "anchors": ["src/Module/CRC/Polynomial/CRC_polynomial.cpp:_check_packed", "include/Tools/Algo/Bit_packer.hxx:unpack"]}
{"id": "C11", "title": "Polar encoder is the Arikan transform", "statement": "For N a power of two the polar encoder computes the N x N Kronecker-power transform: output bit i is the xor of the inputs j that contain i bitwise (j's bits include i's bits); it is linear and its own inverse; information bits are placed in order in the non-frozen positions, frozen positions carry 0.", "quantifier": "all N = 2^n, input vectors, frozen-bit patterns", "why_tests_cant": "Unbounded n and all 2^N inputs.", "anchors": ["src/Module/Encoder/Polar/Encoder_polar.cpp:light_encode", "src/Module/Encoder/Polar/Encoder_polar.cpp:convert", "src/Module/Encoder/Polar/Encoder_polar.cpp:_encode"]}
{"id": "C12", "title": "Systematic polar encoding is systematic", "statement": "For frozen sets closed under bitwise domination, the systematic polar encoder outputs a codeword of the polar code that carries the information bits, in order, at the positions advertised by get_info_bits_pos.", "quantifier": "all N = 2^n, all domination-closed frozen sets, all messages", "why_tests_cant": "Depends on a structural condition on the frozen set that no finite set of tests covers.", "anchors": ["src/Module/Encoder/Polar/Encoder_polar_sys.cpp:_encode", "src/Module/Encoder/Polar/Encoder_polar_sys.cpp:convert"]}
{"id": "C13", "title": "Polar is_codeword is exact", "statement": "When the last position is not frozen, is_codeword(x) is true iff x is the encoding of some message; whatever the frozen set, every encoding of a message is accepted. (When the last position is frozen, some non-codewords are accepted: refuted there.)", "quantifier": "all x of length N = 2^n, all frozen sets", "why_tests_cant": "Soundness and completeness over 2^N words.", "anchors": ["src/Module/Encoder/Polar/Encoder_polar.cpp:is_codeword"]}
{"id": "C14", "title": "Successive-cancellation decoder returns a codeword and is exact without noise", "statement": "The naive SC decoder always returns an information word whose re-encoding equals the codeword it outputs (frozen positions are decided 0), and decodes every noiseless codeword (LLR signs matching, non-zero magnitudes) to the transmitted message, for exact LLRs and for saturated 8-bit and 16-bit LLRs other than the most negative value of the type (refuted there).", "quantifier": "all N = 2^n, frozen sets, LLR vectors (first part) and messages and magnitudes (second part)", "why_tests_cant": "All real LLR vectors and all tree depths.", "anchors": ["include/Module/Decoder/Polar/SC/Decoder_polar_SC_naive.hxx:recursive_decode", "include/Tools/Code/Polar/decoder_polar_functions.hxx"]}
{"id": "C15", "title": "Shortening puncturer for polar codes", "statement": "When the last N_cw-N positions of u are frozen, the corresponding code bits are 0 for every message, puncturing drops only those, and depuncturing restores the kept LLRs and fills the shortened ones with a maximum-reliability 0; the frozen bits it generates free exactly the K best channels below N, and encode, puncture, noiseless channel, depuncture, SC decode gives the message back.", "quantifier": "all N <= N_cw = 2^n, messages and LLRs", "why_tests_cant": "Unbounded sizes.", "anchors": ["src/Module/Puncturer/Polar/Puncturer_polar_shortlast.cpp:_puncture", "src/Module/Puncturer/Polar/Puncturer_polar_shortlast.cpp:_depuncture"]}
{"id": "C16", "title": "Turbo puncturer", "statement": "puncture keeps, in order, exactly the bits selected by the periodic pattern plus all tail bits; depuncture puts every received value at the position it was taken from and 0 elsewhere; hence puncture(depuncture(y)) = y and depuncture(puncture(x)) agrees with x on kept positions; the announced N is the number of kept bits; no access is out of bounds. (With the buffered layout this is for tail lengths that are a multiple of 4; for others it is refuted: output bits are left unwritten.)", "quantifier": "all K, tail lengths, patterns and layouts the constructor accepts", "why_tests_cant": "All patterns and sizes.", "anchors": ["src/Module/Puncturer/Turbo/Puncturer_turbo.cpp:_puncture", "src/Module/Puncturer/Turbo/Puncturer_turbo.cpp:_depuncture", "src/Module/Puncturer/Turbo/Puncturer_turbo.cpp:compute_N"]}
{"id": "C17", "title": "LDPC puncturer", "statement": "Same contract for the LDPC block puncturer: blocks with a pattern bit 1 are kept in order, the announced N is their total size, and depuncturing is a right inverse filling 0 in the other blocks. (When the codeword length is not a multiple of the pattern length, the positions after the last block are not filled: refuted there.) Without puncturing the frame is copied.", "quantifier": "all patterns, block sizes and buffers", "why_tests_cant": "All patterns and sizes.", "anchors": ["src/Module/Puncturer/LDPC/Puncturer_LDPC.cpp:_puncture", "src/Module/Puncturer/LDPC/Puncturer_LDPC.cpp:_depuncture"]}
{"id": "C18", "title": "Double-binary turbo puncturer stays in bounds", "statement": "For every K and N the constructor accepts, puncture keeps the positions of the pattern of the rate, it is in bounds exactly when these positions exist in the codeword and are at most N, and then depuncture puts the values back and 0 elsewhere, so that puncture after depuncture is the identity. This is always the case when the group size of the pattern divides K and N is K over the rate. (The constructor also accepts pairs (K, N) for which puncture accesses memory out of bounds: refuted there.)", "quantifier": "all accepted (K, N) pairs", "why_tests_cant": "The accepted set is infinite and the failing pairs are off the standard sizes.", "anchors": ["src/Module/Puncturer/Turbo_DB/Puncturer_turbo_DB.cpp:_puncture", "src/Module/Puncturer/Turbo_DB/Puncturer_turbo_DB.cpp:_depuncture"]}
{"id": "C19", "title": "RSC encoder terminates, is systematic and self-consistent", "statement": "For every pair of generator polynomials and every message length the constructor accepts, the recursive systematic convolutional encoder never throws and outputs the unique word of the terminated code (the pairs of polynomials (w*p0, w*p1) over GF(2) with w of degree below K) that carries the message at the published positions, in both layouts; encoding is linear; is_codeword accepts exactly the words of that code; the trellis handed to the decoders lists exactly the transitions and parities of the encoder. The same holds for the CPE encoder with its own circuit.", "quantifier": "all memory sizes, generator polynomials, message lengths, contents and layouts", "why_tests_cant": "All states, inputs and lengths.", "anchors": ["src/Module/Encoder/RSC/Encoder_RSC_sys.cpp:__encode", "src/Module/Encoder/RSC/Encoder_RSC_generic_sys.cpp:inner_encode", "src/Module/Encoder/RSC/Encoder_RSC_generic_sys.cpp:tail_bit_sys", "src/Module/Encoder/RSC/Encoder_RSC_sys.cpp:is_codeword"]}
{"id": "C20", "title": "Turbo encoder layout", "statement": "With buffered constituent encoders, the turbo encoder outputs the constituent codeword of the message followed by the redundancy of the constituent codeword of the interleaved message; the first K positions are the message; is_codeword accepts exactly those words and the message determines the word. The legacy encoder has the same property in its own layout. (The constructor accepts unbuffered constituents, for which the encoder rejects its own output; refuted there.)", "quantifier": "all K, pairs of constituent polynomials, lookup tables and messages", "why_tests_cant": "All permutations and messages.", "anchors": ["src/Module/Encoder/Turbo/Encoder_turbo.cpp:_encode", "src/Module/Encoder/Turbo/Encoder_turbo.cpp:is_codeword", "src/Module/Encoder/Turbo/Encoder_turbo_legacy.cpp:_encode"]}
{"id": "C21", "title": "Repeat-accumulate encoder", "statement": "The RA encoder outputs the running xor of the interleaved repetition of the message and is linear and, for a permutation, injective.", "quantifier": "all K, repetition factors, permutations and messages", "why_tests_cant": "All sizes.", "anchors": ["src/Module/Encoder/RA/Encoder_RA.cpp:_encode"]}
{"id": "C22", "title": "Repetition code", "statement": "The repetition encoder emits each bit N/K times in the layout selected, with the message at the published positions; is_codeword accepts exactly those words; the two repetition decoders decide each bit by the sign of the sum, in the LLR type, of its LLRs; as long as these sums do not overflow this is the maximum-likelihood decision; on noiseless LLRs the message is returned, for unbounded and for saturating arithmetic. (On 8 or 16 bits the standard decoder wraps around and returns wrong bits for noiseless LLRs, and saturation makes the fast decoder differ from maximum likelihood; refuted there.)", "quantifier": "all K, repetition factors, both layouts, register widths, all messages and LLRs", "why_tests_cant": "All sizes and values.", "anchors": ["src/Module/Encoder/Repetition/Encoder_repetition_sys.cpp:_encode", "src/Module/Encoder/Repetition/Encoder_repetition_sys.cpp:is_codeword", "src/Module/Decoder/Repetition/Decoder_repetition.cpp", "src/Module/Decoder/Repetition/Decoder_repetition_std.cpp", "src/Module/Decoder/Repetition/Decoder_repetition_fast.cpp"]}
{"id": "C23", "title": "Galois-field tables", "statement": "For every order 2^m (2<=m<=20), element type wider than m bits and primitive polynomial p (or none given, which selects a default one that is primitive), the exponential table holds the powers of x modulo p, the logarithm table is its inverse on the non-zero elements (and -1 at zero), and adding logarithms modulo 2^m-1 is the multiplication of GF(2)[x]/(p). (With an element type of exactly m bits the constructor is not refused and accesses memory out of bounds; a non-primitive polynomial is accepted and the tables are not inverse: refuted there.)", "quantifier": "all m in 2..20, all primitive polynomials, all elements", "why_tests_cant": "Up to 2^20 elements per field, algebraic laws over all pairs.", "anchors": ["src/Tools/Math/Galois.cpp:generate_gf", "src/Tools/Math/Galois.cpp:select_polynomial"]}
{"id": "C24", "title": "BCH encoder", "statement": "For every field GF(2^m) (2<=m<=20, primitive polynomial) and every t with 2t < 2^m-1, the BCH generator polynomial is the shortest non-zero binary polynomial with the roots x, x^2, ..., x^(2t). For every K the encoder built on it outputs a word with these roots whose bits at the advertised information positions (the last K) are the message; that word is the only one; encoding is linear; is_codeword accepts exactly the words with these roots.", "quantifier": "all fields, correction powers t, message sizes K and messages", "why_tests_cant": "All messages.", "anchors": ["src/Tools/Code/BCH/BCH_polynomial_generator.cpp:compute_polynomial", "src/Module/Encoder/BCH/Encoder_BCH.cpp:__encode", "src/Module/Encoder/BCH/Encoder_BCH.cpp:is_codeword"]}
{"id": "C25", "title": "BCH decoding corrects up to t errors", "statement": "For every BCH code over GF(2^m) with 2t < 2^m-1, length 2^(m-1) <= N < 2^m and 2tN < 2^31, every received word and every history of previous calls, the decoder returns normally; if some codeword is at distance at most t it reports a success and returns that codeword (its message for decode_hiho); a failure leaves the word unchanged; and for the full length a success means that the result is a codeword at distance at most t. (For N < 2^(m-1), and a success in a shortened code: refuted there.)", "quantifier": "all fields, codes, received words and sequences of calls", "why_tests_cant": "Combinatorially many error patterns.", "anchors": ["src/Module/Decoder/BCH/Standard/Decoder_BCH_std.cpp:_decode"]}
{"id": "C26", "title": "Reed-Solomon encoder and decoder", "statement": "For every RS code over GF(2^m) with 2t < 2^m-1, symbols narrower than the element type and full length N = 2^m-1, the encoder outputs the unique codeword (a polynomial with roots alpha..alpha^2t) ending with the message and is_codeword is exact; codewords differ in at least 2t+1 symbols; and for every history of calls, the decoder returns normally, a word within t symbols of a codeword is decoded to that codeword (its message for decode_hiho) with a success, and a success means that the result is a codeword within t symbols. The decoder also handles shortened codes for words within t symbols of a codeword. (Shortened codes in the encoder, other words in a shortened code, and symbols as wide as the type: refuted there.)", "quantifier": "all m, t, messages and error patterns", "why_tests_cant": "Combinatorially many error patterns.", "anchors": ["src/Module/Encoder/RS/Encoder_RS.cpp:__encode", "src/Module/Decoder/RS/Standard/Decoder_RS_std.cpp:_decode"]}
{"id": "C27", "title": "RS information-bit positions", "statement": "The bits of an RS codeword at the positions advertised by get_info_bits_pos are the message bits.", "quantifier": "all RS codes and messages", "why_tests_cant": "Requires the statement for all messages; only consumers of the positions notice.", "anchors": ["src/Module/Encoder/RS/Encoder_RS.cpp:Encoder_RS"]}
{"id": "C28", "title": "LDPC encoder output has zero syndrome", "statement": "For every message the output of the LDPC encoder built from a generator orthogonal to H satisfies every check of H, encoding is linear, and is_codeword is true exactly on words with zero syndrome.", "quantifier": "all matrices, messages", "why_tests_cant": "All matrices and messages.", "anchors": ["src/Module/Encoder/LDPC/Encoder_LDPC.cpp:_encode", "src/Module/Encoder/LDPC/Encoder_LDPC.cpp:is_codeword", "include/Tools/Code/LDPC/Syndrome/LDPC_syndrome.hxx:check_hard"]}
{"id": "C29", "title": "Generator from parity matrix by inversion", "statement": "When the square right part of H is invertible, the LU-based construction returns a generator in systematic form orthogonal to H; when it is singular it throws rather than returning a wrong generator; the inversion routine returns the inverse.", "quantifier": "all binary matrices of all sizes", "why_tests_cant": "All matrices.", "anchors": ["src/Tools/Code/LDPC/Matrix_handler/LDPC_matrix_handler.cpp:LU_decomp", "src/Tools/Code/LDPC/Matrix_handler/LDPC_matrix_handler.cpp:transform_H_to_G_decomp_LU"]}
{"id": "C30", "title": "Generator from parity matrix by diagonalisation", "statement": "The identity-based construction returns G with G.H^T = 0 and identity at the announced information positions, using only defined operations.", "quantifier": "all full-rank binary H", "why_tests_cant": "All matrices.", "anchors": ["src/Tools/Code/LDPC/Matrix_handler/LDPC_matrix_handler.cpp:transform_H_to_G_identity", "src/Tools/Algo/Matrix/Full_matrix/Full_matrix.cpp:self_resize"]}
{"id": "C31", "title": "Structured LDPC encoders", "statement": "The IRA encoder (H with a dual-diagonal parity part) and the quasi-cyclic encoder (H with an invertible parity part, otherwise its construction throws) produce, for every message, a systematic word satisfying every check of their H, which their is_codeword accepts. (The IRA constructor does not check the structure of H: with another H it silently outputs words that are not codewords; refuted there.)", "quantifier": "all IRA / QC parity matrices and messages", "why_tests_cant": "All matrices and messages.", "anchors": ["src/Module/Encoder/LDPC/From_IRA/Encoder_LDPC_from_IRA.cpp:_encode", "src/Module/Encoder/LDPC/From_QC/Encoder_LDPC_from_QC.cpp:_encode"]}
{"id": "C32", "title": "Quasi-cyclic expansion", "statement": "Reading a QC file (comments and blank lines anywhere) gives the block matrix in which an entry 0 <= a < 2^15 becomes the identity cyclically shifted by a and the entry -1 the zero block; each check has as many ones as there are entries other than -1 in its base row; the announced size is that of the matrix; a line after the base matrix is read as the puncturing pattern. (Other negative entries and entries from 2^15 on are accepted and give wrong blocks: refuted there.)", "quantifier": "all QC files, base matrices and expansion factors whose expanded sizes fit 32 bits", "why_tests_cant": "All sizes, shifts and layouts of the file.", "anchors": ["src/Tools/Code/LDPC/QC/QC.cpp:read", "src/Tools/Code/LDPC/QC/QC.cpp:read_pct_pattern", "src/Tools/Code/LDPC/Matrix_handler/LDPC_matrix_handler.cpp:read"]}
{"id": "C33", "title": "AList round trip", "statement": "What is written for a matrix with at least one 1 is an AList file of this matrix, with or without zero padding, and reading any AList file of such a matrix (comments, blank lines, empty rows or columns, with or without padding) yields the matrix; positions of information bits written after the matrix are read back, and none are found when none were written. (An all-zero matrix is written but refused when read, and a truncated file makes the last reader look outside of its line: refuted there.)", "quantifier": "all sparse matrices with a one, files and lists of distinct positions", "why_tests_cant": "All matrices and layouts of the file.", "anchors": ["src/Tools/Code/LDPC/AList/AList.cpp:write", "src/Tools/Code/LDPC/AList/AList.cpp:read"]}
{"id": "C34", "title": "Syndrome check is exact", "statement": "The hard (resp. soft) syndrome test is true iff every parity equation holds on the given bits (resp. on the signs of the LLRs).", "quantifier": "all matrices and words", "why_tests_cant": "All matrices and words.", "anchors": ["include/Tools/Code/LDPC/Syndrome/LDPC_syndrome.hxx:check_hard", "include/Tools/Code/LDPC/Syndrome/LDPC_syndrome.hxx:check_soft"]}
{"id": "C35", "title": "Peeling decoder is sound on erasures", "statement": "If the received word is a codeword with some positions erased, every bit the peeling decoder fills in equals the transmitted bit, received positions are kept, and success implies that every variable of a check is known; with more iterations than erasures the positions left unknown are exactly those of the stopping sets of erased positions, and success is equivalent to no such position being in a check. (The decoder reads a reference to an erased element, does not verify parity, and on 64 bits confuses the unknown symbol with the bit 0: refuted there.)", "quantifier": "all parity matrices, codewords and erasure patterns, any number of iterations", "why_tests_cant": "All erasure patterns.", "anchors": ["src/Module/Decoder/LDPC/BP/Peeling/Decoder_LDPC_BP_peeling.cpp:_decode"]}
{"id": "C36", "title": "Sparse matrix keeps its two views consistent", "statement": "After any sequence of add_connection, rm_connection, transpose, resize and sort operations, row and column adjacency lists describe the same set of ones with no duplicates, the connection count and maximal degrees are exact, and at(r,c) reports membership; transposing twice is the identity (resizing to an empty matrix refuted there).", "quantifier": "all operation histories and matrix sizes below 2^31", "why_tests_cant": "All histories.", "anchors": ["src/Tools/Algo/Matrix/Sparse_matrix/Sparse_matrix.cpp:add_connection", "src/Tools/Algo/Matrix/Sparse_matrix/Sparse_matrix.cpp:rm_connection", "src/Tools/Algo/Matrix/Sparse_matrix/Sparse_matrix.cpp:self_transpose", "src/Tools/Algo/Matrix/Sparse_matrix/Sparse_matrix.cpp:self_resize"]}
{"id": "C37", "title": "Dense matrix keeps its shape", "statement": "After any sequence of add_connection, rm_connection, transpose, turn, sort_cols_per_density and parse_connections a full binary matrix is the expected one, with exact degrees and number of ones; resizing keeps the entries of the chosen corner and erasing rows or columns keeps the others, after which parse_connections makes the counters exact (refuted there: resizing with the top right corner to more rows and fewer columns, counters after a resize to a non-square size, counters after an erasure without parse_connections).", "quantifier": "all operation histories and sizes", "why_tests_cant": "All histories.", "anchors": ["src/Tools/Algo/Matrix/Full_matrix/Full_matrix.cpp:self_resize", "src/Tools/Algo/Matrix/Full_matrix/Full_matrix.cpp:self_transpose", "src/Tools/Algo/Matrix/Full_matrix/Full_matrix.cpp:sort_cols_per_density"]}
{"id": "C38", "title": "Binary matrix products", "statement": "bgemm and bgemmt compute the GF(2) product A.B and A.B^T for all conformable sparse or full matrices and reject non-conformable ones, all_zeros is exact, and sparse_to_full and full_to_sparse keep the matrix (degrees of a full product refuted there).", "quantifier": "all matrices", "why_tests_cant": "All sizes and contents.", "anchors": ["src/Tools/Algo/Matrix/matrix_utils.cpp:bgemm", "include/Tools/Algo/Matrix/matrix_utils.hxx:bgemmt", "include/Tools/Algo/Matrix/matrix_utils.hxx:full_to_sparse"]}
{"id": "C39", "title": "Socket bindings stay mutually consistent", "statement": "After any sequence of calls (bind, unbind, reset, bind to memory, setters, failing ones included), socket A is bound to producer B iff B lists A exactly once among its consumers; bind succeeds exactly on compatible sockets, puts the consumer at its priority, and changes nothing when it fails; with inputs bound to outputs outside of the fast mode, bound sockets have equal type and size and share the producer's memory. (Binding an input that already feeds other sockets, or the fast mode, breaks the sharing; refuted there.)", "quantifier": "all histories of bind/unbind over any number of sockets", "why_tests_cant": "All call histories.", "anchors": ["include/Module/Socket.hxx:bind", "include/Module/Socket.hxx:unbind"]}
{"id": "C40", "title": "Socket reset detaches every consumer", "statement": "reset() on a producer leaves no consumer bound to it, whatever the number of consumers, and has no undefined behaviour.", "quantifier": "all numbers of bound consumers", "why_tests_cant": "All fan-outs; the defect is invisible for small fan-outs.", "anchors": ["include/Module/Socket.hxx:reset"]}
{"id": "C41", "title": "Task execution processes every frame exactly once", "statement": "exec() over all frames calls a frame-wise codelet once per wave, in order, until a wave asks to stop, so that output frame f equals the codelet applied to input frame f for every executed wave, the other frames, the inputs and the socket pointers being left as they were, for every number of frames and frames per wave including a partial last wave; exec(frame_id) touches only that frame (for frame 0 it computes the whole first wave: refuted there) and refuses a frame out of range.", "quantifier": "all n_frames, n_frames_per_wave, frame ids, codelets acting frame-wise", "why_tests_cant": "All size combinations.", "anchors": ["src/Module/Task.cpp:_exec", "src/Module/Task.cpp:exec"]}
{"id": "C42", "title": "Module frame bookkeeping", "statement": "After any sequence of set_n_frames / set_n_frames_per_wave / set_single_wave calls that succeed, with sizes up to 2^24, n_waves = ceil(n_frames / n_frames_per_wave), the rest is n_frames mod n_frames_per_wave, and every socket and status of every task has the size of n_frames frames and n_waves waves. (Beyond 2^24 frames the number of waves is wrong; n_frames_per_wave may exceed n_frames; a call that fails on a bound socket leaves the new number of frames with the old sizes: refuted there.)", "quantifier": "all call histories and sizes", "why_tests_cant": "All histories and sizes up to the word width.", "anchors": ["src/Module/Module.cpp:set_n_frames", "src/Module/Module.cpp:set_n_frames_per_wave", "src/Module/Module.cpp:set_single_wave"]}
{"id": "C43", "title": "Pipeline adaptors deliver every item once, in order", "statement": "Under every interleaving of the producer and consumer threads, the items pulled from the adaptor queues are exactly the items pushed, in FIFO order per queue and round-robin across queues, no slot is overwritten before being read, and splitting 1-to-n then merging n-to-1 preserves the global order.", "quantifier": "all thread schedules, numbers of threads, buffer sizes >= 1, stream lengths", "why_tests_cant": "Exponentially many schedules.", "anchors": ["src/Module/Adaptor/Adaptor_1_to_n.cpp:push_1", "src/Module/Adaptor/Adaptor_1_to_n.cpp:pull_n", "src/Module/Adaptor/Adaptor_n_to_1.cpp:push_n", "src/Module/Adaptor/Adaptor_n_to_1.cpp:pull_1", "include/Module/Adaptor/Adaptor.hxx"]}
{"id": "C44", "title": "Pipeline adaptors do not deadlock", "statement": "With either active or passive waiting, no schedule reaches a state where all threads are blocked while there is still data to move: a blocked producer always has a full queue and a blocked consumer an empty one, and every wake-up needed is sent (no lost wake-up).", "quantifier": "all schedules, both waiting modes, all sizes", "why_tests_cant": "Exponentially many schedules; lost wake-ups are timing dependent.", "anchors": ["src/Module/Adaptor/Adaptor_1_to_n.cpp:push_1", "src/Module/Adaptor/Adaptor_1_to_n.cpp:pull_n", "src/Module/Adaptor/Adaptor.cpp:send_cancel_signal"]}
{"id": "C45", "title": "Cancelling releases waiting threads", "statement": "After send_cancel_signal, then cancel_waiting on each adaptor clone, every thread blocked in push or pull is eventually released by raising waiting_canceled, in every schedule.", "quantifier": "all schedules and points at which the cancellation arrives", "why_tests_cant": "All cancellation points.", "anchors": ["src/Module/Adaptor/Adaptor.cpp:send_cancel_signal", "src/Module/Adaptor/Adaptor.cpp:reset"]}
{"id": "C46", "title": "Switcher loops run the requested number of iterations", "statement": "A loop built from an Iterator with limit n and a Switcher executes its body exactly n times before leaving, again on each subsequent entry; commute routes data only to the selected path, whose index is taken modulo the number of outputs; select forwards the data of the last commuted path. (The limit 2^64-1 overflows to a division by zero; refuted there.)", "quantifier": "all limits, path counts, data and numbers of entries", "why_tests_cant": "All iteration counts and histories.", "anchors": ["include/Module/Switcher/Switcher.hxx:_commute", "include/Module/Switcher/Switcher.hxx:_select", "src/Module/Iterator/Iterator.cpp:_iterate"]}
{"id": "C47", "title": "Controllers", "statement": "The cyclic controller emits 0,1,..,n-1 repeatedly from its initial path; the limit controller emits its initial path `limit` times then the other forever until reset; the static controller always emits its configured path. (Paths go through an int8: beyond 128 paths the switcher takes another path; refuted there.)", "quantifier": "all call counts, parameters and resets", "why_tests_cant": "All histories.", "anchors": ["src/Module/Controller/Controller_cyclic/Controller_cyclic.cpp:_control", "src/Module/Controller/Controller_limit/Controller_limit.cpp:_control", "src/Module/Controller/Controller_static/Controller_static.cpp:_control"]}
{"id": "C48", "title": "Error monitor counters and reduction", "statement": "After any sequence of calls, with any number of frames per call, the monitor's counts are exactly the number of frames, of erroneous frames and of differing bits since the last reset (modulo 2^64), its histogram counts the erroneous frames by number of errors while it is on, and the callbacks run once per erroneous frame, once per call, and once more if the limit is reached; reducing monitors (in any order) equals having observed all frames in one monitor; the limit predicates are monotone until reset; the rates are the ratios of the counts up to a relative error 2^-21, a null count being reported as one error.", "quantifier": "all frame sequences, splits among monitors and reduction orders", "why_tests_cant": "All histories and partitions.", "anchors": ["src/Module/Monitor/BFER/Monitor_BFER.cpp:_check_errors", "src/Module/Monitor/BFER/Monitor_BFER.cpp:collect", "src/Tools/Monitor/Monitor_reduction.cpp"]}
{"id": "C49", "title": "Histogram", "statement": "A histogram's count for a value equals the number of times it was added (modulo 2^64, values being rounded to the precision of the histogram), the total is the sum of counts, the smallest and greatest values are those added, and merging histograms is commutative and associative.", "quantifier": "all add/merge histories", "why_tests_cant": "All histories.", "anchors": ["include/Tools/Algo/Histogram.hxx"]}
{"id": "C50", "title": "Tournament sorter returns the k smallest", "statement": "After any earlier calls, the LC sorter's partial sort returns k different indices, of the k smallest metrics in non-decreasing order, and leaves the rest of the output array unchanged, for every power-of-two size (at least 2), every k up to that size and repeated values, provided k is 2 or at least k metrics are below the largest value of the type (with fewer such metrics, or another size, refuted).", "quantifier": "all value arrays, sizes and k", "why_tests_cant": "All inputs, including duplicates.", "anchors": ["include/Tools/Algo/Sort/LC_sorter.hxx:partial_sort_destructive"]}
{"id": "C51", "title": "Paired sorting helpers", "statement": "mutual_sort sorts the reference and applies the same permutation to the companion vector; mutual_unique keeps exactly one element per run of equal reference values.", "quantifier": "all vectors", "why_tests_cant": "All vectors.", "anchors": ["include/Tools/general_utils.hxx:mutual_sort", "include/Tools/general_utils.hxx:mutual_unique"]}
{"id": "C52", "title": "Closest-value search", "statement": "get_closest returns an element of the sorted range at minimal distance from the requested value.", "quantifier": "all sorted ranges and values", "why_tests_cant": "All ranges.", "anchors": ["include/Tools/general_utils.hxx:get_closest"]}
{"id": "C53", "title": "Frame reordering round trip", "statement": "Reordering frames for SIMD processing puts element i of frame f at position i*n_frames+f and the reverse operation restores the frames, for every frame length.", "quantifier": "all frame lengths, frame counts and contents", "why_tests_cant": "All lengths.", "anchors": ["include/Tools/Perf/Reorderer/Reorderer.hxx:apply", "include/Tools/Perf/Reorderer/Reorderer.hxx:apply_rev"]}
{"id": "C54", "title": "Hard decisions are independent of alignment", "statement": "hard_decide maps each LLR to 1 if it is negative and 0 otherwise, at every position of every length and register width (a negative floating-point zero depends on its position: refuted there); the variant with unknown marks maps null LLRs to the unknown symbol, and the others to their sign, when the length is a multiple of the register width (otherwise the null LLRs of the end are decided 0, and on 64 bits the unknown symbol is 0: refuted there).", "quantifier": "all vectors, all lengths and SIMD widths", "why_tests_cant": "All lengths modulo the SIMD width.", "anchors": ["src/Tools/Perf/common/hard_decide.cpp:hard_decide", "src/Tools/Perf/common/hard_decide.cpp:hard_decide_unk"]}
{"id": "C55", "title": "Quantizers saturate and are monotone", "statement": "With 8 or 16-bit outputs, the constructor of the power-of-two quantizer accepts the non-negative positions exactly in its documented ranges, and the quantizer outputs values in [-(2^(s-1)-1), 2^(s-1)-1], is monotone, odd, within half a step of the input when not saturated, and saturated beyond; infinite inputs saturate. (A negative position is shifted by before it is checked, which is undefined; refuted there.)", "quantifier": "all real inputs, fixed-point parameters", "why_tests_cant": "All reals.", "anchors": ["src/Module/Quantizer/Pow2/Quantizer_pow2.cpp:_process"]}
{"id": "C56", "title": "Noise conversions are mutually inverse", "statement": "Converting Es/N0 to sigma and back, and Es/N0 to Eb/N0 and back, gives the original value for every valid rate, bits per symbol and upsampling factor; invalid arguments throw. (Refuted for sigma: the way back adds 10 log10 2 dB, for every value.)", "quantifier": "all positive rates, real SNRs", "why_tests_cant": "All reals.", "anchors": ["src/Tools/general_utils.cpp:sigma_to_esn0", "src/Tools/general_utils.cpp:esn0_to_sigma", "src/Tools/general_utils.cpp:esn0_to_ebn0", "src/Tools/general_utils.cpp:ebn0_to_esn0"]}
{"id": "C57", "title": "Exhaustive ML decoding is optimal", "statement": "The ML decoders (by messages for K < 64, by words for N < 64) return a codeword at minimal Hamming distance (hard input, or soft input with the Hamming option) from the received word among all codewords, for every code; with the Euclidean distance they return a closest codeword for fixed-point LLRs with N (M+1)^2 < 2^24, M the largest magnitude, and in single precision a codeword at most 1/(1-(N+3)/2^24)^2 times farther than the closest one. (Refuted: exact optimality in floating point, K = 64 or N = 64, LLRs whose distances all overflow.)", "quantifier": "all codes (K < 64), received words", "why_tests_cant": "All received words and codes.", "anchors": ["src/Module/Decoder/Generic/ML/Decoder_maximum_likelihood_std.cpp:_decode", "src/Module/Decoder/Generic/ML/Decoder_maximum_likelihood_naive.cpp:_decode"]}
{"id": "C58", "title": "Frozen-bit selection", "statement": "For every reliability order that is a permutation of the channels (read from a file, extracted from the 5G mother order, or computed by the erasure or Gaussian approximation for N a power of two) and K <= N, frozen-bit generation returns exactly N-K frozen positions: the K first channels of the order are free, and no frozen channel is strictly better than a free one. (Refuted for files with repeated, missing or out-of-range channels, for K > N, and for the erasure approximation with N not a power of two.)", "quantifier": "all N, K and reliability orders", "why_tests_cant": "All orders and sizes.", "anchors": ["src/Tools/Code/Polar/Frozenbits_generator/Frozenbits_generator.cpp:generate", "src/Tools/Code/Polar/Frozenbits_generator/Frozenbits_generator_5G.cpp:evaluate"]}
{"id": "C59", "title": "Polar systematic extraction by patterns", "statement": "Extracting information bits by walking the tree of simplified polar nodes (rate-0, rate-1, repetition, SPC) gives the same bits, in the same order, as reading the non-frozen positions one by one, also after any history of frozen-bit changes of the same length. (Refuted for pattern sets with no standard node and a terminal pattern first, for lengths that are not powers of two, and for longer frozen-bit vectors.)", "quantifier": "all frozen patterns of all sizes 2^n", "why_tests_cant": "All patterns and sizes.", "anchors": ["include/Tools/Code/Polar/fb_extract.hxx:fb_extract", "src/Tools/Code/Polar/Pattern_polar_parser.cpp"]}
{"id": "C60", "title": "Sequence schedules tasks after their producers", "statement": "For every graph of bound tasks without switchers, whatever the last and excluded tasks, the task order built by a Sequence from distinct first tasks (fed at most by last tasks) contains each first task and each task whose inputs are all fed exactly once, after every task producing one of its inputs, and no other task. (A first task fed by another one is scheduled twice, and a task that feeds itself makes the construction recurse without end: refuted there.)", "quantifier": "all finite acyclic binding graphs", "why_tests_cant": "All graphs.", "anchors": ["src/Tools/Sequence/Sequence.cpp:init_recursive"]}
{"id": "C61", "title": "A failed sequence can be run again", "statement": "After an exec() that reported a task's exception, a later exec() whose tasks all succeed returns normally.", "quantifier": "all histories of exec() calls", "why_tests_cant": "Requires a statement on histories with failures.", "anchors": ["src/Tools/Sequence/Sequence.cpp:exec", "src/Tools/Sequence/Sequence.cpp:_exec"]}
{"id": "C62", "title": "Coset transforms are involutions and preserve decoding", "statement": "Applying the same coset twice gives back the data, for bits and for LLRs, and hard-deciding coset LLRs equals applying the bit coset to the hard decisions (non-zero LLRs, and not the lowest value of a fixed-point type, which has no opposite and is refuted there).", "quantifier": "all references, bit and LLR vectors", "why_tests_cant": "All vectors.", "anchors": ["src/Module/Coset/Bit/Coset_bit.cpp:_apply", "src/Module/Coset/Real/Coset_real.cpp:_apply"]}
{"id": "C63", "title": "The pseudo-random generator is MT19937", "statement": "The unrolled block generation computes exactly the textbook MT19937 recurrence with modular indices, for every seed and any number of draws; restarting from the same seed gives the same stream.", "quantifier": "all seeds and stream positions", "why_tests_cant": "2^32 seeds and unbounded streams.", "anchors": ["src/Tools/Algo/PRNG/PRNG_MT19937.cpp:generate_numbers", "src/Tools/Algo/PRNG/PRNG_MT19937.cpp:rand_u32", "src/Tools/Algo/PRNG/PRNG_MT19937.cpp:seed"]}
{"id": "C64", "title": "SIMD CRC check of a wave", "statement": "The check of the SIMD CRC module on a wave accepts exactly when every frame of the wave is a valid CRC frame, and it accepts the wave its own build produced.", "quantifier": "all messages, polynomials, CRC sizes and register widths", "why_tests_cant": "Universal over all frames of a wave; the layout mismatch between build and check only shows on multi-frame waves.", "anchors": ["src/Module/CRC/Polynomial/CRC_polynomial_inter.cpp:_check", "src/Module/CRC/Polynomial/CRC_polynomial_inter.cpp:_build", "src/Module/CRC/Polynomial/CRC_polynomial_inter.cpp:_generate_INTER"]}
{"id": "C65", "title": "Multi-kernel polar encoder", "statement": "The multi-kernel polar encoder multiplies the input word (message at the free positions, 0 elsewhere) by the Kronecker product of the kernels of its stages; with the kernel 10/11 at every stage it equals the polar encoder; when every kernel is invertible over GF(2), encoding is injective. (The constructor does not check invertibility over GF(2): it accepts kernels of even determinant, for which two messages share a codeword; refuted there.)", "quantifier": "all lists of square kernels, stage lists and input words", "why_tests_cant": "Unbounded number of stages and kernel sizes, and all inputs.", "anchors": ["src/Module/Encoder/Polar_MK/Encoder_polar_MK.cpp:light_encode", "src/Tools/Code/Polar/Polar_code.cpp:is_invertible"]}
{"id": "C66", "title": "Multi-kernel systematic polar encoding is systematic", "statement": "When the code reports that it can be systematic and the free positions are closed for the transform, the systematic multi-kernel encoder outputs a codeword that carries the message, in order, at the free positions.", "quantifier": "all lists of square kernels, stage lists, closed frozen sets and messages", "why_tests_cant": "Depends on a structural condition on kernels and frozen set that no finite set of tests covers.", "anchors": ["src/Module/Encoder/Polar_MK/Encoder_polar_MK_sys.cpp:_encode", "src/Tools/Code/Polar/Polar_code.cpp:can_be_systematic"]}
{"id": "C67", "title": "Double-binary RSC encoder is tail-biting", "statement": "When the number of couples is not a multiple of the period of the circuit (7 for DVB-RCS1, 15 for DVB-RCS2), the double-binary RSC encoder outputs the unique word that carries the message and whose circuit walk, driven by the couples of the message, ends in the state it started from, in both layouts; is_codeword accepts exactly those words; the trellis lists the transitions and redundancies of the circuit. (When the number of couples is such a multiple, which the constructor accepts, every call reads outside of a table; refuted there.)", "quantifier": "all even K, both standards, both layouts, all messages", "why_tests_cant": "The circulation state depends on the whole message; all lengths modulo the period must agree.", "anchors": ["src/Module/Encoder/RSC_DB/Encoder_RSC_DB.cpp:_encode", "src/Module/Encoder/RSC_DB/Encoder_RSC_DB.cpp:is_codeword", "src/Module/Encoder/RSC_DB/Encoder_RSC_DB.cpp:get_trellis"]}
{"id": "C68", "title": "Double-binary turbo encoder", "statement": "The double-binary turbo encoder outputs the message, then the first redundancies and the second redundancies of the two tail-biting constituent words, the second one encoding the couples in interleaved order with the bits of every other couple exchanged; is_codeword accepts exactly those words.", "quantifier": "all even K without a degenerate number of couples, all pairs of circuits, lookup tables and messages", "why_tests_cant": "All permutations and messages.", "anchors": ["src/Module/Encoder/Turbo_DB/Encoder_turbo_DB.cpp:_encode", "src/Module/Encoder/Turbo_DB/Encoder_turbo_DB.cpp:is_codeword"]}
{"id": "C69", "title": "DVB-S2 LDPC encoder", "statement": "For every table of the library the DVB-S2 encoder outputs, for every message, a systematic word that satisfies every check of the parity matrix built from the same table; that matrix connects information bit v to the addresses of its line shifted by (v mod M)Q and the parity bits on the double diagonal; the sizes without a table are refused.", "quantifier": "all tables with distinct addresses per line (all 21 tables of the library), all messages", "why_tests_cant": "2^K messages of thousands of bits, and a matrix of up to 64800 rows per table.", "anchors": ["src/Module/Encoder/LDPC/DVBS2/Encoder_LDPC_DVBS2.cpp:_encode", "src/Tools/Code/LDPC/Standard/DVBS2/DVBS2_constants.cpp:build_H", "src/Tools/Code/LDPC/Standard/DVBS2/DVBS2_constants.cpp:build_dvbs2"]}
{"id": "C70", "title": "Uniform draws stay in their interval", "statement": "For every 32-bit word of the generator, the draws of the closed interval are in [0,1] in both precisions, and the double draws of the half-open and open intervals are in [0,1) and (0,1). The float draws of the half-open and open intervals are below 1 except for the 128 highest words, for which they return exactly 1 (refuted there).", "quantifier": "all 32-bit words, float and double rounding", "why_tests_cant": "The failing words have probability 2^-25; all roundings are covered by a monotonicity argument.", "anchors": ["src/Tools/Algo/PRNG/PRNG_MT19937.cpp:randf_cc", "src/Tools/Algo/PRNG/PRNG_MT19937.cpp:randf_co", "src/Tools/Algo/PRNG/PRNG_MT19937.cpp:randd_oo"]}
{"id": "C71", "title": "Interpolation in tables", "statement": "linear_interpolation of a table with sorted abscissas gives the first ordinate below the table, the ordinate of an abscissa within 1e-6 of it, and the point of the segment in between; nearest_interpolation gives the ordinate of an abscissa at minimal distance. (A value above the last abscissa reads past the end of the table: refuted there.)", "quantifier": "all tables with sorted abscissas and all values", "why_tests_cant": "All tables and all values, with the boundary cases between the segments.", "anchors": ["include/Tools/Math/interpolation.h:linear_interpolation", "include/Tools/Math/interpolation.h:nearest_interpolation"]}
{"id": "C72", "title": "Numerical integration of tables", "statement": "The sequential trapezoidal integral is the sum of the areas of the trapezes, with a constant or with given steps, and the cumulated version gives all the partial sums; the sequential and vectorised rectangular integrals are the same sum of areas. (The vectorised trapezoidal integral counts one ordinate twice: refuted there.)", "quantifier": "all tables of ordinates, register widths and steps", "why_tests_cant": "All sizes, with the boundary between the registers and the tail.", "anchors": ["include/Tools/Math/numerical_integration.h:trapz_integral", "include/Tools/Math/numerical_integration.h:trapz_integral_seq", "include/Tools/Math/numerical_integration.h:cumtrapz_integral_seq", "include/Tools/Math/numerical_integration.h:rect_integral"]}
{"id": "C73", "title": "Integer helpers", "statement": "is_power_of_2 holds exactly for the powers of two; next_power_of_2 gives the smallest power of two strictly above its argument when it fits; greatest_common_divisor and least_common_multiple give the gcd and the lcm of a non-negative and a positive integer when the product fits. (The gcd with zero is 1: refuted there.)", "quantifier": "all integers of the type", "why_tests_cant": "All integers.", "anchors": ["include/Tools/Math/utils.h:is_power_of_2", "include/Tools/Math/utils.h:next_power_of_2", "include/Tools/Math/utils.h:greatest_common_divisor", "include/Tools/Math/utils.h:least_common_multiple"]}
{"id": "C74", "title": "Custom quantizer scales and saturates", "statement": "The custom quantizer outputs values in [-(2^(s-1)-1), 2^(s-1)-1], is monotone and odd, maps 0 to 0 and every input from the maximum on to the largest level; without a given maximum, the first frame chooses the element 8*(N/10) of its sorted magnitudes and all later frames use it. (When that element is zero the scale is infinite and a zero input is undefined; refuted there.)", "quantifier": "all frames, saturation positions and maxima, float rounding", "why_tests_cant": "All real inputs; the rounding errors of the scale are bounded for all maxima.", "anchors": ["src/Module/Quantizer/Custom/Quantizer_custom.cpp:_process"]}
{"id": "C75", "title": "Hamming distance", "statement": "The Hamming distance of two arrays (or of one array to zero), scalar or vectorised with any number of lanes, is the number of positions where the bits differ; with count_unknown, positions holding the unknown value count as errors. (With 64-bit integers the unknown value is 0, so every zero counts as an error; refuted there.)", "quantifier": "all arrays of fewer than 2^31 elements of 8, 16, 32 or 64 bits, all lane counts", "why_tests_cant": "All lengths, remainders and overflows of the narrow vector counters.", "anchors": ["include/Tools/Perf/distance/hamming_distance.hxx", "include/Tools/Perf/distance/distance.hxx", "include/Tools/Perf/distance/Boolean_diff.hxx"]}
{"id": "C76", "title": "Dump of a histogram", "statement": "Dumping a histogram over its range writes one line per interval whose count is the number of values of the interval, and in cumulated mode the number of values up to it.", "quantifier": "all histograms", "why_tests_cant": "All sets of values and counts.", "anchors": ["include/Tools/Algo/Histogram.hxx:dump", "src/Simulation/BFER/Simulation_BFER.cpp"]}
{"id": "C77", "title": "Callbacks", "statement": "Recording a function on a monitor gives an identifier no other recorded function has and adds the function after the others; removing an identifier removes exactly its function and returns true, or changes nothing and returns false.", "quantifier": "all histories of fewer than 2^32 - 1 calls", "why_tests_cant": "All histories of recordings and removals.", "anchors": ["include/Tools/Algo/Callback/Callback.hxx"]}
{"id": "C78", "title": "Mutual information averages", "statement": "After any values and merges, the mean, smallest and greatest mutual information of a monitor are those of all the values seen by the merged monitors.", "quantifier": "all histories of fewer than 2^64 values (exact arithmetic)", "why_tests_cant": "All histories and partitions.", "anchors": ["src/Module/Monitor/MI/Monitor_MI.cpp:add_MI_value", "src/Module/Monitor/MI/Monitor_MI.cpp:operator+="]}
{"id": "C79", "title": "Exceptions in a task", "statement": "When the codelet of a task throws, the exception reaches the caller of exec() and the task may be executed again with the same sockets.", "quantifier": "all tasks, numbers of frames and waves, waves where the exception is raised", "why_tests_cant": "All positions of the exception.", "anchors": ["src/Module/Task.cpp:_exec"]}
{"id": "C80", "title": "Exceptions in a sequence", "statement": "When a task throws in one of the threads of a Sequence, exec() ends (every other thread finishes at most its current iteration) and throws the message of an exception raised by one of its tasks; without exception, each thread runs its iterations in order until its stop condition holds or its waiting is cancelled, and exec() returns.", "quantifier": "all numbers of threads, schedules, iterations and exceptions (for the first failing exec())", "why_tests_cant": "All interleavings of the threads.", "anchors": ["src/Tools/Sequence/Sequence.cpp:_exec", "src/Tools/Sequence/Sequence.cpp:exec"]}
{"id": "C81", "title": "Copying the node-pattern parser", "statement": "A copy of the parser of simplified polar nodes has the same tree, the same leaves and the same node types as the original, extracts the same bits, and keeps doing so after the frozen bits are changed.", "quantifier": "all frozen patterns of size 2^n, pattern sets, extracted vectors and new frozen bits", "why_tests_cant": "All patterns and sizes.", "anchors": ["src/Tools/Code/Polar/Pattern_polar_parser.cpp:Pattern_polar_parser", "include/Tools/Code/Polar/Pattern_polar_parser.hpp:recursive_deep_copy"]}
{"id": "C82", "title": "Erasure-channel polarization values", "statement": "The channel values computed for the erasure channel follow the recursion z -> (2z - z^2, z^2), stay between 0 and 1, have mean equal to the input erasure probability, and a channel whose index contains the bits of another one is at least as reliable.", "quantifier": "all N = 2^m, erasure probabilities in [0,1], pairs of channels", "why_tests_cant": "All sizes and real probabilities.", "anchors": ["src/Tools/Code/Polar/Frozenbits_generator/Frozenbits_generator_BEC.cpp:evaluate"]}
{"id": "C83", "title": "Chase decoding", "statement": "When flipping some of the max_flips least reliable positions of the hard decision gives a codeword, the Chase decoder returns the cheapest such codeword (number of flips or sum of reliabilities), and the hard decision otherwise, independently of the frames decoded before.", "quantifier": "all codes (codeword tests), LLRs of magnitude up to 2^120, max_flips <= min(N, 31), histories", "why_tests_cant": "All received words, codes and histories.", "anchors": ["src/Module/Decoder/Generic/Chase/Decoder_chase_std.cpp:_decode_siho_cw"]}
{"id": "C84", "title": "Noise objects", "statement": "The constructors of the noise objects accept exactly the valid values (a positive sigma, a probability between 0 and 1 within 1e-5); after a successful set or copy the getters give the values that were set or copied and the listeners have been notified exactly once, when the value is already visible; a Sigma whose calls did not throw holds a positive value or none. (Refuted: a rejected value is stored all the same; set_value on an event probability checks nothing; the listeners of set_values read the old Eb/N0 and Es/N0; copying another type of noise into a Sigma is not checked; a default Sigma has uninitialised Eb/N0.)", "quantifier": "all values (finite, infinite, NaN), all histories of calls", "why_tests_cant": "Any sequence of calls with any values.", "anchors": ["src/Tools/Noise/Noise.cpp:set_value", "src/Tools/Noise/Noise.cpp:copy", "src/Tools/Noise/Sigma.cpp:set_values", "src/Tools/Noise/Sigma.cpp:check", "src/Tools/Noise/Event_probability.cpp:check"]}
{"id": "C85", "title": "Points of a noise range", "statement": "generate_range ends and returns, in increasing order and each once, exactly the points of all the elements of the description (single values; front to back by the given or default step; a decreasing element with a negative step is read from its end), counted in units of 1e-7; in double precision the list is strictly increasing, and a point differs from the number it stands for by at most 1e-7 and a few roundings; an element without 1, 2 or 3 numbers is refused. This holds when all the numbers (and one step past the end) fit an int once multiplied by 1e7 and the step goes in the direction of the element. (Refuted: a step under 1e-7 never ends, a negative step on an increasing element overflows an int, in single precision the end point can be lost and two points can be equal.)", "quantifier": "all descriptions, precisions of the numbers", "why_tests_cant": "All lists of elements and all numbers.", "anchors": ["src/Tools/general_utils.cpp:generate_range"]}
{"id": "C86", "title": "Check of a look-up table", "statement": "check_LUT returns normally if and only if the table has the requested size (any size when 0 is requested) and no value appears twice; otherwise it throws.", "quantifier": "all tables and sizes", "why_tests_cant": "All tables.", "anchors": ["src/Tools/general_utils.cpp:check_LUT"]}
{"id": "C87", "title": "Flooding belief-propagation decoding", "statement": "The flooding LDPC decoder returns the decisions (and, in SISO, the extrinsic values) of textbook message passing on the graph of H: in each iteration every variable sends to each of its checks its channel value plus the messages of its other checks (as posterior minus message), then every check sends to each of its variables what its update rule gives on the values of the other variables; it runs n_ite iterations or, when the syndrome is enabled, stops after the first syndrome_depth consecutive ones whose decisions are a codeword; with the syndrome enabled and more than one iteration, CWD = 1 implies that the decisions are a codeword; the constructor refuses zero iterations, a zero depth and a wrong N. Every variable is in at most 256 checks. (Refuted: for a variable in 257 checks messages are lost; with one iteration CWD is 1 on non-codewords; CWD is 0 when the codeword is reached in the last iteration.)", "quantifier": "all matrices H, channel values, update rules that depend only on the other values, roundings of the additions, numbers of iterations, depths", "why_tests_cant": "All parity-check matrices, sizes, values and numbers of iterations.", "anchors": ["include/Module/Decoder/LDPC/BP/Flooding/Decoder_LDPC_BP_flooding.hxx:_decode", "include/Module/Decoder/LDPC/BP/Flooding/Decoder_LDPC_BP_flooding.hxx:_decode_single_ite", "include/Module/Decoder/LDPC/BP/Decoder_LDPC_BP.hxx:check_syndrome_soft"]}
{"id": "C88", "title": "Check-node update rules", "statement": "The check-node update rules MS, OMS, NMS and AMS (with the minimum) send to each variable the product of the signs of the other values times the corrected minimum of their magnitudes (capped by the largest value of the type): unchanged for MS and AMS, minus the offset for OMS, times the factor for NMS, never below zero; on the integer types NMS uses shifts and accepts exactly the factors k/8, 1 <= k <= 8, any other throws.", "quantifier": "all degrees, all values, equal magnitudes and zeros included, all offsets and factors", "why_tests_cant": "All lists of values.", "anchors": ["include/Tools/Code/LDPC/Update_rule/MS/Update_rule_MS.hxx:compute_chk_node_out", "include/Tools/Code/LDPC/Update_rule/OMS/Update_rule_OMS.hxx:end_chk_node_in", "include/Tools/Code/LDPC/Update_rule/NMS/Update_rule_NMS.hxx:normalize", "include/Tools/Code/LDPC/Update_rule/AMS/Update_rule_AMS.hxx:compute_chk_node_in"]}
{"id": "C89", "title": "Layered belief-propagation decoding", "statement": "The horizontal (by checks) and vertical (by variables) layered LDPC decoders return the decisions and extrinsic values of the textbook schedules: checks, or variables, are processed in order, each using the values already updated in the same iteration; they stop as the flooding decoder does; the horizontal decoder's CWD is, at depth 1, exactly whether the decisions are a codeword, last iteration included. The vertical schedule is in exact arithmetic. (Refuted: the vertical decoder always gives CWD = 1.)", "quantifier": "all matrices H, channel values, update rules, numbers of iterations, depths; all roundings for the horizontal one", "why_tests_cant": "All parity-check matrices, sizes, values and numbers of iterations.", "anchors": ["include/Module/Decoder/LDPC/BP/Horizontal_layered/Decoder_LDPC_BP_horizontal_layered.hxx:_decode_single_ite", "include/Module/Decoder/LDPC/BP/Vertical_layered/Decoder_LDPC_BP_vertical_layered.hxx:_decode_single_ite"]}
{"id": "C90", "title": "BP decoding without noise", "statement": "If the signs of the channel values are those of a codeword and no value is zero, every BP decoder returns that codeword (its information bits in the order of info_bits_pos), whatever the magnitudes, the number of iterations and the depth: the flooding decoder with any monotone odd rounding of values of the type, the layered ones in exact arithmetic; for the rules MS, OMS with offset >= 0 and NMS with factor >= 0. CWD is then 1 when the depth is less than n_ite (at most n_ite for the horizontal decoder).", "quantifier": "all codes, codewords, magnitudes, numbers of iterations", "why_tests_cant": "All codes and all values.", "anchors": ["include/Module/Decoder/LDPC/BP/Flooding/Decoder_LDPC_BP_flooding.hxx:_decode_siho", "include/Module/Decoder/LDPC/BP/Horizontal_layered/Decoder_LDPC_BP_horizontal_layered.hxx:_decode_siho", "include/Module/Decoder/LDPC/BP/Vertical_layered/Decoder_LDPC_BP_vertical_layered.hxx:_decode_siho"]}
{"id": "C91", "title": "Independence of the frames of a BP decoder", "statement": "With auto_reset on and a syndrome depth of 1, the outputs (bits or extrinsic values, and CWD) of a BP decoder on a frame are those of a new decoder, whatever frames and tasks came before. (Refuted for a depth of 2: the count of valid syndromes is not reset and goes on from a frame to the next.)", "quantifier": "all histories of frames and tasks, all matrices and values", "why_tests_cant": "All histories.", "anchors": ["include/Module/Decoder/LDPC/BP/Flooding/Decoder_LDPC_BP_flooding.hxx:_reset", "include/Module/Decoder/LDPC/BP/Horizontal_layered/Decoder_LDPC_BP_horizontal_layered.hxx:_reset", "include/Module/Decoder/LDPC/BP/Vertical_layered/Decoder_LDPC_BP_vertical_layered.hxx:_reset", "include/Module/Decoder/LDPC/BP/Decoder_LDPC_BP.hxx:check_syndrome_soft"]}
{"id": "C92", "title": "Constellations", "statement": "On real numbers, a PAM constellation of 1 to 15 bits per symbol is a set of 2^n different equally spaced real points centred on zero; a QAM one of an even number of bits is the square grid of 2^(n/2) by 2^(n/2) such levels; a PSK one is the set of the 2^n points of the unit circle at the multiples of a 2^n-th of a turn. All have mean energy 1, and symbols at the smallest distance of the constellation have labels that differ in exactly one bit; is_complex() is false for PAM and true for QAM and for PSK from two bits on. (Refuted: a QAM constellation of an odd number of bits ignores the last bit, so two labels share a symbol, and with one bit its mean energy is 3; PAM with 16 bits takes the square root of a negative number after an overflow, and with 0 bits reads outside of its buffer; a user constellation of real points says it is complex.)", "quantifier": "all numbers of bits per symbol of the stated ranges, all pairs of labels", "why_tests_cant": "The Gray property ranges over all pairs of labels of all sizes; energy is a sum over all symbols for every size.", "anchors": ["include/Tools/Constellation/PAM/Constellation_PAM.hxx:bits_to_symbol", "include/Tools/Constellation/QAM/Constellation_QAM.hxx:bits_to_symbol", "include/Tools/Constellation/PSK/Constellation_PSK.hxx:bits_to_symbol", "include/Tools/Constellation/Constellation.hxx:build"]}
{"id": "C93", "title": "Modulation of a frame", "statement": "For every frame of fewer than 2^24 bits, modulate() with the generic modem writes ceil(N/bps) symbols, two numbers each for a complex constellation and one for a real one: symbol k is the point of the constellation whose label has the bits k*bps, k*bps+1, ... of the frame (least significant first), the bits after the end of the frame counting as zero. (Refuted for N = 2^24+1 with one bit per symbol: the size is computed with floats, the output is one symbol short and modulate writes or reads outside of it.)", "quantifier": "all frames, constellations, frame sizes below 2^24, roundings", "why_tests_cant": "All frames and all sizes, last symbol included.", "anchors": ["include/Module/Modem/Generic/Modem_generic.hxx:_modulate_complex", "include/Module/Modem/Generic/Modem_generic.hxx:_modulate_real", "include/Module/Modem/Modem.hxx:modulate"]}
{"id": "C94", "title": "Max-log demodulation", "statement": "On exact numbers, the LLR that demodulate() (or demodulate_wg(), with the gains of the channel) gives to bit b of symbol k is the smallest squared distance from the received point to the symbols (times the gain) whose bit b is 1 minus the smallest one to those whose bit b is 0, divided by 2 sigma^2 (or not divided when sigma is disabled); so a nonzero LLR has the sign of the bit of the nearest symbol; gains all equal to one change nothing. Without noise the signs of the LLRs give back the frame, whatever the gains different from zero, for exact numbers and, without gains, for every rounding that keeps signs, floating-point included.", "quantifier": "all constellations with different points, frames, received values, gains, channel parameters, histories of calls without filter", "why_tests_cant": "All received values, all constellations, all histories.", "anchors": ["include/Module/Modem/Generic/Modem_generic.hxx:_demodulate_complex", "include/Module/Modem/Generic/Modem_generic.hxx:_demodulate_real", "include/Module/Modem/Generic/Modem_generic.hxx:_demodulate_wg_complex", "include/Module/Modem/Generic/Modem_generic.hxx:_demodulate_wg_real"]}
{"id": "C95", "title": "Channel parameter of a modem over a history", "statement": "The LLRs that a generic modem computes depend only on the channel parameter of the call, not on the calls of modulate, demodulate, demodulate_wg, tdemodulate and tdemodulate_wg made before with other parameters. (Refuted when filter was called between two demodulations: filter records the parameter without updating the factor, and the next demodulation with the same parameter uses the old factor.)", "quantifier": "all histories of calls, all channel parameters, roundings and maxima", "why_tests_cant": "All histories.", "anchors": ["include/Module/Modem/Modem.hxx:last_channel_param", "include/Module/Modem/Generic/Modem_generic.hxx:inv_sigma2"]}
{"id": "C96", "title": "Demodulation with a priori information", "statement": "On exact numbers, tdemodulate() (or tdemodulate_wg()) gives to each bit the difference of the smallest costs of the symbols with this bit at 1 and at 0, where the cost of a symbol is its squared distance scaled by the channel plus the a priori LLRs of its other bits at 1, over the symbols whose bits after the end of the frame are zero; the result for a bit does not depend on its own a priori value; with zero a priori values and whole symbols it is the result of demodulate(). (Refuted for the last, incomplete symbol: demodulate() also counts the symbols whose padding bits are one.)", "quantifier": "all constellations, received values, a priori values, gains, channel parameters, histories without filter", "why_tests_cant": "All a priori values and histories.", "anchors": ["include/Module/Modem/Generic/Modem_generic.hxx:_tdemodulate_complex", "include/Module/Modem/Generic/Modem_generic.hxx:_tdemodulate_real", "include/Module/Modem/Generic/Modem_generic.hxx:_tdemodulate_wg_complex", "include/Module/Modem/Generic/Modem_generic.hxx:_tdemodulate_wg_real"]}
{"id": "C97", "title": "Vectorised generic modem", "statement": "For complex constellations, the vectorised generic modem computes the same LLRs as the standard one, with or without gains, for every register size and every frame size, with every symmetric rounding. (Refuted for real constellations: the vectorised kernels read the values at twice the position, outside of the buffer.)", "quantifier": "all register sizes, frame sizes, constellations, received values, gains, histories", "why_tests_cant": "All sizes, including frames not multiple of the register size.", "anchors": ["include/Module/Modem/Generic/Modem_generic_fast.hxx:_demodulate_complex", "include/Module/Modem/Generic/Modem_generic_fast.hxx:_demodulate_real"]}
{"id": "C98", "title": "BPSK modem", "statement": "The BPSK modem sends bit 0 as +1 and bit 1 as -1; on exact numbers its LLRs are 2 y / sigma^2 (2 h y / sigma^2 with gains), those of the generic max-log modem on the points +1 and -1, after any history of calls without filter; without noise the signs of the LLRs give back the frame with every rounding that keeps signs. (Refuted after a call of filter with a new parameter, as for the generic modem.)", "quantifier": "all frames, sizes, received values, gains, channel parameters, histories", "why_tests_cant": "All histories and values.", "anchors": ["src/Module/Modem/BPSK/Modem_BPSK.cpp:_modulate", "src/Module/Modem/BPSK/Modem_BPSK.cpp:_demodulate", "src/Module/Modem/BPSK/Modem_BPSK.cpp:_demodulate_wg"]}
{"id": "C99", "title": "On-off keying modem", "statement": "The OOK modem sends the bits themselves. On an erasure channel the LLR of a symbol that is not erased is +1 or -1 according to the bit, and the LLRs of the erased ones are a small constant of alternating sign. On a binary symmetric channel of error probability p, after any demodulations, the LLR is ln((1-p)/p) for a received 0 and its opposite for a received 1 (with p = 10^-10 for 0). On a Gaussian channel the LLR has the sign of the nearest symbol and is ((y-1)^2 - y^2) / (2 sigma^2).", "quantifier": "all frames, erasures, received values, channel parameters, histories", "why_tests_cant": "All frames and erasure patterns.", "anchors": ["src/Module/Modem/OOK/Modem_OOK.cpp:_modulate", "src/Module/Modem/OOK/Modem_OOK_BEC.cpp:_demodulate", "src/Module/Modem/OOK/Modem_OOK_AWGN.cpp:_demodulate"]}
{"id": "C100", "title": "Exact demodulation with max_star", "statement": "On real numbers, the generic modem with the max_star operator computes the exact log-likelihood ratios: for each bit, the logarithm of the ratio of the sums of the Gaussian likelihoods of the symbols whose bit is 0 and of those whose bit is 1 (with the gains of the channel if any); with a priori LLRs, it computes the exact extrinsic ones, where each symbol is also weighted by the a priori probabilities of its other bits, the bits after the end of the frame being zero. max_star_safe, which replaces the logarithm by approximations for distant values, is within exp(-18) of max_star.", "quantifier": "all constellations, received values, gains, a priori values, channel parameters, histories without filter", "why_tests_cant": "All values and constellations; sums over all symbols.", "anchors": ["include/Tools/Math/max.hxx:max_star", "include/Tools/Math/max.hxx:max_star_safe", "include/Module/Modem/Generic/Modem_generic.hxx:_demodulate_complex", "include/Module/Modem/Generic/Modem_generic.hxx:_tdemodulate_complex"]}
{"id": "C101", "title": "Soft modulation", "statement": "On real numbers, tmodulate() of the generic modem writes, for each symbol, the mean of the symbols of the constellation weighted by the probabilities of their labels given the LLRs of the frame (independent bits, P(0) = 1/(1+exp(-L))), the bits after the end of the frame being zero; the weights of a symbol add to one.", "quantifier": "all constellations, frame sizes below 2^24, LLRs", "why_tests_cant": "All LLRs and sizes.", "anchors": ["include/Module/Modem/Generic/Modem_generic.hxx:_tmodulate_complex", "include/Module/Modem/Generic/Modem_generic.hxx:_tmodulate_real"]}
{"id": "C102", "title": "Binary file source", "statement": "With auto_reset disabled and frames of 4 or at least 6 bits, over any history of generate() and reset() calls, the m-th frame since the last reset holds the bits m*K to m*K+K-1 of the file (least significant bit of each byte first), followed by zeros after the end of the file; whatever the output buffer held. is_done() is true exactly when more bits were asked for since the last reset than the file holds. (Refuted: with 5 bits per frame, the third frame is written outside of its buffer.)", "quantifier": "all files, frame sizes, histories of generate and reset", "why_tests_cant": "All histories: the bits left by a frame go to the next one.", "anchors": ["src/Module/Source/User/Source_user_binary.cpp:_generate", "src/Module/Source/User/Source_user_binary.cpp:reset", "src/Module/Source/User/Source_user_binary.cpp:is_done"]}
{"id": "C103", "title": "Binary file source with auto_reset", "statement": "With auto_reset enabled (the default), the frames of a source over a non-empty binary file hold, one after the other, the bits of the file repeated for ever, and the source is never done.", "quantifier": "all files, frame sizes, histories", "why_tests_cant": "All histories: the file wraps in the middle of frames.", "anchors": ["src/Module/Source/User/Source_user_binary.cpp:_generate", "src/Module/Source/User/Source_user_binary.cpp:reset"]}
{"id": "C104", "title": "Binary file sink", "statement": "A sink over a binary file is refused for frames of fewer than 8 bits. Otherwise, over any history of send() and reset() calls, the file holds the bits sent since the last reset, eight per byte, least significant first, any non-zero element being the bit 1; the last bits, fewer than 8, are not written yet. A source over the file gives the frames back (up to these last bits, which are zeros).", "quantifier": "all frame sizes, frames, histories", "why_tests_cant": "All histories: bytes straddle frames.", "anchors": ["src/Module/Sink/User/Sink_user_binary.cpp:_send", "src/Module/Sink/User/Sink_user_binary.cpp:reset", "src/Module/Source/User/Source_user_binary.cpp:_generate"]}
{"id": "C105", "title": "Text file source", "statement": "A source over a text file with the number n of frames, the frame size K and n frames of K integers gives the frames in order from the frame start_idx (not negative), for ever, non-zero integers being the bit 1. A file with a number of frames that is not positive or another frame size is refused. The AZCW source gives null frames. (Refuted: a negative start_idx that is not a multiple of n is used as an index outside of the frames; a file that ends too early is accepted with uninitialised bits.)", "quantifier": "all files, frame sizes, starting frames, numbers of generations", "why_tests_cant": "All files and histories.", "anchors": ["src/Module/Source/User/Source_user.cpp:Source_user", "src/Module/Source/User/Source_user.cpp:_generate", "src/Module/Source/AZCW/Source_AZCW.cpp:_generate"]}
{"id": "C106", "title": "AWGN channel and channel without noise", "statement": "Over any history of add_noise() and set_n_frames(), whatever the Gaussian generator, each frame received from the AWGN channel is the frame sent plus the next numbers of the generator, drawn with the standard deviation of that frame; no number is drawn twice or skipped. With add_users and several frames, one frame is received, the sum of the frames sent plus one noise, and the rest of the output is untouched. Without noise, the frames (or their sum) are received.", "quantifier": "all frame sizes, numbers of frames, generators, symbols, histories", "why_tests_cant": "All histories: the state of the generator goes on from frame to frame and from call to call.", "anchors": ["src/Module/Channel/AWGN/Channel_AWGN_LLR.cpp:_add_noise", "src/Module/Channel/NO/Channel_NO.cpp:_add_noise", "include/Module/Channel/Channel.hxx:set_n_frames"]}
{"id": "C107", "title": "Rayleigh channel", "statement": "A Rayleigh channel for complex symbols with an odd number of elements is refused. Otherwise, over any history of add_noise_wg() and set_n_frames(), the gains given are those drawn (of standard deviation 1/sqrt(2); their moduli for real symbols), and each symbol received is the symbol sent times its gain plus the noise drawn after the gains; with add_users and several frames, the sum of the frames times their gains plus one noise.", "quantifier": "all frame sizes, numbers of frames, generators, symbols, histories", "why_tests_cant": "All histories: gains and noise share one generator.", "anchors": ["src/Module/Channel/Rayleigh/Channel_Rayleigh_LLR.cpp:_add_noise_wg", "src/Module/Channel/Rayleigh/Channel_Rayleigh_LLR.cpp:set_n_frames"]}
{"id": "C108", "title": "Rayleigh channel with the gains of a file", "statement": "The channel takes the gains from a text file of numbers. Over any history of calls, symbol k since the creation gets gain k / gain_occur of the file, read cyclically, across frames, calls and changes of the number of frames. Complex symbols, add_users, a gain_occur that is not positive, and a file without numbers are refused.", "quantifier": "all files of gains, numbers of occurrences, frame sizes, histories", "why_tests_cant": "All histories: the position in the file goes on across calls.", "anchors": ["src/Module/Channel/Rayleigh/Channel_Rayleigh_LLR_user.cpp:_add_noise_wg", "src/Module/Channel/Rayleigh/Channel_Rayleigh_LLR_user.cpp:read_gains"]}
{"id": "C109", "title": "Channels with the noise of a file", "statement": "Over any history of add_noise() and set_n_frames(), the k-th frame since the creation uses frame k of the noise file, read cyclically: the channel \"user\" gives that noise, the channel \"user_add\" the frame sent plus that noise. With add_users and several frames, one frame is received: the noise for the former, the sum of the frames sent plus the noise for the latter.", "quantifier": "all noise files, frame sizes, histories", "why_tests_cant": "All histories: the position in the file goes on across calls.", "anchors": ["src/Module/Channel/User/Channel_user.cpp:_add_noise", "src/Module/Channel/User/Channel_user.cpp:set_noise", "src/Module/Channel/User/Channel_user_add.cpp:_add_noise"]}
{"id": "C110", "title": "Erasure and symmetric channels", "statement": "For frames of any size on registers of any size, the erasure channel gives each symbol as it was sent or erased, and the symmetric channel each bit as it was sent or flipped, according to the events drawn: none with the probability zero, all with a probability that every number drawn reaches. The channels user_be and user_bs do so where the numbers of the noise file are not zero.", "quantifier": "all frame sizes, register sizes, events, noise files, histories", "why_tests_cant": "Vectorised loop and scalar tail must agree for all sizes.", "anchors": ["src/Module/Channel/Binary_erasure/Channel_binary_erasure.cpp:_add_noise", "src/Module/Channel/Binary_symmetric/Channel_binary_symmetric.cpp:_add_noise", "src/Module/Channel/User/Channel_user_be.cpp:_add_noise", "src/Module/Channel/User/Channel_user_bs.cpp:_add_noise", "src/Tools/Algo/Draw_generator/Event_generator/Fast/Event_generator_fast.cpp:generate"]}
{"id": "C111", "title": "BCJR decoder: combination over all the paths of the trellis", "statement": "For any code of two polynomials accepted by the encoder with an odd feedback polynomial, after any history of calls, the soft-output decoder never fails and gives for each bit the combination of the weights of all the paths of the trellis with that bit 0, minus that of the paths with that bit 1, minus the value received; \"combination\" is the MAX template parameter, any associative and commutative operation compatible with the addition. The weight of a path is half the correlation of its bits with the frame plus the initial weights of its two ends. decode_siso() does so for all the bits of the frame (systematic, tail, parity) in the buffered layout, and refuses the other layout.", "quantifier": "all message sizes, polynomials (feedback odd), frames, combination operations, histories", "why_tests_cant": "The number of paths is exponential in the size; the forward-backward recursions and the normalisation must agree with their combination for all sizes.", "anchors": ["include/Module/Decoder/RSC/BCJR/Seq_generic/Decoder_RSC_BCJR_seq_generic_std.hxx:_decode_siso_alt", "include/Module/Decoder/RSC/BCJR/Seq_generic/Decoder_RSC_BCJR_seq_generic_std.hxx:compute_alpha", "include/Module/Decoder/RSC/BCJR/Seq_generic/Decoder_RSC_BCJR_seq_generic_std.hxx:compute_beta", "include/Module/Decoder/RSC/BCJR/Seq_generic/Decoder_RSC_BCJR_seq_generic_std.hxx:compute_beta_ext", "include/Module/Decoder/RSC/BCJR/Seq_generic/Decoder_RSC_BCJR_seq_generic_std.hxx:compute_ext_sys", "include/Module/Decoder/RSC/BCJR/Seq_generic/Decoder_RSC_BCJR_seq_generic_std.hxx:compute_ext_par", "include/Module/Decoder/RSC/BCJR/Seq_generic/Decoder_RSC_BCJR_seq_generic.hxx:RSC_BCJR_seq_generic_normalize"]}
{"id": "C112", "title": "BCJR decoder of 16-bit integers: best codewords", "statement": "For a frame the sum of whose magnitudes is at most 2^13, in either layout and after any history of calls, the value received plus the soft output of each bit is half the difference between the best correlation of a codeword with that bit 0 and the best one of a codeword with that bit 1, without rounding error.", "quantifier": "all message sizes, polynomials (feedback odd), frames, histories", "why_tests_cant": "The best codeword ranges over an exponential set; every eighth column is normalised and the initial metrics are finite.", "anchors": ["include/Module/Decoder/RSC/BCJR/Seq_generic/Decoder_RSC_BCJR_seq_generic_std.hxx:_decode_siso_alt", "include/Module/Decoder/RSC/BCJR/Seq_generic/Decoder_RSC_BCJR_seq_generic.hxx:RSC_BCJR_seq_generic_init"]}
{"id": "C113", "title": "BCJR decoder: hard decisions are of maximum likelihood", "statement": "With integers and a frame the sum of whose magnitudes is at most 2^13, after any history of calls, when one codeword correlates best with the frame, decode_siho() gives its message bits; in particular the message sent when there is no noise.", "quantifier": "all message sizes, polynomials accepted by the encoder, layouts, frames, histories", "why_tests_cant": "Optimality is a statement on all the codewords and all the frames.", "anchors": ["include/Module/Decoder/RSC/BCJR/Decoder_RSC_BCJR.hxx:_load", "include/Module/Decoder/RSC/BCJR/Decoder_RSC_BCJR.hxx:_decode_siho", "src/Module/Encoder/RSC/Encoder_RSC_sys.cpp:get_trellis"]}
{"id": "C114", "title": "BCJR decoder of floating-point numbers: MAP and max-log-MAP", "statement": "On real numbers, after any history of calls: with tools::max_star the value received plus the soft output of each bit is the logarithm of the ratio of the sums of the likelihoods of the paths with that bit 0 and 1, and the hard decision is the more likely value; with tools::max it is half the difference of the best correlations of codewords, when the sum of the magnitudes does not exceed the largest number.", "quantifier": "all message sizes, polynomials (feedback odd), frames of real numbers, histories", "why_tests_cant": "Exact marginalisation over an exponential number of paths.", "anchors": ["include/Module/Decoder/RSC/BCJR/Seq_generic/Decoder_RSC_BCJR_seq_generic_std.hxx:_decode_siso_alt", "include/Module/Decoder/RSC/BCJR/Decoder_RSC_BCJR.hxx:_decode_siho", "include/Tools/Math/max.hxx:max_star"]}
{"id": "C115", "title": "Turbo decoders: the turbo decoding of each frame, whatever the wave and the history", "statement": "For any SISO constituent decoders that compute the extrinsic values of each frame of a wave from the values of that frame, any interleaver, number of iterations, scaling factors and layout, after any calls, decode_siho() returns for each frame of the wave the decisions of the turbo decoding of that frame alone: iterations of first decoder, scaling, interleaving, second decoder, scaling, deinterleaving, then the decision on systematic + a priori + extrinsic. The standard and the fast decoder give the same decisions. (Domain: numbers of frames per wave that the reordering supports, and for the fast decoder 1, E or E/8 with E the number of elements of a register. Refuted outside: the constructor of the fast decoder accepts any number of frames, and with 2 frames and E = 8 the second frame is never decoded.)", "quantifier": "all constituent decoders, sizes, interleavers, waves, iterations, scalings, layouts, frames, histories", "why_tests_cant": "Buffers are reused between calls, padded to registers and shared by interleaved frames; no test covers every order of frames.", "anchors": ["src/Module/Decoder/Turbo/Decoder_turbo.cpp:buffered_load", "src/Module/Decoder/Turbo/Decoder_turbo.cpp:standard_load", "src/Module/Decoder/Turbo/Decoder_turbo_std.cpp:_decode_siho", "src/Module/Decoder/Turbo/Decoder_turbo_fast.cpp:_decode_siho", "src/Module/Decoder/Turbo/Decoder_turbo_fast.cpp:_store", "src/Tools/Code/Turbo/Post_processing_SISO/Scaling_factor/Scaling_factor_constant.cpp:siso_n"]}
{"id": "C116", "title": "Turbo decoder with a CRC: early stop", "statement": "With a CRC checker after the scalings, decode_siho() returns the decisions after the first constituent decoder of the first iteration, from the start iteration on, at which these decisions pass the check; if there is none, it returns the decisions of the last iteration. This holds after any calls.", "quantifier": "all checks, constituent decoders, sizes, interleavers, iterations, frames, histories", "why_tests_cant": "The iteration at which the decoder stops depends on the frame, and a decision left from a previous frame could be returned.", "anchors": ["src/Tools/Code/Turbo/Post_processing_SISO/CRC/CRC_checker.cpp:siso_n", "src/Module/Decoder/Turbo/Decoder_turbo_std.cpp:_decode_siho", "src/Module/Decoder/Turbo/Decoder_turbo_fast.cpp:_decode_siho"]}
{"id": "C117", "title": "Turbo codes: what is encoded is decoded", "statement": "With the max-log BCJR constituent decoders on integers, for any two convolutional codes (odd feedback polynomial), interleaver, number of iterations, scalings that keep signs, with or without CRC checker, and after any calls, a received frame whose values have the signs of a turbo codeword or are zero (punctured), with no zero among the systematic values, decodes to the message of the codeword; so the message given to the turbo encoder comes back. Both layouts.", "quantifier": "all messages, codes, interleavers, iterations, magnitudes of the received values, puncturings of the parities and tails, histories", "why_tests_cant": "End-to-end composition of the encoder, two trellis decoders, interleavers and loads, for unbounded sizes.", "anchors": ["src/Module/Decoder/Turbo/Decoder_turbo_std.cpp:_decode_siho", "src/Module/Decoder/Turbo/Decoder_turbo_fast.cpp:_decode_siho", "src/Module/Encoder/Turbo/Encoder_turbo.cpp:_encode", "include/Module/Decoder/RSC/BCJR/Seq_generic/Decoder_RSC_BCJR_seq_generic_std.hxx:_decode_siso_alt"]}
{"id": "C118", "title": "Turbo decoder: flip and check", "statement": "At an iteration where flip and check applies, from the first iteration checked on, with at least 20 bits in the wave and q at most 20: the decisions are kept if they pass the check; otherwise the result is the first of the 2^q - 1 patterns of flips of the q least reliable bits that passes it, and the decoder stops; if there is none, the decisions are those of the iteration and the decoder goes on. The decoder never stops on bits that fail the check, and the extrinsic values are not changed. (Refuted outside: with fewer than 20 bits the sort runs past the end of its array; at an iteration of flip and check before the first one checked, it works on the decisions of a previous frame and may stop on them.)", "quantifier": "all values, checks, q, numbers of bits, iterations, buffers left by previous frames", "why_tests_cant": "All the patterns of flips and all the reliabilities, over any sizes.", "anchors": ["src/Tools/Code/Turbo/Post_processing_SISO/Flip_and_check/Flip_and_check.cpp:siso_n", "src/Tools/Code/Turbo/Post_processing_SISO/Flip_and_check/Flip_and_check.cpp:apply_flip_and_check", "src/Tools/Code/Turbo/Post_processing_SISO/Flip_and_check/Flip_and_check.cpp:partial_sort_indexes"]}
{"id": "C119", "title": "Turbo decoder: self-correction of the extrinsic values", "statement": "For every frame, the self-correction leaves each extrinsic value of an iteration as it is, or sets it to zero exactly when its sign differs from that of the previous iteration, the iteration is between the two limits, and the value of that position was not corrected at the previous iteration of the frame.", "quantifier": "all sequences of extrinsic values, numbers of iterations, limits, histories", "why_tests_cant": "A statement on all the sequences of iterations and frames.", "anchors": ["src/Tools/Code/Turbo/Post_processing_SISO/Self_corrected/Self_corrected.cpp:siso_n", "src/Tools/Code/Turbo/Post_processing_SISO/Self_corrected/Self_corrected.cpp:correct", "src/Tools/Code/Turbo/Post_processing_SISO/Self_corrected/Self_corrected.cpp:calc_osc"]}
{"id": "C120", "title": "Turbo decoder: scaling factors on integers", "statement": "On integers every scaling factor (constant, sequential, adaptive, array; non-negative factors) keeps the signs of the extrinsic values and keeps zero, so that what is encoded is decoded (C117) with any of them. The sequential scaling is by 3/4 rounded down with an error below 3/2, and is the identity after the second decoder in the last two iterations. (Refuted: on integers a constant factor below 1 is converted to 0 and erases all the extrinsic values of the first decoder, as does the adaptive scaling from iteration 3 on.)", "quantifier": "all integers, factors, iterations", "why_tests_cant": "Rounding and conversions for all values.", "anchors": ["src/Tools/Code/Turbo/Post_processing_SISO/Scaling_factor/Scaling_factor_constant.cpp:siso_n", "src/Tools/Code/Turbo/Post_processing_SISO/Scaling_factor/Scaling_factor_seq.cpp:siso_i", "src/Tools/Code/Turbo/Post_processing_SISO/Scaling_factor/Scaling_factor_adaptive.cpp:siso_n", "src/Tools/Code/Turbo/Post_processing_SISO/Scaling_factor/Scaling_factor_array.cpp:siso_n", "include/Tools/Math/utils.hxx:div2"]}
{"id": "C121", "title": "Polar list decoder: it is the list decoder of the literature", "statement": "For every power of two N >= 2, list size L, frozen set and received LLRs, and whatever the previous frames left in its memory, the naive SCL decoder returns the message of a path of smallest metric among the survivors of list decoding: at a frozen bit every path is extended with 0, at an information bit every path is extended both ways and L extensions of smallest metric are kept (all of them while there is room). decode_siho returns the information bits of that path, decode_siho_cw its codeword, and the memory is ready for the next frame. (Refuted for N = 1: the constructor accepts it and decoding dereferences a null pointer.)", "quantifier": "all N, L, frozen sets, LLRs, kernels f and g, sorting functions, histories", "why_tests_cant": "The paths share trees, are duplicated and dropped at every information bit: the state depends on the whole history of the frame.", "anchors": ["include/Module/Decoder/Polar/SCL/Decoder_polar_SCL_naive.hxx:_decode", "include/Module/Decoder/Polar/SCL/Decoder_polar_SCL_naive.hxx:duplicate_path", "include/Module/Decoder/Polar/SCL/Decoder_polar_SCL_naive.hxx:recursive_duplicate_tree_sums", "include/Module/Decoder/Polar/SCL/Decoder_polar_SCL_naive.hxx:recursive_compute_llr", "include/Module/Decoder/Polar/SCL/Decoder_polar_SCL_naive.hxx:select_best_path", "include/Module/Decoder/Polar/SCL/Decoder_polar_SCL_naive.hxx:_store"]}
{"id": "C122", "title": "Polar list decoder: metric and maximum likelihood", "statement": "With the exact kernels the metric of a complete path is the total weight of the LLRs that its codeword contradicts, so the decoder returns the codeword of the list with the largest correlation with the received LLRs; when L >= 2^K it returns a codeword of largest correlation among all codewords (maximum likelihood).", "quantifier": "all N, L, frozen sets, LLRs", "why_tests_cant": "All codewords and all received words.", "anchors": ["include/Module/Decoder/Polar/SCL/Decoder_polar_SCL_naive.hxx:_decode", "include/Tools/Code/Polar/decoder_polar_functions.hxx:phi", "include/Tools/Code/Polar/decoder_polar_functions.hxx:f_LLR"]}
{"id": "C123", "title": "Polar list decoder: what is encoded is decoded", "statement": "For every list size, if every LLR is non-zero with the sign of the encoded bit, the list decoder returns the encoded message and codeword.", "quantifier": "all N >= 2, L, frozen sets, messages, LLR magnitudes, histories", "why_tests_cant": "All messages and magnitudes; ties between paths.", "anchors": ["include/Module/Decoder/Polar/SCL/Decoder_polar_SCL_naive.hxx:_decode", "include/Module/Encoder/Polar/Encoder_polar.hpp:Encoder_polar"]}
{"id": "C124", "title": "Polar list decoder with CRC: selection", "statement": "The CRC-aided list decoder returns, among the survivors whose information bits pass the CRC, one of smallest metric, if there is any; otherwise it returns some survivor. (Refuted: in that case it is not the best survivor but the one of the path number 0. Refuted: set_frozen_bits checks the pattern it replaces and not its argument, so a pattern with a wrong number of information bits is accepted and the next frame writes out of bounds.)", "quantifier": "all N >= 2, L, frozen sets, LLRs, CRCs, histories", "why_tests_cant": "All lists of survivors.", "anchors": ["include/Module/Decoder/Polar/SCL/CRC/Decoder_polar_SCL_naive_CA.hxx:select_best_path", "include/Module/Decoder/Polar/SCL/Decoder_polar_SCL_naive.hxx:select_best_path", "include/Module/Decoder/Polar/SCL/Decoder_polar_SCL_naive.hxx:set_frozen_bits"]}
{"id": "C125", "title": "Polar decoders: bit by bit decisions, list of one path", "statement": "The naive SC decoder takes every information bit as the hard decision of the LLR that successive cancellation gives for it after its own previous decisions; and the list decoder with L = 1 returns the same message and codeword as the SC decoder whenever no such LLR is zero.", "quantifier": "all N, frozen sets, LLRs, kernels", "why_tests_cant": "All sequences of decisions.", "anchors": ["include/Module/Decoder/Polar/SC/Decoder_polar_SC_naive.hxx:recursive_decode", "include/Module/Decoder/Polar/SCL/Decoder_polar_SCL_naive.hxx:_decode"]}
{"id": "C126", "title": "The Gallager A, B and E decoders run hard message passing on the graph of the code", "statement": "For every parity-check matrix in which no variable takes part in more than 256 checks, every accepted decoder of the Gallager A, B or E type and every frame, the four tasks (hard or soft input, information bits or codeword) give the decisions of the message-passing algorithm after t iterations: variables first send their channel bit, a check sends to each variable the sum of the bits (A, B) or the product of the signs (E) of its other variables, and a variable sends its channel bit unless all the other messages contradict it (A), unless the others that contradict it outnumber all the messages that agree (B), or the sign of the sum (E, the channel counting twice in the first of these iterations, 0 being an erasure). t is n_ite or, with the syndrome check enabled, the first iteration before n_ite that ends depth consecutive valid syndromes. CWD is 1 when the check is disabled, when t < n_ite or when n_ite is 1; with the check enabled and n_ite > 1, CWD = 1 implies that the bits are a codeword. (Refuted: with n_ite = 1 CWD is 1 on bits that are not a codeword; the syndrome of the last iteration is not computed; Gallager E with 64-bit bits returns only zeros, because the halving of its vote is a product by a constant truncated to zero.)", "quantifier": "all parity-check matrices, numbers of iterations, syndrome depths, positions of information bits and input frames", "why_tests_cant": "The number of graphs and inputs is unbounded; a test decodes a few frames of one code.", "anchors": ["src/Module/Decoder/LDPC/BP/Flooding/Gallager/Decoder_LDPC_BP_flooding_Gallager_A.cpp:_decode", "src/Module/Decoder/LDPC/BP/Flooding/Gallager/Decoder_LDPC_BP_flooding_Gallager_A.cpp:_initialize_var_to_chk", "src/Module/Decoder/LDPC/BP/Flooding/Gallager/Decoder_LDPC_BP_flooding_Gallager_A.cpp:_decode_single_ite", "src/Module/Decoder/LDPC/BP/Flooding/Gallager/Decoder_LDPC_BP_flooding_Gallager_A.cpp:_make_majority_vote", "src/Module/Decoder/LDPC/BP/Flooding/Gallager/Decoder_LDPC_BP_flooding_Gallager_B.cpp:_initialize_var_to_chk", "src/Module/Decoder/LDPC/BP/Flooding/Gallager/Decoder_LDPC_BP_flooding_Gallager_E.cpp:_decode_single_ite", "src/Module/Decoder/LDPC/BP/Flooding/Gallager/Decoder_LDPC_BP_flooding_Gallager_E.cpp:_make_majority_vote", "include/Module/Decoder/LDPC/BP/Decoder_LDPC_BP.hxx:check_syndrome_hard"]}
{"id": "C127", "title": "The Gallager decoders return a codeword received without error, and correct one error on graphs without short cycles", "statement": "For every matrix as above and every codeword received without error, the Gallager A, B and E decoders return the codeword, after any number of iterations. When moreover every variable takes part in at least three checks and no two variables share two checks, every codeword received with one wrong bit, at any position, is returned corrected. In both cases CWD is 1 unless the syndrome check is enabled and 1 < n_ite <= depth.", "quantifier": "all such matrices, codewords, error positions, numbers of iterations and depths", "why_tests_cant": "All codewords of all codes and all positions of the error, whatever the iteration at which the decoder stops.", "anchors": ["src/Module/Decoder/LDPC/BP/Flooding/Gallager/Decoder_LDPC_BP_flooding_Gallager_A.cpp:_decode", "src/Module/Decoder/LDPC/BP/Flooding/Gallager/Decoder_LDPC_BP_flooding_Gallager_A.cpp:_decode_hiho_cw", "src/Module/Decoder/LDPC/BP/Flooding/Gallager/Decoder_LDPC_BP_flooding_Gallager_B.cpp:_initialize_var_to_chk", "src/Module/Decoder/LDPC/BP/Flooding/Gallager/Decoder_LDPC_BP_flooding_Gallager_E.cpp:_initialize_var_to_chk"]}
{"id": "C128", "title": "Adding a codeword to the input of a Gallager decoder adds it to the output", "statement": "For every matrix as above, every codeword x and every hard input y, the Gallager A, B and E decoders give for y + x the output they give for y, plus x, with the same CWD. Simulating the all-zero codeword is therefore enough to measure their error rate on a symmetric channel.", "quantifier": "all matrices, codewords, inputs and settings of the decoder", "why_tests_cant": "It compares two executions for every input and every codeword.", "anchors": ["src/Module/Decoder/LDPC/BP/Flooding/Gallager/Decoder_LDPC_BP_flooding_Gallager_A.cpp:_decode_hiho_cw", "src/Module/Decoder/LDPC/BP/Flooding/Gallager/Decoder_LDPC_BP_flooding_Gallager_A.cpp:_make_majority_vote", "src/Module/Decoder/LDPC/BP/Flooding/Gallager/Decoder_LDPC_BP_flooding_Gallager_B.cpp:_initialize_var_to_chk", "src/Module/Decoder/LDPC/BP/Flooding/Gallager/Decoder_LDPC_BP_flooding_Gallager_E.cpp:_make_majority_vote"]}
{"id": "C129", "title": "The Gallager B decoder sends the majority of the other messages when every variable takes part in an odd number of checks", "statement": "When every variable takes part in an odd number of checks, the Gallager B decoder gives the decisions of the Gallager B algorithm of the literature, in which a variable sends on an edge the majority of the messages received on the other edges and its channel bit when there is a tie. (Refuted for even numbers of checks: the message received on the edge itself is counted, and on the Hamming code one error gives another word than the extrinsic rule.)", "quantifier": "all matrices with odd row degrees, inputs and settings of the decoder", "why_tests_cant": "The two rules differ only on some patterns of messages, at some degrees and after the first iteration.", "anchors": ["src/Module/Decoder/LDPC/BP/Flooding/Gallager/Decoder_LDPC_BP_flooding_Gallager_B.cpp:_initialize_var_to_chk"]}
{"id": "C130", "title": "The frames decoded by a Gallager decoder do not influence one another", "statement": "With a syndrome depth of 1, after any sequence of calls of the tasks of a Gallager A, B or E decoder, the next frame is decoded as by a new decoder, although no state is reset between frames. (Refuted for a depth of 2: the count of valid syndromes goes on from a frame to the next and CWD changes.)", "quantifier": "all histories of calls, matrices and inputs", "why_tests_cant": "The histories are unbounded and the messages of earlier frames stay in memory.", "anchors": ["src/Module/Decoder/LDPC/BP/Flooding/Gallager/Decoder_LDPC_BP_flooding_Gallager_A.cpp:_decode_hiho", "src/Module/Decoder/LDPC/BP/Flooding/Gallager/Decoder_LDPC_BP_flooding_Gallager_A.cpp:_decode_siho", "src/Module/Decoder/LDPC/BP/Flooding/Gallager/Decoder_LDPC_BP_flooding_Gallager_A.cpp:_decode", "include/Module/Decoder/LDPC/BP/Decoder_LDPC_BP.hxx:check_syndrome_hard"]}
{"id": "C131", "title": "OMWBF runs weighted bit flipping", "statement": "For every parity-check matrix with at least one variable and degrees of at most 255, every weighting factor and every LLRs, and whatever was decoded before, the OMWBF decoder starts from the signs of the LLRs and in every iteration, unless the bits are a codeword, inverts the first bit of largest drive: the sum over its checks of their weights (the smallest LLR magnitude in the check), counted positively when the check fails and negatively otherwise, minus the factor times its own magnitude. The three tasks give the bits after n_ite iterations (with signs +1 and -1 minus the input for the soft output), the same with or without the syndrome check and for any syndrome depth. CWD tells whether the bits before the last iteration are a codeword, so that with at least one iteration CWD = 1 only on codewords. (Refuted: with zero iterations, which the constructor accepts, CWD is 1 on any bits; CWD is 0 on a codeword reached by the last flip; a check of 256 variables has the degree 0 and is never seen to fail.)", "quantifier": "all matrices with degrees up to 255, all LLRs, factors, numbers of iterations, syndrome settings and histories of frames", "why_tests_cant": "The claim ranges over all graphs, LLR vectors and numbers of iterations; a test decodes a few noisy frames of one code and compares an error rate.", "anchors": ["src/Module/Decoder/LDPC/BF/Decoder_LDPC_bit_flipping.cpp:BF_decode", "src/Module/Decoder/LDPC/BF/Decoder_LDPC_bit_flipping.cpp:_decode_siho_cw", "src/Module/Decoder/LDPC/BF/OMWBF/Decoder_LDPC_bit_flipping_OMWBF.cpp:BF_process"]}
{"id": "C132", "title": "OMWBF returns codewords and corrects one error", "statement": "For every matrix as in C131, a frame whose signs are a codeword is returned unchanged with CWD = 1. If the code has minimum distance three or more, the factor is not negative, no LLR is zero, exactly one sign differs from a codeword and no other LLR has a smaller magnitude than the wrong one (in particular when all magnitudes are equal), the codeword is returned for every number of iterations of at least one, and CWD is 1 exactly when there are two or more.", "quantifier": "all such codes, codewords, error positions, LLRs, factors and numbers of iterations", "why_tests_cant": "All codewords and all error positions of all codes of distance three or more.", "anchors": ["src/Module/Decoder/LDPC/BF/Decoder_LDPC_bit_flipping.cpp:BF_decode", "src/Module/Decoder/LDPC/BF/Decoder_LDPC_bit_flipping.cpp:_decode_siho_cw", "src/Module/Decoder/LDPC/BF/OMWBF/Decoder_LDPC_bit_flipping_OMWBF.cpp:BF_process"]}
{"id": "C133", "title": "PPBF runs probabilistic parallel bit flipping", "statement": "For every parity-check matrix, table of rmax + 2 probabilities, random engine and received bits (hard or from LLRs), and whatever was decoded before, the PPBF decoder starts from the received bits and in every iteration draws, variable after variable, whether to invert each bit with the probability whose index is its number of failed checks, plus one when it differs from the received bit; the table is never read out of its range. It stops as soon as the last syndrome_depth bit vectors it checked are codewords and gives the last one; otherwise it gives the bits after n_ite iterations. CWD tells whether the last vector that was checked is a codeword. With the syndrome check enabled and a depth of one, CWD = 1 only on codewords. (Refuted: with a depth of two, or without the syndrome check, CWD is 1 on bits that are not a codeword because they were flipped after the last check; CWD is 0 on a codeword reached by the last iteration.)", "quantifier": "all matrices, probability tables, random engines and their states, inputs, tasks and histories of frames", "why_tests_cant": "The behaviour depends on a random engine; a test sees one seed.", "anchors": ["src/Module/Decoder/LDPC/BF/Decoder_LDPC_bit_flipping_hard.cpp:check_syndrome", "src/Module/Decoder/LDPC/BF/Decoder_LDPC_bit_flipping_hard.cpp:_decode_hiho_cw", "src/Module/Decoder/LDPC/BF/PPBF/Decoder_LDPC_probabilistic_parallel_bit_flipping.cpp:vn_process", "src/Module/Decoder/LDPC/BF/PPBF/Decoder_LDPC_probabilistic_parallel_bit_flipping.cpp:cn_process"]}
{"id": "C134", "title": "PPBF and codewords", "statement": "A codeword received without error is returned by PPBF with CWD = 1 whenever the probability of index 0 never inverts a bit, whatever the number of iterations and the syndrome settings. The errors PPBF leaves do not depend on the codeword sent: adding a codeword to the received bits, with the random engine in the same state, adds the codeword to the decoded bits, gives the same CWD and leaves the engine in the same state.", "quantifier": "all matrices, codewords, received bits, random engines and settings", "why_tests_cant": "Simulations of the all-zero codeword rely on the second claim for all codewords and error patterns.", "anchors": ["src/Module/Decoder/LDPC/BF/Decoder_LDPC_bit_flipping_hard.cpp:check_syndrome", "src/Module/Decoder/LDPC/BF/Decoder_LDPC_bit_flipping_hard.cpp:_decode_hiho_cw", "src/Module/Decoder/LDPC/BF/PPBF/Decoder_LDPC_probabilistic_parallel_bit_flipping.cpp:vn_process", "src/Module/Decoder/LDPC/BF/PPBF/Decoder_LDPC_probabilistic_parallel_bit_flipping.cpp:cn_process"]}
{"id": "C135", "title": "The repeat-accumulate decoder computes max-log LLRs", "statement": "For every K, N multiple of K with N at least 2, interleaver, number of iterations and LLRs, and whatever was decoded before, each iteration of the repeat-accumulate decoder computes for every input of the accumulator the exact max-log LLR: the best metric over all input words with that bit 0 minus the best with that bit 1, its own prior taken away. The prior of a copy in the next iteration is the sum of what the iteration says of the other copies of the same message bit, and a bit is decoded to 1 exactly when the sum over its copies is negative after the last iteration. These values are determined by the LLRs received. (Refuted: for K = N = 1, which the constructor accepts, decoding writes before the array of the backward values.)", "quantifier": "all K, N, interleavers, numbers of iterations, LLRs and histories of frames", "why_tests_cant": "The best metric ranges over 2^N words; a test compares an error rate on a few frames.", "anchors": ["src/Module/Decoder/RA/Decoder_RA.cpp:_decode_siho", "src/Module/Decoder/RA/Decoder_RA.cpp:check_node"]}
{"id": "C136", "title": "The repeat-accumulate decoder inverts the encoder", "statement": "For every K, N multiple of K with N at least 2, interleaver, message and number of iterations, if the LLRs have the signs of the bits of the encoder's output, with any non-zero magnitudes, the decoder returns the message, whatever was decoded before.", "quantifier": "all sizes, interleavers, messages, magnitudes, numbers of iterations and histories", "why_tests_cant": "All messages, magnitudes and interleavers.", "anchors": ["src/Module/Decoder/RA/Decoder_RA.cpp:_decode_siho", "src/Module/Decoder/RA/Decoder_RA.cpp:check_node", "src/Module/Encoder/RA/Encoder_RA.cpp:_encode"]}
{"id": "C137", "title": "The errors of the repeat-accumulate decoder do not depend on the message", "statement": "For every message, changing the signs of the LLRs at the ones of its encoding changes the decoded bits exactly at the ones of the message, for every LLRs and number of iterations, except the bits whose copies sum to zero: these are decoded to 0 in both cases.", "quantifier": "all sizes, interleavers, messages, LLRs, numbers of iterations and histories", "why_tests_cant": "Simulations of the all-zero message rely on this for all messages and noise.", "anchors": ["src/Module/Decoder/RA/Decoder_RA.cpp:_decode_siho", "src/Module/Decoder/RA/Decoder_RA.cpp:check_node", "src/Module/Encoder/RA/Encoder_RA.cpp:_encode"]}
{"id": "C138", "title": "Turbo product encoding gives product codewords", "statement": "For every encoder of the lines, every encoder of the columns, with or without the extension by a parity bit, and every message, and whatever the buffers hold, the turbo product encoder built on a row-column interleaver read from a top corner gives the product encoding: the lines of the message are encoded (and extended), then the columns. If both encoders are linear, encoding the columns first gives the same word, and every line and every column of the result, those of the checks on checks included, is a word of the (extended) codes. (Refuted: with a read order that starts at the bottom, which the constructor accepts, the encoders of the columns read lines that were not written: two messages can have the same encoding.)", "quantifier": "all sizes, component encoders, messages and previous contents of the buffers", "why_tests_cant": "All component codes and messages; the commutation is a property of linear maps.", "anchors": ["src/Module/Encoder/Turbo_product/Encoder_turbo_product.cpp:_encode", "src/Module/Encoder/Turbo_product/Encoder_turbo_product.cpp:Encoder_turbo_product"]}
{"id": "C139", "title": "The distance of a turbo product code", "statement": "If the encodings of any two different words differ in at least dr bits for the (extended) code of the lines and dc bits for that of the columns, the turbo product encodings of any two different messages differ in at least dr * dc bits. In particular different messages have different encodings when the component encoders are injective.", "quantifier": "all sizes, component encoders (linear or not) and pairs of messages", "why_tests_cant": "All pairs of messages.", "anchors": ["src/Module/Encoder/Turbo_product/Encoder_turbo_product.cpp:_encode", "src/Module/Encoder/Turbo_product/Encoder_turbo_product.cpp:Encoder_turbo_product"]}
{"id": "C140", "title": "Flip patterns and least reliable positions of the Chase-Pyndiah decoder", "statement": "For every accepted number n of least reliable positions and number of test vectors, the Chase-Pyndiah decoder uses that many pairwise different flip patterns, the first of which flips nothing, and all the 2^n patterns when 2^n test vectors are asked (or none is given); counts that do not fit are refused. For every frame whose magnitudes are below the largest value of their type, the flipped positions are the n least reliable ones (without the parity bit), the least reliable first and equal magnitudes in the order of the frame; this determines them. (Refuted: values saturated at the largest value are never listed, and decoding such a frame writes out of bounds.)", "quantifier": "all code sizes, counts and frames of channel values", "why_tests_cant": "All counts and all frames; ties and saturation are rare in random tests.", "anchors": ["src/Module/Decoder/Turbo_product/Chase_pyndiah/Decoder_chase_pyndiah.cpp:generate_bit_flipping_candidates", "src/Module/Decoder/Turbo_product/Chase_pyndiah/Decoder_chase_pyndiah.cpp:find_least_reliable_pos"]}
{"id": "C141", "title": "The word decided by the Chase-Pyndiah decoder", "statement": "For every hard decoder of the component code, every order that the sort gives to equal metrics, every history of the decoder, and every frame whose magnitudes add up to less than half of the largest value of their type, the word decided by the Chase-Pyndiah decoder is the hard decoding of one of the test vectors (with the parity bit appended for an extended code). If the hard decoding of some test vector is flagged as a codeword, so is the decided one, and no flagged one has a smaller analog weight. The information bits are those of this word. (Refuted: with larger values, such as 8-bit ones, a word that is not a codeword can be decided although a candidate is a codeword.)", "quantifier": "all component codes, hard decoders, pattern sets, frames, previous frames and tie orders of the sort", "why_tests_cant": "All frames and all behaviours of the hard decoder and of the unstable sort.", "anchors": ["src/Module/Decoder/Turbo_product/Chase_pyndiah/Decoder_chase_pyndiah.cpp:decode_chase", "src/Module/Decoder/Turbo_product/Chase_pyndiah/Decoder_chase_pyndiah.cpp:_decode_siho", "src/Module/Decoder/Turbo_product/Chase_pyndiah/Decoder_chase_pyndiah.cpp:_decode_siho_cw", "src/Module/Decoder/Turbo_product/Chase_pyndiah/Decoder_chase_pyndiah.cpp:compute_metrics", "src/Module/Decoder/Turbo_product/Chase_pyndiah/Decoder_chase_pyndiah.cpp:compute_test_vectors"]}
{"id": "C142", "title": "What the Chase-Pyndiah decoder corrects", "statement": "With all the flip patterns and a hard decoder that corrects t errors: if the hard decisions have at most t errors outside the least reliable positions, the decided word is a codeword whose analog weight is at most that of the word that was sent; so it is the sent word when every other codeword is further. With any set of patterns, a codeword received without noise is decided, whatever the hard decoder makes of the other test vectors.", "quantifier": "all component codes, hard decoders, codewords and frames of channel values", "why_tests_cant": "All codewords and error patterns.", "anchors": ["src/Module/Decoder/Turbo_product/Chase_pyndiah/Decoder_chase_pyndiah.cpp:decode_chase", "src/Module/Decoder/Turbo_product/Chase_pyndiah/Decoder_chase_pyndiah.cpp:compute_test_vectors"]}
{"id": "C143", "title": "The soft output of the Chase-Pyndiah decoder", "statement": "For every frame as in C141 and all coefficients a to e, the soft output at each position is the signed reliability of the decided bit minus a times the channel value. The reliability is b times the difference of weights between the closest retained candidate with the other bit and the decided word; without such a candidate it is the beta that was set, or else the sum of the e least reliable magnitudes (of all listed ones for e = 0), minus c times the weight of the decided word, plus d times the magnitude of the position, but at least zero. The retained candidates are the asked number of those flagged as codewords with the smallest weights. A negative beta is refused.", "quantifier": "all component codes, hard decoders, coefficients, frames, previous frames and tie orders of the sort", "why_tests_cant": "All frames and coefficients; the choice of the competitor depends on all the candidates.", "anchors": ["src/Module/Decoder/Turbo_product/Chase_pyndiah/Decoder_chase_pyndiah.cpp:compute_reliability", "src/Module/Decoder/Turbo_product/Chase_pyndiah/Decoder_chase_pyndiah.cpp:_decode_siso", "src/Module/Decoder/Turbo_product/Chase_pyndiah/Decoder_chase_pyndiah.cpp:set_beta", "src/Module/Decoder/Turbo_product/Chase_pyndiah/Decoder_chase_pyndiah.cpp:clear_beta"]}
{"id": "C144", "title": "What the turbo product decoder computes", "statement": "For every product code, number of iterations, alpha and beta lists and component decoders, and every history of the decoder, the soft output of the turbo product decoder for a frame is given by iterating: every column, then every line, of the matrix of values is replaced by alpha times the output of its component decoder plus the channel values, with the alpha and beta of that half iteration (without a list of beta, that of the component decoder). The information bits are those that the decoder of the lines gives, after the last decoding of the columns, for the lines that carry information; for a square matrix the codeword is made of the lines it decodes. A list of the wrong size is refused by the constructor, and a negative beta when a frame is decoded. (Refuted for other shapes: with more lines than columns the last lines of the codeword are left over from earlier calls; with more columns than lines the buffers are overrun for every frame.)", "quantifier": "all component decoders, sizes, iteration counts, alpha and beta lists, frames and previous calls", "why_tests_cant": "All frames, component decoders and histories; the decoded codeword is wrong only for non-square matrices.", "anchors": ["src/Module/Decoder/Turbo_product/Decoder_turbo_product.cpp:Decoder_turbo_product", "src/Module/Decoder/Turbo_product/Decoder_turbo_product.cpp:_decode", "src/Module/Decoder/Turbo_product/Decoder_turbo_product.cpp:_decode_siso", "src/Module/Decoder/Turbo_product/Decoder_turbo_product.cpp:_decode_siho", "src/Module/Decoder/Turbo_product/Decoder_turbo_product.cpp:_decode_siho_cw"]}
{"id": "C145", "title": "Frames without error through the turbo product decoder", "statement": "For every product code and every number of iterations with non-negative alpha: if the signs of the channel values are those of a codeword of the product code, and if the component decoders never contradict a line or column without error (soft outputs of the right sign or zero, right bits), then the soft output has the signs of that codeword, the information bits are those of its lines, and for a square matrix the codeword is returned.", "quantifier": "all product codes, component decoders as said, codewords, magnitudes, iteration counts and previous calls", "why_tests_cant": "All codewords and magnitudes, and all iteration counts.", "anchors": ["src/Module/Decoder/Turbo_product/Decoder_turbo_product.cpp:_decode", "src/Module/Decoder/Turbo_product/Decoder_turbo_product.cpp:_decode_siso", "src/Module/Decoder/Turbo_product/Decoder_turbo_product.cpp:_decode_siho", "src/Module/Decoder/Turbo_product/Decoder_turbo_product.cpp:_decode_siho_cw"]}
{"id": "C146", "title": "The BCH genius decoder", "statement": "For every code size, correction power t, frame and history: the BCH genius decoder compares the hard decisions of the frame with the codeword that the encoder last produced for that frame number; with at most t differences it returns that codeword (its last K bits for the message), otherwise the received bits unchanged; its record of the last result says which. Behind the BCH encoder, at most t errors give back the message. An encoder that does not keep its codewords, and K <= 3 or N < K, are refused at construction. (Refuted: the codeword flag of the tasks is 0 for every frame, also when the codeword was found.)", "quantifier": "all sizes, t, codewords, frames, frame numbers, register sizes and previous calls", "why_tests_cant": "All pairs of codewords and frames, and all histories of the memory of the encoder.", "anchors": ["src/Module/Decoder/BCH/Genius/Decoder_BCH_genius.cpp:_decode_hiho", "src/Module/Decoder/BCH/Genius/Decoder_BCH_genius.cpp:_decode_hiho_cw", "src/Module/Decoder/BCH/Genius/Decoder_BCH_genius.cpp:_decode_siho", "src/Module/Decoder/BCH/Genius/Decoder_BCH_genius.cpp:_decode_siho_cw", "include/Module/Encoder/Encoder.hxx:get_X_N", "include/Module/Encoder/Encoder.hxx:set_memorizing", "include/Module/Decoder/Decoder_SIHO.hxx:_decode_siho"]}
{"id": "C147", "title": "The Reed-Solomon genius decoder", "statement": "The Reed-Solomon genius decoder should return the sent codeword for a frame with at most t wrong symbols and the received one otherwise. (Refuted: for every frame, hard or soft, it throws an unimplemented error, since the tasks call the functions of the base class, which the genius class does not override.)", "quantifier": "all symbol sizes, lengths, frames and buffers", "why_tests_cant": "All frames; the code of the comparison exists but no task reaches it.", "anchors": ["src/Module/Decoder/RS/Genius/Decoder_RS_genius.cpp:_decode", "src/Module/Decoder/RS/Genius/Decoder_RS_genius.cpp:_decode_hiho", "src/Module/Decoder/RS/Decoder_RS.cpp:_decode_hiho", "src/Module/Decoder/RS/Decoder_RS.cpp:_decode_siho"]}
{"id": "C148", "title": "The encoder that plays the codewords of a file", "statement": "For every file that announces n codewords of N bits for messages of K bits and contains their symbols, every first index and every sequence of messages: call number k (from 0) gives codeword number (start + k) modulo n of the file, whatever the messages are, and the positions of the information bits are those listed in the file, or 0 to K - 1 without a list. Files whose sizes are not those of the encoder, and lists of another size than K, are refused. (Refuted: a list with a repeated position is not refused but silently replaced by 0 to K - 1; a negative first index that is no multiple of n makes the first call read before the codewords; a file with too few symbols is not refused and gives uninitialised symbols.)", "quantifier": "all files, sizes, first indices, messages and numbers of calls", "why_tests_cant": "All numbers of calls and all files; the wrong cases need malformed files or a negative index.", "anchors": ["src/Module/Encoder/User/Encoder_user.cpp:Encoder_user", "src/Module/Encoder/User/Encoder_user.cpp:read_info_bits_pos", "src/Module/Encoder/User/Encoder_user.cpp:_encode"]}
{"id": "C149", "title": "Extraction of the information bits and addition of extrinsic values", "statement": "For every code, frame and set of K different information positions: the extractor returns the values at those positions in order, and their signs as bits, so a frame without error gives back the message; adding extrinsic values changes the values at those positions by them and no other value. The positions of a polar extractor are those of the K bits that are not frozen, also after a change of frozen bits. For recursive systematic codes the systematic and parity values are the two halves of the frame (buffered) or its even and odd values. Another number of positions than K is refused. (Refuted for polar: a change to frozen bits with more than K free bits overruns the positions, with fewer it silently keeps positions of an earlier choice.)", "quantifier": "all sizes, positions, frames, frozen bits, tails and previous contents of the buffers", "why_tests_cant": "All position sets and all histories of frozen bits.", "anchors": ["include/Module/Extractor/Extractor.hxx:_get_sys_llr", "include/Module/Extractor/Extractor.hxx:_get_sys_bit", "include/Module/Extractor/Extractor.hxx:_add_sys_and_ext_llr", "src/Module/Extractor/RSC/Extractor_RSC.cpp:_get_sys_and_par_llr", "src/Module/Extractor/Polar/Extractor_polar.cpp:set_frozen_bits", "src/Module/Extractor/Uncoded/Extractor_uncoded.cpp:Extractor_uncoded"]}
{"id": "C150", "title": "The parity values given by the general extractor", "statement": "For the extractors of LDPC, polar and uncoded frames, splitting a frame should give the systematic values and the parity values. (Refuted: the parity output holds the values of the information bits in increasing order of position, followed by what the buffer held; with more information bits than parity bits the buffer is overrun; with as many of both and different values it is never the parity.)", "quantifier": "all sizes, positions, frames and buffers", "why_tests_cant": "All frames; the test of the loop has the wrong sense for every input.", "anchors": ["include/Module/Extractor/Extractor.hxx:_get_sys_and_par_llr"]}
{"id": "C151", "title": "The BCH encoder over several frames at once", "statement": "For every register width (a power of two), every BCH code and every set of messages, one per lane, the encoder that processes all lanes at once gives for each frame exactly the codeword that the encoder of one frame gives for its message, whatever the output and the internal buffers held: a codeword of the code with the message at the information positions.", "quantifier": "all register widths that are powers of two, BCH codes, messages and previous contents of the buffers", "why_tests_cant": "All widths and all combinations of messages in the lanes.", "anchors": ["src/Module/Encoder/BCH/Encoder_BCH_inter.cpp:__encode", "src/Module/Encoder/BCH/Encoder_BCH_inter.cpp:_encode"]}
{"id": "C152", "title": "Probed values are reported in order and none is lost", "statement": "For every capacity and every history of values probed, values reported and resets, from any number of threads, in which a column is never filled after a value was taken from it: the values come out in the order in which they were probed, each once, an empty column gives nothing, and a value probed in a full column is dropped. (Refuted for other histories: when a full column is read once and written once, it is taken for an empty one and all the unread values are lost.)", "quantifier": "all capacities, values and histories of pushes, pulls and resets", "why_tests_cant": "All histories: the loss needs a column that gets full again after it was read, hundreds of values after the start.", "anchors": ["include/Tools/Display/Reporter/Probe/Reporter_probe.hxx:push", "include/Tools/Display/Reporter/Probe/Reporter_probe.hxx:pull", "include/Tools/Display/Reporter/Probe/Reporter_probe.hxx:col_size", "src/Tools/Display/Reporter/Probe/Reporter_probe.cpp:reset"]}
{"id": "C153", "title": "Names and columns of probes", "statement": "For every list of at most 101 different names, creating the probes is accepted and gives them the columns in order; a name that exists is refused; with at most 100 probes a value goes to the column of its name and no other column changes. (Refuted: with 101 probes, which are accepted, probing the last one accesses a mutex that does not exist; probing an unknown name silently pushes in the first column, after which that name cannot be created.)", "quantifier": "all lists of names, values and states of the columns", "why_tests_cant": "All numbers of probes: the boundary is at 101 probes.", "anchors": ["src/Tools/Display/Reporter/Probe/Reporter_probe.cpp:create_probe_checks", "src/Tools/Display/Reporter/Probe/Reporter_probe.cpp:create_probe_value", "src/Tools/Display/Reporter/Probe/Reporter_probe.cpp:probe"]}
{"id": "C154", "title": "The extractor gives back the message of a systematic encoder", "statement": "For every message, every power of two length and every set of frozen bits whose information set is closed under domination, a frame encoded by the systematic polar encoder and received with no sign error gives the message back through the extractor built with the same frozen bits; the same holds for every recursive systematic code that the constructor accepts, in both orders of the bits, whatever the amplitudes of the received values.", "quantifier": "all messages, frozen sets, generators, frame sizes, received frames without sign error and previous contents of the buffers", "why_tests_cant": "All frozen sets, generators and received values: the encoder and the extractor compute the positions separately.", "anchors": ["src/Module/Extractor/Polar/Extractor_polar.cpp:set_frozen_bits", "src/Module/Extractor/RSC/Extractor_RSC.cpp:_get_sys_bit", "src/Module/Encoder/Polar/Encoder_polar_sys.cpp:_encode", "src/Module/Encoder/RSC/Encoder_RSC_sys.cpp:_encode"]}
{"id": "C155", "title": "The CRC stopping rule of double binary turbo decoding checks the most likely pairs", "statement": "For every frame of pairs of bits, every received and extrinsic values and every CRC: from the first iteration that checks, the decoder stops exactly when the CRC accepts the frame in which each bit is 1 if and only if some pair with this bit at 1 is strictly more likely than the two pairs with it at 0; where one pair is strictly the most likely its two bits are decided; before that iteration it never stops and no buffer changes.", "quantifier": "all frame sizes, values, CRC functions, iterations and previous contents of the buffers", "why_tests_cant": "All values of the four likelihoods of each pair, ties included, and all frame sizes.", "anchors": ["src/Tools/Code/Turbo/Post_processing_SISO/CRC/CRC_checker_DB.cpp:siso_n"]}
