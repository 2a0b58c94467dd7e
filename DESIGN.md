# Formal model of aff3ct in Rocq (Coq 8.16.1)

## 1. Approach

The model is a set of small total Gallina functions that follow the C++ code of
/repo function by function. Each definition has a comment with the file and
lines it models and the simplifications made. Files are organised per topic in
`rocq/theories`:

* `XModel.v`  definitions that follow the code; no proofs;
* `XSpec.v`   independent specification: what the English property says;
* `XProofs.v` lemmas;
* `XProps.v`  final theorems, examples that meet the hypotheses, `Print Assumptions`.

(small topics merge some of these files.)

Conventions

* Arrays are lists; an access through a pointer is `nth_error`/`update`, and an
  access outside the array is the outcome `Undef` (undefined behaviour) of the type
  `outcome A := Ret a | Throws | Undef`. A C++ exception is `Throws`.
* Bits are `bool` where the code only distinguishes zero from non-zero.
* C++ integers are `nat`, `N` or `Z`; where the width matters wrap-around is
  written explicitly, otherwise the comment says that overflow is excluded.
* Floating-point is modelled by exact `Z`, `Q` or `R` arithmetic, except where the
  rounding is what the property is about (float32 of an integer).
* Threads: interleaving small-step semantics over sequentially consistent
  shared state, mutexes and condition variables as primitives.
* Templates: one model for all instances.
* If the code does not have the property, the theorem is called `..._refuted`
  and exhibits a witness state of the model; next to it the strongest restriction
  that does hold is proved.

## 2. Trusted base

* Coq 8.16.1 kernel (and `coqchk`), including `vm_compute`.
* Axioms: section 5 lists what `Print Assumptions` reports. No axiom is added by
  the development. Theorems over the reals use the axioms of the standard
  library's `Reals`.
* The hand translation from C++ to Gallina (the cited lines are the evidence).
* Not modelled unless said so: memory allocation, SIMD intrinsics (MIPP) other
  than as lane-wise functions, weak memory ordering, iostream formatting,
  floating-point rounding.

## 3. Plan per property

| Id | Model | Proof |
|----|-------|-------|
| C01 | `interleave`, `deinterleave`, reordered variants, `refresh` | pointwise on lists, permutation lemmas |
| C02 | the generators; random ones take an arbitrary permutation of `shuffle` | arithmetic on row/column indices; sorting is a permutation |
| C03 | the tables and formulas | general theorem on quadratic/affine maps mod K plus computed table check |
| C04 | `read` of the user file as a list of numbers | decision procedure correct |
| C05, C06 | `pack`, `unpack`, in-place variants | induction on bits; refutation for several frames |
| C07-C10 | `generate`, `check`, `build`, fast versions | division of polynomials over GF(2); loop invariants |
| C11-C15 | `light_encode`, `convert`, systematic encoder, `is_codeword`, SC decoder, shortening | induction on n, GF(2) linear algebra |
| C16-C18 | puncturers | list induction; refutation for turbo_DB |
| C19-C22 | RSC, turbo, RA and repetition encoders | state-machine induction |
| C23-C27 | Galois tables, BCH/RS encoders, syndromes, decoder | polynomial algebra over a table-defined field |
| C28-C38 | binary matrices, LDPC encoders, matrix handler, AList, peeling | linear algebra over GF(2), invariants |
| C39-C42 | sockets, modules, tasks as state machines | invariants over call histories |
| C43-C45 | adaptors as a labelled transition system | inductive invariants over all schedules |
| C46-C49 | switcher, iterator, controllers, monitors, histogram | induction on histories |
| C50-C56 | sorter, helpers, reorderer, hard decision, quantizer, conversions | list induction; `R` for conversions |
| C57-C63 | ML decoder, frozen bits, node patterns, sequence builder and runner, coset, PRNG | induction; optimality by exhaustive fold invariant |
| C64-C69 | SIMD CRC, multi-kernel polar encoders, double-binary codes, DVB-S2 encoder | lane-wise functions; linear algebra; the tables are in the model |
| C70-C74 | draws, interpolation, integration, integer helpers, custom quantizer | rounding to nearest over Q (FloatQ.v); induction |
| C75-C78 | distances, dump of a histogram, callbacks, averages | induction on lists and on histories |
| C79-C81 | exceptions in tasks and sequences, copy of a pattern parser | state after every exit path; refutations |
| C82-C83 | erasure-channel polarization, Chase decoder | induction on the levels; subsets of positions |
| C84-C86 | noise objects, generate_range, check_LUT | histories; loops with fuel, termination proved |
| C87-C91 | BP decoders of LDPC codes: flooding, layered, update rules | simulation of a textbook message-passing specification; invariants on messages |
| C92-C101 | constellations, generic, vectorised, BPSK and OOK modems | Gray amplitudes by induction on the bits; the models are generic in the arithmetic: rationals with any rounding, reals |
| C102-C105 | binary file source and sink, text file source | invariant on the position in the file and the bits left; induction on the history of calls |
| C106-C110 | channels: NO, AWGN, Rayleigh, Rayleigh_user, user, user_add, user_be, user_bs, BEC, BSC | the generator is any state machine; invariant on its state, the position in the file and the buffers; induction on the history of calls |
| C111-C114 | generic BCJR decoder of recursive systematic convolutional codes, over an abstract number type; its trellis is that of the encoder model | invariant of the forward and backward recursions: metric = combination over partial paths, up to one constant per column (normalisation); sums over paths split at each time; terminated paths are the codewords; instances Z, R with max, R with max_star |
| C115-C117 | turbo decoders (std and fast, both layouts, several frames per wave) with their post-processings, over abstract SISO decoders; the BCJR decoder as an instance | ideal turbo decoding of one frame as a recursion on lists (TurboDecSpec.v); every buffer is the side-by-side of the ideal vectors of the frames; composition with C111 (right signs in, right signs out) and with the turbo encoders (C20) |
| C118-C120 | the post-processings alone: siso_n and siso_i of each object | loop of the patterns by induction; state of the self-correction as a recursion on the iterations; arithmetic of the shifts |
| C121-C125 | naive SCL decoder and its CRC variant: the L trees, duplication of LLRs and partial sums, the set of active paths | per tree: invariant that says which LLRs and sums of the tree are valid at a leaf; per list: the active paths are the survivors of an inductive specification; metric = discrepancy by induction on N |
| C126-C130 | The three Gallager decoders (GalModel.v): the loops over the edges of the graph, with a record of the three virtual methods | Specification: hard message passing on a graph for any message type and rules (GalSpec.v). Proved by an invariant over the iterations on the graph lemmas of the belief-propagation decoders (GalProofs.v, GalInst.v); symmetry, noiseless frames and single errors by induction on the iterations of the specification (GalSpecProofs.v) |
| C131-C134 | The bit-flipping decoders (FlipModel.v): OMWBF on exact rationals and PPBF with any random engine | Specification: one step of weighted flipping as a relation, parallel flipping as a fold of draws (FlipSpec.v). Proved by invariants over the iterations; single-error correction by comparing the drives of two variables over all the checks |
| C135-C137 | The decoder of repeat-accumulate codes on exact rationals (RaDecModel.v) | Specification: metric of all input words of the accumulator, best metric, sums over the copies (RaDecSpec.v). The loops are shown to compute recurrences; the recurrences are shown to be differences of dynamic-programming maxima, which bound every word and are attained |
| C138-C139 | The encoder of turbo product codes over any component encoders (TpcModel.v), with the row-column interleaver of InterleaverModel.v | Specification: product encoding by lines then columns and by columns then lines, distances (TpcSpec.v). Loop invariants for the two passes; linear maps are expanded over the unit words and the sums exchanged; the distance by counting the columns where two lines differ |
| C140-C143 | The Chase-Pyndiah decoder of component codes over any hard decoder and any sort (PyndModel.v) | Specification: least reliable positions, candidates, analog weight, decided word, retained candidates, reliability (PyndSpec.v). The patterns are read bit by bit; the insertion of positions is a prefix of an insertion sort; loop invariants; the sorted competitors are a permutation whose good ones come first |
| C144-C145 | The turbo product decoder over any component decoders (TpdModel.v) | Specification: matrix of values, half iterations on columns and lines (TpdSpec.v). Loop invariants on lines; the interleaver tables of C02 turn lines into columns and back; induction on iterations; signs are kept by every half iteration |
| C146-C147 | The codeword memory of encoders and the genius decoders (GeniusModel.v) | Specification: number of differences and choice of the word (GeniusSpec.v). Hard decisions by C54, distances by the model of hamming_distance, the message by C24; the dispatch of the Reed-Solomon tasks is followed to the exception |
| C148 | The encoder that plays a file (UserEncModel.v), the file given as its numbers | Specification: words and positions of the file (UserEncSpec.v). Induction on the calls, with modular arithmetic on the counter; malformed files by following the reading loop |
| C149-C150 | The extractors (ExtractModel.v) over any type of values; the codelets as if they captured by value | Specification: values at positions, free positions, positions inside and outside a set (ExtractSpec.v). Loop invariants; loops that append are runs of a filter |
| C151 | The BCH encoder over several frames (BchInterModel.v), with the reordering of ReorderModel.v | Specification: the scalar encoder and the codewords of C24. Both loops are shown to follow the same step function, lane by lane, by nested loop invariants; C53 for the reordering, whose condition holds for as many frames as lanes |
| C152-C153 | The reporter of probes (ProbeModel.v): circular buffers and columns; formatting of values and clocks are not modelled | Specification: a bounded queue and the histories that do not fill it after a read (ProbeSpec.v). Refinement of the queue by the buffer, by induction on the history; names by induction on the list of creations |
| C154 | The systematic polar and RSC encoders followed by their extractors (models of C12, C19 and C149) | Specification: a frame with no sign error (ExtractEndProps.v). Composition of C12, C19 and C149 |
| C155 | CRC_checker_DB::siso_n (DbCrcModel.v); sums do not wrap | Specification: decision on a bit from the four values of its pair, strict winner (DbCrcSpec.v). Loop invariant on the decided pairs |

Anything not reached keeps status `not_applicable` in MANIFEST.json with the reason in its note.

## 4. What is modelled, file by file

The head comment of each `XModel.v` names the files of /repo it models and each definition cites the lines. By area:

| Area of /repo | Modelled | Not modelled |
|---|---|---|
| Tools/Interleaver, Module/Interleaver | all cores, the module, the user core (a file is a list of numbers) | the shuffle of std::shuffle (any permutation) |
| Tools/Algo/Bit_packer | all functions | - |
| Module/CRC | NO, polynomial, fast, inter | MIPP: lane-wise functions |
| Module/Encoder | NO, AZCW (trivial), repetition, RA, RSC, RSC_DB, turbo, turbo_DB, polar, polar sys, MK, MK sys, BCH, RS, LDPC (all), coset, turbo product, user, BCH inter | - |
| Module/Decoder | polar SC naive, repetition, BCH std, RS std, ML std/naive, Chase, LDPC peeling, LDPC BP flooding and layered, Gallager A/B/E, bit flipping OMWBF and PPBF, repeat-accumulate, polar SCL naive and SCL naive with CRC, generic BCJR, turbo, Chase-Pyndiah, turbo product, BCH and RS genius | SIMD BP, fast SC/SCL, SCAN, hard-coded BCJR, double-binary turbo |
| Module/Extractor | all | the reference capture of the codelet of get_sys_and_par_llr |
| Module/Puncturer | NO, polar shortening, turbo, turbo_DB, LDPC | polar wangliu file reading |
| Tools/Math, general_utils | Galois, interpolation, integration, helpers, conversions, range, LUT | statistical distributions, integral functions |
| Tools/Algo/Matrix, Tools/Code/LDPC | sparse, full, products, matrix handler, AList, QC, syndrome, update rules MS/OMS/NMS/AMS | update rules SPA/LSPA, streams other than text lists |
| Tools/Code/Polar | frozen-bit generators (BEC, 5G, file, TV by values), patterns, fb_extract | GA integrals, API of unrolled decoders, nodes SPC/REP computations |
| Tools/Algo (others) | sorter LC, PRNG MT19937, draws, histogram, callback, binary tree | SIMD PRNG, other Gaussian generators |
| Module/{Module,Task,Socket} | frames, waves, exec, bind/unbind/reset, exceptions | names, statistics, debug printing |
| Tools/Sequence, Module/{Switcher,Iterator,Controller,Adaptor} | construction, execution, adaptors as a transition system | thread pinning, no-copy adaptors, Pipeline set-up |
| Module/{Monitor,Quantizer,Coset}, Tools/{Monitor,Perf,Noise} | counters, reduction, quantizers, distances, hard decision, reorderer, noise objects | reporters, dumpers, MPI |
| Tools/Constellation, Module/Modem | PAM, QAM, PSK and user constellations; generic, vectorised generic, BPSK and OOK (BEC, BSC, AWGN) modems | CPM, SCMA, optical OOK, infinities and NaN, overflow and underflow of floats |
| Module/Source, Module/Sink | user (text), user_binary, AZCW, binary sink | FIFO mode, errors of the file system, random sources |
| Module/Channel | NO, AWGN, Rayleigh (both), user (all), BEC, BSC; Event_generator_fast | optical channel, other event and Gaussian generators, reading of the noise file, floating-point rounding (any arithmetic) |
| Module/Decoder/RSC/BCJR | Decoder_RSC_BCJR, Seq_generic std, one frame per wave, exact arithmetic | the other hard-coded or SIMD variants, 8-bit saturations, overflows, rounding, CPE trellis |
| Module/Decoder/Turbo, Tools/Code/Turbo/Post_processing_SISO | Decoder_turbo, Decoder_turbo_std, Decoder_turbo_fast, scaling factors, CRC_checker, Flip_and_check, Self_corrected | double-binary decoders (DB), decode_siso of the turbo decoder (not implemented in the code) |
| Module/Decoder/LDPC/BP/Flooding/Gallager | Decoder_LDPC_BP_flooding_Gallager_{A,B,E}.cpp: all the tasks, messages, votes and the loop of the iterations (GalModel.v) | several frames at once, timers |
| Module/Encoder/Turbo_product | Encoder_turbo_product.cpp: constructor and _encode (TpcModel.v) | Encoder memorizing, several frames |
| Simulation, Factory, Launcher | what section 3 says | the rest |

## 5. Axioms

`Assumptions.v` (generated) gathers the claimed theorems in tuples and runs `Print Assumptions` on them: the tuple of all the theorems that do
not mention real numbers is "Closed under the global context", so each of them is. For the theorems on real numbers (file SnrProps.v, property
C56, except C56_rounded_partial, which is closed; files ModemCstlProps.v and
ModemSoftProps.v, properties C92, C100, C101 and the theorem C99_bsc; BcjrRealProps.v, property C114) it lists the axioms on which the standard library builds `Reals`, and nothing else:

* `ClassicalDedekindReals.sig_not_dec`, `ClassicalDedekindReals.sig_forall_dec`
* `FunctionalExtensionality.functional_extensionality_dep`
* `Classical_Prop.classic` (used by the library for exp and ln)

## 6. Wrong programs

seeded/LOG.jsonl has one line per edited definition: the edit, the claim it breaks and the theorems or lemmas that no longer compile.
