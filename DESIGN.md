# Formal model of emp-zk in Rocq

Target: `/repo` (emp-toolkit/emp-zk, C++ headers). The model is hand-written Gallina, one
definition per C++ function, each with a comment citing file and lines. The theorems are about
that model, for all inputs, sizes, thread counts and executions.

1. [Trusted base](#trusted-base)
2. [Conventions](#conventions)
3. [What is modelled](#what-is-modelled)
4. [What is not modelled](#what-is-not-modelled)
5. [Properties: model, proof, theorems](#properties)
6. [Findings](#findings): where the code does not do what one would expect
7. [Mutation tests](#mutation-tests)
8. [Print Assumptions](#print-assumptions)

## Trusted base

* The Coq 8.16.1 kernel, including its virtual machine (`vm_compute` is used in examples, in the
  Lucas certificate of C02 and in the irreducibility check of C03).
* What `Print Assumptions` lists for each theorem: nothing. Every theorem of `MANIFEST.json` is
  "Closed under the global context" ([list](#print-assumptions)). The files use no axiom, also none
  of the standard library. (The checker lists `Coq.ssr.ssrunder.Under_rel.*`, an abstract module of
  the ssreflect plugin that some standard file loads; no theorem depends on it.)
* The reading of the C++ text: each model definition is a transcription by hand. Mutation tests
  check that the theorems notice changes of the model, not that the model equals the C++.
* Contracts for code outside `/repo` (emp-tool, emp-ot). Each is either a variable the theorem
  quantifies over, or a definition:

| external code | how it enters |
|---|---|
| `gfmul`, `reduce`, `mul128` of emp-tool | multiplication modulo x^128+x^7+x^2+x+1 (`GF128.v`); `/repo`'s own `gfmul.h` is modelled on carry-less products |
| `uni_hash_coeff_gen` (blocks), `vector_inn_prdt_sum_red` | powers seed^1..seed^n; inner product |
| `GaloisFieldPacking` | base[i] = x^i |
| `FerretCOT`, `BaseCot`, `OTCO` | ideal correlated OT: arbitrary keys, arbitrary choice bits, correlation holds |
| `PRG`, `PRP`, `CCRH`, `Hash`, `TwoKeyPRP` | arbitrary functions (quantified over). Binding statements say "or here is a collision" |
| challenge seeds | arbitrary, equal on both sides; equality of the transcript hashes is C16. In C40 they may depend on everything sent before |
| IO channels | lossless FIFO byte streams of unbounded capacity (`BoolIOModel.v`); message lists elsewhere |
| `Integer`, `Bit`, `Float` | fixed-width two's complement. Comparison: sign of the difference (RAM); any function right when the difference fits (floats). In C62 the circuits of `==`, `<` and `|` are gate lists (`RamGateModel.v`: AND chain; ripple borrow without the top carry; XOR and AND), proved to compute these functions. In C64 also `+` and `-` (ripple, no carry out) |
| `BristolFormat::compute` | gates of the file in order on a wire array, last n3 wires copied out (`BTestModel.v`, C64); the circuit file is a parameter |
| `ThreadPool` | all tasks run, in any interleaving; `get()` waits (C41, C52) |
| `std::sort` | any list: theorems quantify over what the prover claims as sorted list |

* C++ semantics: machine words wrap as written in the model; undefined behaviour is a separate
  outcome. Programs without data races have interleaving semantics (used by C41, which proves the
  absence of races).

## Conventions

* Machine words are `N`; every wrap-around is an explicit `mod 2^w`.
* Blocks are `N < 2^128`; the low bit is the value bit in the boolean engine.
* Undefined behaviour (out-of-bounds access, division by zero, use of a dead object, double delete)
  is an explicit outcome (`None` or an error constructor), never a default value.
* Correlations: boolean K = M xor x*Delta; F_p (p = 2^61-1) mac = key + x*Delta; GF(2^128)
  mac = key + x*Delta. A *key bound* says how many values of Delta let a wrong statement pass; a
  *challenge bound* how many seeds hide it. They are exact counts, not probabilities.
* Files: `*Model.v` definitions only; `*Spec.v` independent specifications; `*Proofs.v`, `*Alg.v`,
  `*Thms.v`, ... lemmas; `Prop*.v` theorem statements, `Print Assumptions` and concrete examples
  that meet the hypotheses.
* A theorem ending in `_refuted` shows that the expected statement is false of the modelled code,
  with a witness or for all inputs of a class.
* `tools/manifest.py` regenerates `MANIFEST.json` and the tables of this file from the sources and
  `tools/status.json`.

## What is modelled

| code | model file | properties |
|---|---|---|
| `emp-vole/utility.h` | `FpModel` | C01, C02 |
| `extensions/ram-zk/gfmul.h` | `GF128`, `GfmulModel` | C03 |
| `emp-zk-bool/{ostriple,triple_auth,zk_prover,zk_verifier,zk_bool_circuit_exec,cheat_record}.h` | `BoolModel` | C04-C07, C40 |
| `emp-zk-bool/bool_io.h` | `BoolIOModel` | C15-C17 |
| `emp-zk-bool/polynomial.h` | `BoolPolyModel` | C14 |
| `emp-zk-arith/{ostriple,triple_auth,polynomial,zk_fp_exec*,int_fp}.h` | `ArithModel` | C08-C13, C40 |
| `emp-vole/{preot,spfss_sender,spfss_recver}.h`, `emp-vole-f2k/spfss_f2k_*.h` | `TreeModel` | C18, C19 |
| `emp-vole/{cope,base_svole,mpfss_reg,lpn,vole_triple}.h` | `VoleModel`, `VoleTripleModel`, `PoolModel` | C20-C25 |
| `emp-vole-f2k/{base_svole,mpfss,lpn_f2k,svole}.h` | `VoleF2kModel` | C19-C22, C30 |
| `edabit/{edabits,auth_helper}.h`, `emp-zk-arith/conversion.h` | `EdaModel` | C26-C29 |
| `extensions/ram-zk/{ostriple,poly_prdt}.h` | `F2kModel` | C31, C32, C40 |
| `extensions/ram-zk/{ro-zk-mem,zk-mem,zk-mem-ext}.h` | `RamModel` | C33-C37 |
| `extensions/lowmc.h` | `LowMcModel` | C38 |
| `emp-zk-bool/{cheat_record,emp-zk-bool}.h/.cpp`, `emp-zk-arith/emp-zk-arith.h/.cpp`, constructors and destructors | `SessionModel` | C39 |
| worker threads of the three batch checks and the two linear expansions | `ThreadModel` | C41 |
| `extensions/floats.h` | `FloatModel` | C42 |
| engines on top of `VoleTriple::extend` and `SVoleF2k::extend_inplace` | `EndModel` | C43 |
| the Boolean engine's sends, receives, flushes and hashes as programs over `BoolIO` | `WireModel` | C44 |
| the arithmetic engine's sends, receives, flushes, hashes and challenge draws as programs over `BoolIO` (ptr constant) and `NetIO` send buffers | `AWireModel` | C45 |
| the `IntFp` calls and `reveal()` of bits as programs whose later calls depend on opened values | `ClientModel` | C46 |
| self-check functions of both engines and of the generators, `compute_mu_*` | `DebugModel` | C47 |
| the verifier's half of `emp-vole` for F_p run alone: trees, messages obtained by the prover, check reply, LPN stages, set-up and repeated extension (OT idealised: the prover gets the message of its choice bit; prover messages are constants) | `CheatModel` | C48 |
| the two sides of `emp-vole-f2k` run alone: trees, messages obtained by the prover, check reply, LPN stages, set-up and repeated extension (OT idealised: the prover gets the message of its choice bit) | `CheatF2kModel` | C49 |
| games built from `ver_exec` and `av_exec`: seeds, key and prover strategy (order of messages and challenges of `emp-zk-bool/ostriple.h`, `emp-zk-arith/ostriple.h`, `polynomial.h`) | `GameSpec.v`, `GameArithSpec.v` | C50 |
| `inn_prdt`, `_bch2`, `_bch3`, `vector_inn_prdt*`, `check_MAC_valid` (`ram-zk`), single-tree `consistency_check` (`emp-vole/spfss_*.h`), `check_correctness` (`emp-vole-f2k/base_svole.h`), `sender_check_*` (`edabits.h`), `extend_inplace` (`emp-vole-f2k/svole.h`) | `UnusedModel` | C51 |
| threads, futures, connections and buffering of `mpfss` (`emp-vole/mpfss_reg.h`, `preot.h`, `spfss_*.h`, `emp-vole-f2k/mpfss.h`, `spfss_f2k_*.h`), both parties | `MpThreadModel` `Mp2ThreadModel` | C52 |
| the prover's half of both MPFSS against arbitrary verifier messages | `MalVerModel` | C53 |
| the GF(2^128) engine as two programs over BoolIO | `FWireModel` | C54 |
| cut-and-choose of the masks with arbitrary boolean and field halves | `EdaModel` (`EdaCutSpec`) | C55 |
| words shown by mask generations and conversions as functions of the candidates | `EdaModel` (`EdaHideSpec`) | C56 |
| sessions of generations and conversions, honest and with an adaptive prover | `EdaModel` (`EdaSessSpec`) | C57 |
| messages of the prover during set-up and first expansion | `VoleModel`, `VoleF2kModel` (`VoleHideSpec`) | C58 |
| test programs of `test/arith` as call sequences | `AppModel` | C59 |
| whole boolean sessions: gates and relations interleaved, `finalize_zk_bool`; `test/bool/inner_prdt.cpp`, `polynomial.cpp` | `BSessModel` | C60 |
| test/ram/{ram_test,ram_ext_test,ro_ram_test}.cpp; calls and results of ZKRAM, ZkRamExt, ROZKRAM | RamProgModel.v | what a call records and returns for a prover that feeds given values; refresh() of the wide memory; the programs as lists of calls. Not modelled: timing output, communication counters. |
| emp-zk/extensions/ram-zk/zk-mem.h (gate level) | RamGateModel.v | read/write/access as gates and recorded wire numbers, the inputs fed for the sorted list, the order circuit, the revealed bit, the packing of the labels into F2k elements. Not modelled: refresh() at this level (see RamProgModel.v). |
| emp-zk/extensions/ram-zk/ro-zk-mem.h (gate level) | RoGateModel.v | init() and read() as gates and recorded wire numbers, the inputs fed for the sorted list, the comparison of neighbours and its revealed bits, the packing of the labels into F2k elements. Not modelled: several periods in one list of calls (earlier periods are gates), the wrap of list.size() - 1 for an empty list. |
| test/bool/{example,sha256,memory_scalability,circuit_scalability,input_scalability}.cpp | BTestModel.v | The gates of each program between setup_zk_bool and finalize_zk_bool, for any width, circuit file, depth and round count. Not modelled: timing and memory output, the branch of input_scalability.cpp for more than 10^8 inputs, test_merkle_tree (not called). |
| test/arith/abconversion.cpp | AbConvModel.v | The whole program: loops, additions on both representations, the batch conversions with the stock of masks (`EdaModel`), the plain copy, both final comparisons. Not modelled: sync_zk_bool, timing, the circuits below the 62-bit numbers. |
| extensions/ram-zk/zk-mem-ext.h (ZkRamExt::read, write, pack, check) at gate level | WideGateModel.v | Wires, labels, packed and compressed labels of a program with wide-memory calls and one check; the claimed list is the prover's choice. Not modelled: refresh() (several checks in one session), values of one word. |
| emp-zk-bool/polynomial.h (batch_check: the messages) and the order of checks in finalize_zk_bool over BoolIO | BWireModel.v | Both parties of a session with gates and relations as programs over the endpoints of BoolIOModel.v. Not modelled: the stream below BoolIO; the explicit flush after the sends of batch_check is left out and proved to do nothing. |
| emp-zk-arith/polynomial.h:49-61 against arbitrary verifiers | AWireHideSpec.v, AWireLeak.v | No new code: the programs of AWireModel.v run against any verifier program, with the list of what the prover reads. |
| emp-vole/base_svole.h:83-97 with an arbitrary received seed | VoleRawSeed.v | The check of VoleModel.v applied to the received word instead of the verifier's reduced one. |
| both engines over one BoolIO (test/arith/abconversion.cpp:17-18, 69-70), with the data of emp-zk/edabit as byte strings | `XWireModel`, `XWireSpec`, `XWireHideSpec` | C69 |
| communication() of both parties (bool_io.h:102, 107, emp-zk-bool/ostriple.h:84-89, emp-zk-arith/ostriple.h:467-472) | `CommSpec`, `CommVerSpec` (over `XWireModel`) | C70 |

## What is not modelled

* Everything outside `/repo` (see the contracts above): in particular the circuits behind `Integer`
  and `Float` operations, the OT extension, AES and SHA.
* The traffic of the COT and VOLE set-up in `communication()`; the bytes of the session itself are counted in C70.
* Timing counters, `cout` output other than the fact that a failure is only printed, memory
  allocation failure, integer overflow of `int` sizes beyond 2^31.
* LowMC's PRG-generated matrices (arbitrary matrices instead).
* Network errors, side channels, and computational hardness: LPN, OT security and hash collision
  resistance are not statements of this model. Soundness theorems count keys and challenges; C50
  counts them jointly for adaptive provers of the boolean and arithmetic sessions, which is an error
  probability for uniform choices. The F2k engine has no such count (its session soundness is refuted).

<!-- properties:begin -->
## Properties

| id | property | status | modelled and proved how | theorems |
|---|---|---|---|---|
| C01 | Prime-field primitives compute exact canonical results | proved | `utility.h` functions on N with explicit 64/128-bit wrap; bit and div-mod lemmas | `C01_scalar_exact` `C01_mod_word_exact` `C01_mod_wide_exact` `C01_mod_wide_congruent` `C01_block_lanes` `C01_block_mod` `C01_batched` `C01_batched_blocks` `C01_coeff_gen` `C01_inner_product` `C01_noncanonical_refuted` `C01_mult_unreduced_refuted` |
| C02 | The arithmetic modulus defines a field | proved | Lucas certificate for 2^61-1; polynomials as coefficient lists, synthetic division | `C02_prime` `C02_no_zero_divisors` `C02_root_bound` |
| C03 | 128-bit block multiplication is multiplication in a field | proved | carry-less product on N, reduction by shifting; ring laws by linearity, field by Frobenius and a Berlekamp kernel check | `C03_commutative` `C03_associative` `C03_distributes` `C03_unit` `C03_inverse` `C03_no_zero_divisors` `C03_modulus` `C03_batched_products` `C03_halves_fit` `C03_lazy_reduction` |
| C04 | Boolean proofs are complete for every circuit | proved | prover and verifier as two state machines over an ideal COT stream; simulation invariant K = M xor x*Delta for every gate sequence | `C04_honest_session_accepts` `C04_defined_iff` `C04_small_batch_refuted` |
| C05 | A wrong AND gate is caught by the batch check | proved | arbitrary prover messages; the verifier's check is a quadratic in Delta; roots counted; challenge polynomials in the seed | `C05_session_soundness` `C05_challenge_bound` `C05_vanishing_combination_passes` |
| C06 | Which gates the threaded boolean check covers | proved | chunk arithmetic of the manager function; Euclidean division | `C06_exact_coverage` `C06_complete_iff` `C06_in_bounds` `C06_disjoint` `C06_large_batches_complete` `C06_division_by_zero_iff` `C06_full_batch_complete` `C06_unchecked_gate_refuted` |
| C07 | A boolean reveal is binding | proved | opening digest as list of labels; wrong bit needs the key or a collision | `C07_correct_bit_matches` `C07_wrong_bit_needs_key` `C07_wrong_bit_one_key` `C07_session_binding` |
| C08 | Arithmetic proofs are complete for every circuit | proved | same state machines over F_p words; invariant mac = key + x*Delta and word bounds | `C08_honest_session_accepts` `C08_defined` `C08_many_threads_refuted` |
| C09 | A wrong multiplication is caught by the arithmetic batch check | proved | as C05 over F_p, arbitrary prover with corrections at most p | `C09_session_soundness` `C09_session_soundness_two` `C09_batch_bound` `C09_challenge_bound` `C09_vanishing_combination_passes` `C09_unreduced_correction_refuted` |
| C10 | Which multiplications the threaded arithmetic check covers | proved | as C06 with the 32-gate threshold | `C10_exact_coverage` `C10_complete_iff` `C10_five_threads_complete` `C10_division_by_zero_iff` `C10_full_batch_complete` `C10_unchecked_multiplication_refuted` |
| C11 | An arithmetic opening binds the value modulo p only | proved | openings as words; congruence mod p | `C11_opening_binds` `C11_opening_accepts` `C11_noncanonical_opening_refuted` `C11_wrong_claim_keys` |
| C12 | Zero test accepts exactly zero | proved | zero test on the mac | `C12_zero_test_iff` `C12_nonzero_one_key` `C12_session_zero_test` |
| C13 | Arithmetic polynomial proofs decide the claimed relation | proved | polynomial proof buffers and batch check; root counting | `C13_batch_bound` `C13_challenge_bound` `C13_honest_accepts` |
| C14 | Boolean polynomial proofs decide the claimed relation | proved | as C13 over GF(2)/GF(2^128) | `C14_honest_accepts` `C14_batch_bound` `C14_challenge_bound` `C14_session_soundness` `C14_vanishing_combination_passes` |
| C15 | Buffered bit channel delivers every schedule intact | proved | two endpoints as state machines over FIFO channels; invariant on buffer pointers; well-founded measure | `C15_reads_are_prefixes` `C15_no_deadlock` `C15_terminates` `C15_steps_bounded` `C15_delivered` |
| C16 | Both endpoints derive the same challenge from the transcript | proved | hash input as byte list; equality at every digest after a flush | `C16_same_challenges` `C16_without_flush_refuted` `C16_transcript_binds_bits` `C16_payloads_not_bound` `C16_reset_only_splits` |
| C17 | Boolean packing is lossless | proved | packing of bools to bytes, both code paths | `C17_roundtrip` `C17_paths_agree` `C17_injective` `C17_length_not_encoded` |
| C18 | Derandomised OT delivers exactly the chosen message | proved | OTPre send/recv; case analysis on the choice, induction on length | `C18_ot_delivers_choice` `C18_other_message_masked` `C18_choice_bits_masked` |
| C19 | Punctured tree: receiver learns every leaf but one and that one is corrected | proved | in-place array expansion and recovery; layer invariant | `C19_punctured_tree` `C19_punctured_tree_f2k` |
| C20 | Multi-point consistency check accepts honest parties and every tree is processed once | proved | consistency messages and thread ranges; linear algebra, interval partition | `C20_mpfss_honest` `C20_each_tree_once` `C20_mpfss_honest_f2k` |
| C21 | Local linear expansion preserves the correlation | proved | index derivation, accumulation with lane bounds; linearity | `C21_expansion` `C21_index_in_range` `C21_index_words` `C21_mask` `C21_expansion_f2k` `C21_index_words_f2k` |
| C22 | Which output positions the linear expansion processes | proved | ranges of the expansion | `C22_unprocessed_tail` `C22_all_expanded_refuted` `C22_unprocessed_tail_f2k` |
| C23 | The correlation pool delivers exactly what is asked, once | proved | extend as a buffer state machine with provenance tags | `C23_extend` `C23_extend_inplace` `C23_memory_need` `C23_session` `C23_large_reserve_refuted` |
| C24 | Base correlation generation is correct | proved | COPE and base sVOLE; bit decomposition of Delta | `C24_cope` `C24_cope_single` `C24_check_accepts` `C24_base` |
| C25 | Every delivered correlation is valid, through all iterations | proved | set-up, two bootstrap expansions and all iterations composed; induction on the iteration | `C25_all_iterations_valid` `C25_every_delivered_correlation` `C25_default_parameters` |
| C26 | Bit/field conversions preserve the value | proved | conversion on 62-bit words; modular arithmetic | `C26_bool2arith` `C26_arith2bool` `C26_batches` `C26_out_of_range_refuted` `C26_noncanonical_sum_refuted` |
| C27 | Batch conversion uses fresh masks and never a stale one | proved | stock pointers as a state machine | `C27_masks_in_order` `C27_no_reuse` `C27_batch_is_singles` `C27_in_bounds` |
| C28 | Cut-and-choose covers every other mask exactly once | proved | index arithmetic of openings and buckets; partition | `C28_partition` `C28_offsets_drawn` `C28_opening_in_bounds_iff` `C28_received_offset_refuted` `C28_last_offset_refuted` |
| C29 | Honest mask consistency check | proved | bucket check as word equation; openings by digest | `C29_bucket_sums` `C29_honest_generation` `C29_bucket_sound` `C29_boolean_claim_keys` `C29_field_claim_keys` `C29_shifted_masks_refuted` `C29_noncanonical_mask_refuted` |
| C30 | Base F2k correlations are valid | proved | packing of 128 COTs; F2k generator composed as in C25 | `C30_base` `C30_base_value_bits` `C30_all_iterations_valid` `C30_default_parameters` |
| C31 | F2k multiplication proofs | proved | F2k engine state machines, arbitrary prover, GF(2^128) root counting | `C31_honest_run` `C31_outputs_bound` `C31_wrong_value_has_error` `C31_mul_soundness` `C31_challenge_bound` `C31_challenge_bound_one_thread` `C31_vanishing_combination_passes` `C31_unchecked_multiplication_refuted` `C31_unbound_corrections_refuted` `C31_failure_only_printed` `C31_small_batch_refuted` |
| C32 | Product-chain checks of degree 3, 4 and 5 | proved | product proof coefficients as polynomials in Delta | `C32_coefficients3` `C32_coefficients4` `C32_coefficients5` `C32_degree5_soundness` `C32_challenge_bound` `C32_degree3_refuted` `C32_degree4_refuted` |
| C33 | Read-only memory: consistency enforced by the sorted-list check | proved | access log, claimed sorted list, order check, multiset products | `C33_consistency` `C33_honest_passes` `C33_session` `C33_honest_set_equality` `C33_top_bit_refuted` `C33_outside_memory_refuted` `C33_unchecked_tail` `C33_wrong_read_stops` `C33_right_reads_pass` |
| C34 | Read-write memory: consistency enforced by the sorted-list check | proved | as C33 with steps and writes | `C34_consistency` `C34_honest_passes` `C34_session` `C34_top_bit_refuted` `C34_long_log_refuted` `C34_failure_only_prints` `C34_unwritten_read_reported` |
| C35 | Wide memory: what the check enforces | proved | as C34 for wide values; colliding coefficient vectors counted pair by pair of rows (hyperplanes in GF(2^128)^m) | `C35_honest_passes` `C35_consistency_if_sorted` `C35_alternating_log_refuted` `C35_compression_counted` `C35_session_if_sorted` |
| C36 | Memory records are packed injectively and the packed mac authenticates them | proved | packed words as positional numbers; product loops | `C36_ro_pack` `C36_rw_pack` `C36_wide_pack` `C36_ro_injective` `C36_rw_injective` `C36_wide_injective` `C36_narrow_word_refuted` `C36_ro_unpack` `C36_rw_unpack` `C36_wide_unpack` `C36_wide_unpack_one_refuted` `C36_ro_mac` `C36_rw_mac` `C36_wide_mac` `C36_wide_compress` `C36_wide_collision` `C36_products` `C36_short_lists_refuted` `C36_multiset_bound` |
| C37 | Memory life cycle | proved | memory vectors with explicit bounds | `C37_before_check` `C37_after_check` `C37_refresh_out_of_bounds` `C37_refresh_otherwise_nothing` `C37_wide_after_check` `C37_wide_unwritten_read` `C37_check_sees_every_access` `C37_wide_check_sees_every_access` |
| C38 | LowMC circuit equals the reference cipher | proved | cipher generic in its parameters; gate program of the authenticated path run in the boolean engine | `C38_sbox_layer_is_table` `C38_sbox_is_a_permutation` `C38_sbox_layer_bijective` `C38_plain_path_is_lowmc` `C38_paths_agree` `C38_program_is_lowmc` `C38_encrypt_in_context` `C38_and_count` `C38_honest_session` `C38_session_soundness` `C38_program_oblivious` `C38_injective_iff_linear_layers` `C38_singular_matrix_refuted` `C38_code_instance` |
| C39 | Session life cycle and cheating flag | proved | global pointers, flags and objects as state; induction over call sequences | `C39_call_outcome` `C39_defined_runs` `C39_flag_iff_failure` `C39_one_flag_per_finalize` `C39_prover_never_flags` `C39_sessions` `C39_double_delete` `C39_late_failures_lost` `C39_every_failure_reported_refuted` `C39_conversion_key` |
| C40 | Prover messages hide the witness | proved | messages as functions of the prover's randomness; simulator and bijection, challenges may depend on all messages | `C40_bool_defined` `C40_bool_simulated` `C40_bool_bijection` `C40_bool_uniform` `C40_bool_outputs_seen` `C40_arith_simulated` `C40_arith_bijection` `C40_arith_uniform` `C40_f2k_product_message` `C40_f2k_product_refuted` `C40_set_equality_leak` `C40_delta_divides` |
| C41 | Threaded checking is schedule independent | proved | tasks as programs of single memory accesses; all interleavings; footprint separation and commutation | `C41_bool_prover` `C41_bool_verifier` `C41_arith_prover` `C41_arith_verifier` `C41_f2k_prover` `C41_f2k_verifier` `C41_lpn` `C41_lpn_f2k` |
| C42 | Fixed-point conversion of floats | proved | circuits as integer functions; values as rationals | `C42_comparisons` `C42_nonnegative` `C42_zero` `C42_zero_22_refuted` `C42_negative_off_by_one` `C42_negative_refuted` `C42_back` `C42_back_zero_refuted` `C42_round_trip` `C42_round_trip_negative_refuted` `C42_tiny_refuted` `C42_tiny` |
| C43 | Sessions over generated correlations | proved | engines composed with the generators, call by call | `C43_handouts_in_order` `C43_arith_session` `C43_f2k_session` |
| C44 | Boolean sessions over the real channel | proved | two reactive programs over the byte channel; simulation by the static schedule; any prover program by replaying the verifier's reads | `C44_honest_session` `C44_result_from_transcript` `C44_verifier_reveals_nothing` `C44_soundness` |
| C45 | Arithmetic sessions over the real channel | proved | two reactive programs over byte streams with send buffers and interactive coins; Kahn-style confluence for all schedules; any prover program by replaying the verifier's reads | `C45_honest_session` `C45_missing_flush_refuted` `C45_result_from_transcript` `C45_no_anticipation` `C45_commitment_before_challenge` `C45_key_only_decides_stop` `C45_soundness` |
| C46 | Programs that branch on opened values | proved | program trees over the gate steps of both engines; a run on given opened values equals the run of the gate list taken, then C04/C05/C08/C09 | `C46_honest_field_program` `C46_honest_bit_program` `C46_branches_independent_of_key` `C46_field_program_soundness` `C46_reduced_program_soundness` `C46_bit_program_soundness` `C46_noncanonical_branch_refuted` `C46_negate` `C46_calls` |
| C47 | Self-check functions accept exactly the share relation | proved | the loops as functions of both sides' arrays; iff with the relation written on N; composed with C04, C08, C19 and C25 | `C47_bit_check` `C47_bit_relation` `C47_bit_session` `C47_and_check` `C47_field_check` `C47_field_session` `C47_triple_check` `C47_triple_check_only` `C47_cope_check` `C47_mul_check` `C47_factor_macs_refuted` `C47_wide_factor_refuted` `C47_tree_check` `C47_tree_session` `C47_mu` `C47_mu_zero_iff` |
| C48 | A dishonest prover of the F_p correlation generator is bound to affine keys, and a forged check word exposes the verifier's key | proved | Three keys that are on no line give a non-zero polynomial in the seed whose roots are the accepting seeds (eight carry patterns of the final product); an extractor turns the view into blocks stage by stage and C43's hand-out order and C09 finish. The reply is computed in the field from the extracted blocks. | `C48_honest_run` `C48_base_check_binds` `C48_keys_are_bound` `C48_session_soundness` `C48_reply_affine` `C48_forged_word_exposes_key` |
| C49 | A dishonest prover of the GF(2^128) correlation generator is bound to affine keys, and a forged check word exposes the verifier's key | proved | Stage-by-stage extraction: the prover's code run on its view yields blocks that satisfy the share relation with the keys of every consistent world; EndProofs.fv_exec_ext and C31 finish. The reply is expanded as a sum over leaves, only the punctured leaf contributes a multiple of Delta. | `C49_honest_run` `C49_keys_are_bound` `C49_session_soundness` `C49_reply_affine` `C49_forged_word_exposes_key` |
| C50 | Counted soundness error of whole boolean and arithmetic sessions against an adaptive prover | proved | A batch of errors depends only on bits (words) sent before its challenge; the challenges that hide a fixed non-zero error are counted by one coordinate (C05/C09 challenge bounds), summed over the batches along the sequence of challenges, and combined with the session soundness of C05/C09 for the keys. | `C50_bool_cheating_choices` `C50_arith_cheating_choices` `C50_arith_cheating_choices_two` `C50_word_challenges_spread` `C50_block_challenges_spread` |
| C51 | Helpers the library offers but does not call itself | proved | Products by the shifted-product invariant of C36 and the honest run of C31; the forged product by choosing the authenticated bits of the last chain and the affine answers of C32; the tree check by the power-sum polynomial in the digest and root counting over F_p; the bulk extension through the pool lemmas of C23. | `C51_product_value` `C51_product_short` `C51_product_honest` `C51_product_any_value_refuted` `C51_opening_iff` `C51_opening_bound` `C51_base_check` `C51_tree_check_iff` `C51_tree_honest` `C51_tree_check_bound` `C51_own_tests` `C51_own_tests_limits` `C51_bulk_extend` `C51_bulk_need` |
| C52 | The multi-threaded MPFSS of both parties has one outcome | proved | Threads are programs over shared cells, connections and futures. Each thread owns a set of resources; pool->enqueue and get() hand resources over; ownership is invariant under steps, which excludes races. Race-free steps commute, so all executions have the length and the end of one complete run, built segment by segment from the sequential model. | `C52_f2k_schedule_independent` `C52_f2k_every_schedule_correct` `C52_schedule_independent` `C52_every_schedule_correct` |
| C53 | What the MPFSS checks guarantee against a cheating verifier | proved | Reconstruction from shifted messages is the honest one plus an error on one pair of leaves, which the polynomial hash sends to zero because the shift was chosen with the challenge. Over F_p two accepting runs give a polynomial of degree 2^(depth-1) in the challenge that vanishes; counting its roots gives the bound. | `C53_f2k_check_refuted` `C53_challenge_known_in_advance` `C53_late_challenge_binds` `C53_values_not_tested` `C53_noncanonical_sum_refuted` |
| C54 | The GF(2^128) engine over the real channel, every interleaving | proved | Both programs follow one schedule of channel operations, so the channel theorems of C44 give all interleavings; the digests depend only on the schedule's shape and bits, which gives both the honest challenges and the late corrections. The any-prover statements replay the verifier's program on its endpoint's log. | `C54_honest_session` `C54_result_from_transcript` `C54_key_only_decides_stop` `C54_outputs_bound` `C54_soundness` `C54_challenges_fixed_by_bits` `C54_late_corrections_refuted` |
| C55 | Cut-and-choose of the conversion masks against a cheating prover | proved | Differences of the halves form a cyclic word; the offsets that hide them are rotations giving one fixed word, whose differences are periods, so they lie in one residue class of a divisor of N+C longer than the opened block. Key counts by comparing two accepting keys. | `C55_disagreement_needs_key` `C55_agreement_accepted` `C55_offsets_bound` `C55_code_offsets` `C55_one_offset` `C55_counted` `C55_planted_masks_refuted` `C55_code_planted_refuted` |
| C56 | Words shown by the conversions hide the converted values | proved | Explicit inverse: opened candidates from the opening, delivered masks from the conversion words, partners from the sums; opened slots and partners are disjoint rotations. Induction over generations with the words seen as state. | `C56_one_generation` `C56_shape` `C56_uniform` `C56_values_hidden` `C56_macs_unused` `C56_last_offset_refuted` `C56_received_offset_refuted` |
| C57 | Whole sessions of the conversion engine | proved | Hash input cut into segments of fixed length; each bad segment fixes one key (C55 for generations, label and share equations for conversions). Count by induction over generations: the first generation with a wrong mask must survive its offset. | `C57_honest_session` `C57_right_means` `C57_wrong_needs_key` `C57_counted` `C57_code_counted` |
| C58 | The prover's messages in the correlation generators hide its values | proved | Explicit inverse: from a transcript and the secrets compute the masks (position t, then the base mask, then the pads and bits); the first check word is fixed by completeness of the base check (C24). The leak: additions of zero subtract p until the sum is below p, then the last term, up to 6p, is not covered by a mask below p. | `C58_shape` `C58_each_transcript_once` `C58_values_hidden` `C58_delivered` `C58_f2k_messages` `C58_f2k_delivered` `C58_f2k_reused_mask_refuted` `C58_unreduced_seed_refuted` |
| C59 | The arithmetic test programs prove what they claim | proved | Loop invariants on the generated gate list: which wire each array element holds and what it evaluates to; then instances of the session theorems. | `C59_sis_relation` `C59_sis_accepts` `C59_sis_sound` `C59_sis_earlier_rounds_refuted` `C59_sis_hidden` `C59_matmul_accepts` `C59_matmul_sound` `C59_zk_proof_accepts` `C59_zk_proof_sound` `C59_polynomial_accepts` `C59_polynomial_sound` `C59_inner_product_accepts` `C59_inner_product_sound` `C59_circuit_accepts` `C59_circuit_sound` `C59_inputs_accepted` |
| C60 | Boolean sessions that mix gates and queued relations are complete, sound and hiding | proved | Factorisation of the interleaved run into the gates and the list of calls; batch bounds of C05 and C14; counting as in C50 with two kinds of challenges; hiding from C40 plus the fact that the second block of a reply determines its 128 mask bits and the first block. | `C60_honest_session` `C60_session_defined` `C60_session_soundness` `C60_cheating_choices` `C60_inner_test_honest` `C60_inner_test` `C60_poly_test_honest` `C60_poly_test` `C60_lowmc_cheating_choices` `C60_hiding` `C60_hiding_defined` |
| C61 | Programs on the oblivious memories see an array, end to end | proved | The records of a run are related call by call to the program (TightProofs.rw_run_log), an induction over the program shows that consistent records give the results of an array, and C34_honest_passes, C34_session and the honest set-equality session are applied to these records. | `C61_rw_complete` `C61_wide_complete` `C61_ro_complete` `C61_rw_sound_as_written` `C61_rw_sound` `C61_access_value_refuted` `C61_refresh_refuted` `C61_wide_refresh_refuted` `C61_ram_bench` `C61_ram_ext_test` `C61_ro_ram_test` `C61_ram_test_refuted` |
| C62 | The oblivious memory at gate level: one session from the wires to the accepted check | proved | The gates are evaluated by a small program logic (runs/shape) that composes the circuits of Integer comparison; the labels packed by pack() are linear in the wires, so the packed number's key is the key of the packed labels; then C04 (boolean session), C34 (order implies reads_latest) and C34_session (set equality) are composed. | `C62_condition` `C62_meaning` `C62_sound` `C62_complete` `C62_top_bit_refuted` |
| C63 | The read-only memory at gate level: one session from the wires to the accepted check | proved | As C62: gates evaluated by the same program logic, packed labels are linear in the wires, then C04 (boolean session), C33_consistency and C33_session (set equality) are composed. | `C63_meaning` `C63_sound` `C63_complete` `C63_top_bit_refuted` `C63_outside_memory_refuted` |
| C64 | The boolean test programs prove what they open, and memory_scalability proves nothing about its tree | proved | A small program logic over gate lists (does, BTestProofs.v) that tracks wire values, inputs used, AND count and opened bits for arbitrary inputs; then C02/C04 for the session. | `C64_bristol_in_context` `C64_add_in_context` `C64_sub_in_context` `C64_example` `C64_sha256` `C64_merkle_root` `C64_merkle_witness_refuted` `C64_circuit_gates` `C64_input` |
| C65 | A program mixing bits and field elements keeps both views equal | proved | Loops are shown to act on all marked positions at once; numbers up to p represent residues; C26 extended to the value p; induction over the six steps. | `C65_conversions_agree` `C65_reports` `C65_always_correct_refuted` `C65_shipped_inputs` |
| C66 | The wide memory at gate level: one session from the wires to the accepted check, and an attack by not sorting | proved | Gate-level run and AND count of the order circuit (WideGateProofs/Thms), labels packed and compressed linearly so that their F2k values are the compressed rows (WideGateSess), then C35/C59 for the counting and C62's composition of the two sessions; the rearrangement in C66_balanced_refuted is built by induction. | `C66_condition` `C66_meaning` `C66_sound_if_sorted` `C66_complete` `C66_unsorted_refuted` `C66_alternating_refuted` `C66_balanced_refuted` |
| C67 | Boolean sessions with gates and relations over the real channel | proved | A schedule of channel operations common to both sides (BWireProofs), simulation of each program by it (BWireThms: rel_follow, items_follow, bver_follow) and the network theorem of C44; for arbitrary provers a reader semantics with the data split by role (BWireAny), then bsess_soundness of C60. For hiding: two prover programs with equal message-level views follow the same list of channel actions (BWireHide: bsched_same), so they move in lock step against any verifier (lock_run); the pairing of random bits is that of C60. | `C67_honest_session` `C67_session_completes` `C67_result_from_transcript` `C67_verifier_reveals_only_seeds` `C67_soundness` `C67_flush_after_data` `C67_hiding` |
| C68 | Arithmetic sessions over the channel hide the witness from any verifier program that sends reduced challenges | proved | The honest prover's actions as a list determined by its messages (AWireHide: asched_run, asched_follow, asched_same), a lock-step lemma for two provers with the same list (alock_run), and the bijection of C40 with the challenges read off the situation. The leak by computing the answer word to the challenge 7*2^61 (AWireLeak) and the network theorem of C45. | `C68_hiding` `C68_unreduced_challenge_refuted` `C68_hiding_needs_reduced_refuted` `C68_leak_frequency` |
| C69 | Boolean and arithmetic engine on one channel | proved | Each call of either engine has a list of channel operations and both programs follow it (XWireArith, XWireBool); the arithmetic operations carry no bits and no challenges of the bit transcript, so the digests depend only on the boolean bits and the shapes (xsched_alike). The message-level sessions of C08 and C60 give the results, the channel theorem of C44 all interleavings. The any-prover statements replay the verifier's program on its endpoint's log with the data split by role (XWireSpec, XWireAny), then bsess_soundness of C60 and C09_session_soundness. The two key statements relate the verifier's programs for two keys action by action (XWireKey). Hiding reads the challenges and data off the situation (uroles gives what each received block stands for), takes the witness changes of C60 and C40 for these challenges, and shows that provers with equal messages perform the same list of actions (XWireHide, XWireHide2, XWireHide3). That the condition on the challenges is needed is shown with the verifier program x_spy, which follows the prover's schedule (XWireLeak). The other refutation runs one program. | `C69_honest_session` `C69_session_completes` `C69_result_covers_arithmetic_refuted` `C69_result_from_transcript` `C69_bool_soundness` `C69_arith_soundness` `C69_hiding` `C69_key_only_decides_stop` `C69_boolean_key_never_shows` `C69_unreduced_challenge_refuted` `C69_hiding_needs_reduced_refuted` |
| C70 | Communication depends only on the shape of the program | proved | Each program has a predicate (`costs` for the prover, `vcosts` for the verifier) that gives the bytes it still has to send, for the prover in terms of the number of buffered bits, whatever it reads; every action of the endpoint preserves the sum of bytes sent and bytes to come (cost_run, vcost_run). Induction over the program gives the formulas `comm` of CommSpec and `vcomm` of CommVerSpec. | `C70_bytes_sent` `C70_same_for_all_witnesses` `C70_order_of_calls` `C70_verifier_bytes` `C70_verifier_at_most` `C70_prover_at_most` `C70_gates_are_free` |
<!-- properties:end -->

## Findings

Places where the faithful model does not satisfy what one would expect; each has a theorem.

### Unsoundness or undefined behaviour in reachable configurations

1. **Gates left unchecked.** The split of a batch over threads uses `check_cnt % task_base` where
   `check_cnt % threads` (or `check_cnt - threads*task_base`) is meant, so for many batch sizes the last
   gates are in no range. Boolean (`C06_complete_iff`, `C06_unchecked_gate_refuted`), arithmetic
   (`C10_*`, from 33 threads or unlucky sizes), F2k (`C31_unchecked_multiplication_refuted`). A full buffer
   with the usual thread counts is complete (`C06_full_batch_complete`, `C10_full_batch_complete`).
2. **Batch smaller than the number of threads.** Boolean: `% 0` (`C04_small_batch_refuted`,
   `C06_division_by_zero_iff`). Arithmetic: same from 33 threads (`C08_many_threads_refuted`). F2k:
   sums of workers that got no range are read uninitialised (`C31_small_batch_refuted`). The memory checks
   need at most six engine multiplications, so they hit this with more than a few threads.
3. **Failures that are only printed.** `F2kOSTriple` multiplication check (`C31_failure_only_printed`)
   and the order check of `ZKRAM` (`C34_failure_only_prints`) print and continue.
4. **Product proofs with 3 and 4 factors accept anything.** `poly_prdt.h` lets the prover send the coefficients
   of Delta^3 and Delta^4 (`C32_degree3_refuted`, `C32_degree4_refuted`).
5. **Memory order checks ignore the top address bit.** `ROZKRAM`/`ZKRAM` compare claimed addresses with a signed
   comparison on index_sz+1 bits; a claimed address with the top bit set passes with forged content
   (`C33_top_bit_refuted`, `C34_top_bit_refuted`). Reads beyond the memory are unconstrained
   (`C33_outside_memory_refuted`). Logs longer than half the step range allow stale reads
   (`C34_long_log_refuted`). `ZkRamExt` does not enforce sorting at all (`C35_alternating_log_refuted`).
6. **Accesses never checked.** No destructor calls `check()`; reads since the last automatic check are never
   verified (`C33_unchecked_tail`).
7. **Use after check.** After `ZKRAM::check()` (and inside `refresh()` when it fires) the memory vector is empty and
   every access is out of bounds (`C37_after_check`, `C37_refresh_out_of_bounds`); reading a never-written
   wide cell indexes an empty vector (`C37_wide_unwritten_read`).
8. **Short lists.** `while (i < step - 3)` underflows for lists shorter than 3 (`C36_short_lists_refuted`); one-word
   wide values underflow too (`C36_wide_unpack_one_refuted`).
9. **Range checks missing in conversions.** A masked sum s+p is accepted and lowers the result by 2
   (`C26_noncanonical_sum_refuted`); boolean masks a+p pass (`C29_noncanonical_mask_refuted`); shifted masks are
   accepted for a third of the keys (`C29_shifted_masks_refuted`); boolean inputs >= 2^61 give mask-dependent
   results (`C26_out_of_range_refuted`).
10. **edaBits opening at the last offset** reads one candidate past the end and opens a mask that is later used
    (`C28_last_offset_refuted`). The prover does not check the offset it receives, so a verifier can make it open
    beyond its array (`C28_received_offset_refuted`). An honest bucket sum of exactly p is rejected (`C29_honest_generation`).
11. **Words not reduced.** `mult_mod`, `mul_const` and the corrections of the arithmetic engine trust their
    argument to be below p (`C01_mult_unreduced_refuted`, `C09_unreduced_correction_refuted`); openings
    accept x+p for x (`C11_noncanonical_opening_refuted`).
12. **Corrections not bound.** The F2k multiplication corrections and all payload bytes other than bit blocks are not
    in the hashed transcript (`C16_payloads_not_bound`, `C31_unbound_corrections_refuted`).
13. **VOLE hand-out.** `extend(data, num)` writes past the caller's buffer when M > ot_limit
    (`C23_large_reserve_refuted`). The last n mod (threads+1) positions of an expansion are not processed
    (`C22_all_expanded_refuted`, `C22_unprocessed_tail*`); those positions keep the
    sparse vector alone. They still satisfy the correlation (`C25_all_iterations_valid`).
14. **Session life cycle.** `finalize_zk_arith` deletes `EdaBits::conv` without clearing it
    (`C39_double_delete`); arithmetic failures after `finalize_zk_bool` reach no flag
    (`C39_every_failure_reported_refuted`, `C39_late_failures_lost`,
    over the channel `C69_result_covers_arithmetic_refuted`); the conversion object keeps the old
    boolean Delta after another `setup_zk_bool` (`C39_conversion_key`); `circ_exec` is not cleared (`C39_call_outcome`).

### Leaks

15. The F2k product proof sends its batch sums unmasked (`C40_f2k_product_refuted`), and the set-equality opening
    tells the verifier the product of (X_i + r) (`C40_set_equality_leak`).

### Correctness of honest runs

16. Without a `flush` the two transcript hashes may differ (`C16_without_flush_refuted`).
17. An honest read of an unwritten cell of `ZKRAM` is reported as wrong (`C34_unwritten_read_reported`).
18. Packed words of address, step and value collide when address + step + 1 > 64 bits
    (`C36_narrow_word_refuted`).
19. LowMC's random matrices are never checked to be invertible (`C38_singular_matrix_refuted`).
20. `FloatToInt62` is off by one for every negative value (`C42_negative_refuted`,
    `C42_round_trip_negative_refuted`); `Int62ToFloat(0)` is 2^(-1-s), not 0 (`C42_back_zero_refuted`); very
    small floats depend on how `>=` treats a wrapped difference (`C42_tiny_refuted`, `C42_zero_22_refuted`).
21. `FpPolyProof::batch_check` (`polynomial.h:62-70`): the verifier sends the challenge and then receives without a
    flush; `BoolIO::recv_data` does not flush on the verifier's side either. The session goes on only because the
    underlying `NetIO` delivers its send buffer when it receives; without that both parties wait for ever
    (`C45_missing_flush_refuted`).
22. The verifier's `IntFp::reveal()` returns the received 64-bit word without reducing or checking it. A prover committed
    to 0 opens the word p for every key, so a program that compares the result with 0 takes the wrong branch
    (`C46_noncanonical_branch_refuted`); programs that reduce opened words are sound (`C46_reduced_program_soundness`).
23. `FpOSTriple::check_compute_mul` never compares the macs of the two factors with the verifier's keys (the Boolean
    counterpart does), and rejects a correct product when a factor is not reduced (`C47_factor_macs_refuted`,
    `C47_wide_factor_refuted`).
24. **The MPFSS consistency check can be turned into a key oracle.** `mpfss_reg.h:201-213`: the verifier computes `vb` from any received `x_star`, returns its hash and carries on; only the prover compares. For `x_star` different from the expected word the hashed word is `a + Delta*c mod p` with `a`, `c <> 0` known to the prover (`C48_reply_affine`), so one hash value determines the 61-bit Delta (`C48_forged_word_exposes_key`): a search over 2^61 hash values, with no trace on the verifier's side. The paper's equality test is symmetric; the honest party would abort.
25. **The same oracle exists over GF(2^128).** `emp-vole-f2k/mpfss.h:171-184`: the verifier hashes and returns `a + Delta*(x0 + x_star)` for any received `x_star` and carries on (`C49_reply_affine`, `C49_forged_word_exposes_key`). One returned hash determines Delta, although the search space is 2^127 here; any guess of Delta can be tested off-line.
26. **The two- and three-factor product helpers do not bind the prover.** `zk-mem.h:206-274` and `ro-zk-mem.h:136-179` multiply with `compute_mul3`/`compute_mul4`, whose proofs leave the product free (findings on C32). When (n-1) is a multiple of 2 (3) the prover may choose the accumulator freely with messages that pass for every Delta (`C51_product_any_value_refuted`). The memories call the four-factor version only; the helpers are dead code. `inn_prdt_bch3` on one element and all helpers on an empty list read outside the list (`C51_product_short`).
27. **The GF(2^128) MPFSS check does not protect the prover.** `spfss_f2k_sender.h:66` and `spfss_f2k_recver.h:89` take the challenge from `get_hash_block()` (marked `TODO Fiat-Shamir` in the source). The hash absorbs only what `send_bit` sent, so the challenge is known before the trees are sent (`C53_challenge_known_in_advance`). A verifier that uses it gets wrong trees accepted for certain, and the prover's shares are wrong exactly around the noise positions (`C53_f2k_check_refuted`), so later openings reveal them. Over F_p the prover draws the challenge afterwards (`C53_late_challenge_binds`), but `share` is not checked to be below p; with 2p+5 the verdict depends on the prover's secret value (`C53_noncanonical_sum_refuted`).
28. **A prover program forges GF(2^128) products.** On the actual channel the challenges of `F2kOSTriple` depend only on the circuit and the bits sent with `send_bit` (`C54_challenges_fixed_by_bits`). Corrections are sent with `send_data` and are not hashed. A prover that computes the challenge first and then picks the corrections of two products makes the verifier accept any claimed value, for every Delta and every interleaving (`C54_late_corrections_refuted`).
29. **Wrong conversion masks pass the cut-and-choose with probability 1/7.** The buckets are formed by a rotation, not a random permutation, and N + C = 800002 is divisible by 7. A prover that makes every seventh delivered mask wrong by e, and every seventh other candidate wrong by -e, is accepted at every seventh offset for all keys (`C55_code_planted_refuted`); `bool2arith` and `arith2bool` are then off by e. No prover with words up to p does better (`C55_code_offsets`). With N + C prime a single offset would remain (`C55_one_offset`).
30. **At the last offset of the cut-and-choose a converted value is shown.** With `rand_pt` = N + C - 1 the second opened field word is the slot after the candidates, which is the first mask of the next generation (finding on C28). Its value is sent before the boolean half is read, and the first conversion of the next generation then gives away its value (`C56_last_offset_refuted`). An honest verifier draws this offset once in 800002 runs; the prover does not check the offset it receives, so a dishonest verifier can always choose it. It can do better: for every mask of a later window there is an offset beyond the honest range that opens this mask first (`C56_received_offset_refuted`).
31. **Over GF(2^128) the mask of the MPFSS check is used twice.** `f2k/svole.h:129` passes `pre + t` to the expansion, so the value that masks `x_star` is also entry 0 of the table (over F_p `vole_triple.h` skips it with `t + 1`). Every expansion gives the verifier the exact value of one linear relation between the table and the noise values (`C58_f2k_reused_mask_refuted`); with a separate mask nothing would be shown (`C58_f2k_messages`).
32. **sis.cpp checks only the last round.** The loop of 485 rounds overwrites `vec_t`; `batch_reveal_check` follows the loop (sis.cpp:52-79), so the vectors of the other rounds are unconstrained and any values are accepted there (`C59_sis_earlier_rounds_refuted`). A benchmark artefact, but the rounds cannot be read as separate proofs. The printed `ret` is always 1: `batch_reveal_check` returns a constant (int_fp.h:75-78); a failed check shows only at `finalize`.
33. **ZKRAM::access() does not bind the value it writes** (zk-mem.h:57-80). For op = 1 the recorded and returned value is `prv_val`, a fresh input of the prover, and is never compared with the argument `value`. A prover writes any other value w: order check and set equality accept, and later reads return w (C61_access_value_refuted). write() is not affected. ram_test.cpp:74-77 writes after check(), which has cleared the cell vector: undefined for all sizes (C61_ram_test_refuted). A program that calls refresh() after every access is undefined as soon as the threshold is reached (C61_refresh_refuted, C61_wide_refresh_refuted); e.g. ram_test with index_sz = 12.
34. **The top-bit attack on ZKRAM, end to end** (zk-mem.h:114-175). The sorted list carries index_sz + 1 address bits, of which only index_sz enter the packed number; the comparison is signed, so an address with the top bit set sorts first, where no previous entry is compared. For every program in which a read of a written cell returns another value, there is a claimed list with which a prover that otherwise follows the protocol is accepted under every key and every challenge: boolean batch checks, revealed order bit, set equality and hash (C62_top_bit_refuted).
35. **Both attacks on ROZKRAM, end to end** (ro-zk-mem.h:76-120). For every function f, a prover can answer every read of cell a by the content or by f(a): claims with the top address bit set sort before the memory and are compared only with each other (C63_top_bit_refuted). A read at an address at or above the size of the memory returns anything with all claimed addresses in range (C63_outside_memory_refuted). In both cases a prover that otherwise follows the protocol is accepted under every key and every challenge.
36. **memory_scalability.cpp proves nothing about its tree** (test/bool/memory_scalability.cpp:32). The leaf bits are made by `Bit(witness + node_index * 512 + i, ALICE)`: the pointer is converted to bool, so every leaf bit is one, whatever the array holds; read as intended (`witness[...]`) it would run over the end of the array, which has `width` and not `512 * width` entries. The digest is never opened, only a public constant is (C64_merkle_witness_refuted). The result of finalize_zk_bool is ignored there (line 56) and in the small branch of input_scalability.cpp (line 21), so these programs do not notice a cheating prover.
37. **abconversion.cpp does not exercise reductions, and has a false alarm at p** (test/arith/abconversion.cpp:15, 41-42, 49-50). The inputs are below 2^31 and grow at most to 2^43 < p, so none of the three reductions is ever taken (C65_shipped_inputs). The plain copy is reduced only if it is greater than p: with a sum of exactly p it keeps p, the converted value is 0, and the honest run prints `incorrect boolean` and stops in batch_reveal_check (C65_always_correct_refuted).
38. **Not sorting defeats ZkRamExt, end to end** (zk-mem-ext.h:227-246). The order circuit accepts any change of address (`index_neq`), not only an increase, so the claimed list need not be sorted. Whatever its reads returned, every program in which no address makes more than half of the accesses is accepted under every key, for all coefficients and challenges (C66_balanced_refuted); if no two calls in a row use the same address, claiming the list in time order is enough (C66_alternating_refuted). With the addresses sorted the check is sound (C66_sound_if_sorted), so an order circuit that requires increasing addresses would repair it.
39. **An unreduced batch challenge leaks the witness** (emp-zk-arith/polynomial.h:51-59, emp-vole/utility.h:128-134, 179-182). The prover uses the received 64-bit challenge of FpPolyProof::batch_check without reducing it or checking it, and mult_mod and add_mod subtract p only once. With the challenge 7*2^61 the linear coefficient t of a single relation enters the second word of the answer as about 7*t, so the mask, which is below p, does not cover it: the word is below p for 7*t < p and at least p for 7*t >= 4*p, for every mask. A malicious verifier thereby learns the size of a known function of the witness; for x*y = 0 with y = 0 it learns with certainty whether x is 0 or 1 whenever its key of y is at least 4p/7 (C68_unreduced_challenge_refuted). Reducing or rejecting the received word repairs it: with reduced challenges nothing leaks (C68_hiding). A session that uses both engines leaks in the same way (`C69_unreduced_challenge_refuted`).
40. **An unreduced base-check seed leaks base values** (emp-vole/base_svole.h:86-95). As in 39, Base_svole::recver_check uses the received 64-bit seed without reducing it. Powers of such a seed are not reduced either, so the last term of the inner product can be as large as 6p and the mask below p does not cover it: C58_unreduced_seed_refuted tells apart two provers that differ in the last base value only, for every choice of masks, and C58_unreduced_seed_case gives a seed for the default sizes. Reducing (or rejecting) the seed on receipt, as the sender does before sending, restores C58.

### Read in the source, visible in the model, without a separate theorem

* `spfss_recver.h:24`: the choice bits `b` are never assigned; the model leaves them arbitrary.
* A tree of depth 1 writes outside its two-leaf array (theorems assume depth >= 2).
* The parameter constructor does not check `n_pre0`.
* `ZKRAM` does not check the first element of the sorted list; `ZkRamExt`'s second challenge hashes an empty
  transcript.

## Mutation tests

`seeded/LOG.jsonl` has one line per wrong program tried in a scratch copy: the definition edited, the edit, the
claim it breaks, the theorems whose proof no longer goes through, and the theorems tightened because of it. A surviving
mutation is either an equivalent program (said so in the line) or led to a stronger theorem.

## Print Assumptions

Output for every theorem of the manifest: `Closed under the global context`.

<!-- assumptions:begin -->
* C01: `C01_scalar_exact`, `C01_mod_word_exact`, `C01_mod_wide_exact`, `C01_mod_wide_congruent`, `C01_block_lanes`, `C01_block_mod`, `C01_batched`, `C01_batched_blocks`, `C01_coeff_gen`, `C01_inner_product`, `C01_noncanonical_refuted`, `C01_mult_unreduced_refuted`
* C02: `C02_prime`, `C02_no_zero_divisors`, `C02_root_bound`
* C03: `C03_commutative`, `C03_associative`, `C03_distributes`, `C03_unit`, `C03_inverse`, `C03_no_zero_divisors`, `C03_modulus`, `C03_batched_products`, `C03_halves_fit`, `C03_lazy_reduction`
* C04: `C04_honest_session_accepts`, `C04_defined_iff`, `C04_small_batch_refuted`
* C05: `C05_session_soundness`, `C05_challenge_bound`, `C05_vanishing_combination_passes`
* C06: `C06_exact_coverage`, `C06_complete_iff`, `C06_in_bounds`, `C06_disjoint`, `C06_large_batches_complete`, `C06_division_by_zero_iff`, `C06_full_batch_complete`, `C06_unchecked_gate_refuted`
* C07: `C07_correct_bit_matches`, `C07_wrong_bit_needs_key`, `C07_wrong_bit_one_key`, `C07_session_binding`
* C08: `C08_honest_session_accepts`, `C08_defined`, `C08_many_threads_refuted`
* C09: `C09_session_soundness`, `C09_session_soundness_two`, `C09_batch_bound`, `C09_challenge_bound`, `C09_vanishing_combination_passes`, `C09_unreduced_correction_refuted`
* C10: `C10_exact_coverage`, `C10_complete_iff`, `C10_five_threads_complete`, `C10_division_by_zero_iff`, `C10_full_batch_complete`, `C10_unchecked_multiplication_refuted`
* C11: `C11_opening_binds`, `C11_opening_accepts`, `C11_noncanonical_opening_refuted`, `C11_wrong_claim_keys`
* C12: `C12_zero_test_iff`, `C12_nonzero_one_key`, `C12_session_zero_test`
* C13: `C13_batch_bound`, `C13_challenge_bound`, `C13_honest_accepts`
* C14: `C14_honest_accepts`, `C14_batch_bound`, `C14_challenge_bound`, `C14_session_soundness`, `C14_vanishing_combination_passes`
* C15: `C15_reads_are_prefixes`, `C15_no_deadlock`, `C15_terminates`, `C15_steps_bounded`, `C15_delivered`
* C16: `C16_same_challenges`, `C16_without_flush_refuted`, `C16_transcript_binds_bits`, `C16_payloads_not_bound`, `C16_reset_only_splits`
* C17: `C17_roundtrip`, `C17_paths_agree`, `C17_injective`, `C17_length_not_encoded`
* C18: `C18_ot_delivers_choice`, `C18_other_message_masked`, `C18_choice_bits_masked`
* C19: `C19_punctured_tree`, `C19_punctured_tree_f2k`
* C20: `C20_mpfss_honest`, `C20_each_tree_once`, `C20_mpfss_honest_f2k`
* C21: `C21_expansion`, `C21_index_in_range`, `C21_index_words`, `C21_mask`, `C21_expansion_f2k`, `C21_index_words_f2k`
* C22: `C22_unprocessed_tail`, `C22_all_expanded_refuted`, `C22_unprocessed_tail_f2k`
* C23: `C23_extend`, `C23_extend_inplace`, `C23_memory_need`, `C23_session`, `C23_large_reserve_refuted`
* C24: `C24_cope`, `C24_cope_single`, `C24_check_accepts`, `C24_base`
* C25: `C25_all_iterations_valid`, `C25_every_delivered_correlation`, `C25_default_parameters`
* C26: `C26_bool2arith`, `C26_arith2bool`, `C26_batches`, `C26_out_of_range_refuted`, `C26_noncanonical_sum_refuted`
* C27: `C27_masks_in_order`, `C27_no_reuse`, `C27_batch_is_singles`, `C27_in_bounds`
* C28: `C28_partition`, `C28_offsets_drawn`, `C28_opening_in_bounds_iff`, `C28_received_offset_refuted`, `C28_last_offset_refuted`
* C29: `C29_bucket_sums`, `C29_honest_generation`, `C29_bucket_sound`, `C29_boolean_claim_keys`, `C29_field_claim_keys`, `C29_shifted_masks_refuted`, `C29_noncanonical_mask_refuted`
* C30: `C30_base`, `C30_base_value_bits`, `C30_all_iterations_valid`, `C30_default_parameters`
* C31: `C31_honest_run`, `C31_outputs_bound`, `C31_wrong_value_has_error`, `C31_mul_soundness`, `C31_challenge_bound`, `C31_challenge_bound_one_thread`, `C31_vanishing_combination_passes`, `C31_unchecked_multiplication_refuted`, `C31_unbound_corrections_refuted`, `C31_failure_only_printed`, `C31_small_batch_refuted`
* C32: `C32_coefficients3`, `C32_coefficients4`, `C32_coefficients5`, `C32_degree5_soundness`, `C32_challenge_bound`, `C32_degree3_refuted`, `C32_degree4_refuted`
* C33: `C33_consistency`, `C33_honest_passes`, `C33_session`, `C33_honest_set_equality`, `C33_top_bit_refuted`, `C33_outside_memory_refuted`, `C33_unchecked_tail`, `C33_wrong_read_stops`, `C33_right_reads_pass`
* C34: `C34_consistency`, `C34_honest_passes`, `C34_session`, `C34_top_bit_refuted`, `C34_long_log_refuted`, `C34_failure_only_prints`, `C34_unwritten_read_reported`
* C35: `C35_honest_passes`, `C35_consistency_if_sorted`, `C35_alternating_log_refuted`, `C35_compression_counted`, `C35_session_if_sorted`
* C36: `C36_ro_pack`, `C36_rw_pack`, `C36_wide_pack`, `C36_ro_injective`, `C36_rw_injective`, `C36_wide_injective`, `C36_narrow_word_refuted`, `C36_ro_unpack`, `C36_rw_unpack`, `C36_wide_unpack`, `C36_wide_unpack_one_refuted`, `C36_ro_mac`, `C36_rw_mac`, `C36_wide_mac`, `C36_wide_compress`, `C36_wide_collision`, `C36_products`, `C36_short_lists_refuted`, `C36_multiset_bound`
* C37: `C37_before_check`, `C37_after_check`, `C37_refresh_out_of_bounds`, `C37_refresh_otherwise_nothing`, `C37_wide_after_check`, `C37_wide_unwritten_read`, `C37_check_sees_every_access`, `C37_wide_check_sees_every_access`
* C38: `C38_sbox_layer_is_table`, `C38_sbox_is_a_permutation`, `C38_sbox_layer_bijective`, `C38_plain_path_is_lowmc`, `C38_paths_agree`, `C38_program_is_lowmc`, `C38_encrypt_in_context`, `C38_and_count`, `C38_honest_session`, `C38_session_soundness`, `C38_program_oblivious`, `C38_injective_iff_linear_layers`, `C38_singular_matrix_refuted`, `C38_code_instance`
* C39: `C39_call_outcome`, `C39_defined_runs`, `C39_flag_iff_failure`, `C39_one_flag_per_finalize`, `C39_prover_never_flags`, `C39_sessions`, `C39_double_delete`, `C39_late_failures_lost`, `C39_every_failure_reported_refuted`, `C39_conversion_key`
* C40: `C40_bool_defined`, `C40_bool_simulated`, `C40_bool_bijection`, `C40_bool_uniform`, `C40_bool_outputs_seen`, `C40_arith_simulated`, `C40_arith_bijection`, `C40_arith_uniform`, `C40_f2k_product_message`, `C40_f2k_product_refuted`, `C40_set_equality_leak`, `C40_delta_divides`
* C41: `C41_bool_prover`, `C41_bool_verifier`, `C41_arith_prover`, `C41_arith_verifier`, `C41_f2k_prover`, `C41_f2k_verifier`, `C41_lpn`, `C41_lpn_f2k`
* C42: `C42_comparisons`, `C42_nonnegative`, `C42_zero`, `C42_zero_22_refuted`, `C42_negative_off_by_one`, `C42_negative_refuted`, `C42_back`, `C42_back_zero_refuted`, `C42_round_trip`, `C42_round_trip_negative_refuted`, `C42_tiny_refuted`, `C42_tiny`
* C43: `C43_handouts_in_order`, `C43_arith_session`, `C43_f2k_session`
* C44: `C44_honest_session`, `C44_result_from_transcript`, `C44_verifier_reveals_nothing`, `C44_soundness`
* C45: `C45_honest_session`, `C45_missing_flush_refuted`, `C45_result_from_transcript`, `C45_no_anticipation`, `C45_commitment_before_challenge`, `C45_key_only_decides_stop`, `C45_soundness`
* C46: `C46_honest_field_program`, `C46_honest_bit_program`, `C46_branches_independent_of_key`, `C46_field_program_soundness`, `C46_reduced_program_soundness`, `C46_bit_program_soundness`, `C46_noncanonical_branch_refuted`, `C46_negate`, `C46_calls`
* C47: `C47_bit_check`, `C47_bit_relation`, `C47_bit_session`, `C47_and_check`, `C47_field_check`, `C47_field_session`, `C47_triple_check`, `C47_triple_check_only`, `C47_cope_check`, `C47_mul_check`, `C47_factor_macs_refuted`, `C47_wide_factor_refuted`, `C47_tree_check`, `C47_tree_session`, `C47_mu`, `C47_mu_zero_iff`
* C48: `C48_honest_run`, `C48_base_check_binds`, `C48_keys_are_bound`, `C48_session_soundness`, `C48_reply_affine`, `C48_forged_word_exposes_key`
* C49: `C49_honest_run`, `C49_keys_are_bound`, `C49_session_soundness`, `C49_reply_affine`, `C49_forged_word_exposes_key`
* C50: `C50_bool_cheating_choices`, `C50_arith_cheating_choices`, `C50_arith_cheating_choices_two`, `C50_word_challenges_spread`, `C50_block_challenges_spread`
* C51: `C51_product_value`, `C51_product_short`, `C51_product_honest`, `C51_product_any_value_refuted`, `C51_opening_iff`, `C51_opening_bound`, `C51_base_check`, `C51_tree_check_iff`, `C51_tree_honest`, `C51_tree_check_bound`, `C51_own_tests`, `C51_own_tests_limits`, `C51_bulk_extend`, `C51_bulk_need`
* C52: `C52_f2k_schedule_independent`, `C52_f2k_every_schedule_correct`, `C52_schedule_independent`, `C52_every_schedule_correct`
* C53: `C53_f2k_check_refuted`, `C53_challenge_known_in_advance`, `C53_late_challenge_binds`, `C53_values_not_tested`, `C53_noncanonical_sum_refuted`
* C54: `C54_honest_session`, `C54_result_from_transcript`, `C54_key_only_decides_stop`, `C54_outputs_bound`, `C54_soundness`, `C54_challenges_fixed_by_bits`, `C54_late_corrections_refuted`
* C55: `C55_disagreement_needs_key`, `C55_agreement_accepted`, `C55_offsets_bound`, `C55_code_offsets`, `C55_one_offset`, `C55_counted`, `C55_planted_masks_refuted`, `C55_code_planted_refuted`
* C56: `C56_one_generation`, `C56_shape`, `C56_uniform`, `C56_values_hidden`, `C56_macs_unused`, `C56_last_offset_refuted`, `C56_received_offset_refuted`
* C57: `C57_honest_session`, `C57_right_means`, `C57_wrong_needs_key`, `C57_counted`, `C57_code_counted`
* C58: `C58_shape`, `C58_each_transcript_once`, `C58_values_hidden`, `C58_delivered`, `C58_f2k_messages`, `C58_f2k_delivered`, `C58_f2k_reused_mask_refuted`, `C58_unreduced_seed_refuted`
* C59: `C59_sis_relation`, `C59_sis_accepts`, `C59_sis_sound`, `C59_sis_earlier_rounds_refuted`, `C59_sis_hidden`, `C59_matmul_accepts`, `C59_matmul_sound`, `C59_zk_proof_accepts`, `C59_zk_proof_sound`, `C59_polynomial_accepts`, `C59_polynomial_sound`, `C59_inner_product_accepts`, `C59_inner_product_sound`, `C59_circuit_accepts`, `C59_circuit_sound`, `C59_inputs_accepted`
* C60: `C60_honest_session`, `C60_session_defined`, `C60_session_soundness`, `C60_cheating_choices`, `C60_inner_test_honest`, `C60_inner_test`, `C60_poly_test_honest`, `C60_poly_test`, `C60_lowmc_cheating_choices`, `C60_hiding`, `C60_hiding_defined`
* C61: `C61_rw_complete`, `C61_wide_complete`, `C61_ro_complete`, `C61_rw_sound_as_written`, `C61_rw_sound`, `C61_access_value_refuted`, `C61_refresh_refuted`, `C61_wide_refresh_refuted`, `C61_ram_bench`, `C61_ram_ext_test`, `C61_ro_ram_test`, `C61_ram_test_refuted`
* C62: `C62_condition`, `C62_meaning`, `C62_sound`, `C62_complete`, `C62_top_bit_refuted`
* C63: `C63_meaning`, `C63_sound`, `C63_complete`, `C63_top_bit_refuted`, `C63_outside_memory_refuted`
* C64: `C64_bristol_in_context`, `C64_add_in_context`, `C64_sub_in_context`, `C64_example`, `C64_sha256`, `C64_merkle_root`, `C64_merkle_witness_refuted`, `C64_circuit_gates`, `C64_input`
* C65: `C65_conversions_agree`, `C65_reports`, `C65_always_correct_refuted`, `C65_shipped_inputs`
* C66: `C66_condition`, `C66_meaning`, `C66_sound_if_sorted`, `C66_complete`, `C66_unsorted_refuted`, `C66_alternating_refuted`, `C66_balanced_refuted`
* C67: `C67_honest_session`, `C67_session_completes`, `C67_result_from_transcript`, `C67_verifier_reveals_only_seeds`, `C67_soundness`, `C67_flush_after_data`, `C67_hiding`
* C68: `C68_hiding`, `C68_unreduced_challenge_refuted`, `C68_hiding_needs_reduced_refuted`, `C68_leak_frequency`
* C69: `C69_honest_session`, `C69_session_completes`, `C69_result_covers_arithmetic_refuted`, `C69_result_from_transcript`, `C69_bool_soundness`, `C69_arith_soundness`, `C69_hiding`, `C69_key_only_decides_stop`, `C69_boolean_key_never_shows`, `C69_unreduced_challenge_refuted`, `C69_hiding_needs_reduced_refuted`
* C70: `C70_bytes_sent`, `C70_same_for_all_witnesses`, `C70_order_of_calls`, `C70_verifier_bytes`, `C70_verifier_at_most`, `C70_prover_at_most`, `C70_gates_are_free`
<!-- assumptions:end -->
