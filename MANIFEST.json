{
 "claims": [
  {
   "property": "C01",
   "status": "proved",
   "theorems": [
    "C01_scalar_exact",
    "C01_mod_word_exact",
    "C01_mod_wide_exact",
    "C01_mod_wide_congruent",
    "C01_block_lanes",
    "C01_block_mod",
    "C01_batched",
    "C01_batched_blocks",
    "C01_coeff_gen",
    "C01_inner_product",
    "C01_noncanonical_refuted",
    "C01_mult_unreduced_refuted"
   ],
   "note": "exact on canonical operands, lane-wise and batched; the two _refuted theorems record what happens outside the canonical range"
  },
  {
   "property": "C02",
   "status": "proved",
   "theorems": [
    "C02_prime",
    "C02_no_zero_divisors",
    "C02_root_bound"
   ],
   "note": "primality by Lucas certificate, root bound by synthetic division"
  },
  {
   "property": "C03",
   "status": "proved",
   "theorems": [
    "C03_commutative",
    "C03_associative",
    "C03_distributes",
    "C03_unit",
    "C03_inverse",
    "C03_no_zero_divisors",
    "C03_modulus",
    "C03_batched_products",
    "C03_halves_fit",
    "C03_lazy_reduction"
   ],
   "note": "field laws, four-multiplication routines and lazy reduction; emp-tool reduce() is a contract"
  },
  {
   "property": "C04",
   "status": "proved",
   "theorems": [
    "C04_honest_session_accepts",
    "C04_defined_iff",
    "C04_small_batch_refuted"
   ],
   "note": "whole-session completeness over an ideal COT; definedness characterised exactly (a batch smaller than the thread count divides by zero, C04_small_batch_refuted)"
  },
  {
   "property": "C05",
   "status": "proved",
   "theorems": [
    "C05_session_soundness",
    "C05_challenge_bound",
    "C05_vanishing_combination_passes"
   ],
   "note": "whole-session soundness against an arbitrary prover; bad challenges at most n per worker seed when the split covers the batch; converse C05_vanishing_combination_passes"
  },
  {
   "property": "C06",
   "status": "proved",
   "theorems": [
    "C06_exact_coverage",
    "C06_complete_iff",
    "C06_in_bounds",
    "C06_disjoint",
    "C06_large_batches_complete",
    "C06_division_by_zero_iff",
    "C06_full_batch_complete",
    "C06_unchecked_gate_refuted"
   ],
   "note": "exact covered set, disjointness, bounds, completeness iff; unchecked gate exploited in C06_unchecked_gate_refuted"
  },
  {
   "property": "C07",
   "status": "proved",
   "theorems": [
    "C07_correct_bit_matches",
    "C07_wrong_bit_needs_key",
    "C07_wrong_bit_one_key",
    "C07_session_binding"
   ],
   "note": "per-label binding and session-level binding up to an explicit hash collision"
  },
  {
   "property": "C08",
   "status": "proved",
   "theorems": [
    "C08_honest_session_accepts",
    "C08_defined",
    "C08_many_threads_refuted"
   ],
   "note": "whole-session completeness over an ideal VOLE, share relation of every wire, no undefined behaviour up to 32 threads; 33 threads divide by zero (C08_many_threads_refuted)"
  },
  {
   "property": "C09",
   "status": "proved",
   "theorems": [
    "C09_session_soundness",
    "C09_session_soundness_two",
    "C09_batch_bound",
    "C09_challenge_bound",
    "C09_vanishing_combination_passes",
    "C09_unreduced_correction_refuted"
   ],
   "note": "whole-session and per-batch soundness against an arbitrary prover whose corrections are at most p; C09_unreduced_correction_refuted shows why the restriction is needed; converse C09_vanishing_combination_passes"
  },
  {
   "property": "C10",
   "status": "proved",
   "theorems": [
    "C10_exact_coverage",
    "C10_complete_iff",
    "C10_five_threads_complete",
    "C10_division_by_zero_iff",
    "C10_full_batch_complete",
    "C10_unchecked_multiplication_refuted"
   ],
   "note": "exact covered set; unchecked multiplication exploited in C10_unchecked_multiplication_refuted"
  },
  {
   "property": "C11",
   "status": "proved",
   "theorems": [
    "C11_opening_binds",
    "C11_opening_accepts",
    "C11_noncanonical_opening_refuted",
    "C11_wrong_claim_keys"
   ],
   "note": "binding modulo p for claimed words below 2^63, key bounds for all 64-bit words; non-canonical openings are accepted"
  },
  {
   "property": "C12",
   "status": "proved",
   "theorems": [
    "C12_zero_test_iff",
    "C12_nonzero_one_key",
    "C12_session_zero_test"
   ],
   "note": "per value and at the end of any honest session"
  },
  {
   "property": "C13",
   "status": "proved",
   "theorems": [
    "C13_batch_bound",
    "C13_challenge_bound",
    "C13_honest_accepts"
   ],
   "note": "session-level completeness and soundness are shared with C08/C09"
  },
  {
   "property": "C14",
   "status": "proved",
   "theorems": [
    "C14_honest_accepts",
    "C14_batch_bound",
    "C14_challenge_bound",
    "C14_session_soundness",
    "C14_vanishing_combination_passes"
   ],
   "note": "GF(2) polynomial proofs: completeness, per-batch key bound, challenge bound, session soundness"
  },
  {
   "property": "C15",
   "status": "proved",
   "theorems": [
    "C15_reads_are_prefixes",
    "C15_no_deadlock",
    "C15_terminates",
    "C15_steps_bounded",
    "C15_delivered"
   ],
   "note": "any interleaving, any buffer size >= 1, mixed platforms; includes absence of deadlock"
  },
  {
   "property": "C16",
   "status": "proved",
   "theorems": [
    "C16_same_challenges",
    "C16_without_flush_refuted",
    "C16_transcript_binds_bits",
    "C16_payloads_not_bound",
    "C16_reset_only_splits"
   ],
   "note": "the no-flush case is refuted by a counterexample; payload bytes are shown not to be bound"
  },
  {
   "property": "C17",
   "status": "proved",
   "theorems": [
    "C17_roundtrip",
    "C17_paths_agree",
    "C17_injective",
    "C17_length_not_encoded"
   ],
   "note": "both code paths, all lengths"
  },
  {
   "property": "C18",
   "status": "proved",
   "theorems": [
    "C18_ot_delivers_choice",
    "C18_other_message_masked",
    "C18_choice_bits_masked"
   ],
   "note": "delivery, masking of the other message and of the announced bits, for any number of batches; the hash is an arbitrary function"
  },
  {
   "property": "C19",
   "status": "proved",
   "theorems": [
    "C19_punctured_tree",
    "C19_punctured_tree_f2k"
   ],
   "note": "both fields; exact tree of the in-place code, any depth >= 2, nothing outside the leaf array is written"
  },
  {
   "property": "C20",
   "status": "proved",
   "theorems": [
    "C20_mpfss_honest",
    "C20_each_tree_once",
    "C20_mpfss_honest_f2k"
   ],
   "note": "both fields; honest check accepts for every hash function, every tree exactly once; thread tasks are sequentialised in the model"
  },
  {
   "property": "C21",
   "status": "proved",
   "theorems": [
    "C21_expansion",
    "C21_index_in_range",
    "C21_index_words",
    "C21_mask",
    "C21_expansion_f2k",
    "C21_index_words_f2k"
   ],
   "note": "both fields; one index table for all arrays, indices below k, exact modular sums (no lane overflow), correlation preserved"
  },
  {
   "property": "C22",
   "status": "proved",
   "theorems": [
    "C22_unprocessed_tail",
    "C22_all_expanded_refuted",
    "C22_unprocessed_tail_f2k"
   ],
   "note": "both fields; the claim that all n positions are expanded is refuted"
  },
  {
   "property": "C23",
   "status": "proved",
   "theorems": [
    "C23_extend",
    "C23_extend_inplace",
    "C23_memory_need",
    "C23_session",
    "C23_large_reserve_refuted"
   ],
   "note": "exact delivery, freshness and in-bounds writes whenever 1 <= M <= yield; C23_large_reserve_refuted shows the overflow otherwise"
  },
  {
   "property": "C24",
   "status": "proved",
   "theorems": [
    "C24_cope",
    "C24_cope_single",
    "C24_check_accepts",
    "C24_base"
   ],
   "note": "single and batched OT-based product, honest check, whole base generation"
  },
  {
   "property": "C25",
   "status": "proved",
   "theorems": [
    "C25_all_iterations_valid",
    "C25_every_delivered_correlation",
    "C25_default_parameters"
   ],
   "note": "set-up, all iterations and all request sequences; the sizes of fp_default meet the hypotheses (C25_default_parameters)"
  },
  {
   "property": "C26",
   "status": "proved",
   "theorems": [
    "C26_bool2arith",
    "C26_arith2bool",
    "C26_batches",
    "C26_out_of_range_refuted",
    "C26_noncanonical_sum_refuted"
   ],
   "note": "Single and batch conversions keep every value below p for every consistent mask, in every reachable stock state. Refuted: inputs of 2^61 and above depend on the mask; the claimed masked sum is not range checked (sum + p is accepted and lowers the result by 2)."
  },
  {
   "property": "C27",
   "status": "proved",
   "theorems": [
    "C27_masks_in_order",
    "C27_no_reuse",
    "C27_batch_is_singles",
    "C27_in_bounds"
   ],
   "note": "Every sequence of single and batch conversions uses masks 0,1,2,... in order, both halves read in the right generation, no half reused, all indices in bounds; for all stock levels, batch lengths, N, B, C and buffer sizes holding one window."
  },
  {
   "property": "C28",
   "status": "proved",
   "theorems": [
    "C28_partition",
    "C28_offsets_drawn",
    "C28_opening_in_bounds_iff",
    "C28_received_offset_refuted",
    "C28_last_offset_refuted"
   ],
   "note": "Openings and bucket partners partition the candidates N..ell-1 for every offset with rand_pt + C <= ell_faulty, all N, B >= 2, C. Refuted at the last offset: one candidate past the end is opened, the first non-delivered candidate is unused, and the next generation's first field mask is opened in clear."
  },
  {
   "property": "C29",
   "status": "proved",
   "theorems": [
    "C29_bucket_sums",
    "C29_honest_generation",
    "C29_bucket_sound",
    "C29_boolean_claim_keys",
    "C29_field_claim_keys",
    "C29_shifted_masks_refuted",
    "C29_noncanonical_mask_refuted"
   ],
   "note": "Honest generation is accepted iff no bucket sum is exactly p; openings bind both halves; a bucket with a good partner and canonical words forces equal halves. Refuted without range checks: shifted masks are accepted for a third of the keys; a boolean mask a + p passes."
  },
  {
   "property": "C30",
   "status": "proved",
   "theorems": [
    "C30_base",
    "C30_base_value_bits",
    "C30_all_iterations_valid",
    "C30_default_parameters"
   ],
   "note": "packing of 128 bits, then set-up and every iteration over GF(2^128); the three parameter sets meet the hypotheses"
  },
  {
   "property": "C31",
   "status": "proved",
   "theorems": [
    "C31_honest_run",
    "C31_outputs_bound",
    "C31_wrong_value_has_error",
    "C31_mul_soundness",
    "C31_challenge_bound",
    "C31_challenge_bound_one_thread",
    "C31_vanishing_combination_passes",
    "C31_unchecked_multiplication_refuted",
    "C31_unbound_corrections_refuted",
    "C31_failure_only_printed",
    "C31_small_batch_refuted"
   ],
   "note": "Honest runs are accepted when every batch has at least as many multiplications as workers; a wrong product is reported for all but two keys unless the challenge hides it (few seeds). Refuted: smaller batches use uninitialised sums; the worker split leaves multiplications unchecked; corrections are not bound by the challenge; a failing check is only printed."
  },
  {
   "property": "C32",
   "status": "proved",
   "theorems": [
    "C32_coefficients3",
    "C32_coefficients4",
    "C32_coefficients5",
    "C32_degree5_soundness",
    "C32_challenge_bound",
    "C32_degree3_refuted",
    "C32_degree4_refuted"
   ],
   "note": "Coefficient identities for 3, 4 and 5 factors, honest acceptance, degree-5 soundness (five keys). Refuted for 3 and 4 factors: the prover also sends the coefficients of Delta^3 and Delta^4, so any claimed product passes."
  },
  {
   "property": "C33",
   "status": "proved",
   "theorems": [
    "C33_consistency",
    "C33_honest_passes",
    "C33_session",
    "C33_honest_set_equality",
    "C33_top_bit_refuted",
    "C33_outside_memory_refuted",
    "C33_unchecked_tail",
    "C33_wrong_read_stops",
    "C33_right_reads_pass"
   ],
   "note": "In-range claimed addresses plus order plus multiset equality force correct reads; honest lists pass; a wrong read survives fewer set-equality challenges than records. Refuted: a claimed address with its top bit set passes any forged content; reads beyond the memory are free; reads since the last automatic check are never checked."
  },
  {
   "property": "C34",
   "status": "proved",
   "theorems": [
    "C34_consistency",
    "C34_honest_passes",
    "C34_session",
    "C34_top_bit_refuted",
    "C34_long_log_refuted",
    "C34_failure_only_prints",
    "C34_unwritten_read_reported"
   ],
   "note": "Same for the read-write log (last written value), with logs of at most half the step range. Refuted: top address bit; longer logs; a failing order check only prints; honest reads of unwritten cells are reported as wrong."
  },
  {
   "property": "C35",
   "status": "proved",
   "theorems": [
    "C35_honest_passes",
    "C35_consistency_if_sorted",
    "C35_alternating_log_refuted",
    "C35_compression_counted",
    "C35_session_if_sorted"
   ],
   "note": "Honest logs pass; sound if the list is sorted by address, counted over the compression coefficients and the set-equality challenges (C35_compression_counted, C35_session_if_sorted). Refuted: the order check does not enforce sorting, so any log without two consecutive uses of one address passes unsorted."
  },
  {
   "property": "C36",
   "status": "proved",
   "theorems": [
    "C36_ro_pack",
    "C36_rw_pack",
    "C36_wide_pack",
    "C36_ro_injective",
    "C36_rw_injective",
    "C36_wide_injective",
    "C36_narrow_word_refuted",
    "C36_ro_unpack",
    "C36_rw_unpack",
    "C36_wide_unpack",
    "C36_wide_unpack_one_refuted",
    "C36_ro_mac",
    "C36_rw_mac",
    "C36_wide_mac",
    "C36_wide_compress",
    "C36_wide_collision",
    "C36_products",
    "C36_short_lists_refuted",
    "C36_multiset_bound"
   ],
   "note": "Packing equals the positional word, is injective, macs and row compression follow; both products are computed for lists of at least 3 elements. Refuted: shorter lists underflow; address+step+1 > 64 bits collides; one-word wide values underflow."
  },
  {
   "property": "C37",
   "status": "proved",
   "theorems": [
    "C37_before_check",
    "C37_after_check",
    "C37_refresh_out_of_bounds",
    "C37_refresh_otherwise_nothing",
    "C37_wide_after_check",
    "C37_wide_unwritten_read",
    "C37_check_sees_every_access",
    "C37_wide_check_sees_every_access"
   ],
   "note": "Before a check every in-range access is defined and the log is that of a plain memory; after a check (and in a refresh that fires) every access is out of bounds; unwritten wide cells cannot be read."
  },
  {
   "property": "C38",
   "status": "proved",
   "theorems": [
    "C38_sbox_layer_is_table",
    "C38_sbox_is_a_permutation",
    "C38_sbox_layer_bijective",
    "C38_plain_path_is_lowmc",
    "C38_paths_agree",
    "C38_program_is_lowmc",
    "C38_encrypt_in_context",
    "C38_and_count",
    "C38_honest_session",
    "C38_session_soundness",
    "C38_program_oblivious",
    "C38_injective_iff_linear_layers",
    "C38_singular_matrix_refuted",
    "C38_code_instance"
   ],
   "note": "Plain path = LowMC with the table S-box for all keys, messages, matrices, constants and parameters; the gates of the authenticated path compute the plain path in any context; completeness and soundness of a whole encryption session; S-box layer bijective; encryption injective exactly when every linear layer is (the code never checks this, C38_singular_matrix_refuted)."
  },
  {
   "property": "C39",
   "status": "proved",
   "theorems": [
    "C39_call_outcome",
    "C39_defined_runs",
    "C39_flag_iff_failure",
    "C39_one_flag_per_finalize",
    "C39_prover_never_flags",
    "C39_sessions",
    "C39_double_delete",
    "C39_late_failures_lost",
    "C39_every_failure_reported_refuted",
    "C39_conversion_key"
   ],
   "note": "All call sequences, both parties. The flag is exact for failures recorded before finalize_zk_bool; failures of the arithmetic engine finalised afterwards are lost (C39_every_failure_reported_refuted). Double deletion proved for every sequence of that shape."
  },
  {
   "property": "C40",
   "status": "proved",
   "theorems": [
    "C40_bool_defined",
    "C40_bool_simulated",
    "C40_bool_bijection",
    "C40_bool_uniform",
    "C40_bool_outputs_seen",
    "C40_arith_simulated",
    "C40_arith_bijection",
    "C40_arith_uniform",
    "C40_f2k_product_message",
    "C40_f2k_product_refuted",
    "C40_set_equality_leak",
    "C40_delta_divides"
   ],
   "note": "Boolean and arithmetic engine, adaptively chosen challenges: the prover's messages equal those of a simulator without the witness, are uniform, and for two witnesses with the same outputs a bijection of the randomness gives identical messages. Ideal correlations; the digest is replaced by the hashed data. The GF(2^128) product proof and the set-equality opening do leak (C40_f2k_product_refuted, C40_set_equality_leak). In the arithmetic engine the batch challenges of relation proofs are reduced before use, as the honest verifier does; a malicious verifier can send an unreduced one, and then the messages leak (C68)."
  },
  {
   "property": "C41",
   "status": "proved",
   "theorems": [
    "C41_bool_prover",
    "C41_bool_verifier",
    "C41_arith_prover",
    "C41_arith_verifier",
    "C41_f2k_prover",
    "C41_f2k_verifier",
    "C41_lpn",
    "C41_lpn_f2k"
   ],
   "note": "Every access to shared memory of a worker is one step; all interleavings of the tasks. Proved: no reachable data race, no stuck state, fixed number of steps, final sums (all three engines, both parties) and final vectors (linear expansions of both fields, both parties) equal those of the sequential models used by the other properties. Weak memory is not modelled: C++ gives interleaving semantics to race-free programs. Thread-pool internals and network channels are not modelled."
  },
  {
   "property": "C42",
   "status": "proved",
   "theorems": [
    "C42_comparisons",
    "C42_nonnegative",
    "C42_zero",
    "C42_zero_22_refuted",
    "C42_negative_off_by_one",
    "C42_negative_refuted",
    "C42_back",
    "C42_back_zero_refuted",
    "C42_round_trip",
    "C42_round_trip_negative_refuted",
    "C42_tiny_refuted",
    "C42_tiny"
   ],
   "note": "emp-tool Integer operations are modelled by their documented meaning (not in /repo). The theorems hold for every >= that is right when the difference fits in the width; exact signed comparison and sign-of-difference are both shown to qualify. The intended statement for negative inputs and for zero is refuted (off by one; zero returns as 2^(-1-s)); below the 8-bit exponent range the result depends on the reading of >= (C42_tiny, C42_tiny_refuted, C42_zero_22_refuted)."
  },
  {
   "property": "C43",
   "status": "proved",
   "theorems": [
    "C43_handouts_in_order",
    "C43_arith_session",
    "C43_f2k_session"
   ],
   "note": "Composes the generator theorems (C23, C25, C30) with the session theorems (C08, C31): the engines run on what the modelled generator hands out, not on ideal correlations. The base OTs and COTs under the generators, and the COTs of the Boolean part, stay ideal. Honest parties only; soundness is stated over ideal correlations (C09, C31)."
  },
  {
   "property": "C44",
   "status": "proved",
   "theorems": [
    "C44_honest_session",
    "C44_result_from_transcript",
    "C44_verifier_reveals_nothing",
    "C44_soundness"
   ],
   "note": "Joins the channel model (C15, C16) and the engine model (C04, C05): the abstract challenge oracle of C04 becomes a function of the bytes each endpoint hashed. Ideal correlations; the prover's two flushes at the end of a session are one action."
  },
  {
   "property": "C45",
   "status": "proved",
   "theorems": [
    "C45_honest_session",
    "C45_missing_flush_refuted",
    "C45_result_from_transcript",
    "C45_no_anticipation",
    "C45_commitment_before_challenge",
    "C45_key_only_decides_stop",
    "C45_soundness"
   ],
   "note": "Challenges are inputs of the run, not assumed fixed in advance: the order of commitments and challenges is a theorem. Ideal correlations; soundness keeps C09's hypothesis that corrections of inputs and products are at most p. C45_missing_flush_refuted: the batch check of polynomial relations needs NetIO's receive to deliver the send buffer."
  },
  {
   "property": "C46",
   "status": "proved",
   "theorems": [
    "C46_honest_field_program",
    "C46_honest_bit_program",
    "C46_branches_independent_of_key",
    "C46_field_program_soundness",
    "C46_reduced_program_soundness",
    "C46_bit_program_soundness",
    "C46_noncanonical_branch_refuted",
    "C46_negate",
    "C46_calls"
   ],
   "note": "Loops and branches are unfolded into a tree indexed by opened values. Ideal correlations; soundness inherits C05/C09's hypotheses. C46_noncanonical_branch_refuted: reveal() hands the program the received word unreduced."
  },
  {
   "property": "C47",
   "status": "proved",
   "theorems": [
    "C47_bit_check",
    "C47_bit_relation",
    "C47_bit_session",
    "C47_and_check",
    "C47_field_check",
    "C47_field_session",
    "C47_triple_check",
    "C47_triple_check_only",
    "C47_cope_check",
    "C47_mul_check",
    "C47_factor_macs_refuted",
    "C47_wide_factor_refuted",
    "C47_tree_check",
    "C47_tree_session",
    "C47_mu",
    "C47_mu_zero_iff"
   ],
   "note": "Received bools are 0 or 1; delta and keys canonical as in every session. C47_factor_macs_refuted and C47_wide_factor_refuted state what check_compute_mul misses and over-rejects."
  },
  {
   "property": "C48",
   "status": "proved",
   "theorems": [
    "C48_honest_run",
    "C48_base_check_binds",
    "C48_keys_are_bound",
    "C48_session_soundness",
    "C48_reply_affine",
    "C48_forged_word_exposes_key"
   ],
   "note": "Fixed sets of keys and fixed prover messages; correction words above p are outside (the carries then depend on the key). An oblivious transfer gives the prover exactly the message of its choice bit. The verifier's own view of the check is only the received x_star."
  },
  {
   "property": "C49",
   "status": "proved",
   "theorems": [
    "C49_honest_run",
    "C49_keys_are_bound",
    "C49_session_soundness",
    "C49_reply_affine",
    "C49_forged_word_exposes_key"
   ],
   "note": "An oblivious transfer gives the prover exactly the message of its choice bit; the base blocks are those of a correct COT. The polynomial proofs of C32 are not restated over the generator."
  },
  {
   "property": "C50",
   "status": "proved",
   "theorems": [
    "C50_bool_cheating_choices",
    "C50_arith_cheating_choices",
    "C50_arith_cheating_choices_two",
    "C50_word_challenges_spread",
    "C50_block_challenges_spread"
   ],
   "note": "Seeds are drawn independently per check and per worker. The arithmetic verifier sends one block per check and expands it with a PRG. The boolean engine derives its seeds from a hash of the transcript, so there the count speaks of a random oracle queried once per check. Corrections of the arithmetic prover are at most p, as in C09."
  },
  {
   "property": "C51",
   "status": "proved",
   "theorems": [
    "C51_product_value",
    "C51_product_short",
    "C51_product_honest",
    "C51_product_any_value_refuted",
    "C51_opening_iff",
    "C51_opening_bound",
    "C51_base_check",
    "C51_tree_check_iff",
    "C51_tree_honest",
    "C51_tree_check_bound",
    "C51_own_tests",
    "C51_own_tests_limits",
    "C51_bulk_extend",
    "C51_bulk_need"
   ],
   "note": "The single-tree check uses one hash value of the sum exchanged by both parties; the theorems take the two sides' sums equal. The library calls the GF(2^128) extend_inplace with one run only."
  },
  {
   "property": "C52",
   "status": "proved",
   "theorems": [
    "C52_f2k_schedule_independent",
    "C52_f2k_every_schedule_correct",
    "C52_schedule_independent",
    "C52_every_schedule_correct"
   ],
   "note": "A tree computes on a copy of its slice and writes it back cell by cell; objects owned by one tree are local. The pool is taken to have a worker for every task. GF(2^128): the hash object of a connection is a state cell with an output and a next-state function; the bit buffers of the connections are empty, so flush() absorbs nothing."
  },
  {
   "property": "C53",
   "status": "proved",
   "theorems": [
    "C53_f2k_check_refuted",
    "C53_challenge_known_in_advance",
    "C53_late_challenge_binds",
    "C53_values_not_tested",
    "C53_noncanonical_sum_refuted"
   ],
   "note": "(1) and (2) are refutations of the check's purpose; (3), (4) bound the F_p check for trees handled by one thread. In (3) all trees share one challenge, so only the sum of the keys over the trees is bound."
  },
  {
   "property": "C54",
   "status": "proved",
   "theorems": [
    "C54_honest_session",
    "C54_result_from_transcript",
    "C54_key_only_decides_stop",
    "C54_outputs_bound",
    "C54_soundness",
    "C54_challenges_fixed_by_bits",
    "C54_late_corrections_refuted"
   ],
   "note": "Correlations are ideal. Statement (5) is a refutation (C54_late_corrections_refuted) with one thread; it extends C31_unbound_corrections_refuted to real programs on the channel."
  },
  {
   "property": "C55",
   "status": "proved",
   "theorems": [
    "C55_disagreement_needs_key",
    "C55_agreement_accepted",
    "C55_offsets_bound",
    "C55_code_offsets",
    "C55_one_offset",
    "C55_counted",
    "C55_planted_masks_refuted",
    "C55_code_planted_refuted"
   ],
   "note": "Words above p are outside the bound; C29_shifted_masks_refuted shows what they allow. The offset where the opening leaves the candidates (C28_last_offset_refuted) is not counted. The bucket sums are authenticated (C05)."
  },
  {
   "property": "C56",
   "status": "proved",
   "theorems": [
    "C56_one_generation",
    "C56_shape",
    "C56_uniform",
    "C56_values_hidden",
    "C56_macs_unused",
    "C56_last_offset_refuted",
    "C56_received_offset_refuted"
   ],
   "note": "About the words sent; the digest is a function of the verifier's keys and these words unless a bucket sum is exactly p (C29). Boolean halves equal the field halves (honest prover). That no mask serves two conversions is C27. C56_received_offset_refuted: a dishonest verifier may open any mask of the later windows, because the prover does not check the received offset; the boolean candidates it then reads lie outside the array (undefined), but only after the word has been sent."
  },
  {
   "property": "C57",
   "status": "proved",
   "theorems": [
    "C57_honest_session",
    "C57_right_means",
    "C57_wrong_needs_key",
    "C57_counted",
    "C57_code_counted"
   ],
   "note": "Labels and shares of the two engines are authenticated (C05, C09); converted boolean values are below p (C26). Digests are compared as the hashed data. A boolean result p stands for 0. Words above p are outside (C26_noncanonical_sum_refuted, C29_shifted_masks_refuted). That 1/7 is reached is C55."
  },
  {
   "property": "C58",
   "status": "proved",
   "theorems": [
    "C58_shape",
    "C58_each_transcript_once",
    "C58_values_hidden",
    "C58_delivered",
    "C58_f2k_messages",
    "C58_f2k_delivered",
    "C58_f2k_reused_mask_refuted",
    "C58_unreduced_seed_refuted"
   ],
   "note": "Masks are PRG words reduced below p and taken as uniform; the reduction of 64-bit words is biased by less than 2^-57. Later expansions draw their masks from earlier outputs, which are only pseudo-random (LPN), so the statement covers set-up and first expansion. C58_f2k_reused_mask_refuted is the GF(2^128) defect. C58_unreduced_seed_refuted: the hypothesis that the base-check seed is reduced (vpub_ok) is needed; the case uses the default sizes 600 and 1220."
  },
  {
   "property": "C59",
   "status": "proved",
   "theorems": [
    "C59_sis_relation",
    "C59_sis_accepts",
    "C59_sis_sound",
    "C59_sis_earlier_rounds_refuted",
    "C59_sis_hidden",
    "C59_matmul_accepts",
    "C59_matmul_sound",
    "C59_zk_proof_accepts",
    "C59_zk_proof_sound",
    "C59_polynomial_accepts",
    "C59_polynomial_sound",
    "C59_inner_product_accepts",
    "C59_inner_product_sound",
    "C59_circuit_accepts",
    "C59_circuit_sound",
    "C59_inputs_accepted"
   ],
   "note": "Built on C08/C09/C50 (sessions) and C40 (hiding). Thread counts up to 5 for soundness because of the batch-splitting defect of C09. inner_prdt.cpp and polynomial.cpp take the constant from the prover in the clear; it is canonical here, which the honest program violates when the sum is 0. C59_sis_earlier_rounds_refuted is the finding on sis.cpp."
  },
  {
   "property": "C60",
   "status": "proved",
   "theorems": [
    "C60_honest_session",
    "C60_session_defined",
    "C60_session_soundness",
    "C60_cheating_choices",
    "C60_inner_test_honest",
    "C60_inner_test",
    "C60_poly_test_honest",
    "C60_poly_test",
    "C60_lowmc_cheating_choices",
    "C60_hiding",
    "C60_hiding_defined"
   ],
   "note": "Combines C05/C10 (gates) with C14 (relations): a relation is resolved on the labels current when it is queued, which is shown to be the same as at the end. Relation seeds are drawn by the verifier (polynomial.h:75), so the bits sent after a check may depend on them. Counting needs every batch covered by the workers (defect of C05). The two test programs have no AND gate and hash nothing, so their bound has no collision term."
  },
  {
   "property": "C61",
   "status": "proved",
   "theorems": [
    "C61_rw_complete",
    "C61_wide_complete",
    "C61_ro_complete",
    "C61_rw_sound_as_written",
    "C61_rw_sound",
    "C61_access_value_refuted",
    "C61_refresh_refuted",
    "C61_wide_refresh_refuted",
    "C61_ram_bench",
    "C61_ram_ext_test",
    "C61_ro_ram_test",
    "C61_ram_test_refuted"
   ],
   "note": "Completeness for the three memories, composed from the life cycle (C37), the order check (C33-C35) and the set-equality session (C33_honest_set_equality); API-level soundness of ZKRAM (C61_rw_sound; C61_rw_sound_as_written covers writing accesses with the fed value); instances for ram_test bench, ram_ext_test and ro_ram_test; refutations: access() does not bind the written value, refresh() after every access, ram_test after check(). The range of the claimed sorted addresses is a hypothesis (C34_top_bit_refuted); soundness of the wide memory is refuted by C35."
  },
  {
   "property": "C62",
   "status": "proved",
   "theorems": [
    "C62_condition",
    "C62_meaning",
    "C62_sound",
    "C62_complete",
    "C62_top_bit_refuted"
   ],
   "note": "Order circuit (C62_condition), meaning of the whole circuit for all inputs (C62_meaning), soundness over boolean and F2k session under one key (C62_sound), completeness (C62_complete), the top-bit attack end to end (C62_top_bit_refuted). Accidents of the two batch checks and hash collisions between the six keys are excluded in check_passes. The emp-tool circuits (equality, comparison) are not in the repository; their gate lists are part of the trusted base."
  },
  {
   "property": "C63",
   "status": "proved",
   "theorems": [
    "C63_meaning",
    "C63_sound",
    "C63_complete",
    "C63_top_bit_refuted",
    "C63_outside_memory_refuted"
   ],
   "note": "Meaning of the whole circuit for all inputs (C63_meaning), soundness over boolean and F2k session under one key (C63_sound), completeness (C63_complete), the two attacks end to end (C63_top_bit_refuted, C63_outside_memory_refuted). One period from init() or the last check() to the next check(). Accidents of the two batch checks and hash collisions between the six keys are excluded in ro_check_passes. The emp-tool circuits (equality, comparison) are not in the repository; their gate lists are part of the trusted base."
  },
  {
   "property": "C64",
   "status": "proved",
   "theorems": [
    "C64_bristol_in_context",
    "C64_add_in_context",
    "C64_sub_in_context",
    "C64_example",
    "C64_sha256",
    "C64_merkle_root",
    "C64_merkle_witness_refuted",
    "C64_circuit_gates",
    "C64_input"
   ],
   "note": "session_shows is completeness for every key; session_proves is soundness: a transcript accepted under three keys, outside cancelling AND errors and hash collisions between these keys, opens bits in the stated relation to the committed inputs. BristolFormat::compute and the Integer circuits for + and - belong to emp-tool, which is not in the repository; their gate lists are part of the trusted base, the circuit file is a parameter. test/bool/lowmc.cpp is C38, inner_prdt.cpp and polynomial.cpp are C60."
  },
  {
   "property": "C65",
   "status": "proved",
   "theorems": [
    "C65_conversions_agree",
    "C65_reports",
    "C65_always_correct_refuted",
    "C65_shipped_inputs"
   ],
   "note": "Honest parties; conversions against a cheating prover are C55 and C57. A boolean Integer is the 62-bit number it holds; the circuits of + and - on bits are those of C64. The conversion of the value p itself, which C26 does not cover, is shown to give 0."
  },
  {
   "property": "C66",
   "status": "proved",
   "theorems": [
    "C66_condition",
    "C66_meaning",
    "C66_sound_if_sorted",
    "C66_complete",
    "C66_unsorted_refuted",
    "C66_alternating_refuted",
    "C66_balanced_refuted"
   ],
   "note": "Sessions are boolean session plus F2k set-equality session under one key, as in C62. C66_sound_if_sorted counts coefficient vectors: for each vector in the list at least as many challenges as calls are survived with six keys (wide_passes, which excludes the accidents of the F2k challenge hashes and AND errors that cancel). C66_complete asks for the sort the honest prover makes (by the first packed number), at least three accesses, and the buffer condition without which set equality aborts. Values of one word are excluded because check() is undefined there (C35)."
  },
  {
   "property": "C67",
   "status": "proved",
   "theorems": [
    "C67_honest_session",
    "C67_session_completes",
    "C67_result_from_transcript",
    "C67_verifier_reveals_only_seeds",
    "C67_soundness",
    "C67_flush_after_data",
    "C67_hiding"
   ],
   "note": "Extends C44 (gates only) and C60 (message level) to the channel. C67_soundness asks for a well-formed program and that the data read are bytes. C67_flush_after_data justifies leaving out the explicit flush after the two sends of batch_check. C67_run_case and C67_cheat_case are computed runs. C67_hiding fixes the verifier's half of the correlations, allows any verifier program (seeds chosen from everything seen so far, sent out of turn) and any, also incomplete, run; the data the prover reads are bytes."
  },
  {
   "property": "C68",
   "status": "proved",
   "theorems": [
    "C68_hiding",
    "C68_unreduced_challenge_refuted",
    "C68_hiding_needs_reduced_refuted",
    "C68_leak_frequency"
   ],
   "note": "Lifts the message-level hiding of C40 to programs over the channel. The situation includes the list of what the prover has read; the other challenges (128-bit seeds) are arbitrary bytes. C68_unreduced_challenge_refuted and C68_hiding_needs_reduced_refuted show the leak for x*y = 0 against one explicit verifier program. VOLE is ideal. C68_leak_frequency: with Delta not 0 the leak happens for exactly as many choices of one mask as there are words of at least 4p/7."
  },
  {
   "property": "C69",
   "status": "proved",
   "theorems": [
    "C69_honest_session",
    "C69_session_completes",
    "C69_result_covers_arithmetic_refuted",
    "C69_result_from_transcript",
    "C69_bool_soundness",
    "C69_arith_soundness",
    "C69_hiding",
    "C69_key_only_decides_stop",
    "C69_boolean_key_never_shows",
    "C69_unreduced_challenge_refuted",
    "C69_hiding_needs_reduced_refuted"
   ],
   "note": "Composes C67 and C45 on one endpoint. The data of emp-zk/edabit are opaque byte strings here; their contents are the subject of the edaBits properties. C69_result_covers_arithmetic_refuted is the wire-level counterpart of C39_late_failures_lost. C69_unreduced_challenge_refuted and C69_hiding_needs_reduced_refuted are the counterparts of C68's. VOLE and COT are ideal."
  },
  {
   "property": "C70",
   "status": "proved",
   "theorems": [
    "C70_bytes_sent",
    "C70_same_for_all_witnesses",
    "C70_order_of_calls",
    "C70_verifier_bytes",
    "C70_verifier_at_most",
    "C70_prover_at_most",
    "C70_gates_are_free"
   ],
   "note": "Counts the bytes each party's endpoint hands to the stream. VOLE and COT traffic is not on this channel in the model, so the counters of their set-up are not included."
  }
 ]
}