{
 "C01": {
  "status": "proved",
  "note": "exact on canonical operands, lane-wise and batched; the two _refuted theorems record what happens outside the canonical range"
 },
 "C02": {
  "status": "proved",
  "note": "primality by Lucas certificate, root bound by synthetic division"
 },
 "C03": {
  "status": "proved",
  "note": "field laws, four-multiplication routines and lazy reduction; emp-tool reduce() is a contract"
 },
 "C04": {
  "status": "proved",
  "note": "whole-session completeness over an ideal COT; definedness characterised exactly (a batch smaller than the thread count divides by zero, C04_small_batch_refuted)"
 },
 "C05": {
  "status": "proved",
  "note": "whole-session soundness against an arbitrary prover; bad challenges at most n per worker seed when the split covers the batch; converse C05_vanishing_combination_passes"
 },
 "C06": {
  "status": "proved",
  "note": "exact covered set, disjointness, bounds, completeness iff; unchecked gate exploited in C06_unchecked_gate_refuted"
 },
 "C07": {
  "status": "proved",
  "note": "per-label binding and session-level binding up to an explicit hash collision"
 },
 "C08": {
  "status": "proved",
  "note": "whole-session completeness over an ideal VOLE, share relation of every wire, no undefined behaviour up to 32 threads; 33 threads divide by zero (C08_many_threads_refuted)"
 },
 "C09": {
  "status": "proved",
  "note": "whole-session and per-batch soundness against an arbitrary prover whose corrections are at most p; C09_unreduced_correction_refuted shows why the restriction is needed; converse C09_vanishing_combination_passes"
 },
 "C10": {
  "status": "proved",
  "note": "exact covered set; unchecked multiplication exploited in C10_unchecked_multiplication_refuted"
 },
 "C11": {
  "status": "proved",
  "note": "binding modulo p for claimed words below 2^63, key bounds for all 64-bit words; non-canonical openings are accepted"
 },
 "C12": {
  "status": "proved",
  "note": "per value and at the end of any honest session"
 },
 "C13": {
  "status": "proved",
  "note": "session-level completeness and soundness are shared with C08/C09"
 },
 "C14": {
  "status": "proved",
  "note": "GF(2) polynomial proofs: completeness, per-batch key bound, challenge bound, session soundness"
 },
 "C15": {
  "status": "proved",
  "note": "any interleaving, any buffer size >= 1, mixed platforms; includes absence of deadlock"
 },
 "C16": {
  "status": "proved",
  "note": "the no-flush case is refuted by a counterexample; payload bytes are shown not to be bound"
 },
 "C17": {
  "status": "proved",
  "note": "both code paths, all lengths"
 },
 "C18": {
  "status": "proved",
  "note": "delivery, masking of the other message and of the announced bits, for any number of batches; the hash is an arbitrary function"
 },
 "C19": {
  "status": "proved",
  "note": "both fields; exact tree of the in-place code, any depth >= 2, nothing outside the leaf array is written"
 },
 "C20": {
  "status": "proved",
  "note": "both fields; honest check accepts for every hash function, every tree exactly once; thread tasks are sequentialised in the model"
 },
 "C21": {
  "status": "proved",
  "note": "both fields; one index table for all arrays, indices below k, exact modular sums (no lane overflow), correlation preserved"
 },
 "C22": {
  "status": "proved",
  "note": "both fields; the claim that all n positions are expanded is refuted"
 },
 "C23": {
  "status": "proved",
  "note": "exact delivery, freshness and in-bounds writes whenever 1 <= M <= yield; C23_large_reserve_refuted shows the overflow otherwise"
 },
 "C24": {
  "status": "proved",
  "note": "single and batched OT-based product, honest check, whole base generation"
 },
 "C25": {
  "status": "proved",
  "note": "set-up, all iterations and all request sequences; the sizes of fp_default meet the hypotheses (C25_default_parameters)"
 },
 "C30": {
  "status": "proved",
  "note": "packing of 128 bits, then set-up and every iteration over GF(2^128); the three parameter sets meet the hypotheses"
 },
 "C26": {
  "status": "proved",
  "note": "Single and batch conversions keep every value below p for every consistent mask, in every reachable stock state. Refuted: inputs of 2^61 and above depend on the mask; the claimed masked sum is not range checked (sum + p is accepted and lowers the result by 2)."
 },
 "C27": {
  "status": "proved",
  "note": "Every sequence of single and batch conversions uses masks 0,1,2,... in order, both halves read in the right generation, no half reused, all indices in bounds; for all stock levels, batch lengths, N, B, C and buffer sizes holding one window."
 },
 "C28": {
  "status": "proved",
  "note": "Openings and bucket partners partition the candidates N..ell-1 for every offset with rand_pt + C <= ell_faulty, all N, B >= 2, C. Refuted at the last offset: one candidate past the end is opened, the first non-delivered candidate is unused, and the next generation's first field mask is opened in clear."
 },
 "C29": {
  "status": "proved",
  "note": "Honest generation is accepted iff no bucket sum is exactly p; openings bind both halves; a bucket with a good partner and canonical words forces equal halves. Refuted without range checks: shifted masks are accepted for a third of the keys; a boolean mask a + p passes."
 },
 "C31": {
  "status": "proved",
  "note": "Honest runs are accepted when every batch has at least as many multiplications as workers; a wrong product is reported for all but two keys unless the challenge hides it (few seeds). Refuted: smaller batches use uninitialised sums; the worker split leaves multiplications unchecked; corrections are not bound by the challenge; a failing check is only printed."
 },
 "C32": {
  "status": "proved",
  "note": "Coefficient identities for 3, 4 and 5 factors, honest acceptance, degree-5 soundness (five keys). Refuted for 3 and 4 factors: the prover also sends the coefficients of Delta^3 and Delta^4, so any claimed product passes."
 },
 "C33": {
  "status": "proved",
  "note": "In-range claimed addresses plus order plus multiset equality force correct reads; honest lists pass; a wrong read survives fewer set-equality challenges than records. Refuted: a claimed address with its top bit set passes any forged content; reads beyond the memory are free; reads since the last automatic check are never checked."
 },
 "C34": {
  "status": "proved",
  "note": "Same for the read-write log (last written value), with logs of at most half the step range. Refuted: top address bit; longer logs; a failing order check only prints; honest reads of unwritten cells are reported as wrong."
 },
 "C35": {
  "status": "proved",
  "note": "Honest logs pass; sound if the list is sorted by address, counted over the compression coefficients and the set-equality challenges (C35_compression_counted, C35_session_if_sorted). Refuted: the order check does not enforce sorting, so any log without two consecutive uses of one address passes unsorted."
 },
 "C36": {
  "status": "proved",
  "note": "Packing equals the positional word, is injective, macs and row compression follow; both products are computed for lists of at least 3 elements. Refuted: shorter lists underflow; address+step+1 > 64 bits collides; one-word wide values underflow."
 },
 "C37": {
  "status": "proved",
  "note": "Before a check every in-range access is defined and the log is that of a plain memory; after a check (and in a refresh that fires) every access is out of bounds; unwritten wide cells cannot be read."
 },
 "C38": {
  "status": "proved",
  "note": "Plain path = LowMC with the table S-box for all keys, messages, matrices, constants and parameters; the gates of the authenticated path compute the plain path in any context; completeness and soundness of a whole encryption session; S-box layer bijective; encryption injective exactly when every linear layer is (the code never checks this, C38_singular_matrix_refuted)."
 },
 "C39": {
  "status": "proved",
  "note": "All call sequences, both parties. The flag is exact for failures recorded before finalize_zk_bool; failures of the arithmetic engine finalised afterwards are lost (C39_every_failure_reported_refuted). Double deletion proved for every sequence of that shape."
 },
 "C40": {
  "status": "proved",
  "note": "Boolean and arithmetic engine, adaptively chosen challenges: the prover's messages equal those of a simulator without the witness, are uniform, and for two witnesses with the same outputs a bijection of the randomness gives identical messages. Ideal correlations; the digest is replaced by the hashed data. The GF(2^128) product proof and the set-equality opening do leak (C40_f2k_product_refuted, C40_set_equality_leak). In the arithmetic engine the batch challenges of relation proofs are reduced before use, as the honest verifier does; a malicious verifier can send an unreduced one, and then the messages leak (C68)."
 },
 "C41": {
  "status": "proved",
  "note": "Every access to shared memory of a worker is one step; all interleavings of the tasks. Proved: no reachable data race, no stuck state, fixed number of steps, final sums (all three engines, both parties) and final vectors (linear expansions of both fields, both parties) equal those of the sequential models used by the other properties. Weak memory is not modelled: C++ gives interleaving semantics to race-free programs. Thread-pool internals and network channels are not modelled."
 },
 "C42": {
  "status": "proved",
  "note": "emp-tool Integer operations are modelled by their documented meaning (not in /repo). The theorems hold for every >= that is right when the difference fits in the width; exact signed comparison and sign-of-difference are both shown to qualify. The intended statement for negative inputs and for zero is refuted (off by one; zero returns as 2^(-1-s)); below the 8-bit exponent range the result depends on the reading of >= (C42_tiny, C42_tiny_refuted, C42_zero_22_refuted)."
 },
 "C43": {
  "status": "proved",
  "note": "Composes the generator theorems (C23, C25, C30) with the session theorems (C08, C31): the engines run on what the modelled generator hands out, not on ideal correlations. The base OTs and COTs under the generators, and the COTs of the Boolean part, stay ideal. Honest parties only; soundness is stated over ideal correlations (C09, C31)."
 },
 "C44": {
  "status": "proved",
  "note": "Joins the channel model (C15, C16) and the engine model (C04, C05): the abstract challenge oracle of C04 becomes a function of the bytes each endpoint hashed. Ideal correlations; the prover's two flushes at the end of a session are one action."
 },
 "C45": {
  "status": "proved",
  "note": "Challenges are inputs of the run, not assumed fixed in advance: the order of commitments and challenges is a theorem. Ideal correlations; soundness keeps C09's hypothesis that corrections of inputs and products are at most p. C45_missing_flush_refuted: the batch check of polynomial relations needs NetIO's receive to deliver the send buffer."
 },
 "C46": {
  "status": "proved",
  "note": "Loops and branches are unfolded into a tree indexed by opened values. Ideal correlations; soundness inherits C05/C09's hypotheses. C46_noncanonical_branch_refuted: reveal() hands the program the received word unreduced."
 },
 "C47": {
  "status": "proved",
  "note": "Received bools are 0 or 1; delta and keys canonical as in every session. C47_factor_macs_refuted and C47_wide_factor_refuted state what check_compute_mul misses and over-rejects."
 },
 "C48": {
  "status": "proved",
  "note": "Fixed sets of keys and fixed prover messages; correction words above p are outside (the carries then depend on the key). An oblivious transfer gives the prover exactly the message of its choice bit. The verifier's own view of the check is only the received x_star."
 },
 "C49": {
  "status": "proved",
  "note": "An oblivious transfer gives the prover exactly the message of its choice bit; the base blocks are those of a correct COT. The polynomial proofs of C32 are not restated over the generator."
 },
 "C50": {
  "status": "proved",
  "note": "Seeds are drawn independently per check and per worker. The arithmetic verifier sends one block per check and expands it with a PRG. The boolean engine derives its seeds from a hash of the transcript, so there the count speaks of a random oracle queried once per check. Corrections of the arithmetic prover are at most p, as in C09."
 },
 "C51": {
  "status": "proved",
  "note": "The single-tree check uses one hash value of the sum exchanged by both parties; the theorems take the two sides' sums equal. The library calls the GF(2^128) extend_inplace with one run only."
 },
 "C52": {
  "status": "proved",
  "note": "A tree computes on a copy of its slice and writes it back cell by cell; objects owned by one tree are local. The pool is taken to have a worker for every task. GF(2^128): the hash object of a connection is a state cell with an output and a next-state function; the bit buffers of the connections are empty, so flush() absorbs nothing."
 },
 "C53": {
  "status": "proved",
  "note": "(1) and (2) are refutations of the check's purpose; (3), (4) bound the F_p check for trees handled by one thread. In (3) all trees share one challenge, so only the sum of the keys over the trees is bound."
 },
 "C54": {
  "status": "proved",
  "note": "Correlations are ideal. Statement (5) is a refutation (C54_late_corrections_refuted) with one thread; it extends C31_unbound_corrections_refuted to real programs on the channel."
 },
 "C55": {
  "status": "proved",
  "note": "Words above p are outside the bound; C29_shifted_masks_refuted shows what they allow. The offset where the opening leaves the candidates (C28_last_offset_refuted) is not counted. The bucket sums are authenticated (C05)."
 },
 "C56": {
  "status": "proved",
  "note": "About the words sent; the digest is a function of the verifier's keys and these words unless a bucket sum is exactly p (C29). Boolean halves equal the field halves (honest prover). That no mask serves two conversions is C27. C56_received_offset_refuted: a dishonest verifier may open any mask of the later windows, because the prover does not check the received offset; the boolean candidates it then reads lie outside the array (undefined), but only after the word has been sent."
 },
 "C57": {
  "status": "proved",
  "note": "Labels and shares of the two engines are authenticated (C05, C09); converted boolean values are below p (C26). Digests are compared as the hashed data. A boolean result p stands for 0. Words above p are outside (C26_noncanonical_sum_refuted, C29_shifted_masks_refuted). That 1/7 is reached is C55."
 },
 "C58": {
  "status": "proved",
  "note": "Masks are PRG words reduced below p and taken as uniform; the reduction of 64-bit words is biased by less than 2^-57. Later expansions draw their masks from earlier outputs, which are only pseudo-random (LPN), so the statement covers set-up and first expansion. C58_f2k_reused_mask_refuted is the GF(2^128) defect. C58_unreduced_seed_refuted: the hypothesis that the base-check seed is reduced (vpub_ok) is needed; the case uses the default sizes 600 and 1220."
 },
 "C59": {
  "status": "proved",
  "note": "Built on C08/C09/C50 (sessions) and C40 (hiding). Thread counts up to 5 for soundness because of the batch-splitting defect of C09. inner_prdt.cpp and polynomial.cpp take the constant from the prover in the clear; it is canonical here, which the honest program violates when the sum is 0. C59_sis_earlier_rounds_refuted is the finding on sis.cpp."
 },
 "C60": {
  "status": "proved",
  "note": "Combines C05/C10 (gates) with C14 (relations): a relation is resolved on the labels current when it is queued, which is shown to be the same as at the end. Relation seeds are drawn by the verifier (polynomial.h:75), so the bits sent after a check may depend on them. Counting needs every batch covered by the workers (defect of C05). The two test programs have no AND gate and hash nothing, so their bound has no collision term."
 },
 "C61": {
  "status": "proved",
  "note": "Completeness for the three memories, composed from the life cycle (C37), the order check (C33-C35) and the set-equality session (C33_honest_set_equality); API-level soundness of ZKRAM (C61_rw_sound; C61_rw_sound_as_written covers writing accesses with the fed value); instances for ram_test bench, ram_ext_test and ro_ram_test; refutations: access() does not bind the written value, refresh() after every access, ram_test after check(). The range of the claimed sorted addresses is a hypothesis (C34_top_bit_refuted); soundness of the wide memory is refuted by C35."
 },
 "C62": {
  "status": "proved",
  "note": "Order circuit (C62_condition), meaning of the whole circuit for all inputs (C62_meaning), soundness over boolean and F2k session under one key (C62_sound), completeness (C62_complete), the top-bit attack end to end (C62_top_bit_refuted). Accidents of the two batch checks and hash collisions between the six keys are excluded in check_passes. The emp-tool circuits (equality, comparison) are not in the repository; their gate lists are part of the trusted base."
 },
 "C63": {
  "status": "proved",
  "note": "Meaning of the whole circuit for all inputs (C63_meaning), soundness over boolean and F2k session under one key (C63_sound), completeness (C63_complete), the two attacks end to end (C63_top_bit_refuted, C63_outside_memory_refuted). One period from init() or the last check() to the next check(). Accidents of the two batch checks and hash collisions between the six keys are excluded in ro_check_passes. The emp-tool circuits (equality, comparison) are not in the repository; their gate lists are part of the trusted base."
 },
 "C64": {
  "status": "proved",
  "note": "session_shows is completeness for every key; session_proves is soundness: a transcript accepted under three keys, outside cancelling AND errors and hash collisions between these keys, opens bits in the stated relation to the committed inputs. BristolFormat::compute and the Integer circuits for + and - belong to emp-tool, which is not in the repository; their gate lists are part of the trusted base, the circuit file is a parameter. test/bool/lowmc.cpp is C38, inner_prdt.cpp and polynomial.cpp are C60."
 },
 "C65": {
  "status": "proved",
  "note": "Honest parties; conversions against a cheating prover are C55 and C57. A boolean Integer is the 62-bit number it holds; the circuits of + and - on bits are those of C64. The conversion of the value p itself, which C26 does not cover, is shown to give 0."
 },
 "C66": {
  "status": "proved",
  "note": "Sessions are boolean session plus F2k set-equality session under one key, as in C62. C66_sound_if_sorted counts coefficient vectors: for each vector in the list at least as many challenges as calls are survived with six keys (wide_passes, which excludes the accidents of the F2k challenge hashes and AND errors that cancel). C66_complete asks for the sort the honest prover makes (by the first packed number), at least three accesses, and the buffer condition without which set equality aborts. Values of one word are excluded because check() is undefined there (C35)."
 },
 "C67": {
  "status": "proved",
  "note": "Extends C44 (gates only) and C60 (message level) to the channel. C67_soundness asks for a well-formed program and that the data read are bytes. C67_flush_after_data justifies leaving out the explicit flush after the two sends of batch_check. C67_run_case and C67_cheat_case are computed runs. C67_hiding fixes the verifier's half of the correlations, allows any verifier program (seeds chosen from everything seen so far, sent out of turn) and any, also incomplete, run; the data the prover reads are bytes."
 },
 "C68": {
  "status": "proved",
  "note": "Lifts the message-level hiding of C40 to programs over the channel. The situation includes the list of what the prover has read; the other challenges (128-bit seeds) are arbitrary bytes. C68_unreduced_challenge_refuted and C68_hiding_needs_reduced_refuted show the leak for x*y = 0 against one explicit verifier program. VOLE is ideal. C68_leak_frequency: with Delta not 0 the leak happens for exactly as many choices of one mask as there are words of at least 4p/7."
 },
 "C69": {
  "status": "proved",
  "note": "Composes C67 and C45 on one endpoint. The data of emp-zk/edabit are opaque byte strings here; their contents are the subject of the edaBits properties. C69_result_covers_arithmetic_refuted is the wire-level counterpart of C39_late_failures_lost. C69_unreduced_challenge_refuted and C69_hiding_needs_reduced_refuted are the counterparts of C68's. VOLE and COT are ideal."
 },
 "C70": {
  "status": "proved",
  "note": "Counts the bytes each party's endpoint hands to the stream. VOLE and COT traffic is not on this channel in the model, so the counters of their set-up are not included."
 }
}