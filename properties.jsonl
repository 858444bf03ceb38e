{"id": "C01", "title": "Prime-field primitives compute exact canonical results", "statement": "For every pair of field elements in [0,p), p=2^61-1, the 64-bit add_mod, mult_mod and mod helpers return the unique representative in [0,p) of the mathematical sum, product or residue; mod(uint64_t) does so for every 64-bit input; and the two-lane (block) and batched (bch2, bch4) versions return lane by lane exactly what the scalar versions return. No intermediate wrap-around changes a result.", "quantifier": "all 64-bit words / all pairs of elements below p / all lanes", "why_tests_cant": "2^122 input pairs; a wrong carry only shows for rare operands such as sums equal to p or 2p", "anchors": ["emp-zk/emp-vole/utility.h: mod, vec_partial_mod, vec_mod, mult_mod, mult_mod_bch2, mult_mod_bch4, add_mod, extract_fp"]}
{"id": "C02", "title": "The arithmetic modulus defines a field", "statement": "2^61-1 is prime, so the arithmetic of the field engine has no zero divisors: a product of two field elements is zero only if one factor is zero, and a non-zero polynomial of degree d has at most d roots. All soundness bounds of the arithmetic proofs rest on this.", "quantifier": "all pairs of elements of Z/(2^61-1), all polynomials", "why_tests_cant": "primality and root counting are universal statements over a 61-bit domain", "anchors": ["emp-zk/emp-vole/utility.h: PR, mult_mod", "emp-zk/emp-zk-arith/triple_auth.h", "emp-zk/emp-zk-arith/ostriple.h: FpOSTriple"]}
{"id": "C03", "title": "128-bit block multiplication is multiplication in a field", "statement": "Multiplication of 128-bit blocks (carry-less product reduced by x^128+x^7+x^2+x+1), the operation behind every boolean and F2k check, is commutative, associative, distributes over xor, has unit 1 and has no zero divisors. The unreduced-accumulate-then-reduce-once forms used by the batched products give the same answer as reducing each product.", "quantifier": "all 128-bit blocks, all vector lengths", "why_tests_cant": "2^256 input pairs; irreducibility of the modulus is not observable by sampling", "anchors": ["emp-zk/extensions/ram-zk/gfmul.h: mul128, gfmul_1, gfmul3, gfmul4, gfmul6", "emp-zk/emp-zk-bool/ostriple.h: andgate_correctness_check"]}
{"id": "C04", "title": "Boolean proofs are complete for every circuit", "statement": "For every boolean circuit built from private inputs, public constants, XOR, NOT and AND, every input assignment and every correlation randomness, an honest execution gives both parties revealed outputs equal to the plain evaluation of the circuit, every batch AND check and the final digest comparison accept, and finalize reports no cheating.", "quantifier": "all circuits, all inputs, all correlated randomness, all batch sizes", "why_tests_cant": "the circuit and randomness space is unbounded; tests run a few fixed circuits", "anchors": ["emp-zk/emp-zk-bool/zk_bool_circuit_exec.h", "emp-zk/emp-zk-bool/zk_prover.h", "emp-zk/emp-zk-bool/zk_verifier.h", "emp-zk/emp-zk-bool/ostriple.h: authenticated_bits_input, auth_compute_and, andgate_correctness_check", "emp-zk/emp-zk-bool/triple_auth.h", "emp-zk/emp-zk-bool/emp-zk-bool.h: finalize_zk_bool"]}
{"id": "C05", "title": "A wrong AND gate is caught by the batch check", "statement": "If at least one AND gate in a checked batch of n gates was given a wrong output bit, then for a fixed prover the challenge seeds for which the random combination hides the error number at most n, and for every other seed at most two values of the verifier's global key let any prover message pass. The check decides B = A0 + A1*Delta, and an honest batch always passes.", "quantifier": "all batches, all cheating prover messages, all seeds, all global keys", "why_tests_cant": "soundness quantifies over all adversarial messages and the 2^127 keys", "anchors": ["emp-zk/emp-zk-bool/ostriple.h: andgate_correctness_check_manage, andgate_correctness_check", "emp-zk/emp-zk-bool/triple_auth.h"]}
{"id": "C06", "title": "Which gates the threaded boolean check covers", "statement": "When a batch of cnt AND gates is checked with t threads, the gates that enter the check are exactly the first t*q+(cnt mod q) with q=cnt/t; hence every gate is checked exactly when (cnt mod t) < q, no gate is checked twice, and for cnt>=t*t coverage is always complete. When cnt<t and t>1 the split divides by zero.", "quantifier": "all batch sizes and all thread counts", "why_tests_cant": "the loss shows up only for particular remainders, and honest tests pass even if gates are skipped", "anchors": ["emp-zk/emp-zk-bool/ostriple.h: andgate_correctness_check_manage"]}
{"id": "C07", "title": "A boolean reveal is binding", "statement": "For a wire whose authenticated value is x, the verifier's contribution to the output digest for a claimed bit b matches the prover's label iff b=x; if b differs from x, the string that the prover must produce equals its label xor the global key, so for each fixed string at most one global key lets the wrong bit pass.", "quantifier": "all wires, all claimed bits, all global keys", "why_tests_cant": "adversarial strategies and 2^127 keys", "anchors": ["emp-zk/emp-zk-bool/ostriple.h: verify_output", "emp-zk/emp-zk-bool/triple_auth.h", "emp-zk/emp-zk-bool/zk_prover.h: reveal", "emp-zk/emp-zk-bool/zk_verifier.h: reveal"]}
{"id": "C08", "title": "Arithmetic proofs are complete for every circuit", "statement": "For every arithmetic circuit over F_p (private inputs, public constants, addition, subtraction, negation, multiplication by constant, multiplication) and every honest execution with canonical inputs and constants, the prover's and verifier's shares of every wire satisfy mac = key + value*Delta mod p with canonical components, the wire value equals plain evaluation mod p, and every multiplication check and opening accepts.", "quantifier": "all circuits, all inputs in [0,p), all randomness", "why_tests_cant": "unbounded circuits; wrap-around corner cases", "anchors": ["emp-zk/emp-zk-arith/ostriple.h: authenticated_val_input, auth_compute_mul_send, auth_compute_mul_recv, andgate_correctness_check, auth_mac_add, auth_key_add, auth_mac_mul_const, auth_key_add_const", "emp-zk/emp-zk-arith/zk_fp_exec_prover.h", "emp-zk/emp-zk-arith/zk_fp_exec_verifier.h", "emp-zk/emp-zk-arith/int_fp.h"]}
{"id": "C09", "title": "A wrong multiplication is caught by the arithmetic batch check", "statement": "In a whole arithmetic session against an arbitrary prover (correction words at most p, opened words and check messages arbitrary 64-bit words), if the verifier accepts outputs differing from plain evaluation of the committed inputs, or a false relation, then at most four global keys accept (two if check words are below 2^63), or some batch's challenge combines its non-zero error vector to zero, or two transcripts collide under the hash. A covered wrong product is hidden by at most n values of one worker's challenge; conversely, when every combination vanishes one fixed set of messages passes for all keys. A correction word above p commits the prover to no value.", "quantifier": "all batches, all cheating messages, all seeds and keys", "why_tests_cant": "adversarial quantification over a 61-bit key space", "anchors": ["emp-zk/emp-zk-arith/ostriple.h: andgate_correctness_check_manage, andgate_correctness_check"]}
{"id": "C10", "title": "Which multiplications the threaded arithmetic check covers", "statement": "The arithmetic batch check covers every multiplication when the batch has fewer than 32 entries, and otherwise covers exactly the first t*q+(cnt mod q) of them (q=cnt/t), so coverage is complete iff (cnt mod t)<q; it is complete for every batch when t<=5.", "quantifier": "all batch sizes and thread counts", "why_tests_cant": "honest runs pass regardless of coverage", "anchors": ["emp-zk/emp-zk-arith/ostriple.h: andgate_correctness_check_manage"]}
{"id": "C11", "title": "An arithmetic opening binds the value modulo p only", "statement": "Opening an authenticated value x with claimed word v < 2^63 makes the transcripts agree (global key non-zero) only if v is congruent to x mod p; every v <= p congruent to x is accepted, so the word p opens 0. A claim not congruent to x passes for at most one key (two keys for words up to 2^64).", "quantifier": "all authenticated values, all claimed 64-bit words, all keys", "why_tests_cant": "needs adversarial non-canonical words that no honest test sends", "anchors": ["emp-zk/emp-zk-arith/ostriple.h: reveal_send, reveal_recv, reveal_check", "emp-zk/emp-zk-arith/zk_fp_exec_verifier.h"]}
{"id": "C12", "title": "Zero test accepts exactly zero", "statement": "reveal_check_zero on honest shares accepts iff the authenticated field value is 0 (global key non-zero); for a non-zero value any fixed prover string passes for at most one global key.", "quantifier": "all authenticated vectors and keys", "why_tests_cant": "universal over keys", "anchors": ["emp-zk/emp-zk-arith/ostriple.h: reveal_check_zero"]}
{"id": "C13", "title": "Arithmetic polynomial proofs decide the claimed relation", "statement": "zkp_poly_deg2 and zkp_inner_prdt over F_p: for honest parties the batched check accepts if every queued relation sum c_i*x_i*y_i + c_0 = 0 holds; if some queued relation is violated, at most n challenges hide it and otherwise at most four global keys (two for message words below 2^63) let any message pass. This holds for any number of queued relations, including across buffer-full flushes.", "quantifier": "all vector lengths, coefficients, values, seeds, keys, queue lengths", "why_tests_cant": "adversarial and unbounded", "anchors": ["emp-zk/emp-zk-arith/polynomial.h: FpPolyProof"]}
{"id": "C14", "title": "Boolean polynomial proofs decide the claimed relation", "statement": "With authenticated bits, if every queued degree-2 / inner-product / multi-polynomial relation over GF(2) holds the verifier records no cheat, for every key, seed and buffer size. If some relation is false then, for every deviating message, at most two values of the verifier key pass the batch containing it, unless the random GF(2^128) combination of that batch's defects vanishes (which at most batch-length many of the 2^128 seeds make it do). Conversely a vanishing combination passes for every key.", "quantifier": "all vector lengths, coefficients, values, seeds, keys, queue lengths", "why_tests_cant": "adversarial and unbounded", "anchors": ["emp-zk/emp-zk-bool/polynomial.h: PolyProof"]}
{"id": "C15", "title": "Buffered bit channel delivers every schedule intact", "statement": "For any schedule of bit sends, byte-block sends in either direction and explicit flushes executed in the same order on both endpoints, the receiving endpoint reads exactly the bits and bytes that were sent, in order, whatever the alignment with respect to the internal buffer.", "quantifier": "all schedules, all data, any positive buffer size", "why_tests_cant": "bugs depend on interleavings of partial buffers with raw data", "anchors": ["emp-zk/emp-zk-bool/bool_io.h: send_bit, recv_bit, flush, send_data_internal, recv_data_internal"]}
{"id": "C16", "title": "Both endpoints derive the same challenge from the transcript", "statement": "After any common schedule in which every challenge is preceded by a flush, both endpoints' get_hash_block calls are taken over identical byte strings; without a flush they can differ. The hashed transcript determines every exchanged bit, and does not depend on raw payload bytes.", "quantifier": "all schedules", "why_tests_cant": "depends on partial-buffer state", "anchors": ["emp-zk/emp-zk-bool/bool_io.h: get_hash_block, flush, send_bool_raw, recv_bool_raw"]}
{"id": "C17", "title": "Boolean packing is lossless", "statement": "Packing a bool array to bytes and unpacking yields the original array for every length (including lengths not divisible by 8) and on every platform path (pext/pdep intrinsic or portable loop).", "quantifier": "all bool arrays", "why_tests_cant": "2^n arrays and two code paths", "anchors": ["emp-zk/emp-zk-bool/bool_io.h: send_bool_raw, recv_bool_raw"]}
{"id": "C18", "title": "Derandomised OT delivers exactly the chosen message", "statement": "With a valid random correlation and any choice bit different from or equal to the random one, the receiver of a pre-processed OT obtains exactly the message selected by its bit, for every batch of every length.", "quantifier": "all choice bits, messages, correlations, batch sizes", "why_tests_cant": "all 2^n choice patterns", "anchors": ["emp-zk/emp-vole/preot.h: OTPre"]}
{"id": "C19", "title": "Punctured tree: receiver learns every leaf but one and that one is corrected", "statement": "For any tree depth and any vector of choice bits, the receiver of the single-point function share reconstructs all sender leaves except the one at the position given by the complemented choice bits, and there obtains the leaf plus Delta times its noise value.", "quantifier": "all depths, all choice vectors, all seeds and expansion functions", "why_tests_cant": "exponentially many positions and depths", "anchors": ["emp-zk/emp-vole/spfss_sender.h", "emp-zk/emp-vole/spfss_recver.h", "emp-zk/emp-vole-f2k/spfss_f2k_sender.h", "emp-zk/emp-vole-f2k/spfss_f2k_recver.h"]}
{"id": "C20", "title": "Multi-point consistency check accepts honest parties and every tree is processed once", "statement": "For honest parties the two sides of the multi-point consistency check hash the same value for any number of trees and any noise; and the distribution of trees over worker threads processes each tree exactly once and on the same channel on both sides.", "quantifier": "all tree counts, thread counts, noise vectors, challenges", "why_tests_cant": "unbounded configuration space", "anchors": ["emp-zk/emp-vole/mpfss_reg.h: MpfssRegFp", "emp-zk/emp-vole-f2k/mpfss.h: MpfssRegF2k"]}
{"id": "C21", "title": "Local linear expansion preserves the correlation", "statement": "Given a valid short correlation and a valid sparse correlation, the LPN expansion yields at each processed position a valid correlation m = k + x*Delta, all table indices stay below k for every table size k>=1, and no 64-bit accumulation overflows.", "quantifier": "all sizes, all index tables, all correlations", "why_tests_cant": "index masking and overflow corner cases", "anchors": ["emp-zk/emp-vole/lpn.h: LpnFp", "emp-zk/emp-vole-f2k/lpn_f2k.h: LpnF2k"]}
{"id": "C22", "title": "Which output positions the linear expansion processes", "statement": "With t worker threads the expansion processes exactly the first (t+1)*(n/(t+1)) positions, each once; the remaining n mod (t+1) positions are left unexpanded.", "quantifier": "all n and t", "why_tests_cant": "correlation checks still pass for unexpanded positions", "anchors": ["emp-zk/emp-vole/lpn.h: compute", "emp-zk/emp-vole-f2k/lpn_f2k.h: compute"]}
{"id": "C23", "title": "The correlation pool delivers exactly what is asked, once", "statement": "For every sequence of extend(num) requests the pool writes exactly num fresh correlations to the caller's buffer, never writes beyond it, never delivers the same generated correlation twice and never delivers the reserved seed correlations of the next iteration.", "quantifier": "all request sequences, all parameter sets with reserve smaller than batch yield", "why_tests_cant": "off-by-one errors depend on request sizes relative to 10^7-sized batches", "anchors": ["emp-zk/emp-vole/vole_triple.h: extend, extend_inplace, byte_memory_need_inplace", "emp-zk/emp-vole-f2k/svole.h"]}
{"id": "C24", "title": "Base correlation generation is correct", "statement": "The OT-based subprotocol outputs, for every u and Delta below p, z = y + u*Delta mod p on every position, and the honest consistency check of the base generator accepts.", "quantifier": "all inputs, keys, OT pads", "why_tests_cant": "61-bit key space and carry corner cases", "anchors": ["emp-zk/emp-vole/cope.h: Cope", "emp-zk/emp-vole/base_svole.h: Base_svole"]}
{"id": "C25", "title": "Every delivered correlation is valid, through all iterations", "statement": "Composing base generation, punctured trees and linear expansion, every correlation ever delivered to users satisfies the mac equation with canonical components, for every number of iterations.", "quantifier": "all iteration counts and randomness", "why_tests_cant": "inductive over unbounded iterations", "anchors": ["emp-zk/emp-vole/vole_triple.h: setup, extend_send, extend_recv, extend"]}
{"id": "C26", "title": "Bit/field conversions preserve the value", "statement": "bool2arith and arith2bool map an authenticated value below p to the authenticated same value in the other domain, whatever the mask used.", "quantifier": "all values and masks below p", "why_tests_cant": "borrow/wrap corner cases over 2^122 pairs", "anchors": ["emp-zk/edabit/edabits.h: bool2arith, arith2bool, intfp_add, intfp_add_const"]}
{"id": "C27", "title": "Batch conversion uses fresh masks and never a stale one", "statement": "For any batch length and any number of masks left in stock, a batch conversion consumes exactly one mask per element in order, refills only between internal rounds, and never reads a mask slot after it was regenerated.", "quantifier": "all batch lengths and stock levels", "why_tests_cant": "requires batches around multiples of 800000 with every offset", "anchors": ["emp-zk/edabit/edabits.h: bool2arith, arith2bool, next_edabits"]}
{"id": "C28", "title": "Cut-and-choose covers every other mask exactly once", "statement": "In a mask generation run, the opened sample and the bucket partners are disjoint, each non-delivered candidate is opened or used as partner of exactly one delivered mask, and all accesses are inside the candidate arrays, for every sampled offset except the last one, where the opening reads past the end.", "quantifier": "all sampled offsets and all bucket parameters with B=2", "why_tests_cant": "failure has probability about 1/800000 per run", "anchors": ["emp-zk/edabit/edabits.h: edabits_gen_backend, fp_index, f2_index, random_point"]}
{"id": "C29", "title": "Honest mask consistency check", "statement": "For honest parties the bucket comparison of boolean and field sums agrees for all mask pairs below p except when their sum is exactly p, where an honest run is rejected.", "quantifier": "all pairs of masks", "why_tests_cant": "probability 2^-61 per pair", "anchors": ["emp-zk/edabit/edabits.h: edabits_gen_backend"]}
{"id": "C30", "title": "Base F2k correlations are valid", "statement": "Packing 128 authenticated bits yields an authenticated 128-bit field element: mac = key + value*Delta in GF(2^128).", "quantifier": "all bits, keys, Delta", "why_tests_cant": "2^128 values", "anchors": ["emp-zk/emp-vole-f2k/base_svole.h", "emp-zk/emp-vole-f2k/svole.h"]}
{"id": "C31", "title": "F2k multiplication proofs", "statement": "F2k multiplication outputs are authenticated products; the deferred check examines for each multiplication exactly its own operands and output, accepts honest runs whenever every batch has at least as many multiplications as workers, and for a wrong product reports a failure except for two keys or few seeds. A failing check only prints and neither stops nor flags the session; multiplications outside the worker ranges are not checked; corrections are not bound by the challenge.", "quantifier": "all multiplication sequences, all operands, keys, buffer positions", "why_tests_cant": "needs buffers of 2^20 and adversarial values", "anchors": ["emp-zk/extensions/ram-zk/ostriple.h: F2kOSTriple"]}
{"id": "C32", "title": "Product-chain checks of degree 3, 4 and 5", "statement": "The verifier entry of a product proof of 3, 4 or 5 authenticated factors equals the sum of the prover coefficients times powers of Delta plus (real product xor claimed product) times the top power; honest batches are accepted; a wrong product of five factors is accepted for at most five keys; a wrong product of three or four factors is accepted for every key by a prover that adjusts the coefficients of Delta^3 or Delta^4.", "quantifier": "all factors, macs, keys", "why_tests_cant": "2^128 field", "anchors": ["emp-zk/extensions/ram-zk/poly_prdt.h: F2kPolyPrdt"]}
{"id": "C33", "title": "Read-only memory: consistency enforced by the sorted-list check", "statement": "If the sorted list is a permutation of the recorded accesses and the ordering check passes with in-range addresses, every read returned the initial content; honest runs always pass; but the address top bit is not covered by the multiset check, so a cheating prover can pass with a wrong read.", "quantifier": "all memories, access sequences, claimed sorted lists", "why_tests_cant": "needs a cheating prover", "anchors": ["emp-zk/extensions/ram-zk/ro-zk-mem.h: ROZKRAM"]}
{"id": "C34", "title": "Read-write memory: consistency enforced by the sorted-list check", "statement": "If the sorted list is a permutation of the access log and the ordering check passes with in-range addresses, then every read that is preceded by a write to its address returns the last written value; honest logs pass; the uncovered top address bit lets a cheating prover pass a stale read; a failing check only prints.", "quantifier": "all logs and claimed sorted lists", "why_tests_cant": "needs a cheating prover", "anchors": ["emp-zk/extensions/ram-zk/zk-mem.h: ZKRAM"]}
{"id": "C35", "title": "Wide memory: what the check enforces", "statement": "Honest logs pass. If the prover keeps the records sorted by address, wrong reads are caught: for all but a fraction of n^2/2^128 of the compression coefficients fewer than n set-equality challenges survive. But the check does not force equal addresses to be adjacent, so there are logs with a read returning a value never written that pass.", "quantifier": "all logs, all coefficient vectors and challenges, all cheating provers / existence of a cheating log", "why_tests_cant": "needs a cheating prover", "anchors": ["emp-zk/extensions/ram-zk/zk-mem-ext.h: ZkRamExt"]}
{"id": "C36", "title": "Memory records are packed injectively and the packed mac authenticates them", "statement": "Packing (address, step, op, value) into one field element is injective when the field widths fit (address+step+1<=64, total<=128), the mac packing computes the mac of the packed value, and the product loop multiplies every packed element exactly once for lists of at least 3 elements; for shorter lists its loop bound underflows.", "quantifier": "all records, widths, list lengths", "why_tests_cant": "collision existence is universal", "anchors": ["emp-zk/extensions/ram-zk/zk-mem.h: pack, inn_prdt_bch3", "emp-zk/extensions/ram-zk/ro-zk-mem.h: pack, vector_inn_prdt_bch4"]}
{"id": "C37", "title": "Memory life cycle", "statement": "A check leaves the memory object with an empty cell array, so any access after a check (including the refresh that itself performs one) indexes out of bounds; before a check all accesses with address below capacity are in bounds.", "quantifier": "all operation sequences", "why_tests_cant": "undefined behaviour may look fine in a test", "anchors": ["emp-zk/extensions/ram-zk/zk-mem.h: check, refresh, write, read", "emp-zk/extensions/ram-zk/zk-mem-ext.h: check, refresh"]}
{"id": "C38", "title": "LowMC circuit equals the reference cipher", "statement": "For every key, message, and matrix set, the bit-sliced LowMC over authenticated bits computes exactly the same ciphertext as the plaintext path; the formula S-box equals the published table and is a bijection.", "quantifier": "all keys, messages, matrices, round constants", "why_tests_cant": "2^256 inputs and random matrices", "anchors": ["emp-zk/extensions/lowmc.h"]}
{"id": "C39", "title": "Session life cycle and cheating flag", "statement": "The cheating flag returned by finalize_zk_bool is set iff some check recorded a failure since the last setup; setting up the arithmetic engine with conversion, finalising, setting up without conversion and finalising again frees the conversion object twice.", "quantifier": "all sequences of setup/record/finalise calls", "why_tests_cant": "global state across sessions", "anchors": ["emp-zk/emp-zk-bool/cheat_record.h", "emp-zk/emp-zk-bool/emp-zk-bool.h", "emp-zk/emp-zk-arith/emp-zk-arith.h"]}
{"id": "C40", "title": "Prover messages hide the witness", "statement": "For fixed verifier keys, the distribution of the prover's input and multiplication corrections and of the masked check messages is the same for every two witnesses with the same public outputs: there is a bijection between prover randomness producing identical transcripts. The F2k product check is sent unmasked and does not have this property.", "quantifier": "all witnesses and all randomness", "why_tests_cant": "distribution equality over 2^n randomness", "anchors": ["emp-zk/emp-zk-bool/ostriple.h", "emp-zk/emp-zk-arith/ostriple.h", "emp-zk/extensions/ram-zk/poly_prdt.h"]}
{"id": "C41", "title": "Threaded checking is schedule independent", "statement": "For any interleaving of the single memory accesses of the worker threads, the batch checks of the boolean, arithmetic and F2k engines and the linear expansions of both VOLE fields have no data race and no deadlock, every execution has the same length, and the accumulated check values and output vectors equal those of the sequential execution.", "quantifier": "all interleavings, all batch sizes, thread counts, memory contents and expansion tables", "why_tests_cant": "schedules cannot be enumerated", "anchors": ["emp-zk/emp-zk-bool/ostriple.h: andgate_correctness_check_manage", "emp-zk/emp-zk-arith/ostriple.h: andgate_correctness_check_manage", "emp-zk/extensions/ram-zk/ostriple.h: andgate_correctness_check_manage", "emp-zk/emp-vole/lpn.h: compute, task", "emp-zk/emp-vole-f2k/lpn_f2k.h: compute, task"]}
{"id": "C42", "title": "Fixed-point conversion of floats", "statement": "FloatToInt62 maps every normal non-negative float whose scaled value fits in 60 bits to that value rounded towards zero, and Int62ToFloat maps every canonical field element to the float of its signed value rounded towards zero to 24 bits, so the round trip keeps sign and exponent and returns exactly the rounded value; for negative inputs the produced word is one more than the field representative of the negated magnitude (so no negative value survives), and zero comes back as half of the smallest unit.", "quantifier": "all mantissas, exponents and scales", "why_tests_cant": "sign/exponent corner cases", "anchors": ["emp-zk/extensions/floats.h: FloatToInt62, Int62ToFloat"]}
{"id": "C43", "title": "Sessions over generated correlations", "statement": "An arithmetic proof session whose correlations are taken one by one from the vector-OLE generator (set-up, expansion and hand-out as in the code, prover as its receiver) is defined, accepted and returns the circuit's outputs to both parties whenever the prover is honest; requests of any sizes cut the same stream of correlations into consecutive pieces; likewise a GF(2^128) session whose buffers are refilled by the GF(2^128) generator prints no failure, records no cheating and ends with matching shares.", "quantifier": "all circuits, generator parameters, randomness, keys, thread counts", "why_tests_cant": "composition of generator and engine over every boundary between runs", "anchors": ["emp-zk/emp-zk-arith/ostriple.h: FpOSTriple", "emp-zk/emp-vole/vole_triple.h: extend", "emp-zk/extensions/ram-zk/ostriple.h: pre_f2k_buffer_refill"]}
{"id": "C44", "title": "Boolean sessions over the real channel", "statement": "The prover and the verifier of a Boolean session, run as two programs over their buffered bit channel with challenges taken from their own transcript hashes, never get stuck, finish after a bounded number of steps in every interleaving, return the plain outputs of the circuit to both, report no cheating and leave the channel empty. Against an arbitrary prover program the verifier sends nothing, its actions do not depend on its key, and its result is that of the message-level session on exactly what its endpoint read and hashed; so with one transcript at most two keys accept wrong outputs, unless the transcript's own challenge makes the error combination vanish or the opening hash collides.", "quantifier": "all circuits, keys, correlations, thread counts, batch and buffer sizes, platforms of either side, interleavings, and (for the second part) all prover programs", "why_tests_cant": "all interleavings of two buffered endpoints and all cheating programs", "anchors": ["emp-zk/emp-zk-bool/ostriple.h: andgate_correctness_check_manage", "emp-zk/emp-zk-bool/triple_auth.h: finalize", "emp-zk/emp-zk-bool/bool_io.h"]}
{"id": "C45", "title": "Arithmetic sessions over the real channel", "statement": "The prover and the verifier of an arithmetic session, run as two programs over their byte channel with the verifier drawing and sending its challenges when the code does, never get stuck, finish after a bounded number of steps under every schedule and every delivery of buffered bytes, return the plain outputs to both and record no cheating, provided that receiving delivers the local send buffer or the circuit has no polynomial relation; without that the polynomial batch check leaves both parties waiting. Against an arbitrary prover program: no step depends on a challenge not yet drawn, the errors a challenge must catch are determined before it is drawn, the verifier's key influences only whether it stops, its result is that of the message-level session on exactly what it read, and with one transcript at most four keys accept wrong outputs or a false relation unless a challenge makes an error combination vanish or the opening hash collides.", "quantifier": "all circuits, keys, correlations, challenges, thread counts, batch sizes, schedules, and (for the second part) all prover programs", "why_tests_cant": "all schedules and deliveries, all cheating programs, and the order of commitment and challenge", "anchors": ["emp-zk/emp-zk-arith/ostriple.h: andgate_correctness_check_manage, share_seed_gen", "emp-zk/emp-zk-arith/polynomial.h: batch_check", "emp-zk/emp-zk-arith/triple_auth.h: finalize", "emp-zk/emp-zk-bool/bool_io.h: send_data, recv_data"]}
{"id": "C46", "title": "Programs that branch on opened values", "statement": "When both parties run a program written against the field or bit API whose further calls depend on the values opened so far, honest parties follow the program's plain execution, return its opened values and accept if its claims hold; against any prover the verifier's opened values are those of the plain execution of the whole program on the committed inputs, and its claims hold, up to few keys, a bad challenge or a hash collision. For field programs this needs the opened words to be canonical or the program to look at them only modulo p: otherwise a prover committed to 0 can open the word p and steer a zero test to the other branch for every key.", "quantifier": "every program tree (all branching functions of the opened values, any depth), all inputs, correlations, keys, thread counts, batch sizes, challenges, provers' words and messages", "why_tests_cant": "a test runs a few fixed programs and honest branches; here the program, its branch functions and the prover's opened words are arbitrary", "anchors": ["emp-zk/emp-zk-arith/int_fp.h:11-65", "emp-zk/emp-zk-arith/zk_fp_exec_prover.h:26-63", "emp-zk/emp-zk-arith/zk_fp_exec_verifier.h:27-63", "emp-zk/emp-zk-bool/zk_prover.h:54-72", "emp-zk/emp-zk-bool/zk_verifier.h:65-82"]}
{"id": "C47", "title": "Self-check functions accept exactly the share relation", "statement": "The engines' own checking functions (check_auth_mac, check_compute_and, check_compute_mul, the two check_triple, check_correctness) accept exactly when every entry satisfies the mac relation (and, for products and trees, the product or puncturing relation), report the first failing entry, accept every wire of every honest session, every generated correlation and every honest tree; the arithmetic product check does not look at the macs of the factors and rejects correct products of non-canonical factors. The helper compute_mu gives both parties a share of c - z + sigma a + epsilon b + epsilon sigma, which is zero for a multiplication triple exactly if z is the product of the two opened-shifted factors.", "quantifier": "all arrays and lengths, keys, received blocks, deltas; all circuits, correlations and thread counts of the sessions", "why_tests_cant": "the functions are themselves the tests of the repository: whether they can accept a wrong array or reject a right one is a statement about all arrays", "anchors": ["emp-zk/emp-zk-bool/ostriple.h: check_auth_mac, check_compute_and", "emp-zk/emp-zk-arith/ostriple.h: check_auth_mac, check_compute_mul, compute_mu_prv, compute_mu_vrf", "emp-zk/emp-vole/cope.h: check_triple", "emp-zk/emp-vole/vole_triple.h: check_triple", "emp-zk/emp-vole/mpfss_reg.h: check_correctness"]}
{"id": "C48", "title": "A dishonest prover of the F_p correlation generator is bound to affine keys, and a forged check word exposes the verifier's key", "statement": "Run the verifier's half of the F_p correlation generator (cope.h, base_svole.h, GGM trees, LPN expansion, vole_triple.h) against an arbitrary prover. (1) For all correction words up to p and every set of verifier keys, either the verifier's base keys lie on lines in the key, or at most 8 * size seeds of the base check (size many if the answer is below 2^63) leave the prover an answer accepted by all these keys. (2) In all verifier states that give the prover the same view, every key handed out by the pool is m - x*Delta for one list (x, m) fixed by that view, so the soundness bound of C09 holds for the generated correlations: at most four keys accept a wrong session. (3) The word whose hash the verifier returns in the MPFSS consistency check is a + Delta*(x0 - x_star) mod p, with x0 the word the honest code sends. It is independent of the key for x_star = x0; for every other x_star the hash determines Delta, and the verifier does not notice.", "quantifier": "all correction words (up to p), choice bits, tree seeds, challenge blocks, x_star words, verifier keys, LPN parameters, thread counts, numbers of runs; all later programs and prover messages of the session", "why_tests_cant": "tests run an honest prover; the claim is about every message a prover can send and about all verifier states consistent with its view", "anchors": ["emp-zk/emp-vole/cope.h: extend (sender)", "emp-zk/emp-vole/base_svole.h: sender_check", "emp-zk/emp-vole/spfss_sender.h: compute, send", "emp-zk/emp-vole/mpfss_reg.h: mpfss, consistency_batch_check", "emp-zk/emp-vole/vole_triple.h: setup, extend_send, extend"]}
{"id": "C49", "title": "A dishonest prover of the GF(2^128) correlation generator is bound to affine keys, and a forged check word exposes the verifier's key", "statement": "Run the verifier's half of the GF(2^128) correlation generator (base_svole.h packing, GGM trees, MPFSS, LPN expansion, svole.h set-up and repeated extension) against a prover with arbitrary choice bits. (1) In all verifier states that give the prover the same view, every key handed out in every run is m + x*Delta for the values x and tags m that the prover's own code computes from the view. (2) Hence for every later F2k program and all prover messages the wires are bound to one list of values, and a batch of multiplications whose error combination is non-zero is accepted for at most two keys. (3) The block whose hash the verifier returns in the MPFSS check is a + Delta*(x0 + x_star), x0 being the word the prover's code computes. It is independent of the key for x_star = x0; for every other x_star the hash determines Delta, and the verifier does not notice.", "quantifier": "all choice bits, tree seeds, base blocks, buffer contents, challenge blocks, x_star words, verifier keys, LPN parameters, thread counts, numbers of runs; all later F2k programs and prover messages", "why_tests_cant": "tests run an honest prover; the claim is about every choice a prover can make and about all verifier states consistent with its view", "anchors": ["emp-zk/emp-vole-f2k/base_svole.h: extend", "emp-zk/emp-vole-f2k/spfss_f2k_sender.h: compute, send", "emp-zk/emp-vole-f2k/mpfss.h: mpfss, consistency_batch_check", "emp-zk/emp-vole-f2k/svole.h: setup, extend_recv, extend"]}
{"id": "C50", "title": "Counted soundness error of whole boolean and arithmetic sessions against an adaptive prover", "statement": "Let the verifier draw its key and the seeds of every check independently from finite sets, and let the prover follow any strategy whose messages use the challenges it has already seen (its check replies and final digest may even use all of them). Count the choices for which the whole session is accepted although some revealed value is not the circuit's output on the inputs the prover committed to (arithmetic: or some tested value or relation is false). Unless two runs of this game exhibit a collision of the transcript hash, the cheating fraction is at most 2/|keys| + n/|seeds| for a boolean session with n AND gates, and at most 4/|keys| + n*mx/|X| + m*my/|Y| for an arithmetic session with n multiplications and m queued relations (2/|keys| if the replies' second words are below 2^63), where at most mx (my) of the seeds share a challenge modulo p. A residue is the challenge of at most 9 of the 2^64 seed words.", "quantifier": "all circuits, buffer sizes, worker counts whose ranges cover every batch, correlations, adaptive prover strategies, hash functions, finite sets of keys and seeds", "why_tests_cant": "a test samples a few challenges against fixed provers; the claim counts all challenges against every adaptive strategy", "anchors": ["emp-zk/emp-zk-bool/ostriple.h: auth_compute_and, andgate_correctness_check_manage, andgate_correctness_check, verify_output", "emp-zk/emp-zk-arith/ostriple.h: auth_compute_mul_recv, andgate_correctness_check_manage, andgate_correctness_check, share_seed_gen", "emp-zk/emp-zk-arith/polynomial.h: batch_check, zkp_poly_deg2, zkp_inner_prdt"]}
{"id": "C51", "title": "Helpers the library offers but does not call itself", "statement": "(1) inn_prdt, inn_prdt_bch2 and inn_prdt_bch3 (and the vector_ versions) of the memories return the product of all X[i] + r when the list has at least 1, 1, 2 elements, and read past the list otherwise; with honest parties the verifier ends with the key of that product. (2) The batched ones do not bind the prover: when no element is left over it may claim any product, with messages fixed before the key is drawn. (3) check_MAC_valid accepts exactly the pairs related by Delta, and a pair with a different value for at most one Delta; check_correctness of the GF(2^128) base generator reports the first pair that does not fit. (4) The single-tree consistency_check accepts exactly when the power sums of the two trees differ by the punctured term; honest trees pass and become correlations; a wrong tree passes for at most 2^(depth-1) digests. (5) sender_check_edabits and sender_check_conversion compare the number spelt by the bit labels with the value word, throw above 64 bits, and always accept at the verifier. (6) extend_inplace of the GF(2^128) generator accepts exactly the buffer lengths r*L+M, fills r yields in order and never writes past the buffer; byte_memory_need_inplace gives the smallest such length.", "quantifier": "all lists, field elements, keys, trees, tree depths, digests, hash functions, labels, buffer lengths, prover messages", "why_tests_cant": "nothing in the library or its tests calls these functions, and the claims range over all elements, keys and prover messages", "anchors": ["emp-zk/extensions/ram-zk/zk-mem.h: inn_prdt, inn_prdt_bch2, inn_prdt_bch3, check_MAC_valid", "emp-zk/extensions/ram-zk/ro-zk-mem.h: vector_inn_prdt, vector_inn_prdt_bch2, vector_inn_prdt_bch3, check_MAC_valid", "emp-zk/emp-vole-f2k/base_svole.h: check_correctness", "emp-zk/emp-vole/spfss_sender.h: consistency_check", "emp-zk/emp-vole/spfss_recver.h: consistency_check", "emp-zk/edabit/edabits.h: sender_check_edabits, sender_check_conversion, sender_check_int_value", "emp-zk/emp-vole-f2k/svole.h: extend_inplace, byte_memory_need_inplace"]}
{"id": "C52", "title": "The multi-threaded MPFSS of both parties has one outcome", "statement": "mpfss() of the F_p generator and of the GF(2^128) generator, run by both parties with any number of threads: from any memory that holds the precomputed OT arrays and the base triples, in every interleaving of the two main threads and the pool tasks, and for every size of the output buffers of the connections, (1) no two threads are ever about to touch the same array cell (one of them writing), the same end of a connection or the same future; (2) no reachable state is stuck and all executions have the same length; (3) at the end all connections are empty, all futures are collected, both sparse vectors and the verdict of the batch check are those of the sequential run; with honest base correlations the receiver accepts and every position is a correlation with the noise value at the punctured positions and 0 elsewhere. For GF(2^128), where each tree takes its challenge from the hash object of its connection, tree s uses the digest that follows the digests of the earlier trees of that connection, and the parties' hash objects agree again at the end.", "quantifier": "all schedules of all threads of both parties, all buffer sizes, all thread counts >= 1, tree counts, depths >= 2, memories, correlations, PRPs, hash functions, randomness", "why_tests_cant": "a test sees a few schedules on one machine with one buffer size; races and deadlocks show up in others", "anchors": ["emp-zk/emp-vole/mpfss_reg.h: mpfss, seed_expand, consistency_batch_check", "emp-zk/emp-vole/preot.h: choices_sender, choices_recver, send, recv, reset", "emp-zk/emp-vole/spfss_sender.h: compute, send, consistency_check_msg_gen", "emp-zk/emp-vole/spfss_recver.h: recv, compute, consistency_check_msg_gen", "emp-zk/emp-vole-f2k/mpfss.h: mpfss, consistency_batch_check", "emp-zk/emp-vole-f2k/spfss_f2k_sender.h: compute, send, consistency_check_msg_gen", "emp-zk/emp-vole-f2k/spfss_f2k_recver.h: recv, compute, consistency_check_msg_gen"]}
{"id": "C53", "title": "What the MPFSS checks guarantee against a cheating verifier", "statement": "The prover is the receiver of the trees, and its batch check is its only protection against wrong tree messages. (1) GF(2^128): the challenge is get_hash_block() of the connection, which absorbs only bits sent by send_bit; in every interleaving it equals the value known before the trees are sent, whatever the tree messages contain. (2) With it a verifier can change the lowest level and secret_sum of every tree so that, for all choice bits and values of the prover, the check accepts the reply computed by the verifier's unchanged code and the prover's shares are wrong exactly at the two leaves around each noise position. (3) F_p: the challenge is drawn by the prover after the trees. If two settings of the prover's bits or values need different summed keys, one reply passes in both for at most 2^(depth-1) challenges, or a hash collision is at hand. (4) The verdict there does not depend on the prover's values while secret_sum is below p; with secret_sum = 2p+5 it does.", "quantifier": "all PRPs, hash functions, tree counts, depths >= 2, thread counts, seeds, bits, values, keys, non-zero shifts and challenges; all interleavings, platforms and message contents for (1); all tree messages for (3) and (4)", "why_tests_cant": "the project tests only run honest parties; the claim compares a cheating verifier's view over all prover secrets", "anchors": ["emp-zk/emp-vole-f2k/mpfss.h: mpfss, consistency_batch_check", "emp-zk/emp-vole-f2k/spfss_f2k_sender.h: consistency_check_msg_gen", "emp-zk/emp-vole-f2k/spfss_f2k_recver.h: compute, consistency_check_msg_gen", "emp-zk/emp-vole/mpfss_reg.h: seed_expand, consistency_batch_check", "emp-zk/emp-vole/spfss_recver.h: compute", "emp-zk/emp-zk-bool/bool_io.h: get_hash_block"]}
{"id": "C54", "title": "The GF(2^128) engine over the real channel, every interleaving", "statement": "The GF(2^128) engine of the memory extension (products with deferred checks, product proofs of degree 3 to 5) run as two programs over BoolIO, each taking its challenges from its own transcript hash. (1) Honest parties: no interleaving gets stuck, runs are finite, and every complete run leaves the prover with the plain values, the verifier with their keys, no complaint and empty channels. (2) Against any prover program the verifier's result is that of the message-level session on exactly the bits and messages its endpoint has read, with each challenge taken from the digest preceding its message. (3) The verifier sends nothing; its key decides only whether a product check stops it. (4) Its elements are keys of values fixed by what it read; if those are wrong and nothing was printed, at most five keys lead there or some challenge combines the errors of a batch to zero. (5) The second case can be forced: circuit and bits alone fix all challenges, so a prover program independent of Delta gets any claimed value of a product accepted.", "quantifier": "all interleavings, prover programs, circuits, buffer and batch sizes, thread counts, correlations, hash and challenge functions, keys, buffer garbage and platforms (byte or bit packing, buffer reset)", "why_tests_cant": "test programs run one honest pair under one schedule; the claims quantify over schedules and arbitrary prover programs", "anchors": ["emp-zk/extensions/ram-zk/ostriple.h: compute_mul, compute_mul3, compute_mul4, compute_mul5, andgate_correctness_check_manage, ~F2kOSTriple", "emp-zk/extensions/ram-zk/poly_prdt.h: batch_check", "emp-zk/emp-zk-bool/bool_io.h: send_bit, recv_bit, send_data_internal, get_hash_block, flush"]}
{"id": "C55", "title": "Cut-and-choose of the conversion masks against a cheating prover", "statement": "A mask has a boolean and a field half; a generation run opens some candidates and compares each delivered mask with a partner found by rotating the rest by a random offset. For halves below p: (1) if they disagree where a run looks, then for any words up to p and any hash input the prover sends, all accepting key pairs share the boolean key or share the field key; if they agree there, the run is accepted for every key. (2) If some delivered mask has different halves, at most (N+C)/q offsets leave the disagreement unseen, q being the least divisor of N+C above C: 1/7 of the offsets for the constants of the code, one single offset if N+C is prime. (3) Counted over offsets and keys together, with words depending on the offset. (4) The bound is reached: with differences planted periodically the prover is accepted at every q-th offset for all keys, and every conversion through such a mask is off by an amount of its choice. So the code's check accepts wrong masks with probability 1/7.", "quantifier": "all mask counts N, opened counts C (bucket size 2), candidates, keys, offsets in range, prover words up to p", "why_tests_cant": "test programs run honest provers; the claim counts over all offsets and keys", "anchors": ["emp-zk/edabit/edabits.h: edabits_gen_backend, fp_index, f2_index, random_point, bool2arith, arith2bool", "emp-zk/edabit/auth_helper.h: open_check_send, open_check_recv"]}
{"id": "C56", "title": "Words shown by the conversions hide the converted values", "statement": "A generation run shows the values of the opened candidates and the sums of each delivered mask with its partner; each conversion shows one word. For every offset that keeps the opening within the candidates and whatever is converted, (1) the candidates' field values correspond one to one to these words together with the values of the unused masks, so with uniform candidates the words are uniform; (2) the same over any number of generations when offsets and converted values depend on everything shown before; (3) two provers converting different values at the same points show the same words under a one-to-one correspondence of their candidates; (4) the macs do not enter. (5) At the last offset this fails: the second opened word is the value of the first mask of the next generation of the same buffer, and the next conversion, in either direction, shows its value.", "quantifier": "all mask counts N, opened counts C (bucket size 2), offsets, conversions in both directions, candidate values and macs below p, numbers of generations, adaptive choices", "why_tests_cant": "a statement about all values of the randomness; a run shows one transcript", "anchors": ["emp-zk/edabit/edabits.h: edabits_gen_backend, random_point, bool2arith, arith2bool, next_edabits", "emp-zk/edabit/auth_helper.h: open_check_send"]}
{"id": "C57", "title": "Whole sessions of the conversion engine", "statement": "A session is any number of mask generations, each followed by conversions in both directions. (1) Honest: for every key pair the two hash inputs agree and every conversion gives the converted value, unless some bucket sum is exactly p. (2) Against a prover that chooses candidates, words up to p and hash input freely: if a run looks at masks whose halves disagree, or all delivered masks are consistent and still some conversion is wrong, then all accepting key pairs share the boolean key or share the field key. (3) If the prover adapts everything to the offsets seen so far, then over the offsets of n+1 generations and the keys the accepted sessions with a wrong conversion are at most a fraction 1/q (plus rounding by the unused offsets) and one guess of a key, q being the least divisor of N+C above C: 1/7 for the constants of the code, however many generations it attacks.", "quantifier": "all N, C >= 1 (bucket size 2), numbers of generations and conversions, adaptive prover strategies with authenticated labels and shares, keys, offsets that keep the opening within the candidates", "why_tests_cant": "quantifies over adversaries, keys and offsets; test programs run two honest parties", "anchors": ["emp-zk/edabit/edabits.h: edabits_gen_backend, bool2arith, arith2bool, next_edabits", "emp-zk/edabit/auth_helper.h: open_check_send, open_check_recv"]}
{"id": "C58", "title": "The prover's messages in the correlation generators hide its values", "statement": "Set-up over F_p (base generation and first expansion), honest verifier: the messages of the prover (COPE corrections, two base-check words, announced OT choices, MPFSS check word) always have the same shape and pass the check, and for fixed secrets (values and tree positions) every such transcript comes from exactly one choice of the prover's masks. So the transcript is distributed identically for any two provers. The values delivered by the expansion are a function of the secrets alone. One expansion over GF(2^128): the announced choices are uniform, but the value that masks the check word is read again by the expansion, so the verifier learns one linear relation between the values behind the delivered correlations. The seed of the base check must be reduced: the prover uses the received word as it is, and a verifier that sends an unreduced seed tells two provers apart by the size of one answer word, whatever the masks.", "quantifier": "all sizes t, k, tree depths, thread counts, table words, verifier randomness (canonical), prover secrets and masks, challenges", "why_tests_cant": "distribution of transcripts over all mask choices, for all secrets; tests look at one run and only at outputs", "anchors": ["emp-zk/emp-vole/cope.h: extend", "emp-zk/emp-vole/base_svole.h: triple_gen_recv, recver_check", "emp-zk/emp-vole/mpfss_reg.h: consistency_batch_check", "emp-zk/emp-vole/preot.h: choices_recver", "emp-zk/emp-vole/vole_triple.h: setup, extend_recv", "emp-zk/emp-vole-f2k/mpfss.h: consistency_batch_check", "emp-zk/emp-vole-f2k/svole.h: extend_send"]}
{"id": "C59", "title": "The arithmetic test programs prove what they claim", "statement": "sis.cpp, matrix_mul.cpp, zk_proof.cpp, polynomial.cpp, inner_prdt.cpp, circuit_scalability.cpp and input_scalability.cpp (arith), as sequences of API calls of any size: with a valid witness the verifier accepts for every key, challenge and thread count up to 32; a prover that plays any strategy and is accepted has committed a witness of the stated relation (short solution of A s = t; product of matrices; chain of operations and products, or its end alone; quadratic relation), except on a counted small fraction of the verifier's keys and challenges or when the transcript hash collides; two solutions of the SIS instance give identically distributed transcripts. In sis.cpp only the vector of the last of the 485 rounds is proved to be a solution. input_scalability.cpp proves nothing: any field elements are accepted, whatever array the verifier holds.", "quantifier": "all sizes n, m, sz, rounds, public data, witnesses, provers (any strategy), keys, challenges, batch sizes, thread counts 1..5 (soundness) or 1..32 (completeness)", "why_tests_cant": "the programs are the tests: they run honest parties on random data of one size and cannot show that a wrong witness is refused", "anchors": ["test/arith/sis.cpp", "test/arith/matrix_mul.cpp", "test/arith/zk_proof.cpp", "test/arith/inner_prdt.cpp", "test/arith/polynomial.cpp", "emp-zk/emp-zk-arith/int_fp.h", "test/arith/circuit_scalability.cpp", "test/arith/input_scalability.cpp"]}
{"id": "C60", "title": "Boolean sessions that mix gates and queued relations are complete, sound and hiding", "statement": "A whole boolean session: inputs, gates, reveals and PolyProof relations (zkp_poly_deg2, zkp_inner_prdt, _eq, _multi) in any order, then finalize_zk_bool. With true relations the verifier accepts for every key and challenge and both sides hold the plain outputs; a prover with any strategy is accepted with a wrong output or a false relation on its committed inputs only for a counted small fraction of the verifier's keys and challenges, or when the transcript hash collides; two witnesses with the same outputs and true relations have the same possible transcripts, each from exactly one choice of the prover's random bits. inner_prdt.cpp, polynomial.cpp and lowmc.cpp (bool) therefore prove their statements.", "quantifier": "all programs (any interleaving), witnesses, provers, keys, challenges, batch sizes and thread counts; for hiding all challenge functions of the transcript", "why_tests_cant": "test programs run honest parties on one interleaving (all inputs first) and cannot count the challenges a cheating prover survives", "anchors": ["emp-zk/emp-zk-bool/emp-zk-bool.h", "emp-zk/emp-zk-bool/polynomial.h", "emp-zk/emp-zk-bool/ostriple.h", "emp-zk/emp-zk-bool/zk_prover.h", "emp-zk/emp-zk-bool/zk_verifier.h", "test/bool/inner_prdt.cpp", "test/bool/polynomial.cpp", "test/bool/lowmc.cpp"]}
{"id": "C61", "title": "Programs on the oblivious memories see an array, end to end", "statement": "For every program of read(), write() and access() calls on a ZKRAM, ROZKRAM or ZkRamExt that writes a cell before reading it, stays within the address range and makes fewer calls than refresh() and the step field allow, two honest parties get exactly the results a plain array would give, the final check() receives one record per call, prints nothing and is accepted for every key, challenge and randomness. Conversely, on ZKRAM a prover whose results differ from those of the array survives fewer set-equality challenges than there are calls - unless it uses access() with op = 1, whose written value is a fresh prover input that is never compared with the argument. refresh() called after every access makes any long enough program undefined, and the shipped ram_test uses the memory after check().", "quantifier": "all programs, all index, step and value widths, all inputs, all cheating provers (values fed, sorted lists, correlations, messages), all keys, challenges and randomness, all thread counts and buffer sizes named in the hypotheses", "why_tests_cant": "The shipped tests run one write-then-read pass at one size with an honest prover; they never call access(), never reach the refresh threshold and cannot see a prover that feeds a different value.", "anchors": ["emp-zk/extensions/ram-zk/zk-mem.h:57", "emp-zk/extensions/ram-zk/zk-mem.h:114", "emp-zk/extensions/ram-zk/zk-mem-ext.h:150", "emp-zk/extensions/ram-zk/ro-zk-mem.h:44", "test/ram/ram_test.cpp:57", "test/ram/ram_ext_test.cpp:11", "test/ram/ro_ram_test.cpp:57"]}
{"id": "C62", "title": "The oblivious memory at gate level: one session from the wires to the accepted check", "statement": "For every boolean program that uses a ZKRAM and every claimed sorted list: the comparison circuit built by check() reveals exactly whether the claimed list is in the right order, costs 2*index_sz + step_sz + val_sz + 7 AND gates per pair of neighbours, and the recorded list is the list of accesses in time order. With the wires authenticated in the boolean session and packed into field elements for the set-equality test, a program with a read that does not return the last value written survives fewer set-equality challenges than it makes calls, whatever the prover sends, if the claimed addresses lie in the memory; an honest prover is accepted for every key and challenge. Without the range hypothesis the claim is false: any wrong read of a written cell can be hidden by a claim with the top address bit set, and such a prover is accepted under every key.", "quantifier": "all programs of gates and memory calls, all index, step and value widths fitting in 128 bits, all claimed lists, all prover inputs and messages, all keys, challenges, thread counts and batch sizes named in the hypotheses", "why_tests_cant": "The shipped test checks one size with an honest prover; it cannot quantify over claimed lists or prover messages, and a comparison circuit that is wrong on one pair of neighbours passes it unless that pair occurs.", "anchors": ["emp-zk/extensions/ram-zk/zk-mem.h:57", "emp-zk/extensions/ram-zk/zk-mem.h:114", "emp-zk/extensions/ram-zk/zk-mem.h:145", "emp-zk/emp-zk-bool/ostriple.h:144"]}
{"id": "C63", "title": "The read-only memory at gate level: one session from the wires to the accepted check", "statement": "For every boolean program that sets up a ROZKRAM, reads from it and runs check(), and every claimed sorted list: all bits revealed by check() are true exactly if the claimed list is in the right order; the comparison costs 2*index_sz + val_sz + 3 AND gates per pair of neighbours; the recorded list is the memory followed by the reads. With the wires authenticated in the boolean session and packed into field elements, a program with a read of a cell that does not return its content survives fewer set-equality challenges than there are records, whatever the prover sends, if the claimed addresses lie in the memory; an honest prover is accepted for every key and challenge. Without the range hypothesis the claim is false: for every function f the reads of cell a may return f(a), and the prover is accepted under every key. A read beyond the size of the memory may return anything even with all claimed addresses in range.", "quantifier": "all programs of gates and reads, all memories of at most 2^index_sz cells, all index and value widths fitting in 128 bits, all claimed lists, all prover inputs and messages, all keys, challenges, thread counts and batch sizes named in the hypotheses", "why_tests_cant": "The shipped test checks one size with an honest prover that reads inside the memory; it cannot quantify over claimed lists, prover messages or keys.", "anchors": ["emp-zk/extensions/ram-zk/ro-zk-mem.h:31", "emp-zk/extensions/ram-zk/ro-zk-mem.h:45", "emp-zk/extensions/ram-zk/ro-zk-mem.h:64", "emp-zk/extensions/ram-zk/ro-zk-mem.h:76"]}
{"id": "C64", "title": "The boolean test programs prove what they open, and memory_scalability proves nothing about its tree", "statement": "In the program example.cpp the opened number is a - b modulo 2^width of the two numbers the prover is committed to; in sha256.cpp the opened digest is the iterated hash of the witness the prover is committed to; in input_scalability.cpp the opened bit is the first committed input; honest parties see these values and accept under every key, and no prover message leads to another opened value in an accepted session. Any well-formed Bristol circuit evaluated on any wires of a session computes its function with one AND per AND gate of the file. circuit_scalability.cpp makes exactly the 100 AND gates per round it prints. merkle_tree() of memory_scalability.cpp leaves the Merkle root of its leaf bits on the returned wires, with one circuit per node; but the leaf bits it feeds in are all one, whatever the witness array holds, and nothing about the digest is opened.", "quantifier": "all Bristol circuits whose wires are set before they are read, all widths, round counts, tree depths and witnesses, all prover inputs and messages, all thread counts, batch sizes, seeds and keys", "why_tests_cant": "The test programs run once with an honest prover and mostly print times; no run compares with a wrong witness, and the memory_scalability run looks the same for any witness array.", "anchors": ["test/bool/example.cpp:14", "test/bool/sha256.cpp:48", "test/bool/memory_scalability.cpp:21", "test/bool/memory_scalability.cpp:32", "test/bool/circuit_scalability.cpp:19", "test/bool/input_scalability.cpp:20"]}
{"id": "C65", "title": "A program mixing bits and field elements keeps both views equal", "statement": "After the program of test/arith/abconversion.cpp run by honest parties, for every size, every array of inputs below p and all consistent masks: the boolean integers and the field elements both hold the values of the recurrence computed modulo p, the shares are valid and the hashed words agree. The plain copy kept by the program agrees except that it may hold p where the value is 0; the program reports exactly these places as incorrect and then stops with an error. So an honest run can be reported as wrong; for the inputs the program draws (rand(), below 2^31) this does not happen, and then no sum is ever reduced, in either representation.", "quantifier": "all array sizes, all inputs below p, all keys, all contents of the mask stock that are consistent on both sides, all stock parameters", "why_tests_cant": "The shipped inputs never reach p, so a wrong reduction in the boolean part, in the field part or in the conversions at p would not be noticed; the false alarm needs a sum of exactly p.", "anchors": ["test/arith/abconversion.cpp:37", "test/arith/abconversion.cpp:41", "test/arith/abconversion.cpp:44", "test/arith/abconversion.cpp:52", "test/arith/abconversion.cpp:58", "emp-zk/emp-zk-arith/ostriple.h:319"]}
{"id": "C66", "title": "The wide memory at gate level: one session from the wires to the accepted check, and an attack by not sorting", "statement": "For every boolean program that uses a ZkRamExt with values of two or more 64-bit words and every claimed list: the order circuit built by check() reveals exactly whether every entry of the claimed list either has another address than the one before it or is later and, if it is a read, carries the same value; it costs index_sz + step_sz + 65*words + 4 AND gates per pair of neighbours, and the recorded list is the list of accesses in time order. With the wires authenticated in the boolean session, packed into rows and compressed with the random coefficients for the set-equality test: if the claimed list is sorted by address, a program with a read that does not return the last value written survives as many challenges as it makes calls only for a fraction n^2/2^128 of the coefficient vectors, whatever the prover sends; an honest prover is accepted for every key, coefficient vector and challenge. Nothing makes the prover sort: every program in which no address makes more than half of the accesses has a claimed list that is accepted under every key, coefficient vector and challenge, whatever the reads returned.", "quantifier": "all programs of gates and wide-memory calls, all index and step widths in range, all numbers of words, all claimed lists, all prover inputs and messages, all coefficient vectors, keys, challenges, thread counts and batch sizes named in the hypotheses", "why_tests_cant": "The shipped test runs an honest prover, whose list is always sorted; the missing order requirement has no effect there. It cannot quantify over claimed lists, prover messages or coefficients.", "anchors": ["emp-zk/extensions/ram-zk/zk-mem-ext.h:44", "emp-zk/extensions/ram-zk/zk-mem-ext.h:105", "emp-zk/extensions/ram-zk/zk-mem-ext.h:163", "emp-zk/extensions/ram-zk/zk-mem-ext.h:230"]}
{"id": "C67", "title": "Boolean sessions with gates and relations over the real channel", "statement": "The prover and the verifier of a boolean session in which gates and PolyProof calls alternate in any order, run as two programs over one buffered bit channel, never get stuck, finish after a bounded number of steps in every interleaving, return the plain outputs to both, report no cheating and leave the channel empty, provided all relations hold. Against an arbitrary prover program the verifier sends nothing that depends on its key or correlations, only the seeds of its relation checks; its result is that of the message-level session on exactly the bits and data its endpoint read, and which data message answers which check is a function of the program alone. So with one transcript at most two keys accept a wrong output or a false relation, unless an AND challenge of the transcript or a relation seed makes the error combination of its batch vanish or the opening hash collides. Conversely, an honest prover hides its witness from an arbitrary verifier program: for two witnesses with the same outputs for which all relations hold, every situation of the channel, both endpoints and the verifier's program is reached by equally many choices of the prover's random bits.", "quantifier": "all programs of gates and relations, keys, correlations, seeds, thread counts, batch, relation-buffer and channel-buffer sizes, platforms of either side, interleavings, and (for the second part) all prover programs, (for the third) all verifier programs", "why_tests_cant": "all interleavings of two buffered endpoints, all orders of gates and relations, and all cheating programs on either side", "anchors": ["emp-zk/emp-zk-bool/polynomial.h:39", "emp-zk/emp-zk-bool/polynomial.h:73", "emp-zk/emp-zk-bool/ostriple.h: andgate_correctness_check_manage", "emp-zk/emp-zk-bool/bool_io.h:64", "emp-zk/emp-zk-bool/emp-zk-bool.h:37"]}
{"id": "C68", "title": "Arithmetic sessions over the channel hide the witness from any verifier program that sends reduced challenges", "statement": "Fix the verifier's keys and Delta and an arbitrary verifier program. For two witnesses of an arithmetic circuit with the same opened values, every situation of the channel (bytes in flight, send buffers, the verifier's program and everything it has read) after any number of steps in any interleaving is reached by equally many choices of the prover's random field elements, as long as the 64-bit batch challenges the prover has read are below p. This condition is needed: a verifier that sends an unreduced challenge can tell two witnesses apart with certainty.", "quantifier": "all circuits, witnesses, keys, Delta, verifier programs, coins, interleavings, step counts, thread counts and batch sizes; for the leak all keys, random elements and interleavings", "why_tests_cant": "a statement about all malicious verifier programs and about distributions over the prover's randomness; the tests run the honest verifier, which always reduces its challenge", "anchors": ["emp-zk/emp-zk-arith/polynomial.h:49", "emp-zk/emp-zk-arith/polynomial.h:51", "emp-zk/emp-vole/utility.h:128", "emp-zk/emp-vole/utility.h:179", "emp-zk/emp-zk-arith/ostriple.h:344"]}
{"id": "C69", "title": "Boolean and arithmetic engine on one channel", "statement": "A program that uses the boolean and the arithmetic engine over the same BoolIO endpoint, with calls of both engines, data of other components in either direction and sync calls in any order, never gets stuck in any interleaving of the two parties, finishes after a bounded number of steps, returns to both parties the plain outputs of both engines and the other side's data in order, reports no cheating and leaves both channels empty, provided all claimed relations hold. The bits of one engine that are still in the bit buffer when the other engine sends bytes are never lost or reordered. Against an arbitrary prover program the verifier's state is that of the two message-level sessions on exactly the bits and data its endpoint has read, and which data message is a check reply, a correction word, a digest or a data block is a function of the program alone. So with one transcript at most two keys of the boolean engine accept a wrong boolean output or relation, whatever the keys of the arithmetic engine, and at most four keys of the arithmetic engine accept a wrong value or relation, whatever the keys of the boolean engine, up to vanishing error combinations and hash collisions. What the prover sees does not depend on the verifier's keys except through whether the verifier stops, and the key of the boolean engine cannot make it stop. Against an arbitrary verifier program, every situation outside the prover's program is reached by equally many choices of the prover's randomness for any two witnesses with the same outputs in both engines, as long as the batch challenges of the arithmetic relation proofs are reduced. But the value returned by finalize_zk_bool does not cover arithmetic relations that are still queued when it is called, as in the order of test/arith/abconversion.cpp.", "quantifier": "all programs of boolean gates, boolean relations, arithmetic calls, data blocks and syncs in any order, all keys, correlations, coins, thread counts, batch, relation-buffer and channel-buffer sizes, platforms of either side, and interleavings; for the second part all prover programs; for the hiding part all verifier programs, situations and pairs of witnesses", "why_tests_cant": "all orders of calls of two engines that share one bit buffer and all interleavings of two buffered endpoints; one test program runs one order", "anchors": ["test/arith/abconversion.cpp:16", "test/arith/abconversion.cpp:69", "emp-zk/emp-zk-bool/bool_io.h:22", "emp-zk/emp-zk-arith/ostriple.h:166", "emp-zk/emp-zk-arith/polynomial.h:42", "emp-zk/emp-zk-arith/emp-zk-arith.h:46"]}
{"id": "C70", "title": "Communication depends only on the shape of the program", "statement": "In a program that uses the boolean and the arithmetic engine over one BoolIO endpoint, the number of bytes the prover has sent when it gets to its end is given by a formula in the kinds and order of the calls and the buffer sizes. It does not depend on the private inputs, the correlations, the challenges, the hash functions, the platforms, the interleaving, or on what the verifier's program does. Because BoolIO sends its whole bit buffer before every data message, the order of calls matters: n pairs of a bit input and a field input cost n padded buffers if they alternate, and at most n / NB + 1 buffers if the bits come first. The number of bytes the verifier has sent when it gets to its end is likewise a formula in the kinds of the calls, whatever the prover's program does; boolean gates do not add to it, because the challenge of their check comes from the transcript. Neither party ever sends more than its formula, also in a run that is cut short.", "quantifier": "all programs of both engines with data blocks and syncs, all private inputs, correlations, keys, hash functions, buffer sizes, thread counts, programs of the other party and interleavings", "why_tests_cant": "the test programs print the counter of one run of one program against the honest verifier; equality over all inputs and all verifiers needs a proof", "anchors": ["emp-zk/emp-zk-bool/bool_io.h:45", "emp-zk/emp-zk-bool/bool_io.h:64", "emp-zk/emp-zk-bool/bool_io.h:102", "emp-zk/emp-zk-bool/ostriple.h:84", "emp-zk/emp-zk-arith/ostriple.h:467", "emp-zk/emp-zk-bool/polynomial.h:77", "emp-zk/emp-zk-arith/polynomial.h:66", "emp-zk/emp-zk-arith/ostriple.h:351"]}
