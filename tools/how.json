{
 "C01": "`utility.h` functions on N with explicit 64/128-bit wrap; bit and div-mod lemmas",
 "C02": "Lucas certificate for 2^61-1; polynomials as coefficient lists, synthetic division",
 "C03": "carry-less product on N, reduction by shifting; ring laws by linearity, field by Frobenius and a Berlekamp kernel check",
 "C04": "prover and verifier as two state machines over an ideal COT stream; simulation invariant K = M xor x*Delta for every gate sequence",
 "C05": "arbitrary prover messages; the verifier's check is a quadratic in Delta; roots counted; challenge polynomials in the seed",
 "C06": "chunk arithmetic of the manager function; Euclidean division",
 "C07": "opening digest as list of labels; wrong bit needs the key or a collision",
 "C08": "same state machines over F_p words; invariant mac = key + x*Delta and word bounds",
 "C09": "as C05 over F_p, arbitrary prover with corrections at most p",
 "C10": "as C06 with the 32-gate threshold",
 "C11": "openings as words; congruence mod p",
 "C12": "zero test on the mac",
 "C13": "polynomial proof buffers and batch check; root counting",
 "C14": "as C13 over GF(2)/GF(2^128)",
 "C15": "two endpoints as state machines over FIFO channels; invariant on buffer pointers; well-founded measure",
 "C16": "hash input as byte list; equality at every digest after a flush",
 "C17": "packing of bools to bytes, both code paths",
 "C18": "OTPre send/recv; case analysis on the choice, induction on length",
 "C19": "in-place array expansion and recovery; layer invariant",
 "C20": "consistency messages and thread ranges; linear algebra, interval partition",
 "C21": "index derivation, accumulation with lane bounds; linearity",
 "C22": "ranges of the expansion",
 "C23": "extend as a buffer state machine with provenance tags",
 "C24": "COPE and base sVOLE; bit decomposition of Delta",
 "C25": "set-up, two bootstrap expansions and all iterations composed; induction on the iteration",
 "C26": "conversion on 62-bit words; modular arithmetic",
 "C27": "stock pointers as a state machine",
 "C28": "index arithmetic of openings and buckets; partition",
 "C29": "bucket check as word equation; openings by digest",
 "C30": "packing of 128 COTs; F2k generator composed as in C25",
 "C31": "F2k engine state machines, arbitrary prover, GF(2^128) root counting",
 "C32": "product proof coefficients as polynomials in Delta",
 "C33": "access log, claimed sorted list, order check, multiset products",
 "C34": "as C33 with steps and writes",
 "C35": "as C34 for wide values; colliding coefficient vectors counted pair by pair of rows (hyperplanes in GF(2^128)^m)",
 "C36": "packed words as positional numbers; product loops",
 "C37": "memory vectors with explicit bounds",
 "C38": "cipher generic in its parameters; gate program of the authenticated path run in the boolean engine",
 "C39": "global pointers, flags and objects as state; induction over call sequences",
 "C40": "messages as functions of the prover's randomness; simulator and bijection, challenges may depend on all messages",
 "C41": "tasks as programs of single memory accesses; all interleavings; footprint separation and commutation",
 "C42": "circuits as integer functions; values as rationals",
 "C43": "engines composed with the generators, call by call",
 "C44": "two reactive programs over the byte channel; simulation by the static schedule; any prover program by replaying the verifier's reads",
 "C45": "two reactive programs over byte streams with send buffers and interactive coins; Kahn-style confluence for all schedules; any prover program by replaying the verifier's reads",
 "C46": "program trees over the gate steps of both engines; a run on given opened values equals the run of the gate list taken, then C04/C05/C08/C09",
 "C47": "the loops as functions of both sides' arrays; iff with the relation written on N; composed with C04, C08, C19 and C25",
 "C48": "Three keys that are on no line give a non-zero polynomial in the seed whose roots are the accepting seeds (eight carry patterns of the final product); an extractor turns the view into blocks stage by stage and C43's hand-out order and C09 finish. The reply is computed in the field from the extracted blocks.",
 "C49": "Stage-by-stage extraction: the prover's code run on its view yields blocks that satisfy the share relation with the keys of every consistent world; EndProofs.fv_exec_ext and C31 finish. The reply is expanded as a sum over leaves, only the punctured leaf contributes a multiple of Delta.",
 "C50": "A batch of errors depends only on bits (words) sent before its challenge; the challenges that hide a fixed non-zero error are counted by one coordinate (C05/C09 challenge bounds), summed over the batches along the sequence of challenges, and combined with the session soundness of C05/C09 for the keys.",
 "C51": "Products by the shifted-product invariant of C36 and the honest run of C31; the forged product by choosing the authenticated bits of the last chain and the affine answers of C32; the tree check by the power-sum polynomial in the digest and root counting over F_p; the bulk extension through the pool lemmas of C23.",
 "C52": "Threads are programs over shared cells, connections and futures. Each thread owns a set of resources; pool->enqueue and get() hand resources over; ownership is invariant under steps, which excludes races. Race-free steps commute, so all executions have the length and the end of one complete run, built segment by segment from the sequential model.",
 "C53": "Reconstruction from shifted messages is the honest one plus an error on one pair of leaves, which the polynomial hash sends to zero because the shift was chosen with the challenge. Over F_p two accepting runs give a polynomial of degree 2^(depth-1) in the challenge that vanishes; counting its roots gives the bound.",
 "C54": "Both programs follow one schedule of channel operations, so the channel theorems of C44 give all interleavings; the digests depend only on the schedule's shape and bits, which gives both the honest challenges and the late corrections. The any-prover statements replay the verifier's program on its endpoint's log.",
 "C55": "Differences of the halves form a cyclic word; the offsets that hide them are rotations giving one fixed word, whose differences are periods, so they lie in one residue class of a divisor of N+C longer than the opened block. Key counts by comparing two accepting keys.",
 "C56": "Explicit inverse: opened candidates from the opening, delivered masks from the conversion words, partners from the sums; opened slots and partners are disjoint rotations. Induction over generations with the words seen as state.",
 "C57": "Hash input cut into segments of fixed length; each bad segment fixes one key (C55 for generations, label and share equations for conversions). Count by induction over generations: the first generation with a wrong mask must survive its offset.",
 "C58": "Explicit inverse: from a transcript and the secrets compute the masks (position t, then the base mask, then the pads and bits); the first check word is fixed by completeness of the base check (C24). The leak: additions of zero subtract p until the sum is below p, then the last term, up to 6p, is not covered by a mask below p.",
 "C59": "Loop invariants on the generated gate list: which wire each array element holds and what it evaluates to; then instances of the session theorems.",
 "C60": "Factorisation of the interleaved run into the gates and the list of calls; batch bounds of C05 and C14; counting as in C50 with two kinds of challenges; hiding from C40 plus the fact that the second block of a reply determines its 128 mask bits and the first block.",
 "C61": "The records of a run are related call by call to the program (TightProofs.rw_run_log), an induction over the program shows that consistent records give the results of an array, and C34_honest_passes, C34_session and the honest set-equality session are applied to these records.",
 "C62": "The gates are evaluated by a small program logic (runs/shape) that composes the circuits of Integer comparison; the labels packed by pack() are linear in the wires, so the packed number's key is the key of the packed labels; then C04 (boolean session), C34 (order implies reads_latest) and C34_session (set equality) are composed.",
 "C63": "As C62: gates evaluated by the same program logic, packed labels are linear in the wires, then C04 (boolean session), C33_consistency and C33_session (set equality) are composed.",
 "C64": "A small program logic over gate lists (does, BTestProofs.v) that tracks wire values, inputs used, AND count and opened bits for arbitrary inputs; then C02/C04 for the session.",
 "C65": "Loops are shown to act on all marked positions at once; numbers up to p represent residues; C26 extended to the value p; induction over the six steps.",
 "C66": "Gate-level run and AND count of the order circuit (WideGateProofs/Thms), labels packed and compressed linearly so that their F2k values are the compressed rows (WideGateSess), then C35/C59 for the counting and C62's composition of the two sessions; the rearrangement in C66_balanced_refuted is built by induction.",
 "C67": "A schedule of channel operations common to both sides (BWireProofs), simulation of each program by it (BWireThms: rel_follow, items_follow, bver_follow) and the network theorem of C44; for arbitrary provers a reader semantics with the data split by role (BWireAny), then bsess_soundness of C60. For hiding: two prover programs with equal message-level views follow the same list of channel actions (BWireHide: bsched_same), so they move in lock step against any verifier (lock_run); the pairing of random bits is that of C60.",
 "C68": "The honest prover's actions as a list determined by its messages (AWireHide: asched_run, asched_follow, asched_same), a lock-step lemma for two provers with the same list (alock_run), and the bijection of C40 with the challenges read off the situation. The leak by computing the answer word to the challenge 7*2^61 (AWireLeak) and the network theorem of C45.",
 "C69": "Each call of either engine has a list of channel operations and both programs follow it (XWireArith, XWireBool); the arithmetic operations carry no bits and no challenges of the bit transcript, so the digests depend only on the boolean bits and the shapes (xsched_alike). The message-level sessions of C08 and C60 give the results, the channel theorem of C44 all interleavings. The any-prover statements replay the verifier's program on its endpoint's log with the data split by role (XWireSpec, XWireAny), then bsess_soundness of C60 and C09_session_soundness. The two key statements relate the verifier's programs for two keys action by action (XWireKey). Hiding reads the challenges and data off the situation (uroles gives what each received block stands for), takes the witness changes of C60 and C40 for these challenges, and shows that provers with equal messages perform the same list of actions (XWireHide, XWireHide2, XWireHide3). That the condition on the challenges is needed is shown with the verifier program x_spy, which follows the prover's schedule (XWireLeak). The other refutation runs one program.",
 "C70": "Each program has a predicate (`costs` for the prover, `vcosts` for the verifier) that gives the bytes it still has to send, for the prover in terms of the number of buffered bits, whatever it reads; every action of the endpoint preserves the sum of bytes sent and bytes to come (cost_run, vcost_run). Induction over the program gives the formulas `comm` of CommSpec and `vcomm` of CommVerSpec."
}