(** Model of the conversion engine: /repo/emp-zk/edabit/{edabits.h, auth_helper.h} and
    /repo/emp-zk/emp-zk-arith/conversion.h (thin wrappers).

    Simplifications:
    - Integer (emp-tool) is the 62-bit unsigned number held by its bits; +, -, select and Integer(62, v, .)
      have the contract of that class (two's complement on 62 bits, truncation of v, select(s, y) = s ? y : x,
      reveal<uint64_t> = zero extension).  They are circuits of the boolean engine (C04, C05).
    - The labels of an Integer are the 62 labels/keys of its bits; those of circuit outputs are whatever the
      boolean engine produced, subject to the authentication relation.
    - The members N, B, C (constants 800000, 2, 2) are the parameters NN, B, C; uint32_t arithmetic is exact
      (np_pt + ell stays below 2 * 10168320).
    - The hash object is the list of words and blocks put into it since its last reset; the digest is an
      arbitrary function of it. *)
From Coq Require Import NArith List Bool Arith.
From Verif Require Import Word FpModel.
Import ListNotations.

(** * 62-bit integers *)
Definition I62 : N := 4611686018427387904.
Definition iadd (a b : N) : N := ((a + b) mod I62)%N.
Definition isub (a b : N) : N := ((a + (I62 - b mod I62)) mod I62)%N.
Definition itop (a : N) : bool := N.testbit a 61.
Definition isel (x : N) (s : bool) (y : N) : N := if s then y else x.
(** edabits.h:61-63  int_boo_pr, int_boo_pr_plus_two *)
Definition boo_pr : N := PR.
Definition boo_pr2 : N := (PR + 2)%N.

(** * Arithmetic shares *)
(** edabits.h:331-343  intfp_add_const *)
Definition fp_addc_prv (a b : N) : N := mkblock (add_mod (hi64 a) b) (lo64 a).
Definition fp_addc_ver (delta a b : N) : N :=
  let b := mult_mod b (lo64 delta) in let b := sub64 PR b in mkblock 0 (add_mod (lo64 a) b).
(** edabits.h:345-357  intfp_add *)
Definition fp_add_prv (a b : N) : N := mkblock (add_mod (hi64 a) (hi64 b)) (add_mod (lo64 a) (lo64 b)).
Definition fp_add_ver (a b : N) : N := mkblock 0 (add_mod (lo64 a) (lo64 b)).

(** * Openings (auth_helper.h) *)
Inductive hitem := HW (w : N) | HB (b : N).
(** auth_helper.h:26-36, 83-91  word sent and word hashed by the prover for one arithmetic share *)
Definition op_send_fp (a : N) : N * list hitem := (hi64 a, [HW (lo64 a)]).
(** auth_helper.h:38-47, 108-115  verifier *)
Definition op_recv_fp (delta_fp k v : N) : list hitem := [HW (add_mod (lo64 k) (mult_mod v (lo64 delta_fp)))].
(** auth_helper.h:92-102  labels of one Integer, prover; 116-128 verifier, for the received word v *)
Definition op_send_f2 (labels : list N) : list hitem := map HB labels.
Definition op_recv_f2 (delta_f2 : N) (keys : list N) (v : N) : list hitem :=
  map (fun jk => HB (if N.testbit v (N.of_nat (fst jk)) then N.lxor (snd jk) delta_f2 else snd jk))
      (combine (seq 0 (length keys)) keys).
(** auth_helper.h:83-104, 106-132  open_check_{send,recv}(Integer*, __uint128_t*, len): all words first, then all labels *)
Definition op_send_both (l : list (list N * N)) : list N * list hitem :=
  (map (fun p => hi64 (snd p)) l,
   flat_map (fun p => snd (op_send_fp (snd p))) l ++ flat_map (fun p => op_send_f2 (fst p)) l).
Definition op_recv_both (delta_f2 delta_fp : N) (l : list (list N * N)) (vals : list N) : list hitem :=
  flat_map (fun pv => op_recv_fp delta_fp (snd (fst pv)) (snd pv)) (combine l vals)
  ++ flat_map (fun pv => op_recv_f2 delta_f2 (fst (fst pv)) (snd pv)) (combine l vals).

(** * Circuits *)
(** edabits.h:127-129  bucket sum of two boolean candidates *)
Definition bucket_f2 (a b : N) : N := let s := iadd a b in isel s (itop s) (iadd s boo_pr2).
(** edabits.h:157-158  masked difference opened by bool2arith *)
Definition b2a_diff (x r : N) : N := let d := isub x r in isel d (itop d) (iadd d boo_pr).
(** edabits.h:233-235  boolean result of arith2bool for the opened word *)
Definition a2b_out (sum r : N) : N :=
  let s := isub (sum mod I62)%N r in isel s (itop s) (iadd s boo_pr).

(** edabits.h:151-165  bool2arith(in) for the mask with boolean value r and arithmetic shares (rp, rk):
    opened word, prover's share, verifier's share (for the word v it received) *)
Definition b2a_prv (x r rp : N) : N * N := let d := b2a_diff x r in (d, fp_addc_prv rp d).
Definition b2a_ver (delta_fp rk v : N) : N := fp_addc_ver delta_fp rk v.
(** edabits.h:221-236  arith2bool(in): opened word, hashed words, boolean result (a circuit on the public word) *)
Definition a2b_open (rp a : N) : N * list hitem := op_send_fp (fp_add_prv rp a).
Definition a2b_recv (delta_fp rk k v : N) : list hitem := op_recv_fp delta_fp (fp_add_ver rk k) v.

(** * Stock of masks *)
Section Stock.
  Variables (NN B C : nat) (np_sz : nat).
  Definition ell : nat := B * NN + C.
  Definition ell_faulty : nat := ell - NN.
  Definition Bm1 : nat := B - 1.
  (** e_fill: completed extend_inplace calls on arith_candidate; e_gen: completed runs of edabits_gen_backend,
      i.e. versions of the contents of arith_candidate and bool_candidate *)
  Record eda := { e_num : nat; e_off : nat; e_pt : nat; e_rg : nat; e_fill : nat; e_gen : nat }.
  (** edabits.h:37-64 *)
  Definition eda_init : eda := {| e_num := 0; e_off := 0; e_pt := 0; e_rg := 0; e_fill := 1; e_gen := 0 |}.
  (** edabits.h:82-149, the part concerning the stock *)
  Definition gen_backend (s : eda) : eda :=
    let '(fill, pt) := if Nat.ltb np_sz (e_pt s + ell) then (S (e_fill s), 0) else (e_fill s, e_pt s) in
    {| e_num := NN; e_off := 0; e_pt := pt; e_rg := pt + ell; e_fill := fill; e_gen := S (e_gen s) |}.
  (** edabits.h:320-329 next_edabits: (f2 index, fp index) *)
  Definition next_edabits (s : eda) : (nat * nat) * eda :=
    let s := if Nat.eqb (e_num s) 0
             then gen_backend {| e_num := e_num s; e_off := e_off s; e_pt := e_rg s; e_rg := e_rg s;
                                 e_fill := e_fill s; e_gen := e_gen s |}
             else s in
    ((e_off s, e_pt s + e_off s),
     {| e_num := e_num s - 1; e_off := S (e_off s); e_pt := e_pt s; e_rg := e_rg s;
        e_fill := e_fill s; e_gen := e_gen s |}).
  (** A mask as used: contents version and index of the boolean and of the arithmetic half. *)
  Definition mask : Type := ((nat * nat) * (nat * nat))%type.
  (** edabits.h:151-165, 221-236: a single conversion reads both halves right after next_edabits *)
  Definition single (s : eda) : mask * eda :=
    let '((f2, fp), s) := next_edabits s in (((e_gen s, f2), (e_fill s, fp)), s).
  (** one round: the indices handed out together with the versions at that moment *)
  Fixpoint take (num : nat) (s : eda) : list mask * eda :=
    match num with
    | 0 => ([], s)
    | S k => let '(m, s) := single s in let '(ms, s) := take k s in (m :: ms, s)
    end.
  (** edabits.h:167-188 (and 238-259): rounds *)
  Definition round_plan (len num : nat) : nat * nat * nat :=   (* round, round1_num, leftover *)
    if Nat.leb len num then (1, len, 0)
    else
      let round1_num := num in
      let round := (len - num) / NN + 2 in
      let leftover := (len - num) mod NN in
      let '(round, leftover) := if Nat.eqb leftover 0 then (round - 1, NN) else (round, leftover) in
      if Nat.eqb num 0
      then let round := round - 1 in
           let round1_num := NN in
           let round1_num := if Nat.eqb round 1 then leftover else round1_num in (round, round1_num, leftover)
      else (round, round1_num, leftover).
  (** edabits.h:189-194: size of round j *)
  Definition round_size (plan : nat * nat * nat) (j : nat) : nat :=
    let '(round, round1_num, leftover) := plan in
    let num := NN in
    let num := if Nat.eqb j (round - 1) then leftover else num in
    if Nat.eqb j 0 then round1_num else num.
  (** edabits.h:200-213 bool2arith: in each round the boolean half is read at once, the arithmetic half after
      the whole round.  edabits.h:272-286 arith2bool: the arithmetic half at once, the boolean half after the round.
      [late] selects which half is re-read with the contents at the end of the round. *)
  Definition reread (b2a : bool) (s : eda) (m : mask) : mask :=
    if b2a then (fst m, (e_fill s, snd (snd m))) else ((e_gen s, snd (fst m)), snd m).
  Fixpoint rounds (b2a : bool) (plan : nat * nat * nat) (j cnt : nat) (s : eda) : list mask * eda :=
    match cnt with
    | 0 => ([], s)
    | S c => let '(ms, s1) := take (round_size plan j) s in
             let '(rest, s2) := rounds b2a plan (S j) c s1 in (map (reread b2a s1) ms ++ rest, s2)
    end.
  Definition batch (b2a : bool) (len : nat) (s : eda) : list mask * eda :=
    let plan := round_plan len (e_num s) in rounds b2a plan 0 (fst (fst plan)) s.

  (** * Cut and choose indices *)
  (** edabits.h:308-318 *)
  Definition fp_index (rg offset : nat) : nat := if Nat.leb rg offset then offset - ell_faulty else offset.
  Definition f2_index (offset : nat) : nat := if Nat.leb ell offset then offset - ell_faulty else offset.
  (** edabits.h:298-304 random_point, verifier *)
  Definition random_point (r : nat) : nat := r mod ell_faulty.
  (** edabits.h:296-297 random_point, prover: the word received is used as it is *)
  Definition point_received (w : nat) : nat := w.
  (** edabits.h:104-112: boolean and arithmetic indices opened *)
  Definition opened (pt rand_pt : nat) : list (nat * nat) :=
    map (fun i => (NN + rand_pt + i, pt + NN + rand_pt + i)) (seq 0 C).
  (** edabits.h:115-133: (delivered, boolean partner, arithmetic partner) for every bucket entry *)
  Fixpoint bucket_loop (cnt i pt rg if21 ifp1 : nat) : list (nat * (nat * nat)) :=
    match cnt with
    | 0 => []
    | S c => (i, (if21, ifp1)) :: bucket_loop c (S i) pt rg (f2_index (if21 + Bm1)) (fp_index rg (ifp1 + Bm1))
    end.
  Definition buckets (pt rand_pt : nat) : list (nat * (nat * nat)) :=
    let rg := pt + ell in
    let buc_start := fp_index rg (pt + NN + rand_pt + C) in
    let buc_start1 := f2_index (rand_pt + NN + C) in
    flat_map (fun j => bucket_loop NN 0 pt rg (f2_index (buc_start1 + j)) (fp_index rg (buc_start + j))) (seq 0 Bm1).
End Stock.

(** * A mask generation run of honest parties, edabits.h:82-149.
    [ap], [ak]: arith_candidate of the two parties from np_pt on; [bl i], [bk i]: labels and keys of
    bool_candidate[i]; [sl j i], [sk j i]: labels and keys of the bucket sums computed by the boolean engine.
    B = 2 as in the code: one round of bucket sums. *)
Section Gen.
  Variables (NN C : nat).
  Variables (ap ak : nat -> N) (bl bk : nat -> list N) (sl sk : nat -> list N).
  Definition bucket_fp_prv (e : nat * (nat * nat)) : N := fp_add_prv (ap (fst e)) (ap (snd (snd e))).
  Definition bucket_fp_ver (e : nat * (nat * nat)) : N := fp_add_ver (ak (fst e)) (ak (snd (snd e))).
  (** sent words and hash input of the prover; entries numbered in order of the loop *)
  Definition gen_prv (rand_pt : nat) : list (list N) * list hitem :=
    let o := op_send_both (map (fun ij => (bl (fst ij), ap (snd ij))) (opened NN C 0 rand_pt)) in
    let bs := buckets NN 2 C 0 rand_pt in
    let b := op_send_both (map (fun ie => (sl (fst ie), bucket_fp_prv (snd ie))) (combine (seq 0 (length bs)) bs)) in
    ([fst o; fst b], snd o ++ snd b).
  Definition gen_ver (delta_f2 delta_fp : N) (rand_pt : nat) (msgs : list (list N)) : list hitem :=
    let bs := buckets NN 2 C 0 rand_pt in
    op_recv_both delta_f2 delta_fp (map (fun ij => (bk (fst ij), ak (snd ij))) (opened NN C 0 rand_pt)) (nth 0 msgs [])
    ++ op_recv_both delta_f2 delta_fp (map (fun ie => (sk (fst ie), bucket_fp_ver (snd ie))) (combine (seq 0 (length bs)) bs)) (nth 1 msgs []).
End Gen.

(** * Batch conversions on the contents of the stock: [rb], [rp], [rk] give the boolean value and the arithmetic
    shares stored under a (version, index) pair. *)
Section Conv.
  Variables (NN B C np_sz : nat) (rb rp rk : nat * nat -> N).
  (** edabits.h:167-219; results: opened words, prover's shares *)
  Definition b2a_batch_prv (xs : list N) (s : eda) : list (N * N) * eda :=
    let '(ms, s) := batch NN B C np_sz true (length xs) s in
    (map (fun xm => b2a_prv (fst xm) (rb (fst (snd xm))) (rp (snd (snd xm)))) (combine xs ms), s).
  Definition b2a_batch_ver (delta_fp : N) (words : list N) (s : eda) : list N * eda :=
    let '(ms, s) := batch NN B C np_sz true (length words) s in
    (map (fun vm => b2a_ver delta_fp (rk (snd (snd vm))) (fst vm)) (combine words ms), s).
  (** edabits.h:238-292; opened words and hash input of the prover, hash input of the verifier, boolean results *)
  Definition a2b_batch_prv (xs : list N) (s : eda) : list (N * list hitem) * eda :=
    let '(ms, s) := batch NN B C np_sz false (length xs) s in
    (map (fun xm => a2b_open (rp (snd (snd xm))) (fst xm)) (combine xs ms), s).
  Definition a2b_batch_ver (delta_fp : N) (keys words : list N) (s : eda) : list (list hitem) * eda :=
    let '(ms, s) := batch NN B C np_sz false (length keys) s in
    (map (fun kvm => a2b_recv delta_fp (rk (snd (snd kvm))) (fst (fst kvm)) (snd (fst kvm))) (combine (combine keys words) ms), s).
  Definition a2b_batch_out (words : list N) (s : eda) : list N :=
    let '(ms, _) := batch NN B C np_sz false (length words) s in
    map (fun vm => a2b_out (fst vm) (rb (fst (snd vm)))) (combine words ms).
End Conv.
(** sequences of calls of the public interface: a single conversion (either direction) or a batch *)
Inductive ccall := COne | CBatch (b2a : bool) (len : nat).
Fixpoint run_calls (NN B C np_sz : nat) (cs : list ccall) (s : eda) : list mask * eda :=
  match cs with
  | [] => ([], s)
  | c :: cs =>
      let '(ms, s) := match c with
                      | COne => let '(m, s) := single NN B C np_sz s in ([m], s)
                      | CBatch b len => batch NN B C np_sz b len s
                      end in
      let '(rest, s) := run_calls NN B C np_sz cs s in (ms ++ rest, s)
  end.
