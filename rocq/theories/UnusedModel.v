(** Model of functions of /repo/emp-zk that nothing in the library calls: the product helpers of
    extensions/ram-zk/zk-mem.h:185-274 and ro-zk-mem.h:122-179, check_MAC_valid (zk-mem.h:335-350,
    ro-zk-mem.h:229-243), the debug check of emp-vole-f2k/base_svole.h:46-64, the single-tree
    consistency_check of emp-vole/spfss_sender.h:78-104 and spfss_recver.h:99-140, sender_check_* of
    edabit/edabits.h:359-392, byte_memory_need_inplace of emp-vole-f2k/svole.h:230-233; and
    extend_inplace of svole.h:204-228, which the library calls for a single run only
    (ram-zk/ostriple.h:316).

    Simplifications: the channel is not modelled, what one side sends is the argument of the other
    side's function; error(), abort() and a failed assert end the run; hash_for_block is the function
    [H], of which only the low word is used. *)
From Coq Require Import NArith ZArith List Bool Arith.
From Verif Require Import Word FpModel GF128 BoolModel ArithModel F2kModel RamModel TreeModel VoleModel PoolModel DebugModel.
Import ListNotations.

(** * Products (zk-mem.h:185-274, ro-zk-mem.h:122-179).  As in RamModel: [n] is step (rw) or list.size() (ro), [x i] the
    element number of X[i], [w] the next free element number; the result is the gates, the number of the accumulator and
    the next free number; reading X[i] or MAC[i] with i >= n is undefined (None). *)
Section OtherProducts.
  Variables (acc_last : bool) (n : nat) (x : nat -> nat) (r : N).
  (** zk-mem.h:185-204 inn_prdt, ro-zk-mem.h:122-134 vector_inn_prdt *)
  Definition prod_one (w : nat) : option (list fgate * nat * nat) :=
    if Nat.eqb n 0 then None else
    match prod_tail n x r n 1 w (w + 1) with
    | Some (gs, a, w') => Some (FAddC (x 0) r :: gs, a, w')
    | None => None
    end.
  (** zk-mem.h:212-217, ro-zk-mem.h:142-149; the accumulator is the last operand in ro-zk-mem.h:147, the first one in
      zk-mem.h:215.  The loop bound n - 1 is a uint64_t. *)
  Fixpoint prod_loop2 (fuel i acc w : nat) : option (list fgate * nat * nat) :=
    if N.ltb (N.of_nat i) (u64_sub (N.of_nat n) 1) then
      match fuel with
      | 0 => None
      | S fuel' =>
          if Nat.leb n (i + 1) then None else
          match prod_loop2 fuel' (i + 2) (w + 2) (w + 3) with
          | Some (gs, a, w') =>
              Some ([FAddC (x i) r; FAddC (x (i + 1)) r;
                     if acc_last then FMul3 w (w + 1) acc else FMul3 acc w (w + 1)] ++ gs, a, w')
          | None => None
          end
      end
    else prod_tail n x r n i acc w.
  (** zk-mem.h:206-238 inn_prdt_bch2, ro-zk-mem.h:136-156 vector_inn_prdt_bch2 *)
  Definition prod_bch2 (w : nat) : option (list fgate * nat * nat) :=
    if Nat.eqb n 0 then None else
    match prod_loop2 n 1 w (w + 1) with
    | Some (gs, a, w') => Some (FAddC (x 0) r :: gs, a, w')
    | None => None
    end.
  (** zk-mem.h:246-252, ro-zk-mem.h:164-172 *)
  Fixpoint prod_loop3 (fuel i acc w : nat) : option (list fgate * nat * nat) :=
    if N.ltb (N.of_nat i) (u64_sub (N.of_nat n) 2) then
      match fuel with
      | 0 => None
      | S fuel' =>
          if Nat.leb n (i + 2) then None else
          match prod_loop3 fuel' (i + 3) (w + 3) (w + 4) with
          | Some (gs, a, w') =>
              Some ([FAddC (x i) r; FAddC (x (i + 1)) r; FAddC (x (i + 2)) r;
                     if acc_last then FMul4 w (w + 1) (w + 2) acc else FMul4 acc w (w + 1) (w + 2)] ++ gs, a, w')
          | None => None
          end
      end
    else prod_tail n x r n i acc w.
  (** zk-mem.h:240-274 inn_prdt_bch3, ro-zk-mem.h:158-179 vector_inn_prdt_bch3 *)
  Definition prod_bch3 (w : nat) : option (list fgate * nat * nat) :=
    if Nat.eqb n 0 then None else
    match prod_loop3 n 1 w (w + 1) with
    | Some (gs, a, w') => Some (FAddC (x 0) r :: gs, a, w')
    | None => None
    end.
End OtherProducts.
(** the three helpers, applied to elements 0..n-1 supplied by the caller: circuit and accumulator *)
Inductive helper := One | Bch2 | Bch3.
Definition helper_circuit (h : helper) (acc_last : bool) (n : nat) (r : N) : option (list fgate * nat) :=
  match (match h with One => prod_one n (fun i => i) r n | Bch2 => prod_bch2 acc_last n (fun i => i) r n
                 | Bch3 => prod_bch3 acc_last n (fun i => i) r n end) with
  | Some (gs, a, _) => Some (repeat FExt n ++ gs, a)
  | None => None
  end.

(** * Openings of GF(2^128) elements *)
(** zk-mem.h:335-350, ro-zk-mem.h:229-243 check_MAC_valid, verifier: [msg] = (X, MAC) received, [key] its own MAC argument;
    false = error() *)
Definition mac_valid (delta key : N) (msg : N * N) : bool :=
  let x := gfmul (fst msg) delta in
  let x := N.lxor x key in N.eqb x (snd msg).
(** base_svole.h:46-64 check_correctness, verifier: index printed before abort() *)
Fixpoint f2k_chk (delta : N) (i : nat) (keys : list N) (recv : list (N * N)) : option nat :=
  match keys, recv with
  | k :: ks, (v, m) :: rs =>
      if N.eqb (N.lxor (gfmul v delta) k) m then f2k_chk delta (S i) ks rs else Some i
  | _, _ => None
  end.

(** * Check of one punctured tree *)
Section OneTree.
  Variables (H : N -> N) (depth : nat).
  (** spfss_sender.h:82-84, spfss_recver.h:104-107: seed of the coefficients, from secret_sum (sender) or share (receiver) *)
  Definition one_digest (sum : N) : N := mod1 (lo64 (H sum)).
  (** spfss_sender.h:79-104: the reply to x_star; [y] is the sender's key *)
  Definition one_V (sum delta y : N) (t : mem) (xs : N) : N :=
    let tmp := mod128 (mul128 xs delta) PR in
    let tmp := sub128 PR tmp in
    let y_star := mod128 (add128 y tmp) PR in
    let V := sp_V depth (one_digest sum) t in
    let y_star := sub128 PR y_star in
    mod128 (add128 V y_star) PR.
  (** spfss_recver.h:109-116: x_star; [z] and [beta] are blocks *)
  Definition one_x (share : N) (b : nat -> bool) (z beta : N) : N :=
    let tmp := mod128 (mul128 (sp_chi_alpha depth (one_digest share) b) (hi64 beta)) PR in
    let xs := sub128 PR (hi64 z) in
    mod128 (add128 xs tmp) PR.
  (** spfss_recver.h:118-122 *)
  Definition one_W (share z : N) (t : mem) : N :=
    let W := sp_V depth (one_digest share) t in
    let tmp := sub128 PR (lo64 z) in
    mod128 (add128 W tmp) PR.
  (** spfss_recver.h:126-139: None = abort(); otherwise beta is written next to the punctured leaf *)
  Definition one_recv (share z beta : N) (b : nat -> bool) (t : mem) (V : N) : option mem :=
    if N.eqb (one_W share z t) V then Some (sp_mark depth b beta t) else None.
End OneTree.

(** * Prover's own test of a conversion *)
(** edabits.h:382-388 sender_check_int_value(Integer): std::bitset<64>::set throws for a position >= 64 *)
Fixpoint int_bits_value (i : nat) (labels : list N) : option N :=
  match labels with
  | [] => Some 0%N
  | l :: ls =>
      if Nat.leb 64 i then None else
      match int_bits_value (S i) ls with
      | Some v => Some (v + (if getLSB l then 2 ^ N.of_nat i else 0))%N
      | None => None
      end
  end.
(** edabits.h:390-392 sender_check_int_value(__uint128_t) *)
Definition int_word_value (blk : N) : N := hi64 blk.
(** edabits.h:360-367 sender_check_edabits; [prover] = ALICE; None = exception, Some false = error() *)
Definition edabit_chk (prover : bool) (labels : list N) (blk : N) : option bool :=
  if prover then
    match int_bits_value 0 labels with Some a => Some (N.eqb a (int_word_value blk)) | None => None end
  else Some true.
(** edabits.h:369-380 sender_check_conversion; None = exception or a failed assert *)
Definition conversion_chk (prover : bool) (labels : list N) (blk : N) : option bool :=
  if prover then
    match int_bits_value 0 labels with
    | None => None
    | Some a =>
        if negb (N.ltb a PR) then None else
        let b := int_word_value blk in
        if negb (N.ltb b PR) then None else Some (N.eqb a b)
    end
  else Some true.

(** * Bulk extension over GF(2^128) (svole.h:141-150, 204-233).  [item it p] is what run number it of extend() stores at
    position p (value and mac, or key); the runs of one session are numbered by [it].  extend() keeps the last M results as
    seeds of the next run. *)
Section Bulk.
  Context {A : Type}.
  Variable item : nat -> nat -> A.
  Variables (n M : nat).
  (** extend_initialization, svole.h:117-118: M = n - buf_sz *)
  Definition bulk_limit : Z := (Z.of_nat n - Z.of_nat M)%Z.
  (** svole.h:211-226: the array(s) and the number of the next run *)
  Fixpoint bulk_loop (cnt it : nat) (data : arr A) (pt : Z) : nat * arr A :=
    match cnt with
    | 0 => (it, data)
    | S c => bulk_loop c (S it) (memcpy data (Z.to_nat pt) (item it) 0 n) (pt + bulk_limit)
    end.
  (** svole.h:204-228; None = error() *)
  Definition bulk_extend (space : Z) (it : nat) (data : arr A) : option (nat * arr A * Z) :=
    if (space <? Z.of_nat n)%Z then None else
    let tp := (space - Z.of_nat M)%Z in
    if negb (Z.rem tp bulk_limit =? 0)%Z then None else
    Some (bulk_loop (Z.to_nat (Z.quot tp bulk_limit)) it data 0, tp).
  (** svole.h:230-233 *)
  Definition bulk_need (need : Z) : Z := (Z.quot (need - 1) bulk_limit * bulk_limit + Z.of_nat n)%Z.
End Bulk.
