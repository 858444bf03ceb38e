(** Model of the vector-OLE generator over F_p: /repo/emp-zk/emp-vole/{cope,base_svole,spfss_sender,
    spfss_recver,mpfss_reg,lpn,vole_triple}.h.

    Simplifications:
    - Arrays are functions nat -> N.  Each GGM tree works on its own array whose first leave_n cells
      are then stored in the slice of the sparse vector that the C++ lets the tree use in place.
    - PRG outputs, seeds and choice bits are arbitrary functions; in the C++ the choice bits
      (spfss_recver.h:24 `b = new bool[depth - 1]`) are never assigned, so they are whatever the
      allocator returns.
    - Hash and CCRH are arbitrary functions; OTCO gives the receiver exactly the key selected by its bit.
    - Thread tasks run one after the other here (they touch disjoint cells). *)
From Coq Require Import NArith List Bool Arith.
From Verif Require Import Word FpModel TreeModel.
Import ListNotations.

(** * cope.h *)
Section Cope.
  Variable m : nat.                       (* MERSENNE_PRIME_EXP *)
  Variables w0r w1r : nat -> nat -> N.    (* PRG outputs G0[i], G1[i] (64-bit words), item j *)
  Variable delta : N.
  (** cope.h:163-170 delta64_to_bool *)
  Definition dbit (i : nat) : bool := N.testbit (lo64 delta) (N.of_nat i).
  (** keys obtained from OTCO: G0 of the sender is G_{delta_bool[i]} of the receiver *)
  Definition wsr (i j : nat) : N := if dbit i then w1r i j else w0r i j.
  (** cope.h:193-203 prm2pr on words, one position *)
  Fixpoint prm2pr_loop (cnt i : nat) (a : nat -> N) (ret : N) : N :=
    match cnt with
    | 0 => ret
    | S c => let tmp := mod128 (N.shiftl (a i) (N.of_nat i) mod W128)%N PR in
             prm2pr_loop c (S i) a (add_mod (lo64 ret) (lo64 tmp))
    end.
  Definition prm2pr (a : nat -> N) : N := prm2pr_loop m 0 a 0%N.
  (** cope.h:139-161 receiver batch: correction word and output of item j *)
  Definition cope_tau (u : nat -> N) (i j : nat) : N :=
    let w0 := mod1 (w0r i j) in
    let w1 := add_mod (mod1 (w1r i j)) (u j) in
    add_mod w0 (sub64 PR w1).
  Definition cope_recv (j : nat) : N := prm2pr (fun i => mod1 (w0r i j)).
  (** cope.h:91-115 sender batch, on received words [tau] *)
  Definition cope_send (tau : nat -> nat -> N) (j : nat) : N :=
    prm2pr (fun i => add_mod (mod1 (wsr i j)) (if dbit i then tau i j else 0%N)).

  (** single-element variants cope.h:71-88 (sender), :118-136 (receiver) and :172-180; here the PRG words are
      128-bit blocks *)
  Fixpoint prm2pr128_loop (cnt i : nat) (a : nat -> N) (ret : N) : N :=
    match cnt with
    | 0 => ret
    | S c => let tmp := mod128 (N.shiftl (a i) (N.of_nat i) mod W128)%N PR in
             prm2pr128_loop c (S i) a (mod128 (add128 ret tmp) PR)
    end.
  Definition cope_tau1 (u : N) (i : nat) : N :=
    let w1 := mod128 (add128 (extract_fp (w1r i 0)) u) PR in
    mod128 (add128 (extract_fp (w0r i 0)) (sub128 PR w1)) PR.
  Definition cope_recv1 : N := prm2pr128_loop m 0 (fun i => extract_fp (w0r i 0)) 0%N.
  Definition cope_send1 (tau : nat -> N) : N :=
    prm2pr128_loop m 0 (fun i => mod128 (add128 (extract_fp (wsr i 0)) (if dbit i then tau i else 0%N)) PR) 0%N.
End Cope.

(** * base_svole.h *)
Definition slice (f : nat -> N) (n : nat) : list N := map f (seq 0 n).
(** base_svole.h:83-96 recver_check: the two words sent *)
Definition base_recver_check (size : nat) (share x : nat -> N) (c a seed : N) : N * N :=
  let chi := uni_hash_coeff_gen seed size in
  (add_mod (vector_inn_prdt_sum_red (slice (fun j => lo64 (share j)) size) chi) (lo64 c),
   add_mod (vector_inn_prdt_sum_red (slice x size) chi) a).
(** base_svole.h:61-80 sender_check; [false] = abort *)
Definition base_sender_check (size : nat) (delta : N) (share : nat -> N) (b seed : N) (xz : N * N) : bool :=
  let chi := uni_hash_coeff_gen seed size in
  let y := add_mod (vector_inn_prdt_sum_red (slice (fun j => lo64 (share j)) size) chi) (lo64 b) in
  N.eqb (add_mod y (mult_mod (snd xz) (lo64 delta))) (fst xz).
Section Base.
  Variables (size : nat) (w0r w1r : nat -> nat -> N) (w0c w1c : nat -> nat -> N) (delta : N) (xr : nat -> N) (seedr : N).
  (** base_svole.h:35-58: receiver's values are reduced words; [w0c],[w1c] are the PRG words of the extra item *)
  Definition base_x (j : nat) : N := mod1 (xr j).
  Definition base_mac (j : nat) : N := mkblock (base_x j) (lo64 (cope_recv 61 w0r j)).
  Definition base_key (tau : nat -> nat -> N) (j : nat) : N := cope_send 61 w0r w1r delta tau j.
  Definition base_seed : N := mod1 seedr.
  Definition base_xz : N * N :=
    base_recver_check size (cope_recv 61 w0r) base_x (cope_recv 61 w0c 0) (base_x size) base_seed.
  (** honest execution: sender's verdict *)
  Definition base_ok : bool :=
    base_sender_check size delta (base_key (cope_tau w0r w1r base_x))
      (cope_send 61 w0c w1c delta (cope_tau w0c w1c (fun _ => base_x size)) 0) base_seed base_xz.
End Base.

(** * spfss_sender.h / spfss_recver.h: leaves *)
(** spfss_sender.h:70-73, spfss_recver.h:59-62 *)
Fixpoint leaf_loop (cnt i : nat) (t : mem) (acc : N) : mem * N :=
  match cnt with
  | 0 => (t, acc)
  | S c => let v := extract_fp (t i) in leaf_loop c (S i) (mset t i v) (add_mod acc (lo64 v))
  end.
Section Spfss.
  Variables (L R : N -> N) (depth : nat).
  Definition leave_n : nat := 2 ^ (depth - 1).
  (** spfss_sender.h:36-40, :50-76: leaves, OT messages, secret_sum *)
  Definition sp_send (seed gamma : N) (t0 : mem) : mem * mem * mem * N :=
    let '(t, m0, m1) := ggm_gen L R depth seed t0 in
    let '(t, s) := leaf_loop leave_n 0 t 0%N in
    (t, m0, m1, add_mod (lo64 gamma) (sub64 PR s)).
  (** spfss_recver.h:52-67 compute *)
  Definition sp_recv (b : nat -> bool) (m : mem) (share delta2 : N) (t0 : mem) : mem :=
    let t := ggm_recon L R depth b m t0 in
    let pos := get_index depth b in
    let '(t, s) := leaf_loop leave_n 0 (mset t pos 0%N) 0%N in
    mset t pos (add_mod (lo64 delta2) (sub64 PR (add_mod share s))).
  (** spfss_sender.h:108-119, spfss_recver.h:142-160 consistency_check_msg_gen; [dig] = mod of the hashed seed *)
  Definition sp_V (dig : N) (t : mem) : N :=
    vector_inn_prdt_sum_red (uni_hash_coeff_gen dig leave_n) (slice (fun i => lo64 (t i)) leave_n).
  Definition sp_chi_alpha (dig : N) (b : nat -> bool) : N := nth (get_index depth b) (uni_hash_coeff_gen dig leave_n) 0%N.
  (** spfss_recver.h:155-157 *)
  Definition sp_mark (b : nat -> bool) (beta : N) (t : mem) : mem :=
    let pos := get_index depth b in mset t pos (N.lxor (mkblock (hi64 beta) 0) (t pos)).
End Spfss.

(** * mpfss_reg.h *)
(** mpfss_reg.h:98-133: (tree, channel) pairs in the order of the code; also :141-169 (tree, seed index) *)
Definition tree_tasks (threads tree_n : nat) : list (nat * nat) :=
  let width := tree_n / threads in
  flat_map (fun i => map (fun j => (j, (i * width) / width)) (seq (i * width) width)) (seq 0 (threads - 1))
  ++ map (fun j => (j, threads - 1)) (seq ((threads - 1) * width) (tree_n - (threads - 1) * width)).
(** the slice sparse_vector + tree * leave_n *)
Definition view (v : mem) (base : nat) : mem := fun i => v (base + i).
Definition store (v : mem) (base len : nat) (t : mem) : mem :=
  fun i => if (base <=? i) && (i <? base + len) then t (i - base) else v i.

Record trand := { r_seed : nat -> N;            (* root of each tree (sender) *)
                  r_b : nat -> nat -> bool;     (* receiver's choice bits *)
                  r_ot_s : mem;                 (* COT data of the sender (verifier of the OT) *)
                  r_ot_r : mem; r_ot_b : nat -> bool;  (* COT data and bits of the receiver *)
                  r_ot_delta : N;
                  r_chal : nat -> N }.          (* seed_expand mpfss_reg.h:188-199: per-thread challenge blocks *)
Section Mpfss.
  Variables (L R H Hs : N -> N) (threads tree_n depth : nat) (rnd : trand).
  Notation lv := (leave_n depth).
  Definition ot_n : nat := (depth - 1) * tree_n.
  Definition digest_of (c : nat) : N := mod1 (lo64 (Hs (r_chal rnd c))).
  Definition ots_r0 : ots := {| o_bits := r_ot_b rnd; o_count := 0 |}.
  Definition ots_s0 : ots := {| o_bits := fun _ => false; o_count := 0 |}.
  (** mpfss_reg.h:85-96 *)
  Definition ots_r : ots := ot_reset (fst (choices_all_r (depth - 1) (r_b rnd) 0 tree_n ots_r0)).
  Definition ots_s : ots :=
    ot_reset (choices_all_s (depth - 1) (snd (choices_all_r (depth - 1) (r_b rnd) 0 tree_n ots_r0)) ots_s0).
  (** one tree on both sides, mpfss_reg.h:103-115; result: sender leaves, receiver leaves *)
  Definition tree_pair (s : nat) (key mac : mem) (t0s t0r : mem) : mem * mem :=
    let '(ts, m0, m1, sum) := sp_send L R depth (r_seed rnd s) (key s) t0s in
    let pads := ot_send ot_n (depth - 1) s (send_pre H ot_n (r_ot_s rnd) (r_ot_delta rnd)) ots_s m0 m1 in
    let m := ot_recv (depth - 1) s (recv_pre H (r_ot_r rnd)) (r_b rnd s) pads in
    (ts, sp_recv L R depth (r_b rnd s) m sum (mac s) t0r).
  Fixpoint run_trees (ts : list (nat * nat)) (key mac : mem) (Y Z : mem) : mem * mem :=
    match ts with
    | [] => (Y, Z)
    | (s, _) :: ts' =>
        let '(a, b) := tree_pair s key mac (view Y (s * lv)) (view Z (s * lv)) in
        run_trees ts' key mac (store Y (s * lv) lv a) (store Z (s * lv) lv b)
    end.
  (** mpfss_reg.h:137-173 challenge phase: V and W of each tree, then the receiver's noise values are written *)
  Fixpoint run_msgs (ts : list (nat * nat)) (mac : mem) (Y Z : mem) (V W X : mem) : mem * mem * mem * mem :=
    match ts with
    | [] => (Z, V, W, X)
    | (s, c) :: ts' =>
        let d := digest_of c in
        run_msgs ts' mac Y (store Z (s * lv) lv (sp_mark depth (r_b rnd s) (mac s) (view Z (s * lv))))
          (mset V s (sp_V depth d (view Y (s * lv)))) (mset W s (sp_V depth d (view Z (s * lv))))
          (mset X s (sp_chi_alpha depth d (r_b rnd s)))
    end.
  (** mpfss_reg.h:216-230 receiver: x_star and va *)
  Fixpoint bca_loop (cnt i : nat) (mac X : mem) (acc : N) : N :=
    match cnt with 0 => acc | S c => bca_loop c (S i) mac X (add_mod acc (mult_mod (hi64 (mac i)) (lo64 (X i)))) end.
  Definition x_star (mac X : mem) (z : N) : N := add_mod (hi64 z) (sub64 PR (bca_loop tree_n 0 mac X 0%N)).
  Fixpoint va_loop (cnt i : nat) (W : mem) (acc : N) : N :=
    match cnt with 0 => acc | S c => va_loop c (S i) W (lo64 (mod128 (add128 acc (W i)) PR)) end.
  Definition va (W : mem) (z : N) : N := va_loop tree_n 0 W (sub64 PR (lo64 z)).
  (** mpfss_reg.h:201-209 sender *)
  Fixpoint vb_loop (cnt i : nat) (V : mem) (acc : N) : N :=
    match cnt with 0 => acc | S c => vb_loop c (S i) V (add_mod acc (lo64 (V i))) end.
  Definition vb (delta : N) (V : mem) (y xs : N) : N :=
    let tmp := add_mod (lo64 y) (mult_mod (lo64 delta) xs) in
    vb_loop tree_n 0 V (lo64 (sub128 PR tmp)).
  (** whole mpfss of honest parties: sparse vectors and the receiver's verdict *)
  Definition mpfss_pair (delta : N) (key mac : mem) (Y0 Z0 : mem) : mem * mem * bool :=
    let ts := tree_tasks threads tree_n in
    let '(Y, Z) := run_trees ts key mac Y0 Z0 in
    let '(Z', V, W, X) := run_msgs ts mac Y Z (fun _ => 0%N) (fun _ => 0%N) (fun _ => 0%N) in
    let xs := x_star mac X (mac tree_n) in
    (Y, Z', N.eqb (Hs (vb delta V (key tree_n) xs)) (Hs (va W (mac tree_n)))).
End Mpfss.

(** * lpn.h *)
(** lpn.h:28-32 k_mask (uint32_t); 32 iterations suffice *)
Fixpoint kmask_loop (fuel : nat) (k mask : N) : N :=
  match fuel with
  | 0 => mask
  | S f => if (mask <? k)%N then kmask_loop f k (N.lor ((2 * mask) mod 2 ^ 32)%N 1%N) else mask
  end.
Definition k_mask (k : nat) : N := kmask_loop 32 (N.of_nat k) 1%N.
Section Lpn.
  (** word w (32 bits) of the blocks prp(makeBlock(i,0)), prp(makeBlock(i,1)), ... *)
  Variable word : nat -> nat -> N.
  Variables (k n threads : nat).
  (** lpn.h:118-121, :132-135 *)
  Definition lpn_idx (i w : nat) : nat :=
    let r := N.to_nat (N.land (word i w) (k_mask k)) in if Nat.leb k r then r - k else r.
  (** indices used for position i+l of a 4-block starting at i (lpn.h:60-76 and :89-105 read p++ four times per j: word 4j+l) *)
  Definition edges4 (i l : nat) : list nat := map (fun j => lpn_idx i (4 * j + l)) (seq 0 10).
  Definition edges1 (i : nat) : list nat := map (fun j => lpn_idx i j) (seq 0 10).
  (** lpn.h:44-52 add1_single *)
  Definition sum64 (acc : N) (l : list N) : N := fold_left add64 l acc.
  Definition add1_single (preK K : mem) (i : nat) (e : list nat) : mem :=
    let a := mod1 (sum64 (lo64 (K i)) (map (fun x => lo64 (preK x)) (firstn 5 e))) in
    mset K i (mod1 (sum64 a (map (fun x => lo64 (preK x)) (skipn 5 e)))).
  (** lpn.h:83-110 add1, lane l *)
  Definition add1_lane (preK K : mem) (i : nat) (e : list nat) : mem :=
    let a := mod1 (sum64 0%N (map (fun x => lo64 (preK x)) (firstn 5 e))) in
    let a := sum64 a (map (fun x => lo64 (preK x)) (skipn 5 e)) in
    mset K i (mod1 (lo64 (add128 (K i) a))).
  (** lpn.h:35-43 add2_single and :54-81 add2, lane l *)
  Definition vsum (acc : N) (l : list N) : N := fold_left mm_add_epi64 l acc.
  Definition add2_any (preM M : mem) (i : nat) (e : list nat) : mem :=
    let a := vec_mod (vsum (M i) (map preM (firstn 5 e))) in
    mset M i (vec_mod (vsum a (map preM (skipn 5 e)))).
  (** lpn.h:112-123 __compute4, :125-137 __compute1; [party1] = sender.  The four lanes of a 4-block are
      written after all reads; each lane only reads its own cell, so they are done in turn. *)
  Definition compute4 (party1 : bool) (pre : mem) (V : mem) (i : nat) : mem :=
    fold_left (fun V l => (if party1 then add1_lane else add2_any) pre V (i + l) (edges4 i l)) (seq 0 4) V.
  Definition compute1 (party1 : bool) (pre : mem) (V : mem) (i : nat) : mem :=
    (if party1 then add1_single else add2_any) pre V i (edges1 i).
  (** lpn.h:139-163 task *)
  Fixpoint task_loop (fuel j e : nat) (party1 : bool) (pre V : mem) : mem :=
    match fuel with
    | 0 => V
    | S f => if Nat.ltb (j + 4) e then task_loop f (j + 4) e party1 pre (compute4 party1 pre V j)
             else if Nat.ltb j e then task_loop f (S j) e party1 pre (compute1 party1 pre V j)
             else V
    end.
  Definition task (st e : nat) := task_loop (e - st) st e.
  (** lpn.h:165-179 compute: the ranges of the worker tasks and of the main thread *)
  Definition lpn_ranges : list (nat * nat) :=
    let width := n / (threads + 1) in
    map (fun i => (i * width, Nat.min ((i + 1) * width) n)) (seq 0 threads)
    ++ [(threads * width, Nat.min ((threads + 1) * width) n)].
  Definition run_ranges (rs : list (nat * nat)) (party1 : bool) (pre V : mem) : mem :=
    fold_left (fun V r => task (fst r) (snd r) party1 pre V) rs V.
  Definition lpn_compute (party1 : bool) (pre V : mem) : mem := run_ranges lpn_ranges party1 pre V.
End Lpn.

(** * vole_triple.h:122-135 extend_send / extend_recv on both sides; [pre + tree_n + 1] feeds the LPN *)
Definition vole_extend (L R H Hs : N -> N) (word : nat -> nat -> N) (threads n t k log_bin : nat) (rnd : trand)
    (delta : N) (key mac Y0 Z0 : mem) : mem * mem * bool :=
  let '(Y, Z, ok) := mpfss_pair L R H Hs threads t (log_bin + 1) rnd delta key mac Y0 Z0 in
  (lpn_compute word k n threads true (view key (t + 1)) Y, lpn_compute word k n threads false (view mac (t + 1)) Z, ok).
