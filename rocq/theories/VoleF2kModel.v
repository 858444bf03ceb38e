(** Model of the vector-OLE generator over GF(2^128): /repo/emp-zk/emp-vole-f2k/{spfss_f2k_sender,
    spfss_f2k_recver,mpfss,lpn_f2k,base_svole,svole}.h.

    Simplifications as in VoleModel.v.  In addition: ios[..]->get_hash_block() of tree s is the value [r_chal rnd s] on both
    sides (spfss_f2k_sender.h:66, spfss_f2k_recver.h:89; agreement of the two digests is property C16).
    BOB holds Delta and plays the MPFSS sender (keys), ALICE the MPFSS receiver (values and macs). *)
From Coq Require Import NArith List Bool Arith.
From Verif Require Import Word GF128 BoolModel TreeModel VoleModel PoolModel VoleTripleModel.
Import ListNotations.

(** * spfss *)
(** spfss_f2k_sender.h:58-60, spfss_f2k_recver.h:50-52 *)
Fixpoint xor_loop (cnt i : nat) (t : mem) (acc : N) : N :=
  match cnt with 0 => acc | S c => xor_loop c (S i) t (N.lxor acc (t i)) end.
Section SpfssF2k.
  Variables (L R : N -> N) (depth : nat).
  Notation lv := (leave_n depth).
  (** spfss_f2k_sender.h:27-62: leaves, OT messages, secret_sum *)
  Definition f2_send (seed gamma : N) (t0 : mem) : mem * mem * mem * N :=
    let '(t, m0, m1) := ggm_gen L R depth seed t0 in
    (t, m0, m1, N.lxor (xor_loop lv 0 t 0%N) gamma).
  (** spfss_f2k_recver.h:46-56 compute *)
  Definition f2_recv (b : nat -> bool) (m : mem) (share delta2 : N) (t0 : mem) : mem :=
    let pos := get_index depth b in
    let t := mset (ggm_recon L R depth b m t0) pos 0%N in
    mset t pos (N.lxor delta2 (N.lxor (xor_loop lv 0 t 0%N) share)).
  (** spfss_f2k_sender.h:65-76, spfss_f2k_recver.h:88-101 *)
  Definition f2_V (dig : N) (t : mem) : N := gf_inn_prdt (gf_coeff_gen dig lv) (slice t lv).
  Definition f2_chi_alpha (dig : N) (b : nat -> bool) : N := nth (get_index depth b) (gf_coeff_gen dig lv) 0%N.
End SpfssF2k.

(** * mpfss.h *)
Section MpfssF2k.
  Variables (L R H Hs : N -> N) (threads tree_n depth : nat) (rnd : trand).
  Notation lv := (leave_n depth).
  (** one tree on both sides, mpfss.h:112-131 / :136-152; result: sender leaves, receiver leaves *)
  Definition f2_tree_pair (s : nat) (key mac : mem) (t0s t0r : mem) : mem * mem :=
    let '(ts, m0, m1, sum) := f2_send L R depth (r_seed rnd s) (key s) t0s in
    let pads := ot_send (ot_n tree_n depth) (depth - 1) s (send_pre H (ot_n tree_n depth) (r_ot_s rnd) (r_ot_delta rnd))
                  (ots_s tree_n depth rnd) m0 m1 in
    let m := ot_recv (depth - 1) s (recv_pre H (r_ot_r rnd)) (r_b rnd s) pads in
    (ts, f2_recv L R depth (r_b rnd s) m sum (mac s) t0r).
  (** mpfss.h:105-155 *)
  Fixpoint f2_run_trees (ts : list (nat * nat)) (key mac : mem) (Y Z V W X : mem) : mem * mem * mem * mem * mem :=
    match ts with
    | [] => (Y, Z, V, W, X)
    | (s, _) :: ts' =>
        let '(a, b) := f2_tree_pair s key mac (view Y (s * lv)) (view Z (s * lv)) in
        let d := Hs (r_chal rnd s) in
        f2_run_trees ts' key mac (store Y (s * lv) lv a) (store Z (s * lv) lv b)
          (mset V s (f2_V depth d a)) (mset W s (f2_V depth d b)) (mset X s (f2_chi_alpha depth d (r_b rnd s)))
    end.
  (** mpfss.h:188-193 receiver x_star, :197-199 va *)
  Fixpoint f2_bca (cnt i : nat) (val X : mem) (acc : N) : N :=
    match cnt with 0 => acc | S c => f2_bca c (S i) val X (N.lxor acc (gfmul (val i) (X i))) end.
  Definition f2_x_star (val X : mem) : N := N.lxor (f2_bca tree_n 0 val X 0%N) (val tree_n).
  Definition f2_va (W : mem) (z : N) : N := xor_loop tree_n 0 W z.
  (** mpfss.h:172-179 sender *)
  Definition f2_vb (delta : N) (V : mem) (y xs : N) : N := xor_loop tree_n 0 V (N.lxor (gfmul delta xs) y).
  Definition f2_mpfss (delta : N) (key val mac : mem) (Y0 Z0 : mem) : mem * mem * bool :=
    let z := fun _ => 0%N in
    let '(Y, Z, V, W, X) := f2_run_trees (tree_tasks threads tree_n) key mac Y0 Z0 z z z in
    (Y, Z, N.eqb (Hs (f2_vb delta V (key tree_n) (f2_x_star val X))) (Hs (f2_va W (mac tree_n)))).
  (** mpfss.h:66-73 set_vec_x *)
  Fixpoint f2_set_x (cnt i : nat) (val : mem) (out : mem) : mem :=
    match cnt with
    | 0 => out
    | S c => let pt := i * lv + get_index depth (r_b rnd i) in f2_set_x c (S i) val (mset out pt (N.lxor (out pt) (val i)))
    end.
End MpfssF2k.

(** * lpn_f2k.h *)
Section LpnF2k.
  Variable word : nat -> nat -> N.
  Variables (k n threads : nat).
  (** lpn_f2k.h:46-60, :62-74: words m*d .. m*d+d-1 belong to position i+m *)
  Definition f2_edges4 (i l : nat) : list nat := map (fun j => lpn_idx word k i (10 * l + j)) (seq 0 10).
  Definition f2_edges1 (i : nat) : list nat := map (fun j => lpn_idx word k i j) (seq 0 10).
  (** lpn_f2k.h:33-44 add2 / add1 on one of the arrays (add2 updates Val and Mac by the same rule) *)
  Definition f2_add (pre V : mem) (i : nat) (e : list nat) : mem :=
    fold_left (fun V x => mset V i (N.lxor (V i) (pre x))) e V.
  Definition f2_compute4 (pre V : mem) (i : nat) : mem :=
    fold_left (fun V l => f2_add pre V (i + l) (f2_edges4 i l)) (seq 0 4) V.
  Definition f2_compute1 (pre V : mem) (i : nat) : mem := f2_add pre V i (f2_edges1 i).
  (** lpn_f2k.h:76-94 task *)
  Fixpoint f2_task_loop (fuel j e : nat) (pre V : mem) : mem :=
    match fuel with
    | 0 => V
    | S f => if Nat.ltb (j + 4) e then f2_task_loop f (j + 4) e pre (f2_compute4 pre V j)
             else if Nat.ltb j e then f2_task_loop f (S j) e pre (f2_compute1 pre V j)
             else V
    end.
  (** lpn_f2k.h:96-110 compute; same ranges as lpn.h *)
  Definition f2_lpn (pre V : mem) : mem :=
    fold_left (fun V r => f2_task_loop (snd r - fst r) (fst r) (snd r) pre V) (lpn_ranges n threads) V.
End LpnF2k.

(** * base_svole.h:28-43 extend: value, mac (ALICE) and key (BOB) of element i from 128 COT blocks *)
Definition f2_base_val (cot : mem) (i : nat) : N := ch_bits (map (fun j => cot (128 * i + j)) (seq 0 128)).
Definition f2_base_mac (cot : mem) (i : nat) : N := packing (map (fun j => cot (128 * i + j)) (seq 0 128)).

(** * svole.h *)
(** :26-31 f2k_b13, f2k_b12, f2k_b11: main and set-up rows *)
Definition b13_main := lp_of 10485760 1280 425000 13.
Definition b13_pre := lp_of 470016 918 32768 9.
Definition b12_main := lp_of 10268672 2507 225000 12.
Definition b12_pre := lp_of 268800 1050 17384 8.
Definition b11_main := lp_of 10180608 4971 118000 11.
Definition b11_pre := lp_of 178944 699 17384 8.
(** extend_send / extend_recv :124-139; [x0] is the cleared or arbitrary value buffer; result: (keys, macs, values, verdict).
    The LPN reads pre + t, so position t, the mask of the MPFSS check, is used again as table entry 0. *)
Definition f2_extend (L R H Hs : N -> N) (word : nat -> nat -> N) (threads n t k log_bin : nat) (rnd : trand)
    (delta : N) (key val mac Y0 Z0 : mem) : mem * mem * mem * bool :=
  let '(Y, Z, ok) := f2_mpfss L R H Hs threads t (log_bin + 1) rnd delta key val mac Y0 Z0 in
  let X := f2_set_x (log_bin + 1) rnd t 0 val (fun _ => 0%N) in
  (f2_lpn word k n threads (view key t) Y, f2_lpn word k n threads (view mac t) Z, f2_lpn word k n threads (view val t) X, ok).

Section SVole.
  Variables (L R H Hs : N -> N) (word : nat -> nat -> N) (threads : nat).
  Variables (pre main : lpn_param) (rnd : nat -> trand) (delta : N).
  (** COT blocks delivered by ferret->rcot to ALICE and to BOB *)
  Variables (cotA cotB : mem).
  Variable garbage : nat -> mem.
  Definition f2_stage (p : lpn_param) (i : nat) (key val mac y z : mem) :=
    f2_extend L R H Hs word threads (lp_n p) (lp_t p) (lp_k p) (lp_log p) (rnd i) delta key val mac y z.
  (** setup :152-207: (keys, values, macs, verdict) *)
  Definition f2_setup : mem * mem * mem * bool :=
    let '(y, z, x, ok) := f2_stage pre 0 (f2_base_mac cotB) (f2_base_val cotA) (f2_base_mac cotA) (fun _ => 0%N) (fun _ => 0%N) in
    (y, x, z, ok).
  (** extend(x, yz) :141-150; state = (pre_yz of BOB, pre_x of ALICE, pre_yz of ALICE) *)
  Definition f2_step (i : nat) (st : mem * mem * mem) : (mem * mem * mem * bool) * (mem * mem * mem) :=
    let '(pk, pv, pm) := st in
    let '(y, z, x, ok) := f2_stage main (i + 1) pk pv pm (garbage (2 * i)) (garbage (2 * i + 1)) in
    let cp a b := memcpy a 0 b (lp_limit main) (lp_M main) in
    ((y, x, z, ok), (cp pk y, cp pv x, cp pm z)).
  Fixpoint f2_seeds (i : nat) : mem * mem * mem :=
    match i with 0 => fst f2_setup | S i' => snd (f2_step i' (f2_seeds i')) end.
  Definition f2_key (i p : nat) : N := fst (fst (fst (fst (f2_step i (f2_seeds i))))) p.
  Definition f2_val (i p : nat) : N := snd (fst (fst (fst (f2_step i (f2_seeds i))))) p.
  Definition f2_mac (i p : nat) : N := snd (fst (fst (f2_step i (f2_seeds i)))) p.
  Definition f2_ok (i : nat) : bool := snd (fst (f2_step i (f2_seeds i))).
End SVole.
