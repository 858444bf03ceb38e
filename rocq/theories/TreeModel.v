(** Model of the derandomised OT (/repo/emp-zk/emp-vole/preot.h) and of the punctured GGM tree shared
    by /repo/emp-zk/emp-vole/spfss_{sender,recver}.h and /repo/emp-zk/emp-vole-f2k/spfss_f2k_{sender,recver}.h.

    Simplifications:
    - Arrays are total functions nat -> N (or nat -> bool) updated pointwise; that every access stays
      inside the allocated range is a separate theorem.
    - CCRH::Hn is a fixed function [H] of each block; TwoKeyPRP::node_expand_* gives the two children
      [L x], [R x] of a node and reads its parents before writing the children (emp-ot, external).
    - Channels deliver the sent values in order (lists). *)
From Coq Require Import NArith List Bool Arith.
From Verif Require Import Word.
Import ListNotations.

Definition mem := nat -> N.
Definition mset {A} (m : nat -> A) (i : nat) (v : A) : nat -> A := fun j => if Nat.eqb j i then v else m j.

(** * preot.h *)
Section OTPre.
  Variable H : N -> N.
  (** :36-41 send_pre: pre_data[0..n) and pre_data[n..2n) *)
  Definition send_pre (n : nat) (data : mem) (delta : N) : mem :=
    fun i => if Nat.ltb i n then H (data i) else H (N.lxor (data (i - n)) delta).
  (** :43-52 recv_pre *)
  Definition recv_pre (data : mem) : mem := fun i => H (data i).
  Record ots := { o_bits : nat -> bool; o_count : nat }.
  (** loop of :60-62 / bytes of :55 and :63, from index i on *)
  Fixpoint flip_loop (len : nat) (k : nat) (b : nat -> bool) (i : nat) (bits : nat -> bool) : (nat -> bool) * list bool :=
    match len with
    | 0 => (bits, [])
    | S l => let v := xorb (b i) (bits k) in
             let '(bits', msg) := flip_loop l (S k) b (S i) (mset bits k v) in (bits', v :: msg)
    end.
  (** :59-65 choices_recver *)
  Definition choices_recver (len : nat) (b : nat -> bool) (s : ots) : ots * list bool :=
    let '(bits, msg) := flip_loop len (o_count s) b 0 (o_bits s) in
    ({| o_bits := bits; o_count := o_count s + len |}, msg).
  (** :54-57 choices_sender *)
  Fixpoint put_bits (k : nat) (msg : list bool) (bits : nat -> bool) : nat -> bool :=
    match msg with [] => bits | v :: m => put_bits (S k) m (mset bits k v) end.
  Definition choices_sender (len : nat) (msg : list bool) (s : ots) : ots :=
    {| o_bits := put_bits (o_count s) msg (o_bits s); o_count := o_count s + len |}.
  (** :67 *)
  Definition ot_reset (s : ots) : ots := {| o_bits := o_bits s; o_count := 0 |}.
  (** :69-86 send: the pads put on the channel *)
  Fixpoint send_loop (n len k i : nat) (pre : mem) (bits : nat -> bool) (m0 m1 : mem) : list (N * N) :=
    match len with
    | 0 => []
    | S l => (if negb (bits k)
              then (N.lxor (m0 i) (pre k), N.lxor (m1 i) (pre (k + n)))
              else (N.lxor (m0 i) (pre (k + n)), N.lxor (m1 i) (pre k)))
             :: send_loop n l (S k) (S i) pre bits m0 m1
    end.
  Definition ot_send (n len s : nat) (pre : mem) (st : ots) (m0 m1 : mem) : list (N * N) :=
    send_loop n len (s * len) 0 pre (o_bits st) m0 m1.
  (** :88-97 recv *)
  Fixpoint recv_loop (k i : nat) (pre : mem) (b : nat -> bool) (pads : list (N * N)) (data : mem) : mem :=
    match pads with
    | [] => data
    | pad :: ps => recv_loop (S k) (S i) pre b ps (mset data i (N.lxor (pre k) (if b i then snd pad else fst pad)))
    end.
  Definition ot_recv (len s : nat) (pre : mem) (b : nat -> bool) (pads : list (N * N)) : mem :=
    recv_loop (s * len) 0 pre b pads (fun _ => 0%N).

  (** mpfss_reg.h:85-96 / f2k mpfss.h:93-104: announce the choices of [times] executions, then reset *)
  Fixpoint choices_all_r (len : nat) (b : nat -> nat -> bool) (i times : nat) (s : ots) : ots * list (list bool) :=
    match times with
    | 0 => (s, [])
    | S t => let '(s1, msg) := choices_recver len (b i) s in
             let '(s2, msgs) := choices_all_r len b (S i) t s1 in (s2, msg :: msgs)
    end.
  Fixpoint choices_all_s (len : nat) (msgs : list (list bool)) (s : ots) : ots :=
    match msgs with [] => s | m :: ms => choices_all_s len ms (choices_sender len m s) end.
End OTPre.

(** * The GGM tree *)
Section Ggm.
  Variables L R : N -> N.
  (** node_expand_1to2(children, parent) *)
  Definition expand_1to2 (t : mem) (seed : N) : mem := mset (mset t 0 (L seed)) 1 (R seed).
  (** node_expand_2to4(&tree[ch], &tree[pa]) *)
  Definition expand_2to4 (t : mem) (ch pa : nat) : mem :=
    let a := t pa in let b := t (pa + 1) in
    mset (mset (mset (mset t ch (L a)) (ch + 1) (R a)) (ch + 2) (L b)) (ch + 3) (R b).

  (** spfss_sender.h:58-66: one layer, i = 2c from sz-2 down to 0, accumulating both OT messages *)
  Fixpoint gen_layer (c : nat) (t : mem) (m0 m1 : N) : mem * N * N :=
    match c with
    | 0 => (t, m0, m1)
    | S c' =>
        let i := 2 * c' in
        let t := expand_2to4 t (2 * i) i in
        let m0 := N.lxor (N.lxor m0 (t (2 * i))) (t (2 * i + 2)) in
        let m1 := N.lxor (N.lxor m1 (t (2 * i + 1))) (t (2 * i + 3)) in
        gen_layer c' t m0 m1
    end.
  (** spfss_sender.h:57-67 loop over h = 1 .. depth-2; [cnt] layers remain *)
  Fixpoint gen_layers (cnt h : nat) (t m0 m1 : mem) : mem * mem * mem :=
    match cnt with
    | 0 => (t, m0, m1)
    | S cnt' =>
        let '(t, a, b) := gen_layer (2 ^ h / 2) t 0%N 0%N in
        gen_layers cnt' (S h) t (mset m0 h a) (mset m1 h b)
    end.
  (** spfss_sender.h:50-68, spfss_f2k_sender.h:41-57: tree and both OT message arrays *)
  Definition ggm_gen (depth : nat) (seed : N) (t0 : mem) : mem * mem * mem :=
    let t := expand_1to2 t0 seed in
    gen_layers (depth - 2) 1 t (mset (fun _ => 0%N) 0 (t 0)) (mset (fun _ => 0%N) 0 (t 1)).

  (** spfss_recver.h:32-40 get_index *)
  Fixpoint index_loop (cnt i : nat) (b : nat -> bool) (pos : nat) : nat :=
    match cnt with
    | 0 => pos
    | S c => index_loop c (S i) b (2 * pos + (if negb (b i) then 1 else 0))
    end.
  Definition get_index (depth : nat) (b : nat -> bool) : nat := index_loop (depth - 1) 0 b 0.
  (** spfss_recver.h:90-91: xor of every second node, starting at lr *)
  Fixpoint xor_every2 (cnt i : nat) (t : mem) (acc : N) : N :=
    match cnt with 0 => acc | S c => xor_every2 c (i + 2) t (N.lxor acc (t i)) end.
  (** spfss_recver.h:95-96: expansion loop *)
  Fixpoint expand_layer (c : nat) (t : mem) : mem :=
    match c with 0 => t | S c' => expand_layer c' (expand_2to4 t (2 * (2 * c')) (2 * c')) end.
  (** spfss_recver.h:83-97 layer_recover *)
  Definition layer_recover (depth d lr fill : nat) (sum : N) (t : mem) : mem :=
    let item_n := 2 ^ d in
    let t := mset t fill (N.lxor (xor_every2 (item_n / 2) lr t 0%N) sum) in
    if Nat.eqb d (depth - 1) then t else expand_layer (item_n / 2) t.
  (** spfss_recver.h:69-81 ggm_tree_reconstruction, from layer i on *)
  Fixpoint recon_loop (cnt i depth : nat) (b : nat -> bool) (m : mem) (fill : nat) (t : mem) : mem :=
    match cnt with
    | 0 => t
    | S c =>
        let fill := 2 * fill in
        let t := mset (mset t (fill + 1) 0%N) fill 0%N in
        if negb (b (i - 1))
        then recon_loop c (S i) depth b m (fill + 1) (layer_recover depth i 0 fill (m (i - 1)) t)
        else recon_loop c (S i) depth b m fill (layer_recover depth i 1 (fill + 1) (m (i - 1)) t)
    end.
  Definition ggm_recon (depth : nat) (b : nat -> bool) (m : mem) (t0 : mem) : mem :=
    recon_loop (depth - 1) 1 depth b m 0 t0.
End Ggm.
