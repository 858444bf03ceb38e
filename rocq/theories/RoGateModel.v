(** Gate-level model of the read-only memory ROZKRAM, /repo/emp-zk/extensions/ram-zk/ro-zk-mem.h: init(), read() and
    check() as the gates they add to a boolean session, and the packed labels handed to the set-equality test.

    Simplifications: those of RamGateModel.v; one period is modelled, from init() or the last check() to the next check()
    (automatic after 8 * data.size() reads, ro-zk-mem.h:59-60, or called by the program).  Gates of earlier periods are
    part of the [QGates] between the calls; check() keeps the records of init() (ro-zk-mem.h:117-118).  The comparison of
    an empty list (`list.size() - 1` wraps) is excluded by the theorems. *)
From Coq Require Import NArith List Bool Arith.
From Verif Require Import Word GF128 GfmulModel BoolModel F2kModel RamModel RamGateModel.
Import ListNotations.

(** the wires of one record *)
Record qrec := { q_idx : list nat; q_val : list nat }.
Inductive qop : Type :=
| QGates (gs : list gate)
| QRead (idx : list nat) (v : N).     (* [v]: the word the prover feeds *)
Record qst := { q_gates : list gate; q_recs : list qrec }.
Section Calls.
  Variables (index_sz val_sz : nat).
  Definition q_next (s : qst) : nat := nwires (q_gates s).
  (** ro-zk-mem.h:32-43: the index is a public constant of index_sz + 1 bits, the value the caller's Integer *)
  Definition q_put (s : qst) (iv : nat * list nat) : qst :=
    {| q_gates := q_gates s ++ map GPub (int_bits (index_sz + 1) (N.of_nat (fst iv)));
       q_recs := q_recs s ++ [{| q_idx := seq (q_next s) (index_sz + 1); q_val := snd iv |}] |}.
  Definition q_init (pre : list gate) (data : list (list nat)) : qst :=
    fold_left q_put (combine (seq 0 (length data)) data) {| q_gates := pre; q_recs := [] |}.
  (** ro-zk-mem.h:45-62 *)
  Definition q_do (s : qst) (o : qop) : qst :=
    match o with
    | QGates gs => {| q_gates := q_gates s ++ gs; q_recs := q_recs s |}
    | QRead idx v => {| q_gates := q_gates s ++ map GIn (int_bits val_sz v);
                        q_recs := q_recs s ++ [{| q_idx := idx; q_val := seq (q_next s) val_sz |}] |}
    end.
  Definition q_run (pre : list gate) (data : list (list nat)) (os : list qop) : qst := fold_left q_do os (q_init pre data).

  (** ro-zk-mem.h:86-99: the claimed sorted list of (index, value) *)
  Definition q_feed (e : N * N) : list gate := map GIn (int_bits val_sz (snd e) ++ int_bits (index_sz + 1) (fst e)).
  Definition q_fed (w : nat) : qrec := {| q_val := seq w val_sz; q_idx := seq (w + val_sz) (index_sz + 1) |}.
  Definition q_width : nat := val_sz + (index_sz + 1).
  Definition q_sorted (w n : nat) : list qrec := map (fun i => q_fed (w + i * q_width)) (seq 0 n).
  (** ro-zk-mem.h:102-108: one bit per pair of neighbours, each revealed *)
  Definition b_pair (a b : qrec) : build nat :=
    l <- b_lt (q_idx a) (q_idx b);;      (* !(a.geq(b)) *)
    ei <- b_eq (q_idx a) (q_idx b);;
    ev <- b_eq (q_val a) (q_val b);;
    e <- b_gate (GAnd ei ev);;
    b_or l e.
  Fixpoint q_order (w : nat) (l : list qrec) : list gate :=
    match l with
    | a :: (b :: _) as r =>
        let (gs, eq) := b_pair a b w in gs ++ [GReveal eq] ++ q_order (w + nwires gs) r
    | _ => []
    end.
  (** ro-zk-mem.h:76-112, the boolean part of check(), then [post]: whatever the session does afterwards *)
  Definition q_check (pre : list gate) (data : list (list nat)) (os : list qop) (claims : list (N * N)) (post : list gate) : list gate :=
    let s := q_run pre data os in
    let sorted := q_sorted (q_next s) (length (q_recs s)) in
    let feeds := flat_map q_feed claims in
    q_gates s ++ feeds ++ q_order (q_next s + nwires feeds) sorted ++ post.
  (** ro-zk-mem.h:101, 107-111: position of the first of these bits; the verifier goes on if all [n] are true *)
  Definition q_reveal (pre : list gate) (data : list (list nat)) (os : list qop) : nat :=
    length (filter (fun g => match g with GReveal _ => true | _ => false end) (q_gates (q_run pre data os))).
  Definition q_verdict (from n : nat) (outs : list bool) : bool := forallb (fun i => nth (from + i) outs false) (seq 0 n).
  Definition q_lists (pre : list gate) (data : list (list nat)) (os : list qop) : list qrec * list qrec :=
    let s := q_run pre data os in (q_sorted (q_next s) (length (q_recs s)), q_recs s).
  (** ro-zk-mem.h:64-70 *)
  Definition q_pack (labels : list N) (m : qrec) : N :=
    ro_pack_mac index_sz val_sz (map (wire labels) (q_idx m)) (map (wire labels) (q_val m)).
  (** the elements of the set-equality test: sorted list, then recorded list (ro-zk-mem.h:115) *)
  Definition q_macs (labels : list N) (pre : list gate) (data : list (list nat)) (os : list qop) (i : nat) : N :=
    nth i (map (q_pack labels) (fst (q_lists pre data os) ++ snd (q_lists pre data os))) 0%N.
End Calls.
