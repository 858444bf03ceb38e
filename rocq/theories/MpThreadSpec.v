(** What "independent of the schedule" means for the threads of both parties (C52). *)
From Coq Require Import NArith List Bool Arith.
From Verif Require Import Word TreeModel VoleModel MpThreadModel.
Import ListNotations.

(** two threads are about to use the same thing in a way that C++ does not order: one cell, with a write
    among them; or one end of a connection, or one future *)
Definition clash (p q : prog) : Prop :=
  match p, q with
  | Read l _, Write l' _ _ | Write l _ _, Read l' _ | Write l _ _, Write l' _ _ => l = l'
  | Send c _ _, Send c' _ _ | Send c _ _, Flush c' _ | Flush c _, Send c' _ _ | Flush c _, Flush c' _ => c = c'
  | Recv c _, Recv c' _ => c = c'
  | Signal t _, Signal t' _ | Await t _, Await t' _ => t = t'
  | _, _ => False
  end.
Definition race (ps : tid -> prog) : Prop := exists t t', t <> t' /\ clash (ps t) (ps t').
(** nothing is left in an output buffer or on the network, and every future has been collected *)
Definition clean (s : st) : Prop := (forall c, s_out s c = [] /\ s_net s c = []) /\ forall t, s_tok s t = 0.

(** no reachable state has a race or is stuck, every execution has the same length, and every complete
    execution ends clean, in a memory with property [Q] *)
Record pair_independent (cap : nat) (c0 : conf) (Q : (loc -> N) -> Prop) : Prop := {
  pi_race : forall n c, steps cap n c0 c -> ~ race (snd c);
  pi_live : exists T, forall n c, steps cap n c0 c ->
              n <= T /\ (n = T <-> all_done (snd c)) /\ (n < T -> exists t c', step cap t c c');
  pi_result : forall n c, steps cap n c0 c -> all_done (snd c) -> clean (fst c) /\ Q (s_mem (fst c)) }.

(** memory before mpfss(): the arrays of OTPre after send_pre/recv_pre, and triple_yz; all other cells are
    arbitrary *)
Record before (H : N -> N) (tree_n depth : nat) (rnd : trand) (key mac : mem) (m : loc -> N) : Prop := {
  b_bits : forall i, i < ot_n tree_n depth -> m (Rcv, Bits, i) = N.b2n (r_ot_b rnd i);
  b_pre_s : forall i, i < 2 * ot_n tree_n depth -> m (Snd, Pre, i) = send_pre H (ot_n tree_n depth) (r_ot_s rnd) (r_ot_delta rnd) i;
  b_pre_r : forall i, i < ot_n tree_n depth -> m (Rcv, Pre, i) = recv_pre H (r_ot_r rnd) i;
  b_key : forall i, i <= tree_n -> m (Snd, Tri, i) = key i;
  b_mac : forall i, i <= tree_n -> m (Rcv, Tri, i) = mac i }.
Definition start (m : loc -> N) : st := {| s_mem := m; s_out := fun _ => []; s_net := fun _ => []; s_tok := fun _ => 0 |}.
