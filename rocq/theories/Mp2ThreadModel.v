(** The multi-threaded execution of /repo/emp-zk/emp-vole-f2k/mpfss.h by both parties, in the machine of
    MpThreadModel.v (threads, shared cells, connections, futures; the simplifications stated there apply).

    There is one parallel phase; each tree computes its check value at once, with a challenge that get_hash_block()
    takes from the hash object of the connection.  The state of that object is cell Seed[ch] of the party: [D] is the block
    returned for a state and [Nx] the state afterwards (bool_io.h:39-43; Hash::digest belongs to emp-tool).
    Data sent with send_data is not absorbed (bool_io.h:65-75); the bit buffers are taken to be empty, so flush() absorbs nothing. *)
From Coq Require Import NArith List Bool Arith.
From Verif Require Import Word GF128 BoolModel TreeModel VoleModel VoleF2kModel MpThreadModel.
Import ListNotations.

Section Mpfss2.
  Variables (L R Hs D Nx : N -> N).
  Variables (threads tree_n depth : nat).
  Variables (seed : nat -> N) (b : nat -> nat -> bool) (delta : N).
  Notation lv := (leave_n depth).
  Notation len := (depth - 1).

  (** spfss_f2k_sender.h:65-76 consistency_check_msg_gen, the pointer ggm_tree is slice s of the vector *)
  Definition p2_msg_s (ch s : nat) (c : prog) : prog :=
    Read (Snd, Seed, ch) (fun h => Write (Snd, Seed, ch) (Nx h) (
    read_from Snd Vec (s * lv) lv (fun vs =>
    Write (Snd, Buf, s) (f2_V depth (Hs (D h)) (cells vs)) c))).
  (** spfss_f2k_recver.h:88-101 *)
  Definition p2_msg_r (ch s : nat) (c : prog) : prog :=
    Read (Rcv, Seed, ch) (fun h => Write (Rcv, Seed, ch) (Nx h) (
    Write (Rcv, Chi, s) (f2_chi_alpha depth (Hs (D h)) (b s)) (
    read_from Rcv Vec (s * lv) lv (fun vs =>
    Write (Rcv, Buf, s) (f2_V depth (Hs (D h)) (cells vs)) c)))).
  (** mpfss.h:110-117 / :137-143 sender; spfss_f2k_sender.h:27-38 *)
  Definition p2_tree_s (ch s : nat) (c : prog) : prog :=
    Read (Snd, Tri, s) (fun gamma =>
    read_from Snd Vec (s * lv) lv (fun vs =>
    let '(t, m0, m1, sum) := f2_send L R depth (seed s) gamma (cells vs) in
    write_from Snd Vec (s * lv) (slice t lv) (
    p_ot_send tree_n depth ch len (s * len) 0 m0 m1 (
    Send (Snd, ch) sum (Flush (Snd, ch) (p2_msg_s ch s (Flush (Snd, ch) c))))))).
  (** mpfss.h:119-125 / :145-151 receiver; spfss_f2k_recver.h:38-56 *)
  Definition p2_tree_r (ch s : nat) (c : prog) : prog :=
    p_ot_recv ch len (s * len) 0 (b s) (fun _ => 0%N) (fun m =>
    Recv (Snd, ch) (fun share =>
    Read (Rcv, Tri, s) (fun delta2 =>
    read_from Rcv Vec (s * lv) lv (fun vs =>
    write_from Rcv Vec (s * lv) (slice (f2_recv L R depth (b s) m share delta2 (cells vs)) lv) (
    p2_msg_r ch s (Flush (Rcv, ch) c)))))).
  Definition p2_item (sd : side) (ph ch s : nat) (c : prog) : prog :=
    match sd, ph with
    | Snd, 1 => p2_tree_s ch s c
    | Rcv, 1 => p2_tree_r ch s c
    | _, _ => c
    end.
  (** mpfss.h:171-184 and :187-207 consistency_batch_check; the verdict is left in memory, error() would stop the program here *)
  Definition p2_batch_s (c : prog) : prog :=
    Read (Snd, Tri, tree_n) (fun y =>
    Recv (Rcv, 0) (fun xs =>
    read_from Snd Buf 0 tree_n (fun V =>
    Send (Snd, 0) (Hs (f2_vb tree_n delta (cells V) y xs)) (Flush (Snd, 0) c)))).
  Definition p2_batch_r (c : prog) : prog :=
    Read (Rcv, Tri, tree_n) (fun z =>
    read_from Rcv Val 0 (S tree_n) (fun vals => read_from Rcv Chi 0 tree_n (fun X =>
    Send (Rcv, 0) (f2_x_star tree_n (cells vals) (cells X)) (Flush (Rcv, 0) (
    read_from Rcv Buf 0 tree_n (fun W =>
    Recv (Snd, 0) (fun r =>
    Write (Rcv, Verdict, 0) (N.b2n (N.eqb r (Hs (f2_va tree_n (cells W) z)))) c))))))).
  (** mpfss.h:87-168 *)
  Definition p2_main (sd : side) : prog :=
    match sd with
    | Snd => p_choices_s depth tree_n 0 (Flush (Snd, 0) (p_phase threads tree_n p2_item Snd 1 (p2_batch_s Done)))
    | Rcv => p_choices_r depth b tree_n 0 0 (Flush (Rcv, 0) (p_phase threads tree_n p2_item Rcv 1 (p2_batch_r Done)))
    end.
  Definition all_threads2 (t : tid) : prog :=
    match t with
    | Main sd => p2_main sd
    | Task sd ph i => if Nat.eqb ph 1 && Nat.ltb i (threads - 1) then p_task threads tree_n p2_item sd ph i else Done
    end.
End Mpfss2.
