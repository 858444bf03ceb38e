(** Application programs over the two engines: a program issues gates, and what it does next may depend on the values it
    has opened.  Both parties run the same program, the prover on its own opened values and the verifier on the
    received ones (int_fp.h:11-65, zk_fp_exec_prover.h:26-63, zk_fp_exec_verifier.h:27-63; for bits
    zk_prover.h:54-72 and zk_verifier.h:65-82).

    Simplifications: an object is named by the number of the wire that holds it; loops and branches are unfolded into the
    tree [client], whose branches are indexed by the opened value; private inputs are part of the program (the verifier's copy
    ignores them, zk_fp_exec_verifier.h:27-29). *)
From Coq Require Import NArith List Bool Arith.
From Verif Require Import Word FpModel ArithModel BoolModel.
Import ListNotations.

Inductive client (G O : Type) : Type :=
| CEnd
| CDo (g : G) (k : client G O)                 (* a call without public result *)
| CAsk (i : nat) (k : O -> client G O).        (* reveal() of object i *)
Arguments CEnd {G O}. Arguments CDo {G O}. Arguments CAsk {G O}.

(** a machine with a step function per gate runs a program; the answer of [CAsk] is the last entry of the outputs *)
Section Machine.
  Context {G O S : Type}.
  Variables (step : S -> G -> option S) (outs : S -> list O) (ask : nat -> G) (dflt : O).
  Fixpoint c_run (s : S) (cl : client G O) : option S :=
    match cl with
    | CEnd => Some s
    | CDo g k => match step s g with None => None | Some s' => c_run s' k end
    | CAsk i k => match step s (ask i) with None => None | Some s' => c_run s' (k (last (outs s') dflt)) end
    end.
End Machine.

(** ** field elements: int_fp.h:19-64 *)
Definition fp_prog := client agate N.
Definition fp_feed (x : N) (k : fp_prog) : fp_prog := CDo (AIn x) k.                     (* IntFp(x, ALICE) :19-25 *)
Definition fp_public (a : N) (k : fp_prog) : fp_prog := CDo (APub a) k.                  (* IntFp(a, PUBLIC) *)
Definition fp_add (i j : nat) (k : fp_prog) : fp_prog := CDo (AAdd i j) k.               (* operator+ :42-46 *)
Definition fp_mul (i j : nat) (k : fp_prog) : fp_prog := CDo (AMul i j) k.               (* operator* :48-52 *)
Definition fp_mul_const (i : nat) (c : N) (k : fp_prog) : fp_prog := CDo (AMulC i c) k.  (* operator*(uint64_t) :54-58 *)
Definition fp_negate (i : nat) (k : fp_prog) : fp_prog := CDo (AMulC i (PR - 1)) k.      (* negate :60-64 *)
Definition fp_reveal (i : nat) (k : N -> fp_prog) : fp_prog := CAsk i k.                 (* reveal() :27-31 *)
Definition fp_reveal_is (i : nat) (e : N) (k : fp_prog) : fp_prog := CDo (ACheck i e) k. (* reveal(expect) :33-36 *)
Definition fp_reveal_zero (i : nat) (k : fp_prog) : fp_prog := CDo (AZero i) k.          (* reveal_zero :38-40 *)

Section FpParties.
  Variables (pub_mac : N) (threads csz psz : nat) (seeds : nat -> nat -> N) (pseeds : nat -> N).
  (** the prover's process: set up, run the program, finalize *)
  Definition ap_client (pV : nat -> N) (cl : fp_prog) : option apst :=
    match c_run (ap_step pub_mac pV threads csz psz seeds pseeds) ap_outs AReveal 0%N ap_init cl with
    | None => None | Some s => ap_final pV threads seeds pseeds s end.
  Definition av_client (vK : nat -> N) (delta : N) (words : nat -> N) (chkmsg pchkmsg : nat -> N * N) (cl : fp_prog) : option avst :=
    match c_run (av_step pub_mac vK delta threads csz psz seeds pseeds words chkmsg pchkmsg) av_outs AReveal 0%N av_init cl with
    | None => None | Some s => av_final vK delta threads seeds pseeds chkmsg pchkmsg s end.
End FpParties.

(** ** bits *)
Definition bit_prog := client gate bool.
Section BitParties.
  Variables (r0 r1 : N) (threads csz : nat) (seeds : nat -> nat -> N).
  Definition prv_client (pM : nat -> N) (cl : bit_prog) : option pst :=
    match c_run (prv_step r0 r1 pM threads csz seeds) p_outs GReveal false p_init cl with
    | None => None | Some s => prv_final pM threads seeds s end.
  Definition ver_client (vK : nat -> N) (delta : N) (bitmsg : nat -> bool) (chkmsg : nat -> N * N) (cl : bit_prog) : option vst :=
    match c_run (ver_step r0 r1 vK delta threads csz seeds bitmsg chkmsg) v_outs GReveal false v_init cl with
    | None => None | Some s => ver_final vK delta threads seeds chkmsg s end.
End BitParties.
