(** Hiding for sessions with gates and relations: the prover's randomness, the verifier's view, and the honest sessions.

    As in HideSpec.v the verifier's half of the correlations (keys and Delta) is fixed, and the prover's half is a list of random bits:
    [u] for wires and AND checks, [ru] (128 per relation check, polynomial.h:53,81) for the masks of the relation checks. *)
From Coq Require Import NArith List Bool Arith.
From Verif Require Import Word BoolModel BoolSpec HideSpec BoolPolyModel BSessModel BSessSpec GameSpec.
Import ListNotations.

(** the 128 blocks of relation check k: M = K xor u*Delta *)
Definition omac (rkey : nat -> nat -> N) (d : N) (ru : list bool) (k : nat) : list N :=
  map (fun j => N.lxor (rkey k j) (if nth (128 * k + j) ru false then d else 0%N)) (seq 0 128).
(** everything the verifier receives: sent bits, AND check messages, hashed blocks, and the two blocks of every relation check
    (polynomial.h:69-70) *)
Definition bview_t : Type := (view_t * list (N * N))%type.
Definition bview (p : bprv) : bview_t := (view (bp_gates p), pp_msgs (bp_poly p)).
Definition rel_entropy (psz : nat) (prog : list bop) : nat := 128 * num_checks psz (count_rel prog).
Definition valid_rkeys (rkey : nat -> nat -> N) : Prop := forall k j, N.testbit (rkey k j) 0 = false.
(** [p] is the final state of the honest prover on inputs [ins] and random bits [u], [ru], when the challenges are whatever functions [A]
    and [R] of everything sent in the session *)
Definition bhonest (r0 r1 : N) (key : nat -> N) (rkey : nat -> nat -> N) (d : N) (threads csz psz : nat)
    (A : bview_t -> nat -> nat -> N) (R : bview_t -> nat -> N) (prog : list bop) (ins u ru : list bool) (p : bprv) : Prop :=
  length u = entropy csz (gates_of prog) /\ length ru = rel_entropy psz prog /\
  bp_exec r0 r1 (mac key d u) threads csz psz (A (bview p)) (R (bview p)) (omac rkey d ru) (bwith_inputs ins prog) = Some p.
