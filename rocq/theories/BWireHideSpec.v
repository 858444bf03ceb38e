(** Hiding over the channel: what a verifier program sees of a run. *)
From Coq Require Import NArith List Bool Arith.
From Verif Require Import BoolModel BoolIOModel BSessModel BSessSpec HideSpec BSessHideSpec WireModel BWireModel.
Import ListNotations.

(** Everything outside the prover's program after some number of steps: the prover's endpoint (buffered bits, hashed bytes, what it has
    read), the verifier's program and endpoint, and the bytes in flight in both directions.  This contains the verifier's view. *)
Definition outside {RP RV} (n : @net RP RV) : ep * proc RV * ep * list N * list N := (n_s n, n_v n, n_r n, n_sr n, n_rs n).
(** The random bits ([u] for wires and AND checks, [ru] for relation checks) with which the honest prover on inputs [ins], against the
    verifier program [V], can be in a situation [t] after [k] steps *)
Definition reaching (bs br reset : bool) (NB : nat) (gs gr : list bool) (r0 r1 : N) (key : nat -> N) (rkey : nat -> nat -> N) (d : N)
    (threads csz psz : nat) (G : list N -> nat -> N) (H : list N -> list N) {RV : Type} (V : proc RV) (prog : list bop)
    (k : nat) (t : ep * proc RV * ep * list N * list N) (ins : list bool) (w : list bool * list bool) : Prop :=
  length (fst w) = entropy csz (gates_of prog) /\ length (snd w) = rel_entropy psz prog /\
  exists n, nsteps bs br reset NB k
      (n_init NB gs gr (bprv_prog r0 r1 (mac key d (fst w)) threads csz psz (omac rkey d (snd w)) G H bp_init (bwith_inputs ins prog)) V) n /\
    outside n = t.
(** [E] pairs the elements of the two sets off *)
Definition one_to_one {A B : Type} (S : A -> Prop) (T : B -> Prop) (E : A -> B -> Prop) : Prop :=
  (forall a, S a -> exists b, T b /\ E a b) /\ (forall b, T b -> exists a, S a /\ E a b) /\
  (forall a b b', E a b -> E a b' -> b = b') /\ (forall a a' b, E a b -> E a' b -> a = a').
