(** Independent specification of LowMC: matrices over GF(2) given entry by entry, an S-box
    table, and the round function. *)
From Coq Require Import List Bool Arith.
Import ListNotations.

(** published S-box (lowmc.h:84-85 [Sbox], never used by the code); p0 is the most
    significant bit of the index *)
Definition sbox_table : list nat := [0; 1; 3; 6; 7; 4; 5; 2].
Definition bits3 (p0 p1 p2 : bool) : nat := 4 * Nat.b2n p0 + 2 * Nat.b2n p1 + Nat.b2n p2.
Definition of_bits3 (x : nat) : list bool := [Nat.testbit x 2; Nat.testbit x 1; Nat.testbit x 0].
(** the S-box layer: the first [nb] triples go through the table, the rest is unchanged *)
Fixpoint sbox_layer (nb : nat) (st : list bool) : list bool :=
  match nb, st with
  | S nb', p0 :: p1 :: p2 :: st' => of_bits3 (nth (bits3 p0 p1 p2) sbox_table 0) ++ sbox_layer nb' st'
  | _, _ => st
  end.
(** GF(2) linear algebra: vector of length [rows] with entries sum_i A j i * v_i *)
Fixpoint gf2_sum (f : nat -> bool) (n : nat) : bool :=
  match n with 0 => false | S n' => xorb (gf2_sum f n') (f n') end.
Definition mat_vec (A : nat -> nat -> bool) (rows cols : nat) (v : list bool) : list bool :=
  map (fun j => gf2_sum (fun i => A j i && nth i v false) cols) (seq 0 rows).
Fixpoint vxor (a b : list bool) : list bool :=
  match a, b with x :: a', y :: b' => xorb x y :: vxor a' b' | _, _ => [] end.

(** LowMC with linear layers [L r], round constants [C r] (r = 1..nr) and key matrices [K r]
    (r = 0..nr) *)
Section Cipher.
  Variables (nb n k : nat) (L : nat -> nat -> nat -> bool) (C : nat -> list bool) (K : nat -> nat -> nat -> bool).
  Definition round_key (key : list bool) (r : nat) : list bool := mat_vec (K r) n k key.
  Fixpoint lowmc (nr : nat) (key msg : list bool) : list bool :=
    match nr with
    | 0 => vxor msg (round_key key 0)
    | S r => vxor (vxor (mat_vec (L nr) n n (sbox_layer nb (lowmc r key msg))) (C nr)) (round_key key nr)
    end.
End Cipher.
(** the matrices in the flat arrays of the code: linear layers are stored column by column,
    key matrices row by row *)
Definition lin_entry (n : nat) (lin : list bool) (r j i : nat) : bool :=
  nth ((r - 1) * n * n + i * n + j) lin false.
Definition key_entry (n k : nat) (km : list bool) (r j i : nat) : bool :=
  nth (r * n * k + j * k + i) km false.
Definition const_row (n : nat) (rc : list bool) (r : nat) : list bool := firstn n (skipn ((r - 1) * n) rc).
(** block [i] of a message *)
Definition block_of (n : nat) (msg : list bool) (i : nat) : list bool := firstn n (skipn (i * n) msg).
(** the reference ciphertext of a whole message, with the matrices in the code's arrays *)
Definition lowmc_ref (nb n k nr : nat) (lin rc km key msg : list bool) (nblocks : nat) : list bool :=
  flat_map (fun i => lowmc nb n k (lin_entry n lin) (const_row n rc) (key_entry n k km) nr key
                       (block_of n msg i)) (seq 0 nblocks).
