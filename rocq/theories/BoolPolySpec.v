(** Independent specification of the boolean relations proved by PolyProof. *)
From Coq Require Import NArith List Bool Arith.
From Verif Require Import BoolPolyModel.
Import ListNotations.

(** sum over GF(2) of c_i x_i y_i *)
Fixpoint xsum (l : list bool) : bool := match l with [] => false | b :: l => xorb b (xsum l) end.
Definition prods (x y : list bool) : list bool := map (fun p => fst p && snd p) (combine x y).
(** defect of each relation claimed by a call on plain bits: [true] = the relation is false *)
Definition defects (c : bcall bool) : list bool :=
  match c with
  | BDeg2 x y coeff =>
      [xorb (hd false coeff) (xsum (map (fun p => fst p && snd p) (combine (tl coeff) (prods x y))))]
  | BInn x y k => [xorb k (xsum (prods x y))]
  | BInnEq x y r s => [xorb (xsum (prods x y)) (xsum (prods r s))]
  | BInnEq2 x y r s rr ss => [xorb (xorb (xsum (prods x y)) (xsum (prods r s))) (rr && ss)]
  | BMulti x y r s w =>
      map (fun k => xorb (xsum (prods (map (fun xi => nth k xi false) x) y)) (nth k r false && s)) (seq 0 w)
  end.
(** cutting the sequence of relations into batches of n *)
Fixpoint chunk_fuel {A} (fuel n : nat) (l : list A) : list (list A) :=
  match fuel, l with
  | _, [] => []
  | 0, _ => [l]
  | S f, _ => firstn n l :: chunk_fuel f n (skipn n l)
  end.
Definition chunks {A} (n : nat) (l : list A) : list (list A) := chunk_fuel (length l) n l.

(** authenticated wires (prover label, committed bit) and the three views of a call *)
Definition bcall_map {V W} (f : V -> W) (c : bcall V) : bcall W :=
  match c with
  | BDeg2 x y k => BDeg2 (map f x) (map f y) k
  | BInn x y k => BInn (map f x) (map f y) k
  | BInnEq x y r s => BInnEq (map f x) (map f y) (map f r) (map f s)
  | BInnEq2 x y r s rr ss => BInnEq2 (map f x) (map f y) (map f r) (map f s) (f rr) (f ss)
  | BMulti x y r s w => BMulti (map (map f) x) (map f y) (map f r) (f s) w
  end.
Definition wires_of {W} (c : bcall W) : list W :=
  match c with
  | BDeg2 x y _ | BInn x y _ => x ++ y
  | BInnEq x y r s => x ++ y ++ r ++ s
  | BInnEq2 x y r s rr ss => x ++ y ++ r ++ s ++ [rr; ss]
  | BMulti x y r s _ => concat x ++ y ++ r ++ [s]
  end.
(** an authenticated wire (label M, committed bit b): the verifier's key is M xor b*Delta, and the
    honest prover's label carries the bit in its least significant position *)
Definition akey (d : N) (w : N * bool) : N := N.lxor (fst w) (if snd w then d else 0%N).
Definition honest_wire (w : N * bool) : Prop := N.testbit (fst w) 0 = snd w.
(** the verifier's side of an ideal correlated OT whose prover block is M *)
Definition ot_key (d M : N) : N := N.lxor M (if N.testbit M 0 then d else 0%N).
