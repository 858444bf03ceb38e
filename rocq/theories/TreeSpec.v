(** What the OT and the tree should compute, stated without the in-place arrays. *)
From Coq Require Import NArith List Bool Arith.
From Verif Require Import Word.
Import ListNotations.

(** node j of layer h of the tree with root [seed] *)
Fixpoint node (L R : N -> N) (seed : N) (h j : nat) : N :=
  match h with
  | 0 => seed
  | S h' => let p := node L R seed h' (j / 2) in if Nat.odd j then R p else L p
  end.
(** the position whose binary digits, most significant first, are the complemented choice bits *)
Fixpoint punctured (h : nat) (b : nat -> bool) : nat :=
  match h with 0 => 0 | S h' => 2 * punctured h' b + (if b h' then 0 else 1) end.
(** xor of f 0 .. f (n-1) *)
Fixpoint xsum (f : nat -> N) (n : nat) : N :=
  match n with 0 => 0%N | S n' => N.lxor (xsum f n') (f n') end.
