(** What the functions of UnusedModel should compute, in plain arithmetic. *)
From Coq Require Import NArith List Bool Arith.
From Verif Require Import UnusedModel ArithSpec TreeSpec VoleSpec.
Import ListNotations.
(** sum of e^(i+1) * t i over the first cnt leaves *)
Definition power_sum (cnt : nat) (e : N) (t : nat -> N) : N := nsum (map (fun i => (e ^ (1 + N.of_nat i) * t i)%N) (seq 0 cnt)).
(** the receiver's leaf j: the sender's one, plus x * d at the punctured position; x is the value part of beta *)
Definition right_leaf (depth : nat) (d beta : N) (b : nat -> bool) (ts : nat -> N) (j : nat) : N :=
  if j =? punctured (depth - 1) b then ((ts j + xval beta * d) mod prm)%N else ts j.
(** number whose binary digits, least significant first, are the low bits of the labels *)
Definition digits (labels : list N) : N := fold_right (fun l v => ((if N.testbit l 0 then 1 else 0) + 2 * v)%N) 0%N labels.
(** shortest list on which a helper stays inside the list, new factors per batched product, and number of products of two
    factors (the only ones covered by the deferred multiplication check) for n elements *)
Definition least (h : helper) : nat := match h with Bch3 => 2 | _ => 1 end.
Definition batch (h : helper) : nat := match h with One => 1 | Bch2 => 2 | Bch3 => 3 end.
Definition pairs (h : helper) (n : nat) : nat := match h with One => n - 1 | Bch2 => (n - 1) mod 2 | Bch3 => (n - 1) mod 3 end.
