(** What the GF(2^128) vector-OLE generator should compute. *)
From Coq Require Import NArith List Bool Arith.
From Verif Require Import GF128.
Import ListNotations.
(** mac = key + value * Delta *)
Definition share2 (d val mac key : N) : Prop := mac = N.lxor key (gfmul val d).
Definition corr2 (d : N) (cnt : nat) (key val mac : nat -> N) : Prop := forall i, i < cnt -> share2 d (val i) (mac i) (key i).
(** sum over a list of table entries *)
Fixpoint xorl (f : nat -> N) (l : list nat) : N := match l with [] => 0%N | x :: l' => N.lxor (f x) (xorl f l') end.
