(** What the vector-OLE generator should compute, stated with plain modular arithmetic. *)
From Coq Require Import NArith List Bool Arith.
From Verif Require Import Word ArithSpec TreeModel.
Import ListNotations.

Fixpoint nsum (l : list N) : N := match l with [] => 0%N | a :: l' => (a + nsum l')%N end.
(** a vector of pairs (key, mac block) all related by d; [share_ok] is the relation m = k + x d mod p with
    canonical components (ArithSpec) *)
Definition corr (d : N) (lo hi : nat) (key mac : nat -> N) : Prop :=
  forall i, lo <= i -> i < hi -> share_ok d (mac i) (key i).
(** component-wise sum of blocks modulo p *)
Definition xval (b : N) : N := (b / 2 ^ 64)%N.
Definition mval (b : N) : N := (b mod 2 ^ 64)%N.
Definition block_ok (b : N) : Prop := canon (xval b) /\ canon (mval b).
(** number of positions the linear expansion should reach *)
Definition lpn_reach (n threads : nat) : nat := (threads + 1) * (n / (threads + 1)).
