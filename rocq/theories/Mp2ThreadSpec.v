(** Which challenge each tree of the GF(2^128) MPFSS uses, as the parties see it (C52). *)
From Coq Require Import NArith List Bool Arith.
From Verif Require Import Word TreeModel VoleModel MpThreadModel MpThreadSpec.
Import ListNotations.

(** the connection of tree s, and how many trees used that connection before it *)
Definition conn (threads tree_n s : nat) : nat :=
  if s <? (threads - 1) * (tree_n / threads) then s / (tree_n / threads) else threads - 1.
Definition rank (threads tree_n s : nat) : nat := s - conn threads tree_n s * (tree_n / threads).
(** [h c]: state of the hash object of connection c at the start; [D], [Nx]: output and next state of a digest *)
Definition tree_chal (D Nx : N -> N) (h : nat -> N) (threads tree_n s : nat) : N :=
  D (Nat.iter (rank threads tree_n s) Nx (h (conn threads tree_n s))).

(** memory before mpfss(): as for the F_p protocol, with triple_x and with equal hash objects on the two sides *)
Record before2 (H : N -> N) (threads tree_n depth : nat) (rnd : trand) (key val mac h : mem) (m : loc -> N) : Prop := {
  b2_old : before H tree_n depth rnd key mac m;
  b2_val : forall i, i <= tree_n -> m (Rcv, Val, i) = val i;
  b2_hash : forall sd c, c < threads -> m (sd, Seed, c) = h c }.
