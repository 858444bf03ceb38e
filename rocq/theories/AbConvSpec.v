(** The computation of abconversion.cpp on numbers. *)
From Coq Require Import NArith List Bool Arith.
From Verif Require Import FpModel LowMcModel.
Import ListNotations.

Section Rec.
  Variable add : N -> N -> N.
  (** element [k] after the first half of a step: those two above a mark are the sum of the two below *)
  Definition marked (sz i k : nat) : bool := (k mod 3 =? i) && (k + 3 <? sz).
  Definition upper (sz i : nat) (v : nat -> N) (k : nat) : N :=
    if (2 <=? k) && marked sz i (k - 2) then add (v (k - 1)) (v (k - 2)) else v k.
  (** second half: the marked elements are the sum of the next two *)
  Definition lower (sz i : nat) (v : nat -> N) (k : nat) : N :=
    if marked sz i k then add (v (k + 1)) (v (k + 2)) else v k.
  Definition conv_step (sz : nat) (v : nat -> N) (i : nat) : nat -> N := lower sz i (upper sz i v).
  Definition conv_result (sz : nat) (v : list N) : list N :=
    map (fold_left (conv_step sz) [0; 1; 2; 0; 1; 2] (fun k => nth k v 0%N)) (seq 0 sz).
End Rec.
(** modulo p, and without reduction *)
Definition conv_mod : nat -> list N -> list N := conv_result (fun a b => (a + b) mod PR)%N.
Definition conv_int : nat -> list N -> list N := conv_result N.add.
