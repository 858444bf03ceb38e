(** The cut-and-choose of the mask generation as a relation between the two halves of the candidates. *)
From Coq Require Import NArith List Arith.
From Verif Require Import ArithSpec.

(** candidate compared with delivered mask [i] when the offset is [r]; NN delivered masks, NN + C others *)
Definition mate (NN C r i : nat) : nat := NN + (r + C + i) mod (NN + C).
(** boolean words [w] and field values [f] of the candidates agree as far as a run with offset [r] looks at them *)
Definition survives (NN C : nat) (w f : nat -> N) (r : nat) : Prop :=
  (forall q, q < C -> w (NN + (r + q)) = f (NN + (r + q))) /\
  (forall i, i < NN -> ((w i + w (mate NN C r i)) mod prm = (f i + f (mate NN C r i)) mod prm)%N).
(** halves that differ by [e] at the delivered masks 0, d, 2d, ... and by -e at the others C, C + d, C + 2d, ... *)
Definition planted (NN C d : nat) (e : N) (w f : nat -> N) : Prop :=
  (forall i, i < NN -> w i = if Nat.eqb (i mod d) 0 then ((f i + e) mod prm)%N else f i) /\
  (forall q, q < NN + C -> w (NN + q) = if Nat.eqb (q mod d) C then ((f (NN + q)%nat + (prm - e)) mod prm)%N else f (NN + q)).
