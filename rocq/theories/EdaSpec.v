(** Specifications for the conversion engine. *)
From Coq Require Import NArith List Bool Arith.
Import ListNotations.

(** the 62 bits of [w] are authenticated under the boolean key [d] *)
Definition bauth (d : N) (labels keys : list N) (w : N) : Prop :=
  length labels = 62 /\ length keys = 62 /\
  forall j, j < 62 -> nth j labels 0%N = N.lxor (nth j keys 0%N) (if N.testbit w (N.of_nat j) then d else 0%N).

(** The k-th mask ever delivered, in closed form: generation k / NN, candidate k mod NN; q = np_sz / ell windows of
    ell correlations are cut from each filling of the correlation buffer. *)
Definition kth_mask (NN ell np_sz k : nat) : (nat * nat) * (nat * nat) :=
  let g := k / NN in let i := k mod NN in let q := np_sz / ell in
  ((S g, i), (S (g / q), (g mod q) * ell + i)).
