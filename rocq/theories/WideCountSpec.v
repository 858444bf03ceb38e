(** Rows of blocks. *)
From Coq Require Import NArith List.
Import ListNotations.

(** a row of [m] blocks *)
Definition blocks (m : nat) (r : list N) : Prop := length r = m /\ Forall (fun x => (x < 2 ^ 128)%N) r.
