(** What "schedule independent" means for a set of tasks started together (C41). *)
From Coq Require Import NArith List Bool Arith.
From Verif Require Import BoolModel ThreadModel.
Import ListNotations.

(** the next access of a thread and whether it is a write *)
Definition next (p : prog) : option (loc * bool) :=
  match p with Done => None | Read l _ => Some (l, false) | Write l _ _ => Some (l, true) end.
(** two threads are about to access the same location, one of them to write it *)
Definition race (ps : list prog) : Prop :=
  exists i j p q l w w', i <> j /\ nth_error ps i = Some p /\ nth_error ps j = Some q /\
    next p = Some (l, w) /\ next q = Some (l, w') /\ (w || w') = true.
(** no reachable state has a race or is stuck, every execution has the same bounded length, and every
    complete execution ends in a memory with property [Q] *)
Record schedule_independent (m : smem) (ps : list prog) (Q : smem -> Prop) : Prop := {
  si_race : forall n m' ps', steps n (m, ps) (m', ps') -> ~ race ps';
  si_live : exists T, forall n m' ps', steps n (m, ps) (m', ps') ->
              n <= T /\ (n = T <-> all_done ps') /\ (n < T -> exists c, step (m', ps') c);
  si_result : forall n m' ps', steps n (m, ps) (m', ps') -> all_done ps' -> Q m' }.

(** memory at the start of a batch check: gate i of the batch is in place; everything else is arbitrary *)
Definition holds (m : smem) (buf : list (N * N * N)) : Prop :=
  forall i g, nth_error buf i = Some g -> (m (Left, i), m (Right, i), m (Out, i)) = g.
Definition seeds_of (m : smem) (i : nat) : N := m (Seed, i).
Definition arr_of (m : smem) (a : arr) (i : nat) : N := m (a, i).
