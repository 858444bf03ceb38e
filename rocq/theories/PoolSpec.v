(** What the pool should hand out.  A tag (it, p) names position p of run it of the generator; positions
    0 .. yield-1 of a run may be delivered, the others are reserved as seeds of the next run. *)
From Coq Require Import List Arith Permutation.
Import ListNotations.
Definition tag := (nat * nat)%type.
(** everything run it may deliver *)
Definition run_tags (yield it : nat) : list tag := map (pair it) (seq 0 yield).
Definition runs_tags (yield from cnt : nat) : list tag := flat_map (run_tags yield) (seq from cnt).
(** leftovers, number of runs performed so far *)
Definition stock := (list tag * nat)%type.
(** a request for num correlations: exactly num tags come out; leftovers first, then new runs, in order, no tag
    is skipped or delivered twice, and no run is started unless it is needed *)
Definition served (yield num : nat) (s : stock) (out : list tag) (s' : stock) : Prop :=
  exists r, snd s' = snd s + r /\ length out = num /\
  out ++ fst s' = fst s ++ runs_tags yield (snd s) r /\
  (length (fst s') < yield \/ r = 0).
(** an in-place request of r runs: leftovers stay *)
Definition served_inplace (yield r : nat) (s : stock) (out : list tag) (s' : stock) : Prop :=
  snd s' = snd s + r /\ out = runs_tags yield (snd s) r /\ fst s' = fst s.
