(** What the data messages of a mixed boolean session stand for, as a function of the program alone. *)
From Coq Require Import NArith List Bool Arith.
From Verif Require Import Word BoolModel BoolPolyModel BoolPolySpec BSessModel.
Import ListNotations.

(** the number of relations one call queues *)
Definition nrel {A} (c : bcall A) : nat := match c with BMulti _ _ _ _ w => w | _ => 1 end.
(** [true]: the reply of a relation check, [false]: the reply of an AND check.
    [n] relations are queued one by one on a queue of length [q]; a full queue is checked first *)
Fixpoint item_roles (psz n q : nat) : list bool * nat :=
  match n with
  | 0 => ([], q)
  | S m => if Nat.leb psz q then let (l, q') := item_roles psz m 1 in (true :: l, q') else item_roles psz m (S q)
  end.
(** the replies the verifier reads, in order, before the digest; [g], [q]: lengths of the two queues *)
Fixpoint roles (csz psz g q : nat) (prog : list bop) : list bool :=
  match prog with
  | [] => (if Nat.eqb q 0 then [] else [true]) ++ (if Nat.eqb g 0 then [] else [false])
  | OGate (GAnd _ _) :: r => if Nat.eqb g csz then false :: roles csz psz 1 q r else roles csz psz (S g) q r
  | OGate _ :: r => roles csz psz g q r
  | OPoly c :: r => let (l, q') := item_roles psz (nrel c) q in l ++ roles csz psz g q' r
  end.
(** the messages of one role *)
Fixpoint pick {A} (b : bool) (rl : list bool) (ds : list A) : list A :=
  match rl, ds with
  | r :: rl', x :: ds' => if Bool.eqb b r then x :: pick b rl' ds' else pick b rl' ds'
  | _, _ => []
  end.
