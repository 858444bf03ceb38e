(** Specification of the channel: what each endpoint must have read, independently of buffering. *)
From Coq Require Import NArith List Bool Arith.
From Verif Require Import BoolIOModel.
Import ListNotations.

Fixpoint to_receiver (os : list op) : list rd :=
  match os with
  | [] => []
  | OBit b :: os' => RdBit b :: to_receiver os'
  | OData true bs :: os' => RdData bs :: to_receiver os'
  | _ :: os' => to_receiver os'
  end.
Fixpoint to_sender (os : list op) : list rd :=
  match os with
  | [] => []
  | OData false bs :: os' => RdData bs :: to_sender os'
  | _ :: os' => to_sender os'
  end.
(** no challenge is taken without a flush *)
Definition no_bare_hash (os : list op) : Prop := Forall (fun o => match o with OHashOnly => False | _ => True end) os.
Definition prefix {A} (a b : list A) : Prop := exists c, b = a ++ c.
(** same operations in the same order; payload bytes and bits may differ *)
Definition same_shape (o o' : op) : Prop :=
  match o, o' with
  | OBit _, OBit _ => True
  | OData d b, OData d' b' => d = d'
  | OFlush, OFlush | OChallenge, OChallenge | OHashOnly, OHashOnly => True
  | _, _ => False
  end.
Fixpoint bits_of (os : list op) : list bool :=
  match os with [] => [] | OBit b :: os' => b :: bits_of os' | _ :: os' => bits_of os' end.
