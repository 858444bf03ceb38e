(** Specifications used by PropTight.v. *)
From Coq Require Import NArith List Bool Arith.
From Verif Require Import RamModel RamSpec.
Import ListNotations.

(** the successive prefixes of a sequence of blocks, joined: after the first, after the second, .. *)
Definition prefixes (l : list (list N)) : list (list N) := map (fun i => concat (firstn (S i) l)) (seq 0 (length l)).

(** the record of an access: its address, whether it writes, and the value written *)
Definition rw_logs (o : rwop) (x : acc) : Prop :=
  match o with
  | RRead i => a_addr x = N.of_nat i /\ a_write x = false
  | RWrite i v => a_addr x = N.of_nat i /\ a_write x = true /\ a_val x = v
  | RAccess op i v => a_addr x = N.of_nat i /\ a_write x = op /\ (op = true -> a_val x = v)
  | _ => False
  end.
Definition w_logs (o : wop) (x : wacc) : Prop :=
  match o with
  | WRead i => b_addr x = N.of_nat i /\ b_write x = false
  | WWrite i v => b_addr x = N.of_nat i /\ b_write x = true /\ b_val x = v
  | WCheck => False
  end.
(** accesses of a wide memory: cells that exist, values of [nw] words *)
Definition w_in_range (nw n : nat) (o : wop) : Prop :=
  match o with WRead i => i < 2 ^ n | WWrite i v => i < 2 ^ n /\ length v = nw | WCheck => False end.
(** every read comes after a write to its cell; [ws] are the cells written so far *)
Fixpoint w_reads_written (ws : list nat) (os : list wop) : Prop :=
  match os with
  | [] => True
  | WRead i :: os' => In i ws /\ w_reads_written ws os'
  | WWrite i _ :: os' => w_reads_written (ws ++ [i]) os'
  | WCheck :: os' => w_reads_written ws os'
  end.
