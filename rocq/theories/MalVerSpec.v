(** A cheating verifier in the GF(2^128) correlation generator, and what its errors do to the prover's shares. *)
From Coq Require Import NArith List Bool Arith.
From Verif Require Import Word GF128 ArithSpec TreeModel TreeSpec VoleSpec MalVerModel.
From Verif Require BoolIOModel.
Import ListNotations.

(** the two messages of the lowest level moved by s * e and e, secret_sum by their xor; s is the challenge *)
Definition shifted (depth : nat) (s e : N) (g : tmsg) : tmsg :=
  {| q_m0 := fun x => if x =? depth - 2 then N.lxor (q_m0 g x) (gfmul s e) else q_m0 g x;
     q_m1 := fun x => if x =? depth - 2 then N.lxor (q_m1 g x) e else q_m1 g x;
     q_sum := N.lxor (q_sum g) (N.lxor e (gfmul s e)) |}.
(** leaf j and the secret position are brothers or the same *)
Definition same_pair (h : nat) (b : nat -> bool) (j : nat) : bool := j / 2 =? punctured h b / 2.
(** what the shift does to leaf j *)
Definition pair_err (h : nat) (s e : N) (b : nat -> bool) (j : nat) : N :=
  if same_pair h b j then (if Nat.odd j then e else gfmul s e) else 0%N.
(** a stretch of a connection in which no bit is sent with send_bit *)
Definition no_bits (o : BoolIOModel.op) : Prop := match o with BoolIOModel.OBit _ => False | _ => True end.
Fixpoint hashes (os : list BoolIOModel.op) : nat :=
  match os with
  | [] => 0
  | BoolIOModel.OChallenge :: os' | BoolIOModel.OHashOnly :: os' => S (hashes os')
  | _ :: os' => hashes os'
  end.

(** * F_p *)
(** the key a verifier must know for leaf j of a tree: the leaf, less value * d at the secret position *)
Definition eff_key (d : N) (pos : nat) (mac : N) (leaves : nat -> N) (j : nat) : N :=
  if j =? pos then ((leaves j + (prm - (xval mac * d) mod prm)) mod prm)%N else leaves j.
Definition key_sum (tree_n : nat) (f : nat -> nat -> N) (j : nat) : N := ((nsum (map (fun s => f s j) (seq 0 tree_n))) mod prm)%N.
