(** What a program means without cryptography, and which gates it executes. *)
From Coq Require Import NArith List Bool Arith.
From Verif Require Import FpModel ArithModel ArithSpec BoolModel BoolSpec ClientModel.
Import ListNotations.

(** plain execution of a field program; [ins] replaces the private inputs in order, [] keeps the program's own *)
Fixpoint fp_plain (ins : list N) (s : apl) (cl : fp_prog) : apl :=
  match cl with
  | CEnd => s
  | CDo (AIn x) k => match ins with
                     | [] => fp_plain [] (pl_step s (AIn x)) k
                     | y :: ins' => fp_plain ins' (pl_step s (AIn y)) k
                     end
  | CDo g k => fp_plain ins (pl_step s g) k
  | CAsk i k => fp_plain ins (pl_step s (AReveal i)) (k (pval (pl_w s) i))
  end.
(** wires and outputs of a bit program *)
Fixpoint bit_plain (ins ws outs : list bool) (cl : bit_prog) : list bool * list bool :=
  match cl with
  | CEnd => (ws, outs)
  | CDo (GIn x) k => match ins with
                     | [] => bit_plain [] (ws ++ [x]) outs k
                     | y :: ins' => bit_plain ins' (ws ++ [y]) outs k
                     end
  | CDo (GPub b) k => bit_plain ins (ws ++ [b]) outs k
  | CDo (GXor i j) k => bit_plain ins (ws ++ [xorb (pwire ws i) (pwire ws j)]) outs k
  | CDo (GNot i) k => bit_plain ins (ws ++ [negb (pwire ws i)]) outs k
  | CDo (GAnd i j) k => bit_plain ins (ws ++ [pwire ws i && pwire ws j]) outs k
  | CDo (GReveal i) k => bit_plain ins ws (outs ++ [pwire ws i]) k
  | CAsk i k => bit_plain ins ws (outs ++ [pwire ws i]) (k (pwire ws i))
  end.
Definition bit_outputs (ins : list bool) (cl : bit_prog) : list bool := snd (bit_plain ins [] [] cl).

(** the gates a program executes when the opened values are [outs] *)
Section Taken.
  Context {G O : Type}.
  Variables (ask : nat -> G) (opens : G -> bool) (dflt : O).
  Fixpoint taken (outs : list O) (cl : client G O) : list G :=
    match cl with
    | CEnd => []
    | CDo g k => g :: taken (if opens g then tl outs else outs) k
    | CAsk i k => ask i :: taken (tl outs) (k (hd dflt outs))
    end.
End Taken.
Definition fp_opens (g : agate) : bool := match g with AReveal _ => true | _ => false end.
Definition bit_opens (g : gate) : bool := match g with GReveal _ => true | _ => false end.
Definition fp_taken : list N -> fp_prog -> list agate := taken AReveal fp_opens 0%N.
Definition bit_taken : list bool -> bit_prog -> list gate := taken GReveal bit_opens false.

(** programs that look at opened words only modulo p *)
Fixpoint fp_reduces (cl : fp_prog) : Prop :=
  match cl with
  | CEnd => True
  | CDo _ k => fp_reduces k
  | CAsk _ k => forall o, k o = k (o mod prm)%N /\ fp_reduces (k o)
  end.
