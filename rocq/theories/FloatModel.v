(** Conversions between authenticated floats and fixed-point field elements: extensions/floats.h.

    The code works on emp-tool [Integer]s, which are not part of /repo.  An [Integer] of w bits is a
    number below 2^w; its operations are modelled by their documented meaning (two's complement,
    width kept, right shift fills with zeros, a shift by an [Integer] looks only at its low bits).
    A [Float] is its 32 bits: 23 mantissa bits, 8 exponent bits, sign bit. *)
From Coq Require Import NArith ZArith Bool Arith.
Local Open Scope N_scope.

(** constructor Integer(w, x, PUBLIC) of an int *)
Definition i_const (w : N) (x : Z) : N := Z.to_N (x mod 2 ^ Z.of_N w)%Z.
Definition i_sub (w a b : N) : N := (a + (2 ^ w - b)) mod 2 ^ w.
Definition i_add (w a b : N) : N := (a + b) mod 2 ^ w.
Definition i_neg (w a : N) : N := (2 ^ w - a) mod 2 ^ w.
Definition i_top (w a : N) : bool := N.testbit a (w - 1).
Definition i_abs (w a : N) : N := if i_top w a then i_neg w a else a.
(** signed value *)
Definition i_val (w a : N) : Z := if i_top w a then (Z.of_N a - 2 ^ Z.of_N w)%Z else Z.of_N a.
(** shift by an Integer: bit i of the amount, for i < n = min(ceil(log2 w), amount width - 1), selects a
    shift by 2^i *)
Fixpoint i_shift (one : N -> N -> N) (n : nat) (i : N) (amt a : N) : N :=
  match n with
  | O => a
  | S n' => i_shift one n' (i + 1) amt (if N.testbit amt i then one a (2 ^ i) else a)
  end.
Definition i_shl (w amt a : N) : N := i_shift (fun a c => N.shiftl a c mod 2 ^ w) 6 0 amt a.
Definition i_shr (amt a : N) : N := i_shift (fun a c => N.shiftr a c) 6 0 amt a.
Definition i_leading_zeros (w a : N) : N := w - N.size a.

Section Geq.
  (** Integer::operator>=; the theorems hold for every function that is right when the difference of the
      two signed values fits in the width *)
  Variable geq : N -> N -> N -> bool.
  (** floats.h:9-25 FloatToInt62; [x] are the 32 bits of the float *)
  Definition float_to_int62 (x : N) (s : Z) : N :=
    let fraction := N.setbit (x mod 2 ^ 23) 23 in
    let exp := N.shiftr x 23 mod 2 ^ 8 in
    let exp := i_sub 8 exp (i_const 8 (127 + 23 - s)) in
    let negexp := i_neg 8 exp in
    let fraction := if negb (N.testbit exp 7) then i_shl 61 exp fraction else i_shr negexp fraction in
    let fraction := if geq 8 negexp (i_const 8 61) then 0 else fraction in
    if N.testbit x 31 then i_neg 61 fraction else fraction.
  (** floats.h:27-54 Int62ToFloat; a > b is !(b >= a) *)
  Definition int62_to_float (input : N) (s : Z) : N :=
    let input := if negb (geq 62 (i_const 62 (2 ^ 60 - 1)) input) then i_sub 62 input (i_const 62 (2 ^ 61 - 1)) else input in
    let input := input mod 2 ^ 61 in
    let sign := i_top 61 input in
    let u := i_abs 61 input in
    let first := i_sub 8 (i_const 8 60) (i_leading_zeros 61 u) in
    let left := geq 8 first (i_const 8 23) in
    let offset := if left then i_sub 8 first (i_const 8 23) else i_sub 8 (i_const 8 23) first in
    let shifted := if left then i_shr offset u else i_shl 61 offset u in
    let exponent := i_add 8 first (i_const 8 (127 - s)) in
    shifted mod 2 ^ 23 + 2 ^ 23 * exponent + (if sign then 2 ^ 31 else 0).
End Geq.
(** two readings of >=: exact signed comparison, and the sign of the wrapped difference *)
Definition geq_exact (w a b : N) : bool := (i_val w b <=? i_val w a)%Z.
Definition geq_diff (w a b : N) : bool := negb (i_top w (i_sub w a b)).
