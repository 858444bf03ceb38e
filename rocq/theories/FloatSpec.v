(** What the 32 bits of a float and the fixed-point words mean (C42). *)
From Coq Require Import NArith ZArith QArith Qround Bool.

(** the 32 bits of a normal float with sign [b], biased exponent [E] and mantissa [M] *)
Definition float_bits (b : bool) (E M : N) : N := (M + 2 ^ 23 * E + (if b then 2 ^ 31 else 0))%N.
Definition normal (E M : N) : Prop := (1 <= E <= 254 /\ M < 2 ^ 23)%N.
(** its magnitude (IEEE 754 binary32): (2^23 + M) * 2^(E - 150) *)
Definition magnitude (E M : N) : Q := inject_Z (2 ^ 23 + Z.of_N M) * (2 # 1) ^ (Z.of_N E - 150).
(** fixed-point value with s fraction bits, rounded towards zero *)
Definition fixed (E M : N) (s : Z) : Z := Qfloor (magnitude E M * (2 # 1) ^ s).
(** inputs whose fixed-point value has at most 60 bits and whose shift fits in 8 signed bits *)
Definition in_range (E : N) (s : Z) : Prop := (-127 <= Z.of_N E - 150 + s <= 36)%Z.
Definition p61 : Z := (2 ^ 61 - 1)%Z.
(** signed value of a field element *)
Definition signed (w : Z) : Z := if (w <=? 2 ^ 60 - 1)%Z then w else (w - p61)%Z.
(** >= of emp-tool: right when the difference fits *)
Definition geq_right (val : N -> N -> Z) (geq : N -> N -> N -> bool) : Prop :=
  forall w a b, (1 <= w)%N -> (a < 2 ^ w)%N -> (b < 2 ^ w)%N ->
    (- 2 ^ (Z.of_N w - 1) <= val w a - val w b < 2 ^ (Z.of_N w - 1))%Z -> geq w a b = (val w b <=? val w a)%Z.
