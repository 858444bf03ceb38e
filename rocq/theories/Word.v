(** Machine words and 128-bit blocks as natural numbers of type [N].

    Every function here models a C++/SSE primitive used throughout /repo; the
    wrap-around is explicit.  Words are 64-bit unsigned ([uint64_t]), wide words
    128-bit ([__uint128_t]) and blocks are [__m128i] seen as a 128-bit number
    whose bits 0..63 are lane 0 ([LOW64]) and 64..127 lane 1 ([HIGH64]). *)
From Coq Require Import NArith ZArith Lia List Bool.
Import ListNotations.
Local Open Scope N_scope.

Definition W64 : N := 18446744073709551616.        (* 2^64 *)
Definition W128 : N := 340282366920938463463374607431768211456. (* 2^128 *)

(** uint64_t addition, subtraction and left shift (wrap modulo 2^64). *)
Definition add64 (a b : N) : N := (a + b) mod W64.
Definition sub64 (a b : N) : N := (a + (W64 - b mod W64)) mod W64.
Definition shl64 (a : N) (n : N) : N := (N.shiftl a n) mod W64.
Definition shr64 (a : N) (n : N) : N := N.shiftr a n.
(** __uint128_t addition and subtraction (wrap modulo 2^128). *)
Definition add128 (a b : N) : N := (a + b) mod W128.
Definition sub128 (a b : N) : N := (a + (W128 - b mod W128)) mod W128.

(** LOW64 / HIGH64 / makeBlock (emp-tool; used e.g. in
    /repo/emp-zk/emp-vole/utility.h:67-68). *)
Definition lo64 (b : N) : N := b mod W64.
Definition hi64 (b : N) : N := b / W64.
Definition mkblock (h l : N) : N := h * W64 + l.

(** SSE lane-wise operations on two 64-bit lanes. *)
Definition lanes2 (f : N -> N -> N) (a b : N) : N :=
  mkblock (f (hi64 a) (hi64 b)) (f (lo64 a) (lo64 b)).
Definition lanes1 (f : N -> N) (a : N) : N := mkblock (f (hi64 a)) (f (lo64 a)).
Definition mm_add_epi64 := lanes2 add64.
Definition mm_sub_epi64 := lanes2 sub64.
Definition mm_srli_epi64 (a n : N) := lanes1 (fun x => shr64 x n) a.
Definition mm_slli_epi64 (a n : N) := lanes1 (fun x => shl64 x n) a.
(** signed 64-bit value of a word; _mm_cmpgt_epi64 compares signed lanes. *)
Definition s64 (x : N) : Z :=
  if x <? 9223372036854775808 then Z.of_N x else (Z.of_N x - Z.of_N W64)%Z.
Definition mm_cmpgt_epi64 :=
  lanes2 (fun x y => if (s64 y <? s64 x)%Z then W64 - 1 else 0).
(** _mm_andnot_si128(a,b) = (~a) & b. *)
Definition mm_andnot (a b : N) : N := N.land (N.lxor a (W128 - 1)) b.
