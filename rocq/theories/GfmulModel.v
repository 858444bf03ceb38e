(** Model of /repo/emp-zk/extensions/ram-zk/gfmul.h (blocks as N below 2^128).
    [reduce(lo, hi)] is emp-tool's; its contract is reduction of the 256-bit
    carry-less product (GF128.v). *)
From Coq Require Import NArith List.
From Verif Require Import Word GF128.
Import ListNotations.
Local Open Scope N_scope.

(** _mm_clmulepi64_si128 with the four immediates used *)
Definition clmulepi64_00 (a b : N) : N := clmul (lo64 a) (lo64 b).
Definition clmulepi64_10 (a b : N) : N := clmul (lo64 a) (hi64 b).
Definition clmulepi64_01 (a b : N) : N := clmul (hi64 a) (lo64 b).
Definition clmulepi64_11 (a b : N) : N := clmul (hi64 a) (hi64 b).
(** _mm_slli_si128(x, 8), _mm_srli_si128(x, 8) *)
Definition slli_si128_8 (x : N) : N := N.shiftl x 64 mod W128.
Definition srli_si128_8 (x : N) : N := N.shiftr x 64.
(** gfmul.h:11-23 (one lane of mul128_0, and of mul128_3/4/6, lines 38-57, 74-97, 116-147) *)
Definition mul128_lane (a b : N) : N * N :=
  let tmp3 := clmulepi64_00 a b in
  let tmp4 := clmulepi64_10 a b in
  let tmp5 := clmulepi64_01 a b in
  let tmp6 := clmulepi64_11 a b in
  let tmp4 := N.lxor tmp4 tmp5 in
  let tmp5 := slli_si128_8 tmp4 in
  let tmp4 := srli_si128_8 tmp4 in
  let tmp3 := N.lxor tmp3 tmp5 in
  let tmp6 := N.lxor tmp6 tmp4 in
  (tmp3, tmp6).
(** emp-tool reduce(res1, res2) on the 256-bit value res2:res1 *)
Definition reduce2 (lo hi : N) : N := reduce (N.lxor lo (N.shiftl hi 128)).
(** gfmul.h:27-32  gfmul_1<N>; 61-67, 101-108, 151-159 gfmul3/4/6 are the same with N = 3, 4, 6
    (all products are formed before the first store, so aliasing of inputs and [res] is harmless). *)
Definition gfmul_1 (a b : list N) : list N :=
  map (fun lh => reduce2 (fst lh) (snd lh)) (map (fun ab => mul128_lane (fst ab) (snd ab)) (combine a b)).
