(** Model of /repo/emp-zk/emp-vole/utility.h: arithmetic in F_p, p = 2^61-1,
    on 64-bit words and on blocks holding two lanes. *)
From Coq Require Import NArith ZArith Lia List Bool.
From Verif Require Import Word.
Import ListNotations.
Local Open Scope N_scope.

(** utility.h:7-15  MERSENNE_PRIME_EXP, p, pr, PR, prs/PRs. *)
Definition EXP61 : N := 61.
Definition PR : N := 2305843009213693951.
Definition prs : N := mkblock PR PR.

(** utility.h:18-31  mul64: low word and high word of the 128-bit product. *)
Definition mul64_lo (a b : N) : N := (a * b) mod W64.
Definition mul64_hi (a b : N) : N := (a * b) / W64.

(** utility.h:33-35  mod_pre (result truncated to 64 bits). *)
Definition mod_pre (x : N) : N := (N.land x PR + N.shiftr x EXP61) mod W64.

(** utility.h:37-40  mod(uint64_t). *)
Definition mod1 (x : N) : N :=
  let i := add64 (N.land x PR) (shr64 x EXP61) in
  if PR <=? i then sub64 i PR else i.

(** utility.h:42-45  template mod(T k, T pv) at T = __uint128_t. *)
Definition mod128 (k pv : N) : N :=
  let i := add128 (N.land k pv) (N.shiftr k EXP61) in
  if pv <=? i then sub128 i pv else i.

(** utility.h:42-45  template mod(T k, T pv) at T = uint64_t. *)
Definition mod64 (k pv : N) : N :=
  let i := add64 (N.land k pv) (shr64 k EXP61) in
  if pv <=? i then sub64 i pv else i.

(** utility.h:47-49  vec_partial_mod. *)
Definition vec_partial_mod (i : N) : N :=
  mm_sub_epi64 i (mm_andnot (mm_cmpgt_epi64 prs i) prs).

(** utility.h:84-87  vec_mod. *)
Definition vec_mod (i : N) : N :=
  vec_partial_mod (mm_add_epi64 (N.land i prs) (mm_srli_epi64 i EXP61)).

(** utility.h:89-104  mult_mod(block, uint64_t); is[0..1] = bs[0] are the low
    words and is[2..3] = bs[1] the high words of the two products. *)
Definition mult_mod_b (a b : N) : N :=
  let H := hi64 a in let L := lo64 a in
  let bs0 := mkblock (mul64_lo H b) (mul64_lo L b) in
  let bs1 := mkblock (mul64_hi H b) (mul64_hi L b) in
  let t1 := N.land bs0 prs in
  let t2 := N.lxor (mm_srli_epi64 bs0 EXP61) (mm_slli_epi64 bs1 (64 - EXP61)) in
  vec_partial_mod (mm_add_epi64 t1 t2).

(** utility.h:106-126  mult_mod_bch2(block*, block*, uint64_t* ). *)
Definition mult_mod_b_bch2 (a0 a1 b0 b1 : N) : N * N :=
  let is0 := mul64_lo (lo64 a0) b0 in let is1 := mul64_lo (hi64 a0) b0 in
  let is2 := mul64_lo (lo64 a1) b1 in let is3 := mul64_lo (hi64 a1) b1 in
  let is4 := mul64_hi (lo64 a0) b0 in let is5 := mul64_hi (hi64 a0) b0 in
  let is6 := mul64_hi (lo64 a1) b1 in let is7 := mul64_hi (hi64 a1) b1 in
  let bs0 := mkblock is1 is0 in let bs1 := mkblock is3 is2 in
  let bs2 := mkblock is5 is4 in let bs3 := mkblock is7 is6 in
  let t10 := N.land bs0 prs in
  let t11 := N.land bs1 prs in
  let t20 := N.lxor (mm_srli_epi64 bs0 EXP61) (mm_slli_epi64 bs2 (64 - EXP61)) in
  let t21 := N.lxor (mm_srli_epi64 bs1 EXP61) (mm_slli_epi64 bs3 (64 - EXP61)) in
  let t10 := mm_add_epi64 t10 t20 in
  let t11 := mm_add_epi64 t11 t21 in
  (vec_partial_mod t10, vec_partial_mod t11).

(** utility.h:63-80 (AVX512 path)  mult_mod_bch4(block*, block*, uint64_t* ):
    eight 64-bit lanes treated independently; modelled lane-wise per 128-bit
    quarter, which is what the 512-bit lane operations do. *)
Definition mult_mod_b_bch4 (a b : list N) : list N :=
  map (fun ab =>
         let bs0 := mkblock (mul64_lo (hi64 (fst ab)) (snd ab)) (mul64_lo (lo64 (fst ab)) (snd ab)) in
         let bs1 := mkblock (mul64_hi (hi64 (fst ab)) (snd ab)) (mul64_hi (lo64 (fst ab)) (snd ab)) in
         let t1 := N.land bs0 prs in
         let t2 := N.lxor (mm_srli_epi64 bs0 EXP61) (mm_slli_epi64 bs1 (64 - EXP61)) in
         let t1 := mm_add_epi64 t1 t2 in
         mm_sub_epi64 t1 (mm_andnot (mm_cmpgt_epi64 prs t1) prs))
      (combine a b).

(** utility.h:128-134  mult_mod(uint64_t, uint64_t). *)
Definition mult_mod (a b : N) : N :=
  let c := mul64_hi a b in
  let e := mul64_lo a b in
  let res := add64 (N.land e PR) (N.lxor (shr64 e EXP61) (shl64 c (64 - EXP61))) in
  if PR <=? res then sub64 res PR else res.

(** utility.h:136-147  mult_mod_bch2(uint64_t* ...): two words through one block. *)
Definition mult_mod_bch2 (a0 a1 b0 b1 : N) : N * N :=
  let cb := mkblock (mul64_hi a1 b1) (mul64_hi a0 b0) in
  let eb := mkblock (mul64_lo a1 b1) (mul64_lo a0 b0) in
  let eb := mm_add_epi64 (N.land eb prs)
              (N.lxor (mm_srli_epi64 eb EXP61) (mm_slli_epi64 cb (64 - EXP61))) in
  let eb := vec_partial_mod eb in
  (lo64 eb, hi64 eb).

(** utility.h:149-167  mult_mod_bch4(uint64_t* ...): four words through two blocks. *)
Definition mult_mod_bch4 (a0 a1 a2 a3 b0 b1 b2 b3 : N) : N * N * N * N :=
  let cb0 := mkblock (mul64_hi a1 b1) (mul64_hi a0 b0) in
  let cb1 := mkblock (mul64_hi a3 b3) (mul64_hi a2 b2) in
  let eb0 := mkblock (mul64_lo a1 b1) (mul64_lo a0 b0) in
  let eb1 := mkblock (mul64_lo a3 b3) (mul64_lo a2 b2) in
  let r0 := mm_add_epi64 (N.land eb0 prs)
              (N.lxor (mm_srli_epi64 eb0 EXP61) (mm_slli_epi64 cb0 (64 - EXP61))) in
  let r1 := mm_add_epi64 (N.land eb1 prs)
              (N.lxor (mm_srli_epi64 eb1 EXP61) (mm_slli_epi64 cb1 (64 - EXP61))) in
  let r0 := vec_partial_mod r0 in
  let r1 := vec_partial_mod r1 in
  (lo64 r0, hi64 r0, lo64 r1, hi64 r1).

(** utility.h:169-172  add_mod(block, block). *)
Definition add_mod_bb (a b : N) : N := vec_partial_mod (mm_add_epi64 a b).
(** utility.h:174-177  add_mod(block, uint64_t). *)
Definition add_mod_b (a b : N) : N := vec_partial_mod (mm_add_epi64 a (mkblock b b)).
(** utility.h:179-182  add_mod(uint64_t, uint64_t). *)
Definition add_mod (a b : N) : N :=
  let res := add64 a b in if PR <=? res then sub64 res PR else res.

(** utility.h:184-186  extract_fp. *)
Definition extract_fp (x : N) : N := mod1 (lo64 x).

(** utility.h:188-192  uni_hash_coeff_gen at uint64_t.  The C++ always writes
    coeff[0]; the model returns the [sz] words written for sz >= 1. *)
Fixpoint coeff_tail (prev seed : N) (n : nat) : list N :=
  match n with
  | O => []
  | S n' => let c := mult_mod prev seed in c :: coeff_tail c seed n'
  end.
Definition uni_hash_coeff_gen (seed : N) (sz : nat) : list N :=
  seed :: coeff_tail seed seed (sz - 1).

(** utility.h:194-208  vector_inn_prdt_sum_red at uint64_t. *)
Fixpoint inn_prdt_acc (res : N) (a b : list N) : N :=
  match a, b with
  | x :: a', y :: b' => inn_prdt_acc (add_mod res (mult_mod x y)) a' b'
  | _, _ => res
  end.
Definition vector_inn_prdt_sum_red (a b : list N) : N := inn_prdt_acc 0 a b.
