(** Multiplication of 128-bit blocks in GF(2)[x]/(x^128+x^7+x^2+x+1).

    emp-tool's [gfmul] and [reduce] are not part of /repo; this file states the
    contract used for them (trusted base): [gfmul a b] is the carry-less product
    of the two blocks reduced modulo x^128+x^7+x^2+x+1, bit i being the
    coefficient of x^i (the convention of /repo/emp-zk/extensions/ram-zk/gfmul.h). *)
From Coq Require Import NArith List Bool.
From Verif Require Import Word.
Local Open Scope N_scope.

(** carry-less product (polynomials over GF(2)) *)
Fixpoint pclmul (a : positive) (b : N) : N :=
  match a with
  | xH => b
  | xO a' => N.double (pclmul a' b)
  | xI a' => N.lxor b (N.double (pclmul a' b))
  end.
Definition clmul (a b : N) : N := match a with N0 => 0 | Npos p => pclmul p b end.

(** multiplication by x modulo the field polynomial *)
Definition xtime (v : N) : N :=
  if N.testbit v 127 then N.lxor (N.double v) 340282366920938463463374607431768211591
  else N.double v.
(** residue of an arbitrary polynomial, by Horner's rule *)
Fixpoint pred_ (a : positive) : N :=
  match a with
  | xH => 1
  | xO a' => xtime (pred_ a')
  | xI a' => N.lxor 1 (xtime (pred_ a'))
  end.
Definition reduce (a : N) : N := match a with N0 => 0 | Npos p => pred_ p end.

(** gfmul(a, b, &res) *)
Definition gfmul (a b : N) : N := reduce (clmul a b).
(** addition of blocks *)
Definition gfadd (a b : N) : N := N.lxor a b.

(** repeated multiplication, used for powers of the challenge seed *)
Fixpoint gfpow_pos (a : N) (n : positive) : N :=
  match n with
  | xH => a
  | xO n' => let s := gfpow_pos a n' in gfmul s s
  | xI n' => let s := gfpow_pos a n' in gfmul a (gfmul s s)
  end.

(** uni_hash_coeff_gen on blocks (emp-tool): coeff[i] = seed^(i+1). *)
Fixpoint gf_powers_from (pw seed : N) (n : nat) : list N :=
  match n with O => nil | S n' => pw :: gf_powers_from (gfmul pw seed) seed n' end.
Definition gf_coeff_gen (seed : N) (n : nat) : list N := gf_powers_from seed seed n.

(** vector_inn_prdt_sum_red on blocks (emp-tool): the unreduced 256-bit products
    are accumulated and reduced once at the end. *)
Fixpoint cl_inn_prdt (a b : list N) : N :=
  match a, b with
  | cons x a', cons y b' => N.lxor (clmul x y) (cl_inn_prdt a' b')
  | _, _ => 0
  end.
Definition gf_inn_prdt (a b : list N) : N := reduce (cl_inn_prdt a b).
