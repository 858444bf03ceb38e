(** The engines on top of the correlation generators.

    FpOSTriple takes its correlations with vole->extend(&x, 1), one per call, in order: the constructor
    (emp-zk-arith/ostriple.h:48-49), every input (:71, :94), every multiplication (:128, :150), every check (:221, :230),
    every polynomial batch (polynomial.h:57, :70).  A batched input calls vole->extend(x, len) (:81, :107).
    VoleTriple is created for party 3 - party (ostriple.h:37), so that its receiver is the prover. *)
From Coq Require Import ZArith List Arith.
From Verif Require Import PoolModel.
Import ListNotations.

Section Single.
  Context {A : Type}.
  Variable item : nat -> nat -> A.
  Variables (n M : nat).
  Variables (garbage : arr A) (bufs : nat -> arr A).      (* pool at start; the caller's variables before each call *)
  (** the pool after i calls of extend(&x, 1), vole_triple.h:216-255 *)
  Fixpoint pool_after (i : nat) : pst A :=
    match i with
    | 0 => pool_init n M garbage
    | S i' => fst (extend item n M 1 (pool_after i') (bufs i'))
    end.
  (** what the i-th such call writes to x *)
  Definition pool_next (i : nat) : A := snd (extend item n M 1 (pool_after i) (bufs i)) 0.
End Single.
