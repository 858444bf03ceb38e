(** Model of /repo/emp-zk/emp-vole/vole_triple.h: setup and repeated extend, both parties together.

    Simplifications:
    - [rnd 0], [rnd 1] are the randomness of the two set-up expansions, [rnd (i + 2)] that of the i-th main one.
    - The COTs behind each OTPre (cot->cot_gen) are the fields r_ot_* of that randomness.
    - Uninitialised memory is an arbitrary function (extend(buffer) does not clear its buffer); an abort is a
      [false] verdict.  [ALICE] is the sender (key side), [BOB] the receiver (block side). *)
From Coq Require Import NArith List Bool Arith.
From Verif Require Import Word FpModel TreeModel VoleModel PoolModel.
Import ListNotations.

(** one row (n, t, k, log_bin_sz) of PrimalLPNParameterFp61, vole_triple.h:7-30 *)
Record lpn_param := { lp_n : nat; lp_t : nat; lp_k : nat; lp_log : nat }.
(** :116 M, :117 ot_limit *)
Definition lp_M (p : lpn_param) : nat := lp_k p + lp_t p + 1.
Definition lp_limit (p : lpn_param) : nat := lp_n p - lp_M p.
(** :29-30 fp_default (numbers go through N because unary literals of this size are not practical) *)
Definition lp_of (n t k log : N) : lpn_param := {| lp_n := N.to_nat n; lp_t := N.to_nat t; lp_k := N.to_nat k; lp_log := N.to_nat log |}.
Definition fp_main := lp_of 10168320 4965 158000 11.
Definition fp_pre := lp_of 166400 2600 5060 6.
Definition fp_pre0 := lp_of 9600 600 1220 4.

Section Triple.
  Variables (L R H Hs : N -> N) (word : nat -> nat -> N) (threads : nat).
  Variables (pre0 pre main : lpn_param) (rnd : nat -> trand) (delta : N).
  (** base sVOLE randomness (VoleModel.Base): PRG words, values, check seed *)
  Variables (w0r w1r w0c w1c : nat -> nat -> N) (xr : nat -> N) (seedr : N).
  Variable garbage : nat -> mem.
  (** extend_send / extend_recv :122-135 with parameters p *)
  Definition stage (p : lpn_param) (i : nat) (key mac y z : mem) : mem * mem * bool :=
    vole_extend L R H Hs word threads (lp_n p) (lp_t p) (lp_k p) (lp_log p) (rnd i) delta key mac y z.
  (** setup :147-213 *)
  Definition vt_setup : mem * mem * bool :=
    let size := 1 + lp_t pre0 + lp_k pre0 in
    let x := base_x xr in
    let key := base_key w0r w1r delta (cope_tau w0r w1r x) in
    let mac := base_mac w0r xr in
    let ok0 := base_ok size w0r w1r w0c w1c delta xr seedr in
    let '(y0, z0, ok1) := stage pre0 0 key mac (fun _ => 0%N) (fun _ => 0%N) in
    let '(y, z, ok2) := stage pre 1 y0 z0 (fun _ => 0%N) (fun _ => 0%N) in
    (y, z, ok0 && ok1 && ok2).
  (** extend(buffer) :137-145; state = pre_yz of both parties *)
  Definition vt_extend (i : nat) (st : mem * mem) : (mem * mem * bool) * (mem * mem) :=
    let '(y, z, ok) := stage main (i + 2) (fst st) (snd st) (garbage (2 * i)) (garbage (2 * i + 1)) in
    ((y, z, ok), (memcpy (fst st) 0 y (lp_limit main) (lp_M main), memcpy (snd st) 0 z (lp_limit main) (lp_M main))).
  Fixpoint vt_seeds (i : nat) : mem * mem :=
    match i with 0 => fst vt_setup | S i' => snd (vt_extend i' (vt_seeds i')) end.
  (** outputs of the i-th run *)
  Definition vt_key (i p : nat) : N := fst (fst (fst (vt_extend i (vt_seeds i)))) p.
  Definition vt_mac (i p : nat) : N := snd (fst (fst (vt_extend i (vt_seeds i)))) p.
  Definition vt_ok (i : nat) : bool := snd (fst (vt_extend i (vt_seeds i))).
End Triple.
