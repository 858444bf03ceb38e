(** Model of the self-check functions with which a developer tests the engines, and of the Beaver-style helper
    compute_mu: emp-zk-bool/ostriple.h:291-347, emp-zk-arith/ostriple.h:368-409 and 474-520,
    emp-vole/cope.h:205-225, emp-vole/vole_triple.h:280-299, emp-vole/mpfss_reg.h:240-287.

    Simplifications: the channel is not modelled, what one side sends is the argument the other side's function reads;
    error(...)/abort() ends the run with a code (and the printed index where the code prints one); a received [bool] is
    0 or 1. *)
From Coq Require Import NArith List Bool Arith.
From Verif Require Import Word FpModel BoolModel ArithModel.
Import ListNotations.

(** ** bits *)
Inductive dbg := DOk (keys : list N) | DErr (code : nat).
(** emp-zk-bool/ostriple.h:293-311  check_auth_mac, verifier: [keys] is the caller's array, which the loop overwrites; the
    received macs and bits are paired *)
Fixpoint bchk_auth (d : N) (keys : list N) (recv : list (N * bool)) : dbg :=
  match keys, recv with
  | k :: ks, (m, x) :: rs =>
      if negb (Bool.eqb x (getLSB m)) then DErr 1 else
      let k := set_zero_bit k in
      let mac := N.lxor k (choice d x) in
      if negb (N.eqb mac m) then DErr 2 else
      match bchk_auth d ks rs with DOk ks' => DOk (k :: ks') | e => e end
  | _, _ => DOk keys
  end.
(** emp-zk-bool/ostriple.h:312-347  check_compute_and, verifier: three key arrays, three received arrays; the keys are
    copied, so nothing is overwritten *)
Definition bchk_one (d k m : N) (x : bool) : bool := N.eqb (N.lxor (set_zero_bit k) (choice d x)) m.
Fixpoint bchk_and (d : N) (keys recv : list (N * N * N)) : option nat :=
  match keys, recv with
  | (a, b, c) :: ks, (ma, mb, mc) :: rs =>
      let ar := getLSB ma in let br := getLSB mb in let cr := getLSB mc in
      if negb (Bool.eqb cr (ar && br)) then Some 3 else
      if negb (bchk_one d a ma ar) then Some 4 else
      if negb (bchk_one d b mb br) then Some 5 else
      if negb (bchk_one d c mc cr) then Some 6 else bchk_and d ks rs
  | _, _ => None
  end.

(** ** field elements *)
(** __uint128_t multiplication (wraps modulo 2^128) *)
Definition mul128 (a b : N) : N := ((a * b) mod W128)%N.
(** the expression tested in emp-zk-arith/ostriple.h:483-485 and vole_triple.h:291-293 *)
Definition dbg_mac (d x key : N) : N :=
  let mac := mod128 (mul128 x d) PR in mod128 (add128 mac key) PR.
(** emp-zk-arith/ostriple.h:476-492  check_auth_mac, verifier: [Some i] is the index printed before abort() *)
Fixpoint achk_auth (d : N) (i : nat) (keys recv : list N) : option nat :=
  match keys, recv with
  | k :: ks, r :: rs => if N.eqb (lo64 r) (dbg_mac d (hi64 r) k) then achk_auth d (S i) ks rs else Some i
  | _, _ => None
  end.
(** emp-zk-arith/ostriple.h:494-520  check_compute_mul, verifier: keys of the three arrays (those of a and b are never
    read), received blocks.  Code 1 is "wrong product", code 2 "wrong mac". *)
Fixpoint achk_mul (d : N) (keys recv : list (N * N * N)) : option nat :=
  match keys, recv with
  | (_, _, c) :: ks, (ar, br, cr) :: rs =>
      let product := mod128 (mul128 (hi64 ar) (hi64 br)) PR in
      if negb (N.eqb product (hi64 cr)) then Some 1 else
      let mac := mod128 (mul128 product d) PR in
      let mac := mod128 (add128 mac c) PR in
      if negb (N.eqb mac (lo64 cr)) then Some 2 else achk_mul d ks rs
  | _, _ => None
  end.
(** vole_triple.h:280-299  check_triple on BOB's side: his blocks y, the received delta and k *)
Definition vchk_triple (delta : N) (ys ks : list N) : option nat := achk_auth delta 0 ks ys.
(** cope.h:206-225  check_triple on BOB's side: his 64-bit a and 128-bit b, the received delta and c *)
Fixpoint cchk_triple (delta : N) (i : nat) (a b c : list N) : option nat :=
  match a, b, c with
  | x :: xs, y :: ys, k :: ks =>
      let tmp := mod128 (mul128 x delta) PR in
      let tmp := mod128 (add128 tmp k) PR in
      if N.eqb tmp y then cchk_triple delta (S i) xs ys ks else Some i
  | _, _, _ => None
  end.
(** mpfss_reg.h:250-287  check_correctness on the receiver's side; [vector] and [sendervec] have leave_n entries *)
Inductive tree_dbg := TPass | TNode (i : nat) | TSecret | TTriple.
Fixpoint tchk_nodes (pos i : nat) (vector sendervec : list N) : option nat :=
  match vector, sendervec with
  | v :: vs, s :: ss => if Nat.eqb i pos then tchk_nodes pos (S i) vs ss
                        else if N.eqb v s then tchk_nodes pos (S i) vs ss else Some i
  | _, _ => None
  end.
Definition tchk (vector sendervec : list N) (pos : nat) (delta beta x y z : N) : tree_dbg :=
  match tchk_nodes pos 0 vector sendervec with
  | Some i => TNode i
  | None =>
      let s := mod128 (mul128 delta beta) PR in
      let s := mod128 (add128 s (nth pos sendervec 0%N)) PR in
      if negb (N.eqb s (nth pos vector 0%N)) then TSecret else
      let t := mod128 (mul128 delta x) PR in
      let t := mod128 (add128 t y) PR in
      if negb (N.eqb t z) then TTriple else TPass
  end.

(** ** the helper mu = c - z + sigma a + epsilon b + epsilon sigma on authenticated values *)
(** emp-zk-arith/ostriple.h:368-377  compute_mu_prv; epsilon and sigma are blocks carrying the value in the high word *)
Definition mu_prv (z1 a b c epsilon sigma : N) : N :=
  let tmp1 := a_prv_sub c z1 in
  let tmp2 := a_prv_mulc a (hi64 sigma) in
  let tmp3 := a_prv_mulc b (hi64 epsilon) in
  let tmp4 := mod128 (mul128 (hi64 epsilon) (hi64 sigma)) PR in
  let tmp1 := a_prv_add2 tmp1 tmp2 in
  let tmp1 := a_prv_add2 tmp1 tmp3 in
  a_prv_addc tmp1 tmp4.
(** emp-zk-arith/ostriple.h:378-387  compute_mu_vrf; epsilon and sigma are the opened values *)
Definition mu_vrf (delta z1 a b c epsilon sigma : N) : N :=
  let tmp1 := a_ver_sub c z1 in
  let tmp2 := a_ver_mulc a sigma in
  let tmp3 := a_ver_mulc b epsilon in
  let tmp4 := mod128 (mul128 epsilon sigma) PR in
  let tmp1 := a_ver_add2 tmp1 tmp2 in
  let tmp1 := a_ver_add2 tmp1 tmp3 in
  a_ver_addc delta tmp1 tmp4.
(** emp-zk-arith/ostriple.h:389-409  the _opt forms: la, lb in place of epsilon, sigma and mult_mod for the constant *)
Definition mu_prv_opt (la lb eta_wr a b c : N) : N :=
  let tmp1 := a_prv_sub c eta_wr in
  let tmp2 := a_prv_mulc a (hi64 lb) in
  let tmp3 := a_prv_mulc b (hi64 la) in
  let tmp4 := mult_mod (hi64 la) (hi64 lb) in
  let tmp1 := a_prv_add2 tmp1 tmp2 in
  let tmp1 := a_prv_add2 tmp1 tmp3 in
  a_prv_addc tmp1 tmp4.
Definition mu_vrf_opt (delta la lb eta_wr a b c : N) : N :=
  let tmp1 := a_ver_sub c eta_wr in
  let tmp2 := a_ver_mulc a lb in
  let tmp3 := a_ver_mulc b la in
  let tmp4 := mult_mod (lo64 la) (lo64 lb) in
  let tmp1 := a_ver_add2 tmp1 tmp2 in
  let tmp1 := a_ver_add2 tmp1 tmp3 in
  a_ver_addc delta tmp1 tmp4.
