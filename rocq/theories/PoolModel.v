(** Model of the hand-out logic of /repo/emp-zk/emp-vole/vole_triple.h: extend(data, num),
    extend_inplace, byte_memory_need_inplace.

    Simplifications:
    - [item it p] is what position p of the it-th run of extend(buffer) (vole_triple.h:137-145) contains;
      what these values are is the subject of VoleModel.  A run stores its n results at the given address
      and copies the last M of them to pre_yz as seeds of the next run.
    - int arithmetic is exact (Z); C++ division truncates toward zero (Z.quot).
    - Arrays are total functions, so a write past the end of the caller's array is visible as a change of a
      cell with index >= num. *)
From Coq Require Import ZArith List Arith Bool.
Import ListNotations.

(** client requests *)
Inductive req := Take (num : nat) | TakeInplace (runs : nat).

Section Pool.
  Context {A : Type}.
  Variable item : nat -> nat -> A.
  Variables (n M : nat).
  (** :114-117 *)
  Definition lim : Z := (Z.of_nat n - Z.of_nat M)%Z.
  Definition arr := nat -> A.
  Record pst := { ps_pool : arr; ps_used : Z; ps_it : nat }.
  (** memcpy(dst + at, src + from, len) *)
  Definition memcpy (dst : arr) (at_ : nat) (src : arr) (from len : nat) : arr :=
    fun i => if (at_ <=? i) && (i <? at_ + len) then src (from + (i - at_)) else dst i.
  (** extend(buffer) :137-145 at buffer = dst + at *)
  Definition raw (it : nat) (dst : arr) (at_ : nat) : arr := memcpy dst at_ (item it) 0 n.
  (** loop :239-243 *)
  Fixpoint inplace (cnt : nat) (st : pst) (data : arr) (pt : Z) : pst * arr * Z :=
    match cnt with
    | 0 => (st, data, pt)
    | S c => inplace c {| ps_pool := ps_pool st; ps_used := lim; ps_it := S (ps_it st) |}
               (raw (ps_it st) data (Z.to_nat pt)) (pt + lim)
    end.
  Definition left (st : pst) : Z := (lim - ps_used st)%Z.
  (** :216-255 extend(data_yz, num) *)
  Definition extend (num : Z) (st : pst) (data : arr) : pst * arr :=
    if (num <=? left st)%Z
    then ({| ps_pool := ps_pool st; ps_used := ps_used st + num; ps_it := ps_it st |},
          memcpy data 0 (ps_pool st) (Z.to_nat (ps_used st)) (Z.to_nat num))
    else
      let gened := left st in
      let '(data, pt) := if (0 <? gened)%Z
                         then (memcpy data 0 (ps_pool st) (Z.to_nat (ps_used st)) (Z.to_nat gened), gened)
                         else (data, 0%Z) in
      let round_inplace := Z.quot (num - gened - Z.of_nat M) lim in
      let last := (num - gened - round_inplace * lim)%Z in
      let round_memcpy := (lim <? last)%Z in
      let last := if round_memcpy then (last - lim)%Z else last in
      let '(st, data, pt) := inplace (Z.to_nat round_inplace) st data pt in
      let '(st, data, pt) :=
        if round_memcpy
        then let pool := raw (ps_it st) (ps_pool st) 0 in
             ({| ps_pool := pool; ps_used := lim; ps_it := S (ps_it st) |},
              memcpy data (Z.to_nat pt) pool 0 (Z.to_nat lim), (pt + lim)%Z)
        else (st, data, pt) in
      if (0 <? last)%Z
      then let pool := raw (ps_it st) (ps_pool st) 0 in
           ({| ps_pool := pool; ps_used := last; ps_it := S (ps_it st) |},
            memcpy data (Z.to_nat pt) pool 0 (Z.to_nat last))
      else (st, data).
  (** :257-271 extend_inplace; None = error (space not enough / wrong length) *)
  Fixpoint inplace2 (cnt : nat) (st : pst) (data : arr) (pt : Z) : pst * arr :=
    match cnt with
    | 0 => (st, data)
    | S c => inplace2 c {| ps_pool := ps_pool st; ps_used := ps_used st; ps_it := S (ps_it st) |}
               (raw (ps_it st) data (Z.to_nat pt)) (pt + lim)
    end.
  Definition extend_inplace (space : Z) (st : pst) (data : arr) : option (pst * arr * Z) :=
    if (space <? Z.of_nat n)%Z then None else
    let tp := (space - Z.of_nat M)%Z in
    if negb (Z.rem tp lim =? 0)%Z then None else
    Some (inplace2 (Z.to_nat (Z.quot tp lim)) st data 0, tp).
  (** :273-276 *)
  Definition memory_need (need : Z) : Z := (Z.quot (need - 1) lim * lim + Z.of_nat n)%Z.
  (** :108-119 after extend_initialization *)
  Definition pool_init (garbage : arr) : pst := {| ps_pool := garbage; ps_used := lim; ps_it := 0 |}.
  (** a client session: any sequence of calls of extend (Take) and of extend_inplace with a buffer of
      byte_memory_need_inplace(r * ot_limit) entries (TakeInplace r), each into its own buffer; the result lists what each
      call delivered *)
  Fixpoint run_session (rs : list req) (st : pst) (bufs : nat -> arr) : option (list (list A) * pst) :=
    match rs with
    | [] => Some ([], st)
    | Take num :: rs =>
        let '(st, d) := extend (Z.of_nat num) st (bufs 0) in
        match run_session rs st (fun i => bufs (S i)) with
        | Some (o, st) => Some (map d (seq 0 num) :: o, st) | None => None end
    | TakeInplace r :: rs =>
        match extend_inplace (Z.of_nat (r * (n - M) + M)) st (bufs 0) with
        | Some (st, d, cnt) =>
            match run_session rs st (fun i => bufs (S i)) with
            | Some (o, st) => Some (map d (seq 0 (Z.to_nat cnt)) :: o, st) | None => None end
        | None => None
        end
    end.
End Pool.
Arguments pst : clear implicits.
Arguments arr : clear implicits.
