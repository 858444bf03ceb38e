(** Model of /repo/emp-zk/emp-zk-bool/bool_io.h (class BoolIO) and of two endpoints running it
    concurrently over a reliable byte channel in each direction.

    Simplifications:
    - The underlying IO delivers bytes reliably and in order, with unbounded buffering (its own
      flush() is therefore not modelled).
    - The Hash object is the byte string put into it since its last reset; whether digest() resets
      it (emp-tool) is a parameter [reset].
    - NETWORK_BUFFER_SIZE2 (emp-tool) is a parameter [NB]; the theorems only assume NB >= 1.
    - [tmp_arr] only grows to length/8 and is a scratch buffer; it is a returned list here.
    - A bool is stored in memory as one byte 0/1; eight of them are read little-endian as data64[i]. *)
From Coq Require Import NArith List Bool Arith.
From Verif Require Import Word.
Import ListNotations.

(** * Packing of eight bools, :76-95 and :109-130 *)
Definition b01 (b : bool) : N := if b then 1%N else 0%N.
(** data64[i] of eight bools *)
Fixpoint word_of_bools (l : list bool) : N :=
  match l with [] => 0%N | b :: l' => (b01 b + 256 * word_of_bools l')%N end.
Fixpoint bools_of_word (n : nat) (w : N) : list bool :=
  match n with 0 => [] | S n' => negb (N.eqb (w mod 256) 0) :: bools_of_word n' (w / 256)%N end.
Definition bmask : N := 0x0101010101010101.
Definition neg64 (x : N) : N := ((W64 - x) mod W64)%N.
(** :91-96  portable packing loop; fuel = number of bits of mask *)
Fixpoint pack_loop (fuel : nat) (data mask bb tmp : N) : N :=
  match fuel with
  | 0 => tmp
  | S f => if N.eqb mask 0 then tmp else
           let tmp := if N.eqb (N.land (N.land data mask) (neg64 mask)) 0 then tmp else N.lor tmp bb in
           pack_loop f data (N.land mask (mask - 1)) (add64 bb bb) tmp
  end.
(** _pext_u64 (:88): bits of [data] selected by [mask], packed; i is the source bit, k the target *)
Fixpoint pext (n : nat) (i k data mask : N) : N :=
  match n with
  | 0 => 0%N
  | S n' => if N.testbit mask i
            then N.lor (N.shiftl (b01 (N.testbit data i)) k) (pext n' (i + 1) (k + 1) data mask)
            else pext n' (i + 1) k data mask
  end.
Definition pack8 (bmi2 : bool) (l : list bool) : N :=
  let w := word_of_bools l in
  ((if bmi2 then pext 64 0 0 w bmask else pack_loop 64 w bmask 1 0) mod 256)%N.
(** :123-129  portable unpacking loop *)
Fixpoint unpack_loop (fuel : nat) (tmp mask bb data : N) : N :=
  match fuel with
  | 0 => data
  | S f => if N.eqb mask 0 then data else
           let data := if N.eqb (N.land tmp bb) 0 then data else N.lor data (N.land mask (neg64 mask)) in
           unpack_loop f tmp (N.land mask (mask - 1)) (add64 bb bb) data
  end.
(** _pdep_u64 (:120) *)
Fixpoint pdep (n : nat) (i k tmp mask : N) : N :=
  match n with
  | 0 => 0%N
  | S n' => if N.testbit mask i
            then N.lor (N.shiftl (b01 (N.testbit tmp k)) i) (pdep n' (i + 1) (k + 1) tmp mask)
            else pdep n' (i + 1) k tmp mask
  end.
Definition unpack8 (bmi2 : bool) (byte : N) : list bool :=
  bools_of_word 8 (if bmi2 then pdep 64 0 0 byte bmask else unpack_loop 64 byte bmask 1 0).

(** :76-107 send_bool_raw: bytes put on the wire and into the hash *)
Fixpoint pack_blocks (bmi2 : bool) (n : nat) (data : list bool) : list N :=
  match n with 0 => [] | S n' => pack8 bmi2 (firstn 8 data) :: pack_blocks bmi2 n' (skipn 8 data) end.
Definition send_bool_raw (bmi2 : bool) (data : list bool) : list N :=
  let n := length data / 8 in
  pack_blocks bmi2 n data ++ map b01 (skipn (8 * n) data).
(** :108-134 recv_bool_raw: [None] = not enough bytes yet (blocks).  Result: bools, bytes hashed, rest. *)
Definition recv_bool_raw (bmi2 : bool) (length' : nat) (ch : list N) : option (list bool * list N * list N) :=
  let n := length' / 8 in
  let tail := length' - 8 * n in
  if Nat.ltb (length ch) (n + tail) then None else
  let bytes := firstn n ch in
  let rest := firstn tail (skipn n ch) in
  Some (flat_map (unpack8 bmi2) bytes ++ map (fun b => negb (N.eqb b 0)) rest,
        bytes ++ rest, skipn (n + tail) ch).

(** * The endpoints.  Reads are logged. *)
Inductive rd := RdBit (b : bool) | RdData (bs : list N).
Record ep := { e_buf : list bool; e_ptr : nat; e_hash : list N;
               e_reads : list rd; e_digests : list (list N) (* inputs of get_hash_block calls *) }.
Fixpoint upd (l : list bool) (i : nat) (b : bool) : list bool :=
  match l, i with
  | [], _ => []
  | _ :: l', 0 => b :: l'
  | x :: l', S i' => x :: upd l' i' b
  end.
(** * Schedules.  A schedule is executed by both endpoints; sender-to-receiver data is [OData true]. *)
Inductive op :=
| OBit (b : bool)                       (* send_bit on the sender, recv_bit on the receiver *)
| OData (fromS : bool) (bs : list N)    (* send_data_internal / recv_data_internal :64-74 *)
| OFlush                                (* flush on both sides *)
| OChallenge                            (* flush followed by get_hash_block *)
| OHashOnly.                            (* get_hash_block without flush *)
(** atomic actions; the conditional flush of send/recv_data_internal is separate from the
    (possibly blocking) transfer *)
Inductive act := ABit (b : bool) | AAlign (fromS : bool) | AXfer (fromS : bool) (bs : list N) | AFlush | AHash.
Definition compile1 (o : op) : list act :=
  match o with
  | OBit b => [ABit b]
  | OData d bs => [AAlign d; AXfer d bs]
  | OFlush => [AFlush]
  | OChallenge => [AFlush; AHash]
  | OHashOnly => [AHash]
  end.
Definition compile (os : list op) : list act := flat_map compile1 os.

Section IO.
  Variables (bmi2 reset : bool) (NB : nat).
  (** :15-21 constructor *)
  Definition ep_init (garbage : list bool) (sender : bool) : ep :=
    {| e_buf := garbage; e_ptr := if sender then 0 else NB; e_hash := []; e_reads := []; e_digests := [] |}.
  Definition set_ptr (e : ep) (p : nat) : ep :=
    {| e_buf := e_buf e; e_ptr := p; e_hash := e_hash e; e_reads := e_reads e; e_digests := e_digests e |}.
  (** :45-52 send_bit: new state and bytes sent *)
  Definition send_bit (e : ep) (data : bool) : ep * list N :=
    let buf := upd (e_buf e) (e_ptr e) data in
    let ptr := S (e_ptr e) in
    if Nat.eqb ptr NB
    then let o := send_bool_raw bmi2 buf in
         ({| e_buf := buf; e_ptr := 0; e_hash := e_hash e ++ o; e_reads := e_reads e; e_digests := e_digests e |}, o)
    else ({| e_buf := buf; e_ptr := ptr; e_hash := e_hash e; e_reads := e_reads e; e_digests := e_digests e |}, []).
  (** :26-37 flush; the loop runs at most NB times *)
  Fixpoint flush_loop (fuel : nat) (e : ep) : ep * list N :=
    match fuel with
    | 0 => (e, [])
    | S f => if Nat.eqb (e_ptr e) 0 then (e, []) else
             let '(e1, o1) := send_bit e true in
             let '(e2, o2) := flush_loop f e1 in (e2, o1 ++ o2)
    end.
  Definition flush_s (e : ep) : ep * list N := flush_loop NB e.
  Definition flush_r (e : ep) : ep := set_ptr e NB.
  (** :54-62 recv_bit; [None] blocks *)
  Definition recv_bit (e : ep) (ch : list N) : option (bool * ep * list N) :=
    let take e ch :=
      let res := nth (e_ptr e) (e_buf e) false in
      (res, {| e_buf := e_buf e; e_ptr := S (e_ptr e); e_hash := e_hash e;
               e_reads := e_reads e ++ [RdBit res]; e_digests := e_digests e |}, ch) in
    if Nat.eqb (e_ptr e) NB
    then match recv_bool_raw bmi2 NB ch with
         | None => None
         | Some (bits, h, ch') =>
             Some (take {| e_buf := bits; e_ptr := 0; e_hash := e_hash e ++ h;
                           e_reads := e_reads e; e_digests := e_digests e |} ch')
         end
    else Some (take e ch).
  (** :39-43 get_hash_block *)
  Definition get_hash (e : ep) : ep :=
    {| e_buf := e_buf e; e_ptr := e_ptr e; e_hash := if reset then [] else e_hash e;
       e_reads := e_reads e; e_digests := e_digests e ++ [e_hash e] |}.
  (** io->recv_data (:73) *)
  Definition raw_read (e : ep) (len : nat) (ch : list N) : option (ep * list N) :=
    if Nat.ltb (length ch) len then None else
    Some ({| e_buf := e_buf e; e_ptr := e_ptr e; e_hash := e_hash e;
             e_reads := e_reads e ++ [RdData (firstn len ch)]; e_digests := e_digests e |}, skipn len ch).

  (** one action of the sender; [chin]: bytes in flight from the receiver *)
  Definition s_act (e : ep) (a : act) (chin : list N) : option (ep * list N * list N) :=
    match a with
    | ABit b => let '(e', o) := send_bit e b in Some (e', o, chin)
    | AAlign true =>                                      (* send_data_internal :65-66 *)
        let '(e', o) := if Nat.eqb (e_ptr e) 0 then (e, []) else flush_s e in Some (e', o, chin)
    | AAlign false =>                                     (* recv_data_internal :71-72 *)
        let '(e', o) := if Nat.eqb (e_ptr e) NB then (e, []) else flush_s e in Some (e', o, chin)
    | AXfer true bs => Some (e, bs, chin)
    | AXfer false bs => match raw_read e (length bs) chin with
                        | None => None | Some (e', ch') => Some (e', [], ch') end
    | AFlush => let '(e', o) := flush_s e in Some (e', o, chin)
    | AHash => Some (get_hash e, [], chin)
    end.
  (** one action of the receiver *)
  Definition r_act (e : ep) (a : act) (chin : list N) : option (ep * list N * list N) :=
    match a with
    | ABit _ => match recv_bit e chin with
                | None => None | Some (_, e', ch') => Some (e', [], ch') end
    | AAlign true => Some (if Nat.eqb (e_ptr e) NB then e else flush_r e, [], chin)
    | AAlign false => Some (if Nat.eqb (e_ptr e) 0 then e else flush_r e, [], chin)
    | AXfer true bs => match raw_read e (length bs) chin with
                       | None => None | Some (e', ch') => Some (e', [], ch') end
    | AXfer false bs => Some (e, bs, chin)
    | AFlush => Some (flush_r e, [], chin)
    | AHash => Some (get_hash e, [], chin)
    end.
End IO.
(** * Interleaved execution; the endpoints may run on different platforms ([bs], [br]: BMI2 available) *)
Section Conf.
  Variables (bs br reset : bool) (NB : nat).
  Record conf := { k_s : ep; k_sl : list act; k_r : ep; k_rl : list act;
                   k_sr : list N (* in flight to the receiver *); k_rs : list N }.
  Inductive kstep : conf -> conf -> Prop :=
  | KS e a l r rl sr rs e' o rs' : s_act bs reset NB e a rs = Some (e', o, rs') ->
      kstep {| k_s := e; k_sl := a :: l; k_r := r; k_rl := rl; k_sr := sr; k_rs := rs |}
            {| k_s := e'; k_sl := l; k_r := r; k_rl := rl; k_sr := sr ++ o; k_rs := rs' |}
  | KR e sl r a l sr rs r' o sr' : r_act br reset NB r a sr = Some (r', o, sr') ->
      kstep {| k_s := e; k_sl := sl; k_r := r; k_rl := a :: l; k_sr := sr; k_rs := rs |}
            {| k_s := e; k_sl := sl; k_r := r'; k_rl := l; k_sr := sr'; k_rs := rs ++ o |}.
  Inductive ksteps : conf -> conf -> Prop :=
  | KRefl c : ksteps c c
  | KTrans c c' c'' : ksteps c c' -> kstep c' c'' -> ksteps c c''.
  (** both endpoints run the schedule and then the destructor's flush (:22-25) *)
  Definition k_init (gs gr : list bool) (os : list op) : conf :=
    let l := compile (os ++ [OFlush]) in
    {| k_s := ep_init NB gs true; k_sl := l; k_r := ep_init NB gr false; k_rl := l; k_sr := []; k_rs := [] |}.
  Definition k_done (c : conf) : Prop := k_sl c = [] /\ k_rl c = [].
End Conf.
