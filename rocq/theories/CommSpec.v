(** How many bytes the prover of a session with both engines sends (communication(): emp-zk-bool/ostriple.h:84-89,
    emp-zk-arith/ostriple.h:467-472, bool_io.h:102, 107). *)
From Coq Require Import NArith List Bool Arith.
From Verif Require Import BoolModel BoolIOModel BoolPolyModel ArithModel BSessModel WireModel BWireSpec XWireModel.
Import ListNotations.

(** a run together with the number of bytes the first party has sent *)
Section Run.
  Variables (bs br reset : bool) (NB : nat).
  Context {RP RV : Type}.
  Inductive counted (n0 : @net RP RV) : nat -> net -> Prop :=
  | CStart : counted n0 0 n0
  | CSend c P e V r sr rs P' e' o rs' : counted n0 c {| n_p := P; n_s := e; n_v := V; n_r := r; n_sr := sr; n_rs := rs |} ->
      s_proc bs reset NB P e rs = Some (P', e', o, rs') ->
      counted n0 (c + length o) {| n_p := P'; n_s := e'; n_v := V; n_r := r; n_sr := sr ++ o; n_rs := rs' |}
  | COther c P e V r sr rs V' r' o sr' : counted n0 c {| n_p := P; n_s := e; n_v := V; n_r := r; n_sr := sr; n_rs := rs |} ->
      r_proc br reset NB V r sr = Some (V', r', o, sr') ->
      counted n0 c {| n_p := P; n_s := e; n_v := V'; n_r := r'; n_sr := sr'; n_rs := rs ++ o |}.
End Run.

Section Count.
  Variables (NB csz psz acsz apsz : nat).
  (** a buffer of NB bits on the wire: eight to a byte, the rest one to a byte *)
  Definition block_bytes : nat := NB / 8 + NB mod 8.
  (** sending the padded buffer, if there are bits in it *)
  Definition fl (bits : nat) : nat := if Nat.eqb bits 0 then 0 else block_bytes.
  (** one more bit: bytes sent, bits in the buffer *)
  Definition bit_bytes (bits : nat) : nat := if Nat.eqb (S bits) NB then block_bytes else 0.
  Definition bit_next (bits : nat) : nat := if Nat.eqb (S bits) NB then 0 else S bits.
  (** [n] more relations after [q] queued ones: checks, relations queued afterwards *)
  Fixpoint rels (n q : nat) : nat * nat :=
    match n with
    | 0 => (0, q)
    | S n' => if Nat.leb psz q then let (c, q') := rels n' 1 in (S c, q') else rels n' (S q)
    end.
  Definition some (n : nat) (bytes : nat) : nat := if Nat.eqb n 0 then 0 else bytes.
  (** [bits] in the buffer; [g] AND gates, [q] boolean relations, [m] multiplications, [p] arithmetic relations not yet checked *)
  Fixpoint comm (bits g q m p : nat) (prog : list xop) : nat :=
    match prog with
    | [] => fl bits + some q 32 + some g 32 + 32 + some p 16 + some m 16 + 32
    | XB (OGate (GIn _ | GReveal _)) :: r => bit_bytes bits + comm (bit_next bits) g q m p r
    | XB (OGate (GAnd _ _)) :: r =>
        if Nat.eqb g csz then fl bits + 32 + (bit_bytes 0 + comm (bit_next 0) 1 q m p r)
        else bit_bytes bits + comm (bit_next bits) (S g) q m p r
    | XB (OGate _) :: r => comm bits g q m p r
    | XB (OPoly c) :: r =>
        let (checks, q') := rels (nrel c) q in
        some checks (fl bits + 32 * checks) + comm (if Nat.eqb checks 0 then bits else 0) g q' m p r
    | XA (AIn _ | AReveal _ | ACheck _ _) :: r => fl bits + 8 + comm 0 g q m p r
    | XA (AMul _ _) :: r => if Nat.eqb m acsz then fl bits + 16 + (8 + comm 0 g q 1 p r) else fl bits + 8 + comm 0 g q (S m) p r
    | XA (APoly _ _ _ | AInner _ _ _) :: r =>
        if Nat.leb apsz p && negb (Nat.eqb p 0) then fl bits + 16 + comm 0 g q m 1 r else comm bits g q m (S p) r
    | XA _ :: r => comm bits g q m p r
    | XData true x :: r => fl bits + length x + comm 0 g q m p r
    | XData false _ :: r => fl bits + comm 0 g q m p r
    | XSync :: r => fl bits + comm 0 g q m p r
    end.
End Count.
