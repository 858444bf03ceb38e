(** How many bytes the verifier of a session with both engines sends. *)
From Coq Require Import NArith List Bool Arith.
From Verif Require Import BoolModel BoolIOModel BoolPolyModel ArithModel BSessModel WireModel BWireSpec XWireModel CommSpec.
Import ListNotations.

(** a run together with the number of bytes the second party has sent *)
Section Run.
  Variables (bs br reset : bool) (NB : nat).
  Context {RP RV : Type}.
  Inductive vcounted (n0 : @net RP RV) : nat -> net -> Prop :=
  | VStart : vcounted n0 0 n0
  | VOther c P e V r sr rs P' e' o rs' : vcounted n0 c {| n_p := P; n_s := e; n_v := V; n_r := r; n_sr := sr; n_rs := rs |} ->
      s_proc bs reset NB P e rs = Some (P', e', o, rs') ->
      vcounted n0 c {| n_p := P'; n_s := e'; n_v := V; n_r := r; n_sr := sr ++ o; n_rs := rs' |}
  | VSend c P e V r sr rs V' r' o sr' : vcounted n0 c {| n_p := P; n_s := e; n_v := V; n_r := r; n_sr := sr; n_rs := rs |} ->
      r_proc br reset NB V r sr = Some (V', r', o, sr') ->
      vcounted n0 (c + length o) {| n_p := P; n_s := e; n_v := V'; n_r := r'; n_sr := sr'; n_rs := rs ++ o |}.
End Run.

(** [q] boolean relations, [m] multiplications, [p] arithmetic relations not yet checked; a seed of 16 bytes for a check of boolean
    relations or multiplications, a challenge of 8 bytes for a check of arithmetic relations, nothing for AND gates, whose challenge is
    taken from the transcript (emp-zk-bool/polynomial.h:76-77, emp-zk-arith/ostriple.h:350-351, emp-zk-arith/polynomial.h:64-66,
    emp-zk-bool/ostriple.h:146) *)
Fixpoint vcomm (psz acsz apsz q m p : nat) (prog : list xop) : nat :=
  match prog with
  | [] => some q 16 + some p 8 + some m 16
  | XB (OGate _) :: r => vcomm psz acsz apsz q m p r
  | XB (OPoly c) :: r => let (checks, q') := rels psz (nrel c) q in 16 * checks + vcomm psz acsz apsz q' m p r
  | XA (AMul _ _) :: r => if Nat.eqb m acsz then 16 + vcomm psz acsz apsz q 1 p r else vcomm psz acsz apsz q (S m) p r
  | XA (APoly _ _ _ | AInner _ _ _) :: r =>
      if Nat.leb apsz p && negb (Nat.eqb p 0) then 8 + vcomm psz acsz apsz q m 1 r else vcomm psz acsz apsz q m (S p) r
  | XA _ :: r => vcomm psz acsz apsz q m p r
  | XData true _ :: r => vcomm psz acsz apsz q m p r
  | XData false x :: r => length x + vcomm psz acsz apsz q m p r
  | XSync :: r => vcomm psz acsz apsz q m p r
  end.
