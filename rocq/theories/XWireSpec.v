(** What the data messages read by the verifier of a session with both engines stand for, as a function of the program alone. *)
From Coq Require Import NArith List Bool Arith.
From Verif Require Import Word BoolModel BoolPolyModel BSessModel ArithModel XWireModel BWireSpec.
Import ListNotations.

(** reply of an AND check, of a boolean relation check, digest of the boolean openings, correction or opening of the arithmetic
    engine, reply of a multiplication check, of an arithmetic relation check, digest of the arithmetic openings, data block *)
Inductive xrole := RAnd | RRel | RDigB | RWord | RMul | RPoly | RDigA | RData.
Definition xrole_eqb (a b : xrole) : bool :=
  match a, b with
  | RAnd, RAnd | RRel, RRel | RDigB, RDigB | RWord, RWord | RMul, RMul | RPoly, RPoly | RDigA, RDigA | RData, RData => true
  | _, _ => false
  end.
Definition when (b : bool) (r : xrole) : list xrole := if b then [r] else [].
(** [m], [p]: lengths of the queues of multiplications and of arithmetic relations; the result contains the new lengths *)
Definition a_roles (acsz apsz : nat) (g : agate) (m p : nat) : list xrole * nat * nat :=
  match g with
  | AIn _ | AReveal _ | ACheck _ _ => ([RWord], m, p)
  | AMul _ _ => if Nat.eqb m acsz then ([RMul; RWord], 1, p) else ([RWord], S m, p)
  | APoly _ _ _ | AInner _ _ _ => if Nat.leb apsz p && negb (Nat.eqb p 0) then ([RPoly], m, 1) else ([], m, S p)
  | _ => ([], m, p)
  end.
(** [g], [q]: lengths of the queues of AND gates and of boolean relations *)
Fixpoint xroles (csz psz acsz apsz g q m p : nat) (prog : list xop) : list xrole :=
  match prog with
  | [] => when (negb (Nat.eqb q 0)) RRel ++ when (negb (Nat.eqb g 0)) RAnd ++ [RDigB] ++
          when (negb (Nat.eqb p 0)) RPoly ++ when (negb (Nat.eqb m 0)) RMul ++ [RDigA]
  | XB (OGate (GAnd _ _)) :: r => if Nat.eqb g csz then RAnd :: xroles csz psz acsz apsz 1 q m p r else xroles csz psz acsz apsz (S g) q m p r
  | XB (OGate _) :: r => xroles csz psz acsz apsz g q m p r
  | XB (OPoly c) :: r => let (l, q') := item_roles psz (nrel c) q in map (fun _ => RRel) l ++ xroles csz psz acsz apsz g q' m p r
  | XA a :: r => let '(l, m', p') := a_roles acsz apsz a m p in l ++ xroles csz psz acsz apsz g q m' p' r
  | XData true _ :: r => RData :: xroles csz psz acsz apsz g q m p r
  | XData false _ :: r => xroles csz psz acsz apsz g q m p r
  | XSync :: r => xroles csz psz acsz apsz g q m p r
  end.
(** the messages of one role *)
Fixpoint xpick {A} (r : xrole) (rl : list xrole) (ds : list A) : list A :=
  match rl, ds with
  | r' :: rl', x :: ds' => if xrole_eqb r r' then x :: xpick r rl' ds' else xpick r rl' ds'
  | _, _ => []
  end.
