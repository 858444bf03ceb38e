(** Hiding in a session with both engines on one channel: what the messages read by the prover stand for, and what a verifier program
    sees of a run. *)
From Coq Require Import NArith List Bool Arith.
From Verif Require Import Word FpModel BoolModel BoolIOModel BoolPolyModel BSessModel BSessSpec HideSpec BSessHideSpec ArithModel ArithSpec AHideSpec
  WireModel BWireSpec BWireHideSpec XWireModel XWireThms.
Import ListNotations.

(** challenge of a boolean relation check, of a multiplication check, of an arithmetic relation check, data block *)
Inductive urole := URel | UMul | UPoly | UData.
Definition urole_eqb (a b : urole) : bool := match a, b with URel, URel | UMul, UMul | UPoly, UPoly | UData, UData => true | _, _ => false end.
Definition uif (b : bool) (r : urole) : list urole := if b then [r] else [].
(** [q], [m], [p]: lengths of the queues of boolean relations, multiplications and arithmetic relations *)
Fixpoint uroles (psz acsz apsz q m p : nat) (prog : list xop) : list urole :=
  match prog with
  | [] => uif (negb (Nat.eqb q 0)) URel ++ uif (negb (Nat.eqb p 0)) UPoly ++ uif (negb (Nat.eqb m 0)) UMul
  | XB (OGate _) :: r => uroles psz acsz apsz q m p r
  | XB (OPoly c) :: r => let (l, q') := item_roles psz (nrel c) q in map (fun _ => URel) l ++ uroles psz acsz apsz q' m p r
  | XA (AMul _ _) :: r => if Nat.eqb m acsz then UMul :: uroles psz acsz apsz q 1 p r else uroles psz acsz apsz q (S m) p r
  | XA (APoly _ _ _ | AInner _ _ _) :: r =>
      if Nat.leb apsz p && negb (Nat.eqb p 0) then UPoly :: uroles psz acsz apsz q m 1 r else uroles psz acsz apsz q m (S p) r
  | XA _ :: r => uroles psz acsz apsz q m p r
  | XData true _ :: r => uroles psz acsz apsz q m p r
  | XData false _ :: r => UData :: uroles psz acsz apsz q m p r
  | XSync :: r => uroles psz acsz apsz q m p r
  end.
Fixpoint upick {A} (r : urole) (rl : list urole) (ds : list A) : list A :=
  match rl, ds with
  | r' :: rl', x :: ds' => if urole_eqb r r' then x :: upick r rl' ds' else upick r rl' ds'
  | _, _ => []
  end.
Definition rd_bytes (r : rd) : list N := match r with RdData x => x | RdBit _ => [] end.
(** what an endpoint of the prover has read in one role *)
Definition u_of (psz acsz apsz : nat) (prog : list xop) (e : ep) (r : urole) : list (list N) :=
  upick r (uroles psz acsz apsz 0 0 0 prog) (map rd_bytes (e_reads e)).
(** the program with the calls of the two engines replaced, in order; with other private inputs *)
Fixpoint xwith (bo : list bop) (ao : list agate) (prog : list xop) : list xop :=
  match prog with
  | [] => []
  | XB o :: r => match bo with [] => XB o :: xwith [] ao r | o' :: bo' => XB o' :: xwith bo' ao r end
  | XA g :: r => match ao with [] => XA g :: xwith bo [] r | g' :: ao' => XA g' :: xwith bo ao' r end
  | o :: r => o :: xwith bo ao r
  end.
Definition xwith_inputs (ins : list bool * list N) (prog : list xop) : list xop :=
  xwith (bwith_inputs (fst ins) (bcalls prog)) (awith_inputs (snd ins) (acalls prog)) prog.
(** The randomness ([u] for wires and AND checks, [ru] for boolean relation checks, [au] for the arithmetic engine) with which the honest
    prover on inputs [ins], against the verifier program [V], can be in a situation [t] after [k] steps *)
Definition xreaching (bs br reset : bool) (NB : nat) (gs gr : list bool) (r0 r1 : N) (key : nat -> N) (rkey : nat -> nat -> N) (d : N)
    (threads csz psz : nat) (G : list N -> nat -> N) (H : list N -> list N)
    (pub_mac : N) (akey : nat -> N) (ad : N) (acsz apsz : nat) (AG : N -> nat -> N) (AH : list N -> list N) {RV : Type} (V : proc RV) (prog : list xop)
    (k : nat) (t : ep * proc RV * ep * list N * list N) (ins : list bool * list N) (w : list bool * list bool * list N) : Prop :=
  let '(u, ru, au) := w in
  length u = entropy csz (gates_of (bcalls prog)) /\ length ru = rel_entropy psz (bcalls prog) /\ fvec (aentropy acsz apsz (acalls prog)) au /\
  exists n, nsteps bs br reset NB k
      (n_init NB gs gr (xprv_prog r0 r1 (mac key d u) threads csz psz (omac rkey d ru) G H
        pub_mac (vole_block (val_of au) (mac_of akey ad au)) acsz apsz AG AH xp_init (xwith_inputs ins prog)) V) n /\
    outside n = t.
