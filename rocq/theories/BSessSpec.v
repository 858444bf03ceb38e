(** What a session with gates and relations claims about plain bits, and the game of a dishonest prover against it.  Nothing here
    mentions labels or tags. *)
From Coq Require Import NArith List Bool Arith.
From Verif Require Import BoolModel BoolSpec BoolPolyModel BoolPolySpec BSessModel GameSpec.
Import ListNotations.

(** plain evaluation: wires, revealed outputs, and one defect per tested relation ([true] = the relation is false) *)
Fixpoint bplain (ws outs rels : list bool) (prog : list bop) : list bool * list bool * list bool :=
  match prog with
  | [] => (ws, outs, rels)
  | OGate g :: p => let '(ws', outs') := plain_eval ws outs [g] in bplain ws' outs' rels p
  | OPoly c :: p => bplain ws outs (rels ++ defects (bcall_map (pwire ws) c)) p
  end.
Definition bouts (prog : list bop) : list bool := snd (fst (bplain [] [] [] prog)).
Definition brels (prog : list bop) : list bool := snd (bplain [] [] [] prog).
Definition all_hold (l : list bool) : bool := forallb negb l.
(** the gates alone *)
Fixpoint gates_of (prog : list bop) : list gate :=
  match prog with [] => [] | OGate g :: p => g :: gates_of p | OPoly _ :: p => gates_of p end.
(** the relations alone *)
Fixpoint calls_of (prog : list bop) : list (bcall nat) :=
  match prog with [] => [] | OGate _ :: p => calls_of p | OPoly c :: p => c :: calls_of p end.
(** the defects of all relations on the bits a prover is committed to *)
Definition committed_rels (ws : list bool) (prog : list bop) : list bool :=
  flat_map (fun c => defects (bcall_map (pwire ws) c)) (calls_of prog).
(** the program with its private inputs replaced *)
Fixpoint bwith_inputs (ins : list bool) (prog : list bop) : list bop :=
  match prog with
  | [] => []
  | OGate (GIn x) :: p => match ins with [] => OGate (GIn x) :: bwith_inputs [] p | y :: ins' => OGate (GIn y) :: bwith_inputs ins' p end
  | o :: p => o :: bwith_inputs ins p
  end.
(** only existing wires are used *)
Definition gate_wires (g : gate) : list nat :=
  match g with GIn _ | GPub _ => [] | GXor i j | GAnd i j => [i; j] | GNot i | GReveal i => [i] end.
Definition makes_wire (g : gate) : nat := match g with GReveal _ => 0 | _ => 1 end.
Fixpoint wf_prog (n : nat) (prog : list bop) : bool :=
  match prog with
  | [] => true
  | OGate g :: p => forallb (fun i => Nat.ltb i n) (gate_wires g) && wf_prog (n + makes_wire g) p
  | OPoly c :: p => forallb (fun i => Nat.ltb i n) (wires_of c) && wf_prog n p
  end.
(** number of relations *)
Definition call_rels (c : bcall nat) : nat := match c with BMulti _ _ _ _ w => w | _ => 1 end.
Fixpoint count_rel (prog : list bop) : nat :=
  match prog with [] => 0 | OGate _ :: p => count_rel p | OPoly c :: p => call_rels c + count_rel p end.

(** for every bit the prover sends, in order: the number of AND checks, and of relation checks, already run *)
Fixpoint bseen (csz psz a r : nat) (prog : list bop) : list (nat * nat) :=
  match prog with
  | [] => []
  | OGate (GIn _ | GReveal _) :: p => (checks_done csz a, checks_done psz r) :: bseen csz psz a r p
  | OGate (GAnd _ _) :: p => (checks_done csz (S a), checks_done psz r) :: bseen csz psz (S a) r p
  | OGate _ :: p => bseen csz psz a r p
  | OPoly c :: p => bseen csz psz a (r + call_rels c) p
  end.
Definition bplay (csz psz : nat) (prog : list bop) (bit : list (list N) -> list N -> nat -> bool) (s : list (list N)) (r : list N)
    (i : nat) : bool :=
  let k := nth i (bseen csz psz 0 0 prog) (0, 0) in bit (firstn (fst k) s) (firstn (snd k) r) i.

Section Game.
  Variables (r0 r1 : N) (pM : nat -> N) (ope : nat -> list N) (t csz psz : nat) (prog : list bop).
  Variables (D : Type) (Deqb : D -> D -> bool) (H : list N -> D).
  Variables (bit : list (list N) -> list N -> nat -> bool).
  Variables (reply preply : list (list N) -> list N -> nat -> N * N) (digest : list (list N) -> list N -> D).
  (** the verifier draws the key d, the AND seeds s and the relation seeds r *)
  Definition bgame (s : list (list N)) (r : list N) (d : N) : option bver :=
    bv_exec r0 r1 (cot_key pM d) d t csz psz (seeds_of s) (fun k => nth k r 0%N) (fun k => map (ot_key d) (ope k))
      (bplay csz psz prog bit s r) (reply s r) (preply s r) prog.
  Definition bcommitted (s : list (list N)) (r : list N) : list bool :=
    c_ins (commit pM csz (bplay csz psz prog bit s r) (gates_of prog)).
  (** accepted, and some revealed value is wrong or some tested relation is false, on the committed inputs *)
  Definition bcheats (s : list (list N)) (r : list N) (d : N) : bool :=
    match bgame s r d with
    | Some v =>
        let q := bwith_inputs (bcommitted s r) prog in
        negb (bv_finalize Deqb H v (digest s r)) &&
        negb ((if list_eq_dec bool_dec (v_outs (bv_gates v)) (bouts q) then true else false) && all_hold (brels q))
    | None => false
    end.
  (** accepted, and the inputs the prover committed to do not satisfy [good] *)
  Definition baccepts_bad (good : list bool -> bool) (s : list (list N)) (r : list N) (d : N) : bool :=
    match bgame s r d with
    | Some v => negb (bv_finalize Deqb H v (digest s r)) && negb (good (bcommitted s r))
    | None => false
    end.
End Game.
