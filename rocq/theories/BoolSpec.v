(** Independent specification: plain evaluation of boolean circuits. *)
From Coq Require Import List Bool.
From Verif Require Import BoolModel.
Import ListNotations.

Definition pwire (ws : list bool) (i : nat) : bool := nth i ws false.
(** values of all wires and of all revealed outputs, in program order *)
Fixpoint plain_eval (ws outs : list bool) (c : list gate) : list bool * list bool :=
  match c with
  | [] => (ws, outs)
  | GIn x :: c' => plain_eval (ws ++ [x]) outs c'
  | GPub b :: c' => plain_eval (ws ++ [b]) outs c'
  | GXor i j :: c' => plain_eval (ws ++ [xorb (pwire ws i) (pwire ws j)]) outs c'
  | GNot i :: c' => plain_eval (ws ++ [negb (pwire ws i)]) outs c'
  | GAnd i j :: c' => plain_eval (ws ++ [pwire ws i && pwire ws j]) outs c'
  | GReveal i :: c' => plain_eval ws (outs ++ [pwire ws i]) c'
  end.
Definition plain_outputs (c : list gate) : list bool := snd (plain_eval [] [] c).

(** a circuit is well formed when it only refers to existing wires *)
Fixpoint wf_circuit (n : nat) (c : list gate) : bool :=
  match c with
  | [] => true
  | GIn _ :: c' | GPub _ :: c' => wf_circuit (S n) c'
  | GXor i j :: c' | GAnd i j :: c' => Nat.ltb i n && Nat.ltb j n && wf_circuit (S n) c'
  | GNot i :: c' => Nat.ltb i n && wf_circuit (S n) c'
  | GReveal i :: c' => Nat.ltb i n && wf_circuit n c'
  end.
(** number of AND gates *)
Fixpoint count_and (c : list gate) : nat :=
  match c with [] => 0 | GAnd _ _ :: c' => S (count_and c') | _ :: c' => count_and c' end.

(** * What a (possibly cheating) prover is committed to.

    The correlations fix the bits [getLSB (pM i)]; together with the correction bits the
    prover sends, they fix one bit per wire.  This does not mention Delta, labels or keys. *)
From Coq Require Import NArith Arith.
From Verif Require Import GF128 Word.
Record cst := { c_wires : list bool;            (* committed value of each wire *)
                c_ins : list bool;              (* committed private inputs *)
                c_errs : list bool;             (* current batch: which AND gates are wrong *)
                c_done : list (list bool);      (* finished batches *)
                c_cot : nat; c_bits : nat;
                c_rev : list (bool * bool)      (* (committed, claimed) for each reveal *) }.
Section Commit.
  Variables (pM : nat -> N) (csz : nat) (bitmsg : nat -> bool).
  Definition cbit (s : cst) : bool := xorb (N.testbit (pM (c_cot s)) 0) (bitmsg (c_bits s)).
  Definition c_add (s : cst) (b : bool) : cst :=
    {| c_wires := c_wires s ++ [b]; c_ins := c_ins s; c_errs := c_errs s; c_done := c_done s;
       c_cot := c_cot s; c_bits := c_bits s; c_rev := c_rev s |}.
  Definition c_flush (s : cst) : cst :=
    {| c_wires := c_wires s; c_ins := c_ins s; c_errs := []; c_done := c_done s ++ [c_errs s];
       c_cot := c_cot s + 128; c_bits := c_bits s; c_rev := c_rev s |}.
  Definition c_step (s : cst) (g : gate) : cst :=
    match g with
    | GIn _ => {| c_wires := c_wires s ++ [cbit s]; c_ins := c_ins s ++ [cbit s]; c_errs := c_errs s;
                  c_done := c_done s; c_cot := S (c_cot s); c_bits := S (c_bits s); c_rev := c_rev s |}
    | GPub b => c_add s b
    | GXor i j => c_add s (xorb (pwire (c_wires s) i) (pwire (c_wires s) j))
    | GNot i => c_add s (negb (pwire (c_wires s) i))
    | GAnd i j =>
        let s := if Nat.eqb (length (c_errs s)) csz then c_flush s else s in
        let z := cbit s in
        {| c_wires := c_wires s ++ [z]; c_ins := c_ins s;
           c_errs := c_errs s ++ [xorb (pwire (c_wires s) i && pwire (c_wires s) j) z];
           c_done := c_done s; c_cot := S (c_cot s); c_bits := S (c_bits s); c_rev := c_rev s |}
    | GReveal i =>
        {| c_wires := c_wires s; c_ins := c_ins s; c_errs := c_errs s; c_done := c_done s;
           c_cot := c_cot s; c_bits := S (c_bits s);
           c_rev := c_rev s ++ [(pwire (c_wires s) i, bitmsg (c_bits s))] |}
    end.
  Definition c_init : cst :=
    {| c_wires := []; c_ins := []; c_errs := []; c_done := []; c_cot := 1; c_bits := 0; c_rev := [] |}.
  Definition commit (c : list gate) : cst := fold_left c_step c c_init.
End Commit.
(** all batches, in the order in which they are checked *)
Definition batches (s : cst) : list (list bool) :=
  c_done s ++ match c_errs s with [] => [] | e => [e] end.

(** the circuit with its private inputs replaced, in order, by a given list *)
Fixpoint with_inputs (ins : list bool) (c : list gate) : list gate :=
  match c with
  | [] => []
  | GIn x :: c' => match ins with
                   | [] => GIn x :: with_inputs [] c'
                   | y :: ins' => GIn y :: with_inputs ins' c'
                   end
  | g :: c' => g :: with_inputs ins c'
  end.

(** challenge combination of an error vector: worker i owns the range (start, len) and
    weights its j-th gate with seed_i^(j+1). *)
Definition b2N (b : bool) : N := if b then 1%N else 0%N.
Definition range_error (seed : N) (errs : list bool) : N :=
  fold_right N.lxor 0%N (map (fun ce => gfmul (fst ce) (b2N (snd ce)))
                             (combine (gf_coeff_gen seed (length errs)) errs)).
Definition combined_error (rs : list (nat * nat)) (seed : nat -> N) (errs : list bool) : N :=
  fold_right N.lxor 0%N
    (map (fun ir => range_error (seed (fst ir)) (firstn (snd (snd ir)) (skipn (fst (snd ir)) errs)))
         (combine (seq 0 (length rs)) rs)).
(** ideal correlated OT: key of the verifier for correlation i *)
Definition cot_key (pM : nat -> N) (d : N) (i : nat) : N :=
  N.lxor (pM i) (if N.testbit (pM i) 0 then d else 0%N).
(** valid global keys *)
Definition valid_delta (d : N) : Prop := (d < 2 ^ 128)%N /\ N.testbit d 0 = true.
(** position i is given to some worker *)
Definition covered (rs : list (nat * nat)) (i : nat) : Prop :=
  exists s n, In (s, n) rs /\ s <= i < s + n.
(** size of the batch left for the end of the session *)
Definition last_batch (csz n : nat) : nat := match n with 0 => 0 | S n' => S (n' mod csz) end.
