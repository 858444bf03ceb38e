(** Boolean test programs of /repo/test/bool as lists of gates: example.cpp, sha256.cpp, memory_scalability.cpp (the
    function called by main), circuit_scalability.cpp, input_scalability.cpp.

    Simplifications: the conventions of RamGateModel.v (an Integer is the list of its wires; emp-tool's circuits are not
    part of /repo and written down here as contracts).  Default-constructed Bits, timing, printing and memory use are left
    out.  The circuit files are not part of /repo: a Bristol circuit is an arbitrary value. *)
From Coq Require Import NArith List Bool Arith.
From Verif Require Import BoolModel LowMcModel RamGateModel.
Import ListNotations.

(** * Pieces *)
(** Bit(b, ALICE), Integer(n, v, ALICE) *)
Definition b_ins (bs : list bool) : build (list nat) := fun w => (map GIn bs, seq w (length bs)).
(** Bit(b, PUBLIC), Integer(n, v, PUBLIC) *)
Definition b_pubs (bs : list bool) : build (list nat) := fun w => (map GPub bs, seq w (length bs)).
(** reveal<bool>(PUBLIC), bit by bit *)
Definition b_reveal (l : list nat) : build unit := fun _ => (map GReveal l, tt).
Definition circuit {A} (m : build A) : list gate := fst (m 0).
(** a loop over [l] with state [a] *)
Fixpoint b_each {A B} (f : A -> B -> build A) (a : A) (l : list B) : build A :=
  match l with
  | [] => b_ret a
  | x :: r => a' <- f a x;; b_each f a' r
  end.

(** emp-tool: Integer - and + without carry out; the top bit needs no AND *)
Fixpoint b_sub_from (bw : nat) (ab : list (nat * nat)) : build (list nat) :=
  match ab with
  | [] => b_ret []
  | (a, b) :: r =>
      match r with
      | [] => x <- b_gate (GXor a b);; d <- b_gate (GXor x bw);; b_ret [d]
      | _ => bxa <- b_gate (GXor a b);; bxc <- b_gate (GXor bw b);; t <- b_gate (GAnd bxa bxc);;
             d <- b_gate (GXor bxa bw);; bw' <- b_gate (GXor bw t);; ds <- b_sub_from bw' r;; b_ret (d :: ds)
      end
  end.
Definition b_sub (a b : list nat) : build (list nat) := f <- b_gate (GPub false);; b_sub_from f (combine a b).
Fixpoint b_add_from (cy : nat) (ab : list (nat * nat)) : build (list nat) :=
  match ab with
  | [] => b_ret []
  | (a, b) :: r =>
      match r with
      | [] => x <- b_gate (GXor cy b);; d <- b_gate (GXor x a);; b_ret [d]
      | _ => axc <- b_gate (GXor a cy);; bxc <- b_gate (GXor b cy);; d <- b_gate (GXor a bxc);;
             t <- b_gate (GAnd axc bxc);; cy' <- b_gate (GXor cy t);; ds <- b_add_from cy' r;; b_ret (d :: ds)
      end
  end.
Definition b_add (a b : list nat) : build (list nat) := f <- b_gate (GPub false);; b_add_from f (combine a b).

(** emp-tool: BristolFormat.  A gate reads the wires [in1], [in2] of the circuit and writes [out]; compute() copies n1
    blocks from its argument to the first wires, runs the gates in file order and copies the last n3 wires to the result
    (n2 = 0 in all uses of /repo/test). *)
Inductive bkind := BAnd | BXor | BInv.
Record bgate := { g_kind : bkind; g_in1 : nat; g_in2 : nat; g_out : nat }.
Record bristol := { br_n1 : nat; br_n3 : nat; br_wires : nat; br_gates : list bgate }.
Definition b_bgate (mem : list nat) (g : bgate) : build (list nat) :=
  let a := rd 0 mem (g_in1 g) in let b := rd 0 mem (g_in2 g) in
  x <- b_gate (match g_kind g with BAnd => GAnd a b | BXor => GXor a b | BInv => GNot a end);;
  b_ret (wr mem (g_out g) x).
Definition b_bristol (cf : bristol) (inp : list nat) : build (list nat) :=
  mem <- b_each b_bgate (firstn (br_n1 cf) inp ++ repeat 0 (br_wires cf - br_n1 cf)) (br_gates cf);;
  b_ret (map (rd 0 mem) (seq (br_wires cf - br_n3 cf) (br_n3 cf))).

(** * Programs *)
(** example.cpp:10-19, with [a] and [b] of any width: (a - b).reveal<uint32_t>(PUBLIC) *)
Definition example_prog (a b : list bool) : build unit :=
  x <- b_ins a;; y <- b_ins b;; d <- b_sub x y;; b_reveal d.

(** sha256.cpp:40-56: [W] are the witness bits, [zero] the length of the vector O (512), [rounds] the loop count (64);
    compute() overwrites the first n3 bits of O *)
Definition sha_step (cf : bristol) (o : list nat) : build (list nat) :=
  d <- b_bristol cf o;; b_ret (d ++ skipn (br_n3 cf) o).
Definition sha_prog (cf : bristol) (zero rounds : nat) (wit : list bool) : build unit :=
  w <- b_ins wit;; o <- b_pubs (repeat false zero);;
  d <- b_bristol cf w;;
  o' <- b_each (fun o (_ : nat) => sha_step cf o) (d ++ skipn (br_n3 cf) o) (seq 0 rounds);;
  b_reveal (firstn (br_n3 cf) o').

(** memory_scalability.cpp:21-35.  [k] = depth - 1 - current_level; [h] = 256.  [leaf node i] is the bool argument of the
    Bit constructor for bit [i] of leaf [node].  The 256 public bits behind the two digests (lines 28-29) are not read by
    a circuit with 512 inputs, but the labels are made. *)
Fixpoint b_merkle (cf : bristol) (h : nat) (leaf : nat -> nat -> bool) (k node : nat) : build (list nat) :=
  match k with
  | 0 => msg <- b_ins (map (leaf node) (seq 0 (2 * h)));; b_bristol cf msg
  | S k' =>
      l <- b_merkle cf h leaf k' (2 * node);;
      r <- b_merkle cf h leaf k' (2 * node + 1);;
      one <- b_pubs (repeat true h);;
      b_bristol cf (l ++ r ++ one)
  end.
(** memory_scalability.cpp:32: `Bit(witness + node_index * 512 + i, ALICE)`; the first parameter of the constructor is a
    bool, so the pointer is converted: true unless it is null.  [base] is the address of the array [witness]. *)
Definition pointer_arg (base : N) (witness : list bool) (h node i : nat) : bool :=
  negb (N.eqb (base + N.of_nat (node * (2 * h) + i)) 0).
(** memory_scalability.cpp:37-58: the digest is not opened; a public constant is *)
Definition merkle_prog (cf : bristol) (h depth : nat) (base : N) (witness : list bool) : build unit :=
  _ <- b_merkle cf h (pointer_arg base witness h) (depth - 1) 0;;
  r <- b_gate (GPub true);; b_reveal [r].

(** circuit_scalability.cpp:19-26: one round on the wires of [a] and [b] (32 each) *)
Definition circuit_mix (ab : list nat * list nat) (j : nat) : build (list nat * list nat) :=
  let (a, b) := ab in
  x <- b_gate (GAnd (rd 0 a j) (rd 0 b j));;
  let a := wr a j x in
  y <- b_or (rd 0 a ((j + 2) mod 32)) (rd 0 b j);;
  b_ret (wr a ((j + 3) mod 32) y, b).
Definition circuit_tail (ab : list nat * list nat) (j : nat) : build (list nat * list nat) :=
  let (a, b) := ab in
  x <- b_gate (GAnd (rd 0 a (j + 4)) (rd 0 b (j + 10)));;
  b_ret (a, wr b (j + 2) x).
Definition circuit_round (ab : list nat * list nat) (_ : nat) : build (list nat * list nat) :=
  let (a, b) := ab in
  b <- b_add b a;;
  ab <- b_each circuit_mix (a, b) (seq 0 32);;
  ab <- b_each circuit_tail ab (seq 0 5);;
  _ <- b_each (fun (_ : nat) p => b_gate (GXor (fst p) (snd p))) 0 (combine (fst ab) (snd ab));;
  b_ret ab.
(** circuit_scalability.cpp:10-35 *)
Definition circuit_prog (rounds : nat) (a b : list bool) : build unit :=
  a <- b_ins a;; b <- b_ins b;; _ <- b_pubs (repeat false 32);;
  _ <- b_each circuit_round (a, b) (seq 0 rounds);;
  r <- b_gate (GPub false);; b_reveal [r].

(** input_scalability.cpp:10-25: input_sz / 32 Integers of 32 bits, the first bit is opened *)
Definition input_prog (xs : list bool) : build unit := l <- b_ins xs;; b_reveal [rd 0 l 0].
