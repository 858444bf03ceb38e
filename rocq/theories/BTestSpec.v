(** What the boolean test programs should show, without gates or labels. *)
From Coq Require Import NArith List Bool Arith.
From Verif Require Import GF128 BoolModel BoolSpec RamModel RamSpec RamGateModel RamGateSpec BTestModel.
Import ListNotations.

(** the function of a Bristol circuit, on a memory of bits *)
Definition bg_value (m : nat -> bool) (g : bgate) : bool :=
  match g_kind g with
  | BAnd => m (g_in1 g) && m (g_in2 g)
  | BXor => xorb (m (g_in1 g)) (m (g_in2 g))
  | BInv => negb (m (g_in1 g))
  end.
Definition bg_run (m : nat -> bool) (g : bgate) : nat -> bool := fun i => if i =? g_out g then bg_value m g else m i.
Definition bristol_fun (cf : bristol) (x : list bool) : list bool :=
  map (fold_left bg_run (br_gates cf) (fun i => nth i x false)) (seq (br_wires cf - br_n3 cf) (br_n3 cf)).
(** every wire is set before it is read, and inputs and outputs are wires of the circuit *)
Fixpoint gates_set (size : nat) (set : nat -> Prop) (gs : list bgate) (final : (nat -> Prop) -> Prop) : Prop :=
  match gs with
  | [] => final set
  | g :: r => set (g_in1 g) /\ (g_kind g <> BInv -> set (g_in2 g)) /\ g_out g < size /\
              gates_set size (fun i => i = g_out g \/ set i) r final
  end.
Definition bristol_ok (cf : bristol) : Prop :=
  br_n1 cf <= br_wires cf /\ br_n3 cf <= br_wires cf /\
  gates_set (br_wires cf) (fun i => i < br_n1 cf) (br_gates cf) (fun set => forall i, br_wires cf - br_n3 cf <= i < br_wires cf -> set i).
Definition bristol_ands (cf : bristol) : nat := length (filter (fun g => match g_kind g with BAnd => true | _ => false end) (br_gates cf)).

(** sha256.cpp: one evaluation of the witness, then [rounds] evaluations of digest and zeros *)
Definition hash_chain (f : list bool -> list bool) (pad rounds : nat) (wit : list bool) : list bool :=
  Nat.iter rounds (fun o => f (o ++ repeat false pad)) (f wit).
(** root of the tree over 2^k leaves of [n] bits *)
Fixpoint merkle_root (f : list bool -> list bool) (n k : nat) (leaves : list bool) : list bool :=
  match k with
  | 0 => f (firstn n leaves)
  | S k' => f (merkle_root f n k' (firstn (2 ^ k' * n) leaves) ++ merkle_root f n k' (skipn (2 ^ k' * n) leaves))
  end.

(** the private inputs a program feeds in, in order *)
Fixpoint inputs_of (c : list gate) : list bool :=
  match c with
  | [] => []
  | GIn x :: r => x :: inputs_of r
  | _ :: r => inputs_of r
  end.

(** honest parties: both see [outs] and the verifier accepts, under every key *)
Definition session_shows (c : list gate) (outs : list bool) : Prop :=
  forall r0 r1 pM threads csz seeds (D : Type) (Deqb : D -> D -> bool) (H : list N -> D) p d,
  (forall a, Deqb a a = true) -> valid_delta d -> prv_exec r0 r1 pM threads csz seeds c = Some p ->
  exists v, ver_exec r0 r1 (cot_key pM d) d threads csz seeds (fun i => nth i (p_bits p) false) (fun k => nth k (p_msgs p) (0, 0)%N) c = Some v /\
    v_outs v = outs /\ p_outs p = outs /\ ver_finalize Deqb H v (H (p_hash p)) = false.
(** any prover: a transcript accepted under three keys, outside the accidents of the batch check and hash collisions, opens
    bits related by [R] to the inputs the prover is committed to *)
Definition session_proves (c : list gate) (R : list bool -> list bool -> Prop) : Prop :=
  forall r0 r1 pM threads csz seeds bitmsg chkmsg (D : Type) (Deqb : D -> D -> bool) (H : list N -> D) dig deltas,
  (forall a b, Deqb a b = true -> a = b) -> NoDup deltas -> 3 <= length deltas ->
  let cm := commit pM csz bitmsg c in
  let exec d := ver_exec r0 r1 (cot_key pM d) d threads csz seeds bitmsg chkmsg c in
  (forall d, In d deltas -> valid_delta d /\ exists v, exec d = Some v /\ ver_finalize Deqb H v dig = false) ->
  ~ and_errors_cancel threads seeds cm ->
  (forall d1 d2 v1 v2, In d1 deltas -> In d2 deltas -> exec d1 = Some v1 -> exec d2 = Some v2 ->
     H (v_hash v1) = H (v_hash v2) -> v_hash v1 = v_hash v2) ->
  forall d v, In d deltas -> exec d = Some v -> R (c_ins cm) (v_outs v).
