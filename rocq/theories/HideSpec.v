(** Independent specification for "the prover's messages hide the witness", boolean engine.

    The prover's side of /repo/emp-zk/emp-zk-bool/ostriple.h (BoolModel.prv_exec) is run with
    ideal correlations whose verifier half (keys and Delta) is fixed and whose prover half is a
    list [u] of random bits: correlation i gives the prover M_i = K_i xor u_i*Delta (LSB(K_i)=0,
    so u_i = LSB(M_i)); this is what rcot (emp-ot) delivers when the verifier's half is K, Delta.
    Everything the verifier receives from the prover is collected in [view]: the correction and
    revealed bits (ostriple.h:98-110, 127-136, 261-274), the two blocks of every batch check
    (ostriple.h:188-192) and the list of blocks in the prover's hash, whose digest is sent at the
    end (triple_auth.h:33-45). *)
From Coq Require Import NArith List Bool Arith.
From Verif Require Import GF128 Word BoolModel BoolSpec.
Import ListNotations.

(** number of private inputs, of sent bits that are masked, of batch checks, of random bits *)
Fixpoint count_in (c : list gate) : nat :=
  match c with [] => 0 | GIn _ :: c' => S (count_in c') | _ :: c' => count_in c' end.
Definition checks (csz n : nat) : nat := match n with 0 => 0 | S n' => S (n' / csz) end.
Definition entropy (csz : nat) (c : list gate) : nat :=
  count_in c + count_and c + 128 * checks csz (count_and c).

(** correlation i (i >= 1; correlation 0 is consumed by the constructor, ostriple.h:55) *)
Definition mac (key : nat -> N) (d : N) (u : list bool) (i : nat) : N :=
  N.lxor (key i) (match i with 0 => 0%N | S j => if nth j u false then d else 0%N end).

(** sent bits of a circuit: corrections (one per private input and AND gate) and revealed bits *)
Fixpoint masked_bits (c : list gate) (bits : list bool) : list bool :=
  match c, bits with
  | (GIn _ | GAnd _ _) :: c', b :: bits' => b :: masked_bits c' bits'
  | GReveal _ :: c', _ :: bits' => masked_bits c' bits'
  | (GPub _ | GXor _ _ | GNot _) :: c', _ => masked_bits c' bits
  | _, _ => []
  end.
Fixpoint weave (c : list gate) (masked outs : list bool) : list bool :=
  match c with
  | [] => []
  | (GIn _ | GAnd _ _) :: c' => hd false masked :: weave c' (tl masked) outs
  | GReveal _ :: c' => hd false outs :: weave c' masked (tl outs)
  | _ :: c' => weave c' masked outs
  end.
(** 128-bit blocks as bit lists, bit 0 first *)
Definition block_bits (a : N) : list bool := map (fun i => N.testbit a (N.of_nat i)) (seq 0 128).
Fixpoint bits_block (l : list bool) : N :=
  match l with [] => 0%N | b :: l' => (2 * bits_block l' + (if b then 1 else 0))%N end.
Fixpoint blocks (n : nat) (l : list bool) : list N :=
  match n with 0 => [] | S n' => bits_block (firstn 128 l) :: blocks n' (skipn 128 l) end.

Definition view_t : Type := (list bool * list (N * N) * list N)%type.
Definition view (p : pst) : view_t := (p_bits p, p_msgs p, p_hash p).
(** the part of the view that carries the randomness: the masked bits and the second block of
    every check message *)
Definition coins (c : list gate) (p : pst) : list bool :=
  masked_bits c (p_bits p) ++ flat_map (fun A => block_bits (snd A)) (p_msgs p).

(** The challenge of check k may depend on all the bits of the session and on the messages of
    the earlier checks (in the code it is a hash of the transcript so far, ostriple.h:146-151). *)
Definition challenger : Type := nat -> list bool -> list (N * N) -> nat -> N.
Definition challenges (F : challenger) (bits : list bool) (ms : list (N * N)) (k i : nat) : N :=
  F k bits (firstn k ms) i.

Section Session.
  Variables (r0 r1 : N) (key : nat -> N) (d : N) (threads csz : nat) (F : challenger).
  (** [p] is the final state of the honest prover on private inputs [ins] and random bits [u] *)
  Definition honest (c : list gate) (ins u : list bool) (p : pst) : Prop :=
    prv_exec r0 r1 (mac key d u) threads csz (challenges F (p_bits p) (p_msgs p))
      (with_inputs ins c) = Some p.
  (** ** Simulator: uses only what the verifier has (keys, Delta, the public circuit, the
      outputs) and a list of random bits; the private inputs carried by [c] are ignored by
      [ver_step]. *)
  Variables (bits : list bool) (a1s : list N).
  Definition sim_msg (v : vst) (ms : list (N * N)) : option (list (N * N)) :=
    match and_ranges threads (length (v_buf v)) with
    | None => None
    | Some rs =>
        let B := ver_B_star d (v_buf v) rs (F (length ms) bits ms) (vK_slice key (v_cot v) 128) in
        let a1 := nth (length ms) a1s 0%N in
        Some (ms ++ [(N.lxor B (gfmul a1 d), a1)])
    end.
  Definition sim_ver (v : vst) (g : gate) : option vst :=
    ver_step r0 r1 key d threads csz (fun _ _ => 0%N) (fun i => nth i bits false) (fun _ => (0, 0)%N) v g.
  Definition sim_step (st : vst * list (N * N)) (g : gate) : option (vst * list (N * N)) :=
    let (v, ms) := st in
    match (match g with
           | GAnd _ _ => if Nat.eqb (length (v_buf v)) csz then sim_msg v ms else Some ms
           | _ => Some ms
           end), sim_ver v g with
    | Some ms', Some v' => Some (v', ms')
    | _, _ => None
    end.
  Fixpoint sim_run (st : vst * list (N * N)) (c : list gate) : option (vst * list (N * N)) :=
    match c with
    | [] => Some st
    | g :: c' => match sim_step st g with None => None | Some st' => sim_run st' c' end
    end.
  Definition sim_exec (c : list gate) : option view_t :=
    match sim_run (v_init, []) c with
    | None => None
    | Some (v, ms) =>
        match v_buf v with
        | [] => Some (bits, ms, v_hash v)
        | _ => match sim_msg v ms with None => None | Some ms' => Some (bits, ms', v_hash v) end
        end
    end.
End Session.
Definition simulate (r0 r1 : N) (key : nat -> N) (d : N) (threads csz : nat) (F : challenger)
           (c : list gate) (outs r : list bool) : option view_t :=
  let m := count_in c + count_and c in
  sim_exec r0 r1 key d threads csz F (weave c (firstn m r) outs)
    (blocks (checks csz (count_and c)) (skipn m r)) c.

(** ideal keys and the circuits whose sessions are free of undefined behaviour (C10) *)
Definition valid_keys (key : nat -> N) : Prop := forall i, N.testbit (key i) 0 = false.
Definition session_ok (threads csz : nat) (c : list gate) : Prop :=
  1 <= threads <= csz /\ (count_and c = 0 \/ threads <= last_batch csz (count_and c)).
