(** What the verifier sees of the prover in the set-up of a vector-OLE generator: the base generation
    (emp-vole/base_svole.h, cope.h) followed by the first expansion (emp-vole/vole_triple.h:147-193, mpfss_reg.h), and one
    expansion over GF(2^128) (emp-vole-f2k/svole.h:124-139).  The prover is the receiver of all these protocols; what it sends
    are the COPE corrections, the two words of the base check, the announced OT choices and the word x_star of the MPFSS check.
    (It also sends the seed of the MPFSS challenge, which is drawn for this purpose; the challenges are a parameter here.) *)
From Coq Require Import NArith List Bool Arith.
From Verif Require Import Word FpModel GF128 ArithSpec TreeModel TreeSpec BoolModel VoleModel VoleF2kModel VoleTripleModel VoleSpec.
Import ListNotations.

(** what the verifier knows or chooses: the difference, the PRG words of the keys it obtained in the base OTs, the base-check seed,
    the roots of its trees, its OT data and the challenges *)
Record vpub := { v_d : N; v_pad : nat -> nat -> N; v_padc : nat -> N; v_seed : N;
                 v_root : nat -> N; v_ot : nat -> N; v_otd : N; v_chal : nat -> N }.
Definition vpub_ok (v : vpub) : Prop :=
  canon (v_d v) /\ (forall i j, canon (v_pad v i j)) /\ (forall i, canon (v_padc v i)) /\ canon (v_seed v).

(** the prover's secrets: the values (all but the one at position t) and the tree positions *)
Record vsec := { s_x : nat -> N; s_b : nat -> nat -> bool }.
Definition vsec_ok (s : vsec) : Prop := forall j, canon (s_x s j).
(** the prover's other randomness: the PRG words the verifier has no key for, the mask of the base check, the random choice
    bits of the OTs and the value at position t *)
Record vmask := { k_pad : nat -> nat -> N; k_padc : nat -> N; k_a : N; k_rb : nat -> bool; k_z : N }.
Definition vmask_ok (k : vmask) : Prop :=
  (forall i j, canon (k_pad k i j)) /\ (forall i, canon (k_padc k i)) /\ canon (k_a k) /\ canon (k_z k).
(** equal where it is used: 61 COPE positions, [size] items, [ots] OTs *)
Definition vmask_eq (size ots : nat) (k k' : vmask) : Prop :=
  (forall i j, i < 61 -> j < size -> k_pad k i j = k_pad k' i j) /\ (forall i, i < 61 -> k_padc k i = k_padc k' i) /\
  k_a k = k_a k' /\ (forall i, i < ots -> k_rb k i = k_rb k' i) /\ k_z k = k_z k'.

(** the messages *)
Record vtrans := { m_tau : list (list N); m_tauc : list N; m_xz : N * N; m_ann : list (list bool); m_xs : N }.

Section Run.
  Variables (L R H Hs : N -> N) (threads t k log : nat) (v : vpub) (s : vsec) (q : vmask).
  Definition vsize : nat := 1 + t + k.
  (** both PRG words of each COPE position *)
  Definition run_w0 (i j : nat) : N := if dbit (v_d v) i then k_pad q i j else v_pad v i j.
  Definition run_w1 (i j : nat) : N := if dbit (v_d v) i then v_pad v i j else k_pad q i j.
  Definition run_w0c (i _ : nat) : N := if dbit (v_d v) i then k_padc q i else v_padc v i.
  Definition run_w1c (i _ : nat) : N := if dbit (v_d v) i then v_padc v i else k_padc q i.
  Definition run_x (j : nat) : N := if j =? t then k_z q else if j =? vsize then k_a q else s_x s j.
  Definition run_rnd : trand :=
    {| r_seed := v_root v; r_b := s_b s; r_ot_s := v_ot v; r_ot_b := k_rb q; r_ot_delta := v_otd v;
       r_ot_r := fun i => N.lxor (v_ot v i) (if k_rb q i then v_otd v else 0%N); r_chal := v_chal v |}.
  Definition run_key : mem := base_key run_w0 run_w1 (v_d v) (cope_tau run_w0 run_w1 (base_x run_x)).
  Definition run_mac : mem := base_mac run_w0 run_x.
  (** the challenge coefficients at the secret positions, as the run of the MPFSS computes them *)
  Definition run_X : mem :=
    let ts := tree_tasks threads t in
    let '(Y, Z) := run_trees L R H t (log + 1) run_rnd ts run_key run_mac (fun _ => 0%N) (fun _ => 0%N) in
    snd (run_msgs Hs (log + 1) run_rnd ts run_mac Y Z (fun _ => 0%N) (fun _ => 0%N) (fun _ => 0%N)).
  Definition transcript : vtrans :=
    {| m_tau := map (fun j => map (fun i => cope_tau run_w0 run_w1 (base_x run_x) i j) (seq 0 61)) (seq 0 vsize);
       m_tauc := map (fun i => cope_tau run_w0c run_w1c (fun _ => base_x run_x vsize) i 0) (seq 0 61);
       m_xz := base_xz vsize run_w0 run_w0c run_x (v_seed v);
       m_ann := snd (choices_all_r log (s_b s) 0 t {| o_bits := k_rb q; o_count := 0 |});
       m_xs := x_star t run_mac run_X (run_mac t) |}.
  (** the values of the expanded correlations, and the verdicts of both checks *)
  Definition delivered (word : nat -> nat -> N) (n : nat) (p : nat) : N :=
    xval (snd (fst (vole_extend L R H Hs word threads n t k log run_rnd (v_d v) run_key run_mac (fun _ => 0%N) (fun _ => 0%N))) p).
  Definition all_ok (word : nat -> nat -> N) (n : nat) : bool :=
    base_ok vsize run_w0 run_w1 run_w0c run_w1c (v_d v) run_x (v_seed v) &&
    snd (vole_extend L R H Hs word threads n t k log run_rnd (v_d v) run_key run_mac (fun _ => 0%N) (fun _ => 0%N)).
End Run.

(** the transcripts to expect, without mention of secrets or masks: the right shape, words below p, and a first check word that
    satisfies the verifier's check with the keys it computes from the corrections *)
Definition nth2 (l : list (list N)) (i j : nat) : N := nth i (nth j l []) 0%N.
(** the keys the verifier computes *)
Definition v_keys (v : vpub) (m : vtrans) : nat -> N := cope_send 61 (v_pad v) (v_pad v) (v_d v) (nth2 (m_tau m)).
Definition v_keyc (v : vpub) (m : vtrans) : N :=
  cope_send 61 (fun i _ => v_padc v i) (fun i _ => v_padc v i) (v_d v) (fun i _ => nth i (m_tauc m) 0%N) 0.
Definition trans_ok (t k log : nat) (v : vpub) (m : vtrans) : Prop :=
  length (m_tau m) = vsize t k /\ Forall (fun l => length l = 61 /\ Forall canon l) (m_tau m) /\
  length (m_tauc m) = 61 /\ Forall canon (m_tauc m) /\
  canon (snd (m_xz m)) /\ canon (m_xs m) /\
  length (m_ann m) = t /\ Forall (fun l => length l = log) (m_ann m) /\
  base_sender_check (vsize t k) (v_d v) (v_keys v m) (v_keyc v m) (v_seed v) (m_xz m) = true.

(** the noise value at position p: the value of its tree at the secret position, 0 elsewhere *)
Definition noise (log : nat) (s : vsec) (p : nat) : N :=
  if p mod 2 ^ log =? punctured log (s_b s (p / 2 ^ log)) then s_x s (p / 2 ^ log) else 0%N.

(** * GF(2^128) *)
Section RunF2k.
  Variables (L R H Hs : N -> N) (threads t k log : nat) (rnd : trand) (key val mac : mem).
  Definition f2_run_X : mem :=
    let z := fun _ => 0%N in
    snd (f2_run_trees L R H Hs t (log + 1) rnd (tree_tasks threads t) key mac z z z z z).
  (** announced choices and x_star *)
  Definition f2_transcript : list (list bool) * N :=
    (snd (choices_all_r log (r_b rnd) 0 t {| o_bits := r_ot_b rnd; o_count := 0 |}), f2_x_star t val f2_run_X).
  Definition f2_delivered (word : nat -> nat -> N) (n : nat) (d : N) (p : nat) : N :=
    snd (fst (f2_extend L R H Hs word threads n t k log rnd d key val mac (fun _ => 0%N) (fun _ => 0%N))) p.
End RunF2k.
(** the verifier's side of an expansion over GF(2^128), and the prover's secrets and random bits *)
Record fpub := { f_root : nat -> N; f_ot : nat -> N; f_otd : N; f_chal : nat -> N; f_d : N; f_key : nat -> N }.
Definition f_rnd (v : fpub) (b : nat -> nat -> bool) (rb : nat -> bool) : trand :=
  {| r_seed := f_root v; r_b := b; r_ot_s := f_ot v; r_ot_b := rb; r_ot_delta := f_otd v;
     r_ot_r := fun i => N.lxor (f_ot v i) (if rb i then f_otd v else 0%N); r_chal := f_chal v |}.
(** macs that fit the verifier's keys *)
Definition f_mac (v : fpub) (val : nat -> N) (i : nat) : N := N.lxor (f_key v i) (gfmul (val i) (f_d v)).
Definition f_trans (L R H Hs : N -> N) (threads t log : nat) (v : fpub) (b : nat -> nat -> bool) (val : nat -> N) (rb : nat -> bool) :=
  f2_transcript L R H Hs threads t log (f_rnd v b rb) (f_key v) val (f_mac v val).
Definition f_out (L R H Hs : N -> N) (threads t k log : nat) (v : fpub) (b : nat -> nat -> bool) (val : nat -> N) (rb : nat -> bool)
    (word : nat -> nat -> N) (p : nat) : N :=
  f2_delivered L R H Hs threads t k log (f_rnd v b rb) (f_key v) val (f_mac v val) word (t * 2 ^ log) (f_d v) p.
(** the challenge coefficient at the secret position of tree s, and the noise *)
Definition f2_coeff (Hs : N -> N) (log : nat) (b : nat -> nat -> bool) (chal : nat -> N) (s : nat) : N :=
  nth (punctured log (b s)) (gf_coeff_gen (Hs (chal s)) (2 ^ log)) 0%N.
Definition f2_noise (log : nat) (b : nat -> nat -> bool) (val : nat -> N) (p : nat) : N :=
  if p mod 2 ^ log =? punctured log (b (p / 2 ^ log)) then val (p / 2 ^ log) else 0%N.
