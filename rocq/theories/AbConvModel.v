(** The mixed program of /repo/test/arith/abconversion.cpp: additions on bits and on field elements, with a conversion
    of the whole array in each direction after every step.

    Simplifications: a boolean Integer is the 62-bit number it holds (conventions of EdaModel.v; the circuits are those
    of C64 and the boolean engine), arithmetic shares and keys are the blocks of ArithModel.v.  Honest prover.  The calls
    of sync_zk_bool, timing and printing are left out.  [rb], [rp], [rk] are the contents of the stock of masks. *)
From Coq Require Import NArith List Bool Arith.
From Verif Require Import Word FpModel ArithModel EdaModel LowMcModel.
Import ListNotations.

(** abconversion.cpp:36, 46: for (int j = i; j < sz - 3; j += 3); [bound] = sz - 3 (no iteration if that is negative) *)
Fixpoint every_third (fuel j bound : nat) : list nat :=
  match fuel with
  | 0 => []
  | S fuel' => if Nat.ltb j bound then j :: every_third fuel' (j + 3) bound else []
  end.
Definition slots (sz i : nat) : list nat := every_third sz i (sz - 3).

(** abconversion.cpp:40-42, 48-50: the plain copy; uint64_t, reduced only if greater than PR *)
Definition plain_sum (u v : N) : N := let s := ((u + v) mod W64)%N in if N.ltb PR s then sub64 s PR else s.
Definition a_up (a : list N) (j : nat) : list N := wr a (j + 2) (plain_sum (rd 0%N a (j + 1)) (rd 0%N a j)).
Definition a_down (a : list N) (j : nat) : list N := wr a j (plain_sum (rd 0%N a (j + 1)) (rd 0%N a (j + 2))).
(** abconversion.cpp:37-38: y[j + 2] = y[j + 1] + y[j], then minus PR if bit 61 is set *)
Definition y_up (y : list N) (j : nat) : list N :=
  let y := wr y (j + 2) (iadd (rd 0%N y (j + 1)) (rd 0%N y j)) in
  let s := rd 0%N y (j + 2) in
  wr y (j + 2) (isel s (itop s) (isub s (PR mod I62))).
(** abconversion.cpp:47: x[j] = x[j + 1] + x[j + 2]; prover's blocks and verifier's keys *)
Definition x_down (x : list N) (j : nat) : list N := wr x j (a_prv_add (rd 0%N x (j + 1)) (rd 0%N x (j + 2))).
Definition k_down (k : list N) (j : nat) : list N := wr k j (a_ver_add (rd 0%N k (j + 1)) (rd 0%N k (j + 2))).

Section Program.
  Variables (NN B C np_sz : nat) (rb rp rk : nat * nat -> N) (d : N) (sz : nat).
  (** plain copy, boolean values, prover's shares, verifier's keys, words hashed for the openings of arith2bool by the
      prover and by the verifier, mask counters of the two parties *)
  Record tstate := { t_a : list N; t_y : list N; t_x : list N; t_k : list N; t_hp : list (list hitem); t_hv : list (list hitem);
                     t_sp : eda; t_sv : eda }.
  (** abconversion.cpp:36-52, one value of [i] *)
  Definition t_pass (st : tstate) (i : nat) : tstate :=
    let y := fold_left y_up (slots sz i) (t_y st) in
    let a := fold_left a_up (slots sz i) (t_a st) in
    let '(ps, sp) := b2a_batch_prv NN B C np_sz rb rp y (t_sp st) in
    let '(k, sv) := b2a_batch_ver NN B C np_sz rk d (map fst ps) (t_sv st) in
    let x := fold_left x_down (slots sz i) (map snd ps) in
    let k := fold_left k_down (slots sz i) k in
    let a := fold_left a_down (slots sz i) a in
    let '(os, sp') := a2b_batch_prv NN B C np_sz rp x sp in
    let '(hv, sv') := a2b_batch_ver NN B C np_sz rk d k (map fst os) sv in
    {| t_a := a; t_y := a2b_batch_out NN B C np_sz rb (map fst os) sp; t_x := x; t_k := k;
       t_hp := t_hp st ++ map snd os; t_hv := t_hv st ++ hv; t_sp := sp'; t_sv := sv' |}.
  (** abconversion.cpp:11-54; [x0], [k0] are the shares made by batch_feed (line 20), which are not read *)
  Definition t_run (a x0 k0 : list N) : tstate :=
    fold_left t_pass (flat_map (fun _ : nat => seq 0 3) (seq 0 2))
      {| t_a := a; t_y := map (fun v => v mod I62)%N a; t_x := x0; t_k := k0; t_hp := []; t_hv := [];
         t_sp := eda_init; t_sv := eda_init |}.
  (** abconversion.cpp:56-61 *)
  Definition t_incorrect (st : tstate) : nat :=
    length (filter (fun ya => negb (N.eqb (fst ya) (snd ya mod I62))) (combine (t_y st) (t_a st))).
  (** abconversion.cpp:66 with ostriple.h:319-327: error() unless the revealed words are those of [a] *)
  Definition t_reveal_fails (st : tstate) : bool := negb (if list_eq_dec N.eq_dec (map hi64 (t_x st)) (t_a st) then true else false).
End Program.
