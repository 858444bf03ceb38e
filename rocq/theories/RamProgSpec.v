(** What a program should get from a memory: an array. *)
From Coq Require Import NArith List Bool Arith.
From Verif Require Import GF128 BoolSpec F2kModel F2kSpec VoleF2kSpec RamModel RamSpec.
Import ListNotations.

Definition set_cell (mem : nat -> N) (i : nat) (v : N) : nat -> N := fun j => if Nat.eqb j i then v else mem j.
(** results of the calls on a plain array *)
Fixpoint array_run (mem : nat -> N) (os : list rwop) : list (option N) :=
  match os with
  | [] => []
  | RRead i :: os' => Some (mem i) :: array_run mem os'
  | RWrite i v :: os' => None :: array_run (set_cell mem i v) os'
  | RAccess true i v :: os' => Some v :: array_run (set_cell mem i v) os'
  | RAccess false i _ :: os' => Some (mem i) :: array_run mem os'
  | _ :: os' => array_run mem os'
  end.
Definition zeros : nat -> N := fun _ => 0%N.
(** every read comes after a write to its cell; [ws] are the cells written so far *)
Fixpoint rw_reads_written (ws : list nat) (os : list rwop) : Prop :=
  match os with
  | [] => True
  | RRead i :: os' | RAccess false i _ :: os' => In i ws /\ rw_reads_written ws os'
  | RWrite i _ :: os' | RAccess true i _ :: os' => rw_reads_written (i :: ws) os'
  | _ :: os' => rw_reads_written ws os'
  end.
(** calls whose addresses are cells and whose values have val_sz bits *)
Definition rw_call_ok (index_sz val_sz : nat) (o : rwop) : Prop :=
  match o with
  | RRead i => i < 2 ^ index_sz
  | RWrite i v | RAccess _ i v => i < 2 ^ index_sz /\ (v < 2 ^ N.of_nat val_sz)%N
  | _ => False
  end.
(** the program with the argument of every writing access() replaced by the value the prover fed *)
Definition as_written (o : rwop) (f : N) : rwop := match o with RAccess true i _ => RAccess true i f | _ => o end.
Definition written_as (os : list rwop) (fs : list N) : list rwop := map (fun of => as_written (fst of) (snd of)) (combine os fs).
Definition no_writing_access (o : rwop) : Prop := match o with RAccess true _ _ => False | _ => True end.

(** wide memory: results on a plain array of word lists, and in a log *)
Fixpoint warray_run (mem : nat -> list N) (os : list wop) : list (option (list N)) :=
  match os with
  | [] => []
  | WRead i :: os' => Some (mem i) :: warray_run mem os'
  | WWrite i v :: os' => None :: warray_run (fun j => if Nat.eqb j i then v else mem j) os'
  | WCheck :: os' => warray_run mem os'
  end.
Definition wide_results (os : list wop) (log : list wacc) : list (option (list N)) :=
  map (fun ox => match fst ox with WRead _ => Some (b_val (snd ox)) | _ => None end) (combine os log).

(** two honest parties that hold the committed lists [xs] and [ys] accept the set-equality test for every challenge, key and randomness *)
Definition engine_accepts (threads bufsz polysz : nat) (acc_last : bool) (xs ys : list N) : Prop :=
  let n := length xs in
  forall ext voleV voleM bM oM seeds pseeds r junkp junkv g1 g2 g3 g4 h1 h2 d,
  (r < 2 ^ 128)%N -> (forall r i, (junkv r i < 2 ^ 128)%N) -> valid_delta d ->
  map (fun i => fst (ext i)) (seq 0 n) = xs -> map (fun i => fst (ext i)) (seq n n) = ys ->
  exists c a0 a1, seteq_circuit acc_last n r = Some (c, a0, a1) /\
  let p := fp_exec ext voleV voleM bM oM threads bufsz polysz seeds pseeds junkp g1 g2 g3 g4 c in
  exists v, f_session ext voleV voleM bM oM threads bufsz polysz seeds pseeds junkv
       (fun i => nth i (fp_corr p) 0%N) (fun i => nth i (fp_bits p) false)
       (fun k => nth k (fp_msgs p) (0, 0)%N) (fun k => nth k (fp_pmsgs p) (0, 0, 0, 0, 0)%N) h1 h2 c d = Some v /\
    fv_printed v = 0 /\ fv_cheat v = [] /\ seteq_accept (fv_w v) a0 a1 (seteq_msg (fp_w p) a0 a1) = true.
(** sizes of the engine for which the multiplication check of [n] products works (C31_small_batch_refuted) *)
Definition engine_sizes (threads bufsz n : nat) : Prop :=
  1 <= threads /\ threads <= bufsz /\ 6 <= bufsz /\ 3 <= n /\ (N.of_nat n < 2 ^ 64)%N /\ (n mod 4 = 1 \/ threads <= 2 * ((n - 1) mod 4)).
