(** What the oblivious memories should guarantee, in terms of logs of accesses. *)
From Coq Require Import NArith List Bool Arith Permutation.
From Verif Require Import GF128 BoolSpec F2kModel F2kSpec VoleF2kSpec RamModel.
Import ListNotations.

(** * Packed words: the number whose binary digits are the concatenated fields *)
Definition ro_word (index_sz val_sz : nat) (e : N * N) : N :=
  (snd e mod 2 ^ N.of_nat val_sz + 2 ^ N.of_nat val_sz * (fst e mod 2 ^ N.of_nat index_sz))%N.
Definition rw_word (index_sz step_sz val_sz : nat) (e : entry) : N :=
  (e_val e mod 2 ^ N.of_nat val_sz +
   2 ^ N.of_nat val_sz * (N.b2n (e_op e) + 2 * (e_step e mod 2 ^ N.of_nat step_sz +
     2 ^ N.of_nat step_sz * (e_idx e mod 2 ^ N.of_nat index_sz))))%N.
(** wide memory: first row as above with widths 32, 31, 64; then the remaining words in pairs *)
Fixpoint word_pairs (ws : list N) : list N :=
  match ws with
  | [] => []
  | [a] => [(2 ^ 64 * a)%N]
  | a :: b :: r => (2 ^ 64 * a + b)%N :: word_pairs r
  end.
Definition wide_row (e : wentry) : list N :=
  match w_val e with
  | [] => []
  | v0 :: r => (v0 + 2 ^ 64 * (N.b2n (w_op e) + 2 * (w_step e + 2 ^ 31 * w_idx e)))%N :: word_pairs r
  end.

(** * Set-equality test: product of (r + x) over a list *)
Definition shifted_product (r : N) (xs : list N) : N := fold_right gfmul 1%N (map (N.lxor r) xs).

(** * Read-only memory *)
(** the records a memory of content [mem] holds after [reads] (address, returned value) *)
Definition ro_records (mem : list N) (reads : list (N * N)) : list (N * N) :=
  combine (map N.of_nat (seq 0 (length mem))) mem ++ reads.
Definition ro_consistent (mem : list N) (reads : list (N * N)) : Prop :=
  forall a v, In (N.of_nat a, v) reads -> a < length mem -> nth_error mem a = Some v.

(** * Read-write memory: accesses in time order *)
Record acc := { a_addr : N; a_write : bool; a_val : N }.
(** the log: the access number is its step *)
Definition numbered (s : nat) (l : list acc) : list entry :=
  map (fun ix => {| e_idx := a_addr (snd ix); e_step := N.of_nat (fst ix); e_op := a_write (snd ix); e_val := a_val (snd ix) |})
      (combine (seq s (length l)) l).
(** value of the last write to [a] in a list of accesses *)
Fixpoint last_write (l : list acc) (a : N) : option N :=
  match l with
  | [] => None
  | x :: r => match last_write r a with
              | Some v => Some v
              | None => if a_write x && N.eqb (a_addr x) a then Some (a_val x) else None
              end
  end.
(** every read that is preceded by a write to its address returns the last value written there *)
Definition reads_latest (l : list acc) : Prop :=
  forall pre x post, l = pre ++ x :: post -> a_write x = false ->
    forall v, last_write pre (a_addr x) = Some v -> a_val x = v.
(** every read is preceded by a write to its address *)
Definition written_first (l : list acc) : Prop :=
  forall pre x post, l = pre ++ x :: post -> a_write x = false -> last_write pre (a_addr x) <> None.

(** * Wide memory: the same with word lists as values *)
Record wacc := { b_addr : N; b_write : bool; b_val : list N }.
Definition wnumbered (s : nat) (l : list wacc) : list wentry :=
  map (fun ix => {| w_idx := b_addr (snd ix); w_step := N.of_nat (fst ix); w_op := b_write (snd ix); w_val := b_val (snd ix) |})
      (combine (seq s (length l)) l).
Fixpoint wlast_write (l : list wacc) (a : N) : option (list N) :=
  match l with
  | [] => None
  | x :: r => match wlast_write r a with
              | Some v => Some v
              | None => if b_write x && N.eqb (b_addr x) a then Some (b_val x) else None
              end
  end.
Definition wreads_latest (l : list wacc) : Prop :=
  forall pre x post, l = pre ++ x :: post -> b_write x = false ->
    forall v, wlast_write pre (b_addr x) = Some v -> b_val x = v.
Definition wwritten_first (l : list wacc) : Prop :=
  forall pre x post, l = pre ++ x :: post -> b_write x = false -> wlast_write pre (b_addr x) <> None.

(** * Accidents of the challenges: a non-zero vector of errors combined to zero *)
Definition mul_errors_cancel (threads : nat) (seeds : nat -> nat -> N) (cm : fcst) : Prop :=
  exists k es, nth_error (fbatches cm) k = Some es /\ (exists e, In e es /\ e <> 0%N) /\
    fcombined (f_ranges threads (length es)) (seeds k) es = 0%N.
Definition prod_errors_cancel (pseeds : nat -> N) (cm : fcst) : Prop :=
  exists k es, nth_error (pbatches cm) k = Some es /\ (exists e, In e es /\ fst e = 5 /\ snd e <> 0%N) /\
    weighted (pseeds k) (deg_errs 5 es) = 0%N.

(** A cheating prover, its commitments [ext] (sorted list, then recorded list) and preprocessing fixed,
    gets the set-equality test with challenge [r] accepted for at least six keys, by messages chosen
    after [r], without one of the two accidents above. *)
Definition seteq_passes (ext : nat -> fwire) (voleV voleM : nat -> nat -> N) (bM oM : nat -> N)
    (threads bufsz polysz : nat) (acc_last : bool) (n : nat) (r : N) : Prop :=
  exists seeds pseeds junk corr bitmsg chkmsg polymsg g1 g2 msg ds c a0 a1,
    seteq_circuit acc_last n r = Some (c, a0, a1) /\ (forall k, (r0 (polymsg k) < 2 ^ 128)%N) /\
    NoDup ds /\ 6 <= length ds /\
    (forall d, In d ds -> valid_delta d /\ exists v,
       f_session ext voleV voleM bM oM threads bufsz polysz seeds pseeds junk corr bitmsg chkmsg polymsg g1 g2 c d = Some v /\
       fv_printed v = 0 /\ seteq_accept (fv_w v) a0 a1 msg = true) /\
    let cm := fcommit (fun i => fst (ext i)) voleV bM bufsz polysz corr bitmsg c in
    ~ mul_errors_cancel threads seeds cm /\ ~ prod_errors_cancel pseeds cm.

(** * Ranges and shapes used in the statements *)
Definition rw_fits (index_sz step_sz val_sz : nat) (e : entry) : Prop :=
  (e_idx e < 2 ^ N.of_nat index_sz)%N /\ (e_step e < 2 ^ N.of_nat step_sz)%N /\ (e_val e < 2 ^ N.of_nat val_sz)%N.
Definition w64 (x : N) : Prop := (x < 2 ^ 64)%N.
Definition wide_fits (e : wentry) : Prop := (w_idx e < 2 ^ 32)%N /\ (w_step e < 2 ^ 31)%N /\ Forall w64 (w_val e) /\ w_val e <> [].
Definition ro_fits (n v : nat) (e : N * N) : Prop := (fst e < 2 ^ N.of_nat n)%N /\ (snd e < 2 ^ N.of_nat v)%N.
Definition ro_in_memory (mem : list N) (reads : list (N * N)) : Prop := Forall (fun r => (fst r < N.of_nat (length mem))%N) reads.
Definition log_fits (n s v : nat) (L : list entry) : Prop := Forall (rw_fits n s v) L /\ Forall (fun e => (e_step e < 2 ^ N.of_nat (s - 1))%N) L /\ 1 <= s.
Definition wlog_fits (n s nw : nat) (L : list wentry) : Prop :=
  n <= 32 /\ 1 <= s <= 31 /\ Forall (fun e => (w_idx e < 2 ^ N.of_nat n)%N /\ (w_step e < 2 ^ N.of_nat (s - 1))%N /\ Forall w64 (w_val e) /\ w_val e <> [] /\ length (w_val e) = nw) L.
Definition rw_is_access (o : rwop) : Prop := match o with RRead _ | RWrite _ _ | RAccess _ _ _ => True | _ => False end.
Definition rw_address (o : rwop) : nat := match o with RRead i | RWrite i _ | RAccess _ i _ => i | _ => 0 end.
Definition ro_log (data : list N) (is : list nat) : list (N * N) := map (fun i => (N.of_nat i, nth i data 0%N)) is.
Definition w_is_access (o : wop) : Prop := match o with WCheck => False | _ => True end.
Definition w_address (o : wop) : nat := match o with WRead i | WWrite i _ => i | WCheck => 0 end.
