(** Counting executions: a verifier draws a key and challenges from finite lists, a prover follows a strategy that may use
    every challenge it has seen.  Nothing here mentions keys, labels or tags. *)
From Coq Require Import NArith List Bool Arith.
From Verif Require Import BoolModel BoolSpec.
Import ListNotations.

(** all lists of length n over an alphabet *)
Fixpoint tuples {A : Type} (n : nat) (l : list A) : list (list A) :=
  match n with 0 => [[]] | S n' => flat_map (fun x => map (cons x) (tuples n' l)) l end.
Definition cnt {A : Type} (P : A -> bool) (l : list A) : nat := length (filter P l).

(** ** boolean sessions: when each bit of the prover is sent *)
(** checks already run when [a] AND gates have been issued: a full buffer is checked by the next AND gate *)
Definition checks_done (csz a : nat) : nat := match a with 0 => 0 | S a' => a' / csz end.
(** for every bit the prover sends, in order: the number of challenges it has seen *)
Fixpoint seen (csz a : nat) (c : list gate) : list nat :=
  match c with
  | [] => []
  | GIn _ :: c' | GReveal _ :: c' => checks_done csz a :: seen csz a c'
  | GAnd _ _ :: c' => checks_done csz (S a) :: seen csz (S a) c'
  | _ :: c' => seen csz a c'
  end.
(** number of checks of a whole session *)
Definition num_checks (csz n : nat) : nat := match n with 0 => 0 | S n' => S (n' / csz) end.
(** a strategy for the bits, [bit seen_challenges i], and the bits it sends when the challenges are [s] *)
Definition play_bits {Ch : Type} (csz : nat) (c : list gate) (bit : list Ch -> nat -> bool) (s : list Ch) (i : nat) : bool :=
  bit (firstn (nth i (seen csz 0 c) 0) s) i.
(** every batch is covered by the workers' ranges: true for one thread, and for every batch of at least t*t gates *)
Definition all_covered (t csz n : nat) : Prop :=
  (csz < n -> csz mod t < csz / t) /\ (0 < n -> last_batch csz n mod t < last_batch csz n / t).

(** ** boolean sessions: the verifier draws its key and, for every check, one seed per worker thread.  A strategy is the prover's
    correlations, its bits, its replies to the checks, and its final digest; [cheats] says that the whole session accepts and
    some revealed value is not the output of the circuit on the inputs the prover committed to. *)
Section BoolGame.
  Variables (r0 r1 : N) (pM : nat -> N) (t csz : nat) (c : list gate).
  Variables (D : Type) (Deqb : D -> D -> bool) (H : list N -> D).
  Variables (bit : list (list N) -> nat -> bool) (reply : list (list N) -> nat -> N * N) (digest : list (list N) -> D).
  Definition seeds_of (s : list (list N)) (k j : nat) : N := nth j (nth k s []) 0%N.
  Definition game_exec (s : list (list N)) (d : N) : option vst :=
    ver_exec r0 r1 (cot_key pM d) d t csz (seeds_of s) (play_bits csz c bit s) (reply s) c.
  Definition committed (s : list (list N)) : list bool := c_ins (commit pM csz (play_bits csz c bit s) c).
  Definition cheats (s : list (list N)) (d : N) : bool :=
    match game_exec s d with
    | Some v => negb (ver_finalize Deqb H v (digest s)) &&
                (if list_eq_dec bool_dec (v_outs v) (plain_outputs (with_inputs (committed s) c)) then false else true)
    | None => false
    end.
End BoolGame.
