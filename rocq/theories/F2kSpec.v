(** What the GF(2^128) multiplication engine should compute, and what a cheating prover is
    committed to.  No macs, keys or Delta appear in the commitments. *)
From Coq Require Import NArith List Bool Arith.
From Verif Require Import GF128 BoolModel BoolSpec F2kModel VoleF2kSpec.
Import ListNotations.

Definition fval (ws : list N) (i : nat) : N := nth i ws 0%N.
Definition prod3 (a b c : N) : N := gfmul (gfmul a b) c.
Definition prod4 (a b c d : N) : N := gfmul (prod3 a b c) d.
Definition prod5 (a b c d e : N) : N := gfmul (prod4 a b c d) e.
(** plain evaluation: value of each element, [ev] the values supplied from outside *)
Fixpoint fplain (ev : nat -> N) (e : nat) (ws : list N) (c : list fgate) : list N :=
  let v := fval ws in
  match c with
  | [] => ws
  | FExt :: c' => fplain ev (S e) (ws ++ [ev e]) c'
  | FAddC i k :: c' => fplain ev e (ws ++ [N.lxor (v i) k]) c'
  | FMul i j :: c' => fplain ev e (ws ++ [gfmul (v i) (v j)]) c'
  | FMul3 i j k :: c' => fplain ev e (ws ++ [prod3 (v i) (v j) (v k)]) c'
  | FMul4 i j k l :: c' => fplain ev e (ws ++ [prod4 (v i) (v j) (v k) (v l)]) c'
  | FMul5 i j k l m :: c' => fplain ev e (ws ++ [prod5 (v i) (v j) (v k) (v l) (v m)]) c'
  end.

(** * Commitments *)
Definition word_of (bs : list bool) : N := fold_right (fun b w => (2 * w + b2N b)%N) 0%N bs.
Record fcst := { fc_w : list N;                  (* committed value of each element *)
                 fc_ext : nat; fc_corr : nat; fc_bits : nat;
                 fc_errs : list N;               (* current batch: product xor claimed product *)
                 fc_done : list (list N);        (* finished batches *)
                 fc_perrs : list (nat * N);      (* current product-proof batch: (degree, error) *)
                 fc_pdone : list (list (nat * N)) }.
Section FCommit.
  Variables (ev : nat -> N) (voleV : nat -> nat -> N) (bM : nat -> N) (bufsz polysz : nat).
  Variables (corr : nat -> N) (bitmsg : nat -> bool).
  Definition fc_add (s : fcst) (v : N) (e : nat) : fcst :=
    {| fc_w := fc_w s ++ [v]; fc_ext := fc_ext s + e; fc_corr := fc_corr s; fc_bits := fc_bits s;
       fc_errs := fc_errs s; fc_done := fc_done s; fc_perrs := fc_perrs s; fc_pdone := fc_pdone s |}.
  Definition fc_flush (s : fcst) : fcst :=
    if Nat.eqb (length (fc_errs s)) bufsz then
      {| fc_w := fc_w s; fc_ext := fc_ext s; fc_corr := fc_corr s; fc_bits := fc_bits s;
         fc_errs := []; fc_done := fc_done s ++ [fc_errs s]; fc_perrs := fc_perrs s; fc_pdone := fc_pdone s |}
    else s.
  Definition fc_mul (s : fcst) (prod : N) : fcst :=
    let s := fc_flush s in
    let v := N.lxor (voleV (length (fc_done s)) (length (fc_errs s))) (corr (fc_corr s)) in
    {| fc_w := fc_w s ++ [v]; fc_ext := fc_ext s; fc_corr := S (fc_corr s); fc_bits := fc_bits s;
       fc_errs := fc_errs s ++ [N.lxor prod v]; fc_done := fc_done s;
       fc_perrs := fc_perrs s; fc_pdone := fc_pdone s |}.
  (** value bound by the authenticated bits that start at position b: bits b..b+63 and b+65..b+128 *)
  Definition fc_bitval (b : nat) : N :=
    word_of (map (fun i => xorb (N.testbit (bM i) 0) (bitmsg i)) (seq b 64 ++ seq (b + 65) 64)).
  Definition fc_chain (s : fcst) (deg : nat) (prod : N) : fcst :=
    let v := fc_bitval (fc_bits s) in
    let full := Nat.leb polysz (length (fc_perrs s)) && negb (Nat.eqb (length (fc_perrs s)) 0) in
    {| fc_w := fc_w s ++ [v]; fc_ext := fc_ext s; fc_corr := fc_corr s; fc_bits := fc_bits s + 130;
       fc_errs := fc_errs s; fc_done := fc_done s;
       fc_perrs := (if full then [] else fc_perrs s) ++ [(deg, N.lxor prod v)];
       fc_pdone := if full then fc_pdone s ++ [fc_perrs s] else fc_pdone s |}.
  Definition fc_step (s : fcst) (g : fgate) : fcst :=
    let v := fval (fc_w s) in
    match g with
    | FExt => fc_add s (ev (fc_ext s)) 1
    | FAddC i c => fc_add s (N.lxor (v i) c) 0
    | FMul i j => fc_mul s (gfmul (v i) (v j))
    | FMul3 i j k => fc_chain s 3 (prod3 (v i) (v j) (v k))
    | FMul4 i j k l => fc_chain s 4 (prod4 (v i) (v j) (v k) (v l))
    | FMul5 i j k l m => fc_chain s 5 (prod5 (v i) (v j) (v k) (v l) (v m))
    end.
  Definition fc_init : fcst :=
    {| fc_w := []; fc_ext := 0; fc_corr := 0; fc_bits := 0; fc_errs := []; fc_done := [];
       fc_perrs := []; fc_pdone := [] |}.
  Definition fcommit (c : list fgate) : fcst := fold_left fc_step c fc_init.
End FCommit.
(** batches in the order in which they are checked *)
Definition fbatches (s : fcst) : list (list N) :=
  fc_done s ++ match fc_errs s with [] => [] | e => [e] end.
Definition pbatches (s : fcst) : list (list (nat * N)) :=
  fc_pdone s ++ match fc_perrs s with [] => [] | e => [e] end.

(** challenge combinations: element j of a range is weighted with seed^(j+1) *)
Definition weighted (seed : N) (es : list N) : N :=
  fold_right N.lxor 0%N (map (fun ce => gfmul (fst ce) (snd ce)) (combine (gf_coeff_gen seed (length es)) es)).
Definition fcombined (rs : list (nat * nat)) (seed : nat -> N) (es : list N) : N :=
  fold_right N.lxor 0%N
    (map (fun ir => weighted (seed (fst ir)) (firstn (snd (snd ir)) (skipn (fst (snd ir)) es)))
         (combine (seq 0 (length rs)) rs)).
(** the errors of degree-n entries of a product-proof batch *)
Definition deg_errs (n : nat) (es : list (nat * N)) : list N :=
  map (fun e => if Nat.eqb (fst e) n then snd e else 0%N) es.
(** number of multiplications of a circuit *)
Fixpoint count_mul (c : list fgate) : nat :=
  match c with [] => 0 | FMul _ _ :: c' => S (count_mul c') | _ :: c' => count_mul c' end.
(** the verifier's key of a (value, mac) pair *)
Definition key_of (d : N) (w : fwire) : N := N.lxor (snd w) (gfmul (fst w) d).
(** the verifier's run for key [d] against arbitrary prover messages, with ideal correlations *)
Definition f_session (ext : nat -> fwire) (voleV voleM : nat -> nat -> N) (bM oM : nat -> N)
    (threads bufsz polysz : nat) (seeds : nat -> nat -> N) (pseeds : nat -> N) (junk : nat -> nat -> N)
    (corr : nat -> N) (bitmsg : nat -> bool) (chkmsg : nat -> N * N) (polymsg : nat -> row5)
    (g1 g2 : nat -> N) (c : list fgate) (d : N) : option fvst :=
  fv_exec (fun i => key_of d (ext i)) (fun r i => key_of d (voleV r i, voleM r i)) (cot_key bM d) (cot_key oM d) d
    threads bufsz polysz seeds pseeds junk corr bitmsg chkmsg polymsg g1 g2 c.
