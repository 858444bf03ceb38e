(** Model of /repo/emp-zk/emp-zk-bool/polynomial.h (class PolyProof, boolean polynomials).

    Simplifications:
    - FerretCOT is an oracle: the k-th batch check obtains the 128 blocks [ope k] (:53,:81).
    - The challenge seed, drawn by the verifier and sent to the prover (:47,:75-76), is the
      oracle [seeds k], the same value on both sides.
    - uni_hash_coeff_gen(chi, seed, n) of emp-tool gives seed, seed^2, ..., seed^n ([gf_coeff_gen]);
      vector_inn_prdt_sum_red is the inner product in GF(2^128) ([gf_inn_prdt]).
    - Arrays with a length argument are lists of that length.
    - The buffers buffer/buffer1 and num are lists of length num. *)
From Coq Require Import NArith List Bool Arith.
From Verif Require Import Word GF128 BoolModel.
Import ListNotations.

(** choice[0] = zero_block; choice[1] = b; choice[s] *)
Definition sel (s : bool) (b : N) : N := if s then b else 0%N.

(** * Prover: one term of the loops. *)
(** :110-128  one iteration of zkp_poly_deg2 *)
Definition prv_deg2_term (acc : N * N) (cxy : bool * (N * N)) : N * N :=
  let '(c, (m0, m1)) := cxy in
  let w0 := getLSB m0 in let w1 := getLSB m1 in
  let A0 := N.lxor (fst acc) (sel c (gfmul m0 m1)) in
  let tmp0 := N.lxor (sel w1 m0) (sel w0 m1) in
  (A0, N.lxor (snd acc) (sel c tmp0)).
(** :159-173  one iteration of zkp_inner_prdt (same body in :205-219, :220-234, :268-282, :283-297,
    :298-312, :355-369, :370-384) *)
Definition prv_inn_term (acc : N * N) (xy : N * N) : N * N :=
  let '(m0, m1) := xy in
  let w0 := getLSB m0 in let w1 := getLSB m1 in
  (N.lxor (fst acc) (gfmul m0 m1), N.lxor (snd acc) (N.lxor (sel w1 m0) (sel w0 m1))).

(** * Verifier: one term. *)
(** :134-139 *)
Definition ver_deg2_term (acc : N) (cxy : bool * (N * N)) : N :=
  let '(c, (x, y)) := cxy in N.lxor acc (sel c (gfmul x y)).
(** :179-182 *)
Definition ver_inn_term (acc : N) (xy : N * N) : N := N.lxor acc (gfmul (fst xy) (snd xy)).
(** :140-143, :183-186, :246-249: constant term, times delta^2 *)
Definition ver_const (delta : N) (c : bool) (B : N) : N := N.lxor B (sel c (gfmul delta delta)).

(** * The calls of the public interface, over an arbitrary type of wires *)
Inductive bcall (W : Type) : Type :=
| BDeg2 (x y : list W) (coeff : list bool)                 (* zkp_poly_deg2 :98-147; coeff[0] constant *)
| BInn (x y : list W) (constant : bool)                    (* zkp_inner_prdt :149-190 *)
| BInnEq (x y r s : list W)                                (* zkp_inner_prdt_eq :192-253 *)
| BInnEq2 (x y r s : list W) (rr ss : W)                   (* zkp_inner_prdt_eq :255-335 *)
| BMulti (x : list (list W)) (y : list W) (r : list W) (s : W) (in_width : nat).
                                                           (* zkp_inner_prdt_multi :337-405 *)
Arguments BDeg2 {W}. Arguments BInn {W}. Arguments BInnEq {W}. Arguments BInnEq2 {W}. Arguments BMulti {W}.

(** relations appended to the buffer by one call (zkp_inner_prdt_multi appends in_width of them);
    polyx[i][width] is [nth width (nth i x)] *)
Definition prv_items (c : bcall N) : list (N * N) :=
  match c with
  | BDeg2 x y coeff => [fold_left prv_deg2_term (combine (tl coeff) (combine x y)) (0, 0)%N]
  | BInn x y _ => [fold_left prv_inn_term (combine x y) (0, 0)%N]
  | BInnEq x y r s => [fold_left prv_inn_term (combine r s) (fold_left prv_inn_term (combine x y) (0, 0)%N)]
  | BInnEq2 x y r s rr ss =>
      [prv_inn_term (fold_left prv_inn_term (combine r s) (fold_left prv_inn_term (combine x y) (0, 0)%N)) (rr, ss)]
  | BMulti x y r s w =>
      map (fun k => prv_inn_term (fold_left prv_inn_term (combine (map (fun xi => nth k xi 0%N) x) y) (0, 0)%N)
                                 (nth k r 0%N, s)) (seq 0 w)
  end.
Definition ver_items (delta : N) (c : bcall N) : list N :=
  match c with
  | BDeg2 x y coeff =>
      [ver_const delta (hd false coeff) (fold_left ver_deg2_term (combine (tl coeff) (combine x y)) 0%N)]
  | BInn x y c => [ver_const delta c (fold_left ver_inn_term (combine x y) 0%N)]
  | BInnEq x y r s =>
      [ver_const delta false (fold_left ver_inn_term (combine r s) (fold_left ver_inn_term (combine x y) 0%N))]
  | BInnEq2 x y r s rr ss =>
      [ver_const delta false
         (ver_inn_term (fold_left ver_inn_term (combine r s) (fold_left ver_inn_term (combine x y) 0%N)) (rr, ss))]
  | BMulti x y r s w =>
      map (fun k => ver_const delta false
             (ver_inn_term (fold_left ver_inn_term (combine (map (fun xi => nth k xi 0%N) x) y) 0%N)
                           (nth k r 0%N, s))) (seq 0 w)
  end.

(** * Batch check :38-96 *)
Definition pp_chi (seed : N) (num : nat) : list N := gf_coeff_gen seed (if Nat.ltb 4 num then num else 4).
(** :46-71 prover's message check_sum[0..1] *)
Definition prv_check_sum (buf : list (N * N)) (seed : N) (ope : list N) : N * N :=
  let num := length buf in
  let chi := firstn num (pp_chi seed num) in
  (N.lxor (gf_inn_prdt chi (map fst buf)) (packing ope),
   N.lxor (gf_inn_prdt chi (map snd buf)) (ch_bits ope)).
(** :78-93 verifier's comparison; true = accepted *)
Definition ver_check_sum (delta : N) (buf : list N) (seed : N) (ope : list N) (msg : N * N) : bool :=
  let num := length buf in
  let chi := firstn num (pp_chi seed num) in
  let B := N.lxor (gf_inn_prdt chi buf) (packing ope) in
  N.eqb (fst msg) (N.lxor B (gfmul (snd msg) delta)).

(** * Runs of a sequence of calls followed by the destructor :31-37 *)
Record ppst := { pp_buf : list (N * N); pp_chk : nat; pp_msgs : list (N * N) }.
Record pvst := { pv_buf : list N; pv_chk : nat; pv_cheat : list nat (* CheatRecord entries *) }.
Section Runs.
  Variables (buffer_sz : nat) (seeds : nat -> N).
  Section P.
    Variable ope : nat -> list N.
    Definition pp_batch_check (s : ppst) : ppst :=
      match pp_buf s with
      | [] => s
      | _ => {| pp_buf := []; pp_chk := S (pp_chk s);
                pp_msgs := pp_msgs s ++ [prv_check_sum (pp_buf s) (seeds (pp_chk s)) (ope (pp_chk s))] |}
      end.
    Definition pp_item (s : ppst) (i : N * N) : ppst :=
      let s := if Nat.leb buffer_sz (length (pp_buf s)) then pp_batch_check s else s in
      {| pp_buf := pp_buf s ++ [i]; pp_chk := pp_chk s; pp_msgs := pp_msgs s |}.
    Definition pp_call (s : ppst) (c : bcall N) : ppst := fold_left pp_item (prv_items c) s.
    Definition pp_exec (cs : list (bcall N)) : ppst :=
      pp_batch_check (fold_left pp_call cs {| pp_buf := []; pp_chk := 0; pp_msgs := [] |}).
  End P.
  Section V.
    Variables (delta : N) (ope : nat -> list N) (msg : nat -> N * N).
    Definition pv_batch_check (s : pvst) : pvst :=
      match pv_buf s with
      | [] => s
      | _ => {| pv_buf := []; pv_chk := S (pv_chk s);
                pv_cheat := if ver_check_sum delta (pv_buf s) (seeds (pv_chk s)) (ope (pv_chk s)) (msg (pv_chk s))
                            then pv_cheat s else pv_cheat s ++ [0] |}
      end.
    Definition pv_item (s : pvst) (i : N) : pvst :=
      let s := if Nat.leb buffer_sz (length (pv_buf s)) then pv_batch_check s else s in
      {| pv_buf := pv_buf s ++ [i]; pv_chk := pv_chk s; pv_cheat := pv_cheat s |}.
    Definition pv_call (s : pvst) (c : bcall N) : pvst := fold_left pv_item (ver_items delta c) s.
    Definition pv_exec (cs : list (bcall N)) : pvst :=
      pv_batch_check (fold_left pv_call cs {| pv_buf := []; pv_chk := 0; pv_cheat := [] |}).
  End V.
End Runs.
