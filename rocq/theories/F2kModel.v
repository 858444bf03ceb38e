(** Model of the GF(2^128) multiplication engine of the memory extension:
    /repo/emp-zk/extensions/ram-zk/{ostriple.h, poly_prdt.h}.

    Simplifications, stated once:
    - svole->extend_inplace is an oracle: refill number r fills position i of the buffer with
      (voleV r i, voleM r i) on the prover's side and voleK r i on the verifier's side (the
      generator itself is modelled in VoleF2kModel.v).
    - The boolean engine's input correlations are an oracle [bM] / [bK]; the 128 masking
      correlations of a check, taken from FerretCOT directly, are a separate oracle [oM] / [oK].
    - Challenge seeds (PRG of the transcript hash, ostriple.h:199-204; the hash itself in
      poly_prdt.h:60,74) are oracles, equal on both sides (C16).
    - An element that enters from outside (packed from boolean labels by the memory code) is the
      next entry of [ext] / [extk].
    - Arrays are functions from indices; the verifier's val arrays, which it never fills with
      meaningful data, are left out.  andgate_correctness_check stores its terms in place of
      the operand values; those slots are written again by compute_mul before the next check
      reads them, so here the terms are separate lists.
    - The heap array sum[] of a check is not initialised (ostriple.h:215); a worker with an empty
      range returns without writing its slots (:273-274), which keep the contents [junk].
    - [None] is a run stopped by error(...). *)
From Coq Require Import NArith List Bool Arith.
From Verif Require Import Word GF128 GfmulModel BoolModel.
Import ListNotations.

Definition aupd (f : nat -> N) (i : nat) (v : N) : nat -> N := fun j => if Nat.eqb j i then v else f j.

(** Operations on authenticated elements; indices refer to earlier elements. *)
Inductive fgate : Type :=
| FExt                            (* element supplied by the caller *)
| FAddC (i : nat) (c : N)         (* ostriple.h:80-90 *)
| FMul (i j : nat)                (* ostriple.h:92-121 *)
| FMul3 (i j k : nat)             (* ostriple.h:123-143 *)
| FMul4 (i j k l : nat)           (* ostriple.h:145-167 *)
| FMul5 (i j k l m : nat).        (* ostriple.h:169-193 *)

(** ostriple.h:206-227  ranges (start, length) of the workers *)
Definition f_ranges (threads check_cnt : nat) : list (nat * nat) :=
  let task_base := if Nat.ltb check_cnt threads then 0 else check_cnt / threads in
  let leftover := if Nat.ltb check_cnt threads then check_cnt
                  else task_base + check_cnt mod task_base in
  map (fun i => (i * task_base, task_base)) (seq 0 (threads - 1))
  ++ [((threads - 1) * task_base, leftover)].

(** ostriple.h:281-291 *)
Definition fp_terms (lv lm rv rm om : nat -> N) (i : nat) : N * N :=
  let A0 := gfmul (lm i) (rm i) in
  let tmp := gfmul (lv i) (rm i) in
  let A1 := gfmul (rv i) (lm i) in
  let A1 := N.lxor A1 tmp in
  let A1 := N.lxor A1 (om i) in (A0, A1).
(** ostriple.h:292-299 *)
Definition fv_term (delta : N) (lm rm om : nat -> N) (i : nat) : N :=
  let B := gfmul (lm i) (rm i) in
  let tmp := gfmul (om i) delta in N.lxor B tmp.
(** ostriple.h:271-311  andgate_correctness_check *)
Definition fp_range (lv lm rv rm om : nat -> N) (start n : nat) (seed : N) (junk : N * N) : N * N :=
  if Nat.eqb n 0 then junk else
  let chi := gf_coeff_gen seed n in
  let ts := map (fp_terms lv lm rv rm om) (seq start n) in
  (gf_inn_prdt chi (map fst ts), gf_inn_prdt chi (map snd ts)).
Definition fv_range (delta : N) (lm rm om : nat -> N) (start n : nat) (seed : N) (junk : N) : N :=
  if Nat.eqb n 0 then junk else
  gf_inn_prdt (gf_coeff_gen seed n) (map (fv_term delta lm rm om) (seq start n)).
(** ostriple.h:232-251  A_star *)
Definition fp_A_star (lv lm rv rm om : nat -> N) (rs : list (nat * nat)) (seed : nat -> N)
           (junk : nat -> N * N) (ope : list N) : N * N :=
  fold_left (fun acc ir =>
      let s := fp_range lv lm rv rm om (fst (snd ir)) (snd (snd ir)) (seed (fst ir)) (junk (fst ir)) in
      (N.lxor (fst acc) (fst s), N.lxor (snd acc) (snd s)))
    (combine (seq 0 (length rs)) rs) (packing ope, ch_bits ope).
(** ostriple.h:253-256  B_star *)
Definition fv_B_star (delta : N) (lm rm om : nat -> N) (rs : list (nat * nat)) (seed : nat -> N)
           (junk : nat -> N) (ope : list N) : N :=
  fold_left (fun acc ir =>
      N.lxor acc (fv_range delta lm rm om (fst (snd ir)) (snd (snd ir)) (seed (fst ir)) (junk (fst ir))))
    (combine (seq 0 (length rs)) rs) (packing ope).

(** * Product proofs of degree 3, 4, 5 (poly_prdt.h) *)
Definition at_ (l : list N) (i : nat) : N := nth i l 0%N.
Definition row5 : Type := N * N * N * N * N.
(** poly_prdt.h:99-122 *)
Definition prv_poly3 (x1 m1 x2 m2 x3 m3 m4 : N) : row5 :=
  let c := gfmul_1 [m1; m1; m2; x1] [m2; x2; x1; x2] in
  let c2 := N.lxor (at_ c 2) (at_ c 1) in
  let c := gfmul_1 [at_ c 0; at_ c 0; c2; c2; at_ c 3] [m3; x3; m3; x3; m3] in
  (at_ c 0, N.lxor (at_ c 1) (at_ c 2), N.lxor (N.lxor (at_ c 3) (at_ c 4)) m4, 0%N, 0%N).
(** poly_prdt.h:144-188 *)
Definition prv_poly4 (x1 m1 x2 m2 x3 m3 x4 m4 m5 : N) : row5 :=
  let c := gfmul_1 [m1; m1; m2; x1] [m2; x2; x1; x2] in
  let c2 := N.lxor (at_ c 2) (at_ c 1) in
  let c := gfmul_1 [at_ c 0; at_ c 0; c2; c2; at_ c 3; at_ c 3] [m3; x3; m3; x3; m3; x3] in
  let c2 := N.lxor (at_ c 2) (at_ c 1) in
  let c4 := N.lxor (at_ c 4) (at_ c 3) in
  let c := gfmul_1 [at_ c 0; at_ c 0; c2; c4; c2; c4; at_ c 5] [m4; x4; m4; m4; x4; x4; m4] in
  let c2 := N.lxor (at_ c 2) (at_ c 1) in
  let c4 := N.lxor (at_ c 4) (at_ c 3) in
  let c6 := N.lxor (at_ c 6) (at_ c 5) in
  (at_ c 0, c2, c4, N.lxor c6 m5, 0%N).
(** poly_prdt.h:212-246 *)
Definition prv_poly5 (x1 m1 x2 m2 x3 m3 x4 m4 x5 m5 m6 : N) : row5 :=
  let c := gfmul_1 [m1; m1; m2; x1] [m2; x2; x1; x2] in
  let c2 := N.lxor (at_ c 2) (at_ c 1) in
  let c := gfmul_1 [at_ c 0; at_ c 0; c2; c2; at_ c 3; at_ c 3] [m3; x3; m3; x3; m3; x3] in
  let c2 := N.lxor (at_ c 2) (at_ c 1) in
  let c4 := N.lxor (at_ c 4) (at_ c 3) in
  let d := gfmul_1 [at_ c 0; at_ c 0; c2; c4] [m4; x4; m4; m4] in
  let c := gfmul_1 [c2; c4; at_ c 5; at_ c 5] [x4; x4; m4; x4] in
  let d2 := N.lxor (at_ d 2) (at_ d 1) in
  let c0 := N.lxor (at_ c 0) (at_ d 3) in
  let c2 := N.lxor (at_ c 2) (at_ c 1) in
  let d' := gfmul_1 [at_ d 0; at_ d 0; d2; c0; d2; c2] [m5; x5; m5; m5; x5; m5] in
  let c' := gfmul_1 [c0; at_ c 3; c2] [x5; m5; x5] in
  (at_ d' 0, N.lxor (at_ d' 2) (at_ d' 1), N.lxor (at_ d' 4) (at_ d' 3),
   N.lxor (at_ c' 0) (at_ d' 5), N.lxor (N.lxor (at_ c' 2) (at_ c' 1)) m6).
(** poly_prdt.h:31-34  powers of Delta *)
Definition dpow (delta : N) (n : nat) : N :=
  let d2 := gfmul delta delta in let d3 := gfmul d2 delta in let d4 := gfmul d3 delta in
  match n with 0 => delta | 1 => d2 | 2 => d3 | _ => d4 end.
(** poly_prdt.h:123-135, 189-202, 247-261: verifier entries *)
Definition ver_poly3 (delta m1 m2 m3 m4 : N) : N :=
  let t0 := gfmul m1 m2 in let t0 := gfmul t0 m3 in
  let t1 := gfmul m4 (dpow delta 1) in N.lxor t0 t1.
Definition ver_poly4 (delta m1 m2 m3 m4 m5 : N) : N :=
  let t0 := gfmul m1 m2 in let t0 := gfmul t0 m3 in let t0 := gfmul t0 m4 in
  let t1 := gfmul m5 (dpow delta 2) in N.lxor t0 t1.
Definition ver_poly5 (delta m1 m2 m3 m4 m5 m6 : N) : N :=
  let t0 := gfmul m1 m2 in let t0 := gfmul t0 m3 in let t0 := gfmul t0 m4 in let t0 := gfmul t0 m5 in
  let t1 := gfmul m6 (dpow delta 3) in N.lxor t0 t1.
Definition r0 (r : row5) : N := let '(a, _, _, _, _) := r in a.
Definition r1 (r : row5) : N := let '(_, a, _, _, _) := r in a.
Definition r2 (r : row5) : N := let '(_, _, a, _, _) := r in a.
Definition r3 (r : row5) : N := let '(_, _, _, a, _) := r in a.
Definition r4 (r : row5) : N := let '(_, _, _, _, a) := r in a.
(** poly_prdt.h:59-72  the five sums sent by the prover *)
Definition prv_poly_sums (buf : list row5) (seed : N) : row5 :=
  let chi := gf_coeff_gen seed (length buf) in
  (gf_inn_prdt chi (map r0 buf), gf_inn_prdt chi (map r1 buf), gf_inn_prdt chi (map r2 buf),
   gf_inn_prdt chi (map r3 buf), gf_inn_prdt chi (map r4 buf)).
(** poly_prdt.h:73-89  the verifier's test *)
Definition ver_poly_accept (delta : N) (buf : list N) (seed : N) (s : row5) : bool :=
  let chi := gf_coeff_gen seed (length buf) in
  let B := gf_inn_prdt chi buf in
  let t := gfmul_1 [r1 s; r2 s; r3 s; r4 s] [dpow delta 0; dpow delta 1; dpow delta 2; dpow delta 3] in
  let c0 := N.lxor (r0 s) (N.lxor (N.lxor (N.lxor (at_ t 0) (at_ t 1)) (at_ t 2)) (at_ t 3)) in
  N.eqb B c0.

(** * Product input as authenticated bits (ostriple.h:126-139 and the same lines of mul4, mul5):
    two Integers of 65 bits (the 65th is the zero above a 64-bit word), of which 64 labels each
    are packed with the powers of X. *)
Definition in65 (v : N) (sh : N) : list bool := map (fun i => N.testbit v (N.of_nat i + sh)) (seq 0 64) ++ [false].
Definition in_bits (v : N) : list bool := in65 v 0 ++ in65 v 64.
Definition pack130 (labels : list N) : N :=
  N.lxor (gf_inn_prdt (firstn 64 labels) (firstn 64 pack_base))
         (gf_inn_prdt (firstn 64 (skipn 65 labels)) (skipn 64 pack_base)).

(** * Prover *)
Definition fwire := (N * N)%type.   (* value, mac *)
Definition pw (ws : list fwire) (i : nat) : fwire := nth i ws (0%N, 0%N).
Record fpst := { fp_w : list fwire; fp_ext : nat;
                 fp_aval : nat -> N; fp_amac : nat -> N; fp_acnt : nat; fp_refills : nat;
                 fp_lv : nat -> N; fp_lm : nat -> N; fp_rv : nat -> N; fp_rm : nat -> N; fp_ccnt : nat;
                 fp_ocnt : nat; fp_bcnt : nat;
                 fp_poly : list row5;
                 fp_corr : list N; fp_bits : list bool;
                 fp_msgs : list (N * N); fp_pmsgs : list row5 }.
Section FProver.
  Variables (ext : nat -> fwire) (voleV voleM : nat -> nat -> N) (bM oM : nat -> N).
  Variables (threads bufsz polysz : nat) (seeds : nat -> nat -> N) (pseeds : nat -> N).
  Variable junk : nat -> nat -> N * N.
  (** ostriple.h:315-318 *)
  Definition fp_refill (s : fpst) : fpst :=
    {| fp_w := fp_w s; fp_ext := fp_ext s; fp_aval := voleV (fp_refills s); fp_amac := voleM (fp_refills s);
       fp_acnt := 0; fp_refills := S (fp_refills s);
       fp_lv := fp_lv s; fp_lm := fp_lm s; fp_rv := fp_rv s; fp_rm := fp_rm s; fp_ccnt := fp_ccnt s;
       fp_ocnt := fp_ocnt s; fp_bcnt := fp_bcnt s; fp_poly := fp_poly s;
       fp_corr := fp_corr s; fp_bits := fp_bits s; fp_msgs := fp_msgs s; fp_pmsgs := fp_pmsgs s |}.
  (** ostriple.h:197-269; omac = auth_buffer_mac + authf2k_cnt - check_cnt (:279) *)
  Definition fp_manage (s : fpst) : fpst :=
    let om i := fp_amac s (fp_acnt s + i - fp_ccnt s) in
    let k := length (fp_msgs s) in
    let A := fp_A_star (fp_lv s) (fp_lm s) (fp_rv s) (fp_rm s) om (f_ranges threads (fp_ccnt s))
               (seeds k) (junk k) (map oM (seq (fp_ocnt s) 128)) in
    {| fp_w := fp_w s; fp_ext := fp_ext s; fp_aval := fp_aval s; fp_amac := fp_amac s;
       fp_acnt := fp_acnt s; fp_refills := fp_refills s;
       fp_lv := fp_lv s; fp_lm := fp_lm s; fp_rv := fp_rv s; fp_rm := fp_rm s; fp_ccnt := fp_ccnt s;
       fp_ocnt := fp_ocnt s + 128; fp_bcnt := fp_bcnt s; fp_poly := fp_poly s;
       fp_corr := fp_corr s; fp_bits := fp_bits s; fp_msgs := fp_msgs s ++ [A]; fp_pmsgs := fp_pmsgs s |}.
  Definition fp_clear (s : fpst) : fpst :=
    {| fp_w := fp_w s; fp_ext := fp_ext s; fp_aval := fp_aval s; fp_amac := fp_amac s;
       fp_acnt := fp_acnt s; fp_refills := fp_refills s;
       fp_lv := fp_lv s; fp_lm := fp_lm s; fp_rv := fp_rv s; fp_rm := fp_rm s; fp_ccnt := 0;
       fp_ocnt := fp_ocnt s; fp_bcnt := fp_bcnt s; fp_poly := fp_poly s;
       fp_corr := fp_corr s; fp_bits := fp_bits s; fp_msgs := fp_msgs s; fp_pmsgs := fp_pmsgs s |}.
  (** ostriple.h:94-101 *)
  Definition fp_pre (s : fpst) : fpst :=
    let s := if Nat.eqb (fp_ccnt s) bufsz then fp_clear (fp_manage s) else s in
    if Nat.eqb (fp_acnt s) bufsz then fp_refill s else s.
  (** ostriple.h:102-120 *)
  Definition fp_mul (s : fpst) (a b : fwire) : fpst :=
    let s := fp_pre s in
    let valc := gfmul (fst a) (fst b) in
    let d := N.lxor valc (fp_aval s (fp_acnt s)) in
    {| fp_w := fp_w s ++ [(valc, fp_amac s (fp_acnt s))]; fp_ext := fp_ext s;
       fp_aval := aupd (fp_aval s) (fp_acnt s) valc; fp_amac := fp_amac s;
       fp_acnt := S (fp_acnt s); fp_refills := fp_refills s;
       fp_lv := aupd (fp_lv s) (fp_ccnt s) (fst a); fp_lm := aupd (fp_lm s) (fp_ccnt s) (snd a);
       fp_rv := aupd (fp_rv s) (fp_ccnt s) (fst b); fp_rm := aupd (fp_rm s) (fp_ccnt s) (snd b);
       fp_ccnt := S (fp_ccnt s); fp_ocnt := fp_ocnt s; fp_bcnt := fp_bcnt s; fp_poly := fp_poly s;
       fp_corr := fp_corr s ++ [d]; fp_bits := fp_bits s; fp_msgs := fp_msgs s; fp_pmsgs := fp_pmsgs s |}.
  (** poly_prdt.h:53-92; nothing happens on an empty buffer *)
  Definition fp_batch (s : fpst) : fpst :=
    if Nat.eqb (length (fp_poly s)) 0 then s else
    {| fp_w := fp_w s; fp_ext := fp_ext s; fp_aval := fp_aval s; fp_amac := fp_amac s;
       fp_acnt := fp_acnt s; fp_refills := fp_refills s;
       fp_lv := fp_lv s; fp_lm := fp_lm s; fp_rv := fp_rv s; fp_rm := fp_rm s; fp_ccnt := fp_ccnt s;
       fp_ocnt := fp_ocnt s; fp_bcnt := fp_bcnt s; fp_poly := [];
       fp_corr := fp_corr s; fp_bits := fp_bits s; fp_msgs := fp_msgs s;
       fp_pmsgs := fp_pmsgs s ++ [prv_poly_sums (fp_poly s) (pseeds (length (fp_pmsgs s)))] |}.
  (** compute_mul3/4/5: [v] the product, [row m] the entry for the packed mac m *)
  Definition fp_chain (s : fpst) (v : N) (row : N -> row5) : fpst :=
    let ls := map (fun ix => prv_input (bM (fp_bcnt s + fst ix)) (snd ix))
                  (combine (seq 0 130) (in_bits v)) in
    let m := pack130 (map fst ls) in
    let s := if Nat.leb polysz (length (fp_poly s)) then fp_batch s else s in
    {| fp_w := fp_w s ++ [(v, m)]; fp_ext := fp_ext s; fp_aval := fp_aval s; fp_amac := fp_amac s;
       fp_acnt := fp_acnt s; fp_refills := fp_refills s;
       fp_lv := fp_lv s; fp_lm := fp_lm s; fp_rv := fp_rv s; fp_rm := fp_rm s; fp_ccnt := fp_ccnt s;
       fp_ocnt := fp_ocnt s; fp_bcnt := fp_bcnt s + 130; fp_poly := fp_poly s ++ [row m];
       fp_corr := fp_corr s; fp_bits := fp_bits s ++ map snd ls;
       fp_msgs := fp_msgs s; fp_pmsgs := fp_pmsgs s |}.
  Definition fp_add (s : fpst) (w : fwire) (e : nat) : fpst :=
    {| fp_w := fp_w s ++ [w]; fp_ext := fp_ext s + e; fp_aval := fp_aval s; fp_amac := fp_amac s;
       fp_acnt := fp_acnt s; fp_refills := fp_refills s;
       fp_lv := fp_lv s; fp_lm := fp_lm s; fp_rv := fp_rv s; fp_rm := fp_rm s; fp_ccnt := fp_ccnt s;
       fp_ocnt := fp_ocnt s; fp_bcnt := fp_bcnt s; fp_poly := fp_poly s;
       fp_corr := fp_corr s; fp_bits := fp_bits s; fp_msgs := fp_msgs s; fp_pmsgs := fp_pmsgs s |}.
  Definition fp_step (s : fpst) (g : fgate) : fpst :=
    let W := pw (fp_w s) in
    match g with
    | FExt => fp_add s (ext (fp_ext s)) 1
    | FAddC i c => fp_add s (N.lxor (fst (W i)) c, snd (W i)) 0
    | FMul i j => fp_mul s (W i) (W j)
    | FMul3 i j k =>
        let v := gfmul (fst (W k)) (gfmul (fst (W i)) (fst (W j))) in
        fp_chain s v (prv_poly3 (fst (W i)) (snd (W i)) (fst (W j)) (snd (W j)) (fst (W k)) (snd (W k)))
    | FMul4 i j k l =>
        let v := gfmul (fst (W l)) (gfmul (fst (W k)) (gfmul (fst (W i)) (fst (W j)))) in
        fp_chain s v (prv_poly4 (fst (W i)) (snd (W i)) (fst (W j)) (snd (W j)) (fst (W k)) (snd (W k))
                                (fst (W l)) (snd (W l)))
    | FMul5 i j k l m =>
        let v := gfmul (fst (W m)) (gfmul (fst (W l)) (gfmul (fst (W k)) (gfmul (fst (W i)) (fst (W j))))) in
        fp_chain s v (prv_poly5 (fst (W i)) (snd (W i)) (fst (W j)) (snd (W j)) (fst (W k)) (snd (W k))
                                (fst (W l)) (snd (W l)) (fst (W m)) (snd (W m)))
    end.
  (** ostriple.h:32-55 constructor; [g..] the uninitialised operand buffers *)
  Definition fp_init (g1 g2 g3 g4 : nat -> N) : fpst :=
    {| fp_w := []; fp_ext := 0; fp_aval := voleV 0; fp_amac := voleM 0; fp_acnt := 0; fp_refills := 1;
       fp_lv := g1; fp_lm := g2; fp_rv := g3; fp_rm := g4; fp_ccnt := 0; fp_ocnt := 0; fp_bcnt := 0;
       fp_poly := []; fp_corr := []; fp_bits := []; fp_msgs := []; fp_pmsgs := [] |}.
  (** ostriple.h:57-62 destructor *)
  Definition fp_final (s : fpst) : fpst :=
    let s := fp_batch s in
    if Nat.eqb (fp_ccnt s) 0 then s else fp_manage s.
  Definition fp_exec (g1 g2 g3 g4 : nat -> N) (c : list fgate) : fpst :=
    fp_final (fold_left fp_step c (fp_init g1 g2 g3 g4)).
End FProver.

(** * Verifier *)
Definition vw (ws : list N) (i : nat) : N := nth i ws 0%N.
Record fvst := { fv_w : list N; fv_ext : nat; fv_amac : nat -> N; fv_acnt : nat; fv_refills : nat;
                 fv_lm : nat -> N; fv_rm : nat -> N; fv_ccnt : nat; fv_ocnt : nat; fv_bcnt : nat;
                 fv_poly : list N; fv_corr : nat; fv_bits : nat; fv_chk : nat; fv_pchk : nat;
                 fv_printed : nat;      (* "check manage: fail" lines, ostriple.h:263 *)
                 fv_cheat : list nat    (* CheatRecord *) }.
Section FVerifier.
  Variables (extk : nat -> N) (voleK : nat -> nat -> N) (bK oK : nat -> N) (delta : N).
  Variables (threads bufsz polysz : nat) (seeds : nat -> nat -> N) (pseeds : nat -> N).
  Variable junk : nat -> nat -> N.
  Variables (corr : nat -> N) (bitmsg : nat -> bool) (chkmsg : nat -> N * N) (polymsg : nat -> row5).
  Definition fv_refill (s : fvst) : fvst :=
    {| fv_w := fv_w s; fv_ext := fv_ext s; fv_amac := voleK (fv_refills s); fv_acnt := 0;
       fv_refills := S (fv_refills s); fv_lm := fv_lm s; fv_rm := fv_rm s; fv_ccnt := fv_ccnt s;
       fv_ocnt := fv_ocnt s; fv_bcnt := fv_bcnt s; fv_poly := fv_poly s; fv_corr := fv_corr s;
       fv_bits := fv_bits s; fv_chk := fv_chk s; fv_pchk := fv_pchk s;
       fv_printed := fv_printed s; fv_cheat := fv_cheat s |}.
  (** ostriple.h:252-265: the CheatRecord line is commented out *)
  Definition fv_manage (s : fvst) : fvst :=
    let om i := fv_amac s (fv_acnt s + i - fv_ccnt s) in
    let k := fv_chk s in
    let B := fv_B_star delta (fv_lm s) (fv_rm s) om (f_ranges threads (fv_ccnt s))
               (seeds k) (junk k) (map oK (seq (fv_ocnt s) 128)) in
    {| fv_w := fv_w s; fv_ext := fv_ext s; fv_amac := fv_amac s; fv_acnt := fv_acnt s;
       fv_refills := fv_refills s; fv_lm := fv_lm s; fv_rm := fv_rm s; fv_ccnt := fv_ccnt s;
       fv_ocnt := fv_ocnt s + 128; fv_bcnt := fv_bcnt s; fv_poly := fv_poly s; fv_corr := fv_corr s;
       fv_bits := fv_bits s; fv_chk := S k; fv_pchk := fv_pchk s;
       fv_printed := if ver_accept delta (chkmsg k) B then fv_printed s else S (fv_printed s);
       fv_cheat := fv_cheat s |}.
  Definition fv_clear (s : fvst) : fvst :=
    {| fv_w := fv_w s; fv_ext := fv_ext s; fv_amac := fv_amac s; fv_acnt := fv_acnt s;
       fv_refills := fv_refills s; fv_lm := fv_lm s; fv_rm := fv_rm s; fv_ccnt := 0;
       fv_ocnt := fv_ocnt s; fv_bcnt := fv_bcnt s; fv_poly := fv_poly s; fv_corr := fv_corr s;
       fv_bits := fv_bits s; fv_chk := fv_chk s; fv_pchk := fv_pchk s;
       fv_printed := fv_printed s; fv_cheat := fv_cheat s |}.
  Definition fv_pre (s : fvst) : fvst :=
    let s := if Nat.eqb (fv_ccnt s) bufsz then fv_clear (fv_manage s) else s in
    if Nat.eqb (fv_acnt s) bufsz then fv_refill s else s.
  Definition fv_mul (s : fvst) (a b : N) : fvst :=
    let s := fv_pre s in
    let d := gfmul (corr (fv_corr s)) delta in
    let am := aupd (fv_amac s) (fv_acnt s) (N.lxor (fv_amac s (fv_acnt s)) d) in
    {| fv_w := fv_w s ++ [am (fv_acnt s)]; fv_ext := fv_ext s; fv_amac := am; fv_acnt := S (fv_acnt s);
       fv_refills := fv_refills s;
       fv_lm := aupd (fv_lm s) (fv_ccnt s) a; fv_rm := aupd (fv_rm s) (fv_ccnt s) b;
       fv_ccnt := S (fv_ccnt s); fv_ocnt := fv_ocnt s; fv_bcnt := fv_bcnt s; fv_poly := fv_poly s;
       fv_corr := S (fv_corr s); fv_bits := fv_bits s; fv_chk := fv_chk s; fv_pchk := fv_pchk s;
       fv_printed := fv_printed s; fv_cheat := fv_cheat s |}.
  Definition fv_batch (s : fvst) : option fvst :=
    if Nat.eqb (length (fv_poly s)) 0 then Some s else
    let k := fv_pchk s in
    if ver_poly_accept delta (fv_poly s) (pseeds k) (polymsg k) then
      Some {| fv_w := fv_w s; fv_ext := fv_ext s; fv_amac := fv_amac s; fv_acnt := fv_acnt s;
         fv_refills := fv_refills s; fv_lm := fv_lm s; fv_rm := fv_rm s; fv_ccnt := fv_ccnt s;
         fv_ocnt := fv_ocnt s; fv_bcnt := fv_bcnt s; fv_poly := []; fv_corr := fv_corr s;
         fv_bits := fv_bits s; fv_chk := fv_chk s; fv_pchk := S k;
         fv_printed := fv_printed s; fv_cheat := fv_cheat s |}
    else None.
  Definition fv_chain (s : fvst) (row : N -> N) : option fvst :=
    let ls := map (fun i => ver_input delta (bK (fv_bcnt s + i)) (bitmsg (fv_bits s + i))) (seq 0 130) in
    let m := pack130 ls in
    match (if Nat.leb polysz (length (fv_poly s)) then fv_batch s else Some s) with
    | None => None
    | Some s => Some
      {| fv_w := fv_w s ++ [m]; fv_ext := fv_ext s; fv_amac := fv_amac s; fv_acnt := fv_acnt s;
         fv_refills := fv_refills s; fv_lm := fv_lm s; fv_rm := fv_rm s; fv_ccnt := fv_ccnt s;
         fv_ocnt := fv_ocnt s; fv_bcnt := fv_bcnt s + 130; fv_poly := fv_poly s ++ [row m];
         fv_corr := fv_corr s; fv_bits := fv_bits s + 130; fv_chk := fv_chk s; fv_pchk := fv_pchk s;
         fv_printed := fv_printed s; fv_cheat := fv_cheat s |}
    end.
  Definition fv_add (s : fvst) (w : N) (e : nat) : fvst :=
    {| fv_w := fv_w s ++ [w]; fv_ext := fv_ext s + e; fv_amac := fv_amac s; fv_acnt := fv_acnt s;
       fv_refills := fv_refills s; fv_lm := fv_lm s; fv_rm := fv_rm s; fv_ccnt := fv_ccnt s;
       fv_ocnt := fv_ocnt s; fv_bcnt := fv_bcnt s; fv_poly := fv_poly s; fv_corr := fv_corr s;
       fv_bits := fv_bits s; fv_chk := fv_chk s; fv_pchk := fv_pchk s;
       fv_printed := fv_printed s; fv_cheat := fv_cheat s |}.
  Definition fv_step (s : fvst) (g : fgate) : option fvst :=
    let W := vw (fv_w s) in
    match g with
    | FExt => Some (fv_add s (extk (fv_ext s)) 1)
    | FAddC i c => Some (fv_add s (N.lxor (W i) (gfmul delta c)) 0)
    | FMul i j => Some (fv_mul s (W i) (W j))
    | FMul3 i j k => fv_chain s (ver_poly3 delta (W i) (W j) (W k))
    | FMul4 i j k l => fv_chain s (ver_poly4 delta (W i) (W j) (W k) (W l))
    | FMul5 i j k l m => fv_chain s (ver_poly5 delta (W i) (W j) (W k) (W l) (W m))
    end.
  Definition fv_init (g1 g2 : nat -> N) : fvst :=
    {| fv_w := []; fv_ext := 0; fv_amac := voleK 0; fv_acnt := 0; fv_refills := 1;
       fv_lm := g1; fv_rm := g2; fv_ccnt := 0; fv_ocnt := 0; fv_bcnt := 0; fv_poly := [];
       fv_corr := 0; fv_bits := 0; fv_chk := 0; fv_pchk := 0; fv_printed := 0; fv_cheat := [] |}.
  Fixpoint fv_run (s : fvst) (c : list fgate) : option fvst :=
    match c with
    | [] => Some s
    | g :: c' => match fv_step s g with None => None | Some s' => fv_run s' c' end
    end.
  Definition fv_final (s : fvst) : option fvst :=
    match fv_batch s with
    | None => None
    | Some s => Some (if Nat.eqb (fv_ccnt s) 0 then s else fv_manage s)
    end.
  Definition fv_exec (g1 g2 : nat -> N) (c : list fgate) : option fvst :=
    match fv_run (fv_init g1 g2) c with None => None | Some s => fv_final s end.
End FVerifier.
