(** Model of the boolean engine: /repo/emp-zk/emp-zk-bool/{ostriple.h, triple_auth.h,
    zk_prover.h, zk_verifier.h, zk_bool_circuit_exec.h, cheat_record.h, emp-zk-bool.h}.

    Simplifications, stated once:
    - FerretCOT (emp-ot) is an oracle: the i-th call to rcot gives the prover the
      block [pM i] and the verifier the block [vK i].
    - The per-check challenge seeds share_seed[] (PRG applied to the transcript hash,
      ostriple.h:146-151) are an oracle [seeds check thread], the same on both sides
      (justified by the transcript agreement property C16).
    - The hash object is the list of blocks put into it; the digest is an arbitrary
      function of that list.
    - The channel is not modelled here: the prover's output messages are lists, the
      verifier reads from streams (transport is modelled in BoolIOModel.v).
    - [None] is undefined behaviour (integer division by zero). *)
From Coq Require Import NArith List Bool Arith.
From Verif Require Import Word GF128.
Import ListNotations.

Definition getLSB (b : N) : bool := N.testbit b 0.
(** ostriple.h:59  minusone = all ones except bit 0. *)
Definition minusone : N := (W128 - 2)%N.
(** ostriple.h:277  set_zero_bit *)
Definition set_zero_bit (b : N) : N := N.land b minusone.
(** ostriple.h:57,60-61,279-282  choice2 / set_value_in_block *)
Definition set_value_in_block (b : N) (v : bool) : N :=
  N.lxor (N.land b minusone) (if v then 1%N else 0%N).
(** ostriple.h:57-58  choice[0] = 0, choice[1] = delta *)
Definition choice (delta : N) (d : bool) : N := if d then delta else 0%N.

(** * Inputs and AND gates *)
(** ostriple.h:98-103  authenticated_bits_input, prover branch, one element:
    label and correction bit sent. *)
Definition prv_input (auth : N) (x : bool) : N * bool :=
  let buff := xorb (getLSB auth) x in (set_value_in_block auth x, buff).
(** ostriple.h:104-110  verifier branch. *)
Definition ver_input (delta auth : N) (buff : bool) : N :=
  set_zero_bit (N.lxor auth (choice delta buff)).
(** ostriple.h:127-131  auth_compute_and, prover branch. *)
Definition prv_and (auth a b : N) : N * bool :=
  let s := getLSB a && getLSB b in
  let d := xorb s (getLSB auth) in (set_value_in_block auth s, d).
(** ostriple.h:132-136  auth_compute_and, verifier branch. *)
Definition ver_and (delta auth : N) (d : bool) : N :=
  set_zero_bit (N.lxor auth (choice delta d)).

(** * Labels of constants and free gates *)
(** zk_prover.h:13-21  public labels of the prover; [r0 r1] are the two blocks of
    PRG(fix_key). *)
Definition prv_pub_label (r0 r1 : N) (b : bool) : N :=
  if b then N.lxor (N.land r1 minusone) 1 else N.land r0 minusone.
(** zk_verifier.h:13-35 (zdelta :33): public labels of the verifier. *)
Definition zdelta (delta : N) : N := N.lxor delta 1.
Definition ver_pub_label (delta r0 r1 : N) (b : bool) : N :=
  if b then N.lxor (N.land r1 minusone) (zdelta delta) else N.land r0 minusone.
(** zk_prover.h:22 / zk_verifier.h:36  not_gate; zk_bool_circuit_exec.h:18 xor_gate *)
Definition prv_not (a : N) : N := N.lxor a 1.
Definition ver_not (delta a : N) : N := N.lxor a (zdelta delta).
Definition xor_gate (a b : N) : N := N.lxor a b.

(** * Batch check *)
(** ostriple.h:224-234  prover terms of one gate (left, right, out). *)
Definition prv_terms (g : N * N * N) : N * N :=
  let '(l, r, o) := g in
  let A0 := gfmul l r in
  let A1 := if getLSB l then r else 0%N in
  let A1 := N.lxor A1 (if getLSB r then l else 0%N) in
  let A1 := N.lxor A1 o in (A0, A1).
(** ostriple.h:236-243  verifier term. *)
Definition ver_term (delta : N) (g : N * N * N) : N :=
  let '(l, r, o) := g in N.lxor (gfmul l r) (gfmul o delta).

Definition segment {A} (start n : nat) (l : list A) : list A := firstn n (skipn start l).

(** ostriple.h:213-255  andgate_correctness_check for one worker range. *)
Definition prv_check_range (buf : list (N * N * N)) (start n : nat) (seed : N) : N * N :=
  let seg := map prv_terms (segment start n buf) in
  let chi := gf_coeff_gen seed n in
  (gf_inn_prdt chi (map fst seg), gf_inn_prdt chi (map snd seg)).
Definition ver_check_range (delta : N) (buf : list (N * N * N)) (start n : nat) (seed : N) : N :=
  gf_inn_prdt (gf_coeff_gen seed n) (map (ver_term delta) (segment start n buf)).

(** ostriple.h:153-165  ranges (start, length) given to the workers; [None] when
    [check_cnt % task_base] divides by zero. *)
Definition and_ranges (threads check_cnt : nat) : option (list (nat * nat)) :=
  let task_base := check_cnt / threads in
  if Nat.eqb task_base 0 then None else
  let leftover := task_base + check_cnt mod task_base in
  Some (map (fun i => (i * task_base, task_base)) (seq 0 (threads - 1))
        ++ [((threads - 1) * task_base, leftover)]).

(** ostriple.h:173-186  ch_bits[0..1] assembled from the low bits, as one block:
    A_star[1] = makeBlock(ch_bits[1], ch_bits[0]). *)
Fixpoint ch_word (l : list N) : N :=   (* first element = bit 0 *)
  match l with
  | [] => 0%N
  | m :: l' => (2 * ch_word l' + (if getLSB m then 1 else 0))%N
  end.
Definition ch_bits (ope : list N) : N :=
  mkblock (ch_word (segment 64 64 ope)) (ch_word (segment 0 64 ope)).
(** GaloisFieldPacking::packing (emp-tool): sum of data[i]*x^i. *)
Definition pack_base : list N := map (fun i => (2 ^ N.of_nat i)%N) (seq 0 128).
Definition packing (data : list N) : N := gf_inn_prdt data pack_base.

(** ostriple.h:170-192  prover message A_star. *)
Definition prv_A_star (buf : list (N * N * N)) (rs : list (nat * nat)) (seed : nat -> N)
           (ope : list N) : N * N :=
  fold_left (fun acc ir =>
      let s := prv_check_range buf (fst (snd ir)) (snd (snd ir)) (seed (fst ir)) in
      (N.lxor (fst acc) (fst s), N.lxor (snd acc) (snd s)))
    (combine (seq 0 (length rs)) rs) (packing ope, ch_bits ope).
(** ostriple.h:193-199  verifier's B_star. *)
Definition ver_B_star (delta : N) (buf : list (N * N * N)) (rs : list (nat * nat)) (seed : nat -> N)
           (ope : list N) : N :=
  fold_left (fun acc ir =>
      N.lxor acc (ver_check_range delta buf (fst (snd ir)) (snd (snd ir)) (seed (fst ir))))
    (combine (seq 0 (length rs)) rs) (packing ope).
(** ostriple.h:202-206  acceptance test. *)
Definition ver_accept (delta : N) (A : N * N) (B : N) : bool :=
  N.eqb (N.lxor (gfmul (snd A) delta) (fst A)) B.

(** * Circuits *)
Inductive gate : Type :=
| GIn (x : bool)          (* private input of the prover; the verifier ignores x *)
| GPub (b : bool)
| GXor (i j : nat)
| GNot (i : nat)
| GAnd (i j : nat)
| GReveal (i : nat).

Definition wire (ws : list N) (i : nat) : N := nth i ws 0%N.

(** * Prover run *)
Record pst := { p_wires : list N; p_buf : list (N * N * N); p_hash : list N;
                p_cot : nat; p_chk : nat;
                p_bits : list bool; p_msgs : list (N * N); p_outs : list bool }.
Section Prover.
  Variables (r0 r1 : N) (pM : nat -> N) (threads csz : nat) (seeds : nat -> nat -> N).
  Definition pM_slice (from n : nat) : list N := map pM (seq from n).
  (** ostriple.h:144-211, prover side; called with check_cnt = length of the buffer. *)
  Definition prv_manage (s : pst) : option pst :=
    match and_ranges threads (length (p_buf s)) with
    | None => None
    | Some rs =>
        let A := prv_A_star (p_buf s) rs (seeds (p_chk s)) (pM_slice (p_cot s) 128) in
        Some {| p_wires := p_wires s; p_buf := p_buf s; p_hash := p_hash s;
                p_cot := p_cot s + 128; p_chk := S (p_chk s);
                p_bits := p_bits s; p_msgs := p_msgs s ++ [A]; p_outs := p_outs s |}
    end.
  Definition p_clear (s : pst) : pst :=
    {| p_wires := p_wires s; p_buf := []; p_hash := p_hash s; p_cot := p_cot s;
       p_chk := p_chk s; p_bits := p_bits s; p_msgs := p_msgs s; p_outs := p_outs s |}.
  (** ostriple.h:118-121 *)
  Definition prv_precheck (s : pst) : option pst :=
    if Nat.eqb (length (p_buf s)) csz
    then match prv_manage s with None => None | Some s' => Some (p_clear s') end
    else Some s.
  Definition p_add (s : pst) (w : N) : pst :=
    {| p_wires := p_wires s ++ [w]; p_buf := p_buf s; p_hash := p_hash s; p_cot := p_cot s;
       p_chk := p_chk s; p_bits := p_bits s; p_msgs := p_msgs s; p_outs := p_outs s |}.
  Definition prv_step (s : pst) (g : gate) : option pst :=
    match g with
    | GIn x =>                                                   (* ostriple.h:95-103 *)
        let '(w, d) := prv_input (pM (p_cot s)) x in
        Some {| p_wires := p_wires s ++ [w]; p_buf := p_buf s; p_hash := p_hash s;
                p_cot := S (p_cot s); p_chk := p_chk s;
                p_bits := p_bits s ++ [d]; p_msgs := p_msgs s; p_outs := p_outs s |}
    | GPub b => Some (p_add s (prv_pub_label r0 r1 b))           (* zk_prover.h:57-60 *)
    | GXor i j => Some (p_add s (xor_gate (wire (p_wires s) i) (wire (p_wires s) j)))
    | GNot i => Some (p_add s (prv_not (wire (p_wires s) i)))
    | GAnd i j =>                                                (* ostriple.h:116-140 *)
        match prv_precheck s with
        | None => None
        | Some s =>
            let a := wire (p_wires s) i in let b := wire (p_wires s) j in
            let '(w, d) := prv_and (pM (p_cot s)) a b in
            Some {| p_wires := p_wires s ++ [w]; p_buf := p_buf s ++ [(a, b, w)];
                    p_hash := p_hash s; p_cot := S (p_cot s); p_chk := p_chk s;
                    p_bits := p_bits s ++ [d]; p_msgs := p_msgs s; p_outs := p_outs s |}
        end
    | GReveal i =>                                               (* ostriple.h:261-274, triple_auth.h:21-23 *)
        let b := getLSB (wire (p_wires s) i) in
        Some {| p_wires := p_wires s; p_buf := p_buf s; p_hash := p_hash s ++ [wire (p_wires s) i];
                p_cot := p_cot s; p_chk := p_chk s;
                p_bits := p_bits s ++ [b]; p_msgs := p_msgs s; p_outs := p_outs s ++ [b] |}
    end.
  (** ostriple.h:55 the constructor consumes one correlation *)
  Definition p_init : pst :=
    {| p_wires := []; p_buf := []; p_hash := []; p_cot := 1; p_chk := 0;
       p_bits := []; p_msgs := []; p_outs := [] |}.
  Fixpoint prv_run (s : pst) (c : list gate) : option pst :=
    match c with
    | [] => Some s
    | g :: c' => match prv_step s g with None => None | Some s' => prv_run s' c' end
    end.
  (** ostriple.h:68-73 destructor: last batch *)
  Definition prv_final (s : pst) : option pst :=
    match p_buf s with [] => Some s | _ => prv_manage s end.
  Definition prv_exec (c : list gate) : option pst :=
    match prv_run p_init c with None => None | Some s => prv_final s end.
End Prover.

(** * Verifier run.  Messages come from streams indexed by arrival order. *)
Record vst := { v_wires : list N; v_buf : list (N * N * N); v_hash : list N;
                v_cot : nat; v_chk : nat; v_bits : nat; v_outs : list bool;
                v_cheat : list nat (* CheatRecord: one entry per put() *) }.
Section Verifier.
  Variables (r0 r1 : N) (vK : nat -> N) (delta : N) (threads csz : nat) (seeds : nat -> nat -> N).
  Variable bitmsg : nat -> bool.
  Variable chkmsg : nat -> N * N.
  Definition vK_slice (from n : nat) : list N := map vK (seq from n).
  Definition ver_manage (s : vst) : option vst :=
    match and_ranges threads (length (v_buf s)) with
    | None => None
    | Some rs =>
        let B := ver_B_star delta (v_buf s) rs (seeds (v_chk s)) (vK_slice (v_cot s) 128) in
        Some {| v_wires := v_wires s; v_buf := v_buf s; v_hash := v_hash s;
                v_cot := v_cot s + 128; v_chk := S (v_chk s); v_bits := v_bits s; v_outs := v_outs s;
                v_cheat := if ver_accept delta (chkmsg (v_chk s)) B then v_cheat s
                           else v_cheat s ++ [0] |}
    end.
  Definition v_clear (s : vst) : vst :=
    {| v_wires := v_wires s; v_buf := []; v_hash := v_hash s; v_cot := v_cot s; v_chk := v_chk s;
       v_bits := v_bits s; v_outs := v_outs s; v_cheat := v_cheat s |}.
  Definition ver_precheck (s : vst) : option vst :=
    if Nat.eqb (length (v_buf s)) csz
    then match ver_manage s with None => None | Some s' => Some (v_clear s') end
    else Some s.
  Definition v_add (s : vst) (w : N) : vst :=
    {| v_wires := v_wires s ++ [w]; v_buf := v_buf s; v_hash := v_hash s; v_cot := v_cot s;
       v_chk := v_chk s; v_bits := v_bits s; v_outs := v_outs s; v_cheat := v_cheat s |}.
  Definition ver_step (s : vst) (g : gate) : option vst :=
    match g with
    | GIn _ =>                                                   (* ostriple.h:104-110 *)
        let w := ver_input delta (vK (v_cot s)) (bitmsg (v_bits s)) in
        Some {| v_wires := v_wires s ++ [w]; v_buf := v_buf s; v_hash := v_hash s;
                v_cot := S (v_cot s); v_chk := v_chk s; v_bits := S (v_bits s);
                v_outs := v_outs s; v_cheat := v_cheat s |}
    | GPub b => Some (v_add s (ver_pub_label delta r0 r1 b))     (* zk_verifier.h:68-71 *)
    | GXor i j => Some (v_add s (xor_gate (wire (v_wires s) i) (wire (v_wires s) j)))
    | GNot i => Some (v_add s (ver_not delta (wire (v_wires s) i)))
    | GAnd i j =>                                                (* ostriple.h:116-140 *)
        match ver_precheck s with
        | None => None
        | Some s =>
            let a := wire (v_wires s) i in let b := wire (v_wires s) j in
            let w := ver_and delta (vK (v_cot s)) (bitmsg (v_bits s)) in
            Some {| v_wires := v_wires s ++ [w]; v_buf := v_buf s ++ [(a, b, w)];
                    v_hash := v_hash s; v_cot := S (v_cot s); v_chk := v_chk s;
                    v_bits := S (v_bits s); v_outs := v_outs s; v_cheat := v_cheat s |}
        end
    | GReveal i =>                                               (* ostriple.h:261-274, triple_auth.h:25-31 *)
        let b := bitmsg (v_bits s) in
        Some {| v_wires := v_wires s; v_buf := v_buf s;
                v_hash := v_hash s ++ [N.lxor (wire (v_wires s) i) (choice delta b)];
                v_cot := v_cot s; v_chk := v_chk s; v_bits := S (v_bits s);
                v_outs := v_outs s ++ [b]; v_cheat := v_cheat s |}
    end.
  Definition v_init : vst :=
    {| v_wires := []; v_buf := []; v_hash := []; v_cot := 1; v_chk := 0; v_bits := 0;
       v_outs := []; v_cheat := [] |}.
  Fixpoint ver_run (s : vst) (c : list gate) : option vst :=
    match c with
    | [] => Some s
    | g :: c' => match ver_step s g with None => None | Some s' => ver_run s' c' end
    end.
  Definition ver_final (s : vst) : option vst :=
    match v_buf s with [] => Some s | _ => ver_manage s end.
  Definition ver_exec (c : list gate) : option vst :=
    match ver_run v_init c with None => None | Some s => ver_final s end.
End Verifier.

(** ostriple.h:72-73, triple_auth.h:33-45, emp-zk-bool.h:37-41: digest comparison at the
    end and the value returned by finalize_zk_bool on the verifier's side. *)
Definition ver_finalize {D : Type} (Deqb : D -> D -> bool) (H : list N -> D)
           (s : vst) (dig : D) : bool :=
  let cheat := if Deqb (H (v_hash s)) dig then v_cheat s else v_cheat s ++ [1] in
  match cheat with [] => false | _ => true end.
