(** The GF(2^128) engine of the memory extension as two communicating programs over BoolIO
    (extensions/ram-zk/{ostriple.h, poly_prdt.h}): every send, receive, flush and hash is an action on the endpoint
    of BoolIOModel, and every challenge comes from the endpoint's own transcript hash.  The computations between the
    actions are those of F2kModel.v.

    Simplifications, besides those of F2kModel.v:
    - The correlations (FerretCOT, SVoleF2k) are ideal and do not use this channel.
    - The io->flush() after the prover's send_data in batch_check (poly_prdt.h:72) has no counterpart on the verifier's
      side; it directly follows send_data, which leaves the bit buffer empty, so it has no effect on BoolIO and is left
      out.
    - [G h i] is block i of PRG(&seed) (ostriple.h:199-204) and [Gp h] the seed itself (poly_prdt.h:60,74), where seed =
      get_hash_block() of the hashed bytes [h].
    - Both programs end with the flush of ~BoolIO (bool_io.h:22-25).
    - A verifier stopped by error(...) ends with [None]. *)
From Coq Require Import NArith List Bool Arith.
From Verif Require Import Word GF128 BoolModel BoolIOModel F2kModel WireModel.
Import ListNotations.

(** five blocks (poly_prdt.h:71,82) *)
Definition enc5 (s : row5) : list N :=
  enc_block (r0 s) ++ enc_block (r1 s) ++ enc_block (r2 s) ++ enc_block (r3 s) ++ enc_block (r4 s).
Definition dec_at (l : list N) (i : nat) : N := dec_bytes (firstn 16 (skipn (16 * i) l)).
Definition dec5 (l : list N) : row5 := (dec_at l 0, dec_at l 1, dec_at l 2, dec_at l 3, dec_at l 4).
(** consecutive send_bit / recv_bit of authenticated_bits_input (emp-zk-bool/ostriple.h:95-103) *)
Fixpoint put_bits {R : Type} (l : list bool) (k : proc R) : proc R :=
  match l with [] => k | b :: l' => PBit b (put_bits l' k) end.
Fixpoint get_bits {R : Type} (n : nat) (k : list bool -> proc R) : proc R :=
  match n with 0 => k [] | S n' => PGetBit (fun b => get_bits n' (fun l => k (b :: l))) end.

(** * Prover *)
Section FPrvProg.
  Variables (ext : nat -> fwire) (voleV voleM : nat -> nat -> N) (bM oM : nat -> N).
  Variables (threads bufsz polysz : nat) (junk : nat -> nat -> N * N).
  Variables (G : list N -> nat -> N) (Gp : list N -> N).
  Notation cont := (fpst -> proc fpst).
  (** ostriple.h:197-269 *)
  Definition fp_check_prog (s : fpst) (k : cont) : proc fpst :=
    PFlush (PHash (fun h => let s' := fp_manage oM threads (fun _ => G h) junk s in
      PAlign true (PPut (enc2 (last (fp_msgs s') (0, 0)%N)) (PFlush (k s'))))).
  (** poly_prdt.h:53-72 *)
  Definition fp_batch_prog (s : fpst) (k : cont) : proc fpst :=
    if Nat.eqb (length (fp_poly s)) 0 then k s else
    PFlush (PHash (fun h => let s' := fp_batch (fun _ => Gp h) s in
      PAlign true (PPut (enc5 (last (fp_pmsgs s') (0, 0, 0, 0, 0)%N)) (k s')))).
  (** ostriple.h:92-121 *)
  Definition fp_mul_prog (s : fpst) (a b : fwire) (k : cont) : proc fpst :=
    let go s := let s' := fp_mul voleV voleM oM threads bufsz (fun _ _ => 0%N) junk s a b in
                PAlign true (PPut (enc_block (last (fp_corr s') 0%N)) (k s')) in
    if Nat.eqb (fp_ccnt s) bufsz then fp_check_prog s (fun s => go (fp_clear s)) else go s.
  (** ostriple.h:123-193: the bits of the product, then polyPrdt3/4/5 with its check of a full buffer *)
  Definition fp_chain_bits (s : fpst) (v : N) : list bool :=
    map (fun ix => snd (prv_input (bM (fp_bcnt s + fst ix)) (snd ix))) (combine (seq 0 130) (in_bits v)).
  Definition fp_chain_prog (s : fpst) (v : N) (row : N -> row5) (k : cont) : proc fpst :=
    let go s := k (fp_chain bM polysz (fun _ => 0%N) s v row) in
    put_bits (fp_chain_bits s v) (if Nat.leb polysz (length (fp_poly s)) then fp_batch_prog s go else go s).
  Definition fp_gate_prog (s : fpst) (g : fgate) (k : cont) : proc fpst :=
    let W := pw (fp_w s) in
    match g with
    | FExt => k (fp_add s (ext (fp_ext s)) 1)
    | FAddC i c => k (fp_add s (N.lxor (fst (W i)) c, snd (W i)) 0)
    | FMul i j => fp_mul_prog s (W i) (W j) k
    | FMul3 i j l =>
        let v := gfmul (fst (W l)) (gfmul (fst (W i)) (fst (W j))) in
        fp_chain_prog s v (prv_poly3 (fst (W i)) (snd (W i)) (fst (W j)) (snd (W j)) (fst (W l)) (snd (W l))) k
    | FMul4 i j l m =>
        let v := gfmul (fst (W m)) (gfmul (fst (W l)) (gfmul (fst (W i)) (fst (W j)))) in
        fp_chain_prog s v (prv_poly4 (fst (W i)) (snd (W i)) (fst (W j)) (snd (W j)) (fst (W l)) (snd (W l))
                                     (fst (W m)) (snd (W m))) k
    | FMul5 i j l m n =>
        let v := gfmul (fst (W n)) (gfmul (fst (W m)) (gfmul (fst (W l)) (gfmul (fst (W i)) (fst (W j))))) in
        fp_chain_prog s v (prv_poly5 (fst (W i)) (snd (W i)) (fst (W j)) (snd (W j)) (fst (W l)) (snd (W l))
                                     (fst (W m)) (snd (W m)) (fst (W n)) (snd (W n))) k
    end.
  (** ostriple.h:57-62, then ~BoolIO *)
  Definition fp_end_prog (s : fpst) : proc fpst :=
    let fin s := PFlush (PDone s) in
    fp_batch_prog s (fun s => if Nat.eqb (fp_ccnt s) 0 then fin s else fp_check_prog s fin).
  Fixpoint fprv_prog (s : fpst) (c : list fgate) : proc fpst :=
    match c with
    | [] => fp_end_prog s
    | g :: c' => fp_gate_prog s g (fun s => fprv_prog s c')
    end.
End FPrvProg.

(** * Verifier *)
Section FVerProg.
  Variables (extk : nat -> N) (voleK : nat -> nat -> N) (bK oK : nat -> N) (delta : N).
  Variables (threads bufsz polysz : nat) (junk : nat -> nat -> N).
  Variables (G : list N -> nat -> N) (Gp : list N -> N).
  Notation cont := (fvst -> proc (option fvst)).
  (** ostriple.h:197-228, 252-266 *)
  Definition fv_check_prog (s : fvst) (k : cont) : proc (option fvst) :=
    PFlush (PHash (fun h => PAlign true (PGet 32 (fun x =>
      PFlush (k (fv_manage oK delta threads (fun _ => G h) junk (fun _ => dec2 x) s)))))).
  (** poly_prdt.h:53-57, 73-92 *)
  Definition fv_batch_prog (s : fvst) (k : cont) : proc (option fvst) :=
    if Nat.eqb (length (fv_poly s)) 0 then k s else
    PFlush (PHash (fun h => PAlign true (PGet 80 (fun x =>
      match fv_batch delta (fun _ => Gp h) (fun _ => dec5 x) s with None => PDone None | Some s' => k s' end)))).
  (** ostriple.h:92-121 *)
  Definition fv_mul_prog (s : fvst) (a b : N) (k : cont) : proc (option fvst) :=
    let go s := PAlign true (PGet 16 (fun x =>
      k (fv_mul voleK oK delta threads bufsz (fun _ _ => 0%N) junk (fun _ => dec_bytes x) (fun _ => (0, 0)%N) s a b))) in
    if Nat.eqb (fv_ccnt s) bufsz then fv_check_prog s (fun s => go (fv_clear s)) else go s.
  (** ostriple.h:123-193 *)
  Definition fv_chain_prog (s : fvst) (row : N -> N) (k : cont) : proc (option fvst) :=
    get_bits 130 (fun bs =>
      let go s := match fv_chain bK delta polysz (fun _ => 0%N) (fun j => nth (j - fv_bits s) bs false)
                                 (fun _ => (0, 0, 0, 0, 0)%N) s row with
                  | None => PDone None | Some s' => k s' end in
      if Nat.leb polysz (length (fv_poly s)) then fv_batch_prog s go else go s).
  Definition fv_gate_prog (s : fvst) (g : fgate) (k : cont) : proc (option fvst) :=
    let W := vw (fv_w s) in
    match g with
    | FExt => k (fv_add s (extk (fv_ext s)) 1)
    | FAddC i c => k (fv_add s (N.lxor (W i) (gfmul delta c)) 0)
    | FMul i j => fv_mul_prog s (W i) (W j) k
    | FMul3 i j l => fv_chain_prog s (ver_poly3 delta (W i) (W j) (W l)) k
    | FMul4 i j l m => fv_chain_prog s (ver_poly4 delta (W i) (W j) (W l) (W m)) k
    | FMul5 i j l m n => fv_chain_prog s (ver_poly5 delta (W i) (W j) (W l) (W m) (W n)) k
    end.
  Definition fv_end_prog (s : fvst) : proc (option fvst) :=
    let fin s := PFlush (PDone (Some s)) in
    fv_batch_prog s (fun s => if Nat.eqb (fv_ccnt s) 0 then fin s else fv_check_prog s fin).
  Fixpoint fver_prog (s : fvst) (c : list fgate) : proc (option fvst) :=
    match c with
    | [] => fv_end_prog s
    | g :: c' => fv_gate_prog s g (fun s => fver_prog s c')
    end.
End FVerProg.
