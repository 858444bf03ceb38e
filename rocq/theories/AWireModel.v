(** The arithmetic engine as two communicating programs over BoolIO<NetIO>: every send, receive and flush of
    emp-zk-arith/{ostriple.h, triple_auth.h, polynomial.h} in program order, the verifier's challenges drawn and sent
    when the code draws and sends them, and the verifier's process ended by error().

    Simplifications:
    - The correlations of VoleTriple::extend are ideal and do not use this channel.
    - No bit is ever sent on the channel, so BoolIO keeps ptr = 0 on the prover's side (sender) and
      ptr = NETWORK_BUFFER_SIZE2 on the verifier's side.  Hence (bool_io.h:64-74) send_data flushes first on the
      verifier's side only and recv_data flushes first on the prover's side only; see [s_recv] and [r_send].
    - The underlying NetIO belongs to emp-tool.  It is a pair of FIFO byte streams with a local send buffer per party:
      send_data appends to the buffer, flush delivers the buffer, and the buffer may be delivered in part at any time.
      [auto] says whether NetIO's recv_data delivers the local send buffer before it waits; both values are studied.
    - [G s i] is block i of PRG(&s) (ostriple.h:344-354); [H] is the digest of the opening hash (triple_auth.h:22-39).
    - Coins: [coins false k] is the k-th block drawn by share_seed_gen, [coins true k] the k-th 64-bit word drawn by
      FpPolyProof::batch_check, each from its own PRG object.
    - A program that divides by zero stops with [None] / [VUndef]; error() stops the verifier with [VError]. *)
From Coq Require Import NArith List Bool Arith.
From Verif Require Import Word FpModel ArithModel WireModel.
Import ListNotations.

(** the call a receive belongs to *)
Inductive site : Type := AtWord | AtCheck | AtPoly | AtSeed | AtPSeed | AtDigest.
Inductive aproc (R : Type) : Type :=
| QDone (r : R)
| QPut (bs : list N) (k : aproc R)                        (* NetIO send_data *)
| QGet (at_ : site) (len : nat) (k : list N -> aproc R)   (* NetIO recv_data *)
| QFlush (k : aproc R)                                    (* NetIO flush *)
| QCoin (poly : bool) (k : N -> aproc R).                 (* fresh randomness *)
Arguments QDone {R}. Arguments QPut {R}. Arguments QGet {R}. Arguments QFlush {R}. Arguments QCoin {R}.

(** * Execution of two programs *)
Definition is_nil {A : Type} (l : list A) : bool := match l with [] => true | _ => false end.
Section Net.
  Variables (auto : bool) (coins : bool -> nat -> N).
  Context {RP RV : Type}.
  (** next action of one party with send buffer [pend] and delivered bytes [inq]: program, send buffer, bytes
      delivered, bytes left to read, reads.  None = blocked, ended, or about to draw a coin *)
  Definition aact {R : Type} (P : aproc R) (pend inq : list N) :
      option (aproc R * list N * list N * list N * list (site * list N)) :=
    match P with
    | QDone _ | QCoin _ _ => None
    | QPut bs k => Some (k, pend ++ bs, [], inq, [])
    | QGet t len k =>
        if auto && negb (is_nil pend) then Some (QGet t len k, [], pend, inq, [])
        else if Nat.ltb (length inq) len then None
        else Some (k (firstn len inq), pend, [], skipn len inq, [(t, firstn len inq)])
    | QFlush k => Some (k, [], pend, inq, [])
    end.
  (** programs, send buffers, delivered bytes in both directions, the verifier's reads, coins drawn *)
  Record anet := { m_p : aproc RP; m_v : aproc RV; m_ps : list N; m_vs : list N; m_pv : list N; m_vp : list N;
                   m_reads : list (site * list N); m_c0 : nat; m_c1 : nat }.
  (** a step of a program *)
  Inductive pstep : anet -> anet -> Prop :=
  | MP P V ps vs pv vp rd c0 c1 P' ps' o vp' r : aact P ps vp = Some (P', ps', o, vp', r) ->
      pstep {| m_p := P; m_v := V; m_ps := ps; m_vs := vs; m_pv := pv; m_vp := vp; m_reads := rd; m_c0 := c0; m_c1 := c1 |}
            {| m_p := P'; m_v := V; m_ps := ps'; m_vs := vs; m_pv := pv ++ o; m_vp := vp'; m_reads := rd; m_c0 := c0; m_c1 := c1 |}
  | MV P V ps vs pv vp rd c0 c1 V' vs' o pv' r : aact V vs pv = Some (V', vs', o, pv', r) ->
      pstep {| m_p := P; m_v := V; m_ps := ps; m_vs := vs; m_pv := pv; m_vp := vp; m_reads := rd; m_c0 := c0; m_c1 := c1 |}
            {| m_p := P; m_v := V'; m_ps := ps; m_vs := vs'; m_pv := pv'; m_vp := vp ++ o; m_reads := rd ++ r; m_c0 := c0; m_c1 := c1 |}
  | MC0 P k ps vs pv vp rd c0 c1 :
      pstep {| m_p := P; m_v := QCoin false k; m_ps := ps; m_vs := vs; m_pv := pv; m_vp := vp; m_reads := rd; m_c0 := c0; m_c1 := c1 |}
            {| m_p := P; m_v := k (coins false c0); m_ps := ps; m_vs := vs; m_pv := pv; m_vp := vp; m_reads := rd; m_c0 := S c0; m_c1 := c1 |}
  | MC1 P k ps vs pv vp rd c0 c1 :
      pstep {| m_p := P; m_v := QCoin true k; m_ps := ps; m_vs := vs; m_pv := pv; m_vp := vp; m_reads := rd; m_c0 := c0; m_c1 := c1 |}
            {| m_p := P; m_v := k (coins true c1); m_ps := ps; m_vs := vs; m_pv := pv; m_vp := vp; m_reads := rd; m_c0 := c0; m_c1 := S c1 |}.
  (** a step of a program, or delivery of a part of a send buffer *)
  Inductive mstep : anet -> anet -> Prop :=
  | MProg n n' : pstep n n' -> mstep n n'
  | MDP P V a b vs pv vp rd c0 c1 : a <> [] ->
      mstep {| m_p := P; m_v := V; m_ps := a ++ b; m_vs := vs; m_pv := pv; m_vp := vp; m_reads := rd; m_c0 := c0; m_c1 := c1 |}
            {| m_p := P; m_v := V; m_ps := b; m_vs := vs; m_pv := pv ++ a; m_vp := vp; m_reads := rd; m_c0 := c0; m_c1 := c1 |}
  | MDV P V ps a b pv vp rd c0 c1 : a <> [] ->
      mstep {| m_p := P; m_v := V; m_ps := ps; m_vs := a ++ b; m_pv := pv; m_vp := vp; m_reads := rd; m_c0 := c0; m_c1 := c1 |}
            {| m_p := P; m_v := V; m_ps := ps; m_vs := b; m_pv := pv; m_vp := vp ++ a; m_reads := rd; m_c0 := c0; m_c1 := c1 |}.
  Inductive msteps : nat -> anet -> anet -> Prop :=
  | MRefl n : msteps 0 n n
  | MTrans k n n' n'' : msteps k n n' -> mstep n' n'' -> msteps (S k) n n''.
  Definition m_init (P : aproc RP) (V : aproc RV) : anet :=
    {| m_p := P; m_v := V; m_ps := []; m_vs := []; m_pv := []; m_vp := []; m_reads := []; m_c0 := 0; m_c1 := 0 |}.
End Net.

(** * Words as bytes, little endian *)
Definition enc64 (x : N) : list N := map (fun i => (x / 2 ^ (8 * N.of_nat i)) mod 256)%N (seq 0 8).
Definition enc_pair (A : N * N) : list N := enc64 (fst A) ++ enc64 (snd A).
Definition dec_pair (l : list N) : N * N := (dec_bytes (firstn 8 l), dec_bytes (firstn 8 (skipn 8 l))).

(** * The engine *)
(** bool_io.h:70-74 on the prover's side (ptr = 0) *)
Definition s_recv {R : Type} (t : site) (len : nat) (k : list N -> aproc R) : aproc R := QFlush (QGet t len k).
(** bool_io.h:64-68 on the verifier's side (ptr = NETWORK_BUFFER_SIZE2) *)
Definition r_send {R : Type} (bs : list N) (k : aproc R) : aproc R := QFlush (QPut bs k).
Inductive vend : Type := VUndef | VError | VEnd (s : avst).
Section Engine.
  Variables (pub_mac : N) (pV vK : nat -> N) (delta : N) (threads csz psz : nat).
  Variables (G : N -> nat -> N) (H : list N -> list N).
  (** ostriple.h:69-162, 294-327: calls that move one word *)
  Definition a_sends (g : agate) : bool :=
    match g with AIn _ | AMul _ _ | AReveal _ | ACheck _ _ => true | _ => false end.
  (** ostriple.h:124-127 (and 146-149); polynomial.h:85-86, 125-126 together with 43-44 *)
  Definition a_full (g : agate) (cnt : nat) : bool := match g with AMul _ _ => Nat.eqb cnt csz | _ => false end.
  Definition a_pfull (g : agate) (cnt : nat) : bool :=
    match g with APoly _ _ _ | AInner _ _ _ => Nat.leb psz cnt && negb (Nat.eqb cnt 0) | _ => false end.
  (** ostriple.h:166-241 and 344-354, prover *)
  Definition ap_check_prog (s : apst) (k : apst -> aproc (option apst)) : aproc (option apst) :=
    QFlush (s_recv AtSeed 16 (fun b => QFlush
      (match ap_manage pV threads (fun _ => G (dec_bytes b)) s with
       | None => QDone None
       | Some s' => QPut (enc_pair (last (ap_msgs s') (0, 0)%N)) (QFlush (k s'))
       end))).
  (** polynomial.h:42-61, 79, prover: the received word is used as it is *)
  Definition ap_batch_seed (seed : N) (s : apst) : apst :=
    match ap_poly s with
    | [] => s
    | q =>
        let chi := uni_hash_coeff_gen seed (length q) in
        let UV := (vector_inn_prdt_sum_red chi (map fst q), vector_inn_prdt_sum_red chi (map snd q)) in
        {| ap_w := ap_w s; ap_buf := ap_buf s; ap_poly := []; ap_hash := ap_hash s;
           ap_vole := S (ap_vole s); ap_chk := ap_chk s; ap_pchk := S (ap_pchk s);
           ap_words := ap_words s; ap_msgs := ap_msgs s;
           ap_pmsgs := ap_pmsgs s ++ [a_prv_msg UV (pV (ap_vole s))]; ap_outs := ap_outs s |}
    end.
  Definition ap_batch_prog (s : apst) (k : apst -> aproc (option apst)) : aproc (option apst) :=
    QFlush (s_recv AtPSeed 8 (fun b =>
      let s' := ap_batch_seed (dec_bytes b) s in QPut (enc_pair (last (ap_pmsgs s') (0, 0)%N)) (k s'))).
  (** a gate whose buffers are not full *)
  Definition ap_gate (s : apst) (g : agate) (k : apst -> aproc (option apst)) : aproc (option apst) :=
    match ap_step pub_mac pV threads csz psz (fun _ _ => 0%N) (fun _ => 0%N) s g with
    | None => QDone None
    | Some s' => if a_sends g then QPut (enc64 (last (ap_words s') 0%N)) (k s') else k s'
    end.
  (** triple_auth.h:22-28 *)
  Definition ap_fin (s : apst) : aproc (option apst) := QPut (H (ap_hash s)) (QFlush (QDone (Some s))).
  (** ostriple.h:54-57 *)
  Definition ap_end (s : apst) : aproc (option apst) :=
    match ap_buf s with [] => ap_fin s | _ => ap_check_prog s ap_fin end.
  Fixpoint ap_prog (s : apst) (c : list agate) : aproc (option apst) :=
    match c with
    | [] => match ap_poly s with [] => ap_end s | _ => ap_batch_prog s ap_end end      (* emp-zk-arith.h:46-51 *)
    | g :: c' =>
        let go s := ap_gate s g (fun s => ap_prog s c') in
        if a_full g (length (ap_buf s)) then ap_check_prog s (fun s => go (ap_clear s))
        else if a_pfull g (length (ap_poly s)) then ap_batch_prog s go
        else go s
    end.

  (** ostriple.h:166-241 and 344-354, verifier *)
  Definition av_check_prog (s : avst) (k : avst -> aproc vend) : aproc vend :=
    QFlush (QCoin false (fun c => r_send (enc_block c) (QFlush
      (match a_ranges threads (length (av_buf s)) with
       | None => QDone VUndef
       | Some _ => QGet AtCheck 16 (fun b =>
           match av_manage vK delta threads (fun _ => G c) (fun _ => dec_pair b) s with
           | None => QDone VUndef
           | Some s' => if av_err s' then QDone VError else QFlush (k s')
           end)
       end)))).
  (** polynomial.h:42-48, 62-79, verifier: no flush between the send and the receive *)
  Definition av_batch_prog (s : avst) (k : avst -> aproc vend) : aproc vend :=
    QFlush (QCoin true (fun c => r_send (enc64 (mod1 c))
      (QGet AtPoly 16 (fun b => k (av_batch vK delta (fun _ => c) (fun _ => dec_pair b) s))))).
  Definition av_gate (s : avst) (g : agate) (k : avst -> aproc vend) : aproc vend :=
    let go w := match av_step pub_mac vK delta threads csz psz (fun _ _ => 0%N) (fun _ => 0%N) (fun _ => w)
                        (fun _ => (0, 0)%N) (fun _ => (0, 0)%N) s g with
                | None => QDone VUndef
                | Some s' => if av_err s' then QDone VError else k s'
                end in
    if a_sends g then QGet AtWord 8 (fun b => go (dec_bytes b)) else go 0%N.
  (** triple_auth.h:29-37 *)
  Definition av_fin (s : avst) : aproc vend :=
    QGet AtDigest 32 (fun b => if same_bytes (H (av_hash s)) b then QDone (VEnd s) else QDone VError).
  Definition av_end (s : avst) : aproc vend :=
    match av_buf s with [] => av_fin s | _ => av_check_prog s av_fin end.
  Fixpoint av_prog (s : avst) (c : list agate) : aproc vend :=
    match c with
    | [] => match av_poly s with [] => av_end s | _ => av_batch_prog s av_end end
    | g :: c' =>
        let go s := av_gate s g (fun s => av_prog s c') in
        if a_full g (length (av_buf s)) then av_check_prog s (fun s => go (av_clear s))
        else if a_pfull g (length (av_poly s)) then av_batch_prog s go
        else go s
    end.
End Engine.
