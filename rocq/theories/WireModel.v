(** The Boolean engine as two communicating programs over BoolIO: every send, receive, flush and hash of
    emp-zk-bool/ostriple.h and triple_auth.h as an action on the endpoint of BoolIOModel, with the challenge taken from
    the endpoint's own transcript hash.

    Simplifications:
    - The correlations of FerretCOT are ideal and do not use this channel.
    - The second io->flush() of the prover in TripleAuth::finalize (triple_auth.h:38) directly follows send_data, which
      leaves the buffer empty; it has no effect on BoolIO and is left out.
    - [G h i] is block i of PRG(&seed) where seed = get_hash_block() of the hashed bytes [h] (ostriple.h:146-151);
      [H] is the digest of the opening hash (triple_auth.h:33-35), as bytes.
    - A program that divides by zero (ostriple.h:153-154) stops with [None]. *)
From Coq Require Import NArith List Bool Arith.
From Verif Require Import Word BoolModel BoolIOModel.
Import ListNotations.

(** programs over one endpoint; [PAlign fromS] is the conditional flush of send_data / recv_data *)
Inductive proc (R : Type) : Type :=
| PDone (r : R)
| PBit (b : bool) (k : proc R)              (* send_bit *)
| PGetBit (k : bool -> proc R)              (* recv_bit *)
| PAlign (fromS : bool) (k : proc R)
| PPut (bs : list N) (k : proc R)           (* io->send_data *)
| PGet (len : nat) (k : list N -> proc R)   (* io->recv_data *)
| PFlush (k : proc R)
| PHash (k : list N -> proc R).             (* get_hash_block *)
Arguments PDone {R}. Arguments PBit {R}. Arguments PGetBit {R}. Arguments PAlign {R}.
Arguments PPut {R}. Arguments PGet {R}. Arguments PFlush {R}. Arguments PHash {R}.

(** * Execution of two programs *)
Section Net.
  Variables (bs br reset : bool) (NB : nat).
  Context {RP RV : Type}.
  (** next action of the sender: program, endpoint, bytes sent, bytes left to read; None = blocked *)
  Definition s_proc (P : proc RP) (e : ep) (chin : list N) : option (proc RP * ep * list N * list N) :=
    let act a k := match s_act bs reset NB e a chin with Some (e', o, ch) => Some (k, e', o, ch) | None => None end in
    match P with
    | PDone _ | PGetBit _ => None
    | PBit b k => act (ABit b) k
    | PAlign d k => act (AAlign d) k
    | PPut x k => act (AXfer true x) k
    | PGet len k => match raw_read e len chin with Some (e', ch) => Some (k (firstn len chin), e', [], ch) | None => None end
    | PFlush k => act AFlush k
    | PHash k => act AHash (k (e_hash e))
    end.
  Definition r_proc (P : proc RV) (e : ep) (chin : list N) : option (proc RV * ep * list N * list N) :=
    let act a k := match r_act br reset NB e a chin with Some (e', o, ch) => Some (k, e', o, ch) | None => None end in
    match P with
    | PDone _ | PBit _ _ => None
    | PGetBit k => match recv_bit br NB e chin with Some (b, e', ch) => Some (k b, e', [], ch) | None => None end
    | PAlign d k => act (AAlign d) k
    | PPut x k => act (AXfer false x) k
    | PGet len k => match raw_read e len chin with Some (e', ch) => Some (k (firstn len chin), e', [], ch) | None => None end
    | PFlush k => act AFlush k
    | PHash k => act AHash (k (e_hash e))
    end.
  Record net := { n_p : proc RP; n_s : ep; n_v : proc RV; n_r : ep; n_sr : list N; n_rs : list N }.
  Inductive nstep : net -> net -> Prop :=
  | NS P e V r sr rs P' e' o rs' : s_proc P e rs = Some (P', e', o, rs') ->
      nstep {| n_p := P; n_s := e; n_v := V; n_r := r; n_sr := sr; n_rs := rs |}
            {| n_p := P'; n_s := e'; n_v := V; n_r := r; n_sr := sr ++ o; n_rs := rs' |}
  | NR P e V r sr rs V' r' o sr' : r_proc V r sr = Some (V', r', o, sr') ->
      nstep {| n_p := P; n_s := e; n_v := V; n_r := r; n_sr := sr; n_rs := rs |}
            {| n_p := P; n_s := e; n_v := V'; n_r := r'; n_sr := sr'; n_rs := rs ++ o |}.
  Inductive nsteps : nat -> net -> net -> Prop :=
  | NRefl c : nsteps 0 c c
  | NTrans n c c' c'' : nsteps n c c' -> nstep c' c'' -> nsteps (S n) c c''.
  Definition n_init (gs gr : list bool) (P : proc RP) (V : proc RV) : net :=
    {| n_p := P; n_s := ep_init NB gs true; n_v := V; n_r := ep_init NB gr false; n_sr := []; n_rs := [] |}.
End Net.

(** * Blocks as bytes, little endian *)
Definition enc_block (x : N) : list N := map (fun i => (x / 2 ^ (8 * N.of_nat i)) mod 256)%N (seq 0 16).
Fixpoint dec_bytes (l : list N) : N := match l with [] => 0%N | b :: l' => (b + 256 * dec_bytes l')%N end.
Definition enc2 (A : N * N) : list N := enc_block (fst A) ++ enc_block (snd A).
Definition dec2 (l : list N) : N * N := (dec_bytes (firstn 16 l), dec_bytes (firstn 16 (skipn 16 l))).
(** memcmp *)
Fixpoint same_bytes (a b : list N) : bool :=
  match a, b with [], [] => true | x :: a', y :: b' => N.eqb x y && same_bytes a' b' | _, _ => false end.

(** * The engine *)
Section Engine.
  Variables (r0 r1 : N) (pM vK : nat -> N) (delta : N) (threads csz : nat).
  Variables (G : list N -> nat -> N) (H : list N -> list N).
  Definition sends (g : gate) : bool := match g with GIn _ | GAnd _ _ | GReveal _ => true | _ => false end.
  Definition full (g : gate) (cnt : nat) : bool := match g with GAnd _ _ => Nat.eqb cnt csz | _ => false end.
  (** ostriple.h:144-211 *)
  Definition prv_check_prog {R : Type} (s : pst) (k : pst -> proc (option R)) : proc (option R) :=
    PFlush (PHash (fun h =>
      match prv_manage pM threads (fun _ => G h) s with
      | None => PDone None
      | Some s' => PAlign true (PPut (enc2 (last (p_msgs s') (0, 0)%N)) (PFlush (k s')))
      end)).
  (** a gate whose AND buffer is not full: ostriple.h:95-103, 123-140, 261-265; zk_prover.h *)
  Definition prv_gate {R : Type} (s : pst) (g : gate) (k : pst -> proc (option R)) : proc (option R) :=
    match prv_step r0 r1 pM threads csz (fun _ _ => 0%N) s g with
    | None => PDone None
    | Some s' => if sends g then PBit (last (p_bits s') false) (k s') else k s'
    end.
  (** triple_auth.h:33-38; then ~BoolIO (bool_io.h:22-25) *)
  Definition prv_fin (s : pst) : proc (option pst) := PAlign true (PPut (H (p_hash s)) (PFlush (PDone (Some s)))).
  Fixpoint prv_prog (s : pst) (c : list gate) : proc (option pst) :=
    match c with
    | [] => match p_buf s with [] => prv_fin s | _ => prv_check_prog s prv_fin end         (* ostriple.h:68-73 *)
    | g :: c' =>
        if full g (length (p_buf s))                                                        (* ostriple.h:118-121 *)
        then prv_check_prog s (fun s => prv_gate (p_clear s) g (fun s => prv_prog s c'))
        else prv_gate s g (fun s => prv_prog s c')
    end.
  (** the verifier; its result includes the value returned by finalize_zk_bool *)
  Definition ver_check_prog {R : Type} (s : vst) (k : vst -> proc (option R)) : proc (option R) :=
    PFlush (PHash (fun h =>
      match and_ranges threads (length (v_buf s)) with
      | None => PDone None
      | Some _ => PAlign true (PGet 32 (fun x =>
          match ver_manage vK delta threads (fun _ => G h) (fun _ => dec2 x) s with
          | None => PDone None
          | Some s' => PFlush (k s')
          end))
      end)).
  Definition ver_gate {R : Type} (s : vst) (g : gate) (k : vst -> proc (option R)) : proc (option R) :=
    let go b := match ver_step r0 r1 vK delta threads csz (fun _ _ => 0%N) (fun _ => b) (fun _ => (0, 0)%N) s g with
                | None => PDone None | Some s' => k s' end in
    if sends g then PGetBit go else go false.
  Definition ver_fin (s : vst) : proc (option (vst * bool)) :=
    PAlign true (PGet 32 (fun x => PFlush (PDone (Some (s, ver_finalize same_bytes H s x))))).
  Fixpoint ver_prog (s : vst) (c : list gate) : proc (option (vst * bool)) :=
    match c with
    | [] => match v_buf s with [] => ver_fin s | _ => ver_check_prog s ver_fin end
    | g :: c' =>
        if full g (length (v_buf s))
        then ver_check_prog s (fun s => ver_gate (v_clear s) g (fun s => ver_prog s c'))
        else ver_gate s g (fun s => ver_prog s c')
    end.
End Engine.
