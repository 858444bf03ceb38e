(** Model of a whole session of the boolean engine in which gates and relations alternate: setup_zk_bool, any sequence of gates
    (ostriple.h, BoolModel.v) and of calls of PolyProof (emp-zk-bool/polynomial.h, BoolPolyModel.v), finalize_zk_bool.

    Simplifications:
    - those of BoolModel.v and BoolPolyModel.v;
    - both components draw from the one ferret object (zk_prover.h:39, zk_verifier.h:49): wires and AND checks use the blocks [pM],
      the k-th relation check the 128 blocks [ope k]; no block is used twice, so two families stand for the interleaved stream;
    - emp-tool's ProtocolExecution has a virtual destructor, so `delete prot_exec` runs ~ZKProver/~ZKVerifier. *)
From Coq Require Import NArith List Bool Arith.
From Verif Require Import Word GF128 BoolModel BoolPolyModel BoolPolySpec.
Import ListNotations.

(** one operation of the application; the wires of a relation are numbers of wires made earlier *)
Inductive bop := OGate (g : gate) | OPoly (c : bcall nat).

Section Prover.
  Variables (r0 r1 : N) (pM : nat -> N) (threads csz psz : nat) (seeds : nat -> nat -> N) (rseeds : nat -> N) (ope : nat -> list N).
  (** zk_prover.h:29-42: the prover's ostriple and polyproof *)
  Record bprv := { bp_gates : pst; bp_poly : ppst }.
  Definition bp_init : bprv := {| bp_gates := p_init; bp_poly := {| pp_buf := []; pp_chk := 0; pp_msgs := [] |} |}.
  (** zk_bool_circuit_exec.h:14-20 for a gate; emp-zk-bool.h:43-77 for a relation: the labels of the given wires *)
  Definition bp_step (s : bprv) (o : bop) : option bprv :=
    match o with
    | OGate g => match prv_step r0 r1 pM threads csz seeds (bp_gates s) g with
                 | None => None
                 | Some p => Some {| bp_gates := p; bp_poly := bp_poly s |}
                 end
    | OPoly c => Some {| bp_gates := bp_gates s;
                         bp_poly := pp_call psz rseeds ope (bp_poly s) (bcall_map (wire (p_wires (bp_gates s))) c) |}
    end.
  Fixpoint bp_run (s : bprv) (prog : list bop) : option bprv :=
    match prog with
    | [] => Some s
    | o :: prog' => match bp_step s o with None => None | Some s' => bp_run s' prog' end
    end.
  (** emp-zk-bool.h:37-39, zk_prover.h:43-46: polyproof is deleted first (polynomial.h:31-32, the last relation check), then
      ostriple (ostriple.h:68-73, the last AND check and the digest) *)
  Definition bp_exec (prog : list bop) : option bprv :=
    match bp_run bp_init prog with
    | None => None
    | Some s => let q := pp_batch_check rseeds ope (bp_poly s) in
                match prv_final pM threads seeds (bp_gates s) with
                | None => None
                | Some p => Some {| bp_gates := p; bp_poly := q |}
                end
    end.
End Prover.

Section Verifier.
  Variables (r0 r1 : N) (vK : nat -> N) (d : N) (threads csz psz : nat) (seeds : nat -> nat -> N) (rseeds : nat -> N)
            (opek : nat -> list N) (bitmsg : nat -> bool) (chkmsg relmsg : nat -> N * N).
  (** zk_verifier.h:40-53 *)
  Record bver := { bv_gates : vst; bv_poly : pvst }.
  Definition bv_init : bver := {| bv_gates := v_init; bv_poly := {| pv_buf := []; pv_chk := 0; pv_cheat := [] |} |}.
  Definition bv_step (s : bver) (o : bop) : option bver :=
    match o with
    | OGate g => match ver_step r0 r1 vK d threads csz seeds bitmsg chkmsg (bv_gates s) g with
                 | None => None
                 | Some v => Some {| bv_gates := v; bv_poly := bv_poly s |}
                 end
    | OPoly c => Some {| bv_gates := bv_gates s;
                         bv_poly := pv_call psz rseeds d opek relmsg (bv_poly s) (bcall_map (wire (v_wires (bv_gates s))) c) |}
    end.
  Fixpoint bv_run (s : bver) (prog : list bop) : option bver :=
    match prog with
    | [] => Some s
    | o :: prog' => match bv_step s o with None => None | Some s' => bv_run s' prog' end
    end.
  (** emp-zk-bool.h:37-39, zk_verifier.h:55-58 *)
  Definition bv_exec (prog : list bop) : option bver :=
    match bv_run bv_init prog with
    | None => None
    | Some s => let q := pv_batch_check rseeds d opek relmsg (bv_poly s) in
                match ver_final vK d threads seeds chkmsg (bv_gates s) with
                | None => None
                | Some v => Some {| bv_gates := v; bv_poly := q |}
                end
    end.
End Verifier.
(** emp-zk-bool.h:40, cheat_record.h: CheatRecord::cheated() is true when either component recorded a message *)
Definition bv_finalize {D : Type} (Deqb : D -> D -> bool) (H : list N -> D) (s : bver) (dig : D) : bool :=
  match pv_cheat (bv_poly s) with [] => false | _ => true end || ver_finalize Deqb H (bv_gates s) dig.

(** /repo/test/bool/inner_prdt.cpp:37-44: 2*sz inputs, then the same inner product [repeat] times *)
Definition binner_app (sz rep : nat) (w : list bool) (constant : bool) : list bop :=
  map (fun b => OGate (GIn b)) w ++ repeat (OPoly (BInn (seq 0 sz) (seq sz sz) constant)) rep.
(** /repo/test/bool/polynomial.cpp:38-45; coeff has sz+1 entries, coeff[0] is the constant *)
Definition bpoly_app (sz rep : nat) (w : list bool) (coeff : list bool) : list bop :=
  map (fun b => OGate (GIn b)) w ++ repeat (OPoly (BDeg2 (seq 0 sz) (seq sz sz) coeff)) rep.
