(** Whole boolean sessions with gates and queued relations (BSessModel.v) as two communicating programs over BoolIO: the
    gates and AND checks of WireModel.v and the relation checks of emp-zk-bool/polynomial.h on the same endpoint.

    Simplifications:
    - those of WireModel.v and BSessModel.v;
    - the io->flush() that directly follows io->send_data in PolyProof::batch_check (polynomial.h:73, 78) is left out: after
      send_data the sender's buffer is empty and the receiver's is used up, so BoolIO::flush changes nothing
      ([C67_flush_after_data] proves it; the underlying stream has no buffer in this model);
    - the verifier draws the seed of the k-th relation check as [rseeds k]; the prover uses whatever it receives. *)
From Coq Require Import NArith List Bool Arith.
From Verif Require Import Word GF128 BoolModel BoolPolyModel BoolPolySpec BSessModel BoolIOModel WireModel.
Import ListNotations.

Section Engine.
  Variables (r0 r1 : N) (pM vK : nat -> N) (delta : N) (threads csz psz : nat) (ope opek : nat -> list N) (rseeds : nat -> N).
  Variables (G : list N -> nat -> N) (H : list N -> list N).
  Definition pp_push (s : ppst) (i : N * N) : ppst := {| pp_buf := pp_buf s ++ [i]; pp_chk := pp_chk s; pp_msgs := pp_msgs s |}.
  Definition pv_push (s : pvst) (i : N) : pvst := {| pv_buf := pv_buf s ++ [i]; pv_chk := pv_chk s; pv_cheat := pv_cheat s |}.
  (** polynomial.h:39-73, the prover's side of batch_check: the seed is received, two blocks are sent *)
  Definition prel_check {R : Type} (s : ppst) (k : ppst -> proc (option R)) : proc (option R) :=
    match pp_buf s with
    | [] => k s
    | _ => PAlign false (PGet 16 (fun x =>
             let s' := pp_batch_check (fun _ => dec_bytes x) ope s in
             PAlign true (PPut (enc2 (last (pp_msgs s') (0, 0)%N)) (k s'))))
    end.
  (** the relations of one call, the check whenever the buffer is full (polynomial.h:100-101, 151-152, 196-197, 263-264, 351-352) *)
  Fixpoint prel_items {R : Type} (its : list (N * N)) (s : ppst) (k : ppst -> proc (option R)) : proc (option R) :=
    match its with
    | [] => k s
    | i :: r => if Nat.leb psz (length (pp_buf s)) then prel_check s (fun s => prel_items r (pp_push s i) k)
                else prel_items r (pp_push s i) k
    end.
  (** the end of the session, emp-zk-bool.h:37-39: ~PolyProof, then ~OSTriple *)
  Definition bprv_fin (s : bprv) : proc (option bprv) :=
    PAlign true (PPut (H (p_hash (bp_gates s))) (PFlush (PDone (Some s)))).
  Fixpoint bprv_prog (s : bprv) (prog : list bop) : proc (option bprv) :=
    match prog with
    | [] => prel_check (bp_poly s) (fun q =>
              match p_buf (bp_gates s) with
              | [] => bprv_fin {| bp_gates := bp_gates s; bp_poly := q |}
              | _ => prv_check_prog pM threads G (bp_gates s) (fun g => bprv_fin {| bp_gates := g; bp_poly := q |})
              end)
    | OGate g :: r =>
        let go p := prv_gate r0 r1 pM threads csz p g (fun p => bprv_prog {| bp_gates := p; bp_poly := bp_poly s |} r) in
        if full csz g (length (p_buf (bp_gates s))) then prv_check_prog pM threads G (bp_gates s) (fun p => go (p_clear p))
        else go (bp_gates s)
    | OPoly c :: r =>
        prel_items (prv_items (bcall_map (wire (p_wires (bp_gates s))) c)) (bp_poly s)
          (fun q => bprv_prog {| bp_gates := bp_gates s; bp_poly := q |} r)
    end.
  (** polynomial.h:39-41, 74-93, the verifier's side *)
  Definition vrel_check {R : Type} (s : pvst) (k : pvst -> proc (option R)) : proc (option R) :=
    match pv_buf s with
    | [] => k s
    | _ => PAlign false (PPut (enc_block (rseeds (pv_chk s))) (PAlign true (PGet 32 (fun x =>
             k (pv_batch_check rseeds delta opek (fun _ => dec2 x) s)))))
    end.
  Fixpoint vrel_items {R : Type} (its : list N) (s : pvst) (k : pvst -> proc (option R)) : proc (option R) :=
    match its with
    | [] => k s
    | i :: r => if Nat.leb psz (length (pv_buf s)) then vrel_check s (fun s => vrel_items r (pv_push s i) k)
                else vrel_items r (pv_push s i) k
    end.
  (** the result includes the value returned by finalize_zk_bool *)
  Definition bver_fin (s : bver) : proc (option (bver * bool)) :=
    PAlign true (PGet 32 (fun x => PFlush (PDone (Some (s, bv_finalize same_bytes H s x))))).
  Fixpoint bver_prog (s : bver) (prog : list bop) : proc (option (bver * bool)) :=
    match prog with
    | [] => vrel_check (bv_poly s) (fun q =>
              match v_buf (bv_gates s) with
              | [] => bver_fin {| bv_gates := bv_gates s; bv_poly := q |}
              | _ => ver_check_prog vK delta threads G (bv_gates s) (fun g => bver_fin {| bv_gates := g; bv_poly := q |})
              end)
    | OGate g :: r =>
        let go v := ver_gate r0 r1 vK delta threads csz v g (fun v => bver_prog {| bv_gates := v; bv_poly := bv_poly s |} r) in
        if full csz g (length (v_buf (bv_gates s))) then ver_check_prog vK delta threads G (bv_gates s) (fun v => go (v_clear v))
        else go (bv_gates s)
    | OPoly c :: r =>
        vrel_items (ver_items delta (bcall_map (wire (v_wires (bv_gates s))) c)) (bv_poly s)
          (fun q => bver_prog {| bv_gates := bv_gates s; bv_poly := q |} r)
    end.
End Engine.
