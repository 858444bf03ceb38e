(** Model of the global session state: /repo/emp-zk/emp-zk-bool/{cheat_record.h, emp-zk-bool.h,
    emp-zk-bool.cpp}, /repo/emp-zk/emp-zk-arith/{emp-zk-arith.h, emp-zk-arith.cpp}, and the
    constructors and destructors of the objects those functions create
    (zk_prover.h:35-48, zk_verifier.h:48-61, bool/ostriple.h:68-84, bool/polynomial.h:35-41,
    arith/ostriple.h:56-65, arith/polynomial.h:35-41, zk_fp_exec_*.h, edabits.h:37-76).

    Simplifications:
    - One process plays one party; [ver] says whether it is the verifier (BOB).
    - An object is a number; what it does with the network is not modelled here (it is in the other
      model files), only the verdicts of its checks, which are arguments of the call.
    - ZKProver/ZKVerifier own their OSTriple and PolyProof, ZKFpExec its FpOSTriple and VoleTriple:
      owner and owned objects have the same life time and are one object here.
    - delete of CircuitExecution / ProtocolExecution / ZKFpExec reaches the derived destructor
      (virtual destructors of emp-tool and zk_fp_exec.h:17).
    - [UB]: access to or deletion of an object that was deleted before, or access through a null
      pointer.  [Exit]: error(...), which ends the process. *)
From Coq Require Import List Bool Arith.
Import ListNotations.

Inductive outcome (A : Type) : Type := Done (a : A) | Exit | UB.
Arguments Done {A}. Arguments Exit {A}. Arguments UB {A}.
Definition bind {A B} (o : outcome A) (f : A -> outcome B) : outcome B :=
  match o with Done a => f a | Exit => Exit | UB => UB end.

(** The static pointers; [None] is nullptr (emp-tool's circ_exec and prot_exec, zk_fp_exec.h:15 with
    emp-zk-arith.cpp:3, arith/polynomial.h:160, edabits.h:394).  [h_live] holds the live objects with the
    object each one keeps a pointer to: circ_exec -> prot_exec (zk_prover.h:41-42, zk_verifier.h:54-55),
    fppolyproof and conv -> zk_exec (emp-zk-arith.h:23-31, 34-40).  [g_key]: prot_exec object whose Delta
    was installed in conv (emp-zk-arith.h:40-41). *)
Record glob := { g_msg : list nat;     (* CheatRecord::message *)
                 g_circ : option nat; g_prot : option nat;
                 g_zk : option nat; g_poly : option nat; g_conv : option nat;
                 g_key : option nat;
                 h_live : list (nat * nat); h_next : nat }.
Definition glob0 : glob :=
  {| g_msg := []; g_circ := None; g_prot := None; g_zk := None; g_poly := None; g_conv := None;
     g_key := None; h_live := []; h_next := 0 |}.

Fixpoint find (h : list (nat * nat)) (i : nat) : option nat :=
  match h with
  | [] => None
  | (j, r) :: h' => if Nat.eqb j i then Some r else find h' i
  end.
Definition drop (h : list (nat * nat)) (i : nat) : list (nat * nat) :=
  filter (fun jr => negb (Nat.eqb (fst jr) i)) h.
(** p->f(): the object must be live; its own pointer is returned *)
Definition deref (h : list (nat * nat)) (p : option nat) : outcome nat :=
  match p with
  | None => UB
  | Some i => match find h i with Some r => Done r | None => UB end
  end.
(** p->q->f() *)
Definition deref2 (h : list (nat * nat)) (p : option nat) : outcome unit :=
  bind (deref h p) (fun r => bind (deref h (Some r)) (fun _ => Done tt)).
(** delete p *)
Definition delete (h : list (nat * nat)) (p : option nat) : outcome (list (nat * nat)) :=
  match p with
  | None => Done h
  | Some i => match find h i with Some _ => Done (drop h i) | None => UB end
  end.

(** The calls.  The arguments of the last two groups are the verdicts of the checks the call runs. *)
Inductive call : Type :=
| SetupBool
| BoolBatch (ok : bool)          (* gates or proofs of the boolean engine that run one batch check *)
| FinalBool (poly and_ : option bool) (dig : bool)
    (* finalize_zk_bool; [poly], [and_]: verdict of the pending PolyProof / AND batch, if there is one *)
| SetupArith (conv : bool)
| ArithUse                       (* gates of the arithmetic engine *)
| ArithBatch (ok : bool)         (* a FpPolyProof batch check *)
| Convert                        (* bool2arith, arith2bool *)
| FinalArith (conv_ok : bool) (poly : option bool) (zk_ok : bool).
    (* finalize_zk_arith; [conv_ok]: triple_equality_check, [zk_ok]: checks of ~FpOSTriple *)

Section Party.
  Variable ver : bool.
  (** cheat_record.h, emp-zk-bool.cpp:4; bool/polynomial.h:92-93, bool/ostriple.h:72-73, 205-206,
      arith/polynomial.h:76-77: only the verifier's branch calls put, and TripleAuth::finalize is true for
      the prover (triple_auth.h:36-39) *)
  Definition put (m : list nat) (tag : nat) (ok : bool) : list nat :=
    if ver && negb ok then m ++ [tag] else m.
  Definition put_opt (m : list nat) (tag : nat) (ok : option bool) : list nat :=
    match ok with None => m | Some b => put m tag b end.
  Definition cheated (g : glob) : bool := match g_msg g with [] => false | _ => true end.

  (** emp-zk-bool.h:12-24 *)
  Definition setup_bool (g : glob) : glob :=
    let c := h_next g in let p := S c in
    {| g_msg := []; g_circ := Some c; g_prot := Some p; g_zk := g_zk g; g_poly := g_poly g;
       g_conv := g_conv g; g_key := g_key g; h_live := (p, p) :: (c, p) :: h_live g; h_next := S p |}.
  (** a gate: CircuitExecution::circ_exec->and_gate -> ostriple, or ->polyproof (emp-zk-bool.h:43-79) *)
  Definition bool_batch (g : glob) (ok : bool) : outcome glob :=
    bind (deref2 (h_live g) (g_circ g)) (fun _ =>
    Done {| g_msg := put (g_msg g) 0 ok; g_circ := g_circ g; g_prot := g_prot g; g_zk := g_zk g;
            g_poly := g_poly g; g_conv := g_conv g; g_key := g_key g; h_live := h_live g; h_next := h_next g |}).
  (** emp-zk-bool.h:37-41; delete prot_exec runs ~PolyProof, then ~OSTriple (zk_verifier.h:55-58).
      On null pointers nothing is destroyed, so nothing is checked. *)
  Definition final_bool (g : glob) (poly and_ : option bool) (dig : bool) : outcome (glob * bool) :=
    bind (delete (h_live g) (g_circ g)) (fun h =>
    bind (delete h (g_prot g)) (fun h =>
    let m := match g_prot g with
             | None => g_msg g
             | Some _ => put (put_opt (put_opt (g_msg g) 1 poly) 2 and_) 3 dig
             end in
    let g' := {| g_msg := m; g_circ := g_circ g; g_prot := g_prot g; g_zk := g_zk g;
                 g_poly := g_poly g; g_conv := g_conv g; g_key := g_key g; h_live := h; h_next := h_next g |} in
    Done (g', cheated g'))).
  (** emp-zk-arith.h:12-44.  The constructor of EdaBits makes public Integers, i.e. calls
      prot_exec->feed (edabits.h:60-63); install_boolean reads circ_exec->delta (:40-41). *)
  Definition setup_arith (g : glob) (conv : bool) : outcome glob :=
    match conv, g_circ g with
    | true, None => Exit
    | _, _ =>
        let z := h_next g in let f := S z in let v := S f in
        let h := (f, z) :: (z, z) :: h_live g in
        if conv then
          bind (deref h (g_prot g)) (fun _ =>
          bind (deref2 h (g_circ g)) (fun _ =>
          Done {| g_msg := g_msg g; g_circ := g_circ g; g_prot := g_prot g; g_zk := Some z; g_poly := Some f;
                  g_conv := Some v; g_key := g_prot g; h_live := (v, z) :: h; h_next := S v |}))
        else
          Done {| g_msg := g_msg g; g_circ := g_circ g; g_prot := g_prot g; g_zk := Some z; g_poly := Some f;
                  g_conv := g_conv g; g_key := g_key g; h_live := h; h_next := v |}
    end.
  (** int_fp.h: ZKFpExec::zk_exec->... *)
  Definition arith_use (g : glob) : outcome glob := bind (deref (h_live g) (g_zk g)) (fun _ => Done g).
  (** int_fp.h:85-95 -> arith/polynomial.h:43-81; the mask comes from ostriple->vole (:61, :72) *)
  Definition arith_batch (g : glob) (ok : bool) : outcome glob :=
    bind (deref2 (h_live g) (g_poly g)) (fun _ =>
    Done {| g_msg := put (g_msg g) 4 ok; g_circ := g_circ g; g_prot := g_prot g; g_zk := g_zk g;
            g_poly := g_poly g; g_conv := g_conv g; g_key := g_key g; h_live := h_live g; h_next := h_next g |}).
  (** conversion.h:7-23: uses conv, its VoleTriple, and the boolean engine for the Integers *)
  Definition convert (g : glob) : outcome glob :=
    bind (deref2 (h_live g) (g_conv g)) (fun _ =>
    bind (deref (h_live g) (g_prot g)) (fun _ =>
    bind (deref2 (h_live g) (g_circ g)) (fun _ => Done g))).
  (** emp-zk-arith.h:46-51; ~EdaBits (edabits.h:66-76) exits on a failed equality check, ~FpPolyProof
      runs its pending batch with the mask of ostriple->vole, ~FpOSTriple exits on a failed check. *)
  Definition final_arith (g : glob) (conv_ok : bool) (poly : option bool) (zk_ok : bool) : outcome glob :=
    let h := h_live g in
    bind (match g_conv g with
          | None => Done h
          | Some i => match find h i with
                      | None => UB
                      | Some _ => if conv_ok then Done (drop h i) else Exit
                      end
          end) (fun h =>
    bind (match g_poly g with
          | None => Done (g_msg g, h)
          | Some i => match find h i with
                      | None => UB
                      | Some r => match poly with
                                  | None => Done (g_msg g, drop h i)
                                  | Some ok => match find h r with
                                               | None => UB
                                               | Some _ => Done (put (g_msg g) 4 ok, drop h i)
                                               end
                                  end
                      end
          end) (fun mh =>
    bind (match g_zk g with
          | None => Done (snd mh)
          | Some i => match find (snd mh) i with
                      | None => UB
                      | Some _ => if zk_ok then Done (drop (snd mh) i) else Exit
                      end
          end) (fun h =>
    Done {| g_msg := fst mh; g_circ := g_circ g; g_prot := g_prot g; g_zk := g_zk g; g_poly := g_poly g;
            g_conv := g_conv g; g_key := g_key g; h_live := h; h_next := h_next g |}))).

  (** one call; finalize_zk_bool is the only one that returns a flag *)
  Definition step (g : glob) (c : call) : outcome (glob * option bool) :=
    let quiet o := bind o (fun g => Done (g, None)) in
    match c with
    | SetupBool => Done (setup_bool g, None)
    | BoolBatch ok => quiet (bool_batch g ok)
    | FinalBool a b d => bind (final_bool g a b d) (fun gb => Done (fst gb, Some (snd gb)))
    | SetupArith conv => quiet (setup_arith g conv)
    | ArithUse => quiet (arith_use g)
    | ArithBatch ok => quiet (arith_batch g ok)
    | Convert => quiet (convert g)
    | FinalArith a b d => quiet (final_arith g a b d)
    end.
  (** a sequence of calls; the flags returned, in order *)
  Fixpoint run (g : glob) (cs : list call) : outcome (glob * list bool) :=
    match cs with
    | [] => Done (g, [])
    | c :: cs =>
        bind (step g c) (fun r =>
        bind (run (fst r) cs) (fun r' =>
        Done (fst r', match snd r with None => snd r' | Some b => b :: snd r' end)))
    end.
End Party.
