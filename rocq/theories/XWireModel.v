(** Both engines on one channel: test/arith/abconversion.cpp (and every program that converts between the two kinds of
    wire) calls setup_zk_bool and setup_zk_arith with the same [ios], so the bits of the boolean engine, the words and
    checks of the arithmetic engine and the data of the conversion module pass through one BoolIO endpoint.

    Simplifications:
    - those of WireModel.v and BWireModel.v for the boolean engine, and those of AWireModel.v for the arithmetic engine
      except that its sends, receives and flushes now act on the endpoint of BoolIOModel.v (with its bit buffer) instead
      of on a stream that never carries bits;
    - the io->flush() that follows send_data in FpAuthHelper::flush (triple_auth.h:27-28) is left out
      ([C67_flush_after_data]); the last flush of both programs is the one of ~BoolIO (bool_io.h:22-25);
    - the data of other components (the openings and random points of emp-zk/edabit) are byte strings [XData]: the sending
      side sends them, the receiving side stores what it reads;
    - the verifier draws the k-th seed of each check as [rseeds k], [coins false k], [coins true k];
    - error() and a division by zero stop the program with [None]. *)
From Coq Require Import NArith List Bool Arith.
From Verif Require Import Word FpModel ArithModel BoolModel BoolPolyModel BoolPolySpec BSessModel BoolIOModel WireModel BWireModel AWireModel.
Import ListNotations.

(** calls of a program that uses both engines; [XSync] is sync_zk_bool (zk_bool_circuit_exec.h:22-26) *)
Inductive xop : Type := XB (o : bop) | XA (g : agate) | XData (fromP : bool) (bs : list N) | XSync.
Record xprv := { xp_b : bprv; xp_a : apst; xp_got : list (list N) }.
Record xver := { xv_b : bver; xv_a : avst; xv_got : list (list N) }.

Section Engine.
  Variables (r0 r1 : N) (pM vK : nat -> N) (delta : N) (threads csz psz : nat) (ope opek : nat -> list N) (rseeds : nat -> N).
  Variables (G : list N -> nat -> N) (H : list N -> list N).
  Variables (pub_mac : N) (pV vV : nat -> N) (adelta : N) (acsz apsz : nat) (AG : N -> nat -> N) (AH : list N -> list N).
  Variable coins : bool -> nat -> N.
  Section Cont.
    Context {R : Type}.
    (** ** the prover *)
    (** one call of the boolean engine, as in [bprv_prog] *)
    Definition xp_bool (s : bprv) (o : bop) (k : bprv -> proc (option R)) : proc (option R) :=
      match o with
      | OGate g =>
          let go p := prv_gate r0 r1 pM threads csz p g (fun p => k {| bp_gates := p; bp_poly := bp_poly s |}) in
          if full csz g (length (p_buf (bp_gates s))) then prv_check_prog pM threads G (bp_gates s) (fun p => go (p_clear p))
          else go (bp_gates s)
      | OPoly c => prel_items psz ope (prv_items (bcall_map (wire (p_wires (bp_gates s))) c)) (bp_poly s)
                     (fun q => k {| bp_gates := bp_gates s; bp_poly := q |})
      end.
    (** finalize_zk_bool, emp-zk-bool.h:37-39 *)
    Definition xp_bool_end (s : bprv) (k : bprv -> proc (option R)) : proc (option R) :=
      prel_check ope (bp_poly s) (fun q =>
        let dig g := PAlign true (PPut (H (p_hash g)) (k {| bp_gates := g; bp_poly := q |})) in
        match p_buf (bp_gates s) with [] => dig (bp_gates s) | _ => prv_check_prog pM threads G (bp_gates s) dig end).
    (** emp-zk-arith/ostriple.h:166-241, 344-354 *)
    Definition xp_check (s : apst) (k : apst -> proc (option R)) : proc (option R) :=
      PFlush (PAlign false (PGet 16 (fun b => PFlush
        (match ap_manage pV threads (fun _ => AG (dec_bytes b)) s with
         | None => PDone None
         | Some s' => PAlign true (PPut (enc_pair (last (ap_msgs s') (0, 0)%N)) (PFlush (k s')))
         end)))).
    (** emp-zk-arith/polynomial.h:42-61, 79 *)
    Definition xp_batch (s : apst) (k : apst -> proc (option R)) : proc (option R) :=
      PFlush (PAlign false (PGet 8 (fun b =>
        let s' := ap_batch_seed pV (dec_bytes b) s in PAlign true (PPut (enc_pair (last (ap_pmsgs s') (0, 0)%N)) (k s'))))).
    (** one call of the arithmetic engine, as in [ap_gate] and [ap_prog] *)
    Definition xp_gate (s : apst) (g : agate) (k : apst -> proc (option R)) : proc (option R) :=
      match ap_step pub_mac pV threads acsz apsz (fun _ _ => 0%N) (fun _ => 0%N) s g with
      | None => PDone None
      | Some s' => if a_sends g then PAlign true (PPut (enc64 (last (ap_words s') 0%N)) (k s')) else k s'
      end.
    Definition xp_arith (s : apst) (g : agate) (k : apst -> proc (option R)) : proc (option R) :=
      if a_full acsz g (length (ap_buf s)) then xp_check s (fun s => xp_gate (ap_clear s) g k)
      else if a_pfull apsz g (length (ap_poly s)) then xp_batch s (fun s => xp_gate s g k)
      else xp_gate s g k.
    (** finalize_zk_arith, emp-zk-arith.h:46-51 *)
    Definition xp_arith_end (s : apst) (k : apst -> proc (option R)) : proc (option R) :=
      let dig s := PAlign true (PPut (AH (ap_hash s)) (k s)) in
      let end_ s := match ap_buf s with [] => dig s | _ => xp_check s dig end in
      match ap_poly s with [] => end_ s | _ => xp_batch s end_ end.
    (** ** the verifier *)
    Definition xv_bool (s : bver) (o : bop) (k : bver -> proc (option R)) : proc (option R) :=
      match o with
      | OGate g =>
          let go v := ver_gate r0 r1 vK delta threads csz v g (fun v => k {| bv_gates := v; bv_poly := bv_poly s |}) in
          if full csz g (length (v_buf (bv_gates s))) then ver_check_prog vK delta threads G (bv_gates s) (fun v => go (v_clear v))
          else go (bv_gates s)
      | OPoly c => vrel_items delta psz opek rseeds (ver_items delta (bcall_map (wire (v_wires (bv_gates s))) c)) (bv_poly s)
                     (fun q => k {| bv_gates := bv_gates s; bv_poly := q |})
      end.
    (** the continuation also gets the value returned by finalize_zk_bool as far as the boolean engine determines it *)
    Definition xv_bool_end (s : bver) (k : bver -> bool -> proc (option R)) : proc (option R) :=
      vrel_check delta opek rseeds (bv_poly s) (fun q =>
        let dig g := let s' := {| bv_gates := g; bv_poly := q |} in
                     PAlign true (PGet 32 (fun x => k s' (bv_finalize same_bytes H s' x))) in
        match v_buf (bv_gates s) with [] => dig (bv_gates s) | _ => ver_check_prog vK delta threads G (bv_gates s) dig end).
    Definition xv_check (s : avst) (k : avst -> proc (option R)) : proc (option R) :=
      PFlush (PAlign false (PPut (enc_block (coins false (av_chk s))) (PFlush
        (match a_ranges threads (length (av_buf s)) with
         | None => PDone None
         | Some _ => PAlign true (PGet 16 (fun b =>
             match av_manage vV adelta threads (fun _ => AG (coins false (av_chk s))) (fun _ => dec_pair b) s with
             | None => PDone None
             | Some s' => if av_err s' then PDone None else PFlush (k s')
             end))
         end)))).
    Definition xv_batch (s : avst) (k : avst -> proc (option R)) : proc (option R) :=
      PFlush (PAlign false (PPut (enc64 (mod1 (coins true (av_pchk s))))
        (PAlign true (PGet 16 (fun b => k (av_batch vV adelta (fun _ => coins true (av_pchk s)) (fun _ => dec_pair b) s)))))).
    Definition xv_gate (s : avst) (g : agate) (k : avst -> proc (option R)) : proc (option R) :=
      let go w := match av_step pub_mac vV adelta threads acsz apsz (fun _ _ => 0%N) (fun _ => 0%N) (fun _ => w)
                          (fun _ => (0, 0)%N) (fun _ => (0, 0)%N) s g with
                  | None => PDone None
                  | Some s' => if av_err s' then PDone None else k s'
                  end in
      if a_sends g then PAlign true (PGet 8 (fun b => go (dec_bytes b))) else go 0%N.
    Definition xv_arith (s : avst) (g : agate) (k : avst -> proc (option R)) : proc (option R) :=
      if a_full acsz g (length (av_buf s)) then xv_check s (fun s => xv_gate (av_clear s) g k)
      else if a_pfull apsz g (length (av_poly s)) then xv_batch s (fun s => xv_gate s g k)
      else xv_gate s g k.
    Definition xv_arith_end (s : avst) (k : avst -> proc (option R)) : proc (option R) :=
      let dig s := PAlign true (PGet 32 (fun b => if same_bytes (AH (av_hash s)) b then k s else PDone None)) in
      let end_ s := match av_buf s with [] => dig s | _ => xv_check s dig end in
      match av_poly s with [] => end_ s | _ => xv_batch s end_ end.
  End Cont.
  (** ** whole programs; the end is finalize_zk_bool, finalize_zk_arith, ~BoolIO (abconversion.cpp:69-70, bool_io.h:22-25) *)
  Fixpoint xprv_prog (s : xprv) (prog : list xop) : proc (option xprv) :=
    match prog with
    | [] => xp_bool_end (xp_b s) (fun b => xp_arith_end (xp_a s) (fun a =>
              PFlush (PDone (Some {| xp_b := b; xp_a := a; xp_got := xp_got s |}))))
    | XB o :: r => xp_bool (xp_b s) o (fun b => xprv_prog {| xp_b := b; xp_a := xp_a s; xp_got := xp_got s |} r)
    | XA g :: r => xp_arith (xp_a s) g (fun a => xprv_prog {| xp_b := xp_b s; xp_a := a; xp_got := xp_got s |} r)
    | XData true x :: r => PAlign true (PPut x (xprv_prog s r))
    | XData false x :: r => PAlign false (PGet (length x) (fun y =>
              xprv_prog {| xp_b := xp_b s; xp_a := xp_a s; xp_got := xp_got s ++ [y] |} r))
    | XSync :: r => PFlush (xprv_prog s r)
    end.
  (** the result of finalize_zk_bool is CheatRecord::cheated(), which both engines write *)
  Fixpoint xver_prog (s : xver) (prog : list xop) : proc (option (xver * bool)) :=
    match prog with
    | [] => xv_bool_end (xv_b s) (fun b f => xv_arith_end (xv_a s) (fun a =>
              PFlush (PDone (Some ({| xv_b := b; xv_a := a; xv_got := xv_got s |}, f || av_cheat (xv_a s))))))
    | XB o :: r => xv_bool (xv_b s) o (fun b => xver_prog {| xv_b := b; xv_a := xv_a s; xv_got := xv_got s |} r)
    | XA g :: r => xv_arith (xv_a s) g (fun a => xver_prog {| xv_b := xv_b s; xv_a := a; xv_got := xv_got s |} r)
    | XData true x :: r => PAlign true (PGet (length x) (fun y =>
              xver_prog {| xv_b := xv_b s; xv_a := xv_a s; xv_got := xv_got s ++ [y] |} r))
    | XData false x :: r => PAlign false (PPut x (xver_prog s r))
    | XSync :: r => PFlush (xver_prog s r)
    end.
End Engine.
Definition xp_init : xprv := {| xp_b := bp_init; xp_a := ap_init; xp_got := [] |}.
Definition xv_init : xver := {| xv_b := bv_init; xv_a := av_init; xv_got := [] |}.
