(** What the gates of the read-write memory should compute, in terms of the values of wires. *)
From Coq Require Import NArith List Bool Arith.
From Verif Require Import GF128 BoolModel BoolSpec F2kModel F2kSpec VoleF2kSpec RamModel RamSpec RamGateModel.
Import ListNotations.

(** the fields of a record when the wires have the values [ws] *)
Definition field (ws : list bool) (l : list nat) : N := word_of (map (pwire ws) l).
Definition entry_at (ws : list bool) (m : mrec) : entry :=
  {| e_idx := field ws (m_idx m); e_step := field ws (m_step m); e_op := pwire ws (m_op m); e_val := field ws (m_val m) |}.
(** the accesses of a program, in time order *)
Definition access_at (ws : list bool) (m : mrec) : acc :=
  {| a_addr := field ws (m_idx m); a_write := pwire ws (m_op m); a_val := field ws (m_val m) |}.
(** values of all wires *)
Definition plain_wires (c : list gate) : list bool := fst (plain_eval [] [] c).

(** every wire a call names exists when it is made, and Integers have the widths of the memory *)
Definition wires_ok (w n : nat) (l : list nat) : Prop := length l = n /\ Forall (fun i => i < w) l.
Fixpoint calls_ok (index_sz step_sz val_sz w : nat) (os : list mop) : Prop :=
  match os with
  | [] => True
  | MGates gs :: r => calls_ok index_sz step_sz val_sz (w + nwires gs) r
  | MRead idx _ :: r => wires_ok w index_sz idx /\ calls_ok index_sz step_sz val_sz (w + val_sz + step_sz + 1) r
  | MWrite idx val :: r => wires_ok w index_sz idx /\ wires_ok w val_sz val /\
                           calls_ok index_sz step_sz val_sz (w + step_sz + 1) r
  | MAccess op idx _ :: r => wires_ok w index_sz idx /\ op < w /\ calls_ok index_sz step_sz val_sz (w + val_sz + step_sz) r
  end.
Definition is_call (o : mop) : bool := match o with MGates _ => false | _ => true end.
Definition calls (os : list mop) : nat := length (filter is_call os).

(** an accident of the challenges of the boolean engine: wrong AND gates combined to zero *)
Definition and_errors_cancel (threads : nat) (seeds : nat -> nat -> N) (cm : cst) : Prop :=
  exists k errs rs, nth_error (batches cm) k = Some errs /\ In true errs /\
    and_ranges threads (length errs) = Some rs /\ combined_error rs (seeds k) errs = 0%N.

(** A cheating prover, its correction bits [bitmsg] fixed, gets the whole session accepted for at least six keys of the
    verifier with set-equality challenge [r]: the boolean session with the revealed order bit true, and the set-equality
    test on the labels packed from the wires of that session, both under the same key; messages that are sent after the
    challenge may depend on it.  None of the accidents of the F2k challenges occurs, and the final hash of the boolean
    session separates the values hashed under these keys. *)
Definition check_passes (r0 r1 : N) (pM : nat -> N) (threads csz : nat) (seeds : nat -> nat -> N) (bitmsg : nat -> bool)
    (D : Type) (Deqb : D -> D -> bool) (H : list N -> D)
    (voleV voleM : nat -> nat -> N) (bM oM : nat -> N) (fthreads bufsz polysz : nat)
    (index_sz step_sz val_sz : nat) (os : list mop) (claims : list entry) (post : list gate) (r : N) : Prop :=
  let bc := m_check index_sz step_sz val_sz os claims post in
  let cm := commit pM csz bitmsg bc in
  let lists := m_lists index_sz step_sz val_sz os in
  let value i := nth i (map (fun m => rw_word index_sz step_sz val_sz (entry_at (c_wires cm) m)) (fst lists ++ snd lists)) 0%N in
  exists chk dig fseeds pseeds junk corr fbits fchk polymsg g1 g2 msg ds c a0 a1,
    let exec d := ver_exec r0 r1 (cot_key pM d) d threads csz seeds bitmsg chk bc in
    seteq_circuit false (calls os) r = Some (c, a0, a1) /\ (forall k, (F2kModel.r0 (polymsg k) < 2 ^ 128)%N) /\
    NoDup ds /\ 6 <= length ds /\
    (forall d, In d ds -> valid_delta d /\ exists v w,
       exec d = Some v /\ ver_finalize Deqb H v dig = false /\
       nth (m_reveal step_sz val_sz os) (v_outs v) false = true /\
       fv_exec (m_macs index_sz step_sz val_sz (v_wires v) os) (fun r i => key_of d (voleV r i, voleM r i))
         (cot_key bM d) (cot_key oM d) d fthreads bufsz polysz fseeds pseeds junk corr fbits fchk polymsg g1 g2 c = Some w /\
       fv_printed w = 0 /\ seteq_accept (fv_w w) a0 a1 msg = true) /\
    (forall d1 d2 v1 v2, In d1 ds -> In d2 ds -> exec d1 = Some v1 -> exec d2 = Some v2 ->
       H (v_hash v1) = H (v_hash v2) -> v_hash v1 = v_hash v2) /\
    let fcm := fcommit value voleV bM bufsz polysz corr fbits c in
    ~ mul_errors_cancel fthreads fseeds fcm /\ ~ prod_errors_cancel pseeds fcm.

(** A prover that follows the protocol (its run [p] of the boolean session is defined, whatever it feeds as inputs) is
    accepted by the verifier with key [d] for the set-equality challenge [r]: no cheating flag, the order bit revealed
    true, the set-equality test passed.  The prover's packed numbers are those of the claimed list and of the log. *)
Definition check_accepted (r0 r1 : N) (pM : nat -> N) (threads csz : nat) (seeds : nat -> nat -> N)
    (D : Type) (Deqb : D -> D -> bool) (H : list N -> D) (voleV voleM : nat -> nat -> N) (bM oM : nat -> N)
    (fthreads bufsz polysz : nat) (fseeds : nat -> nat -> N) (pseeds : nat -> N) (junkp : nat -> nat -> N * N)
    (junkv : nat -> nat -> N) (g1 g2 g3 g4 h1 h2 : nat -> N)
    (index_sz step_sz val_sz : nat) (os : list mop) (claims : list entry) (post : list gate) (r : N) (p : pst) (d : N) : Prop :=
  let bc := m_check index_sz step_sz val_sz os claims post in
  let log := map (access_at (plain_wires (m_gates (m_run step_sz val_sz os)))) (snd (m_lists index_sz step_sz val_sz os)) in
  let ext i := (nth i (map (rw_word index_sz step_sz val_sz) (claims ++ numbered 0 log)) 0%N,
                m_macs index_sz step_sz val_sz (p_wires p) os i) in
  exists v c a0 a1,
    ver_exec r0 r1 (cot_key pM d) d threads csz seeds (fun i => nth i (p_bits p) false) (fun k => nth k (p_msgs p) (0, 0)%N) bc = Some v /\
    ver_finalize Deqb H v (H (p_hash p)) = false /\ nth (m_reveal step_sz val_sz os) (v_outs v) false = true /\
    seteq_circuit false (calls os) r = Some (c, a0, a1) /\
    let fp := fp_exec ext voleV voleM bM oM fthreads bufsz polysz fseeds pseeds junkp g1 g2 g3 g4 c in
    exists w, fv_exec (m_macs index_sz step_sz val_sz (v_wires v) os) (fun r i => key_of d (voleV r i, voleM r i)) (cot_key bM d) (cot_key oM d) d
        fthreads bufsz polysz fseeds pseeds junkv (fun i => nth i (fp_corr fp) 0%N) (fun i => nth i (fp_bits fp) false)
        (fun k => nth k (fp_msgs fp) (0, 0)%N) (fun k => nth k (fp_pmsgs fp) (0, 0, 0, 0, 0)%N) h1 h2 c = Some w /\
      fv_printed w = 0 /\ fv_cheat w = [] /\ seteq_accept (fv_w w) a0 a1 (seteq_msg (fp_w fp) a0 a1) = true.
