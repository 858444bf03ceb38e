(** What the gates of the read-only memory should compute, in terms of the values of wires. *)
From Coq Require Import NArith List Bool Arith.
From Verif Require Import GF128 BoolModel BoolSpec F2kModel F2kSpec VoleF2kSpec RamModel RamSpec RamGateModel RamGateSpec RoGateModel.
Import ListNotations.

(** address and value of a record when the wires have the values [ws] *)
Definition pair_at (ws : list bool) (m : qrec) : N * N := (field ws (q_idx m), field ws (q_val m)).
(** the wires named by the reads exist, and Integers have the widths of the memory *)
Fixpoint reads_ok (index_sz val_sz w : nat) (os : list qop) : Prop :=
  match os with
  | [] => True
  | QGates gs :: r => reads_ok index_sz val_sz (w + nwires gs) r
  | QRead idx _ :: r => wires_ok w index_sz idx /\ reads_ok index_sz val_sz (w + val_sz) r
  end.
Definition program_ok (index_sz val_sz : nat) (pre : list gate) (data : list (list nat)) (os : list qop) : Prop :=
  Forall (wires_ok (nwires pre) val_sz) data /\
  reads_ok index_sz val_sz (nwires pre + length data * (index_sz + 1)) os.
Definition is_read (o : qop) : bool := match o with QGates _ => false | _ => true end.
(** number of records: cells and reads *)
Definition records (data : list (list nat)) (os : list qop) : nat := length data + length (filter is_read os).
(** the reads of the program *)
Definition reads_at (index_sz val_sz : nat) (ws : list bool) (pre : list gate) (data : list (list nat)) (os : list qop) : list (N * N) :=
  map (pair_at ws) (skipn (length data) (q_recs (q_run index_sz val_sz pre data os))).

(** as [check_passes] of RamGateSpec.v: a cheating prover with fixed correction bits gets the whole session with
    set-equality challenge [r] accepted for at least six keys, without the accidents of the F2k challenges *)
Definition ro_check_passes (r0 r1 : N) (pM : nat -> N) (threads csz : nat) (seeds : nat -> nat -> N) (bitmsg : nat -> bool)
    (D : Type) (Deqb : D -> D -> bool) (H : list N -> D)
    (voleV voleM : nat -> nat -> N) (bM oM : nat -> N) (fthreads bufsz polysz : nat)
    (index_sz val_sz : nat) (pre : list gate) (data : list (list nat)) (os : list qop) (claims : list (N * N)) (post : list gate) (r : N) : Prop :=
  let bc := q_check index_sz val_sz pre data os claims post in
  let cm := commit pM csz bitmsg bc in
  let lists := q_lists index_sz val_sz pre data os in
  let value i := nth i (map (fun m => ro_word index_sz val_sz (pair_at (c_wires cm) m)) (fst lists ++ snd lists)) 0%N in
  exists chk dig fseeds pseeds junk corr fbits fchk polymsg g1 g2 msg ds c a0 a1,
    let exec d := ver_exec r0 r1 (cot_key pM d) d threads csz seeds bitmsg chk bc in
    seteq_circuit true (records data os) r = Some (c, a0, a1) /\ (forall k, (F2kModel.r0 (polymsg k) < 2 ^ 128)%N) /\
    NoDup ds /\ 6 <= length ds /\
    (forall d, In d ds -> valid_delta d /\ exists v w,
       exec d = Some v /\ ver_finalize Deqb H v dig = false /\
       q_verdict (q_reveal index_sz val_sz pre data os) (records data os - 1) (v_outs v) = true /\
       fv_exec (q_macs index_sz val_sz (v_wires v) pre data os) (fun r i => key_of d (voleV r i, voleM r i))
         (cot_key bM d) (cot_key oM d) d fthreads bufsz polysz fseeds pseeds junk corr fbits fchk polymsg g1 g2 c = Some w /\
       fv_printed w = 0 /\ seteq_accept (fv_w w) a0 a1 msg = true) /\
    (forall d1 d2 v1 v2, In d1 ds -> In d2 ds -> exec d1 = Some v1 -> exec d2 = Some v2 ->
       H (v_hash v1) = H (v_hash v2) -> v_hash v1 = v_hash v2) /\
    let fcm := fcommit value voleV bM bufsz polysz corr fbits c in
    ~ mul_errors_cancel fthreads fseeds fcm /\ ~ prod_errors_cancel pseeds fcm.

(** as [check_accepted]: a prover that follows the protocol, whatever it feeds, is accepted under key [d] and challenge [r] *)
Definition ro_check_accepted (r0 r1 : N) (pM : nat -> N) (threads csz : nat) (seeds : nat -> nat -> N)
    (D : Type) (Deqb : D -> D -> bool) (H : list N -> D) (voleV voleM : nat -> nat -> N) (bM oM : nat -> N)
    (fthreads bufsz polysz : nat) (fseeds : nat -> nat -> N) (pseeds : nat -> N) (junkp : nat -> nat -> N * N)
    (junkv : nat -> nat -> N) (g1 g2 g3 g4 h1 h2 : nat -> N)
    (index_sz val_sz : nat) (pre : list gate) (data : list (list nat)) (os : list qop) (claims : list (N * N)) (post : list gate)
    (r : N) (p : pst) (d : N) : Prop :=
  let bc := q_check index_sz val_sz pre data os claims post in
  let W := plain_wires (q_gates (q_run index_sz val_sz pre data os)) in
  let recorded := ro_records (map (field W) data) (reads_at index_sz val_sz W pre data os) in
  let ext i := (nth i (map (ro_word index_sz val_sz) (claims ++ recorded)) 0%N, q_macs index_sz val_sz (p_wires p) pre data os i) in
  exists v c a0 a1,
    ver_exec r0 r1 (cot_key pM d) d threads csz seeds (fun i => nth i (p_bits p) false) (fun k => nth k (p_msgs p) (0, 0)%N) bc = Some v /\
    ver_finalize Deqb H v (H (p_hash p)) = false /\
    q_verdict (q_reveal index_sz val_sz pre data os) (records data os - 1) (v_outs v) = true /\
    seteq_circuit true (records data os) r = Some (c, a0, a1) /\
    let fp := fp_exec ext voleV voleM bM oM fthreads bufsz polysz fseeds pseeds junkp g1 g2 g3 g4 c in
    exists w, fv_exec (q_macs index_sz val_sz (v_wires v) pre data os) (fun r i => key_of d (voleV r i, voleM r i)) (cot_key bM d) (cot_key oM d) d
        fthreads bufsz polysz fseeds pseeds junkv (fun i => nth i (fp_corr fp) 0%N) (fun i => nth i (fp_bits fp) false)
        (fun k => nth k (fp_msgs fp) (0, 0)%N) (fun k => nth k (fp_pmsgs fp) (0, 0, 0, 0, 0)%N) h1 h2 c = Some w /\
      fv_printed w = 0 /\ fv_cheat w = [] /\ seteq_accept (fv_w w) a0 a1 (seteq_msg (fp_w fp) a0 a1) = true.
