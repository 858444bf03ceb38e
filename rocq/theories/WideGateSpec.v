(** What the gates of the wide memory should compute, in terms of the values of wires. *)
From Coq Require Import NArith List Bool Arith.
From Verif Require Import GF128 BoolModel BoolSpec F2kModel F2kSpec VoleF2kSpec RamModel RamSpec RamGateModel RamGateSpec WideGateModel.
Import ListNotations.

(** the fields of a record when the wires have the values [ws] *)
Definition zentry_at (ws : list bool) (m : zrec) : wentry :=
  {| w_idx := field ws (z_idx m); w_step := field ws (z_step m); w_op := pwire ws (z_op m); w_val := map (field ws) (z_val m) |}.
(** the accesses of a program, in time order *)
Definition zaccess_at (ws : list bool) (m : zrec) : wacc :=
  {| b_addr := field ws (z_idx m); b_write := pwire ws (z_op m); b_val := map (field ws) (z_val m) |}.

(** every wire a call names exists when it is made, Integers have the widths of the memory, values have [nw] words *)
Definition words_ok (w nw : nat) (l : list (list nat)) : Prop := length l = nw /\ Forall (wires_ok w 64) l.
Fixpoint zcalls_ok (index_sz step_sz nw w : nat) (os : list zop) : Prop :=
  match os with
  | [] => True
  | ZGates gs :: r => zcalls_ok index_sz step_sz nw (w + nwires gs) r
  | ZRead idx vs :: r => wires_ok w index_sz idx /\ length vs = nw /\ zcalls_ok index_sz step_sz nw (w + 64 * nw + step_sz + 1) r
  | ZWrite idx val :: r => wires_ok w index_sz idx /\ words_ok w nw val /\ zcalls_ok index_sz step_sz nw (w + step_sz + 1) r
  end.
Definition is_zcall (o : zop) : bool := match o with ZGates _ => false | _ => true end.
Definition zcalls (os : list zop) : nat := length (filter is_zcall os).

(** A cheating prover, its correction bits [bitmsg] fixed, gets the whole session accepted for at least six keys of the
    verifier with compression coefficients [coef] and set-equality challenge [r]: the boolean session with the revealed
    order bit true, and the set-equality test on the compressed labels of that session, both under the same key; messages
    that are sent after the challenges may depend on them.  None of the accidents of the F2k challenges occurs, and the
    final hash of the boolean session separates the values hashed under these keys. *)
Definition wide_passes (r0 r1 : N) (pM : nat -> N) (threads csz : nat) (seeds : nat -> nat -> N) (bitmsg : nat -> bool)
    (D : Type) (Deqb : D -> D -> bool) (H : list N -> D)
    (voleV voleM : nat -> nat -> N) (bM oM : nat -> N) (fthreads bufsz polysz : nat)
    (index_sz step_sz nw : nat) (os : list zop) (claims : list wentry) (post : list gate) (coef : list N) (r : N) : Prop :=
  let bc := z_check index_sz step_sz nw os claims post in
  let cm := commit pM csz bitmsg bc in
  let lists := z_lists index_sz step_sz nw os in
  let value i := nth i (map (fun m => compress coef (wide_row (zentry_at (c_wires cm) m))) (fst lists ++ snd lists)) 0%N in
  exists chk dig fseeds pseeds junk corr fbits fchk polymsg g1 g2 msg ds c a0 a1,
    let exec d := ver_exec r0 r1 (cot_key pM d) d threads csz seeds bitmsg chk bc in
    seteq_circuit false (zcalls os) r = Some (c, a0, a1) /\ (forall k, (F2kModel.r0 (polymsg k) < 2 ^ 128)%N) /\
    NoDup ds /\ 6 <= length ds /\
    (forall d, In d ds -> valid_delta d /\ exists v w,
       exec d = Some v /\ ver_finalize Deqb H v dig = false /\
       nth (z_reveal step_sz nw os) (v_outs v) false = true /\
       fv_exec (z_macs index_sz step_sz nw coef (v_wires v) os) (fun r i => key_of d (voleV r i, voleM r i))
         (cot_key bM d) (cot_key oM d) d fthreads bufsz polysz fseeds pseeds junk corr fbits fchk polymsg g1 g2 c = Some w /\
       fv_printed w = 0 /\ seteq_accept (fv_w w) a0 a1 msg = true) /\
    (forall d1 d2 v1 v2, In d1 ds -> In d2 ds -> exec d1 = Some v1 -> exec d2 = Some v2 ->
       H (v_hash v1) = H (v_hash v2) -> v_hash v1 = v_hash v2) /\
    let fcm := fcommit value voleV bM bufsz polysz corr fbits c in
    ~ mul_errors_cancel fthreads fseeds fcm /\ ~ prod_errors_cancel pseeds fcm.

(** A prover that follows the protocol (its run [p] of the boolean session is defined, whatever it feeds as inputs) is
    accepted by the verifier with key [d], compression coefficients [coef] and set-equality challenge [r]: no cheating
    flag, the order bit revealed true, the set-equality test passed. *)
Definition wide_accepted (r0 r1 : N) (pM : nat -> N) (threads csz : nat) (seeds : nat -> nat -> N)
    (D : Type) (Deqb : D -> D -> bool) (H : list N -> D) (voleV voleM : nat -> nat -> N) (bM oM : nat -> N)
    (fthreads bufsz polysz : nat) (fseeds : nat -> nat -> N) (pseeds : nat -> N) (junkp : nat -> nat -> N * N)
    (junkv : nat -> nat -> N) (g1 g2 g3 g4 h1 h2 : nat -> N)
    (index_sz step_sz nw : nat) (os : list zop) (claims : list wentry) (post : list gate) (coef : list N) (r : N) (p : pst) (d : N) : Prop :=
  let bc := z_check index_sz step_sz nw os claims post in
  let log := map (zaccess_at (plain_wires (z_gates (z_run step_sz nw os)))) (snd (z_lists index_sz step_sz nw os)) in
  let ext i := (nth i (map (fun e => compress coef (wide_row e)) (claims ++ wnumbered 0 log)) 0%N,
                z_macs index_sz step_sz nw coef (p_wires p) os i) in
  exists v c a0 a1,
    ver_exec r0 r1 (cot_key pM d) d threads csz seeds (fun i => nth i (p_bits p) false) (fun k => nth k (p_msgs p) (0, 0)%N) bc = Some v /\
    ver_finalize Deqb H v (H (p_hash p)) = false /\ nth (z_reveal step_sz nw os) (v_outs v) false = true /\
    seteq_circuit false (zcalls os) r = Some (c, a0, a1) /\
    let fp := fp_exec ext voleV voleM bM oM fthreads bufsz polysz fseeds pseeds junkp g1 g2 g3 g4 c in
    exists w, fv_exec (z_macs index_sz step_sz nw coef (v_wires v) os) (fun r i => key_of d (voleV r i, voleM r i)) (cot_key bM d) (cot_key oM d) d
        fthreads bufsz polysz fseeds pseeds junkv (fun i => nth i (fp_corr fp) 0%N) (fun i => nth i (fp_bits fp) false)
        (fun k => nth k (fp_msgs fp) (0, 0)%N) (fun k => nth k (fp_pmsgs fp) (0, 0, 0, 0, 0)%N) h1 h2 c = Some w /\
      fv_printed w = 0 /\ fv_cheat w = [] /\ seteq_accept (fv_w w) a0 a1 (seteq_msg (fp_w fp) a0 a1) = true.
