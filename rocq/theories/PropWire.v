(** Property C44: the Boolean engine over the real channel, all interleavings. *)
From Coq Require Import NArith List Bool Arith Lia.
From Verif Require Import Word BoolModel BoolSpec BoolThms BoolThms2 BoolIOModel BoolIOSpec WireModel WireNet WireProofs WireAny.
From Verif Require PropBool.
Import ListNotations.

(** ** honest parties: no interleaving of the two programs gets stuck, every run is finite, and every complete run
    returns the plain outputs on both sides, "no cheating" to the verifier, and leaves both channels empty.
    [G] maps the bytes hashed so far to the challenge stream, so the challenges are those of the actual transcript *)
Theorem C44_honest_session : forall bs br reset NB gs gr r0 r1 pM d threads csz G H c,
  1 <= NB -> length gs = NB -> valid_delta d -> (forall l, length (H l) = 32) -> 1 <= threads -> threads <= csz ->
  count_and c = 0 \/ threads <= last_batch csz (count_and c) ->
  exists (bound : nat) (p : pst) (v : vst), forall k n,
    nsteps bs br reset NB k (n_init NB gs gr (prv_prog r0 r1 pM threads csz G H p_init c)
                              (ver_prog r0 r1 (cot_key pM d) d threads csz G H v_init c)) n ->
    k <= bound /\
    ((exists n', nstep bs br reset NB n n') \/
     (n_p n = PDone (Some p) /\ n_v n = PDone (Some (v, false)) /\ n_sr n = [] /\ n_rs n = [])) /\
    p_outs p = plain_outputs c /\ v_outs v = plain_outputs c.
Proof. exact net_session. Qed.

(** ** any prover program: the verifier's result is the one of the message-level session on exactly the bits and
    messages its endpoint has read, with the challenges derived from its own hash inputs *)
Theorem C44_result_from_transcript : forall bs br reset NB gs gr r0 r1 vK d threads csz G H (RP : Type) (P : proc RP) c k n v b,
  1 <= csz ->
  nsteps bs br reset NB k (n_init NB gs gr P (ver_prog r0 r1 vK d threads csz G H v_init c)) n ->
  n_v n = PDone (Some (v, b)) ->
  let reads := e_reads (n_r n) in
  ver_exec r0 r1 vK d threads csz (fun j => G (nth j (e_digests (n_r n)) []))
    (fun i => nth i (read_bits reads) false) (fun j => dec2 (nth j (read_data reads) [])) c = Some v /\
  b = ver_finalize same_bytes H v (last (read_data reads) []).
Proof.
  intros bs br reset NB gs gr r0 r1 vK d threads csz G H RP P c k n v b Hc Hn Hv reads.
  pose proof (eat_done bs br reset NB gs gr P _ k n _ Hn Hv) as E.
  unfold ver_exec. exact (eat_ver r0 r1 threads csz G H Hc vK d (read_bits reads) (read_data reads) (e_digests (n_r n)) c
    v_init reads (e_digests (n_r n)) v b (conj eq_refl (conj eq_refl eq_refl)) E).
Qed.

(** ** the verifier sends nothing, and no choice of keys changes what it does: every run against a prover program is,
    step for step, a run with any other key *)
Theorem C44_verifier_reveals_nothing : forall bs br reset NB gs gr r0 r1 vK vK' d d' threads csz G H (RP : Type) (P : proc RP) c k n,
  1 <= csz ->
  nsteps bs br reset NB k (n_init NB gs gr P (ver_prog r0 r1 vK d threads csz G H v_init c)) n ->
  n_rs n = [] /\
  exists n', nsteps bs br reset NB k (n_init NB gs gr P (ver_prog r0 r1 vK' d' threads csz G H v_init c)) n' /\
    n_p n' = n_p n /\ n_s n' = n_s n /\ n_r n' = n_r n /\ n_sr n' = n_sr n /\ n_rs n' = n_rs n /\
    ((exists r, n_v n = PDone r) -> exists r, n_v n' = PDone r).
Proof.
  intros bs br reset NB gs gr r0 r1 vK vK' d d' threads csz G H RP P c k n Hc Hn.
  destruct (twin_run bs br reset NB gs gr P _ _ k n (ver_twin r0 r1 threads csz G H Hc vK vK' d d' c v_init v_init eq_refl) Hn) as (A & n' & B & E1 & E2 & E3 & E4 & E5 & T).
  split; [exact A|]. exists n'. repeat (split; [assumption|]). intros [r Er]. rewrite Er in T. inversion T. eauto.
Qed.

(** ** soundness over the channel.  [ends d e v b]: against the prover program [P], a run with key d leaves the verifier's
    endpoint in state e (everything it read and hashed) and returns (v, b) *)
Definition ends bs br reset NB gs gr r0 r1 pM threads csz G H {RP : Type} (P : proc RP) c (d : N) (e : ep) (v : vst) (b : bool) : Prop :=
  exists k n, nsteps bs br reset NB k (n_init NB gs gr P (ver_prog r0 r1 (cot_key pM d) d threads csz G H v_init c)) n /\
    n_r n = e /\ n_v n = PDone (Some (v, b)).
Theorem C44_soundness : forall bs br reset NB gs gr r0 r1 pM threads csz G H (RP : Type) (P : proc RP) c (e : ep) (deltas : list N),
  1 <= csz -> NoDup deltas ->
  let ends := ends bs br reset NB gs gr r0 r1 pM threads csz G H P c in
  let cm := commit pM csz (fun i => nth i (read_bits (e_reads e)) false) c in
  (forall d, In d deltas -> valid_delta d /\ exists v, ends d e v false /\ v_outs v <> plain_outputs (with_inputs (c_ins cm) c)) ->
  length deltas <= 2 \/
  (exists k errs rs, nth_error (batches cm) k = Some errs /\ In true errs /\
     and_ranges threads (length errs) = Some rs /\ combined_error rs (G (nth k (e_digests e) [])) errs = 0%N) \/
  (exists d1 d2 v1 v2, In d1 deltas /\ In d2 deltas /\ ends d1 e v1 false /\ ends d2 e v2 false /\
     v_hash v1 <> v_hash v2 /\ H (v_hash v1) = H (v_hash v2)).
Proof.
  intros bs br reset NB gs gr r0 r1 pM threads csz G H RP P c e deltas Hc Hnd E cm Hd.
  set (ex := fun d => ver_exec r0 r1 (cot_key pM d) d threads csz (fun j => G (nth j (e_digests e) []))
    (fun i => nth i (read_bits (e_reads e)) false) (fun j => dec2 (nth j (read_data (e_reads e)) [])) c).
  assert (K : forall d v b, E d e v b -> ex d = Some v /\ b = ver_finalize same_bytes H v (last (read_data (e_reads e)) [])).
  { intros d v b (k & n & Hn & He & Hv). subst e.
    exact (C44_result_from_transcript bs br reset NB gs gr r0 r1 (cot_key pM d) d threads csz G H RP P c k n v b Hc Hn Hv). }
  destruct (session_soundness r0 r1 pM threads csz (fun j => G (nth j (e_digests e) []))
    (fun i => nth i (read_bits (e_reads e)) false) (fun j => dec2 (nth j (read_data (e_reads e)) []))
    (list N) same_bytes H (last (read_data (e_reads e)) []) c deltas same_bytes_eq Hnd) as [A|[A|A]].
  - intros d Hin. destruct (Hd d Hin) as (V & v & Ev & Ho). split; [exact V|]. exists v. destruct (K _ _ _ Ev) as [K1 K2]. auto.
  - now left.
  - right. left. exact A.
  - right. right. destruct A as (d1 & d2 & v1 & v2 & I1 & I2 & X1 & X2 & Hne & Heq).
    destruct (Hd d1 I1) as (_ & w1 & W1 & _). destruct (Hd d2 I2) as (_ & w2 & W2 & _).
    assert (w1 = v1) by (destruct (K _ _ _ W1) as [Y _]; unfold ex in Y; congruence).
    assert (w2 = v2) by (destruct (K _ _ _ W2) as [Y _]; unfold ex in Y; congruence). subst.
    exists d1, d2, v1, v2. auto 10.
Qed.

(** ** a computed run *)
(** one scheduler: the verifier moves when it can, otherwise the prover *)
Fixpoint play {RP RV : Type} (fuel : nat) bs br reset NB (n : @net RP RV) : net :=
  match fuel with
  | 0 => n
  | S f => match r_proc br reset NB (n_v n) (n_r n) (n_sr n) with
           | Some (V', r', o, sr') => play f bs br reset NB {| n_p := n_p n; n_s := n_s n; n_v := V'; n_r := r'; n_sr := sr'; n_rs := n_rs n ++ o |}
           | None => match s_proc bs reset NB (n_p n) (n_s n) (n_rs n) with
                     | Some (P', e', o, rs') => play f bs br reset NB {| n_p := P'; n_s := e'; n_v := n_v n; n_r := n_r n; n_sr := n_sr n ++ o; n_rs := rs' |}
                     | None => n
                     end
           end
  end.
Lemma play_steps {RP RV} bs br reset NB fuel : forall (n : @net RP RV) k m, nsteps bs br reset NB k m n ->
  exists k', nsteps bs br reset NB k' m (play fuel bs br reset NB n).
Proof.
  induction fuel as [|f IH]; intros n k m Hn; [eauto|]. cbn [play].
  destruct (r_proc br reset NB (n_v n) (n_r n) (n_sr n)) as [[[[V' r'] o] sr']|] eqn:Er.
  - eapply IH. econstructor; [exact Hn|]. destruct n as [P s V r sr rs]. cbn in *. now apply NR.
  - destruct (s_proc bs reset NB (n_p n) (n_s n) (n_rs n)) as [[[[P' e'] o] rs']|] eqn:Es; [|eauto].
    eapply IH. econstructor; [exact Hn|]. destruct n as [P s V r sr rs]. cbn in *. now apply NS.
Qed.
Definition demo_G (h : list N) (i : nat) : N := (dec_bytes h + 5 + N.of_nat i)%N.
Definition demo_H (l : list N) : list N := enc2 (fold_left N.lxor l 0%N, N.of_nat (length l)).
Definition demo_net c (P : proc (option pst)) := n_init 8 (repeat true 8) (repeat false 8) P
  (ver_prog 11 12 (cot_key PropBool.demo_pM PropBool.demo_delta) PropBool.demo_delta 1 2 demo_G demo_H v_init c).
(** an honest session with two checks *)
Definition wire_circuit : list gate :=
  [GIn true; GIn false; GPub true; GAnd 0 2; GXor 3 1; GAnd 4 0; GAnd 5 0; GReveal 6; GReveal 1].
Example C44_case :
  let c := wire_circuit in
  let n := play 100 true false true 8 (demo_net c (prv_prog 11 12 PropBool.demo_pM 1 2 demo_G demo_H p_init c)) in
  (forall l, length (demo_H l) = 32) /\ valid_delta PropBool.demo_delta /\
  match n_p n, n_v n with
  | PDone (Some p), PDone (Some (v, b)) =>
      p_outs p = [true; false] /\ v_outs v = [true; false] /\ b = false /\ length (e_digests (n_r n)) = 2 /\ n_sr n = []
  | _, _ => False end.
Proof.
  split; [intro l; apply enc2_len|]. split; [split; reflexivity|]. vm_compute. repeat split; reflexivity.
Qed.
(** a prover program that claims 0 AND 0 = 1 and opens 1: the verifier reads everything and reports cheating *)
Definition cheat_prog : proc (option pst) :=
  PBit (negb (getLSB (PropBool.demo_pM 1))) (PBit true (PFlush (PHash (fun _ =>
    PAlign true (PPut (repeat 0%N 32) (PFlush (PAlign true (PPut (repeat 0%N 32) (PFlush (PDone None)))))))))).
Example C44_cheat_case :
  let c := [GPub false; GAnd 0 0; GReveal 1] in
  let n := play 100 true false true 8 (demo_net c cheat_prog) in
  match n_v n with
  | PDone (Some (v, b)) => v_outs v = [true] /\ b = true /\ read_bits (e_reads (n_r n)) = [negb (getLSB (PropBool.demo_pM 1)); true]
  | _ => False end.
Proof. vm_compute. repeat split; reflexivity. Qed.

Print Assumptions C44_honest_session.
Print Assumptions C44_result_from_transcript.
Print Assumptions C44_verifier_reveals_nothing.
Print Assumptions C44_soundness.
