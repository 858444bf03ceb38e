(** Property C67: boolean sessions that mix gates and queued relations over the real channel, all interleavings. *)
From Coq Require Import NArith List Bool Arith Lia.
From Verif Require Import Word GF128 BoolModel BoolSpec BoolThms BoolThms2 BoolIOModel BoolIOSpec BoolIOProofs BoolPolyModel BoolPolySpec BSessModel BSessSpec BSessThms
  WireModel WireNet WireProofs WireAny BWireModel BWireSpec BWireProofs BWireThms BWireAny HideSpec BSessHideSpec BWireHideSpec BWireHide.
From Verif Require PropBool PropWire.
Import ListNotations.

(** ** honest parties: no interleaving of the two programs gets stuck, every run is finite, and every complete run returns the
    plain outputs on both sides, "no cheating" to the verifier, and leaves both channels empty *)
Theorem C67_honest_session : forall bs br reset NB gs gr r0 r1 pM d threads csz psz ope rseeds G H prog,
  1 <= NB -> length gs = NB -> valid_delta d -> (forall l, length (H l) = 32) -> 1 <= threads -> threads <= csz -> 1 <= psz ->
  (forall k, length (ope k) = 128) -> (forall k, (rseeds k < 2 ^ 128)%N) -> wf_prog 0 prog = true -> all_hold (brels prog) = true ->
  count_and (gates_of prog) = 0 \/ threads <= last_batch csz (count_and (gates_of prog)) ->
  exists (bound : nat) (p : bprv) (v : bver), forall k n,
    nsteps bs br reset NB k (n_init NB gs gr (bprv_prog r0 r1 pM threads csz psz ope G H bp_init prog)
        (bver_prog r0 r1 (cot_key pM d) d threads csz psz (fun k => map (ot_key d) (ope k)) rseeds G H bv_init prog)) n ->
    k <= bound /\
    ((exists n', nstep bs br reset NB n n') \/
     (n_p n = PDone (Some p) /\ n_v n = PDone (Some (v, false)) /\ n_sr n = [] /\ n_rs n = [])) /\
    p_outs (bp_gates p) = bouts prog /\ v_outs (bv_gates v) = bouts prog.
Proof. exact bnet_session. Qed.
(** so a complete run exists *)
Theorem C67_session_completes : forall bs br reset NB gs gr r0 r1 pM d threads csz psz ope rseeds G H prog,
  1 <= NB -> length gs = NB -> valid_delta d -> (forall l, length (H l) = 32) -> 1 <= threads -> threads <= csz -> 1 <= psz ->
  (forall k, length (ope k) = 128) -> (forall k, (rseeds k < 2 ^ 128)%N) -> wf_prog 0 prog = true -> all_hold (brels prog) = true ->
  count_and (gates_of prog) = 0 \/ threads <= last_batch csz (count_and (gates_of prog)) ->
  exists k n p v,
    nsteps bs br reset NB k (n_init NB gs gr (bprv_prog r0 r1 pM threads csz psz ope G H bp_init prog)
        (bver_prog r0 r1 (cot_key pM d) d threads csz psz (fun k => map (ot_key d) (ope k)) rseeds G H bv_init prog)) n /\
    n_p n = PDone (Some p) /\ n_v n = PDone (Some (v, false)) /\ p_outs (bp_gates p) = bouts prog /\ v_outs (bv_gates v) = bouts prog.
Proof.
  intros bs br reset NB gs gr r0 r1 pM d threads csz psz ope rseeds G H prog H1 H2 H3 H4 H5 H6 H7 H8 H9 H10 H11 H12.
  destruct (bnet_session bs br reset NB gs gr r0 r1 pM d threads csz psz ope rseeds G H prog H1 H2 H3 H4 H5 H6 H7 H8 H9 H10 H11 H12) as (bound & p & v & A).
  set (m := n_init NB gs gr _ _) in *.
  assert (L : forall j, (exists k n, nsteps bs br reset NB k m n /\ n_p n = PDone (Some p) /\ n_v n = PDone (Some (v, false))) \/
                        exists n, nsteps bs br reset NB j m n).
  { induction j as [|j [IH|[n IH]]]; [right; exists m; constructor|now left|]. destruct (A j n IH) as (_ & [[n' Hs]|(E1 & E2 & _)] & _).
    - right. exists n'. econstructor; eassumption.
    - left. eauto. }
  destruct (A 0 m ltac:(constructor)) as (_ & _ & O1 & O2).
  destruct (L (S bound)) as [(k & n & R & E1 & E2)|[n R]].
  - exists k, n, p, v. auto.
  - destruct (A _ _ R) as [B _]. lia.
Qed.

(** ** any prover program: the verifier's result is the one of the message-level session on exactly the bits and data its endpoint
    has read; which data message answers which check is a function of the program alone ([roles]) *)
Theorem C67_result_from_transcript : forall bs br reset NB gs gr r0 r1 vK d threads csz psz opek rseeds G H (RP : Type) (P : proc RP) prog k n v b,
  1 <= csz -> 1 <= psz ->
  nsteps bs br reset NB k (n_init NB gs gr P (bver_prog r0 r1 vK d threads csz psz opek rseeds G H bv_init prog)) n ->
  n_v n = PDone (Some (v, b)) ->
  let reads := e_reads (n_r n) in
  let of_role r := pick r (roles csz psz 0 0 prog) (read_data reads) in
  bv_exec r0 r1 vK d threads csz psz (fun j => G (nth j (e_digests (n_r n)) [])) rseeds opek
    (fun i => nth i (read_bits reads) false) (fun j => dec2 (nth j (of_role false) [])) (fun j => dec2 (nth j (of_role true) [])) prog = Some v /\
  b = bv_finalize same_bytes H v (last (read_data reads) []).
Proof.
  intros bs br reset NB gs gr r0 r1 vK d threads csz psz opek rseeds G H RP P prog k n v b Hc Hp Hn Hv reads of_role.
  pose proof (eat_done bs br reset NB gs gr P _ k n _ Hn Hv) as E.
  apply (beat_ver r0 r1 threads csz psz rseeds G H Hc vK d opek (read_bits reads) (read_data reads) (of_role false) (of_role true) (e_digests (n_r n)) prog Hp
    bv_init reads (e_digests (n_r n)) v b); [|exact E].
  split; [reflexivity|]. split; [reflexivity|]. split; [reflexivity|]. split; [reflexivity|]. now exists [].
Qed.

(** ** the verifier sends only its seeds: every run against a prover program is, step for step and byte for byte in both directions, a
    run with any other key and any other correlations *)
Theorem C67_verifier_reveals_only_seeds :
  forall bs br reset NB gs gr r0 r1 vK vK' d d' threads csz psz opek opek' rseeds G H (RP : Type) (P : proc RP) prog k n,
  1 <= csz ->
  nsteps bs br reset NB k (n_init NB gs gr P (bver_prog r0 r1 vK d threads csz psz opek rseeds G H bv_init prog)) n ->
  exists n', nsteps bs br reset NB k (n_init NB gs gr P (bver_prog r0 r1 vK' d' threads csz psz opek' rseeds G H bv_init prog)) n' /\
    n_p n' = n_p n /\ n_s n' = n_s n /\ n_r n' = n_r n /\ n_sr n' = n_sr n /\ n_rs n' = n_rs n /\
    ((exists r, n_v n = PDone r) -> exists r, n_v n' = PDone r).
Proof.
  intros bs br reset NB gs gr r0 r1 vK vK' d d' threads csz psz opek opek' rseeds G H RP P prog k n Hc Hn.
  destruct (btwin_run bs br reset NB gs gr P _ _ k n
    (bver_twin r0 r1 threads csz psz rseeds G H Hc vK vK' d d' opek opek' prog bv_init bv_init (conj eq_refl (conj eq_refl eq_refl))) Hn) as (n' & B & E1 & E2 & E3 & E4 & E5 & T).
  exists n'. repeat (split; [assumption|]). intros [r Er]. rewrite Er in T. inversion T. eauto.
Qed.

(** ** soundness over the channel.  [bends d e v b]: against the prover program [P], a run with key d leaves the verifier's
    endpoint in state e (everything it read and hashed) and returns (v, b) *)
Definition bends bs br reset NB gs gr r0 r1 pM ope threads csz psz rseeds G H {RP : Type} (P : proc RP) prog (d : N) (e : ep) (v : bver) (b : bool) : Prop :=
  exists k n, nsteps bs br reset NB k (n_init NB gs gr P
      (bver_prog r0 r1 (cot_key pM d) d threads csz psz (fun k => map (ot_key d) (ope k)) rseeds G H bv_init prog)) n /\
    n_r n = e /\ n_v n = PDone (Some (v, b)).
Lemma dec_lt l : Forall (fun b => (b < 256)%N) l -> (dec_bytes l < 2 ^ (8 * N.of_nat (length l)))%N.
Proof.
  induction 1 as [|b l Hb Hl IH]; [reflexivity|]. cbn [dec_bytes length].
  replace (2 ^ (8 * N.of_nat (S (length l))))%N with (256 * 2 ^ (8 * N.of_nat (length l)))%N; [lia|].
  rewrite Nat2N.inj_succ, N.mul_succ_r, N.pow_add_r. change (2 ^ 8)%N with 256%N. lia.
Qed.
Lemma dec2_lt l : Forall (fun b => (b < 256)%N) l -> (fst (dec2 l) < 2 ^ 128)%N.
Proof.
  intro F. cbn [dec2 fst]. eapply N.lt_le_trans; [apply dec_lt|].
  - rewrite <- (firstn_skipn 16 l) in F. apply Forall_app in F. apply F.
  - apply N.pow_le_mono_r; [discriminate|]. pose proof (firstn_le_length 16 l). lia.
Qed.
Lemma pick_in {A} b rl : forall (ds : list A) x, In x (pick b rl ds) -> In x ds.
Proof.
  induction rl as [|r rl IH]; intros [|y ds] x Hx; cbn [pick] in Hx; try contradiction.
  destruct (Bool.eqb b r); [destruct Hx as [->|Hx]; [now left|]|]; right; now apply IH.
Qed.
Theorem C67_soundness : forall bs br reset NB gs gr r0 r1 pM ope threads csz psz rseeds G H (RP : Type) (P : proc RP) prog (e : ep) (deltas : list N),
  1 <= csz -> 1 <= psz -> NoDup deltas -> wf_prog 0 prog = true -> Forall (Forall (fun b => (b < 256)%N)) (read_data (e_reads e)) ->
  let ends := bends bs br reset NB gs gr r0 r1 pM ope threads csz psz rseeds G H P prog in
  let cm := commit pM csz (fun i => nth i (read_bits (e_reads e)) false) (gates_of prog) in
  let q := bwith_inputs (c_ins cm) prog in
  (forall d, In d deltas -> valid_delta d /\ exists v, ends d e v false /\ (v_outs (bv_gates v) <> bouts q \/ all_hold (brels q) = false)) ->
  length deltas <= 2 \/
  (exists k errs rs, nth_error (batches cm) k = Some errs /\ In true errs /\
     and_ranges threads (length errs) = Some rs /\ combined_error rs (G (nth k (e_digests e) [])) errs = 0%N) \/
  (exists k errs, nth_error (chunks psz (committed_rels (c_wires cm) prog)) k = Some errs /\ In true errs /\
     range_error (rseeds k) errs = 0%N) \/
  (exists d1 d2 v1 v2, In d1 deltas /\ In d2 deltas /\ ends d1 e v1 false /\ ends d2 e v2 false /\
     v_hash (bv_gates v1) <> v_hash (bv_gates v2) /\ H (v_hash (bv_gates v1)) = H (v_hash (bv_gates v2))).
Proof.
  intros bs br reset NB gs gr r0 r1 pM ope threads csz psz rseeds G H RP P prog e deltas Hc Hp Hnd Wf HB E cm q Hd.
  set (role := fun r => pick r (roles csz psz 0 0 prog) (read_data (e_reads e))).
  set (ex := fun d => bv_exec r0 r1 (cot_key pM d) d threads csz psz (fun j => G (nth j (e_digests e) [])) rseeds (fun k => map (ot_key d) (ope k))
    (fun i => nth i (read_bits (e_reads e)) false) (fun j => dec2 (nth j (role false) [])) (fun j => dec2 (nth j (role true) [])) prog).
  assert (K : forall d v b, E d e v b -> ex d = Some v /\ b = bv_finalize same_bytes H v (last (read_data (e_reads e)) [])).
  { intros d v b (k & n & Hn & He & Hv). subst e.
    exact (C67_result_from_transcript bs br reset NB gs gr r0 r1 (cot_key pM d) d threads csz psz (fun k => map (ot_key d) (ope k)) rseeds G H RP P prog k n v b Hc Hp Hn Hv). }
  assert (RM : forall k, (fst (dec2 (nth k (role true) [])) < 2 ^ 128)%N).
  { intro k. apply dec2_lt. destruct (le_lt_dec (length (role true)) k) as [L|L]; [rewrite nth_overflow by exact L; constructor|].
    rewrite Forall_forall in HB. apply HB. eapply pick_in. apply nth_In. exact L. }
  destruct (bsess_soundness r0 r1 pM ope threads csz psz (fun j => G (nth j (e_digests e) [])) rseeds
    (fun i => nth i (read_bits (e_reads e)) false) (fun j => dec2 (nth j (role false) [])) (fun j => dec2 (nth j (role true) []))
    (list N) same_bytes H (last (read_data (e_reads e)) []) prog deltas same_bytes_eq Hnd Hp Wf RM) as [A|[A|[A|A]]].
  - intros d Hin. destruct (Hd d Hin) as (V & v & Ev & Ho). split; [exact V|]. exists v. destruct (K _ _ _ Ev) as [K1 K2]. auto.
  - now left.
  - right. left. exact A.
  - right. right. left. exact A.
  - right. right. right. destruct A as (d1 & d2 & v1 & v2 & I1 & I2 & X1 & X2 & Hne & Heq).
    destruct (Hd d1 I1) as (_ & w1 & W1 & _). destruct (Hd d2 I2) as (_ & w2 & W2 & _).
    assert (w1 = v1) by (destruct (K _ _ _ W1) as [Y _]; unfold ex in Y; congruence).
    assert (w2 = v2) by (destruct (K _ _ _ W2) as [Y _]; unfold ex in Y; congruence). subst.
    exists d1, d2, v1, v2. auto 10.
Qed.

(** ** the explicit flush right after a data message (polynomial.h:73, 78) does nothing: on either side, after the alignment and transfer
    of a message from the prover or to it, BoolIO::flush sends no byte and leaves the endpoint as it is.  The conditions on the endpoints
    hold from the start: the prover's constructor sets ptr = 0 and send_bit wraps at NB, the verifier's sets ptr = NB and recv_bit never
    leaves 0 *)
Theorem C67_flush_after_data : forall bmi2 reset NB (R : Type) (k : proc R) bs e ch,
  (e_ptr e < NB -> length (e_buf e) = NB -> forall P1 e1 o1 ch1 P2 e2 o2 ch2,
     s_proc bmi2 reset NB (PAlign true (PPut bs (PFlush k))) e ch = Some (P1, e1, o1, ch1) ->
     s_proc bmi2 reset NB P1 e1 ch1 = Some (P2, e2, o2, ch2) ->
     s_proc bmi2 reset NB P2 e2 ch2 = Some (k, e2, [], ch2)) /\
  (1 <= e_ptr e -> forall P1 e1 o1 ch1 P2 e2 o2 ch2,
     r_proc bmi2 reset NB (PAlign false (PPut bs (PFlush k))) e ch = Some (P1, e1, o1, ch1) ->
     r_proc bmi2 reset NB P1 e1 ch1 = Some (P2, e2, o2, ch2) ->
     r_proc bmi2 reset NB P2 e2 ch2 = Some (k, e2, [], ch2)).
Proof.
  intros bmi2 reset NB R k bs e ch. split.
  - intros Hlt Hlen P1 e1 o1 ch1 P2 e2 o2 ch2 S1 S2. cbn [s_proc s_act] in S1.
    assert (Z : e_ptr e1 = 0).
    { destruct (Nat.eqb_spec (e_ptr e) 0) as [Z|Z]; [congruence|].
      destruct (flush_pos bmi2 NB ltac:(lia) e ltac:(lia) Hlen) as (blk & Eb & _). rewrite Eb in S1.
      match type of S1 with Some (_, ?x, _, _) = _ => assert (X : x = e1) by congruence end. now rewrite <- X. }
    assert (X : P1 = PPut bs (PFlush k)) by (destruct (Nat.eqb (e_ptr e) 0); [|destruct (flush_s bmi2 NB e)]; congruence). subst P1.
    cbn [s_proc s_act] in S2. assert (Y : P2 = PFlush k /\ e2 = e1) by (split; congruence). destruct Y as [-> ->].
    cbn [s_proc s_act]. unfold flush_s. destruct NB as [|NB']; cbn [flush_loop]; [reflexivity|]. now rewrite Z.
  - intros Hp P1 e1 o1 ch1 P2 e2 o2 ch2 S1 S2. cbn [r_proc r_act] in S1. destruct (Nat.eqb_spec (e_ptr e) 0); [lia|].
    assert (X : P1 = PPut bs (PFlush k) /\ e1 = flush_r NB e) by (split; congruence). destruct X as [-> ->].
    cbn [r_proc r_act] in S2. assert (Y : P2 = PFlush k /\ e2 = flush_r NB e) by (split; congruence). destruct Y as [-> ->]. reflexivity.
Qed.

(** ** hiding over the channel: fix the verifier's half of the correlations and any verifier program [V], and take two witnesses with the
    same outputs for which all relations hold.  Then every situation [t] of the channel, of both endpoints and of the verifier's program,
    after any number of steps, is reached by equally many choices of the prover's random bits with either witness: the choices are paired
    off one to one.  The seeds the prover has read are bytes, otherwise whatever [V] made up *)
Theorem C67_hiding : forall bs br reset NB gs gr r0 r1 key rkey d threads csz psz G H (RV : Type) (V : proc RV) prog k t ins ins',
  valid_keys key -> valid_rkeys rkey -> valid_delta d -> (forall l, length (H l) = 32) -> 1 <= psz -> wf_prog 0 prog = true ->
  session_ok threads csz (gates_of prog) ->
  Forall (Forall (fun b => (b < 256)%N)) (read_data (e_reads (fst (fst (fst (fst t)))))) ->
  bouts (bwith_inputs ins prog) = bouts (bwith_inputs ins' prog) ->
  all_hold (brels (bwith_inputs ins prog)) = true -> all_hold (brels (bwith_inputs ins' prog)) = true ->
  let R := reaching bs br reset NB gs gr r0 r1 key rkey d threads csz psz G H V prog k t in
  exists E, one_to_one (R ins) (R ins') E.
Proof.
  intros bs br reset NB gs gr r0 r1 key rkey d threads csz psz G H RV V prog k t ins ins' Hk Hr Hd HH Hp Wf Hok HB Ho Ha Ha'.
  exact (reach_one_to_one bs br reset NB gs gr r0 r1 key rkey d threads csz psz G H RV V prog k t Hk Hr Hd HH Hp Wf Hok HB ins ins' Ho Ha Ha').
Qed.
(** a verifier program that sends both seeds before anything else, out of turn, and then reads what arrives *)
Definition bw_spy : proc (list N) :=
  PPut (enc_block 77) (PPut (enc_block 3) (PGet 2 (fun x => PGet 32 (fun y => PGet 32 (fun z => PGet 32 (fun a => PGet 32 (fun h =>
    PDone (x ++ y ++ z ++ a ++ h)))))))).
Definition bw_hide : list bop :=
  [OGate (GIn true); OGate (GIn true); OGate (GIn false); OGate (GAnd 0 1); OPoly (BInn [0; 3] [2; 3] false); OGate (GXor 3 2);
   OPoly (BInn [1] [2] false); OGate (GReveal 4)].
Definition bw_key (i : nat) : N := if Nat.ltb i 5 then (2 * N.of_nat (i * i + 3 * i + 1))%N else 0%N.
Definition bw_start := n_init 8 (repeat true 8) (repeat false 8)
  (bprv_prog 11 12 (mac bw_key 5 (repeat false 132)) 1 2 1 (omac (fun _ _ => 0%N) 5 (repeat false 256)) PropWire.demo_G PropWire.demo_H bp_init
     (bwith_inputs [false; true; false] bw_hide)) bw_spy.
Definition bw_end := PropWire.play 100 true false true 8 bw_start.
Example C67_hiding_case :
  valid_keys bw_key /\ valid_delta 5 /\ wf_prog 0 bw_hide = true /\ session_ok 1 2 (gates_of bw_hide) /\
  bouts (bwith_inputs [false; true; false] bw_hide) = [false] /\ bouts (bwith_inputs [true; false; false] bw_hide) = [false] /\
  brels (bwith_inputs [false; true; false] bw_hide) = [false; false] /\ brels (bwith_inputs [true; false; false] bw_hide) = [false; false] /\
  (exists k, reaching true false true 8 (repeat true 8) (repeat false 8) 11 12 bw_key (fun _ _ => 0%N) 5 1 2 1 PropWire.demo_G PropWire.demo_H
     bw_spy bw_hide k (outside bw_end) [false; true; false] (repeat false 132, repeat false 256)) /\
  read_data (e_reads (n_s bw_end)) = [enc_block 77; enc_block 3] /\ (exists x, n_v bw_end = PDone x /\ length x = 130) /\
  (exists p, n_p bw_end = PDone (Some p)).
Proof.
  split; [intro i; unfold bw_key; destruct (Nat.ltb i 5); [apply N.testbit_even_0|reflexivity]|]. split; [split; reflexivity|]. split; [reflexivity|].
  split; [split; [lia|right; vm_compute; lia]|]. do 4 (split; [reflexivity|]). split.
  - destruct (PropWire.play_steps true false true 8 100 bw_start 0 bw_start (NRefl _ _ _ _ _)) as [k Hk].
    exists k. split; [vm_compute; reflexivity|]. split; [vm_compute; reflexivity|]. exists bw_end. split; [exact Hk|reflexivity].
  - split; [vm_compute; reflexivity|]. split; [eexists; split; [vm_compute; reflexivity|reflexivity]|eexists; vm_compute; reflexivity].
Qed.

(** ** a session with AND gates and all kinds of order between checks of the two queues meets the hypotheses *)
Definition bw_prog : list bop :=
  [OGate (GIn true); OGate (GIn false); OGate (GPub true); OPoly (BInn [0; 1] [2; 0] true); OGate (GAnd 0 2); OGate (GXor 3 1);
   OPoly (BInnEq [0; 3] [4; 1] [2] [2]); OGate (GAnd 4 0); OGate (GAnd 5 0); OGate (GReveal 4); OPoly (BDeg2 [0; 2] [1; 4] [true; true; true])].
Example C67_case :
  wf_prog 0 bw_prog = true /\ bouts bw_prog = [true] /\ brels bw_prog = [false; false; false] /\ count_and (gates_of bw_prog) = 3 /\ last_batch 2 3 = 1 /\
  roles 2 1 0 0 bw_prog = [true; false; true; true; false] /\ roles 2 2 0 0 bw_prog = [false; true; true; false].
Proof. vm_compute. repeat split. Qed.
(** a prover that guesses the key 5: told the seed, it answers the check of the false relation 1*1 = 0 so that a verifier with that key
    accepts, while any other key (here 7) reports cheating *)
Definition bw_false : list bop := [OGate (GPub true); OPoly (BInn [0] [0] false)].
Definition bw_cheat (A : N) : proc (option bprv) :=
  PAlign false (PGet 16 (fun x => PAlign true (PPut (enc2 (if N.eqb (dec_bytes x) 77 then A else 0%N, 0%N))
    (PAlign true (PPut (repeat 0%N 32) (PFlush (PDone None))))))).
Definition bw_net (d A : N) := n_init 8 (repeat true 8) (repeat false 8) (bw_cheat A)
  (bver_prog 11 12 (cot_key PropBool.demo_pM d) d 1 2 1 (fun _ => map (ot_key d) (repeat 0%N 128)) (fun _ => 77%N) PropWire.demo_G PropWire.demo_H bv_init bw_false).
Definition bw_result (d A : N) : option (bool * list (list N)) :=
  let n := PropWire.play 40 true false true 8 (bw_net d A) in
  match n_v n with PDone (Some (_, b)) => Some (b, read_data (e_reads (n_r n))) | _ => None end.
Example C67_cheat_case :
  let e := n_r (PropWire.play 40 true false true 8 (bw_net 5 4928)) in
  let cm := commit PropBool.demo_pM 2 (fun i => nth i (read_bits (e_reads e)) false) (gates_of bw_false) in
  wf_prog 0 bw_false = true /\ all_hold (brels (bwith_inputs (c_ins cm) bw_false)) = false /\
  bw_result 5 4928 = Some (false, [enc2 (4928, 0)%N; repeat 0%N 32]) /\
  bw_result 7 4928 = Some (true, [enc2 (4928, 0)%N; repeat 0%N 32]) /\
  nth_error (chunks 1 (committed_rels (c_wires cm) bw_false)) 0 = Some [true] /\ range_error 77 [true] = 77%N.
Proof. vm_compute. repeat split. Qed.
(** a computed honest run of [bw_prog] with two AND checks and three relation checks *)
Definition bw_pM (i : nat) : N := if Nat.ltb i 8 then N.of_nat (i * i + 3 * i + 1) else 0%N.
Example C67_run_case :
  let n := PropWire.play 200 true false true 8 (n_init 8 (repeat true 8) (repeat false 8)
    (bprv_prog 11 12 bw_pM 1 2 1 (fun _ => repeat 0%N 128) PropWire.demo_G PropWire.demo_H bp_init bw_prog)
    (bver_prog 11 12 (cot_key bw_pM 5) 5 1 2 1 (fun _ => map (ot_key 5) (repeat 0%N 128)) (fun k => (77 + N.of_nat k)%N) PropWire.demo_G PropWire.demo_H bv_init bw_prog)) in
  match n_p n, n_v n with
  | PDone (Some p), PDone (Some (v, b)) =>
      p_outs (bp_gates p) = [true] /\ v_outs (bv_gates v) = [true] /\ b = false /\ length (read_data (e_reads (n_r n))) = 6 /\
      length (read_data (e_reads (n_s n))) = 3 /\ length (e_digests (n_r n)) = 2 /\ n_sr n = [] /\ n_rs n = []
  | _, _ => False end.
Proof. vm_compute. repeat split. Qed.

Print Assumptions C67_honest_session.
Print Assumptions C67_session_completes.
Print Assumptions C67_result_from_transcript.
Print Assumptions C67_verifier_reveals_only_seeds.
Print Assumptions C67_soundness.
Print Assumptions C67_flush_after_data.
Print Assumptions C67_hiding.
