(** Property C69, arbitrary provers: the verifier of a session with both engines on one channel. *)
From Coq Require Import NArith List Bool Arith Lia.
From Verif Require Import Word FpModel ArithModel ArithSpec ArithThms4 BoolModel BoolSpec BoolThms BoolThms2 BoolIOModel BoolIOSpec BoolPolyModel BoolPolySpec BSessModel BSessSpec BSessThms
  WireModel WireNet WireProofs WireAny AWireModel XWireModel XWireSpec XWireThms XWireAny.
From Verif Require PropBool PropWire PropArith PropBWire PropAWire PropXWire.
Import ListNotations.

(** the data messages of one role among those an endpoint has read *)
Definition x_of (csz psz acsz apsz : nat) prog (e : ep) (r : xrole) : list (list N) :=
  xpick r (xroles csz psz acsz apsz 0 0 0 0 prog) (read_data (e_reads e)).
Definition x_words (of : xrole -> list (list N)) (k : nat) : N := dec_bytes (nth k (of RWord) []).
(** ** any prover program: the verifier's state is that of the two message-level sessions on exactly the bits and data its endpoint has
    read; which data message is what is a function of the program alone *)
Theorem C69_result_from_transcript :
  forall bs br reset NB gs gr r0 r1 vK d threads csz psz opek rseeds G H pub_mac vV ad acsz apsz AG AH coins (RP : Type) (P : proc RP) prog k n v b,
  1 <= csz -> 1 <= psz -> 1 <= acsz ->
  nsteps bs br reset NB k (n_init NB gs gr P (xver_prog r0 r1 vK d threads csz psz opek rseeds G H pub_mac vV ad acsz apsz AG AH coins xv_init prog)) n ->
  n_v n = PDone (Some (v, b)) ->
  let of := x_of csz psz acsz apsz prog (n_r n) in
  bv_exec r0 r1 vK d threads csz psz (fun j => G (nth j (e_digests (n_r n)) [])) rseeds opek
    (fun i => nth i (read_bits (e_reads (n_r n))) false) (fun j => dec2 (nth j (of RAnd) [])) (fun j => dec2 (nth j (of RRel) [])) (bcalls prog) = Some (xv_b v) /\
  av_exec pub_mac vV ad threads acsz apsz (fun j => AG (coins false j)) (coins true)
    (x_words of) (fun j => dec_pair (nth j (of RMul) [])) (fun j => dec_pair (nth j (of RPoly) [])) (acalls prog) = Some (xv_a v) /\
  av_outcome same_bytes AH (xv_a v) (nth 0 (of RDigA) []) = (false, av_cheat (xv_a v)) /\
  (b = false -> bv_finalize same_bytes H (xv_b v) (nth 0 (of RDigB) []) = false) /\
  xv_got v = of RData.
Proof.
  intros bs br reset NB gs gr r0 r1 vK d threads csz psz opek rseeds G H pub_mac vV ad acsz apsz AG AH coins RP P prog k n v b Hc Hp Hac Hn Hv of.
  pose proof (eat_done bs br reset NB gs gr P _ k n _ Hn Hv) as E.
  destruct (xe_ver r0 r1 vK d threads csz psz opek rseeds G H pub_mac vV ad acsz apsz AG AH coins Hc Hp Hac (read_bits (e_reads (n_r n))) of (e_digests (n_r n))
    prog xv_init v b (e_reads (n_r n)) (e_digests (n_r n)) eq_refl eq_refl) as (vb & va & A1 & A2 & A3 & A4 & A5 & A6 & A7 & A8); [|exact E|].
  { constructor; reflexivity. }
  split; [unfold bv_exec; cbn [xv_init xv_b] in A1; rewrite A1; exact A2|]. split; [change (x_words of) with (fun k => dec_bytes (nth k (of RWord) [])); unfold av_exec; cbn [xv_init xv_a] in A3; rewrite A3; exact A4|].
  split; [unfold av_outcome; now rewrite A5, A6|]. split; [|exact A8]. intros ->. symmetry in A7. now apply orb_false_elim in A7.
Qed.

(** ** one transcript, many keys *)
Definition xends bs br reset NB gs gr r0 r1 pM ope threads csz psz rseeds G H pub_mac pU pMac acsz apsz AG AH coins {RP : Type} (P : proc RP) prog
    (d ad : N) (e : ep) (v : xver) (b : bool) : Prop :=
  exists k n, nsteps bs br reset NB k (n_init NB gs gr P
      (xver_prog r0 r1 (cot_key pM d) d threads csz psz (fun k => map (ot_key d) (ope k)) rseeds G H pub_mac (vole_key pU pMac ad) ad acsz apsz AG AH coins xv_init prog)) n /\
    n_r n = e /\ n_v n = PDone (Some (v, b)).
Lemma xpick_in {A} r rl : forall (ds : list A) x, In x (xpick r rl ds) -> In x ds.
Proof.
  induction rl as [|r' rl IH]; intros [|y ds] x Hx; cbn [xpick] in Hx; try contradiction.
  destruct (xrole_eqb r r'); [destruct Hx as [->|Hx]; [now left|]|]; right; now apply IH.
Qed.
Lemma x_bytes csz psz acsz apsz prog e r k : Forall (Forall (fun b => (b < 256)%N)) (read_data (e_reads e)) ->
  Forall (fun b => (b < 256)%N) (nth k (x_of csz psz acsz apsz prog e r) []).
Proof.
  intro HB. destruct (le_lt_dec (length (x_of csz psz acsz apsz prog e r)) k) as [L|L]; [rewrite nth_overflow by exact L; constructor|].
  rewrite Forall_forall in HB. apply HB. eapply xpick_in. apply nth_In. exact L.
Qed.
(** the boolean engine: at most two of its keys, whatever the keys of the arithmetic engine *)
Theorem C69_bool_soundness : forall bs br reset NB gs gr r0 r1 pM ope threads csz psz rseeds G H pub_mac pU pMac acsz apsz AG AH coins
    (RP : Type) (P : proc RP) prog (e : ep) (deltas : list N),
  1 <= csz -> 1 <= psz -> 1 <= acsz -> NoDup deltas -> wf_prog 0 (bcalls prog) = true -> Forall (Forall (fun b => (b < 256)%N)) (read_data (e_reads e)) ->
  let ends := xends bs br reset NB gs gr r0 r1 pM ope threads csz psz rseeds G H pub_mac pU pMac acsz apsz AG AH coins P prog in
  let cm := commit pM csz (fun i => nth i (read_bits (e_reads e)) false) (gates_of (bcalls prog)) in
  let q := bwith_inputs (c_ins cm) (bcalls prog) in
  (forall d, In d deltas -> valid_delta d /\ exists ad v, ends d ad e v false /\ (v_outs (bv_gates (xv_b v)) <> bouts q \/ all_hold (brels q) = false)) ->
  length deltas <= 2 \/
  (exists k errs rs, nth_error (batches cm) k = Some errs /\ In true errs /\
     and_ranges threads (length errs) = Some rs /\ combined_error rs (G (nth k (e_digests e) [])) errs = 0%N) \/
  (exists k errs, nth_error (chunks psz (committed_rels (c_wires cm) (bcalls prog))) k = Some errs /\ In true errs /\
     range_error (rseeds k) errs = 0%N) \/
  (exists d1 d2 ad1 ad2 v1 v2, In d1 deltas /\ In d2 deltas /\ ends d1 ad1 e v1 false /\ ends d2 ad2 e v2 false /\
     v_hash (bv_gates (xv_b v1)) <> v_hash (bv_gates (xv_b v2)) /\ H (v_hash (bv_gates (xv_b v1))) = H (v_hash (bv_gates (xv_b v2)))).
Proof.
  intros bs br reset NB gs gr r0 r1 pM ope threads csz psz rseeds G H pub_mac pU pMac acsz apsz AG AH coins RP P prog e deltas Hc Hp Hac Hnd Wf HB E cm q Hd.
  set (of := x_of csz psz acsz apsz prog e).
  set (ex := fun d => bv_exec r0 r1 (cot_key pM d) d threads csz psz (fun j => G (nth j (e_digests e) [])) rseeds (fun k => map (ot_key d) (ope k))
    (fun i => nth i (read_bits (e_reads e)) false) (fun j => dec2 (nth j (of RAnd) [])) (fun j => dec2 (nth j (of RRel) [])) (bcalls prog)).
  assert (K : forall d ad v, E d ad e v false -> ex d = Some (xv_b v) /\ bv_finalize same_bytes H (xv_b v) (nth 0 (of RDigB) []) = false).
  { intros d ad v (k & n & Hn & He & Hv). unfold ex, of. subst e.
    destruct (C69_result_from_transcript bs br reset NB gs gr r0 r1 (cot_key pM d) d threads csz psz (fun k => map (ot_key d) (ope k)) rseeds G H
      pub_mac (vole_key pU pMac ad) ad acsz apsz AG AH coins RP P prog k n v false Hc Hp Hac Hn Hv) as (A & _ & _ & B & _). auto. }
  assert (RM : forall k, (fst (dec2 (nth k (of RRel) [])) < 2 ^ 128)%N).
  { intro k. apply PropBWire.dec2_lt. now apply x_bytes. }
  destruct (bsess_soundness r0 r1 pM ope threads csz psz (fun j => G (nth j (e_digests e) [])) rseeds
    (fun i => nth i (read_bits (e_reads e)) false) (fun j => dec2 (nth j (of RAnd) [])) (fun j => dec2 (nth j (of RRel) []))
    (list N) same_bytes H (nth 0 (of RDigB) []) (bcalls prog) deltas same_bytes_eq Hnd Hp Wf RM) as [A|[A|[A|A]]].
  - intros d Hin. destruct (Hd d Hin) as (V & ad & v & Ev & Ho). split; [exact V|]. exists (xv_b v). destruct (K _ _ _ Ev) as [K1 K2]. auto.
  - now left.
  - right. left. exact A.
  - right. right. left. exact A.
  - right. right. right. destruct A as (d1 & d2 & v1 & v2 & I1 & I2 & X1 & X2 & Hne & Heq).
    destruct (Hd d1 I1) as (_ & ad1 & w1 & W1 & _). destruct (Hd d2 I2) as (_ & ad2 & w2 & W2 & _).
    assert (xv_b w1 = v1) by (destruct (K _ _ _ W1) as [Y _]; unfold ex in Y; congruence).
    assert (xv_b w2 = v2) by (destruct (K _ _ _ W2) as [Y _]; unfold ex in Y; congruence). subst.
    exists d1, d2, ad1, ad2, w1, w2. auto 10.
Qed.
(** the arithmetic engine: at most four of its keys, whatever the keys of the boolean engine; the flag is the one after
    finalize_zk_arith *)
Theorem C69_arith_soundness : forall bs br reset NB gs gr r0 r1 pM ope threads csz psz rseeds G H pub_mac pU pMac acsz apsz AG AH coins
    (RP : Type) (P : proc RP) prog (e : ep) (deltas : list N),
  1 <= csz -> 1 <= psz -> 1 <= acsz -> NoDup deltas -> (pub_mac < prm)%N -> Forall wf_pub (acalls prog) -> (forall k, (coins true k < 2 ^ 64)%N) ->
  Forall (Forall (fun b => (b < 256)%N)) (read_data (e_reads e)) -> 
  let words := x_words (x_of csz psz acsz apsz prog e) in
  words_ok words 0 (acalls prog) ->
  let ends := xends bs br reset NB gs gr r0 r1 pM ope threads csz psz rseeds G H pub_mac pU pMac acsz apsz AG AH coins P prog in
  let cm := acommit pU acsz apsz words (acalls prog) in
  let q := aplain (awith_inputs (ac_ins cm) (acalls prog)) in
  (forall ad, In ad deltas -> (ad < prm)%N /\ exists d v b, ends d ad e v b /\ av_cheat (xv_a v) = false /\
     (map (fun w => (w mod prm)%N) (av_outs (xv_a v)) <> pl_outs q \/ pl_ok q = false)) ->
  length deltas <= 4 \/
  (exists k errs rs, nth_error (mul_batches cm) k = Some errs /\ (exists e, In e errs /\ e <> 0%N) /\
     a_ranges threads (length errs) = Some rs /\ a_combined rs (a_chal (fun j => AG (coins false j)) k) errs = 0%N) \/
  (exists k errs, nth_error (rel_batches cm) k = Some errs /\ (exists e, In e errs /\ e <> 0%N) /\
     a_combined [(0, length errs)] (fun _ => (coins true k mod prm)%N) errs = 0%N) \/
  (exists ad1 ad2 d1 d2 v1 v2 b1 b2, In ad1 deltas /\ In ad2 deltas /\ ends d1 ad1 e v1 b1 /\ ends d2 ad2 e v2 b2 /\
     av_hash (xv_a v1) <> av_hash (xv_a v2) /\ AH (av_hash (xv_a v1)) = AH (av_hash (xv_a v2))).
Proof.
  intros bs br reset NB gs gr r0 r1 pM ope threads csz psz rseeds G H pub_mac pU pMac acsz apsz AG AH coins RP P prog e deltas
    Hc Hp Hac Hnd Hpm Hwf Hc1 HB words Hw E cm q Hd.
  set (of := x_of csz psz acsz apsz prog e) in *.
  set (ex := fun ad => av_exec pub_mac (vole_key pU pMac ad) ad threads acsz apsz (fun j => AG (coins false j)) (coins true)
    words (fun j => dec_pair (nth j (of RMul) [])) (fun j => dec_pair (nth j (of RPoly) [])) (acalls prog)).
  assert (K : forall d ad v b, E d ad e v b -> ex ad = Some (xv_a v) /\ av_outcome same_bytes AH (xv_a v) (nth 0 (of RDigA) []) = (false, av_cheat (xv_a v))).
  { intros d ad v b (k & n & Hn & He & Hv). unfold ex, words, of. subst e.
    destruct (C69_result_from_transcript bs br reset NB gs gr r0 r1 (cot_key pM d) d threads csz psz (fun k => map (ot_key d) (ope k)) rseeds G H
      pub_mac (vole_key pU pMac ad) ad acsz apsz AG AH coins RP P prog k n v b Hc Hp Hac Hn Hv) as (_ & A & B & _). auto. }
  destruct (PropArith.C09_session_soundness pub_mac pU pMac threads acsz apsz (fun j => AG (coins false j)) (coins true)
    words (fun j => dec_pair (nth j (of RMul) [])) (fun j => dec_pair (nth j (of RPoly) [])) (list N) same_bytes AH (nth 0 (of RDigA) []) (acalls prog) deltas
    same_bytes_eq Hnd Hpm Hwf Hw Hc1) as [A|[A|[A|A]]].
  - intro k. unfold dec_pair. cbn [snd].
    assert (Z : forall r, Forall (fun b => (b < 256)%N) (skipn 8 (nth k (of r) []))).
    { intro r. pose proof (x_bytes csz psz acsz apsz prog e r k HB) as F. fold of in F. rewrite <- (firstn_skipn 8 (nth k (of r) [])) in F. now apply Forall_app in F. }
    split; apply PropAWire.first8_lt, Z.
  - intros ad Hin. destruct (Hd ad Hin) as (V & d & v & b & Ev & Ho & Hx). split; [exact V|]. exists (xv_a v). destruct (K _ _ _ _ Ev) as [K1 K2]. rewrite Ho in K2. auto.
  - now left.
  - right. left. exact A.
  - right. right. left. exact A.
  - right. right. right. destruct A as (a1 & a2 & v1 & v2 & I1 & I2 & X1 & X2 & Hne & Heq).
    destruct (Hd a1 I1) as (_ & d1 & w1 & b1 & W1 & _). destruct (Hd a2 I2) as (_ & d2 & w2 & b2 & W2 & _).
    assert (xv_a w1 = v1) by (destruct (K _ _ _ _ W1) as [Y _]; unfold ex in Y; congruence).
    assert (xv_a w2 = v2) by (destruct (K _ _ _ _ W2) as [Y _]; unfold ex in Y; congruence). subst.
    exists a1, a2, d1, d2, w1, w2, b1, b2. auto 15.
Qed.

(** ** concrete cases *)
Example C69_roles_case :
  xroles 2 1 2 2 0 0 0 0 PropXWire.x_prog = [RWord; RData; RWord; RWord; RAnd; RDigB; RPoly; RMul; RDigA] /\
  xroles 1 1 1 1 0 0 0 0 [XA (AMul 0 0); XB (OGate (GAnd 0 0)); XA (AMul 0 0); XB (OGate (GAnd 0 0)); XA (AInner [0] [0] 1); XA (AInner [0] [0] 1)] =
    [RWord; RMul; RWord; RAnd; RPoly; RAnd; RDigB; RPoly; RMul; RDigA].
Proof. split; reflexivity. Qed.
(** a prover that claims 1 + x * x = 0 for its input and answers the challenge so that the keys 5 and 6 accept: the roles of its
    messages, what it has committed to, and its results for three keys *)
Definition x_cheat : proc unit :=
  PAlign true (PPut (enc64 0) (PPut (PropWire.demo_H []) (PFlush (PGet 8 (fun _ =>
    PPut (enc_pair (prm - 3502, prm - 1136)%N) (PPut (PropWire.demo_H []) (PFlush (PDone tt)))))))).
Definition x_end (ad : N) := PropWire.play 60 true false true 8 (n_init 8 (repeat true 8) (repeat false 8) x_cheat
  (xver_prog 11 12 (cot_key PropXWire.x_pM 5) 5 1 2 1 (fun _ => map (ot_key 5) (repeat 0%N 128)) (fun k => N.of_nat k) PropWire.demo_G PropWire.demo_H
     77 (vole_key PropXWire.x_U PropXWire.x_M ad) ad 2 2 PropXWire.x_G PropWire.demo_H PropXWire.x_coins xv_init PropXWire.x_late)).
Definition x_flag (ad : N) : option (bool * bool) := match n_v (x_end ad) with PDone (Some (v, b)) => Some (b, av_cheat (xv_a v)) | _ => None end.
Example C69_cheat_case :
  let e := n_r (x_end 6) in
  let words := x_words (x_of 2 1 2 2 PropXWire.x_late e) in
  let cm := acommit PropXWire.x_U 2 2 words (acalls PropXWire.x_late) in
  x_flag 5 = Some (false, false) /\ x_flag 6 = Some (false, false) /\ x_flag 7 = Some (false, true) /\ n_r (x_end 5) = e /\
  words_ok words 0 (acalls PropXWire.x_late) /\ Forall wf_pub (acalls PropXWire.x_late) /\
  ac_ins cm = [4%N] /\ rel_batches cm = [[17%N]] /\ pl_ok (aplain (awith_inputs (ac_ins cm) (acalls PropXWire.x_late))) = false /\
  x_of 2 1 2 2 PropXWire.x_late e RPoly = [enc_pair (prm - 3502, prm - 1136)%N].
Proof.
  split; [vm_compute; reflexivity|]. split; [vm_compute; reflexivity|]. split; [vm_compute; reflexivity|]. split; [vm_compute; reflexivity|].
  split; [vm_compute; repeat split; discriminate|]. split; [repeat (apply Forall_cons; [cbn; repeat split; repeat constructor|]); constructor|].
  repeat split; vm_compute; reflexivity.
Qed.

Print Assumptions C69_result_from_transcript.
Print Assumptions C69_bool_soundness.
Print Assumptions C69_arith_soundness.
