(** Property C45: the arithmetic engine over the real channel, with the verifier's challenges drawn during the run. *)
From Coq Require Import NArith List Bool Arith Lia.
From Verif Require Import Word FpModel ArithModel ArithSpec ArithThms3 ArithThms4 WireModel WireProofs WireAny AWireModel AWireNet AWireProofs AWireAny AWireFix.
From Verif Require PropArith PropWire.
Import ListNotations.
Local Open Scope N_scope.

(** ** honest parties: no interleaving of the two programs gets stuck, every run is finite, and every complete run returns
    the plain outputs on both sides, records no cheating, and leaves both channels and both send buffers empty.
    Either NetIO's receive delivers the send buffer first, or the circuit has no polynomial relation *)
Theorem C45_honest_session : forall auto coins pub_mac pU pMac d threads csz psz G H c,
  vole_ok pU pMac -> pub_mac < prm -> d < prm ->
  (forall k, coins false k < 2 ^ 128) -> (forall k, coins true k < 2 ^ 64) ->
  Forall wf_honest c -> pl_ok (aplain c) = true -> (forall l, length (H l) = 32%nat) ->
  (1 <= threads <= 32)%nat -> (1 <= csz)%nat -> auto = true \/ no_poly c ->
  exists (bound : nat) (p : apst) (v : avst),
    ap_outs p = pl_outs (aplain c) /\ av_outs v = pl_outs (aplain c) /\ av_cheat v = false /\
    forall k n,
      msteps auto coins k (m_init (ap_prog pub_mac (vole_block pU pMac) threads csz psz G H ap_init c)
                                  (av_prog pub_mac (vole_key pU pMac d) d threads csz psz G H av_init c)) n ->
      (k <= bound)%nat /\
      ((exists n', pstep auto coins n n') \/
       (m_p n = QDone (Some p) /\ m_v n = QDone (VEnd v) /\ m_ps n = [] /\ m_vs n = [] /\ m_pv n = [] /\ m_vp n = [])).
Proof.
  intros auto coins pub_mac pU pMac d threads csz psz G H c Hvo Hpm Hd Hc0 Hc1 Hwf Hok HH Ht Hcsz Ha.
  set (seeds := fun k => G (coins false k)).
  destruct (exec_defined pub_mac (vole_block pU pMac) threads csz psz seeds (coins true) Ht c) as [p Ep].
  destruct (session_complete pub_mac pU pMac threads csz psz seeds (coins true) c p d Hvo Hpm Hc1 Hwf Ep Hd) as (_ & O1 & v & Ev & O2 & _ & A).
  specialize (A Hok (list N) same_bytes H same_bytes_refl). unfold av_outcome in A. injection A as A1 A2.
  apply orb_false_elim in A1. destruct A1 as [A1 A3]. apply negb_false_iff in A3.
  destruct (p_exec pub_mac pU pMac threads csz psz seeds (coins true) Hvo Hpm Hc1
    (fun k => nth k (ap_words p) 0) (fun k => nth k (ap_msgs p) (0, 0)) (fun k => nth k (ap_pmsgs p) (0, 0)) c p Hwf Ep) as (s & Es & Sx).
  { split; [|split]; apply agree_nth. }
  assert (W : forall k, nth k (ap_words p) 0 < 2 ^ 64).
  { intro k. eapply N.lt_trans; [apply nth_small, (ps_wl _ _ _ Sx)|reflexivity]. }
  destruct (lock_session pub_mac (vole_block pU pMac) (vole_key pU pMac d) d threads csz psz G H coins Hc0 _ _ _ Hcsz p
    (agree_nth _ _) (agree_nth _ _) (agree_nth _ _) W c v (HH _) A3 Ep Ev A1) as (rd & bound & Hk).
  exists bound, p, v. split; [exact O1|]. split; [exact O2|]. split; [exact A2|]. intros k n Hn.
  destruct (every_schedule auto coins _ _ bound _ _ rd _ _ (cl_prog _ _ _ _ _ _ _ _ _) (fl_prog _ _ _ _ _ _ _ _ Hcsz _ _ _)
    (vfl_prog _ _ _ _ _ _ _ _ _ Hcsz c av_init (match Ha with or_introl e => or_introl e | or_intror e => or_intror (conj e eq_refl) end)) Hk k n Hn) as [B [X|X]].
  - split; [exact B|]. now left.
  - split; [exact B|]. right. subst n. repeat split.
Qed.

(** ** the polynomial batch check relies on that: FpPolyProof::batch_check sends the challenge and waits for the answer
    without a flush (polynomial.h:62-70).  If receiving does not deliver the send buffer, both parties wait for ever *)
Lemma mcons {RP RV} auto coins k (n n1 n2 : @anet RP RV) : mstep auto coins n n1 -> msteps auto coins k n1 n2 -> msteps auto coins (S k) n n2.
Proof. intros X Y. induction Y; [econstructor; [constructor|exact X]|econstructor; eauto]. Qed.
Definition poly_circuit : list agate := [APub 1; APoly [0%nat] [0%nat] [prm - 1; 1]].
Theorem C45_missing_flush_refuted : forall coins pub_mac pV vK d threads csz psz G H,
  exists k n p v, msteps false coins k (m_init (ap_prog pub_mac pV threads csz psz G H ap_init poly_circuit)
                                               (av_prog pub_mac vK d threads csz psz G H av_init poly_circuit)) n /\
    m_p n = QGet AtPSeed 8 p /\ m_v n = QGet AtPoly 16 v /\ length (m_vs n) = 8%nat /\ forall n', ~ pstep false coins n n'.
Proof.
  intros. 
  assert (Ev : exists v, av_prog pub_mac vK d threads csz psz G H av_init poly_circuit = av_batch_prog vK d v (av_end vK d threads G H)) by (destruct psz; eexists; reflexivity).
  assert (Epv : exists p, ap_prog pub_mac pV threads csz psz G H ap_init poly_circuit = ap_batch_prog pV p (ap_end pV threads G H)) by (destruct psz; eexists; reflexivity).
  destruct Ev as [v ->], Epv as [p ->]. do 4 eexists. split.
  - unfold m_init. do 2 (eapply mcons; [eapply MProg, MP; reflexivity|]). eapply mcons; [eapply MProg, MV; reflexivity|].
    eapply mcons; [eapply MProg, MC1|]. do 2 (eapply mcons; [eapply MProg, MV; reflexivity|]). apply MRefl.
  - cbn [m_p m_v m_vs]. split; [reflexivity|]. split; [reflexivity|]. split; [reflexivity|].
    intros n' X. inversion X; subst; try discriminate; cbn [aact] in *; try discriminate.
Qed.
Example C45_missing_flush_case : Forall wf_honest poly_circuit /\ pl_ok (aplain poly_circuit) = true /\ ~ no_poly poly_circuit.
Proof.
  split; [repeat (apply Forall_cons; [split; cbn; repeat split; repeat constructor|]); constructor|]. split; [vm_compute; reflexivity|].
  intro X. inversion X as [|a l _ Y]; subst. inversion Y as [|b l' Z _]; subst. discriminate Z.
Qed.

(** ** any prover program: when the verifier stops, its result is that of the message-level session on exactly the words,
    messages and digest it has read and the coins of the run *)
Definition session_of pub_mac vK d threads csz psz (G : N -> nat -> N) (coins : bool -> nat -> N) (reads : list (site * list N)) c : option avst :=
  av_exec pub_mac vK d threads csz psz (fun j => G (coins false j)) (coins true) (words_of reads) (chk_of reads) (pchk_of reads) c.
Theorem C45_result_from_transcript : forall auto coins pub_mac vK d threads csz psz G H (RP : Type) (P : aproc RP) c k n r,
  (1 <= csz)%nat ->
  msteps auto coins k (m_init P (av_prog pub_mac vK d threads csz psz G H av_init c)) n -> m_v n = QDone r ->
  let res := session_of pub_mac vK d threads csz psz G coins (m_reads n) c in
  match r with
  | VEnd v => res = Some v /\ av_outcome same_bytes H v (dig_of (m_reads n)) = (false, av_cheat v)
  | VError => forall v, res = Some v -> fst (av_outcome same_bytes H v (dig_of (m_reads n))) = true
  | VUndef => res = None
  end.
Proof.
  intros auto coins pub_mac vK d threads csz psz G H RP P c k n r Hc Hn Hv res.
  pose proof (eat_end auto coins P _ k n r Hn Hv) as E.
  assert (X : says H (m_reads n) res r).
  { refine (eat_ver pub_mac vK d threads csz psz G H coins Hc (m_reads n) c av_init (m_reads n) r eq_refl _ E). split; reflexivity. }
  unfold says in X. destruct r as [| |v]; [exact X| |].
  - intros v Ev. unfold av_outcome. cbn [fst]. destruct (X v Ev) as [->| ->]; [reflexivity|]. apply orb_true_r.
  - destruct X as (X1 & X2 & X3). split; [exact X1|]. unfold av_outcome. now rewrite X2, X3.
Qed.

(** ** a challenge is not used before it is drawn: a run does not depend on the coins drawn after it *)
Theorem C45_no_anticipation : forall auto coins coins' (RP RV : Type) (P : aproc RP) (V : aproc RV) k n,
  msteps auto coins k (m_init P V) n ->
  (forall i, (i < m_c0 n)%nat -> coins' false i = coins false i) -> (forall i, (i < m_c1 n)%nat -> coins' true i = coins true i) ->
  msteps auto coins' k (m_init P V) n.
Proof. intros. eapply steps_coins; eauto. Qed.

Lemma reads_at_app t a b : reads_at t (a ++ b) = reads_at t a ++ reads_at t b.
Proof. induction a as [|[u x] a IH]; [reflexivity|]. cbn [app reads_at]. rewrite IH. now destruct (site_eqb u t). Qed.
(** ** when a challenge is drawn, the errors it is to hide are already determined: every continuation, with any coins
    and against any prover, has the same batch of errors *)
Theorem C45_commitment_before_challenge : forall auto coins pub_mac vK d threads csz psz G H pU (RP : Type) (P : aproc RP) c k n b q,
  (1 <= csz)%nat ->
  msteps auto coins k (m_init P (av_prog pub_mac vK d threads csz psz G H av_init c)) n -> m_v n = QCoin b q ->
  let batch reads := nth_error (if b then rel_batches (acommit pU csz psz (words_of reads) c) else mul_batches (acommit pU csz psz (words_of reads) c))
                               (if b then m_c1 n else m_c0 n) in
  exists errs, errs <> [] /\ batch (m_reads n) = Some errs /\
    forall coins' k' n', msteps auto coins' k' n n' -> batch (m_reads n') = Some errs.
Proof.
  intros auto coins pub_mac vK d threads csz psz G H pU RP P c k n b q Hc Hn Hv batch.
  pose proof (walk_coin auto coins P _ k n b q Hn Hv) as W.
  assert (K : forall w', (forall i, (i < length (reads_at AtWord (m_reads n)))%nat -> words_of (m_reads n) i = w' i) ->
    exists errs, errs <> [] /\ nth_error (batches_of b (acommit pU csz psz (words_of (m_reads n)) c)) (if b then m_c1 n else m_c0 n) = Some errs /\
      nth_error (batches_of b (acommit pU csz psz w' c)) (if b then m_c1 n else m_c0 n) = Some errs).
  { intros w' Hw. exact (fixed_batch pub_mac vK d threads csz psz G H coins pU Hc c av_init _ (m_reads n) b q _ _ _ w'
      (Build_corr av_init ac_init eq_refl eq_refl eq_refl eq_refl eq_refl) W Hw). }
  destruct (K (words_of (m_reads n)) (fun _ _ => eq_refl)) as (errs & Hne & E1 & _).
  exists errs. split; [exact Hne|]. split; [unfold batch; destruct b; exact E1|]. intros coins' k' n' Hn'.
  destruct (steps_later auto coins' k' n n' Hn') as ((t & Ht) & _).
  destruct (K (words_of (m_reads n'))) as (errs' & _ & E2 & E3).
  { intros i Hi. unfold words_of. rewrite Ht, reads_at_app, app_nth1 by exact Hi. reflexivity. }
  assert (errs' = errs) by congruence. subst errs'. unfold batch. destruct b; exact E3.
Qed.

(** ** what the prover sees does not depend on the verifier's keys until one of the verifiers stops with an error *)
Theorem C45_key_only_decides_stop : forall auto coins pub_mac pub_mac' vK vK' d d' threads csz psz G H (RP : Type) (P : aproc RP) c k n,
  (1 <= csz)%nat ->
  msteps auto coins k (m_init P (av_prog pub_mac vK d threads csz psz G H av_init c)) n ->
  exists j n1 n1', (j <= k)%nat /\
    msteps auto coins j (m_init P (av_prog pub_mac vK d threads csz psz G H av_init c)) n1 /\
    msteps auto coins j (m_init P (av_prog pub_mac' vK' d' threads csz psz G H av_init c)) n1' /\
    m_p n1' = m_p n1 /\ m_ps n1' = m_ps n1 /\ m_vs n1' = m_vs n1 /\ m_pv n1' = m_pv n1 /\ m_vp n1' = m_vp n1 /\ m_reads n1' = m_reads n1 /\
    (n1 = n \/ m_v n1 = QDone VError \/ m_v n1' = QDone VError).
Proof.
  intros auto coins pub_mac pub_mac' vK vK' d d' threads csz psz G H RP P c k n Hc Hn.
  destruct (twin_steps auto coins P _ _ k n (ver_atwin pub_mac pub_mac' vK vK' d d' threads csz psz G H Hc c av_init av_init (conj eq_refl eq_refl)) Hn)
    as (j & n1 & n1' & L & R1 & R2 & (A1 & A2 & A3 & A4 & A5 & A6 & _) & X).
  exists j, n1, n1'. repeat (split; [assumption|]). destruct X as [(_ & -> & _)|[X|X]]; auto.
Qed.

(** ** soundness over the channel.  [ends d reads v]: against the prover program [P], a run with key d whose verifier has read
    [reads] ends normally in state v.  The corrections of inputs and products are at most p *)
Definition ends auto coins pub_mac pU pMac threads csz psz G H {RP : Type} (P : aproc RP) c (d : N) (reads : list (site * list N)) (v : avst) : Prop :=
  exists k n, msteps auto coins k (m_init P (av_prog pub_mac (vole_key pU pMac d) d threads csz psz G H av_init c)) n /\
    m_reads n = reads /\ m_v n = QDone (VEnd v).
Lemma dec_bytes_lt l : Forall (fun b => b < 256) l -> dec_bytes l < 2 ^ (8 * N.of_nat (length l)).
Proof.
  induction l as [|b l IH]; intro F; [reflexivity|]. inversion_clear F as [|? ? F1 F2]. cbn [dec_bytes length]. specialize (IH F2).
  replace (8 * N.of_nat (S (length l))) with (8 + 8 * N.of_nat (length l)) by lia. rewrite N.pow_add_r. change (2 ^ 8) with 256. nia.
Qed.
Lemma first8_lt l : Forall (fun b => b < 256) l -> dec_bytes (firstn 8 l) < 2 ^ 64.
Proof.
  intro F. eapply N.lt_le_trans; [apply dec_bytes_lt; rewrite <- (firstn_skipn 8 l) in F; apply Forall_app in F; apply F|].
  apply N.pow_le_mono_r; [discriminate|]. rewrite firstn_length. lia.
Qed.
Lemma Forall_nth_d {A} (Q : A -> Prop) l d i : Forall Q l -> Q d -> Q (nth i l d).
Proof. intros F Hd. revert i. induction F; intros [|i]; cbn [nth]; auto. Qed.
Lemma reads_bytes t l i : Forall (fun r => Forall (fun b => b < 256) (snd r)) l -> Forall (fun b => b < 256) (nth i (reads_at t l) []).
Proof.
  intro F. apply Forall_nth_d; [|constructor]. induction F as [|[u x] l F1 _ IH]; cbn [reads_at]; [constructor|].
  destruct (site_eqb u t); [constructor; auto|exact IH].
Qed.
Theorem C45_soundness : forall auto coins pub_mac pU pMac threads csz psz G H (RP : Type) (P : aproc RP) c reads (deltas : list N),
  (1 <= csz)%nat -> NoDup deltas -> pub_mac < prm -> Forall wf_pub c -> (forall k, coins true k < 2 ^ 64) ->
  Forall (fun r => Forall (fun b => b < 256) (snd r)) reads -> words_ok (words_of reads) 0 c ->
  let ends := ends auto coins pub_mac pU pMac threads csz psz G H P c in
  let cm := acommit pU csz psz (words_of reads) c in
  let q := aplain (awith_inputs (ac_ins cm) c) in
  (forall d, In d deltas -> d < prm /\ exists v, ends d reads v /\ av_cheat v = false /\
     (map (fun w => w mod prm) (av_outs v) <> pl_outs q \/ pl_ok q = false)) ->
  (length deltas <= 4)%nat \/
  (exists k errs rs, nth_error (mul_batches cm) k = Some errs /\ (exists e, In e errs /\ e <> 0) /\
     a_ranges threads (length errs) = Some rs /\ a_combined rs (a_chal (fun j => G (coins false j)) k) errs = 0) \/
  (exists k errs, nth_error (rel_batches cm) k = Some errs /\ (exists e, In e errs /\ e <> 0) /\
     a_combined [(0%nat, length errs)] (fun _ => coins true k mod prm) errs = 0) \/
  (exists d1 d2 v1 v2, In d1 deltas /\ In d2 deltas /\ ends d1 reads v1 /\ ends d2 reads v2 /\
     av_hash v1 <> av_hash v2 /\ H (av_hash v1) = H (av_hash v2)).
Proof.
  intros auto coins pub_mac pU pMac threads csz psz G H RP P c reads deltas Hc Hnd Hpm Hwf Hc1 Hb Hw E cm q Hd.
  set (ex := fun d => session_of pub_mac (vole_key pU pMac d) d threads csz psz G coins reads c).
  assert (K : forall d v, E d reads v -> ex d = Some v /\ av_outcome same_bytes H v (dig_of reads) = (false, av_cheat v)).
  { intros d v (k & n & Hn & He & Hv). subst reads.
    exact (C45_result_from_transcript auto coins pub_mac (vole_key pU pMac d) d threads csz psz G H RP P c k n (VEnd v) Hc Hn Hv). }
  destruct (PropArith.C09_session_soundness pub_mac pU pMac threads csz psz (fun j => G (coins false j)) (coins true)
    (words_of reads) (chk_of reads) (pchk_of reads) (list N) same_bytes H (dig_of reads) c deltas same_bytes_eq Hnd Hpm Hwf Hw Hc1) as [A|[A|[A|A]]].
  - intro k. unfold chk_of, pchk_of, dec_pair. cbn [snd].
    assert (Z : forall t, Forall (fun b => b < 256) (skipn 8 (nth k (reads_at t reads) []))).
    { intro t. pose proof (reads_bytes t reads k Hb) as F. rewrite <- (firstn_skipn 8 (nth k (reads_at t reads) [])) in F. now apply Forall_app in F. }
    split; apply first8_lt, Z.
  - intros d Hin. destruct (Hd d Hin) as (V & v & Ev & Ho & Hx). split; [exact V|]. exists v. destruct (K _ _ Ev) as [K1 K2]. rewrite Ho in K2. auto.
  - now left.
  - right. left. exact A.
  - right. right. left. exact A.
  - right. right. right. destruct A as (d1 & d2 & v1 & v2 & I1 & I2 & X1 & X2 & Hne & Heq).
    destruct (Hd d1 I1) as (_ & w1 & W1 & _). destruct (Hd d2 I2) as (_ & w2 & W2 & _).
    assert (w1 = v1) by (destruct (K _ _ W1) as [Y _]; unfold ex, session_of in Y; congruence).
    assert (w2 = v2) by (destruct (K _ _ W2) as [Y _]; unfold ex, session_of in Y; congruence). subst.
    exists d1, d2, v1, v2. auto 10.
Qed.

(** ** computed runs.  One scheduler: the verifier moves when it can, otherwise the prover *)
Fixpoint play {RP RV : Type} (fuel : nat) auto coins (n : @anet RP RV) : anet :=
  match fuel with
  | O => n
  | S f =>
      let prover := match aact auto (m_p n) (m_ps n) (m_vp n) with
        | Some (P', ps', o, vp', _) => play f auto coins {| m_p := P'; m_v := m_v n; m_ps := ps'; m_vs := m_vs n; m_pv := m_pv n ++ o; m_vp := vp';
                                                           m_reads := m_reads n; m_c0 := m_c0 n; m_c1 := m_c1 n |}
        | None => n end in
      match m_v n with
      | QCoin false k => play f auto coins {| m_p := m_p n; m_v := k (coins false (m_c0 n)); m_ps := m_ps n; m_vs := m_vs n; m_pv := m_pv n; m_vp := m_vp n;
                                              m_reads := m_reads n; m_c0 := S (m_c0 n); m_c1 := m_c1 n |}
      | QCoin true k => play f auto coins {| m_p := m_p n; m_v := k (coins true (m_c1 n)); m_ps := m_ps n; m_vs := m_vs n; m_pv := m_pv n; m_vp := m_vp n;
                                             m_reads := m_reads n; m_c0 := m_c0 n; m_c1 := S (m_c1 n) |}
      | V => match aact auto V (m_vs n) (m_pv n) with
             | Some (V', vs', o, pv', r) => play f auto coins {| m_p := m_p n; m_v := V'; m_ps := m_ps n; m_vs := vs'; m_pv := pv'; m_vp := m_vp n ++ o;
                                                                m_reads := m_reads n ++ r; m_c0 := m_c0 n; m_c1 := m_c1 n |}
             | None => prover end
      end
  end.
Lemma play_steps {RP RV} auto coins fuel : forall (n : @anet RP RV) k m, msteps auto coins k m n ->
  exists k', msteps auto coins k' m (play fuel auto coins n).
Proof.
  induction fuel as [|f IH]; intros n k m Hn; [eauto|]. destruct n as [P V ps vs pv vp rd c0 c1]. cbn [play m_p m_v m_ps m_vs m_pv m_vp m_reads m_c0 m_c1].
  assert (X : exists k', msteps auto coins k' m (match aact auto P ps vp with
        | Some (P', ps', o, vp', _) => play f auto coins {| m_p := P'; m_v := V; m_ps := ps'; m_vs := vs; m_pv := pv ++ o; m_vp := vp';
                                                           m_reads := rd; m_c0 := c0; m_c1 := c1 |}
        | None => {| m_p := P; m_v := V; m_ps := ps; m_vs := vs; m_pv := pv; m_vp := vp; m_reads := rd; m_c0 := c0; m_c1 := c1 |} end)).
  { destruct (aact auto P ps vp) as [[[[[P' ps'] o] vp'] r]|] eqn:E; [|eauto]. eapply IH. econstructor; [exact Hn|]. eapply MProg, MP; exact E. }
  assert (Y : exists k', msteps auto coins k' m (match aact auto V vs pv with
             | Some (V', vs', o, pv', r) => play f auto coins {| m_p := P; m_v := V'; m_ps := ps; m_vs := vs'; m_pv := pv'; m_vp := vp ++ o;
                                                                m_reads := rd ++ r; m_c0 := c0; m_c1 := c1 |}
             | None => match aact auto P ps vp with
        | Some (P', ps', o, vp', _) => play f auto coins {| m_p := P'; m_v := V; m_ps := ps'; m_vs := vs; m_pv := pv ++ o; m_vp := vp';
                                                           m_reads := rd; m_c0 := c0; m_c1 := c1 |}
        | None => {| m_p := P; m_v := V; m_ps := ps; m_vs := vs; m_pv := pv; m_vp := vp; m_reads := rd; m_c0 := c0; m_c1 := c1 |} end end)).
  { destruct (aact auto V vs pv) as [[[[[V' vs'] o] pv'] r]|] eqn:E; [|exact X]. eapply IH. econstructor; [exact Hn|]. eapply MProg, MV; exact E. }
  destruct V as [v|bs q|t len q|q|[|] q]; try exact Y.
  - eapply IH. econstructor; [exact Hn|]. apply MProg, MC1.
  - eapply IH. econstructor; [exact Hn|]. apply MProg, MC0.
Qed.
Definition demo_coins (b : bool) (k : nat) : N :=
  if b then (N.of_nat (13 * k + 7) * 987654321987654321) mod 2 ^ 64 else (N.of_nat (77 * k + 5) * 123456789123456789123456789) mod 2 ^ 128.
Definition demo_G (s : N) (i : nat) : N := (s * 31 + N.of_nat i * 1000003) mod 2 ^ 128.
Definition demo_net c (P : aproc (option apst)) :=
  m_init P (av_prog 77 (vole_key PropArith.demo_U PropArith.demo_M PropArith.demo_d) PropArith.demo_d 2 2 2 demo_G PropWire.demo_H av_init c).
(** an honest session with two multiplication checks and two polynomial checks *)
Example C45_case :
  let c := PropArith.demo_c in
  let n := play 300 true demo_coins (demo_net c (ap_prog 77 (vole_block PropArith.demo_U PropArith.demo_M) 2 2 2 demo_G PropWire.demo_H ap_init c)) in
  (forall k, demo_coins false k < 2 ^ 128) /\ (forall k, demo_coins true k < 2 ^ 64) /\ (forall l, length (PropWire.demo_H l) = 32%nat) /\
  match m_p n, m_v n with
  | QDone (Some p), QDone (VEnd v) =>
      ap_outs p = [0; 225] /\ av_outs v = [0; 225] /\ av_cheat v = false /\ m_c0 n = 2%nat /\ m_c1 n = 2%nat /\ m_pv n = [] /\ m_vp n = []
  | _, _ => False end.
Proof.
  split; [intro k; apply N.mod_lt; discriminate|]. split; [intro k; apply N.mod_lt; discriminate|]. split; [intro l; apply enc2_len|].
  vm_compute. repeat split; reflexivity.
Qed.
(** without delivery on receive the same session stops half-way *)
Example C45_stuck_case :
  let c := PropArith.demo_c in
  let n := play 300 false demo_coins (demo_net c (ap_prog 77 (vole_block PropArith.demo_U PropArith.demo_M) 2 2 2 demo_G PropWire.demo_H ap_init c)) in
  match m_p n, m_v n with
  | QGet AtPSeed 8 _, QGet AtPoly 16 _ => m_c1 n = 1%nat /\ length (m_vs n) = 8%nat /\ m_vp n = []
  | _, _ => False end.
Proof. vm_compute. repeat split; reflexivity. Qed.
(** a prover program that claims 2 * 2 = 5 and opens 5: when the challenge is drawn the error is p - 1, and the verifier
    stops before it reads the digest *)
Definition cheat_prog : aproc (option apst) :=
  QPut (enc64 (PropArith.cheat_words 0)) (QPut (enc64 (PropArith.cheat_words 1)) (QPut (enc64 (PropArith.cheat_words 2)) (QFlush
    (QGet AtSeed 16 (fun _ => QPut (enc_pair (0, 0)) (QPut (repeat 0 32) (QFlush (QDone None)))))))).
Example C45_cheat_case :
  let c := [AIn 0; AMul 0 0; AReveal 1] in
  let n := play 100 true demo_coins (demo_net c cheat_prog) in
  m_v n = QDone VError /\ mul_batches (acommit PropArith.demo_U 2 2 (words_of (m_reads n)) c) = [[prm - 1]] /\
  words_ok (words_of (m_reads n)) 0 c /\ reads_at AtDigest (m_reads n) = [].
Proof.
  split; [vm_compute; reflexivity|]. split; [vm_compute; reflexivity|]. split; [vm_compute; repeat split; discriminate|vm_compute; reflexivity].
Qed.
(** the moment before the challenge *)
Example C45_challenge_case :
  let c := [AIn 0; AMul 0 0; AReveal 1] in
  let n := play 8 true demo_coins (demo_net c cheat_prog) in
  match m_v n with QCoin false _ => m_c0 n = 0%nat /\ length (reads_at AtWord (m_reads n)) = 3%nat | _ => False end.
Proof. vm_compute. split; reflexivity. Qed.

Print Assumptions C45_honest_session.
Print Assumptions C45_missing_flush_refuted.
Print Assumptions C45_result_from_transcript.
Print Assumptions C45_no_anticipation.
Print Assumptions C45_commitment_before_challenge.
Print Assumptions C45_key_only_decides_stop.
Print Assumptions C45_soundness.
