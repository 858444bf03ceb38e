(** Property C68: the arithmetic engine over the real channel against any verifier program: the witness stays hidden as long as the batch
    challenges of the relation proofs are reduced, and does not if one is not. *)
From Coq Require Import NArith List Bool Arith Lia.
From Coq Require Import ZArith Znumtheory Ring.
From Verif Require Import Word FpModel FpProofs Prime61 ArithModel ArithSpec HideSpec AHideSpec WireModel WireProofs BWireHideSpec AWireModel AWireHideSpec AWireNet AWireProofs AWireHide AWireLeak.
From Verif Require PropWire PropAWire PropHide.
Import ListNotations.
Local Open Scope N_scope.
Ltac Zify.zify_post_hook ::= idtac.
Add Ring fp_ring_awh : fp_rt.

(** ** hiding: fix the verifier's half of the correlations and any verifier program [V], and take two witnesses with the same outputs.
    Then every situation [t] of the channel, of the send buffers and of the verifier's program, after any number of steps, in which the
    batch challenges read by the prover are reduced, is reached by equally many choices of the prover's random field elements with either
    witness: the choices are paired off one to one.  The other challenges are any bytes [V] made up *)
Theorem C68_hiding : forall auto coins pub_mac key d threads csz psz G H (RV : Type) (V : aproc RV) c k t ins ins' outs,
  canon pub_mac -> akeys_ok key d -> asession_ok threads csz psz c -> witness c ins outs -> witness c ins' outs ->
  Forall (fun r => Forall (fun b => b < 256) (snd r)) (t_log t) -> reduced (t_log t) ->
  let R := areaching auto coins pub_mac key d threads csz psz G H V c k t in
  exists E, one_to_one (R ins) (R ins') E.
Proof.
  intros auto coins pub_mac key d threads csz psz G H RV V c k t ins ins' outs Hpm Hkd Hok W W' HB HR.
  exact (areach_one_to_one auto coins pub_mac key d threads csz psz G H RV V c k t Hpm Hkd Hok HB HR ins ins' outs W W').
Qed.

(** ** FpPolyProof::batch_check uses the received challenge as it is.  For x * y = 0 and y = 0, against the program [spy], which sends the
    challenge 7 * 2^61 and compares the second word of the answer with p: every complete run tells whether x is 0 or 1, whatever the
    prover's random elements, if the key of y is at least 4p/7 *)
Theorem C68_unreduced_challenge_refuted : forall auto coins pub_mac key d threads csz psz G H u0 u1 u2 x,
  canon u0 -> canon u1 -> canon u2 -> (forall l, length (H l) = 32%nat) -> (1 <= csz)%nat -> x <= 1 ->
  let us := [u0; u1; u2] in
  let answer := if 4 * prm <=? 7 * ((key 2%nat + u1 * d) mod prm) then Some (x =? 1) else None in
  exists bound, forall k n,
    msteps auto coins k (m_init (ap_prog pub_mac (vole_block (val_of us) (mac_of key d us)) threads csz psz G H ap_init (awith_inputs [x; 0] leak_circuit))
                                (spy (key 2%nat) d)) n ->
    (k <= bound)%nat /\ ((exists n', pstep auto coins n n') \/ m_v n = QDone answer).
Proof.
  intros auto coins pub_mac key d threads csz psz G H u0 u1 u2 x H0 H1 H2 HH Hc Hx us answer.
  exact (leak_all auto coins pub_mac key d threads csz psz G H u0 u1 u2 Hc HH H0 H1 H2 x Hx).
Qed.

(** ** so the condition of [C68_hiding] is needed: a situation that is reached with the witness (0, 0) and with no choice of random
    elements for the witness (1, 0) *)
Lemma log_exists {RP RV} auto coins k (n n' : @anet RP RV) : msteps auto coins k n n' -> exists l, lsteps auto coins k l n n'.
Proof. induction 1 as [n|k n n1 n2 _ [l IH] S]; [exists []; constructor|]. eexists. econstructor; [exact IH|exact S]. Qed.
Lemma log_run {RP RV} auto coins k l (n n' : @anet RP RV) : lsteps auto coins k l n n' -> msteps auto coins k n n'.
Proof. induction 1; [constructor|econstructor; eauto]. Qed.
Lemma finish {RP RV} auto coins bound (n0 : @anet RP RV) (Q : aproc RV -> Prop) :
  (forall k n, msteps auto coins k n0 n -> (k <= bound)%nat /\ ((exists n', pstep auto coins n n') \/ Q (m_v n))) ->
  forall k n, msteps auto coins k n0 n -> exists k' n', msteps auto coins k' n0 n' /\ Q (m_v n') /\ (forall r, m_v n = QDone r -> m_v n' = QDone r).
Proof.
  intros HQ k n Hn. remember (bound - k)%nat as m eqn:Em. revert k n Hn Em. induction m as [m IH] using lt_wf_ind. intros k n Hn Em.
  destruct (HQ k n Hn) as [Hk [(n1 & St)|X]]; [|exists k, n; auto].
  assert (Hn1 : msteps auto coins (S k) n0 n1) by (econstructor; [exact Hn|now apply MProg]).
  destruct (HQ _ _ Hn1) as [Hk1 _]. destruct (IH (bound - S k)%nat ltac:(lia) (S k) n1 Hn1 eq_refl) as (k' & n' & A & B & C).
  exists k', n'. split; [exact A|]. split; [exact B|]. intros r Er. apply C. destruct St; cbn [m_v] in *; try exact Er; subst; discriminate.
Qed.
Theorem C68_hiding_needs_reduced_refuted : forall auto coins pub_mac key d threads csz psz G H u0 u1 u2,
  canon u0 -> canon u1 -> canon u2 -> (forall l, length (H l) = 32%nat) -> (1 <= csz)%nat -> (1 <= psz)%nat ->
  4 * prm <= 7 * ((key 2%nat + u1 * d) mod prm) ->
  exists k t, areaching auto coins pub_mac key d threads csz psz G H (spy (key 2%nat) d) leak_circuit k t [0; 0] [u0; u1; u2] /\
    forall k' u, ~ areaching auto coins pub_mac key d threads csz psz G H (spy (key 2%nat) d) leak_circuit k' t [1; 0] u.
Proof.
  intros auto coins pub_mac key d threads csz psz G H u0 u1 u2 H0 H1 H2 HH Hc Hp HK.
  assert (He : aentropy csz psz leak_circuit = 3%nat) by (unfold aentropy; cbn; now rewrite Nat.div_small by lia).
  destruct (leak_all auto coins pub_mac key d threads csz psz G H u0 u1 u2 Hc HH H0 H1 H2 0 ltac:(discriminate)) as [bound HQ].
  pose proof (finish auto coins bound _ (fun v => v = _) HQ 0 _ (MRefl _ _ _)) as (k & n & Hn & Ev & _).
  destruct (log_exists _ _ _ _ _ Hn) as [l Hl]. exists k, (situation_of l n). split.
  - split; [rewrite He; split; [reflexivity|repeat constructor; assumption]|]. exists l, n. split; [exact Hl|reflexivity].
  - intros k' u (Fu & l' & n' & Hn' & Et). rewrite He in Fu. destruct Fu as [Lu Cu].
    destruct u as [|a0 [|a1 [|a2 [|]]]]; try discriminate Lu. inversion_clear Cu as [|? ? C0 Cu']. inversion_clear Cu' as [|? ? C1 Cu'']. inversion_clear Cu'' as [|? ? C2 _].
    destruct (leak_all auto coins pub_mac key d threads csz psz G H a0 a1 a2 Hc HH C0 C1 C2 1 ltac:(discriminate)) as [bound' HQ'].
    apply log_run in Hn'. destruct (finish auto coins bound' _ (fun v => v = _) HQ' k' n' Hn') as (k2 & n2 & _ & E2 & Keep).
    assert (E1 : m_v n' = m_v n) by (change (t_v (situation_of l' n') = t_v (situation_of l n)); now rewrite Et).
    apply N.leb_le in HK. rewrite HK in Ev. rewrite Ev in E1. rewrite (Keep _ E1) in E2. change (0 =? 1) with false in E2. change (1 =? 1) with true in E2.
    destruct (4 * prm <=? 7 * ((key 2%nat + a1 * d) mod prm)); discriminate E2.
Qed.
(** ** how often: if d is not 0, the choices of u1 for which the program learns x are paired off with the words that are at least 4p/7,
    whatever the key.  So it learns x for 3 in 7 choices *)
Lemma inverse d : d < PR -> d <> 0 -> exists e, e < PR /\ pmul (toF d) (toF e) = p1.
Proof.
  intros Hd H0. assert (R : Znumtheory.rel_prime (Z.of_N d) zp).
  { apply Znumtheory.rel_prime_le_prime; [exact zp_prime|]. change zp with (Z.of_N PR). clear - Hd H0. lia. }
  destruct (Znumtheory.rel_prime_bezout _ _ R) as [u w E]. exists (Z.to_N (u mod zp)%Z).
  assert (B : (0 <= u mod zp < zp)%Z) by (apply Z.mod_pos_bound; reflexivity).
  split; [apply N2Z.inj_lt; rewrite Z2N.id by apply B; apply B|].
  rewrite <- toF_mul. apply toF_eq. apply N2Z.inj. rewrite !N2Z.inj_mod, N2Z.inj_mul, Z2N.id by apply B.
  change (Z.of_N PR) with zp. rewrite Z.mul_mod_idemp_r by discriminate. change (Z.of_N 1) with 1%Z. rewrite <- E.
  rewrite Z.mul_comm, Z.mod_add by discriminate. reflexivity.
Qed.
Theorem C68_leak_frequency : forall key d, canon key -> canon d -> d <> 0 ->
  one_to_one (fun u1 => canon u1 /\ 4 * prm <= 7 * ((key + u1 * d) mod prm)) (fun y => canon y /\ 4 * prm <= 7 * y)
    (fun u1 y => canon u1 /\ (key + u1 * d) mod prm = y).
Proof.
  intros key d Hk Hd H0. change prm with PR in *. unfold canon in *. change prm with PR in *.
  destruct (inverse d Hd H0) as (e & He & Ee).
  assert (L : forall z, z mod PR < PR) by (intro; apply N.mod_lt; discriminate).
  split; [|split; [|split]].
  - intros u (Hu & Hy). exists ((key + u * d) mod PR). split; [split; [apply L|exact Hy]|]. split; [exact Hu|reflexivity].
  - intros y (Hy & Hb). exists (((y + (PR - key)) * e) mod PR).
    assert (X : (key + ((y + (PR - key)) * e) mod PR * d) mod PR = y).
    { apply toF_inj; [apply L|exact Hy|]. rewrite toF_mod, toF_add, toF_mul, toF_mod, toF_mul.
      transitivity (padd (toF key) (pmul (toF (y + (PR - key))) (pmul (toF d) (toF e)))); [ring|]. rewrite Ee.
      transitivity (toF (key + (y + (PR - key)))); [rewrite (toF_add key); ring|]. replace (key + (y + (PR - key))) with (y + PR) by (clear - Hk; lia).
      rewrite toF_add, toF_PR. ring. }
    split; [split; [apply L|rewrite X; exact Hb]|split; [apply L|exact X]].
  - intros u y y' [_ A] [_ B]. congruence.
  - intros u u' y [Hu A] [Hu' B]. rewrite <- B in A. apply toF_eq in A. rewrite !toF_add, !toF_mul in A.
    apply toF_inj; [exact Hu|exact Hu'|].
    assert (C : pmul (toF u) (pmul (toF d) (toF e)) = pmul (toF u') (pmul (toF d) (toF e))).
    { transitivity (psub (pmul (padd (toF key) (pmul (toF u) (toF d))) (toF e)) (pmul (toF key) (toF e))); [ring|]. rewrite A. ring. }
    rewrite Ee in C. transitivity (pmul (toF u) p1); [ring|]. rewrite C. ring.
Qed.
Example C68_leak_frequency_case : let u1 := prm - 1 in canon u1 /\ 4 * prm <= 7 * ((3 + u1 * 5) mod prm) /\ ~ 4 * prm <= 7 * ((3 + 1 * 5) mod prm).
Proof. split; [reflexivity|split; [discriminate|]]. intro H. now apply H. Qed.
Example C68_leak_case : asession_ok 1 2 2 leak_circuit /\ witness leak_circuit [0; 0] [] /\ witness leak_circuit [1; 0] [] /\
  akeys_ok (fun _ => prm - 1) 5 /\ 4 * prm <= 7 * (((fun _ : nat => prm - 1) 2%nat + 0 * 5) mod prm).
Proof.
  split; [split; [lia|]; split; [lia|]; split; [lia|]; split; repeat (apply Forall_cons; [cbn; repeat split; repeat constructor|]); constructor|].
  split; [split; [reflexivity|]; split; [repeat constructor|]; split; vm_compute; reflexivity|].
  split; [split; [reflexivity|]; split; [repeat constructor|]; split; vm_compute; reflexivity|].
  split; [split; [intro|]; reflexivity|]. vm_compute. discriminate.
Qed.

(** ** a session with multiplications, openings and relations against a program that sends its three challenges out of turn, before
    anything else, meets the hypotheses of [C68_hiding] *)
Definition early_spy : aproc (list N) :=
  QPut (enc_block 77) (QPut (enc64 9) (QPut (enc_block 3) (QFlush
    (QGet AtWord 48 (fun a => QGet AtCheck 16 (fun b => QGet AtWord 8 (fun c => QGet AtPoly 16 (fun e => QGet AtCheck 16 (fun f => QGet AtDigest 32 (fun h =>
      QDone (a ++ b ++ c ++ e ++ f ++ h))))))))))).
(** one scheduler: the verifier moves when it can, otherwise the prover *)
Definition sched1 {RP RV} auto (n : @anet RP RV) : option (@anet RP RV) :=
  match aact auto (m_v n) (m_vs n) (m_pv n) with
  | Some (V', vs', o, pv', r) => Some {| m_p := m_p n; m_v := V'; m_ps := m_ps n; m_vs := vs'; m_pv := pv'; m_vp := m_vp n ++ o; m_reads := m_reads n ++ r; m_c0 := m_c0 n; m_c1 := m_c1 n |}
  | None => match aact auto (m_p n) (m_ps n) (m_vp n) with
            | Some (P', ps', o, vp', _) => Some {| m_p := P'; m_v := m_v n; m_ps := ps'; m_vs := m_vs n; m_pv := m_pv n ++ o; m_vp := vp'; m_reads := m_reads n; m_c0 := m_c0 n; m_c1 := m_c1 n |}
            | None => None end
  end.
Fixpoint log_play {RP RV} (fuel : nat) auto (l : list (site * list N)) (n : @anet RP RV) : list (site * list N) * @anet RP RV :=
  match fuel with
  | O => (l, n)
  | S f => match sched1 auto n with Some n' => log_play f auto (l ++ prover_reads n n') n' | None => (l, n) end
  end.
Lemma sched1_step {RP RV} auto coins (n n' : @anet RP RV) : sched1 auto n = Some n' -> mstep auto coins n n'.
Proof.
  destruct n as [P V ps vs pv vp rd c0 c1]. unfold sched1. cbn [m_p m_v m_ps m_vs m_pv m_vp m_reads m_c0 m_c1].
  destruct (aact auto V vs pv) as [[[[[V' vs'] o] pv'] r]|] eqn:E; [intro X; injection X as <-; eapply MProg, MV; exact E|].
  destruct (aact auto P ps vp) as [[[[[P' ps'] o] vp'] r]|] eqn:E'; [intro X; injection X as <-; eapply MProg, MP; exact E'|discriminate].
Qed.
Lemma log_play_steps {RP RV} auto coins fuel : forall k l (m n : @anet RP RV), lsteps auto coins k l m n ->
  exists k', lsteps auto coins k' (fst (log_play fuel auto l n)) m (snd (log_play fuel auto l n)).
Proof.
  induction fuel as [|f IH]; intros k l m n Hn; [eauto|]. cbn [log_play]. destruct (sched1 auto n) as [n'|] eqn:E; [|eauto].
  eapply IH. econstructor; [exact Hn|]. now apply sched1_step.
Qed.
Definition ah_us : list N := [5; 6; 7; 8; 9; 10; 11; 12].
Definition ah_start := m_init (ap_prog 77 (vole_block (val_of ah_us) (mac_of PropHide.ha_key PropHide.ha_d ah_us)) 1 2 2 PropAWire.demo_G PropWire.demo_H ap_init
                                       (awith_inputs [3; 4] PropHide.ha_circuit)) early_spy.
Definition ah_end := log_play 100 true [] ah_start.
Example C68_hiding_case :
  canon 77 /\ akeys_ok PropHide.ha_key PropHide.ha_d /\ asession_ok 1 2 2 PropHide.ha_circuit /\
  witness PropHide.ha_circuit [3; 4] [12] /\ witness PropHide.ha_circuit [4; 3] [12] /\
  (exists k, areaching true PropAWire.demo_coins 77 PropHide.ha_key PropHide.ha_d 1 2 2 PropAWire.demo_G PropWire.demo_H early_spy PropHide.ha_circuit k
     (situation_of (fst ah_end) (snd ah_end)) [3; 4] ah_us) /\
  fst ah_end = [(AtSeed, enc_block 77); (AtPSeed, enc64 9); (AtSeed, enc_block 3)] /\
  Forall (fun r => Forall (fun b => b < 256) (snd r)) (fst ah_end) /\ reduced (fst ah_end) /\
  (exists x, m_v (snd ah_end) = QDone x /\ length x = 136%nat) /\ (exists p, m_p (snd ah_end) = QDone (Some p)).
Proof.
  destruct PropHide.C40_arith_example as (A1 & _ & A3 & A4 & A5 & A6 & A7 & _). do 5 (split; [assumption|]).
  assert (L : fst ah_end = [(AtSeed, enc_block 77); (AtPSeed, enc64 9); (AtSeed, enc_block 3)]) by (vm_compute; reflexivity).
  split; [|split; [exact L|rewrite L]].
  - destruct (log_play_steps true PropAWire.demo_coins 100 0 [] ah_start ah_start (LRefl _ _ _)) as [k Hk]. exists k.
    split; [rewrite A5; split; [reflexivity|repeat constructor]|]. exists (fst ah_end), (snd ah_end). split; [exact Hk|reflexivity].
  - split; [repeat constructor|]. split; [|split; [eexists; split; [vm_compute; reflexivity|reflexivity]|eexists; vm_compute; reflexivity]].
    repeat (apply Forall_cons; [intro X; try discriminate X; vm_compute; reflexivity|]). constructor.
Qed.

Print Assumptions C68_hiding.
Print Assumptions C68_unreduced_challenge_refuted.
Print Assumptions C68_hiding_needs_reduced_refuted.
Print Assumptions C68_leak_frequency.
