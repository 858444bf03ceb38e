(** Property C69: sessions with both engines on one channel: the condition of [C69_hiding] on the batch challenges of the arithmetic
    relation proofs is needed. *)
From Coq Require Import NArith List Bool Arith Lia.
From Verif Require Import Word FpModel ArithModel ArithSpec HideSpec AHideSpec BoolModel BoolSpec BoolIOModel BoolIOSpec BoolPolyModel BoolPolySpec BSessModel BSessSpec BSessHideSpec
  WireModel WireNet WireAny AWireModel BWireSpec BWireHideSpec XWireModel XWireThms XWireHideSpec XWireLeak.
From Verif Require PropXWireHide.
Import ListNotations.
Local Open Scope N_scope.
Ltac Zify.zify_post_hook ::= idtac.

(** ** a session with a private bit b and private field elements x, y with x * y = 0, where y = 0, against [x_spy], which sends the batch
    challenge 7 * 2^61 and compares the second word of the answer with p: every complete run tells whether x is 0 or 1, whatever the
    prover's randomness in both engines, if the key of y is at least 4p/7 *)
Theorem C69_unreduced_challenge_refuted : forall bs br reset NB gs gr r0 r1 pM ope threads csz psz G H pub_mac key d acsz apsz AG AH u0 u1 u2 b x,
  (1 <= NB)%nat -> length gs = NB -> (forall l, length (H l) = 32%nat) -> (forall l, length (AH l) = 32%nat) -> canon u0 -> canon u1 -> canon u2 -> x <= 1 ->
  let us := [u0; u1; u2] in
  let answer := if 4 * prm <=? 7 * ((key 2%nat + u1 * d) mod prm) then Some (x =? 1) else None in
  exists bound, forall k n,
    nsteps bs br reset NB k (n_init NB gs gr
      (xprv_prog r0 r1 pM threads csz psz ope G H pub_mac (vole_block (val_of us) (mac_of key d us)) acsz apsz AG AH xp_init (xwith_inputs ([b], [x; 0]) x_leak))
      (x_spy (key 2%nat) d)) n ->
    (k <= bound)%nat /\ ((exists n', nstep bs br reset NB n n') \/ n_v n = PDone answer).
Proof.
  intros bs br reset NB gs gr r0 r1 pM ope threads csz psz G H pub_mac key d acsz apsz AG AH u0 u1 u2 b x HN Hg HH HA H0 H1 H2 Hx us answer.
  exact (x_leak_all bs br reset NB gs gr r0 r1 pM ope threads csz psz G H pub_mac key d acsz apsz AG AH u0 u1 u2 HN Hg HH HA H0 H1 H2 b x Hx).
Qed.

(** ** so a situation is reached with the witness (b, 0, 0) and with no choice of randomness, in either engine, for a witness (b', 1, 0) *)
Lemma done_stays {RP RV} bs br reset NB (n n' : @net RP RV) r : nstep bs br reset NB n n' -> n_v n = PDone r -> n_v n' = PDone r.
Proof. intros St E. destruct St; cbn [n_v] in *; [exact E|]. subst. discriminate. Qed.
Lemma x_finish {RP RV} bs br reset NB bound (n0 : @net RP RV) (Q : proc RV -> Prop) :
  (forall k n, nsteps bs br reset NB k n0 n -> (k <= bound)%nat /\ ((exists n', nstep bs br reset NB n n') \/ Q (n_v n))) ->
  forall k n, nsteps bs br reset NB k n0 n -> exists k' n', nsteps bs br reset NB k' n0 n' /\ Q (n_v n') /\ (forall r, n_v n = PDone r -> n_v n' = PDone r).
Proof.
  intros HQ k n Hn. remember (bound - k)%nat as m eqn:Em. revert k n Hn Em. induction m as [m IH] using lt_wf_ind. intros k n Hn Em.
  destruct (HQ k n Hn) as [Hk [(n1 & St)|X]]; [|exists k, n; auto].
  assert (Hn1 : nsteps bs br reset NB (S k) n0 n1) by (econstructor; [exact Hn|exact St]).
  destruct (HQ _ _ Hn1) as [Hk1 _]. destruct (IH (bound - S k)%nat ltac:(lia) (S k) n1 Hn1 eq_refl) as (k' & n' & A & B & C).
  exists k', n'. split; [exact A|]. split; [exact B|]. intros r Er. apply C. eapply done_stays; eassumption.
Qed.
Theorem C69_hiding_needs_reduced_refuted : forall bs br reset NB gs gr r0 r1 key rkey dl threads csz psz G H pub_mac akey d acsz apsz AG AH u ru u0 u1 u2 b,
  (1 <= NB)%nat -> length gs = NB -> (forall l, length (H l) = 32%nat) -> (forall l, length (AH l) = 32%nat) -> canon u0 -> canon u1 -> canon u2 ->
  length u = entropy csz (gates_of (bcalls x_leak)) -> length ru = rel_entropy psz (bcalls x_leak) -> (1 <= acsz)%nat -> (1 <= apsz)%nat ->
  4 * prm <= 7 * ((akey 2%nat + u1 * d) mod prm) ->
  let R := xreaching bs br reset NB gs gr r0 r1 key rkey dl threads csz psz G H pub_mac akey d acsz apsz AG AH (x_spy (akey 2%nat) d) x_leak in
  exists k t, R k t ([b], [0; 0]) (u, ru, [u0; u1; u2]) /\ forall b' k' w, ~ R k' t ([b'], [1; 0]) w.
Proof.
  intros bs br reset NB gs gr r0 r1 key rkey dl threads csz psz G H pub_mac akey d acsz apsz AG AH u ru u0 u1 u2 b HN Hg HH HA H0 H1 H2 Lu Lr Hc Hp HK R.
  assert (He : aentropy acsz apsz (acalls x_leak) = 3%nat) by (unfold aentropy; cbn; now rewrite Nat.div_small by lia).
  destruct (x_leak_all bs br reset NB gs gr r0 r1 (mac key dl u) (omac rkey dl ru) threads csz psz G H pub_mac akey d acsz apsz AG AH u0 u1 u2 HN Hg HH HA H0 H1 H2 b 0 ltac:(discriminate))
    as [bound HQ].
  pose proof (x_finish bs br reset NB bound _ (fun v => v = _) HQ 0 _ (NRefl _ _ _ _ _)) as (k & n & Hn & Ev & _).
  exists k, (outside n). split.
  - split; [exact Lu|]. split; [exact Lr|]. split; [rewrite He; split; [reflexivity|repeat constructor; assumption]|]. exists n. split; [exact Hn|reflexivity].
  - intros b' k' [[w1 w2] w3] (_ & _ & Fu & n' & Hn' & Et). rewrite He in Fu. destruct Fu as [Lw Cu].
    destruct w3 as [|a0 [|a1 [|a2 [|]]]]; try discriminate Lw. inversion_clear Cu as [|? ? C0 Cu']. inversion_clear Cu' as [|? ? C1 Cu'']. inversion_clear Cu'' as [|? ? C2 _].
    destruct (x_leak_all bs br reset NB gs gr r0 r1 (mac key dl w1) (omac rkey dl w2) threads csz psz G H pub_mac akey d acsz apsz AG AH a0 a1 a2 HN Hg HH HA C0 C1 C2 b' 1 ltac:(discriminate))
      as [bound' HQ'].
    destruct (x_finish bs br reset NB bound' _ (fun v => v = _) HQ' k' n' Hn') as (k2 & n2 & _ & E2 & Keep).
    assert (E1 : n_v n' = n_v n) by (change (snd (fst (fst (fst (outside n')))) = snd (fst (fst (fst (outside n))))); now rewrite Et).
    unfold answer in Ev, E2. apply N.leb_le in HK. rewrite HK in Ev. rewrite Ev in E1. rewrite (Keep _ E1) in E2. change (0 =? 1) with false in E2. change (1 =? 1) with true in E2.
    destruct (4 * prm <=? 7 * ((akey 2%nat + a1 * d) mod prm)); discriminate E2.
Qed.
(** the two witnesses meet the other conditions of [C69_hiding], and the conditions on the keys can be met *)
Example C69_leak_case :
  wf_prog 0 (bcalls x_leak) = true /\ session_ok 1 2 (gates_of (bcalls x_leak)) /\ asession_ok 1 2 2 (acalls x_leak) /\
  bouts (bwith_inputs [true] (bcalls x_leak)) = bouts (bwith_inputs [false] (bcalls x_leak)) /\
  all_hold (brels (bwith_inputs [true] (bcalls x_leak))) = true /\ all_hold (brels (bwith_inputs [false] (bcalls x_leak))) = true /\
  witness (acalls x_leak) [0; 0] [] /\ witness (acalls x_leak) [1; 0] [] /\
  entropy 2 (gates_of (bcalls x_leak)) = length [true] /\ rel_entropy 1 (bcalls x_leak) = length (@nil bool) /\
  akeys_ok (fun _ => prm - 1) 5 /\ 4 * prm <= 7 * (((fun _ : nat => prm - 1) 2%nat + 0 * 5) mod prm).
Proof.
  split; [reflexivity|]. split; [split; [lia|left; reflexivity]|].
  split; [split; [lia|]; split; [lia|]; split; [lia|]; split; repeat (apply Forall_cons; [cbn; repeat split; repeat constructor|]); constructor|].
  do 3 (split; [reflexivity|]).
  split; [split; [reflexivity|]; split; [repeat constructor|]; split; vm_compute; reflexivity|].
  split; [split; [reflexivity|]; split; [repeat constructor|]; split; vm_compute; reflexivity|].
  split; [reflexivity|]. split; [reflexivity|].
  split; [split; [intro|]; reflexivity|]. vm_compute. discriminate.
Qed.

Print Assumptions C69_unreduced_challenge_refuted.
Print Assumptions C69_hiding_needs_reduced_refuted.
