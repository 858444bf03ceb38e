(** Property C46: programs whose control flow depends on opened values. *)
From Coq Require Import NArith List Bool Arith Lia Ring.
From Verif Require Import Word FpModel FpProofs Prime61 ArithModel ArithSpec ArithProofs ArithShadow ArithThms4 BoolModel BoolSpec ClientModel ClientSpec ClientProofs.
From Verif Require PropArith PropBool.
Import ListNotations.
Local Open Scope N_scope.
Add Ring fp_ring : fp_rt.

(** ** honest parties, field programs: both parties follow the plain execution, both get its outputs, the session is
    accepted if all its relations hold *)
Theorem C46_honest_field_program :
  forall pub_mac pU pMac d threads csz psz seeds pseeds (cl : fp_prog),
  vole_ok pU pMac -> pub_mac < prm -> d < prm -> (forall k, pseeds k < 2 ^ 64) -> (1 <= threads <= 32)%nat ->
  let q := fp_plain [] pl_init cl in
  Forall wf_honest (fp_taken (pl_outs q) cl) ->
  exists p v,
    ap_client pub_mac threads csz psz seeds pseeds (vole_block pU pMac) cl = Some p /\
    av_client pub_mac threads csz psz seeds pseeds (vole_key pU pMac d) d
      (fun k => nth k (ap_words p) 0) (fun k => nth k (ap_msgs p) (0, 0)) (fun k => nth k (ap_pmsgs p) (0, 0)) cl = Some v /\
    ap_outs p = pl_outs q /\ av_outs v = pl_outs q /\ map hi64 (ap_w p) = pl_w q /\ Forall2 (share_ok d) (ap_w p) (av_w v) /\
    (pl_ok q = true -> forall (D : Type) (Deqb : D -> D -> bool) (H : list N -> D),
      (forall a, Deqb a a = true) -> av_outcome Deqb H v (H (ap_hash p)) = (false, false)).
Proof.
  intros pub_mac pU pMac d threads csz psz seeds pseeds cl Hv Hpm Hd Hps Ht q Hwf.
  destruct (plain_taken cl [] pl_init) as (t & E1 & E2). fold q in E1, E2. cbn [pl_init pl_outs app] in E1. subst t.
  set (c := fp_taken (pl_outs q) cl) in *.
  assert (Eq : aplain c = q).
  { unfold aplain. rewrite <- E2. f_equal. clear. generalize c. induction c0 as [|g c0 IH]; [reflexivity|]. cbn [awith_inputs]. rewrite <- IH. now destruct g. }
  destruct (exec_defined pub_mac (vole_block pU pMac) threads csz psz seeds pseeds Ht c) as [p Ep].
  destruct (session_complete pub_mac pU pMac threads csz psz seeds pseeds c p d Hv Hpm Hps Hwf Ep Hd) as (W & O1 & v & Ev & O2 & F & A).
  rewrite Eq in *. exists p, v. split; [now apply (taken_ap_client _ _ _ _ _ _ _ _ _ (pl_outs q))|].
  split; [now apply (taken_av_client _ _ _ _ _ _ _ _ _ _ _ _ _ (pl_outs q))|]. auto 10.
Qed.

(** ** honest parties, bit programs *)
Theorem C46_honest_bit_program :
  forall r0 r1 pM d threads csz seeds (cl : bit_prog),
  valid_delta d -> (1 <= threads)%nat -> (threads <= csz)%nat ->
  let outs := bit_outputs [] cl in
  let n := count_and (bit_taken outs cl) in (n = 0 \/ threads <= last_batch csz n)%nat ->
  exists p v,
    prv_client r0 r1 threads csz seeds pM cl = Some p /\
    ver_client r0 r1 threads csz seeds (cot_key pM d) d (fun i => nth i (p_bits p) false) (fun k => nth k (p_msgs p) (0, 0)) cl = Some v /\
    p_outs p = outs /\ v_outs v = outs /\
    forall (D : Type) (Deqb : D -> D -> bool) (H : list N -> D), (forall a, Deqb a a = true) -> ver_finalize Deqb H v (H (p_hash p)) = false.
Proof.
  intros r0 r1 pM d threads csz seeds cl Hd H1 H2 outs n Hn.
  destruct (bit_plain_taken cl [] [] []) as (t & E1 & E2). cbn [app] in E1. change (outs = t) in E1. subst t.
  set (c := bit_taken outs cl) in *.
  assert (Eq : plain_outputs c = outs).
  { assert (W : forall c0, with_inputs [] c0 = c0) by (induction c0 as [|g c0 IH]; [reflexivity|]; cbn [with_inputs]; rewrite IH; now destruct g).
    rewrite W in E2. unfold plain_outputs. fold c in E2. now rewrite E2. }
  destruct (proj2 (PropBool.C04_defined_iff r0 r1 pM threads csz seeds c H1 H2) Hn) as [p Ep].
  destruct (PropBool.C04_honest_session_accepts r0 r1 pM threads csz seeds unit (fun _ _ => true) (fun _ => tt) c p d (fun _ => eq_refl) Hd Ep) as (v & Ev & O1 & O2 & _).
  rewrite Eq in *. exists p, v. split; [now apply (taken_prv_client _ _ _ _ _ _ _ _ outs)|]. split; [now apply (taken_ver_client _ _ _ _ _ _ _ _ _ _ _ outs)|].
  split; [exact O2|]. split; [exact O1|]. intros D Deqb H Hr.
  destruct (PropBool.C04_honest_session_accepts r0 r1 pM threads csz seeds D Deqb H c p d Hr Hd Ep) as (v' & Ev' & _ & _ & A). congruence.
Qed.

(** ** any prover: what the verifier's program is told, hence the branches it takes, does not depend on its key *)
Theorem C46_branches_independent_of_key :
  (forall pub_mac threads csz psz seeds pseeds vK vK' d d' words chk pchk (cl : fp_prog) v v',
    av_client pub_mac threads csz psz seeds pseeds vK d words chk pchk cl = Some v ->
    av_client pub_mac threads csz psz seeds pseeds vK' d' words chk pchk cl = Some v' -> av_outs v = av_outs v') /\
  (forall r0 r1 threads csz seeds vK vK' d d' bits chk (cl : bit_prog) v v',
    ver_client r0 r1 threads csz seeds vK d bits chk cl = Some v ->
    ver_client r0 r1 threads csz seeds vK' d' bits chk cl = Some v' -> v_outs v = v_outs v').
Proof.
  split.
  - intros pub_mac threads csz psz seeds pseeds vK vK' d d' words chk pchk cl v v'. unfold av_client.
    destruct (c_run _ _ _ _ av_init cl) as [a|] eqn:A; [|discriminate]. destruct (c_run _ _ _ _ av_init cl) as [b|] eqn:B in |- *; [|discriminate].
    intros E1 E2. rewrite (av_final_outs _ _ _ _ _ _ _ _ _ E1), (av_final_outs _ _ _ _ _ _ _ _ _ E2).
    exact (av_same_outs _ _ _ _ _ _ _ _ _ _ _ _ _ _ _ _ _ _ A B eq_refl eq_refl).
  - intros r0 r1 threads csz seeds vK vK' d d' bits chk cl v v'. unfold ver_client.
    destruct (c_run _ _ _ _ v_init cl) as [a|] eqn:A; [|discriminate]. destruct (c_run _ _ _ _ v_init cl) as [b|] eqn:B in |- *; [|discriminate].
    intros E1 E2. rewrite (ver_final_outs _ _ _ _ _ _ _ E1), (ver_final_outs _ _ _ _ _ _ _ E2).
    exact (ver_same_outs _ _ _ _ _ _ _ _ _ _ _ _ _ _ _ _ A B eq_refl eq_refl).
Qed.

(** ** any prover, field programs: if the opened words are canonical, the verifier's outputs are those of the plain
    execution of the whole program on the committed inputs and all its relations hold, except for the three ways out of C09 *)
Theorem C46_field_program_soundness :
  forall pub_mac pU pMac threads csz psz seeds pseeds words chkmsg pchkmsg
         (D : Type) (Deqb : D -> D -> bool) (H : list N -> D) (dig : D) (cl : fp_prog) (outs : list N) (deltas : list N),
  let c := fp_taken outs cl in
  (forall a b, Deqb a b = true -> a = b) -> NoDup deltas -> pub_mac < prm ->
  Forall wf_pub c -> words_ok words 0 c -> (forall k, pseeds k < 2 ^ 64) ->
  (forall k, snd (chkmsg k) < 2 ^ 64 /\ snd (pchkmsg k) < 2 ^ 64) -> Forall (fun w => w < prm) outs ->
  let exec d := av_client pub_mac threads csz psz seeds pseeds (vole_key pU pMac d) d words chkmsg pchkmsg cl in
  let cm := acommit pU csz psz words c in
  let q := fp_plain (ac_ins cm) pl_init cl in
  (forall d, In d deltas -> d < prm /\
     exists v, exec d = Some v /\ av_outs v = outs /\ av_outcome Deqb H v dig = (false, false) /\
               (outs <> pl_outs q \/ pl_ok q = false)) ->
  (length deltas <= 4)%nat \/
  (exists k errs rs, nth_error (mul_batches cm) k = Some errs /\ (exists e, In e errs /\ e <> 0) /\
     a_ranges threads (length errs) = Some rs /\ a_combined rs (a_chal seeds k) errs = 0) \/
  (exists k errs, nth_error (rel_batches cm) k = Some errs /\ (exists e, In e errs /\ e <> 0) /\
     a_combined [(0%nat, length errs)] (fun _ => pseeds k mod prm) errs = 0) \/
  (exists d1 d2 v1 v2, In d1 deltas /\ In d2 deltas /\ exec d1 = Some v1 /\ exec d2 = Some v2 /\
     av_hash v1 <> av_hash v2 /\ H (av_hash v1) = H (av_hash v2)).
Proof.
  intros pub_mac pU pMac threads csz psz seeds pseeds words chkmsg pchkmsg D Deqb H dig cl outs deltas c HD Hnd Hpm Hwf Hw Hps Hm Hco exec cm q Hd.
  assert (M : map (fun w => w mod prm) outs = outs).
  { clear -Hco. induction Hco as [|x l Hx _ IH]; [reflexivity|]. cbn [map]. now rewrite IH, N.mod_small. }
  destruct (PropArith.C09_session_soundness pub_mac pU pMac threads csz psz seeds pseeds words chkmsg pchkmsg D Deqb H dig c deltas HD Hnd Hpm Hwf Hw Hps Hm) as [A|[A|[A|A]]].
  - intros d Hin. destruct (Hd d Hin) as (Hlt & v & Ev & Eo & Ea & Eb). split; [exact Hlt|]. exists v.
    pose proof (av_client_taken _ _ _ _ _ _ _ _ _ _ _ _ _ Ev) as X. rewrite Eo in X. split; [exact X|]. split; [exact Ea|].
    rewrite Eo, M. fold cm. set (q' := aplain (awith_inputs (ac_ins cm) c)).
    destruct (list_eq_dec N.eq_dec outs (pl_outs q')) as [e|]; [|now left]. right.
    assert (Z : q' = q).
    { unfold q', q, aplain, c. apply taken_plain. fold c. unfold q', aplain in e. now rewrite <- e. }
    rewrite Z in *. destruct Eb as [Eb|Eb]; [congruence|exact Eb].
  - now left.
  - right. left. exact A.
  - right. right. left. exact A.
  - right. right. right. destruct A as (d1 & d2 & v1 & v2 & I1 & I2 & X1 & X2 & Hne & Heq).
    destruct (Hd d1 I1) as (_ & w1 & W1 & O1 & _). destruct (Hd d2 I2) as (_ & w2 & W2 & O2 & _).
    pose proof (av_client_taken _ _ _ _ _ _ _ _ _ _ _ _ _ W1) as Y1. pose proof (av_client_taken _ _ _ _ _ _ _ _ _ _ _ _ _ W2) as Y2.
    rewrite O1 in Y1. rewrite O2 in Y2. fold c in Y1, Y2. assert (w1 = v1) by congruence. assert (w2 = v2) by congruence. subst. exists d1, d2, v1, v2. auto 10.
Qed.

(** ** any prover and any 64-bit opened words: the same for programs that look at opened words only modulo p *)
Theorem C46_reduced_program_soundness :
  forall pub_mac pU pMac threads csz psz seeds pseeds words chkmsg pchkmsg
         (D : Type) (Deqb : D -> D -> bool) (H : list N -> D) (dig : D) (cl : fp_prog) (outs : list N) (deltas : list N),
  let c := fp_taken outs cl in
  (forall a b, Deqb a b = true -> a = b) -> NoDup deltas -> pub_mac < prm ->
  Forall wf_pub c -> words_ok words 0 c -> (forall k, pseeds k < 2 ^ 64) ->
  (forall k, snd (chkmsg k) < 2 ^ 64 /\ snd (pchkmsg k) < 2 ^ 64) -> fp_reduces cl ->
  let exec d := av_client pub_mac threads csz psz seeds pseeds (vole_key pU pMac d) d words chkmsg pchkmsg cl in
  let cm := acommit pU csz psz words c in
  let q := fp_plain (ac_ins cm) pl_init cl in
  (forall d, In d deltas -> d < prm /\
     exists v, exec d = Some v /\ av_outs v = outs /\ av_outcome Deqb H v dig = (false, false) /\
               (map (fun w => w mod prm) outs <> pl_outs q \/ pl_ok q = false)) ->
  (length deltas <= 4)%nat \/
  (exists k errs rs, nth_error (mul_batches cm) k = Some errs /\ (exists e, In e errs /\ e <> 0) /\
     a_ranges threads (length errs) = Some rs /\ a_combined rs (a_chal seeds k) errs = 0) \/
  (exists k errs, nth_error (rel_batches cm) k = Some errs /\ (exists e, In e errs /\ e <> 0) /\
     a_combined [(0%nat, length errs)] (fun _ => pseeds k mod prm) errs = 0) \/
  (exists d1 d2 v1 v2, In d1 deltas /\ In d2 deltas /\ exec d1 = Some v1 /\ exec d2 = Some v2 /\
     av_hash v1 <> av_hash v2 /\ H (av_hash v1) = H (av_hash v2)).
Proof.
  intros pub_mac pU pMac threads csz psz seeds pseeds words chkmsg pchkmsg D Deqb H dig cl outs deltas c HD Hnd Hpm Hwf Hw Hps Hm Hco exec cm q Hd.
  destruct (PropArith.C09_session_soundness pub_mac pU pMac threads csz psz seeds pseeds words chkmsg pchkmsg D Deqb H dig c deltas HD Hnd Hpm Hwf Hw Hps Hm) as [A|[A|[A|A]]].
  - intros d Hin. destruct (Hd d Hin) as (Hlt & v & Ev & Eo & Ea & Eb). split; [exact Hlt|]. exists v.
    pose proof (av_client_taken _ _ _ _ _ _ _ _ _ _ _ _ _ Ev) as X. rewrite Eo in X. split; [exact X|]. split; [exact Ea|].
    rewrite Eo. fold cm. set (q' := aplain (awith_inputs (ac_ins cm) c)). set (ro := map (fun w => w mod prm) outs) in *.
    destruct (list_eq_dec N.eq_dec ro (pl_outs q')) as [e|]; [|now left]. right.
    assert (Z : q' = q).
    { unfold q', q, aplain, c. rewrite <- (taken_reduced cl outs Hco). fold ro. apply taken_plain.
      unfold q', aplain in e. unfold c in e. rewrite <- (taken_reduced cl outs Hco) in e. fold ro in e. now rewrite <- e. }
    rewrite Z in *. destruct Eb as [Eb|Eb]; [congruence|exact Eb].
  - now left.
  - right. left. exact A.
  - right. right. left. exact A.
  - right. right. right. destruct A as (d1 & d2 & v1 & v2 & I1 & I2 & X1 & X2 & Hne & Heq).
    destruct (Hd d1 I1) as (_ & w1 & W1 & O1 & _). destruct (Hd d2 I2) as (_ & w2 & W2 & O2 & _).
    pose proof (av_client_taken _ _ _ _ _ _ _ _ _ _ _ _ _ W1) as Y1. pose proof (av_client_taken _ _ _ _ _ _ _ _ _ _ _ _ _ W2) as Y2.
    rewrite O1 in Y1. rewrite O2 in Y2. fold c in Y1, Y2. assert (w1 = v1) by congruence. assert (w2 = v2) by congruence. subst. exists d1, d2, v1, v2. auto 10.
Qed.

(** ** any prover, bit programs *)
Theorem C46_bit_program_soundness :
  forall r0 r1 pM threads csz seeds bits chkmsg
         (D : Type) (Deqb : D -> D -> bool) (H : list N -> D) (dig : D) (cl : bit_prog) (outs : list bool) (deltas : list N),
  let c := bit_taken outs cl in
  (forall a b, Deqb a b = true -> a = b) -> NoDup deltas ->
  let exec d := ver_client r0 r1 threads csz seeds (cot_key pM d) d bits chkmsg cl in
  let cm := commit pM csz bits c in
  (forall d, In d deltas -> valid_delta d /\
     exists v, exec d = Some v /\ v_outs v = outs /\ ver_finalize Deqb H v dig = false /\ outs <> bit_outputs (c_ins cm) cl) ->
  (length deltas <= 2)%nat \/
  (exists k errs rs, nth_error (batches cm) k = Some errs /\ In true errs /\
     and_ranges threads (length errs) = Some rs /\ combined_error rs (seeds k) errs = 0) \/
  (exists d1 d2 v1 v2, In d1 deltas /\ In d2 deltas /\ exec d1 = Some v1 /\ exec d2 = Some v2 /\
     v_hash v1 <> v_hash v2 /\ H (v_hash v1) = H (v_hash v2)).
Proof.
  intros r0 r1 pM threads csz seeds bits chkmsg D Deqb H dig cl outs deltas c HD Hnd exec cm Hd.
  destruct (PropBool.C05_session_soundness r0 r1 pM threads csz seeds bits chkmsg D Deqb H dig c deltas HD Hnd) as [A|[A|A]].
  - intros d Hin. destruct (Hd d Hin) as (Hlt & v & Ev & Eo & Ea & Eb). split; [exact Hlt|]. exists v.
    pose proof (ver_client_taken _ _ _ _ _ _ _ _ _ _ _ Ev) as X. rewrite Eo in X. split; [exact X|]. split; [exact Ea|].
    rewrite Eo. fold cm. intro e. apply Eb. unfold bit_outputs. rewrite <- (taken_bit_plain cl (c_ins cm) [] [] outs); [exact e|]. symmetry. exact e.
  - now left.
  - right. left. exact A.
  - right. right. destruct A as (d1 & d2 & v1 & v2 & I1 & I2 & X1 & X2 & Hne & Heq).
    destruct (Hd d1 I1) as (_ & w1 & W1 & O1 & _). destruct (Hd d2 I2) as (_ & w2 & W2 & O2 & _).
    pose proof (ver_client_taken _ _ _ _ _ _ _ _ _ _ _ W1) as Y1. pose proof (ver_client_taken _ _ _ _ _ _ _ _ _ _ _ W2) as Y2.
    rewrite O1 in Y1. rewrite O2 in Y2. fold c in Y1, Y2. assert (w1 = v1) by congruence. assert (w2 = v2) by congruence. subst. exists d1, d2, v1, v2. auto 10.
Qed.

(** ** the canonicity hypothesis cannot be dropped: the verifier's reveal() returns the received word as it is, so a prover
    committed to 0 can make the program see p and take the other branch, for every key *)
Definition branch_prog : fp_prog :=
  fp_feed 0 (fp_reveal 0 (fun o => if N.eqb o 0 then CEnd else fp_public 1 (fp_reveal 1 (fun _ => CEnd)))).
Theorem C46_noncanonical_branch_refuted :
  forall pub_mac pU pMac threads csz psz seeds pseeds chkmsg pchkmsg (D : Type) (Deqb : D -> D -> bool) (H : list N -> D),
  (forall a, Deqb a a = true) -> vole_ok pU pMac -> pub_mac < prm ->
  exists words hin, (forall k, words k < 2 ^ 64) /\ forall d, d < prm ->
    exists v, av_client pub_mac threads csz psz seeds pseeds (vole_key pU pMac d) d words chkmsg pchkmsg branch_prog = Some v /\
      av_outcome Deqb H v (H hin) = (false, false) /\ av_outs v = [prm; 1] /\
      ac_ins (acommit pU csz psz words (fp_taken (av_outs v) branch_prog)) = [0] /\
      pl_outs (fp_plain [0] pl_init branch_prog) = [0].
Proof.
  intros pub_mac pU pMac threads csz psz seeds pseeds chkmsg pchkmsg D Deqb H HD Hv Hpm.
  set (words := fun k => match k with O => pU 1%nat | 1%nat => prm | _ => 1 end).
  exists words, [pMac 1%nat; pub_mac]. destruct (Hv 1%nat) as [Hu Hm]. unfold canon in Hu, Hm. rewrite prm_PR in *.
  assert (L : PR < 2 ^ 64) by reflexivity. split.
  { intros [|[|k]]; cbn [words]; rewrite ?prm_PR; try lia; try reflexivity. }
  intros d Hd.
  assert (Ein : a_ver_input d (vole_key pU pMac d 1) (pU 1%nat) = pMac 1%nat).
  { unfold a_ver_input, vole_key. cbv zeta. pose proof (mm_lt (pU 1%nat) d ltac:(lia) ltac:(lia)). pose proof (fsub_lt (pMac 1%nat) (pU 1%nat * d)).
    apply toF_inj; [apply am_lt; lia|exact Hm|]. rewrite am_F, mm_F, fsub_F, toF_mul by lia. ring. }
  assert (E0 : add_mod (mult_mod prm (lo64 d)) (lo64 (pMac 1%nat)) = pMac 1%nat).
  { unfold lo64. rewrite !N.mod_small by (change W64 with (2 ^ 64); lia). rewrite prm_PR.
    pose proof (mm_lt PR d ltac:(lia) ltac:(lia)). apply toF_inj; [apply am_lt; lia|exact Hm|]. rewrite am_F, mm_F by lia.
    replace (toF PR) with p0 by (now apply fv_inj). ring. }
  assert (E1 : add_mod (mult_mod 1 (lo64 d)) (lo64 (a_ver_pub d pub_mac 1)) = pub_mac).
  { destruct (k_pub d Hd pub_mac 1 Hpm) as [K1 K2]; [discriminate|]. unfold lo64. rewrite !N.mod_small by (change W64 with (2 ^ 64); lia).
    pose proof (mm_lt 1 d ltac:(discriminate) ltac:(lia)). apply toF_inj; [apply am_lt; lia|exact Hpm|]. rewrite am_F, mm_F by (try discriminate; lia).
    rewrite K2. unfold kf. cbn [fst snd]. ring. }
  eexists. split; [reflexivity|]. unfold av_outcome. cbn [av_err av_hash av_cheat av_outs].
  split.
  { match goal with |- (_ || negb (Deqb (H ?l) _), _)%bool = _ => replace l with [pMac 1%nat; pub_mac] end; [now rewrite HD|].
    transitivity [add_mod (mult_mod prm (lo64 d)) (lo64 (a_ver_input d (vole_key pU pMac d 1) (pU 1%nat))); add_mod (mult_mod 1 (lo64 d)) (lo64 (a_ver_pub d pub_mac 1))].
    - now rewrite Ein, E0, E1.
    - reflexivity. }
  split; [reflexivity|]. split; [|reflexivity].
  transitivity [fsub (pU 1%nat) (pU 1%nat)]; [reflexivity|]. unfold fsub. rewrite !prm_PR. f_equal.
  rewrite (N.mod_small (pU 1%nat)) by exact Hu. replace (pU 1%nat + (PR - pU 1%nat)) with PR by lia. apply N.mod_same. discriminate.
Qed.

(** ** int_fp.h:60-64: negate() is multiplication by p-1 and yields the additive inverse *)
Theorem C46_negate : forall ws x i, nth i ws 0 = x -> x < prm ->
  let s := {| pl_w := ws; pl_outs := []; pl_ok := true |} in
  exists y, pl_w (fp_plain [] s (fp_negate i CEnd)) = ws ++ [y] /\ y < prm /\ (x + y) mod prm = 0.
Proof.
  intros ws x i Hx Hl s. eexists. split; [reflexivity|]. unfold pval. subst s. cbn [pl_w]. rewrite Hx.
  change (PR - 1) with (prm - 1).
  split; [apply N.mod_lt; discriminate|]. rewrite N.add_mod_idemp_r by discriminate.
  replace (x + x * (prm - 1)) with (x * prm); [apply N.mod_mul; discriminate|]. rewrite N.mul_sub_distr_l, N.mul_1_r. assert (1 <= prm) by discriminate. nia.
Qed.

(** ** what each call of int_fp.h means, in any state of the plain execution *)
Theorem C46_calls : forall ins ws outs ok i j x y (k : fp_prog),
  nth i ws 0 = x -> nth j ws 0 = y ->
  let s := {| pl_w := ws; pl_outs := outs; pl_ok := ok |} in
  let bind v := fp_plain ins {| pl_w := ws ++ [v]; pl_outs := outs; pl_ok := ok |} k in
  let test (b : bool) := fp_plain ins {| pl_w := ws; pl_outs := outs; pl_ok := ok && b |} k in
  (forall a, fp_plain ins s (fp_public a k) = bind (a mod prm)) /\
  (forall a, fp_plain [] s (fp_feed a k) = fp_plain [] {| pl_w := ws ++ [a mod prm]; pl_outs := outs; pl_ok := ok |} k) /\
  (forall a b rest, fp_plain (b :: rest) s (fp_feed a k) = fp_plain rest {| pl_w := ws ++ [b mod prm]; pl_outs := outs; pl_ok := ok |} k) /\
  fp_plain ins s (fp_add i j k) = bind ((x + y) mod prm) /\
  fp_plain ins s (fp_mul i j k) = bind ((x * y) mod prm) /\
  (forall a, fp_plain ins s (fp_mul_const i a k) = bind ((x * a) mod prm)) /\
  (forall kr, fp_plain ins s (fp_reveal i kr) = fp_plain ins {| pl_w := ws; pl_outs := outs ++ [x]; pl_ok := ok |} (kr x)) /\
  (forall e, fp_plain ins s (fp_reveal_is i e k) = test (N.eqb x (e mod prm))) /\
  fp_plain ins s (fp_reveal_zero i k) = test (N.eqb x 0).
Proof. intros ins ws outs ok i j x y k <- <-. cbv zeta. repeat split. Qed.

(** ** examples *)
(** an honest branching program: three inputs, one product opened; the branch taken doubles, the other squares *)
Definition demo_prog : fp_prog :=
  fp_feed 3 (fp_feed 7 (fp_mul 0 1 (fp_reveal 2 (fun o =>
    if N.even o then fp_add 0 0 (fp_reveal 3 (fun _ => CEnd))
    else fp_mul 1 1 (fp_negate 3 (fp_add 3 4 (fp_reveal_zero 5 (fp_reveal 3 (fun o' => if N.eqb o' 49 then fp_reveal_is 2 21 CEnd else CEnd))))))))).
Example C46_example_honest :
  let q := fp_plain [] pl_init demo_prog in
  pl_outs q = [21; 49] /\ pl_ok q = true /\ Forall wf_honest (fp_taken (pl_outs q) demo_prog) /\ length (fp_taken (pl_outs q) demo_prog) = 10%nat /\
  match ap_client 77 2 4 4 PropArith.demo_s PropArith.demo_p (vole_block PropArith.demo_U PropArith.demo_M) demo_prog with
  | Some p => ap_outs p = [21; 49] /\ map hi64 (ap_w p) = [3; 7; 21; 49; prm - 49; 0]
  | None => False end.
Proof.
  split; [vm_compute; reflexivity|]. split; [vm_compute; reflexivity|]. split.
  - replace (pl_outs (fp_plain [] pl_init demo_prog)) with [21; 49] by (vm_compute; reflexivity).
    repeat (apply Forall_cons; [split; cbn; repeat split; repeat constructor|]); constructor.
  - split; [vm_compute; reflexivity|]. vm_compute. auto.
Qed.
(** a prover committed to 2 claims 2*2 = 5; the verifier's program follows the branch of 5 and this key rejects *)
Definition cheat_prog : fp_prog :=
  fp_feed 2 (fp_mul 0 0 (fp_reveal 1 (fun o => if N.eqb (o mod prm) 4 then CEnd else fp_public 9 (fp_reveal 2 (fun _ => CEnd))))).
Definition cheat_words (k : nat) : N :=
  match k with 0%nat => fsub (PropArith.demo_U 1) 2 | 1%nat => fsub (PropArith.demo_U 2) 5 | 2%nat => 5 | _ => 9 end.
Example C46_example_cheat :
  match av_client 77 1 4 4 PropArith.demo_s PropArith.demo_p (vole_key PropArith.demo_U PropArith.demo_M PropArith.demo_d) PropArith.demo_d
          cheat_words (fun _ => (0, 0)) (fun _ => (0, 0)) cheat_prog with
  | Some v => av_outs v = [5; 9] /\ av_err v = true /\ forallb (fun w => w <? prm) (av_outs v) = true /\
              ac_ins (acommit PropArith.demo_U 4 4 cheat_words (fp_taken (av_outs v) cheat_prog)) = [2]
  | None => False end /\ pl_outs (fp_plain [2] pl_init cheat_prog) = [4] /\ fp_reduces cheat_prog.
Proof.
  split.
  - vm_compute. repeat split.
  - split; [vm_compute; reflexivity|]. intro o. split; [now rewrite N.mod_mod|]. destruct (N.eqb _ _); cbn; auto.
Qed.
(** a branching bit program, and the same program with a flipped opened bit *)
Definition demo_bits : bit_prog :=
  CDo (GIn true) (CDo (GIn false) (CDo (GAnd 0 1) (CAsk 2 (fun b : bool => if b then CEnd else CDo (GNot 2) (CDo (GAnd 3 0) (CAsk 4 (fun _ => CEnd))))))).
Example C46_example_bits :
  bit_outputs [] demo_bits = [false; true] /\ count_and (bit_taken [false; true] demo_bits) = 2%nat /\
  match prv_client 11 12 1 4 PropBool.demo_seeds PropBool.demo_pM demo_bits with
  | Some p => p_outs p = [false; true] /\
      match ver_client 11 12 1 4 PropBool.demo_seeds (cot_key PropBool.demo_pM PropBool.demo_delta) PropBool.demo_delta
              (fun i => nth i (p_bits p) false) (fun k => nth k (p_msgs p) (0, 0)) demo_bits with
      | Some v => v_outs v = [false; true] /\ v_hash v = p_hash p | None => False end /\
      match ver_client 11 12 1 4 PropBool.demo_seeds (cot_key PropBool.demo_pM PropBool.demo_delta) PropBool.demo_delta
              (fun i => if Nat.eqb i 3 then true else nth i (p_bits p) false) (fun k => nth k (p_msgs p) (0, 0)) demo_bits with
      | Some v => v_outs v = [true] /\ v_hash v <> p_hash p | None => False end
  | None => False end.
Proof. vm_compute. repeat split; discriminate. Qed.

Print Assumptions C46_honest_field_program.
Print Assumptions C46_honest_bit_program.
Print Assumptions C46_branches_independent_of_key.
Print Assumptions C46_field_program_soundness.
Print Assumptions C46_reduced_program_soundness.
Print Assumptions C46_bit_program_soundness.
Print Assumptions C46_noncanonical_branch_refuted.
Print Assumptions C46_negate.
Print Assumptions C46_calls.
