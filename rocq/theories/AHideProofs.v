(** Proofs for the hiding property of the arithmetic engine: counters and lock-step of two runs. *)
From Coq Require Import NArith List Bool Arith Lia.
From Verif Require Import Word WordProofs FpModel FpProofs Prime61 ListUtil ArithModel ArithSpec ArithProofs ArithShadow ArithAlg
  ArithThms ArithThms2 ArithThms3 ArithThms4 HideSpec HideProofs AHideSpec.
Import ListNotations.
Ltac Zify.zify_post_hook ::= idtac.

Lemma acount_in_cons g c : acount_in (g :: c) = acount_in [g] + acount_in c. Proof. destruct g; reflexivity. Qed.
Lemma acount_mul_cons g c : acount_mul (g :: c) = acount_mul [g] + acount_mul c. Proof. destruct g; reflexivity. Qed.
Lemma acount_rel_cons g c : acount_rel (g :: c) = acount_rel [g] + acount_rel c. Proof. destruct g; reflexivity. Qed.
(** * Counters *)
Record acinv (csz psz : nat) (s : apst) (a b r : nat) : Prop := {
  ai_k : ap_chk s = length (ap_msgs s);
  ai_q : ap_pchk s = length (ap_pmsgs s);
  ai_c : ap_vole s = 1 + a + b + ap_chk s + ap_pchk s;
  ai_b : b = csz * ap_chk s + length (ap_buf s);
  ai_l : length (ap_buf s) <= csz;
  ai_p : b <> 0 -> length (ap_buf s) <> 0;
  ai_r : r = psz * ap_pchk s + length (ap_poly s);
  ai_s : length (ap_poly s) <= psz;
  ai_t : r <> 0 -> length (ap_poly s) <> 0 }.
Definition apre (p p' : apst) : Prop :=
  prefix (ap_words p) (ap_words p') /\ prefix (ap_msgs p) (ap_msgs p') /\ prefix (ap_pmsgs p) (ap_pmsgs p').
Lemma apre_refl p : apre p p. Proof. split; [|split]; apply prefix_refl. Qed.
Lemma apre_trans p q r : apre p q -> apre q r -> apre p r.
Proof. intros (A & B & C) (A' & B' & C'). split; [|split]; eapply prefix_trans; eauto. Qed.
Lemma amanage_facts pV t sd s s' : ap_manage pV t sd s = Some s' ->
  exists m, ap_msgs s' = ap_msgs s ++ [m] /\ ap_pmsgs s' = ap_pmsgs s /\ ap_words s' = ap_words s /\ ap_vole s' = S (ap_vole s) /\
    ap_chk s' = S (ap_chk s) /\ ap_pchk s' = ap_pchk s /\ ap_buf s' = ap_buf s /\ ap_poly s' = ap_poly s.
Proof.
  unfold ap_manage. destruct (a_ranges _ _); [|discriminate]. intro H. injection H as <-. eexists. split; [reflexivity|]. auto 8.
Qed.
Lemma abatch_cases pV ps s : (ap_poly s = [] /\ ap_batch pV ps s = s) \/
  exists m, ap_poly s <> [] /\ ap_pmsgs (ap_batch pV ps s) = ap_pmsgs s ++ [m] /\ ap_msgs (ap_batch pV ps s) = ap_msgs s /\
    ap_words (ap_batch pV ps s) = ap_words s /\ ap_vole (ap_batch pV ps s) = S (ap_vole s) /\
    ap_chk (ap_batch pV ps s) = ap_chk s /\ ap_pchk (ap_batch pV ps s) = S (ap_pchk s) /\
    ap_buf (ap_batch pV ps s) = ap_buf s /\ ap_poly (ap_batch pV ps s) = [] /\ ap_outs (ap_batch pV ps s) = ap_outs s.
Proof.
  unfold ap_batch. destruct (ap_poly s) as [|x l] eqn:E; [now left|]. right. eexists. split; [discriminate|].
  split; [reflexivity|]. auto 12.
Qed.
Lemma prefix_snoc {A} (l : list A) x : prefix l (l ++ [x]). Proof. now exists [x]. Qed.
Section Counters.
  Variables (pub_mac : N) (pV : nat -> N) (threads csz psz : nat) (F : ahist -> nat -> N) (G : ahist -> N).
  Hypothesis Hcsz : 1 <= csz.
  Hypothesis Hpsz : 1 <= psz.
  Notation step := (ah_step pub_mac threads csz psz F G pV).
  Notation run := (ah_run pub_mac threads csz psz F G pV).
  Lemma acinv_queue ps s a b r t : acinv csz psz s a b r ->
    acinv csz psz (ap_queue pV psz ps s t) a b (S r) /\ apre s (ap_queue pV psz ps s t) /\
    ap_words (ap_queue pV psz ps s t) = ap_words s /\ ap_outs (ap_queue pV psz ps s t) = ap_outs s.
  Proof.
    intros [K Q C B L P R SS T]. unfold ap_queue.
    destruct (Nat.leb_spec psz (length (ap_poly s))) as [H|H].
    - destruct (abatch_cases pV ps s) as [[E _]|(m & NE & E1 & E2 & E3 & E4 & E5 & E6 & E7 & E8 & E9)]; [rewrite E in *; cbn in H; lia|].
      split; [|split; [split; [|split]; cbn; rewrite ?E1, ?E2, ?E3; auto using prefix_refl, prefix_snoc|split; cbn; auto]].
      constructor; cbn; rewrite ?E1, ?E2, ?E3, ?E4, ?E5, ?E6, ?E7, ?E8, ?app_length; cbn [length app]; auto; try lia; nia.
    - split; [|split; [split; [|split]; cbn; auto using prefix_refl|auto]].
      constructor; cbn; rewrite ?app_length; cbn [length]; auto; lia.
  Qed.
  Lemma acinv_step s s' g a b r : acinv csz psz s a b r -> step s g = Some s' ->
    acinv csz psz s' (a + acount_in [g]) (b + acount_mul [g]) (r + acount_rel [g]) /\ apre s s'.
  Proof.
    intros I H. unfold ah_step in H.
    destruct g; cbn [ap_step acount_in acount_mul acount_rel] in *; rewrite ?Nat.add_0_r;
      try (injection H as <-; destruct I as [K Q C B L P R SS T]; split; [constructor; cbn; auto; lia|];
           split; [|split]; cbn; auto using prefix_refl, prefix_snoc; fail).
    - destruct (ap_precheck pV threads csz (fun _ => F (hist s)) s) as [s1|] eqn:E; [|discriminate].
      unfold a_prv_mul in H. injection H as <-. destruct I as [K Q C B L P R SS T]. unfold ap_precheck in E.
      destruct (Nat.eqb_spec (length (ap_buf s)) csz) as [D|D].
      + destruct (ap_manage pV threads (fun _ => F (hist s)) s) as [s2|] eqn:E2; [|discriminate].
        destruct (amanage_facts _ _ _ _ _ E2) as (m & M1 & M2 & M3 & M4 & M5 & M6 & M7 & M8). injection E as <-.
        split; [|split; [|split]; cbn; rewrite ?M1, ?M2, ?M3; auto using prefix_refl, prefix_snoc].
        constructor; cbn; rewrite ?M1, ?M2, ?M3, ?M4, ?M5, ?M6, ?M8, ?app_length; cbn [length]; auto; nia.
      + injection E as <-. split; [|split; [|split]; cbn; auto using prefix_refl, prefix_snoc].
        constructor; cbn; rewrite ?app_length; cbn [length]; auto; lia.
    - injection H as <-. rewrite Nat.add_1_r. destruct (acinv_queue (fun _ => G (hist s)) s a b r (poly_prv (awires (ap_w s) xs) (awires (ap_w s) ys) coeff) I) as (A1 & A2 & _). auto.
    - injection H as <-. rewrite Nat.add_1_r. destruct (acinv_queue (fun _ => G (hist s)) s a b r (inner_prv (awires (ap_w s) xs) (awires (ap_w s) ys)) I) as (A1 & A2 & _). auto.
  Qed.
  Lemma acinv_run c : forall s s' a b r, acinv csz psz s a b r -> run s c = Some s' ->
    acinv csz psz s' (a + acount_in c) (b + acount_mul c) (r + acount_rel c) /\ apre s s'.
  Proof.
    induction c as [|g c IH]; intros s s' a b r I H; cbn [ah_run] in H.
    - injection H as <-. cbn. rewrite !Nat.add_0_r. split; auto using apre_refl.
    - destruct (step s g) as [s1|] eqn:E; [|discriminate].
      destruct (acinv_step _ _ _ _ _ _ I E) as [I1 P1]. destruct (IH _ _ _ _ _ I1 H) as [I2 P2].
      rewrite acount_in_cons, acount_mul_cons, acount_rel_cons, !Nat.add_assoc. split; [exact I2|].
      eapply apre_trans; eauto.
  Qed.
  Lemma acinv_init0 : acinv csz psz ap_init 0 0 0. Proof. constructor; cbn; lia. Qed.
  Lemma checks_val csz' n k l : 1 <= csz' -> n = csz' * k + l -> l <= csz' -> l <> 0 -> checks csz' n = S k.
  Proof.
    intros H0 H L Z. unfold checks. destruct n as [|n]; [lia|]. f_equal. symmetry.
    apply Nat.div_unique with (l - 1); lia.
  Qed.
  Lemma final_facts c s p : run ap_init c = Some s -> ah_final threads F G pV s = Some p ->
    apre s (ap_batch pV (fun _ => G (hist s)) s) /\ apre (ap_batch pV (fun _ => G (hist s)) s) p /\
    ap_words p = ap_words s /\ ap_outs p = ap_outs s /\
    length (ap_msgs p) = checks csz (acount_mul c) /\ length (ap_pmsgs p) = checks psz (acount_rel c) /\
    ap_vole p = 1 + aentropy csz psz c.
  Proof.
    intros E H. destruct (acinv_run _ _ _ _ _ _ acinv_init0 E) as [[K Q C B L P R SS T] _]. cbn [plus] in *.
    unfold ah_final in H. cbv zeta in H.
    pose proof (abatch_cases pV (fun _ => G (hist s)) s) as AC. set (s1 := ap_batch pV (fun _ => G (hist s)) s) in *. clearbody s1.
    assert (X : apre s s1 /\ ap_words s1 = ap_words s /\ ap_outs s1 = ap_outs s /\ ap_msgs s1 = ap_msgs s /\
                length (ap_pmsgs s1) = checks psz (acount_rel c) /\ ap_vole s1 + ap_pchk s = ap_vole s + checks psz (acount_rel c) /\
                ap_buf s1 = ap_buf s).
    { destruct AC as [[E0 E1]|(m & NE & E1 & E2 & E3 & E4 & E5 & E6 & E7 & E8 & E9)].
      - rewrite E1. rewrite E0 in *. cbn [length] in *. assert (acount_rel c = 0) by lia.
        assert (ap_pchk s = 0) by nia. rewrite H0. cbn [checks]. split; [apply apre_refl|]. repeat split; auto; lia.
      - assert (Z : checks psz (acount_rel c) = S (ap_pchk s)).
        { eapply checks_val; eauto. destruct (ap_poly s); cbn in *; [easy|lia]. }
        rewrite Z. split; [split; [|split]; rewrite ?E1, ?E2, ?E3; auto using prefix_refl, prefix_snoc|].
        rewrite E1, app_length. cbn. repeat split; auto; lia. }
    destruct X as (X1 & X2 & X3 & X4 & X5 & X6 & X7).
    split; [exact X1|]. destruct (ap_buf s1) as [|x l] eqn:Eb.
    - injection H as <-. split; [apply apre_refl|]. split; [auto|]. split; [auto|].
      rewrite <- X7 in *. cbn [length] in *. assert (Z : acount_mul c = 0) by lia. assert (ap_chk s = 0) by nia.
      unfold aentropy. rewrite Z, X4 in *. cbn [checks]. split; [lia|]. split; [auto|]. lia.
    - destruct (amanage_facts _ _ _ _ _ H) as (m & M1 & M2 & M3 & M4 & M5 & M6 & M7 & M8).
      assert (Z : checks csz (acount_mul c) = S (ap_chk s)).
      { eapply checks_val; eauto. rewrite <- X7. discriminate. }
      assert (O : ap_outs p = ap_outs s1) by (unfold ap_manage in H; destruct (a_ranges _ _); [|discriminate]; now injection H as <-).
      unfold aentropy. rewrite Z, M1, M2, M3, M4, O, X4, app_length. cbn [length].
      split; [split; [|split]; rewrite ?M1, ?M2, ?M3, ?X4; auto using prefix_refl, prefix_snoc|].
      split; [auto|]. split; [auto|]. split; [lia|]. split; [auto|]. lia.
  Qed.
End Counters.
Lemma acinv_init csz psz : acinv csz psz ap_init 0 0 0. Proof. constructor; cbn; lia. Qed.
Lemma awith_counts c : forall ins, acount_in (awith_inputs ins c) = acount_in c /\
  acount_mul (awith_inputs ins c) = acount_mul c /\ acount_rel (awith_inputs ins c) = acount_rel c.
Proof.
  induction c as [|g c IH]; intro ins; [auto|].
  destruct g; cbn [awith_inputs acount_in acount_mul acount_rel]; try (destruct (IH ins) as (A & B & C); rewrite ?A, ?B, ?C; auto; fail).
  destruct ins; cbn [acount_in acount_mul acount_rel]; [destruct (IH []) as (A & B & C)|destruct (IH ins) as (A & B & C)]; rewrite ?A, ?B, ?C; auto.
Qed.
Lemma awith_masked c : forall ins ws, amasked (awith_inputs ins c) ws = amasked c ws.
Proof.
  induction c as [|g c IH]; intros ins ws; [reflexivity|].
  destruct g; cbn [awith_inputs]; try (destruct ws; cbn [amasked]; now rewrite ?IH).
  destruct ins; destruct ws; cbn [amasked]; now rewrite ?IH.
Qed.
Lemma awith_weave c : forall ins m o, aweave (awith_inputs ins c) m o = aweave c m o.
Proof.
  induction c as [|g c IH]; intros ins m o; [reflexivity|].
  destruct g; cbn [awith_inputs]; try (cbn [aweave]; now rewrite ?IH).
  destruct ins; cbn [aweave]; now rewrite ?IH.
Qed.
Lemma awith_wf threads csz psz c ins : asession_ok threads csz psz c -> length ins = acount_in c -> Forall canon ins ->
  Forall wf_honest (awith_inputs ins c).
Proof.
  intros (_ & _ & _ & W & Ck) L I. revert ins L I. induction c as [|g c IH]; intros ins L I; [constructor|].
  inversion_clear W. inversion_clear Ck. destruct g; cbn [awith_inputs acount_in] in *;
    try (constructor; [split; [assumption|first [exact Logic.I|assumption]]|auto]).
  destruct ins as [|y ins]; [discriminate|]. inversion_clear I. constructor; [split; [exact Logic.I|assumption]|]. apply IH; auto.
Qed.
