(** Session soundness of the arithmetic engine. *)
From Coq Require Import NArith List Bool Arith Lia Ring.
From Verif Require Import Word WordProofs FpModel FpProofs PolyRoots ListUtil Prime61 ArithModel ArithSpec ArithProofs ArithShadow ArithAlg.
Import ListNotations.
Local Open Scope N_scope.
Ltac Zify.zify_post_hook ::= idtac.
Add Ring fp_ring : fp_rt.

Definition pv (p : pair) : N := fv (snd p).
Definition ev (t : item) : N := fv (iE t).
Lemma fv_padd a b : fv (padd a b) = (fv a + fv b) mod prm. Proof. reflexivity. Qed.
Lemma fv_pmul a b : fv (pmul a b) = (fv a * fv b) mod prm. Proof. reflexivity. Qed.
Lemma fv_psub a b : fv (psub a b) = fsub (fv a) (fv b).
Proof. apply toF_inj; [apply fv_lt|apply fsub_lt|]. now rewrite fsub_F, !toF_fv. Qed.
Lemma pval_pv ws i : pval (map pv ws) i = pv (apair ws i).
Proof. unfold pval, apair. change 0 with (pv (p0, p0)). apply map_nth. Qed.
Lemma poly_item_E xs ys cs c0 : ev (poly_item xs ys cs c0) = rel_value (map pv xs) (map pv ys) cs c0.
Proof.
  unfold ev, rel_value. rewrite prm_PR, <- fv_toF. f_equal. rewrite toF_add, fold_addF, map_map.
  unfold poly_item. revert ys cs. induction xs as [|x xs IH]; intros ys cs; [cbn; ring|].
  destruct ys as [|y ys]; [cbn; ring|]. destruct cs as [|c cs]; [cbn; ring|].
  cbn [combine fold_right map fst snd]. unfold iE at 1. cbn [snd]. rewrite IH. rewrite !toF_mul.
  unfold pv. rewrite !toF_fv. ring.
Qed.

Section Commit.
  Variables (pub_mac : N) (pU pMac : nat -> N) (threads csz psz : nat).
  Variables (seeds : nat -> nat -> N) (pseeds : nat -> N) (words : nat -> N).
  Variables chkmsg pchkmsg : nat -> N * N.
  Notation step := (s_step pub_mac pU pMac threads csz psz seeds pseeds words chkmsg pchkmsg).
  Notation cstep := (ac_step pU csz psz words).
  Definition m_ok (k : nat) (ci : cinst) : Prop :=
    a_ranges threads (length (ci_items ci)) = Some (ci_rs ci) /\ ci_seed ci = seeds k /\ ci_msg ci = chkmsg k.
  Definition p_ok (k : nat) (ci : cinst) : Prop :=
    ci_rs ci = [(0%nat, length (ci_items ci))] /\ ci_seed ci = (fun _ => lo64 (pseeds k)) /\ ci_msg ci = pchkmsg k.
  Record csim (s : asst) (a : acst) : Prop := {
    cs_w : ac_w a = map pv (s_w s);
    cs_b : ac_errs a = map ev (s_buf s);
    cs_q : ac_perrs a = map ev (s_poly s);
    cs_d : ac_done a = map (fun ci => map ev (ci_items ci)) (s_m s);
    cs_pd : ac_pdone a = map (fun ci => map ev (ci_items ci)) (s_p s);
    cs_r : ac_rev a = map (fun r => (pv (fst r), snd r)) (s_rev s);
    cs_x : ac_exp a = s_exp s;
    cs_v : ac_vole a = s_vole s; cs_k : ac_words a = s_words s;
    cs_c : s_chk s = length (s_m s); cs_pc : s_pchk s = length (s_p s);
    cs_m : forall k ci, nth_error (s_m s) k = Some ci -> m_ok k ci;
    cs_p : forall k ci, nth_error (s_p s) k = Some ci -> p_ok k ci }.
  Lemma nth_error_snoc {A} (l : list A) x k y : nth_error (l ++ [x]) k = Some y ->
    nth_error l k = Some y \/ (k = length l /\ y = x).
  Proof.
    intro H. destruct (Nat.lt_ge_cases k (length l)) as [Hk|Hk].
    - rewrite nth_error_app1 in H by easy. now left.
    - rewrite nth_error_app2 in H by easy. destruct (k - length l)%nat as [|n] eqn:E.
      + cbn in H. injection H as <-. right. split; [lia|easy].
      + cbn in H. now destruct n.
  Qed.
  Lemma c_manage s s' a : csim s a -> s_manage pU pMac threads seeds chkmsg s = Some s' ->
    csim (s_clear s') (ac_flush a).
  Proof.
    intros C E. unfold s_manage in E. destruct (a_ranges threads (length (s_buf s))) as [rs|] eqn:Er; [|discriminate].
    injection E as <-. destruct C; split; cbn; auto; try (f_equal; congruence).
    - rewrite map_app, cs_d0, cs_b0. reflexivity.
    - rewrite app_length, cs_c0. cbn. lia.
    - intros k ci H. destruct (nth_error_snoc _ _ _ _ H) as [H'|[-> ->]]; [now apply cs_m0|].
      rewrite <- cs_c0. now split.
  Qed.
  Lemma c_batch s a : csim s a -> s_poly s <> [] ->
    csim (s_batch pU pMac pseeds pchkmsg s) (ac_pflush a).
  Proof.
    intros C Hne. unfold s_batch. destruct (s_poly s) as [|t ts] eqn:Et; [easy|]. rewrite <- Et in *.
    destruct C; split; cbn; auto; try (f_equal; congruence).
    - rewrite map_app, cs_pd0, cs_q0. reflexivity.
    - rewrite app_length, cs_pc0. cbn. lia.
    - intros k ci H. destruct (nth_error_snoc _ _ _ _ H) as [H'|[-> ->]]; [now apply cs_p0|].
      rewrite <- cs_pc0. now split.
  Qed.
  Lemma c_queue s a t e : csim s a -> e = ev t ->
    csim (s_queue pU pMac psz pseeds pchkmsg s t) (ac_queue psz a e).
  Proof.
    intros C ->. unfold s_queue, ac_queue.
    assert (C' : csim (if Nat.leb psz (length (s_poly s)) then s_batch pU pMac pseeds pchkmsg s else s)
      (match ac_perrs a with [] => a | _ => if Nat.leb psz (length (ac_perrs a)) then ac_pflush a else a end)).
    { rewrite (cs_q _ _ C), map_length. destruct (s_poly s) as [|q qs] eqn:Eq.
      - cbn [map]. destruct (Nat.leb _ _); [|easy]. unfold s_batch. now rewrite Eq.
      - cbn [map]. rewrite <- Eq. destruct (Nat.leb _ _); [|easy]. apply c_batch; [easy|]. rewrite Eq. discriminate. }
    revert C'. generalize (if Nat.leb psz (length (s_poly s)) then s_batch pU pMac pseeds pchkmsg s else s).
    generalize (match ac_perrs a with [] => a | _ => if Nat.leb psz (length (ac_perrs a)) then ac_pflush a else a end).
    clear C. intros a1 s1 C. destruct C; split; cbn; auto. rewrite map_app, cs_q0. reflexivity.
  Qed.
  Lemma c_push s a p x : csim s a -> x = pv p -> csim (s_add s p) (ac_push a x).
  Proof. intros C ->. destruct C; split; cbn; auto. rewrite map_app, cs_w0. reflexivity. Qed.
  Lemma c_new s a : csim s a -> ac_new pU words a = pv (s_new pU pMac words s).
  Proof.
    intro C. unfold ac_new, s_new, pv. cbn [snd]. rewrite fv_psub, !fv_toF, (cs_v _ _ C), (cs_k _ _ C).
    apply toF_inj; try apply fsub_lt. rewrite !fsub_F, !toF_mod. reflexivity.
  Qed.
  Lemma c_step s a g s' : csim s a -> step s g = Some s' -> csim s' (cstep a g).
  Proof.
    intros C E. 
    assert (V : forall i, pval (ac_w a) i = pv (apair (s_w s) i)) by (intro; rewrite (cs_w _ _ C); apply pval_pv).
    destruct g as [x|b|i j|i c|i j|i j|i c|i|i e|i|xs ys cf|xs ys c]; cbn [s_step ac_step] in *.
    - injection E as <-. pose proof (c_new s a C) as N.
      destruct C; split; cbn; auto; try (f_equal; congruence). rewrite map_app, cs_w0, N. reflexivity.
    - injection E as <-. now apply c_push.
    - injection E as <-. apply c_push; auto. now rewrite !V.
    - injection E as <-. apply c_push; auto. rewrite !V. unfold pv. cbn [snd]. rewrite fv_pmul, fv_toF.
      rewrite prm_PR, N.mul_mod_idemp_r by discriminate. reflexivity.
    - destruct (s_precheck _ _ _ _ _ _ s) as [s1|] eqn:Ep; [|discriminate]. injection E as <-.
      assert (C1 : csim s1 (if Nat.eqb (length (ac_errs a)) csz then ac_flush a else a)).
      { unfold s_precheck in Ep. rewrite (cs_b _ _ C), map_length. destruct (Nat.eqb _ _).
        - destruct (s_manage _ _ _ _ _ s) as [s2|] eqn:Em; [|discriminate]. injection Ep as <-. eapply c_manage; eauto.
        - injection Ep as <-. exact C. }
      rewrite !V. revert C1. generalize (if Nat.eqb (length (ac_errs a)) csz then ac_flush a else a).
      clear V C. intros a1 C. pose proof (c_new s1 a1 C) as N.
      destruct C; split; cbn; auto; try (f_equal; congruence).
      + rewrite map_app, cs_w0, N. reflexivity.
      + rewrite map_app, cs_b0, N. cbn [map]. f_equal. f_equal. unfold ev, mul_item, iE. cbn [snd].
        rewrite fv_psub, fv_pmul. apply toF_inj; try apply fsub_lt. rewrite !fsub_F, prm_PR, toF_mod. reflexivity.
    - injection E as <-. apply c_push; auto. rewrite !V. unfold pv. cbn [snd]. symmetry. apply fv_psub.
    - injection E as <-. apply c_push; auto. rewrite !V. unfold pv. cbn [snd]. rewrite fv_padd, fv_toF.
      rewrite prm_PR, N.add_mod_idemp_r by discriminate. reflexivity.
    - injection E as <-. destruct C; split; cbn; auto; try (f_equal; congruence).
      rewrite map_app, cs_r0, V, cs_k0. reflexivity.
    - injection E as <-. destruct C; split; cbn; auto; try (f_equal; congruence).
      rewrite map_app, cs_r0, V, cs_k0. reflexivity.
    - injection E as <-. destruct C; split; cbn; auto; try (f_equal; congruence).
      rewrite map_app, cs_r0, V. reflexivity.
    - injection E as <-. apply c_queue; auto. rewrite poly_item_E, !map_map. f_equal; apply map_ext; intro; apply V.
    - injection E as <-. apply c_queue; auto. rewrite poly_item_E, !map_map. f_equal; apply map_ext; intro; apply V.
  Qed.

  (** everything the verifier should care about is as committed *)
  Definition allz (l : list N) : Prop := Forall (fun e => e = 0) l.
  Record good (a : acst) : Prop := {
    g_e : allz (ac_errs a); g_d : Forall allz (ac_done a);
    g_q : allz (ac_perrs a); g_p : Forall allz (ac_pdone a);
    g_r : Forall (fun r => snd r mod prm = fst r) (ac_rev a);
    g_x : Forall (fun e => fst e = snd e) (ac_exp a) }.
  Lemma good_pflush a : good (ac_pflush a) -> good a.
  Proof.
    intros [? ? ? G ? ?]. cbn in *. apply Forall_app in G. destruct G as [G1 G2]. inversion_clear G2. now split.
  Qed.
  Lemma good_flush a : good (ac_flush a) -> good a.
  Proof.
    intros [? G ? ? ? ?]. cbn in *. apply Forall_app in G. destruct G as [G1 G2]. inversion_clear G2. now split.
  Qed.
  Lemma good_queue a e : good (ac_queue psz a e) -> good a /\ e = 0.
  Proof.
    intros G. unfold ac_queue in G. cbv zeta in G.
    set (a1 := match ac_perrs a with [] => a | _ => if Nat.leb psz (length (ac_perrs a)) then ac_pflush a else a end) in *.
    assert (G1 : good a1 /\ e = 0).
    { destruct G as [? ? G ? ? ?]. cbn in *. apply Forall_app in G. destruct G as [G1 G2]. inversion_clear G2. now split. }
    destruct G1 as [G1 G2]. split; [|easy]. subst a1. destruct (ac_perrs a); [easy|].
    destruct (Nat.leb _ _); [now apply good_pflush|easy].
  Qed.
  (** the committed values follow plain evaluation as long as nothing is wrong *)
  Definition jp (s : asst) (a : acst) (p : apl) : Prop :=
    good a -> pl_w p = ac_w a /\ pl_outs p = map (fun w => w mod prm) (s_outs s) /\ pl_ok p = true.
  Definition gate_in (a : acst) (g : agate) : agate :=
    match g with AIn _ => AIn (ac_new pU words a) | _ => g end.
  Lemma s_batch_outs s : s_outs (s_batch pU pMac pseeds pchkmsg s) = s_outs s.
  Proof. unfold s_batch. now destruct (s_poly s). Qed.
  Lemma j_step s a p g s' : wf_pub g -> csim s a -> jp s a p -> step s g = Some s' ->
    jp s' (cstep a g) (pl_step p (gate_in a g)).
  Proof.
    intros Hwf C J E G.
    destruct g as [x|b|i j|i c|i j|i j|i c|i|i e|i|xs ys cf|xs ys c];
      cbn [s_step ac_step gate_in pl_step] in *; try (injection E as <-).
    - assert (G' : good a) by (destruct G; now split). destruct (J G') as (W & O & K). cbn [pl_w pl_outs pl_ok s_outs ac_w s_add ac_push s_reveal]. rewrite W.
      repeat split; auto. rewrite N.mod_small by apply fsub_lt. reflexivity.
    - assert (G' : good a) by (destruct G; now split). destruct (J G') as (W & O & K). cbn [pl_w pl_outs pl_ok s_outs ac_w s_add ac_push s_reveal]. rewrite W. auto.
    - assert (G' : good a) by (destruct G; now split). destruct (J G') as (W & O & K). cbn [pl_w pl_outs pl_ok s_outs ac_w s_add ac_push s_reveal]. rewrite W. auto.
    - assert (G' : good a) by (destruct G; now split). destruct (J G') as (W & O & K). cbn [pl_w pl_outs pl_ok s_outs ac_w s_add ac_push s_reveal]. rewrite W. auto.
    - destruct (s_precheck _ _ _ _ _ _ s) as [s1|] eqn:Ep; [|discriminate]. injection E as <-.
      set (a1 := if Nat.eqb (length (ac_errs a)) csz then ac_flush a else a) in *.
      assert (G' : good a1 /\ fsub (pval (ac_w a) i * pval (ac_w a) j) (ac_new pU words a1) = 0).
      { destruct G as [G ? ? ? ? ?]. cbn in *. apply Forall_app in G. destruct G as [G1 G2]. inversion_clear G2. now split. }
      destruct G' as [G1 G2].
      assert (Ga : good a) by (subst a1; destruct (Nat.eqb _ _); [now apply good_flush|easy]).
      assert (Hw : ac_w a1 = ac_w a) by (subst a1; now destruct (Nat.eqb _ _)).
      assert (Ho : s_outs s1 = s_outs s).
      { unfold s_precheck, s_manage in Ep. destruct (Nat.eqb _ _); [destruct (a_ranges _ _); [|discriminate]|];
          injection Ep as <-; reflexivity. }
      destruct (J Ga) as (W & O & K). cbn [pl_w pl_outs pl_ok s_outs ac_w s_add ac_push s_reveal]. rewrite W, Ho, Hw. repeat split; auto. f_equal. f_equal.
      apply (f_equal toF) in G2. rewrite fsub_F, toF_0 in G2.
      apply toF_inj; [apply mod_PR_lt|apply fsub_lt|]. rewrite prm_PR, toF_mod.
      match type of G2 with psub ?x ?y = _ => transitivity (padd (psub x y) y); [ring|] end. rewrite G2. ring.
    - assert (G' : good a) by (destruct G; now split). destruct (J G') as (W & O & K). cbn [pl_w pl_outs pl_ok s_outs ac_w s_add ac_push s_reveal]. rewrite W. auto.
    - assert (G' : good a) by (destruct G; now split). destruct (J G') as (W & O & K). cbn [pl_w pl_outs pl_ok s_outs ac_w s_add ac_push s_reveal]. rewrite W. auto.
    - assert (G' : good a /\ words (ac_words a) mod prm = pval (ac_w a) i).
      { destruct G as [? ? ? ? G ?]. cbn in *. apply Forall_app in G. destruct G as [G1 G2]. inversion_clear G2. now split. }
      destruct G' as [G1 G2]. destruct (J G1) as (W & O & K). cbn [pl_w pl_outs pl_ok s_outs ac_w s_add ac_push s_reveal]. rewrite W, O. repeat split; auto.
      rewrite map_app. cbn [map]. now rewrite <- (cs_k _ _ C), G2.
    - assert (G' : good a /\ words (ac_words a) mod prm = pval (ac_w a) i /\ words (ac_words a) = e).
      { destruct G as [? ? ? ? G X]. cbn in *. apply Forall_app in G. destruct G as [G1 G2]. inversion_clear G2.
        apply Forall_app in X. destruct X as [X1 X2]. inversion_clear X2. now split. }
      destruct G' as [G1 [G2 G3]]. destruct (J G1) as (W & O & K). cbn [pl_w pl_outs pl_ok s_outs ac_w s_add ac_push s_reveal]. rewrite W, O, K. repeat split; auto.
      cbn. apply N.eqb_eq. now rewrite <- G2, G3.
    - assert (G' : good a /\ 0 mod prm = pval (ac_w a) i).
      { destruct G as [? ? ? ? G ?]. cbn in *. apply Forall_app in G. destruct G as [G1 G2]. inversion_clear G2. now split. }
      destruct G' as [G1 G2]. destruct (J G1) as (W & O & K). cbn [pl_w pl_outs pl_ok s_outs ac_w s_add ac_push s_reveal]. rewrite W, O, K. repeat split; auto.
      cbn. apply N.eqb_eq. now rewrite <- G2.
    - apply good_queue in G. destruct G as [G1 G2]. destruct (J G1) as (W & O & K).
      unfold s_queue. cbn [pl_w pl_outs pl_ok s_outs].
      rewrite W, K, G2. repeat split; auto.
      + unfold ac_queue. cbv zeta. cbn [ac_w]. destruct (ac_perrs a); [easy|]. now destruct (Nat.leb _ _).
      + destruct (Nat.leb _ _); [now rewrite s_batch_outs|easy].
    - apply good_queue in G. destruct G as [G1 G2]. destruct (J G1) as (W & O & K).
      unfold s_queue. cbn [pl_w pl_outs pl_ok s_outs].
      rewrite W, K, G2. repeat split; auto.
      + unfold ac_queue. cbv zeta. cbn [ac_w]. destruct (ac_perrs a); [easy|]. now destruct (Nat.leb _ _).
      + destruct (Nat.leb _ _); [now rewrite s_batch_outs|easy].
  Qed.
  Fixpoint gates_in (a : acst) (c : list agate) : list agate :=
    match c with [] => [] | g :: c' => gate_in a g :: gates_in (cstep a g) c' end.
  Lemma cstep_ins a g : ac_ins (cstep a g) = ac_ins a ++ match g with AIn _ => [ac_new pU words a] | _ => [] end.
  Proof.
    destruct g; cbn; rewrite ?app_nil_r; auto.
    - now destruct (Nat.eqb _ _).
    - unfold ac_queue. cbv zeta. cbn. destruct (ac_perrs a); [easy|]. now destruct (Nat.leb _ _).
    - unfold ac_queue. cbv zeta. cbn. destruct (ac_perrs a); [easy|]. now destruct (Nat.leb _ _).
  Qed.
  Lemma gates_in_eq c : forall a, exists ins, ac_ins (fold_left cstep c a) = ac_ins a ++ ins /\
    forall r, awith_inputs (ins ++ r) c = gates_in a c.
  Proof.
    induction c as [|g c IH]; intro a; cbn [fold_left gates_in].
    - exists []. now rewrite app_nil_r.
    - destruct (IH (cstep a g)) as (ins & E1 & E2). rewrite cstep_ins in E1.
      exists (match g with AIn _ => [ac_new pU words a] | _ => [] end ++ ins).
      split; [now rewrite app_assoc|]. intro r. destruct g; cbn [app awith_inputs gate_in]; now rewrite E2.
  Qed.
  Lemma j_run c : forall s a p s', Forall wf_pub c -> csim s a -> jp s a p ->
    s_run pub_mac pU pMac threads csz psz seeds pseeds words chkmsg pchkmsg s c = Some s' ->
    csim s' (fold_left cstep c a) /\ jp s' (fold_left cstep c a) (fold_left pl_step (gates_in a c) p).
  Proof.
    induction c as [|g c IH]; intros s a p s' Hwf C J E; cbn [s_run fold_left gates_in] in *.
    - injection E as <-. auto.
    - destruct (step s g) as [s1|] eqn:Es; [|discriminate]. inversion_clear Hwf.
      apply (IH s1 (cstep a g) (pl_step p (gate_in a g)) s'); auto.
      + eapply c_step; eauto.
      + eapply j_step; eauto.
  Qed.
  Lemma csim_init : csim s_init ac_init.
  Proof. split; cbn; auto; intros [|k] ci H; discriminate. Qed.
  Lemma c_exec c s : Forall wf_pub c ->
    s_exec pub_mac pU pMac threads csz psz seeds pseeds words chkmsg pchkmsg c = Some s ->
    let a := acommit pU csz psz words c in
    mul_batches a = map (fun ci => map ev (ci_items ci)) (s_m s) /\
    rel_batches a = map (fun ci => map ev (ci_items ci)) (s_p s) /\
    ac_rev a = map (fun r => (pv (fst r), snd r)) (s_rev s) /\ ac_exp a = s_exp s /\
    (forall k ci, nth_error (s_m s) k = Some ci -> m_ok k ci) /\
    (forall k ci, nth_error (s_p s) k = Some ci -> p_ok k ci) /\
    let q := aplain (awith_inputs (ac_ins a) c) in
    (good a -> pl_outs q = map (fun w => w mod prm) (s_outs s) /\ pl_ok q = true).
  Proof.
    intros Hwf E. unfold s_exec in E. destruct (s_run _ _ _ _ _ _ _ _ _ _ _ s_init c) as [s1|] eqn:Er; [|discriminate].
    destruct (j_run c s_init ac_init pl_init s1 Hwf csim_init) as [C J]; auto.
    { intros _. repeat split. }
    destruct (gates_in_eq c ac_init) as (ins & E1 & E2). specialize (E2 []). rewrite app_nil_r in E2.
    intro a. cbv zeta. unfold aplain.
    change (fold_left cstep c ac_init) with a in *. cbn [app ac_ins ac_init] in E1. rewrite E1, E2.
    unfold s_final in E. cbv zeta in E.
    assert (B : exists a2, csim (s_batch pU pMac pseeds pchkmsg s1) a2 /\ rel_batches a = ac_pdone a2 /\
      ac_errs a2 = ac_errs a /\ ac_done a2 = ac_done a /\ ac_rev a2 = ac_rev a /\ ac_exp a2 = ac_exp a).
    { unfold rel_batches. rewrite (cs_q _ _ C). destruct (s_poly s1) as [|t ts] eqn:Et.
      - exists a. cbn [map]. rewrite app_nil_r. split; [unfold s_batch; rewrite Et; exact C|]. auto.
      - exists (ac_pflush a). split; [|repeat split].
        + apply c_batch; [easy|]. rewrite Et. discriminate.
        + cbn [map]. cbn [ac_pflush ac_pdone]. f_equal. rewrite (cs_q _ _ C), Et. reflexivity. }
    destruct B as (a2 & C2 & B1 & B2 & B3 & B4 & B5).
    assert (O : s_outs s = s_outs s1 /\ s_rev s = s_rev s1).
    { rewrite <- (s_batch_outs s1).
      assert (R : s_rev (s_batch pU pMac pseeds pchkmsg s1) = s_rev s1) by (unfold s_batch; now destruct (s_poly s1)).
      rewrite <- R. destruct (s_buf _).
      - injection E as <-. auto.
      - unfold s_manage in E. destruct (a_ranges _ _); [|discriminate]. injection E as <-. auto. }
    destruct O as [O1 O2].
    assert (M : mul_batches a = map (fun ci => map ev (ci_items ci)) (s_m s) /\
      s_p s = s_p (s_batch pU pMac pseeds pchkmsg s1) /\ s_exp s = s_exp (s_batch pU pMac pseeds pchkmsg s1) /\
      (forall k ci, nth_error (s_m s) k = Some ci -> m_ok k ci)).
    { unfold mul_batches. rewrite <- B2, <- B3, (cs_b _ _ C2), (cs_d _ _ C2).
      destruct (s_buf (s_batch pU pMac pseeds pchkmsg s1)) as [|t ts] eqn:Et.
      - injection E as <-. cbn [map]. rewrite app_nil_r. split; [|split; [|split]]; auto. apply (cs_m _ _ C2).
      - pose proof (c_manage _ _ _ C2 E) as C3. cbn [map].
        pose proof (cs_d _ _ C3) as D. cbn in D. rewrite (cs_d _ _ C2), (cs_b _ _ C2), Et in D.
        split; [exact D|split; [|split; [|apply (cs_m _ _ C3)]]];
          unfold s_manage in E; destruct (a_ranges _ _); try discriminate; now injection E as <-. }
    destruct M as (M1 & M2 & M3 & M4).
    split; [exact M1|]. rewrite B1, (cs_pd _ _ C2), M2, M3, <- B4, (cs_r _ _ C2), <- B5, (cs_x _ _ C2), O1, O2.
    split; [reflexivity|]. split; [|split; [reflexivity|split; [exact M4|split; [apply (cs_p _ _ C2)|]]]].
    - f_equal. unfold s_batch. now destruct (s_poly s1).
    - intro G. destruct (J G) as (_ & ? & ?). auto.
  Qed.
End Commit.
