(** Hiding, arithmetic engine: two runs in lock step, and the simulator beside the prover. *)
From Coq Require Import NArith List Bool Arith Lia.
From Verif Require Import Word WordProofs FpModel FpProofs Prime61 ListUtil ArithModel ArithSpec ArithProofs ArithShadow ArithAlg
  ArithThms ArithThms2 ArithThms3 ArithThms4 HideSpec HideProofs AHideSpec AHideProofs.
Import ListNotations.
Ltac Zify.zify_post_hook ::= idtac.
Add Ring fp_ring : fp_rt.

(** * Correlations *)
Lemma val_lt u i : Forall canon u -> (val_of u i < prm)%N.
Proof.
  intro H. destruct i as [|j]; cbn; [reflexivity|]. destruct (Nat.lt_ge_cases j (length u)) as [L|L].
  - rewrite Forall_forall in H. now apply H, nth_In.
  - rewrite nth_overflow by easy. reflexivity.
Qed.
Lemma mac_lt key d u i : (mac_of key d u i < prm)%N. Proof. apply N.mod_lt. discriminate. Qed.
Lemma vole_ok_of key d u : Forall canon u -> vole_ok (val_of u) (mac_of key d u).
Proof. intros H i. split; [now apply val_lt|apply mac_lt]. Qed.
Lemma key_ok key d u i : akeys_ok key d -> Forall canon u -> vole_key (val_of u) (mac_of key d u) d i = key i.
Proof.
  intros [K D] H. unfold vole_key, fsub, mac_of. specialize (K i). pose proof (val_lt u i H) as V. unfold canon in *.
  set (x := (val_of u i * d)%N). assert (P : (0 < prm)%N) by reflexivity. clearbody x.
  pose proof (N.mod_lt x prm ltac:(discriminate)) as X.
  pose proof (N.div_mod x prm ltac:(discriminate)) as Dm.
  rewrite N.add_mod_idemp_l by discriminate.
  replace (key i + x + (prm - x mod prm))%N with (key i + (x / prm + 1) * prm)%N by nia.
  rewrite N.mod_add by discriminate. now apply N.mod_small.
Qed.
Lemma hi_vole U M i : vole_ok U M -> hi64 (vole_block U M i) = U i.
Proof.
  intro H. destruct (b_hi _ _ (b_vole U M H i)) as [L E]. cbn [sV snd] in E.
  apply toF_inj; auto. apply H.
Qed.
Lemma am_inj x a b : (x <= PR)%N -> (a < PR)%N -> (b < PR)%N -> add_mod x a = add_mod x b -> a = b.
Proof.
  intros Hx Ha Hb E. apply toF_inj; auto. apply (f_equal toF) in E. rewrite !am_F in E by lia.
  replace (toF a) with (padd (popp (toF x)) (padd (toF x) (toF a))) by ring. rewrite E. ring.
Qed.
Lemma am_inj' x a b : (x <= PR)%N -> (a < PR)%N -> (b < PR)%N -> add_mod a x = add_mod b x -> a = b.
Proof.
  intros Hx Ha Hb E. apply toF_inj; auto. apply (f_equal toF) in E. rewrite !am_F in E by lia.
  replace (toF a) with (padd (popp (toF x)) (padd (toF a) (toF x))) by ring. rewrite E. ring.
Qed.
Lemma snoc_eq {A} (l : list A) x y W : prefix (l ++ [x]) W -> prefix (l ++ [y]) W -> x = y.
Proof.
  intros [a Ea] [b Eb]. rewrite Ea in Eb. rewrite <- !app_assoc in Eb. apply app_inv_head in Eb. cbn in Eb. congruence.
Qed.
Lemma snoc_eq_snd {A B} (l : list (A * B)) x y W W' : map snd W = map snd W' ->
  prefix (l ++ [x]) W -> prefix (l ++ [y]) W' -> snd x = snd y.
Proof.
  intros E [a Ea] [b Eb]. subst. rewrite !map_app in E. rewrite <- !app_assoc in E. apply app_inv_head in E. cbn in E. congruence.
Qed.
Lemma prefix_nth {A} (l : list A) x W dd : prefix (l ++ [x]) W -> nth (length l) W dd = x.
Proof. intros [a ->]. rewrite <- app_assoc, app_nth2 by lia. now rewrite Nat.sub_diag. Qed.
Lemma prefix_agree {A} (l W : list A) dd : prefix l W -> agree (fun k => nth k W dd) l.
Proof. intros [a ->] k x E. rewrite app_nth1 by (apply nth_error_Some; congruence). now apply nth_error_nth. Qed.
Lemma apre_agree p P : apre p P ->
  agree3 (fun k => nth k (ap_words P) 0%N) (fun k => nth k (ap_msgs P) (0, 0)%N) (fun k => nth k (ap_pmsgs P) (0, 0)%N) p.
Proof. intros (A & B & C). split; [|split]; now apply prefix_agree. Qed.

Section Lock.
  Variables (pub_mac : N) (key : nat -> N) (d : N) (threads csz psz : nat).
  Variables (F : ahist -> nat -> N) (G : ahist -> N).
  Hypothesis Hpm : (pub_mac < PR)%N.
  Hypothesis HG : forall h, (G h < W64)%N.
  Hypothesis Hcsz : 1 <= csz.
  Hypothesis Hpsz : 1 <= psz.
  Notation pV u := (vole_block (val_of u) (mac_of key d u)).
  Notation step u := (ah_step pub_mac threads csz psz F G (pV u)).
  Notation run u := (ah_run pub_mac threads csz psz F G (pV u)).
  Lemma pV_eq u u' i : val_of u i = val_of u' i -> pV u i = pV u' i.
  Proof. intro E. unfold vole_block, mac_of. now rewrite E. Qed.
  Lemma psim_step u p s q g p' : Forall canon u -> psim p s q -> wf_honest g -> step u p g = Some p' ->
    exists s', psim p' s' (pl_step q g).
  Proof.
    intros Hu S W E.
    destruct (p_step pub_mac (val_of u) (mac_of key d u) threads csz psz (fun _ => F (hist p)) (fun _ => G (hist p))
      (vole_ok_of key d u Hu) Hpm (fun _ => HG _) _ _ _ p s q g p' S W E (apre_agree p' p' (apre_refl p'))) as (s' & _ & S').
    eauto.
  Qed.
  Lemma psim_start : psim ap_init s_init pl_init.
  Proof. split; cbn; auto; try (intros _; repeat split; constructor); constructor. Qed.

  (** what two runs with equal coins have in common *)
  Definition same_coins (P P' : apst) : Prop :=
    ap_words P = ap_words P' /\ map snd (ap_msgs P) = map snd (ap_msgs P') /\ map snd (ap_pmsgs P) = map snd (ap_pmsgs P').
  Section Two.
    Variables (u u' : list N) (P P' : apst).
    Hypothesis Hu : Forall canon u.
    Hypothesis Hu' : Forall canon u'.
    Hypothesis HC : same_coins P P'.
    Lemma hi_pV i : hi64 (pV u i) = val_of u i. Proof. apply hi_vole, vole_ok_of, Hu. Qed.
    Lemma hi_pV' i : hi64 (pV u' i) = val_of u' i. Proof. apply hi_vole, vole_ok_of, Hu'. Qed.
    Lemma vlt i : (val_of u i < PR)%N. Proof. now apply val_lt. Qed.
    Lemma vlt' i : (val_of u' i < PR)%N. Proof. now apply val_lt. Qed.
    Definition agr (a b : nat) : Prop := forall i, a <= i < b -> val_of u i = val_of u' i.
    Lemma lock_manage p s q sd p1 p2 : psim p s q ->
      ap_manage (pV u) threads sd p = Some p1 -> ap_manage (pV u') threads sd p = Some p2 ->
      prefix (ap_msgs p1) (ap_msgs P) -> prefix (ap_msgs p2) (ap_msgs P') ->
      p1 = p2 /\ agr (ap_vole p) (ap_vole p1).
    Proof.
      intros S E1 E2 L1 L2. unfold ap_manage in E1, E2. destruct (a_ranges threads (length (ap_buf p))) as [rs|]; [|discriminate].
      cbv zeta in E1, E2.
      destruct (prv_sum_ok (ap_buf p) (s_buf s) rs (sd (ap_chk p)) (ps_b _ _ _ S)) as (_ & U2 & _ & _).
      set (UV := a_prv_sum (ap_buf p) rs (sd (ap_chk p))) in *. clearbody UV.
      injection E1 as <-. injection E2 as <-. cbn [ap_msgs] in L1, L2.
      destruct HC as (_ & C & _). pose proof (snoc_eq_snd _ _ _ _ _ C L1 L2) as X.
      unfold a_prv_msg in X. cbn [snd] in X. rewrite hi_pV, hi_pV' in X.
      apply am_inj in X; auto using vlt, vlt'; [|lia].
      split; [now rewrite (pV_eq u u')|]. cbn [ap_vole]. intros i Hi. now replace i with (ap_vole p) by lia.
    Qed.
    Lemma lock_batch p s q g : psim p s q -> (g < W64)%N ->
      let p1 := ap_batch (pV u) (fun _ => g) p in let p2 := ap_batch (pV u') (fun _ => g) p in
      prefix (ap_pmsgs p1) (ap_pmsgs P) -> prefix (ap_pmsgs p2) (ap_pmsgs P') ->
      p1 = p2 /\ agr (ap_vole p) (ap_vole p1).
    Proof.
      intros S Hg p1 p2 L1 L2. subst p1 p2. unfold ap_batch in *. pose proof (ps_q _ _ _ S) as Q.
      destruct (ap_poly p) as [|b bs] eqn:Eb; [split; [easy|intros i Hi; lia]|]. rewrite <- Eb in *. clear Eb b bs.
      destruct (uv_clt _ _ Q) as (_ & C2 & _ & _).
      assert (Hc := chi_lt (mod1 g) (length (ap_poly p)) ltac:(rewrite mod1_correct by exact Hg; apply mod_PR_lt)).
      destruct (inn_ok (uni_hash_coeff_gen (mod1 g) (length (ap_poly p))) (map snd (ap_poly p)) 0) as [I3 _]; auto.
      { reflexivity. }
      cbv zeta in *. cbn [ap_pmsgs ap_vole] in *.
      destruct HC as (_ & _ & C). pose proof (snoc_eq_snd _ _ _ _ _ C L1 L2) as X.
      unfold a_prv_msg in X. cbn [snd] in X. rewrite hi_pV, hi_pV' in X.
      apply am_inj in X; auto using vlt, vlt'; [|apply N.lt_le_incl; exact I3].
      split; [now rewrite (pV_eq u u')|]. intros i Hi. now replace i with (ap_vole p) by lia.
    Qed.
    Lemma lock_queue p s q t g : psim p s q -> (g < W64)%N ->
      let p1 := ap_queue (pV u) psz (fun _ => g) p t in let p2 := ap_queue (pV u') psz (fun _ => g) p t in
      prefix (ap_pmsgs p1) (ap_pmsgs P) -> prefix (ap_pmsgs p2) (ap_pmsgs P') ->
      p1 = p2 /\ agr (ap_vole p) (ap_vole p1).
    Proof.
      intros S Hg p1 p2 L1 L2. subst p1 p2. unfold ap_queue in *. cbn [ap_pmsgs ap_vole] in *. destruct (Nat.leb psz (length (ap_poly p))).
      - destruct (lock_batch p s q g S Hg L1 L2) as [A B]. now rewrite A in *.
      - split; [easy|intros i Hi; lia].
    Qed.
    Lemma lock_step p s q g p1 p2 : psim p s q -> wf_honest g -> step u p g = Some p1 -> step u' p g = Some p2 ->
      apre p1 P -> apre p2 P' -> p1 = p2 /\ agr (ap_vole p) (ap_vole p1).
    Proof.
      intros S [Wp Wh] E1 E2 (L1 & L2 & L3) (M1 & M2 & M3). unfold ah_step in *.
      destruct HC as (C1 & _ & _). rewrite <- C1 in M1.
      destruct g as [x|b|i j|i c|i j|i j|i c|i|i e|i|xs ys cf|xs ys c]; cbn [ap_step] in E1, E2;
        try (injection E1 as <-; injection E2 as <-; split; [easy|cbn; intros ? ?; lia]; fail).
      - unfold a_prv_input in E1, E2. cbv zeta in E1, E2. injection E1 as <-. injection E2 as <-. cbn [ap_words ap_vole] in *.
        pose proof (snoc_eq _ _ _ _ L1 M1) as X. rewrite hi_pV, hi_pV' in X.
        apply am_inj' in X; auto using vlt, vlt'; [|apply sub_le; apply N.lt_le_incl; exact Wh].
        split; [now rewrite (pV_eq u u')|]. intros k Hk. now replace k with (ap_vole p) by lia.
      - destruct (ap_precheck (pV u) threads csz (fun _ => F (hist p)) p) as [q1|] eqn:Q1; [|discriminate].
        destruct (ap_precheck (pV u') threads csz (fun _ => F (hist p)) p) as [q2|] eqn:Q2; [|discriminate].
        assert (K : q1 = q2 /\ agr (ap_vole p) (ap_vole q1) /\ ap_vole p <= ap_vole q1 /\ ap_w q1 = ap_w p).
        { unfold ap_precheck in Q1, Q2. destruct (Nat.eqb (length (ap_buf p)) csz).
          - destruct (ap_manage (pV u) threads _ p) as [r1|] eqn:R1; [|discriminate].
            destruct (ap_manage (pV u') threads _ p) as [r2|] eqn:R2; [|discriminate].
            injection Q1 as <-. injection Q2 as <-.
            unfold a_prv_mul in E1, E2. injection E1 as <-. injection E2 as <-. cbn [ap_msgs ap_clear] in L2, M2.
            destruct (lock_manage p s q _ r1 r2 S R1 R2 L2 M2) as [-> K].
            split; [easy|]. split; [exact K|]. clear - R1. unfold ap_manage in R1. destruct (a_ranges _ _); [|discriminate].
            injection R1 as <-. cbn. auto.
          - injection Q1 as <-. injection Q2 as <-. split; [easy|]. split; [intros ? ?; lia|auto]. }
        destruct K as (<- & K2 & K3 & K4). clear Q1 Q2.
        unfold a_prv_mul in E1, E2. cbv zeta in E1, E2. injection E1 as <-. injection E2 as <-. cbn [ap_words ap_vole] in *.
        pose proof (snoc_eq _ _ _ _ L1 M1) as X. rewrite hi_pV, hi_pV' in X.
        assert (B := fun i => psim_wire p s q i S).
        apply am_inj' in X; auto using vlt, vlt'.
        2:{ apply sub_le. rewrite K4. apply N.lt_le_incl, mm_lt; apply N.lt_le_incl; eapply (proj1 (b_hi _ _ (B _))). }
        split; [now rewrite (pV_eq u u')|]. intros k Hk.
        destruct (Nat.eq_dec k (ap_vole q1)) as [->|]; [easy|]. apply K2. lia.
      - injection E1 as <-. injection E2 as <-. eapply lock_queue; eauto.
      - injection E1 as <-. injection E2 as <-. eapply lock_queue; eauto.
    Qed.
    Lemma lock_run c : forall p s q a b r p1 p2, psim p s q -> acinv csz psz p a b r -> Forall wf_honest c ->
      run u p c = Some p1 -> run u' p c = Some p2 -> apre p1 P -> apre p2 P' -> p1 = p2 /\ agr (ap_vole p) (ap_vole p1).
    Proof.
      induction c as [|g c IH]; intros p s q a b r p1 p2 S I W E1 E2 L1 L2; cbn [ah_run] in *.
      - injection E1 as <-. injection E2 as <-. split; [easy|intros ? ?; lia].
      - destruct (step u p g) as [r1|] eqn:R1; [|discriminate]. destruct (step u' p g) as [r2|] eqn:R2; [|discriminate].
        inversion_clear W as [|? ? Wg Wc].
        destruct (acinv_step _ _ _ _ _ _ _ Hcsz Hpsz _ _ _ _ _ _ I R1) as [I1 _].
        destruct (acinv_step _ _ _ _ _ _ _ Hcsz Hpsz _ _ _ _ _ _ I R2) as [I2 _].
        destruct (acinv_run _ _ _ _ _ _ _ Hcsz Hpsz _ _ _ _ _ _ I1 E1) as [_ A1].
        destruct (acinv_run _ _ _ _ _ _ _ Hcsz Hpsz _ _ _ _ _ _ I2 E2) as [_ A2].
        destruct (lock_step p s q g r1 r2 S Wg R1 R2 (apre_trans _ _ _ A1 L1) (apre_trans _ _ _ A2 L2)) as [<- K1].
        destruct (psim_step u p s q g r1 Hu S Wg R1) as [s1 S1].
        destruct (IH _ _ _ _ _ _ _ _ S1 I1 Wc E1 E2 L1 L2) as [<- K2]. split; [easy|].
        intros i Hi. destruct (Nat.lt_ge_cases i (ap_vole r1)); [apply K1; lia|apply K2; lia].
    Qed.
  End Two.
End Lock.
