(** Hiding, arithmetic engine: views of two witnesses with the same outputs. *)
From Coq Require Import NArith List Bool Arith Lia.
From Verif Require Import Word WordProofs FpModel FpProofs Prime61 ListUtil ArithModel ArithSpec ArithProofs ArithShadow ArithAlg
  ArithThms ArithThms2 ArithThms3 ArithThms4 HideSpec HideProofs HideThms AHideSpec AHideProofs AHideLock AHideThms.
Import ListNotations.
Ltac Zify.zify_post_hook ::= idtac.

Lemma app_split {C} (a b r r' : list C) : length a = length b -> a ++ r = b ++ r' -> a = b /\ r = r'.
Proof.
  revert b. induction a as [|x a IH]; intros [|y b] L E; try discriminate; [auto|]. cbn in *. injection E as -> E.
  destruct (IH b ltac:(lia) E) as [-> ->]. auto.
Qed.
Section Defined.
  Variables (pub_mac : N) (pV : nat -> N) (threads csz psz : nat) (F : ahist -> nat -> N) (G : ahist -> N).
  Hypothesis Ht : 1 <= threads <= 32.
  Lemma ah_defined c : exists p, ah_exec pub_mac threads csz psz F G pV c = Some p.
  Proof.
    assert (R : forall c s, exists s', ah_run pub_mac threads csz psz F G pV s c = Some s').
    { clear c. induction c as [|g c IH]; intro s; cbn [ah_run]; eauto. unfold ah_step.
      destruct (step_defined pub_mac pV threads csz psz (fun _ => F (hist s)) (fun _ => G (hist s)) Ht s g) as [s1 ->]. apply IH. }
    unfold ah_exec. destruct (R c ap_init) as [s ->]. unfold ah_final. cbv zeta.
    destruct (ap_buf _); [eauto|]. apply manage_defined. exact Ht.
  Qed.
End Defined.
Section Weave.
  Variables (pub_mac : N) (key : nat -> N) (d : N) (threads csz psz : nat).
  Variables (F : ahist -> nat -> N) (G : ahist -> N).
  Hypothesis Hpm : (pub_mac < PR)%N.
  Hypothesis HG : forall h, (G h < W64)%N.
  Notation pV u := (vole_block (val_of u) (mac_of key d u)).
  Notation step u := (ah_step pub_mac threads csz psz F G (pV u)).
  Notation run u := (ah_run pub_mac threads csz psz F G (pV u)).
  Lemma psim_run u c : Forall canon u -> forall p s q p', psim p s q -> Forall wf_honest c -> run u p c = Some p' ->
    exists s', psim p' s' (fold_left pl_step c q).
  Proof.
    intro Hu. induction c as [|g c IH]; intros p s q p' S W H; cbn [ah_run fold_left] in *.
    - injection H as <-. eauto.
    - destruct (step u p g) as [p1|] eqn:E; [|discriminate]. inversion_clear W.
      edestruct psim_step as [s1 S1]; eauto.
  Qed.
  (** words sent by one step *)
  Lemma step_words u p s q g p' : psim p s q -> wf_honest g -> step u p g = Some p' -> pl_ok (pl_step q g) = true ->
    exists w o, ap_words p' = ap_words p ++ w /\ ap_outs p' = ap_outs p ++ o /\
      match g with
      | AIn _ | AMul _ _ => exists x, w = [x] /\ o = []
      | AReveal _ => exists x, w = [x] /\ o = [x]
      | ACheck _ e => w = [e] /\ o = []
      | _ => w = [] /\ o = []
      end.
  Proof.
    intros S W E Hok. unfold ah_step in E.
    destruct g as [x|b|i j|i c|i j|i j|i c|i|i e|i|xs ys cf|xs ys c]; cbn [ap_step] in E;
      try (injection E as <-; exists [], []; cbn; rewrite !app_nil_r; auto; fail).
    - injection E as <-. eexists [_], []. cbn. rewrite app_nil_r. eauto 6.
    - destruct (ap_precheck _ _ _ _ p) as [p1|] eqn:Ep; [|discriminate].
      assert (X : ap_words p1 = ap_words p /\ ap_outs p1 = ap_outs p).
      { unfold ap_precheck in Ep. destruct (Nat.eqb _ _); [|now injection Ep as <-].
        destruct (ap_manage _ _ _ p) as [p2|] eqn:Em; [|discriminate]. injection Ep as <-.
        unfold ap_manage in Em. destruct (a_ranges _ _); [|discriminate]. now injection Em as <-. }
      destruct X as [X1 X2]. unfold a_prv_mul in E. injection E as <-. cbn. rewrite X1, X2. eexists [_], []. rewrite app_nil_r. eauto 6.
    - injection E as <-. cbn. eexists [_], [_]. eauto.
    - injection E as <-. cbn. eexists [_], []. rewrite app_nil_r. split; [reflexivity|]. split; [reflexivity|]. split; [|reflexivity].
      cbn [pl_step pl_ok] in Hok. apply andb_prop in Hok. destruct Hok as [_ Hok]. apply N.eqb_eq in Hok.
      rewrite (ps_pw _ _ _ S), pval_pv in Hok. unfold pv in Hok.
      destruct (b_words _ _ (psim_wire p s q i S)) as [B _]. rewrite <- B in Hok. rewrite Hok.
      now rewrite N.mod_small by apply (proj2 W).
    - injection E as <-. exists [], []. rewrite !app_nil_r. unfold ap_queue. cbn. destruct (Nat.leb _ _); [|auto].
      destruct (abatch_cases (pV u) (fun _ => G (hist p)) p) as [[_ Q]|(m & _ & _ & _ & Q & _ & _ & _ & _ & _ & Q2)]; [now rewrite Q|rewrite Q, Q2; auto].
    - injection E as <-. exists [], []. rewrite !app_nil_r. unfold ap_queue. cbn. destruct (Nat.leb _ _); [|auto].
      destruct (abatch_cases (pV u) (fun _ => G (hist p)) p) as [[_ Q]|(m & _ & _ & _ & Q & _ & _ & _ & _ & _ & Q2)]; [now rewrite Q|rewrite Q, Q2; auto].
  Qed.
  Lemma run_words u c : Forall canon u -> forall p s q p', psim p s q -> Forall wf_honest c -> run u p c = Some p' ->
    pl_ok (fold_left pl_step c q) = true ->
    exists w o, ap_words p' = ap_words p ++ w /\ ap_outs p' = ap_outs p ++ o /\
      aweave c (amasked c w) o = w /\ length (amasked c w) = acount_in c + acount_mul c.
  Proof.
    intro Hu. induction c as [|g c IH]; intros p s q p' S W H Hok; cbn [ah_run fold_left] in *.
    - injection H as <-. exists [], []. now rewrite !app_nil_r.
    - destruct (step u p g) as [p1|] eqn:E; [|discriminate]. inversion_clear W as [|? ? Wg Wc].
      destruct (psim_step pub_mac key d threads csz psz F G Hpm HG u p s q g p1 Hu S Wg E) as [s1 S1].
      destruct (IH p1 s1 _ p' S1 Wc H Hok) as (w & o & E1 & E2 & E3 & E4).
      destruct (step_words u p s q g p1 S Wg E (pl_ok_run c _ Hok)) as (w0 & o0 & D1 & D2 & D3).
      rewrite D1 in E1. rewrite D2 in E2. rewrite <- app_assoc in E1, E2. exists (w0 ++ w), (o0 ++ o).
      split; [exact E1|]. split; [exact E2|].
      destruct g; try (destruct D3 as (x & -> & ->)); try (destruct D3 as (-> & ->));
        cbn [app aweave amasked acount_in acount_mul hd tl length]; rewrite ?E3, ?E4; (split; [reflexivity|lia]).
  Qed.
End Weave.

Section Bounds.
  Variables (pub_mac : N) (key : nat -> N) (d : N) (threads csz psz : nat).
  Variables (F : ahist -> nat -> N) (G : ahist -> N).
  Hypothesis Hpm : (pub_mac < PR)%N.
  Hypothesis HG : forall h, (G h < W64)%N.
  Variable u : list N.
  Hypothesis Hu : Forall canon u.
  Notation pV := (vole_block (val_of u) (mac_of key d u)).
  Definition mb (p : apst) : Prop := Forall (fun m => (snd m < PR)%N) (ap_msgs p) /\ Forall (fun m => (snd m < PR)%N) (ap_pmsgs p).
  Lemma msg_lt UV i : (snd UV < PR)%N -> (snd (a_prv_msg UV (pV i)) < PR)%N.
  Proof.
    intro H. unfold a_prv_msg. cbn [snd]. apply am_lt; [exact H|]. rewrite hi_vole by now apply vole_ok_of.
    apply N.lt_le_incl. now apply val_lt.
  Qed.
  Lemma mb_manage p s q sd p' : psim p s q -> ap_manage pV threads sd p = Some p' -> mb p -> mb p'.
  Proof.
    intros S E [B1 B2]. unfold ap_manage in E. destruct (a_ranges threads (length (ap_buf p))) as [rs|]; [|discriminate].
    destruct (prv_sum_ok (ap_buf p) (s_buf s) rs (sd (ap_chk p)) (ps_b _ _ _ S)) as (_ & U2 & _ & _).
    injection E as <-. split; cbn [ap_msgs ap_pmsgs]; [|exact B2]. apply Forall_app. split; [exact B1|].
    constructor; [|constructor]. now apply msg_lt.
  Qed.
  Lemma mb_batch p s q g : psim p s q -> (g < W64)%N -> mb p -> mb (ap_batch pV (fun _ => g) p).
  Proof.
    intros S Hg [B1 B2]. unfold ap_batch. pose proof (ps_q _ _ _ S) as Q.
    destruct (ap_poly p) as [|b bs] eqn:Eb; [now split|]. rewrite <- Eb in *. clear Eb b bs.
    destruct (uv_clt _ _ Q) as (_ & C2 & _ & _).
    assert (Hc := chi_lt (mod1 g) (length (ap_poly p)) ltac:(rewrite mod1_correct by exact Hg; apply mod_PR_lt)).
    destruct (inn_ok (uni_hash_coeff_gen (mod1 g) (length (ap_poly p))) (map snd (ap_poly p)) 0) as [I3 _]; auto.
    { reflexivity. }
    split; cbn [ap_msgs ap_pmsgs]; [exact B1|]. apply Forall_app. split; [exact B2|]. constructor; [|constructor].
    now apply msg_lt.
  Qed.
  Lemma mb_step p s q g p' : psim p s q -> ah_step pub_mac threads csz psz F G pV p g = Some p' -> mb p -> mb p'.
  Proof.
    intros S E B. unfold ah_step in E. destruct g; cbn [ap_step] in E; try (injection E as <-; exact B).
    - destruct (ap_precheck _ _ _ _ p) as [p1|] eqn:Ep; [|discriminate].
      assert (mb p1).
      { unfold ap_precheck in Ep. destruct (Nat.eqb _ _); [|now injection Ep as <-].
        destruct (ap_manage _ _ _ p) as [p2|] eqn:Em; [|discriminate]. injection Ep as <-. eapply (mb_manage p s q _ p2); eauto. }
      unfold a_prv_mul in E. injection E as <-. assumption.
    - injection E as <-. unfold ap_queue. destruct (Nat.leb _ _); [|exact B]. now apply (mb_batch p s q).
    - injection E as <-. unfold ap_queue. destruct (Nat.leb _ _); [|exact B]. now apply (mb_batch p s q).
  Qed.
  Lemma mb_run c : forall p s q p', psim p s q -> Forall wf_honest c -> ah_run pub_mac threads csz psz F G pV p c = Some p' -> mb p -> mb p'.
  Proof.
    induction c as [|g c IH]; intros p s q p' S W H B; cbn [ah_run] in *; [now injection H as <-|].
    destruct (ah_step pub_mac threads csz psz F G pV p g) as [p1|] eqn:E; [|discriminate]. inversion_clear W as [|? ? Wg Wc].
    destruct (psim_step pub_mac key d threads csz psz F G Hpm HG u p s q g p1 Hu S Wg E) as [s1 S1].
    apply (IH p1 s1 (pl_step q g) p'); auto. apply (mb_step p s q g); auto.
  Qed.
End Bounds.

Section Bij.
  Variables (pub_mac : N) (key : nat -> N) (d : N) (threads csz psz : nat).
  Variables (F : ahist -> nat -> N) (G : ahist -> N) (c : list agate).
  Hypothesis Hpm : canon pub_mac.
  Hypothesis HG : forall h, (G h < 2 ^ 64)%N.
  Hypothesis Hkd : akeys_ok key d.
  Hypothesis Hok : asession_ok threads csz psz c.
  Notation honest := (ahonest pub_mac key d threads csz psz F G c).
  Notation n := (aentropy csz psz c).
  Lemma csz1 : 1 <= csz. Proof. apply Hok. Qed.
  Lemma psz1 : 1 <= psz. Proof. apply Hok. Qed.
  Lemma ahonest_exists ins u : exists p, honest ins u = Some p.
  Proof. apply ah_defined. apply Hok. Qed.
  Lemma aent ins : aentropy csz psz (awith_inputs ins c) = n.
  Proof. unfold aentropy. destruct (awith_counts c ins) as (-> & -> & ->). reflexivity. Qed.
  Lemma ahonest_facts ins outs u p : witness c ins outs -> Forall canon u -> honest ins u = Some p ->
    ap_outs p = outs /\ ap_words p = aweave c (amasked c (ap_words p)) outs /\
    length (amasked c (ap_words p)) = acount_in c + acount_mul c /\
    length (ap_msgs p) = checks csz (acount_mul c) /\ length (ap_pmsgs p) = checks psz (acount_rel c) /\
    ap_vole p = 1 + n /\ Forall (fun w => (w < PR)%N) (ap_words p) /\
    Forall (fun m => (snd m < PR)%N) (ap_msgs p) /\ Forall (fun m => (snd m < PR)%N) (ap_pmsgs p).
  Proof.
    intros (Li & Ci & Pok & Pout) Hu H. pose proof (awith_wf _ _ _ _ _ Hok Li Ci) as W. unfold ahonest in H.
    destruct (awith_counts c ins) as (K1 & K2 & K3). pose proof (aent ins) as K4.
    pose proof (awith_masked c ins) as K5. pose proof (awith_weave c ins) as K6.
    set (c' := awith_inputs ins c) in *. clearbody c'. unfold ah_exec in H.
    destruct (ah_run pub_mac threads csz psz F G _ ap_init c') as [s|] eqn:Er; [|discriminate].
    destruct (final_facts _ _ _ _ _ F G csz1 psz1 c' s p Er H) as (A0 & A1 & Fw & Fo & Fm & Fp & Fv).
    destruct (run_words pub_mac key d threads csz psz F G Hpm HG u c' Hu ap_init s_init pl_init s psim_start W Er Pok) as (w & o & E1 & E2 & E3 & E4).
    destruct (psim_run pub_mac key d threads csz psz F G Hpm HG u c' Hu ap_init s_init pl_init s psim_start W Er) as [sh S].
    fold (aplain c') in S. cbn [ap_init ap_words ap_outs app] in E1, E2.
    assert (Ho : o = outs). { rewrite <- E2, (ps_o _ _ _ S), <- (ps_po _ _ _ S). exact Pout. }
    rewrite Fo, E2, Fw, E1, Ho in *. rewrite K5, K6 in E3. rewrite K5 in E4. rewrite E4, Fm, Fp, Fv, K1, K2, K3, K4.
    split; [reflexivity|]. split; [now symmetry|]. split; [reflexivity|]. split; [reflexivity|]. split; [reflexivity|].
    split; [reflexivity|]. split; [rewrite <- E1; apply (ps_wl _ _ _ S)|].
    pose proof (vole_ok_of key d u Hu) as HV.
    assert (B : mb s) by (eapply (mb_run pub_mac key d threads csz psz F G Hpm HG u Hu c'); [exact psim_start|exact W|exact Er|split; constructor]).
    unfold ah_final in H. cbv zeta in H.
    pose proof (p_batch pub_mac _ _ threads (fun _ => F (hist s)) (fun _ => G (hist s)) HV Hpm (fun _ => HG _)
                 _ _ _ s sh _ S (apre_agree _ p A1)) as S1.
    pose proof (mb_batch key d u Hu s sh _ _ S (HG (hist s)) B) as B1.
    set (p1 := ap_batch _ _ s) in *.
    assert (Z : mb p); [|exact Z].
    destruct (ap_buf p1); [now injection H as <-|]. eapply mb_manage; eauto.
  Qed.
  Lemma amasked_in ws x : forall c', In x (amasked c' ws) -> In x ws.
  Proof.
    intro c'. revert ws. induction c' as [|g c' IH]; intros ws H; [easy|].
    destruct g; destruct ws as [|w0 ws]; cbn [amasked] in H; try (now apply IH in H); try easy;
      try (destruct H as [->|H]; [now left|]); right; now apply IH.
  Qed.
  Lemma acoins_vec ins outs u p : witness c ins outs -> Forall canon u -> honest ins u = Some p -> fvec n (acoins c p).
  Proof.
    intros Wt Hu H. destruct (ahonest_facts _ _ _ _ Wt Hu H) as (_ & _ & L1 & L2 & L3 & _ & B1 & B2 & B3).
    unfold acoins. split.
    - rewrite !app_length, !map_length, L1, L2, L3. unfold aentropy. lia.
    - rewrite !Forall_app, !Forall_map. split; [|split; assumption].
      rewrite Forall_forall in *. intros x Hx. apply B1. eapply amasked_in; eauto.
  Qed.
  Lemma acoins_split ins outs u p : witness c ins outs -> Forall canon u -> honest ins u = Some p ->
    let m := acount_in c + acount_mul c in let k := checks csz (acount_mul c) in
    firstn m (acoins c p) = amasked c (ap_words p) /\ firstn k (skipn m (acoins c p)) = map snd (ap_msgs p) /\
    skipn k (skipn m (acoins c p)) = map snd (ap_pmsgs p).
  Proof.
    intros Wt Hu H m k. destruct (ahonest_facts _ _ _ _ Wt Hu H) as (_ & _ & L1 & L2 & _).
    unfold acoins.
    destruct (split_at m (amasked c (ap_words p)) (map snd (ap_msgs p) ++ map snd (ap_pmsgs p)) L1) as [-> ->].
    destruct (split_at k (map snd (ap_msgs p)) (map snd (ap_pmsgs p))) as [-> ->]; [now rewrite map_length|]. auto.
  Qed.
  Theorem aview_simulated ins outs u p : witness c ins outs -> Forall canon u -> honest ins u = Some p ->
    asimulate pub_mac key d threads csz psz F G c outs (acoins c p) = Some (aview p).
  Proof.
    intros Wt Hu H. destruct (ahonest_facts _ _ _ _ Wt Hu H) as (_ & Ew & _ & _ & _ & _ & Hw & _).
    unfold asimulate. destruct (acoins_split _ _ _ _ Wt Hu H) as (-> & -> & ->). rewrite <- Ew.
    destruct Wt as (Li & Ci & Pok & _). pose proof (awith_wf _ _ _ _ _ Hok Li Ci) as W.
    rewrite <- (sim_exec_ok pub_mac key d threads csz psz F G Hpm HG csz1 psz1 Hkd u p Hu Hw (awith_inputs ins c) W H Pok).
    unfold asim_exec. rewrite asim_inputs. reflexivity.
  Qed.
  Lemma same_word_coins p p' outs : ap_words p = aweave c (amasked c (ap_words p)) outs ->
    ap_words p' = aweave c (amasked c (ap_words p')) outs -> length (amasked c (ap_words p)) = length (amasked c (ap_words p')) ->
    length (ap_msgs p) = length (ap_msgs p') -> acoins c p = acoins c p' -> same_coins p p'.
  Proof.
    intros E1 E2 L1 L2 E. unfold acoins in E.
    apply app_split in E; [|exact L1]. destruct E as [Ea E].
    apply app_split in E; [|now rewrite !map_length]. destruct E as [Eb Ec].
    split; [rewrite E1, E2, Ea; reflexivity|auto].
  Qed.
  Lemma ahonest_inj ins outs u u' p p' : witness c ins outs -> fvec n u -> fvec n u' ->
    honest ins u = Some p -> honest ins u' = Some p' -> acoins c p = acoins c p' -> u = u' /\ p = p'.
  Proof.
    intros Wt [Lu Hu] [Lu' Hu'] H H' E.
    destruct (ahonest_facts _ _ _ _ Wt Hu H) as (_ & Ew & L1 & L2 & _ & Lv & _).
    destruct (ahonest_facts _ _ _ _ Wt Hu' H') as (_ & Ew' & L1' & L2' & _).
    assert (SC : same_coins p p') by (eapply same_word_coins; eauto; congruence).
    destruct Wt as (Li & Ci & Pok & _). pose proof (awith_wf _ _ _ _ _ Hok Li Ci) as W.
    unfold ahonest, ah_exec in H, H'. set (c' := awith_inputs ins c) in *. clearbody c'.
    destruct (ah_run pub_mac threads csz psz F G (vole_block (val_of u) (mac_of key d u)) ap_init c') as [s|] eqn:Er; [|discriminate].
    destruct (ah_run pub_mac threads csz psz F G (vole_block (val_of u') (mac_of key d u')) ap_init c') as [s'|] eqn:Er'; [|discriminate].
    destruct (final_facts _ _ _ _ _ F G csz1 psz1 c' s p Er H) as (A0 & A1 & _).
    destruct (final_facts _ _ _ _ _ F G csz1 psz1 c' s' p' Er' H') as (A0' & A1' & _).
    destruct (lock_run pub_mac key d threads csz psz F G Hpm HG csz1 psz1 u u' p p' Hu Hu' SC c' ap_init s_init pl_init 0 0 0 s s'
      psim_start (acinv_init _ _) W Er Er' (apre_trans _ _ _ A0 A1) (apre_trans _ _ _ A0' A1')) as [<- K1].
    destruct (psim_run pub_mac key d threads csz psz F G Hpm HG u c' Hu ap_init s_init pl_init s psim_start W Er) as [sh SH].
    unfold ah_final in H, H'. cbv zeta in H, H'.
    destruct (lock_batch pub_mac key d csz psz F Hpm csz1 psz1 u u' p p' Hu Hu' SC s sh _ (G (hist s)) SH (HG _) (proj2 (proj2 A1)) (proj2 (proj2 A1'))) as [Eb K2].
    pose proof (p_batch pub_mac _ _ threads (fun _ => F (hist s)) (fun _ => G (hist s)) (vole_ok_of key d u Hu) Hpm (fun _ => HG _)
                 _ _ _ s sh _ SH (apre_agree _ p A1)) as S1.
    cbv zeta in Eb, K2. rewrite <- Eb in *.
    set (p1 := ap_batch (vole_block (val_of u) (mac_of key d u)) (fun _ => G (hist s)) s) in *. clearbody p1.
    assert (X : p = p' /\ agr u u' (ap_vole p1) (ap_vole p)).
    { destruct (ap_buf p1).
      - split; [congruence|]. intros i Hi. assert (p1 = p) by congruence. subst. lia.
      - destruct (lock_manage pub_mac key d threads csz psz F Hpm csz1 psz1 u u' p p' Hu Hu' SC p1 _ _ (fun _ => F (hist p1)) p p' S1 H H' (prefix_refl _) (prefix_refl _)) as [X1 X2]. auto. }
    destruct X as [-> K3]. split; [|reflexivity].
    apply nth_ext with 0%N 0%N; [congruence|]. intros i Hi. change (val_of u (S i) = val_of u' (S i)).
    cbn [ap_init ap_vole] in K1.
    destruct (Nat.lt_ge_cases (S i) (ap_vole s)) as [Q|Q]; [apply K1; lia|].
    destruct (Nat.lt_ge_cases (S i) (ap_vole p1)) as [Q1|Q1]; [apply K2; lia|]. apply K3. lia.
  Qed.
  Lemma fvec_al al : (forall x, In x al <-> (x < prm)%N) -> forall v, fvec n v <-> length v = n /\ Forall (fun x => In x al) v.
  Proof.
    intros H v. unfold fvec. split; intros [L B]; split; auto; revert B; apply Forall_impl; intros x Hx; now apply H.
  Qed.
  Lemma acoins_onto ins outs w : witness c ins outs -> fvec n w -> exists u p, fvec n u /\ honest ins u = Some p /\ acoins c p = w.
  Proof.
    intros Wt Hw. destruct (alphabet prm) as (al & ND & HA).
    set (f := fun u => match honest ins u with Some p => acoins c p | None => [] end).
    destruct (winj_surj N.eq_dec al n f (fvec n) ND (fvec_al al HA)) with (w := w) as (u & Hu & Eu); auto.
    - intros v Hv. unfold f. destruct (ahonest_exists ins v) as [p E]. rewrite E. apply (acoins_vec ins outs v p Wt (proj2 Hv) E).
    - intros a b Ha Hb E. unfold f in E. destruct (ahonest_exists ins a) as [p Ea], (ahonest_exists ins b) as [q Eb].
      rewrite Ea, Eb in E. eapply ahonest_inj with (p := p) (p' := q); eauto.
    - unfold f in Eu. destruct (ahonest_exists ins u) as [p E]. rewrite E in Eu. eauto.
  Qed.
  Lemma asame_view ins ins' outs u u' p p' : witness c ins outs -> witness c ins' outs -> Forall canon u -> Forall canon u' ->
    honest ins u = Some p -> honest ins' u' = Some p' -> acoins c p = acoins c p' -> aview p = aview p'.
  Proof.
    intros W W' Hu Hu' H H' E.
    pose proof (aview_simulated ins outs u p W Hu H) as S. pose proof (aview_simulated ins' outs u' p' W' Hu' H') as S'.
    rewrite <- E, S in S'. congruence.
  Qed.
  Theorem aview_bijection ins ins' outs : witness c ins outs -> witness c ins' outs ->
    exists phi psi : list N -> list N,
      (forall u, fvec n u -> fvec n (phi u) /\ psi (phi u) = u) /\
      (forall u, fvec n u -> fvec n (psi u) /\ phi (psi u) = u) /\
      (forall u p p', fvec n u -> honest ins u = Some p -> honest ins' (phi u) = Some p' -> aview p = aview p').
  Proof.
    intros W W'. destruct (alphabet prm) as (al & ND & HA).
    assert (X : forall i j, witness c i outs -> witness c j outs -> exists f, forall u, fvec n u -> fvec n (f u) /\
              exists p p', honest i u = Some p /\ honest j (f u) = Some p' /\ acoins c p = acoins c p').
    { intros i j Wi Wj. apply (wchoice N.eq_dec al (fun u w => fvec n w /\ exists p p', honest i u = Some p /\ honest j w = Some p' /\ acoins c p = acoins c p') n (fvec n) [] (fvec_al al HA)).
      intros u Hu. destruct (ahonest_exists i u) as [p Hp].
      destruct (acoins_onto j outs (acoins c p) Wj) as [w [p' [Hw [Hp' Ec]]]].
      - apply (acoins_vec i outs u p Wi (proj2 Hu) Hp).
      - exists w. split; [exact Hw|]. exists p, p'. auto. }
    destruct (X ins ins' W W') as [phi Hphi], (X ins' ins W' W) as [psi Hpsi]. exists phi, psi. clear X.
    split; [|split].
    - intros u Hu. destruct (Hphi u Hu) as [Lp [p [p' [H1 [H2 E]]]]]. split; [exact Lp|].
      destruct (Hpsi _ Lp) as [Lq [q [q' [H3 [H4 E']]]]]. assert (q = p') by congruence. subst q.
      apply (ahonest_inj ins outs (psi (phi u)) u q' p W Lq Hu H4 H1). congruence.
    - intros u Hu. destruct (Hpsi u Hu) as [Lp [p [p' [H1 [H2 E]]]]]. split; [exact Lp|].
      destruct (Hphi _ Lp) as [Lq [q [q' [H3 [H4 E']]]]]. assert (q = p') by congruence. subst q.
      apply (ahonest_inj ins' outs (phi (psi u)) u q' p W' Lq Hu H4 H1). congruence.
    - intros u p p' Hu H1 H2. destruct (Hphi u Hu) as [Lw [q [q' [H3 [H4 E]]]]].
      assert (q = p) by congruence. assert (q' = p') by congruence. subst q q'.
      apply (asame_view ins ins' outs u (phi u) p p' W W' (proj2 Hu) (proj2 Lw) H1 H2 E).
  Qed.
  Theorem aview_uniform ins outs : witness c ins outs ->
    (forall u u' p p', fvec n u -> fvec n u' -> honest ins u = Some p -> honest ins u' = Some p' -> aview p = aview p' -> u = u') /\
    (forall t, (exists u p, fvec n u /\ honest ins u = Some p /\ aview p = t) <->
       (exists r, fvec n r /\ asimulate pub_mac key d threads csz psz F G c outs r = Some t)).
  Proof.
    intro W. split.
    - intros u u' p p' L L' H H' E. eapply ahonest_inj with (p := p) (p' := p'); eauto.
      unfold aview in E. unfold acoins. congruence.
    - intro t. split.
      + intros [u [p [L [H <-]]]]. exists (acoins c p). split; [apply (acoins_vec ins outs u p W (proj2 L) H)|]. apply (aview_simulated ins outs u p W (proj2 L) H).
      + intros [r [L S]]. destruct (acoins_onto ins outs r W L) as [u [p [Lu [H E]]]].
        exists u, p. split; [exact Lu|]. split; [exact H|].
        rewrite <- E, (aview_simulated ins outs u p W (proj2 Lu) H) in S. congruence.
  Qed.
End Bij.
