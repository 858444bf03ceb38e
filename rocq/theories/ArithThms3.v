(** Completeness of the arithmetic session: the honest prover's run is a shadow run with correct
    values, and the verifier accepts for every global key. *)
From Coq Require Import NArith List Bool Arith Lia Ring.
From Verif Require Import Word WordProofs FpModel FpProofs PolyRoots ListUtil Prime61 ArithModel ArithSpec ArithProofs ArithShadow ArithAlg ArithThms.
Import ListNotations.
Local Open Scope N_scope.
Ltac Zify.zify_post_hook ::= idtac.
Add Ring fp_ring : fp_rt.

Definition uvrel (u : N * N) (t : item) : Prop :=
  fst u < PR /\ snd u < PR /\ toF (fst u) = iA0 t /\ toF (snd u) = iA1 t.
Lemma uv_clt us its : Forall2 uvrel us its ->
  clt (map fst us) /\ clt (map snd us) /\ map toF (map fst us) = map iA0 its /\ map toF (map snd us) = map iA1 its.
Proof.
  induction 1 as [|u t us its (H1 & H2 & H3 & H4) _ (I1 & I2 & I3 & I4)].
  - repeat split; constructor.
  - cbn [map]. rewrite H3, H4, I3, I4. repeat split; auto; now constructor.
Qed.
Lemma prv_sum_ok buf its rs seed : Forall2 (fun g t => uvrel (a_prv_terms g) t) buf its ->
  let UV := a_prv_sum buf rs seed in
  fst UV < PR /\ snd UV < PR /\ toF (fst UV) = rsum (chiF seed) rs (map iA0 its) /\
  toF (snd UV) = rsum (chiF seed) rs (map iA1 its).
Proof.
  intro H.
  assert (H' : Forall2 uvrel (map a_prv_terms buf) its) by (clear -H; induction H; constructor; auto).
  destruct (uv_clt _ _ H') as (C1 & C2 & E1 & E2). unfold a_prv_sum, rsum. cbv zeta.
  set (F := fun (acc : N * N) (ir : nat * (nat * nat)) =>
     (add_mod (fst acc) (fst (a_prv_range buf (fst (snd ir)) (snd (snd ir)) (seed (fst ir)))),
      add_mod (snd acc) (snd (a_prv_range buf (fst (snd ir)) (snd (snd ir)) (seed (fst ir)))))).
  assert (G : forall l acc, fst acc < PR -> snd acc < PR ->
    fst (fold_left F l acc) < PR /\ snd (fold_left F l acc) < PR /\
    toF (fst (fold_left F l acc)) = padd (toF (fst acc)) (fold_right padd p0 (map (fun ir => fdot (chiF seed (fst ir) (snd (snd ir)))
        (aseg (fst (snd ir)) (snd (snd ir)) (map iA0 its))) l)) /\
    toF (snd (fold_left F l acc)) = padd (toF (snd acc)) (fold_right padd p0 (map (fun ir => fdot (chiF seed (fst ir) (snd (snd ir)))
        (aseg (fst (snd ir)) (snd (snd ir)) (map iA1 its))) l))).
  { induction l as [|[i [st n]] l IH]; intros acc A1 A2; cbn [fold_left map fold_right fst snd].
    - repeat split; auto; ring.
    - destruct (a_acc_ok (map fst (map a_prv_terms (aseg st n buf))) (a_chi (seed i) n) 0) as [R1 R2].
      { reflexivity. } { rewrite <- !aseg_map. now apply aseg_clt. } { apply a_chi_lt. }
      destruct (a_acc_ok (map snd (map a_prv_terms (aseg st n buf))) (a_chi (seed i) n) 0) as [R3 R4].
      { reflexivity. } { rewrite <- !aseg_map. now apply aseg_clt. } { apply a_chi_lt. }
      unfold F at 2 4 6 8. cbn [fst snd]. unfold a_prv_range. cbv zeta. cbn [fst snd].
      match goal with |- context[fold_left F l ?a] => destruct (IH a) as (I1 & I2 & I3 & I4) end.
      { cbn [fst]. apply am_lt; lia. } { cbn [snd]. apply am_lt; lia. }
      repeat split; auto.
      + rewrite I3. cbn [fst]. rewrite am_F, R2, toF_0 by lia. rewrite <- !aseg_map, E1. unfold chiF. ring.
      + rewrite I4. cbn [snd]. rewrite am_F, R4, toF_0 by lia. rewrite <- !aseg_map, E2. unfold chiF. ring. }
  destruct (G (combine (seq 0 (length rs)) rs) (0, 0)) as (G1 & G2 & G3 & G4); [reflexivity..|].
  change (fun (acc : N * N) (ir : nat * (nat * nat)) => _) with F. cbn [fst snd] in *.
  repeat split; auto; [rewrite G3|rewrite G4]; rewrite toF_0; ring.
Qed.
Lemma prv_msg_ok UV ope mx U V : fst UV < PR -> snd UV < PR -> toF (fst UV) = U -> toF (snd UV) = V -> brel ope mx ->
  a_prv_msg UV ope = (fv (padd U (fst mx)), fv (padd V (snd mx))).
Proof.
  intros H1 H2 E1 E2 B. destruct (b_lo _ _ B) as [L1 L2], (b_hi _ _ B) as [L3 L4].
  unfold a_prv_msg. rewrite <- E1, <- E2, <- L2, <- L4, <- !am_F by lia. rewrite !fv_toF.
  rewrite !N.mod_small; [reflexivity|apply am_lt; lia..].
Qed.
Lemma p_poly xs ys px py c0 cs : Forall2 brel xs px -> Forall2 brel ys py -> clt cs ->
  uvrel (poly_prv xs ys (c0 :: cs)) (poly_item px py cs c0).
Proof.
  intros Hx Hy Hc. unfold poly_prv, poly_item. cbn [tl]. cbv zeta.
  pose proof (Forall2_combine _ _ _ _ _ cs Hx Hy) as F. pose proof (combine_snd_clt (combine xs ys) cs Hc) as S.
  set (G := fun (acc : N * N) (xyc : N * N * N) =>
      (add_mod (fst acc) (fst (poly_prv_term (fst (fst xyc)) (snd (fst xyc)) (snd xyc))),
       add_mod (snd acc) (snd (poly_prv_term (fst (fst xyc)) (snd (fst xyc)) (snd xyc))))).
  set (P := fun (t : pair * pair * N) (acc : item) =>
      (padd (pmul (toF (snd t)) (pmul (fst (fst (fst t))) (fst (snd (fst t))))) (iA0 acc),
       padd (pmul (toF (snd t)) (padd (pmul (fst (fst (fst t))) (snd (snd (fst t)))) (pmul (fst (snd (fst t))) (snd (fst (fst t)))))) (iA1 acc),
       padd (pmul (toF (snd t)) (pmul (snd (fst (fst t))) (snd (snd (fst t))))) (iE acc))).
  change (fold_left _ (combine (combine xs ys) cs) (0, 0)) with (fold_left G (combine (combine xs ys) cs) (0, 0)).
  change (fold_right _ (p0, p0, toF c0) (combine (combine px py) cs)) with (fold_right P (p0, p0, toF c0) (combine (combine px py) cs)).
  assert (K : forall lk l, Forall2 (fun a b => brel (fst (fst a)) (fst (fst b)) /\
      brel (snd (fst a)) (snd (fst b)) /\ snd a = snd b) lk l -> Forall (fun t => snd t < PR) lk ->
    forall acc, fst acc < PR -> snd acc < PR ->
    fst (fold_left G lk acc) < PR /\ snd (fold_left G lk acc) < PR /\
    toF (fst (fold_left G lk acc)) = padd (toF (fst acc)) (iA0 (fold_right P (p0, p0, toF c0) l)) /\
    toF (snd (fold_left G lk acc)) = padd (toF (snd acc)) (iA1 (fold_right P (p0, p0, toF c0) l))).
  { induction 1 as [|[[a b] c] [[x y] c'] lk l [E1 [E2 E3]] _ IH]; intros Hs acc A1 A2.
    - cbn [fold_left fold_right]. unfold iA0, iA1. cbn [fst snd]. repeat split; auto; ring.
    - cbn [fst snd] in *. subst c'. inversion_clear Hs as [|? ? Hs1 Hs2]. cbn [snd] in Hs1.
      destruct (b_lo _ _ E1) as [La1 La2], (b_hi _ _ E1) as [Ha1 Ha2].
      destruct (b_lo _ _ E2) as [Lb1 Lb2], (b_hi _ _ E2) as [Hb1 Hb2].
      cbn [fold_left fold_right]. unfold G at 2 4 6 8. cbn [fst snd]. unfold poly_prv_term. cbv zeta. cbn [fst snd].
      pose proof (mm_lt (lo64 a) (lo64 b) ltac:(lia) ltac:(lia)).
      pose proof (mm_lt (lo64 a) (hi64 b) ltac:(lia) ltac:(lia)).
      pose proof (mm_lt (lo64 b) (hi64 a) ltac:(lia) ltac:(lia)).
      pose proof (am_lt (mult_mod (lo64 a) (hi64 b)) (mult_mod (lo64 b) (hi64 a)) ltac:(lia) ltac:(lia)).
      pose proof (mm_lt c (mult_mod (lo64 a) (lo64 b)) ltac:(lia) ltac:(lia)).
      pose proof (mm_lt c (add_mod (mult_mod (lo64 a) (hi64 b)) (mult_mod (lo64 b) (hi64 a))) ltac:(lia) ltac:(lia)).
      match goal with |- context[fold_left G lk ?q] => destruct (IH Hs2 q) as (I1 & I2 & I3 & I4) end.
      { cbn [fst]. apply am_lt; lia. } { cbn [snd]. apply am_lt; lia. }
      repeat split; auto.
      + rewrite I3. cbn [fst]. rewrite am_F, !mm_F by lia. unfold P at 2. unfold iA0 at 2. cbn [fst snd].
        rewrite La2, Lb2. ring.
      + rewrite I4. cbn [snd]. rewrite am_F, (mm_F c), am_F, !mm_F by lia. unfold P at 2. unfold iA1 at 2. cbn [fst snd].
        rewrite La2, Lb2, Ha2, Hb2. ring. }
  destruct (K _ _ F S (0, 0)) as (K1 & K2 & K3 & K4); [reflexivity..|].
  split; [easy|]. split; [easy|]. rewrite K3, K4. cbn [fst snd]. rewrite toF_0. split; ring.
Qed.
Lemma brel_lt xs px : Forall2 brel xs px -> Forall (fun b => lo64 b < PR /\ hi64 b < PR) xs.
Proof. induction 1 as [|b p xs px B]; constructor; auto. split; [eapply b_lo|eapply b_hi]; eauto. Qed.
Lemma mm1 x : x < PR -> mult_mod 1 x = x.
Proof. intro. rewrite mult_mod_ok by (unfold PR in *; lia). rewrite N.mul_1_l. now apply N.mod_small. Qed.
Lemma inner_as_poly_prv xs ys c : Forall (fun b => lo64 b < PR /\ hi64 b < PR) xs ->
  Forall (fun b => lo64 b < PR /\ hi64 b < PR) ys -> length ys = length xs ->
  inner_prv xs ys = poly_prv xs ys (c :: ones (length xs)).
Proof.
  unfold inner_prv, poly_prv. cbn [tl]. generalize (0, 0) as acc. intros acc Hx. revert ys acc.
  induction Hx as [|x xs [X1 X2] Hx IH]; intros ys acc Hy Hl; [reflexivity|].
  destruct ys as [|y ys]; [discriminate|]. inversion_clear Hy as [|? ? [Y1 Y2] Hy'].
  cbn [length combine repeat ones fold_left fst snd]. 
  assert (T : poly_prv_term x y 1 = (mult_mod (lo64 x) (lo64 y),
     add_mod (mult_mod (lo64 x) (hi64 y)) (mult_mod (lo64 y) (hi64 x)))).
  { unfold poly_prv_term. cbv zeta.
    rewrite !mm1; [reflexivity|apply am_lt; [apply mm_lt; lia|apply N.lt_le_incl, mm_lt; lia]|apply mm_lt; lia]. }
  rewrite T. cbn [fst snd]. apply IH; auto.
Qed.
Lemma p_inner xs ys px py c : Forall2 brel xs px -> Forall2 brel ys py -> length ys = length xs ->
  uvrel (inner_prv xs ys) (poly_item px py (ones (length xs)) c).
Proof.
  intros Hx Hy Hl. rewrite (inner_as_poly_prv xs ys c); eauto using brel_lt. apply p_poly; auto.
  clear. induction (length xs); constructor; auto. reflexivity.
Qed.

Section Complete.
  Variables (pub_mac : N) (pU pMac : nat -> N) (threads csz psz : nat).
  Variables (seeds : nat -> nat -> N) (pseeds : nat -> N).
  Hypothesis Hv : vole_ok pU pMac.
  Hypothesis Hpm : pub_mac < PR.
  Hypothesis Hps : forall k, pseeds k < W64.
  Variables (words : nat -> N) (chkmsg pchkmsg : nat -> N * N).
  Notation pV := (vole_block pU pMac).
  Notation pstep := (ap_step pub_mac pV threads csz psz seeds pseeds).
  Notation step := (s_step pub_mac pU pMac threads csz psz seeds pseeds words chkmsg pchkmsg).
  Definition agree {A} (f : nat -> A) (l : list A) : Prop := forall k x, nth_error l k = Some x -> f k = x.
  Definition agree3 (p : apst) : Prop :=
    agree words (ap_words p) /\ agree chkmsg (ap_msgs p) /\ agree pchkmsg (ap_pmsgs p).
  Lemma agree_prefix {A} (f : nat -> A) l l' : agree f (l ++ l') -> agree f l.
  Proof.
    intros H k x E. apply H. rewrite nth_error_app1; [easy|]. apply nth_error_Some. congruence.
  Qed.
  Lemma agree_last {A} (f : nat -> A) l x : agree f (l ++ [x]) -> f (length l) = x.
  Proof. intro H. apply H. rewrite nth_error_app2 by lia. now rewrite Nat.sub_diag. Qed.
  Definition pre (p p' : apst) : Prop := exists a b c, ap_words p' = ap_words p ++ a /\
    ap_msgs p' = ap_msgs p ++ b /\ ap_pmsgs p' = ap_pmsgs p ++ c.
  Lemma pre_refl p : pre p p. Proof. exists [], [], []. now rewrite !app_nil_r. Qed.
  Lemma pre_trans p q r : pre p q -> pre q r -> pre p r.
  Proof.
    intros (a & b & c & E1 & E2 & E3) (a' & b' & c' & F1 & F2 & F3). exists (a ++ a'), (b ++ b'), (c ++ c').
    rewrite F1, F2, F3, E1, E2, E3, !app_assoc. auto.
  Qed.
  Lemma pre_agree p p' : pre p p' -> agree3 p' -> agree3 p.
  Proof.
    intros (a & b & c & E1 & E2 & E3) (A1 & A2 & A3). rewrite E1 in A1. rewrite E2 in A2. rewrite E3 in A3.
    split; [|split]; eapply agree_prefix; eauto.
  Qed.
  Lemma pre_manage p p' : ap_manage pV threads seeds p = Some p' -> pre p p'.
  Proof.
    unfold ap_manage. destruct (a_ranges _ _); [|discriminate]. intro E. injection E as <-.
    eexists [], [_], []. cbn. now rewrite !app_nil_r.
  Qed.
  Lemma pre_batch p : pre p (ap_batch pV pseeds p).
  Proof.
    unfold ap_batch. destruct (ap_poly p); [apply pre_refl|]. eexists [], [], [_]. cbn. now rewrite !app_nil_r.
  Qed.
  Lemma pre_queue p t : pre p (ap_queue pV psz pseeds p t).
  Proof.
    unfold ap_queue. apply (pre_trans _ (if Nat.leb psz (length (ap_poly p)) then ap_batch pV pseeds p else p)).
    - destruct (Nat.leb _ _); [apply pre_batch|apply pre_refl].
    - exists [], [], []. cbn. now rewrite !app_nil_r.
  Qed.
  Lemma pre_step p g p' : pstep p g = Some p' -> pre p p'.
  Proof.
    destruct g; cbn [ap_step]; intro E; try (injection E as <-; exists [], [], []; cbn; now rewrite !app_nil_r).
    - injection E as <-. eexists [_], [], []. cbn. now rewrite !app_nil_r.
    - unfold ap_precheck in E.
      assert (T : forall q, pre q {| ap_w := ap_w q ++ [fst (a_prv_mul (pV (ap_vole q)) (awire (ap_w q) i) (awire (ap_w q) j))];
         ap_buf := ap_buf q ++ [(awire (ap_w q) i, awire (ap_w q) j, fst (a_prv_mul (pV (ap_vole q)) (awire (ap_w q) i) (awire (ap_w q) j)))];
         ap_poly := ap_poly q; ap_hash := ap_hash q; ap_vole := S (ap_vole q); ap_chk := ap_chk q; ap_pchk := ap_pchk q;
         ap_words := ap_words q ++ [snd (a_prv_mul (pV (ap_vole q)) (awire (ap_w q) i) (awire (ap_w q) j))];
         ap_msgs := ap_msgs q; ap_pmsgs := ap_pmsgs q; ap_outs := ap_outs q |}).
      { intro q. eexists [_], [], []. cbn. now rewrite !app_nil_r. }
      destruct (Nat.eqb _ _).
      + destruct (ap_manage _ _ _ p) as [p1|] eqn:Em; [|discriminate]. injection E as <-.
        apply (pre_trans _ p1); [eapply pre_manage; eauto|].
        apply (pre_trans _ (ap_clear p1)); [exists [], [], []; cbn; now rewrite !app_nil_r|apply T].
      + injection E as <-. apply T.
    - injection E as <-. eexists [_], [], []. cbn. now rewrite !app_nil_r.
    - injection E as <-. eexists [_], [], []. cbn. now rewrite !app_nil_r.
    - injection E as <-. apply pre_queue.
    - injection E as <-. apply pre_queue.
  Qed.
  Lemma pre_run c : forall p p', ap_run pub_mac pV threads csz psz seeds pseeds p c = Some p' -> pre p p'.
  Proof.
    induction c as [|g c IH]; intros p p' E; cbn [ap_run] in E; [injection E as <-; apply pre_refl|].
    destruct (pstep p g) as [p1|] eqn:Es; [|discriminate]. eapply pre_trans; [eapply pre_step; eauto|eauto].
  Qed.
  (** honest message of a check *)
  Definition hmsg (ci : cinst) : Prop :=
    ci_msg ci = (fv (padd (rsum (chiF (ci_seed ci)) (ci_rs ci) (map iA0 (ci_items ci))) (fst (ci_ope ci))),
                 fv (padd (rsum (chiF (ci_seed ci)) (ci_rs ci) (map iA1 (ci_items ci))) (snd (ci_ope ci)))).
  Definition zE (l : list item) : Prop := Forall (fun t => iE t = p0) l.
  Record psim (p : apst) (s : asst) (q : apl) : Prop := {
    ps_w : Forall2 brel (ap_w p) (s_w s);
    ps_b : Forall2 (fun g t => uvrel (a_prv_terms g) t) (ap_buf p) (s_buf s);
    ps_q : Forall2 uvrel (ap_poly p) (s_poly s);
    ps_h : ap_hash p = map (fun r => fv (fst (fst r))) (s_rev s);
    ps_v : ap_vole p = s_vole s; ps_c : ap_chk p = s_chk s; ps_pc : ap_pchk p = s_pchk s;
    ps_lw : length (ap_words p) = s_words s; ps_lm : length (ap_msgs p) = s_chk s;
    ps_lp : length (ap_pmsgs p) = s_pchk s;
    ps_o : ap_outs p = s_outs s; ps_po : pl_outs q = s_outs s;
    ps_pw : pl_w q = map pv (s_w s);
    ps_wl : Forall (fun w => w < PR) (ap_words p);
    ps_zb : zE (s_buf s);
    ps_m : Forall (fun ci => hmsg ci /\ zE (ci_items ci)) (s_m s);
    ps_p : Forall hmsg (s_p s);
    ps_ok : pl_ok q = true -> zE (s_poly s) /\ Forall (fun ci => zE (ci_items ci)) (s_p s) /\
            Forall (fun r => snd r = fv (snd (fst r))) (s_rev s) /\ Forall (fun e => fst e = snd e) (s_exp s) }.
  Lemma b_vole i : brel (pV i) (sV pU pMac i).
  Proof.
    destruct (Hv i) as [A B]. exists (pU i), (pMac i). repeat split; auto.
  Qed.
  Lemma psim_wire p s q i : psim p s q -> brel (awire (ap_w p) i) (apair (s_w s) i).
  Proof.
    intro S. pose proof (ps_w _ _ _ S) as F. unfold awire, apair. clear S. revert i.
    induction F as [|k x ks xs Hk F IH]; intros [|i]; cbn; auto using b_zero.
  Qed.
  Lemma psim_wires p s q is : psim p s q -> Forall2 brel (awires (ap_w p) is) (map (apair (s_w s)) is).
  Proof. intro S. induction is; cbn; constructor; auto. eapply psim_wire; eauto. Qed.
  Lemma p_manage p s q p' : psim p s q -> agree3 p' -> ap_manage pV threads seeds p = Some p' ->
    exists s', s_manage pU pMac threads seeds chkmsg s = Some s' /\ psim p' s' q.
  Proof.
    intros S A E. unfold ap_manage in E. unfold s_manage.
    rewrite <- (F2_length _ _ _ (ps_b _ _ _ S)). destruct (a_ranges threads (length (ap_buf p))) as [rs|]; [|discriminate].
    injection E as <-. eexists. split; [reflexivity|].
    destruct A as (_ & A & _). cbn [ap_msgs] in A. apply agree_last in A.
    destruct (prv_sum_ok (ap_buf p) (s_buf s) rs (seeds (s_chk s)) (ps_b _ _ _ S)) as (U1 & U2 & U3 & U4).
    destruct S; split; cbn; auto; try (f_equal; congruence); try (rewrite app_length; cbn; lia).
    apply Forall_app. split; auto. constructor; [|constructor]. split; [|exact ps_zb0].
    unfold hmsg. cbn [ci_msg ci_seed ci_rs ci_items ci_ope]. rewrite <- ps_lm0, A, ps_c0, ps_v0.
    rewrite ps_lm0. apply prv_msg_ok; auto. apply b_vole.
  Qed.
  Lemma p_batch p s q : psim p s q -> agree3 (ap_batch pV pseeds p) ->
    psim (ap_batch pV pseeds p) (s_batch pU pMac pseeds pchkmsg s) q.
  Proof.
    intros S A. unfold ap_batch, s_batch in *. pose proof (ps_q _ _ _ S) as Q.
    destruct (ap_poly p) as [|b bs] eqn:Eb; destruct (s_poly s) as [|t ts] eqn:Et; [easy|inversion Q|inversion Q|].
    rewrite <- Eb, <- Et in *. assert (HQ : s_poly s <> []) by (rewrite Et; discriminate). clear Eb Et.
    destruct A as (_ & _ & A). cbn [ap_pmsgs] in A. apply agree_last in A.
    pose proof (F2_length _ _ _ Q) as Hl. destruct (uv_clt _ _ Q) as (C1 & C2 & E1 & E2).
    assert (Hseed : mod1 (pseeds (s_pchk s)) < PR) by (rewrite mod1_correct by apply Hps; apply mod_PR_lt).
    assert (Hc := chi_lt (mod1 (pseeds (s_pchk s))) (length (s_poly s)) Hseed).
    destruct (inn_ok (uni_hash_coeff_gen (mod1 (pseeds (s_pchk s))) (length (s_poly s))) (map fst (ap_poly p)) 0) as [I1 I2]; auto.
    { reflexivity. }
    destruct (inn_ok (uni_hash_coeff_gen (mod1 (pseeds (s_pchk s))) (length (s_poly s))) (map snd (ap_poly p)) 0) as [I3 I4]; auto.
    { reflexivity. }
    assert (X : forall l, length l = length (s_poly s) ->
      rsum (chiF (fun _ => lo64 (pseeds (s_pchk s)))) [(0%nat, length (s_poly s))] l =
      padd (toF 0) (fdot (map toF (uni_hash_coeff_gen (mod1 (pseeds (s_pchk s))) (length (s_poly s)))) l)).
    { intros l L. unfold rsum. cbn [length seq combine map fold_right fst snd].
      unfold aseg. cbn [skipn]. rewrite firstn_all2 by lia.
      unfold chiF, a_chi, lo64. rewrite !(N.mod_small (pseeds _) W64) by apply Hps. rewrite toF_0. ring. }
    destruct S; split; cbn; auto; try (f_equal; congruence); try (rewrite app_length; cbn; lia).
    - apply Forall_app. split; auto. constructor; [|constructor].
      unfold hmsg. cbn [ci_msg ci_seed ci_rs ci_items ci_ope]. rewrite <- ps_lp0, A, ps_pc0, ps_v0, Hl.
      rewrite ps_lp0, !X by now rewrite map_length. rewrite <- E1, <- E2. apply prv_msg_ok; auto. apply b_vole.
    - intro Hok. destruct (ps_ok0 Hok) as (Z1 & Z2 & Z3 & Z4). split; [constructor|]. split; [|auto].
      apply Forall_app. split; auto.
  Qed.
  Lemma p_queue p s q ok u t : psim p s q -> agree3 (ap_queue pV psz pseeds p u) -> uvrel u t ->
    (ok = true -> iE t = p0) ->
    psim (ap_queue pV psz pseeds p u) (s_queue pU pMac psz pseeds pchkmsg s t)
         {| pl_w := pl_w q; pl_outs := pl_outs q; pl_ok := pl_ok q && ok |}.
  Proof.
    intros S A I Hok. unfold ap_queue, s_queue in *. rewrite <- (F2_length _ _ _ (ps_q _ _ _ S)).
    assert (S' : psim (if Nat.leb psz (length (ap_poly p)) then ap_batch pV pseeds p else p)
                      (if Nat.leb psz (length (ap_poly p)) then s_batch pU pMac pseeds pchkmsg s else s) q).
    { destruct (Nat.leb _ _); [apply p_batch; auto|easy]. }
    revert S'. clear A. generalize (if Nat.leb psz (length (ap_poly p)) then ap_batch pV pseeds p else p).
    generalize (if Nat.leb psz (length (ap_poly p)) then s_batch pU pMac pseeds pchkmsg s else s). clear S.
    intros s1 p1 S. destruct S; split; cbn; auto.
    - apply Forall2_app; auto.
    - intro H. apply andb_prop in H. destruct H as [H1 H2]. destruct (ps_ok0 H1) as (Z1 & Z2 & Z3 & Z4).
      split; [|auto]. apply Forall_app. split; auto. 
  Qed.
  Lemma p_add p s q w x v : psim p s q -> brel w x -> v = pv x ->
    psim (ap_add p w) (s_add s x) {| pl_w := pl_w q ++ [v]; pl_outs := pl_outs q; pl_ok := pl_ok q |}.
  Proof.
    intros S B ->. destruct S; split; cbn; auto.
    - apply Forall2_app; auto.
    - rewrite map_app, ps_pw0. reflexivity.
  Qed.
  Lemma b_new p s q w x : psim p s q -> toF w = psub (toF (pU (s_vole s))) x ->
    agree words (ap_words p ++ [w]) -> (toF (pMac (s_vole s)), x) = s_new pU pMac words s.
  Proof.
    intros S E A. apply agree_last in A. rewrite (ps_lw _ _ _ S) in A. unfold s_new. rewrite A, E. f_equal. ring.
  Qed.
  Lemma p_step p s q g p' : psim p s q -> wf_honest g -> pstep p g = Some p' -> agree3 p' ->
    exists s', step s g = Some s' /\ psim p' s' (pl_step q g).
  Proof.
    intros S [Hwf Hh] E A.
    assert (V : forall i, pval (pl_w q) i = pv (apair (s_w s) i)) by (intro; rewrite (ps_pw _ _ _ S); apply pval_pv).
    assert (B := fun i => psim_wire p s q i S).
    destruct g as [x|b|i j|i c|i j|i j|i c|i|i e|i|xs ys cf|xs ys c]; cbn [s_step ap_step pl_step wf_pub] in *.
    - destruct (a_prv_input (pV (ap_vole p)) x) as [w lam] eqn:Ei. injection E as <-. eexists. split; [reflexivity|].
      destruct (b_input (pV (ap_vole p)) _ x (b_vole _) Hh) as (I1 & I2 & I3). rewrite Ei in I1, I2, I3. cbn [fst snd sV] in *.
      rewrite (ps_v _ _ _ S) in I1, I3.
      destruct A as (A & _ & _). cbn [ap_words] in A. pose proof (b_new _ _ _ _ _ S I3 A) as N.
      destruct S; split; cbn; auto; try (f_equal; congruence).
      + rewrite <- N. apply Forall2_app; auto.
      + rewrite app_length. cbn. lia.
      + rewrite <- N, map_app, ps_pw0. reflexivity.
      + apply Forall_app. split; auto.
    - injection E as <-. eexists. split; [reflexivity|]. apply p_add; auto. now apply b_pub.
    - injection E as <-. eexists. split; [reflexivity|]. rewrite !V. apply p_add; auto. now apply b_add.
    - injection E as <-. eexists. split; [reflexivity|]. rewrite !V. apply p_add; auto.
      + apply b_mulc; auto. now apply N.lt_le_incl.
      + unfold pv. cbn [snd]. rewrite fv_pmul, fv_toF, prm_PR, N.mul_mod_idemp_r by discriminate. reflexivity.
    - destruct (ap_precheck _ _ _ _ p) as [p1|] eqn:Ep; [|discriminate].
      set (q1 := {| pl_w := pl_w q; pl_outs := pl_outs q; pl_ok := pl_ok q |}).
      assert (HP : agree3 p1 -> exists s1, s_precheck pU pMac threads csz seeds chkmsg s = Some s1 /\ psim p1 s1 q /\ s_w s1 = s_w s).
      { unfold ap_precheck in Ep. unfold s_precheck. rewrite <- (F2_length _ _ _ (ps_b _ _ _ S)).
        intro A1. destruct (Nat.eqb _ _).
        - destruct (ap_manage _ _ _ p) as [p2|] eqn:Em; [|discriminate]. injection Ep as <-.
          destruct (p_manage p s q p2 S A1 Em) as (s2 & E2 & S2). rewrite E2. eexists. split; [reflexivity|]. split.
          + destruct S2; split; cbn; auto. constructor.
          + unfold s_manage in E2. destruct (a_ranges _ _); [|discriminate]. now injection E2 as <-.
        - injection Ep as <-. exists s. auto. }
      destruct (a_prv_mul (pV (ap_vole p1)) (awire (ap_w p1) i) (awire (ap_w p1) j)) as [w dd] eqn:Em.
      injection E as <-.
      assert (A1 : agree3 p1).
      { destruct A as (A1 & A2 & A3). cbn in A1, A2, A3. split; [eapply agree_prefix; eauto|auto]. }
      destruct (HP A1) as (s1 & Es1 & S1 & Hw1). rewrite Es1. eexists. split; [reflexivity|].
      rewrite <- Hw1 in *. clear HP S B Hw1.
      assert (B := fun i => psim_wire p1 s1 q i S1).
      destruct (b_mul (pV (ap_vole p1)) _ _ _ _ _ (b_vole _) (B i) (B j)) as (I1 & I2 & I3).
      rewrite Em in I1, I2, I3. cbn [fst snd sV] in *. rewrite (ps_v _ _ _ S1) in I1, I3.
      destruct A as (A & _ & _). cbn [ap_words] in A. pose proof (b_new _ _ _ _ _ S1 I3 A) as N.
      rewrite !V.
      destruct S1; split; cbn; auto; try (f_equal; congruence).
      + rewrite <- N. apply Forall2_app; auto.
      + rewrite <- N. apply Forall2_app; auto. constructor; [|constructor]. apply p_terms; auto.
      + rewrite app_length. cbn. lia.
      + rewrite <- N, map_app, ps_pw0. reflexivity.
      + apply Forall_app. split; auto.
      + apply Forall_app. split; auto. constructor; [|constructor]. rewrite <- N. unfold mul_item, iE. cbn [fst snd]. ring.
    - injection E as <-. eexists. split; [reflexivity|]. rewrite !V. apply p_add; auto; [now apply b_sub|].
      unfold pv. cbn [snd]. symmetry. apply fv_psub.
    - injection E as <-. eexists. split; [reflexivity|]. rewrite !V. apply p_add; auto.
      + apply b_addc; auto. now apply N.lt_le_incl.
      + unfold pv. cbn [snd]. rewrite fv_padd, fv_toF, prm_PR, N.add_mod_idemp_r by discriminate. reflexivity.
    - injection E as <-. eexists. split; [reflexivity|]. destruct A as (A & _ & _). cbn [ap_words ap_reveal] in A.
      apply agree_last in A. rewrite (ps_lw _ _ _ S) in A.
      destruct (b_lo _ _ (B i)) as [L1 L2], (b_hi _ _ (B i)) as [H1 H2].
      assert (HV : hi64 (awire (ap_w p) i) = fv (snd (apair (s_w s) i))).
      { rewrite <- H2, fv_toF, N.mod_small; auto. }
      assert (HM : lo64 (awire (ap_w p) i) = fv (fst (apair (s_w s) i))).
      { rewrite <- L2, fv_toF, N.mod_small; auto. }
      rewrite !V. destruct S; split; cbn; auto; try (f_equal; congruence).
      + rewrite map_app, HM, ps_h0. reflexivity.
      + rewrite app_length. cbn. lia.
      + rewrite ps_po0, A, HV. reflexivity.
      + apply Forall_app. split; auto.
      + intro Hok. destruct (ps_ok0 Hok) as (Z1 & Z2 & Z3 & Z4). split; [auto|split; [auto|split; [|auto]]].
        apply Forall_app. split; auto. constructor; [|constructor]. cbn [fst snd]. now rewrite A.
    - injection E as <-. eexists. split; [reflexivity|]. destruct A as (A & _ & _). cbn [ap_words ap_reveal] in A.
      apply agree_last in A. rewrite (ps_lw _ _ _ S) in A.
      destruct (b_lo _ _ (B i)) as [L1 L2], (b_hi _ _ (B i)) as [H1 H2].
      assert (HV : hi64 (awire (ap_w p) i) = fv (snd (apair (s_w s) i))).
      { rewrite <- H2, fv_toF, N.mod_small; auto. }
      assert (HM : lo64 (awire (ap_w p) i) = fv (fst (apair (s_w s) i))).
      { rewrite <- L2, fv_toF, N.mod_small; auto. }
      rewrite !V. destruct S; split; cbn; auto; try (f_equal; congruence).
      + rewrite map_app, HM, ps_h0. reflexivity.
      + rewrite app_length. cbn. lia.
      + apply Forall_app. split; auto.
      + intro Hok. apply andb_prop in Hok. destruct Hok as [Hok He].
        destruct (ps_ok0 Hok) as (Z1 & Z2 & Z3 & Z4). split; [auto|split; [auto|split]].
        * apply Forall_app. split; auto. constructor; [|constructor]. cbn [fst snd]. now rewrite A.
        * apply Forall_app. split; auto. constructor; [|constructor]. cbn [fst snd].
          rewrite A, HV. apply N.eqb_eq in He. unfold pv in He. rewrite He. apply N.mod_small. exact Hh.
    - injection E as <-. eexists. split; [reflexivity|].
      destruct (b_lo _ _ (B i)) as [L1 L2].
      assert (HM : lo64 (awire (ap_w p) i) = fv (fst (apair (s_w s) i))).
      { rewrite <- L2, fv_toF, N.mod_small; auto. }
      rewrite !V. destruct S; split; cbn; auto; try (f_equal; congruence).
      + rewrite map_app, HM, ps_h0. reflexivity.
      + intro Hok. apply andb_prop in Hok. destruct Hok as [Hok He].
        destruct (ps_ok0 Hok) as (Z1 & Z2 & Z3 & Z4). split; [auto|split; [auto|split; [|auto]]].
        apply Forall_app. split; auto. constructor; [|constructor]. cbn [fst snd].
        apply N.eqb_eq in He. now symmetry.
    - injection E as <-. eexists. split; [reflexivity|]. destruct Hwf as [W1 [W2 W3]].
      destruct cf as [|c0 cs]; [discriminate|]. cbn [tl hd]. inversion_clear W3.
      apply p_queue; auto.
      + apply p_poly; auto; eapply psim_wires; eauto.
      + intro Hz. apply N.eqb_eq in Hz. apply fv_inj. change (ev (poly_item (map (apair (s_w s)) xs) (map (apair (s_w s)) ys) cs c0) = 0).
        rewrite poly_item_E, !map_map. rewrite <- Hz. f_equal; apply map_ext; intro; symmetry; apply V.
    - injection E as <-. eexists. split; [reflexivity|]. destruct Hwf as [W1 W2].
      apply p_queue; auto.
      + pose proof (p_inner (awires (ap_w p) xs) (awires (ap_w p) ys) _ _ c (psim_wires p s q xs S) (psim_wires p s q ys S)) as I.
        unfold awires in *. rewrite !map_length in I. now apply I.
      + intro Hz. apply N.eqb_eq in Hz. apply fv_inj. change (ev (poly_item (map (apair (s_w s)) xs) (map (apair (s_w s)) ys) (ones (length xs)) c) = 0).
        rewrite poly_item_E, !map_map. rewrite <- Hz. f_equal; apply map_ext; intro; symmetry; apply V.
  Qed.
  Lemma p_run c : forall p s q p', psim p s q -> Forall wf_honest c ->
    ap_run pub_mac pV threads csz psz seeds pseeds p c = Some p' -> agree3 p' ->
    exists s', s_run pub_mac pU pMac threads csz psz seeds pseeds words chkmsg pchkmsg s c = Some s' /\
      psim p' s' (fold_left pl_step c q).
  Proof.
    induction c as [|g c IH]; intros p s q p' S Hwf E A; cbn [ap_run s_run fold_left] in *.
    - injection E as <-. exists s. auto.
    - destruct (pstep p g) as [p1|] eqn:Es; [|discriminate]. inversion_clear Hwf.
      assert (A1 : agree3 p1) by (eapply pre_agree; [eapply pre_run; eauto|easy]).
      destruct (p_step p s q g p1 S H Es A1) as (s1 & E1 & S1). rewrite E1. eauto.
  Qed.
  Lemma p_exec c p' : Forall wf_honest c ->
    ap_exec pub_mac pV threads csz psz seeds pseeds c = Some p' -> agree3 p' ->
    exists s', s_exec pub_mac pU pMac threads csz psz seeds pseeds words chkmsg pchkmsg c = Some s' /\
      psim p' s' (aplain c).
  Proof.
    intros Hwf E A. unfold ap_exec in E. destruct (ap_run _ _ _ _ _ _ _ ap_init c) as [p1|] eqn:Er; [|discriminate].
    assert (P1 : pre (ap_batch pV pseeds p1) p').
    { unfold ap_final in E. cbv zeta in E. destruct (ap_buf _); [injection E as <-; apply pre_refl|]. eapply pre_manage; eauto. }
    assert (A1 : agree3 (ap_batch pV pseeds p1)) by (eapply pre_agree; eauto).
    assert (A0 : agree3 p1) by (eapply pre_agree; [apply pre_batch|easy]).
    destruct (p_run c ap_init s_init pl_init p1) as (s1 & E1 & S1); auto.
    { split; cbn; auto; try (intros _; repeat split; constructor); constructor. }
    pose proof (p_batch p1 s1 _ S1 A1) as S2.
    unfold s_exec. rewrite E1. unfold s_final. cbv zeta.
    unfold ap_final in E. cbv zeta in E.
    pose proof (F2_length _ _ _ (ps_b _ _ _ S2)) as L.
    destruct (ap_buf (ap_batch pV pseeds p1)) as [|g gs] eqn:Eg.
    - injection E as <-. destruct (s_buf (s_batch pU pMac pseeds pchkmsg s1)); [|discriminate]. eauto.
    - destruct (p_manage _ _ _ p' S2 A E) as (s2 & E2 & S3).
      destruct (s_buf (s_batch pU pMac pseeds pchkmsg s1)) eqn:Eb; [discriminate|]. eauto.
  Qed.
End Complete.
