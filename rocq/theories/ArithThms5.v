(** Arithmetic engine: the converse of soundness.  If every combined error vanishes, one fixed set
    of messages passes for every global key; consequence for multiplications outside the split. *)
From Coq Require Import NArith List Bool Arith Lia Ring.
From Verif Require Import Word WordProofs FpModel FpProofs PolyRoots ListUtil Prime61 BoolModel BoolSpec BoolThms
  ArithModel ArithSpec ArithProofs ArithShadow ArithAlg ArithThms ArithThms2 ArithThms3 ArithThms4.
Import ListNotations.
Local Open Scope N_scope.
Ltac Zify.zify_post_hook ::= idtac.
Add Ring fp_ring : fp_rt.

Definition strip (ci : cinst) := (ci_items ci, ci_rs ci, ci_seed ci, ci_ope ci).
Record same (s t : asst) : Prop := {
  sm_w : s_w s = s_w t; sm_b : s_buf s = s_buf t; sm_q : s_poly s = s_poly t; sm_r : s_rev s = s_rev t;
  sm_e : s_exp s = s_exp t; sm_o : s_outs s = s_outs t; sm_v : s_vole s = s_vole t; sm_c : s_chk s = s_chk t;
  sm_pc : s_pchk s = s_pchk t; sm_k : s_words s = s_words t;
  sm_m : map strip (s_m s) = map strip (s_m t); sm_p : map strip (s_p s) = map strip (s_p t) }.
Section Same.
  Variables (pub_mac : N) (pU pMac : nat -> N) (threads csz psz : nat).
  Variables (seeds : nat -> nat -> N) (pseeds : nat -> N) (words : nat -> N).
  Variables cm pm cm' pm' : nat -> N * N.
  Hypothesis Ht : (1 <= threads <= 32)%nat.
  Lemma same_manage s t : same s t -> exists s' t',
    s_manage pU pMac threads seeds cm s = Some s' /\ s_manage pU pMac threads seeds cm' t = Some t' /\ same s' t'.
  Proof.
    intro S. destruct S. unfold s_manage. rewrite sm_b0.
    destruct (a_ranges_defined threads (length (s_buf t)) Ht) as [rs ->]. eexists. eexists. split; [reflexivity|]. split; [reflexivity|].
    split; cbn; auto. rewrite !map_app, sm_m0. unfold strip at 2 4. cbn. now rewrite sm_c0, sm_v0.
  Qed.
  Lemma same_batch s t : same s t -> same (s_batch pU pMac pseeds pm s) (s_batch pU pMac pseeds pm' t).
  Proof.
    intro S. pose proof S as S'. destruct S. unfold s_batch. rewrite sm_q0. destruct (s_poly t); [easy|].
    split; cbn; auto. rewrite !map_app, sm_p0. unfold strip at 2 4. cbn. now rewrite sm_pc0, sm_v0.
  Qed.
  Lemma same_queue s t it : same s t -> same (s_queue pU pMac psz pseeds pm s it) (s_queue pU pMac psz pseeds pm' t it).
  Proof.
    intro S. unfold s_queue. rewrite (sm_q _ _ S).
    assert (S' : same (if Nat.leb psz (length (s_poly t)) then s_batch pU pMac pseeds pm s else s)
                      (if Nat.leb psz (length (s_poly t)) then s_batch pU pMac pseeds pm' t else t)).
    { destruct (Nat.leb _ _); auto using same_batch. }
    destruct S'. split; cbn; auto. now rewrite sm_q0.
  Qed.
  Lemma same_add s t w w' : same s t -> w = w' -> same (s_add s w) (s_add t w').
  Proof. intros S <-. destruct S. split; cbn; auto. now rewrite sm_w0. Qed.
  Lemma same_new s t : same s t -> s_new pU pMac words s = s_new pU pMac words t.
  Proof. intro S. unfold s_new. now rewrite (sm_v _ _ S), (sm_k _ _ S). Qed.
  Lemma same_step s t g : same s t -> exists s' t',
    s_step pub_mac pU pMac threads csz psz seeds pseeds words cm pm s g = Some s' /\
    s_step pub_mac pU pMac threads csz psz seeds pseeds words cm' pm' t g = Some t' /\ same s' t'.
  Proof.
    intro S. pose proof (same_new _ _ S) as En. pose proof (sm_w _ _ S) as Ew.
    destruct g; cbn [s_step]; rewrite ?Ew, ?En.
    - eexists. eexists. split; [reflexivity|]. split; [reflexivity|]. destruct S. split; cbn; auto; try congruence.
    - eexists. eexists. split; [reflexivity|]. split; [reflexivity|]. now apply same_add.
    - eexists. eexists. split; [reflexivity|]. split; [reflexivity|]. now apply same_add.
    - eexists. eexists. split; [reflexivity|]. split; [reflexivity|]. now apply same_add.
    - assert (P : exists s' t', s_precheck pU pMac threads csz seeds cm s = Some s' /\
        s_precheck pU pMac threads csz seeds cm' t = Some t' /\ same s' t').
      { unfold s_precheck. rewrite (sm_b _ _ S). destruct (Nat.eqb _ _).
        - destruct (same_manage s t S) as (s' & t' & -> & -> & S').
          eexists. eexists. split; [reflexivity|]. split; [reflexivity|]. destruct S'. split; cbn; auto.
        - eexists. eexists. split; [reflexivity|]. split; [reflexivity|]. easy. }
      destruct P as (s' & t' & -> & -> & S'). eexists. eexists. split; [reflexivity|]. split; [reflexivity|].
      pose proof (same_new _ _ S') as En'. rewrite En'. destruct S'. split; cbn; auto; congruence.
    - eexists. eexists. split; [reflexivity|]. split; [reflexivity|]. now apply same_add.
    - eexists. eexists. split; [reflexivity|]. split; [reflexivity|]. now apply same_add.
    - eexists. eexists. split; [reflexivity|]. split; [reflexivity|]. destruct S. split; cbn; auto; try congruence.
    - eexists. eexists. split; [reflexivity|]. split; [reflexivity|]. destruct S. split; cbn; auto; try congruence.
    - eexists. eexists. split; [reflexivity|]. split; [reflexivity|]. destruct S. split; cbn; auto; try congruence.
    - eexists. eexists. split; [reflexivity|]. split; [reflexivity|]. now apply same_queue.
    - eexists. eexists. split; [reflexivity|]. split; [reflexivity|]. now apply same_queue.
  Qed.
  Lemma same_run c : forall s t, same s t -> exists s' t',
    s_run pub_mac pU pMac threads csz psz seeds pseeds words cm pm s c = Some s' /\
    s_run pub_mac pU pMac threads csz psz seeds pseeds words cm' pm' t c = Some t' /\ same s' t'.
  Proof.
    induction c as [|g c IH]; intros s t S; cbn [s_run]; [eauto 6|].
    destruct (same_step s t g S) as (s1 & t1 & -> & -> & S1). now apply IH.
  Qed.
  Lemma same_exec c : exists s' t',
    s_exec pub_mac pU pMac threads csz psz seeds pseeds words cm pm c = Some s' /\
    s_exec pub_mac pU pMac threads csz psz seeds pseeds words cm' pm' c = Some t' /\ same s' t'.
  Proof.
    unfold s_exec. destruct (same_run c s_init s_init) as (s1 & t1 & -> & -> & S1); [now split|].
    unfold s_final. cbv zeta. pose proof (same_batch _ _ S1) as S2. rewrite (sm_b _ _ S2).
    destruct (s_buf (s_batch pU pMac pseeds pm' t1)); [eauto 6|]. now apply same_manage.
  Qed.
End Same.
Section Outs.
  Variables (pub_mac : N) (pU pMac : nat -> N) (threads csz psz : nat).
  Variables (seeds : nat -> nat -> N) (pseeds : nat -> N) (words : nat -> N).
  Variables cm pm : nat -> N * N.
  Lemma outs_run c : forall s s', s_run pub_mac pU pMac threads csz psz seeds pseeds words cm pm s c = Some s' ->
    s_outs s' = s_outs s ++ claimed words (s_words s) c.
  Proof.
    induction c as [|g c IH]; intros s s' E; cbn [s_run claimed] in *.
    - injection E as <-. now rewrite app_nil_r.
    - destruct (s_step _ _ _ _ _ _ _ _ _ _ _ s g) as [s1|] eqn:Es; [|discriminate].
      rewrite (IH s1 s' E). rewrite (s_step_words _ _ _ _ _ _ _ _ _ _ _ _ _ _ Es).
      destruct g; cbn [s_step] in Es; try (injection Es as <-; reflexivity).
      + unfold s_precheck, s_manage in Es. destruct (Nat.eqb _ _); [destruct (a_ranges _ _); [|discriminate]|];
          injection Es as <-; reflexivity.
      + injection Es as <-. cbn [s_reveal s_outs]. now rewrite <- app_assoc.
      + injection Es as <-. unfold s_queue. cbn [s_outs]. destruct (Nat.leb _ _); [|easy]. unfold s_batch. now destruct (s_poly s).
      + injection Es as <-. unfold s_queue. cbn [s_outs]. destruct (Nat.leb _ _); [|easy]. unfold s_batch. now destruct (s_poly s).
  Qed.
  Lemma outs_exec c s : s_exec pub_mac pU pMac threads csz psz seeds pseeds words cm pm c = Some s ->
    s_outs s = claimed words 0 c.
  Proof.
    unfold s_exec. destruct (s_run _ _ _ _ _ _ _ _ _ _ _ s_init c) as [s1|] eqn:Er; [|discriminate].
    intro E. transitivity (s_outs s1); [|exact (outs_run c s_init s1 Er)]. unfold s_final in E. cbv zeta in E.
    assert (R : s_outs (s_batch pU pMac pseeds pm s1) = s_outs s1) by (unfold s_batch; now destruct (s_poly s1)).
    rewrite <- R. destruct (s_buf _); [now injection E as <-|].
    unfold s_manage in E. destruct (a_ranges _ _); [|discriminate]. injection E as <-. reflexivity.
  Qed.
End Outs.
Definition hon (ci : cinst) : N * N :=
  (fv (padd (rsum (chiF (ci_seed ci)) (ci_rs ci) (map iA0 (ci_items ci))) (fst (ci_ope ci))),
   fv (padd (rsum (chiF (ci_seed ci)) (ci_rs ci) (map iA1 (ci_items ci))) (snd (ci_ope ci)))).
Lemma hon_strip a b : strip a = strip b -> hon a = hon b.
Proof. unfold strip, hon. intro E. injection E as -> -> -> ->. reflexivity. Qed.
Definition hon_at (l : list cinst) (k : nat) : N * N := match nth_error l k with Some ci => hon ci | None => (0, 0) end.
Lemma hon_at_strip l l' k ci : map strip l = map strip l' -> nth_error l' k = Some ci -> hon_at l k = hon ci.
Proof.
  intros E H. unfold hon_at. assert (X : nth_error (map strip l) k = Some (strip ci)).
  { rewrite E, nth_error_map, H. reflexivity. }
  rewrite nth_error_map in X. destruct (nth_error l k) as [cj|]; [|discriminate].
  apply hon_strip. cbn [option_map] in X. congruence.
Qed.
Theorem vanishing_passes :
  forall pub_mac pU pMac threads csz psz seeds pseeds words c,
  (1 <= threads <= 32)%nat -> pub_mac < prm -> (forall k, pseeds k < 2 ^ 64) -> Forall wf_pub c -> words_ok words 0 c ->
  let cmt := acommit pU csz psz words c in
  (forall k errs rs, nth_error (mul_batches cmt) k = Some errs -> a_ranges threads (length errs) = Some rs ->
     a_combined rs (a_chal seeds k) errs = 0) ->
  (forall k errs, nth_error (rel_batches cmt) k = Some errs ->
     a_combined [(0%nat, length errs)] (fun _ => pseeds k mod prm) errs = 0) ->
  Forall (fun r => snd r = fst r) (ac_rev cmt) -> Forall (fun e => fst e = snd e) (ac_exp cmt) ->
  exists chkmsg pchkmsg hin, forall (D : Type) (Deqb : D -> D -> bool) (H : list N -> D) d,
    (forall a, Deqb a a = true) -> d < prm ->
    exists v, av_exec pub_mac (vole_key pU pMac d) d threads csz psz seeds pseeds words chkmsg pchkmsg c = Some v /\
      av_outcome Deqb H v (H hin) = (false, false) /\ av_outs v = claimed words 0 c.
Proof.
  intros pub_mac pU pMac threads csz psz seeds pseeds words c Ht Hpm Hps Hwf Hw cmt Zm Zp Zr Ze.
  set (z := fun _ : nat => (0, 0)).
  destruct (same_exec pub_mac pU pMac threads csz psz seeds pseeds words z z z z Ht c) as (s0 & _ & E0 & _ & _).
  set (cm := hon_at (s_m s0)). set (pm := hon_at (s_p s0)).
  exists cm, pm, (map (fun r => fv (fst (fst r))) (s_rev s0)). intros D Deqb H d Hrefl Hd.
  destruct (same_exec pub_mac pU pMac threads csz psz seeds pseeds words z z cm pm Ht c) as (s0' & s & E0' & Es & S).
  rewrite E0 in E0'. injection E0' as <-.
  pose proof (sim_exec pub_mac pU pMac threads csz psz seeds pseeds words cm pm d Hd Hpm c Hps Hwf Hw) as V.
  rewrite Es in V. destruct (av_exec _ _ _ _ _ _ _ _ words cm pm c) as [v|] eqn:Ev; [|easy].
  destruct (c_exec pub_mac pU pMac threads csz psz seeds pseeds words cm pm c s Hwf Es)
    as (M & R & Vr & X & Mok & Pok & _). fold cmt in M, R, Vr, X.
  exists v. split; [easy|]. split; [|rewrite (vs_o _ _ _ V); eapply outs_exec; eauto].
  unfold av_outcome.
  assert (Hh : av_hash v = map (fun r => fv (fst (fst r))) (s_rev s0)).
  { rewrite (vs_h _ _ _ V), (sm_r _ _ S). apply map_ext_in. intros [[m x] w] Hr.
    rewrite Forall_forall in Zr. specialize (Zr (pv (m, x), w)). rewrite Vr in Zr.
    assert (W : w = fv x). { apply Zr. apply in_map_iff. exists ((m, x), w). auto. }
    subst w. now apply rev_mac_honest. }
  rewrite Hh, Hrefl. cbn [negb]. rewrite orb_false_r, (vs_e _ _ _ V), (vs_x _ _ _ V).
  assert (E1 : existsb exp_bad (s_exp s) = false).
  { rewrite <- X. clear -Ze. induction Ze as [|e l He _ IH]; [reflexivity|]. cbn [existsb]. rewrite IH, orb_false_r.
    unfold exp_bad. rewrite He. now rewrite N.eqb_refl. }
  rewrite E1. rewrite !existsb_negb_false; [reflexivity| |].
  - apply Forall_forall. intros ci Hc. destruct (In_nth_error _ _ Hc) as [k Hk].
    destruct (Pok k ci Hk) as (M1 & M2 & M3).
    eapply ci_acc_zero; [exact Hd| |rewrite M3; exact (hon_at_strip _ _ _ _ (sm_p _ _ S) Hk)|reflexivity|reflexivity].
    specialize (Zp k (map ev (ci_items ci))). rewrite R, nth_error_map, Hk in Zp. specialize (Zp eq_refl).
    unfold ci_E. rewrite <- combined_F. rewrite map_map. change (fun x => fv (iE x)) with ev.
    rewrite M1, M2. etransitivity; [|exact (f_equal toF Zp)]. f_equal. rewrite map_length. apply combined_ext. intros _.
    unfold lo64. change (2 ^ 64) with W64. now rewrite !(N.mod_small (pseeds k) W64) by apply Hps.
  - apply Forall_forall. intros ci Hc. destruct (In_nth_error _ _ Hc) as [k Hk].
    destruct (Mok k ci Hk) as (M1 & M2 & M3).
    eapply ci_acc_zero; [exact Hd| |rewrite M3; exact (hon_at_strip _ _ _ _ (sm_m _ _ S) Hk)|reflexivity|reflexivity].
    specialize (Zm k (map ev (ci_items ci)) (ci_rs ci)). rewrite M, nth_error_map, Hk, map_length in Zm.
    specialize (Zm eq_refl M1).
    unfold ci_E. rewrite <- combined_F. rewrite map_map. change (fun x => fv (iE x)) with ev.
    rewrite M2. exact (f_equal toF Zm).
Qed.

(** * A multiplication outside the split *)
Lemma fsub_diag a : fsub a (a mod prm) = 0.
Proof.
  apply toF_inj; [apply fsub_lt|reflexivity|]. rewrite fsub_F, prm_PR, toF_mod, toF_0. ring.
Qed.
Definition skip_c : list agate := APub 0 :: repeat (AMul 0 0) 35 ++ [AReveal 35].
Definition skip_words (pU : nat -> N) (k : nat) : N :=
  if Nat.ltb k 34 then pU (S k) mod prm else if Nat.eqb k 34 then fsub (pU 35%nat) 1 else 1.
Definition skip_st (m : nat) : acst :=
  {| ac_w := 0 :: repeat 0 m; ac_ins := []; ac_errs := repeat 0 m; ac_done := []; ac_perrs := []; ac_pdone := [];
     ac_vole := S m; ac_words := m; ac_rev := []; ac_exp := [] |}.
Lemma repeat_snoc {A} (a : A) n : repeat a n ++ [a] = repeat a (S n).
Proof. symmetry. apply (repeat_cons n a). Qed.
Lemma skip_run pU csz psz m : (35 <= csz)%nat -> (m <= 34)%nat ->
  fold_left (ac_step pU csz psz (skip_words pU)) (repeat (AMul 0 0) m) (skip_st 0) = skip_st m.
Proof.
  intros Hc. induction m as [|m IH]; intro Hm; [reflexivity|].
  rewrite <- repeat_snoc, fold_left_app, IH by lia. cbn [fold_left ac_step].
  cbn [ac_errs skip_st]. rewrite repeat_length. destruct (Nat.eqb_spec m csz); [lia|].
  unfold ac_new, pval. cbn [ac_vole ac_words skip_st ac_w ac_ins ac_errs ac_done ac_perrs ac_pdone ac_rev ac_exp nth].
  unfold skip_words. destruct (Nat.ltb_spec m 34); [|lia]. rewrite fsub_diag.
  unfold skip_st. f_equal.
  - rewrite <- repeat_snoc. reflexivity.
  - rewrite <- repeat_snoc. reflexivity.
Qed.
Lemma skip_commit pU csz psz : (35 <= csz)%nat ->
  let cm := acommit pU csz psz (skip_words pU) skip_c in
  mul_batches cm = [repeat 0 34 ++ [fsub 0 1]] /\ rel_batches cm = [] /\ ac_rev cm = [(1, 1)] /\ ac_exp cm = [].
Proof.
  intro Hc. unfold acommit, skip_c.
  change (APub 0 :: repeat (AMul 0 0) 35 ++ [AReveal 35]) with ((APub 0 :: repeat (AMul 0 0) 35) ++ [AReveal 35]).
  change (repeat (AMul 0 0) 35) with (repeat (AMul 0 0) (S 34)). rewrite <- repeat_snoc.
  rewrite app_comm_cons, !fold_left_app.
  assert (K : forall (f : acst -> agate -> acst) s a l, fold_left f (a :: l) s = fold_left f l (f s a)) by reflexivity.
  rewrite (K _ ac_init). replace (ac_step pU csz psz (skip_words pU) ac_init (APub 0)) with (skip_st 0) by reflexivity.
  rewrite skip_run by lia. cbn [fold_left ac_step]. cbn [ac_errs skip_st]. rewrite repeat_length.
  destruct (Nat.eqb_spec 34 csz); [lia|].
  assert (E : ac_new pU (skip_words pU) (skip_st 34) = 1).
  { unfold ac_new. cbn [ac_vole ac_words skip_st]. change (skip_words pU 34) with (fsub (pU 35%nat) 1).
    apply toF_inj; [apply fsub_lt|reflexivity|]. rewrite !fsub_F. ring. }
  rewrite E. unfold mul_batches, rel_batches. cbn. auto.
Qed.
