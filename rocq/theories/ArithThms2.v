From Coq Require Import NArith List Bool Arith Lia Ring.
From Verif Require Import Word WordProofs FpModel FpProofs PolyRoots ListUtil Prime61 ArithModel ArithSpec ArithProofs ArithShadow ArithAlg ArithThms.
Import ListNotations.
Local Open Scope N_scope.
Ltac Zify.zify_post_hook ::= idtac.
Add Ring fp_ring : fp_rt.

Lemma allz_dec l : {allz l} + {exists e, In e l /\ e <> 0}.
Proof.
  induction l as [|e l IH]; [left; constructor|]. destruct (N.eq_dec e 0) as [->|Hn].
  - destruct IH as [IH|IH]; [left; now constructor|]. right. destruct IH as (x & H1 & H2). exists x. split; [now right|easy].
  - right. exists e. split; [now left|easy].
Qed.
Lemma batches_dec (ls : list (list N)) : {Forall allz ls} + {exists k l, nth_error ls k = Some l /\ exists e, In e l /\ e <> 0}.
Proof.
  induction ls as [|l ls IH]; [left; constructor|]. destruct (allz_dec l) as [H|H].
  - destruct IH as [IH|IH]; [left; now constructor|]. right. destruct IH as (k & x & H1 & H2). exists (S k), x. auto.
  - right. exists 0%nat, l. auto.
Qed.
Lemma Forall_or {A} (P : A -> Prop) (dec : forall x, {P x} + {~ P x}) l : {Forall P l} + {exists x, In x l /\ ~ P x}.
Proof.
  induction l as [|x l IH]; [left; constructor|]. destruct (dec x) as [H|H].
  - destruct IH as [IH|IH]; [left; now constructor|]. right. destruct IH as (y & H1 & H2). exists y. split; [now right|easy].
  - right. exists x. split; [now left|easy].
Qed.
Lemma good_of a : Forall allz (mul_batches a) -> Forall allz (rel_batches a) ->
  Forall (fun r => snd r mod prm = fst r) (ac_rev a) -> Forall (fun e => fst e = snd e) (ac_exp a) -> good a.
Proof.
  unfold mul_batches, rel_batches. intros M R H1 H2. apply Forall_app in M, R.
  destruct M as [M1 M2], R as [R1 R2]. split; auto.
  - destruct (ac_errs a); [constructor|]. now inversion_clear M2.
  - destruct (ac_perrs a); [constructor|]. now inversion_clear R2.
Qed.
Section Sound.
  Variables (pub_mac : N) (pU pMac : nat -> N) (threads csz psz : nat).
  Variables (seeds : nat -> nat -> N) (pseeds : nat -> N) (words : nat -> N).
  Variables chkmsg pchkmsg : nat -> N * N.
  Notation RUN := (s_run pub_mac pU pMac threads csz psz seeds pseeds words chkmsg pchkmsg).
  Notation EXEC := (s_exec pub_mac pU pMac threads csz psz seeds pseeds words chkmsg pchkmsg).
  Lemma rev_lt_run c : forall s s', words_ok words (s_words s) c -> Forall (fun r => snd r < W64) (s_rev s) ->
    RUN s c = Some s' -> Forall (fun r => snd r < W64) (s_rev s').
  Proof.
    induction c as [|g c IH]; intros s s' Hw Hr E; cbn [s_run] in E; [now injection E as <-|].
    destruct (s_step _ _ _ _ _ _ _ _ _ _ _ s g) as [s1|] eqn:Es; [|discriminate].
    assert (Hw1 : words_ok words (s_words s1) c).
    { rewrite (s_step_words _ _ _ _ _ _ _ _ _ _ _ _ _ _ Es). destruct g; cbn [words_ok] in Hw; try easy; apply Hw. }
    apply (IH s1 s'); auto. clear IH E Hw1.
    destruct g; cbn [s_step words_ok] in *; try (injection Es as <-; cbn [s_rev s_add s_reveal]; auto; fail).
    - unfold s_precheck, s_manage in Es. destruct (Nat.eqb _ _); [destruct (a_ranges _ _); [|discriminate]|];
        injection Es as <-; exact Hr.
    - injection Es as <-. cbn [s_rev s_reveal]. apply Forall_app. split; auto. constructor; [apply Hw|constructor].
    - injection Es as <-. cbn [s_rev s_reveal]. apply Forall_app. split; auto. constructor; [apply Hw|constructor].
    - injection Es as <-. cbn [s_rev]. apply Forall_app. split; auto. constructor; [reflexivity|constructor].
    - injection Es as <-. unfold s_queue. cbn [s_rev]. destruct (Nat.leb _ _); [|easy]. unfold s_batch. now destruct (s_poly s).
    - injection Es as <-. unfold s_queue. cbn [s_rev]. destruct (Nat.leb _ _); [|easy]. unfold s_batch. now destruct (s_poly s).
  Qed.
  Lemma rev_lt c s : words_ok words 0 c -> EXEC c = Some s -> Forall (fun r => snd r < W64) (s_rev s).
  Proof.
    intros Hw E. unfold s_exec in E. destruct (RUN s_init c) as [s1|] eqn:Er; [|discriminate].
    pose proof (rev_lt_run c s_init s1 Hw (Forall_nil _) Er) as H.
    unfold s_final in E. cbv zeta in E.
    assert (R : s_rev (s_batch pU pMac pseeds pchkmsg s1) = s_rev s1) by (unfold s_batch; now destruct (s_poly s1)).
    rewrite <- R in H. destruct (s_buf _); [now injection E as <-|].
    unfold s_manage in E. destruct (a_ranges _ _); [|discriminate]. injection E as <-. exact H.
  Qed.
  Variables (D : Type) (Deqb : D -> D -> bool) (H : list N -> D) (dig : D) (c : list agate) (deltas : list N).
  Notation exec d := (av_exec pub_mac (vole_key pU pMac d) d threads csz psz seeds pseeds words chkmsg pchkmsg c).
  Lemma session_bound (n : nat) (small : bool) :
    (if small then n = 2%nat else n = 4%nat) ->
    (forall a b, Deqb a b = true -> a = b) -> NoDup deltas -> pub_mac < prm ->
    Forall wf_pub c -> words_ok words 0 c -> (forall k, pseeds k < 2 ^ 64) ->
    (forall k, snd (chkmsg k) < 2 ^ (if small then 63 else 64) /\ snd (pchkmsg k) < 2 ^ (if small then 63 else 64)) ->
    let cm := acommit pU csz psz words c in
    let q := aplain (awith_inputs (ac_ins cm) c) in
    (forall d, In d deltas -> d < prm /\
       exists v, exec d = Some v /\ av_outcome Deqb H v dig = (false, false) /\
                 (map (fun w => w mod prm) (av_outs v) <> pl_outs q \/ pl_ok q = false)) ->
    (length deltas <= n)%nat \/
    (exists k errs rs, nth_error (mul_batches cm) k = Some errs /\ (exists e, In e errs /\ e <> 0) /\
       a_ranges threads (length errs) = Some rs /\ a_combined rs (a_chal seeds k) errs = 0) \/
    (exists k errs, nth_error (rel_batches cm) k = Some errs /\ (exists e, In e errs /\ e <> 0) /\
       a_combined [(0%nat, length errs)] (fun _ => pseeds k mod prm) errs = 0) \/
    (exists d1 d2 v1 v2, In d1 deltas /\ In d2 deltas /\ exec d1 = Some v1 /\ exec d2 = Some v2 /\
       av_hash v1 <> av_hash v2 /\ H (av_hash v1) = H (av_hash v2)).
  Proof.
    intros Hn Hdeq Hnd Hpm Hwf Hw Hps Hms cm q Hall.
    assert (Hps' : forall k, pseeds k < W64) by exact Hps.
    assert (Hms' : forall k, snd (chkmsg k) < W64 /\ snd (pchkmsg k) < W64).
    { intro k. destruct (Hms k) as [A B]. destruct small; [|now split].
      split; (eapply N.lt_trans; [eassumption|reflexivity]). }
    destruct deltas as [|d0 ds] eqn:Eds; [left; cbn; lia|]. rewrite <- Eds in *.
    assert (In0 : In d0 deltas) by (rewrite Eds; now left).
    assert (Hs : exists s, EXEC c = Some s /\ forall d, In d deltas -> d < PR /\
      exists v, exec d = Some v /\ vsim d v s /\ av_outcome Deqb H v dig = (false, false) /\
                 (map (fun w => w mod prm) (av_outs v) <> pl_outs q \/ pl_ok q = false)).
    { destruct (Hall d0 In0) as (L0 & v0 & E0 & _).
      pose proof (sim_exec pub_mac pU pMac threads csz psz seeds pseeds words chkmsg pchkmsg d0 L0 Hpm c Hps' Hwf Hw) as S0.
      rewrite E0 in S0. destruct (EXEC c) as [s|] eqn:Es0; [|easy]. exists s. split; [easy|].
      intros d Hd. destruct (Hall d Hd) as (L & v & E & O). split; [exact L|]. exists v. split; [easy|].
      pose proof (sim_exec pub_mac pU pMac threads csz psz seeds pseeds words chkmsg pchkmsg d L Hpm c Hps' Hwf Hw) as S.
      rewrite E, Es0 in S. split; [exact S|exact O]. }
    destruct Hs as (s & Es & Hs).
    destruct (c_exec pub_mac pU pMac threads csz psz seeds pseeds words chkmsg pchkmsg c s Hwf Es)
      as (M & R & V & X & Mok & Pok & G). fold cm in M, R, V, X, G. cbv zeta in G. fold q in G.
    assert (NG : ~ good cm).
    { intro g. destruct (G g) as [G1 G2]. destruct (Hs d0 In0) as (_ & v & _ & S & _ & [O|O]).
      - apply O. rewrite (vs_o _ _ _ S). now symmetry.
      - congruence. }
    assert (Acc : forall d v, vsim d v s -> av_outcome Deqb H v dig = (false, false) ->
       H (av_hash v) = dig /\ Forall (fun e => fst e = snd e) (s_exp s) /\
       Forall (fun ci => ci_acc d ci = true) (s_m s) /\ Forall (fun ci => ci_acc d ci = true) (s_p s)).
    { intros d v S O. unfold av_outcome in O. injection O as O1 O2. apply orb_false_elim in O1. destruct O1 as [O1 O3].
      rewrite (vs_e _ _ _ S) in O1. apply orb_false_elim in O1. destruct O1 as [O1 O4].
      rewrite (vs_x _ _ _ S) in O2. split; [|split; [|split]].
      - apply Hdeq. now apply negb_false_iff.
      - apply Forall_forall. intros e He.
        assert (E : exp_bad e = false).
        { destruct (exp_bad e) eqn:E; [|easy]. rewrite <- O4. symmetry. apply existsb_exists. eauto. }
        unfold exp_bad in E. apply negb_false_iff, N.eqb_eq in E. now symmetry.
      - apply Forall_forall. intros ci He. destruct (ci_acc d ci) eqn:E; [easy|]. rewrite <- O1.
        apply existsb_exists. exists ci. split; [easy|]. now rewrite E.
      - apply Forall_forall. intros ci He. destruct (ci_acc d ci) eqn:E; [easy|]. rewrite <- O2.
        apply existsb_exists. exists ci. split; [easy|]. now rewrite E. }
    assert (Hb : forall ci, ci_E ci <> p0 -> snd (ci_msg ci) < W64 ->
      snd (ci_msg ci) < 2 ^ (if small then 63 else 64) ->
      (forall d, In d deltas -> ci_acc d ci = true) -> (length deltas <= n)%nat).
    { intros ci HE H64 H63 Ha. destruct (accept_bound ci deltas HE H64 Hnd) as [B1 B2].
      - intros d Hd. split; [now apply Hs|now apply Ha].
      - destruct small; subst n; auto. }
    destruct (batches_dec (mul_batches cm)) as [Zm|(k & errs & Hk & He)].
    2:{ pose proof Hk as Hk'. rewrite M, nth_error_map in Hk. destruct (nth_error (s_m s) k) as [ci|] eqn:Ek; [|discriminate].
        cbn [option_map] in Hk. injection Hk as <-. destruct (Mok k ci Ek) as (M1 & M2 & M3).
        destruct (N.eq_dec (a_combined (ci_rs ci) (a_chal seeds k) (map ev (ci_items ci))) 0) as [Z|NZ].
        - right. left. exists k, (map ev (ci_items ci)), (ci_rs ci). rewrite map_length. auto.
        - left. apply (Hb ci).
          + intro Z. apply NZ. unfold ci_E in Z. rewrite <- combined_F in Z. rewrite map_map in Z.
            apply (f_equal fv) in Z. rewrite fv_toF in Z. unfold a_combined in Z. rewrite N.mod_mod in Z by discriminate.
            rewrite M2 in Z. exact Z.
          + rewrite M3. apply Hms'.
          + rewrite M3. apply Hms.
          + intros d Hd. destruct (Hs d Hd) as (_ & v & _ & S & O & _). destruct (Acc d v S O) as (_ & _ & A & _).
            rewrite Forall_forall in A. apply A. eapply nth_error_In; eauto. }
    destruct (batches_dec (rel_batches cm)) as [Zr|(k & errs & Hk & He)].
    2:{ pose proof Hk as Hk'. rewrite R, nth_error_map in Hk. destruct (nth_error (s_p s) k) as [ci|] eqn:Ek; [|discriminate].
        cbn [option_map] in Hk. injection Hk as <-. destruct (Pok k ci Ek) as (M1 & M2 & M3).
        destruct (N.eq_dec (a_combined (ci_rs ci) (fun _ => pseeds k mod prm) (map ev (ci_items ci))) 0) as [Z|NZ].
        - right. right. left. exists k, (map ev (ci_items ci)). rewrite map_length, <- M1. auto.
        - left. apply (Hb ci).
          + intro Z. apply NZ. unfold ci_E in Z. rewrite <- combined_F in Z. rewrite map_map in Z.
            apply (f_equal fv) in Z. rewrite fv_toF in Z. unfold a_combined in Z. rewrite N.mod_mod in Z by discriminate.
            rewrite M2 in Z. unfold lo64 in Z. etransitivity; [|exact Z]. unfold a_combined. f_equal. f_equal. apply map_ext. intros [i ?].
            cbn [fst snd]. change (2 ^ 64) with W64. rewrite !(N.mod_small (pseeds k) W64) by apply Hps. reflexivity.
          + rewrite M3. apply Hms'.
          + rewrite M3. apply Hms.
          + intros d Hd. destruct (Hs d Hd) as (_ & v & _ & S & O & _). destruct (Acc d v S O) as (_ & _ & _ & A).
            rewrite Forall_forall in A. apply A. eapply nth_error_In; eauto. }
    destruct (Hs d0 In0) as (L0 & v0 & E0 & S0 & O0 & _). destruct (Acc d0 v0 S0 O0) as (A0 & A1 & _).
    destruct (Forall_or (fun r : N * N => snd r mod prm = fst r) (fun r => N.eq_dec _ _) (ac_rev cm)) as [Zv|(r & Hr & Nr)].
    { exfalso. apply NG. apply good_of; auto. now rewrite X. }
    destruct (Forall_or (fun d => map (rev_mac d) (s_rev s) = map (rev_mac d0) (s_rev s))
                (fun d => list_eq_dec N.eq_dec _ _) deltas) as [Same|(d1 & Hd1 & Diff)].
    - left. rewrite V in Hr. apply in_map_iff in Hr. destruct Hr as (r' & <- & Hr). cbn [fst snd] in Nr.
      pose proof (rev_lt c s Hw Es) as RL. rewrite Forall_forall in RL. specialize (RL r' Hr).
      destruct (reveal_bound r' deltas (rev_mac d0 r') RL) as [B _]; auto.
      + intro E. apply Nr. exact (f_equal fv E).
      + intros d Hd. split; [now apply Hs|]. rewrite Forall_forall in Same. specialize (Same d Hd).
        revert Hr Same. generalize (s_rev s). clear. intros l Hr Same.
        induction l as [|x l IH]; [easy|]. cbn [map] in Same. injection Same as S1 S2.
        destruct Hr as [->|Hr]; auto.
      + destruct small; subst n; lia.
    - right. right. right. destruct (Hs d1 Hd1) as (L1 & v1 & E1 & S1 & O1 & _). destruct (Acc d1 v1 S1 O1) as (A2 & _).
      exists d1, d0, v1, v0. rewrite (vs_h _ _ _ S1), (vs_h _ _ _ S0) in *. repeat split; auto. congruence.
  Qed.
End Sound.
