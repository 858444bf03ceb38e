(** Arithmetic engine: whole-session completeness, definedness, per-batch bounds, challenge bounds. *)
From Coq Require Import NArith List Bool Arith Lia Ring.
From Verif Require Import Word WordProofs FpModel FpProofs PolyRoots ListUtil Prime61 BoolModel BoolSpec BoolThms
  ArithModel ArithSpec ArithProofs ArithShadow ArithAlg ArithThms ArithThms2 ArithThms3.
Import ListNotations.
Local Open Scope N_scope.
Ltac Zify.zify_post_hook ::= idtac.
Add Ring fp_ring : fp_rt.

(** * Completeness *)
Lemma agree_nth {A} (l : list A) d : agree (fun k => nth k l d) l.
Proof. intros k x E. now apply nth_error_nth. Qed.
Lemma words_ok_small words c : (forall k, words k < PR) -> forall k, words_ok words k c.
Proof.
  intro H. induction c as [|g c IH]; intro k; cbn [words_ok]; [easy|].
  destruct g; auto; split; auto; specialize (H k); unfold prm, PR in *; lia.
Qed.
Lemma nth_small l k : Forall (fun w => w < PR) l -> nth k l 0 < PR.
Proof.
  intro H. destruct (Nat.lt_ge_cases k (length l)) as [L|L].
  - rewrite Forall_forall in H. apply H. now apply nth_In.
  - rewrite nth_overflow by easy. reflexivity.
Qed.
Lemma wf_honest_pub c : Forall wf_honest c -> Forall wf_pub c.
Proof. apply Forall_impl. now intros g [H _]. Qed.
Lemma existsb_negb_false {A} (f : A -> bool) l : Forall (fun x => f x = true) l -> existsb (fun x => negb (f x)) l = false.
Proof. induction 1 as [|x l H _ IH]; [reflexivity|]. cbn. now rewrite H, IH. Qed.
Lemma b_words blk mx : brel blk mx -> hi64 blk = fv (snd mx) /\ lo64 blk = fv (fst mx).
Proof.
  intro B. destruct (b_lo _ _ B) as [L1 L2], (b_hi _ _ B) as [H1 H2].
  rewrite <- L2, <- H2, !fv_toF. split; symmetry; now apply N.mod_small.
Qed.
Lemma share_rel d blk key mx : brel blk mx -> krel d key mx -> share_ok d blk key.
Proof.
  intros B [K1 K2]. destruct (b_lo _ _ B) as [L1 L2], (b_hi _ _ B) as [H1 H2].
  unfold share_ok. cbv zeta. change (blk / 2 ^ 64) with (hi64 blk). change (blk mod 2 ^ 64) with (lo64 blk).
  split; [exact H1|split; [exact L1|split; [exact K1|]]].
  rewrite prm_PR. rewrite <- (N.mod_small (lo64 blk) PR) by easy.
  apply toF_eq. rewrite toF_add, toF_mul, K2, L2, H2. unfold kf. ring.
Qed.
Theorem session_complete :
  forall pub_mac pU pMac threads csz psz seeds pseeds (c : list agate) p d,
  vole_ok pU pMac -> pub_mac < prm -> (forall k, pseeds k < 2 ^ 64) -> Forall wf_honest c ->
  ap_exec pub_mac (vole_block pU pMac) threads csz psz seeds pseeds c = Some p -> d < prm ->
  map hi64 (ap_w p) = pl_w (aplain c) /\ ap_outs p = pl_outs (aplain c) /\
  exists v, av_exec pub_mac (vole_key pU pMac d) d threads csz psz seeds pseeds
      (fun k => nth k (ap_words p) 0) (fun k => nth k (ap_msgs p) (0, 0)) (fun k => nth k (ap_pmsgs p) (0, 0)) c = Some v /\
    av_outs v = pl_outs (aplain c) /\ Forall2 (share_ok d) (ap_w p) (av_w v) /\
    (pl_ok (aplain c) = true -> forall (D : Type) (Deqb : D -> D -> bool) (H : list N -> D),
      (forall a, Deqb a a = true) -> av_outcome Deqb H v (H (ap_hash p)) = (false, false)).
Proof.
  intros pub_mac pU pMac threads csz psz seeds pseeds c p d Hv Hpm Hps Hwf E Hd.
  set (words := fun k => nth k (ap_words p) 0). set (cm := fun k => nth k (ap_msgs p) (0, 0)).
  set (pm := fun k => nth k (ap_pmsgs p) (0, 0)).
  destruct (p_exec pub_mac pU pMac threads csz psz seeds pseeds Hv Hpm Hps words cm pm c p Hwf E) as (s & Es & S).
  { split; [|split]; apply agree_nth. }
  pose proof (sim_exec pub_mac pU pMac threads csz psz seeds pseeds words cm pm d Hd Hpm c Hps (wf_honest_pub c Hwf)) as V.
  rewrite Es in V.
  assert (Hw : words_ok words 0 c) by (apply words_ok_small; intro k; apply nth_small, (ps_wl _ _ _ S)).
  specialize (V Hw).
  destruct (av_exec _ _ _ _ _ _ _ _ words cm pm c) as [v|] eqn:Ev; [|easy].
  split.
  { rewrite (ps_pw _ _ _ S). pose proof (ps_w _ _ _ S) as F. clear -F.
    induction F as [|b x bs xs Hb F IH]; [reflexivity|]. cbn [map]. rewrite IH. f_equal. now apply b_words. }
  split; [now rewrite (ps_o _ _ _ S), (ps_po _ _ _ S)|].
  exists v. split; [easy|]. split; [now rewrite (vs_o _ _ _ V), (ps_po _ _ _ S)|]. split.
  { pose proof (ps_w _ _ _ S) as F. pose proof (vs_w _ _ _ V) as G. clear -F G.
    revert G. generalize (av_w v). induction F as [|b x bs xs Hb F IH]; intros ks G; inversion_clear G; constructor; auto.
    eapply share_rel; eauto. }
  intros Hok D Deqb H Hrefl. destruct (ps_ok _ _ _ S Hok) as (Z1 & Z2 & Z3 & Z4).
  unfold av_outcome.
  assert (Hh : av_hash v = ap_hash p).
  { rewrite (vs_h _ _ _ V), (ps_h _ _ _ S). apply map_ext_in. intros [[m x] w] Hr.
    rewrite Forall_forall in Z3. specialize (Z3 _ Hr). cbn [fst snd] in Z3. subst w. now apply rev_mac_honest. }
  rewrite Hh, Hrefl. cbn [negb]. rewrite orb_false_r.
  assert (Acc : forall ci, hmsg ci -> zE (ci_items ci) -> ci_acc d ci = true).
  { intros ci Hm Hz. eapply ci_acc_honest; eauto. }
  rewrite (vs_e _ _ _ V), (vs_x _ _ _ V).
  rewrite !existsb_negb_false.
  - cbn [orb]. f_equal. clear -Z4. induction Z4 as [|e l He _ IH]; [reflexivity|]. cbn [existsb]. rewrite IH, orb_false_r.
    unfold exp_bad. rewrite He. now rewrite N.eqb_refl.
  - pose proof (ps_p _ _ _ S) as P. rewrite Forall_forall in *. intros ci Hc. apply Acc; auto.
  - pose proof (ps_m _ _ _ S) as P. rewrite Forall_forall in *. intros ci Hc. destruct (P ci Hc). apply Acc; auto.
Qed.

(** * Definedness *)
Lemma a_ranges_none t cnt : a_ranges t cnt = None <-> (32 <= cnt /\ cnt / t = 0)%nat.
Proof.
  unfold a_ranges. destruct (Nat.ltb_spec cnt 32); [split; [discriminate|lia]|].
  cbv zeta. destruct (Nat.eqb_spec (cnt / t) 0); split; try easy.
Qed.
Lemma a_ranges_and t cnt : (32 <= cnt)%nat -> a_ranges t cnt = and_ranges t cnt.
Proof. intro H. unfold a_ranges, and_ranges. destruct (Nat.ltb_spec cnt 32); [lia|]. reflexivity. Qed.
Lemma a_ranges_defined t cnt : (1 <= t <= 32)%nat -> exists rs, a_ranges t cnt = Some rs.
Proof.
  intro Ht. destruct (a_ranges t cnt) as [rs|] eqn:E; [eauto|]. apply a_ranges_none in E. destruct E as [E1 E2].
  apply Nat.div_small_iff in E2; lia.
Qed.
Section Defined.
  Variables (pub_mac : N) (pV : nat -> N) (threads csz psz : nat) (seeds : nat -> nat -> N) (pseeds : nat -> N).
  Hypothesis Ht : (1 <= threads <= 32)%nat.
  Lemma manage_defined s : exists s', ap_manage pV threads seeds s = Some s'.
  Proof. unfold ap_manage. destruct (a_ranges_defined threads (length (ap_buf s)) Ht) as [rs ->]. eauto. Qed.
  Lemma step_defined s g : exists s', ap_step pub_mac pV threads csz psz seeds pseeds s g = Some s'.
  Proof.
    destruct g; cbn [ap_step]; try (eexists; reflexivity). unfold ap_precheck. destruct (Nat.eqb _ _).
    - destruct (manage_defined s) as [s1 ->]. eexists. reflexivity.
    - eexists. reflexivity.
  Qed.
  Lemma run_defined c : forall s, exists s', ap_run pub_mac pV threads csz psz seeds pseeds s c = Some s'.
  Proof.
    induction c as [|g c IH]; intro s; cbn [ap_run]; eauto. destruct (step_defined s g) as [s1 ->]. apply IH.
  Qed.
  Lemma exec_defined c : exists p, ap_exec pub_mac pV threads csz psz seeds pseeds c = Some p.
  Proof.
    unfold ap_exec. destruct (run_defined c ap_init) as [s ->]. unfold ap_final. cbv zeta.
    destruct (ap_buf _); eauto. apply manage_defined.
  Qed.
End Defined.

(** * One batch at a time *)
Section Batch.
  Variables (pub_mac : N) (pU pMac : nat -> N) (threads csz psz : nat).
  Variables (seeds : nat -> nat -> N) (pseeds : nat -> N) (words : nat -> N).
  Variables chkmsg pchkmsg : nat -> N * N.
  Variables (c : list agate) (deltas : list N).
  Notation exec d := (av_exec pub_mac (vole_key pU pMac d) d threads csz psz seeds pseeds words chkmsg pchkmsg c).
  Hypothesis Hnd : NoDup deltas.
  Hypothesis Hpm : pub_mac < prm.
  Hypothesis Hwf : Forall wf_pub c.
  Hypothesis Hw : words_ok words 0 c.
  Hypothesis Hps : forall k, pseeds k < 2 ^ 64.
  Notation EXEC := (s_exec pub_mac pU pMac threads csz psz seeds pseeds words chkmsg pchkmsg).
  Lemma all_sim (P : avst -> Prop) : deltas <> [] ->
    (forall d, In d deltas -> d < prm /\ exists v, exec d = Some v /\ P v) ->
    exists s, EXEC c = Some s /\ forall d, In d deltas -> d < PR /\ exists v, exec d = Some v /\ P v /\ vsim d v s.
  Proof.
    intros Hne Hall. destruct deltas as [|d0 ds] eqn:Eds; [easy|]. rewrite <- Eds in *.
    assert (In0 : In d0 deltas) by (rewrite Eds; now left).
    destruct (Hall d0 In0) as (L0 & v0 & E0 & _).
    pose proof (sim_exec pub_mac pU pMac threads csz psz seeds pseeds words chkmsg pchkmsg d0 L0 Hpm c Hps Hwf Hw) as S0.
    rewrite E0 in S0. destruct (EXEC c) as [s|] eqn:Es0; [|easy]. exists s. split; [easy|].
    intros d Hd. destruct (Hall d Hd) as (L & v & E & O). split; [exact L|]. exists v. split; [easy|]. split; [easy|].
    pose proof (sim_exec pub_mac pU pMac threads csz psz seeds pseeds words chkmsg pchkmsg d L Hpm c Hps Hwf Hw) as S.
    rewrite E, Es0 in S. exact S.
  Qed.
  Lemma existsb_all {A} (f : A -> bool) l x : existsb (fun y => negb (f y)) l = false -> In x l -> f x = true.
  Proof.
    intros H Hx. destruct (f x) eqn:E; [easy|]. rewrite <- H. apply existsb_exists. exists x. now rewrite E.
  Qed.
  Lemma mul_batch_bound k errs rs :
    nth_error (mul_batches (acommit pU csz psz words c)) k = Some errs ->
    a_ranges threads (length errs) = Some rs -> a_combined rs (a_chal seeds k) errs <> 0 ->
    snd (chkmsg k) < 2 ^ 64 ->
    (forall d, In d deltas -> d < prm /\ exists v, exec d = Some v /\ av_err v = false) ->
    (length deltas <= 4)%nat /\ (snd (chkmsg k) < 2 ^ 63 -> (length deltas <= 2)%nat).
  Proof.
    intros Hk Hr NZ Hm Hall.
    destruct (list_eq_dec N.eq_dec deltas []) as [->|Hne]; [cbn; split; lia|].
    destruct (all_sim _ Hne Hall) as (s & Es & Hs).
    destruct (c_exec pub_mac pU pMac threads csz psz seeds pseeds words chkmsg pchkmsg c s Hwf Es)
      as (M & _ & _ & _ & Mok & _). rewrite M, nth_error_map in Hk.
    destruct (nth_error (s_m s) k) as [ci|] eqn:Ek; [|discriminate]. cbn [option_map] in Hk. injection Hk as <-.
    destruct (Mok k ci Ek) as (M1 & M2 & M3). rewrite map_length in Hr. rewrite Hr in M1. injection M1 as Er.
    rewrite <- M3 in *.
    apply accept_bound; auto.
    - intro Z. apply NZ. unfold ci_E in Z. rewrite <- combined_F in Z. rewrite map_map in Z.
      apply (f_equal fv) in Z. rewrite fv_toF in Z. unfold a_combined in Z. rewrite N.mod_mod in Z by discriminate.
      rewrite M2, <- Er in Z. exact Z.
    - intros d Hd. destruct (Hs d Hd) as (L & v & E & O & S). split; [exact L|].
      rewrite (vs_e _ _ _ S) in O. apply orb_false_elim in O. destruct O as [O _].
      eapply existsb_all; eauto. eapply nth_error_In; eauto.
  Qed.
  Lemma rel_batch_bound k errs :
    nth_error (rel_batches (acommit pU csz psz words c)) k = Some errs ->
    a_combined [(0%nat, length errs)] (fun _ => pseeds k mod prm) errs <> 0 ->
    snd (pchkmsg k) < 2 ^ 64 ->
    (forall d, In d deltas -> d < prm /\ exists v, exec d = Some v /\ av_cheat v = false) ->
    (length deltas <= 4)%nat /\ (snd (pchkmsg k) < 2 ^ 63 -> (length deltas <= 2)%nat).
  Proof.
    intros Hk NZ Hm Hall.
    destruct (list_eq_dec N.eq_dec deltas []) as [->|Hne]; [cbn; split; lia|].
    destruct (all_sim _ Hne Hall) as (s & Es & Hs).
    destruct (c_exec pub_mac pU pMac threads csz psz seeds pseeds words chkmsg pchkmsg c s Hwf Es)
      as (_ & R & _ & _ & _ & Pok & _). rewrite R, nth_error_map in Hk.
    destruct (nth_error (s_p s) k) as [ci|] eqn:Ek; [|discriminate]. cbn [option_map] in Hk. injection Hk as <-.
    destruct (Pok k ci Ek) as (M1 & M2 & M3). rewrite <- M3 in *.
    apply accept_bound; auto.
    - intro Z. apply NZ. unfold ci_E in Z. rewrite <- combined_F in Z. rewrite map_map in Z.
      apply (f_equal fv) in Z. rewrite fv_toF in Z. unfold a_combined in Z. rewrite N.mod_mod in Z by discriminate.
      rewrite M2, M1 in Z. unfold lo64 in Z. rewrite map_length. etransitivity; [|exact Z]. unfold a_combined. f_equal. f_equal.
      apply map_ext. intros [i ?].
      cbn [fst snd]. change (2 ^ 64) with W64. rewrite !(N.mod_small (pseeds k) W64) by apply Hps. reflexivity.
    - intros d Hd. destruct (Hs d Hd) as (L & v & E & O & S). split; [exact L|].
      rewrite (vs_x _ _ _ S) in O. eapply existsb_all; eauto. eapply nth_error_In; eauto.
  Qed.
End Batch.

(** * How many challenges hide an error *)
Lemma range_pow s errs : forall k,
  fold_right padd p0 (map (fun je => toF (s ^ (1 + N.of_nat (fst je)) * snd je)) (combine (seq k (length errs)) errs))
  = pmul (toF (s ^ (1 + N.of_nat k))) (peval fp p0 padd pmul (map toF errs) (toF s)).
Proof.
  induction errs as [|e errs IH]; intro k; cbn [length seq combine map fold_right peval]; [ring|].
  rewrite IH. cbn [fst snd]. rewrite toF_mul.
  replace (1 + N.of_nat (S k)) with (N.succ (1 + N.of_nat k)) by lia. rewrite N.pow_succ_r', toF_mul. ring.
Qed.
Lemma a_range_poly s errs :
  toF (a_range_error s errs) = pmul (toF s) (peval fp p0 padd pmul (map toF errs) (toF s)).
Proof.
  unfold a_range_error. rewrite fold_addF, map_map, range_pow.
  replace (1 + N.of_nat 0) with 1 by reflexivity. now rewrite N.pow_1_r.
Qed.
Lemma psum_app l1 l2 : fold_right padd p0 (l1 ++ l2) = padd (fold_right padd p0 l1) (fold_right padd p0 l2).
Proof. induction l1 as [|x l IH]; cbn [app fold_right]; [ring|]. rewrite IH. ring. Qed.
Lemma combine_seq_mid {A} (r1 r2 : list A) x a :
  combine (seq a (length (r1 ++ x :: r2))) (r1 ++ x :: r2) =
  (combine (seq a (length r1)) r1 ++ ((a + length r1)%nat, x) :: combine (seq (S (a + length r1)) (length r2)) r2).
Proof.
  revert a. induction r1 as [|y r1 IH]; intro a; cbn.
  - now rewrite Nat.add_0_r.
  - f_equal. rewrite IH. rewrite Nat.add_succ_r. reflexivity.
Qed.
Lemma in_combine_seq {A} (l : list A) a j x : In (j, x) (combine (seq a (length l)) l) -> (a <= j < a + length l)%nat.
Proof. intro H. apply in_combine_l in H. now apply in_seq in H. Qed.
(** one worker whose range contains a non-zero error *)
Lemma worker_bound rs errs i s n : (i < length errs)%nat -> nth i errs 0 mod prm <> 0 ->
  In (s, n) rs -> (s <= i < s + n)%nat ->
  exists k, (k < length rs)%nat /\ forall (seed : nat -> N) xs, NoDup xs -> Forall (fun x => x < prm) xs ->
    (forall x, In x xs -> a_combined rs (fun j => if Nat.eqb j k then x else seed j) errs = 0) ->
    (length xs <= n)%nat.
Proof.
  intros Hi Ei Hsn Hrange.
  destruct (in_split _ _ Hsn) as [r1 [r2 Er]].
  exists (length r1). split; [rewrite Er, app_length; cbn; lia|].
  intros seed xs Hnd Hlt Hz.
  set (seg := firstn n (skipn s errs)) in *.
  assert (Hseg : In (nth i errs 0) seg).
  { replace (nth i errs 0) with (nth (i - s) seg 0).
    - apply nth_In. unfold seg. rewrite firstn_length, skipn_length. lia.
    - unfold seg. clear -Hrange Hi.
      assert (L : (i - s < length (firstn n (skipn s errs)))%nat) by (rewrite firstn_length, skipn_length; lia).
      rewrite <- (app_nth1 _ (skipn n (skipn s errs)) 0 L), firstn_skipn.
      rewrite <- (firstn_skipn s errs) at 2. rewrite app_nth2; rewrite firstn_length; [|lia].
      f_equal. lia. }
  set (E := fun ir : nat * (nat * nat) => toF (a_range_error (seed (fst ir)) (firstn (snd (snd ir)) (skipn (fst (snd ir)) errs)))).
  set (rest := padd (fold_right padd p0 (map E (combine (seq 0 (length r1)) r1)))
                    (fold_right padd p0 (map E (combine (seq (S (length r1)) (length r2)) r2)))).
  assert (Hpoly : forall x, In x xs -> peval fp p0 padd pmul (rest :: map toF seg) (toF x) = p0).
  { intros x Hx. specialize (Hz x Hx). apply (f_equal toF) in Hz. unfold a_combined in Hz.
    rewrite prm_PR, toF_mod, fold_addF, map_map, Er, combine_seq_mid in Hz.
    rewrite map_app, psum_app in Hz. cbn [map fold_right fst snd plus] in Hz. rewrite Nat.eqb_refl in Hz.
    fold seg in Hz. rewrite a_range_poly in Hz.
    change (toF 0) with p0 in Hz. etransitivity; [|exact Hz]. clear Hz. cbn [peval]. unfold rest.
    match goal with |- _ = padd (fold_right _ _ ?a1) (padd _ (fold_right _ _ ?a2)) =>
      assert (A1 : a1 = map E (combine (seq 0 (length r1)) r1));
      [|assert (A2 : a2 = map E (combine (seq (S (length r1)) (length r2)) r2))] end.
    - apply map_ext_in. intros [j [a b]] Hj. unfold E. cbn [fst snd].
      apply in_combine_seq in Hj. replace (Nat.eqb j (length r1)) with false; [reflexivity|].
      symmetry. apply Nat.eqb_neq. lia.
    - apply map_ext_in. intros [j [a b]] Hj. unfold E. cbn [fst snd].
      apply in_combine_seq in Hj. replace (Nat.eqb j (length r1)) with false; [reflexivity|].
      symmetry. apply Nat.eqb_neq. lia.
    - rewrite A1, A2. ring. }
  assert (B : (S (length (map toF xs)) <= length (rest :: map toF seg))%nat).
  { apply fp_root_count.
    - intro F. inversion F as [|? ? _ F' [Ea Eb]]; subst. rewrite Forall_map in F'.
      rewrite Forall_forall in F'. specialize (F' _ Hseg). apply Ei. exact (f_equal fv F').
    - apply NoDup_map_in; [|exact Hnd]. rewrite Forall_forall in Hlt. intros x y Hx Hy Exy. apply toF_inj; auto; now apply Hlt.
    - intros r Hr'. apply in_map_iff in Hr'. destruct Hr' as [x [<- Hx]]. now apply Hpoly. }
  cbn [length] in B. rewrite !map_length in B. unfold seg in B.
  rewrite firstn_length, skipn_length in B. lia.
Qed.
(** coverage of the arithmetic split *)
Lemma a_covered_iff t cnt rs i : (1 <= t)%nat -> a_ranges t cnt = Some rs ->
  (covered rs i <-> if Nat.ltb cnt 32 then (i < cnt)%nat
                    else (i < t * (cnt / t) + (cnt mod t) mod (cnt / t))%nat).
Proof.
  intros Ht H. destruct (Nat.ltb_spec cnt 32) as [L|L].
  - unfold a_ranges in H. destruct (Nat.ltb_spec cnt 32); [|lia]. injection H as <-. unfold covered. split.
    + intros (s & n & [E|[]] & Hi). injection E as <- <-. lia.
    + intro. exists 0%nat, cnt. split; [now left|lia].
  - rewrite a_ranges_and in H by easy. now apply covered_iff.
Qed.
Lemma a_all_covered_iff t cnt rs : (1 <= t)%nat -> a_ranges t cnt = Some rs ->
  ((forall i, (i < cnt)%nat -> covered rs i) <-> (cnt < 32 \/ cnt mod t < cnt / t)%nat).
Proof.
  intros Ht H. destruct (Nat.ltb_spec cnt 32) as [L|L].
  - split; [lia|]. intros _ i Hi. apply (a_covered_iff t cnt rs i Ht H). destruct (Nat.ltb_spec cnt 32); [easy|lia].
  - rewrite a_ranges_and in H by easy. rewrite (all_covered_iff t cnt rs Ht H). lia.
Qed.
