(** Arithmetic session: acceptance as a polynomial in Delta; relation of the shadow run to the
    committed values; relation of the shadow run to the honest prover. *)
From Coq Require Import NArith List Bool Arith Lia Ring.
From Verif Require Import Word WordProofs FpModel FpProofs PolyRoots ListUtil Prime61 ArithModel ArithSpec ArithProofs ArithShadow.
Import ListNotations.
Local Open Scope N_scope.
Ltac Zify.zify_post_hook ::= idtac.
Add Ring fp_ring : fp_rt.

(** * Unreduced claims *)
Lemma W64_F : toF W64 = toF 8.
Proof. now apply toF_eq. Qed.
Lemma mm_wrap v d : v < W64 -> d < PR -> exists j : bool,
  toF (mult_mod v d) = psub (pmul (toF v) (toF d)) (if j then toF 8 else p0) /\
  (v < 2 ^ 63 -> j = false) /\ mult_mod v d < W64 - PR.
Proof.
  intros Hv Hd.
  assert (HP : v * d < 2 ^ 125).
  { apply N.lt_le_trans with (W64 * PR); [|discriminate]. 
    apply N.le_lt_trans with (v * PR); [apply N.mul_le_mono_l; lia|]. apply N.mul_lt_mono_pos_r; [reflexivity|easy]. }
  unfold mult_mod. cbv zeta. rewrite mult_res_eq by exact HP.
  pose proof (mod61_lt (v * d)) as B1.
  pose proof (div61_lt (v * d) 18446744073709551616 ltac:(exact HP)) as B2.
  unfold mul64_lo. rewrite land_PR, mod_mod61.
  pose proof (fold61 (v * d)) as F.
  set (r := v * d mod 2305843009213693952) in *. set (q := v * d / 2305843009213693952) in *.
  set (res := add64 r q).
  assert (Hres : res < W64) by apply add64_lt.
  rewrite csub64 by exact Hres.
  assert (Hcs : toF (if PR <=? res then res - PR else res) = toF res) by (apply toF_eq, csub_congr).
  assert (Hlt : (if PR <=? res then res - PR else res) < W64 - PR).
  { destruct (N.leb_spec PR res); unfold PR, W64 in *; lia. }
  destruct (N.ltb_spec (r + q) W64) as [Hs|Hs].
  - exists false. split; [|split; [auto|exact Hlt]]. rewrite Hcs. unfold res. rewrite add64_small by easy.
    rewrite <- toF_mod, F, toF_mod, toF_mul. ring.
  - exists true. split; [|split; [|exact Hlt]].
    + rewrite Hcs. unfold res, add64.
      replace ((r + q) mod W64) with (r + q - W64).
      * rewrite toF_sub by easy. rewrite W64_F, <- (toF_mod (r + q)), F, toF_mod, toF_mul. reflexivity.
      * clear - Hs B1 B2. symmetry. change 18446744073709551616 with W64 in B2.
        replace (r + q) with ((r + q - W64) + 1 * W64) at 1 by (clear - Hs; lia).
        rewrite N.mod_add by discriminate.
        apply N.mod_small. clearbody r q. unfold W64, PR in *. lia.
    + intro H63. exfalso.
      assert (HP' : v * d < 2 ^ 124).
      { apply N.lt_le_trans with (2 ^ 63 * PR); [|discriminate].
        apply N.le_lt_trans with (v * PR); [apply N.mul_le_mono_l; lia|]. apply N.mul_lt_mono_pos_r; [reflexivity|easy]. }
      pose proof (div61_lt (v * d) 9223372036854775808 ltac:(exact HP')) as B3. fold q in B3.
      unfold W64, PR in *. lia.
Qed.
Lemma mm_add_F v d k : v < W64 -> d < PR -> k < PR -> exists j : bool,
  toF (add_mod (mult_mod v d) k) = padd (psub (pmul (toF v) (toF d)) (if j then toF 8 else p0)) (toF k) /\
  (v < 2 ^ 63 -> j = false).
Proof.
  intros Hv Hd Hk. destruct (mm_wrap v d Hv Hd) as (j & E & J & L). exists j. split; [|easy].
  rewrite toF_add_mod by lia. now rewrite E.
Qed.

(** * Acceptance of a check *)
Definition ci_c0 (ci : cinst) : fp :=
  psub (padd (rsum (chiF (ci_seed ci)) (ci_rs ci) (map iA0 (ci_items ci))) (fst (ci_ope ci))) (toF (fst (ci_msg ci))).
Definition ci_c1 (ci : cinst) : fp :=
  psub (toF (snd (ci_msg ci))) (padd (rsum (chiF (ci_seed ci)) (ci_rs ci) (map iA1 (ci_items ci))) (snd (ci_ope ci))).
Definition ci_E (ci : cinst) : fp := rsum (chiF (ci_seed ci)) (ci_rs ci) (map iE (ci_items ci)).
Lemma ci_acc_poly d ci : d < PR -> snd (ci_msg ci) < W64 -> ci_acc d ci = true -> exists j : bool,
  padd (padd (ci_c0 ci) (pmul (ci_c1 ci) (toF d))) (pmul (ci_E ci) (pmul (toF d) (toF d)))
  = (if j then toF 8 else p0) /\ (snd (ci_msg ci) < 2 ^ 63 -> j = false).
Proof.
  intros Hd Hm H. unfold ci_acc, a_ver_accept in H. cbv zeta in H. apply N.eqb_eq in H.
  pose proof (fv_lt (ci_W d ci)). pose proof (fv_lt (kf d (ci_ope ci))).
  rewrite lo_id in H by lia.
  assert (L : add_mod (fv (ci_W d ci)) (fv (kf d (ci_ope ci))) < PR) by (apply am_lt; lia).
  destruct (mm_add_F _ d _ Hm Hd L) as (j & E & J). exists j. split; [|easy].
  rewrite <- H, am_F, !toF_fv in E by lia. unfold ci_c0, ci_c1. rewrite E. unfold ci_W. rewrite rsum_Bof.
  unfold ci_E, kf. ring.
Qed.
Lemma ci_acc_zero d ci U V : d < PR -> ci_E ci = p0 ->
  ci_msg ci = (fv U, fv V) ->
  U = padd (rsum (chiF (ci_seed ci)) (ci_rs ci) (map iA0 (ci_items ci))) (fst (ci_ope ci)) ->
  V = padd (rsum (chiF (ci_seed ci)) (ci_rs ci) (map iA1 (ci_items ci))) (snd (ci_ope ci)) ->
  ci_acc d ci = true.
Proof.
  intros Hd Z Hm HU HV. unfold ci_acc, a_ver_accept. cbv zeta. rewrite Hm. cbn [fst snd]. apply N.eqb_eq.
  pose proof (fv_lt (ci_W d ci)). pose proof (fv_lt (kf d (ci_ope ci))). pose proof (fv_lt U). pose proof (fv_lt V).
  rewrite lo_id by lia.
  assert (L : add_mod (fv (ci_W d ci)) (fv (kf d (ci_ope ci))) < PR) by (apply am_lt; lia).
  assert (L' : mult_mod (fv V) d < PR) by (apply mm_lt; lia).
  apply toF_inj; [easy|apply am_lt; lia|].
  rewrite am_F, mm_F, am_F, !toF_fv by lia. unfold ci_W. rewrite rsum_Bof.
  unfold ci_E in Z. rewrite Z. subst U V. unfold kf. ring.
Qed.
Lemma ci_acc_honest d ci U V : d < PR -> Forall (fun t => iE t = p0) (ci_items ci) ->
  ci_msg ci = (fv U, fv V) ->
  U = padd (rsum (chiF (ci_seed ci)) (ci_rs ci) (map iA0 (ci_items ci))) (fst (ci_ope ci)) ->
  V = padd (rsum (chiF (ci_seed ci)) (ci_rs ci) (map iA1 (ci_items ci))) (snd (ci_ope ci)) ->
  ci_acc d ci = true.
Proof.
  intros Hd HE Hm HU HV. eapply ci_acc_zero; eauto. unfold ci_E, rsum.
  assert (Z0 : forall c l, Forall (fun t => iE t = p0) l -> fdot c (map iE l) = p0).
  { induction c as [|a c IH]; intros [|t l] Hl; try reflexivity. inversion_clear Hl as [|? ? Ht Hl'].
    cbn [map]. rewrite fdot_cons, IH by easy. rewrite Ht. ring. }
  induction (combine (seq 0 (length (ci_rs ci))) (ci_rs ci)) as [|ir l IH]; [reflexivity|].
  cbn [map fold_right]. rewrite IH, aseg_map, Z0; [ring|].
  rewrite Forall_forall in *. intros t Ht. apply HE. eapply aseg_in; eauto.
Qed.
(** at most four (two if the message is below 2^63) global keys pass a check whose combined
    error is non-zero *)
Lemma accept_bound ci ds : ci_E ci <> p0 -> snd (ci_msg ci) < W64 -> NoDup ds ->
  (forall d, In d ds -> d < PR /\ ci_acc d ci = true) ->
  (length ds <= 4)%nat /\ (snd (ci_msg ci) < 2 ^ 63 -> (length ds <= 2)%nat).
Proof.
  intros HE Hm Hnd Hd.
  assert (Hnd' : NoDup (map toF ds)).
  { apply NoDup_map_in; [|exact Hnd]. intros x y Hx Hy E. apply toF_inj; auto; now apply Hd. }
  set (a := ci_c0 ci). set (b := ci_c1 ci). set (e := ci_E ci). split.
  - rewrite <- (map_length toF). apply le_S_n.
    apply (fp_root_count
      [pmul a (psub a (toF 8)); psub (pmul (padd a a) b) (pmul (toF 8) b);
       padd (pmul b b) (psub (pmul (padd a a) e) (pmul (toF 8) e)); pmul (padd b b) e; pmul e e]); auto.
    + intro Hz. apply Forall_inv_tail, Forall_inv_tail, Forall_inv_tail, Forall_inv_tail, Forall_inv in Hz.
      apply fp_nzd in Hz. tauto.
    + intros r Hr. apply in_map_iff in Hr. destruct Hr as (d & <- & Hin). destruct (Hd d Hin) as [H1 H2].
      destruct (ci_acc_poly d ci H1 Hm H2) as (j & E & _). fold a b e in E.
      set (q := padd (padd a (pmul b (toF d))) (pmul e (pmul (toF d) (toF d)))) in *.
      transitivity (pmul q (psub q (toF 8))).
      * unfold q. cbn [peval]. ring.
      * rewrite E. destruct j; ring.
  - intro H63. rewrite <- (map_length toF). apply (fp_quad a b e); auto.
    intros r Hr. apply in_map_iff in Hr. destruct Hr as (d & <- & Hin). destruct (Hd d Hin) as [H1 H2].
    destruct (ci_acc_poly d ci H1 Hm H2) as (j & E & J). rewrite (J H63) in E. exact E.
Qed.
(** * Openings *)
Lemma rev_mac_F d r : d < PR -> snd r < W64 -> exists j : bool,
  toF (rev_mac d r) = padd (fst (fst r)) (psub (pmul (psub (toF (snd r)) (snd (fst r))) (toF d)) (if j then toF 8 else p0)) /\
  (snd r < 2 ^ 63 -> j = false).
Proof.
  intros Hd Hr. unfold rev_mac. destruct (mm_add_F (snd r) d (fv (kf d (fst r))) Hr Hd (fv_lt _)) as (j & E & J).
  exists j. split; [|easy]. rewrite E, toF_fv. unfold kf. ring.
Qed.
Lemma reveal_bound r ds h : snd r < W64 -> toF (snd r) <> snd (fst r) -> NoDup ds ->
  (forall d, In d ds -> d < PR /\ rev_mac d r = h) ->
  (length ds <= 2)%nat /\ (snd r < 2 ^ 63 -> (length ds <= 1)%nat).
Proof.
  destruct r as [[m x0] w]. cbn [fst snd]. intros Hw Hx Hnd Hd.
  assert (Hnd' : NoDup (map toF ds)).
  { apply NoDup_map_in; [|exact Hnd]. intros x y ? ? E. apply toF_inj; auto; now apply Hd. }
  set (a := psub (toF w) x0). set (c := psub m (toF h)).
  assert (Ha : a <> p0).
  { intro E. apply Hx. transitivity (padd a x0); [unfold a; ring|]. rewrite E. ring. }
  split.
  - rewrite <- (map_length toF). apply (fp_quad (pmul c (psub c (toF 8))) (psub (pmul (padd c c) a) (pmul (toF 8) a)) (pmul a a)); auto.
    + intro Hz. apply fp_nzd in Hz. tauto.
    + intros x Hin. apply in_map_iff in Hin. destruct Hin as (d & <- & Hin). destruct (Hd d Hin) as [H1 H2].
      destruct (rev_mac_F d (m, x0, w) H1 Hw) as (j & E & _). rewrite H2 in E. cbn [fst snd] in E.
      assert (E' : padd c (pmul a (toF d)) = if j then toF 8 else p0).
      { unfold c. rewrite E. unfold a. ring. }
      transitivity (pmul (padd c (pmul a (toF d))) (psub (padd c (pmul a (toF d))) (toF 8))); [ring|].
      rewrite E'. destruct j; ring.
  - intro H63. rewrite <- (map_length toF). apply (fp_lin c a); auto.
    intros x Hin. apply in_map_iff in Hin. destruct Hin as (d & <- & Hin). destruct (Hd d Hin) as [H1 H2].
    destruct (rev_mac_F d (m, x0, w) H1 Hw) as (j & E & J). rewrite (J H63), H2 in E. cbn [fst snd] in E. unfold c. rewrite E. unfold a. ring.
Qed.
Lemma rev_mac_honest d m x : d < PR -> rev_mac d ((m, x), fv x) = fv m.
Proof.
  intro Hd. unfold rev_mac. cbn [fst snd]. pose proof (fv_lt x). pose proof (fv_lt m).
  pose proof (fv_lt (kf d (m, x))). pose proof (mm_lt (fv x) d ltac:(lia) ltac:(lia)).
  apply toF_inj; [apply am_lt; lia|easy|]. rewrite am_F, mm_F, !toF_fv by lia. unfold kf. cbn [fst snd]. ring.
Qed.

(** * Combined error of the specification *)
Lemma fold_addF l : toF (fold_right N.add 0 l) = fold_right padd p0 (map toF l).
Proof. induction l as [|x l IH]; [reflexivity|]. cbn [fold_right map]. now rewrite toF_add, IH. Qed.
Lemma toF_pow_mod s k : toF ((s mod PR) ^ k) = toF (s ^ k).
Proof.
  induction k as [|k IH] using N.peano_ind; [reflexivity|].
  rewrite !N.pow_succ_r'. rewrite !toF_mul, IH. now rewrite toF_mod.
Qed.
Lemma chiF_pow seed i n : (1 <= n)%nat ->
  chiF seed i n = map (fun j => toF (((seed i mod 2 ^ 64) mod prm) ^ (1 + N.of_nat j))) (seq 0 n).
Proof.
  intro Hn. unfold chiF, a_chi. rewrite mod1_correct by apply lo64_lt.
  rewrite uni_hash_coeff_gen_ok by (try apply mod_PR_lt; easy).
  rewrite map_map. apply map_ext. intro j. rewrite toF_mod. reflexivity.
Qed.
Lemma fdot_range s errs : forall m k, (length errs <= m)%nat ->
  fdot (map (fun j => toF (s ^ (1 + N.of_nat j))) (seq k m)) (map toF errs) =
  fold_right padd p0 (map (fun je => toF (s ^ (1 + N.of_nat (fst je)) * snd je)) (combine (seq k (length errs)) errs)).
Proof.
  induction errs as [|e errs IH]; intros m k H.
  - unfold fdot. cbn [map]. rewrite combine_nil. reflexivity.
  - destruct m as [|m]; [cbn in H; lia|]. cbn [length seq map combine fold_right fst snd].
    rewrite fdot_cons, IH by (cbn in H; lia). rewrite toF_mul. reflexivity.
Qed.
Lemma aseg_len_le {A} st n (l : list A) : (length (aseg st n l) <= n)%nat.
Proof. unfold aseg. rewrite firstn_length. lia. Qed.
Lemma combined_F rs (seed : nat -> N) its :
  toF (a_combined rs (fun i => (seed i mod 2 ^ 64) mod prm) (map fv its)) = rsum (chiF seed) rs its.
Proof.
  unfold a_combined, rsum. rewrite prm_PR, toF_mod, fold_addF, map_map. f_equal.
  apply map_ext. intros [i [st n]]. cbn [fst snd].
  change (firstn n (skipn st (map fv its))) with (aseg st n (map fv its)). rewrite aseg_map.
  unfold a_range_error. rewrite fold_addF, map_map.
  pose proof (aseg_len_le st n its) as L. set (l := aseg st n its) in *. clearbody l.
  destruct n as [|n].
  { destruct l; [|cbn in L; lia]. unfold fdot. rewrite combine_nil. reflexivity. }
  rewrite chiF_pow by lia. rewrite prm_PR.
  replace l with (map toF (map fv l)) at 3 by (rewrite map_map; erewrite map_ext; [apply map_id|apply toF_fv]).
  rewrite fdot_range by (rewrite map_length; lia). reflexivity.
Qed.
Lemma combined_ext rs s s' e : (forall i, s i = s' i) -> a_combined rs s e = a_combined rs s' e.
Proof.
  intro H. unfold a_combined. f_equal. f_equal. apply map_ext. intros [i ?]. cbn [fst snd]. now rewrite H.
Qed.
