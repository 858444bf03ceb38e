(** C42: fixed-point conversion of floats.  [geq] is >= of emp-tool integers, any function that is right
    when the difference fits in the width; see [C42_comparisons]. *)
From Coq Require Import NArith ZArith QArith Qround Qpower Bool Lia.
From Verif Require Import FloatModel FloatSpec FloatProofs FloatThms.
Local Open Scope N_scope.

(** both readings of >= meet the hypothesis *)
Theorem C42_comparisons : geq_right i_val geq_exact /\ geq_right i_val geq_diff.
Proof. exact (conj geq_exact_right geq_diff_right). Qed.
(** non-negative floats: the word is the value times 2^s rounded towards zero *)
Theorem C42_nonnegative : forall geq, geq_right i_val geq -> forall E M s, normal E M -> in_range E s ->
  Z.of_N (float_to_int62 geq (float_bits false E M) s) = fixed E M s /\ (0 <= fixed E M s < 2 ^ 60)%Z.
Proof.
  intros geq G E M s [HE HM] Hr. destruct (to_int62 geq G false E M s HM ltac:(lia) Hr) as [-> B]. split; [|exact B]. unfold fixw. rewrite Z2N.id; lia.
Qed.
(** zero of either sign becomes 0, except that with 22 fraction bits the result depends on the
    reading of >= *)
Theorem C42_zero : forall geq b s, (0 <= s <= 126)%Z -> s <> 22%Z -> geq_right i_val geq -> float_to_int62 geq (float_bits b 0 0) s = 0.
Proof.
  intros geq b s Hs H22 G. destruct (Z.lt_ge_cases s 23) as [L|L].
  - assert (X : exists n : nat, (n < 22)%nat /\ s = Z.of_nat n) by (exists (Z.to_nat s); lia). destruct X as (n & Ln & ->).
    unfold float_to_int62. rewrite bits_M, bits_E, bits_sign by lia. set (g := geq 8 _ _). clearbody g.
    do 22 (destruct n as [|n]; [destruct b, g; vm_compute; reflexivity|]). lia.
  - destruct (to_int62 geq G b 0 0 s) as [-> _]; [reflexivity|reflexivity|unfold in_range; lia|].
    assert (F : fixw 0 0 s = 0). { unfold fixw. rewrite fixed_right by lia. rewrite Z.div_small; [reflexivity|]. split; [lia|]. apply Z.pow_lt_mono_r; lia. }
    rewrite F. now destruct b.
Qed.
Theorem C42_zero_22_refuted : float_to_int62 geq_exact (float_bits false 0 0) 22 = 2 ^ 23 /\ float_to_int62 geq_diff (float_bits false 0 0) 22 = 0.
Proof. split; vm_compute; reflexivity. Qed.
(** negative floats: the word is one more than the representative of the negated magnitude *)
Theorem C42_negative_off_by_one : forall geq, geq_right i_val geq -> forall E M s, normal E M -> in_range E s -> (1 <= fixed E M s)%Z ->
  Z.of_N (float_to_int62 geq (float_bits true E M) s) = (2 ^ 61 - fixed E M s)%Z /\
  (Z.of_N (float_to_int62 geq (float_bits true E M) s) mod p61 = (1 + - fixed E M s) mod p61)%Z.
Proof.
  intros geq G E M s [HE HM] Hr H. destruct (to_int62 geq G true E M s HM ltac:(lia) Hr) as [-> B].
  assert (X : Z.of_N (i_neg 61 (fixw E M s)) = (2 ^ 61 - fixed E M s)%Z).
  { assert (P : Z.of_N (fixw E M s) = fixed E M s) by (unfold fixw; rewrite Z2N.id; lia).
    rewrite i_neg_of by (apply N2Z.inj_le; rewrite P; change (Z.of_N (2 ^ 61)) with (2 ^ 61)%Z; lia). rewrite P. change (2 ^ Z.of_N 61)%Z with (2 ^ 61)%Z.
    rewrite <- (Z.mod_add _ 1) by lia. rewrite Z.mod_small; lia. }
  split; [exact X|]. rewrite X. unfold p61. rewrite <- (Z.mod_add (1 + - fixed E M s) 1) by lia. f_equal. lia.
Qed.
(** so no negative float with a non-zero fixed-point value is converted to the field element it denotes *)
Theorem C42_negative_refuted : forall geq, geq_right i_val geq -> forall E M s, normal E M -> in_range E s -> (1 <= fixed E M s)%Z ->
  (Z.of_N (float_to_int62 geq (float_bits true E M) s) mod p61 <> (- fixed E M s) mod p61)%Z.
Proof.
  intros geq G E M s Hn Hr H. destruct (C42_negative_off_by_one geq G E M s Hn Hr H) as [_ ->].
  destruct (C42_nonnegative geq G E M s Hn Hr) as [_ B]. unfold p61.
  rewrite <- (Z.mod_add (1 + - fixed E M s) 1), <- (Z.mod_add (- fixed E M s) 1) by lia.
  destruct (Z.eq_dec (fixed E M s) 1) as [->|N1]; [vm_compute; congruence|]. rewrite !Z.mod_small by lia. lia.
Qed.
(** the way back: every canonical non-zero field element becomes the float of its signed value,
    rounded towards zero to 24 bits *)
Theorem C42_back : forall geq, geq_right i_val geq -> forall w s, (Z.of_N w < p61)%Z -> signed (Z.of_N w) <> 0%Z ->
  let u := Z.abs (signed (Z.of_N w)) in
  (0 <= Z.log2 u + 127 - s <= 255)%Z ->
  exists M, M < 2 ^ 23 /\ let E := Z.to_N (Z.log2 u + 127 - s) in
    int62_to_float geq w s = float_bits (signed (Z.of_N w) <? 0)%Z E M /\
    (magnitude E M * (2 # 1) ^ s <= inject_Z u < magnitude E M * (2 # 1) ^ s * (1 + (1 # 2 ^ 23)))%Q /\
    ((u < 2 ^ 24)%Z -> (magnitude E M * (2 # 1) ^ s == inject_Z u)%Q).
Proof.
  intros geq G w s Hw H0 u He.
  assert (X : exists v, u = Z.of_N v /\ 1 <= v < 2 ^ 60 /\ int62_to_float geq w s = tail_of geq (signed (Z.of_N w) <? 0)%Z v s).
  { unfold u, signed, p61 in *. destruct (Z.leb_spec (Z.of_N w) (2 ^ 60 - 1)) as [L|L].
    - exists w. split; [lia|]. split; [lia|]. destruct (Z.ltb_spec (Z.of_N w) 0); [lia|]. apply from_pos; [exact G|lia].
    - exists (2 ^ 61 - 1 - w). split; [lia|]. split; [lia|]. destruct (Z.ltb_spec (Z.of_N w - (2 ^ 61 - 1)) 0); [|lia]. apply from_neg; [exact G|lia]. }
  destruct X as (v & Eu & Bv & ->). clearbody u. subst u. rewrite (tail_eq geq G _ v s Bv).
  assert (El : Z.log2 (Z.of_N v) = Z.of_N (N.log2 v)) by apply log2_of. rewrite El in *.
  assert (Em : ((Z.of_N (N.log2 v) + 127 - s) mod 256 = Z.of_N (N.log2 v) + 127 - s)%Z) by (apply Z.mod_small; lia).
  destruct (tail_value v s Bv ltac:(lia)) as [Bm V]. cbv zeta in V. rewrite Em in *.
  exists (mant v). split; [exact Bm|]. cbv zeta. split; [reflexivity|].
  destruct (lead_scaled v ltac:(lia)) as (q & Q1 & Q2 & Q3 & Q4). rewrite V, Q1. split; [split|].
  - rewrite <- Zle_Qle. lia.
  - apply Qmult_lt_r with (inject_Z (2 ^ 23)); [reflexivity|]. rewrite <- Qmult_assoc. setoid_replace ((1 + (1 # 2 ^ 23)) * inject_Z (2 ^ 23))%Q with (inject_Z (2 ^ 23 + 1)) by reflexivity.
    rewrite <- !inject_Z_mult, <- Zlt_Qlt. lia.
  - intro H. rewrite Q4 by lia. reflexivity.
Qed.
(** zero does not come back as zero but as half of the smallest unit, 2^(-1-s) *)
Theorem C42_back_zero_refuted : forall geq, geq_right i_val geq -> forall s, (-128 <= s <= 125)%Z ->
  int62_to_float geq 0 s = float_bits false (Z.to_N (126 - s)) 0 /\ (magnitude (Z.to_N (126 - s)) 0 == (2 # 1) ^ (-1 - s))%Q.
Proof.
  intros geq G s Hs. split.
  - rewrite from_pos by (auto; lia). rewrite tail_zero by exact G. now rewrite Z.mod_small by lia.
  - unfold magnitude. rewrite Z2N.id by lia. change (inject_Z (2 ^ 23 + Z.of_N 0)) with (inject_Z (2 ^ 23)). rewrite <- pow2_inj by lia. rewrite <- (Qpower_plus _ _ _ two_nz).
    replace (23 + (126 - s - 150))%Z with (-1 - s)%Z by lia. reflexivity.
Qed.
(** round trip of a non-negative float: same sign and exponent, value rounded towards zero to a
    multiple of 2^-s; nothing is lost when the float is such a multiple *)
Theorem C42_round_trip : forall geq, geq_right i_val geq -> forall E M s, normal E M -> in_range E s -> (1 <= fixed E M s)%Z ->
  exists M', M' < 2 ^ 23 /\ int62_to_float geq (float_to_int62 geq (float_bits false E M) s) s = float_bits false E M' /\
    (magnitude E M' * (2 # 1) ^ s == inject_Z (fixed E M s))%Q /\ ((0 <= Z.of_N E - 150 + s)%Z -> M' = M).
Proof.
  intros geq G E M s Hn Hr H. pose proof (log2_fixed E M s Hn Hr H) as Hl. destruct (lead_fixed E M s Hn Hr H) as (_ & L2 & _).
  destruct Hn as [HE HM]. destruct (to_int62 geq G false E M s HM ltac:(lia) Hr) as [-> B].
  assert (P : Z.of_N (fixw E M s) = fixed E M s) by (unfold fixw; rewrite Z2N.id; lia).
  assert (Bv : 1 <= fixw E M s < 2 ^ 60) by lia. rewrite from_pos by (auto; lia). rewrite (tail_eq geq G false _ s Bv), Hl.
  replace (Z.of_N E - 127 + s + 127 - s)%Z with (Z.of_N E) by lia. rewrite Z.mod_small, N2Z.id by lia.
  exists (mant (fixw E M s)). destruct (tail_value (fixw E M s) s Bv ltac:(lia)) as [Bm V]. cbv zeta in V. rewrite Hl in V.
  replace (Z.of_N E - 127 + s + 127 - s)%Z with (Z.of_N E) in V by lia. rewrite Z.mod_small, N2Z.id in V by lia.
  split; [exact Bm|]. split; [reflexivity|].
  assert (I : (0 <= Z.of_N E - 150 + s)%Z -> mant (fixw E M s) = M).
  { intro L. rewrite (proj1 (mant_lead _ (proj1 Bv))), (L2 L). lia. }
  split; [|exact I]. destruct (Z.lt_ge_cases (Z.of_N E - 150 + s) 0) as [L|L].
  - rewrite V. rewrite <- Hl. destruct (lead_scaled _ (proj1 Bv)) as (q & Q1 & _ & _ & Q4). rewrite Q1. rewrite Q4; [now rewrite P|].
    rewrite fixed_right in P by lia. apply N2Z.inj_lt. rewrite P. apply Z.le_lt_trans with (2 ^ 23 + Z.of_N M)%Z; [|change (Z.of_N (2 ^ 24)) with (2 ^ 24)%Z; lia].
    apply Z.div_le_upper_bound; [apply Z.pow_pos_nonneg; lia|]. assert (0 < 2 ^ (- (Z.of_N E - 150 + s)))%Z by (apply Z.pow_pos_nonneg; lia). nia.
  - rewrite (I L), magnitude_scaled, fixed_left by lia. rewrite inject_Z_mult, pow2_inj by lia. reflexivity.
Qed.
(** no negative float with a non-zero fixed-point value survives the round trip *)
Theorem C42_round_trip_negative_refuted : forall geq, geq_right i_val geq -> forall E M s, normal E M -> in_range E s -> (1 <= fixed E M s)%Z ->
  int62_to_float geq (float_to_int62 geq (float_bits true E M) s) s <> float_bits true E M.
Proof.
  intros geq G E M s Hn Hr H. pose proof (log2_fixed E M s Hn Hr H) as Hl. destruct (lead_fixed E M s Hn Hr H) as (_ & _ & L3).
  destruct (C42_negative_off_by_one geq G E M s Hn Hr H) as [W _]. destruct (C42_nonnegative geq G E M s Hn Hr) as [_ B].
  assert (P : Z.of_N (fixw E M s) = fixed E M s) by (unfold fixw; rewrite Z2N.id; lia). destruct Hn as [HE HM].
  set (w := float_to_int62 geq (float_bits true E M) s) in *. clearbody w. intro C.
  destruct (Z.eq_dec (fixed E M s) 1) as [E1|N1].
  - replace w with (2 ^ 61 - 1) in C by lia. rewrite from_p in C by exact G. rewrite tail_zero in C by exact G.
    apply (f_equal (fun x => N.testbit x 31)) in C. rewrite !bits_sign in C; [discriminate|lia|lia|lia|].
    apply N2Z.inj_lt. rewrite Z2N.id; apply Z.mod_pos_bound; lia.
  - rewrite from_neg in C by (auto; lia). replace (2 ^ 61 - 1 - w) with (fixw E M s - 1) in C by lia.
    set (u := fixw E M s - 1) in *. assert (Bu : 1 <= u < 2 ^ 60) by (unfold u; lia). rewrite (tail_eq geq G true u s Bu) in C.
    assert (Bx : Z.to_N ((Z.of_N (N.log2 u) + 127 - s) mod 256) < 256) by (apply N2Z.inj_lt; rewrite Z2N.id; apply Z.mod_pos_bound; lia).
    destruct (mant_lead u (proj1 Bu)) as [M1 _]. pose proof (lead_bound u (proj1 Bu)) as Lb.
    assert (Bm : mant u < 2 ^ 23) by lia.
    pose proof (f_equal (fun x => x mod 2 ^ 23) C) as CM. cbv beta in CM. rewrite !bits_M in CM by (auto; lia).
    pose proof (f_equal (fun x => N.shiftr x 23 mod 2 ^ 8) C) as CE. cbv beta in CE. rewrite !bits_E in CE by (auto; lia).
    assert (Lu : N.log2 u <= N.log2 (fixw E M s)) by (apply N.log2_le_mono; lia).
    assert (Lf : N.log2 (fixw E M s) <= N.succ (N.log2 u)).
    { replace (fixw E M s) with (N.succ u) by lia. apply N.log2_succ_le. }
    destruct (N.eq_dec (N.log2 u) (N.log2 (fixw E M s))) as [Eq|Ne].
    + specialize (L3 ltac:(lia) Eq). lia.
    + assert (X : (Z.of_N (N.log2 u) + 127 - s = Z.of_N E - 1)%Z) by lia. rewrite X, Z.mod_small in CE by lia. lia.
Qed.
(** below the range the exponent difference wraps in 8 bits: read exactly, >= lets 2^-105 become 2^23;
    read as the sign of the difference, small values become 0 as they should *)
Theorem C42_tiny_refuted : fixed 22 0 0 = 0%Z /\ float_to_int62 geq_exact (float_bits false 22 0) 0 = 2 ^ 23.
Proof. split; [rewrite fixed_right by (cbn; lia)|]; vm_compute; reflexivity. Qed.
Theorem C42_tiny : forall b E M s, normal E M -> (-188 <= Z.of_N E - 150 + s <= -61)%Z -> float_to_int62 geq_diff (float_bits b E M) s = 0.
Proof.
  intros b E M s [HE HM] Hr. unfold float_to_int62. rewrite bits_M, bits_E, bits_sign by (auto; lia).
  set (sh := (Z.of_N E - 150 + s)%Z) in *.
  assert (X : Z.of_N (i_sub 8 E (i_const 8 (127 + 23 - s))) = (sh mod 256)%Z).
  { rewrite i_sub_of.
    - rewrite i_const_of, Zminus_mod_idemp_r. f_equal. unfold sh. lia.
    - apply N2Z.inj_le. rewrite i_const_of. pose proof (Z.mod_pos_bound (127 + 23 - s) (2 ^ Z.of_N 8)). cbn in *. lia. }
  set (ex := i_sub 8 E (i_const 8 (127 + 23 - s))) in *. clearbody ex.
  assert (Bx : ex < 2 ^ 8) by (apply N2Z.inj_lt; rewrite X; apply Z.mod_pos_bound; lia).
  assert (Y : Z.of_N (i_sub 8 (i_neg 8 ex) (i_const 8 61)) = (- sh - 61)%Z).
  { rewrite i_sub_of by (vm_compute; discriminate). rewrite i_neg_of, X by lia. change (2 ^ Z.of_N 8)%Z with 256%Z. change (Z.of_N (i_const 8 61)) with 61%Z.
    rewrite Zminus_mod_idemp_l. rewrite <- (Z.sub_0_l (sh mod 256)). replace (0 - sh mod 256 - 61)%Z with (-61 - sh mod 256)%Z by lia. rewrite Zminus_mod_idemp_r.
    rewrite Z.mod_small by lia. lia. }
  assert (Gq : geq_diff 8 (i_neg 8 ex) (i_const 8 61) = true).
  { unfold geq_diff. rewrite i_top_spec; [|lia|apply N2Z.inj_lt; rewrite Y; cbn; lia]. apply negb_true_iff, N.leb_gt. apply N2Z.inj_lt. rewrite Y. cbn. lia. }
  rewrite Gq. now destruct b.
Qed.

(** 2.7182817 (0x402DF854) with 16 fraction bits; -1.0 and -3.5 *)
Example C42_example :
  float_bits false 128 0x2DF854 = 0x402DF854 /\ normal 128 0x2DF854 /\ in_range 128 16 /\ fixed 128 0x2DF854 16 = 178145%Z /\
  float_to_int62 geq_diff 0x402DF854 16 = 178145 /\ int62_to_float geq_diff 178145 16 = 0x402DF840 /\
  float_to_int62 geq_diff 0xBF800000 16 = 2 ^ 61 - 65536 /\ int62_to_float geq_diff (2 ^ 61 - 65536) 16 = 0xBF7FFF00 /\
  int62_to_float geq_diff (2 ^ 61 - 1 - 65536) 16 = 0xBF800000 /\ signed (2 ^ 61 - 1 - 65536) = (-65536)%Z /\
  int62_to_float geq_diff 0 16 = 0x37000000.
Proof.
  split; [vm_compute; reflexivity|]. split; [unfold normal; lia|]. split; [unfold in_range; lia|].
  split; [rewrite fixed_right by lia; vm_compute; reflexivity|]. repeat split; vm_compute; reflexivity.
Qed.

Print Assumptions C42_comparisons.
Print Assumptions C42_nonnegative.
Print Assumptions C42_zero.
Print Assumptions C42_zero_22_refuted.
Print Assumptions C42_negative_off_by_one.
Print Assumptions C42_negative_refuted.
Print Assumptions C42_back.
Print Assumptions C42_back_zero_refuted.
Print Assumptions C42_round_trip.
Print Assumptions C42_round_trip_negative_refuted.
Print Assumptions C42_tiny_refuted.
Print Assumptions C42_tiny.
