(** Proofs about the float conversions. *)
From Coq Require Import NArith ZArith QArith Qround Qpower Bool Lia Lqa.
From Verif Require Import FloatModel FloatSpec.
Local Open Scope N_scope.

(** * Q side *)
Lemma two_nz : ~ ((2 # 1) == 0)%Q. Proof. discriminate. Qed.
Lemma pow2_pos (z : Z) : (0 < (2 # 1) ^ z)%Q.
Proof. apply Qpower_0_lt. reflexivity. Qed.
Lemma pow2_inj (z : Z) : (0 <= z)%Z -> ((2 # 1) ^ z == inject_Z (2 ^ z))%Q.
Proof. intro H. change (2 # 1) with (inject_Z 2). symmetry. now apply Zpower_Qpower. Qed.
Lemma magnitude_scaled E M s : (magnitude E M * (2 # 1) ^ s == inject_Z (2 ^ 23 + Z.of_N M) * (2 # 1) ^ (Z.of_N E - 150 + s))%Q.
Proof. unfold magnitude. rewrite <- Qmult_assoc, <- (Qpower_plus _ _ _ two_nz). reflexivity. Qed.
Lemma floor_div a k : (0 <= k)%Z -> Qfloor (inject_Z a * (2 # 1) ^ (- k)) = (a / 2 ^ k)%Z.
Proof.
  intro H. assert (P : (0 < 2 ^ k)%Z) by (apply Z.pow_pos_nonneg; lia).
  rewrite (Qfloor_comp _ (a # Z.to_pos (2 ^ k))).
  - unfold Qfloor. now rewrite Z2Pos.id.
  - rewrite Qpower_opp, pow2_inj by exact H. rewrite (Qmake_Qdiv a). rewrite Z2Pos.id by exact P. reflexivity.
Qed.
Lemma fixed_left E M s : (0 <= Z.of_N E - 150 + s)%Z -> fixed E M s = ((2 ^ 23 + Z.of_N M) * 2 ^ (Z.of_N E - 150 + s))%Z.
Proof.
  intro H. unfold fixed. rewrite (Qfloor_comp _ _ (magnitude_scaled E M s)).
  rewrite (Qfloor_comp _ (inject_Z ((2 ^ 23 + Z.of_N M) * 2 ^ (Z.of_N E - 150 + s)))); [apply Qfloor_Z|].
  rewrite inject_Z_mult, pow2_inj by exact H. reflexivity.
Qed.
Lemma fixed_right E M s : (Z.of_N E - 150 + s <= 0)%Z -> fixed E M s = ((2 ^ 23 + Z.of_N M) / 2 ^ (- (Z.of_N E - 150 + s)))%Z.
Proof.
  intro H. unfold fixed. rewrite (Qfloor_comp _ _ (magnitude_scaled E M s)).
  rewrite <- (floor_div _ (- (Z.of_N E - 150 + s))) by lia. now rewrite Z.opp_involutive.
Qed.

(** * shifts *)
Lemma shift_step amt i n : (amt / 2 ^ i) mod 2 ^ (N.of_nat (S n)) = N.b2n (N.testbit amt i) + 2 * ((amt / 2 ^ (i + 1)) mod 2 ^ (N.of_nat n)).
Proof.
  rewrite Nat2N.inj_succ, N.pow_succ_r', N.mod_mul_r by (try discriminate; apply N.pow_nonzero; discriminate).
  rewrite N.div_div by (try discriminate; apply N.pow_nonzero; discriminate). rewrite N.pow_add_r, N.pow_1_r.
  now rewrite N.testbit_spec'.
Qed.
Section Shift.
  Variable one : N -> N -> N.
  Variable ok : N -> Prop.
  Hypothesis ok_one : forall a c, ok a -> ok (one a c).
  Hypothesis one_0 : forall a, ok a -> one a 0 = a.
  Hypothesis one_one : forall a c d, one (one a c) d = one a (c + d).
  Lemma shift_sum n : forall i amt a, ok a -> i_shift one n i amt a = one a ((amt / 2 ^ i) mod 2 ^ (N.of_nat n) * 2 ^ i).
  Proof.
    induction n as [|n IH]; intros i amt a H; cbn [i_shift].
    - change (2 ^ N.of_nat 0) with 1. rewrite N.mod_1_r, N.mul_0_l. now rewrite one_0.
    - rewrite IH by (destruct (N.testbit amt i); auto). rewrite shift_step. set (r := (amt / 2 ^ (i + 1)) mod _).
      rewrite N.pow_add_r, N.pow_1_r. destruct (N.testbit amt i); cbn [N.b2n].
      + rewrite one_one. f_equal. lia.
      + f_equal. lia.
  Qed.
End Shift.
Lemma i_shl_eq amt a : a < 2 ^ 61 -> i_shl 61 amt a = (a * 2 ^ (amt mod 64)) mod 2 ^ 61.
Proof.
  intro H. unfold i_shl. rewrite (shift_sum _ (fun a => a < 2 ^ 61)).
  - change (2 ^ N.of_nat 6) with 64. rewrite N.pow_0_r, N.div_1_r, N.mul_1_r. now rewrite N.shiftl_mul_pow2.
  - intros. apply N.mod_lt. discriminate.
  - intros x Hx. rewrite N.shiftl_0_r. now apply N.mod_small.
  - intros x c d. rewrite !N.shiftl_mul_pow2, N.mul_mod_idemp_l, N.pow_add_r by discriminate. f_equal. lia.
  - exact H.
Qed.
Lemma i_shr_eq amt a : i_shr amt a = a / 2 ^ (amt mod 64).
Proof.
  unfold i_shr. rewrite (shift_sum _ (fun a => True)); auto.
  - change (2 ^ N.of_nat 6) with 64. rewrite N.pow_0_r, N.div_1_r, N.mul_1_r. now rewrite N.shiftr_div_pow2.
  - intros x c d. rewrite N.shiftr_shiftr. reflexivity.
Qed.
(** * words *)
Lemma i_const_small w x : (0 <= x < 2 ^ Z.of_N w)%Z -> i_const w x = Z.to_N x.
Proof. intro H. unfold i_const. now rewrite Z.mod_small. Qed.
Lemma i_const_of w x : Z.of_N (i_const w x) = (x mod 2 ^ Z.of_N w)%Z.
Proof. unfold i_const. rewrite Z2N.id; [reflexivity|]. apply Z.mod_pos_bound. apply Z.pow_pos_nonneg; lia. Qed.
Lemma i_sub_of w a b : b <= 2 ^ w -> Z.of_N (i_sub w a b) = ((Z.of_N a - Z.of_N b) mod 2 ^ Z.of_N w)%Z.
Proof.
  intro H. unfold i_sub. assert (P : 2 ^ w <> 0) by (apply N.pow_nonzero; discriminate).
  rewrite N2Z.inj_mod, N2Z.inj_add, N2Z.inj_sub, N2Z.inj_pow by auto. change (Z.of_N 2) with 2%Z.
  assert (P' : (2 ^ Z.of_N w <> 0)%Z) by (apply Z.pow_nonzero; lia).
  replace (Z.of_N a + (2 ^ Z.of_N w - Z.of_N b))%Z with (Z.of_N a - Z.of_N b + 1 * 2 ^ Z.of_N w)%Z by lia. now apply Z.mod_add.
Qed.
Lemma i_neg_of w a : a <= 2 ^ w -> Z.of_N (i_neg w a) = ((- Z.of_N a) mod 2 ^ Z.of_N w)%Z.
Proof. intro H. change (i_neg w a) with (i_sub w 0 a). now rewrite i_sub_of. Qed.
Lemma i_top_spec w a : 1 <= w -> a < 2 ^ w -> i_top w a = (2 ^ (w - 1) <=? a).
Proof.
  intros Hw H. unfold i_top. destruct (N.leb_spec (2 ^ (w - 1)) a) as [L|L].
  - assert (E : 2 ^ w = 2 * 2 ^ (w - 1)) by (rewrite <- N.pow_succ_r'; f_equal; lia).
    rewrite N.testbit_odd, N.shiftr_div_pow2.
    replace (a / 2 ^ (w - 1)) with 1; [reflexivity|]. apply (N.div_unique _ _ 1 (a - 2 ^ (w - 1))); lia.
  - destruct (N.eq_dec a 0) as [->|N0]; [apply N.bits_0|]. apply N.bits_above_log2. apply N.log2_lt_pow2; lia.
Qed.
Lemma i_val_of w a x : 1 <= w -> Z.of_N a = (x mod 2 ^ Z.of_N w)%Z -> (- 2 ^ (Z.of_N w - 1) <= x < 2 ^ (Z.of_N w - 1))%Z -> i_val w a = x.
Proof.
  intros Hw Ha Hx. assert (E : (2 ^ Z.of_N w = 2 * 2 ^ (Z.of_N w - 1))%Z) by (rewrite <- Z.pow_succ_r by lia; f_equal; lia).
  assert (E' : Z.of_N (2 ^ (w - 1)) = (2 ^ (Z.of_N w - 1))%Z) by (rewrite N2Z.inj_pow, N2Z.inj_sub by exact Hw; reflexivity).
  assert (B : (0 <= x mod 2 ^ Z.of_N w < 2 ^ Z.of_N w)%Z) by (apply Z.mod_pos_bound; lia).
  assert (Ba : a < 2 ^ w) by (apply N2Z.inj_lt; rewrite N2Z.inj_pow; change (Z.of_N 2) with 2%Z; lia).
  unfold i_val. rewrite (i_top_spec w a Hw Ba). destruct (Z.lt_ge_cases x 0) as [L|L].
  - rewrite <- (Z.mod_add x 1) in Ha by lia. rewrite Z.mod_small in Ha by lia. destruct (N.leb_spec (2 ^ (w - 1)) a); lia.
  - rewrite Z.mod_small in Ha by lia. destruct (N.leb_spec (2 ^ (w - 1)) a); lia.
Qed.
Lemma geq_exact_right : geq_right i_val geq_exact.
Proof. intros w a b _ _ _ _. reflexivity. Qed.
Lemma geq_diff_right : geq_right i_val geq_diff.
Proof.
  intros w a b Hw Ha Hb H. unfold geq_diff. assert (P : (0 < 2 ^ Z.of_N w)%Z) by (apply Z.pow_pos_nonneg; lia).
  assert (V : forall x, x < 2 ^ w -> (i_val w x mod 2 ^ Z.of_N w = Z.of_N x mod 2 ^ Z.of_N w)%Z).
  { intros x Hx. unfold i_val. destruct (i_top w x); [|reflexivity]. rewrite <- (Z.mod_add (Z.of_N x - 2 ^ Z.of_N w) 1) by lia. f_equal. lia. }
  assert (S : Z.of_N (i_sub w a b) = ((i_val w a - i_val w b) mod 2 ^ Z.of_N w)%Z).
  { rewrite i_sub_of by lia. rewrite Zminus_mod, <- (V a Ha), <- (V b Hb), <- Zminus_mod. reflexivity. }
  pose proof (i_val_of w _ _ Hw S H) as E. unfold i_val in E at 1.
  assert (B : i_sub w a b < 2 ^ w) by (apply N.mod_lt, N.pow_nonzero; discriminate).
  assert (B' : (Z.of_N (i_sub w a b) < 2 ^ Z.of_N w)%Z) by (apply N2Z.inj_lt in B; now rewrite N2Z.inj_pow in B).
  destruct (i_top w (i_sub w a b)); cbn [negb]; symmetry; [apply Z.leb_gt|apply Z.leb_le]; lia.
Qed.

(** * fields of a float *)
Lemma bits_M b E M : M < 2 ^ 23 -> E < 256 -> float_bits b E M mod 2 ^ 23 = M.
Proof.
  intros HM HE. unfold float_bits. replace (M + 2 ^ 23 * E + (if b then 2 ^ 31 else 0)) with (M + (E + (if b then 256 else 0)) * 2 ^ 23) by (destruct b; lia).
  rewrite N.mod_add by discriminate. now apply N.mod_small.
Qed.
Lemma bits_E b E M : M < 2 ^ 23 -> E < 256 -> N.shiftr (float_bits b E M) 23 mod 2 ^ 8 = E.
Proof.
  intros HM HE. rewrite N.shiftr_div_pow2. unfold float_bits. replace (M + 2 ^ 23 * E + (if b then 2 ^ 31 else 0)) with (M + (E + (if b then 1 else 0) * 2 ^ 8) * 2 ^ 23) by (destruct b; lia).
  rewrite N.div_add, (N.div_small M), N.add_0_l, N.mod_add by (try discriminate; auto). now apply N.mod_small.
Qed.
Lemma bits_sign b E M : M < 2 ^ 23 -> E < 256 -> N.testbit (float_bits b E M) 31 = b.
Proof.
  intros HM HE. rewrite N.testbit_odd, N.shiftr_div_pow2. unfold float_bits.
  replace (M + 2 ^ 23 * E + (if b then 2 ^ 31 else 0)) with (M + 2 ^ 23 * E + (if b then 1 else 0) * 2 ^ 31) by (destruct b; lia).
  rewrite N.div_add, N.div_small, N.add_0_l by (try discriminate; lia). now destruct b.
Qed.
Lemma setbit_M M : M < 2 ^ 23 -> N.setbit M 23 = 2 ^ 23 + M.
Proof.
  intro H. rewrite N.setbit_spec'. rewrite N.lor_comm. rewrite <- N.lxor_lor.
  - rewrite <- N.add_nocarry_lxor; [reflexivity|]. apply N.bits_inj_0. intro n. rewrite N.land_spec, N.pow2_bits_eqb. destruct (N.eqb_spec 23 n) as [<-|]; [|reflexivity].
    destruct (N.eq_dec M 0) as [->|]; [reflexivity|]. rewrite N.bits_above_log2; [reflexivity|]. apply N.log2_lt_pow2; lia.
  - apply N.bits_inj_0. intro n. rewrite N.land_spec, N.pow2_bits_eqb. destruct (N.eqb_spec 23 n) as [<-|]; [|reflexivity].
    destruct (N.eq_dec M 0) as [->|]; [reflexivity|]. rewrite N.bits_above_log2; [reflexivity|]. apply N.log2_lt_pow2; lia.
Qed.
Section G.
  Variable geq : N -> N -> N -> bool.
  Hypothesis G : geq_right i_val geq.
  Definition fixw (E M : N) (s : Z) : N := Z.to_N (fixed E M s).
  Lemma to_int62 b E M s : M < 2 ^ 23 -> E < 256 -> in_range E s ->
    float_to_int62 geq (float_bits b E M) s = (if b then i_neg 61 (fixw E M s) else fixw E M s) /\ (0 <= fixed E M s < 2 ^ 60)%Z.
  Proof.
    intros HM HE Hr. unfold in_range in Hr. unfold float_to_int62. rewrite bits_M, bits_E, bits_sign, setbit_M by auto.
    set (sh := (Z.of_N E - 150 + s)%Z) in *.
    assert (X : Z.of_N (i_sub 8 E (i_const 8 (127 + 23 - s))) = (sh mod 256)%Z).
    { rewrite i_sub_of.
      - rewrite i_const_of, Zminus_mod_idemp_r. f_equal. unfold sh. lia.
      - apply N2Z.inj_le. rewrite i_const_of. pose proof (Z.mod_pos_bound (127 + 23 - s) (2 ^ Z.of_N 8)). cbn in *. lia. }
    set (ex := i_sub 8 E (i_const 8 (127 + 23 - s))) in *. clearbody ex.
    assert (Bx : ex < 2 ^ 8) by (apply N2Z.inj_lt; rewrite X; apply Z.mod_pos_bound; lia).
    assert (Y : Z.of_N (i_neg 8 ex) = ((- sh) mod 2 ^ Z.of_N 8)%Z).
    { rewrite i_neg_of by lia. rewrite X. change (2 ^ Z.of_N 8)%Z with 256%Z. rewrite <- Z.sub_0_l, Zminus_mod_idemp_r. f_equal. }
    set (ne := i_neg 8 ex) in *. clearbody ne.
    assert (Bn : ne < 2 ^ 8) by (apply N2Z.inj_lt; rewrite Y; apply Z.mod_pos_bound; cbn; lia).
    assert (Vn : i_val 8 ne = (- sh)%Z) by (apply i_val_of; [lia|exact Y|cbn; lia]).
    assert (Gq : geq 8 ne (i_const 8 61) = (61 <=? - sh)%Z).
    { rewrite G; [rewrite Vn; reflexivity|lia|exact Bn|reflexivity|]. rewrite Vn. change (i_val 8 (i_const 8 61)) with 61%Z. cbn. lia. }
    rewrite Gq. clear Gq.
    assert (T : N.testbit ex 7 = (sh <? 0)%Z).
    { pose proof (i_top_spec 8 ex ltac:(lia) Bx) as T. unfold i_top in T. change (8 - 1) with 7 in T. rewrite T. change (2 ^ 7) with 128.
      destruct (Z.ltb_spec sh 0) as [L|L].
      - rewrite <- (Z.mod_add sh 1 256), Z.mod_small in X by lia. apply N.leb_le. lia.
      - rewrite Z.mod_small in X by lia. apply N.leb_gt. lia. }
    rewrite T. destruct (Z.ltb_spec sh 0) as [L|L]; cbn [negb].
    - assert (En : Z.of_N ne = (- sh)%Z) by (rewrite Y, Z.mod_small; cbn; lia).
      assert (F : fixed E M s = ((2 ^ 23 + Z.of_N M) / 2 ^ (- sh))%Z) by (apply fixed_right; fold sh; lia).
      assert (P : (0 < 2 ^ (- sh))%Z) by (apply Z.pow_pos_nonneg; lia).
      assert (Bf : (0 <= fixed E M s < 2 ^ 60)%Z).
      { rewrite F. split; [apply Z.div_pos; lia|]. apply Z.div_lt_upper_bound; nia. }
      split; [|exact Bf].
      assert (W : (if (61 <=? - sh)%Z then 0 else i_shr ne (2 ^ 23 + M)) = fixw E M s); [|rewrite W; reflexivity].
      unfold fixw. rewrite F. destruct (Z.leb_spec 61 (- sh)) as [L1|L1].
      + rewrite Z.div_small; [reflexivity|]. split; [lia|]. apply Z.lt_le_trans with (2 ^ 61)%Z; [lia|]. apply Z.pow_le_mono_r; lia.
      + rewrite i_shr_eq, N.mod_small by lia. apply N2Z.inj. rewrite Z2N.id by (apply Z.div_pos; lia). rewrite N2Z.inj_div, (N2Z.inj_pow 2 ne), N2Z.inj_add, En. reflexivity.
    - assert (En : Z.of_N ex = sh) by (rewrite X, Z.mod_small; lia).
      assert (F : fixed E M s = ((2 ^ 23 + Z.of_N M) * 2 ^ sh)%Z) by (apply fixed_left; fold sh; lia).
      assert (P : (0 < 2 ^ sh <= 2 ^ 36)%Z) by (split; [apply Z.pow_pos_nonneg; lia|apply Z.pow_le_mono_r; lia]).
      assert (Bf : (0 <= fixed E M s < 2 ^ 60)%Z) by (rewrite F; split; nia).
      split; [|exact Bf]. destruct (Z.leb_spec 61 (- sh)) as [L1|L1]; [lia|].
      assert (W : i_shl 61 ex (2 ^ 23 + M) = fixw E M s); [|rewrite W; reflexivity].
      rewrite i_shl_eq, (N.mod_small ex) by lia. unfold fixw.
      assert (Q : Z.of_N ((2 ^ 23 + M) * 2 ^ ex) = fixed E M s) by (rewrite F, N2Z.inj_mul, N2Z.inj_add, (N2Z.inj_pow 2 ex), En; reflexivity).
      rewrite N.mod_small by lia. lia.
  Qed.
End G.
