(** Correctness of the F_p primitives of utility.h. *)
From Coq Require Import NArith ZArith Lia List Bool ZifyBool ZifyNat ZifyN.
From Verif Require Import Word WordProofs FpModel.
Import ListNotations.
Local Open Scope N_scope.
Ltac Zify.zify_post_hook ::= Z.div_mod_to_equations.

Lemma PR_ones : PR = N.ones 61. Proof. reflexivity. Qed.
Lemma PR_pow : PR + 1 = 2 ^ 61. Proof. reflexivity. Qed.
Lemma land_PR x : N.land x PR = x mod 2305843009213693952.
Proof. rewrite PR_ones, N.land_ones. reflexivity. Qed.
Lemma shr61 x : N.shiftr x EXP61 = x / 2305843009213693952.
Proof. rewrite N.shiftr_div_pow2. reflexivity. Qed.
Lemma shl3 x : N.shiftl x (64 - EXP61) = x * 8.
Proof. rewrite N.shiftl_mul_pow2. reflexivity. Qed.

(** Disjoint xor is addition. *)
Lemma lxor_add_low a b n : a < 2 ^ n -> N.lxor a (b * 2 ^ n) = a + b * 2 ^ n.
Proof.
  intros Ha. symmetry. apply N.add_nocarry_lxor.
  apply N.bits_inj. intro i. rewrite N.land_spec, N.bits_0.
  destruct (N.lt_ge_cases i n).
  - rewrite N.mul_pow2_bits_low by assumption. apply andb_false_r.
  - rewrite (testbit_high a n) by assumption. reflexivity.
Qed.

(** folding: k = q*2^61 + r is congruent to q + r; conditional subtraction *)
Lemma fold61 k : (k mod 2305843009213693952 + k / 2305843009213693952) mod PR = k mod PR.
Proof.
  pose proof (N.div_mod k 2305843009213693952 ltac:(discriminate)) as D.
  set (q := k / _) in *. set (r := k mod _) in *. clearbody q r.
  rewrite D. rewrite <- (N.mod_add (r + q) q PR) by discriminate.
  f_equal. unfold PR. lia.
Qed.
Lemma csub_ok i : i < 2 * PR -> (if PR <=? i then i - PR else i) = i mod PR.
Proof.
  intros H. destruct (PR <=? i) eqn:E.
  - apply N.leb_le in E. rewrite <- (N.mod_small (i - PR) PR) by lia.
    rewrite <- (N.mod_add (i - PR) 1 PR) by discriminate. f_equal. lia.
  - apply N.leb_gt in E. now rewrite N.mod_small.
Qed.
Lemma csub_congr i : (if PR <=? i then i - PR else i) mod PR = i mod PR.
Proof.
  destruct (PR <=? i) eqn:E; [|reflexivity]. apply N.leb_le in E.
  rewrite <- (N.mod_add (i - PR) 1 PR) by discriminate. f_equal. lia.
Qed.
Lemma mod61_lt k : k mod 2305843009213693952 <= PR.
Proof. pose proof (N.mod_lt k 2305843009213693952 ltac:(discriminate)). unfold PR. lia. Qed.
Lemma div61_lt k n : k < n * 2305843009213693952 -> k / 2305843009213693952 < n.
Proof. intros. apply N.div_lt_upper_bound; lia. Qed.
Lemma fold_bound k : k < 2 ^ 122 - 1 ->
  k mod 2305843009213693952 + k / 2305843009213693952 < 2 * PR.
Proof.
  change (2 ^ 122 - 1) with 5316911983139663491615228241121378303. intros H.
  pose proof (N.div_mod k 2305843009213693952 ltac:(discriminate)) as D.
  pose proof (N.mod_lt k 2305843009213693952 ltac:(discriminate)) as L.
  set (q := k / _) in *. set (r := k mod _) in *. clearbody q r. unfold PR. lia.
Qed.
Lemma csub64 i : i < W64 -> (if PR <=? i then sub64 i PR else i) = (if PR <=? i then i - PR else i).
Proof. intros. destruct (_ <=? _) eqn:E; auto. apply N.leb_le in E. now apply sub64_small. Qed.
Lemma csub128 i : i < W128 -> (if PR <=? i then sub128 i PR else i) = (if PR <=? i then i - PR else i).
Proof. intros. destruct (_ <=? _) eqn:E; auto. apply N.leb_le in E. now apply sub128_small. Qed.

Lemma mod64_correct x : x < W64 -> mod64 x PR = x mod PR.
Proof.
  intros H. unfold mod64, shr64. rewrite land_PR, shr61. cbv zeta.
  pose proof (mod61_lt x). pose proof (div61_lt x 8 H).
  rewrite add64_small by (unfold W64, PR in *; lia).
  rewrite csub64 by (unfold W64, PR in *; lia).
  rewrite csub_ok by (unfold PR in *; lia). apply fold61.
Qed.
Lemma mod1_correct x : x < W64 -> mod1 x = x mod PR.
Proof. exact (mod64_correct x). Qed.

(** exact up to (not including) 2^122-1, where the result is p itself *)
Lemma mod128_correct k : k < 2 ^ 122 - 1 -> mod128 k PR = k mod PR.
Proof.
  intros H. pose proof (fold_bound k H). unfold mod128. rewrite land_PR, shr61. cbv zeta.
  rewrite add128_small by (unfold W128, PR in *; lia).
  rewrite csub128 by (unfold W128, PR in *; lia).
  rewrite csub_ok by assumption. apply fold61.
Qed.
Lemma mod128_congr k : k < W128 -> mod128 k PR mod PR = k mod PR.
Proof.
  intros H. unfold mod128. rewrite land_PR, shr61. cbv zeta.
  pose proof (mod61_lt k). pose proof (div61_lt k 147573952589676412928 ltac:(exact H)).
  rewrite add128_small by (unfold W64, W128, PR in *; lia).
  rewrite csub128 by (unfold W64, W128, PR in *; lia).
  rewrite csub_congr. apply fold61.
Qed.

Lemma mod_pre_congr x : x < 2 ^ 124 -> mod_pre x mod PR = x mod PR.
Proof.
  intros H. unfold mod_pre. rewrite land_PR, shr61.
  pose proof (mod61_lt x). pose proof (div61_lt x 9223372036854775808 ltac:(exact H)).
  rewrite (N.mod_small (_ + _)) by (unfold W64, PR in *; lia). apply fold61.
Qed.

Lemma add_mod_correct a b : a + b < 2 * PR -> add_mod a b = (a + b) mod PR.
Proof.
  intros. unfold add_mod. cbv zeta. rewrite add64_small by (unfold W64, PR in *; lia).
  rewrite csub64 by (unfold W64, PR in *; lia). now apply csub_ok.
Qed.
Lemma add_mod_congr a b : a + b < W64 -> add_mod a b mod PR = (a + b) mod PR.
Proof.
  intros. unfold add_mod. cbv zeta. rewrite add64_small by assumption.
  rewrite csub64 by assumption. apply csub_congr.
Qed.
Lemma mod_PR_lt x : x mod PR < PR.
Proof. apply N.mod_lt. discriminate. Qed.

(** splitting a 128-bit product at bit 61 using its two 64-bit halves *)
Lemma mul_split P : P < 2 ^ 125 ->
  N.lxor (shr64 (P mod W64) EXP61) (shl64 (P / W64) (64 - EXP61)) = P / 2305843009213693952.
Proof.
  intros HP. unfold shr64, shl64. rewrite shr61, shl3.
  assert (P / W64 < 2305843009213693952) by (apply N.div_lt_upper_bound; [discriminate|exact HP]).
  rewrite (N.mod_small (P / W64 * 8)) by (unfold W64 in *; lia).
  pose proof (N.div_mod P W64 ltac:(discriminate)) as D.
  pose proof (N.mod_lt P W64 ltac:(discriminate)) as L.
  set (q := P / W64) in *. set (r := P mod W64) in *. clearbody q r.
  change 8 with (2 ^ 3) at 1.
  rewrite lxor_add_low by (apply (div61_lt r 8); exact L).
  change (2 ^ 3) with 8. rewrite D.
  replace (W64 * q + r) with (r + q * 8 * 2305843009213693952) by (unfold W64; lia).
  now rewrite N.div_add by discriminate.
Qed.

Lemma mult_res_eq a b : a * b < 2 ^ 125 ->
  N.lxor (shr64 (mul64_lo a b) EXP61) (shl64 (mul64_hi a b) (64 - EXP61))
  = a * b / 2305843009213693952.
Proof. intros. unfold mul64_lo, mul64_hi. now apply mul_split. Qed.
Lemma mod_mod61 P : (P mod W64) mod 2305843009213693952 = P mod 2305843009213693952.
Proof.
  pose proof (N.div_mod P W64 ltac:(discriminate)) as D.
  set (q := P / W64) in *. set (r := P mod W64) in *. clearbody q r. rewrite D.
  replace (W64 * q + r) with (r + q * 8 * 2305843009213693952) by (unfold W64; lia).
  now rewrite N.mod_add by discriminate.
Qed.

Lemma mult_mod_correct a b : a * b < 2 ^ 122 - 1 -> mult_mod a b = (a * b) mod PR.
Proof.
  intros H. unfold mult_mod. cbv zeta.
  rewrite mult_res_eq by (eapply N.lt_trans; [exact H|reflexivity]).
  pose proof (fold_bound _ H). unfold mul64_lo. rewrite land_PR, mod_mod61.
  rewrite add64_small by (unfold W64, PR in *; lia).
  rewrite csub64 by (unfold W64, PR in *; lia).
  rewrite csub_ok by assumption. apply fold61.
Qed.
Lemma mult_mod_congr a b : a * b < 2 ^ 124 -> mult_mod a b mod PR = (a * b) mod PR.
Proof.
  intros H. unfold mult_mod. cbv zeta.
  rewrite mult_res_eq by (eapply N.lt_trans; [exact H|reflexivity]).
  pose proof (mod61_lt (a * b)). pose proof (div61_lt (a * b) 9223372036854775808 ltac:(exact H)).
  unfold mul64_lo. rewrite land_PR, mod_mod61.
  rewrite add64_small by (unfold W64, PR in *; lia).
  rewrite csub64 by (unfold W64, PR in *; lia).
  rewrite csub_congr. apply fold61.
Qed.
Lemma prod_bound a b : a <= PR -> b <= PR -> a * b < 2 ^ 122 - 1.
Proof.
  intros. apply N.le_lt_trans with (PR * PR).
  - now apply N.mul_le_mono.
  - reflexivity.
Qed.
Lemma mult_mod_ok a b : a <= PR -> b <= PR -> mult_mod a b = (a * b) mod PR.
Proof. intros. apply mult_mod_correct. now apply prod_bound. Qed.

(** One lane of vec_partial_mod. *)
Definition lane_pm (x : N) : N := if (s64 x <? Z.of_N PR)%Z then x else sub64 x PR.
Lemma W128_ones : W128 - 1 = mkblock (W64 - 1) (W64 - 1). Proof. reflexivity. Qed.
Lemma vec_partial_mod_mk h l : h < W64 -> l < W64 ->
  vec_partial_mod (mkblock h l) = mkblock (lane_pm h) (lane_pm l).
Proof.
  intros Hh Hl. unfold vec_partial_mod, mm_cmpgt_epi64, mm_sub_epi64, prs.
  rewrite lanes2_mk; [|reflexivity|assumption].
  unfold mm_andnot. rewrite W128_ones.
  rewrite mkblock_lxor; [| destruct (_ <? _)%Z; reflexivity | reflexivity].
  rewrite mkblock_land; [| destruct (_ <? _)%Z; reflexivity | reflexivity].
  assert (Hc : forall x, x < W64 ->
     sub64 x (N.land (N.lxor (if (s64 x <? s64 PR)%Z then W64 - 1 else 0) (W64 - 1)) PR) = lane_pm x).
  { intros x Hx. unfold lane_pm. change (s64 PR) with (Z.of_N PR).
    destruct (_ <? _)%Z.
    - change (N.land (N.lxor (W64 - 1) (W64 - 1)) PR) with 0.
      rewrite sub64_small; lia.
    - reflexivity. }
  rewrite lanes2_mk; [| assumption | destruct (_ <? _)%Z; reflexivity].
  now rewrite !Hc.
Qed.
Lemma lane_pm_small x : x < 9223372036854775808 -> lane_pm x = if PR <=? x then x - PR else x.
Proof.
  intros H. unfold lane_pm, s64.
  replace (x <? 9223372036854775808) with true by (symmetry; now apply N.ltb_lt).
  destruct (PR <=? x) eqn:E.
  - replace (Z.of_N x <? Z.of_N PR)%Z with false by lia.
    rewrite sub64_small; [reflexivity|lia|]. unfold W64. lia.
  - replace (Z.of_N x <? Z.of_N PR)%Z with true by lia. reflexivity.
Qed.
Lemma lane_pm_lt x : x < W64 -> lane_pm x < W64.
Proof. intros. unfold lane_pm. destruct (_ <? _)%Z; auto. apply sub64_lt. Qed.
Lemma lane_pm_mod x : x < 2 * PR -> lane_pm x = x mod PR.
Proof.
  intros. rewrite lane_pm_small by (unfold PR in *; lia). now apply csub_ok.
Qed.

Lemma vec_mod_mk h l : h < W64 -> l < W64 ->
  vec_mod (mkblock h l) = mkblock (h mod PR) (l mod PR).
Proof.
  intros Hh Hl. unfold vec_mod, mm_add_epi64, mm_srli_epi64, prs.
  rewrite mkblock_land, lanes1_mk by (assumption || reflexivity).
  assert (forall x, x < W64 -> add64 (N.land x PR) (shr64 x EXP61) < 2 * PR) as B.
  { intros x Hx. unfold shr64. rewrite land_PR, shr61.
    pose proof (mod61_lt x). pose proof (div61_lt x 8 Hx).
    rewrite add64_small; unfold W64, PR in *; lia. }
  assert (forall x, x < W64 -> add64 (N.land x PR) (shr64 x EXP61) mod PR = x mod PR) as E.
  { intros x Hx. unfold shr64. rewrite land_PR, shr61.
    pose proof (mod61_lt x). pose proof (div61_lt x 8 Hx).
    rewrite add64_small by (unfold W64, PR in *; lia). apply fold61. }
  rewrite lanes2_mk.
  - rewrite vec_partial_mod_mk by apply add64_lt.
    rewrite !lane_pm_mod by auto. now rewrite !E.
  - rewrite W64_eq. now apply land_lt_r.
  - now apply shr64_lt.
Qed.

Definition lane_mul (x b : N) : N :=
  lane_pm (add64 (N.land (mul64_lo x b) PR)
             (N.lxor (shr64 (mul64_lo x b) EXP61) (shl64 (mul64_hi x b) (64 - EXP61)))).
Lemma mul64_lo_lt a b : mul64_lo a b < W64.
Proof. apply N.mod_lt. discriminate. Qed.
Lemma mul64_hi_lt a b : a < W64 -> b < W64 -> mul64_hi a b < W64.
Proof. intros. unfold mul64_hi. apply N.div_lt_upper_bound. discriminate. nia. Qed.
Lemma lane_mul_correct x b : x * b < 2 ^ 122 - 1 -> lane_mul x b = (x * b) mod PR.
Proof.
  intros H. unfold lane_mul. rewrite mult_res_eq by (eapply N.lt_trans; [exact H|reflexivity]).
  pose proof (fold_bound _ H). unfold mul64_lo. rewrite land_PR, mod_mod61.
  rewrite add64_small by (unfold W64, PR in *; lia).
  rewrite lane_pm_mod by assumption. apply fold61.
Qed.
Lemma bmul_gen h0 l0 h1 l1 : h0 < W64 -> l0 < W64 -> h1 < W64 -> l1 < W64 ->
  vec_partial_mod (mm_add_epi64 (N.land (mkblock h0 l0) prs)
     (N.lxor (mm_srli_epi64 (mkblock h0 l0) EXP61) (mm_slli_epi64 (mkblock h1 l1) (64 - EXP61))))
  = mkblock (lane_pm (add64 (N.land h0 PR) (N.lxor (shr64 h0 EXP61) (shl64 h1 (64 - EXP61)))))
            (lane_pm (add64 (N.land l0 PR) (N.lxor (shr64 l0 EXP61) (shl64 l1 (64 - EXP61))))).
Proof.
  intros. unfold mm_srli_epi64, mm_slli_epi64, mm_add_epi64.
  rewrite !lanes1_mk by assumption.
  rewrite mkblock_lxor by (try apply shr64_lt; try apply shl64_lt; assumption).
  unfold prs. rewrite mkblock_land by (assumption || reflexivity).
  rewrite lanes2_mk.
  - rewrite vec_partial_mod_mk by apply add64_lt. reflexivity.
  - rewrite W64_eq. now apply land_lt_r.
  - rewrite W64_eq. apply lxor_lt; rewrite <- W64_eq.
    + now apply shr64_lt. + apply shl64_lt.
Qed.

Lemma mult_mod_b_mk h l b : h < W64 -> l < W64 -> b < W64 ->
  mult_mod_b (mkblock h l) b = mkblock (lane_mul h b) (lane_mul l b).
Proof.
  intros. unfold mult_mod_b. cbv zeta. rewrite hi64_mk, lo64_mk by assumption.
  rewrite bmul_gen; auto using mul64_lo_lt, mul64_hi_lt.
Qed.
Lemma mult_mod_b_ok h l b : h <= PR -> l <= PR -> b <= PR ->
  mult_mod_b (mkblock h l) b = mkblock ((h * b) mod PR) ((l * b) mod PR).
Proof.
  intros. rewrite mult_mod_b_mk by (unfold PR, W64 in *; lia).
  rewrite !lane_mul_correct by (apply prod_bound; assumption). reflexivity.
Qed.
Lemma mult_mod_b_bch2_eq a0 a1 b0 b1 :
  mult_mod_b_bch2 a0 a1 b0 b1 = (mult_mod_b a0 b0, mult_mod_b a1 b1).
Proof. reflexivity. Qed.
Lemma mult_mod_b_bch4_eq a b :
  mult_mod_b_bch4 a b = map (fun ab => mult_mod_b (fst ab) (snd ab)) (combine a b).
Proof. reflexivity. Qed.

Lemma mult_mod_bch2_ok a0 a1 b0 b1 :
  a0 <= PR -> a1 <= PR -> b0 <= PR -> b1 <= PR ->
  mult_mod_bch2 a0 a1 b0 b1 = ((a0 * b0) mod PR, (a1 * b1) mod PR).
Proof.
  intros. unfold mult_mod_bch2. cbv zeta.
  assert (forall a b, a <= PR -> b <= PR -> mul64_hi a b < W64)
    by (intros; apply mul64_hi_lt; unfold PR, W64 in *; lia).
  rewrite bmul_gen; auto using mul64_lo_lt.
  fold (lane_mul a0 b0) (lane_mul a1 b1).
  rewrite !lane_mul_correct by (apply prod_bound; assumption).
  rewrite lo64_mk, hi64_mk; auto.
  all: eapply N.lt_trans; [apply mod_PR_lt|reflexivity].
Qed.
Lemma mult_mod_bch4_ok a0 a1 a2 a3 b0 b1 b2 b3 :
  a0 <= PR -> a1 <= PR -> a2 <= PR -> a3 <= PR ->
  b0 <= PR -> b1 <= PR -> b2 <= PR -> b3 <= PR ->
  mult_mod_bch4 a0 a1 a2 a3 b0 b1 b2 b3
  = ((a0 * b0) mod PR, (a1 * b1) mod PR, (a2 * b2) mod PR, (a3 * b3) mod PR).
Proof.
  intros.
  transitivity (let r := mult_mod_bch2 a0 a1 b0 b1 in let r' := mult_mod_bch2 a2 a3 b2 b3 in
                (fst r, snd r, fst r', snd r')).
  { unfold mult_mod_bch4, mult_mod_bch2. cbv zeta. cbn [fst snd]. reflexivity. }
  cbv zeta. now rewrite !mult_mod_bch2_ok by assumption.
Qed.

Lemma add_mod_bb_ok h l h' l' : h < PR -> l < PR -> h' <= PR -> l' <= PR ->
  add_mod_bb (mkblock h l) (mkblock h' l') = mkblock ((h + h') mod PR) ((l + l') mod PR).
Proof.
  intros. unfold add_mod_bb, mm_add_epi64. rewrite lanes2_mk by (unfold PR, W64 in *; lia).
  rewrite vec_partial_mod_mk by apply add64_lt.
  rewrite !add64_small by (unfold PR, W64 in *; lia).
  now rewrite !lane_pm_mod by lia.
Qed.
Lemma add_mod_b_ok h l b : h < PR -> l < PR -> b <= PR ->
  add_mod_b (mkblock h l) b = mkblock ((h + b) mod PR) ((l + b) mod PR).
Proof. intros. unfold add_mod_b. apply (add_mod_bb_ok h l b b); assumption. Qed.

Lemma extract_fp_ok x : extract_fp x = (x mod W64) mod PR.
Proof. unfold extract_fp. apply mod1_correct. apply lo64_lt. Qed.

(** Sums and powers. *)
Lemma coeff_tail_ok n : forall prev seed k, prev = seed ^ k mod PR -> seed < PR ->
  coeff_tail prev seed n = map (fun i => seed ^ (k + 1 + N.of_nat i) mod PR) (seq 0 n).
Proof.
  induction n as [|n IH]; intros prev seed k Hp Hs; [reflexivity|].
  cbn [coeff_tail seq map]. 
  assert (E : mult_mod prev seed = seed ^ (k + 1) mod PR).
  { subst prev. rewrite mult_mod_ok.
    - rewrite N.mul_mod_idemp_l by discriminate. now rewrite N.add_1_r, N.pow_succ_r', N.mul_comm.
    - pose proof (mod_PR_lt (seed ^ k)). lia.
    - lia. }
  cbv zeta. f_equal.
  - rewrite E. f_equal. f_equal. lia.
  - rewrite (IH _ _ (k + 1) E Hs). rewrite <- seq_shift, map_map.
    apply map_ext. intros i. f_equal. f_equal. lia.
Qed.
Lemma uni_hash_coeff_gen_ok seed sz : seed < PR -> (1 <= sz)%nat ->
  uni_hash_coeff_gen seed sz = map (fun i => seed ^ (1 + N.of_nat i) mod PR) (seq 0 sz).
Proof.
  intros Hs Hsz. unfold uni_hash_coeff_gen. destruct sz as [|n]; [lia|].
  cbn [seq map]. f_equal.
  - change (1 + N.of_nat 0) with 1. rewrite N.pow_1_r. now rewrite N.mod_small.
  - replace (S n - 1)%nat with n by lia.
    rewrite (coeff_tail_ok n seed seed 1).
    + rewrite <- seq_shift, map_map. apply map_ext. intros i. f_equal. f_equal. lia.
    + rewrite N.pow_1_r. now rewrite N.mod_small.
    + assumption.
Qed.
Fixpoint dot (a b : list N) : N :=
  match a, b with x :: a', y :: b' => x * y + dot a' b' | _, _ => 0 end.
Lemma inn_prdt_acc_ok a : forall b res, res < PR ->
  Forall (fun x => x <= PR) a -> Forall (fun x => x <= PR) b ->
  inn_prdt_acc res a b = (res + dot a b) mod PR.
Proof.
  induction a as [|x a IH]; intros b res Hr Ha Hb.
  - cbn. rewrite N.add_0_r. now rewrite N.mod_small.
  - destruct b as [|y b].
    + cbn. rewrite N.add_0_r. now rewrite N.mod_small.
    + cbn [inn_prdt_acc dot]. inversion Ha; inversion Hb; subst.
      rewrite mult_mod_ok by assumption.
      rewrite add_mod_correct. 2:{ pose proof (mod_PR_lt (x*y)). lia. }
      rewrite IH; auto using mod_PR_lt.
      rewrite N.add_mod_idemp_r, N.add_mod_idemp_l by discriminate. f_equal. lia.
Qed.
Lemma vector_inn_prdt_ok a b :
  Forall (fun x => x <= PR) a -> Forall (fun x => x <= PR) b ->
  vector_inn_prdt_sum_red a b = dot a b mod PR.
Proof. intros. unfold vector_inn_prdt_sum_red. now rewrite inn_prdt_acc_ok. Qed.
