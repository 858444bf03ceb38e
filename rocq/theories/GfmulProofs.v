From Coq Require Import NArith List Lia Bool.
From Verif Require Import Word WordProofs GF128 GF128Ring GfmulModel.
Import ListNotations.
Local Open Scope N_scope.

Lemma shiftl_S_double a n : N.shiftl a (N.succ n) = N.double (N.shiftl a n).
Proof. rewrite !N.shiftl_mul_pow2, N.double_spec, N.pow_succ_r'. lia. Qed.
Lemma clmul_shiftl_l a b n : clmul (N.shiftl a n) b = N.shiftl (clmul a b) n.
Proof.
  induction n using N.peano_ind; [now rewrite !N.shiftl_0_r|].
  now rewrite !shiftl_S_double, clmul_double, IHn.
Qed.
Lemma clmul_shiftl_r a b n : clmul a (N.shiftl b n) = N.shiftl (clmul a b) n.
Proof. rewrite clmul_comm, clmul_shiftl_l. now rewrite clmul_comm. Qed.

Lemma split64 a : a = N.lxor (lo64 a) (N.shiftl (hi64 a) 64).
Proof.
  unfold lo64, hi64. change W64 with (2 ^ 64).
  apply N.bits_inj. intro i. rewrite N.lxor_spec.
  destruct (N.lt_ge_cases i 64) as [H|H].
  - rewrite N.mod_pow2_bits_low by easy.
    rewrite N.shiftl_spec_low by easy. now rewrite xorb_false_r.
  - rewrite N.mod_pow2_bits_high by easy.
    rewrite N.shiftl_spec_high' by easy.
    try rewrite N.shiftr_spec'; try rewrite N.div_pow2_bits.
    rewrite N.sub_add by easy. now destruct (N.testbit a i).
Qed.
Lemma mul128_lane_ok a b :
  N.lxor (fst (mul128_lane a b)) (N.shiftl (snd (mul128_lane a b)) 128) = clmul a b.
Proof.
  unfold mul128_lane. cbn [fst snd]. cbv zeta.
  unfold clmulepi64_00, clmulepi64_10, clmulepi64_01, clmulepi64_11.
  replace (clmul a b) with (clmul (N.lxor (lo64 a) (N.shiftl (hi64 a) 64)) (N.lxor (lo64 b) (N.shiftl (hi64 b) 64)))
    by (now rewrite <- !split64).
  set (al := lo64 a). set (ah := hi64 a). set (bl := lo64 b). set (bh := hi64 b).
  rewrite clmul_lxor_l, !clmul_lxor_r, !clmul_shiftl_l, !clmul_shiftl_r.
  rewrite N.shiftl_shiftl. change (64 + 64) with 128.
  rewrite N.shiftl_lxor.
  set (mid := N.lxor (clmul al bh) (clmul ah bl)).
  assert (E : N.lxor (slli_si128_8 mid) (N.shiftl (srli_si128_8 mid) 128) = N.shiftl mid 64).
  { unfold slli_si128_8, srli_si128_8. change W128 with (2 ^ 128).
    apply N.bits_inj. intro i. rewrite N.lxor_spec.
    destruct (N.lt_ge_cases i 128) as [H|H].
    - rewrite N.mod_pow2_bits_low by easy.
      rewrite (N.shiftl_spec_low _ 128) by easy. now rewrite xorb_false_r.
    - rewrite N.mod_pow2_bits_high by easy.
      rewrite N.shiftl_spec_high' by easy. rewrite N.shiftr_spec'.
      rewrite N.shiftl_spec_high' by lia. rewrite xorb_false_l. f_equal. lia. }
  transitivity (N.lxor (N.lxor (clmul al bl) (N.shiftl (clmul ah bh) 128))
                       (N.lxor (slli_si128_8 mid) (N.shiftl (srli_si128_8 mid) 128))).
  - apply lxor_swap.
  - rewrite E. unfold mid. rewrite N.shiftl_lxor.
    apply N.bits_inj. intro i. rewrite !N.lxor_spec.
    destruct (N.testbit (clmul al bl) i), (N.testbit (N.shiftl (clmul ah bh) 128) i),
      (N.testbit (N.shiftl (clmul al bh) 64) i), (N.testbit (N.shiftl (clmul ah bl) 64) i); reflexivity.
Qed.
Lemma pclmul_bound p : forall b n m, Npos p < 2 ^ n -> 0 < n -> b < 2 ^ m -> pclmul p b < 2 ^ (n + m - 1).
Proof.
  induction p as [p IH|p IH|]; intros b n m Hp Hn Hb; cbn [pclmul].
  - destruct (N.eq_dec n 1) as [->|]; [cbn in Hp; lia|].
    assert (Hp' : Npos p < 2 ^ (n - 1)).
    { replace n with (N.succ (n - 1)) in Hp by lia. rewrite N.pow_succ_r' in Hp. lia. }
    specialize (IH b (n - 1) m Hp' ltac:(lia) Hb).
    apply lxor_lt.
    + apply N.lt_le_trans with (2 ^ m); [easy|]. apply N.pow_le_mono_r; lia.
    + replace (n + m - 1) with (N.succ (n - 1 + m - 1)) by lia. now apply double_lt.
  - destruct (N.eq_dec n 1) as [->|]; [cbn in Hp; lia|].
    assert (Hp' : Npos p < 2 ^ (n - 1)).
    { replace n with (N.succ (n - 1)) in Hp by lia. rewrite N.pow_succ_r' in Hp. lia. }
    specialize (IH b (n - 1) m Hp' ltac:(lia) Hb).
    replace (n + m - 1) with (N.succ (n - 1 + m - 1)) by lia. now apply double_lt.
  - apply N.lt_le_trans with (2 ^ m); [easy|]. apply N.pow_le_mono_r; lia.
Qed.
Lemma clmul_bound a b n m : a < 2 ^ n -> 0 < n -> b < 2 ^ m -> clmul a b < 2 ^ (n + m - 1).
Proof.
  intros Ha Hn Hb. destruct a as [|p].
  - cbn. apply N.neq_0_lt_0. now apply N.pow_nonzero.
  - now apply pclmul_bound.
Qed.
(** both halves are 128-bit words: no bit of the product is lost in the registers *)
Lemma mul128_lane_lt a b : a < W128 -> b < W128 ->
  fst (mul128_lane a b) < W128 /\ snd (mul128_lane a b) < W128.
Proof.
  intros Ha Hb.
  assert (L : forall x, lo64 x < 2 ^ 64) by (intro; unfold lo64; apply N.mod_lt; discriminate).
  assert (Hh : forall x, x < W128 -> hi64 x < 2 ^ 64).
  { intros x Hx. unfold hi64.
    try rewrite N.shiftr_div_pow2. 
    apply N.le_lt_trans with (x / 2 ^ 64).
    - try apply N.mod_le; try discriminate; reflexivity.
    - apply N.div_lt_upper_bound; [discriminate|exact Hx]. }
  assert (B : forall x y, x < 2 ^ 64 -> y < 2 ^ 64 -> clmul x y < 2 ^ 128).
  { intros x y Hx Hy. apply N.lt_trans with (2 ^ 127); [|reflexivity].
    change 127 with (64 + 64 - 1). now apply clmul_bound. }
  unfold mul128_lane. cbn [fst snd]. cbv zeta.
  unfold clmulepi64_00, clmulepi64_10, clmulepi64_01, clmulepi64_11. split; change W128 with (2 ^ 128).
  - apply lxor_lt; [now apply B|]. apply N.mod_lt. discriminate.
  - apply lxor_lt; [apply B; now apply Hh|].
    unfold srli_si128_8. rewrite N.shiftr_div_pow2.
    assert (Hx : N.lxor (clmul (lo64 a) (hi64 b)) (clmul (hi64 a) (lo64 b)) < 2 ^ 128).
    { apply lxor_lt; apply B; try apply L; now apply Hh. }
    apply N.div_lt_upper_bound; [discriminate|].
    eapply N.lt_trans; [exact Hx|reflexivity].
Qed.
Lemma gfmul_1_ok a : forall b, gfmul_1 a b = map (fun ab => gfmul (fst ab) (snd ab)) (combine a b).
Proof.
  intros b. unfold gfmul_1. rewrite map_map. apply map_ext. intros [x y]. cbn [fst snd].
  unfold reduce2, gfmul. now rewrite mul128_lane_ok.
Qed.
