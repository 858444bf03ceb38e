(** Properties C01, C02, C03. *)
From Coq Require Import NArith ZArith Znumtheory List Lia.
From Verif Require Import Word FpModel WordProofs FpProofs Prime61 PolyRoots GF128 GF128Ring GF128Field
  GfmulModel GfmulProofs.
Import ListNotations.
Local Open Scope N_scope.

(** the modulus, written independently of the model *)
Local Notation p61 := (2 ^ 61 - 1).

(** ** C01 *)
Theorem C01_scalar_exact : forall a b, a < p61 -> b < p61 ->
  add_mod a b = (a + b) mod p61 /\ mult_mod a b = (a * b) mod p61.
Proof.
  intros a b Ha Hb. change p61 with PR in *. split.
  - apply add_mod_correct. lia.
  - apply mult_mod_ok; lia.
Qed.
Theorem C01_mod_word_exact : forall x, x < 2 ^ 64 ->
  mod1 x = x mod p61 /\ mod64 x PR = x mod p61 /\ extract_fp x = x mod p61.
Proof.
  intros x Hx. change p61 with PR. change (2 ^ 64) with W64 in Hx. repeat split.
  - now apply mod1_correct.
  - now apply mod64_correct.
  - rewrite extract_fp_ok. now rewrite (N.mod_small x W64).
Qed.
(** 128-bit reduction: exact below 2^122-1, congruent for every 128-bit word. *)
Theorem C01_mod_wide_exact : forall k, k < 2 ^ 122 - 1 -> mod128 k PR = k mod p61.
Proof. exact mod128_correct. Qed.
Theorem C01_mod_wide_congruent : forall k, k < 2 ^ 128 -> mod128 k PR mod p61 = k mod p61.
Proof. exact mod128_congr. Qed.
(** lane-wise block operations; [mkblock h l] is the block with lanes h (high), l (low) *)
Theorem C01_block_lanes : forall h l h' l' b, h < p61 -> l < p61 -> h' < p61 -> l' < p61 -> b < p61 ->
  add_mod_bb (mkblock h l) (mkblock h' l') = mkblock (add_mod h h') (add_mod l l') /\
  add_mod_b (mkblock h l) b = mkblock (add_mod h b) (add_mod l b) /\
  mult_mod_b (mkblock h l) b = mkblock (mult_mod h b) (mult_mod l b).
Proof.
  intros h l h' l' b Hh Hl Hh' Hl' Hb. change p61 with PR in *.
  rewrite !add_mod_correct, !mult_mod_ok by lia.
  rewrite add_mod_bb_ok, add_mod_b_ok, mult_mod_b_ok by lia. auto.
Qed.
Theorem C01_block_mod : forall h l, h < 2 ^ 64 -> l < 2 ^ 64 ->
  vec_mod (mkblock h l) = mkblock (h mod p61) (l mod p61).
Proof. exact vec_mod_mk. Qed.
Theorem C01_batched : forall a0 a1 a2 a3 b0 b1 b2 b3,
  a0 < p61 -> a1 < p61 -> a2 < p61 -> a3 < p61 -> b0 < p61 -> b1 < p61 -> b2 < p61 -> b3 < p61 ->
  mult_mod_bch2 a0 a1 b0 b1 = (mult_mod a0 b0, mult_mod a1 b1) /\
  mult_mod_bch4 a0 a1 a2 a3 b0 b1 b2 b3 =
    (mult_mod a0 b0, mult_mod a1 b1, mult_mod a2 b2, mult_mod a3 b3).
Proof.
  intros. change p61 with PR in *. rewrite !mult_mod_ok by lia.
  rewrite mult_mod_bch2_ok, mult_mod_bch4_ok by lia. auto.
Qed.
Theorem C01_batched_blocks : forall a b a0 a1 b0 b1,
  mult_mod_b_bch2 a0 a1 b0 b1 = (mult_mod_b a0 b0, mult_mod_b a1 b1) /\
  mult_mod_b_bch4 a b = map (fun ab => mult_mod_b (fst ab) (snd ab)) (combine a b).
Proof. intros. split; [apply mult_mod_b_bch2_eq|apply mult_mod_b_bch4_eq]. Qed.
(** challenge powers and inner products *)
Theorem C01_coeff_gen : forall seed sz, seed < p61 -> (1 <= sz)%nat ->
  uni_hash_coeff_gen seed sz = map (fun i => seed ^ (1 + N.of_nat i) mod p61) (seq 0 sz).
Proof. exact uni_hash_coeff_gen_ok. Qed.
Theorem C01_inner_product : forall a b,
  Forall (fun x => x < p61) a -> Forall (fun x => x < p61) b ->
  vector_inn_prdt_sum_red a b = fold_right N.add 0 (map (fun ab => fst ab * snd ab) (combine a b)) mod p61.
Proof.
  intros a b Ha Hb. rewrite vector_inn_prdt_ok.
  - f_equal. clear. revert b. induction a as [|x a IH]; intros [|y b]; cbn; auto. now rewrite IH.
  - eapply Forall_impl; [|exact Ha]. cbv beta. intros x Hx. change p61 with PR in Hx. lia.
  - eapply Forall_impl; [|exact Hb]. cbv beta. intros x Hx. change p61 with PR in Hx. lia.
Qed.
(** outside the canonical range the guarantee is lost: the word p itself is not reduced *)
Theorem C01_noncanonical_refuted :
  exists a b, a < 2 ^ 64 /\ b < 2 ^ 64 /\ add_mod a b <> (a + b) mod p61.
Proof. exists p61, p61. vm_compute. repeat split; discriminate. Qed.
Theorem C01_mult_unreduced_refuted :
  exists a b, a < 2 ^ 64 /\ b < 2 ^ 64 /\ mult_mod a b mod p61 <> (a * b) mod p61.
Proof. exists (2 ^ 64 - 1), (2 ^ 64 - 1). vm_compute. repeat split; discriminate. Qed.
Example C01_example :
  add_mod 2305843009213693950 5 = 4 /\ mult_mod 2305843009213693950 2305843009213693950 = 1 /\
  mod1 18446744073709551615 = 7.
Proof. vm_compute. auto. Qed.

(** ** C02 *)
Theorem C02_prime : prime (2 ^ 61 - 1)%Z.
Proof. exact zp_prime. Qed.
Theorem C02_no_zero_divisors : forall a b, a < p61 -> b < p61 -> mult_mod a b = 0 -> a = 0 \/ b = 0.
Proof.
  intros a b Ha Hb H. change p61 with PR in *. rewrite mult_mod_ok in H by lia. now apply PR_nzd.
Qed.
(** polynomial value by Horner's rule, all arithmetic mod p *)
Fixpoint horner (c : list N) (x : N) : N :=
  match c with [] => 0 | a :: c' => (a + x * horner c' x) mod p61 end.
Lemma horner_peval c x : toF (horner c x) = peval fp p0 padd pmul (map toF c) (toF x).
Proof.
  induction c as [|a c IH]; [reflexivity|]. cbn [horner map peval].
  change p61 with PR. rewrite toF_mod, toF_add, toF_mul, IH. reflexivity.
Qed.
Theorem C02_root_bound : forall coeffs roots,
  Forall (fun c => c < p61) coeffs -> Exists (fun c => c <> 0) coeffs ->
  NoDup roots -> Forall (fun r => r < p61 /\ horner coeffs r = 0) roots ->
  (length roots < length coeffs)%nat.
Proof.
  intros cs rs Hc Hnz Hnd Hr. change p61 with PR in *.
  rewrite <- (map_length toF cs), <- (map_length toF rs).
  apply fp_root_count.
  - intro F. rewrite Forall_map in F. apply Exists_exists in Hnz. destruct Hnz as [c [Hin Hne]].
    rewrite Forall_forall in F, Hc. specialize (F c Hin). cbv beta in F.
    apply Hne. apply toF_inj; [now apply Hc|reflexivity|exact F].
  - rewrite Forall_forall in Hr. clear -Hr Hnd. induction Hnd as [|r rs Hni Hnd IH]; [constructor|].
    cbn. constructor.
    + intro Hin. apply in_map_iff in Hin. destruct Hin as [r' [E Hin]].
      apply toF_inj in E; [subst; auto| |]; apply Hr; cbn; auto.
    + apply IH. intros; apply Hr; cbn; auto.
  - intros r Hin. apply in_map_iff in Hin. destruct Hin as [x [<- Hin]].
    rewrite Forall_forall in Hr. rewrite <- horner_peval. destruct (Hr x Hin) as [_ ->]. reflexivity.
Qed.
Example C02_example : horner [2; p61 - 3; 1] 1 = 0 /\ horner [2; p61 - 3; 1] 2 = 0.
Proof. vm_compute. auto. Qed.

(** ** C03 *)
Theorem C03_commutative : forall a b, gfmul a b = gfmul b a.
Proof. exact gfmul_comm. Qed.
Theorem C03_associative : forall a b c, gfmul (gfmul a b) c = gfmul a (gfmul b c).
Proof. exact gfmul_assoc. Qed.
Theorem C03_distributes : forall a b c, gfmul a (N.lxor b c) = N.lxor (gfmul a b) (gfmul a c).
Proof. exact gfmul_lxor_r. Qed.
Theorem C03_unit : forall a, a < 2 ^ 128 -> gfmul 1 a = a.
Proof. exact gfmul_1_l. Qed.
Theorem C03_inverse : forall a, a < 2 ^ 128 -> a <> 0 -> exists b, b < 2 ^ 128 /\ gfmul a b = 1.
Proof.
  intros a Ha Hn. exists (reduce (gfinv a)). split; [apply reduce_lt|].
  rewrite gfmul_reduce_r. now apply gfinv_r.
Qed.
Theorem C03_no_zero_divisors : forall a b, a < 2 ^ 128 -> b < 2 ^ 128 ->
  gfmul a b = 0 -> a = 0 \/ b = 0.
Proof. exact gfmul_nzd. Qed.
(** x^128 = x^7+x^2+x+1: the modulus is the intended polynomial *)
Theorem C03_modulus : gfmul (2 ^ 127) 2 = N.lxor (2 ^ 7) (N.lxor (2 ^ 2) (N.lxor 2 1)).
Proof. reflexivity. Qed.
(** the four-multiplication routines give the field product in every lane, and no bit
    is lost in the two 128-bit halves *)
Theorem C03_batched_products : forall a b, length a = length b ->
  gfmul_1 a b = map (fun ab => gfmul (fst ab) (snd ab)) (combine a b).
Proof. intros a b _. apply gfmul_1_ok. Qed.
Theorem C03_halves_fit : forall a b, a < 2 ^ 128 -> b < 2 ^ 128 ->
  fst (mul128_lane a b) < 2 ^ 128 /\ snd (mul128_lane a b) < 2 ^ 128.
Proof. exact mul128_lane_lt. Qed.
(** accumulate unreduced, reduce once = sum of the reduced products *)
Theorem C03_lazy_reduction : forall a b,
  gf_inn_prdt a b = fold_right N.lxor 0 (map (fun ab => gfmul (fst ab) (snd ab)) (combine a b)).
Proof.
  intros a b. rewrite gf_inn_prdt_dot. revert b.
  induction a as [|x a IH]; intros [|y b]; cbn; auto. now rewrite <- IH.
Qed.
Example C03_example : gfmul (2 ^ 127) (2 ^ 127) <> 0 /\ gfmul 3 7 = 9 /\
  gfmul_1 [2 ^ 127; 5] [2 ^ 127; 9] = [gfmul (2 ^ 127) (2 ^ 127); 45].
Proof. vm_compute. repeat split; discriminate || reflexivity. Qed.

Print Assumptions C01_scalar_exact.
Print Assumptions C01_mod_word_exact.
Print Assumptions C01_mod_wide_exact.
Print Assumptions C01_mod_wide_congruent.
Print Assumptions C01_block_lanes.
Print Assumptions C01_block_mod.
Print Assumptions C01_batched.
Print Assumptions C01_batched_blocks.
Print Assumptions C01_coeff_gen.
Print Assumptions C01_inner_product.
Print Assumptions C02_prime.
Print Assumptions C02_no_zero_divisors.
Print Assumptions C02_root_bound.
Print Assumptions C03_commutative.
Print Assumptions C03_associative.
Print Assumptions C03_distributes.
Print Assumptions C03_inverse.
Print Assumptions C03_no_zero_divisors.
Print Assumptions C03_batched_products.
Print Assumptions C03_halves_fit.
Print Assumptions C03_lazy_reduction.
