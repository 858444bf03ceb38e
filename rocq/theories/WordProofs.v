(** Lemmas about words, blocks and lanes. *)
From Coq Require Import NArith ZArith Lia List Bool ZifyBool ZifyNat ZifyN.
From Verif Require Import Word.
Import ListNotations.
Local Open Scope N_scope.
Ltac Zify.zify_post_hook ::= Z.div_mod_to_equations.

Lemma W64_eq : W64 = 2 ^ 64. Proof. reflexivity. Qed.
Lemma W128_eq : W128 = 2 ^ 128. Proof. reflexivity. Qed.
Lemma W64_pos : 0 < W64. Proof. reflexivity. Qed.

Lemma lo64_lt b : lo64 b < W64.
Proof. unfold lo64. apply N.mod_lt. discriminate. Qed.
Lemma lo64_mk h l : l < W64 -> lo64 (mkblock h l) = l.
Proof. unfold lo64, mkblock. intros. rewrite N.add_comm, N.mod_add by discriminate. now apply N.mod_small. Qed.
Lemma hi64_mk h l : l < W64 -> hi64 (mkblock h l) = h.
Proof. unfold hi64, mkblock. intros. rewrite N.add_comm, N.div_add by discriminate. rewrite N.div_small; auto. Qed.
Lemma mkblock_eta b : mkblock (hi64 b) (lo64 b) = b.
Proof. unfold mkblock, hi64, lo64. rewrite N.mul_comm. symmetry. apply N.div_mod. discriminate. Qed.
Lemma hi64_lt b : b < W128 -> hi64 b < W64.
Proof. unfold hi64, W128, W64. intros. apply N.div_lt_upper_bound; lia. Qed.
Lemma mkblock_lt h l : h < W64 -> l < W64 -> mkblock h l < W128.
Proof. unfold mkblock, W128, W64. lia. Qed.
Lemma mkblock_inj h l h' l' : l < W64 -> l' < W64 -> mkblock h l = mkblock h' l' -> h = h' /\ l = l'.
Proof.
  intros Hl Hl' E. split.
  - rewrite <- (hi64_mk h l), <- (hi64_mk h' l'); congruence.
  - rewrite <- (lo64_mk h l), <- (lo64_mk h' l'); congruence.
Qed.

Lemma testbit_high x n i : x < 2 ^ n -> n <= i -> N.testbit x i = false.
Proof.
  intros Hx Hi. destruct (N.eq_dec x 0) as [->|Hn]. { apply N.bits_0. }
  apply N.bits_above_log2. apply N.log2_lt_pow2 in Hx; lia.
Qed.

Lemma mkblock_lor h l : l < W64 -> mkblock h l = N.lor (N.shiftl h 64) l.
Proof.
  intros Hl. unfold mkblock. rewrite W64_eq, <- N.shiftl_mul_pow2.
  assert (N.land (N.shiftl h 64) l = 0).
  { apply N.bits_inj. intro i. rewrite N.land_spec, N.bits_0.
    destruct (N.lt_ge_cases i 64).
    - rewrite N.shiftl_spec_low by assumption. reflexivity.
    - rewrite (testbit_high l 64 i) by (rewrite <- ?W64_eq; assumption). apply andb_false_r. }
  rewrite N.add_nocarry_lxor by assumption. now apply N.lxor_lor.
Qed.

Lemma mkblock_testbit h l i : l < W64 ->
  N.testbit (mkblock h l) i = if i <? 64 then N.testbit l i else N.testbit h (i - 64).
Proof.
  intros Hl. rewrite mkblock_lor by assumption. rewrite N.lor_spec.
  destruct (i <? 64) eqn:E.
  - apply N.ltb_lt in E. rewrite N.shiftl_spec_low by assumption. reflexivity.
  - apply N.ltb_ge in E. rewrite N.shiftl_spec_high' by assumption.
    rewrite (testbit_high l 64) by (rewrite <- ?W64_eq; assumption).
    apply orb_false_r.
Qed.

Lemma lt_pow2_testbit x n : (forall i, n <= i -> N.testbit x i = false) -> x < 2 ^ n.
Proof.
  intros H. destruct (N.eq_dec x 0) as [->|Hn]. { apply N.neq_0_lt_0, N.pow_nonzero. discriminate. }
  apply N.log2_lt_pow2. { lia. }
  destruct (N.lt_ge_cases (N.log2 x) n) as [|G]; auto.
  specialize (H _ G). rewrite N.bit_log2 in H by assumption. discriminate.
Qed.
Lemma land_lt_l a b n : a < 2 ^ n -> N.land a b < 2 ^ n.
Proof. intros. apply lt_pow2_testbit. intros. rewrite N.land_spec, (testbit_high a n); auto. Qed.
Lemma land_lt_r a b n : b < 2 ^ n -> N.land a b < 2 ^ n.
Proof. intros. rewrite N.land_comm. now apply land_lt_l. Qed.
Lemma lxor_lt a b n : a < 2 ^ n -> b < 2 ^ n -> N.lxor a b < 2 ^ n.
Proof. intros. apply lt_pow2_testbit. intros. rewrite N.lxor_spec, (testbit_high a n), (testbit_high b n); auto. Qed.
Lemma lor_lt a b n : a < 2 ^ n -> b < 2 ^ n -> N.lor a b < 2 ^ n.
Proof. intros. apply lt_pow2_testbit. intros. rewrite N.lor_spec, (testbit_high a n), (testbit_high b n); auto. Qed.

Lemma mkblock_land h l h' l' : l < W64 -> l' < W64 ->
  N.land (mkblock h l) (mkblock h' l') = mkblock (N.land h h') (N.land l l').
Proof.
  intros. apply N.bits_inj. intro i. rewrite N.land_spec, !mkblock_testbit; auto.
  - destruct (i <? 64); now rewrite N.land_spec.
  - rewrite W64_eq in *. now apply land_lt_l.
Qed.
Lemma mkblock_lxor h l h' l' : l < W64 -> l' < W64 ->
  N.lxor (mkblock h l) (mkblock h' l') = mkblock (N.lxor h h') (N.lxor l l').
Proof.
  intros. apply N.bits_inj. intro i. rewrite N.lxor_spec, !mkblock_testbit; auto.
  - destruct (i <? 64); now rewrite N.lxor_spec.
  - rewrite W64_eq in *. now apply lxor_lt.
Qed.

Lemma add64_lt a b : add64 a b < W64.
Proof. apply N.mod_lt. discriminate. Qed.
Lemma sub64_lt a b : sub64 a b < W64.
Proof. apply N.mod_lt. discriminate. Qed.
Lemma shl64_lt a b : shl64 a b < W64.
Proof. apply N.mod_lt. discriminate. Qed.
Lemma shr64_le a n : shr64 a n <= a.
Proof.
  unfold shr64. rewrite N.shiftr_div_pow2.
  assert (2^n <> 0) by (apply N.pow_nonzero; discriminate).
  apply N.div_le_upper_bound; auto. nia.
Qed.
Lemma shr64_lt a n : a < W64 -> shr64 a n < W64.
Proof. intros. pose proof (shr64_le a n). lia. Qed.
Lemma add64_small a b : a + b < W64 -> add64 a b = a + b.
Proof. intros. now apply N.mod_small. Qed.
Lemma sub64_small a b : b <= a -> a < W64 -> sub64 a b = a - b.
Proof. unfold sub64, W64. intros. rewrite (N.mod_small b) by lia. lia. Qed.
Lemma add128_small a b : a + b < W128 -> add128 a b = a + b.
Proof. intros. now apply N.mod_small. Qed.
Lemma sub128_small a b : b <= a -> a < W128 -> sub128 a b = a - b.
Proof. unfold sub128, W128. intros. rewrite (N.mod_small b) by lia. lia. Qed.

Lemma lanes2_lo f a b : (forall x y, f x y < W64) -> lo64 (lanes2 f a b) = f (lo64 a) (lo64 b).
Proof. intros. unfold lanes2. now rewrite lo64_mk. Qed.
Lemma lanes2_hi f a b : (forall x y, f x y < W64) -> hi64 (lanes2 f a b) = f (hi64 a) (hi64 b).
Proof. intros. unfold lanes2. now rewrite hi64_mk. Qed.

Lemma lanes2_mk f h l h' l' : l < W64 -> l' < W64 ->
  lanes2 f (mkblock h l) (mkblock h' l') = mkblock (f h h') (f l l').
Proof. intros. unfold lanes2. now rewrite !hi64_mk, !lo64_mk. Qed.
Lemma lanes1_mk f h l : l < W64 -> lanes1 f (mkblock h l) = mkblock (f h) (f l).
Proof. intros. unfold lanes1. now rewrite hi64_mk, lo64_mk. Qed.
