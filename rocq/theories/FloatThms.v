(** The way back and the round trip. *)
From Coq Require Import NArith ZArith QArith Qround Qpower Bool Lia.
From Verif Require Import FloatModel FloatSpec FloatProofs.
Local Open Scope N_scope.

(** the tail of Int62ToFloat after the magnitude is known *)
Definition mant (u : N) : N := let l := N.log2 u in if 23 <=? l then u / 2 ^ (l - 23) - 2 ^ 23 else u * 2 ^ (23 - l) - 2 ^ 23.
Definition lead (u : N) : N := let l := N.log2 u in if 23 <=? l then u / 2 ^ (l - 23) else u * 2 ^ (23 - l).
Lemma lead_bound u : 1 <= u -> 2 ^ 23 <= lead u < 2 ^ 24.
Proof.
  intro H. unfold lead. destruct (N.log2_spec u ltac:(lia)) as [A B]. set (l := N.log2 u) in *. clearbody l.
  destruct (N.leb_spec 23 l) as [L|L].
  - assert (E1 : 2 ^ l = 2 ^ (l - 23) * 2 ^ 23) by (rewrite <- N.pow_add_r; f_equal; lia).
    assert (E2 : 2 ^ N.succ l = 2 ^ (l - 23) * 2 ^ 24) by (rewrite <- N.pow_add_r; f_equal; lia).
    assert (P : 2 ^ (l - 23) <> 0) by (apply N.pow_nonzero; discriminate).
    split; [apply N.div_le_lower_bound; lia|apply N.div_lt_upper_bound; lia].
  - assert (E1 : 2 ^ 23 = 2 ^ l * 2 ^ (23 - l)) by (rewrite <- N.pow_add_r; f_equal; lia).
    assert (E2 : 2 ^ 24 = 2 ^ N.succ l * 2 ^ (23 - l)) by (rewrite <- N.pow_add_r; f_equal; lia).
    assert (P : 2 ^ (23 - l) <> 0) by (apply N.pow_nonzero; discriminate).
    rewrite E1, E2. split; [apply N.mul_le_mono_r; exact A|apply N.mul_lt_mono_pos_r; lia].
Qed.
Lemma mant_lead u : 1 <= u -> mant u = lead u - 2 ^ 23 /\ lead u mod 2 ^ 23 = mant u.
Proof.
  intro H. pose proof (lead_bound u H) as B. assert (E : mant u = lead u - 2 ^ 23) by (unfold mant, lead; cbv zeta; destruct (23 <=? N.log2 u); reflexivity).
  split; [exact E|]. rewrite E. replace (lead u) with (lead u - 2 ^ 23 + 1 * 2 ^ 23) at 1 by lia. rewrite N.mod_add by discriminate. apply N.mod_small. lia.
Qed.
Lemma top61 a : a < 2 ^ 61 -> i_top 61 a = (2 ^ 60 <=? a).
Proof. intro H. now rewrite i_top_spec by lia. Qed.
Section G.
  Variable geq : N -> N -> N -> bool.
  Hypothesis G : geq_right i_val geq.
  Definition tail_of (sign : bool) (u : N) (s : Z) : N :=
    let first := i_sub 8 (i_const 8 60) (i_leading_zeros 61 u) in
    let left := geq 8 first (i_const 8 23) in
    let offset := if left then i_sub 8 first (i_const 8 23) else i_sub 8 (i_const 8 23) first in
    let shifted := if left then i_shr offset u else i_shl 61 offset u in
    let exponent := i_add 8 first (i_const 8 (127 - s)) in
    shifted mod 2 ^ 23 + 2 ^ 23 * exponent + (if sign then 2 ^ 31 else 0).
  Lemma tail_eq sign u s : 1 <= u < 2 ^ 60 -> tail_of sign u s = float_bits sign (Z.to_N ((Z.of_N (N.log2 u) + 127 - s) mod 256)) (mant u).
  Proof.
    intros [H1 H2]. unfold tail_of, float_bits. set (l := N.log2 u).
    assert (Bl : l < 60) by (apply N.log2_lt_pow2; lia).
    assert (F : i_sub 8 (i_const 8 60) (i_leading_zeros 61 u) = l).
    { unfold i_leading_zeros. rewrite N.size_log2 by lia. fold l. unfold i_sub. change (i_const 8 60) with 60. change (2 ^ 8) with 256.
      replace (60 + (256 - (61 - N.succ l))) with (l + 1 * 256) by lia. rewrite N.mod_add by discriminate. apply N.mod_small. lia. }
    rewrite F. cbv zeta.
    assert (V : i_val 8 l = Z.of_N l) by (apply i_val_of; [lia|cbn; rewrite Z.mod_small; lia|cbn; lia]).
    assert (Gq : geq 8 l (i_const 8 23) = (23 <=? l)).
    { rewrite G; [|lia|cbn; lia|reflexivity|rewrite V; change (i_val 8 (i_const 8 23)) with 23%Z; cbn; lia].
      rewrite V. change (i_val 8 (i_const 8 23)) with 23%Z. destruct (N.leb_spec 23 l); [apply Z.leb_le|apply Z.leb_gt]; lia. }
    rewrite Gq.
    assert (Ex : i_add 8 l (i_const 8 (127 - s)) = Z.to_N ((Z.of_N l + 127 - s) mod 256)).
    { apply N2Z.inj. unfold i_add. rewrite N2Z.inj_mod, N2Z.inj_add by discriminate. rewrite i_const_of. change (Z.of_N (2 ^ 8)) with 256%Z. change (2 ^ Z.of_N 8)%Z with 256%Z.
      rewrite Zplus_mod_idemp_r. rewrite Z2N.id by (apply Z.mod_pos_bound; lia). f_equal. lia. }
    rewrite Ex. f_equal. f_equal. rewrite <- (proj2 (mant_lead u H1)). unfold lead. cbv zeta. fold l. f_equal.
    change (i_const 8 23) with 23. destruct (N.leb_spec 23 l) as [L|L].
    - assert (O : i_sub 8 l 23 = l - 23). { unfold i_sub. change (2 ^ 8) with 256. replace (l + (256 - 23)) with (l - 23 + 1 * 256) by lia. rewrite N.mod_add by discriminate. apply N.mod_small. lia. }
      rewrite O, i_shr_eq, (N.mod_small (l - 23)) by lia. reflexivity.
    - assert (O : i_sub 8 23 l = 23 - l). { unfold i_sub. change (2 ^ 8) with 256. replace (23 + (256 - l)) with (23 - l + 1 * 256) by lia. rewrite N.mod_add by discriminate. apply N.mod_small. lia. }
      rewrite O, i_shl_eq, (N.mod_small (23 - l)) by lia. apply N.mod_small.
      pose proof (lead_bound u H1) as B. unfold lead in B. cbv zeta in B. fold l in B. destruct (N.leb_spec 23 l); [lia|]. cbn in *. lia.
  Qed.
  Lemma tail_zero sign s : tail_of sign 0 s = float_bits sign (Z.to_N ((126 - s) mod 256)) 0.
  Proof.
    unfold tail_of, float_bits. change (i_sub 8 (i_const 8 60) (i_leading_zeros 61 0)) with 255. cbv zeta.
    assert (Gq : geq 8 255 (i_const 8 23) = false) by (rewrite G; [reflexivity|lia|reflexivity|reflexivity|cbn; lia]). rewrite Gq.
    change (i_shl 61 (i_sub 8 (i_const 8 23) 255) 0 mod 2 ^ 23) with 0. f_equal. f_equal. f_equal.
    apply N2Z.inj. unfold i_add. rewrite N2Z.inj_mod, N2Z.inj_add by discriminate. rewrite i_const_of. change (Z.of_N (2 ^ 8)) with 256%Z. change (2 ^ Z.of_N 8)%Z with 256%Z.
    rewrite Zplus_mod_idemp_r. rewrite Z2N.id by (apply Z.mod_pos_bound; lia). change (Z.of_N 255) with 255%Z.
    replace (255 + (127 - s))%Z with (126 - s + 1 * 256)%Z by lia. now rewrite Z.mod_add.
  Qed.
  Lemma from_pos w s : w < 2 ^ 60 -> int62_to_float geq w s = tail_of false w s.
  Proof.
    intro H. unfold int62_to_float.
    assert (V : i_val 62 w = Z.of_N w) by (apply i_val_of; [lia|rewrite Z.mod_small; lia|lia]).
    assert (C : i_val 62 (i_const 62 (2 ^ 60 - 1)) = (2 ^ 60 - 1)%Z) by (vm_compute; reflexivity).
    assert (C' : i_const 62 (2 ^ 60 - 1) < 2 ^ 62) by (vm_compute; reflexivity). set (c60 := i_const 62 (2 ^ 60 - 1)) in *. clearbody c60.
    assert (Gq : geq 62 c60 w = true).
    { rewrite G; [|lia|exact C'|lia|rewrite V, C; lia]. rewrite V, C. apply Z.leb_le. lia. }
    rewrite Gq. cbn [negb]. rewrite (N.mod_small w) by lia.
    assert (T : i_top 61 w = false) by (rewrite top61 by lia; apply N.leb_gt; lia).
    unfold i_abs. rewrite T. reflexivity.
  Qed.
  Lemma from_neg w s : 2 ^ 60 <= w < 2 ^ 61 - 1 -> int62_to_float geq w s = tail_of true (2 ^ 61 - 1 - w) s.
  Proof.
    intro H. unfold int62_to_float.
    assert (V : i_val 62 w = Z.of_N w) by (apply i_val_of; [lia|rewrite Z.mod_small; lia|lia]).
    assert (C : i_val 62 (i_const 62 (2 ^ 60 - 1)) = (2 ^ 60 - 1)%Z) by (vm_compute; reflexivity).
    assert (C' : i_const 62 (2 ^ 60 - 1) < 2 ^ 62) by (vm_compute; reflexivity). set (c60 := i_const 62 (2 ^ 60 - 1)) in *. clearbody c60.
    assert (Gq : geq 62 c60 w = false).
    { rewrite G; [|lia|exact C'|lia|rewrite V, C; lia]. rewrite V, C. apply Z.leb_gt. lia. }
    rewrite Gq. cbn [negb].
    assert (E : i_sub 62 w (i_const 62 (2 ^ 61 - 1)) mod 2 ^ 61 = w + 1).
    { unfold i_sub. replace (i_const 62 (2 ^ 61 - 1)) with (2 ^ 61 - 1) by (vm_compute; reflexivity). rewrite (N.mod_small (w + _)) by lia.
      replace (w + (2 ^ 62 - (2 ^ 61 - 1))) with (w + 1 + 1 * 2 ^ 61) by lia. rewrite N.mod_add by discriminate. apply N.mod_small. lia. }
    rewrite E.
    assert (T : i_top 61 (w + 1) = true) by (rewrite top61 by lia; apply N.leb_le; lia).
    unfold i_abs. rewrite T. unfold i_neg. rewrite (N.mod_small (2 ^ 61 - (w + 1))) by lia.
    replace (2 ^ 61 - (w + 1)) with (2 ^ 61 - 1 - w) by lia. reflexivity.
  Qed.
  Lemma from_p s : int62_to_float geq (2 ^ 61 - 1) s = tail_of false 0 s.
  Proof.
    unfold int62_to_float.
    assert (Gq : geq 62 (i_const 62 (2 ^ 60 - 1)) (2 ^ 61 - 1) = false) by (rewrite G; [vm_compute; reflexivity|lia|vm_compute; reflexivity|vm_compute; reflexivity|vm_compute; split; congruence]).
    rewrite Gq. vm_compute. reflexivity.
  Qed.

  (** value of the result *)
  Lemma tail_value u s : 1 <= u < 2 ^ 60 -> (0 <= Z.of_N (N.log2 u) + 127 - s < 256)%Z ->
    let E := Z.to_N ((Z.of_N (N.log2 u) + 127 - s) mod 256) in
    mant u < 2 ^ 23 /\ (magnitude E (mant u) * (2 # 1) ^ s == inject_Z (Z.of_N (lead u)) * (2 # 1) ^ (Z.of_N (N.log2 u) - 23))%Q.
  Proof.
    intros [H1 H2] He E. pose proof (lead_bound u H1) as B. destruct (mant_lead u H1) as [M1 _]. split; [lia|].
    rewrite magnitude_scaled. replace (2 ^ 23 + Z.of_N (mant u))%Z with (Z.of_N (lead u)) by (rewrite M1; lia).
    unfold E. rewrite Z.mod_small by lia. rewrite Z2N.id by lia. replace (Z.of_N (N.log2 u) + 127 - s - 150 + s)%Z with (Z.of_N (N.log2 u) - 23)%Z by lia. reflexivity.
  Qed.
  Lemma lead_scaled u : 1 <= u -> exists v, (inject_Z (Z.of_N (lead u)) * (2 # 1) ^ (Z.of_N (N.log2 u) - 23) == inject_Z (Z.of_N v))%Q /\
    v <= u /\ u * 2 ^ 23 < v * (2 ^ 23 + 1) /\ (u < 2 ^ 24 -> v = u).
  Proof.
    intro H. pose proof (lead_bound u H) as B. unfold lead in *. cbv zeta in *. destruct (N.leb_spec 23 (N.log2 u)) as [L|L].
    - set (l := N.log2 u) in *. exists (u / 2 ^ (l - 23) * 2 ^ (l - 23)). assert (P : 2 ^ (l - 23) <> 0) by (apply N.pow_nonzero; discriminate).
      split; [|split; [|split]].
      + rewrite pow2_inj by lia. rewrite N2Z.inj_mul, N2Z.inj_pow, inject_Z_mult, N2Z.inj_sub by exact L. reflexivity.
      + rewrite N.mul_comm. now apply N.mul_div_le.
      + pose proof (N.mul_succ_div_gt u _ P) as X. set (q := u / 2 ^ (l - 23)) in *. set (k := 2 ^ (l - 23)) in *. clearbody q k. nia.
      + intro Hu. assert (l < 24) by (apply N.log2_lt_pow2; lia). assert (l - 23 = 0) as -> by lia. rewrite N.pow_0_r, N.div_1_r. lia.
    - exists u. split; [|split; [lia|split; [lia|auto]]].
      replace (Z.of_N (N.log2 u) - 23)%Z with (- (23 - Z.of_N (N.log2 u)))%Z by lia. rewrite N2Z.inj_mul, N2Z.inj_pow, N2Z.inj_sub by lia.
      change (Z.of_N 2) with 2%Z. change (Z.of_N 23) with 23%Z. rewrite inject_Z_mult, <- pow2_inj by lia. rewrite <- Qmult_assoc, <- (Qpower_plus _ _ _ two_nz).
      replace (23 - Z.of_N (N.log2 u) + - (23 - Z.of_N (N.log2 u)))%Z with 0%Z by lia. rewrite Qpower_0_r. apply Qmult_1_r.
  Qed.
End G.
Lemma log2_fixed E M s : normal E M -> in_range E s -> (1 <= fixed E M s)%Z -> Z.of_N (N.log2 (fixw E M s)) = (Z.of_N E - 127 + s)%Z.
Proof.
  intros [HE HM] Hr H. unfold in_range in Hr. assert (P : Z.of_N (fixw E M s) = fixed E M s) by (unfold fixw; rewrite Z2N.id; lia).
  set (sh := (Z.of_N E - 150 + s)%Z) in *. replace (Z.of_N E - 127 + s)%Z with (23 + sh)%Z by (unfold sh; lia).
  assert (Z0 : (0 <= 23 + sh)%Z).
  { destruct (Z.lt_ge_cases sh 0) as [L|L]; [|lia]. rewrite fixed_right in H by (fold sh; lia). fold sh in H.
    destruct (Z.lt_ge_cases (23 + sh) 0) as [L1|L1]; [|lia]. exfalso. rewrite Z.div_small in H; [lia|]. split; [lia|].
    apply Z.lt_le_trans with (2 ^ 24)%Z; [lia|]. apply Z.pow_le_mono_r; lia. }
  assert (B : (2 ^ (23 + sh) <= fixed E M s < 2 ^ Z.succ (23 + sh))%Z).
  { destruct (Z.lt_ge_cases sh 0) as [L|L].
    - rewrite fixed_right by (fold sh; lia). fold sh. assert (P2 : (0 < 2 ^ (- sh))%Z) by (apply Z.pow_pos_nonneg; lia).
      assert (E1 : (2 ^ (23 + sh) * 2 ^ (- sh) = 2 ^ 23)%Z) by (rewrite <- Z.pow_add_r by lia; f_equal; lia).
      rewrite Z.pow_succ_r by lia. split; [apply Z.div_le_lower_bound; lia|apply Z.div_lt_upper_bound; [lia|]].
      replace (2 ^ (- sh) * (2 * 2 ^ (23 + sh)))%Z with (2 * (2 ^ (23 + sh) * 2 ^ (- sh)))%Z by ring. rewrite E1. lia.
    - rewrite fixed_left by (fold sh; lia). fold sh. assert (P2 : (0 < 2 ^ sh)%Z) by (apply Z.pow_pos_nonneg; lia).
      rewrite Z.pow_succ_r, Z.pow_add_r by lia. split; nia. }
  set (l := Z.to_N (23 + sh)).
  assert (El : Z.of_N l = (23 + sh)%Z) by (unfold l; lia). rewrite <- El. f_equal. apply N.log2_unique; [lia|].
  split; apply N2Z.inj_le || apply N2Z.inj_lt; rewrite ?N2Z.inj_pow, ?N2Z.inj_succ, El, P; apply B.
Qed.
Lemma lead_fixed E M s : normal E M -> in_range E s -> (1 <= fixed E M s)%Z ->
  lead (fixw E M s) <= 2 ^ 23 + M /\ ((0 <= Z.of_N E - 150 + s)%Z -> lead (fixw E M s) = 2 ^ 23 + M) /\
  (1 < fixw E M s -> N.log2 (fixw E M s - 1) = N.log2 (fixw E M s) -> lead (fixw E M s - 1) < 2 ^ 23 + M).
Proof.
  intros Hn Hr H. pose proof (log2_fixed E M s Hn Hr H) as Hl. destruct Hn as [HE HM]. unfold in_range in Hr.
  assert (P : Z.of_N (fixw E M s) = fixed E M s) by (unfold fixw; rewrite Z2N.id; lia).
  set (sh := (Z.of_N E - 150 + s)%Z) in *. assert (Hl' : Z.of_N (N.log2 (fixw E M s)) = (23 + sh)%Z) by (rewrite Hl; unfold sh; lia). clear Hl.
  unfold lead. cbv zeta. destruct (Z.lt_ge_cases sh 0) as [L|L].
  - set (k := Z.to_N (- sh)). assert (Ek : Z.of_N k = (- sh)%Z) by (unfold k; lia).
    assert (F : fixw E M s = (2 ^ 23 + M) / 2 ^ k).
    { apply N2Z.inj. rewrite P, fixed_right by (fold sh; lia). fold sh. rewrite N2Z.inj_div, (N2Z.inj_pow 2 k), N2Z.inj_add, Ek. reflexivity. }
    assert (Q : fixw E M s * 2 ^ k <= 2 ^ 23 + M) by (rewrite F, N.mul_comm; apply N.mul_div_le, N.pow_nonzero; discriminate).
    assert (K : 23 - N.log2 (fixw E M s) = k) by lia.
    assert (P2 : 0 < 2 ^ k) by (apply N.neq_0_lt_0, N.pow_nonzero; discriminate).
    split; [destruct (N.leb_spec 23 (N.log2 (fixw E M s))); [lia|rewrite K; exact Q]|]. split; [lia|]. intros G1 ->.
    destruct (N.leb_spec 23 (N.log2 (fixw E M s))); [lia|]. rewrite K. nia.
  - set (k := Z.to_N sh). assert (Ek : Z.of_N k = sh) by (unfold k; lia).
    assert (F : fixw E M s = (2 ^ 23 + M) * 2 ^ k).
    { apply N2Z.inj. rewrite P, fixed_left by (fold sh; lia). fold sh. rewrite N2Z.inj_mul, (N2Z.inj_pow 2 k), N2Z.inj_add, Ek. reflexivity. }
    assert (K : N.log2 (fixw E M s) - 23 = k) by lia.
    assert (P2 : 0 < 2 ^ k) by (apply N.neq_0_lt_0, N.pow_nonzero; discriminate).
    assert (A : (if 23 <=? N.log2 (fixw E M s) then fixw E M s / 2 ^ (N.log2 (fixw E M s) - 23) else fixw E M s * 2 ^ (23 - N.log2 (fixw E M s))) = 2 ^ 23 + M).
    { destruct (N.leb_spec 23 (N.log2 (fixw E M s))); [|lia]. rewrite K, F. apply N.div_mul. lia. }
    rewrite A. split; [lia|]. split; [auto|]. intros G1 ->. destruct (N.leb_spec 23 (N.log2 (fixw E M s))); [|lia].
    rewrite K. apply N.div_lt_upper_bound; lia.
Qed.
Lemma log2_of v : Z.log2 (Z.of_N v) = Z.of_N (N.log2 v).
Proof. destruct v as [|[p|p|]]; reflexivity. Qed.
