(** Ring laws of block multiplication. *)
From Coq Require Import NArith Lia List Bool ZifyBool ZifyNat ZifyN.
From Verif Require Import Word WordProofs GF128.
Import ListNotations.
Local Open Scope N_scope.

Lemma N_bin_ind (P : N -> Prop) :
  P 0 -> (forall n, P n -> P (N.double n)) -> (forall n, P n -> P (N.succ_double n)) -> forall n, P n.
Proof.
  intros H0 Hd Hs [|p]; auto. induction p.
  - exact (Hs _ IHp). - exact (Hd _ IHp). - exact (Hs 0 H0).
Qed.

Lemma lxor_double a b : N.lxor (N.double a) (N.double b) = N.double (N.lxor a b).
Proof. destruct a, b; reflexivity. Qed.
Lemma lxor_double_sd a b : N.lxor (N.double a) (N.succ_double b) = N.succ_double (N.lxor a b).
Proof. destruct a as [|[]], b as [|[]]; cbn; auto; destruct (Pos.lxor _ _); auto. Qed.
Lemma lxor_sd_double a b : N.lxor (N.succ_double a) (N.double b) = N.succ_double (N.lxor a b).
Proof. now rewrite N.lxor_comm, lxor_double_sd, N.lxor_comm. Qed.
Lemma lxor_sd_sd a b : N.lxor (N.succ_double a) (N.succ_double b) = N.double (N.lxor a b).
Proof. destruct a as [|[]], b as [|[]]; cbn; auto; destruct (Pos.lxor _ _); auto. Qed.
Lemma sd_lxor a : N.succ_double a = N.lxor 1 (N.double a).
Proof. destruct a; reflexivity. Qed.

Lemma clmul_0_l b : clmul 0 b = 0. Proof. reflexivity. Qed.
Lemma clmul_1_l b : clmul 1 b = b. Proof. reflexivity. Qed.
Lemma clmul_double a b : clmul (N.double a) b = N.double (clmul a b).
Proof. destruct a; reflexivity. Qed.
Lemma clmul_sd a b : clmul (N.succ_double a) b = N.lxor b (N.double (clmul a b)).
Proof. destruct a; cbn; auto. now rewrite N.lxor_0_r. Qed.

(** rearranging xors *)
Lemma lxor_swap a b c d : N.lxor (N.lxor a b) (N.lxor c d) = N.lxor (N.lxor a c) (N.lxor b d).
Proof. rewrite !N.lxor_assoc. f_equal. rewrite <- !N.lxor_assoc. f_equal. apply N.lxor_comm. Qed.
Lemma lxor_left_comm a b c : N.lxor a (N.lxor b c) = N.lxor b (N.lxor a c).
Proof. rewrite <- !N.lxor_assoc. f_equal. apply N.lxor_comm. Qed.
Lemma lxor_cancel a b : N.lxor a (N.lxor a b) = b.
Proof. now rewrite <- N.lxor_assoc, N.lxor_nilpotent, N.lxor_0_l. Qed.

Lemma clmul_lxor_r a : forall b c, clmul a (N.lxor b c) = N.lxor (clmul a b) (clmul a c).
Proof.
  induction a using N_bin_ind; intros b c.
  - reflexivity.
  - now rewrite !clmul_double, IHa, lxor_double.
  - rewrite !clmul_sd, IHa, <- lxor_double. apply lxor_swap.
Qed.
(* case split on the low bit of the second argument *)
Lemma N_low_cases b : (exists b', b = N.double b') \/ (exists b', b = N.succ_double b').
Proof.
  destruct b as [|[p|p|]].
  - left; now exists 0. - right; now exists (Npos p). - left; now exists (Npos p). - right; now exists 0.
Qed.
Lemma clmul_lxor_l a : forall b c, clmul (N.lxor a b) c = N.lxor (clmul a c) (clmul b c).
Proof.
  induction a using N_bin_ind; intros b c.
  - now rewrite !N.lxor_0_l.
  - destruct (N_low_cases b) as [[b' ->]|[b' ->]].
    + now rewrite lxor_double, !clmul_double, IHa, lxor_double.
    + rewrite lxor_double_sd, clmul_double, !clmul_sd, IHa, <- lxor_double.
      apply lxor_left_comm.
  - destruct (N_low_cases b) as [[b' ->]|[b' ->]].
    + rewrite lxor_sd_double, clmul_double, !clmul_sd, IHa, <- lxor_double.
      now rewrite N.lxor_assoc.
    + rewrite lxor_sd_sd, clmul_double, !clmul_sd, IHa, <- lxor_double.
      rewrite lxor_swap, N.lxor_nilpotent. now rewrite N.lxor_0_l.
Qed.
Lemma clmul_0_r a : clmul a 0 = 0.
Proof. induction a using N_bin_ind; [reflexivity| |]; rewrite ?clmul_double, ?clmul_sd, IHa; reflexivity. Qed.
Lemma clmul_double_r a b : clmul a (N.double b) = N.double (clmul a b).
Proof.
  induction a using N_bin_ind.
  - reflexivity.
  - now rewrite !clmul_double, IHa.
  - now rewrite !clmul_sd, IHa, lxor_double.
Qed.
Lemma clmul_1_r a : clmul a 1 = a.
Proof.
  induction a using N_bin_ind.
  - reflexivity.
  - now rewrite clmul_double, IHa.
  - now rewrite clmul_sd, IHa, <- sd_lxor.
Qed.
Lemma clmul_comm a b : clmul a b = clmul b a.
Proof.
  revert b. induction a using N_bin_ind; intros b.
  - now rewrite clmul_0_r.
  - now rewrite clmul_double, clmul_double_r, IHa.
  - rewrite clmul_sd, sd_lxor, clmul_lxor_r, clmul_1_r, clmul_double_r. now rewrite IHa.
Qed.
Lemma clmul_assoc a b c : clmul (clmul a b) c = clmul a (clmul b c).
Proof.
  induction a using N_bin_ind.
  - reflexivity.
  - now rewrite !clmul_double, IHa.
  - now rewrite !clmul_sd, clmul_lxor_l, clmul_double, IHa.
Qed.

(** reduction *)
Definition GP : N := 340282366920938463463374607431768211591.
Lemma double_testbit v i : N.testbit (N.double v) (N.succ i) = N.testbit v i.
Proof. rewrite N.double_spec. apply N.double_bits_succ. Qed.
Lemma double_lt v n : v < 2 ^ n -> N.double v < 2 ^ (N.succ n).
Proof. rewrite N.double_spec, N.pow_succ_r'. lia. Qed.
Lemma xtime_lt v : v < 2 ^ 128 -> xtime v < 2 ^ 128.
Proof.
  intros H. unfold xtime. destruct (N.testbit v 127) eqn:E.
  - apply lt_pow2_testbit. intros i Hi. rewrite N.lxor_spec.
    destruct (N.eq_dec i 128) as [->|Hn].
    + change 128 with (N.succ 127) at 1. rewrite double_testbit, E. reflexivity.
    + rewrite (testbit_high _ 129 i), (testbit_high _ 129 i); try lia; try reflexivity.
  - apply lt_pow2_testbit. intros i Hi.
    destruct (N.eq_dec i 128) as [->|Hn].
    + change 128 with (N.succ 127). now rewrite double_testbit.
    + apply (testbit_high _ 129); [apply (double_lt v 128 H)|lia].
Qed.
Lemma reduce_double a : reduce (N.double a) = xtime (reduce a).
Proof. destruct a; reflexivity. Qed.
Lemma reduce_sd a : reduce (N.succ_double a) = N.lxor 1 (xtime (reduce a)).
Proof. destruct a; reflexivity. Qed.
Lemma reduce_lt a : reduce a < 2 ^ 128.
Proof.
  induction a using N_bin_ind.
  - reflexivity.
  - rewrite reduce_double. now apply xtime_lt.
  - rewrite reduce_sd. apply lxor_lt; [reflexivity|now apply xtime_lt].
Qed.
Lemma xtime_lxor u v : xtime (N.lxor u v) = N.lxor (xtime u) (xtime v).
Proof.
  unfold xtime. rewrite N.lxor_spec, <- lxor_double.
  destruct (N.testbit u 127), (N.testbit v 127); cbn [xorb].
  - now rewrite lxor_swap, N.lxor_nilpotent, N.lxor_0_r.
  - rewrite !N.lxor_assoc. f_equal. apply N.lxor_comm.
  - now rewrite N.lxor_assoc.
  - reflexivity.
Qed.
Lemma reduce_lxor a : forall b, reduce (N.lxor a b) = N.lxor (reduce a) (reduce b).
Proof.
  induction a using N_bin_ind; intros b.
  - now rewrite !N.lxor_0_l.
  - destruct (N_low_cases b) as [[b' ->]|[b' ->]].
    + now rewrite lxor_double, !reduce_double, IHa, xtime_lxor.
    + rewrite lxor_double_sd, reduce_double, !reduce_sd, IHa, xtime_lxor. apply lxor_left_comm.
  - destruct (N_low_cases b) as [[b' ->]|[b' ->]].
    + rewrite lxor_sd_double, reduce_double, !reduce_sd, IHa, xtime_lxor. now rewrite N.lxor_assoc.
    + rewrite lxor_sd_sd, reduce_double, !reduce_sd, IHa, xtime_lxor.
      rewrite lxor_swap, N.lxor_nilpotent. now rewrite N.lxor_0_l.
Qed.
Lemma reduce_small a : a < 2 ^ 128 -> reduce a = a.
Proof.
  induction a using N_bin_ind; intros H.
  - reflexivity.
  - assert (a < 2 ^ 127) by (rewrite N.double_spec in H; change (2^128) with (2 * 2^127) in H; lia).
    rewrite reduce_double, IHa by (change (2^128) with (2 * 2^127); lia).
    unfold xtime. now rewrite (testbit_high a 127) by (assumption || lia).
  - assert (a < 2 ^ 127) by (rewrite N.succ_double_spec in H; change (2^128) with (2 * 2^127) in H; lia).
    rewrite reduce_sd, IHa by (change (2^128) with (2 * 2^127); lia).
    unfold xtime. rewrite (testbit_high a 127) by (assumption || lia). now rewrite <- sd_lxor.
Qed.
Lemma reduce_idem a : reduce (reduce a) = reduce a.
Proof. apply reduce_small, reduce_lt. Qed.
Lemma reduce_GP_mul b : reduce (clmul GP b) = 0.
Proof.
  rewrite clmul_comm. induction b using N_bin_ind.
  - reflexivity.
  - now rewrite clmul_double, reduce_double, IHb.
  - rewrite clmul_sd, reduce_lxor, reduce_double, IHb. reflexivity.
Qed.
Lemma reduce_xtime_mul v b : reduce (clmul (xtime v) b) = xtime (reduce (clmul v b)).
Proof.
  unfold xtime at 1. destruct (N.testbit v 127).
  - rewrite clmul_lxor_l, reduce_lxor. fold GP. rewrite reduce_GP_mul, N.lxor_0_r.
    now rewrite clmul_double, reduce_double.
  - now rewrite clmul_double, reduce_double.
Qed.
Lemma reduce_clmul_l a b : reduce (clmul (reduce a) b) = reduce (clmul a b).
Proof.
  induction a using N_bin_ind.
  - reflexivity.
  - now rewrite reduce_double, reduce_xtime_mul, IHa, clmul_double, reduce_double.
  - rewrite reduce_sd, clmul_lxor_l, reduce_lxor, reduce_xtime_mul, IHa, clmul_1_l.
    now rewrite clmul_sd, reduce_lxor, reduce_double.
Qed.
Lemma reduce_clmul_r a b : reduce (clmul a (reduce b)) = reduce (clmul a b).
Proof. now rewrite clmul_comm, reduce_clmul_l, clmul_comm. Qed.

(** Laws of gfmul; they hold for all arguments except the unit law, which needs a block. *)
Lemma gfmul_lt a b : gfmul a b < 2 ^ 128. Proof. apply reduce_lt. Qed.
Lemma gfmul_comm a b : gfmul a b = gfmul b a.
Proof. unfold gfmul. now rewrite clmul_comm. Qed.
Lemma gfmul_assoc a b c : gfmul (gfmul a b) c = gfmul a (gfmul b c).
Proof. unfold gfmul. now rewrite reduce_clmul_l, reduce_clmul_r, clmul_assoc. Qed.
Lemma gfmul_lxor_r a b c : gfmul a (N.lxor b c) = N.lxor (gfmul a b) (gfmul a c).
Proof. unfold gfmul. now rewrite clmul_lxor_r, reduce_lxor. Qed.
Lemma gfmul_lxor_l a b c : gfmul (N.lxor a b) c = N.lxor (gfmul a c) (gfmul b c).
Proof. unfold gfmul. now rewrite clmul_lxor_l, reduce_lxor. Qed.
Lemma gfmul_0_l a : gfmul 0 a = 0. Proof. reflexivity. Qed.
Lemma gfmul_0_r a : gfmul a 0 = 0. Proof. now rewrite gfmul_comm. Qed.
Lemma gfmul_1_l a : a < 2 ^ 128 -> gfmul 1 a = a.
Proof. apply reduce_small. Qed.
Lemma gfmul_1_r a : a < 2 ^ 128 -> gfmul a 1 = a.
Proof. rewrite gfmul_comm. apply gfmul_1_l. Qed.
Lemma gfmul_reduce_l a b : gfmul (reduce a) b = gfmul a b.
Proof. apply reduce_clmul_l. Qed.
Lemma gfmul_reduce_r a b : gfmul a (reduce b) = gfmul a b.
Proof. apply reduce_clmul_r. Qed.

(** reduce-once inner product equals the sum of reduced products *)
Fixpoint gf_dot (a b : list N) : N :=
  match a, b with x :: a', y :: b' => N.lxor (gfmul x y) (gf_dot a' b') | _, _ => 0 end.
Lemma gf_inn_prdt_dot a : forall b, gf_inn_prdt a b = gf_dot a b.
Proof.
  unfold gf_inn_prdt. induction a as [|x a IH]; intros [|y b]; auto.
  cbn [cl_inn_prdt gf_dot]. now rewrite reduce_lxor, IH.
Qed.
