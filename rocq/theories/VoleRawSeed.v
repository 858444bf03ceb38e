(** The base check of the set-up against a verifier that sends a seed that is not reduced: Base_svole::recver_check
    (base_svole.h:83-97) uses the received word as it is. *)
From Coq Require Import NArith List Bool Arith Lia.
From Verif Require Import Word WordProofs FpModel FpProofs ArithSpec TreeModel BoolModel VoleModel VoleTripleModel VoleSpec VoleThms CopeProofs VoleHideSpec VoleHideThms.
Import ListNotations.
Local Open Scope N_scope.
Ltac Zify.zify_post_hook ::= idtac.

(** base_svole.h:83-97: the prover's two words if it receives [seed] *)
Definition raw_xz (t k : nat) (v : vpub) (s : vsec) (q : vmask) (seed : N) : N * N :=
  base_recver_check (vsize t k) (cope_recv 61 (run_w0 v q)) (base_x (run_x t k s q)) (cope_recv 61 (run_w0c v q) 0)
    (base_x (run_x t k s q) (vsize t k)) seed.

Lemma mm_0 c : mult_mod 0 c = 0.
Proof. reflexivity. Qed.
Lemma am_0 a : a < W64 -> add_mod a 0 = if PR <=? a then a - PR else a.
Proof. intro H. unfold add_mod. cbv zeta. rewrite add64_small by (rewrite N.add_0_r; exact H). rewrite N.add_0_r. now apply csub64. Qed.
Lemma am_w a b : add_mod a b < W64.
Proof.
  unfold add_mod. cbv zeta. assert (X : add64 a b < W64) by (apply N.mod_lt; discriminate).
  destruct (PR <=? add64 a b); [|exact X]. apply N.mod_lt; discriminate.
Qed.
Lemma acc_app a : forall r b a' b', length a = length b -> inn_prdt_acc r (a ++ a') (b ++ b') = inn_prdt_acc (inn_prdt_acc r a b) a' b'.
Proof. induction a as [|x a IH]; intros r [|y b] a' b' E; try discriminate E; cbn; [reflexivity|]. apply IH. now injection E. Qed.
Lemma acc_w a : forall r b, r < W64 -> inn_prdt_acc r a b < W64.
Proof. induction a as [|x a IH]; intros r [|y b] H; cbn; try exact H. apply IH, am_w. Qed.
(** zero values bring the sum below p: every addition subtracts p once *)
Lemma acc_zero b : forall r, r < W64 -> inn_prdt_acc r (map (fun _ => 0) b) b <= r - N.of_nat (length b) * PR \/ inn_prdt_acc r (map (fun _ => 0) b) b < PR.
Proof.
  induction b as [|y b IH]; intros r Hr; cbn [map inn_prdt_acc length].
  - left. clear. lia.
  - rewrite mm_0, am_0 by exact Hr. destruct (N.leb_spec PR r) as [X|X].
    + destruct (IH (r - PR)) as [A|A]; [clear - Hr; lia| |right; exact A]. left. rewrite Nat2N.inj_succ, N.mul_succ_l. clear - A X. lia.
    + right. destruct (IH r Hr) as [A|A]; [|exact A]. clear - A X. lia.
Qed.
Lemma acc_zero8 b r : r < W64 -> (8 <= length b)%nat -> inn_prdt_acc r (map (fun _ => 0) b) b < PR.
Proof.
  intros Hr Hl. destruct (acc_zero b r Hr) as [A|A]; [|exact A]. assert (Hl' : 8 <= N.of_nat (length b)) by (clear - Hl; lia).
  generalize dependent (inn_prdt_acc r (map (fun _ => 0) b) b). intros z A. assert (B : 8 * PR <= N.of_nat (length b) * PR) by (apply N.mul_le_mono_r; exact Hl').
  unfold PR, W64 in *. lia.
Qed.

(** the sum over values whose last nine entries are 8 zeros and x *)
Lemma sum_tail f n c x : (8 <= n)%nat -> length c = S n -> (forall j, (n - 8 <= j)%nat -> (j < n)%nat -> f j = 0) -> f n = x ->
  exists r, r < PR /\ vector_inn_prdt_sum_red (slice f (S n)) c = add_mod r (mult_mod x (nth n c 0)).
Proof.
  intros Hn Hc Hf Hx.
  assert (Hc' : c = firstn (n - 8) c ++ firstn 8 (skipn (n - 8) c) ++ [nth n c 0]).
  { rewrite <- (firstn_skipn (n - 8) c) at 1. f_equal. rewrite <- (firstn_skipn 8 (skipn (n - 8) c)) at 1. f_equal.
    rewrite <- (firstn_skipn n c) at 2. rewrite app_nth2 by (rewrite firstn_length; lia). rewrite firstn_length, Nat.min_l, Nat.sub_diag by lia.
    assert (E : forall a b (l : list N), skipn a (skipn b l) = skipn (b + a) l) by (intros a b; induction b; intros [|z l]; cbn; try reflexivity; [now rewrite skipn_nil|apply IHb]).
    rewrite E. replace (n - 8 + 8)%nat with n by lia. assert (L : length (skipn n c) = 1%nat) by (rewrite skipn_length; lia).
    destruct (skipn n c) as [|z [|]]; try discriminate L. reflexivity. }
  assert (Hs : slice f (S n) = map f (seq 0 (n - 8)) ++ map f (seq (n - 8) 8) ++ [x]).
  { unfold slice. replace (S n) with ((n - 8) + (8 + 1))%nat by lia. rewrite seq_app, map_app. f_equal. rewrite seq_app, map_app. f_equal.
    cbn [seq map]. f_equal. rewrite <- Hx. f_equal. lia. }
  assert (H0 : map f (seq (n - 8) 8) = map (fun _ => 0) (firstn 8 (skipn (n - 8) c))).
  { assert (L : length (firstn 8 (skipn (n - 8) c)) = 8%nat) by (rewrite firstn_length, skipn_length; lia).
    transitivity (repeat 0 8).
    - change (repeat 0 8) with (map (fun _ : nat => 0) (seq 0 8)). cbn [seq map]. rewrite !Hf by lia. reflexivity.
    - revert L. generalize (firstn 8 (skipn (n - 8) c)). intros l L. rewrite <- L. clear. induction l; cbn; congruence. }
  exists (inn_prdt_acc (inn_prdt_acc 0 (map f (seq 0 (n - 8))) (firstn (n - 8) c)) (map (fun _ => 0) (firstn 8 (skipn (n - 8) c))) (firstn 8 (skipn (n - 8) c))).
  split.
  - apply acc_zero8; [apply acc_w; reflexivity|]. rewrite firstn_length, skipn_length. lia.
  - unfold vector_inn_prdt_sum_red. rewrite Hc' at 1. rewrite Hs. rewrite acc_app by (rewrite map_length, seq_length, firstn_length; lia).
    rewrite H0. rewrite acc_app by (rewrite map_length; reflexivity). reflexivity.
Qed.

Section Raw.
  Variables (t k : nat) (v : vpub) (seed : N).
  Hypothesis (Hk : (9 <= k)%nat).
  Notation c := (nth (t + k) (uni_hash_coeff_gen seed (vsize t k)) 0).
  Lemma raw_word s q x : vsec_ok s -> vmask_ok q -> (forall j, (t + k - 8 <= j)%nat -> (j < t + k)%nat -> s_x s j = 0) -> s_x s (t + k)%nat = x ->
    exists r, r < PR /\ snd (raw_xz t k v s q seed) = add_mod (add_mod r (mult_mod x c)) (k_a q).
  Proof.
    intros Hs Hq Hz Hx. unfold raw_xz, base_recver_check. cbv zeta. cbn [snd].
    rewrite (bx_id t k s q) by assumption. assert (Ea : run_x t k s q (vsize t k) = k_a q).
    { unfold run_x, vsize. destruct (Nat.eqb_spec (1 + t + k) t); [lia|]. now rewrite Nat.eqb_refl. }
    assert (Ex : forall j, (t < j)%nat -> (j <= t + k)%nat -> base_x (run_x t k s q) j = s_x s j).
    { intros j A B. rewrite (bx_id t k s q) by assumption. unfold run_x, vsize. destruct (Nat.eqb_spec j t); [lia|]. destruct (Nat.eqb_spec j (1 + t + k)); [lia|reflexivity]. }
    destruct (sum_tail (base_x (run_x t k s q)) (t + k) (uni_hash_coeff_gen seed (vsize t k)) x) as (r & Hr & E).
    - lia.
    - rewrite chi_len; unfold vsize; lia.
    - intros j A B. rewrite Ex by lia. now apply Hz.
    - rewrite Ex by lia. exact Hx.
    - exists r. split; [exact Hr|]. change (vsize t k) with (S (t + k)) at 1. rewrite E, Ea. reflexivity.
  Qed.
  Lemma raw_small s q : vsec_ok s -> vmask_ok q -> (forall j, (t + k - 8 <= j)%nat -> (j <= t + k)%nat -> s_x s j = 0) ->
    snd (raw_xz t k v s q seed) < PR.
  Proof.
    intros Hs Hq Hz. destruct (raw_word s q 0 Hs Hq) as (r & Hr & ->).
    - intros j A B. apply Hz; lia.
    - apply Hz; lia.
    - destruct Hq as (_ & _ & Ha & _). change (canon (k_a q)) with (k_a q < PR) in Ha.
      rewrite mm_0, (add_mod_correct r 0) by (clear - Hr; lia). rewrite N.add_0_r, (N.mod_small _ _ Hr).
      rewrite add_mod_correct by (clear - Hr Ha; lia). apply N.mod_lt. discriminate.
  Qed.
  Lemma raw_large s q x : vsec_ok s -> vmask_ok q -> (forall j, (t + k - 8 <= j)%nat -> (j < t + k)%nat -> s_x s j = 0) -> s_x s (t + k)%nat = x ->
    3 * PR <= mult_mod x c <= 6 * PR -> PR <= snd (raw_xz t k v s q seed).
  Proof.
    intros Hs Hq Hz Hx Hm. destruct (raw_word s q x Hs Hq Hz Hx) as (r & Hr & ->).
    destruct Hq as (_ & _ & Ha & _). change (canon (k_a q)) with (k_a q < PR) in Ha.
    generalize dependent (mult_mod x c). intros m Hm. unfold add_mod at 2. cbv zeta. rewrite add64_small by (unfold PR, W64 in *; lia).
    rewrite csub64 by (unfold PR, W64 in *; lia). destruct (N.leb_spec PR (r + m)) as [A|A]; [|exfalso; unfold PR in *; lia].
    unfold add_mod. cbv zeta. rewrite add64_small by (unfold PR, W64 in *; lia). rewrite csub64 by (unfold PR, W64 in *; lia).
    destruct (N.leb_spec PR (r + m - PR + k_a q)) as [B|B]; unfold PR in *; lia.
  Qed.
End Raw.
