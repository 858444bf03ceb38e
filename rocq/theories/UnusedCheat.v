(** A prover of the batched product helpers: every accumulator value passes. *)
From Coq Require Import NArith List Bool Arith Lia.
From Verif Require Import Word WordProofs GF128 GF128Ring ListUtil GfmulModel BoolModel BoolSpec F2kModel F2kSpec F2kAlg F2kProofs F2kSim F2kThms RamModel RamSpec RamAlg RamProd UnusedModel UnusedSpec UnusedProd.
From Verif Require Import PropF2k.
Import ListNotations.
Ltac Zify.zify_post_hook ::= idtac.

(** no product of two factors (checked by the deferred test) or of five factors *)
Definition loose (g : fgate) : Prop := match g with FMul _ _ | FMul5 _ _ _ _ _ => False | _ => True end.
Section Loose.
  Variables (ev : nat -> N) (voleV : nat -> nat -> N) (bM : nat -> N) (bufsz polysz : nat) (corr : nat -> N) (bitmsg : nat -> bool).
  Notation step := (fc_step ev voleV bM bufsz polysz corr bitmsg).
  Definition low (e : nat * N) : Prop := fst e <> 5.
  Lemma loose_inv c : Forall loose c -> forall s, fc_errs s = [] -> fc_done s = [] -> Forall low (fc_perrs s) -> Forall (Forall low) (fc_pdone s) ->
    let s' := fold_left step c s in fc_errs s' = [] /\ fc_done s' = [] /\ Forall low (fc_perrs s') /\ Forall (Forall low) (fc_pdone s').
  Proof.
    induction c as [|g c IH]; intros F s A1 A2 A3 A4; [cbn; auto|]. inversion_clear F as [|? ? Lg F']. cbn [fold_left].
    apply (IH F'); destruct g; cbn [loose] in Lg; try contradiction; cbn [fc_step fc_add fc_chain fc_errs fc_done fc_perrs fc_pdone]; auto.
    1,2: apply Forall_app; (split; [|constructor; [unfold low; cbn; lia|constructor]]); destruct (_ && _); auto.
    1,2: destruct (_ && _); auto; apply Forall_app; auto.
  Qed.
  Lemma low_zero es : Forall low es -> deg_errs 5 es = map (fun _ => 0%N) es.
  Proof.
    induction 1 as [|e es H _ IH]; [reflexivity|]. unfold deg_errs in *. cbn [map]. rewrite IH. unfold low in H.
    now rewrite (proj2 (Nat.eqb_neq _ _) H).
  Qed.
End Loose.
Lemma weighted_zero {A} sd (es : list A) : weighted sd (map (fun _ => 0%N) es) = 0%N.
Proof.
  unfold weighted. generalize (gf_coeff_gen sd (length (map (fun _ => 0%N) es))).
  induction es as [|e es IH]; intros [|c cs]; try reflexivity. cbn [map combine fold_right fst snd]. now rewrite IH, gfmul_0_r.
Qed.
(** a circuit of additions and products of three or four factors: whatever values the prover commits to, fixed messages pass
    for every key *)
Lemma loose_passes ext voleV voleM bM oM threads bufsz polysz seeds pseeds junk corr bitmsg c :
  1 <= threads -> 1 <= bufsz -> (forall r i, (junk r i < 2 ^ 128)%N) -> Forall loose c ->
  exists chkmsg polymsg, forall g1 g2 d, valid_delta d ->
    exists v, f_session ext voleV voleM bM oM threads bufsz polysz seeds pseeds junk corr bitmsg chkmsg polymsg g1 g2 c d = Some v /\
      fv_printed v = 0 /\ fv_cheat v = [].
Proof.
  intros Ht Hb Hj Hc.
  destruct (loose_inv (fun i => fst (ext i)) voleV bM bufsz polysz corr bitmsg c Hc fc_init) as (A1 & A2 & A3 & A4); try constructor.
  apply C31_vanishing_combination_passes; auto; unfold fcommit, fbatches, pbatches.
  - rewrite A1, A2. intros [|k] es Hk; discriminate.
  - intros k es Hk. rewrite low_zero; [apply weighted_zero|]. apply nth_error_In, in_app_or in Hk. destruct Hk as [Hk|Hk].
    + exact (proj1 (Forall_forall _ _) A4 es Hk).
    + destruct (fc_perrs _) as [|e l]; [destruct Hk|]. destruct Hk as [<-|[]]. exact A3.
Qed.

(** a prover that claims the value w for every product of three or four factors *)
Definition claim_all (bM : nat -> N) (w : N) (i : nat) : bool := xorb (N.testbit (bM i) 0) (nth (i mod 130) (in_bits w) false).
Lemma claim_value bM w q : (w < 2 ^ 128)%N -> fc_bitval bM (claim_all bM w) (q * 130) = w.
Proof.
  intro H. unfold fc_bitval. etransitivity; [|exact (used_in_bits w H)]. f_equal.
  transitivity (map (fun i => nth (i mod 130) (in_bits w) false) (seq (q * 130) 64 ++ seq (q * 130 + 65) 64)).
  { apply map_ext. intro i. unfold claim_all. now rewrite <- xorb_assoc, xorb_nilpotent, xorb_false_l. }
  assert (E : forall a k, a + k <= 130 -> map (fun i => nth (i mod 130) (in_bits w) false) (seq (q * 130 + a) k) = map (fun i => nth i (in_bits w) false) (seq a k)).
  { intros a k L. rewrite <- (seq_offset (q * 130 + a) k), <- (seq_offset a k), !map_map. apply map_ext_in. intros i Hi. apply in_seq in Hi.
    f_equal. replace (q * 130 + a + i) with (a + i + q * 130) by lia. rewrite Nat.mod_add by lia. apply Nat.mod_small. lia. }
  rewrite map_app, E by lia. replace (q * 130) with (q * 130 + 0) by lia. rewrite E by lia. rewrite <- map_app.
  change (seq 0 64 ++ seq 65 64) with (used (seq 0 130)). rewrite <- used_map. reflexivity.
Qed.
Section Claim.
  Variables (ev : nat -> N) (voleV : nat -> nat -> N) (bM : nat -> N) (bufsz polysz : nat) (corr : nat -> N) (w : N).
  Hypothesis Hw : (w < 2 ^ 128)%N.
  Notation step := (fc_step ev voleV bM bufsz polysz corr (claim_all bM w)).
  Lemma claim_inv c : forall s q, fc_bits s = q * 130 -> exists q', fc_bits (fold_left step c s) = q' * 130 /\ length (fc_w (fold_left step c s)) = length (fc_w s) + length c.
  Proof.
    induction c as [|g c IH]; intros s q Q; cbn [fold_left length]; [exists q; split; [exact Q|lia]|].
    assert (Z : exists q', fc_bits (step s g) = q' * 130 /\ length (fc_w (step s g)) = S (length (fc_w s))).
    { destruct g; cbn [fc_step fc_add fc_chain fc_bits fc_w]; rewrite ?app_length; cbn [length];
        try (exists q; split; [exact Q|lia]); try (exists (S q); split; [lia|lia]).
      unfold fc_mul, fc_flush. destruct (Nat.eqb _ _); cbn [fc_bits fc_w]; rewrite app_length; cbn [length]; exists q; (split; [exact Q|lia]). }
    destruct Z as (q1 & Z1 & Z2). destruct (IH (step s g) q1 Z1) as (q2 & Y1 & Y2). exists q2. split; [exact Y1|lia].
  Qed.
  Lemma claim_last c g : (exists i j k, g = FMul3 i j k) \/ (exists i j k l, g = FMul4 i j k l) ->
    nth (length c) (fc_w (fcommit ev voleV bM bufsz polysz corr (claim_all bM w) (c ++ [g]))) 0%N = w.
  Proof.
    intro G. unfold fcommit. rewrite fold_left_app. destruct (claim_inv c fc_init 0 eq_refl) as (q & Q1 & Q2).
    set (s := fold_left step c fc_init) in *. clearbody s. cbn [fc_init fc_w length Nat.add] in Q2. cbn [fold_left].
    destruct G as [(i & j & k & ->)|(i & j & k & l & ->)]; cbn [fc_step fc_chain fc_w]; rewrite app_nth2 by lia; rewrite Q2, Nat.sub_diag; cbn [nth];
      rewrite Q1; now apply claim_value.
  Qed.
End Claim.

(** the last gate of the batched helpers *)
Definition ends_in (w : nat) (gs : list fgate) (a : nat) : Prop :=
  exists gs' g, gs = gs' ++ [g] /\ a = w + length gs' /\ ((exists i j k, g = FMul3 i j k) \/ (exists i j k l, g = FMul4 i j k l)).
Section Last.
  Variables (acc_last : bool) (n : nat) (x : nat -> nat) (r : N).
  Hypothesis Hn64 : (N.of_nat n < 2 ^ 64)%N.
  Lemma tail_stop fuel acc w : prod_tail n x r fuel n acc w = Some ([], acc, w).
  Proof. destruct fuel; cbn [prod_tail]; now rewrite Nat.ltb_irrefl. Qed.
  Lemma loop2_last fuel : forall k i acc w gs a w', n = i + 2 * k -> 1 <= i -> prod_loop2 acc_last n x r fuel i acc w = Some (gs, a, w') ->
    Forall loose gs /\ (k = 0 -> gs = [] /\ a = acc) /\ (1 <= k -> ends_in w gs a).
  Proof.
    induction fuel as [|fuel IH]; intros k i acc w gs a w' Hk Hi E; cbn [prod_loop2] in E;
      pose proof (u64_sub_small n 1 ltac:(lia) Hn64) as U; change (N.of_nat 1) with 1%N in U; rewrite U in E;
      destruct (N.ltb_spec (N.of_nat i) (N.of_nat (n - 1))) as [L|L].
    - discriminate.
    - assert (k = 0) by lia. subst k. rewrite Nat.mul_0_r, Nat.add_0_r in Hk. rewrite <- Hk in E. rewrite tail_stop in E. injection E as <- <- <-.
      repeat split; auto. lia.
    - rewrite (proj2 (Nat.leb_gt _ _)) in E by lia.
      destruct (prod_loop2 acc_last n x r fuel (i + 2) (w + 2) (w + 3)) as [[[gs1 a1] w1]|] eqn:E1; [|discriminate]. injection E as <- <- <-.
      destruct (IH (k - 1) (i + 2) (w + 2) (w + 3) gs1 a1 w1 ltac:(lia) ltac:(lia) E1) as (F & Z & Y).
      split; [repeat constructor; auto; destruct acc_last; exact I|]. split; [lia|]. intros _. destruct (Nat.eq_dec k 1) as [->|Nk].
      + destruct (Z eq_refl) as [-> ->]. eexists [_; _], _. split; [reflexivity|]. split; [reflexivity|]. left. destruct acc_last; eauto.
      + destruct (Y ltac:(lia)) as (gs2 & g & -> & -> & G). eexists (_ :: _ :: _ :: gs2), g. split; [reflexivity|]. split; [cbn [length]; lia|exact G].
    - assert (k = 0) by lia. subst k. rewrite Nat.mul_0_r, Nat.add_0_r in Hk. rewrite <- Hk in E. rewrite tail_stop in E. injection E as <- <- <-.
      repeat split; auto. lia.
  Qed.
  Lemma loop3_last fuel : forall k i acc w gs a w', 2 <= n -> n = i + 3 * k -> 1 <= i -> prod_loop3 acc_last n x r fuel i acc w = Some (gs, a, w') ->
    Forall loose gs /\ (k = 0 -> gs = [] /\ a = acc) /\ (1 <= k -> ends_in w gs a).
  Proof.
    induction fuel as [|fuel IH]; intros k i acc w gs a w' H2 Hk Hi E; cbn [prod_loop3] in E;
      pose proof (u64_sub_small n 2 H2 Hn64) as U; change (N.of_nat 2) with 2%N in U; rewrite U in E;
      destruct (N.ltb_spec (N.of_nat i) (N.of_nat (n - 2))) as [L|L].
    - discriminate.
    - assert (k = 0) by lia. subst k. rewrite Nat.mul_0_r, Nat.add_0_r in Hk. rewrite <- Hk in E. rewrite tail_stop in E. injection E as <- <- <-.
      repeat split; auto. lia.
    - rewrite (proj2 (Nat.leb_gt _ _)) in E by lia.
      destruct (prod_loop3 acc_last n x r fuel (i + 3) (w + 3) (w + 4)) as [[[gs1 a1] w1]|] eqn:E1; [|discriminate]. injection E as <- <- <-.
      destruct (IH (k - 1) (i + 3) (w + 3) (w + 4) gs1 a1 w1 H2 ltac:(lia) ltac:(lia) E1) as (F & Z & Y).
      split; [repeat constructor; auto; destruct acc_last; exact I|]. split; [lia|]. intros _. destruct (Nat.eq_dec k 1) as [->|Nk].
      + destruct (Z eq_refl) as [-> ->]. eexists [_; _; _], _. split; [reflexivity|]. split; [reflexivity|]. right. destruct acc_last; eauto 6.
      + destruct (Y ltac:(lia)) as (gs2 & g & -> & -> & G). eexists (_ :: _ :: _ :: _ :: gs2), g. split; [reflexivity|]. split; [cbn [length]; lia|exact G].
    - assert (k = 0) by lia. subst k. rewrite Nat.mul_0_r, Nat.add_0_r in Hk. rewrite <- Hk in E. rewrite tail_stop in E. injection E as <- <- <-.
      repeat split; auto. lia.
  Qed.
End Last.
Lemma helper_any h acc_last n r c a ext voleV voleM bM oM threads bufsz polysz seeds pseeds junk corr w :
  h <> One -> 2 <= n -> (n - 1) mod batch h = 0 -> (N.of_nat n < 2 ^ 64)%N -> (w < 2 ^ 128)%N -> 1 <= threads -> 1 <= bufsz -> (forall r i, (junk r i < 2 ^ 128)%N) ->
  helper_circuit h acc_last n r = Some (c, a) ->
  exists bitmsg chkmsg polymsg, fval (fc_w (fcommit (fun i => fst (ext i)) voleV bM bufsz polysz corr bitmsg c)) a = w /\
    forall g1 g2 d, valid_delta d ->
    exists v, f_session ext voleV voleM bM oM threads bufsz polysz seeds pseeds junk corr bitmsg chkmsg polymsg g1 g2 c d = Some v /\
      fv_printed v = 0 /\ fv_cheat v = [].
Proof.
  intros Hh H2 Hm H64 Hw Ht Hb Hj E. exists (claim_all bM w).
  assert (Q : exists gs, c = repeat FExt n ++ FAddC 0 r :: gs /\ Forall loose gs /\ ends_in (n + 1) gs a).
  { unfold helper_circuit, prod_bch2, prod_bch3 in E. rewrite (proj2 (Nat.eqb_neq n 0)) in E by lia. destruct h; [congruence| |]; cbn [batch] in Hm.
    - destruct (prod_loop2 acc_last n (fun i => i) r n 1 n (n + 1)) as [[[gs b] w1]|] eqn:E1; [|discriminate]. injection E as <- <-.
      pose proof (Nat.div_mod (n - 1) 2 ltac:(lia)) as D.
      destruct (loop2_last acc_last n _ r H64 n ((n - 1) / 2) 1 n (n + 1) gs b w1 ltac:(lia) ltac:(lia) E1) as (F & _ & Y).
      exists gs. split; [reflexivity|]. split; [exact F|]. apply Y. lia.
    - destruct (prod_loop3 acc_last n (fun i => i) r n 1 n (n + 1)) as [[[gs b] w1]|] eqn:E1; [|discriminate]. injection E as <- <-.
      pose proof (Nat.div_mod (n - 1) 3 ltac:(lia)) as D.
      destruct (loop3_last acc_last n _ r H64 n ((n - 1) / 3) 1 n (n + 1) gs b w1 H2 ltac:(lia) ltac:(lia) E1) as (F & _ & Y).
      exists gs. split; [reflexivity|]. split; [exact F|]. apply Y. lia. }
  destruct Q as (gs & -> & F & gs' & g & -> & -> & G).
  destruct (loose_passes ext voleV voleM bM oM threads bufsz polysz seeds pseeds junk corr (claim_all bM w) (repeat FExt n ++ FAddC 0 r :: gs' ++ [g]) Ht Hb Hj) as (chk & pm & P).
  { apply Forall_app. split; [apply Forall_forall; intros y Hy; apply repeat_spec in Hy; subst y; exact I|constructor; [exact I|exact F]]. }
  exists chk, pm. split; [|exact P].
  pose proof (claim_last (fun i => fst (ext i)) voleV bM bufsz polysz corr w Hw (repeat FExt n ++ FAddC 0 r :: gs') g G) as R.
  rewrite <- app_assoc in R. cbn [app] in R. rewrite app_length, repeat_length in R. cbn [length] in R.
  unfold fval. replace (n + 1 + length gs') with (n + S (length gs')) by lia. exact R.
Qed.
