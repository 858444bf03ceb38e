(** The product helpers that nothing calls: values, undefined cases, and what a prover can do with them. *)
From Coq Require Import NArith List Bool Arith Lia.
From Verif Require Import Word WordProofs GF128 GF128Ring ListUtil GfmulModel BoolModel BoolSpec F2kModel F2kSpec F2kAlg F2kProofs F2kSim F2kThms RamModel RamSpec RamAlg RamProd UnusedModel UnusedSpec.
Import ListNotations.
Ltac Zify.zify_post_hook ::= idtac.

Lemma u64_sub_small n k : k <= n -> (N.of_nat n < 2 ^ 64)%N -> u64_sub (N.of_nat n) (N.of_nat k) = N.of_nat (n - k).
Proof.
  intros H1 H2. unfold u64_sub. replace (N.of_nat n + 2 ^ 64 - N.of_nat k)%N with (N.of_nat (n - k) + 1 * 2 ^ 64)%N.
  - rewrite N.mod_add by discriminate. apply N.mod_small. lia.
  - rewrite N.mul_1_l. change (2 ^ 64)%N with 18446744073709551616%N. lia.
Qed.
Definition cheap (g : fgate) : Prop :=
  (exists i c, g = FAddC i c) \/ (exists i j, g = FMul i j) \/ (exists i j k, g = FMul3 i j k) \/ (exists i j k l, g = FMul4 i j k l).
Lemma cheap_tail g : (exists i c, g = FAddC i c) \/ (exists i j, g = FMul i j) -> cheap g.
Proof. unfold cheap. tauto. Qed.
Section Helpers.
  Variables (acc_last : bool) (n : nat) (x : nat -> nat) (r : N) (ev : nat -> N).
  Hypothesis Hn64 : (N.of_nat n < 2 ^ 64)%N.
  Lemma P_cat ws t i m : i + m <= n -> (forall j, j < n -> x j < length ws) -> P x r (ws ++ t) i m = P x r ws i m.
  Proof. intros L H. unfold P. f_equal. apply map_ext_in. intros j Hj. apply in_seq in Hj. apply fval_app1. apply H. lia. Qed.
  (** what the proofs below establish for a gate list computed from position i on *)
  Definition does (m i acc : nat) (ws : list N) (o : option (list fgate * nat * nat)) : Prop :=
    exists gs a t, o = Some (gs, a, length ws + length t) /\ count_ext gs = 0 /\
      (forall e, fplain ev e ws gs = ws ++ t) /\ a < length (ws ++ t) /\
      fval (ws ++ t) a = gfmul (fval ws acc) (P x r ws i (n - i)) /\ count_mul gs = m /\ (forall g, In g gs -> cheap g).
  Lemma does_tail fuel i acc ws : n <= i + fuel -> i <= n -> (forall j, j < n -> x j < length ws) -> acc < length ws -> (fval ws acc < 2 ^ 128)%N ->
    does (n - i) i acc ws (prod_tail n x r fuel i acc (length ws)).
  Proof.
    intros H1 H2 H3 H4 H5. destruct (tail_ok n x r ev fuel i acc ws H1 H2 H3 H4 H5) as (gs & a & t & A1 & A2 & A3 & A4 & A5 & A6 & A7).
    exists gs, a, t. repeat split; auto. intros g Hg. apply cheap_tail. now apply A7.
  Qed.
  Lemma loop2_ok fuel : 1 <= n -> forall i acc ws, n <= i + fuel -> 1 <= i -> i <= n ->
    (forall j, j < n -> x j < length ws) -> acc < length ws -> (fval ws acc < 2 ^ 128)%N ->
    does ((n - i) mod 2) i acc ws (prod_loop2 acc_last n x r fuel i acc (length ws)).
  Proof.
    intro Hn. pose proof (u64_sub_small n 1 Hn Hn64) as U. change (N.of_nat 1) with 1%N in U.
    induction fuel as [|fuel IH]; intros i acc ws Hf H1i Hi Hx Ha Hb; cbn [prod_loop2]; rewrite U.
    - rewrite (proj2 (N.ltb_ge _ _)) by lia. replace i with n in * by lia. replace ((n - n) mod 2) with (n - n) by (rewrite Nat.sub_diag; reflexivity).
      apply does_tail; auto; lia.
    - destruct (N.ltb_spec (N.of_nat i) (N.of_nat (n - 1))) as [Hlt|Hge].
      + rewrite (proj2 (Nat.leb_gt _ _)) by lia.
        set (y k := N.lxor (fval ws (x (i + k))) r).
        set (z := if acc_last then prod3 (y 0) (y 1) (fval ws acc) else prod3 (fval ws acc) (y 0) (y 1)).
        set (new := [y 0; y 1; z]).
        assert (Ez : z = gfmul (fval ws acc) (gfmul (y 0) (y 1))).
        { unfold z, prod3. destruct acc_last; [now rewrite (gfmul_comm _ (fval ws acc))|now rewrite gfmul_assoc]. }
        assert (E : forall t, (ws ++ new) ++ t = ws ++ new ++ t) by (intro; now rewrite <- app_assoc).
        destruct (IH (i + 2) (length ws + 2) (ws ++ new)) as [gs [a [t [H1 [H2 [H3 [H4 [H5 [H6 H7]]]]]]]]]; try lia.
        * intros j Hj. specialize (Hx j Hj). rewrite app_length. lia.
        * rewrite app_length. cbn. lia.
        * rewrite fval_plus. unfold fval, new. cbn [nth]. rewrite Ez. apply gfmul_lt.
        * rewrite app_length in H1. change (length new) with 3 in H1. rewrite H1.
          set (G := [FAddC (x i) r; FAddC (x (i + 1)) r;
                     if acc_last then FMul3 (length ws) (length ws + 1) acc else FMul3 acc (length ws) (length ws + 1)]).
          exists (G ++ gs), a, (new ++ t).
          split; [f_equal; f_equal; rewrite app_length; change (length new) with 3; lia|].
          split; [rewrite <- H2; unfold G; now destruct acc_last|]. split.
          { intro e. rewrite fplain_app.
            assert (F : fplain ev e ws G = ws ++ new).
            { pose proof (Hx i ltac:(lia)) as X0. pose proof (Hx (i + 1) ltac:(lia)) as X1.
              assert (L0 : forall l, fval (ws ++ l) (length ws) = fval l 0) by (intro l; rewrite <- (fval_plus ws l 0); f_equal; lia).
              unfold G. destruct acc_last; cbn [fplain]; rewrite <- !app_assoc; cbn [app];
              rewrite ?(fval_app1 ws _ (x (i + 1))), ?(fval_app1 ws _ acc), ?fval_plus, ?L0 by assumption;
              unfold new, z, y; rewrite Nat.add_0_r; reflexivity. }
            rewrite F, H3. apply E. }
          rewrite <- E. split; [exact H4|]. split; [|split].
          { rewrite H5, fval_plus. unfold fval at 1. cbn [nth new]. rewrite Ez, gfmul_assoc. f_equal.
            rewrite P_cat by (try lia; assumption). replace (n - i) with (S (S (n - (i + 2)))) by lia. rewrite !P_S.
            unfold y. rewrite !(N.lxor_comm r), !gfmul_assoc, Nat.add_0_r.
            replace (S i) with (i + 1) by lia. replace (S (i + 1)) with (i + 2) by lia. reflexivity. }
          { transitivity (count_mul gs); [unfold G; now destruct acc_last|]. rewrite H6. replace (n - i) with ((n - (i + 2)) + 1 * 2) by lia. now rewrite Nat.mod_add by lia. }
          { intros g Hg. apply in_app_or in Hg. destruct Hg as [Hg|Hg]; [|now apply H7].
            cbn [In G] in Hg. destruct Hg as [<-|[<-|[<-|[]]]]; [left; eauto..|]. right. right. left. destruct acc_last; eauto. }
      + replace ((n - i) mod 2) with (n - i) by (symmetry; apply Nat.mod_small; lia). apply does_tail; auto; lia.
  Qed.
  Lemma loop3_ok fuel : 2 <= n -> forall i acc ws, n <= i + fuel -> 1 <= i -> i <= n ->
    (forall j, j < n -> x j < length ws) -> acc < length ws -> (fval ws acc < 2 ^ 128)%N ->
    does ((n - i) mod 3) i acc ws (prod_loop3 acc_last n x r fuel i acc (length ws)).
  Proof.
    intro Hn. pose proof (u64_sub_small n 2 Hn Hn64) as U. change (N.of_nat 2) with 2%N in U.
    induction fuel as [|fuel IH]; intros i acc ws Hf H1i Hi Hx Ha Hb; cbn [prod_loop3]; rewrite U.
    - rewrite (proj2 (N.ltb_ge _ _)) by lia. replace i with n in * by lia. replace ((n - n) mod 3) with (n - n) by (rewrite Nat.sub_diag; reflexivity).
      apply does_tail; auto; lia.
    - destruct (N.ltb_spec (N.of_nat i) (N.of_nat (n - 2))) as [Hlt|Hge].
      + rewrite (proj2 (Nat.leb_gt _ _)) by lia.
        set (y k := N.lxor (fval ws (x (i + k))) r).
        set (z := if acc_last then prod4 (y 0) (y 1) (y 2) (fval ws acc) else prod4 (fval ws acc) (y 0) (y 1) (y 2)).
        set (new := [y 0; y 1; y 2; z]).
        assert (Ez : z = gfmul (fval ws acc) (gfmul (y 0) (gfmul (y 1) (y 2)))).
        { unfold z, prod4, prod3. destruct acc_last; [rewrite (gfmul_comm _ (fval ws acc)); f_equal; now rewrite !gfmul_assoc|now rewrite !gfmul_assoc]. }
        assert (E : forall t, (ws ++ new) ++ t = ws ++ new ++ t) by (intro; now rewrite <- app_assoc).
        destruct (IH (i + 3) (length ws + 3) (ws ++ new)) as [gs [a [t [H1 [H2 [H3 [H4 [H5 [H6 H7]]]]]]]]]; try lia.
        * intros j Hj. specialize (Hx j Hj). rewrite app_length. lia.
        * rewrite app_length. cbn. lia.
        * rewrite fval_plus. unfold fval, new. cbn [nth]. rewrite Ez. apply gfmul_lt.
        * rewrite app_length in H1. change (length new) with 4 in H1. rewrite H1.
          set (G := [FAddC (x i) r; FAddC (x (i + 1)) r; FAddC (x (i + 2)) r;
                     if acc_last then FMul4 (length ws) (length ws + 1) (length ws + 2) acc else FMul4 acc (length ws) (length ws + 1) (length ws + 2)]).
          exists (G ++ gs), a, (new ++ t).
          split; [f_equal; f_equal; rewrite app_length; change (length new) with 4; lia|].
          split; [rewrite <- H2; unfold G; now destruct acc_last|]. split.
          { intro e. rewrite fplain_app.
            assert (F : fplain ev e ws G = ws ++ new).
            { pose proof (Hx i ltac:(lia)) as X0. pose proof (Hx (i + 1) ltac:(lia)) as X1. pose proof (Hx (i + 2) ltac:(lia)) as X2.
              assert (L0 : forall l, fval (ws ++ l) (length ws) = fval l 0) by (intro l; rewrite <- (fval_plus ws l 0); f_equal; lia).
              unfold G. destruct acc_last; cbn [fplain]; rewrite <- !app_assoc; cbn [app];
              rewrite ?(fval_app1 ws _ (x (i + 1))), ?(fval_app1 ws _ (x (i + 2))), ?(fval_app1 ws _ acc), ?fval_plus, ?L0 by assumption;
              unfold new, z, y; rewrite Nat.add_0_r; reflexivity. }
            rewrite F, H3. apply E. }
          rewrite <- E. split; [exact H4|]. split; [|split].
          { rewrite H5, fval_plus. unfold fval at 1. cbn [nth new]. rewrite Ez, gfmul_assoc. f_equal.
            rewrite P_cat by (try lia; assumption). replace (n - i) with (S (S (S (n - (i + 3))))) by lia. rewrite !P_S.
            unfold y. rewrite !(N.lxor_comm r), !gfmul_assoc, Nat.add_0_r.
            replace (S i) with (i + 1) by lia. replace (S (i + 1)) with (i + 2) by lia. replace (S (i + 2)) with (i + 3) by lia. reflexivity. }
          { transitivity (count_mul gs); [unfold G; now destruct acc_last|]. rewrite H6. replace (n - i) with ((n - (i + 3)) + 1 * 3) by lia. now rewrite Nat.mod_add by lia. }
          { intros g Hg. apply in_app_or in Hg. destruct Hg as [Hg|Hg]; [|now apply H7].
            cbn [In G] in Hg. destruct Hg as [<-|[<-|[<-|[<-|[]]]]]; [left; eauto..|]. right. right. right. destruct acc_last; eauto 6. }
      + replace ((n - i) mod 3) with (n - i) by (symmetry; apply Nat.mod_small; lia). apply does_tail; auto; lia.
  Qed.
End Helpers.

Lemma helper_ok h acc_last n r ev : least h <= n -> (N.of_nat n < 2 ^ 64)%N -> (r < 2 ^ 128)%N -> (forall i, i < n -> (ev i < 2 ^ 128)%N) ->
  exists c a, helper_circuit h acc_last n r = Some (c, a) /\
    let ws := fplain ev 0 [] c in
    a < length ws /\ fval ws a = shifted_product r (map ev (seq 0 n)) /\ count_mul c = pairs h n.
Proof.
  intros Hn H64 Hr Hev. assert (N1 : 1 <= n) by (destruct h; cbn [least] in Hn; lia).
  set (ws := map ev (seq 0 n)). assert (Lw : length ws = n) by (unfold ws; now rewrite map_length, seq_length).
  assert (Vw : forall j, j < n -> fval ws j = ev j).
  { intros j Hj. unfold fval, ws. rewrite (nth_indep _ 0%N (ev 0)) by (rewrite map_length, seq_length; lia). rewrite map_nth, seq_nth by lia. reflexivity. }
  set (y := N.lxor (fval ws 0) r).
  assert (Hy : (y < 2 ^ 128)%N) by (apply lxor_lt; [rewrite Vw by lia; apply Hev; lia|assumption]).
  assert (Ey : fval (ws ++ [y]) n = y) by (pose proof (fval_lastn ws y) as Q; rewrite Lw in Q; exact Q).
  assert (Q : does n (fun i => i) r ev (pairs h n) 1 n (ws ++ [y])
     (match h with One => prod_tail n (fun i => i) r n 1 n (n + 1) | Bch2 => prod_loop2 acc_last n (fun i => i) r n 1 n (n + 1)
      | Bch3 => prod_loop3 acc_last n (fun i => i) r n 1 n (n + 1) end)).
  { replace (n + 1) with (length (ws ++ [y])) by (rewrite app_length; cbn; lia).
    assert (A1 : forall j, j < n -> j < length (ws ++ [y])) by (intros; rewrite app_length; lia).
    assert (A2 : n < length (ws ++ [y])) by (rewrite app_length; cbn; lia).
    assert (A3 : (fval (ws ++ [y]) n < 2 ^ 128)%N) by (now rewrite Ey).
    destruct h; cbn [pairs least] in *; [apply does_tail|apply loop2_ok|apply loop3_ok]; auto; lia. }
  destruct Q as (gs & a & t & H1 & H2 & H3 & H4 & H5 & H6 & H7).
  exists (repeat FExt n ++ FAddC 0 r :: gs), a.
  assert (C : helper_circuit h acc_last n r = Some (repeat FExt n ++ FAddC 0 r :: gs, a)).
  { unfold helper_circuit, prod_one, prod_bch2, prod_bch3. rewrite (proj2 (Nat.eqb_neq n 0)) by lia. destruct h; rewrite H1; reflexivity. }
  split; [exact C|]. cbv zeta.
  assert (W : fplain ev 0 [] (repeat FExt n ++ FAddC 0 r :: gs) = (ws ++ [y]) ++ t).
  { rewrite fplain_app, fplain_ext. cbn [app fplain]. fold ws. fold y. apply H3. }
  rewrite W. split; [exact H4|]. split.
  - rewrite H5. rewrite Ey.
    rewrite (P_cat n (fun i => i) r ev H64 ws [y] 1 (n - 1)) by (try (intros; rewrite Lw; assumption); lia).
    transitivity (P (fun i => i) r ws 0 (S (n - 1))).
    + rewrite P_S. unfold y. now rewrite (N.lxor_comm r).
    + unfold P. replace (S (n - 1)) with n by lia. f_equal. apply map_ext_in. intros j Hj. apply in_seq in Hj. apply Vw. lia.
  - assert (A : forall a b, count_mul (a ++ b) = count_mul a + count_mul b) by (clear; induction a as [|[] a IH]; intro b; cbn [app count_mul]; rewrite ?IH; reflexivity).
    rewrite A. assert (Z : forall k, count_mul (repeat FExt k) = 0) by (clear; induction k; cbn [repeat count_mul]; auto). rewrite Z. exact H6.
Qed.
Lemma helper_small h acc_last n r : n < least h -> helper_circuit h acc_last n r = None.
Proof. intro H. destruct n as [|[|n]]; [now destruct h| |destruct h; cbn [least] in H; lia]. destruct h; cbn [least] in H; [lia|lia|reflexivity]. Qed.
