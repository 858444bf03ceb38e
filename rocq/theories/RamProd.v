(** The product circuit of the set-equality test and its verification. *)
From Coq Require Import NArith List Bool Arith Permutation Lia Ring.
From Verif Require Import Word WordProofs GF128 GF128Ring GF128Field ListUtil PolyRoots GfmulModel BoolModel BoolSpec F2kModel F2kSpec F2kAlg F2kProofs F2kSim F2kThms RamModel RamSpec RamAlg.
Import ListNotations.
Ltac Zify.zify_post_hook ::= idtac.

(** ** plain evaluation *)
Fixpoint count_ext (c : list fgate) : nat := match c with [] => 0 | FExt :: c' => S (count_ext c') | _ :: c' => count_ext c' end.
Lemma fplain_app ev c1 : forall e ws c2, fplain ev e ws (c1 ++ c2) = fplain ev (e + count_ext c1) (fplain ev e ws c1) c2.
Proof.
  induction c1 as [|g c1 IH]; intros e ws c2; cbn [app fplain count_ext]; [now rewrite Nat.add_0_r|].
  destruct g; rewrite IH; try reflexivity. now rewrite Nat.add_succ_comm.
Qed.
Lemma fplain_ext ev k : forall e ws, fplain ev e ws (repeat FExt k) = ws ++ map ev (seq e k).
Proof.
  induction k as [|k IH]; intros e ws; cbn [repeat fplain seq map]; [now rewrite app_nil_r|].
  rewrite IH, <- app_assoc. reflexivity.
Qed.
Lemma count_ext_repeat k : count_ext (repeat FExt k) = k.
Proof. induction k as [|k IH]; cbn [repeat count_ext]; [reflexivity|now rewrite IH]. Qed.
Lemma fval_app1 ws v i : i < length ws -> fval (ws ++ v) i = fval ws i.
Proof. intro H. unfold fval. now apply app_nth1. Qed.
Lemma fval_at ws v t : fval (ws ++ v :: t) (length ws) = v.
Proof. unfold fval. rewrite app_nth2, Nat.sub_diag by lia. reflexivity. Qed.
Lemma fval_plus ws t k : fval (ws ++ t) (length ws + k) = fval t k.
Proof. unfold fval. rewrite app_nth2 by lia. f_equal. lia. Qed.
Lemma fval_lastn ws v : fval (ws ++ [v]) (length ws) = v. Proof. apply fval_at. Qed.

Lemma gfmul_rot a b c d e : gfmul (gfmul (gfmul (gfmul a b) c) d) e = gfmul a (gfmul b (gfmul c (gfmul d e))).
Proof. now rewrite !gfmul_assoc. Qed.

Lemma u64_small n : 3 <= n -> (N.of_nat n < 2 ^ 64)%N -> u64_sub (N.of_nat n) 3 = N.of_nat (n - 3).
Proof.
  intros H1 H2. unfold u64_sub. replace (N.of_nat n + 2 ^ 64 - 3)%N with (N.of_nat (n - 3) + 1 * 2 ^ 64)%N.
  - rewrite N.mod_add by discriminate. apply N.mod_small. lia.
  - rewrite N.mul_1_l. change (2 ^ 64)%N with 18446744073709551616%N. lia.
Qed.
Section Prod.
  Variables (acc_last : bool) (n : nat) (x : nat -> nat) (r : N) (ev : nat -> N).
  (** product of elements i, i+1, .. of [ws] *)
  Definition P (ws : list N) (i m : nat) : N := shifted_product r (map (fun j => fval ws (x j)) (seq i m)).
  Lemma P_ext ws t i m : (forall j, j < i + m -> x j < length ws) -> P (ws ++ t) i m = P ws i m.
  Proof.
    intro H. unfold P. f_equal. apply map_ext_in. intros j Hj. apply in_seq in Hj. apply fval_app1. apply H. lia.
  Qed.
  Lemma P_S ws i m : P ws i (S m) = gfmul (N.lxor r (fval ws (x i))) (P ws (S i) m).
  Proof. reflexivity. Qed.
  Lemma P_lt ws i m : (P ws i m < 2 ^ 128)%N. Proof. apply sprod_lt. Qed.
  Lemma tail_ok fuel : forall i acc ws, n <= i + fuel -> i <= n ->
    (forall j, j < n -> x j < length ws) -> acc < length ws -> (fval ws acc < 2 ^ 128)%N ->
    exists gs a t, prod_tail n x r fuel i acc (length ws) = Some (gs, a, length ws + length t) /\ count_ext gs = 0 /\
      (forall e, fplain ev e ws gs = ws ++ t) /\ a < length (ws ++ t) /\
      fval (ws ++ t) a = gfmul (fval ws acc) (P ws i (n - i)) /\ count_mul gs = n - i /\
      (forall g, In g gs -> (exists i c, g = FAddC i c) \/ (exists i j, g = FMul i j)).
  Proof.
    induction fuel as [|fuel IH]; intros i acc ws Hf Hi Hx Ha Hb; cbn [prod_tail].
    - rewrite (proj2 (Nat.ltb_ge _ _)) by lia. exists [], acc, []. rewrite app_nil_r. cbn [length]. rewrite Nat.add_0_r.
      replace (n - i) with 0 by lia. repeat split; auto; [|intros g []].
      unfold P. cbn [seq map]. unfold shifted_product. cbn [map fold_right]. now rewrite gfmul_comm, gfmul_1_l.
    - destruct (Nat.ltb_spec i n) as [Hlt|Hge].
      + set (y := N.lxor (fval ws (x i)) r). set (z := gfmul (fval ws acc) y).
        assert (E : forall t, (ws ++ [y; z]) ++ t = ws ++ [y; z] ++ t) by (intro; now rewrite <- app_assoc).
        destruct (IH (i + 1) (length ws + 1) (ws ++ [y; z])) as [gs [a [t [H1 [H2 [H3 [H4 [H5 [H6 H7]]]]]]]]]; try lia.
        * intros j Hj. specialize (Hx j Hj). rewrite app_length. cbn. lia.
        * rewrite app_length. cbn. lia.
        * rewrite fval_plus. unfold fval. cbn [nth]. apply gfmul_lt.
        * rewrite app_length in H1. cbn [length] in H1. replace (length ws + 2) with (length ws + 2) by lia. rewrite H1.
          exists (FAddC (x i) r :: FMul acc (length ws) :: gs), a, ([y; z] ++ t). split; [f_equal; f_equal; rewrite app_length; cbn [length]; lia|].
          split; [cbn [count_ext]; exact H2|]. split.
          { intro e. cbn [fplain]. fold y. rewrite fval_lastn, fval_app1 by assumption. fold z.
            rewrite <- app_assoc. cbn [app]. rewrite H3. apply E. }
          rewrite <- E. split; [exact H4|]. split; [|split].
          { rewrite H5, fval_plus. unfold fval at 1. cbn [nth]. unfold z. rewrite gfmul_assoc. f_equal.
            rewrite P_ext by (intros j Hj; apply Hx; lia). replace (n - i) with (S (n - (i + 1))) by lia. rewrite P_S.
            unfold y. rewrite (N.lxor_comm r). now replace (i + 1) with (S i) by lia. }
          { cbn [count_mul]. lia. }
          { intros g [<-|[<-|Hg]]; eauto. }
      + exists [], acc, []. rewrite app_nil_r. cbn [length]. rewrite Nat.add_0_r.
        replace (n - i) with 0 by lia. repeat split; auto; [|intros g []].
        unfold P. cbn [seq map]. unfold shifted_product. cbn [map fold_right]. now rewrite gfmul_comm, gfmul_1_l.
  Qed.
  Hypothesis Hn : 3 <= n.
  Hypothesis Hn64 : (N.of_nat n < 2 ^ 64)%N.
  Lemma loop_ok fuel : forall i acc ws, n <= i + fuel -> 1 <= i -> i <= n ->
    (forall j, j < n -> x j < length ws) -> acc < length ws -> (fval ws acc < 2 ^ 128)%N ->
    exists gs a t, prod_loop acc_last n x r fuel i acc (length ws) = Some (gs, a, length ws + length t) /\ count_ext gs = 0 /\
      (forall e, fplain ev e ws gs = ws ++ t) /\ a < length (ws ++ t) /\
      fval (ws ++ t) a = gfmul (fval ws acc) (P ws i (n - i)) /\ count_mul gs = (n - i) mod 4 /\
      (forall g, In g gs -> (exists i c, g = FAddC i c) \/ (exists i j, g = FMul i j) \/ (exists i j k l m, g = FMul5 i j k l m)).
  Proof.
    induction fuel as [|fuel IH]; intros i acc ws Hf H1i Hi Hx Ha Hb; cbn [prod_loop]; rewrite u64_small by assumption.
    - rewrite (proj2 (N.ltb_ge _ _)) by lia. replace i with n in * by lia.
      destruct (tail_ok n n acc ws) as [gs [a [t [H1 [H2 [H3 [H4 [H5 [H6 H7]]]]]]]]]; try lia; auto.
      exists gs, a, t. replace (n - n) with 0 in * by lia. repeat split; auto. intros g Hg. destruct (H7 g Hg); auto.
    - destruct (N.ltb_spec (N.of_nat i) (N.of_nat (n - 3))) as [Hlt|Hge].
      + rewrite (proj2 (Nat.leb_gt _ _)) by lia.
        set (y k := N.lxor (fval ws (x (i + k))) r).
        set (z := if acc_last then prod5 (y 0) (y 1) (y 2) (y 3) (fval ws acc) else prod5 (fval ws acc) (y 0) (y 1) (y 2) (y 3)).
        set (new := [y 0; y 1; y 2; y 3; z]).
        assert (Ez : z = gfmul (fval ws acc) (gfmul (y 0) (gfmul (y 1) (gfmul (y 2) (y 3))))).
        { unfold z, prod5, prod4, prod3. destruct acc_last; [rewrite (gfmul_comm _ (fval ws acc)); f_equal; now rewrite !gfmul_assoc|apply gfmul_rot]. }
        assert (E : forall t, (ws ++ new) ++ t = ws ++ new ++ t) by (intro; now rewrite <- app_assoc).
        destruct (IH (i + 4) (length ws + 4) (ws ++ new)) as [gs [a [t [H1 [H2 [H3 [H4 [H5 [H6 H7]]]]]]]]]; try lia.
        * intros j Hj. specialize (Hx j Hj). rewrite app_length. lia.
        * rewrite app_length. cbn. lia.
        * rewrite fval_plus. unfold fval, new. cbn [nth]. rewrite Ez. apply gfmul_lt.
        * rewrite app_length in H1. change (length new) with 5 in H1. rewrite H1.
          exists ([FAddC (x i) r; FAddC (x (i + 1)) r; FAddC (x (i + 2)) r; FAddC (x (i + 3)) r;
                   if acc_last then FMul5 (length ws) (length ws + 1) (length ws + 2) (length ws + 3) acc
                   else FMul5 acc (length ws) (length ws + 1) (length ws + 2) (length ws + 3)] ++ gs), a, (new ++ t).
          split; [f_equal; f_equal; rewrite app_length; change (length new) with 5; lia|].
          split; [rewrite <- H2; now destruct acc_last|]. split.
          { intro e. rewrite fplain_app.
            assert (F : fplain ev e ws [FAddC (x i) r; FAddC (x (i + 1)) r; FAddC (x (i + 2)) r; FAddC (x (i + 3)) r;
                   if acc_last then FMul5 (length ws) (length ws + 1) (length ws + 2) (length ws + 3) acc
                   else FMul5 acc (length ws) (length ws + 1) (length ws + 2) (length ws + 3)] = ws ++ new).
            { assert (X : forall k, k < 4 -> x (i + k) < length ws) by (intros k Hk; apply Hx; lia).
              pose proof (X 0 ltac:(lia)) as X0. rewrite Nat.add_0_r in X0.
              pose proof (X 1 ltac:(lia)) as X1. pose proof (X 2 ltac:(lia)) as X2. pose proof (X 3 ltac:(lia)) as X3.
              assert (L0 : forall l, fval (ws ++ l) (length ws) = fval l 0) by (intro l; rewrite <- (fval_plus ws l 0); f_equal; lia).
              destruct acc_last; cbn [fplain]; rewrite <- !app_assoc; cbn [app];
              rewrite ?(fval_app1 ws _ (x (i + 1))), ?(fval_app1 ws _ (x (i + 2))), ?(fval_app1 ws _ (x (i + 3))), ?(fval_app1 ws _ acc), ?fval_plus, ?L0 by assumption;
              unfold new, z, y; rewrite Nat.add_0_r; reflexivity. }
            rewrite F, H3. apply E. }
          rewrite <- E. split; [exact H4|]. split; [|split].
          { rewrite H5, fval_plus. unfold fval at 1. cbn [nth new]. rewrite Ez, gfmul_assoc. f_equal.
            rewrite P_ext by (intros j Hj; apply Hx; lia). replace (n - i) with (S (S (S (S (n - (i + 4)))))) by lia. rewrite !P_S.
            unfold y. rewrite !(N.lxor_comm r), !gfmul_assoc, Nat.add_0_r.
            replace (S i) with (i + 1) by lia. replace (S (i + 1)) with (i + 2) by lia. replace (S (i + 2)) with (i + 3) by lia. replace (S (i + 3)) with (i + 4) by lia. reflexivity. }
          { transitivity (count_mul gs); [now destruct acc_last|]. rewrite H6. replace (n - i) with ((n - (i + 4)) + 1 * 4) by lia. now rewrite Nat.mod_add by lia. }
          { intros g Hg. apply in_app_or in Hg. destruct Hg as [Hg|Hg]; [|now apply H7].
            cbn [In] in Hg. destruct Hg as [<-|[<-|[<-|[<-|[<-|[]]]]]]; [left; eauto..|]. right. right. destruct acc_last; eauto 6. }
      + destruct (tail_ok n i acc ws) as [gs [a [t [H1 [H2 [H3 [H4 [H5 [H6 H7]]]]]]]]]; try lia; auto.
        exists gs, a, t. repeat split; auto.
        * rewrite H6. symmetry. apply Nat.mod_small. lia.
        * intros g Hg. destruct (H7 g Hg); auto.
  Qed.
  Lemma bch4_ok ws : (r < 2 ^ 128)%N -> (forall j, j < n -> x j < length ws /\ (fval ws (x j) < 2 ^ 128)%N) ->
    exists gs a t, prod_bch4 acc_last n x r (length ws) = Some (gs, a, length ws + length t) /\ count_ext gs = 0 /\
      (forall e, fplain ev e ws gs = ws ++ t) /\ a < length (ws ++ t) /\
      fval (ws ++ t) a = P ws 0 n /\ count_mul gs = (n - 1) mod 4 /\
      (forall g, In g gs -> (exists i c, g = FAddC i c) \/ (exists i j, g = FMul i j) \/ (exists i j k l m, g = FMul5 i j k l m)).
  Proof.
    intros Hr Hx. unfold prod_bch4. rewrite (proj2 (Nat.eqb_neq _ _)) by lia.
    set (y := N.lxor (fval ws (x 0)) r).
    assert (Hy : (y < 2 ^ 128)%N) by (apply lxor_lt; [apply Hx; lia|assumption]).
    destruct (loop_ok n 1 (length ws) (ws ++ [y])) as [gs [a [t [H1 [H2 [H3 [H4 [H5 [H6 H7]]]]]]]]]; try lia.
    - intros j Hj. destruct (Hx j Hj). rewrite app_length. lia.
    - rewrite app_length. cbn. lia.
    - now rewrite fval_lastn.
    - rewrite app_length in H1. cbn [length] in H1. rewrite H1.
      exists (FAddC (x 0) r :: gs), a, (y :: t). split; [f_equal; f_equal; cbn [length]; lia|].
      split; [exact H2|]. split.
      { intro e. cbn [fplain]. fold y. rewrite H3, <- app_assoc. reflexivity. }
      change (y :: t) with ([y] ++ t). rewrite app_assoc. split; [exact H4|]. split; [|split].
      { rewrite H5, fval_lastn. rewrite P_ext by (intros j Hj; apply Hx; lia).
        replace n with (S (n - 1)) at 2 by lia. rewrite P_S. unfold y. now rewrite (N.lxor_comm r). }
      { exact H6. }
      { intros g [<-|Hg]; [left; eauto|now apply H7]. }
  Qed.
End Prod.
Lemma seteq_circuit_ok acc_last n r ev : 3 <= n -> (N.of_nat n < 2 ^ 64)%N -> (r < 2 ^ 128)%N -> (forall i, i < 2 * n -> (ev i < 2 ^ 128)%N) ->
  exists c a0 a1, seteq_circuit acc_last n r = Some (c, a0, a1) /\
    let ws := fplain ev 0 [] c in
    a0 < length ws /\ a1 < length ws /\
    fval ws a0 = shifted_product r (map ev (seq 0 n)) /\ fval ws a1 = shifted_product r (map ev (seq n n)) /\
    count_mul c = 2 * ((n - 1) mod 4) /\
    (forall g, In g c -> g = FExt \/ (exists i c, g = FAddC i c) \/ (exists i j, g = FMul i j) \/ (exists i j k l m, g = FMul5 i j k l m)).
Proof.
  intros Hn H64 Hr Hev. unfold seteq_circuit.
  set (ws := map ev (seq 0 (2 * n))). assert (Lw : length ws = 2 * n) by (unfold ws; now rewrite map_length, seq_length).
  assert (Vw : forall j, j < 2 * n -> fval ws j = ev j).
  { intros j Hj. unfold fval, ws. rewrite (nth_indep _ 0%N (ev 0)) by (rewrite map_length, seq_length; lia). rewrite map_nth, seq_nth by lia. reflexivity. }
  destruct (bch4_ok acc_last n (fun i => i) r ev Hn H64 ws Hr) as [g0 [a0 [t0 [H1 [H2 [H3 [H4 [H5 [H6 H7]]]]]]]]].
  { intros j Hj. split; [lia|]. rewrite Vw by lia. apply Hev. lia. }
  rewrite Lw in H1. rewrite H1.
  destruct (bch4_ok acc_last n (fun i => n + i) r ev Hn H64 (ws ++ t0) Hr) as [g1 [a1 [t1 [K1 [K2 [K3 [K4 [K5 [K6 K7]]]]]]]]].
  { intros j Hj. split; [rewrite app_length; lia|]. rewrite fval_app1 by lia. rewrite Vw by lia. apply Hev. lia. }
  rewrite app_length, Lw in K1. rewrite K1. exists (repeat FExt (2 * n) ++ g0 ++ g1), a0, a1. split; [reflexivity|].
  assert (W : fplain ev 0 [] (repeat FExt (2 * n) ++ g0 ++ g1) = (ws ++ t0) ++ t1).
  { rewrite fplain_app, fplain_ext. cbn [app]. fold ws. now rewrite fplain_app, H3, K3. }
  cbv zeta. rewrite W. split; [rewrite (app_length (ws ++ t0)); lia|]. split; [exact K4|]. split; [|split; [|split]].
  - rewrite fval_app1 by assumption. rewrite H5. unfold P. f_equal. apply map_ext_in. intros j Hj. apply in_seq in Hj. apply Vw. lia.
  - rewrite K5. unfold P. f_equal. replace (seq n n) with (map (fun i => n + i) (seq 0 n)) by (rewrite seq_offset; f_equal; lia).
    rewrite map_map. apply map_ext_in. intros j Hj. apply in_seq in Hj. rewrite fval_app1 by lia. apply Vw. lia.
  - assert (A : forall a b, count_mul (a ++ b) = count_mul a + count_mul b) by (clear; induction a as [|[] a IH]; intro b; cbn [app count_mul]; rewrite ?IH; reflexivity).
    rewrite !A, H6, K6. assert (Z : forall k, count_mul (repeat FExt k) = 0) by (clear; induction k; cbn [repeat count_mul]; auto). rewrite Z. lia.
  - intros g Hg. apply in_app_or in Hg. destruct Hg as [Hg|Hg]; [left; now apply repeat_spec in Hg|]. right.
    apply in_app_or in Hg. destruct Hg; [now apply H7|now apply K7].
Qed.
(** the underflowing bound *)
Lemma seteq_small acc_last n r : n < 3 -> seteq_circuit acc_last n r = None.
Proof. intro H. destruct n as [|[|[|n]]]; [reflexivity| | |lia]; unfold seteq_circuit, prod_bch4; cbn [Nat.eqb prod_loop]; reflexivity. Qed.
