From Coq Require Import NArith ZArith Lia List Bool Arith.
From Verif Require Import Word FpModel WordProofs FpProofs TreeModel TreeProofs VoleModel ArithSpec VoleSpec.
Import ListNotations.
Local Open Scope nat_scope.
Ltac Zify.zify_post_hook ::= idtac.

Lemma nsum_cons a l : nsum (a :: l) = (a + nsum l)%N. Proof. reflexivity. Qed.
Lemma nsum_app a b : nsum (a ++ b) = (nsum a + nsum b)%N.
Proof. induction a; cbn [app nsum]; [reflexivity|]. rewrite IHa. lia. Qed.

(** * k_mask *)
Lemma kmask_loop_ok f : forall h k, (1 <= k)%N -> (k < 2 ^ 31)%N -> (2 ^ h <= 2 * k)%N -> (k <= 2 ^ (h + N.of_nat f) - 1)%N ->
  exists h', kmask_loop f k (2 ^ h - 1) = (2 ^ h' - 1)%N /\ (k <= 2 ^ h' - 1)%N /\ (2 ^ h' <= 2 * k)%N.
Proof.
  induction f as [|f IH]; intros h k H1 H2 H3 H4; cbn [kmask_loop].
  - exists h. rewrite N.add_0_r in H4. auto.
  - assert (0 < 2 ^ h)%N by (apply N.neq_0_lt_0, N.pow_nonzero; discriminate).
    destruct (N.ltb_spec (2 ^ h - 1) k).
    + assert (E : (2 ^ (N.succ h) = 2 * 2 ^ h)%N) by apply N.pow_succ_r'.
      replace (N.lor ((2 * (2 ^ h - 1)) mod 2 ^ 32) 1)%N with (2 ^ (N.succ h) - 1)%N.
      * apply IH; auto; [lia|]. replace (N.succ h + N.of_nat f)%N with (h + N.of_nat (S f))%N by lia. easy.
      * rewrite N.mod_small by (change (2 ^ 32)%N with (2 * 2 ^ 31)%N; lia).
        rewrite E. replace (2 * 2 ^ h - 1)%N with (2 * (2 ^ h - 1) + 1)%N by lia. generalize (2 ^ h - 1)%N. now intros [|p].
    + exists h. auto.
Qed.
Lemma k_mask_ok k : 1 <= k -> (N.of_nat k < 2 ^ 31)%N ->
  exists h, k_mask k = N.ones h /\ (N.of_nat k <= 2 ^ h - 1)%N /\ (2 ^ h <= 2 * N.of_nat k)%N.
Proof.
  intros H1 H2. unfold k_mask. change 1%N with (2 ^ 1 - 1)%N at 1.
  change (2 ^ 31)%N with 2147483648%N in H2.
  destruct (kmask_loop_ok 32 1 (N.of_nat k)) as [h [E [A B]]].
  - lia.
  - exact H2.
  - change (2 ^ 1)%N with 2%N. lia.
  - change (2 ^ (1 + N.of_nat 32) - 1)%N with 8589934591%N. lia.
  - exists h. rewrite N.ones_equiv, N.pred_sub. auto.
Qed.
Section L.
  Variables (word : nat -> nat -> N) (k n threads : nat).
  Hypothesis Hk : 1 <= k.
  Hypothesis Hk31 : (N.of_nat k < 2 ^ 31)%N.
  Lemma lpn_idx_lt i w : lpn_idx word k i w < k.
  Proof.
    unfold lpn_idx. destruct (k_mask_ok k Hk Hk31) as [h [-> [_ B]]]. rewrite N.land_ones.
    pose proof (N.mod_lt (word i w) (2 ^ h) ltac:(apply N.pow_nonzero; discriminate)) as M.
    destruct (Nat.leb_spec k (N.to_nat (word i w mod 2 ^ h))); lia.
  Qed.
  (** * sums without overflow *)
  Definition call (l : list N) : Prop := Forall canon l.
  Lemma call_sum l c : call l -> length l = c -> (nsum l <= N.of_nat c * (PR - 1))%N.
  Proof.
    intros H <-. induction H as [|x l Hx Hl IH]; [reflexivity|]. cbn [nsum length]. unfold canon in Hx. change prm with PR in Hx.
    rewrite Nat2N.inj_succ. revert IH Hx. generalize (nsum l) (N.of_nat (length l)). unfold PR. intros. lia.
  Qed.
  Lemma sum64_ok l : forall acc, (acc + nsum l < W64)%N -> sum64 acc l = (acc + nsum l)%N.
  Proof.
    unfold sum64. induction l as [|x l IH]; intros acc H; cbn [fold_left nsum] in *; [lia|].
    rewrite add64_small by lia. rewrite IH by lia. lia.
  Qed.
  Lemma vsum_ok l : forall h m, Forall block_ok l -> (h + nsum (map xval l) < W64)%N -> (m + nsum (map mval l) < W64)%N ->
    vsum (mkblock h m) l = mkblock (h + nsum (map xval l)) (m + nsum (map mval l)).
  Proof.
    unfold vsum. induction l as [|x l IH]; intros h m F H1 H2; cbn [fold_left nsum map] in *; [now rewrite !N.add_0_r|].
    inversion_clear F. rewrite <- (mkblock_eta x) at 1. unfold mm_add_epi64.
    rewrite lanes2_mk by (try apply lo64_lt; lia).
    change (xval x) with (hi64 x) in *. change (mval x) with (lo64 x) in *.
    rewrite !add64_small by lia. rewrite IH by (auto; lia). f_equal; lia.
  Qed.
  Lemma canon_lo x : canon x -> lo64 x = x.
  Proof. unfold canon, prm, lo64. intro. apply N.mod_small. unfold W64. change (2^61-1)%N with 2305843009213693951%N in H. lia. Qed.
  Lemma map_lo pre e : (forall x, x < k -> canon (pre x)) -> (forall x, In x e -> x < k) -> map (fun x => lo64 (pre x)) e = map pre e.
  Proof. intros H H2. apply map_ext_in. intros x Hx. apply canon_lo. auto. Qed.
  Lemma call_map (f : nat -> N) e : (forall x, x < k -> canon (f x)) -> (forall x, In x e -> x < k) -> call (map f e).
  Proof. intros H H2. apply Forall_map, Forall_forall. auto. Qed.
  Lemma in_firstn {A} c : forall (e : list A) x, In x (firstn c e) -> In x e.
  Proof. intros. rewrite <- (firstn_skipn c e). apply in_or_app. now left. Qed.
  Lemma in_skipn {A} c : forall (e : list A) x, In x (skipn c e) -> In x e.
  Proof. intros. rewrite <- (firstn_skipn c e). apply in_or_app. now right. Qed.
  Lemma split5 (f : nat -> N) e : length e = 10 -> (forall x, x < k -> canon (f x)) -> (forall x, In x e -> x < k) ->
    (nsum (map f (firstn 5 e)) <= 5 * (PR - 1) /\ nsum (map f (skipn 5 e)) <= 5 * (PR - 1) /\
     nsum (map f e) = nsum (map f (firstn 5 e)) + nsum (map f (skipn 5 e)))%N.
  Proof.
    intros H1 H2 H3. repeat split.
    - apply (call_sum _ 5); [apply call_map; auto; intros; eapply H3, in_firstn; eauto|]. rewrite map_length, firstn_length. lia.
    - apply (call_sum _ 5); [apply call_map; auto; intros; eapply H3, in_skipn; eauto|]. rewrite map_length, skipn_length. lia.
    - rewrite <- nsum_app, <- map_app, firstn_skipn. reflexivity.
  Qed.
  Lemma two_mods a b : ((a mod PR + b) mod PR = (a + b) mod PR)%N.
  Proof. apply N.add_mod_idemp_l. discriminate. Qed.
  Lemma canon_PR x : canon x -> (x < PR)%N. Proof. unfold canon. now change prm with PR. Qed.
  Lemma bnd6 a s : (a < PR -> s <= 5 * (PR - 1) -> a + s < W64)%N.
  Proof. unfold PR, W64. lia. Qed.
  Lemma canon_mod x : canon (x mod PR). Proof. apply mod_PR_lt. Qed.

  Definition upd1 (pre : mem) (a : N) (e : list nat) : N := ((a + nsum (map pre e)) mod PR)%N.
  Lemma add1_single_ok pre K i e : length e = 10 -> (forall x, x < k -> canon (pre x)) -> (forall x, In x e -> x < k) -> canon (K i) ->
    add1_single pre K i e = mset K i (upd1 pre (K i) e).
  Proof.
    intros H1 H2 H3 Hc. unfold add1_single, upd1. destruct (split5 pre e H1 H2 H3) as [A [B ->]].
    rewrite !map_lo by (auto; intros; eauto using in_firstn, in_skipn).
    rewrite canon_lo by easy. rewrite (sum64_ok _ (K i)) by (apply bnd6; auto).
    rewrite (mod1_correct (K i + _)) by (apply bnd6; auto). rewrite sum64_ok by (apply bnd6; auto; apply canon_mod).
    rewrite mod1_correct by (apply bnd6; auto; apply canon_mod). now rewrite two_mods, N.add_assoc.
  Qed.
  Lemma add1_lane_ok pre K i e : length e = 10 -> (forall x, x < k -> canon (pre x)) -> (forall x, In x e -> x < k) -> canon (K i) ->
    add1_lane pre K i e = mset K i (upd1 pre (K i) e).
  Proof.
    intros H1 H2 H3 Hc. unfold add1_lane, upd1. destruct (split5 pre e H1 H2 H3) as [A [B ->]].
    rewrite !map_lo by (auto; intros; eauto using in_firstn, in_skipn).
    set (s1 := nsum (map pre (firstn 5 e))) in *. set (s2 := nsum (map pre (skipn 5 e))) in *.
    rewrite (sum64_ok _ 0) by (fold s1; clear - A; unfold PR, W64 in *; lia). fold s1.
    rewrite (mod1_correct (0 + s1)) by (clear - A; unfold PR, W64 in *; lia). rewrite N.add_0_l.
    pose proof (mod_PR_lt s1). rewrite sum64_ok by (apply bnd6; auto). fold s2.
    assert (K i + (s1 mod PR + s2) < W64)%N by (clear - B Hc H; unfold canon in Hc; change prm with PR in Hc; unfold PR, W64 in *; lia).
    rewrite add128_small by (pose proof (eq_refl : (W64 <? W128)%N = true) as X; apply N.ltb_lt in X; lia).
    unfold lo64. rewrite N.mod_small by easy. rewrite mod1_correct by easy. f_equal.
    rewrite (N.add_comm (K i)), <- N.add_assoc, two_mods. f_equal. lia.
  Qed.
  Definition upd2 (pre : mem) (b : N) (e : list nat) : N :=
    mkblock (upd1 (fun x => xval (pre x)) (xval b) e) (upd1 (fun x => mval (pre x)) (mval b) e).
  Lemma vec_mod_ok h l : (h < W64)%N -> (l < W64)%N -> vec_mod (mkblock h l) = mkblock (h mod PR) (l mod PR).
  Proof. intros. rewrite vec_mod_mk by easy. reflexivity. Qed.
  Lemma add2_ok pre M i e : length e = 10 -> (forall x, x < k -> block_ok (pre x)) -> (forall x, In x e -> x < k) -> block_ok (M i) ->
    add2_any pre M i e = mset M i (upd2 pre (M i) e).
  Proof.
    intros H1 H2 H3 [Hc Hm]. unfold add2_any, upd2, upd1.
    destruct (split5 (fun x => xval (pre x)) e H1 (fun x Hx => proj1 (H2 x Hx)) H3) as [A [B ->]].
    destruct (split5 (fun x => mval (pre x)) e H1 (fun x Hx => proj2 (H2 x Hx)) H3) as [A' [B' ->]].
    assert (F : forall l, (forall x, In x l -> In x e) -> Forall block_ok (map pre l)) by (intros; apply Forall_map, Forall_forall; auto).
    set (ax := nsum (map (fun x => xval (pre x)) (firstn 5 e))) in *. set (bx := nsum (map (fun x => xval (pre x)) (skipn 5 e))) in *.
    set (am := nsum (map (fun x => mval (pre x)) (firstn 5 e))) in *. set (bm := nsum (map (fun x => mval (pre x)) (skipn 5 e))) in *.
    assert (Q1 : (xval (M i) + ax < W64)%N) by (apply bnd6; [now apply canon_PR|assumption]).
    assert (Q2 : (mval (M i) + am < W64)%N) by (apply bnd6; [now apply canon_PR|assumption]).
    assert (Q3 : ((xval (M i) + ax) mod PR + bx < W64)%N) by (apply bnd6; [apply mod_PR_lt|assumption]).
    assert (Q4 : ((mval (M i) + am) mod PR + bm < W64)%N) by (apply bnd6; [apply mod_PR_lt|assumption]).
    pose proof (vsum_ok (map pre (firstn 5 e)) (xval (M i)) (mval (M i)) (F _ (in_firstn 5 e))) as V1.
    rewrite !map_map in V1. fold ax am in V1. specialize (V1 Q1 Q2).
    replace (mkblock (xval (M i)) (mval (M i))) with (M i) in V1 by (symmetry; apply mkblock_eta).
    rewrite V1, vec_mod_ok by assumption.
    pose proof (vsum_ok (map pre (skipn 5 e)) ((xval (M i) + ax) mod PR) ((mval (M i) + am) mod PR) (F _ (in_skipn 5 e))) as V2.
    rewrite !map_map in V2. fold bx bm in V2. specialize (V2 Q3 Q4).
    rewrite V2, vec_mod_ok by assumption.
    now rewrite !two_mods, !N.add_assoc.
  Qed.
  Lemma upd1_canon pre a e : canon (upd1 pre a e). Proof. apply canon_mod. Qed.
  Lemma mk_xval h l : canon l -> xval (mkblock h l) = h.
  Proof. intro H. apply hi64_mk. unfold canon, prm in H. change (2^61-1)%N with 2305843009213693951%N in H. unfold W64. lia. Qed.
  Lemma mk_mval h l : canon l -> mval (mkblock h l) = l.
  Proof. intro H. apply lo64_mk. unfold canon, prm in H. change (2^61-1)%N with 2305843009213693951%N in H. unfold W64. lia. Qed.
  Lemma upd2_ok pre b e : block_ok (upd2 pre b e).
  Proof. unfold upd2. split; [rewrite mk_xval|rewrite mk_mval]; apply upd1_canon. Qed.

  (** * positions *)
  Definition upd (party1 : bool) := if party1 then upd1 else upd2.
  Definition okv (party1 : bool) := if party1 then canon else block_ok.
  Lemma upd_ok party1 pre a e : okv party1 (upd party1 pre a e).
  Proof. destruct party1; [apply upd1_canon|apply upd2_ok]. Qed.
  Lemma upd1_nil pre a : canon a -> upd1 pre a [] = a.
  Proof. intro H. unfold upd1. cbn [map nsum]. rewrite N.add_0_r. apply N.mod_small. now apply canon_PR. Qed.
  Lemma upd_nil party1 pre a : okv party1 a -> upd party1 pre a [] = a.
  Proof.
    destruct party1; [apply upd1_nil|]. intros [H1 H2]. cbn [upd]. unfold upd2. rewrite !upd1_nil by easy. apply mkblock_eta.
  Qed.
  Lemma upd1_app pre a e1 e2 : upd1 pre (upd1 pre a e1) e2 = upd1 pre a (e1 ++ e2).
  Proof. unfold upd1. now rewrite two_mods, map_app, nsum_app, N.add_assoc. Qed.
  Lemma upd_app party1 pre a e1 e2 : upd party1 pre (upd party1 pre a e1) e2 = upd party1 pre a (e1 ++ e2).
  Proof.
    destruct party1; [apply upd1_app|]. cbn [upd]. unfold upd2. rewrite mk_xval, mk_mval by apply upd1_canon. now rewrite !upd1_app.
  Qed.
  Definition good (e : list nat) : Prop := forall x, In x e -> x < k.
  Lemma edges4_good i l : length (edges4 word k i l) = 10 /\ good (edges4 word k i l).
  Proof.
    split; [unfold edges4; now rewrite map_length, seq_length|]. intros x Hx. apply in_map_iff in Hx as [w [<- _]]. apply lpn_idx_lt.
  Qed.
  Lemma edges1_good i : length (edges1 word k i) = 10 /\ good (edges1 word k i).
  Proof.
    split; [unfold edges1; now rewrite map_length, seq_length|]. intros x Hx. apply in_map_iff in Hx as [w [<- _]]. apply lpn_idx_lt.
  Qed.
  Lemma compute1_ok party1 pre V i : (forall x, x < k -> okv party1 (pre x)) -> okv party1 (V i) ->
    compute1 word k party1 pre V i = mset V i (upd party1 pre (V i) (edges1 word k i)).
  Proof.
    intros H1 H2. unfold compute1. destruct (edges1_good i). destruct party1; [apply add1_single_ok|apply add2_ok]; auto.
  Qed.
  Lemma lanes_ok party1 pre i ls : (forall x, x < k -> okv party1 (pre x)) -> NoDup ls -> forall V,
    (forall l, In l ls -> okv party1 (V (i + l))) ->
    forall p, fold_left (fun V l => (if party1 then add1_lane else add2_any) pre V (i + l) (edges4 word k i l)) ls V p =
      if (i <=? p) && (existsb (Nat.eqb (p - i)) ls) then upd party1 pre (V p) (edges4 word k i (p - i)) else V p.
  Proof.
    intros H1. induction ls as [|l ls IH]; intros D V H2 p; cbn [fold_left existsb].
    - now rewrite andb_false_r.
    - inversion_clear D.
      assert (S : (if party1 then add1_lane else add2_any) pre V (i + l) (edges4 word k i l) =
                  mset V (i + l) (upd party1 pre (V (i + l)) (edges4 word k i l))).
      { destruct (edges4_good i l). pose proof (H2 l (or_introl eq_refl)) as X. destruct party1; [apply add1_lane_ok|apply add2_ok]; auto. }
      rewrite S, IH; auto.
      + destruct (Nat.eq_dec p (i + l)) as [->|Ne].
        * rewrite mset_eq. replace (i + l - i) with l by lia. replace (i <=? i + l) with true by (symmetry; apply Nat.leb_le; lia).
          rewrite Nat.eqb_refl. cbn [andb orb].
          destruct (existsb (Nat.eqb l) ls) eqn:E; [|reflexivity]. apply existsb_exists in E as [y [Hy E]].
          apply Nat.eqb_eq in E. now subst.
        * rewrite mset_neq by easy. destruct (Nat.leb_spec i p); [|reflexivity].
          replace (p - i =? l) with false by (symmetry; apply Nat.eqb_neq; lia). reflexivity.
      + intros y Hy. rewrite mset_neq; [apply H2; now right|]. intro E. assert (y = l) by lia. now subst.
  Qed.
  Lemma compute4_ok party1 pre V i : (forall x, x < k -> okv party1 (pre x)) -> (forall l, l < 4 -> okv party1 (V (i + l))) ->
    forall p, compute4 word k party1 pre V i p =
      if (i <=? p) && (p <? i + 4) then upd party1 pre (V p) (edges4 word k i (p - i)) else V p.
  Proof.
    intros H1 H2 p. unfold compute4. rewrite lanes_ok; auto.
    - destruct (Nat.leb_spec i p); [|reflexivity]. cbn [andb].
      replace (existsb (Nat.eqb (p - i)) (seq 0 4)) with (p <? i + 4); [reflexivity|].
      cbn [seq existsb]. destruct (Nat.ltb_spec p (i + 4)).
      + assert (C : p - i = 0 \/ p - i = 1 \/ p - i = 2 \/ p - i = 3) by lia. destruct C as [->|[->|[->| ->]]]; reflexivity.
      + symmetry. rewrite !(proj2 (Nat.eqb_neq _ _)) by lia. reflexivity.
    - apply seq_NoDup.
    - intros l Hl. apply in_seq in Hl. apply H2. lia.
  Qed.
  Definition inb (st e p : nat) : bool := (st <=? p) && (p <? e).
  Lemma inb_true st e p : inb st e p = true <-> st <= p < e.
  Proof. unfold inb. rewrite andb_true_iff, Nat.leb_le, Nat.ltb_lt. tauto. Qed.
  Lemma task_ok fuel : forall j e, e - j <= fuel -> exists E : nat -> list nat,
    (forall p, good (E p) /\ length (E p) = (if inb j e p then 10 else 0)) /\
    (forall party1 pre V, (forall x, x < k -> okv party1 (pre x)) -> (forall p, j <= p < e -> okv party1 (V p)) ->
       forall p, task_loop word k fuel j e party1 pre V p = if inb j e p then upd party1 pre (V p) (E p) else V p).
  Proof.
    induction fuel as [|f IH]; intros j e Hf; cbn [task_loop].
    - exists (fun _ => []). split.
      + intro p. split; [intros x []|]. destruct (inb j e p) eqn:E; [apply inb_true in E; lia|reflexivity].
      + intros party1 pre V _ _ p. destruct (inb j e p) eqn:E; [apply inb_true in E; lia|reflexivity].
    - destruct (Nat.ltb_spec (j + 4) e) as [L4|L4].
      + destruct (IH (j + 4) e) as [E [E1 E2]]; [lia|].
        exists (fun p => if inb j (j + 4) p then edges4 word k j (p - j) else E p). split.
        * intro p. destruct (inb j (j + 4) p) eqn:I.
          -- destruct (edges4_good j (p - j)) as [G1 G2]. split; [easy|]. rewrite G1.
             replace (inb j e p) with true; [reflexivity|]. symmetry. apply inb_true in I. apply inb_true. lia.
          -- destruct (E1 p) as [G1 G2]. split; [easy|]. rewrite G2.
             replace (inb j e p) with (inb (j + 4) e p); [reflexivity|]. apply eq_true_iff_eq. rewrite !inb_true.
             assert (~ (j <= p < j + 4)) by (rewrite <- inb_true; now rewrite I). lia.
        * intros party1 pre V H1 H2 p.
          assert (C : forall p, compute4 word k party1 pre V j p = if inb j (j + 4) p then upd party1 pre (V p) (edges4 word k j (p - j)) else V p).
          { intro q. apply compute4_ok; auto. intros l Hl. apply H2. lia. }
          rewrite E2; auto.
          -- rewrite C. destruct (inb j (j + 4) p) eqn:I.
             ++ assert (inb (j + 4) e p = false). { apply not_true_is_false. rewrite inb_true. apply inb_true in I. lia. }
                assert (inb j e p = true). { rewrite inb_true. apply inb_true in I. lia. }
                now rewrite H, H0.
             ++ replace (inb j e p) with (inb (j + 4) e p); [reflexivity|]. apply eq_true_iff_eq. rewrite !inb_true.
                assert (~ (j <= p < j + 4)) by (rewrite <- inb_true; now rewrite I). lia.
          -- intros q Hq. rewrite C. destruct (inb j (j + 4) q) eqn:I; [apply inb_true in I; lia|]. apply H2. lia.
      + destruct (Nat.ltb_spec j e) as [L1|L1].
        * destruct (IH (S j) e) as [E [E1 E2]]; [lia|].
          exists (fun p => if p =? j then edges1 word k j else E p). split.
          -- intro p. destruct (Nat.eqb_spec p j) as [->|Ne].
             ++ destruct (edges1_good j) as [G1 G2]. split; [easy|]. rewrite G1. replace (inb j e j) with true; [reflexivity|].
                symmetry. apply inb_true. lia.
             ++ destruct (E1 p) as [G1 G2]. split; [easy|]. rewrite G2. replace (inb j e p) with (inb (S j) e p); [reflexivity|].
                apply eq_true_iff_eq. rewrite !inb_true. lia.
          -- intros party1 pre V H1 H2 p. rewrite compute1_ok by (auto; apply H2; lia). rewrite E2; auto.
             ++ destruct (Nat.eqb_spec p j) as [->|Ne].
                ** rewrite mset_eq. replace (inb (S j) e j) with false; [replace (inb j e j) with true; [reflexivity|]|].
                   --- symmetry. apply inb_true. lia.
                   --- symmetry. apply not_true_is_false. rewrite inb_true. lia.
                ** rewrite mset_neq by easy. replace (inb j e p) with (inb (S j) e p); [reflexivity|].
                   apply eq_true_iff_eq. rewrite !inb_true. lia.
             ++ intros q Hq. rewrite mset_neq by lia. apply H2. lia.
        * exists (fun _ => []). split.
          -- intro p. split; [intros x []|]. destruct (inb j e p) eqn:E; [apply inb_true in E; lia|reflexivity].
          -- intros party1 pre V _ _ p. destruct (inb j e p) eqn:E; [apply inb_true in E; lia|reflexivity].
  Qed.
  Definition hits (rs : list (nat * nat)) (p : nat) : nat := length (filter (fun r => inb (fst r) (snd r) p) rs).
  Lemma ranges_ok rs : (forall r, In r rs -> snd r <= n) -> exists E : nat -> list nat,
    (forall p, good (E p) /\ length (E p) = 10 * hits rs p) /\
    (forall party1 pre V, (forall x, x < k -> okv party1 (pre x)) -> (forall p, p < n -> okv party1 (V p)) ->
       (forall p, p < n -> run_ranges word k rs party1 pre V p = upd party1 pre (V p) (E p)) /\
       (forall p, n <= p -> run_ranges word k rs party1 pre V p = V p)).
  Proof.
    unfold run_ranges. induction rs as [|[st e] rs IH]; intro Hr; cbn [fold_left].
    - exists (fun _ => []). split; [intro p; split; [intros x []|reflexivity]|]. intros party1 pre V H1 H2. split; [|auto].
      intros p Hp. symmetry. apply upd_nil. auto.
    - destruct IH as [E [E1 E2]]; [intros; apply Hr; now right|].
      destruct (task_ok (e - st) st e (le_n _)) as [F [F1 F2]].
      pose proof (Hr _ (or_introl eq_refl)) as He. cbn [snd] in He.
      exists (fun p => F p ++ E p). split.
      + intro p. destruct (E1 p) as [G1 G2], (F1 p) as [G3 G4]. split.
        * intros x Hx. apply in_app_or in Hx as [Hx|Hx]; auto.
        * rewrite app_length, G2, G4. unfold hits. cbn [filter fst snd]. destruct (inb st e p); cbn [length]; lia.
      + intros party1 pre V H1 H2.
        assert (T : forall p, p < n -> task word k st e party1 pre V p = upd party1 pre (V p) (F p)).
        { intros p Hp. unfold task. rewrite F2 by (auto; intros; apply H2; lia). destruct (F1 p) as [_ G].
          destruct (inb st e p); [reflexivity|]. destruct (F p); [|discriminate G]. symmetry. apply upd_nil; auto. }
        destruct (E2 party1 pre (task word k st e party1 pre V) H1) as [A B].
        * intros p Hp. rewrite T by easy. apply upd_ok.
        * split; intros p Hp; cbn [fst snd].
          -- rewrite A, T by easy. apply upd_app.
          -- rewrite B by easy. unfold task. rewrite F2 by (auto; intros; apply H2; lia).
             destruct (inb st e p) eqn:I; [apply inb_true in I; lia|reflexivity].
  Qed.
  Lemma ranges_eq : lpn_ranges n threads = map (fun i => (i * (n / (threads + 1)), (i + 1) * (n / (threads + 1)))) (seq 0 (threads + 1)).
  Proof.
    unfold lpn_ranges. rewrite Nat.add_1_r at 4. rewrite seq_S, map_app. cbn [map]. rewrite Nat.add_0_l.
    set (w := n / (threads + 1)). assert (W : (threads + 1) * w <= n) by (apply Nat.mul_div_le; lia).
    f_equal.
    - apply map_ext_in. intros i Hi. apply in_seq in Hi. f_equal. apply Nat.min_l. nia.
    - do 2 f_equal. apply Nat.min_l. nia.
  Qed.
  Lemma hits_ranges p : hits (lpn_ranges n threads) p = if p <? lpn_reach n threads then 1 else 0.
  Proof.
    rewrite ranges_eq. unfold hits, lpn_reach. set (w := n / (threads + 1)). generalize (threads + 1) as m. intro m.
    induction m as [|m IH]; [reflexivity|].
    rewrite seq_S, map_app, filter_app, app_length, IH, Nat.add_0_l. cbn [map filter fst snd].
    destruct (inb (m * w) ((m + 1) * w) p) eqn:I; cbn [length].
    - apply inb_true in I. replace (p <? m * w) with false by (symmetry; apply Nat.ltb_ge; lia).
      replace (p <? S m * w) with true by (symmetry; apply Nat.ltb_lt; lia). reflexivity.
    - assert (~ (m * w <= p < (m + 1) * w)) by (rewrite <- inb_true; now rewrite I).
      destruct (Nat.ltb_spec p (m * w)); destruct (Nat.ltb_spec p (S m * w)); lia.
  Qed.
  Lemma lpn_ok : exists E : nat -> list nat,
    (forall p, good (E p) /\ length (E p) = if p <? lpn_reach n threads then 10 else 0) /\
    (forall party1 pre V, (forall x, x < k -> okv party1 (pre x)) -> (forall p, p < n -> okv party1 (V p)) ->
       (forall p, p < n -> lpn_compute word k n threads party1 pre V p = upd party1 pre (V p) (E p)) /\
       (forall p, n <= p -> lpn_compute word k n threads party1 pre V p = V p)).
  Proof.
    destruct (ranges_ok (lpn_ranges n threads)) as [E [E1 E2]].
    - intros r Hr. rewrite ranges_eq in Hr. apply in_map_iff in Hr as [i [<- Hi]]. apply in_seq in Hi. cbn [snd].
      assert ((threads + 1) * (n / (threads + 1)) <= n) by (apply Nat.mul_div_le; lia). nia.
    - exists E. split; [|exact E2]. intro p. destruct (E1 p) as [G ->]. split; [easy|]. rewrite hits_ranges. destruct (p <? _); reflexivity.
  Qed.
  (** * correlation *)
  Lemma nsum_corr d (preK preM : mem) e : good e -> (forall x, x < k -> share_ok d (preM x) (preK x)) ->
    (nsum (map (fun x => mval (preM x)) e) mod PR = (nsum (map preK e) + nsum (map (fun x => xval (preM x)) e) * d) mod PR)%N.
  Proof.
    intros G H. induction e as [|x e IH]; [reflexivity|]. cbn [map nsum].
    assert (Gx : x < k) by (apply G; now left). destruct (H x Gx) as [_ [_ [_ Hx]]].
    change (preM x mod 2 ^ 64)%N with (mval (preM x)) in Hx. change (preM x / 2 ^ 64)%N with (xval (preM x)) in Hx.
    rewrite Hx. change prm with PR. rewrite two_mods. rewrite N.add_mod by discriminate. rewrite IH by (intros y Hy; apply G; now right).
    rewrite <- N.add_mod by discriminate. f_equal. lia.
  Qed.
  Lemma share_parts d m key : share_ok d m key -> okv true key /\ okv false m.
  Proof. unfold share_ok. cbn. unfold block_ok, canon, xval, mval. tauto. Qed.
  Lemma upd_corr d preK preM key m e : good e -> (forall x, x < k -> share_ok d (preM x) (preK x)) -> share_ok d m key ->
    share_ok d (upd false preM m e) (upd true preK key e).
  Proof.
    intros G H1 H2. pose proof (nsum_corr d preK preM e G H1) as C. destruct H2 as [X1 [X2 [X3 X4]]].
    change (m mod 2 ^ 64)%N with (mval m) in *. change (m / 2 ^ 64)%N with (xval m) in *.
    unfold share_ok. change (upd false preM m e / 2 ^ 64)%N with (xval (upd2 preM m e)). change (upd false preM m e mod 2 ^ 64)%N with (mval (upd2 preM m e)).
    unfold upd2. rewrite mk_xval, mk_mval by apply upd1_canon. cbn [upd]. split; [apply upd1_canon|]. split; [apply upd1_canon|]. split; [apply upd1_canon|].
    unfold upd1. change prm with PR in *. rewrite X4, two_mods.
    set (sx := nsum (map (fun x => xval (preM x)) e)) in *. set (sk := nsum (map preK e)) in *.
    rewrite N.add_mod, C, <- N.add_mod by discriminate. symmetry.
    rewrite N.add_mod by discriminate. rewrite N.mul_mod_idemp_l by discriminate. rewrite N.mod_mod by discriminate.
    rewrite <- N.add_mod by discriminate. f_equal. lia.
  Qed.
End L.
