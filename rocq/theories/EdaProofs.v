(** Values, shares and openings of the conversion engine. *)
From Coq Require Import NArith List Bool Arith Lia Ring.
From Verif Require Import Word WordProofs FpModel FpProofs ListUtil Prime61 ArithModel ArithSpec ArithProofs CopeProofs
  EdaModel EdaSpec EdaStock.
Import ListNotations.
Local Open Scope N_scope.
Ltac Zify.zify_post_hook ::= idtac.
Add Ring fp_ring : fp_rt.

(** * 62-bit integers *)
Lemma itop_ok a : a < I62 -> itop a = (2305843009213693952 <=? a).
Proof.
  intro H. unfold itop. 
  destruct (N.leb_spec 2305843009213693952 a) as [L|L].
  - assert (E : a / 2 ^ 61 = 1).
    { symmetry. apply (N.div_unique a (2 ^ 61) 1 (a - 2305843009213693952)); change (2 ^ 61) with 2305843009213693952; unfold I62 in H; lia. }
    pose proof (N.div_pow2_bits a 61 0) as T. rewrite E in T. rewrite N.add_0_l in T. now rewrite <- T.
  - apply testbit_high with 61; [exact L|apply N.le_refl].
Qed.
Lemma isub_ge a b : b <= a -> a < I62 -> isub a b = a - b.
Proof.
  intros H1 H2. unfold isub. rewrite (N.mod_small b) by lia.
  replace (a + (I62 - b)) with ((a - b) + 1 * I62) by lia. rewrite N.mod_add by discriminate. apply N.mod_small. lia.
Qed.
Lemma isub_lt a b : a < b -> b < I62 -> isub a b = I62 - (b - a).
Proof.
  intros H1 H2. unfold isub. rewrite (N.mod_small b) by lia. rewrite N.mod_small by lia. lia.
Qed.
Lemma iadd_over a b : I62 <= a + b -> a + b < 2 * I62 -> iadd a b = a + b - I62.
Proof.
  intros H1 H2. unfold iadd. replace (a + b) with ((a + b - I62) + 1 * I62) at 1 by lia.
  rewrite N.mod_add by discriminate. apply N.mod_small. lia.
Qed.
Lemma mod_diff_ge a b : b <= a -> a < PR -> (a + (PR - b)) mod PR = a - b.
Proof.
  intros H1 H2. replace (a + (PR - b)) with ((a - b) + 1 * PR) by lia. rewrite N.mod_add by discriminate. apply N.mod_small. lia.
Qed.
Lemma diff_ok x r : x < PR -> r < PR -> b2a_diff x r = (x + (PR - r)) mod PR.
Proof.
  intros Hx Hr. unfold b2a_diff. cbv zeta. assert (HP : PR = 2305843009213693951) by reflexivity.
  assert (HI : I62 = 4611686018427387904) by reflexivity.
  destruct (N.le_gt_cases r x) as [L|L].
  - rewrite isub_ge by lia. rewrite itop_ok by lia.
    replace (2305843009213693952 <=? x - r) with false by (symmetry; apply N.leb_gt; lia). cbn [isel].
    symmetry. now apply mod_diff_ge.
  - rewrite isub_lt by lia. rewrite itop_ok by lia.
    replace (2305843009213693952 <=? I62 - (r - x)) with true by (symmetry; apply N.leb_le; lia). cbn [isel].
    unfold boo_pr. rewrite iadd_over by lia. rewrite N.mod_small by lia. lia.
Qed.
Lemma out_diff s r : s < I62 -> a2b_out s r = b2a_diff s r.
Proof. intro H. unfold a2b_out, b2a_diff. cbv zeta. now rewrite (N.mod_small s) by exact H. Qed.
Lemma PR_I62 x : x < PR -> x < I62.
Proof. intro H. eapply N.lt_trans; [exact H|reflexivity]. Qed.
Lemma a2b_ok s r : s < PR -> r < PR -> a2b_out s r = (s + (PR - r)) mod PR.
Proof. intros Hs Hr. rewrite out_diff by now apply PR_I62. now apply diff_ok. Qed.
Lemma bucket_ok a b : a < PR -> b < PR -> bucket_f2 a b = if a + b =? PR then PR else (a + b) mod PR.
Proof.
  intros Ha Hb. unfold bucket_f2. cbv zeta. assert (HP : PR = 2305843009213693951) by reflexivity.
  assert (HI : I62 = 4611686018427387904) by reflexivity.
  assert (E : iadd a b = a + b) by (apply N.mod_small; lia). rewrite E. rewrite itop_ok by lia.
  destruct (N.leb_spec 2305843009213693952 (a + b)) as [L|L]; cbn [isel].
  - unfold boo_pr2. rewrite iadd_over by lia.
    destruct (N.eqb_spec (a + b) PR) as [Q|Q]; [lia|].
    replace (a + b) with ((a + b - PR) + 1 * PR) at 2 by lia. rewrite N.mod_add by discriminate. rewrite N.mod_small by lia. lia.
  - destruct (N.eqb_spec (a + b) PR) as [Q|Q]; [exact Q|]. symmetry. apply N.mod_small. lia.
Qed.
Lemma bucket_lt a b : a < PR -> b < PR -> bucket_f2 a b <= PR.
Proof.
  intros Ha Hb. rewrite bucket_ok by assumption. destruct (a + b =? PR); [apply N.le_refl|].
  apply N.lt_le_incl, N.mod_upper_bound. discriminate.
Qed.
Lemma sum_diff a r : a < PR -> r < PR -> ((r + a) mod PR + (PR - r)) mod PR = a.
Proof.
  intros Ha Hr. rewrite N.add_mod_idemp_l by discriminate. replace (r + a + (PR - r)) with (a + 1 * PR) by lia.
  rewrite N.mod_add by discriminate. now apply N.mod_small.
Qed.
Lemma diff_sum x r : x < PR -> r < PR -> (r + (x + (PR - r)) mod PR) mod PR = x.
Proof.
  intros Hx Hr. rewrite N.add_mod_idemp_r by discriminate. replace (r + (x + (PR - r))) with (x + 1 * PR) by lia.
  rewrite N.mod_add by discriminate. now apply N.mod_small.
Qed.

(** * Arithmetic shares *)
Lemma lt_le x : x < PR -> x <= PR. Proof. apply N.lt_le_incl. Qed.
Lemma am_val a b : a < PR -> b < PR -> add_mod a b = (a + b) mod PR.
Proof. intros. apply add_mod_correct. lia. Qed.
Lemma pr64 x : x < PR -> x < W64. Proof. intro H. eapply N.lt_trans; [exact H|reflexivity]. Qed.
Lemma mk0 x : x < PR -> mkblock 0 x = x.
Proof. intros _. reflexivity. Qed.
Lemma add_share d a b k k' : share_ok d a k -> share_ok d b k' ->
  share_ok d (fp_add_prv a b) (fp_add_ver k k') /\ hi64 (fp_add_prv a b) = (hi64 a + hi64 b) mod PR.
Proof.
  intros A B. apply share_F in A. apply share_F in B. destruct A as ((A1 & A2 & A3) & A4). destruct B as ((B1 & B2 & B3) & B4).
  unfold fp_add_prv, fp_add_ver. rewrite (lo_id k), (lo_id k') by now apply lt_le.
  assert (H1 : add_mod (hi64 a) (hi64 b) < PR) by (apply am_lt; [assumption|now apply lt_le]).
  assert (H2 : add_mod (lo64 a) (lo64 b) < PR) by (apply am_lt; [assumption|now apply lt_le]).
  assert (H3 : add_mod k k' < PR) by (apply am_lt; [assumption|now apply lt_le]).
  rewrite mk0 by exact H3. split.
  - apply share_F. rewrite hi64_mk, lo64_mk by now apply pr64. split; [easy|].
    rewrite !am_F by now apply lt_le. rewrite A4, B4. ring.
  - rewrite hi64_mk by now apply pr64. now apply am_val.
Qed.
Lemma addc_share d a k c : share_ok d a k -> c <= PR -> d < PR ->
  share_ok d (fp_addc_prv a c) (fp_addc_ver d k c) /\ hi64 (fp_addc_prv a c) = (hi64 a + c) mod PR.
Proof.
  intros A Hc Hd. apply share_F in A. destruct A as ((A1 & A2 & A3) & A4).
  unfold fp_addc_prv, fp_addc_ver. cbv zeta. rewrite (lo_id k), (lo_id d) by now apply lt_le.
  assert (H1 : add_mod (hi64 a) c < PR) by now apply am_lt.
  assert (Hm : mult_mod c d < PR) by (apply mm_lt; [exact Hc|now apply lt_le]).
  assert (H3 : add_mod k (sub64 PR (mult_mod c d)) < PR) by (apply am_lt; [exact A3|apply sub_le; now apply lt_le]).
  rewrite mk0 by exact H3. split.
  - apply share_F. rewrite hi64_mk, lo64_mk by now apply pr64. split; [easy|].
    rewrite am_F by (try apply sub_le; now apply lt_le). rewrite sub_F by now apply lt_le.
    rewrite mm_F by (try exact Hc; now apply lt_le). rewrite am_F by (try exact Hc; now apply lt_le). rewrite A4. ring.
  - rewrite hi64_mk by now apply pr64. apply add_mod_correct. lia.
Qed.
(** * Opening an arithmetic share; the claimed word may be any word congruent to the value *)
Lemma open_fp d a k v : share_ok d a k -> d < PR -> v * d < 2 ^ 122 - 1 -> v mod PR = hi64 a ->
  op_recv_fp d k v = [HW (lo64 a)].
Proof.
  intros A Hd Hv E. apply share_F in A. destruct A as ((A1 & A2 & A3) & A4).
  unfold op_recv_fp. rewrite (lo_id k), (lo_id d) by now apply lt_le. f_equal. f_equal.
  rewrite mult_mod_correct by exact Hv.
  assert (Hm : (v * d) mod PR < PR) by (apply N.mod_upper_bound; discriminate).
  apply toF_inj; [now apply am_lt; try apply lt_le|exact A2|].
  rewrite am_F by now apply lt_le. rewrite toF_mod, toF_mul, A4. rewrite <- E, toF_mod. reflexivity.
Qed.
Lemma prod_small v d : v < PR -> d < PR -> v * d < 2 ^ 122 - 1.
Proof. intros. apply prod_bound; now apply lt_le. Qed.
Lemma open_fp_honest d a k : share_ok d a k -> d < PR -> op_recv_fp d k (fst (op_send_fp a)) = snd (op_send_fp a).
Proof.
  intros A Hd. unfold op_send_fp. cbn [fst snd]. pose proof A as A'. apply share_F in A'. destruct A' as ((A1 & _) & _).
  apply open_fp; [exact A|exact Hd|now apply prod_small|now apply N.mod_small].
Qed.

(** * Opening a boolean word *)
Definition same62 (v w : N) : Prop := forall j, (j < 62)%nat -> N.testbit v (N.of_nat j) = N.testbit w (N.of_nat j).
Lemma same62_mod v : same62 (v mod I62) v.
Proof. intros j Hj. change I62 with (2 ^ 62). apply N.mod_pow2_bits_low. clear -Hj. lia. Qed.
Lemma recv_f2_nth d v : forall keys s j, (j < length keys)%nat ->
  nth j (map (fun jk => HB (if N.testbit v (N.of_nat (fst jk)) then N.lxor (snd jk) d else snd jk)) (combine (seq s (length keys)) keys)) (HB 0)
  = HB (N.lxor (nth j keys 0) (if N.testbit v (N.of_nat (s + j)) then d else 0)).
Proof.
  induction keys as [|k keys IH]; intros s j H; [cbn in H; lia|]. cbn [length seq combine map]. destruct j as [|j].
  - cbn [nth fst snd]. rewrite Nat.add_0_r. destruct (N.testbit v (N.of_nat s)); [reflexivity|]. now rewrite N.lxor_0_r.
  - cbn [nth]. rewrite IH by (cbn in H; lia). now replace (S s + j)%nat with (s + S j)%nat by lia.
Qed.
Lemma recv_f2_len d keys v : length (op_recv_f2 d keys v) = length keys.
Proof. unfold op_recv_f2. rewrite map_length, combine_length, seq_length. lia. Qed.
Lemma open_f2 d l k w v : bauth d l k w -> same62 v w -> op_recv_f2 d k v = op_send_f2 l.
Proof.
  intros (L1 & L2 & H) S. apply nth_ext with (HB 0) (HB 0).
  - rewrite recv_f2_len. unfold op_send_f2. rewrite map_length. congruence.
  - intros j Hj. rewrite recv_f2_len, L2 in Hj. unfold op_recv_f2, op_send_f2.
    rewrite recv_f2_nth by (rewrite L2; exact Hj). rewrite Nat.add_0_l. rewrite (S j Hj).
    rewrite (map_nth HB l 0 j). now rewrite (H j Hj).
Qed.
Lemma open_f2_inv d l k w v : bauth d l k w -> d <> 0 -> op_recv_f2 d k v = op_send_f2 l -> same62 v w.
Proof.
  intros (L1 & L2 & H) Hd E j Hj. apply (f_equal (fun x => nth j x (HB 0))) in E. unfold op_recv_f2, op_send_f2 in E.
  rewrite recv_f2_nth in E by (rewrite L2; exact Hj). rewrite Nat.add_0_l in E. rewrite (map_nth HB l 0 j), (H j Hj) in E.
  injection E as E. apply (f_equal (N.lxor (nth j k 0))) in E. rewrite <- !N.lxor_assoc, N.lxor_nilpotent, !N.lxor_0_l in E.
  destruct (N.testbit v (N.of_nat j)), (N.testbit w (N.of_nat j)); try reflexivity; congruence.
Qed.

(** * Single conversions *)
Lemma b2a_one d x r rp rk : d < PR -> x < PR -> share_ok d rp rk -> r = hi64 rp ->
  fst (b2a_prv x r rp) < PR /\ share_ok d (snd (b2a_prv x r rp)) (b2a_ver d rk (fst (b2a_prv x r rp))) /\
  hi64 (snd (b2a_prv x r rp)) = x.
Proof.
  intros Hd Hx S ->. pose proof S as S'. apply share_F in S'. destruct S' as ((R1 & _) & _).
  unfold b2a_prv, b2a_ver. cbv zeta. cbn [fst snd]. rewrite diff_ok by assumption.
  assert (HD : (x + (PR - hi64 rp)) mod PR < PR) by (apply N.mod_upper_bound; discriminate).
  split; [exact HD|]. destruct (addc_share d rp rk _ S (lt_le _ HD) Hd) as [A1 A2]. split; [exact A1|].
  rewrite A2. now apply diff_sum.
Qed.
Lemma a2b_one d r rp rk a k : d < PR -> share_ok d rp rk -> r = hi64 rp -> share_ok d a k ->
  a2b_recv d rk k (fst (a2b_open rp a)) = snd (a2b_open rp a) /\ a2b_out (fst (a2b_open rp a)) r = hi64 a.
Proof.
  intros Hd S -> A. destruct (add_share d rp a rk k S A) as [B1 B2].
  split; [now apply open_fp_honest|]. unfold a2b_open, op_send_fp. cbn [fst]. rewrite B2.
  apply share_F in S. destruct S as ((R1 & _) & _). apply share_F in A. destruct A as ((A1 & _) & _).
  rewrite a2b_ok; [now apply sum_diff|apply N.mod_upper_bound; discriminate|exact R1].
Qed.

(** * Batches *)
Lemma F2_len {A C} (R : A -> C -> Prop) l l' : Forall2 R l l' -> length l = length l'.
Proof. induction 1; cbn; congruence. Qed.
Section Batch.
  Variables (NN B C np_sz : nat) (rb rp rk : nat * nat -> N) (d : N).
  Hypotheses (HN : (1 <= NN)%nat) (HB : (1 <= B)%nat) (Hsz : (ell NN B C <= np_sz)%nat) (Hd : d < PR).
  Notation kth := (kth_mask NN (ell NN B C) np_sz).
  Hypothesis masks : forall k, share_ok d (rp (snd (kth k))) (rk (snd (kth k))) /\ rb (fst (kth k)) = hi64 (rp (snd (kth k))).
  Lemma b2a_list : forall xs k, Forall (fun x => x < PR) xs ->
    let ms := map kth (seq k (length xs)) in
    let ps := map (fun xm => b2a_prv (fst xm) (rb (fst (snd xm))) (rp (snd (snd xm)))) (combine xs ms) in
    length ps = length xs /\
    Forall2 (share_ok d) (map snd ps) (map (fun vm => b2a_ver d (rk (snd (snd vm))) (fst vm)) (combine (map fst ps) ms)) /\
    map hi64 (map snd ps) = xs.
  Proof.
    induction xs as [|x xs IH]; intros k H; cbn zeta.
    - split; [reflexivity|]. split; [constructor|reflexivity].
    - inversion H as [|? ? Hx Hxs]; subst. destruct (IH (S k) Hxs) as (I1 & I2 & I3). cbn zeta in I1, I2, I3.
      destruct (masks k) as [M1 M2]. destruct (b2a_one d x _ _ _ Hd Hx M1 M2) as (O1 & O2 & O3).
      cbn [length seq map combine fst snd]. split; [now rewrite I1|]. split; [constructor; [exact O2|exact I2]|].
      now rewrite O3, I3.
  Qed.
  Theorem b2a_batch_ok k s xs : inv NN B C np_sz k s -> Forall (fun x => x < PR) xs ->
    let ps := fst (b2a_batch_prv NN B C np_sz rb rp xs s) in
    let ks := fst (b2a_batch_ver NN B C np_sz rk d (map fst ps) s) in
    Forall2 (share_ok d) (map snd ps) ks /\ map hi64 (map snd ps) = xs.
  Proof.
    intros I H. cbn zeta. unfold b2a_batch_prv, b2a_batch_ver.
    pose proof (b2a_list xs k H) as (L & L2 & L3). cbn zeta in L, L2, L3.
    pose proof (batch_inv NN B C np_sz HN HB Hsz true (length xs) k s I) as [E _].
    destruct (batch NN B C np_sz true (length xs) s) as [ms s1] eqn:Eb. cbn [fst] in E |- *. rewrite <- E in L, L2, L3.
    match goal with |- context [batch _ _ _ _ _ ?n _] => replace n with (length xs) by (symmetry; rewrite (map_length fst); exact L) end.
    rewrite Eb. cbn [fst]. split; [exact L2|exact L3].
  Qed.
  Lemma a2b_list : forall xs keys k, Forall2 (share_ok d) xs keys ->
    let ms := map kth (seq k (length xs)) in
    let ps := map (fun xm => a2b_open (rp (snd (snd xm))) (fst xm)) (combine xs ms) in
    length ps = length xs /\
    map (fun kvm => a2b_recv d (rk (snd (snd kvm))) (fst (fst kvm)) (snd (fst kvm))) (combine (combine keys (map fst ps)) ms) = map snd ps /\
    map (fun vm => a2b_out (fst vm) (rb (fst (snd vm)))) (combine (map fst ps) ms) = map hi64 xs.
  Proof.
    intros xs keys k H. revert k. induction H as [|x y xs keys Hx Hxs IH]; intros k; cbn zeta.
    - repeat split.
    - destruct (IH (S k)) as (I1 & I2 & I3). cbn zeta in I1, I2, I3.
      destruct (masks k) as [M1 M2]. destruct (a2b_one d _ _ _ _ _ Hd M1 M2 Hx) as (O1 & O2).
      cbn [length seq map combine fst snd]. rewrite I1, I2, I3, O1, O2. repeat split.
  Qed.
  Theorem a2b_batch_ok k s xs keys : inv NN B C np_sz k s -> Forall2 (share_ok d) xs keys ->
    let ps := fst (a2b_batch_prv NN B C np_sz rp xs s) in
    fst (a2b_batch_ver NN B C np_sz rk d keys (map fst ps) s) = map snd ps /\
    a2b_batch_out NN B C np_sz rb (map fst ps) s = map hi64 xs.
  Proof.
    intros I H. cbn zeta. unfold a2b_batch_prv, a2b_batch_ver, a2b_batch_out.
    pose proof (a2b_list xs keys k H) as (L & L2 & L3). cbn zeta in L, L2, L3.
    pose proof (batch_inv NN B C np_sz HN HB Hsz false (length xs) k s I) as [E _].
    rewrite <- (F2_len _ _ _ H).
    destruct (batch NN B C np_sz false (length xs) s) as [ms s1] eqn:Eb. cbn [fst] in E |- *. rewrite <- E in L, L2, L3.
    match goal with |- context [batch _ _ _ _ _ ?n _] => replace n with (length xs) by (symmetry; rewrite (map_length fst); exact L) end.
    rewrite Eb. cbn [fst]. split; [exact L2|exact L3].
  Qed.
End Batch.

(** * Generation *)
Lemma both_ok {A} d2 df (es : list A) (pl vl : A -> list N) (pa va w v : A -> N) :
  (forall e, In e es -> bauth d2 (pl e) (vl e) (w e) /\ same62 (v e) (w e) /\ op_recv_fp df (va e) (v e) = [HW (lo64 (pa e))]) ->
  op_recv_both d2 df (map (fun e => (vl e, va e)) es) (map v es) = snd (op_send_both (map (fun e => (pl e, pa e)) es)).
Proof.
  intro H. unfold op_recv_both, op_send_both. cbn [snd].
  assert (X : flat_map (fun pv => op_recv_fp df (snd (fst pv)) (snd pv)) (combine (map (fun e => (vl e, va e)) es) (map v es))
                = flat_map (fun p => snd (op_send_fp (snd p))) (map (fun e => (pl e, pa e)) es) /\
              flat_map (fun pv => op_recv_f2 d2 (fst (fst pv)) (snd pv)) (combine (map (fun e => (vl e, va e)) es) (map v es))
                = flat_map (fun p => op_send_f2 (fst p)) (map (fun e => (pl e, pa e)) es)).
  { induction es as [|e es IH]; [split; reflexivity|].
    destruct IH as [I1 I2]; [intros e' He'; apply H; now right|]. destruct (H e (or_introl eq_refl)) as (H1 & H2 & H3).
    cbn [map combine flat_map fst snd]. rewrite I1, I2, H3, (open_f2 _ _ _ _ _ H1 H2). split; reflexivity. }
  destruct X as [-> ->]. reflexivity.
Qed.
Lemma flat_map_inj {A C} (f g : A -> list C) : forall l, (forall x, In x l -> length (f x) = length (g x)) ->
  flat_map f l = flat_map g l -> forall x, In x l -> f x = g x.
Proof.
  induction l as [|a l IH]; intros L E x Hx; [contradiction|]. cbn [flat_map] in E.
  assert (E2 : f a = g a /\ flat_map f l = flat_map g l).
  { assert (La : length (f a) = length (g a)) by (apply L; now left). clear -E La. revert E La.
    generalize (f a), (g a), (flat_map f l), (flat_map g l). induction l0 as [|c l0 IH]; intros [|c' l1] r r' E La; try discriminate La; [now split|].
    injection E as -> E. injection La as La. destruct (IH _ _ _ E La) as [-> ->]. now split. }
  destruct E2 as [E2 E3]. destruct Hx as [->|Hx]; [exact E2|]. apply IH; auto. intros y Hy. apply L. now right.
Qed.
Lemma flat_map_len {A C} (f g : A -> list C) l : (forall x, In x l -> length (f x) = length (g x)) ->
  length (flat_map f l) = length (flat_map g l).
Proof.
  induction l as [|a l IH]; intro L; [reflexivity|]. cbn [flat_map]. rewrite !app_length, L by now left.
  rewrite IH; [reflexivity|]. intros x Hx. apply L. now right.
Qed.
Lemma app_inj_len {C} (a b r r' : list C) : length a = length b -> a ++ r = b ++ r' -> a = b /\ r = r'.
Proof.
  revert b. induction a as [|x a IH]; intros [|y b] L E; try discriminate L; [now split|].
  injection E as -> E. injection L as L. destruct (IH b L E) as [-> ->]. now split.
Qed.
Lemma recv_both_es {A} d2 df (es : list A) (vl : A -> list N) (va v : A -> N) :
  op_recv_both d2 df (map (fun e => (vl e, va e)) es) (map v es) =
  flat_map (fun e => op_recv_fp df (va e) (v e)) es ++ flat_map (fun e => op_recv_f2 d2 (vl e) (v e)) es.
Proof.
  unfold op_recv_both. apply f_equal2; induction es as [|e es IH]; try reflexivity; cbn [map combine flat_map fst snd]; now rewrite IH.
Qed.
Lemma send_both_es {A} (es : list A) (pl : A -> list N) (pa : A -> N) :
  snd (op_send_both (map (fun e => (pl e, pa e)) es)) =
  flat_map (fun e => [HW (lo64 (pa e))]) es ++ flat_map (fun e => op_send_f2 (pl e)) es.
Proof.
  unfold op_send_both. cbn [snd]. apply f_equal2; induction es as [|e es IH]; try reflexivity; cbn [map flat_map fst snd]; now rewrite IH.
Qed.
Lemma both_inv {A} d2 df (es : list A) (pl vl : A -> list N) (pa va w v : A -> N) : d2 <> 0 ->
  (forall e, In e es -> bauth d2 (pl e) (vl e) (w e)) ->
  op_recv_both d2 df (map (fun e => (vl e, va e)) es) (map v es) = snd (op_send_both (map (fun e => (pl e, pa e)) es)) ->
  forall e, In e es -> same62 (v e) (w e) /\ op_recv_fp df (va e) (v e) = [HW (lo64 (pa e))].
Proof.
  intros Hd H E e He. rewrite recv_both_es, send_both_es in E. apply app_inj_len in E.
  - destruct E as [E1 E2]. split.
    + apply (open_f2_inv d2 (pl e) (vl e) (w e)); [now apply H|exact Hd|].
      apply (flat_map_inj (fun e => op_recv_f2 d2 (vl e) (v e)) (fun e => op_send_f2 (pl e)) es); [|exact E2|exact He].
      intros x Hx. rewrite recv_f2_len. unfold op_send_f2. rewrite map_length. destruct (H x Hx) as (L1 & L2 & _). congruence.
    + apply (flat_map_inj (fun e => op_recv_fp df (va e) (v e)) (fun e => [HW (lo64 (pa e))]) es); [|exact E1|exact He]. reflexivity.
  - apply flat_map_len. reflexivity.
Qed.
Lemma recv_both_len {A} d2 df (es : list A) (pl vl : A -> list N) (pa va v : A -> N) :
  (forall e, In e es -> length (vl e) = length (pl e)) ->
  length (op_recv_both d2 df (map (fun e => (vl e, va e)) es) (map v es)) = length (snd (op_send_both (map (fun e => (pl e, pa e)) es))).
Proof.
  intro H. rewrite recv_both_es, send_both_es, !app_length. f_equal.
  - apply flat_map_len. reflexivity.
  - apply flat_map_len. intros e He. rewrite recv_f2_len. unfold op_send_f2. rewrite map_length. now apply H.
Qed.
