(** Properties C26-C29 (conversions between bits and field elements). *)
From Coq Require Import NArith List Bool Arith Lia Ring Permutation.
From Verif Require Import Word WordProofs FpModel FpProofs ListUtil Prime61 ArithModel ArithSpec ArithProofs ArithShadow ArithAlg CopeProofs
  EdaModel EdaSpec EdaStock EdaProofs EdaThms.
Import ListNotations.
Ltac Zify.zify_post_hook ::= idtac.
Add Ring fp_ring : fp_rt.

(** states reachable through the public interface *)
Definition reach (NN B C np_sz : nat) (s : eda) : Prop := exists cs, s = snd (run_calls NN B C np_sz cs eda_init).
Lemma reach_inv NN B C np_sz s : 1 <= NN -> 1 <= B -> ell NN B C <= np_sz -> reach NN B C np_sz s ->
  exists k, inv NN B C np_sz k s.
Proof.
  intros HN HB Hs (cs & ->). exists (0 + calls_len cs). apply (calls_inv NN B C np_sz HN HB Hs cs 0). reflexivity.
Qed.

(** ** C26: conversions keep the value, for every value below p and every mask. *)
Theorem C26_bool2arith : forall d x rp rk, (d < prm)%N -> (x < prm)%N -> share_ok d rp rk ->
  let r := hi64 rp in let word := fst (b2a_prv x r rp) in
  (word < prm)%N /\ share_ok d (snd (b2a_prv x r rp)) (b2a_ver d rk word) /\ hi64 (snd (b2a_prv x r rp)) = x.
Proof. intros d x rp rk Hd Hx S r word. exact (b2a_one d x r rp rk Hd Hx S eq_refl). Qed.
Theorem C26_arith2bool : forall d rp rk a k, (d < prm)%N -> share_ok d rp rk -> share_ok d a k ->
  let r := hi64 rp in let word := fst (a2b_open rp a) in
  a2b_recv d rk k word = snd (a2b_open rp a) /\ a2b_out word r = hi64 a.
Proof. intros d rp rk a k Hd S A r word. exact (a2b_one d r rp rk a k Hd S eq_refl A). Qed.
(** batches, in every reachable state, when the masks the engine delivers are consistent *)
Theorem C26_batches : forall NN B C np_sz (rb rp rk : nat * nat -> N) d s,
  1 <= NN -> 1 <= B -> ell NN B C <= np_sz -> (d < prm)%N -> reach NN B C np_sz s ->
  (forall k, let m := kth_mask NN (ell NN B C) np_sz k in share_ok d (rp (snd m)) (rk (snd m)) /\ rb (fst m) = hi64 (rp (snd m))) ->
  (forall xs, Forall (fun x => (x < prm)%N) xs ->
     let ps := fst (b2a_batch_prv NN B C np_sz rb rp xs s) in
     Forall2 (share_ok d) (map snd ps) (fst (b2a_batch_ver NN B C np_sz rk d (map fst ps) s)) /\ map hi64 (map snd ps) = xs) /\
  (forall xs keys, Forall2 (share_ok d) xs keys ->
     let ps := fst (a2b_batch_prv NN B C np_sz rp xs s) in
     fst (a2b_batch_ver NN B C np_sz rk d keys (map fst ps) s) = map snd ps /\
     a2b_batch_out NN B C np_sz rb (map fst ps) s = map hi64 xs).
Proof.
  intros NN B C np_sz rb rp rk d s HN HB Hs Hd R M. destruct (reach_inv _ _ _ _ _ HN HB Hs R) as [k I]. split.
  - intros xs H. exact (b2a_batch_ok NN B C np_sz rb rp rk d HN HB Hs Hd M k s xs I H).
  - intros xs keys H. exact (a2b_batch_ok NN B C np_sz rb rp rk d HN HB Hs Hd M k s xs keys I H).
Qed.
(** the 62-bit interface admits values the conversion does not: the result then depends on the mask *)
Theorem C26_out_of_range_refuted : exists x r1 r2, (x < 2 ^ 62 /\ r1 < prm /\ r2 < prm /\
  (r1 + b2a_diff x r1) mod prm <> (r2 + b2a_diff x r2) mod prm)%N.
Proof. exists (2 ^ 61 + 5)%N, 10%N, 0%N. vm_compute. repeat split; discriminate. Qed.
(** the word claimed for the masked sum is not range checked: sum + p is accepted for at least half of the keys and
    lowers the boolean result by 2 *)
Theorem C26_noncanonical_sum_refuted : forall d rp rk a k, (d < 2 ^ 60)%N -> share_ok d rp rk -> share_ok d a k ->
  (2 <= hi64 a)%N -> (hi64 rp + hi64 a < prm)%N ->
  exists word, a2b_recv d rk k word = snd (a2b_open rp a) /\ a2b_out word (hi64 rp) = (hi64 a - 2)%N.
Proof.
  intros d rp rk a k Hd S A H2 Hsum. exists (hi64 rp + hi64 a + PR)%N.
  destruct (add_share d rp a rk k S A) as [B1 B2]. split.
  - apply open_fp; [exact B1|eapply N.lt_trans; [exact Hd|reflexivity]| |].
    + apply N.lt_le_trans with ((2 * PR) * 2 ^ 60)%N; [|discriminate].
      apply N.mul_lt_mono; [|exact Hd]. change prm with PR in Hsum. lia.
    + rewrite B2. rewrite <- (N.mul_1_l PR) at 1. now rewrite N.mod_add by discriminate.
  - now apply out_noncanonical_sum.
Qed.
Definition sh (d x m : N) : N * N := (mkblock x m, fsub m (x * d)).
Example C26_example :
  let d := 1234567890123456789%N in
  let '(rp, rk) := sh d (prm - 3) 17 in let '(a, k) := sh d 100 (prm - 1) in
  share_ok d rp rk /\ share_ok d a k /\
  b2a_prv 7 (hi64 rp) rp = (10%N, mkblock 7 17) /\
  fst (a2b_open rp a) = 97%N /\ a2b_out 97 (prm - 3) = 100%N.
Proof. vm_compute. repeat split. Qed.

(** ** C27: any sequence of single and batch conversions uses masks 0, 1, 2, ... in order, each once, with both halves
    read from the generation they belong to. *)
Theorem C27_masks_in_order : forall NN B C np_sz cs, 1 <= NN -> 1 <= B -> ell NN B C <= np_sz ->
  fst (run_calls NN B C np_sz cs eda_init) = map (kth_mask NN (ell NN B C) np_sz) (seq 0 (calls_len cs)).
Proof. intros NN B C np_sz cs HN HB Hs. apply (calls_inv NN B C np_sz HN HB Hs cs 0). reflexivity. Qed.
Theorem C27_no_reuse : forall NN B C np_sz cs, 1 <= NN -> 1 <= B -> ell NN B C <= np_sz ->
  NoDup (map fst (fst (run_calls NN B C np_sz cs eda_init))) /\ NoDup (map snd (fst (run_calls NN B C np_sz cs eda_init))).
Proof.
  intros NN B C np_sz cs HN HB Hs. rewrite (C27_masks_in_order NN B C np_sz cs HN HB Hs).
  generalize (calls_len cs). intro n.
  split; rewrite map_map; apply FinFun.Injective_map_NoDup; try apply seq_NoDup; intros i j E.
  - now apply (kth_inj_f2 NN B C np_sz HN) in E.
  - now apply (kth_inj_fp NN B C np_sz HN HB Hs) in E.
Qed.
Theorem C27_batch_is_singles : forall NN B C np_sz b len s, 1 <= NN -> 1 <= B -> ell NN B C <= np_sz -> reach NN B C np_sz s ->
  length (fst (batch NN B C np_sz b len s)) = len /\
  fst (batch NN B C np_sz b len s) = fst (run_calls NN B C np_sz (repeat COne len) s).
Proof.
  intros NN B C np_sz b len s HN HB Hs R. destruct (reach_inv _ _ _ _ _ HN HB Hs R) as [k I].
  destruct (batch_inv NN B C np_sz HN HB Hs b len k s I) as [E _]. rewrite E.
  destruct (calls_inv NN B C np_sz HN HB Hs (repeat COne len) k s I) as [E2 _]. rewrite E2.
  split; [now rewrite map_length, seq_length|]. do 2 f_equal. unfold calls_len. clear. induction len; [reflexivity|].
  cbn [repeat map]. rewrite sum_cons, <- IHlen. reflexivity.
Qed.
Theorem C27_in_bounds : forall NN B C np_sz cs m, 1 <= NN -> 1 <= B -> ell NN B C <= np_sz ->
  In m (fst (run_calls NN B C np_sz cs eda_init)) -> snd (fst m) < ell NN B C /\ snd (snd m) < np_sz.
Proof.
  intros NN B C np_sz cs m HN HB Hs H. rewrite (C27_masks_in_order NN B C np_sz cs HN HB Hs) in H.
  apply in_map_iff in H. destruct H as (k & <- & _). destruct (kth_in_range NN B C np_sz HN HB Hs k) as [A1 A2].
  split; [|exact A2]. pose proof (L_pos NN B C np_sz HN HB Hs). lia.
Qed.
Example C27_example :   (* two masks per generation; windows of 6 in a buffer of 13; refill of the buffer at mask 4 *)
  fst (run_calls 2 2 2 13 [COne; CBatch true 4; COne; CBatch false 0; CBatch false 3] eda_init) =
  [((1, 0), (1, 0)); ((1, 1), (1, 1)); ((2, 0), (1, 6)); ((2, 1), (1, 7)); ((3, 0), (2, 0)); ((3, 1), (2, 1));
   ((4, 0), (2, 6)); ((4, 1), (2, 7)); ((5, 0), (3, 0))].
Proof. reflexivity. Qed.

(** ** C28: the opened sample and the bucket partners together are the candidates NN .. ell-1, each exactly once;
    both halves use the same slot; every delivered mask is checked B-1 times. *)
Theorem C28_partition : forall NN B C pt r, 1 <= NN -> 2 <= B -> r < ell_faulty NN B C -> r + C <= ell_faulty NN B C ->
  Permutation (seq NN (ell NN B C - NN)) (map fst (opened NN C pt r) ++ map (fun e => fst (snd e)) (buckets NN B C pt r)) /\
  (forall e, In e (opened NN C pt r) -> snd e = pt + fst e) /\
  (forall e, In e (buckets NN B C pt r) -> snd (snd e) = pt + fst (snd e)) /\
  map fst (buckets NN B C pt r) = flat_map (fun _ => seq 0 NN) (seq 0 (B - 1)).
Proof.
  intros NN B C pt r HN HB Hr HC. split; [now apply partition|].
  destruct (aligned_halves NN B C pt r HN HB Hr) as [A1 A2]. repeat split; auto. now apply delivered_checked.
Qed.
(** the verifier draws exactly the offsets below ell_faulty *)
Theorem C28_offsets_drawn : forall NN B C x, 1 <= NN -> 2 <= B ->
  (x < ell_faulty NN B C <-> exists r, random_point NN B C r = x).
Proof.
  intros NN B C x HN HB. pose proof (F_pos NN B C HN HB) as [F1 _]. split.
  - intro H. exists x. now apply Nat.mod_small.
  - intros [r <-]. apply Nat.mod_upper_bound. lia.
Qed.
(** the opening stays inside the candidates iff the offset leaves room for the C opened ones; the prover does not check
    the offset it receives, so a verifier makes it open beyond its array *)
Theorem C28_opening_in_bounds_iff : forall NN B C pt r, 1 <= NN -> 2 <= B -> 1 <= C ->
  ((forall e, In e (opened NN C pt r) -> fst e < ell NN B C) <-> r + C <= ell_faulty NN B C).
Proof.
  intros NN B C pt r HN HB HC. destruct (F_eq NN B C HN HB) as [_ E]. unfold opened. split.
  - intro A. specialize (A (NN + r + (C - 1), pt + NN + r + (C - 1))). cbn [fst] in A.
    assert (NN + r + (C - 1) < ell NN B C); [|lia]. apply A.
    apply (in_map (fun i => (NN + r + i, pt + NN + r + i))). apply in_seq. lia.
  - intros H e He. apply in_map_iff in He. destruct He as (i & <- & Hi). apply in_seq in Hi. cbn [fst]. lia.
Qed.
Theorem C28_received_offset_refuted : forall NN B C pt, 1 <= NN -> 2 <= B -> 1 <= C ->
  exists w e, In e (opened NN C pt (point_received w)) /\ ell NN B C <= fst e.
Proof.
  intros NN B C pt HN HB HC. exists (ell NN B C). exists (NN + ell NN B C + 0, pt + NN + ell NN B C + 0). split.
  - apply (in_map (fun i => (NN + ell NN B C + i, pt + NN + ell NN B C + i))). apply in_seq. lia.
  - cbn. lia.
Qed.
(** the last offset (probability 1 / ell_faulty): the opening reads one candidate past the end, and the first
    candidate after the delivered ones is neither opened nor used; the arithmetic slot opened in the clear is the one
    of the first mask of the next generation *)
Theorem C28_last_offset_refuted : forall NN np_sz g, 1 <= NN -> ell NN 2 2 <= np_sz -> S (g mod (np_sz / ell NN 2 2)) < np_sz / ell NN 2 2 ->
  let r := ell_faulty NN 2 2 - 1 in let pt := (g mod (np_sz / ell NN 2 2)) * ell NN 2 2 in
  random_point NN 2 2 r = r /\
  In (ell NN 2 2, pt + ell NN 2 2) (opened NN 2 pt r) /\
  ~ In NN (map fst (opened NN 2 pt r) ++ map (fun e => fst (snd e)) (buckets NN 2 2 pt r)) /\
  (exists fill, snd (kth_mask NN (ell NN 2 2) np_sz (g * NN)) = (fill, pt) /\
                snd (kth_mask NN (ell NN 2 2) np_sz (S g * NN)) = (fill, pt + ell NN 2 2)).
Proof.
  intros NN np_sz g HN Hs Hq r pt. destruct (F_eq NN 2 2 HN ltac:(lia)) as [EF EL].
  split; [apply Nat.mod_small; subst r; lia|].
  destruct (last_offset NN pt HN) as [A1 A2]. split; [exact A1|]. split; [exact A2|].
  exists (S (g / (np_sz / ell NN 2 2))). unfold kth_mask.
  destruct (divmod_unique NN (g * NN) g 0) as [-> ->]; [lia|lia|].
  destruct (divmod_unique NN (S g * NN) (S g) 0) as [-> ->]; [lia|lia|].
  set (q := np_sz / ell NN 2 2) in *. assert (Q1 : 1 <= q) by lia.
  destruct (divmod_split q g Q1) as [G1 G2].
  destruct (divmod_unique q (S g) (g / q) (S (g mod q))) as [-> ->]; [lia|lia|].
  cbn [snd]. split; f_equal; subst pt; lia.
Qed.
Example C28_example : (* ell = 6, ell_faulty = 4, offset 1 *)
  opened 2 2 6 1 = [(3, 9); (4, 10)] /\ buckets 2 2 2 6 1 = [(0, (5, 11)); (1, (2, 8))].
Proof. split; reflexivity. Qed.

(** ** C29: consistency check of the masks *)
Theorem C29_bucket_sums : forall a b, (a < prm)%N -> (b < prm)%N ->
  (bucket_f2 a b = (a + b) mod prm <-> a + b <> prm)%N.
Proof.
  intros a b Ha Hb. rewrite (bucket_ok a b Ha Hb). change prm with PR. destruct (N.eqb_spec (a + b) PR) as [E|E].
  - rewrite E. split; [discriminate|contradiction].
  - easy.
Qed.
(** an honest generation run is accepted iff no bucket sum is exactly p *)
Theorem C29_honest_generation : forall NN C ap ak bl bk sl sk d2 df r,
  1 <= NN -> r < ell_faulty NN 2 C -> r + C <= ell_faulty NN 2 C -> (df < prm)%N -> d2 <> 0%N ->
  let partner i := NN + (r + C + i) mod ell_faulty NN 2 C in
  (forall i, i < ell NN 2 C -> share_ok df (ap i) (ak i)) ->
  (forall i, i < ell NN 2 C -> bauth d2 (bl i) (bk i) (hi64 (ap i))) ->
  (forall i, i < NN -> bauth d2 (sl i) (sk i) (bucket_f2 (hi64 (ap i)) (hi64 (ap (partner i))))) ->
  (gen_ver NN C ak bk sk d2 df r (fst (gen_prv NN C ap bl sl r)) = snd (gen_prv NN C ap bl sl r) <->
   forall i, i < NN -> (hi64 (ap i) + hi64 (ap (partner i)) <> prm)%N).
Proof.
  intros NN C ap ak bl bk sl sk d2 df r HN Hr HC Hdf Hd pn Hsh Hb Hs.
  assert (E : forall i, pn i = partner NN 2 C r 0 i).
  { intro i. unfold pn, partner. change (Bm1 2) with 1. now rewrite Nat.add_0_r, Nat.mul_1_r. }
  assert (Hs' : forall i, i < NN -> bauth d2 (sl i) (sk i) (bucket_f2 (hi64 (ap i)) (hi64 (ap (partner NN 2 C r 0 i))))).
  { intros i Hi. rewrite <- E. now apply Hs. }
  rewrite (honest_gen NN C ap ak bl bk sl sk d2 df r HN HC Hr Hdf Hsh Hb Hs' Hd).
  split; intros H i Hi; [rewrite E|rewrite <- E]; now apply H.
Qed.
(** soundness of one bucket: canonical masks and claimed word, partner with equal halves *)
Theorem C29_bucket_sound : forall w f wk fk v,
  (w < prm)%N -> (f < prm)%N -> (wk < prm)%N -> (fk < prm)%N -> (v < prm)%N ->
  (forall j, j < 62 -> N.testbit v (N.of_nat j) = N.testbit (bucket_f2 w wk) (N.of_nat j)) ->
  (v mod prm = (f + fk) mod prm)%N -> wk = fk -> w = f.
Proof. exact bucket_sound. Qed.
(** a claimed word whose low 62 bits differ from the authenticated ones matches for at most one boolean key,
    whatever the prover hashes *)
Definition keys_of (labels : list N) (w d : N) : list N :=
  map (fun jl => N.lxor (snd jl) (if N.testbit w (N.of_nat (fst jl)) then d else 0%N)) (combine (seq 0 (length labels)) labels).
Lemma keys_of_nth labels w d : forall s j, j < length labels ->
  nth j (map (fun jl => N.lxor (snd jl) (if N.testbit w (N.of_nat (fst jl)) then d else 0%N)) (combine (seq s (length labels)) labels)) 0%N
  = N.lxor (nth j labels 0%N) (if N.testbit w (N.of_nat (s + j)) then d else 0%N).
Proof.
  induction labels as [|l labels IH]; intros s j H; [cbn in H; lia|]. cbn [length seq combine map]. destruct j as [|j].
  - cbn [nth fst snd]. now rewrite Nat.add_0_r.
  - cbn [nth]. rewrite IH by (cbn in H; lia). now replace (S s + j) with (s + S j) by lia.
Qed.
Lemma keys_of_auth labels w d : length labels = 62 -> bauth d labels (keys_of labels w d) w.
Proof.
  intro L. split; [exact L|]. split; [unfold keys_of; rewrite map_length, combine_length, seq_length; lia|].
  intros j Hj. unfold keys_of. rewrite keys_of_nth by lia. rewrite N.lxor_assoc, N.lxor_nilpotent. now rewrite N.lxor_0_r.
Qed.
Theorem C29_boolean_claim_keys : forall labels w v h deltas, length labels = 62 ->
  (exists j, j < 62 /\ N.testbit v (N.of_nat j) <> N.testbit w (N.of_nat j)) -> NoDup deltas ->
  (forall d, In d deltas -> op_recv_f2 d (keys_of labels w d) v = h) -> length deltas <= 1.
Proof.
  intros labels w v h deltas L (j & Hj & Hne) ND H.
  assert (V : forall d, In d deltas -> HB (N.lxor (nth j labels 0%N) d) = nth j h (HB 0%N)).
  { intros d Hd. rewrite <- (H d Hd). destruct (keys_of_auth labels w d L) as (_ & L2 & A).
    unfold op_recv_f2. rewrite recv_f2_nth by lia. rewrite Nat.add_0_l, (A j Hj).
    f_equal. rewrite (N.lxor_comm (nth j (keys_of labels w d) 0%N) (if N.testbit w (N.of_nat j) then d else 0%N)).
    destruct (N.testbit v (N.of_nat j)), (N.testbit w (N.of_nat j)); try contradiction.
    - now rewrite N.lxor_0_l.
    - now rewrite (N.lxor_comm d), N.lxor_assoc, N.lxor_nilpotent. }
  destruct deltas as [|d1 [|d2 l]]; [cbn; lia|cbn; lia|]. exfalso.
  assert (E : HB (N.lxor (nth j labels 0%N) d1) = HB (N.lxor (nth j labels 0%N) d2)).
  { rewrite !V; [reflexivity|right; now left|now left]. }
  injection E as E. apply (f_equal (N.lxor (nth j labels 0%N))) in E. rewrite <- !N.lxor_assoc, N.lxor_nilpotent, !N.lxor_0_l in E.
  subst d2. inversion ND as [|? ? Hn _]. apply Hn. now left.
Qed.
(** a claimed word not congruent to the authenticated field value matches for at most two arithmetic keys
    (one if it is below 2^63), whatever the prover hashes *)
Theorem C29_field_claim_keys : forall m x v h deltas, (m < prm)%N -> (x < prm)%N -> (v < 2 ^ 64)%N -> (v mod prm)%N <> x -> NoDup deltas ->
  (forall d, In d deltas -> (d < prm)%N /\ op_recv_fp d (fsub m (x * d)) v = h) ->
  length deltas <= 2 /\ ((v < 2 ^ 63)%N -> length deltas <= 1).
Proof.
  intros m x v h deltas Hm Hx Hv Hne ND H.
  destruct deltas as [|d0 ds]; [cbn; lia|].
  destruct (H d0 (or_introl eq_refl)) as [_ E0]. unfold op_recv_fp in E0.
  set (s := add_mod (lo64 (fsub m (x * d0))) (mult_mod v (lo64 d0))) in E0.
  apply (reveal_bound ((toF m, toF x), v) (d0 :: ds) s); auto.
  - cbn [fst snd]. intro E. apply Hne. apply toF_eq in E. now rewrite (N.mod_small x) in E by exact Hx.
  - intros d Hi. destruct (H d Hi) as [L E]. split; [exact L|]. rewrite <- E0 in E. injection E as E. rewrite <- E.
    unfold rev_mac. cbn [fst snd]. rewrite (lo_id d) by (apply N.lt_le_incl; exact L). rewrite lo_id by (apply N.lt_le_incl, fsub_lt).
    assert (Q : fv (psub (toF m) (pmul (toF x) (toF d))) = fsub m (x * d)).
    { rewrite <- toF_mul, <- fsub_F, fv_toF. apply N.mod_small, fsub_lt. }
    unfold kf. cbn [fst snd]. rewrite Q. unfold add_mod, add64. now rewrite (N.add_comm (mult_mod v d)).
Qed.

(** ** the claims are not range checked *)
(** The boolean check covers bits 0..61 of the claimed word, the arithmetic one all 64 bits modulo p, and
    2^62 = 2 (mod p).  A prover that shifts the field half of all delivered masks by 2 is accepted for every offset, for
    a third of the keys, and both conversions are then wrong by 2. *)
Theorem C29_shifted_masks_refuted : forall NN C ap ak bl bk sl sk d2 df r wb,
  1 <= NN -> r < ell_faulty NN 2 C -> r + C <= ell_faulty NN 2 C -> (3 * df < prm)%N ->
  let partner i := NN + (r + C + i) mod ell_faulty NN 2 C in
  (forall i, i < ell NN 2 C -> share_ok df (ap i) (ak i)) ->
  (forall i, i < ell NN 2 C -> bauth d2 (bl i) (bk i) (wb i)) ->
  (forall i, i < NN -> bauth d2 (sl i) (sk i) (bucket_f2 (wb i) (wb (partner i)))) ->
  (forall i, i < NN -> hi64 (ap i) = (wb i + 2)%N) ->
  (forall i, NN <= i < ell NN 2 C -> wb i = hi64 (ap i)) ->
  (exists msgs, gen_ver NN C ak bk sk d2 df r msgs = snd (gen_prv NN C ap bl sl r)) /\
  (forall i a k, i < NN -> share_ok df a k ->
     a2b_recv df (ak i) k (fst (a2b_open (ap i) a)) = snd (a2b_open (ap i) a) /\
     a2b_out (fst (a2b_open (ap i) a)) (wb i) = ((hi64 a + 2) mod prm)%N) /\
  (forall i x, i < NN -> (x < prm)%N -> hi64 (snd (b2a_prv x (wb i) (ap i))) = ((x + 2) mod prm)%N).
Proof.
  intros NN C ap ak bl bk sl sk d2 df r wb HN Hr HC Hdf pn Hsh Hb Hs Hw Hw'.
  assert (E : forall i, pn i = partner NN 2 C r 0 i).
  { intro i. unfold pn, partner. change (Bm1 2) with 1. now rewrite Nat.add_0_r, Nat.mul_1_r. }
  assert (Hs' : forall i, i < NN -> bauth d2 (sl i) (sk i) (bucket_f2 (wb i) (wb (partner NN 2 C r 0 i)))).
  { intros i Hi. rewrite <- E. now apply Hs. }
  assert (Hdp : (df < PR)%N) by (change prm with PR in Hdf; lia).
  assert (HL : forall i, i < NN -> i < ell NN 2 C) by (unfold ell; lia).
  split; [|split].
  - exists (shift_msgs NN C ap r wb). now apply shifted_accepted.
  - intros i a k Hi A. destruct (add_share df _ _ _ _ (Hsh i (HL i Hi)) A) as [B1 B2].
    split; [now apply open_fp_honest|]. unfold a2b_open, op_send_fp. cbn [fst]. rewrite B2.
    apply share_F in A. destruct A as ((A1 & _) & _).
    assert (W : (wb i + 2 < PR)%N) by (rewrite <- (Hw i Hi); pose proof (Hsh i (HL i Hi)) as S; apply share_F in S; apply S).
    rewrite a2b_ok by (try (apply N.mod_upper_bound; discriminate); lia). rewrite (Hw i Hi).
    rewrite N.add_mod_idemp_l by discriminate. change prm with PR.
    replace (wb i + 2 + hi64 a + (PR - wb i))%N with (hi64 a + 2 + 1 * PR)%N by lia. now rewrite N.mod_add by discriminate.
  - intros i x Hi Hx.
    assert (W : (wb i + 2 < PR)%N) by (rewrite <- (Hw i Hi); pose proof (Hsh i (HL i Hi)) as S; apply share_F in S; apply S).
    unfold b2a_prv. cbv zeta. cbn [snd]. rewrite diff_ok by (try exact Hx; lia).
    assert (HD : ((x + (PR - wb i)) mod PR < PR)%N) by (apply N.mod_upper_bound; discriminate).
    destruct (addc_share df (ap i) (ak i) _ (Hsh i (HL i Hi)) (N.lt_le_incl _ _ HD) Hdp) as [_ ->].
    rewrite (Hw i Hi), N.add_mod_idemp_r by discriminate. change prm with PR.
    replace (wb i + 2 + (x + (PR - wb i)))%N with (x + 2 + 1 * PR)%N by lia. now rewrite N.mod_add by discriminate.
Qed.
(** A boolean mask a + p (in place of a) gives the bucket sum of an honest one when a + b < p, and arith2bool with it
    returns x + 2 for p - a <= x <= p - 2. *)
Theorem C29_noncanonical_mask_refuted : forall a b x, (2 <= a)%N -> (a + b < prm)%N -> (prm <= x + a)%N -> (x + 2 <= prm)%N ->
  bucket_f2 (a + prm) b = bucket_f2 a b /\ a2b_out ((x + a) mod prm)%N (a + prm)%N = (x + 2)%N.
Proof.
  intros a b x Ha Hab H Hx. change prm with PR in *. split.
  - rewrite bucket_noncanonical by assumption. rewrite bucket_ok by lia.
    destruct (N.eqb_spec (a + b) PR); [lia|]. symmetry. apply N.mod_small. lia.
  - apply out_noncanonical_mask; lia.
Qed.

(** a run with two delivered masks, two openings, offset 1; honest, and with masks shifted by 2 *)
Section Demo.
  Let d2 : N := 987654321987654321987654321%N.
  Let df : N := 123456789012345678%N.
  Let f (i : nat) : N := ((N.of_nat (i * i + 5 * i + 3) * 1000000007 * 998244353) mod prm)%N.
  Let m (i : nat) : N := ((N.of_nat (i * i * i + 11) * 1000000009 * 1000003) mod prm)%N.
  Let ap (i : nat) : N := mkblock (f i) (m i).
  Let ak (i : nat) : N := fsub (m i) (f i * df).
  Let lab (s : nat) : list N := map (fun j => N.of_nat s * 1000 + N.of_nat j * N.of_nat j + 7)%N (seq 0 62).
  Let pn (i : nat) : nat := 2 + (1 + 2 + i) mod 4.
  Let run (wb : nat -> N) (msgs : list (list N)) : bool :=
    let sums i := bucket_f2 (wb i) (wb (pn i)) in
    let bl i := lab i in let bk i := keys_of (lab i) (wb i) d2 in
    let sl i := lab (50 + i) in let sk i := keys_of (lab (50 + i)) (sums i) d2 in
    if list_eq_dec (fun a b : hitem => ltac:(decide equality; apply N.eq_dec))
         (gen_ver 2 2 ak bk sk d2 df 1 msgs) (snd (gen_prv 2 2 ap bl sl 1)) then true else false.
  Example C29_example :
    run f (fst (gen_prv 2 2 ap lab (fun i => lab (50 + i)) 1)) = true /\
    (let wb i := if Nat.ltb i 2 then (f i - 2)%N else f i in run wb (shift_msgs 2 2 ap 1 wb) = true) /\
    (let wb i := if Nat.ltb i 2 then (f i - 2)%N else f i in run wb (fst (gen_prv 2 2 ap lab (fun i => lab (50 + i)) 1)) = false) /\
    (forall i, i < 6 -> share_ok df (ap i) (ak i)).
  Proof.
    split; [vm_compute; reflexivity|]. split; [vm_compute; reflexivity|]. split; [vm_compute; reflexivity|].
    intros i Hi. do 6 (destruct i as [|i]; [vm_compute; repeat split|]). lia.
  Qed.
End Demo.

Print Assumptions C26_bool2arith.
Print Assumptions C26_arith2bool.
Print Assumptions C26_batches.
Print Assumptions C26_out_of_range_refuted.
Print Assumptions C26_noncanonical_sum_refuted.
Print Assumptions C27_masks_in_order.
Print Assumptions C27_no_reuse.
Print Assumptions C27_batch_is_singles.
Print Assumptions C27_in_bounds.
Print Assumptions C28_partition.
Print Assumptions C28_offsets_drawn.
Print Assumptions C28_opening_in_bounds_iff.
Print Assumptions C28_received_offset_refuted.
Print Assumptions C28_last_offset_refuted.
Print Assumptions C29_bucket_sums.
Print Assumptions C29_honest_generation.
Print Assumptions C29_bucket_sound.
Print Assumptions C29_boolean_claim_keys.
Print Assumptions C29_field_claim_keys.
Print Assumptions C29_shifted_masks_refuted.
Print Assumptions C29_noncanonical_mask_refuted.
