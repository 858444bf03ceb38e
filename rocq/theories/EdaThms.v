(** Mask generation: acceptance condition, honest runs, wrong runs; partition of the candidates. *)
From Coq Require Import NArith List Bool Arith Lia Ring Permutation.
From Verif Require Import Word WordProofs FpModel FpProofs ListUtil Prime61 ArithModel ArithSpec ArithProofs CopeProofs
  EdaModel EdaSpec EdaStock EdaProofs.
Import ListNotations.
Ltac Zify.zify_post_hook ::= idtac.
Add Ring fp_ring : fp_rt.

(** * The candidates are partitioned *)
Section Part.
  Variables (NN B C pt r : nat).
  Hypotheses (HN : 1 <= NN) (HB : 2 <= B) (Hr : r + C <= ell_faulty NN B C) (Hr' : r < ell_faulty NN B C).
  Lemma opened_slots : map fst (opened NN C pt r) = map (fun k => NN + (r + k) mod ell_faulty NN B C) (seq 0 C).
  Proof.
    rewrite opened_ok, map_map. apply map_ext_in. intros k Hk. apply in_seq in Hk. cbn [fst].
    rewrite Nat.mod_small by lia. reflexivity.
  Qed.
  Lemma partner_slots : map (fun e => fst (snd e)) (buckets NN B C pt r) =
    flat_map (fun j => map (fun i => partner NN B C r j i) (seq 0 NN)) (seq 0 (Bm1 B)).
  Proof.
    rewrite buckets_ok by assumption. rewrite !flat_map_concat_map, concat_map, map_map. f_equal. apply map_ext. intro j.
    rewrite map_map. reflexivity.
  Qed.
  Theorem partition : Permutation (seq NN (ell NN B C - NN)) (map fst (opened NN C pt r) ++ map (fun e => fst (snd e)) (buckets NN B C pt r)).
  Proof.
    destruct (F_eq NN B C HN HB) as [EF EL]. rewrite opened_slots, partner_slots. apply NoDup_Permutation_bis.
    - apply seq_NoDup.
    - rewrite app_length, map_length, seq_length.
      assert (Q : forall l, length (flat_map (fun j => map (fun i => partner NN B C r j i) (seq 0 NN)) l) = length l * NN).
      { induction l; [reflexivity|]. cbn [flat_map length]. rewrite app_length, map_length, seq_length, IHl. reflexivity. }
      rewrite Q, !seq_length. lia.
    - intros x Hx. apply in_seq in Hx. apply in_or_app.
      destruct (slot_cases NN B C HN HB r x) as [(k & Hk & ->)|(j & i & Hj & Hi & ->)]; [lia| |].
      + left. apply in_map_iff. exists k. split; [reflexivity|]. apply in_seq. lia.
      + right. apply in_flat_map. exists j. split; [apply in_seq; lia|]. apply in_map_iff. exists i. split; [reflexivity|]. apply in_seq. lia.
  Qed.
  Theorem aligned_halves :
    (forall e, In e (opened NN C pt r) -> snd e = pt + fst e) /\
    (forall e, In e (buckets NN B C pt r) -> snd (snd e) = pt + fst (snd e)).
  Proof.
    split.
    - rewrite opened_ok. intros e H. apply in_map_iff in H. destruct H as (i & <- & _). reflexivity.
    - rewrite buckets_ok by assumption. intros e H. apply in_flat_map in H. destruct H as (j & _ & H).
      apply in_map_iff in H. destruct H as (i & <- & _). reflexivity.
  Qed.
  Theorem delivered_checked : map fst (buckets NN B C pt r) = flat_map (fun _ => seq 0 NN) (seq 0 (Bm1 B)).
  Proof.
    rewrite buckets_ok by assumption. rewrite !flat_map_concat_map, concat_map, map_map. f_equal. apply map_ext. intro j.
    rewrite map_map. cbn [fst]. apply map_id.
  Qed.
End Part.
Lemma last_offset NN pt : 1 <= NN -> let F := ell_faulty NN 2 2 in
  In (ell NN 2 2, pt + ell NN 2 2) (opened NN 2 pt (F - 1)) /\
  ~ In NN (map fst (opened NN 2 pt (F - 1)) ++ map (fun e => fst (snd e)) (buckets NN 2 2 pt (F - 1))).
Proof.
  intros HN F. destruct (F_eq NN 2 2 HN ltac:(lia)) as [EF EL]. unfold Bm1 in EF. fold F in EF, EL.
  split.
  - cbn [opened seq map]. right. left. f_equal; lia.
  - intro H. apply in_app_or in H. destruct H as [H|H].
    + cbn [opened seq map] in H. destruct H as [H|[H|[]]]; cbn [fst] in H; lia.
    + rewrite partner_slots in H by lia. apply in_flat_map in H. destruct H as (j & Hj & H). apply in_seq in Hj. unfold Bm1 in Hj.
      apply in_map_iff in H. destruct H as (i & H & Hi). apply in_seq in Hi. unfold partner, Bm1 in H. fold F in H.
      destruct (divmod_unique F (F - 1 + 2 + j + i * (2 - 1)) 1 (1 + i)) as [_ M]; [lia|lia|lia].
Qed.

(** * Generation with B = 2 *)
Section Gen.
  Variables (NN C : nat) (ap ak : nat -> N) (bl bk sl sk : nat -> list N) (d2 df : N) (r : nat).
  Hypotheses (HN : 1 <= NN) (Hr : r < ell_faulty NN 2 C).
  Notation k i := (partner NN 2 C r 0 i).
  Lemma bs_eq : combine (seq 0 (length (buckets NN 2 C 0 r))) (buckets NN 2 C 0 r) = map (fun i => (i, (i, (k i, k i)))) (seq 0 NN).
  Proof.
    rewrite buckets_ok by (assumption || lia). change (seq 0 (Bm1 2)) with [0]. cbn [flat_map]. rewrite app_nil_r, map_length, seq_length.
    assert (Q : forall n s, combine (seq s n) (map (fun i => (i, (k i, k i))) (seq s n)) = map (fun i => (i, (i, (k i, k i)))) (seq s n)).
    { induction n; intro s; [reflexivity|]. cbn [seq map combine]. now rewrite IHn. }
    exact (Q NN 0).
  Qed.
  Definition addp i := fp_add_prv (ap i) (ap (k i)).
  Definition addv i := fp_add_ver (ak i) (ak (k i)).
  Notation opn i := (NN + (r + i)).
  Lemma gen_prv_eq : gen_prv NN C ap bl sl r =
    (let o := op_send_both (map (fun i => (bl (opn i), ap (opn i))) (seq 0 C)) in
     let b := op_send_both (map (fun i => (sl i, addp i)) (seq 0 NN)) in ([fst o; fst b], snd o ++ snd b)).
  Proof.
    unfold gen_prv. rewrite bs_eq, opened_ok, !map_map. reflexivity.
  Qed.
  Lemma gen_ver_eq vo vb : gen_ver NN C ak bk sk d2 df r [vo; vb] =
    op_recv_both d2 df (map (fun i => (bk (opn i), ak (opn i))) (seq 0 C)) vo ++
    op_recv_both d2 df (map (fun i => (sk i, addv i)) (seq 0 NN)) vb.
  Proof. unfold gen_ver. rewrite bs_eq, opened_ok, !map_map. reflexivity. Qed.
  Variable wb : nat -> N.
  Hypothesis Hb : forall i, i < ell NN 2 C -> bauth d2 (bl i) (bk i) (wb i).
  Hypothesis Hs : forall i, i < NN -> bauth d2 (sl i) (sk i) (bucket_f2 (wb i) (wb (k i))).
  Hypothesis HrC : r + C <= ell_faulty NN 2 C.
  Lemma opn_lt i : In i (seq 0 C) -> opn i < ell NN 2 C.
  Proof. intro H. apply in_seq in H. destruct (F_eq NN 2 C HN ltac:(lia)) as [_ E]. lia. Qed.
  Theorem gen_accepts (vo vb : nat -> N) :
    (forall i, i < C -> same62 (vo i) (wb (opn i)) /\ op_recv_fp df (ak (opn i)) (vo i) = [HW (lo64 (ap (opn i)))]) ->
    (forall i, i < NN -> same62 (vb i) (bucket_f2 (wb i) (wb (k i))) /\ op_recv_fp df (addv i) (vb i) = [HW (lo64 (addp i))]) ->
    gen_ver NN C ak bk sk d2 df r [map vo (seq 0 C); map vb (seq 0 NN)] = snd (gen_prv NN C ap bl sl r).
  Proof.
    intros Ho Hk. rewrite gen_ver_eq, gen_prv_eq. cbn zeta. cbn [snd]. apply f_equal2.
    - apply (both_ok d2 df (seq 0 C) _ _ _ _ (fun i => wb (opn i))). intros i Hi. split; [apply Hb; now apply opn_lt|].
      apply in_seq in Hi. now apply Ho.
    - apply (both_ok d2 df (seq 0 NN) _ _ _ _ (fun i => bucket_f2 (wb i) (wb (k i)))). intros i Hi. apply in_seq in Hi.
      split; [apply Hs; lia|]. now apply Hk.
  Qed.
  Theorem gen_accepts_inv (vo vb : nat -> N) : d2 <> 0%N ->
    gen_ver NN C ak bk sk d2 df r [map vo (seq 0 C); map vb (seq 0 NN)] = snd (gen_prv NN C ap bl sl r) ->
    (forall i, i < C -> same62 (vo i) (wb (opn i)) /\ op_recv_fp df (ak (opn i)) (vo i) = [HW (lo64 (ap (opn i)))]) /\
    (forall i, i < NN -> same62 (vb i) (bucket_f2 (wb i) (wb (k i))) /\ op_recv_fp df (addv i) (vb i) = [HW (lo64 (addp i))]).
  Proof.
    intros Hd E. rewrite gen_ver_eq, gen_prv_eq in E. cbn zeta in E. cbn [snd] in E. apply app_inj_len in E.
    - destruct E as [E1 E2]. split; intros i Hi.
      + apply (both_inv d2 df (seq 0 C) _ _ _ _ (fun i => wb (opn i)) vo Hd (fun j Hj => Hb _ (opn_lt j Hj)) E1). apply in_seq. lia.
      + apply (both_inv d2 df (seq 0 NN) (fun i => sl i) (fun i => sk i) (fun i => addp i) (fun i => addv i) (fun i => bucket_f2 (wb i) (wb (k i))) vb Hd); [|exact E2|apply in_seq; lia].
        intros j Hj. apply in_seq in Hj. apply Hs. lia.
    - apply (recv_both_len d2 df (seq 0 C) (fun i => bl (opn i)) (fun i => bk (opn i)) (fun i => ap (opn i))). intros i Hi.
      destruct (Hb _ (opn_lt i Hi)) as (L1 & L2 & _). congruence.
  Qed.
End Gen.
Lemma same62_refl v : same62 v v. Proof. intros j _. reflexivity. Qed.
Lemma same62_mod_eq v w : same62 v w <-> (v mod I62 = w mod I62)%N.
Proof.
  split.
  - intro H. apply N.bits_inj. intro j. change I62 with (2 ^ 62)%N. destruct (N.lt_ge_cases j 62) as [L|L].
    + rewrite !N.mod_pow2_bits_low by exact L. specialize (H (N.to_nat j)). rewrite N2Nat.id in H. apply H. lia.
    + now rewrite !N.mod_pow2_bits_high by exact L.
  - intros E j Hj. rewrite <- (same62_mod v j Hj), <- (same62_mod w j Hj). now rewrite E.
Qed.
(** honest masks: boolean value = field value *)
Section Honest.
  Variables (NN C : nat) (ap ak : nat -> N) (bl bk sl sk : nat -> list N) (d2 df : N) (r : nat).
  Hypotheses (HN : 1 <= NN) (HrC : r + C <= ell_faulty NN 2 C) (Hr : r < ell_faulty NN 2 C) (Hdf : (df < PR)%N).
  Notation k i := (partner NN 2 C r 0 i).
  Hypothesis Hsh : forall i, i < ell NN 2 C -> share_ok df (ap i) (ak i).
  Hypothesis Hb : forall i, i < ell NN 2 C -> bauth d2 (bl i) (bk i) (hi64 (ap i)).
  Hypothesis Hs : forall i, i < NN -> bauth d2 (sl i) (sk i) (bucket_f2 (hi64 (ap i)) (hi64 (ap (k i)))).
  Lemma hi_lt i : i < ell NN 2 C -> (hi64 (ap i) < PR)%N.
  Proof. intro H. apply Hsh in H. apply share_F in H. apply H. Qed.
  Lemma NN_lt i : i < NN -> i < ell NN 2 C.
  Proof. unfold ell. lia. Qed.
  Lemma k_lt i : k i < ell NN 2 C.
  Proof. apply partner_range; lia. Qed.
  Lemma msgs_eq : fst (gen_prv NN C ap bl sl r) =
    [map (fun i => hi64 (ap (NN + (r + i)))) (seq 0 C); map (fun i => hi64 (addp NN C ap r i)) (seq 0 NN)].
  Proof. rewrite gen_prv_eq by assumption. cbn zeta. unfold op_send_both. cbn [fst]. now rewrite !map_map. Qed.
  Theorem honest_gen : d2 <> 0%N ->
    (gen_ver NN C ak bk sk d2 df r (fst (gen_prv NN C ap bl sl r)) = snd (gen_prv NN C ap bl sl r) <->
     forall i, i < NN -> (hi64 (ap i) + hi64 (ap (k i)) <> PR)%N).
  Proof.
    intro Hd. rewrite msgs_eq. split.
    - intros E i Hi Q.
      destruct (gen_accepts_inv NN C ap ak bl bk sl sk d2 df r HN Hr (fun i => hi64 (ap i)) Hb Hs HrC _ _ Hd E) as [_ H].
      destruct (H i Hi) as [H1 _]. apply same62_mod_eq in H1. cbn beta in H1.
      rewrite bucket_ok, Q, N.eqb_refl in H1 by (apply hi_lt; first [now apply NN_lt | apply k_lt]).
      destruct (add_share df _ _ _ _ (Hsh i (NN_lt i Hi)) (Hsh (k i) (k_lt i))) as [_ A]. unfold addp in H1. rewrite A, Q in H1. discriminate H1.
    - intro Hne. apply (gen_accepts NN C ap ak bl bk sl sk d2 df r HN Hr (fun i => hi64 (ap i)) Hb Hs HrC).
      + intros i Hi. split; [apply same62_refl|]. apply (open_fp_honest df (ap (NN + (r + i)))); [|exact Hdf].
        apply Hsh. destruct (F_eq NN 2 C HN ltac:(lia)) as [_ EL]. lia.
      + intros i Hi. destruct (add_share df _ _ _ _ (Hsh i (NN_lt i Hi)) (Hsh (k i) (k_lt i))) as [A1 A2]. split.
        * unfold addp. rewrite A2, bucket_ok by (apply hi_lt; first [now apply NN_lt | apply k_lt]).
          destruct (N.eqb_spec (hi64 (ap i) + hi64 (ap (k i))) PR) as [Q|Q]; [now apply Hne in Q|]. apply same62_refl.
        * now apply (open_fp_honest df (addp NN C ap r i)).
  Qed.
End Honest.
(** shifted masks: the boolean half of every delivered mask is the field half minus 2 *)
Section Shift.
  Variables (NN C : nat) (ap ak : nat -> N) (bl bk sl sk : nat -> list N) (d2 df : N) (r : nat) (wb : nat -> N).
  Hypotheses (HN : 1 <= NN) (HrC : r + C <= ell_faulty NN 2 C) (Hr : r < ell_faulty NN 2 C) (Hdf : (3 * df < PR)%N).
  Notation k i := (partner NN 2 C r 0 i).
  Hypothesis Hsh : forall i, i < ell NN 2 C -> share_ok df (ap i) (ak i).
  Hypothesis Hb : forall i, i < ell NN 2 C -> bauth d2 (bl i) (bk i) (wb i).
  Hypothesis Hs : forall i, i < NN -> bauth d2 (sl i) (sk i) (bucket_f2 (wb i) (wb (k i))).
  Hypothesis Hw : forall i, i < NN -> (hi64 (ap i) = wb i + 2)%N.
  Hypothesis Hw' : forall i, NN <= i < ell NN 2 C -> wb i = hi64 (ap i).
  Definition shift_msgs : list (list N) :=
    [map (fun i => hi64 (ap (NN + (r + i)))) (seq 0 C); map (fun i => bucket_f2 (wb i) (wb (k i)) + I62)%N (seq 0 NN)].
  Theorem shifted_accepted :
    gen_ver NN C ak bk sk d2 df r shift_msgs = snd (gen_prv NN C ap bl sl r).
  Proof.
    assert (Hdp : (df < PR)%N) by lia.
    assert (Hhi : forall i, i < ell NN 2 C -> (hi64 (ap i) < PR)%N) by (intros i Hi; apply Hsh in Hi; apply share_F in Hi; apply Hi).
    apply (gen_accepts NN C ap ak bl bk sl sk d2 df r HN Hr wb Hb Hs HrC).
    - intros i Hi. destruct (F_eq NN 2 C HN ltac:(lia)) as [_ EL]. rewrite Hw' by lia. split; [apply same62_refl|].
      apply (open_fp_honest df (ap (NN + (r + i)))); [|exact Hdp]. apply Hsh. lia.
    - intros i Hi. assert (Hi' : i < ell NN 2 C) by (unfold ell; lia).
      pose proof (partner_range NN 2 C HN ltac:(lia) r 0 i) as Hk.
      assert (W1 : (wb i < PR)%N) by (pose proof (Hhi i Hi') as Q; rewrite (Hw i Hi) in Q; lia).
      assert (W2 : (wb (k i) < PR)%N) by (rewrite Hw' by exact Hk; now apply Hhi).
      pose proof (bucket_lt _ _ W1 W2) as BL. split.
      + apply same62_mod_eq. rewrite <- (N.mul_1_l I62) at 1. now rewrite N.mod_add by discriminate.
      + destruct (add_share df _ _ _ _ (Hsh i Hi') (Hsh (k i) ltac:(lia))) as [A1 A2].
        apply open_fp; [exact A1|exact Hdp| |].
        * apply N.le_lt_trans with (6917529027641081855 * df)%N.
          -- apply N.mul_le_mono_r. eapply N.le_trans; [apply N.add_le_mono_r; exact BL|]. discriminate.
          -- change (2 ^ 122 - 1)%N with 5316911983139663491615228241121378303%N. unfold PR in Hdf. lia.
        * unfold addp. rewrite A2, (Hw i Hi), <- (Hw' (k i)) by exact Hk. rewrite bucket_ok by assumption.
          transitivity ((wb i + wb (k i) + 2) mod PR)%N; [|f_equal; lia].
          assert (Q : forall s t, (s mod PR = t mod PR)%N -> ((s + I62) mod PR = (t + 2) mod PR)%N).
          { intros s t E. rewrite N.add_mod, E by discriminate. rewrite (N.add_mod t 2) by discriminate. reflexivity. }
          apply Q. destruct (N.eqb_spec (wb i + wb (k i)) PR) as [E|E]; [now rewrite E|]. now rewrite N.mod_mod.
  Qed.
End Shift.
(** a boolean mask not below p *)
Lemma bucket_noncanonical a b : (a + b < PR)%N -> (2 <= a)%N -> bucket_f2 (a + PR) b = (a + b)%N.
Proof.
  intros H Ha. unfold bucket_f2. cbv zeta. assert (HP : (PR = 2305843009213693951)%N) by reflexivity.
  assert (HI : (I62 = 4611686018427387904)%N) by reflexivity.
  assert (E : (iadd (a + PR) b = a + PR + b)%N) by (apply N.mod_small; lia). rewrite E, itop_ok by lia.
  replace (2305843009213693952 <=? a + PR + b)%N with true by (symmetry; apply N.leb_le; lia). cbn [isel].
  unfold boo_pr2. rewrite iadd_over by lia. lia.
Qed.
Lemma out_noncanonical_mask a x : (2 <= a)%N -> (a < PR)%N -> (PR <= x + a)%N -> (x + 2 <= PR)%N ->
  a2b_out ((x + a) mod PR) (a + PR) = (x + 2)%N.
Proof.
  intros Ha Ha' H Hx. assert (HP : (PR = 2305843009213693951)%N) by reflexivity.
  assert (HI : (I62 = 4611686018427387904)%N) by reflexivity.
  replace (x + a)%N with ((x + a - PR) + 1 * PR)%N by lia. rewrite N.mod_add by discriminate. rewrite N.mod_small by lia.
  rewrite out_diff by lia. unfold b2a_diff. cbv zeta. rewrite isub_lt by lia. rewrite itop_ok by lia.
  replace (I62 - (a + PR - (x + a - PR)))%N with (x + 2)%N by lia.
  replace (2305843009213693952 <=? x + 2)%N with false by (symmetry; apply N.leb_gt; lia). reflexivity.
Qed.
Lemma out_noncanonical_sum a r : (2 <= a)%N -> (r + a < PR)%N -> a2b_out (r + a + PR) r = (a - 2)%N.
Proof.
  intros Ha H. assert (HP : (PR = 2305843009213693951)%N) by reflexivity.
  assert (HI : (I62 = 4611686018427387904)%N) by reflexivity.
  rewrite out_diff by lia. unfold b2a_diff. cbv zeta. rewrite isub_ge by lia. rewrite itop_ok by lia.
  replace (2305843009213693952 <=? r + a + PR - r)%N with true by (symmetry; apply N.leb_le; lia). cbn [isel].
  unfold boo_pr. rewrite iadd_over by lia. lia.
Qed.
(** a partner with equal halves forces the delivered mask to have equal halves *)
Lemma bucket_sound w f wk fk v : (w < PR -> f < PR -> wk < PR -> fk < PR -> v < PR ->
  same62 v (bucket_f2 w wk) -> v mod PR = (f + fk) mod PR -> wk = fk -> w = f)%N.
Proof.
  intros Hw Hf Hwk Hfk Hv S E Q. subst wk. assert (HP : (PR = 2305843009213693951)%N) by reflexivity.
  assert (HI : (I62 = 4611686018427387904)%N) by reflexivity.
  apply same62_mod_eq in S. pose proof (bucket_lt w fk Hw Hwk) as BL. rewrite (N.mod_small v) in S by now apply PR_I62.
  rewrite (N.mod_small (bucket_f2 w fk)) in S by (eapply N.le_lt_trans; [exact BL|reflexivity]).
  rewrite bucket_ok in S by assumption. destruct (N.eqb_spec (w + fk) PR) as [Z|Z]; [lia|].
  rewrite (N.mod_small v) in E by exact Hv. rewrite S in E.
  apply (f_equal toF) in E. rewrite !toF_mod, !toF_add in E.
  apply toF_inj; [exact Hw|exact Hf|].
  transitivity (psub (padd (toF w) (toF fk)) (toF fk)); [ring|rewrite E; ring].
Qed.
