(** Which pseudo-random words the local linear expansion uses: every position gets its own. *)
From Coq Require Import NArith ZArith Lia List Bool Arith.
From Verif Require Import Word FpModel WordProofs FpProofs TreeModel TreeProofs VoleModel ArithSpec VoleSpec LpnProofs VoleThms2.
From Verif Require Import GF128 VoleF2kModel VoleF2kSpec VoleF2kProofs.
Import ListNotations.
Local Open Scope nat_scope.
Ltac Zify.zify_post_hook ::= idtac.

(** reduction of a 32-bit word to an index below k: low bits, one conditional subtraction *)
Definition lpn_index (k : nat) (x : N) : nat :=
  let r := N.to_nat (x mod 2 ^ N.size (N.of_nat k))%N in if r <? k then r else r - k.
Lemma size_unique k h : (1 <= k)%N -> (k <= 2 ^ h - 1)%N -> (2 ^ h <= 2 * k)%N -> h = N.size k.
Proof.
  intros H1 H2 H3. assert (P : (0 < 2 ^ h)%N) by (apply N.neq_0_lt_0, N.pow_nonzero; discriminate).
  rewrite N.size_log2 by lia.
  assert (h <> 0)%N by (intros ->; change (2 ^ 0)%N with 1%N in *; lia).
  assert (E : (N.log2 k = h - 1)%N); [|lia].
  apply N.log2_unique; [lia|]. replace (N.succ (h - 1)) with h by lia. split; [|lia].
  replace h with (N.succ (h - 1)) in H3 by lia. rewrite N.pow_succ_r' in H3. lia.
Qed.
Lemma lpn_idx_spec word k i w : 1 <= k -> (N.of_nat k < 2 ^ 31)%N -> lpn_idx word k i w = lpn_index k (word i w).
Proof.
  intros Hk Hk31. unfold lpn_idx, lpn_index. destruct (k_mask_ok k Hk Hk31) as [h [-> [A B]]].
  rewrite N.land_ones, (size_unique (N.of_nat k) h) by (auto; lia).
  set (r := N.to_nat _). destruct (Nat.leb_spec k r), (Nat.ltb_spec r k); lia.
Qed.

(** * the words of a task: [w4 l t] is the word of lane l, edge t in a block of four *)
Section Words.
  Variable w4 : nat -> nat -> nat.
  Hypothesis w4_inj : forall l t l' t', l < 4 -> l' < 4 -> t < 10 -> t' < 10 -> w4 l t = w4 l' t' -> l = l' /\ t = t'.
  Fixpoint task_words (fuel j e p : nat) : list (nat * nat) :=
    match fuel with
    | 0 => []
    | S f => if j + 4 <? e
             then (if inb j (j + 4) p then map (fun t => (j, w4 (p - j) t)) (seq 0 10) else []) ++ task_words f (j + 4) e p
             else if j <? e then (if p =? j then map (fun t => (j, t)) (seq 0 10) else []) ++ task_words f (S j) e p
             else []
    end.
  Lemma words_fst fuel : forall j e p q, In q (task_words fuel j e p) -> j <= fst q <= p /\ p < e.
  Proof.
    induction fuel as [|f IH]; intros j e p q Hq; cbn [task_words] in Hq; [destruct Hq|].
    destruct (Nat.ltb_spec (j + 4) e); [|destruct (Nat.ltb_spec j e); [|destruct Hq]]; apply in_app_or in Hq as [Hq|Hq].
    - destruct (inb j (j + 4) p) eqn:I; [|destruct Hq]. apply inb_true in I. apply in_map_iff in Hq as [t [<- _]]. cbn. lia.
    - apply IH in Hq. lia.
    - destruct (Nat.eqb_spec p j); [|destruct Hq]. apply in_map_iff in Hq as [t [<- _]]. cbn. lia.
    - apply IH in Hq. lia.
  Qed.
  Lemma words_length fuel : forall j e p, e - j <= fuel -> length (task_words fuel j e p) = if inb j e p then 10 else 0.
  Proof.
    induction fuel as [|f IH]; intros j e p Hf; cbn [task_words].
    - destruct (inb j e p) eqn:I; [apply inb_true in I; lia|reflexivity].
    - destruct (Nat.ltb_spec (j + 4) e); [|destruct (Nat.ltb_spec j e)].
      + rewrite app_length, IH by lia. destruct (inb j (j + 4) p) eqn:I.
        * rewrite map_length, seq_length. apply inb_true in I.
          replace (inb (j + 4) e p) with false; [replace (inb j e p) with true; [reflexivity|]|]; symmetry.
          -- apply inb_true. lia.
          -- apply not_true_is_false. rewrite inb_true. lia.
        * replace (inb j e p) with (inb (j + 4) e p); [reflexivity|]. apply eq_true_iff_eq. rewrite !inb_true.
          assert (~ (j <= p < j + 4)) by (rewrite <- inb_true; now rewrite I). lia.
      + rewrite app_length, IH by lia. destruct (Nat.eqb_spec p j) as [->|Ne].
        * rewrite map_length, seq_length.
          replace (inb (S j) e j) with false; [replace (inb j e j) with true; [reflexivity|]|]; symmetry.
          -- apply inb_true. lia.
          -- apply not_true_is_false. rewrite inb_true. lia.
        * replace (inb j e p) with (inb (S j) e p); [reflexivity|]. apply eq_true_iff_eq. rewrite !inb_true. lia.
      + destruct (inb j e p) eqn:I; [apply inb_true in I; lia|reflexivity].
  Qed.
  Lemma nodup_app {A} (a b : list A) : NoDup a -> NoDup b -> (forall x, In x a -> ~ In x b) -> NoDup (a ++ b).
  Proof.
    induction a as [|x a IH]; cbn; intros H1 H2 Hd; auto. inversion_clear H1. constructor.
    - rewrite in_app_iff. intros [|]; [contradiction|]. eapply Hd; eauto.
    - apply IH; auto.
  Qed.
  Lemma words_nodup fuel : forall j e p, NoDup (task_words fuel j e p).
  Proof.
    induction fuel as [|f IH]; intros j e p; cbn [task_words]; [constructor|].
    destruct (Nat.ltb_spec (j + 4) e); [|destruct (Nat.ltb_spec j e); [|constructor]]; apply nodup_app; auto.
    - destruct (inb j (j + 4) p) eqn:I; [|constructor]. apply inb_true in I.
      assert (G : forall l, (forall t, In t l -> t < 10) -> NoDup l -> NoDup (map (fun t => (j, w4 (p - j) t)) l)).
      { induction l as [|t l IHl]; intros B D; cbn; [constructor|]. inversion_clear D. constructor.
        - rewrite in_map_iff. intros [t' [E Ht]]. injection E as E. apply w4_inj in E; try lia; [|apply B; now right|apply B; now left].
          destruct E as [_ ->]. contradiction.
        - apply IHl; auto. intros; apply B; now right. }
      apply G; [intros t Ht; apply in_seq in Ht; lia|apply seq_NoDup].
    - intros q Hq Hq2. apply words_fst in Hq2. destruct (inb j (j + 4) p); [|destruct Hq]. apply in_map_iff in Hq as [t [<- _]]. cbn in Hq2. lia.
    - destruct (p =? j); [|constructor]. apply FinFun.Injective_map_NoDup; [intros a b E; congruence|apply seq_NoDup].
    - intros q Hq Hq2. apply words_fst in Hq2. destruct (p =? j); [|destruct Hq]. apply in_map_iff in Hq as [t [<- _]]. cbn in Hq2. lia.
  Qed.
  Lemma words_own fuel : forall j e p p' q, In q (task_words fuel j e p) -> In q (task_words fuel j e p') -> p = p'.
  Proof.
    induction fuel as [|f IH]; intros j e p p' q H1 H2; cbn [task_words] in *; [destruct H1|].
    destruct (Nat.ltb_spec (j + 4) e); [|destruct (Nat.ltb_spec j e); [|destruct H1]].
    - apply in_app_or in H1, H2.
      assert (X : forall r, In q (if inb j (j + 4) r then map (fun t => (j, w4 (r - j) t)) (seq 0 10) else []) ->
                  j <= r < j + 4 /\ fst q = j /\ exists t, t < 10 /\ snd q = w4 (r - j) t).
      { intros r Hr. destruct (inb j (j + 4) r) eqn:I; [|destruct Hr]. apply inb_true in I. apply in_map_iff in Hr as [t [<- Ht]].
        apply in_seq in Ht. cbn. repeat split; try lia. exists t. split; [lia|reflexivity]. }
      destruct H1 as [H1|H1], H2 as [H2|H2].
      + apply X in H1 as (B1 & _ & t1 & T1 & E1), H2 as (B2 & _ & t2 & T2 & E2). rewrite E1 in E2.
        apply w4_inj in E2; lia.
      + apply X in H1 as (_ & F & _). apply words_fst in H2. lia.
      + apply X in H2 as (_ & F & _). apply words_fst in H1. lia.
      + eapply IH; eauto.
    - apply in_app_or in H1, H2. destruct H1 as [H1|H1], H2 as [H2|H2].
      + destruct (Nat.eqb_spec p j), (Nat.eqb_spec p' j); try easy. lia.
      + destruct (p =? j); [|destruct H1]. apply in_map_iff in H1 as [t [<- _]]. apply words_fst in H2. cbn in H2. lia.
      + destruct (p' =? j); [|destruct H2]. apply in_map_iff in H2 as [t [<- _]]. apply words_fst in H1. cbn in H1. lia.
      + eapply IH; eauto.
  Qed.
  Lemma words_snd fuel (B : forall l t, l < 4 -> t < 10 -> w4 l t < 40) : forall j e p q, In q (task_words fuel j e p) -> snd q < 40.
  Proof.
    induction fuel as [|f IH]; intros j e p q Hq; cbn [task_words] in Hq; [destruct Hq|].
    destruct (Nat.ltb_spec (j + 4) e); [|destruct (Nat.ltb_spec j e); [|destruct Hq]]; apply in_app_or in Hq as [Hq|Hq]; eauto.
    - destruct (inb j (j + 4) p) eqn:I; [|destruct Hq]. apply inb_true in I. apply in_map_iff in Hq as [t [<- Ht]].
      apply in_seq in Ht. cbn. apply B; lia.
    - destruct (Nat.eqb_spec p j); [|destruct Hq]. apply in_map_iff in Hq as [t [<- Ht]]. apply in_seq in Ht. cbn. lia.
  Qed.
  (** all ranges *)
  Definition range_words (rs : list (nat * nat)) (p : nat) : list (nat * nat) :=
    flat_map (fun r => task_words (snd r - fst r) (fst r) (snd r) p) rs.
  Lemma range_words_length rs p : length (range_words rs p) = 10 * hits rs p.
  Proof.
    unfold hits. induction rs as [|[st e] rs IH]; [reflexivity|]. cbn [range_words flat_map filter fst snd].
    rewrite app_length. fold (range_words rs p). rewrite IH, words_length by lia. destruct (inb st e p); cbn [length]; lia.
  Qed.
  (** consecutive ranges of one width *)
  Definition even (w m : nat) : list (nat * nat) := map (fun i => (i * w, (i + 1) * w)) (seq 0 m).
  Lemma even_in w m p q : In q (range_words (even w m) p) ->
    exists i, i < m /\ i * w <= fst q <= p /\ p < (i + 1) * w /\ In q (task_words ((i + 1) * w - i * w) (i * w) ((i + 1) * w) p).
  Proof.
    intro Hq. apply in_flat_map in Hq as [r [Hr Hq]]. apply in_map_iff in Hr as [i [<- Hi]]. apply in_seq in Hi. cbn [fst snd] in Hq.
    exists i. pose proof (words_fst _ _ _ _ _ Hq). repeat split; try lia. exact Hq.
  Qed.
  Lemma even_own w m p p' q : In q (range_words (even w m) p) -> In q (range_words (even w m) p') -> p = p'.
  Proof.
    intros H1 H2. apply even_in in H1 as (i & _ & A1 & B1 & C1), H2 as (i' & _ & A2 & B2 & C2).
    assert (i = i') by nia. subst i'. eapply words_own; eauto.
  Qed.
  Lemma even_nodup w m p : NoDup (range_words (even w m) p).
  Proof.
    unfold even. induction m as [|m IH]; [constructor|]. rewrite seq_S, map_app. unfold range_words. rewrite flat_map_app.
    apply nodup_app; [exact IH| |].
    - cbn [map flat_map]. rewrite app_nil_r. apply words_nodup.
    - intros q H1 H2. fold (range_words (map (fun i => (i * w, (i + 1) * w)) (seq 0 m)) p) in H1. fold (even w m) in H1.
      apply even_in in H1 as (i & Hi & A & B & _). cbn [map flat_map Nat.add fst snd] in H2. rewrite app_nil_r in H2.
      apply words_fst in H2. nia.
  Qed.
End Words.

Definition idxs (word : nat -> nat -> N) (k : nat) (ws : list (nat * nat)) : list nat :=
  map (fun q => lpn_index k (word (fst q) (snd q))) ws.
Lemma idxs_app word k a b : idxs word k (a ++ b) = idxs word k a ++ idxs word k b.
Proof. apply map_app. Qed.
Definition w4p (l t : nat) : nat := 4 * t + l.
Definition w4f (l t : nat) : nat := 10 * l + t.
Section Fp.
  Variables (word : nat -> nat -> N) (k n threads : nat).
  Hypothesis Hk : 1 <= k.
  Hypothesis Hk31 : (N.of_nat k < 2 ^ 31)%N.
  Lemma idxs_edges4 i l : edges4 word k i l = idxs word k (map (fun t => (i, w4p l t)) (seq 0 10)).
  Proof. unfold edges4, idxs. rewrite map_map. apply map_ext. intro t. now apply lpn_idx_spec. Qed.
  Lemma idxs_edges1 i : edges1 word k i = idxs word k (map (fun t => (i, t)) (seq 0 10)).
  Proof. unfold edges1, idxs. rewrite map_map. apply map_ext. intro t. now apply lpn_idx_spec. Qed.
  Section P.
    Variables (party1 : bool) (pre : mem).
    Hypothesis Hpre : forall x, x < k -> okv party1 (pre x).
    Lemma task_as_words fuel : forall j e V, (forall p, j <= p < e -> okv party1 (V p)) ->
      forall p, okv party1 (V p) ->
      task_loop word k fuel j e party1 pre V p = upd party1 pre (V p) (idxs word k (task_words w4p fuel j e p)).
    Proof.
      induction fuel as [|f IH]; intros j e V HV p Hp; cbn [task_loop task_words].
      - symmetry. now apply upd_nil.
      - destruct (Nat.ltb_spec (j + 4) e); [|destruct (Nat.ltb_spec j e)].
        + assert (C : forall p, compute4 word k party1 pre V j p =
                       upd party1 pre (V p) (if inb j (j + 4) p then edges4 word k j (p - j) else []) \/ ~ okv party1 (V p)).
          { intro q. rewrite (compute4_ok word k n Hk Hk31); auto; [|intros l Hl; apply HV; lia]. fold (inb j (j + 4) q).
            destruct (inb j (j + 4) q); [now left|]. destruct party1; cbn [upd okv].
            - destruct (N.ltb_spec (V q) prm) as [L|L]; [left; symmetry; apply (upd_nil true), L|right; unfold canon; lia].
            - destruct (N.ltb_spec (xval (V q)) prm) as [L|L], (N.ltb_spec (mval (V q)) prm) as [L'|L'];
                try (right; unfold block_ok, canon; lia). left. symmetry. apply (upd_nil false). now split. }
          destruct (C p) as [Cp|Cp]; [|contradiction].
          rewrite IH.
          * rewrite Cp, (upd_app word k n Hk Hk31), idxs_app. do 2 f_equal. destruct (inb j (j + 4) p); [apply idxs_edges4|reflexivity].
          * intros q Hq. destruct (C q) as [->|Cq]; [apply (upd_ok word k n Hk Hk31)|]. exfalso. apply Cq. apply HV. lia.
          * rewrite Cp. apply (upd_ok word k n Hk Hk31).
        + rewrite (compute1_ok word k n Hk Hk31) by (auto; apply HV; lia).
          rewrite IH.
          * destruct (Nat.eqb_spec p j) as [->|Ne]; [rewrite mset_eq, (upd_app word k n Hk Hk31), idxs_app; do 2 f_equal; apply idxs_edges1|].
            now rewrite mset_neq.
          * intros q Hq. rewrite mset_neq by lia. apply HV. lia.
          * destruct (Nat.eq_dec p j) as [->|Ne]; [rewrite mset_eq; apply (upd_ok word k n Hk Hk31)|now rewrite mset_neq].
        + symmetry. now apply upd_nil.
    Qed.
    Lemma ranges_as_words rs : forall V, (forall r, In r rs -> snd r <= n) -> (forall p, p < n -> okv party1 (V p)) ->
      forall p, p < n -> run_ranges word k rs party1 pre V p = upd party1 pre (V p) (idxs word k (range_words w4p rs p)).
    Proof.
      unfold run_ranges. induction rs as [|[st e] rs IH]; intros V Hr HV p Hp; cbn [fold_left range_words flat_map].
      - symmetry. apply upd_nil. auto.
      - pose proof (Hr _ (or_introl eq_refl)) as He. cbn [snd] in He. cbn [fst snd].
        assert (T : forall p, p < n -> task word k st e party1 pre V p = upd party1 pre (V p) (idxs word k (task_words w4p (e - st) st e p))).
        { intros q Hq. unfold task. apply task_as_words; auto. intros; apply HV; lia. }
        rewrite IH; auto.
        + rewrite T, (upd_app word k n Hk Hk31), idxs_app by assumption. reflexivity.
        + intros; apply Hr; now right.
        + intros q Hq. rewrite T by assumption. apply (upd_ok word k n Hk Hk31).
    Qed.
  End P.
End Fp.
Lemma lpn_even n threads : lpn_ranges n threads = even (n / (threads + 1)) (threads + 1).
Proof. apply (ranges_eq (fun _ _ => 0%N) 1 n threads); [lia|reflexivity]. Qed.
Lemma lpn_even_le n threads r : In r (lpn_ranges n threads) -> snd r <= n.
Proof.
  rewrite lpn_even. intro H. apply in_map_iff in H as [i [<- Hi]]. apply in_seq in Hi. cbn [snd].
  assert ((threads + 1) * (n / (threads + 1)) <= n) by (apply Nat.mul_div_le; lia). nia.
Qed.
Lemma w4p_inj l t l' t' : l < 4 -> l' < 4 -> t < 10 -> t' < 10 -> w4p l t = w4p l' t' -> l = l' /\ t = t'.
Proof. unfold w4p. lia. Qed.
Lemma w4f_inj l t l' t' : l < 4 -> l' < 4 -> t < 10 -> t' < 10 -> w4f l t = w4f l' t' -> l = l' /\ t = t'.
Proof. unfold w4f. lia. Qed.
(** a selection of words in which nothing is used twice *)
Definition own_words (n threads : nat) (W : nat -> list (nat * nat)) : Prop :=
  (forall p, length (W p) = if p <? (threads + 1) * (n / (threads + 1)) then 10 else 0) /\
  (forall p, NoDup (W p)) /\
  (forall p p' q, In q (W p) -> In q (W p') -> p = p') /\
  (forall p q, In q (W p) -> fst q <= p /\ snd q < 40).
Lemma own_words_ok w4 n threads :
  (forall l t l' t', l < 4 -> l' < 4 -> t < 10 -> t' < 10 -> w4 l t = w4 l' t' -> l = l' /\ t = t') ->
  (forall l t, l < 4 -> t < 10 -> w4 l t < 40) ->
  own_words n threads (range_words w4 (lpn_ranges n threads)).
Proof.
  intros Hi Hb. split; [|split; [|split]].
  - intro p. pose proof (hits_ranges (fun _ _ => 0%N) 1 n threads (le_n 1) eq_refl p) as Hh.
    rewrite range_words_length by assumption. rewrite Hh. unfold lpn_reach. destruct (p <? _); reflexivity.
  - intro p. rewrite lpn_even. now apply even_nodup.
  - intros p p' q. rewrite lpn_even. now apply even_own.
  - intros p q. rewrite lpn_even. intro Hq. apply even_in in Hq as (i & _ & A & _ & Hq); [|assumption..]. split; [lia|]. exact (words_snd w4 Hi _ Hb _ _ _ _ Hq).
Qed.
Lemma expansion_words n threads : exists W, own_words n threads W /\
  forall word k d preK preM K M, 1 <= k -> (N.of_nat k < 2 ^ 31)%N -> corr d 0 k preK preM -> corr d 0 n K M ->
  let E p := map (fun q => lpn_index k (word (fst q) (snd q))) (W p) in
  let K' := lpn_compute word k n threads true preK K in
  let M' := lpn_compute word k n threads false preM M in
  forall p, p < n ->
    K' p = ((K p + nsum (map preK (E p))) mod prm)%N /\
    xval (M' p) = ((xval (M p) + nsum (map (fun x => xval (preM x)) (E p))) mod prm)%N /\
    mval (M' p) = ((mval (M p) + nsum (map (fun x => mval (preM x)) (E p))) mod prm)%N.
Proof.
  exists (range_words w4p (lpn_ranges n threads)). split.
  { apply own_words_ok; [exact w4p_inj|unfold w4p; lia]. }
  intros word k d preK preM K M Hk Hk31 Hp HV E K' M' p Hpn.
  assert (Pc : forall x, x < k -> share_ok d (preM x) (preK x)) by (intros; apply Hp; lia).
  assert (Vc : forall x, x < n -> share_ok d (M x) (K x)) by (intros; apply HV; lia).
  assert (A : K' p = upd true preK (K p) (E p)).
  { apply (ranges_as_words word k n Hk Hk31 true); auto; try (intros r; apply lpn_even_le).
    - intros x Hx. exact (proj1 (share_parts word 0 _ _ _ (Pc x Hx))).
    - intros q Hq. exact (proj1 (share_parts word 0 _ _ _ (Vc q Hq))). }
  assert (B : M' p = upd false preM (M p) (E p)).
  { apply (ranges_as_words word k n Hk Hk31 false); auto; try (intros r; apply lpn_even_le).
    - intros x Hx. exact (proj2 (share_parts word 0 _ _ _ (Pc x Hx))).
    - intros q Hq. exact (proj2 (share_parts word 0 _ _ _ (Vc q Hq))). }
  rewrite A, B. cbn [upd]. unfold upd2. split; [reflexivity|].
  rewrite (mk_xval word k n Hk Hk31), (mk_mval word k n Hk Hk31) by apply upd1_canon. split; reflexivity.
Qed.

(** * F2k *)
Lemma f2_idxs_edges4 word k i l : 1 <= k -> (N.of_nat k < 2 ^ 31)%N ->
  f2_edges4 word k i l = idxs word k (map (fun t => (i, w4f l t)) (seq 0 10)).
Proof. intros. unfold f2_edges4, idxs. rewrite map_map. apply map_ext. intro t. now apply lpn_idx_spec. Qed.
Lemma f2_idxs_edges1 word k i : 1 <= k -> (N.of_nat k < 2 ^ 31)%N ->
  f2_edges1 word k i = idxs word k (map (fun t => (i, t)) (seq 0 10)).
Proof. intros. unfold f2_edges1, idxs. rewrite map_map. apply map_ext. intro t. now apply lpn_idx_spec. Qed.
Lemma f2_task_as_words word k pre (Hk : 1 <= k) (Hk31 : (N.of_nat k < 2 ^ 31)%N) fuel : forall j e V p,
  f2_task_loop word k fuel j e pre V p = N.lxor (V p) (xorl pre (idxs word k (task_words w4f fuel j e p))).
Proof.
  induction fuel as [|f IH]; intros j e V p; cbn [f2_task_loop task_words]; [symmetry; apply N.lxor_0_r|].
  destruct (Nat.ltb_spec (j + 4) e); [|destruct (Nat.ltb_spec j e)].
  - rewrite IH, (f2_compute4_ok word k Hk Hk31), idxs_app, xorl_app. destruct (inb j (j + 4) p).
    + now rewrite f2_idxs_edges4, N.lxor_assoc.
    + cbn [idxs map xorl]. now rewrite N.lxor_0_l.
  - rewrite IH. unfold f2_compute1. rewrite f2_add_ok, idxs_app, xorl_app. destruct (Nat.eqb_spec p j) as [->|Ne].
    + now rewrite f2_idxs_edges1, N.lxor_assoc.
    + cbn [idxs map xorl]. now rewrite N.lxor_0_l.
  - symmetry. apply N.lxor_0_r.
Qed.
Lemma f2_expansion_words n threads : exists W, own_words n threads W /\
  forall word k pre V p, 1 <= k -> (N.of_nat k < 2 ^ 31)%N ->
  f2_lpn word k n threads pre V p =
  N.lxor (V p) (xorl pre (map (fun q => lpn_index k (word (fst q) (snd q))) (W p))).
Proof.
  exists (range_words w4f (lpn_ranges n threads)). split.
  { apply own_words_ok; [exact w4f_inj|unfold w4f; lia]. }
  intros word k pre V p Hk Hk31. unfold f2_lpn. revert V. induction (lpn_ranges n threads) as [|[st e] rs IH]; intro V.
  - symmetry. apply N.lxor_0_r.
  - cbn [fold_left range_words flat_map fst snd]. rewrite IH, f2_task_as_words, map_app, xorl_app, N.lxor_assoc by assumption.
    reflexivity.
Qed.
