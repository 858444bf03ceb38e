(** Completeness, soundness and hiding of the test programs. *)
From Coq Require Import NArith List Bool Arith Lia.
From Verif Require Import Word FpModel WordProofs FpProofs ListUtil Prime61 ArithModel ArithSpec ArithThms4 ArithThms5 BoolSpec GameSpec GameArithSpec
  GameArith2 AHideSpec AHideProofs AHideThms2 AppModel AppSpec AppProofs AppThms AppThms2 AppThms3 AppThms4.
Import ListNotations.
Ltac Zify.zify_post_hook ::= idtac.

Lemma fooled_general c look R n m : acount_mul c = n -> acount_rel c = m -> Forall wf_pub c ->
  (forall ins outs, length ins = acount_in c -> Forall canon ins -> look outs = true ->
    map (fun w => w mod prm)%N outs = pl_outs (aplain (awith_inputs ins c)) -> pl_ok (aplain (awith_inputs ins c)) = true -> R ins = true) ->
  rarely_fooled c look R n m.
Proof.
  intros <- <- Hwf HR pub_mac pU pMac t csz psz D Deqb H word reply preply digest X Y deltas mx my Ht Hc Hp SX SY HY Nd Ld Hpm Hw Hr Hd.
  exact (fooled_bound pub_mac pU pMac t csz psz c D Deqb H word reply preply digest look R HR X Y deltas mx my Ht Hc Hp SX SY HY Nd Ld Hpm Hwf Hw Hr Hd).
Qed.
Lemma accepted_general c ins look : Forall wf_honest (awith_inputs ins c) -> pl_ok (aplain (awith_inputs ins c)) = true ->
  look (pl_outs (aplain (awith_inputs ins c))) = true -> accepted_by (awith_inputs ins c) c look.
Proof.
  intros Hwf Hok Hl pub_mac pU pMac threads csz psz seeds pseeds d Hv Hm Ht Hs Hd.
  destruct (exec_defined pub_mac (vole_block pU pMac) threads csz psz seeds pseeds Ht (awith_inputs ins c)) as [p Hp].
  destruct (ArithThms4.session_complete pub_mac pU pMac threads csz psz seeds pseeds (awith_inputs ins c) p d Hv Hm Hs Hwf Hp Hd) as (_ & _ & v & Ev & Eo & _ & Ea).
  rewrite av_exec_with in Ev. exists p, v. split; [exact Hp|]. split; [exact Ev|]. split; [rewrite Eo; exact Hl|]. exact (Ea Hok).
Qed.
Lemma want_canon n t i : (forall i, i < n -> canon (t i)) -> canon (sis_want n t i).
Proof. intro H. unfold sis_want. destruct (Nat.ltb_spec i n) as [L|]; [exact (H i L)|reflexivity]. Qed.
Lemma canonPR1 : canon (PR - 1). Proof. reflexivity. Qed.

Section Sis.
  Variables (n m : nat) (A t s : nat -> N) (rounds : nat).
  Hypothesis HA : forall i j, i < n -> j < m -> canon (A (i * m + j)).
  Hypothesis Hr : 1 <= rounds.
  Local Notation c := (sis n m A s t rounds).
  Lemma sis_eval (Q : agate -> Prop) ins : (forall i, i < m -> Q (AIn (s i))) -> Q (APub 0) -> (forall i j, Q (AMul i j)) -> (forall i j, Q (AAdd i j)) ->
    (forall k x, canon x -> Q (AMulC k x)) -> (forall k i, i < n + m -> Q (ACheck k (sis_want n t i))) -> length ins = rounds * m -> Forall canon ins ->
    pl_ok (aplain (awith_inputs ins c)) = sis_rel n m A t (sis_part m (rounds - 1) ins) /\ pl_outs (aplain (awith_inputs ins c)) = [] /\ Forall Q c.
  Proof.
    intros H1 H2 H3 H4 H5 H6 Hl Hc.
    destruct (sis_plain n m A s t rounds ins Q Hl Hr Hc H1 H2 H3 H4 (fun i j k Hi Hj => H5 k _ (HA i j Hi Hj)) (fun k => H5 k _ canonPR1) H6) as (E1 & E2 & _ & _ & _ & E6).
    auto.
  Qed.
  Lemma sis_counts : acount_in c = rounds * m /\ acount_mul c = rounds * m /\ acount_rel c = 0 /\ Forall wf_pub c.
  Proof.
    destruct (sis_plain n m A s t rounds (repeat 0%N (rounds * m)) wf_pub (repeat_length _ _) Hr) as (_ & _ & E3 & E4 & E5 & E6); try (now intros).
    - apply Forall_forall. intros x Hx. apply repeat_spec in Hx. subst x. reflexivity.
    - intros i j k Hi Hj. exact (HA i j Hi Hj).
  Qed.
  Lemma sis_value ins : length ins = rounds * m -> Forall canon ins ->
    pl_ok (aplain (awith_inputs ins c)) = sis_rel n m A t (sis_part m (rounds - 1) ins) /\ pl_outs (aplain (awith_inputs ins c)) = [].
  Proof.
    intros Hl Hc. destruct (sis_eval (fun _ => True) ins) as (E1 & E2 & _); auto.
  Qed.
  Lemma sis_sound : rarely_fooled c any (fun ins => sis_rel n m A t (sis_part m (rounds - 1) ins)) (rounds * m) 0.
  Proof.
    destruct sis_counts as (E3 & E4 & E5 & E6). apply fooled_general; try assumption.
    intros ins outs Hl Hc _ _ Hk. rewrite E3 in Hl. now rewrite (proj1 (sis_value ins Hl Hc)) in Hk.
  Qed.
  Hypothesis Ht : forall i, i < n -> canon (t i).
  Lemma sis_ok_session th csz psz : 1 <= th <= 32 -> 1 <= csz -> 1 <= psz -> asession_ok th csz psz c.
  Proof.
    intros H1 H2 H3. destruct sis_counts as (_ & _ & _ & E6). split; [exact H1|]. split; [exact H2|]. split; [exact H3|]. split; [exact E6|].
    destruct (sis_plain n m A s t rounds (repeat 0%N (rounds * m)) (fun g => match g with ACheck _ e => canon e | _ => True end) (repeat_length _ _) Hr)
      as (_ & _ & _ & _ & _ & E); try (now intros); [|intros k i _; now apply want_canon].
    apply Forall_forall. intros x Hx. apply repeat_spec in Hx. subst x. reflexivity.
  Qed.
  Lemma sis_accepts ins : length ins = rounds * m -> Forall canon ins -> sis_rel n m A t (sis_part m (rounds - 1) ins) = true ->
    accepted_by (awith_inputs ins c) c any.
  Proof.
    intros Hl Hc HR. destruct (sis_value ins Hl Hc) as [E1 E2]. apply accepted_general; [|now rewrite E1|reflexivity].
    apply (awith_wf 1 1 1); [apply sis_ok_session; lia| |exact Hc]. now rewrite (proj1 sis_counts).
  Qed.
  Lemma sis_witness ins : length ins = rounds * m -> Forall canon ins -> sis_rel n m A t (sis_part m (rounds - 1) ins) = true -> witness c ins [].
  Proof.
    intros Hl Hc HR. destruct (sis_value ins Hl Hc) as [E1 E2]. split; [now rewrite (proj1 sis_counts)|]. split; [exact Hc|].
    split; [now rewrite E1|exact E2].
  Qed.
End Sis.
Lemma sis_honest n m A t s rounds : (forall i j, i < n -> j < m -> canon (A (i * m + j))) -> 1 <= rounds -> (forall i, i < n -> canon (t i)) ->
  sis_rel n m A t s = true -> accepted_by (sis n m A s t rounds) (sis n m A s t rounds) any.
Proof.
  intros HA Hr Ht HR.
  assert (Hs : forall j, j < m -> canon (s j)).
  { intros j Hj. unfold sis_rel in HR. apply andb_true_iff in HR. destruct HR as [HB _]. rewrite forall_lt_iff in HB. specialize (HB j Hj).
    apply orb_true_iff in HB. destruct HB as [E|E]; apply N.eqb_eq in E; rewrite E; reflexivity. }
  assert (Lf : length (fed (sis n m A s t rounds)) = rounds * m) by (rewrite sis_fed, times_length, map_length, seq_length; reflexivity).
  assert (Cf : Forall canon (fed (sis n m A s t rounds))).
  { rewrite sis_fed. clear - Hs. induction rounds as [|k IH]; [constructor|]. cbn [times]. apply Forall_app. split; [exact IH|].
    apply Forall_forall. intros x Hx. apply in_map_iff in Hx. destruct Hx as (j & <- & Hj). apply in_seq in Hj. apply Hs. lia. }
  pose proof (sis_accepts n m A t s rounds HA Hr Ht (fed (sis n m A s t rounds)) Lf Cf) as K. rewrite with_fed in K. apply K.
  rewrite <- HR. unfold sis_rel. f_equal.
  - apply forall_lt_ext. intros j Hj. now rewrite sis_fed_part.
  - apply forall_lt_ext. intros i Hi. f_equal. apply fsum_ext. intros j Hj. now rewrite sis_fed_part.
Qed.
(** any vectors at all in the first rounds *)
Lemma sis_any_start n m A t s rounds (pre : list N) : (forall i j, i < n -> j < m -> canon (A (i * m + j))) -> 1 <= rounds -> (forall i, i < n -> canon (t i)) ->
  sis_rel n m A t s = true -> length pre = (rounds - 1) * m -> Forall canon pre ->
  accepted_by (awith_inputs (pre ++ map s (seq 0 m)) (sis n m A s t rounds)) (sis n m A s t rounds) any.
Proof.
  intros HA Hr Ht HR Hl Hp.
  assert (Hs : forall j, j < m -> canon (s j)).
  { intros j Hj. unfold sis_rel in HR. apply andb_true_iff in HR. destruct HR as [HB _]. rewrite forall_lt_iff in HB. specialize (HB j Hj).
    apply orb_true_iff in HB. destruct HB as [E|E]; apply N.eqb_eq in E; rewrite E; reflexivity. }
  assert (E : forall j, j < m -> sis_part m (rounds - 1) (pre ++ map s (seq 0 m)) j = s j).
  { intros j Hj. unfold sis_part. rewrite app_nth2, Hl by lia. replace ((rounds - 1) * m + j - (rounds - 1) * m) with j by lia.
    rewrite nth_indep with (d' := s 0) by (rewrite map_length, seq_length; exact Hj). rewrite map_nth, seq_nth by exact Hj. reflexivity. }
  apply sis_accepts; auto.
  - rewrite app_length, map_length, seq_length, Hl. destruct rounds as [|k]; [lia|]. rewrite Nat.sub_succ, Nat.sub_0_r. apply Nat.add_comm.
  - apply Forall_app. split; [exact Hp|]. apply Forall_forall. intros x Hx. apply in_map_iff in Hx. destruct Hx as (j & <- & Hj). apply in_seq in Hj. apply Hs. lia.
  - rewrite <- HR. unfold sis_rel. f_equal.
    + apply forall_lt_ext. intros j Hj. now rewrite E.
    + apply forall_lt_ext. intros i Hi. f_equal. apply fsum_ext. intros j Hj. now rewrite E.
Qed.

(** ** matrix product *)
Lemma repeat_canon k : Forall canon (repeat 0%N k).
Proof. apply Forall_forall. intros x Hx. apply repeat_spec in Hx. subst x. reflexivity. Qed.
Lemma mm_value n a b t : let c := matmul n a b t in
  (forall ins, length ins = 2 * (n * n) -> Forall canon ins -> pl_ok (aplain (awith_inputs ins c)) = mm_rel n t ins /\ pl_outs (aplain (awith_inputs ins c)) = []) /\
  acount_in c = 2 * (n * n) /\ acount_mul c = n * n * n /\ acount_rel c = 0 /\ Forall wf_pub c.
Proof.
  intro c. split.
  - intros ins Hl Hc. destruct (mm_plain n a b t ins (fun _ => True) Hl Hc) as (E1 & E2 & _); auto.
  - destruct (mm_plain n a b t (repeat 0%N (2 * (n * n))) wf_pub (repeat_length _ _) (repeat_canon _)) as (_ & _ & E3 & E4 & E5 & E6); try (now intros).
Qed.
Lemma mm_sound n a b t : rarely_fooled (matmul n a b t) any (mm_rel n t) (n * n * n) 0.
Proof.
  destruct (mm_value n a b t) as (V & E3 & E4 & E5 & E6). apply fooled_general; try assumption.
  intros ins outs Hl Hc _ _ Hk. rewrite E3 in Hl. now rewrite (proj1 (V ins Hl Hc)) in Hk.
Qed.
Lemma mm_honest n a b t : (forall i, i < n * n -> canon (a i) /\ canon (b i)) ->
  (forall i k, i < n -> k < n -> t (i * n + k) = (fsum n (fun j => a (i * n + j)%nat * b (j * n + k)%nat) mod prm)%N) ->
  accepted_by (matmul n a b t) (matmul n a b t) any.
Proof.
  intros Hab Ht. set (c := matmul n a b t).
  destruct (mm_value n a b t) as (V & E3 & E4 & E5 & E6). fold c in V, E3, E4, E5, E6.
  assert (Bd : forall u v, u < n -> v < n -> u * n + v < n * n).
  { intros u v Hu Hv. apply Nat.lt_le_trans with (S u * n); [cbn; lia|]. apply Nat.mul_le_mono_r. lia. }
  assert (Hwf : Forall wf_honest c).
  { destruct (mm_plain n a b t (repeat 0%N (2 * (n * n))) wf_honest (repeat_length _ _) (repeat_canon _)) as (_ & _ & _ & _ & _ & E); try (intros; split; exact I); [..|exact E].
    - intros i Hi. split; [exact I|]. exact (proj1 (Hab i Hi)).
    - intros i Hi. split; [exact I|]. exact (proj2 (Hab i Hi)).
    - split; [reflexivity|exact I].
    - intros k q Hq. split; [exact I|]. cbn. assert (Hn : n <> 0) by (intros ->; cbn in Hq; lia).
      replace q with (q / n * n + q mod n) by (rewrite (Nat.div_mod q n) at 3 by exact Hn; lia).
      rewrite Ht by (try (apply Nat.div_lt_upper_bound; assumption); apply Nat.mod_upper_bound; exact Hn). apply N.mod_lt. exact prm_nz. }
  assert (Lf : length (fed c) = 2 * (n * n)) by (rewrite fed_length; exact E3).
  pose proof (fed_canon c Hwf) as Cf.
  pose proof (accepted_general c (fed c) any) as K. rewrite with_fed in K. apply K; [exact Hwf| |reflexivity].
  pose proof (proj1 (V (fed c) Lf Cf)) as Vf. rewrite with_fed in Vf. rewrite Vf. unfold mm_rel. cbv zeta. apply forall_lt_iff. intros i Hi. apply forall_lt_iff. intros k Hk.
  unfold eqm. apply N.eqb_eq. rewrite Ht by assumption. rewrite N.mod_mod by exact prm_nz. f_equal. apply fsum_ext. intros j Hj.
  destruct (mm_fed n a b t _ (Bd _ _ Hi Hj)) as [F1 _]. destruct (mm_fed n a b t _ (Bd _ _ Hj Hk)) as [_ F2]. fold c in F1, F2.
  rewrite F1, F2. reflexivity.
Qed.

(** ** zk_proof.cpp *)
Section Zk.
  Variables (n : nat) (a0 b0 cr : N) (sz : nat) (d e f dd ee : nat -> N).
  Local Notation c := (zk_proof n a0 b0 cr sz d e f ee).
  Lemma zk_wf_pub : acount_in c = 2 + 3 * sz /\ acount_mul c = n + 1 + 2 * sz /\ acount_rel c = 0 /\ Forall wf_pub c.
  Proof.
    destruct (zk_plain n a0 b0 cr sz d e f ee (repeat 0%N (2 + 3 * sz)) wf_pub (repeat_length _ _) (repeat_canon _)) as (_ & _ & _ & E); try (now intros).
  Qed.
  Lemma memcmp_nth outs i : zk_memcmp sz dd outs = true -> i < sz -> nth i outs 0%N = dd i.
  Proof.
    unfold zk_memcmp. destruct (list_eq_dec _ _ _) as [->|]; [|discriminate]. intros _ Hi.
    rewrite nth_indep with (d' := dd 0) by (rewrite map_length, seq_length; exact Hi). rewrite map_nth, seq_nth by exact Hi. reflexivity.
  Qed.
  Lemma zk_sound : rarely_fooled c (zk_memcmp sz dd) (zk_rel n sz cr dd ee) (n + 1 + 2 * sz) 0.
  Proof.
    destruct zk_wf_pub as (E3 & E4 & E5 & E6). apply fooled_general; try assumption.
    intros ins outs Hl Hc Hk Eo Hok. rewrite E3 in Hl.
    destruct (zk_plain n a0 b0 cr sz d e f ee ins (fun _ => True) Hl Hc) as (_ & V & _); auto.
    rewrite <- (V dd); [exact Hok|]. intros i Hi. rewrite <- Eo. rewrite <- (memcmp_nth outs i Hk Hi).
    exact (map_nth (fun w => w mod prm)%N outs 0%N i).
  Qed.
  Lemma zk_honest : canon a0 -> canon b0 -> (forall i, i < sz -> canon (d i) /\ canon (e i)) -> cr = chain_val n a0 b0 ->
    (forall i, i < sz -> dd i = (d i * e i mod prm)%N /\ ee i = ((dd i + e i) mod prm)%N /\ f i = ee i) ->
    accepted_by c c (zk_memcmp sz dd).
  Proof.
    intros Ha Hb Hde Hcr Hi.
    assert (Hwf : Forall wf_honest c).
    { destruct (zk_plain n a0 b0 cr sz d e f ee (repeat 0%N (2 + 3 * sz)) wf_honest (repeat_length _ _) (repeat_canon _)) as (_ & _ & _ & _ & _ & _ & E); try (intros; split; exact I); [..|exact E].
      - split; [split; [exact I|exact Ha]|]. split; [split; [exact I|exact Hb]|]. split; (split; [reflexivity|exact I]).
      - intros i Hs. destruct (Hde i Hs) as [D1 D2]. destruct (Hi i Hs) as (_ & I2 & I3).
        split; [split; [exact I|exact D1]|]. split; [split; [exact I|exact D2]|]. split; [exact I|]. cbn. rewrite I3, I2. apply N.mod_lt. exact prm_nz.
      - intro k. split; [exact I|]. cbn. rewrite Hcr, chain_val_pair. apply N.mod_lt. exact prm_nz.
      - intros k i Hs. split; [exact I|]. cbn. rewrite (proj1 (proj2 (Hi i Hs))). apply N.mod_lt. exact prm_nz. }
    assert (Lf : length (fed c) = 2 + 3 * sz) by (rewrite fed_length; exact (proj1 zk_wf_pub)).
    pose proof (fed_canon c Hwf) as Cf. destruct (zk_fed n a0 b0 cr sz d e f ee) as (F0 & F1 & F).
    destruct (zk_plain n a0 b0 cr sz d e f ee (fed c) (fun _ => True) Lf Cf) as (VO & _ & V & _); auto.
    assert (HR : zk_rel n sz cr dd ee (fed c) = true).
    { unfold zk_rel. cbv zeta. rewrite F0, F1, <- Hcr. apply andb_true_iff. split; [apply N.eqb_refl|]. apply forall_lt_iff. intros i Hs.
      destruct (F i Hs) as (-> & -> & ->). destruct (Hi i Hs) as (I1 & I2 & I3). rewrite I3. rewrite I2. unfold eqm. rewrite I1.
      rewrite N.add_mod_idemp_l by exact prm_nz. rewrite !N.mod_mod by exact prm_nz. now rewrite !N.eqb_refl. }
    destruct (V dd HR) as [Vk Vo]. rewrite with_fed in Vk, Vo, VO.
    pose proof (accepted_general c (fed c) (zk_memcmp sz dd)) as K. rewrite with_fed in K. apply K; [exact Hwf|exact Vk|].
    unfold zk_memcmp. destruct (list_eq_dec _ _ _) as [|Hne]; [reflexivity|]. exfalso. apply Hne. rewrite VO. apply map_ext_in. intros i Hs. apply in_seq in Hs.
    destruct (F i ltac:(lia)) as (-> & -> & _). rewrite (proj1 (Hi i ltac:(lia))). reflexivity.
  Qed.
End Zk.

(** ** relations *)
Lemma poly_value sz rep w coeff : 1 <= rep -> length coeff = S sz -> Forall canon coeff -> let c := poly_app sz rep w coeff in
  (forall ins, length ins = 2 * sz -> Forall canon ins ->
     pl_ok (aplain (awith_inputs ins c)) = poly_rel sz (fun i => nth i coeff 0%N) ins /\ pl_outs (aplain (awith_inputs ins c)) = []) /\
  acount_in c = 2 * sz /\ acount_mul c = 0 /\ acount_rel c = rep /\ Forall wf_pub c.
Proof.
  intros Hr Hl Hc c. split.
  - intros ins Hi Hn. destruct (poly_plain sz rep w coeff ins (fun _ => True) Hi Hn Hr Hl) as (E1 & E2 & _); auto.
  - destruct (poly_plain sz rep w coeff (repeat 0%N (2 * sz)) wf_pub (repeat_length _ _) (repeat_canon _) Hr Hl) as (_ & _ & E3 & E4 & E5 & E6); try (now intros).
    intros xs ys H1 H2. cbn. rewrite H1, H2. auto.
Qed.
Lemma poly_sound sz rep w coeff : 1 <= rep -> length coeff = S sz -> Forall canon coeff ->
  rarely_fooled (poly_app sz rep w coeff) any (poly_rel sz (fun i => nth i coeff 0%N)) 0 rep.
Proof.
  intros Hr Hl Hc. destruct (poly_value sz rep w coeff Hr Hl Hc) as (V & E3 & E4 & E5 & E6). apply fooled_general; try assumption.
  intros ins outs Hi Hn _ _ Hk. rewrite E3 in Hi. now rewrite (proj1 (V ins Hi Hn)) in Hk.
Qed.
Lemma poly_fed sz rep w coeff : fed (poly_app sz rep w coeff) = map w (seq 0 (2 * sz)).
Proof. unfold poly_app. cbv zeta. rewrite fed_queries by reflexivity. exact (feed_fed (2 * sz) w). Qed.
Lemma inner_fed sz rep w k : fed (inner_app sz rep w k) = map w (seq 0 (2 * sz)).
Proof. unfold inner_app. cbv zeta. rewrite fed_queries by reflexivity. exact (feed_fed (2 * sz) w). Qed.
Lemma poly_honest sz rep w coeff : 1 <= rep -> length coeff = S sz -> Forall canon coeff -> (forall i, i < 2 * sz -> canon (w i)) ->
  poly_rel sz (fun i => nth i coeff 0%N) (map w (seq 0 (2 * sz))) = true -> accepted_by (poly_app sz rep w coeff) (poly_app sz rep w coeff) any.
Proof.
  intros Hr Hl Hc Hw HR. set (c := poly_app sz rep w coeff). destruct (poly_value sz rep w coeff Hr Hl Hc) as (V & E3 & E4 & E5 & E6). fold c in V, E3, E6.
  assert (Hwf : Forall wf_honest c).
  { destruct (poly_plain sz rep w coeff (repeat 0%N (2 * sz)) wf_honest (repeat_length _ _) (repeat_canon _) Hr Hl) as (_ & _ & _ & _ & _ & E); [..|exact E].
    - intros i Hi. split; [exact I|exact (Hw i Hi)].
    - intros xs ys H1 H2. split; [cbn; rewrite H1, H2; auto|exact I]. }
  assert (Lf : length (fed c) = 2 * sz) by (rewrite fed_length; exact E3). pose proof (fed_canon c Hwf) as Cf.
  pose proof (accepted_general c (fed c) any) as K. rewrite with_fed in K. apply K; [exact Hwf| |reflexivity].
  pose proof (proj1 (V (fed c) Lf Cf)) as Vf. rewrite with_fed in Vf. rewrite Vf. unfold c. rewrite poly_fed. exact HR.
Qed.
Lemma inner_value sz rep w k : 1 <= rep -> canon k -> let c := inner_app sz rep w k in
  (forall ins, length ins = 2 * sz -> Forall canon ins ->
     pl_ok (aplain (awith_inputs ins c)) = poly_rel sz (fun i => match i with 0 => k | _ => 1%N end) ins /\ pl_outs (aplain (awith_inputs ins c)) = []) /\
  acount_in c = 2 * sz /\ acount_mul c = 0 /\ acount_rel c = rep /\ Forall wf_pub c.
Proof.
  intros Hr Hc c. split.
  - intros ins Hi Hn. destruct (inner_plain sz rep w k ins (fun _ => True) Hi Hn Hr) as (E1 & E2 & _); auto.
  - destruct (inner_plain sz rep w k (repeat 0%N (2 * sz)) wf_pub (repeat_length _ _) (repeat_canon _) Hr) as (_ & _ & E3 & E4 & E5 & E6); try (now intros).
    intros xs ys H1 H2. cbn. rewrite H1, H2. auto.
Qed.
Lemma inner_sound sz rep w k : 1 <= rep -> canon k ->
  rarely_fooled (inner_app sz rep w k) any (poly_rel sz (fun i => match i with 0 => k | _ => 1%N end)) 0 rep.
Proof.
  intros Hr Hc. destruct (inner_value sz rep w k Hr Hc) as (V & E3 & E4 & E5 & E6). apply fooled_general; try assumption.
  intros ins outs Hi Hn _ _ Hk. rewrite E3 in Hi. now rewrite (proj1 (V ins Hi Hn)) in Hk.
Qed.
Lemma inner_honest sz rep w k : 1 <= rep -> canon k -> (forall i, i < 2 * sz -> canon (w i)) ->
  poly_rel sz (fun i => match i with 0 => k | _ => 1%N end) (map w (seq 0 (2 * sz))) = true -> accepted_by (inner_app sz rep w k) (inner_app sz rep w k) any.
Proof.
  intros Hr Hc Hw HR. set (c := inner_app sz rep w k). destruct (inner_value sz rep w k Hr Hc) as (V & E3 & E4 & E5 & E6). fold c in V, E3, E6.
  assert (Hwf : Forall wf_honest c).
  { destruct (inner_plain sz rep w k (repeat 0%N (2 * sz)) wf_honest (repeat_length _ _) (repeat_canon _) Hr) as (_ & _ & _ & _ & _ & E); [..|exact E].
    - intros i Hi. split; [exact I|exact (Hw i Hi)].
    - intros xs ys H1 H2. split; [cbn; rewrite H1, H2; auto|exact I]. }
  assert (Lf : length (fed c) = 2 * sz) by (rewrite fed_length; exact E3). pose proof (fed_canon c Hwf) as Cf.
  pose proof (accepted_general c (fed c) any) as K. rewrite with_fed in K. apply K; [exact Hwf| |reflexivity].
  pose proof (proj1 (V (fed c) Lf Cf)) as Vf. rewrite with_fed in Vf. rewrite Vf. unfold c. rewrite inner_fed. exact HR.
Qed.
