(** Which words a batch of the arithmetic engine depends on, and the count of cheating executions. *)
From Coq Require Import NArith List Bool Arith Lia.
From Verif Require Import ArithModel ArithSpec AHideSpec BoolSpec GameSpec CountAlg GameProofs GameArithSpec.
Import ListNotations.

Section Local.
  Variables (pU : nat -> N) (csz psz : nat).
  Hypothesis Hc : 1 <= csz.
  Hypothesis Hp : 1 <= psz.
  Notation step := (ac_step pU csz psz).
  Definition a_at (s : acst) (a r : nat) : Prop :=
    length (ac_done s) = checks_done csz a /\ length (ac_errs s) = last_batch csz a /\
    length (ac_pdone s) = checks_done psz r /\ length (ac_perrs s) = last_batch psz r.
  Lemma batch_step z a : 1 <= z ->
    (Nat.eqb (last_batch z a) z = true /\ checks_done z (S a) = S (checks_done z a) /\ last_batch z (S a) = 1) \/
    (Nat.eqb (last_batch z a) z = false /\ checks_done z (S a) = checks_done z a /\ last_batch z (S a) = S (last_batch z a)).
  Proof.
    intros Hz. destruct a as [|a]; cbn [checks_done last_batch].
    - right. rewrite Nat.div_0_l, Nat.mod_0_l by lia. repeat split. apply Nat.eqb_neq. lia.
    - rewrite (div_succ a), (mod_succ a) by lia. destruct (Nat.eqb (S (a mod z)) z); [left|right]; repeat split.
  Qed.
  Lemma last_le z a : 1 <= z -> last_batch z a <= z.
  Proof. intros Hz. destruct a; cbn [last_batch]; [lia|]. pose proof (Nat.mod_upper_bound a z ltac:(lia)). lia. Qed.
  Lemma at_mul w s a r i j : a_at s a r ->
    a_at (step w s (AMul i j)) (S a) r /\
    ac_done (step w s (AMul i j)) = ac_done s ++ (if Nat.eqb (checks_done csz (S a)) (checks_done csz a) then [] else [ac_errs s]) /\
    checks_done csz (S a) <= S (checks_done csz a) /\
    (checks_done csz (S a) <> checks_done csz a -> length (ac_errs s) = csz).
  Proof.
    intros (D & E & P & Q). unfold a_at. cbn [ac_step].
    destruct (batch_step csz a Hc) as [(B & C & L)|(B & C & L)]; rewrite E, B, C, L; cbn [ac_flush ac_done ac_errs ac_pdone ac_perrs].
    - rewrite !app_length, D. cbn [length].
      replace (Nat.eqb (S (checks_done csz a)) (checks_done csz a)) with false by (symmetry; apply Nat.eqb_neq; lia).
      apply Nat.eqb_eq in B. repeat split; lia.
    - rewrite Nat.eqb_refl, !app_length, app_nil_r, D, E. cbn [length]. repeat split; lia.
  Qed.
  Lemma at_queue s a r e : a_at s a r ->
    a_at (ac_queue psz s e) a (S r) /\
    ac_pdone (ac_queue psz s e) = ac_pdone s ++ (if Nat.eqb (checks_done psz (S r)) (checks_done psz r) then [] else [ac_perrs s]) /\
    checks_done psz (S r) <= S (checks_done psz r) /\
    (checks_done psz (S r) <> checks_done psz r -> length (ac_perrs s) = psz) /\
    ac_words (ac_queue psz s e) = ac_words s /\ ac_done (ac_queue psz s e) = ac_done s.
  Proof.
    intros (D & E & P & Q). unfold a_at, ac_queue.
    assert (F : match ac_perrs s with [] => s | _ => if Nat.leb psz (length (ac_perrs s)) then ac_pflush s else s end =
                if Nat.eqb (last_batch psz r) psz then ac_pflush s else s).
    { rewrite <- Q. pose proof (last_le psz r Hp) as U. rewrite <- Q in U. destruct (ac_perrs s) as [|x l] eqn:Ex.
      - cbn [length]. replace (Nat.eqb 0 psz) with false by (symmetry; apply Nat.eqb_neq; lia). reflexivity.
      - destruct (Nat.eqb_spec (length (x :: l)) psz); destruct (Nat.leb_spec psz (length (x :: l))); try reflexivity; lia. }
    rewrite F. clear F.
    destruct (batch_step psz r Hp) as [(B & C & L)|(B & C & L)]; rewrite B, C, L; cbn [ac_pflush ac_done ac_errs ac_pdone ac_perrs ac_words].
    - rewrite !app_length, P. cbn [length].
      replace (Nat.eqb (S (checks_done psz r)) (checks_done psz r)) with false by (symmetry; apply Nat.eqb_neq; lia).
      apply Nat.eqb_eq in B. repeat split; lia.
    - rewrite Nat.eqb_refl, !app_length, app_nil_r, P, Q. cbn [length]. repeat split; lia.
  Qed.
  Lemma queue_grows s e : exists t2, ac_done (ac_queue psz s e) = ac_done s /\ ac_pdone (ac_queue psz s e) = ac_pdone s ++ t2.
  Proof.
    unfold ac_queue. destruct (ac_perrs s) as [|x l] eqn:Ex; cbn [ac_done ac_pdone]; [exists []; now rewrite app_nil_r|].
    destruct (Nat.leb psz _); cbn [ac_pflush ac_done ac_pdone]; [now eexists|exists []; now rewrite app_nil_r].
  Qed.
  Lemma step_grows w s g : exists t1 t2, ac_done (step w s g) = ac_done s ++ t1 /\ ac_pdone (step w s g) = ac_pdone s ++ t2.
  Proof.
    assert (Z : forall l : list (list N), l = l ++ []) by (intros; now rewrite app_nil_r).
    destruct g; try (exists [], []; cbn [ac_step ac_push ac_done ac_pdone]; split; apply Z).
    - cbn [ac_step]. destruct (Nat.eqb _ csz); cbn [ac_flush ac_done ac_pdone]; [exists [ac_errs s], []|exists [], []]; split; try reflexivity; apply Z.
    - cbn [ac_step]. destruct (queue_grows s (rel_value (map (pval (ac_w s)) xs) (map (pval (ac_w s)) ys) (tl coeff) (hd 0%N coeff))) as (t2 & E1 & E2).
      exists [], t2. rewrite E1, E2. split; [apply Z|reflexivity].
    - cbn [ac_step]. destruct (queue_grows s (rel_value (map (pval (ac_w s)) xs) (map (pval (ac_w s)) ys) (ones (length xs)) c)) as (t2 & E1 & E2).
      exists [], t2. rewrite E1, E2. split; [apply Z|reflexivity].
  Qed.
  Lemma a_grows w c : forall s, exists t1 t2,
    ac_done (fold_left (step w) c s) = ac_done s ++ t1 /\ ac_pdone (fold_left (step w) c s) = ac_pdone s ++ t2.
  Proof.
    induction c as [|g c IH]; intros s; cbn [fold_left]; [exists [], []; now rewrite !app_nil_r|].
    destruct (IH (step w s g)) as (t1 & t2 & E1 & E2). destruct (step_grows w s g) as (u1 & u2 & F1 & F2).
    rewrite E1, E2, F1, F2, <- !app_assoc. now eexists _, _.
  Qed.
  Lemma a_at_init : a_at ac_init 0 0.
  Proof. repeat split. Qed.

  (** multiplication batches *)
  Lemma mul_local (w1 w2 : nat -> N) k c : forall s a r, a_at s a r -> checks_done csz a <= k ->
    (forall i, i < length (aseen csz psz a r c) -> fst (nth i (aseen csz psz a r c) (0, 0)) <= k -> w1 (ac_words s + i) = w2 (ac_words s + i)) ->
    nth_error (mul_batches (fold_left (step w1) c s)) k = nth_error (mul_batches (fold_left (step w2) c s)) k.
  Proof.
    induction c as [|g c IH]; intros s a r G Ha H; [reflexivity|]. cbn [fold_left].
    assert (Z : forall n l, fst n <= k -> aseen csz psz a r (g :: c) = n :: l -> w1 (ac_words s) = w2 (ac_words s)).
    { intros n l Hn E. specialize (H 0). rewrite E, Nat.add_0_r in H. apply H; [cbn; lia|exact Hn]. }
    assert (T : forall n l, aseen csz psz a r (g :: c) = n :: l ->
              forall m, m < length l -> fst (nth m l (0, 0)) <= k -> w1 (S (ac_words s) + m) = w2 (S (ac_words s) + m)).
    { intros n l E m Hm Hl. rewrite Nat.add_succ_l, <- Nat.add_succ_r. apply H; rewrite E; cbn [length nth]; [lia|exact Hl]. }
    destruct g as [x|v|i j|i v|i j|i j|i v|i|i v|i|xs ys co|xs ys v].
    1:{ assert (E : step w1 s (AIn x) = step w2 s (AIn x)) by (cbn [ac_step]; unfold ac_new; now rewrite (Z (checks_done csz a, checks_done psz r) _ Ha eq_refl)).
        rewrite E. apply (IH _ a r); [exact G|exact Ha|]. exact (T _ _ eq_refl). }
    1-3,5-6: apply (IH _ a r); [exact G|exact Ha|exact H].
    2,3: assert (E : forall g, g = AReveal i \/ (exists v, g = ACheck i v) -> step w1 s g = step w2 s g)
      by (intros g [->|[v' ->]]; cbn [ac_step]; now rewrite (Z (checks_done csz a, checks_done psz r) _ Ha eq_refl)); rewrite E by eauto;
      apply (IH _ a r); [exact G|exact Ha|exact (T _ _ eq_refl)].
    - destruct (at_mul w1 s a r i j G) as (G1 & D1 & S1 & _). destruct (at_mul w2 s a r i j G) as (G2 & D2 & _ & _).
      destruct (le_lt_dec (checks_done csz (S a)) k) as [L|L].
      + assert (E : step w1 s (AMul i j) = step w2 s (AMul i j)).
        { assert (Q : w1 (ac_words s) = w2 (ac_words s)) by (exact (Z (checks_done csz (S a), checks_done psz r) _ L eq_refl)).
          clear - Q. cbn [ac_step]. unfold ac_new. destruct (Nat.eqb (length (ac_errs s)) csz); cbn [ac_flush ac_words ac_vole]; now rewrite Q. }
        rewrite E. apply (IH _ (S a) r); [exact G2|exact L|].
        replace (ac_words (step w2 s (AMul i j))) with (S (ac_words s))
          by (cbn [ac_step]; destruct (Nat.eqb (length (ac_errs s)) csz); reflexivity).
        exact (T _ _ eq_refl).
      + assert (K : checks_done csz a = k) by lia.
        replace (Nat.eqb (checks_done csz (S a)) (checks_done csz a)) with false in D1, D2 by (symmetry; apply Nat.eqb_neq; lia).
        destruct G as [GD _]. unfold mul_batches.
        destruct (a_grows w1 c (step w1 s (AMul i j))) as (t1 & _ & T1 & _).
        destruct (a_grows w2 c (step w2 s (AMul i j))) as (t2 & _ & T2 & _).
        rewrite T1, T2, D1, D2, <- !app_assoc, !(nth_error_app2 (ac_done s)) by lia. rewrite GD, K, Nat.sub_diag. reflexivity.
    - apply (IH _ a r); [exact G|exact Ha|exact H].
    - destruct (at_queue s a r (rel_value (map (pval (ac_w s)) xs) (map (pval (ac_w s)) ys) (tl co) (hd 0%N co)) G) as (G1 & _ & _ & _ & W & _).
      apply (IH _ a (S r)); [exact G1|exact Ha|]. cbn [ac_step]. rewrite W. exact H.
    - destruct (at_queue s a r (rel_value (map (pval (ac_w s)) xs) (map (pval (ac_w s)) ys) (ones (length xs)) v) G) as (G1 & _ & _ & _ & W & _).
      apply (IH _ a (S r)); [exact G1|exact Ha|]. cbn [ac_step]. rewrite W. exact H.
  Qed.
  (** relation batches *)
  Lemma rel_local (w1 w2 : nat -> N) k c : forall s a r, a_at s a r -> checks_done psz r <= k ->
    (forall i, i < length (aseen csz psz a r c) -> snd (nth i (aseen csz psz a r c) (0, 0)) <= k -> w1 (ac_words s + i) = w2 (ac_words s + i)) ->
    nth_error (rel_batches (fold_left (step w1) c s)) k = nth_error (rel_batches (fold_left (step w2) c s)) k.
  Proof.
    induction c as [|g c IH]; intros s a r G Ha H; [reflexivity|]. cbn [fold_left].
    assert (Z : forall n l, snd n <= k -> aseen csz psz a r (g :: c) = n :: l -> w1 (ac_words s) = w2 (ac_words s)).
    { intros n l Hn E. specialize (H 0). rewrite E, Nat.add_0_r in H. apply H; [cbn; lia|exact Hn]. }
    assert (T : forall n l, aseen csz psz a r (g :: c) = n :: l ->
              forall m, m < length l -> snd (nth m l (0, 0)) <= k -> w1 (S (ac_words s) + m) = w2 (S (ac_words s) + m)).
    { intros n l E m Hm Hl. rewrite Nat.add_succ_l, <- Nat.add_succ_r. apply H; rewrite E; cbn [length nth]; [lia|exact Hl]. }
    assert (Q : forall e, step w1 s g = ac_queue psz s e -> step w2 s g = ac_queue psz s e -> aseen csz psz a r (g :: c) = aseen csz psz a (S r) c ->
              nth_error (rel_batches (fold_left (step w1) c (step w1 s g))) k = nth_error (rel_batches (fold_left (step w2) c (step w2 s g))) k).
    { intros e E1 E2 E3. rewrite E1, E2. destruct (at_queue s a r e G) as (G1 & D1 & S1 & _ & W & _).
      destruct (le_lt_dec (checks_done psz (S r)) k) as [L|L].
      - apply (IH _ a (S r)); [exact G1|exact L|]. rewrite W, <- E3. exact H.
      - assert (K : checks_done psz r = k) by lia.
        replace (Nat.eqb (checks_done psz (S r)) (checks_done psz r)) with false in D1 by (symmetry; apply Nat.eqb_neq; lia).
        destruct G as (_ & _ & GD & _). unfold rel_batches.
        destruct (a_grows w1 c (ac_queue psz s e)) as (_ & t1 & _ & T1).
        destruct (a_grows w2 c (ac_queue psz s e)) as (_ & t2 & _ & T2).
        rewrite T1, T2, D1, <- !app_assoc, !(nth_error_app2 (ac_pdone s)) by lia. rewrite GD, K, Nat.sub_diag. reflexivity. }
    destruct g as [x|v|i j|i v|i j|i j|i v|i|i v|i|xs ys co|xs ys v].
    1:{ assert (E : step w1 s (AIn x) = step w2 s (AIn x)) by (cbn [ac_step]; unfold ac_new; now rewrite (Z (checks_done csz a, checks_done psz r) _ Ha eq_refl)).
        rewrite E. apply (IH _ a r); [exact G|exact Ha|]. exact (T _ _ eq_refl). }
    1-3,5-6: apply (IH _ a r); [exact G|exact Ha|exact H].
    2,3: assert (E : forall g, g = AReveal i \/ (exists v, g = ACheck i v) -> step w1 s g = step w2 s g)
      by (intros g [->|[v' ->]]; cbn [ac_step]; now rewrite (Z (checks_done csz a, checks_done psz r) _ Ha eq_refl)); rewrite E by eauto;
      apply (IH _ a r); [exact G|exact Ha|exact (T _ _ eq_refl)].
    - destruct (at_mul w2 s a r i j G) as (G2 & _).
      assert (E : step w1 s (AMul i j) = step w2 s (AMul i j)).
      { assert (Y : w1 (ac_words s) = w2 (ac_words s)) by (exact (Z (checks_done csz (S a), checks_done psz r) _ Ha eq_refl)).
        clear - Y. cbn [ac_step]. unfold ac_new. destruct (Nat.eqb (length (ac_errs s)) csz); cbn [ac_flush ac_words ac_vole]; now rewrite Y. }
      rewrite E. apply (IH _ (S a) r); [exact G2|exact Ha|].
      replace (ac_words (step w2 s (AMul i j))) with (S (ac_words s))
        by (cbn [ac_step]; destruct (Nat.eqb (length (ac_errs s)) csz); reflexivity).
      exact (T _ _ eq_refl).
    - apply (IH _ a r); [exact G|exact Ha|exact H].
    - apply (Q (rel_value (map (pval (ac_w s)) xs) (map (pval (ac_w s)) ys) (tl co) (hd 0%N co))); reflexivity.
    - apply (Q (rel_value (map (pval (ac_w s)) xs) (map (pval (ac_w s)) ys) (ones (length xs)) v)); reflexivity.
  Qed.
  Lemma mul_play (word : list (list N) -> list N -> nat -> N) c s r k :
    nth_error (mul_batches (acommit pU csz psz (play_words csz psz c word s r) c)) k =
    nth_error (mul_batches (acommit pU csz psz (play_words csz psz c word (firstn k s) r) c)) k.
  Proof.
    apply (mul_local _ _ k c ac_init 0 0); [exact a_at_init|cbn; lia|]. intros i _ Hi. cbn [ac_init ac_words Nat.add].
    unfold play_words. now rewrite firstn_firstn, Nat.min_l.
  Qed.
  Lemma rel_play (word : list (list N) -> list N -> nat -> N) c s r k :
    nth_error (rel_batches (acommit pU csz psz (play_words csz psz c word s r) c)) k =
    nth_error (rel_batches (acommit pU csz psz (play_words csz psz c word s (firstn k r)) c)) k.
  Proof.
    apply (rel_local _ _ k c ac_init 0 0); [exact a_at_init|cbn; lia|]. intros i _ Hi. cbn [ac_init ac_words Nat.add].
    unfold play_words. now rewrite (firstn_firstn r), Nat.min_l.
  Qed.

  (** sizes and ranges *)
  Definition sized (s : acst) : Prop :=
    Forall (fun e => length e = csz) (ac_done s) /\ Forall (fun e => length e = psz) (ac_pdone s) /\
    Forall (Forall (fun e => (e < prm)%N)) (ac_done s) /\ Forall (Forall (fun e => (e < prm)%N)) (ac_pdone s) /\
    Forall (fun e => (e < prm)%N) (ac_errs s) /\ Forall (fun e => (e < prm)%N) (ac_perrs s).
  Lemma lt_mod x : (x mod prm < prm)%N.
  Proof. apply N.mod_lt. discriminate. Qed.
  Lemma sized_queue s a r e : a_at s a r -> (e < prm)%N -> sized s -> sized (ac_queue psz s e).
  Proof.
    intros G He (S1 & S2 & S3 & S4 & S5 & S6). destruct (at_queue s a r e G) as (_ & D & _ & L & _ & D0).
    unfold sized. rewrite D0, D.
    assert (Q1 : ac_errs (ac_queue psz s e) = ac_errs s)
      by (unfold ac_queue; destruct (ac_perrs s); [reflexivity|]; destruct (Nat.leb _ _); reflexivity).
    assert (Q2 : ac_perrs (ac_queue psz s e) = ac_perrs s ++ [e] \/ ac_perrs (ac_queue psz s e) = [e]).
    { unfold ac_queue. destruct (ac_perrs s) as [|x l] eqn:Ex; cbn [ac_perrs]; [left; now rewrite Ex|].
      destruct (Nat.leb _ _); cbn [ac_pflush ac_perrs]; [now right|left; now rewrite Ex]. }
    rewrite Q1. split; [exact S1|]. split; [|split; [exact S3|split; [|split; [exact S5|]]]].
    - apply Forall_app. split; [exact S2|]. destruct (Nat.eqb_spec (checks_done psz (S r)) (checks_done psz r)) as [|Q]; [constructor|].
      constructor; [now apply L|constructor].
    - apply Forall_app. split; [exact S4|]. destruct (Nat.eqb _ _); [constructor|]. constructor; [exact S6|constructor].
    - destruct Q2 as [->| ->]; [apply Forall_app; split; [exact S6|]|]; constructor; auto.
  Qed.
  Lemma a_sizes w c : forall s a r, a_at s a r -> sized s ->
    a_at (fold_left (step w) c s) (a + acount_mul c) (r + acount_rel c) /\ sized (fold_left (step w) c s).
  Proof.
    induction c as [|g c IH]; intros s a r G F; cbn [fold_left acount_mul acount_rel]; [now rewrite !Nat.add_0_r|].
    destruct g as [x|v|i j|i v|i j|i j|i v|i|i v|i|xs ys co|xs ys v]; try (apply IH; [exact G|exact F]).
    - destruct (at_mul w s a r i j G) as (G1 & D1 & _ & L). rewrite <- Nat.add_succ_comm. apply IH; [exact G1|].
      destruct F as (S1 & S2 & S3 & S4 & S5 & S6). unfold sized. rewrite D1.
      split; [|split; [|split; [|split; [|split]]]].
      + apply Forall_app. split; [exact S1|]. destruct (Nat.eqb_spec (checks_done csz (S a)) (checks_done csz a)) as [|Q]; [constructor|].
        constructor; [now apply L|constructor].
      + cbn [ac_step]. destruct (Nat.eqb (length (ac_errs s)) csz); exact S2.
      + apply Forall_app. split; [exact S3|]. destruct (Nat.eqb _ _); [constructor|]. constructor; [exact S5|constructor].
      + cbn [ac_step]. destruct (Nat.eqb (length (ac_errs s)) csz); exact S4.
      + cbn [ac_step]. destruct (Nat.eqb (length (ac_errs s)) csz); cbn [ac_flush ac_errs]; apply Forall_app; split;
          try exact S5; constructor; try constructor; apply lt_mod.
      + cbn [ac_step]. destruct (Nat.eqb (length (ac_errs s)) csz); exact S6.
    - cbn [ac_step]. rewrite <- Nat.add_succ_comm.
      apply IH; [now apply at_queue|eapply sized_queue; [exact G|apply lt_mod|exact F]].
    - cbn [ac_step]. rewrite <- Nat.add_succ_comm.
      apply IH; [now apply at_queue|eapply sized_queue; [exact G|apply lt_mod|exact F]].
  Qed.
  Lemma tail_size (z n k : nat) (don : list (list N)) (cur errs : list N) : 1 <= z ->
    length don = checks_done z n -> length cur = last_batch z n -> Forall (fun e => length e = z) don ->
    nth_error (don ++ match cur with [] => [] | x :: l => [x :: l] end) k = Some errs ->
    k < num_checks z n /\ length errs = bsize z n k.
  Proof.
    intros Hz D E F H. unfold bsize.
    assert (Q : num_checks z n = match n with 0 => 0 | _ => S (checks_done z n) end) by (destruct n; reflexivity).
    destruct (Nat.ltb_spec k (checks_done z n)) as [L|L].
    - rewrite nth_error_app1 in H by lia. apply nth_error_In in H. rewrite Forall_forall in F. rewrite (F _ H). split; [|reflexivity].
      rewrite Q. destruct n; [cbn in L; lia|lia].
    - rewrite nth_error_app2 in H by lia. destruct cur as [|e0 es]; [destruct (k - length don); discriminate|].
      destruct (k - length don) as [|m] eqn:Em; [|destruct m; discriminate]. injection H as <-. rewrite <- E. split; [|reflexivity].
      rewrite Q. destruct n; [cbn in E; discriminate|]. lia.
  Qed.
  Lemma tail_forall (P : list N -> Prop) (don : list (list N)) cur : Forall P don -> P cur -> Forall P (don ++ match cur with [] => [] | x :: l => [x :: l] end).
  Proof. intros H1 H2. apply Forall_app. split; [exact H1|]. destruct cur; constructor; auto. Qed.
  Lemma sized_init : sized ac_init.
  Proof. repeat split; constructor. Qed.
  Lemma mul_batch_size w c k errs : nth_error (mul_batches (acommit pU csz psz w c)) k = Some errs ->
    k < num_checks csz (acount_mul c) /\ length errs = bsize csz (acount_mul c) k /\ Forall (fun e => (e < prm)%N) errs.
  Proof.
    destruct (a_sizes w c ac_init 0 0 a_at_init sized_init) as [(D & E & _ & _) (S1 & _ & S3 & _ & S5 & _)]. cbn [Nat.add] in D, E.
    unfold acommit, mul_batches. intros H. pose proof (tail_size _ _ _ _ _ _ Hc D E S1 H) as [K L]. split; [exact K|]. split; [exact L|].
    apply nth_error_In in H. pose proof (tail_forall _ _ _ S3 S5) as F. rewrite Forall_forall in F. now apply F.
  Qed.
  Lemma rel_batch_size w c k errs : nth_error (rel_batches (acommit pU csz psz w c)) k = Some errs ->
    k < num_checks psz (acount_rel c) /\ length errs = bsize psz (acount_rel c) k /\ Forall (fun e => (e < prm)%N) errs.
  Proof.
    destruct (a_sizes w c ac_init 0 0 a_at_init sized_init) as [(_ & _ & D & E) (_ & S2 & _ & S4 & _ & S6)]. cbn [Nat.add] in D, E.
    unfold acommit, rel_batches. intros H. pose proof (tail_size _ _ _ _ _ _ Hp D E S2 H) as [K L]. split; [exact K|]. split; [exact L|].
    apply nth_error_In in H. pose proof (tail_forall _ _ _ S4 S6) as F. rewrite Forall_forall in F. now apply F.
  Qed.
End Local.
