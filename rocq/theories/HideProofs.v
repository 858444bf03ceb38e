(** Proofs for the hiding property of the boolean engine: counters, lock-step of two prover
    runs, and the simulator. *)
From Coq Require Import NArith List Bool Arith Lia.
From Verif Require Import GF128 Word WordProofs BoolModel BoolSpec BoolAlg BoolProofs BoolThms BoolThms2 LowMcThms HideSpec.
Import ListNotations.

Definition prefix {A} (l L : list A) : Prop := exists m, L = l ++ m.
Lemma prefix_refl {A} (l : list A) : prefix l l. Proof. exists []. now rewrite app_nil_r. Qed.
Lemma prefix_trans {A} (a b c : list A) : prefix a b -> prefix b c -> prefix a c.
Proof. intros [x ->] [y ->]. exists (x ++ y). now rewrite app_assoc. Qed.
Lemma prefix_app {A} (a b c : list A) : prefix (a ++ b) c -> prefix a c.
Proof. intros [x ->]. exists (b ++ x). now rewrite app_assoc. Qed.
Lemma prefix_snoc_eq {A} (l : list A) x y L : prefix (l ++ [x]) L -> prefix (l ++ [y]) L -> x = y.
Proof. intros [m ->] [m' E]. rewrite <- !app_assoc in E. apply app_inv_head in E. now injection E. Qed.
Lemma prefix_firstn {A} (l L : list A) : prefix l L -> firstn (length l) L = l.
Proof. intros [m ->]. rewrite firstn_app, firstn_all, Nat.sub_diag. cbn. now rewrite app_nil_r. Qed.

(** * Counters *)
Lemma manage_msgs pM t seeds s s' : prv_manage pM t seeds s = Some s' ->
  exists A, p_msgs s' = p_msgs s ++ [A] /\ p_bits s' = p_bits s /\ p_cot s' = p_cot s + 128 /\
    p_chk s' = S (p_chk s) /\ p_buf s' = p_buf s.
Proof.
  unfold prv_manage. destruct (and_ranges _ _); [|discriminate]. intro H. injection H as <-. eexists. split; [reflexivity|]. auto.
Qed.
Record cinv (csz : nat) (s : pst) (a b : nat) : Prop := {
  ci_k : p_chk s = length (p_msgs s);
  ci_c : p_cot s = 1 + a + b + 128 * p_chk s;
  ci_b : b = csz * p_chk s + length (p_buf s);
  ci_l : length (p_buf s) <= csz;
  ci_p : b <> 0 -> length (p_buf s) <> 0 }.
Section Counters.
  Variables (r0 r1 : N) (pM : nat -> N) (threads csz : nat) (seeds : nat -> nat -> N).
  Hypothesis Hcsz : 1 <= csz.
  Lemma cinv_step s s' g a b : cinv csz s a b -> prv_step r0 r1 pM threads csz seeds s g = Some s' ->
    cinv csz s' (a + count_in [g]) (b + count_and [g]) /\ prefix (p_msgs s) (p_msgs s') /\
    length (p_bits s') = length (p_bits s) + match g with GIn _ | GAnd _ _ | GReveal _ => 1 | _ => 0 end.
  Proof.
    intros [K C B L P] H. destruct g as [x|v|i j|i|i j|i]; cbn [prv_step count_in count_and] in *;
      rewrite ?Nat.add_0_r;
      try (unfold prv_input in H; injection H as <-; split; [constructor; cbn [p_chk p_msgs p_cot p_buf p_add]; auto; lia|];
           split; [apply prefix_refl|cbn [p_bits p_add]; rewrite ?app_length; cbn [length]; lia]).
    destruct (prv_precheck pM threads csz seeds s) as [s1|] eqn:E; [|discriminate].
    unfold prv_and in H. injection H as <-. unfold prv_precheck in E.
    destruct (Nat.eqb_spec (length (p_buf s)) csz) as [Q|Q].
    - destruct (prv_manage pM threads seeds s) as [s2|] eqn:E2; [|discriminate].
      destruct (manage_msgs _ _ _ _ _ E2) as [A [M [Bt [Ct [Kt Bu]]]]]. injection E as <-.
      split; [|split; [cbn; rewrite M; now exists [A]|cbn; rewrite Bt, app_length; cbn; lia]].
      constructor; cbn; rewrite ?M, ?Ct, ?Kt, ?app_length; cbn [length]; nia.
    - injection E as <-. split; [|split; [apply prefix_refl|cbn; rewrite app_length; cbn; lia]].
      constructor; cbn; rewrite ?app_length; cbn [length]; lia.
  Qed.
  Lemma count_in_cons g c : count_in (g :: c) = count_in [g] + count_in c.
  Proof. destruct g; reflexivity. Qed.
  Lemma count_and_cons g c : count_and (g :: c) = count_and [g] + count_and c.
  Proof. destruct g; reflexivity. Qed.
  Fixpoint count_bits (c : list gate) : nat :=
    match c with [] => 0 | (GIn _ | GAnd _ _ | GReveal _) :: c' => S (count_bits c') | _ :: c' => count_bits c' end.
  Lemma cinv_run c : forall s s' a b, cinv csz s a b -> prv_run r0 r1 pM threads csz seeds s c = Some s' ->
    cinv csz s' (a + count_in c) (b + count_and c) /\ prefix (p_msgs s) (p_msgs s') /\
    length (p_bits s') = length (p_bits s) + count_bits c.
  Proof.
    induction c as [|g c IH]; intros s s' a b I H; cbn [prv_run] in H.
    - injection H as <-. cbn. rewrite !Nat.add_0_r. split; auto. split; auto. apply prefix_refl.
    - destruct (prv_step r0 r1 pM threads csz seeds s g) as [s1|] eqn:E; [|discriminate].
      destruct (cinv_step _ _ _ _ _ I E) as [I1 [P1 L1]]. destruct (IH _ _ _ _ I1 H) as [I2 [P2 L2]].
      rewrite count_in_cons, count_and_cons, !Nat.add_assoc. split; [exact I2|].
      split; [now apply prefix_trans with (p_msgs s1)|]. rewrite L2, L1. destruct g; cbn; lia.
  Qed.
  Lemma exec_counts c p : prv_exec r0 r1 pM threads csz seeds c = Some p ->
    p_chk p = checks csz (count_and c) /\ length (p_msgs p) = checks csz (count_and c) /\
    p_cot p = 1 + entropy csz c /\ length (p_bits p) = count_bits c.
  Proof.
    unfold prv_exec. destruct (prv_run r0 r1 pM threads csz seeds p_init c) as [s|] eqn:E; [|discriminate].
    assert (I0 : cinv csz p_init 0 0) by (constructor; cbn; lia).
    destruct (cinv_run _ _ _ _ _ I0 E) as [[K C B L P] [_ Lb]]. cbn [plus p_init p_bits length] in *.
    unfold prv_final. destruct (p_buf s) as [|x l] eqn:Eb; intro H.
    - injection H as <-. cbn [length] in *. assert (Z : count_and c = 0) by lia.
      assert (p_chk s = 0) by nia. unfold entropy, checks. rewrite Z in *. lia.
    - destruct (manage_msgs _ _ _ _ _ H) as [A [M [Bt [Ct [Kt Bu]]]]].
      assert (Q : checks csz (count_and c) = S (p_chk s)).
      { unfold checks. cbn [length] in *. destruct (count_and c) as [|n] eqn:Ec; [lia|]. f_equal. symmetry.
        apply Nat.div_unique with (length l); lia. }
      unfold entropy. rewrite Q, M, Ct, Kt, Bt, app_length. cbn [length]. lia.
  Qed.
End Counters.
Lemma with_inputs_counts c : forall ins, count_in (with_inputs ins c) = count_in c /\
  count_and (with_inputs ins c) = count_and c /\ count_bits (with_inputs ins c) = count_bits c.
Proof.
  induction c as [|g c IH]; intro ins; [auto|].
  destruct g; cbn [with_inputs count_in count_and count_bits]; try (destruct (IH ins) as [A [B C]]; rewrite ?A, ?B, ?C; auto; fail).
  destruct ins; cbn [count_in count_and count_bits]; [destruct (IH []) as [A [B C]]|destruct (IH ins) as [A [B C]]]; rewrite ?A, ?B, ?C; auto.
Qed.
Lemma with_inputs_masked c : forall ins bits, masked_bits (with_inputs ins c) bits = masked_bits c bits.
Proof.
  induction c as [|g c IH]; intros ins bits; [reflexivity|].
  destruct g; cbn [with_inputs]; try (destruct bits; cbn [masked_bits]; now rewrite ?IH).
  destruct ins; destruct bits; cbn [masked_bits]; now rewrite ?IH.
Qed.

(** * The second check block determines the 128 masks *)
Lemma ch_word_lsb l : forall l', length l = length l' -> ch_word l = ch_word l' -> map getLSB l = map getLSB l'.
Proof.
  induction l as [|x l IH]; intros [|y l'] L H; cbn in L; try discriminate; [reflexivity|].
  cbn [ch_word map] in *. assert (getLSB x = getLSB y /\ ch_word l = ch_word l') as [-> E] by (destruct (getLSB x), (getLSB y); lia).
  f_equal. apply IH; auto.
Qed.
Lemma ch_word_lt l : (ch_word l < 2 ^ N.of_nat (length l))%N.
Proof.
  induction l as [|x l IH]; [reflexivity|]. cbn [ch_word length]. rewrite Nat2N.inj_succ, N.pow_succ_r'.
  destruct (getLSB x); lia.
Qed.
Lemma seg_len {A} (l : list A) a n : a + n <= length l -> length (segment a n l) = n.
Proof. intro H. unfold segment. rewrite firstn_length, skipn_length. lia. Qed.
Lemma ch_word64 (l : list N) a : a + 64 <= length l -> (ch_word (segment a 64 l) < W64)%N.
Proof.
  intro H. pose proof (ch_word_lt (segment a 64 l)) as L. rewrite seg_len in L by exact H. exact L.
Qed.
Lemma ch_bits_lsb l l' : length l = 128 -> length l' = 128 -> ch_bits l = ch_bits l' -> map getLSB l = map getLSB l'.
Proof.
  intros L L' H. unfold ch_bits in H.
  apply mkblock_inj in H; [|apply ch_word64; lia..]. destruct H as [H1 H0].
  apply ch_word_lsb in H1; [|now rewrite !seg_len by lia]. apply ch_word_lsb in H0; [|now rewrite !seg_len by lia].
  unfold segment in *. cbn [skipn] in H0.
  rewrite <- (firstn_skipn 64 l), <- (firstn_skipn 64 l'), !map_app. f_equal; [exact H0|].
  rewrite (firstn_all2 (skipn 64 l)) in H1 by (rewrite skipn_length; lia).
  rewrite (firstn_all2 (skipn 64 l')) in H1 by (rewrite skipn_length; lia). exact H1.
Qed.
Lemma fold2_snd {A} (f : A -> N * N) l : forall a b,
  snd (fold_left (fun acc x => (N.lxor (fst acc) (fst (f x)), N.lxor (snd acc) (snd (f x)))) l (a, b)) =
  N.lxor b (fold_left (fun acc x => N.lxor acc (snd (f x))) l 0%N).
Proof.
  assert (G : forall l x, fold_left (fun acc y => N.lxor acc (snd (f y))) l x = N.lxor x (fold_left (fun acc y => N.lxor acc (snd (f y))) l 0%N)).
  { clear. induction l as [|y l IH]; intro x; cbn; [now rewrite N.lxor_0_r|]. rewrite IH, (IH (snd (f y))), N.lxor_assoc. reflexivity. }
  induction l as [|x l IH]; intros a b; cbn [fold_left fst snd]; [now rewrite N.lxor_0_r|].
  rewrite IH. rewrite (G l (N.lxor 0 (snd (f x)))). rewrite N.lxor_0_l. now rewrite N.lxor_assoc.
Qed.
Lemma A_snd buf rs seed ope ope' : snd (prv_A_star buf rs seed ope) = snd (prv_A_star buf rs seed ope') ->
  ch_bits ope = ch_bits ope'.
Proof.
  unfold prv_A_star. rewrite !fold2_snd. intro H.
  apply (f_equal (fun x => N.lxor x (fold_left (fun acc x => N.lxor acc (snd (prv_check_range buf (fst (snd x)) (snd (snd x)) (seed (fst x))))) (combine (seq 0 (length rs)) rs) 0%N))) in H.
  now rewrite !N.lxor_assoc, !N.lxor_nilpotent, !N.lxor_0_r in H.
Qed.
Lemma A_snd_lt buf rs seed ope : length ope = 128 -> (snd (prv_A_star buf rs seed ope) < 2 ^ 128)%N.
Proof.
  intro L. unfold prv_A_star. rewrite fold2_snd. apply lxor_lt.
  - unfold ch_bits. apply mkblock_lt; apply ch_word64; lia.
  - apply fold_xor_lt; [reflexivity|]. intro x. apply inn_lt.
Qed.

(** * Two runs of the prover in lock step *)
Section Lock.
  Variables (r0 r1 : N) (pM pM' : nat -> N) (threads csz : nat) (F : challenger).
  Variables (bits : list bool) (P P' : list (N * N)).
  Hypothesis Hmac : forall i, getLSB (pM i) = getLSB (pM' i) -> pM i = pM' i.
  Hypothesis Hs : (forall i, pM i = pM' i) \/ map snd P = map snd P'.
  Let seeds := challenges F bits P.
  Let seeds' := challenges F bits P'.
  Definition same_masks (a b : nat) : Prop := forall i, a <= i < b -> pM i = pM' i.
  Lemma slice_same a n : same_masks a (a + n) -> pM_slice pM a n = pM_slice pM' a n.
  Proof. intro H. unfold pM_slice. apply map_ext_in. intros i Hi. apply in_seq in Hi. apply H. lia. Qed.
  Lemma lock_manage s q q' : p_chk s = length (p_msgs s) ->
    prv_manage pM threads seeds s = Some q -> prv_manage pM' threads seeds' s = Some q' ->
    prefix (p_msgs q) P -> prefix (p_msgs q') P' -> q = q' /\ same_masks (p_cot s) (p_cot q).
  Proof.
    intros K H H' Q Q'. unfold prv_manage in *. destruct (and_ranges threads (length (p_buf s))) as [rs|]; [|discriminate].
    injection H as <-. injection H' as <-. cbn [p_msgs p_cot] in *.
    assert (Es : seeds (p_chk s) = seeds' (p_chk s)).
    { unfold seeds, seeds', challenges. rewrite K.
      pose proof (prefix_firstn _ _ (prefix_app _ _ _ Q)) as X. pose proof (prefix_firstn _ _ (prefix_app _ _ _ Q')) as X'.
      now rewrite X, X'. }
    assert (Em : same_masks (p_cot s) (p_cot s + 128)).
    { destruct Hs as [Hs1|Hs1]; [intros i _; apply Hs1|].
      destruct Q as [m Em], Q' as [m' Em']. rewrite Em, Em', !map_app, <- !app_assoc in Hs1. apply app_inv_head in Hs1.
      cbn [map app] in Hs1. injection Hs1 as Ha _. rewrite Es in Ha. apply A_snd in Ha.
      apply ch_bits_lsb in Ha; [|unfold pM_slice; now rewrite map_length, seq_length..].
      intros i Hi. apply Hmac. unfold pM_slice in Ha. rewrite !map_map in Ha.
      assert (X : forall l, map (fun x => getLSB (pM x)) l = map (fun x => getLSB (pM' x)) l -> In i l -> getLSB (pM i) = getLSB (pM' i)).
      { clear. induction l as [|y l IH]; cbn; [easy|]. intros E [->|Hin]; injection E; auto. }
      apply (X _ Ha). apply in_seq. lia. }
    split; [|exact Em]. rewrite (slice_same _ _ Em), Es. reflexivity.
  Qed.
  Lemma lock_step s g q q' a b : cinv csz s a b -> 1 <= csz ->
    prv_step r0 r1 pM threads csz seeds s g = Some q -> prv_step r0 r1 pM' threads csz seeds' s g = Some q' ->
    prefix (p_msgs q) P -> prefix (p_msgs q') P' -> prefix (p_bits q) bits -> prefix (p_bits q') bits ->
    q = q' /\ same_masks (p_cot s) (p_cot q).
  Proof.
    intros I Hc H H' Q Q' T T'. destruct g as [x|v|i j|i|i j|i]; cbn [prv_step] in *;
      try (injection H as <-; injection H' as <-; split; [reflexivity|intros ? ?; cbn in *; lia]).
    - unfold prv_input in *. injection H as <-. injection H' as <-. cbn [p_bits p_msgs p_cot] in *.
      pose proof (prefix_snoc_eq _ _ _ _ T T') as E.
      assert (Em : pM (p_cot s) = pM' (p_cot s)) by (apply Hmac; destruct (getLSB (pM (p_cot s))), (getLSB (pM' (p_cot s))), x; easy).
      rewrite Em. split; [reflexivity|]. intros k Hk. replace k with (p_cot s) by lia. exact Em.
    - destruct (prv_precheck pM threads csz seeds s) as [s1|] eqn:E1; [|discriminate].
      destruct (prv_precheck pM' threads csz seeds' s) as [s1'|] eqn:E1'; [|discriminate].
      unfold prv_and in *. injection H as <-. injection H' as <-. cbn [p_bits p_msgs p_cot] in *.
      assert (X : s1 = s1' /\ same_masks (p_cot s) (p_cot s1)).
      { unfold prv_precheck in *. destruct (Nat.eqb (length (p_buf s)) csz).
        - destruct (prv_manage pM threads seeds s) as [s2|] eqn:E2; [|discriminate].
          destruct (prv_manage pM' threads seeds' s) as [s2'|] eqn:E2'; [|discriminate].
          injection E1 as <-. injection E1' as <-. cbn in Q, Q'.
          destruct (lock_manage s s2 s2' (ci_k _ _ _ _ I) E2 E2' Q Q') as [<- M]. auto.
        - injection E1 as <-. injection E1' as <-. split; [reflexivity|]. intros k Hk. lia. }
      destruct X as [<- M].
      pose proof (prefix_snoc_eq _ _ _ _ T T') as E.
      assert (Em : pM (p_cot s1) = pM' (p_cot s1)).
      { apply Hmac. destruct (getLSB (pM (p_cot s1))), (getLSB (pM' (p_cot s1))), (getLSB (wire (p_wires s1) i) && getLSB (wire (p_wires s1) j)); easy. }
      rewrite Em. split; [reflexivity|]. intros k Hk.
      destruct (Nat.eq_dec k (p_cot s1)) as [->|Ne]; [exact Em|]. apply M. lia.
  Qed.
  Lemma lock_run c : 1 <= csz -> forall s q q' a b, cinv csz s a b ->
    prv_run r0 r1 pM threads csz seeds s c = Some q -> prv_run r0 r1 pM' threads csz seeds' s c = Some q' ->
    prefix (p_msgs q) P -> prefix (p_msgs q') P' -> prefix (p_bits q) bits -> prefix (p_bits q') bits ->
    q = q' /\ same_masks (p_cot s) (p_cot q).
  Proof.
    intro Hc. induction c as [|g c IH]; intros s q q' a b I H H' Q Q' T T'; cbn [prv_run] in *.
    - injection H as <-. injection H' as <-. split; [reflexivity|]. intros k Hk. lia.
    - destruct (prv_step r0 r1 pM threads csz seeds s g) as [s1|] eqn:E1; [|discriminate].
      destruct (prv_step r0 r1 pM' threads csz seeds' s g) as [s1'|] eqn:E1'; [|discriminate].
      destruct (cinv_step r0 r1 pM threads csz seeds Hc _ _ _ _ _ I E1) as [I1 _].
      destruct (cinv_step r0 r1 pM' threads csz seeds' Hc _ _ _ _ _ I E1') as [I1' _].
      destruct (cinv_run r0 r1 pM threads csz seeds Hc _ _ _ _ _ I1 H) as [_ [X1 _]].
      destruct (cinv_run r0 r1 pM' threads csz seeds' Hc _ _ _ _ _ I1' H') as [_ [X1' _]].
      destruct (prv_run_mono _ _ _ _ _ _ _ _ _ H) as [m1 Y1]. destruct (prv_run_mono _ _ _ _ _ _ _ _ _ H') as [m1' Y1'].
      destruct (lock_step s g s1 s1' a b I Hc E1 E1') as [Es M].
      + eapply prefix_trans; eauto.
      + eapply prefix_trans; eauto.
      + rewrite Y1 in T. eapply prefix_app; eauto.
      + rewrite Y1' in T'. eapply prefix_app; eauto.
      + subst s1'. destruct (IH _ _ _ _ _ I1 H H' Q Q' T T') as [Eq M2]. split; [exact Eq|].
        intros k Hk. destruct (lt_dec k (p_cot s1)) as [L|L]; [apply M; lia|apply M2; lia].
  Qed.
  Lemma lock_exec c q q' : 1 <= csz ->
    prv_exec r0 r1 pM threads csz seeds c = Some q -> prv_exec r0 r1 pM' threads csz seeds' c = Some q' ->
    p_msgs q = P -> p_msgs q' = P' -> p_bits q = bits -> p_bits q' = bits ->
    q = q' /\ same_masks 1 (p_cot q).
  Proof.
    intros Hc. unfold prv_exec.
    destruct (prv_run r0 r1 pM threads csz seeds p_init c) as [s|] eqn:E; [|discriminate].
    destruct (prv_run r0 r1 pM' threads csz seeds' p_init c) as [s'|] eqn:E'; [|discriminate].
    assert (I0 : cinv csz p_init 0 0) by (constructor; cbn; lia).
    unfold prv_final. intros H H' Q Q' T T'.
    assert (X : prefix (p_msgs s) P /\ p_bits s = bits).
    { destruct (p_buf s); [injection H as <-; subst P bits; split; [apply prefix_refl|reflexivity]|].
      destruct (manage_msgs _ _ _ _ _ H) as [A [M [Bt _]]]. rewrite <- Q, M, <- T. split; [now exists [A]|easy]. }
    assert (X' : prefix (p_msgs s') P' /\ p_bits s' = bits).
    { destruct (p_buf s'); [injection H' as <-; subst P' bits; split; [apply prefix_refl|easy]|].
      destruct (manage_msgs _ _ _ _ _ H') as [A [M [Bt _]]]. rewrite <- Q', M, <- T'. split; [now exists [A]|easy]. }
    destruct X as [X1 X2], X' as [X1' X2'].
    destruct (lock_run c Hc p_init s s' 0 0 I0 E E' X1 X1') as [<- M].
    - rewrite X2. apply prefix_refl.
    - rewrite X2'. apply prefix_refl.
    - destruct (p_buf s).
      + injection H as <-. injection H' as <-. auto.
      + destruct (cinv_run r0 r1 pM threads csz seeds Hc _ _ _ _ _ I0 E) as [I _].
        destruct (lock_manage s q q' (ci_k _ _ _ _ I) H H') as [<- M2].
        * rewrite Q. apply prefix_refl.
        * rewrite Q'. apply prefix_refl.
        * split; [reflexivity|]. cbn in M. intros k Hk. destruct (lt_dec k (p_cot s)) as [L|L]; [apply M; lia|apply M2; lia].
  Qed.
End Lock.
