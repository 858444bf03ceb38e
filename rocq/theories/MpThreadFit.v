(** The programs of mpfss() keep to their permissions. *)
From Coq Require Import NArith List Bool Arith Lia.
From Verif Require Import Word FpModel TreeModel VoleModel MpThreadModel MpThreadSpec MpThreadDiamond MpThreadPerm.
Import ListNotations.

Definition other (sd : side) : side := match sd with Snd => Rcv | Rcv => Snd end.
Section Fit.
  Variables (threads tree_n depth : nat).
  Notation lv := (leave_n depth).
  Notation range i := (range_of threads tree_n i).
  Notation last := (last_range threads tree_n).
  (** what tree [s] on connection [ch] uses exclusively *)
  Definition uses (sd : side) (ch s : nat) (r : res) : Prop :=
    match r with
    | RMem (sd', Vec, x) => sd' = sd /\ s * lv <= x < s * lv + lv
    | RMem (sd', Buf, x) | RMem (sd', Chi, x) => sd' = sd /\ x = s
    | RMem (sd', Seed, x) => sd' = sd /\ x = ch
    | RSend c => c = (sd, ch)
    | RRecv c => c = (other sd, ch)
    | _ => False
    end.
  Definition reads (sd : side) (ph : nat) (r : res) : Prop :=
    match r with
    | RMem (sd', Bits, _) | RMem (sd', Pre, _) => sd' = sd /\ ph = 1
    | RMem (sd', Tri, _) => sd' = sd
    | _ => False
    end.
  Definition work (sd : side) (i : nat) (r : res) : Prop := exists s, In s (range i) /\ uses sd i s r.
  Definition go (t : tok) (r : res) : Prop :=
    match t with Go sd ph i | Back sd ph i => work sd i r \/ r = RSig t end.
  Definition gs (t : tok) (r : res) : Prop := match t with Go sd ph i => reads sd ph r | Back _ _ _ => False end.
  Lemma go_sig t : go t (RSig t). Proof. destruct t; cbn; auto. Qed.
  Notation fit := (fit go gs).

  Lemma fit_read_from sd a n : forall i k (own shr : rset), (forall x, i <= x < i + n -> own (RMem (sd, a, x)) \/ shr (RMem (sd, a, x))) ->
    (forall vs, fit own shr (k vs)) -> fit own shr (read_from sd a i n k).
  Proof.
    induction n as [|n IH]; intros i k own shr A K; cbn [read_from]; [apply K|]. cbn [MpThreadPerm.fit]. split; [apply A; lia|].
    intro v. apply IH; [intros; apply A; lia|]. intro vs. apply K.
  Qed.
  Lemma fit_write_from sd a vs : forall i k (own shr : rset), (forall x, i <= x < i + length vs -> own (RMem (sd, a, x))) ->
    fit own shr k -> fit own shr (write_from sd a i vs k).
  Proof.
    induction vs as [|v vs IH]; intros i k own shr A K; cbn [write_from length] in *; [exact K|]. cbn [MpThreadPerm.fit]. split; [apply A; lia|].
    apply IH; [intros; apply A; lia|exact K].
  Qed.
  Lemma slice_length t n : length (slice t n) = n. Proof. unfold slice. now rewrite map_length, seq_length. Qed.
  Lemma fit_flip n : forall k i bs c (own shr : rset), (forall x, own (RMem (Rcv, Bits, x))) -> fit own shr c -> fit own shr (p_flip n k i bs c).
  Proof. induction n as [|n IH]; intros k i bs c own shr A K; cbn [p_flip]; [exact K|]. cbn [MpThreadPerm.fit]. auto. Qed.
  Lemma fit_send_bits n : forall k c (own shr : rset), (forall x, own (RMem (Rcv, Bits, x))) -> own (RSend (Rcv, 0)) -> fit own shr c -> fit own shr (p_send_bits n k c).
  Proof. induction n as [|n IH]; intros k c own shr A B K; cbn [p_send_bits]; [exact K|]. cbn [MpThreadPerm.fit]. auto. Qed.
  Lemma fit_choices_r b times : forall s count c (own shr : rset), (forall x, own (RMem (Rcv, Bits, x))) -> own (RSend (Rcv, 0)) -> fit own shr c ->
    fit own shr (p_choices_r depth b times s count c).
  Proof. induction times as [|t IH]; intros s count c own shr A B K; cbn [p_choices_r]; [exact K|]. auto using fit_flip, fit_send_bits. Qed.
  Lemma fit_recv_bits n : forall k c (own shr : rset), (forall x, own (RMem (Snd, Bits, x))) -> own (RRecv (Rcv, 0)) -> fit own shr c -> fit own shr (p_recv_bits n k c).
  Proof. induction n as [|n IH]; intros k c own shr A B K; cbn [p_recv_bits]; [exact K|]. cbn [MpThreadPerm.fit]. auto 6. Qed.
  Lemma fit_choices_s times : forall count c (own shr : rset), (forall x, own (RMem (Snd, Bits, x))) -> own (RRecv (Rcv, 0)) -> fit own shr c ->
    fit own shr (p_choices_s depth times count c).
  Proof. induction times as [|t IH]; intros count c own shr A B K; cbn [p_choices_s]; [exact K|]. auto using fit_recv_bits. Qed.
  Lemma fit_ot_send ch n : forall k i m0 m1 c (own shr : rset), own (RSend (Snd, ch)) ->
    (forall x, own (RMem (Snd, Bits, x)) \/ shr (RMem (Snd, Bits, x))) -> (forall x, own (RMem (Snd, Pre, x)) \/ shr (RMem (Snd, Pre, x))) ->
    fit own shr c -> fit own shr (p_ot_send tree_n depth ch n k i m0 m1 c).
  Proof.
    induction n as [|n IH]; intros k i m0 m1 c own shr A B C K; cbn [p_ot_send]; [exact K|]. cbn [MpThreadPerm.fit].
    split; [apply B|]. intro v. destruct (negb (bit_of v)); cbn [MpThreadPerm.fit]; repeat (split; [auto|]; try intro); auto.
  Qed.
  Lemma fit_ot_recv ch n : forall k i bs data c (own shr : rset), own (RRecv (Snd, ch)) ->
    (forall x, own (RMem (Rcv, Pre, x)) \/ shr (RMem (Rcv, Pre, x))) ->
    (forall m, fit own shr (c m)) -> fit own shr (p_ot_recv ch n k i bs data c).
  Proof.
    induction n as [|n IH]; intros k i bs data c own shr A B K; cbn [p_ot_recv]; [apply K|]. cbn [MpThreadPerm.fit].
    repeat (split; [auto|]; intro). apply IH; auto.
  Qed.
  Lemma index_lt bs : get_index depth bs < lv.
  Proof.
    unfold get_index, leave_n. assert (X : forall c i p k, p < 2 ^ k -> index_loop c i bs p < 2 ^ (k + c)).
    { induction c as [|c IH]; intros i p k Hp; cbn [index_loop]; [now rewrite Nat.add_0_r|].
      replace (k + S c) with (S k + c) by lia. apply IH. cbn [Nat.pow]. destruct (negb (bs i)); lia. }
    apply (X (depth - 1) 0 0 0). cbn. lia.
  Qed.
  (** what is asked of the programs of the trees *)
  Variable item : side -> nat -> nat -> nat -> prog -> prog.
  Hypothesis fit_item : forall sd ph ch s c (own shr : rset), ph = 1 \/ ph = 2 -> (forall r, uses sd ch s r -> own r) ->
    (forall r, reads sd ph r -> own r \/ shr r) -> fit own shr c -> fit own shr (item sd ph ch s c).
  Lemma fit_items sd ph ch ss c (own shr : rset) : ph = 1 \/ ph = 2 -> (forall s r, In s ss -> uses sd ch s r -> own r) ->
    (forall r, reads sd ph r -> own r \/ shr r) -> fit own shr c -> fit own shr (p_items item sd ph ch ss c).
  Proof.
    intros HP U V K. induction ss as [|s ss IH]; cbn [p_items]; [exact K|]. apply fit_item; auto.
    - intros r. apply U. now left.
    - apply IH. intros s' r Hs'. apply U. now right.
  Qed.

  (** different tasks use different things *)
  Lemma tree_slot s s' x : s * lv <= x < s * lv + lv -> s' * lv <= x < s' * lv + lv -> s = s'.
  Proof.
    intros A B. destruct (Nat.lt_trichotomy s s') as [H|[H|H]]; auto; exfalso.
    - assert (S s * lv <= s' * lv) by (apply Nat.mul_le_mono_r; lia). cbn in H0. lia.
    - assert (S s' * lv <= s * lv) by (apply Nat.mul_le_mono_r; lia). cbn in H0. lia.
  Qed.
  Lemma range_one i j s : In s (range i) -> In s (range j) -> i = j.
  Proof.
    unfold range_of. rewrite !in_seq. generalize (width threads tree_n). intros w A B.
    destruct (Nat.lt_trichotomy i j) as [H|[H|H]]; auto; exfalso.
    - assert (S i * w <= j * w) by (apply Nat.mul_le_mono_r; lia). cbn in H0. lia.
    - assert (S j * w <= i * w) by (apply Nat.mul_le_mono_r; lia). cbn in H0. lia.
  Qed.
  Lemma uses_one sd sd' ch ch' s s' r : uses sd ch s r -> uses sd' ch' s' r -> sd = sd' /\ (s = s' \/ ch = ch').
  Proof.
    destruct r as [[[x a] i]|c|c|t|t]; cbn [uses]; try contradiction.
    - destruct a; try contradiction; intros [-> A] [-> B]; split; auto; [left; eapply tree_slot; eauto|left; congruence|left; congruence|right; congruence].
    - intros -> E. injection E as <- <-. auto.
    - intros -> E. injection E as E <-. split; [destruct sd, sd'; cbn in E; congruence|auto].
  Qed.
  Lemma work_one sd sd' i j r : work sd i r -> work sd' j r -> sd = sd' /\ i = j.
  Proof.
    intros (s & A & B) (s' & A' & B'). destruct (uses_one _ _ _ _ _ _ _ B B') as [-> [->| ->]]; auto. split; auto. eapply range_one; eauto.
  Qed.
  Lemma uses_reads sd ch s sd' ph r : uses sd ch s r -> ~ reads sd' ph r.
  Proof. destruct r as [[[x a] i]|c|c|t|t]; cbn [uses reads]; try tauto. destruct a; tauto. Qed.
  Lemma uses_sig sd ch s t : ~ uses sd ch s (RSig t). Proof. cbn. tauto. Qed.
  Lemma last_range_apart i s : i < threads - 1 -> In s (range i) -> ~ In s last.
  Proof.
    unfold range_of, last_range. rewrite !in_seq. generalize (width threads tree_n). intros w H A B.
    assert (S i * w <= (threads - 1) * w) by (apply Nat.mul_le_mono_r; lia). cbn in H0. lia.
  Qed.

  (** the state of a main thread's permissions around a phase *)
  Definition left_of (sd : side) (ph i n : nat) (O : rset) : rset :=
    fun r => O r /\ forall j, i <= j < i + n -> ~ go (Go sd ph j) r /\ ~ gs (Go sd ph j) r.
  Definition lent (sd : side) (ph n : nat) (S : rset) : rset := fun r => S r \/ (0 < n /\ reads sd ph r).
  Lemma fit_enqueue sd ph n : forall i c (O S : rset),
    (forall j r, i <= j < i + n -> go (Go sd ph j) r -> O r /\ ~ S r) -> (forall r, reads sd ph r -> O r \/ S r) ->
    fit (left_of sd ph i n O) (lent sd ph n S) c -> fit O S (p_enqueue sd ph i n c).
  Proof.
    induction n as [|n IH]; intros i c O S A B K; cbn [p_enqueue].
    - eapply fit_mono; [| |exact K]; unfold left_of, lent; [tauto|]. intro r. intuition lia.
    - cbn [MpThreadPerm.fit].
      assert (GR : forall j r, go (Go sd ph j) r -> ~ reads sd ph r).
      { intros j r [(s & _ & X)|E]; [eapply uses_reads; eauto|subst r; cbn; tauto]. }
      split; [apply (A i); [lia|apply go_sig]|]. split.
      { intros r Hr. destruct (A i r ltac:(lia) Hr) as [X Y]. split; [exact X|]. split; [exact Y|]. apply (GR i r Hr). }
      split; [exact B|]. apply IH.
      + intros j r Hj Hr. destruct (A j r ltac:(lia) Hr) as [X Y]. cbn [gs]. pose proof (GR _ _ Hr) as Z. split; [|tauto].
        split; [exact X|]. split; [|exact Z]. intro W. destruct Hr as [Hr|Hr], W as [W|W]; subst; try discriminate.
        * destruct (work_one _ _ _ _ _ Hr W). lia.
        * destruct Hr as (s & _ & Q). cbn in Q. exact Q.
        * destruct W as (s & _ & Q). cbn in Q. exact Q.
        * injection W as W. lia.
      + intros r Hr. cbn [gs]. tauto.
      + eapply fit_mono; [| |exact K]; unfold left_of, lent; intro r.
        * intros [X Y]. split.
          -- split; [exact X|]. destruct (Y i ltac:(lia)). auto.
          -- intros j Hj. apply Y. lia.
        * cbn [gs]. intuition lia.
  Qed.
  Lemma fit_get sd ph n : forall i c (O S : rset), (forall j, O (RWait (Back sd ph j))) ->
    fit (fun r => O r \/ exists j, i <= j < i + n /\ work sd j r) S c -> fit O S (p_get sd ph i n c).
  Proof.
    induction n as [|n IH]; intros i c O S A K; cbn [p_get].
    - eapply fit_mono; [| |exact K]; [|reflexivity]. intros r [X|(j & X & _)]; [exact X|lia].
    - cbn [MpThreadPerm.fit]. split; [apply A|]. apply IH; [intro j; left; apply A|].
      eapply fit_mono; [| |exact K]; [|cbn; tauto]. intros r [X|(j & X & Y)]; [left; now left|].
      destruct (Nat.eq_dec j i) as [->|N]; [left; right; now left|]. right. exists j. split; [lia|exact Y].
  Qed.
  (** one phase: everything comes back except that shared arrays stay shared *)
  Definition after (sd : side) (ph : nat) (O : rset) : rset :=
    fun r => O r /\ (forall j, r <> RSig (Go sd ph j)) /\ ~ (0 < threads - 1 /\ reads sd ph r).
  Lemma fit_phase sd ph c (O S : rset) : ph = 1 \/ ph = 2 ->
    (forall ch s r, uses sd ch s r -> O r /\ ~ S r) -> (forall j, O (RSig (Go sd ph j)) /\ ~ S (RSig (Go sd ph j))) ->
    (forall j, O (RWait (Back sd ph j))) -> (forall r, reads sd ph r -> O r \/ S r) ->
    fit (after sd ph O) (lent sd ph (threads - 1) S) c -> fit O S (p_phase threads tree_n item sd ph c).
  Proof.
    intros HP U SG W RD K. unfold p_phase. apply fit_enqueue; auto.
    - intros j r _ [(s & _ & X)|E]; [eapply U; exact X|subst; apply SG].
    - apply fit_items; auto.
      + intros s r Hs' X. split; [eapply U; exact X|]. intros j Hj. split; [|eapply uses_reads; exact X].
        intros [(s' & A & B)|E]; [|subst r; exact X].
        destruct (uses_one _ _ _ _ _ _ _ X B) as [_ [<-|E]]; [|lia]. eapply last_range_apart; eauto. lia.
      + intros r Hr. unfold left_of, lent. destruct (Nat.eq_dec (threads - 1) 0) as [Z|Z]; [|right; right; split; [lia|exact Hr]].
        destruct (RD r Hr) as [X|X]; [left|right; now left]. split; [exact X|]. intros j Hj. lia.
      + apply fit_get.
        * intro j. split; [apply W|]. intros i Hi. split; [|cbn; tauto]. intros [(s & _ & X)|E]; [exact X|discriminate].
        * eapply fit_mono; [| |exact K]; [|reflexivity]. intros r (X & Y & Z). unfold left_of.
          assert (D : (exists j, 0 <= j < 0 + (threads - 1) /\ work sd j r) \/ ~ exists j, 0 <= j < 0 + (threads - 1) /\ work sd j r).
          { clear. assert (Dw : forall j, work sd j r \/ ~ work sd j r).
            { intro j. unfold work. destruct r as [[[x a] i]|c|c|t|t]; cbn [uses]; try (right; intros (s & _ & Q); exact Q).
              - destruct (side_dec x sd) as [->|Ne]; [|right; intros (s & _ & Q); destruct a; tauto].
                destruct a; try (right; intros (s & _ & Q); exact Q).
                + destruct (in_dec Nat.eq_dec (i / lv) (range j)) as [I|I].
                  * left. exists (i / lv). split; [exact I|]. split; [reflexivity|]. assert (lv <> 0) by (unfold leave_n; apply Nat.pow_nonzero; lia).
                    pose proof (Nat.div_mod i lv H). pose proof (Nat.mod_upper_bound i lv H). rewrite (Nat.mul_comm (i / lv)). lia.
                  * right. intros (s & A & _ & B). apply I. replace (i / lv) with s; [exact A|]. apply (Nat.div_unique i lv s (i - s * lv)); [lia|]. rewrite Nat.mul_comm. lia.
                + destruct (in_dec Nat.eq_dec i (range j)) as [I|I]; [left; eauto|]. right. intros (s & A & _ & ->). contradiction.
                + destruct (in_dec Nat.eq_dec i (range j)) as [I|I]; [left; eauto|]. right. intros (s & A & _ & ->). contradiction.
                + destruct (Nat.eq_dec i j) as [->|Ne]; [|right; intros (s & _ & _ & Q); contradiction].
                  destruct (range j) as [|s l] eqn:E; [right; intros (s & A & _); contradiction|left; exists s; split; [now left|auto]].
              - destruct (chan_dec c (sd, j)) as [->|Ne]; [|right; intros (s & _ & Q); contradiction].
                destruct (range j) as [|s l] eqn:E; [right; intros (s & A & _); contradiction|left; exists s; split; [now left|reflexivity]].
              - destruct (chan_dec c (other sd, j)) as [->|Ne]; [|right; intros (s & _ & Q); contradiction].
                destruct (range j) as [|s l] eqn:E; [right; intros (s & A & _); contradiction|left; exists s; split; [now left|reflexivity]]. }
            induction (threads - 1) as [|n [IH|IH]].
            - right. intros (j & Hj & _). lia.
            - left. destruct IH as (j & Hj & Q). exists j. split; [lia|exact Q].
            - destruct (Dw n) as [Q|Q]; [left; exists n; split; [lia|exact Q]|]. right. intros (j & Hj & Q').
              destruct (Nat.eq_dec j n) as [->|Ne]; [contradiction|]. apply IH. exists j. split; [lia|exact Q']. }
          destruct D as [D|D]; [right; exact D|left]. split; [exact X|]. intros j Hj. split.
          -- intros [Q|Q]; [apply D; exists j; auto|]. now apply (Y j).
          -- intro Q. apply Z. split; [lia|exact Q].
  Qed.

  (** initial permissions *)
  Definition own0 (t : tid) (r : res) : Prop :=
    match t with
    | Main sd => match r with
                 | RMem l => fst (fst l) = sd
                 | RSend c => fst c = sd
                 | RRecv c => fst c = other sd
                 | RSig k => exists ph i, k = Go sd ph i
                 | RWait k => exists ph i, k = Back sd ph i
                 end
    | Task sd ph i => r = RWait (Go sd ph i) \/ r = RSig (Back sd ph i)
    end.
  Definition none : rset := fun _ => False.
  Lemma uses_own sd ch s r : uses sd ch s r -> own0 (Main sd) r.
  Proof. destruct r as [[[x a] i]|c|c|t|t]; cbn; try contradiction; [destruct a; try contradiction; tauto|intros ->; reflexivity|intros ->; reflexivity]. Qed.
  Lemma reads_own sd ph r : reads sd ph r -> own0 (Main sd) r.
  Proof. destruct r as [[[x a] i]|c|c|t|t]; cbn; try contradiction. destruct a; try contradiction; tauto. Qed.
  Notation s1 sd := (after sd 1 (own0 (Main sd))).
  Notation l1 sd := (lent sd 1 (threads - 1) none).
  Notation s2 sd := (after sd 2 (s1 sd)).
  Notation l2 sd := (lent sd 2 (threads - 1) (l1 sd)).
  Lemma own1 sd r : own0 (Main sd) r -> (forall ph i, r <> RSig (Go sd ph i)) -> ~ reads sd 1 r -> s1 sd r.
  Proof. intros A B C. split; [exact A|]. split; [intro; apply B|tauto]. Qed.
  Lemma own2 sd r : own0 (Main sd) r -> (forall ph i, r <> RSig (Go sd ph i)) -> ~ reads sd 1 r -> ~ reads sd 2 r -> s2 sd r.
  Proof. intros A B C D. split; [now apply own1|]. split; [intro; apply B|tauto]. Qed.
  Lemma fit_phases sd k c : (forall p, fit (s1 sd) (l1 sd) p -> fit (s1 sd) (l1 sd) (k p)) -> fit (s2 sd) (l2 sd) c ->
    fit (own0 (Main sd)) none (p_phase threads tree_n item sd 1 (k (p_phase threads tree_n item sd 2 c))).
  Proof.
    intros Hk K. apply fit_phase; auto.
    - intros ch s r Hr. split; [eapply uses_own; eauto|tauto].
    - intro j. split; [cbn; eauto|tauto].
    - intro j. cbn. eauto.
    - intros r Hr. left. eapply reads_own; eauto.
    - apply Hk. apply fit_phase; auto.
      + intros ch s r Hr. assert (NR : forall ph, ~ reads sd ph r) by (intro; eapply uses_reads; eauto).
        split; [|intros [Q|[_ Q]]; [exact Q|now apply NR in Q]]. apply own1; auto; [eapply uses_own; eauto|]. intros ph i ->. exact Hr.
      + intro j. split; [|intros [Q|[_ Q]]; exact Q]. split; [cbn; eauto|]. split; [intros i E; discriminate|cbn; tauto].
      + intro j. apply own1; [cbn; eauto|discriminate|cbn; tauto].
      + intros r Hr. unfold after, lent. destruct (Nat.eq_dec (threads - 1) 0) as [Z|Z].
        * left. split; [eapply reads_own; eauto|]. split; [intros j ->; exact Hr|lia].
        * destruct r as [[[x a] i]|h|h|t|t]; cbn in Hr; try contradiction. destruct a; try contradiction.
          -- destruct Hr; discriminate.
          -- destruct Hr; discriminate.
          -- right. right. split; [lia|exact Hr].
  Qed.
  Lemma chan_of i s : In s (range i) -> i * width threads tree_n / width threads tree_n = i.
  Proof. unfold range_of. rewrite in_seq. intro H. apply Nat.div_mul. lia. Qed.
  Lemma items_ext sd ph ch ch' ss c : (forall s, In s ss -> ch = ch') ->
    p_items item sd ph ch ss c = p_items item sd ph ch' ss c.
  Proof. destruct ss as [|s ss]; intro H; [reflexivity|]. now rewrite (H s (or_introl eq_refl)). Qed.
  Lemma fit_task sd ph i : ph = 1 \/ ph = 2 -> fit (own0 (Task sd ph i)) none (p_task threads tree_n item sd ph i).
  Proof.
    intro HP. unfold p_task. rewrite (items_ext sd ph _ i) by (intros s Hs'; eapply chan_of; eauto). cbn [MpThreadPerm.fit].
    split; [now left|]. apply fit_items; auto.
    - intros s r A B. right. left. exists s. auto.
    - cbn [MpThreadPerm.fit]. split; [left; now right|]. split; [|split; [cbn; tauto|exact I]].
      intros r Hr. split; [|split; [|cbn; tauto]].
      + destruct Hr as [Hr|Hr]; [right; left; exact Hr|left; right; exact Hr].
      + intros [Q|Q]; [exact Q|]. destruct Hr as [(s & _ & Hr)|Hr]; [exact (uses_reads _ _ _ _ _ _ Hr Q)|subst; exact Q].
  Qed.
  Lemma safe_start m (ps : tid -> prog) : (forall sd, fit (own0 (Main sd)) none (ps (Main sd))) ->
    (forall sd ph i, ps (Task sd ph i) = Done \/ ((ph = 1 \/ ph = 2) /\ ps (Task sd ph i) = p_task threads tree_n item sd ph i)) -> safe go gs (start m, ps).
  Proof.
    intros HM HT. exists own0, (fun _ => none). constructor; cbn [fst snd start s_tok].
    - intros [sd|sd ph i]; [apply HM|]. destruct (HT sd ph i) as [-> |[HP ->]]; [exact I|now apply fit_task].
    - intros t t' r N A. split; [|tauto]. intro B. destruct t as [d|d ph i], t' as [d'|d' ph' i']; cbn in A, B.
      + assert (d <> d') by congruence. destruct r as [l|c|c|k|k]; try congruence.
        * destruct d, d'; cbn in *; congruence.
        * destruct A as (? & ? & ->), B as (? & ? & E). injection E. congruence.
        * destruct A as (? & ? & ->), B as (? & ? & E). injection E. congruence.
      + destruct B; subst r; cbn in A; destruct A as (? & ? & E); discriminate.
      + destruct A; subst r; cbn in B; destruct B as (? & ? & E); discriminate.
      + destruct A as [A|A], B as [B|B]; subst r; try discriminate; injection B; congruence.
    - intro k. lia.
    - intros k t r E. discriminate.
    - intros k t r E. discriminate.
    - intros k k' r _ E. discriminate.
  Qed.
End Fit.

(** the programs of the F_p MPFSS *)
Section FitFp.
  Variables (L R Hs : N -> N) (G : N -> nat -> N).
  Variables (threads tree_n depth : nat).
  Variables (seed : nat -> N) (b : nat -> nat -> bool) (delta sd0 : N).
  Notation lv := (leave_n depth).
  Notation go := (go threads tree_n depth).
  Notation fit := (fit go gs).
  Notation uses := (uses depth).
  Notation item := (p_item L R Hs tree_n depth seed b).
  Notation s1 sd := (after threads sd 1 (own0 (Main sd))).
  Notation l1 sd := (lent sd 1 (threads - 1) none).
  Notation s2 sd := (after threads sd 2 (s1 sd)).
  Notation l2 sd := (lent sd 2 (threads - 1) (l1 sd)).
  Lemma fit_fp_item sd ph ch s c (own shr : rset) : ph = 1 \/ ph = 2 -> (forall r, uses sd ch s r -> own r) -> (forall r, reads sd ph r -> own r \/ shr r) ->
    fit own shr c -> fit own shr (p_item L R Hs tree_n depth seed b sd ph ch s c).
  Proof.
    intros HP U V K.
    assert (UV : forall x, s * lv <= x < s * lv + lv -> own (RMem (sd, Vec, x))) by (intros x Hx; apply U; cbn; auto).
    destruct HP as [-> | ->]; destruct sd; cbn [p_item].
    - unfold p_tree_s. cbn [MpThreadPerm.fit]. split; [apply V; reflexivity|]. intro g. apply fit_read_from; [intros; left; auto|].
      intro vs. destruct (sp_send L R depth (seed s) g (cells vs)) as [[[t m0] m1] sum]. apply fit_write_from; [rewrite slice_length; exact UV|].
      apply fit_ot_send; [apply U; reflexivity|intro; apply V; cbn; auto|intro; apply V; cbn; auto|].
      cbn [MpThreadPerm.fit]. assert (own (RSend (Snd, ch))) by (apply U; reflexivity). auto.
    - unfold p_tree_r. apply fit_ot_recv; [apply U; reflexivity|intro; apply V; cbn; auto|]. intro m. cbn [MpThreadPerm.fit].
      split; [apply U; reflexivity|]. intro sh. split; [apply V; reflexivity|]. intro d2. apply fit_read_from; [intros; left; auto|]. intro vs.
      apply fit_write_from; [rewrite slice_length; exact UV|]. cbn [MpThreadPerm.fit]. split; [apply U; reflexivity|exact K].
    - unfold p_msg_s. cbn [MpThreadPerm.fit]. split; [left; apply U; cbn; auto|]. intro x. apply fit_read_from; [intros; left; auto|]. intro vs.
      cbn [MpThreadPerm.fit]. split; [apply U; cbn; auto|exact K].
    - unfold p_msg_r. cbn [MpThreadPerm.fit]. split; [apply V; reflexivity|]. intro be. split; [left; apply U; cbn; auto|]. intro x.
      split; [apply U; cbn; auto|]. apply fit_read_from; [intros; left; auto|]. intro vs. cbn [MpThreadPerm.fit].
      pose proof (index_lt depth (b s)) as X. assert (own (RMem (Rcv, Vec, s * lv + get_index depth (b s)))) by (apply UV; lia).
      split; [apply U; cbn; auto|]. auto.
  Qed.
  Lemma fit_main sd : fit (own0 (Main sd)) none (p_main L R Hs G threads tree_n depth seed b delta sd0 sd).
  Proof.
    assert (T2 : forall sd x, s2 sd (RMem (sd, Tri, x)) \/ l2 sd (RMem (sd, Tri, x))).
    { intros d x. unfold after, lent. destruct (Nat.eq_dec (threads - 1) 0) as [Z|Z]; [left|right; left; right; split; [lia|reflexivity]].
      repeat split; try discriminate; cbn; lia. }
    assert (B2 : forall sd a x, a <> Bits -> a <> Pre -> a <> Tri -> s2 sd (RMem (sd, a, x))).
    { intros d a x A1 A2 A3. apply own2; [reflexivity|discriminate| |]; cbn; destruct a; try contradiction; tauto. }
    destruct sd; unfold p_main.
    - apply fit_choices_s; [reflexivity|reflexivity|]. cbn [MpThreadPerm.fit]. split; [reflexivity|].
      apply (fit_phases threads tree_n depth item fit_fp_item Snd (p_seed_s G threads)).
      + intros p Hp. unfold p_seed_s. cbn [MpThreadPerm.fit]. split; [apply own1; [reflexivity|discriminate|cbn; tauto]|]. intro x.
        unfold p_seeds. apply fit_write_from; [|exact Hp]. intros i _. apply own1; [reflexivity|discriminate|cbn; intuition discriminate].
      + unfold p_batch_s. cbn [MpThreadPerm.fit]. split; [apply T2|]. intro y. split; [apply own2; [reflexivity|discriminate|cbn; tauto|cbn; tauto]|].
        intro xs. apply fit_read_from; [intros; left; apply B2; discriminate|]. intro V. cbn [MpThreadPerm.fit].
        assert (s2 Snd (RSend (Snd, 0))) by (apply own2; [reflexivity|discriminate|cbn; tauto|cbn; tauto]). auto.
    - apply fit_choices_r; [reflexivity|reflexivity|]. cbn [MpThreadPerm.fit]. split; [reflexivity|].
      apply (fit_phases threads tree_n depth item fit_fp_item Rcv (p_seed_r G threads sd0)).
      + intros p Hp. unfold p_seed_r. cbn [MpThreadPerm.fit].
        assert (s1 Rcv (RSend (Rcv, 0))) by (apply own1; [reflexivity|discriminate|cbn; tauto]). split; [auto|]. split; [auto|].
        unfold p_seeds. apply fit_write_from; [|exact Hp]. intros i _. apply own1; [reflexivity|discriminate|cbn; intuition discriminate].
      + unfold p_batch_r. cbn [MpThreadPerm.fit]. split; [apply T2|]. intro z. apply fit_read_from; [intros; apply T2|]. intro macs.
        apply fit_read_from; [intros; left; apply B2; discriminate|]. intro X. cbn [MpThreadPerm.fit].
        assert (s2 Rcv (RSend (Rcv, 0))) by (apply own2; [reflexivity|discriminate|cbn; tauto|cbn; tauto]). split; [auto|]. split; [auto|].
        apply fit_read_from; [intros; left; apply B2; discriminate|]. intro W. cbn [MpThreadPerm.fit].
        split; [apply own2; [reflexivity|discriminate|cbn; tauto|cbn; tauto]|]. intro r. split; [apply B2; discriminate|exact I].
  Qed.
  Lemma safe_fp m : safe go gs (start m, all_threads L R Hs G threads tree_n depth seed b delta sd0).
  Proof.
    apply (safe_start threads tree_n depth item fit_fp_item); [exact fit_main|]. intros sd ph i. cbn [all_threads].
    destruct ((Nat.eqb ph 1 || Nat.eqb ph 2) && Nat.ltb i (threads - 1)) eqn:E; [right|now left]. split; [|reflexivity].
    apply andb_true_iff in E. destruct E as [E _]. apply orb_true_iff in E. rewrite !Nat.eqb_eq in E. exact E.
  Qed.
End FitFp.
