(** One complete execution of mpfss() by both parties, and with it all executions. *)
From Coq Require Import NArith List Bool Arith Lia.
From Verif Require Import Word FpModel TreeModel VoleModel MpfssProofs MpThreadModel MpThreadSpec MpThreadDiamond MpThreadPerm MpThreadFit MpThreadRun MpThreadItems.
Import ListNotations.

Section Choices.
  Variables (cap top depth : nat) (b : nat -> nat -> bool).
  Notation len := (depth - 1).
  Lemma send_wmem s m c v : send cap (wmem s m) c v = wmem (send cap s c v) m.
  Proof. unfold send. cbn [wmem s_out set_out]. destruct (Nat.leb _ _); reflexivity. Qed.
  Lemma sends_wmem c vs : forall s m, sends cap (wmem s m) c vs = wmem (sends cap s c vs) m.
  Proof. induction vs as [|v vs IH]; intros s m; cbn [sends fold_left]; [reflexivity|]. rewrite send_wmem. apply IH. Qed.
  Lemma wmem_wmem s m m' : wmem (wmem s m) m' = wmem s m'. Proof. reflexivity. Qed.
  Definition keeps (sd : side) (m m' : loc -> N) : Prop := forall d a i, d <> sd \/ a <> Bits -> m' (d, a, i) = m (d, a, i).
  Lemma keeps_trans sd m1 m2 m3 : keeps sd m1 m2 -> keeps sd m2 m3 -> keeps sd m1 m3.
  Proof. intros A B d x i Hx. rewrite B by exact Hx. now apply A. Qed.
  Lemma bit_b2n x : bit_of (N.b2n x) = x. Proof. destruct x; reflexivity. Qed.
  Lemma flip_spec n : forall k bs i bits, let '(bits', msg) := flip_loop n k bs i bits in
    (forall j, j < k \/ k + n <= j -> bits' j = bits j) /\ map bits' (seq k n) = msg.
  Proof.
    induction n as [|n IH]; intros k bs i bits; cbn [flip_loop seq map]; [auto|].
    specialize (IH (S k) bs (S i) (mset bits k (xorb (bs i) (bits k)))). destruct (flip_loop n (S k) bs (S i) _) as [bits' msg]. destruct IH as [A B]. split.
    - intros j Hj. rewrite A by lia. unfold mset. destruct (Nat.eqb_spec j k); [lia|reflexivity].
    - rewrite A by lia. rewrite B. unfold mset. now rewrite Nat.eqb_refl.
  Qed.
  Lemma exec_flip n : forall k i bs c s bits, k + n <= top -> (forall j, j < top -> s_mem s (Rcv, Bits, j) = N.b2n (bits j)) ->
    exists m', exec cap s (p_flip n k i bs c) (wmem s m') c /\
      (forall j, j < top -> m' (Rcv, Bits, j) = N.b2n (fst (flip_loop n k bs i bits) j)) /\ keeps Rcv (s_mem s) m'.
  Proof.
    induction n as [|n IH]; intros k i bs c s bits Hk HB; cbn [p_flip flip_loop].
    - exists (s_mem s). split; [apply exec_0; repeat split; auto|]. split; [exact HB|]. intros d a j _. reflexivity.
    - destruct (IH (S k) (S i) bs c (set_mem s (Rcv, Bits, k) (N.b2n (xorb (bs i) (bits k)))) (mset bits k (xorb (bs i) (bits k)))) as (m' & E & A & K).
      { lia. }
      { intros j Hj. cbn [set_mem s_mem]. unfold mset. destruct (loc_dec (Rcv, Bits, j) (Rcv, Bits, k)) as [Q|Q].
        - injection Q as ->. now rewrite Nat.eqb_refl.
        - destruct (Nat.eqb_spec j k); [congruence|]. now apply HB. }
      exists m'. split; [|split].
      + eapply exec_S; [reflexivity|]. eapply exec_S; [reflexivity|]. rewrite HB by lia. rewrite bit_b2n. exact E.
      + intros j Hj. rewrite A by exact Hj. destruct (flip_loop n (S k) bs (S i) _) as [x y]. reflexivity.
      + intros d a j Hx. rewrite K by exact Hx. cbn [set_mem s_mem]. destruct (loc_dec (d, a, j) (Rcv, Bits, k)) as [Q|]; [|reflexivity].
        injection Q as -> -> ->. destruct Hx; congruence.
  Qed.
  Lemma exec_send_bits n : forall k c s, exec cap s (p_send_bits n k c) (sends cap s (Rcv, 0) (map (arr (s_mem s) Rcv Bits) (seq k n))) c.
  Proof.
    induction n as [|n IH]; intros k c s; cbn [p_send_bits seq map]; [apply exec_refl|].
    eapply exec_S; [reflexivity|]. eapply exec_S; [reflexivity|]. eapply exec_eqv_r; [apply IH|].
    change (s_mem (send cap s (Rcv, 0) (s_mem s (Rcv, Bits, k)))) with (s_mem (sends cap s (Rcv, 0) [s_mem s (Rcv, Bits, k)])).
    rewrite sends_mem. apply eqv_refl.
  Qed.
  Lemma exec_choices_r times : forall i count c s bits, count + times * len <= top -> (forall j, j < top -> s_mem s (Rcv, Bits, j) = N.b2n (bits j)) ->
    exists m', exec cap s (p_choices_r depth b times i count c)
        (sends cap (wmem s m') (Rcv, 0) (map N.b2n (concat (snd (choices_all_r len b i times {| o_bits := bits; o_count := count |}))))) c /\
      keeps Rcv (s_mem s) m'.
  Proof.
    induction times as [|t IH]; intros i count c s bits Hk HB; cbn [p_choices_r choices_all_r].
    - exists (s_mem s). split; [apply exec_0; repeat split; auto|]. intros d a j _. reflexivity.
    - unfold choices_recver. cbn [o_count o_bits].
      destruct (exec_flip (depth - 1) count 0 (b i) (p_send_bits (depth - 1) count (p_choices_r depth b t (S i) (count + (depth - 1)) c)) s bits) as (m1 & E1 & A1 & K1); [rewrite Nat.mul_succ_l in Hk; clear - Hk; revert Hk; generalize (t * (depth - 1)); intros; lia|exact HB|].
      pose proof (flip_spec (depth - 1) count (b i) 0 bits) as FS. destruct (flip_loop (depth - 1) count (b i) 0 bits) as [bits' msg]. destruct FS as [_ FS]. cbn [fst] in A1.
      set (s1 := sends cap (wmem s m1) (Rcv, 0) (map (arr m1 Rcv Bits) (seq count (depth - 1)))).
      assert (M1 : s_mem s1 = m1) by (unfold s1; rewrite sends_mem; reflexivity).
      destruct (IH (S i) (count + (depth - 1)) c s1 bits') as (m2 & E2 & K2); [rewrite Nat.mul_succ_l in Hk; clear - Hk; revert Hk; generalize (t * (depth - 1)); intros; lia|rewrite M1; exact A1|].
      exists m2. split.
      + eapply exec_trans; [exact E1|]. eapply exec_trans; [apply exec_send_bits|]. cbn [wmem s_mem]. fold s1.
        destruct (choices_all_r _ _ _ _ _) as [o msgs]. cbn [snd concat] in *. eapply exec_eqv_r; [exact E2|].
        rewrite map_app, sends_app. unfold s1. rewrite !sends_wmem, wmem_wmem.
        replace (map (arr m1 Rcv Bits) (seq count (depth - 1))) with (map N.b2n msg); [apply eqv_refl|].
        rewrite <- FS, map_map. apply map_ext_in. intros j Hj. apply in_seq in Hj. unfold arr. rewrite A1; [reflexivity|rewrite Nat.mul_succ_l in Hk; clear - Hk Hj; revert Hk Hj; generalize (t * (depth - 1)); intros; lia].
      + eapply keeps_trans; [exact K1|]. rewrite M1 in K2. exact K2.
  Qed.
  Lemma exec_recv_bits tk msg : forall k c m rest bits, (forall j, j < k -> bit_of (m (Snd, Bits, j)) = bits j) ->
    exists m', exec cap (quiet m tk (Rcv, 0) (map N.b2n msg ++ rest)) (p_recv_bits (length msg) k c) (quiet m' tk (Rcv, 0) rest) c /\
      (forall j, j < k + length msg -> bit_of (m' (Snd, Bits, j)) = put_bits k msg bits j) /\ keeps Snd m m'.
  Proof.
    induction msg as [|v msg IH]; intros k c m rest bits HB; cbn [length map app p_recv_bits put_bits].
    - exists m. split; [apply exec_refl|]. split; [intros j Hj; apply HB; lia|]. intros d a j _. reflexivity.
    - destruct (IH (S k) c (warr m Snd Bits (mset (arr m Snd Bits) k (N.b2n v))) rest (mset bits k v)) as (m' & E & A & K).
      { intros j Hj. rewrite warr_same. unfold mset. destruct (Nat.eqb_spec j k); [apply bit_b2n|]. apply HB. lia. }
      exists m'. split; [|split].
      + eapply exec_trans; [apply exec_recv|]. cbv beta. eapply exec_trans; [apply exec_write1|]. exact E.
      + intros j Hj. apply A. lia.
      + intros d a j Hx. rewrite K by exact Hx. now apply warr_other.
  Qed.
  Lemma flip_length n : forall k bs i bits, length (snd (flip_loop n k bs i bits)) = n.
  Proof. induction n as [|n IH]; intros; cbn [flip_loop]; [reflexivity|]. specialize (IH (S k) bs (S i) (mset bits k (xorb (bs i) (bits k)))). destruct (flip_loop n _ _ _ _). cbn [snd length] in *. now rewrite IH. Qed.
  Lemma msgs_length times : forall i s, Forall (fun m => length m = len) (snd (choices_all_r len b i times s)).
  Proof.
    induction times as [|t IH]; intros i s; cbn [choices_all_r]; [constructor|]. unfold choices_recver.
    pose proof (flip_length len (o_count s) (b i) 0 (o_bits s)) as Q. destruct (flip_loop len _ _ _ _) as [bits msg]. cbn [snd] in Q.
    match goal with |- context [choices_all_r len b (S i) t ?s1] => specialize (IH (S i) s1); destruct (choices_all_r len b (S i) t s1) as [s2 ms] end.
    cbn [snd] in *. now constructor.
  Qed.
  Lemma msgs_count times : forall i s, length (snd (choices_all_r len b i times s)) = times.
  Proof.
    induction times as [|t IH]; intros i s; cbn [choices_all_r]; [reflexivity|]. destruct (choices_recver len (b i) s) as [s1 msg].
    specialize (IH (S i) s1). destruct (choices_all_r len b (S i) t s1) as [s2 ms]. cbn [snd length] in *. now rewrite IH.
  Qed.
  Lemma exec_choices_s tk msgs : Forall (fun m => length m = len) msgs -> forall count c m bits, (forall j, j < count -> bit_of (m (Snd, Bits, j)) = bits j) ->
    exists m', exec cap (quiet m tk (Rcv, 0) (map N.b2n (concat msgs))) (p_choices_s depth (length msgs) count c) (quiet m' tk (Rcv, 0) []) c /\
      (forall j, j < count + length msgs * len -> bit_of (m' (Snd, Bits, j)) = o_bits (choices_all_s len msgs {| o_bits := bits; o_count := count |}) j) /\ keeps Snd m m'.
  Proof.
    induction 1 as [|msg msgs HL HF IH]; intros count c m bits HB; cbn [length concat map p_choices_s choices_all_s].
    - exists m. split; [apply exec_refl|]. split; [intros j Hj; apply HB; lia|]. intros d a j _. reflexivity.
    - rewrite map_app. destruct (exec_recv_bits tk msg count (p_choices_s depth (length msgs) (count + (depth - 1)) c) m (map N.b2n (concat msgs)) bits HB) as (m1 & E1 & A1 & K1).
      rewrite HL in E1, A1. destruct (IH (count + (depth - 1)) c m1 (put_bits count msg bits)) as (m2 & E2 & A2 & K2); [exact A1|].
      exists m2. split; [eapply exec_trans; eauto|]. split; [|eapply keeps_trans; eauto].
      intros j Hj. unfold choices_sender. cbn [o_bits o_count]. apply A2. rewrite Nat.mul_succ_l in Hj. clear - Hj. revert Hj. generalize (length msgs * (depth - 1)). intros. lia.
  Qed.
End Choices.

Lemma bca_ext n : forall i mac mac' X X' acc, (forall j, i <= j < i + n -> mac j = mac' j /\ X j = X' j) -> bca_loop n i mac X acc = bca_loop n i mac' X' acc.
Proof. induction n as [|n IH]; intros i mac mac' X X' acc H; cbn [bca_loop]; [reflexivity|]. destruct (H i ltac:(lia)) as [-> ->]. apply IH. intros j Hj. apply H. lia. Qed.
Lemma va_ext n : forall i W W' acc, (forall j, i <= j < i + n -> W j = W' j) -> va_loop n i W acc = va_loop n i W' acc.
Proof. induction n as [|n IH]; intros i W W' acc H; cbn [va_loop]; [reflexivity|]. rewrite (H i) by lia. apply IH. intros j Hj. apply H. lia. Qed.
Lemma vb_ext n : forall i W W' acc, (forall j, i <= j < i + n -> W j = W' j) -> vb_loop n i W acc = vb_loop n i W' acc.
Proof. induction n as [|n IH]; intros i W W' acc H; cbn [vb_loop]; [reflexivity|]. rewrite (H i) by lia. apply IH. intros j Hj. apply H. lia. Qed.

Section Whole.
  Variables (cap : nat) (L R H Hs : N -> N) (G : N -> nat -> N) (threads tree_n depth : nat) (rnd : trand) (key mac : mem) (delta sd0 : N).
  Hypothesis Ht : 1 <= threads.
  Hypothesis Hd : 2 <= depth.
  Hypothesis chal : forall c, r_chal rnd c = G sd0 c.
  Notation threads_of := (all_threads L R Hs G threads tree_n depth (r_seed rnd) (r_b rnd) delta sd0).
  Notation fixed := (fixed H tree_n depth rnd key mac).
  Notation phase := (p_phase threads tree_n (p_item L R Hs tree_n depth (r_seed rnd) (r_b rnd))).
  Notation batch_s := (p_batch_s Hs tree_n delta Done).
  Notation batch_r := (p_batch_r Hs tree_n Done).

  Lemma choices_part m kS kR ps : before H tree_n depth rnd key mac m ->
    ps (Main Rcv) = p_choices_r depth (r_b rnd) tree_n 0 0 (Flush (Rcv, 0) kR) -> ps (Main Snd) = p_choices_s depth tree_n 0 (Flush (Snd, 0) kS) ->
    exists m', fixed m' /\ (forall sd a i, a <> Bits -> m' (sd, a, i) = m (sd, a, i)) /\
      reach cap (start m, ps) (still m' notok, upd (upd ps (Main Rcv) kR) (Main Snd) kS).
  Proof.
    intros HB ER ES.
    set (ms := snd (choices_all_r (depth - 1) (r_b rnd) 0 tree_n {| o_bits := r_ot_b rnd; o_count := 0 |})).
    destruct (exec_choices_r cap (ot_n tree_n depth) depth (r_b rnd) tree_n 0 0 (Flush (Rcv, 0) kR) (start m) (r_ot_b rnd)) as (m1 & E1 & K1).
    { unfold ot_n. rewrite Nat.mul_comm. cbn. lia. }
    { intros j Hj. cbn [start s_mem]. now apply (b_bits _ _ _ _ _ _ _ HB). }
    fold ms in E1. cbn [start s_mem] in K1. change (wmem (start m) m1) with (still m1 notok) in E1.
    destruct (exec_choices_s cap depth (r_b rnd) notok ms (msgs_length _ _ _ _ _) 0 (Flush (Snd, 0) kS) m1 (fun _ => false)) as (m2 & E2 & A2 & K2); [intros j Hj; lia|].
    assert (LM : length ms = tree_n) by apply msgs_count. rewrite LM in E2, A2.
    exists m2. split; [|split].
    - assert (Q : forall sd a i, a <> Bits -> m2 (sd, a, i) = m (sd, a, i)) by (intros; rewrite K2 by (right; assumption); apply K1; now right).
      constructor.
      + intros k Hk. apply A2. unfold ot_n in Hk. rewrite Nat.mul_comm in Hk. cbn. lia.
      + intros i Hi. rewrite Q by discriminate. now apply (b_pre_s _ _ _ _ _ _ _ HB).
      + intros i Hi. rewrite Q by discriminate. now apply (b_pre_r _ _ _ _ _ _ _ HB).
      + intros i Hi. rewrite Q by discriminate. now apply (b_key _ _ _ _ _ _ _ HB).
      + intros i Hi. rewrite Q by discriminate. now apply (b_mac _ _ _ _ _ _ _ HB).
    - intros sd a i Ha. rewrite K2 by (right; exact Ha). apply K1. right; exact Ha.
    - assert (E1' : exec cap (start m) (p_choices_r depth (r_b rnd) tree_n 0 0 (Flush (Rcv, 0) kR)) (quiet m1 notok (Rcv, 0) (map N.b2n (concat ms))) kR).
      { eapply exec_trans; [exact E1|]. eapply exec_S; [reflexivity|]. apply exec_0, flush_sends. }
      assert (E2' : exec cap (quiet m1 notok (Rcv, 0) (map N.b2n (concat ms))) (p_choices_s depth tree_n 0 (Flush (Snd, 0) kS)) (still m2 notok) kS).
      { eapply exec_trans; [exact E2|]. eapply exec_S; [reflexivity|]. apply exec_0. eapply eqv_trans; [apply flush_quiet|]. apply eqv_sym, still_quiet. }
      eapply reach_trans; [apply (reach_exec cap _ _ _ _ E1' ps (Main Rcv) ER)|]. apply (reach_exec cap _ _ _ _ E2').
      rewrite upd_other by discriminate. exact ES.
  Qed.

  Lemma seeds_part m kS kR ps : fixed m -> ps (Main Rcv) = p_seed_r G threads sd0 kR -> ps (Main Snd) = p_seed_s G threads kS ->
    exists m', fixed m' /\ (forall sd i, m' (sd, Vec, i) = m (sd, Vec, i)) /\ (forall sd c, c < threads -> m' (sd, Seed, c) = G sd0 c) /\
      reach cap (still m notok, ps) (still m' notok, upd (upd ps (Main Rcv) kR) (Main Snd) kS).
  Proof.
    intros F ER ES.
    set (m1 := warr m Rcv Seed (store (arr m Rcv Seed) 0 threads (fun j => nth j (map (G sd0) (seq 0 threads)) 0%N))).
    set (m2 := warr m1 Snd Seed (store (arr m1 Snd Seed) 0 threads (fun j => nth j (map (G sd0) (seq 0 threads)) 0%N))).
    assert (SV : forall f c, c < threads -> store f 0 threads (fun j => nth j (map (G sd0) (seq 0 threads)) 0%N) c = G sd0 c).
    { intros f c Hc. unfold store. replace ((0 <=? c) && (c <? 0 + threads)) with true by (symmetry; apply andb_true_iff; split; [reflexivity|apply Nat.ltb_lt; lia]).
      exact (eq_trans (cells_map (G sd0) 0 threads (c - 0) ltac:(lia)) (f_equal (G sd0) (Nat.sub_0_r c))). }
    exists m2. split; [|split; [|split]].
    - unfold m2, m1. repeat (apply fixed_warr; auto).
    - intros sd i. unfold m2, m1. rewrite !warr_other by (right; discriminate). reflexivity.
    - intros [|] c Hc.
      + unfold m2. rewrite warr_same. now apply SV.
      + unfold m2. rewrite warr_other by (left; discriminate). unfold m1. rewrite warr_same. now apply SV.
    - assert (E1 : exec cap (still m notok) (p_seed_r G threads sd0 kR) (quiet m1 notok (Rcv, 0) [sd0]) kR).
      { unfold p_seed_r. eapply exec_S; [reflexivity|]. eapply exec_S; [reflexivity|]. unfold p_seeds.
        eapply exec_eqv_l; [|apply (flush_sends cap m notok (Rcv, 0) [sd0])].
        eapply exec_eqv_r; [apply exec_write_from|]. rewrite map_length, seq_length. cbn [quiet s_mem]. apply eqv_refl. }
      assert (E2 : exec cap (quiet m1 notok (Rcv, 0) [sd0]) (p_seed_s G threads kS) (still m2 notok) kS).
      { unfold p_seed_s. eapply exec_trans; [apply exec_recv|]. cbv beta. unfold p_seeds. eapply exec_eqv_r; [apply exec_write_from|].
        rewrite map_length, seq_length. cbn [quiet s_mem]. fold m2. eapply eqv_trans; [|apply eqv_sym, (still_quiet _ _ (Rcv, 0))]. apply eqv_refl. }
      eapply reach_trans; [apply (reach_exec cap _ _ _ _ E1 ps (Main Rcv) ER)|]. apply (reach_exec cap _ _ _ _ E2).
      rewrite upd_other by discriminate. exact ES.
  Qed.

  Lemma batch_part m V W X ps : fixed m -> (forall s, s < tree_n -> m (Snd, Buf, s) = V s /\ m (Rcv, Buf, s) = W s /\ m (Rcv, Chi, s) = X s) ->
    ps (Main Rcv) = batch_r -> ps (Main Snd) = batch_s ->
    exists m', (forall sd i, m' (sd, Vec, i) = m (sd, Vec, i)) /\
      m' (Rcv, Verdict, 0) = N.b2n (N.eqb (Hs (vb tree_n delta V (key tree_n) (x_star tree_n mac X (mac tree_n)))) (Hs (va tree_n W (mac tree_n)))) /\
      reach cap (still m notok, ps) (still m' notok, upd (upd ps (Main Rcv) Done) (Main Snd) Done).
  Proof.
    intros F HB ER ES.
    set (xs := x_star tree_n mac X (mac tree_n)). set (h := Hs (vb tree_n delta V (key tree_n) xs)). set (g := Hs (va tree_n W (mac tree_n))).
    set (kr := fun r => Write (Rcv, Verdict, 0) (N.b2n (N.eqb r g)) Done).
    assert (E1 : exec cap (still m notok) batch_r (quiet m notok (Rcv, 0) [xs]) (Recv (Snd, 0) kr)).
    { unfold p_batch_r. eapply exec_S; [reflexivity|]. cbn [still s_mem]. rewrite (f_mac _ _ _ _ _ _ _ F) by lia.
      eapply exec_trans; [apply exec_read_from|]. eapply exec_trans; [apply exec_read_from|]. cbn [still s_mem].
      replace (x_star tree_n (cells (map (arr m Rcv Tri) (seq 0 tree_n))) (cells (map (arr m Rcv Chi) (seq 0 tree_n))) (mac tree_n)) with xs.
      2:{ unfold xs, x_star. do 2 f_equal. apply bca_ext. intros j Hj. rewrite !cells_map by lia. unfold arr. cbn [Nat.add].
          rewrite (f_mac _ _ _ _ _ _ _ F) by lia. destruct (HB j ltac:(lia)) as (_ & _ & ->). auto. }
      eapply exec_S; [reflexivity|]. eapply exec_S; [reflexivity|].
      eapply exec_eqv_l; [|apply (flush_sends cap m notok (Rcv, 0) [xs])].
      eapply exec_trans; [apply exec_read_from|]. cbn [quiet s_mem].
      replace (va tree_n (cells (map (arr m Rcv Buf) (seq 0 tree_n))) (mac tree_n)) with (va tree_n W (mac tree_n)); [apply exec_refl|].
      unfold va. apply va_ext. intros j Hj. rewrite cells_map by lia. unfold arr. cbn [Nat.add]. destruct (HB j ltac:(lia)) as (_ & -> & _). reflexivity. }
    assert (E2 : exec cap (quiet m notok (Rcv, 0) [xs]) batch_s (quiet m notok (Snd, 0) [h]) Done).
    { unfold p_batch_s. eapply exec_S; [reflexivity|]. cbn [quiet s_mem]. rewrite (f_key _ _ _ _ _ _ _ F) by lia.
      eapply exec_trans; [apply exec_recv|]. cbv beta. eapply exec_trans; [apply exec_read_from|]. cbn [quiet s_mem].
      replace (vb tree_n delta (cells (map (arr m Snd Buf) (seq 0 tree_n))) (key tree_n) xs) with (vb tree_n delta V (key tree_n) xs).
      2:{ unfold vb. apply vb_ext. intros j Hj. rewrite cells_map by lia. unfold arr. cbn [Nat.add]. destruct (HB j ltac:(lia)) as (-> & _). reflexivity. }
      fold h. eapply exec_eqv_l; [|apply eqv_sym, still_quiet]. eapply exec_S; [reflexivity|]. eapply exec_S; [reflexivity|]. apply exec_0.
      apply (flush_sends cap m notok (Snd, 0) [h]). }
    set (m' := warr m Rcv Verdict (mset (arr m Rcv Verdict) 0 (N.b2n (N.eqb h g)))).
    assert (E3 : exec cap (quiet m notok (Snd, 0) [h]) (Recv (Snd, 0) kr) (still m' notok) Done).
    { eapply exec_trans; [apply exec_recv|]. unfold kr. eapply exec_eqv_r; [apply exec_write1|]. cbn [quiet s_mem]. fold m'.
      eapply eqv_trans; [|apply eqv_sym, (still_quiet _ _ (Snd, 0))]. apply eqv_refl. }
    exists m'. split; [intros sd i; unfold m'; rewrite warr_other by (right; discriminate); reflexivity|].
    split; [unfold m'; rewrite warr_same; unfold mset; reflexivity|].
    eapply reach_trans; [apply (reach_exec cap _ _ _ _ E1 ps (Main Rcv) ER)|].
    eapply reach_trans; [apply (reach_exec cap _ _ _ _ E2 _ (Main Snd)); rewrite upd_other by discriminate; exact ES|].
    eapply reach_trans; [apply (reach_exec cap _ _ _ _ E3 _ (Main Rcv)); rewrite upd_other by discriminate; now rewrite upd_same|].
    apply reach_refl. split; [apply eqv_refl|]. intro x. cbn [snd]. unfold upd. destruct (tid_dec x (Main Rcv)), (tid_dec x (Main Snd)); congruence.
  Qed.

  Definition result (m0 m : loc -> N) : Prop :=
    let '(Y, Z, ok) := mpfss_pair L R H Hs threads tree_n depth rnd delta key mac (arr m0 Snd Vec) (arr m0 Rcv Vec) in
    (forall i, m (Snd, Vec, i) = Y i) /\ (forall i, m (Rcv, Vec, i) = Z i) /\ m (Rcv, Verdict, 0) = N.b2n ok.
  Lemma complete_run m : before H tree_n depth rnd key mac m ->
    exists m' ps, all_done ps /\ result m m' /\ reach cap (start m, threads_of) (still m' notok, ps).
  Proof.
    intro HB.
    destruct (choices_part m (phase Snd 1 (p_seed_s G threads (phase Snd 2 batch_s))) (phase Rcv 1 (p_seed_r G threads sd0 (phase Rcv 2 batch_r))) threads_of HB eq_refl eq_refl)
      as (m1 & F1 & V1 & R1).
    set (ps1 := upd (upd threads_of (Main Rcv) (phase Rcv 1 (p_seed_r G threads sd0 (phase Rcv 2 batch_r)))) (Main Snd) (phase Snd 1 (p_seed_s G threads (phase Snd 2 batch_s)))) in *.
    destruct (phase_run cap threads tree_n (p_item L R Hs tree_n depth (r_seed rnd) (r_b rnd)) 1 (mem * mem) (Inv1 H tree_n depth rnd key mac) (step1 L R H tree_n depth rnd key mac)
      (fun x m tk ch s kA kB => tree_item cap L R H Hs threads tree_n depth rnd key mac Hd x m tk ch s kA kB) Ht ps1 (arr m Snd Vec, arr m Rcv Vec) m1
      (p_seed_s G threads (phase Snd 2 batch_s)) (p_seed_r G threads sd0 (phase Rcv 2 batch_r))) as (m2 & I2 & R2).
    { split; [intro i; now apply V1|]. split; [intro i; now apply V1|exact F1]. }
    { intros sd i Hi. unfold ps1. rewrite !upd_other by discriminate. cbn [all_threads Nat.eqb orb andb].
      replace (i <? threads - 1) with true by (symmetry; apply Nat.ltb_lt; lia). reflexivity. }
    { unfold ps1. now rewrite upd_same. }
    { unfold ps1. rewrite upd_other by discriminate. now rewrite upd_same. }
    rewrite run1 in I2. cbn [fst snd] in I2.
    set (ps2 := upd (upd (fin 1 (threads - 1) ps1) (Main Snd) (p_seed_s G threads (phase Snd 2 batch_s))) (Main Rcv) (p_seed_r G threads sd0 (phase Rcv 2 batch_r))) in *.
    destruct (run_trees L R H tree_n depth rnd (tree_tasks threads tree_n) key mac (arr m Snd Vec) (arr m Rcv Vec)) as [Y Z] eqn:ET.
    destruct I2 as (Y2 & Z2 & F2). cbn [fst snd] in Y2, Z2.
    destruct (seeds_part m2 (phase Snd 2 batch_s) (phase Rcv 2 batch_r) ps2 F2) as (m3 & F3 & V3 & S3 & R3).
    { unfold ps2. now rewrite upd_same. }
    { unfold ps2. rewrite upd_other by discriminate. now rewrite upd_same. }
    set (ps3 := upd (upd ps2 (Main Rcv) (phase Rcv 2 batch_r)) (Main Snd) (phase Snd 2 batch_s)) in *.
    destruct (phase_run cap threads tree_n (p_item L R Hs tree_n depth (r_seed rnd) (r_b rnd)) 2 st2 (Inv2 H G threads tree_n depth rnd key mac sd0 Y) (step2 Hs depth rnd mac Y)
      (fun x m tk ch s kA kB => msg_item cap L R H Hs G threads tree_n depth rnd key mac Hd sd0 chal Y x m tk ch s kA kB) Ht ps3
      (Z, arr m3 Snd Buf, arr m3 Rcv Buf, arr m3 Rcv Chi) m3 batch_s batch_r) as (m4 & I4 & R4).
    { split; [intro i; rewrite V3; apply Y2|]. split; [intro i; rewrite V3; apply Z2|]. split; [exact F3|]. split; [exact S3|]. auto. }
    { intros sd i Hi. unfold ps3, ps2. rewrite !upd_other by discriminate. cbn [fin Nat.eqb andb]. unfold ps1. rewrite !upd_other by discriminate. cbn [all_threads Nat.eqb orb andb].
      replace (i <? threads - 1) with true by (symmetry; apply Nat.ltb_lt; lia). reflexivity. }
    { unfold ps3. now rewrite upd_same. }
    { unfold ps3. rewrite upd_other by discriminate. now rewrite upd_same. }
    rewrite run2 in I4. set (ps4 := upd (upd (fin 2 (threads - 1) ps3) (Main Snd) batch_s) (Main Rcv) batch_r) in *.
    pose proof (run_msgs_old Hs depth rnd mac Y (tree_tasks threads tree_n) Z (arr m3 Snd Buf) (arr m3 Rcv Buf) (arr m3 Rcv Chi) (fun _ => 0%N) (fun _ => 0%N) (fun _ => 0%N)) as OLD.
    destruct (run_msgs Hs depth rnd (tree_tasks threads tree_n) mac Y Z (arr m3 Snd Buf) (arr m3 Rcv Buf) (arr m3 Rcv Chi)) as [[[z v] w] x] eqn:EM.
    destruct (run_msgs Hs depth rnd (tree_tasks threads tree_n) mac Y Z (fun _ => 0%N) (fun _ => 0%N) (fun _ => 0%N)) as [[[z' v'] w'] x'] eqn:EM'.
    destruct OLD as [<- OLD]. destruct I4 as (Y4 & Z4 & F4 & S4 & BS & BR & CR).
    destruct (batch_part m4 v' w' x' ps4 F4) as (m5 & V5 & B5 & R5).
    { intros s Hs0. rewrite BS, BR, CR. apply OLD. left. rewrite tasks_fst by exact Ht. apply in_seq. lia. }
    { unfold ps4. now rewrite upd_same. }
    { unfold ps4. rewrite upd_other by discriminate. now rewrite upd_same. }
    exists m5, (upd (upd ps4 (Main Rcv) Done) (Main Snd) Done). split; [|split].
    - intros [sd|sd ph i].
      + unfold upd. destruct (tid_dec (Main sd) (Main Snd)); [reflexivity|]. destruct (tid_dec (Main sd) (Main Rcv)); [reflexivity|]. destruct sd; congruence.
      + rewrite !upd_other by discriminate. unfold ps4. rewrite !upd_other by discriminate. cbn [fin].
        destruct ((ph =? 2) && (i <? threads - 1)) eqn:E2; [reflexivity|]. unfold ps3, ps2. rewrite !upd_other by discriminate. cbn [fin].
        destruct ((ph =? 1) && (i <? threads - 1)) eqn:E1; [reflexivity|]. unfold ps1. rewrite !upd_other by discriminate. cbn [all_threads].
        rewrite andb_orb_distrib_l, E1, E2. reflexivity.
    - unfold result, mpfss_pair. rewrite ET, EM'. split; [intro i; rewrite V5; apply Y4|]. split; [intro i; rewrite V5; apply Z4|exact B5].
    - eapply reach_trans; [exact R1|]. eapply reach_trans; [exact R2|]. eapply reach_trans; [exact R3|]. eapply reach_trans; [exact R4|exact R5].
  Qed.
  Theorem mpfss_independent m : before H tree_n depth rnd key mac m -> pair_independent cap (start m, threads_of) (result m).
  Proof.
    intro HB. destruct (complete_run m HB) as (m' & ps & D & Q & (T & f & HT & E)). destruct E as [E1 E2]. cbn [fst snd] in E1, E2.
    assert (DF : all_done (snd f)) by (intro x; rewrite E2; apply D).
    apply (independent cap (safe (go threads tree_n depth) gs)
      (fun t c c' => safe_step cap (go threads tree_n depth) gs (go_sig threads tree_n depth) t c c') (safe_race (go threads tree_n depth) gs) _ T f); auto.
    - apply safe_fp.
    - destruct E1 as (A & B & C & F). split; [intro c; rewrite B, C; auto|]. intro t. rewrite F. reflexivity.
    - intros mm Hm. destruct E1 as (A & _). unfold result in *. destruct (mpfss_pair _ _ _ _ _ _ _ _ _ _ _ _ _) as [[Y Z] ok].
      destruct Q as (Q1 & Q2 & Q3). split; [intro i; rewrite Hm, A; apply Q1|]. split; [intro i; rewrite Hm, A; apply Q2|]. rewrite Hm, A. exact Q3.
  Qed.
End Whole.
