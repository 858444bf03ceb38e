(** One tree of the GF(2^128) MPFSS on both sides. *)
From Coq Require Import NArith List Bool Arith Lia.
From Verif Require Import Word GF128 BoolModel TreeModel VoleModel VoleF2kModel MpfssProofs MpThreadModel MpThreadSpec MpThreadDiamond MpThreadPerm MpThreadRun MpThreadItems Mp2ThreadModel Mp2ThreadSpec.
Import ListNotations.

Lemma xor_loop_ext cnt : forall i t t' acc, (forall j, i <= j < i + cnt -> t j = t' j) -> xor_loop cnt i t acc = xor_loop cnt i t' acc.
Proof. induction cnt as [|c IH]; intros i t t' acc H; cbn [xor_loop]; [reflexivity|]. rewrite (H i) by lia. apply IH. intros j Hj. apply H. lia. Qed.
Section Ext2.
  Variables L R : N -> N.
  Lemma ggm_gen_ext depth seed t t' : 2 <= depth -> agree (leave_n depth) t t' ->
    let '(a, x, y) := ggm_gen L R depth seed t in let '(a', x', y') := ggm_gen L R depth seed t' in agree (leave_n depth) a a' /\ x = x' /\ y = y'.
  Proof.
    intros Hd H. unfold ggm_gen.
    assert (E0 : agree (leave_n depth) (expand_1to2 L R t seed) (expand_1to2 L R t' seed)) by (unfold expand_1to2; now repeat apply agree_mset).
    assert (P : 2 ^ (1 + (depth - 2)) <= leave_n depth) by (unfold leave_n; replace (1 + (depth - 2)) with (depth - 1) by lia; lia).
    pose proof (gen_layers_ext L R (leave_n depth) (depth - 2) 1 _ _ (mset (fun _ => 0%N) 0 (expand_1to2 L R t seed 0)) (mset (fun _ => 0%N) 0 (expand_1to2 L R t seed 1)) E0 (le_n 1) P) as E.
    replace (expand_1to2 L R t' seed 0) with (expand_1to2 L R t seed 0) by reflexivity.
    replace (expand_1to2 L R t' seed 1) with (expand_1to2 L R t seed 1) by reflexivity. exact E.
  Qed.
  Lemma f2_send_ext depth seed g t t' : 2 <= depth -> agree (leave_n depth) t t' ->
    let '(a, x, y, z) := f2_send L R depth seed g t in let '(a', x', y', z') := f2_send L R depth seed g t' in
    agree (leave_n depth) a a' /\ x = x' /\ y = y' /\ z = z'.
  Proof.
    intros Hd H. unfold f2_send. pose proof (ggm_gen_ext depth seed t t' Hd H) as E.
    destruct (ggm_gen L R depth seed t) as [[a x] y], (ggm_gen L R depth seed t') as [[a' x'] y']. destruct E as (E & -> & ->).
    rewrite (xor_loop_ext _ 0 a a') by (intros j Hj; apply E; lia). auto.
  Qed.
  Lemma f2_recv_ext depth b m sh d2 t t' : agree (leave_n depth) t t' ->
    agree (leave_n depth) (f2_recv L R depth b m sh d2 t) (f2_recv L R depth b m sh d2 t').
  Proof.
    intro H. unfold f2_recv, ggm_recon.
    assert (E : agree (leave_n depth) (recon_loop L R (depth - 1) 1 depth b m 0 t) (recon_loop L R (depth - 1) 1 depth b m 0 t')).
    { apply recon_ext; [exact H|lia|]. intro Hp. unfold leave_n. replace (1 + (depth - 1) - 1) with (depth - 1) by lia. lia. }
    pose proof (agree_mset _ _ _ (get_index depth b) 0%N E) as F.
    rewrite (xor_loop_ext (leave_n depth) 0 (mset (recon_loop L R (depth - 1) 1 depth b m 0 t) (get_index depth b) 0%N) (mset (recon_loop L R (depth - 1) 1 depth b m 0 t') (get_index depth b) 0%N)) by (intros j Hj; apply F; lia).
    now apply agree_mset.
  Qed.
End Ext2.
Lemma f2_V_ext depth d t t' : agree (leave_n depth) t t' -> f2_V depth d t = f2_V depth d t'.
  Proof. intro H. unfold f2_V, slice. f_equal. apply map_ext_in. intros i Hi. apply in_seq in Hi. apply H. lia. Qed.

Section Items2.
  Variables (cap : nat) (L R H Hs D Nx : N -> N) (threads tree_n depth : nat) (rnd : trand) (key val mac h0 : mem).
  Hypothesis Hd : 2 <= depth.
  Notation lv := (leave_n depth).
  Notation len := (depth - 1).
  Notation item := (p2_item L R Hs D Nx tree_n depth (r_seed rnd) (r_b rnd)).
  Notation fixed := (fixed H tree_n depth rnd key mac).
  (** both vectors, the check buffers, and the hash objects of the connections *)
  Definition stF : Type := (mem * mem * mem * mem * mem * mem)%type.
  Definition InvF (x : stF) (m : loc -> N) : Prop :=
    let '(Y, Z, V, W, X, h) := x in
    (forall i, m (Snd, Vec, i) = Y i) /\ (forall i, m (Rcv, Vec, i) = Z i) /\ fixed m /\
    (forall s, m (Snd, Buf, s) = V s) /\ (forall s, m (Rcv, Buf, s) = W s) /\ (forall s, m (Rcv, Chi, s) = X s) /\
    (forall sd c, c < threads -> m (sd, Seed, c) = h c) /\ (forall i, i <= tree_n -> m (Rcv, Val, i) = val i).
  Definition stepF (x : stF) (s c : nat) : stF :=
    let '(Y, Z, V, W, X, h) := x in
    let '(a, b) := f2_tree_pair L R H tree_n depth rnd s key mac (view Y (s * lv)) (view Z (s * lv)) in
    let d := Hs (D (h c)) in
    (store Y (s * lv) lv a, store Z (s * lv) lv b, mset V s (f2_V depth d a), mset W s (f2_V depth d b),
     mset X s (f2_chi_alpha depth d (r_b rnd s)), mset h c (Nx (h c))).
  Ltac other := rewrite warr_other by (first [left; discriminate|right; discriminate]).
  Lemma store_slice (v : mem) base n (t : mem) : map (store v base n (fun j => nth j (slice t n) 0%N)) (seq base n) = slice t n.
  Proof.
    unfold slice at 2. apply nth_ext with 0%N 0%N; [now rewrite !map_length, !seq_length|]. rewrite map_length, seq_length. intros j Hj.
    change (nth j (map ?f (seq base n)) 0%N) with (cells (map f (seq base n)) j).
    change (nth j (map t (seq 0 n)) 0%N) with (cells (map t (seq 0 n)) j). rewrite !cells_map by exact Hj. unfold store.
    replace ((base <=? base + j) && (base + j <? base + n)) with true by (symmetry; apply andb_true_iff; rewrite Nat.leb_le, Nat.ltb_lt; lia).
    replace (base + j - base) with j by lia. now rewrite nth_slice.
  Qed.
  Lemma f2_V_slice d t : f2_V depth d (cells (slice t lv)) = f2_V depth d t.
  Proof. apply f2_V_ext. unfold agree. intros j Hj. exact (nth_slice t lv j Hj). Qed.
  Lemma itemF x m tk ch s kA kB : s < tree_n -> ch < threads -> InvF x m ->
    exists m1 m' l, exec cap (still m tk) (item Snd 1 ch s kA) (quiet m1 tk (Snd, ch) l) kA /\
      exec cap (quiet m1 tk (Snd, ch) l) (item Rcv 1 ch s kB) (still m' tk) kB /\ InvF (stepF x s ch) m'.
  Proof.
    destruct x as [[[[[Y Z] V] W] X] h]. intros Hs0 Hch (VS & VR & F & BS & BR & CR & HH & VL). unfold stepF, f2_tree_pair.
    set (vs := map (arr m Snd Vec) (seq (s * lv) lv)). set (vr := map (arr m Rcv Vec) (seq (s * lv) lv)).
    assert (AS : agree lv (cells vs) (view Y (s * lv))) by (intros i Hi; unfold vs; rewrite cells_map by exact Hi; apply VS).
    assert (AR : agree lv (cells vr) (view Z (s * lv))) by (intros i Hi; unfold vr; rewrite cells_map by exact Hi; apply VR).
    pose proof (f2_send_ext L R depth (r_seed rnd s) (key s) _ _ Hd AS) as X0.
    destruct (f2_send L R depth (r_seed rnd s) (key s) (cells vs)) as [[[t m0] m1] sum] eqn:ES.
    destruct (f2_send L R depth (r_seed rnd s) (key s) (view Y (s * lv))) as [[[t' m0'] m1'] sum'] eqn:ES'.
    destruct X0 as (At & <- & <- & <-).
    set (mS := warr m Snd Vec (store (arr m Snd Vec) (s * lv) lv (fun j => nth j (slice t lv) 0%N))).
    set (pads := send_loop (ot_n tree_n depth) len (s * len) 0 (arr mS Snd Pre) (fun j => bit_of (mS (Snd, Bits, j))) m0 m1).
    assert (FS : fixed mS) by (apply fixed_warr; auto).
    assert (EP : pads = ot_send (ot_n tree_n depth) len s (send_pre H (ot_n tree_n depth) (r_ot_s rnd) (r_ot_delta rnd)) (ots_s tree_n depth rnd) m0 m1).
    { unfold pads, ot_send. apply send_loop_ext. intros j Hj. assert (j < ot_n tree_n depth) by (replace j with (s * len + (j - s * len)) by lia; apply tree_index; lia).
      unfold arr. rewrite !(f_pre_s _ _ _ _ _ _ _ FS) by lia. rewrite (f_bits _ _ _ _ _ _ _ FS) by assumption. auto. }
    set (d := Hs (D (h ch))).
    set (mS2 := warr mS Snd Seed (mset (arr mS Snd Seed) ch (Nx (h ch)))).
    set (mS3 := warr mS2 Snd Buf (mset (arr mS2 Snd Buf) s (f2_V depth d t))).
    assert (FS3 : fixed mS3) by (unfold mS3, mS2; repeat (apply fixed_warr; auto)).
    exists mS3.
    set (mm := recv_loop (s * len) 0 (arr mS3 Rcv Pre) (r_b rnd s) pads (fun _ => 0%N)).
    assert (LP : length pads = len) by apply send_loop_length.
    assert (EM : mm = ot_recv len s (recv_pre H (r_ot_r rnd)) (r_b rnd s) pads).
    { unfold mm, ot_recv. apply recv_loop_ext. intros j Hj. apply (f_pre_r _ _ _ _ _ _ _ FS3). rewrite LP in Hj. replace j with (s * len + (j - s * len)) by lia. apply tree_index; lia. }
    set (tr := f2_recv L R depth (r_b rnd s) mm sum (mac s) (cells vr)).
    set (mR := warr mS3 Rcv Vec (store (arr mS3 Rcv Vec) (s * lv) lv (fun j => nth j (slice tr lv) 0%N))).
    set (mR2 := warr mR Rcv Seed (mset (arr mR Rcv Seed) ch (Nx (h ch)))).
    set (mR3 := warr mR2 Rcv Chi (mset (arr mR2 Rcv Chi) s (f2_chi_alpha depth d (r_b rnd s)))).
    set (mR4 := warr mR3 Rcv Buf (mset (arr mR3 Rcv Buf) s (f2_V depth d tr))).
    exists mR4, (flat pads ++ [sum]).
    split; [|split].
    - cbn [p2_item]. unfold p2_tree_s. eapply exec_S; [reflexivity|]. cbn [still s_mem]. rewrite (f_key _ _ _ _ _ _ _ F) by lia.
      eapply exec_trans; [apply exec_read_from|]. cbn [still s_mem]. fold vs. rewrite ES.
      eapply exec_trans; [apply exec_write_from|]. unfold slice at 1. rewrite map_length, seq_length.
      match goal with |- exec _ ?s _ _ _ => change s with (still mS tk) end.
      eapply exec_trans; [apply exec_ot_send|]. change (s_mem (still mS tk)) with mS. fold pads.
      eapply exec_S; [reflexivity|]. eapply exec_S; [reflexivity|].
      change (send cap (sends cap (still mS tk) (Snd, ch) (flat pads)) (Snd, ch) sum) with (sends cap (sends cap (still mS tk) (Snd, ch) (flat pads)) (Snd, ch) [sum]).
      rewrite <- sends_app. eapply exec_eqv_l; [|apply flush_sends].
      unfold p2_msg_s. eapply exec_S; [reflexivity|]. cbn [quiet s_mem]. replace (mS (Snd, Seed, ch)) with (h ch) by (unfold mS; other; now rewrite HH).
      eapply exec_trans; [apply exec_write1|]. cbn [quiet s_mem]. match goal with |- exec _ ?q _ _ _ => change q with (quiet mS2 tk (Snd, ch) (flat pads ++ [sum])) end.
      eapply exec_trans; [apply exec_read_from|]. cbn [quiet s_mem].
      replace (map (arr mS2 Snd Vec) (seq (s * lv) lv)) with (slice t lv).
      2:{ rewrite <- (store_slice (arr m Snd Vec) (s * lv) lv t). apply map_ext. intro i. unfold arr at 2, mS2. other. unfold mS. now rewrite warr_same. }
      rewrite f2_V_slice. fold d.
      eapply exec_trans; [apply exec_write1|]. cbn [quiet s_mem]. match goal with |- exec _ ?q _ _ _ => change q with (quiet mS3 tk (Snd, ch) (flat pads ++ [sum])) end.
      eapply exec_S; [reflexivity|]. apply exec_0. apply flush_quiet.
    - cbn [p2_item]. unfold p2_tree_r. rewrite <- LP at 1. eapply exec_trans; [apply exec_ot_recv|]. fold mm.
      eapply exec_trans; [apply exec_recv|]. cbv beta. eapply exec_S; [reflexivity|]. cbn [quiet s_mem].
      rewrite (f_mac _ _ _ _ _ _ _ FS3) by lia. eapply exec_trans; [apply exec_read_from|]. cbn [quiet s_mem].
      replace (map (arr mS3 Rcv Vec) (seq (s * lv) lv)) with vr.
      2:{ unfold vr. apply map_ext. intro i. unfold arr, mS3, mS2, mS. do 3 other. reflexivity. }
      fold tr. eapply exec_trans; [apply exec_write_from|]. unfold slice at 1. rewrite map_length, seq_length. cbn [quiet s_mem wmem]. fold mR.
      match goal with |- exec _ ?q _ _ _ => change q with (quiet mR tk (Snd, ch) []) end.
      unfold p2_msg_r. eapply exec_S; [reflexivity|]. cbn [quiet s_mem].
      replace (mR (Rcv, Seed, ch)) with (h ch) by (unfold mR, mS3, mS2, mS; do 4 other; now rewrite HH).
      eapply exec_trans; [apply exec_write1|]. cbn [quiet s_mem]. match goal with |- exec _ ?q _ _ _ => change q with (quiet mR2 tk (Snd, ch) []) end.
      fold d. eapply exec_trans; [apply exec_write1|]. cbn [quiet s_mem]. match goal with |- exec _ ?q _ _ _ => change q with (quiet mR3 tk (Snd, ch) []) end.
      eapply exec_trans; [apply exec_read_from|]. cbn [quiet s_mem].
      replace (map (arr mR3 Rcv Vec) (seq (s * lv) lv)) with (slice tr lv).
      2:{ rewrite <- (store_slice (arr mS3 Rcv Vec) (s * lv) lv tr). apply map_ext. intro i. unfold arr at 2, mR3, mR2. do 2 other. unfold mR. now rewrite warr_same. }
      rewrite f2_V_slice. eapply exec_trans; [apply exec_write1|]. cbn [quiet s_mem]. match goal with |- exec _ ?q _ _ _ => change q with (quiet mR4 tk (Snd, ch) []) end.
      eapply exec_S; [reflexivity|]. apply exec_0.
      eapply eqv_trans; [apply (flush_quiet _ tk (Snd, ch) (Rcv, ch) [])|]. apply eqv_sym, still_quiet.
    - assert (AT : agree lv tr (f2_recv L R depth (r_b rnd s) (ot_recv len s (recv_pre H (r_ot_r rnd)) (r_b rnd s)
          (ot_send (ot_n tree_n depth) len s (send_pre H (ot_n tree_n depth) (r_ot_s rnd) (r_ot_delta rnd)) (ots_s tree_n depth rnd) m0 m1)) sum (mac s) (view Z (s * lv)))).
      { unfold tr. rewrite EM, EP. now apply f2_recv_ext. }
      unfold InvF. split; [|split; [|split; [|split; [|split; [|split; [|split]]]]]].
      + intro i. unfold mR4, mR3, mR2, mR, mS3, mS2. do 6 other. unfold mS. rewrite warr_same.
        apply store_ext; [apply VS|]. intros j Hj. rewrite nth_slice by exact Hj. now apply At.
      + intro i. unfold mR4, mR3, mR2. do 3 other. unfold mR. rewrite warr_same. apply store_ext.
        * intro j. unfold arr, mS3, mS2, mS. do 3 other. apply VR.
        * intros j Hj. rewrite nth_slice by exact Hj. now apply AT.
      + unfold mR4, mR3, mR2, mR. repeat (apply fixed_warr; auto).
      + intro i. unfold mR4, mR3, mR2, mR. do 4 other. unfold mS3. rewrite warr_same. unfold mset. destruct (Nat.eqb i s); [fold d; now apply f2_V_ext|].
        unfold arr, mS2, mS. do 2 other. apply BS.
      + intro i. unfold mR4. rewrite warr_same. unfold mset. destruct (Nat.eqb i s); [fold d; now apply f2_V_ext|].
        unfold arr, mR3, mR2, mR, mS3, mS2, mS. do 6 other. apply BR.
      + intro i. unfold mR4. other. unfold mR3. rewrite warr_same. unfold mset. destruct (Nat.eqb i s); [reflexivity|].
        unfold arr, mR2, mR, mS3, mS2, mS. do 5 other. apply CR.
      + intros [|] c Hc.
        * unfold mR4, mR3, mR2, mR, mS3. do 5 other. unfold mS2. rewrite warr_same. unfold mset. destruct (Nat.eqb c ch); [reflexivity|]. unfold arr, mS. other. now apply HH.
        * unfold mR4, mR3. do 2 other. unfold mR2. rewrite warr_same. unfold mset. destruct (Nat.eqb c ch); [reflexivity|]. unfold arr, mR, mS3, mS2, mS. do 4 other. now apply HH.
      + intros i Hi. unfold mR4, mR3, mR2, mR, mS3, mS2, mS. do 7 other. now apply VL.
  Qed.

  (** the challenges of a list of trees, in its order *)
  Fixpoint follows (ts : list (nat * nat)) (h : mem) : Prop :=
    match ts with [] => True | (s, c) :: ts' => r_chal rnd s = D (h c) /\ follows ts' (mset h c (Nx (h c))) end.
  Fixpoint hafter (ts : list (nat * nat)) (h : mem) : mem :=
    match ts with [] => h | (s, c) :: ts' => hafter ts' (mset h c (Nx (h c))) end.
  Lemma runF ts : forall Y Z V W X h, follows ts h ->
    runX stF stepF (Y, Z, V, W, X, h) ts = (f2_run_trees L R H Hs tree_n depth rnd ts key mac Y Z V W X, hafter ts h).
  Proof.
    induction ts as [|[s c] ts IH]; intros Y Z V W X h; cbn [runX fold_left follows hafter f2_run_trees]; [reflexivity|]. intros [-> F].
    change (fold_left _ ts ?x) with (runX _ stepF x ts). unfold stepF at 2. cbn [fst snd].
    destruct (f2_tree_pair _ _ _ _ _ _ _ _ _ _ _) as [a b]. now apply IH.
  Qed.
  Lemma run_trees_old ts : forall Y Z V W X V' W' X',
    let '(y, z, v, w, x) := f2_run_trees L R H Hs tree_n depth rnd ts key mac Y Z V W X in
    let '(y', z', v', w', x') := f2_run_trees L R H Hs tree_n depth rnd ts key mac Y Z V' W' X' in
    y = y' /\ z = z' /\ forall s, In s (map fst ts) \/ (V s = V' s /\ W s = W' s /\ X s = X' s) -> v s = v' s /\ w s = w' s /\ x s = x' s.
  Proof.
    induction ts as [|[s c] ts IH]; intros Y Z V W X V' W' X'; cbn [f2_run_trees map fst].
    - split; [reflexivity|]. split; [reflexivity|]. intros s [[]|H0]; exact H0.
    - destruct (f2_tree_pair _ _ _ _ _ _ _ _ _ _ _) as [a b]. set (d := Hs (r_chal rnd s)).
      specialize (IH (store Y (s * lv) lv a) (store Z (s * lv) lv b) (mset V s (f2_V depth d a)) (mset W s (f2_V depth d b)) (mset X s (f2_chi_alpha depth d (r_b rnd s)))
        (mset V' s (f2_V depth d a)) (mset W' s (f2_V depth d b)) (mset X' s (f2_chi_alpha depth d (r_b rnd s)))).
      destruct (f2_run_trees _ _ _ _ _ _ _ _ _ _ _ _ (mset V _ _) _ _) as [[[[y z] v] w] x], (f2_run_trees _ _ _ _ _ _ _ _ _ _ _ _ (mset V' _ _) _ _) as [[[[y' z'] v'] w'] x'].
      destruct IH as (E1 & E2 & IH). split; [exact E1|]. split; [exact E2|]. intros q Hq. apply IH. unfold mset.
      destruct (Nat.eqb_spec q s) as [->|N0]; [right; auto|]. destruct Hq as [[->|Hq]|Hq]; [congruence|now left|right; exact Hq].
  Qed.

  (** the loops take their challenges in this order *)
  Lemma follows_app ts1 : forall ts2 h, follows (ts1 ++ ts2) h <-> follows ts1 h /\ follows ts2 (hafter ts1 h).
  Proof. induction ts1 as [|[s c] ts1 IH]; intros ts2 h; cbn [app follows hafter]; [tauto|]. rewrite IH. tauto. Qed.
  Lemma hafter_app ts1 : forall ts2 h, hafter (ts1 ++ ts2) h = hafter ts2 (hafter ts1 h).
  Proof. induction ts1 as [|[s c] ts1 IH]; intros ts2 h; cbn [app hafter]; auto. Qed.
  Lemma hafter_other ts c : forall h, ~ In c (map snd ts) -> hafter ts h c = h c.
  Proof.
    induction ts as [|[s c'] ts IH]; intros h Hn; cbn [hafter]; [reflexivity|]. cbn [map snd] in Hn. rewrite IH by (intro; apply Hn; now right).
    unfold mset. destruct (Nat.eqb_spec c c'); [|reflexivity]. subst. exfalso. apply Hn. now left.
  Qed.
  Lemma follows_block c n : forall a k h x, h c = Nat.iter k Nx x -> (forall j, j < n -> r_chal rnd (a + j) = D (Nat.iter (k + j) Nx x)) ->
    follows (map (fun j => (j, c)) (seq a n)) h.
  Proof.
    induction n as [|n IH]; intros a k h x Hh Hc; cbn [seq map follows]; [exact I|]. split.
    - rewrite Hh. pose proof (Hc 0 ltac:(lia)) as Q. rewrite !Nat.add_0_r in Q. exact Q.
    - apply (IH (S a) (S k) _ x); [unfold mset; rewrite Nat.eqb_refl, Hh; reflexivity|]. intros j Hj.
      pose proof (Hc (S j) ltac:(lia)) as Q. replace (S a + j) with (a + S j) by lia. replace (S k + j) with (k + S j) by lia. exact Q.
  Qed.
  Hypothesis chal : forall s, s < tree_n -> r_chal rnd s = tree_chal D Nx h0 threads tree_n s.
  Lemma follows_tasks : 1 <= threads -> follows (tree_tasks threads tree_n) h0.
  Proof.
    intro Ht. unfold tree_tasks. set (w := tree_n / threads).
    assert (Hw : threads * w <= tree_n) by (apply Nat.mul_div_le; lia).
    assert (P : forall n, n <= threads - 1 -> w <> 0 ->
      follows (flat_map (fun i => map (fun j => (j, (i * w) / w)) (seq (i * w) w)) (seq 0 n)) h0 /\
      forall c, n <= c -> hafter (flat_map (fun i => map (fun j => (j, (i * w) / w)) (seq (i * w) w)) (seq 0 n)) h0 c = h0 c).
    { induction n as [|n IH]; intros Hn W0; [cbn; auto|]. rewrite seq_S, flat_map_app, Nat.add_0_l. destruct IH as [I1 I2]; [lia|exact W0|].
      set (old := flat_map _ (seq 0 n)) in *. cbn [flat_map]. rewrite app_nil_r, Nat.div_mul by exact W0. split.
      - apply follows_app. split; [exact I1|]. apply (follows_block n w (n * w) 0 _ (h0 n)); [rewrite I2 by lia; reflexivity|].
        intros j Hj. cbn [Nat.add]. assert (B : S n * w <= (threads - 1) * w) by (apply Nat.mul_le_mono_r; lia).
        assert (B2 : (threads - 1) * w <= threads * w) by (apply Nat.mul_le_mono_r; lia). cbn [Nat.mul] in B.
        rewrite chal by lia. unfold tree_chal, rank. fold w.
        assert (C : conn threads tree_n (n * w + j) = n).
        { unfold conn. fold w. replace (n * w + j <? (threads - 1) * w) with true by (symmetry; apply Nat.ltb_lt; lia).
          rewrite Nat.add_comm, Nat.div_add by exact W0. rewrite Nat.div_small by exact Hj. reflexivity. }
        rewrite C. replace (n * w + j - n * w) with j by lia. reflexivity.
      - intros c Hc. rewrite hafter_app, hafter_other; [apply I2; lia|]. rewrite map_map. cbn [snd]. rewrite in_map_iff. intros (x & <- & _). lia. }
    assert (Q : follows (flat_map (fun i => map (fun j => (j, (i * w) / w)) (seq (i * w) w)) (seq 0 (threads - 1))) h0 /\
      hafter (flat_map (fun i => map (fun j => (j, (i * w) / w)) (seq (i * w) w)) (seq 0 (threads - 1))) h0 (threads - 1) = h0 (threads - 1)).
    { destruct (Nat.eq_dec w 0) as [E|E].
      - rewrite E. cbn [seq map]. assert (G : forall l : list nat, flat_map (fun _ => @nil (nat * nat)) l = []) by (induction l; auto). rewrite G. cbn. auto.
      - destruct (P (threads - 1) (le_n _) E) as [P1 P2]. auto. }
    destruct Q as [Q1 Q2]. apply follows_app. split; [exact Q1|].
    apply (follows_block (threads - 1) _ ((threads - 1) * w) 0 _ (h0 (threads - 1))); [exact Q2|]. intros j Hj. cbn [Nat.add].
    rewrite chal by lia. unfold tree_chal, rank. fold w.
    assert (C : conn threads tree_n ((threads - 1) * w + j) = threads - 1).
    { unfold conn. fold w. replace ((threads - 1) * w + j <? (threads - 1) * w) with false by (symmetry; apply Nat.ltb_ge; lia). reflexivity. }
    rewrite C. replace ((threads - 1) * w + j - (threads - 1) * w) with j by lia. reflexivity.
  Qed.
End Items2.
