(** All executions of the GF(2^128) MPFSS by both parties. *)
From Coq Require Import NArith List Bool Arith Lia.
From Verif Require Import Word GF128 BoolModel TreeModel VoleModel VoleF2kModel MpfssProofs MpThreadModel MpThreadSpec MpThreadDiamond MpThreadPerm MpThreadFit MpThreadRun MpThreadItems MpThreadThms.
From Verif Require Import Mp2ThreadModel Mp2ThreadSpec Mp2ThreadItems.
Import ListNotations.

Section FitF2k.
  Variables (L R Hs D Nx : N -> N).
  Variables (threads tree_n depth : nat).
  Variables (seed : nat -> N) (b : nat -> nat -> bool) (delta : N).
  Notation lv := (leave_n depth).
  Notation go := (go threads tree_n depth).
  Notation fit := (fit go gs).
  Notation uses := (uses depth).
  Notation item := (p2_item L R Hs D Nx tree_n depth seed b).
  Notation s1 sd := (after threads sd 1 (own0 (Main sd))).
  Notation l1 sd := (lent sd 1 (threads - 1) none).
  Lemma fit_f2_item sd ph ch s c (own shr : rset) : ph = 1 \/ ph = 2 -> (forall r, uses sd ch s r -> own r) -> (forall r, reads sd ph r -> own r \/ shr r) ->
    fit own shr c -> fit own shr (item sd ph ch s c).
  Proof.
    intros HP U V K.
    assert (UV : forall x, s * lv <= x < s * lv + lv -> own (RMem (sd, Vec, x))) by (intros x Hx; apply U; cbn; auto).
    assert (US : own (RMem (sd, Seed, ch))) by (apply U; cbn; auto).
    assert (UB : own (RMem (sd, Buf, s))) by (apply U; cbn; auto).
    destruct HP as [-> | ->]; destruct sd; cbn [p2_item]; try exact K.
    - assert (own (RSend (Snd, ch))) by (apply U; reflexivity).
      unfold p2_tree_s. cbn [MpThreadPerm.fit]. split; [apply V; reflexivity|]. intro g. apply fit_read_from; [intros; left; auto|].
      intro vs. destruct (f2_send L R depth (seed s) g (cells vs)) as [[[t m0] m1] sum]. apply fit_write_from; [rewrite slice_length; exact UV|].
      apply fit_ot_send; [assumption|intro; apply V; cbn; auto|intro; apply V; cbn; auto|].
      unfold p2_msg_s. cbn [MpThreadPerm.fit]. split; [assumption|]. split; [assumption|]. split; [now left|]. intro x. split; [assumption|].
      apply fit_read_from; [intros; left; auto|]. intro ws. cbn [MpThreadPerm.fit]. auto.
    - unfold p2_tree_r. apply fit_ot_recv; [apply U; reflexivity|intro; apply V; cbn; auto|]. intro m. cbn [MpThreadPerm.fit].
      split; [apply U; reflexivity|]. intro sh. split; [apply V; reflexivity|]. intro d2. apply fit_read_from; [intros; left; auto|]. intro vs.
      apply fit_write_from; [rewrite slice_length; exact UV|]. unfold p2_msg_r. cbn [MpThreadPerm.fit]. split; [now left|]. intro x. split; [assumption|].
      split; [apply U; cbn; auto|]. apply fit_read_from; [intros; left; auto|]. intro ws. cbn [MpThreadPerm.fit]. split; [assumption|]. split; [apply U; reflexivity|exact K].
  Qed.
  Lemma fit_phase1 sd c : fit (s1 sd) (l1 sd) c -> fit (own0 (Main sd)) none (p_phase threads tree_n item sd 1 c).
  Proof.
    intro K. apply (fit_phase threads tree_n depth item fit_f2_item); auto.
    - intros ch s r Hr. split; [eapply uses_own; eauto|tauto].
    - intro j. split; [cbn; eauto|tauto].
    - intro j. cbn. eauto.
    - intros r Hr. left. eapply reads_own; eauto.
  Qed.
  Lemma fit_main2 sd : fit (own0 (Main sd)) none (p2_main L R Hs D Nx threads tree_n depth seed b delta sd).
  Proof.
    assert (T1 : forall sd x, s1 sd (RMem (sd, Tri, x)) \/ l1 sd (RMem (sd, Tri, x))).
    { intros d x. unfold after, lent. destruct (Nat.eq_dec (threads - 1) 0) as [Z|Z]; [left|right; right; split; [lia|reflexivity]].
      repeat split; try discriminate; cbn; lia. }
    assert (B1 : forall sd a x, a <> Bits -> a <> Pre -> a <> Tri -> s1 sd (RMem (sd, a, x))).
    { intros d a x A1 A2 A3. apply own1; [reflexivity|discriminate|]; cbn; destruct a; try contradiction; tauto. }
    destruct sd; unfold p2_main.
    - apply fit_choices_s; [reflexivity|reflexivity|]. cbn [MpThreadPerm.fit]. split; [reflexivity|]. apply fit_phase1.
      unfold p2_batch_s. cbn [MpThreadPerm.fit]. split; [apply T1|]. intro y. split; [apply own1; [reflexivity|discriminate|cbn; tauto]|].
      intro xs. apply fit_read_from; [intros; left; apply B1; discriminate|]. intro V. cbn [MpThreadPerm.fit].
      assert (s1 Snd (RSend (Snd, 0))) by (apply own1; [reflexivity|discriminate|cbn; tauto]). auto.
    - apply fit_choices_r; [reflexivity|reflexivity|]. cbn [MpThreadPerm.fit]. split; [reflexivity|]. apply fit_phase1.
      unfold p2_batch_r. cbn [MpThreadPerm.fit]. split; [apply T1|]. intro z. apply fit_read_from; [intros; left; apply B1; discriminate|]. intro vals.
      apply fit_read_from; [intros; left; apply B1; discriminate|]. intro X. cbn [MpThreadPerm.fit].
      assert (s1 Rcv (RSend (Rcv, 0))) by (apply own1; [reflexivity|discriminate|cbn; tauto]). split; [auto|]. split; [auto|].
      apply fit_read_from; [intros; left; apply B1; discriminate|]. intro W. cbn [MpThreadPerm.fit].
      split; [apply own1; [reflexivity|discriminate|cbn; tauto]|]. intro r. split; [apply B1; discriminate|exact I].
  Qed.
  Lemma safe_f2 m : safe go gs (start m, all_threads2 L R Hs D Nx threads tree_n depth seed b delta).
  Proof.
    apply (safe_start threads tree_n depth item fit_f2_item); [exact fit_main2|]. intros sd ph i. cbn [all_threads2].
    destruct (Nat.eqb ph 1 && Nat.ltb i (threads - 1)) eqn:E; [right|now left]. split; [|reflexivity].
    apply andb_true_iff in E. destruct E as [E _]. rewrite Nat.eqb_eq in E. now left.
  Qed.
End FitF2k.

Lemma f2_bca_ext n : forall i u u' X X' acc, (forall j, i <= j < i + n -> u j = u' j /\ X j = X' j) -> f2_bca n i u X acc = f2_bca n i u' X' acc.
Proof. induction n as [|n IH]; intros i u u' X X' acc H; cbn [f2_bca]; [reflexivity|]. destruct (H i ltac:(lia)) as [-> ->]. apply IH. intros j Hj. apply H. lia. Qed.

Section Whole2.
  Variables (cap : nat) (L R H Hs D Nx : N -> N) (threads tree_n depth : nat) (rnd : trand) (key val mac h : mem) (delta : N).
  Hypothesis Ht : 1 <= threads.
  Hypothesis Hd : 2 <= depth.
  Hypothesis chal : forall s, s < tree_n -> r_chal rnd s = tree_chal D Nx h threads tree_n s.
  Notation threads_of := (all_threads2 L R Hs D Nx threads tree_n depth (r_seed rnd) (r_b rnd) delta).
  Notation fixed := (fixed H tree_n depth rnd key mac).
  Notation phase := (p_phase threads tree_n (p2_item L R Hs D Nx tree_n depth (r_seed rnd) (r_b rnd))).
  Notation batch_s := (p2_batch_s Hs tree_n delta Done).
  Notation batch_r := (p2_batch_r Hs tree_n Done).
  Lemma batch2_part m V W X ps : fixed m -> (forall s, s < tree_n -> m (Snd, Buf, s) = V s /\ m (Rcv, Buf, s) = W s /\ m (Rcv, Chi, s) = X s) ->
    (forall i, i <= tree_n -> m (Rcv, Val, i) = val i) -> ps (Main Rcv) = batch_r -> ps (Main Snd) = batch_s ->
    exists m', (forall sd a i, a <> Verdict -> m' (sd, a, i) = m (sd, a, i)) /\
      m' (Rcv, Verdict, 0) = N.b2n (N.eqb (Hs (f2_vb tree_n delta V (key tree_n) (f2_x_star tree_n val X))) (Hs (f2_va tree_n W (mac tree_n)))) /\
      reach cap (still m notok, ps) (still m' notok, upd (upd ps (Main Rcv) Done) (Main Snd) Done).
  Proof.
    intros F HB HV ER ES.
    set (xs := f2_x_star tree_n val X). set (hh := Hs (f2_vb tree_n delta V (key tree_n) xs)). set (g := Hs (f2_va tree_n W (mac tree_n))).
    set (kr := fun r => Write (Rcv, Verdict, 0) (N.b2n (N.eqb r g)) Done).
    assert (E1 : exec cap (still m notok) batch_r (quiet m notok (Rcv, 0) [xs]) (Recv (Snd, 0) kr)).
    { unfold p2_batch_r. eapply exec_S; [reflexivity|]. cbn [still s_mem]. rewrite (f_mac _ _ _ _ _ _ _ F) by lia.
      eapply exec_trans; [apply exec_read_from|]. eapply exec_trans; [apply exec_read_from|]. cbn [still s_mem].
      replace (f2_x_star tree_n (cells (map (arr m Rcv Val) (seq 0 (S tree_n)))) (cells (map (arr m Rcv Chi) (seq 0 tree_n)))) with xs.
      2:{ unfold xs, f2_x_star. rewrite (cells_map (arr m Rcv Val) 0 (S tree_n) tree_n) by lia. cbn [Nat.add]. rewrite (HV tree_n (le_n _) : arr m Rcv Val tree_n = val tree_n). f_equal. apply f2_bca_ext. intros j Hj. rewrite !cells_map by lia. unfold arr. cbn [Nat.add].
          rewrite HV by lia. destruct (HB j ltac:(lia)) as (_ & _ & ->). auto. }
      eapply exec_S; [reflexivity|]. eapply exec_S; [reflexivity|].
      eapply exec_eqv_l; [|apply (flush_sends cap m notok (Rcv, 0) [xs])].
      eapply exec_trans; [apply exec_read_from|]. cbn [quiet s_mem].
      replace (f2_va tree_n (cells (map (arr m Rcv Buf) (seq 0 tree_n))) (mac tree_n)) with (f2_va tree_n W (mac tree_n)); [apply exec_refl|].
      unfold f2_va. apply xor_loop_ext. intros j Hj. rewrite cells_map by lia. unfold arr. cbn [Nat.add]. destruct (HB j ltac:(lia)) as (_ & -> & _). reflexivity. }
    assert (E2 : exec cap (quiet m notok (Rcv, 0) [xs]) batch_s (quiet m notok (Snd, 0) [hh]) Done).
    { unfold p2_batch_s. eapply exec_S; [reflexivity|]. cbn [quiet s_mem]. rewrite (f_key _ _ _ _ _ _ _ F) by lia.
      eapply exec_trans; [apply exec_recv|]. cbv beta. eapply exec_trans; [apply exec_read_from|]. cbn [quiet s_mem].
      replace (f2_vb tree_n delta (cells (map (arr m Snd Buf) (seq 0 tree_n))) (key tree_n) xs) with (f2_vb tree_n delta V (key tree_n) xs).
      2:{ unfold f2_vb. apply xor_loop_ext. intros j Hj. rewrite cells_map by lia. unfold arr. cbn [Nat.add]. destruct (HB j ltac:(lia)) as (-> & _). reflexivity. }
      fold hh. eapply exec_eqv_l; [|apply eqv_sym, still_quiet]. eapply exec_S; [reflexivity|]. eapply exec_S; [reflexivity|]. apply exec_0.
      apply (flush_sends cap m notok (Snd, 0) [hh]). }
    set (m' := warr m Rcv Verdict (mset (arr m Rcv Verdict) 0 (N.b2n (N.eqb hh g)))).
    assert (E3 : exec cap (quiet m notok (Snd, 0) [hh]) (Recv (Snd, 0) kr) (still m' notok) Done).
    { eapply exec_trans; [apply exec_recv|]. unfold kr. eapply exec_eqv_r; [apply exec_write1|]. cbn [quiet s_mem]. fold m'.
      eapply eqv_trans; [|apply eqv_sym, (still_quiet _ _ (Snd, 0))]. apply eqv_refl. }
    exists m'. split; [intros sd a i Ha; unfold m'; rewrite warr_other by (right; exact Ha); reflexivity|].
    split; [unfold m'; rewrite warr_same; unfold mset; reflexivity|].
    eapply reach_trans; [apply (reach_exec cap _ _ _ _ E1 ps (Main Rcv) ER)|].
    eapply reach_trans; [apply (reach_exec cap _ _ _ _ E2 _ (Main Snd)); rewrite upd_other by discriminate; exact ES|].
    eapply reach_trans; [apply (reach_exec cap _ _ _ _ E3 _ (Main Rcv)); rewrite upd_other by discriminate; now rewrite upd_same|].
    apply reach_refl. split; [apply eqv_refl|]. intro x. cbn [snd]. unfold upd. destruct (tid_dec x (Main Rcv)), (tid_dec x (Main Snd)); congruence.
  Qed.

  Definition result2 (m0 m : loc -> N) : Prop :=
    let '(Y, Z, ok) := f2_mpfss L R H Hs threads tree_n depth rnd delta key val mac (arr m0 Snd Vec) (arr m0 Rcv Vec) in
    (forall i, m (Snd, Vec, i) = Y i) /\ (forall i, m (Rcv, Vec, i) = Z i) /\ m (Rcv, Verdict, 0) = N.b2n ok /\
    forall c, c < threads -> m (Snd, Seed, c) = m (Rcv, Seed, c).
  Lemma complete_run2 m : before2 H threads tree_n depth rnd key val mac h m ->
    exists m' ps, all_done ps /\ result2 m m' /\ reach cap (start m, threads_of) (still m' notok, ps).
  Proof.
    intros [HB HV HH].
    destruct (choices_part cap L R H Hs (fun _ c => r_chal rnd c) threads tree_n depth rnd key mac 0%N Ht Hd (fun c => eq_refl) m (phase Snd 1 batch_s) (phase Rcv 1 batch_r) threads_of HB eq_refl eq_refl) as (m1 & F1 & V1 & R1).
    set (ps1 := upd (upd threads_of (Main Rcv) (phase Rcv 1 batch_r)) (Main Snd) (phase Snd 1 batch_s)) in *.
    destruct (phase_run cap threads tree_n (p2_item L R Hs D Nx tree_n depth (r_seed rnd) (r_b rnd)) 1 stF (InvF H threads tree_n depth rnd key val mac) (stepF L R H Hs D Nx tree_n depth rnd key mac)
      (fun x m tk ch s kA kB => itemF cap L R H Hs D Nx threads tree_n depth rnd key val mac Hd x m tk ch s kA kB) Ht ps1
      (arr m Snd Vec, arr m Rcv Vec, arr m Snd Buf, arr m Rcv Buf, arr m Rcv Chi, h) m1 batch_s batch_r) as (m2 & I2 & R2).
    { unfold InvF, arr. repeat (split; [intros; now apply V1|]). split; [exact F1|]. repeat (split; [intros; now apply V1|]).
      split; [intros; rewrite V1 by discriminate; now apply HH|intros; rewrite V1 by discriminate; now apply HV]. }
    { intros sd i Hi. unfold ps1. rewrite !upd_other by discriminate. cbn [all_threads2 Nat.eqb andb].
      replace (i <? threads - 1) with true by (symmetry; apply Nat.ltb_lt; lia). reflexivity. }
    { unfold ps1. now rewrite upd_same. }
    { unfold ps1. rewrite upd_other by discriminate. now rewrite upd_same. }
    rewrite (runF L R H Hs D Nx tree_n depth rnd key mac) in I2 by (apply (follows_tasks L R H Hs D Nx threads tree_n depth rnd h Hd chal Ht)).
    set (ps2 := upd (upd (fin 1 (threads - 1) ps1) (Main Snd) batch_s) (Main Rcv) batch_r) in *.
    pose proof (run_trees_old L R H Hs tree_n depth rnd key mac (tree_tasks threads tree_n) (arr m Snd Vec) (arr m Rcv Vec) (arr m Snd Buf) (arr m Rcv Buf) (arr m Rcv Chi)
      (fun _ => 0%N) (fun _ => 0%N) (fun _ => 0%N)) as OLD.
    destruct (f2_run_trees _ _ _ _ _ _ _ _ _ _ _ _ (arr m Snd Buf) _ _) as [[[[y z] v] w] x] eqn:EM.
    destruct (f2_run_trees _ _ _ _ _ _ _ _ _ _ _ _ (fun _ => 0%N) _ _) as [[[[y' z'] v'] w'] x'] eqn:EM'.
    destruct OLD as (<- & <- & OLD). destruct I2 as (Y2 & Z2 & F2 & BS & BR & CR & H2 & VL).
    destruct (batch2_part m2 v' w' x' ps2 F2) as (m5 & V5 & B5 & R5).
    { intros s Hs0. rewrite BS, BR, CR. apply OLD. left. rewrite tasks_fst by exact Ht. apply in_seq. lia. }
    { exact VL. }
    { unfold ps2. now rewrite upd_same. }
    { unfold ps2. rewrite upd_other by discriminate. now rewrite upd_same. }
    exists m5, (upd (upd ps2 (Main Rcv) Done) (Main Snd) Done). split; [|split].
    - intros [sd|sd ph i].
      + unfold upd. destruct (tid_dec (Main sd) (Main Snd)); [reflexivity|]. destruct (tid_dec (Main sd) (Main Rcv)); [reflexivity|]. destruct sd; congruence.
      + rewrite !upd_other by discriminate. unfold ps2. rewrite !upd_other by discriminate. cbn [fin].
        destruct ((ph =? 1) && (i <? threads - 1)) eqn:E1; [reflexivity|]. unfold ps1. rewrite !upd_other by discriminate. cbn [all_threads2].
        rewrite E1. reflexivity.
    - unfold result2, f2_mpfss. rewrite EM'. split; [intro i; rewrite V5 by discriminate; apply Y2|]. split; [intro i; rewrite V5 by discriminate; apply Z2|]. split; [exact B5|].
      intros c Hc. rewrite !V5 by discriminate. now rewrite !H2.
    - eapply reach_trans; [exact R1|]. eapply reach_trans; [exact R2|exact R5].
  Qed.
  Theorem mpfss2_independent m : before2 H threads tree_n depth rnd key val mac h m -> pair_independent cap (start m, threads_of) (result2 m).
  Proof.
    intro HB. destruct (complete_run2 m HB) as (m' & ps & DN & Q & (T & f & HT & E)). destruct E as [E1 E2]. cbn [fst snd] in E1, E2.
    assert (DF : all_done (snd f)) by (intro x; rewrite E2; apply DN).
    apply (independent cap (safe (go threads tree_n depth) gs)
      (fun t c c' => safe_step cap (go threads tree_n depth) gs (go_sig threads tree_n depth) t c c') (safe_race (go threads tree_n depth) gs) _ T f); auto.
    - apply safe_f2.
    - destruct E1 as (A & B & C & F). split; [intro c; rewrite B, C; auto|]. intro t. rewrite F. reflexivity.
    - intros mm Hm. destruct E1 as (A & _). unfold result2 in *. destruct (f2_mpfss _ _ _ _ _ _ _ _ _ _ _ _ _ _) as [[Y Z] ok].
      destruct Q as (Q1 & Q2 & Q3 & Q4). split; [intro i; rewrite Hm, A; apply Q1|]. split; [intro i; rewrite Hm, A; apply Q2|]. split; [rewrite Hm, A; exact Q3|].
      intros c Hc. rewrite !Hm, !A. now apply Q4.
  Qed.
End Whole2.
