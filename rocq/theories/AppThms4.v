(** From plain evaluation to sessions: an execution that the verifier accepts although the committed inputs are not in the
    relation is an execution in which the prover cheats (GameArithSpec). *)
From Coq Require Import NArith List Bool Arith Lia.
From Verif Require Import Word FpModel WordProofs FpProofs ListUtil Prime61 ArithModel ArithSpec ArithThms4 ArithThms5 BoolSpec GameSpec GameArithSpec
  GameArith2 AHideSpec AHideProofs AppModel AppSpec AppProofs AppThms AppThms2 AppThms3.
Import ListNotations.
Ltac Zify.zify_post_hook ::= idtac.

(** ** committed inputs *)
Lemma ac_step_ins pU csz psz words a g : ac_ins (ac_step pU csz psz words a g) = ac_ins a ++ match g with AIn _ => [ac_new pU words a] | _ => [] end.
Proof.
  destruct g; cbn; rewrite ?app_nil_r; auto.
  - now destruct (Nat.eqb _ _).
  - unfold ac_queue. cbv zeta. cbn. destruct (ac_perrs a); [easy|]. now destruct (Nat.leb _ _).
  - unfold ac_queue. cbv zeta. cbn. destruct (ac_perrs a); [easy|]. now destruct (Nat.leb _ _).
Qed.
Lemma ins_shape pU csz psz words c : length (ac_ins (acommit pU csz psz words c)) = acount_in c /\ Forall canon (ac_ins (acommit pU csz psz words c)).
Proof.
  unfold acommit.
  assert (K : forall a, Forall canon (ac_ins a) -> length (ac_ins (fold_left (ac_step pU csz psz words) c a)) = length (ac_ins a) + acount_in c /\
     Forall canon (ac_ins (fold_left (ac_step pU csz psz words) c a))).
  { induction c as [|g c IH]; intros a Ha; [cbn; split; [lia|exact Ha]|]. cbn [fold_left].
    destruct (IH (ac_step pU csz psz words a g)) as [I1 I2].
    - rewrite ac_step_ins. apply Forall_app. split; [exact Ha|]. destruct g; constructor; [|constructor]. unfold ac_new, fsub. apply N.mod_lt. exact prm_nz.
    - split; [|exact I2]. rewrite I1, ac_step_ins, app_length. destruct g; cbn [acount_in length]; lia. }
  destruct (K ac_init) as [K1 K2]; [constructor|]. split; [exact K1|exact K2].
Qed.

(** ** counting *)
Lemma cnt_imp {A : Type} (P Q : A -> bool) l : (forall x, P x = true -> Q x = true) -> cnt P l <= cnt Q l.
Proof.
  intro H. unfold cnt. induction l as [|x l IH]; [apply Nat.le_refl|]. cbn [filter]. destruct (P x) eqn:E.
  - rewrite (H x E). cbn [length]. lia.
  - destruct (Q x); cbn [length]; lia.
Qed.
Lemma few_threads_cover t csz n : 1 <= t <= 5 -> 1 <= csz -> a_all_covered t csz n.
Proof.
  intros Ht Hc. assert (K : forall k, a_cov t k).
  { intro k. unfold a_cov. destruct (Nat.lt_ge_cases k 32) as [L|L]; [now left|]. right.
    assert (6 <= k / t). { apply Nat.div_le_lower_bound; lia. }
    pose proof (Nat.mod_upper_bound k t ltac:(lia)). lia. }
  split; intros _; apply K.
Qed.
Section Bound.
  Variables (pub_mac : N) (pU pMac : nat -> N) (t csz psz : nat) (c : list agate).
  Variables (D : Type) (Deqb : D -> D -> bool) (H : list N -> D).
  Variables (word : list (list N) -> list N -> nat -> N).
  Variables (reply preply : list (list N) -> list N -> nat -> N * N) (digest : list (list N) -> list N -> D).
  Variables (look : list N -> bool) (R : list N -> bool).
  Hypothesis HR : forall ins outs, length ins = acount_in c -> Forall canon ins -> look outs = true ->
    map (fun w => w mod prm)%N outs = pl_outs (aplain (awith_inputs ins c)) -> pl_ok (aplain (awith_inputs ins c)) = true -> R ins = true.
  Lemma fooled_cheats s r d : app_fooled pub_mac pU pMac t csz psz c D Deqb H word reply preply digest look R s r d = true ->
    acheats pub_mac pU pMac t csz psz c D Deqb H word reply preply digest s r d = true.
  Proof.
    unfold app_fooled, app_accepts, acheats. destruct (agame_exec _ _ _ _ _ _ _ _ _ _ _ _ _) as [v|]; [|discriminate].
    destruct (av_outcome Deqb H v (digest s r)) as [e ch]. intro A. rewrite !andb_true_iff in A. destruct A as [[[E1 E2] L] N]. rewrite E1, E2. cbn [andb].
    destruct (list_eq_dec _ _ _) as [E|]; [|reflexivity]. cbn [andb].
    destruct (pl_ok _) eqn:K; [|reflexivity]. unfold acommitted in *. destruct (ins_shape pU csz psz (play_words csz psz c word s r) c) as [I1 I2].
    rewrite (HR _ _ I1 I2 L E K) in N. discriminate.
  Qed.
  Lemma fooled_bound (X Y deltas : list N) mx my :
    1 <= t <= 5 -> 1 <= csz -> 1 <= psz ->
    spread block_chal mx X -> spread word_chal my Y -> Forall (fun y => (y < 2 ^ 64)%N) Y ->
    NoDup deltas -> Forall (fun d => (d < prm)%N) deltas -> (pub_mac < prm)%N -> Forall wf_pub c ->
    (forall s r, words_ok (play_words csz psz c word s r) 0 c) ->
    (forall s r k, (snd (reply s r k) < 2 ^ 64)%N /\ (snd (preply s r k) < 2 ^ 64)%N) ->
    (forall a b, Deqb a b = true -> a = b) ->
    let n := acount_mul c in let m := acount_rel c in let Bm := num_checks csz n in let Br := num_checks psz m in
    let SS := tuples Bm (tuples t X) in let RR := tuples Br Y in
    (exists s r d1 d2 v1 v2, In s SS /\ In r RR /\ In d1 deltas /\ In d2 deltas /\
      agame_exec pub_mac pU pMac t csz psz c word reply preply s r d1 = Some v1 /\
      agame_exec pub_mac pU pMac t csz psz c word reply preply s r d2 = Some v2 /\
      av_hash v1 <> av_hash v2 /\ H (av_hash v1) = H (av_hash v2)) \/
    cnt (fun x => app_fooled pub_mac pU pMac t csz psz c D Deqb H word reply preply digest look R (fst (fst x)) (snd (fst x)) (snd x))
        (list_prod (list_prod SS RR) deltas)
     <= 4 * (length X ^ (t * Bm) * length Y ^ Br) +
        (n * mx * length X ^ (t * Bm - 1) * length Y ^ Br + m * my * length X ^ (t * Bm) * length Y ^ (Br - 1)) * length deltas.
  Proof.
    intros Ht Hc Hp SX SY HY Nd Ld Hpm Hwf Hw Hr Hd. cbv zeta.
    destruct (count_acheats pub_mac pU pMac t csz psz c D Deqb H word reply preply digest X Y deltas mx my 4 false (proj1 Ht) Hc Hp
                (few_threads_cover t csz (acount_mul c) Ht Hc) SX SY HY Hd Nd Ld Hpm Hwf Hw eq_refl Hr) as [(s & r & Hs & Hrr & d1 & d2 & v1 & v2 & I)|I].
    - left. exists s, r, d1, d2, v1, v2. split; [exact Hs|]. split; [exact Hrr|exact I].
    - right. eapply Nat.le_trans; [|exact I]. apply cnt_imp. intros x Hx. exact (fooled_cheats _ _ _ Hx).
  Qed.
End Bound.

(** ** the verifier's copy of the program *)
Lemma av_run_with pm vK d t csz psz seeds pseeds words chk pchk c : forall ins s,
  av_run pm vK d t csz psz seeds pseeds words chk pchk s (awith_inputs ins c) = av_run pm vK d t csz psz seeds pseeds words chk pchk s c.
Proof.
  induction c as [|g c IH]; intros ins s; [reflexivity|].
  destruct g; cbn [awith_inputs]; try (cbn [av_run]; destruct (av_step _ _ _ _ _ _ _ _ _ _ _ s _); [apply IH|reflexivity]).
  destruct ins; cbn [av_run]; cbn [av_step]; apply IH.
Qed.
Lemma av_exec_with pm vK d t csz psz seeds pseeds words chk pchk ins c :
  av_exec pm vK d t csz psz seeds pseeds words chk pchk (awith_inputs ins c) = av_exec pm vK d t csz psz seeds pseeds words chk pchk c.
Proof. unfold av_exec. now rewrite av_run_with. Qed.

(** ** inputs fed by a program *)
Fixpoint fed (c : list agate) : list N := match c with [] => [] | AIn x :: c' => x :: fed c' | _ :: c' => fed c' end.
Lemma fed_app c1 c2 : fed (c1 ++ c2) = fed c1 ++ fed c2.
Proof. induction c1 as [|g c1 IH]; [reflexivity|]. destruct g; cbn [app fed]; rewrite IH; reflexivity. Qed.
Lemma with_fed c : awith_inputs (fed c) c = c.
Proof. induction c as [|g c IH]; [reflexivity|]. destruct g; cbn [fed awith_inputs]; now rewrite IH. Qed.
Definition no_in (g : agate) : bool := match g with AIn _ => false | _ => true end.
Lemma fed_obj g c : fed (code (snd (obj g c))) = fed (code c) ++ match g with AIn x => [x] | _ => [] end.
Proof. cbn [obj snd code]. rewrite fed_app. destruct g; reflexivity. Qed.
Lemma fed_queries k (g : nat -> agate) c0 : (forall i, no_in (g i) = true) -> fed (code (for_ k (fun i c => query (g i) c) c0)) = fed (code c0).
Proof.
  intro H. apply (for_ind (fun _ c => fed (code c) = fed (code c0))); [reflexivity|]. intros i c _ E.
  cbn [query code]. rewrite fed_app, E. specialize (H i). destruct (g i); try discriminate H; cbn [fed]; now rewrite app_nil_r.
Qed.
Definition fd (st : arrs) : list N := fed (code (cx st)).
Lemma fd_loop (body : nat -> arrs -> arrs) k st : (forall i s, fd (body i s) = fd s) -> fd (for_ k body st) = fd st.
Proof. intro H. apply (for_ind (fun _ s => fd s = fd st)); [reflexivity|]. intros i s _ E. now rewrite H. Qed.
Lemma fd_feed k st (body : nat -> arrs -> arrs) (w : nat -> N) : (forall i s, fd (body i s) = fd s ++ [w i]) -> fd (for_ k body st) = fd st ++ map w (seq 0 k).
Proof.
  intro H. apply (for_ind (fun k s => fd s = fd st ++ map w (seq 0 k))); [cbn; now rewrite app_nil_r|]. intros i s _ E.
  rewrite H, E, seq_S, map_app, app_assoc. reflexivity.
Qed.
Lemma fd_set g i st : fd (set_x i g st) = fd st ++ match g with AIn x => [x] | _ => [] end /\
  fd (set_y i g st) = fd st ++ match g with AIn x => [x] | _ => [] end /\ fd (set_z i g st) = fd st ++ match g with AIn x => [x] | _ => [] end.
Proof. unfold fd. cbn [set_x set_y set_z cx]. rewrite fed_obj. auto. Qed.
Fixpoint times {A : Type} (k : nat) (l : list A) : list A := match k with 0 => [] | S k' => times k' l ++ l end.
Lemma times_length {A : Type} k (l : list A) : length (times k l) = k * length l.
Proof. induction k; [reflexivity|]. cbn [times]. rewrite app_length, IHk. cbn. lia. Qed.
Lemma sis_fed n m A s t rounds : fed (sis n m A s t rounds) = times rounds (map s (seq 0 m)).
Proof.
  unfold sis. cbv zeta. unfold check_batch. rewrite fed_queries by reflexivity.
  change (fd (for_ rounds (fun _ => sis_round n m A s) (arrs0 start)) = times rounds (map s (seq 0 m))).
  apply (for_ind (fun k st => fd st = times k (map s (seq 0 m)))); [reflexivity|]. intros k st _ E. cbn [times]. rewrite <- E.
  unfold sis_round, sis_diffs. rewrite fd_loop by (intros i s0; cbv zeta; rewrite (proj1 (proj2 (fd_set _ _ _))), (proj1 (fd_set _ _ _)), !app_nil_r; reflexivity).
  unfold sis_rows. rewrite fd_loop.
  2:{ intros i s0. apply fd_loop. intros j s1. unfold sis_cell. cbn [obj]. rewrite (proj1 (proj2 (fd_set _ _ _))), app_nil_r.
      unfold fd. cbn [with_cx cx code]. rewrite fed_app. cbn [fed]. apply app_nil_r. }
  unfold sis_squares. rewrite fd_loop by (intros i s0; rewrite (proj2 (proj2 (fd_set _ _ _))); apply app_nil_r).
  unfold sis_init. rewrite fd_loop by (intros i s0; rewrite (proj1 (proj2 (fd_set _ _ _))); apply app_nil_r).
  apply (fd_feed m st (fun i => set_x i (AIn (s i))) s). intros i s0. exact (proj1 (fd_set _ _ _)).
Qed.
Lemma sis_fed_part n m A s t rounds j : 1 <= rounds -> j < m -> sis_part m (rounds - 1) (fed (sis n m A s t rounds)) j = s j.
Proof.
  intros Hr Hj. rewrite sis_fed. unfold sis_part. destruct rounds as [|k]; [lia|]. rewrite Nat.sub_succ, Nat.sub_0_r. cbn [times].
  rewrite app_nth2 by (rewrite times_length, map_length, seq_length; lia). rewrite times_length, map_length, seq_length.
  replace (k * m + j - k * m) with j by lia.
  rewrite nth_indep with (d' := s 0) by (rewrite map_length, seq_length; exact Hj). rewrite map_nth, seq_nth by exact Hj. reflexivity.
Qed.
Lemma mm_fed n a b t : forall i, i < n * n -> nth (2 * i) (fed (matmul n a b t)) 0%N = a i /\ nth (2 * i + 1) (fed (matmul n a b t)) 0%N = b i.
Proof.
  assert (E : fed (matmul n a b t) = fd (mm_init n a b (arrs0 start))).
  { unfold matmul. cbv zeta. unfold check_batch. rewrite fed_queries by reflexivity.
    change (fd (mm_loop n (mm_init n a b (arrs0 start))) = fd (mm_init n a b (arrs0 start))). unfold mm_loop.
    apply fd_loop. intros i s. apply fd_loop. intros j s0. apply fd_loop. intros k s1. unfold mm_cell. cbn [obj].
    rewrite (proj2 (proj2 (fd_set _ _ _))), app_nil_r. unfold fd. cbn [with_cx cx code]. rewrite fed_app. cbn [fed]. apply app_nil_r. }
  rewrite E. unfold mm_init.
  apply (for_ind (fun k st => length (fd st) = 2 * k /\ forall i, i < k -> nth (2 * i) (fd st) 0%N = a i /\ nth (2 * i + 1) (fd st) 0%N = b i)).
  - split; [reflexivity|lia].
  - intros k st _ [L I]. rewrite (proj2 (proj2 (fd_set _ _ _))), (proj1 (proj2 (fd_set _ _ _))), (proj1 (fd_set _ _ _)), app_nil_r, <- app_assoc.
    split; [rewrite app_length, L; cbn; lia|]. intros i Hi. destruct (Nat.eq_dec i k) as [->|Hne].
    + rewrite !(app_nth2 (fd _)) by lia. rewrite L. replace (2 * k - 2 * k) with 0 by lia. replace (2 * k + 1 - 2 * k) with 1 by lia. split; reflexivity.
    + rewrite !app_nth1 by lia. apply I. lia.
Qed.
Lemma feed_fed len w : fd (feed_all len w) = map w (seq 0 len).
Proof. unfold feed_all. rewrite (fd_feed len (arrs0 start) _ w); [reflexivity|]. intros i s. exact (proj1 (fd_set _ _ _)). Qed.
Lemma zk_fed n a0 b0 cr sz d e f ee : let l := fed (zk_proof n a0 b0 cr sz d e f ee) in
  nth 0 l 0%N = a0 /\ nth 1 l 0%N = b0 /\ forall i, i < sz -> nth (2 + 3 * i) l 0%N = d i /\ nth (3 + 3 * i) l 0%N = e i /\ nth (4 + 3 * i) l 0%N = f i.
Proof.
  intro l.
  assert (E : l = fd (zk_items sz d e f (chain n a0 b0 cr start))).
  { unfold l, zk_proof. cbv zeta. unfold zero_batch, check_batch, reveal_batch. rewrite !fed_queries by reflexivity. reflexivity. }
  assert (C : fed (code (chain n a0 b0 cr start)) = [a0; b0]).
  { unfold chain. cbn [obj start next code app].
    assert (L : let '(_, _, c) := for_ n ch_step (0, 1, {| code := [AIn a0; AIn b0; APub 4]; next := 3 |}) in fed (code c) = [a0; b0]).
    { apply (for_ind (fun _ (s : nat * nat * ctx) => let '(_, _, c) := s in fed (code c) = [a0; b0])); [reflexivity|].
      intros i [[a b] c] _ Ec. unfold ch_step. cbn [obj code]. rewrite !fed_app. cbn [fed]. now rewrite !app_nil_r. }
    destruct (for_ n ch_step _) as [[a b] c]. cbn [query code]. rewrite !fed_app. cbn [fed]. now rewrite !app_nil_r. }
  rewrite E. unfold zk_items. cbn [obj].
  set (c1 := {| code := code (chain n a0 b0 cr start) ++ [APub (PR - 1)]; next := S (next (chain n a0 b0 cr start)) |}).
  assert (C1 : fed (code c1) = [a0; b0]) by (unfold c1; cbn [code]; rewrite fed_app, C; reflexivity). clearbody c1.
  assert (K : let g := fd (for_ sz (zk_item d e f (next (chain n a0 b0 cr start))) (arrs0 c1)) in length g = 2 + 3 * sz /\ nth 0 g 0%N = a0 /\ nth 1 g 0%N = b0 /\
    forall i, i < sz -> nth (2 + 3 * i) g 0%N = d i /\ nth (3 + 3 * i) g 0%N = e i /\ nth (4 + 3 * i) g 0%N = f i); [|cbv zeta in K; tauto].
  cbv zeta. apply (for_ind (fun k s => length (fd s) = 2 + 3 * k /\ nth 0 (fd s) 0%N = a0 /\ nth 1 (fd s) 0%N = b0 /\
    forall i, i < k -> nth (2 + 3 * i) (fd s) 0%N = d i /\ nth (3 + 3 * i) (fd s) 0%N = e i /\ nth (4 + 3 * i) (fd s) 0%N = f i)).
  - unfold fd. cbn [arrs0 cx]. rewrite C1. repeat split; lia.
  - intros k s _ (L & A & B & I).
    assert (F : fd (zk_item d e f (next (chain n a0 b0 cr start)) k s) = fd s ++ [d k; e k; f k]).
    { unfold zk_item. cbv zeta. rewrite !(proj2 (proj2 (fd_set _ _ _))), !(proj1 (proj2 (fd_set _ _ _))), !(proj1 (fd_set _ _ _)),
        !(proj1 (proj2 (fd_set _ _ _))), !(proj1 (fd_set _ _ _)). rewrite !app_nil_r, <- !app_assoc. reflexivity. }
    rewrite F. split; [rewrite app_length, L; cbn; lia|]. rewrite !app_nth1 by lia. split; [exact A|]. split; [exact B|].
    intros i Hi. destruct (Nat.eq_dec i k) as [->|Hne].
    + rewrite !(app_nth2 (fd _)) by lia. rewrite L. replace (2 + 3 * k - (2 + 3 * k)) with 0 by lia. replace (3 + 3 * k - (2 + 3 * k)) with 1 by lia.
      replace (4 + 3 * k - (2 + 3 * k)) with 2 by lia. split; [|split]; reflexivity.
    + rewrite !app_nth1 by lia. apply I. lia.
Qed.
Lemma fed_length c : length (fed c) = acount_in c.
Proof. induction c as [|g c IH]; [reflexivity|]. destruct g; cbn [fed acount_in length]; now rewrite IH. Qed.
Lemma fed_canon c : Forall wf_honest c -> Forall canon (fed c).
Proof. induction 1 as [|g c H _ IH]; [constructor|]. destruct g; cbn [fed]; auto. constructor; [exact (proj2 H)|exact IH]. Qed.
