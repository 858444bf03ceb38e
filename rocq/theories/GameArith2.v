(** The number of (seeds, key) triples on which a prover of the arithmetic engine cheats successfully. *)
From Coq Require Import NArith List Bool Arith Lia.
From Verif Require Import ArithModel ArithSpec ArithThms2 AHideSpec BoolSpec GameSpec CountAlg GameProofs GameArithSpec GameArith ThreadThms.
From Verif Require PropArith.
Import ListNotations.

Lemma sumf_ext_in {A} (f g : A -> nat) l : (forall x, In x l -> f x = g x) -> sumf f l = sumf g l.
Proof. induction l as [|x l IH]; intros H; [easy|]. cbn [sumf]. rewrite H by now left. rewrite IH; [easy|]. intros; apply H; now right. Qed.
Lemma sumf_scale {A} (f : A -> nat) c l : sumf (fun x => f x * c) l = sumf f l * c.
Proof. induction l as [|x l IH]; cbn [sumf]; [easy|]. rewrite IH. lia. Qed.
Lemma sumf_one_in (ys : list N) z : In z ys -> 1 <= sumf (fun y => if N.eqb z y then 1 else 0) ys.
Proof.
  induction ys as [|y ys IH]; intros []; cbn [sumf].
  - subst. rewrite N.eqb_refl. lia.
  - specialize (IH H). lia.
Qed.
Lemma spread_count chal m l P b : spread chal m l ->
  (forall ys, NoDup ys -> (forall y, In y ys -> exists x, In x l /\ P x = true /\ chal x = y) -> length ys <= b) ->
  cnt P l <= b * m.
Proof.
  intros S B. set (f := filter P l). set (ys := nodup N.eq_dec (map chal f)).
  assert (Ly : length ys <= b).
  { apply B; [apply NoDup_nodup|]. intros y Hy. apply nodup_In in Hy. apply in_map_iff in Hy. destruct Hy as (x & E & Hx).
    apply filter_In in Hx. exists x. tauto. }
  change (cnt P l) with (length f).
  assert (Q : forall f0, (forall x, In x f0 -> In (chal x) ys) -> length f0 <= sumf (fun y => cnt (fun x => N.eqb (chal x) y) f0) ys).
  { intros f0 Hf. transitivity (sumf (fun x => sumf (fun y => if N.eqb (chal x) y then 1 else 0) ys) f0).
    - revert Hf. clear. induction f0 as [|x f0 IH]; intros Hf; cbn [sumf length]; [lia|].
      pose proof (sumf_one_in ys (chal x) (Hf x (or_introl eq_refl))). specialize (IH (fun y Hy => Hf y (or_intror Hy))). lia.
    - rewrite (sumf_swap (fun x y => if N.eqb (chal x) y then 1 else 0)). apply Nat.eq_le_incl, sumf_ext_in. intros y _. now rewrite cnt_sum. }
  eapply Nat.le_trans; [apply (Q f)|].
  - intros x Hx. apply nodup_In. now apply in_map.
  - transitivity (sumf (fun _ : N => m) ys).
    + apply sumf_le. intros y _. eapply Nat.le_trans; [|apply (S y)]. unfold f. clear.
      unfold cnt. induction l as [|x l IH]; cbn [filter]; [lia|]. destruct (P x); cbn [filter]; destruct (N.eqb (chal x) y); cbn [length]; lia.
    + rewrite sumf_const. nia.
Qed.
Lemma a_combined_ext rs f g errs : (forall j, f j = g j) -> a_combined rs f errs = a_combined rs g errs.
Proof. intros H. unfold a_combined. do 2 f_equal. apply map_ext. intros ir. now rewrite H. Qed.
Lemma a_ranges_le t n rs : 1 <= t -> a_ranges t n = Some rs -> length rs <= t.
Proof.
  intros Ht. unfold a_ranges. destruct (Nat.ltb n 32); [intros E; injection E as <-; cbn; lia|].
  destruct (Nat.eqb _ 0); [discriminate|]. intros E. injection E as <-. rewrite app_length, map_length, seq_length. cbn. lia.
Qed.
Lemma bsize_acov (csz t n k : nat) : 1 <= csz -> a_all_covered t csz n -> k < num_checks csz n -> a_cov t (bsize csz n k).
Proof.
  intros Hc [A B] Hk. unfold bsize. destruct n as [|n]; cbn [num_checks] in Hk; [lia|]. cbn [checks_done].
  destruct (Nat.ltb_spec k (n / csz)) as [L|L]; [|apply B; lia]. apply A.
  pose proof (Nat.div_mod n csz ltac:(lia)). assert (1 <= n / csz) by lia. nia.
Qed.

Definition nonzero (errs : list N) : bool := existsb (fun e => negb (N.eqb e 0)) errs.
Lemma nonzero_in errs : nonzero errs = true <-> exists e, In e errs /\ e <> 0%N.
Proof.
  unfold nonzero. rewrite existsb_exists. split; intros (e & He & E); exists e; (split; [exact He|]).
  - apply negb_true_iff, N.eqb_neq in E. exact E.
  - now apply negb_true_iff, N.eqb_neq.
Qed.
(** errors of one batch: the challenge vectors, and the challenge words, under which a wrong batch passes *)
Lemma mul_vanish t errs rs chal m (X : list N) : 1 <= t -> a_ranges t (length errs) = Some rs -> a_cov t (length errs) ->
  Forall (fun e => (e < prm)%N) errs -> (exists e, In e errs /\ e <> 0%N) ->
  spread chal m X -> (forall x, chal x < prm)%N ->
  cnt (fun a => N.eqb (a_combined rs (fun j => chal (nth j a 0%N)) errs) 0) (tuples t X) <= length errs * m * length X ^ (t - 1).
Proof.
  intros Ht R C F (e & He & Ne) S Hc. destruct (In_nth errs e 0%N He) as (i & Hi & Ei).
  destruct (PropArith.C09_challenge_bound t errs rs i Ht R C Hi) as (k & Hk & B).
  { rewrite Ei. rewrite N.mod_small; [exact Ne|]. rewrite Forall_forall in F. now apply F. }
  apply (cnt_coordinate X t k); [pose proof (a_ranges_le t _ rs Ht R); lia|]. intros l1 l2 H1 H2.
  apply (spread_count chal m X); [exact S|]. intros ys Ny Hy.
  apply (B (fun j => chal (nth j (l1 ++ 0%N :: l2) 0%N)) ys Ny).
  - apply Forall_forall. intros y Iy. destruct (Hy y Iy) as (x & _ & _ & <-). apply Hc.
  - intros y Iy. destruct (Hy y Iy) as (x & _ & E & <-). apply N.eqb_eq in E. refine (eq_trans _ E). apply a_combined_ext. intros j.
    rewrite (nth_mid l1 l2 x), H1. now destruct (Nat.eqb j k).
Qed.
Lemma rel_vanish errs chal m (Y : list N) : 
  Forall (fun e => (e < prm)%N) errs -> (exists e, In e errs /\ e <> 0%N) -> spread chal m Y -> (forall x, chal x < prm)%N ->
  cnt (fun y => N.eqb (a_combined [(0, length errs)] (fun _ => chal y) errs) 0) Y <= length errs * m.
Proof.
  intros F (e & He & Ne) S Hc. destruct (In_nth errs e 0%N He) as (i & Hi & Ei).
  destruct (ArithThms4.worker_bound [(0, length errs)] errs i 0 (length errs) Hi) as (k & Hk & B); [|now left|lia|].
  { rewrite Ei. rewrite N.mod_small; [exact Ne|]. rewrite Forall_forall in F. now apply F. }
  apply (spread_count chal m Y); [exact S|]. intros ys Ny Hy.
  apply (B (fun _ => 0%N) ys Ny).
  - apply Forall_forall. intros y Iy. destruct (Hy y Iy) as (x & _ & _ & <-). apply Hc.
  - intros y Iy. destruct (Hy y Iy) as (x & _ & E & <-). apply N.eqb_eq in E. refine (eq_trans _ E).
    cbn [length] in Hk. assert (k = 0) by lia. subst k. unfold a_combined. cbn [length seq combine map fst snd Nat.eqb]. reflexivity.
Qed.

Section G.
  Variables (pub_mac : N) (pU pMac : nat -> N) (t csz psz : nat) (c : list agate).
  Variables (D : Type) (Deqb : D -> D -> bool) (H : list N -> D).
  Variables (word : list (list N) -> list N -> nat -> N).
  Variables (reply preply : list (list N) -> list N -> nat -> N * N) (digest : list (list N) -> list N -> D).
  Variables (X Y deltas : list N) (mx my few : nat) (small : bool).
  Hypothesis Ht : 1 <= t.
  Hypothesis Hc : 1 <= csz.
  Hypothesis Hp : 1 <= psz.
  Hypothesis Hcov : a_all_covered t csz (acount_mul c).
  Hypothesis SX : spread block_chal mx X.
  Hypothesis SY : spread word_chal my Y.
  Hypothesis HY : Forall (fun y => (y < 2 ^ 64)%N) Y.
  Hypothesis Hd : forall a b : D, Deqb a b = true -> a = b.
  Hypothesis Nd : NoDup deltas.
  Hypothesis Ld : Forall (fun d => (d < prm)%N) deltas.
  Hypothesis Hpm : (pub_mac < prm)%N.
  Hypothesis Hwf : Forall wf_pub c.
  Hypothesis Hw : forall s r, words_ok (play_words csz psz c word s r) 0 c.
  Hypothesis Hsmall : if small then few = 2 else few = 4.
  Hypothesis Hr : forall s r k, (snd (reply s r k) < 2 ^ (if small then 63 else 64))%N /\ (snd (preply s r k) < 2 ^ (if small then 63 else 64))%N.
  Let n := acount_mul c.
  Let m := acount_rel c.
  Let Bm := num_checks csz n.
  Let Br := num_checks psz m.
  Let SS := tuples Bm (tuples t X).
  Let RR := tuples Br Y.
  Definition akth (s : list (list N)) (r : list N) : list N :=
    nth (length s) (mul_batches (acommit pU csz psz (play_words csz psz c word s r) c)) [].
  Definition rkth (s : list (list N)) (r : list N) : list N :=
    nth (length r) (rel_batches (acommit pU csz psz (play_words csz psz c word s r) c)) [].
  Definition abad (r : list N) (pre : list (list N)) (a : list N) : bool :=
    nonzero (akth pre r) &&
    match a_ranges t (length (akth pre r)) with
    | Some rs => N.eqb (a_combined rs (fun j => block_chal (nth j a 0%N)) (akth pre r)) 0
    | None => false
    end.
  Definition rbad (s : list (list N)) (pre : list N) (y : N) : bool :=
    nonzero (rkth s pre) && N.eqb (a_combined [(0, length (rkth s pre))] (fun _ => word_chal y) (rkth s pre)) 0.
  Lemma cnt_false {A} (l : list A) : cnt (fun _ => false) l = 0.
  Proof. unfold cnt. induction l; cbn; auto. Qed.
  Lemma nth_some (A : Type) (l : list A) k d : nth k l d <> d -> nth_error l k = Some (nth k l d).
  Proof. intros E. apply nth_error_nth'. destruct (le_lt_dec (length l) k); [|easy]. now rewrite nth_overflow in E. Qed.
  Lemma block_lt x : (block_chal x < prm)%N.
  Proof. apply lt_mod. Qed.
  Lemma word_lt x : (word_chal x < prm)%N.
  Proof. apply lt_mod. Qed.
  Lemma abad_count r pre : cnt (abad r pre) (tuples t X) <= bsize csz n (length pre) * (mx * length X ^ (t - 1)).
  Proof.
    unfold abad. destruct (nonzero (akth pre r)) eqn:Ex; cbn [andb]; [|rewrite cnt_false; lia].
    apply nonzero_in in Ex.
    assert (E : nth_error (mul_batches (acommit pU csz psz (play_words csz psz c word pre r) c)) (length pre) = Some (akth pre r)).
    { apply nth_some. fold (akth pre r). intros Z. rewrite Z in Ex. destruct Ex as (e & [] & _). }
    destruct (mul_batch_size pU csz psz Hc Hp _ _ _ _ E) as (K & L & F).
    destruct (a_ranges t (length (akth pre r))) as [rs|] eqn:R; [|rewrite cnt_false; lia].
    fold n in L, K. rewrite <- L, Nat.mul_assoc. apply mul_vanish; auto using block_lt.
    rewrite L. now apply bsize_acov.
  Qed.
  Lemma rbad_count s pre : cnt (rbad s pre) Y <= bsize psz m (length pre) * my.
  Proof.
    unfold rbad. destruct (nonzero (rkth s pre)) eqn:Ex; cbn [andb]; [|rewrite cnt_false; lia].
    apply nonzero_in in Ex.
    assert (E : nth_error (rel_batches (acommit pU csz psz (play_words csz psz c word s pre) c)) (length pre) = Some (rkth s pre)).
    { apply nth_some. fold (rkth s pre). intros Z. rewrite Z in Ex. destruct Ex as (e & [] & _). }
    destruct (rel_batch_size pU csz psz Hc Hp _ _ _ _ E) as (K & L & F).
    fold m in L. rewrite <- L. apply rel_vanish; auto using word_lt.
  Qed.

  Definition acollides (s : list (list N)) (r : list N) : Prop :=
    exists d1 d2 v1 v2, In d1 deltas /\ In d2 deltas /\
      agame_exec pub_mac pU pMac t csz psz c word reply preply s r d1 = Some v1 /\
      agame_exec pub_mac pU pMac t csz psz c word reply preply s r d2 = Some v2 /\
      av_hash v1 <> av_hash v2 /\ H (av_hash v1) = H (av_hash v2).
  Let wins := acheats pub_mac pU pMac t csz psz c D Deqb H word reply preply digest.
  Definition b2n (b : bool) : nat := if b then 1 else 0.

  Lemma a_sequence s r : In s SS -> In r RR ->
    acollides s r \/ cnt (wins s r) deltas <= few + (b2n (hits (abad r) [] s) + b2n (hits (rbad s) [] r)) * length deltas.
  Proof.
    intros Is Ir. set (ds := filter (wins s r) deltas).
    assert (Q : cnt (wins s r) deltas = length ds) by reflexivity. rewrite Q.
    assert (W : length ds <= length deltas) by (exact (cnt_le (wins s r) deltas)).
    assert (Ls : length s = Bm) by (now apply tuples_in in Is).
    assert (Lr : length r = Br /\ (forall y, In y r -> In y Y)) by (now apply tuples_in in Ir).
    destruct Lr as [Lr Fr].
    destruct (session_bound pub_mac pU pMac t csz psz (seeds_of s) (fun k => nth k r 0%N) (play_words csz psz c word s r)
                (reply s r) (preply s r) D Deqb H (digest s r) c ds few small Hsmall Hd) as [B|[B|[B|B]]]; auto.
    - now apply NoDup_filter.
    - intros k. destruct (nth_in_or_default k r 0%N) as [I| ->]; [|reflexivity]. rewrite Forall_forall in HY. now apply HY, Fr.
    - intros d Hin. apply filter_In in Hin. destruct Hin as [Hin Hwn]. rewrite Forall_forall in Ld. split; [now apply Ld|].
      unfold wins, acheats, agame_exec, acommitted in Hwn.
      destruct (av_exec _ _ _ _ _ _ _ _ _ _ _ c) as [v|]; [|discriminate]. exists v. split; [reflexivity|].
      destruct (av_outcome Deqb H v (digest s r)) as [e ch]. apply andb_true_iff in Hwn. destruct Hwn as [W1 W2].
      apply andb_true_iff in W1. destruct W1 as [E1 E2]. apply negb_true_iff in E1, E2, W2. subst e ch. split; [reflexivity|].
      apply andb_false_iff in W2. destruct W2 as [W2|W2]; [left|now right]. intros E. rewrite E in W2.
      destruct (list_eq_dec _ _ _) as [_|G]; [discriminate|now apply G].
    - right. lia.
    - right. destruct B as (k & errs & rs & E & T & R & Z).
      assert (Hh : hits (abad r) [] s = true).
      { destruct (mul_batch_size pU csz psz Hc Hp _ _ _ _ E) as (K & L & _). fold n in K. fold Bm in K.
        destruct (nth_error s k) as [a|] eqn:Ea; [|apply nth_error_None in Ea; lia].
        apply hits_nth. exists k, a. split; [exact Ea|]. cbn [app].
        assert (Kk : akth (firstn k s) r = errs).
        { unfold akth. rewrite firstn_length, Nat.min_l by lia. rewrite (mul_play pU csz psz Hc Hp) in E. now apply nth_error_nth. }
        unfold abad. rewrite Kk, R. apply andb_true_iff. split; [now apply nonzero_in|].
        apply N.eqb_eq. refine (eq_trans _ Z). apply a_combined_ext. intros j. unfold a_chal, block_chal, seeds_of. now rewrite (nth_error_nth _ _ _ Ea). }
      rewrite Hh. cbn [b2n]. lia.
    - right. destruct B as (k & errs & E & T & Z).
      assert (Hh : hits (rbad s) [] r = true).
      { destruct (rel_batch_size pU csz psz Hc Hp _ _ _ _ E) as (K & L & _). fold m in K. fold Br in K.
        destruct (nth_error r k) as [a|] eqn:Ea; [|apply nth_error_None in Ea; lia].
        apply hits_nth. exists k, a. split; [exact Ea|]. cbn [app].
        assert (Kk : rkth s (firstn k r) = errs).
        { unfold rkth. rewrite firstn_length, Nat.min_l by lia. rewrite (rel_play pU csz psz Hc Hp) in E. now apply nth_error_nth. }
        unfold rbad. rewrite Kk. apply andb_true_iff. split; [now apply nonzero_in|].
        apply N.eqb_eq. refine (eq_trans _ Z). apply a_combined_ext. intros j. unfold word_chal. now rewrite (nth_error_nth _ _ _ Ea). }
      rewrite Hh. cbn [b2n]. lia.
    - left. destruct B as (d1 & d2 & v1 & v2 & I1 & I2 & X1 & X2 & XX). exists d1, d2, v1, v2.
      apply filter_In in I1, I2. unfold agame_exec. intuition.
  Qed.
  Lemma num_checks_pos z k : k <> 0 -> 1 <= num_checks z k.
  Proof. destruct k; intros E; [now destruct E|]. apply le_n_S, Nat.le_0_l. Qed.
  Lemma count_acheats :
    (exists s r, In s SS /\ In r RR /\ acollides s r) \/
    cnt (fun x => wins (fst (fst x)) (snd (fst x)) (snd x)) (list_prod (list_prod SS RR) deltas) <=
      few * (length X ^ (t * Bm) * length Y ^ Br) +
      (n * mx * length X ^ (t * Bm - 1) * length Y ^ Br + m * my * length X ^ (t * Bm) * length Y ^ (Br - 1)) * length deltas.
  Proof.
    destruct (exists_or_all (fun x => acollides (fst x) (snd x)) (fun x => cnt (wins (fst x) (snd x)) deltas)
       (fun x => few + (b2n (hits (abad (snd x)) [] (fst x)) + b2n (hits (rbad (fst x)) [] (snd x))) * length deltas) (list_prod SS RR)) as [E|E].
    { intros [s r] I. apply in_prod_iff in I. now apply a_sequence. }
    { left. destruct E as ([s r] & I & C). apply in_prod_iff in I. exists s, r. tauto. }
    right. rewrite (cnt_prod (fun x => wins (fst x) (snd x))). eapply Nat.le_trans; [exact E|].
    rewrite sumf_plus, sumf_const, sumf_scale, sumf_plus, prod_length.
    assert (P1 : length SS = length X ^ (t * Bm)) by (unfold SS; rewrite !tuples_len; now rewrite Nat.pow_mul_r).
    assert (P2 : length RR = length Y ^ Br) by (unfold RR; now rewrite tuples_len).
    rewrite P1, P2. apply Nat.add_le_mono; [lia|]. apply Nat.mul_le_mono_r. apply Nat.add_le_mono.
    - transitivity (cnt (fun x => hits (abad (snd x)) [] (fst x)) (list_prod SS RR)); [rewrite cnt_sum; apply Nat.le_refl|].
      rewrite (cnt_prod (fun s r => hits (abad r) [] s)). transitivity (sumf (fun r => cnt (hits (abad r) []) SS) RR).
      { apply Nat.eq_le_incl. transitivity (sumf (fun s => sumf (fun r => if hits (abad r) [] s then 1 else 0) RR) SS).
        - apply sumf_ext_in. intros s _. now rewrite cnt_sum.
        - rewrite sumf_swap. apply sumf_ext_in. intros r _. now rewrite cnt_sum. }
      transitivity (sumf (fun _ : list N => n * mx * length X ^ (t * Bm - 1)) RR); [|rewrite sumf_const, P2; lia].
      apply sumf_le. intros r _.
      pose proof (cnt_hits (tuples t X) (mx * length X ^ (t - 1)) Bm (abad r) (bsize csz n) []) as K. cbn [length Nat.add] in K.
      eapply Nat.le_trans; [apply K; intros p _ _; apply abad_count|].
      unfold Bm at 1. rewrite (sizes_sum pU csz Hc), tuples_len.
      destruct (Nat.eq_dec n 0) as [Z|Z]; [rewrite Z; apply Nat.le_0_l|].
      apply (num_checks_pos csz) in Z. fold Bm in Z. rewrite <- !Nat.mul_assoc. do 2 apply Nat.mul_le_mono_l.
      rewrite <- Nat.pow_mul_r, <- Nat.pow_add_r. rewrite (exponent t Bm Ht Z). apply Nat.le_refl.
    - transitivity (cnt (fun x => hits (rbad (fst x)) [] (snd x)) (list_prod SS RR)); [rewrite cnt_sum; apply Nat.le_refl|].
      rewrite (cnt_prod (fun s r => hits (rbad s) [] r)).
      transitivity (sumf (fun _ : list (list N) => m * my * length Y ^ (Br - 1)) SS); [|rewrite sumf_const, P1; lia].
      apply sumf_le. intros s _.
      pose proof (cnt_hits Y my Br (rbad s) (bsize psz m) []) as K. cbn [length Nat.add] in K.
      eapply Nat.le_trans; [apply K; intros p _ _; apply rbad_count|].
      unfold Br at 1. rewrite (sizes_sum pU psz Hp). lia.
  Qed.
End G.
