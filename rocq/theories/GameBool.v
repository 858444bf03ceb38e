(** The number of (seeds, key) pairs on which a prover of the boolean engine cheats successfully. *)
From Coq Require Import NArith List Bool Arith Lia.
From Verif Require Import BoolModel BoolSpec BoolThms BoolThms2 ThreadThms GameSpec CountAlg GameProofs.
Import ListNotations.

Section G.
  Variables (r0 r1 : N) (pM : nat -> N) (t csz : nat) (c : list gate).
  Variables (D : Type) (Deqb : D -> D -> bool) (H : list N -> D).
  Variables (bit : list (list N) -> nat -> bool) (reply : list (list N) -> nat -> N * N) (digest : list (list N) -> D).
  Variables (xs : list N).
  Hypothesis Ht : 1 <= t.
  Hypothesis Hc : 1 <= csz.
  Hypothesis Hcov : all_covered t csz (count_and c).
  Hypothesis Hnd : NoDup xs.
  Hypothesis Hlt : Forall (fun x => (x < 2 ^ 128)%N) xs.
  Let n := count_and c.
  Let q := length xs.
  Definition kth (pre : list (list N)) : list bool :=
    nth (length pre) (batches (commit pM csz (play_bits csz c bit pre) c)) [].
  Definition bad (pre : list (list N)) (a : list N) : bool :=
    existsb id (kth pre) &&
    match and_ranges t (length (kth pre)) with
    | Some rs => N.eqb (combined_error rs (fun j => nth j a 0%N) (kth pre)) 0
    | None => false
    end.
  Lemma nth_some (A : Type) (l : list A) k d : nth k l d <> d -> nth_error l k = Some (nth k l d).
  Proof. intros E. apply nth_error_nth'. destruct (le_lt_dec (length l) k); [|easy]. now rewrite nth_overflow in E. Qed.
  Lemma bad_count pre : cnt (bad pre) (tuples t xs) <= bsize csz n (length pre) * q ^ (t - 1).
  Proof.
    unfold bad. destruct (existsb id (kth pre)) eqn:Ex; cbn [andb].
    2:{ unfold cnt. clear. induction (tuples t xs); cbn; lia. }
    apply existsb_exists in Ex. destruct Ex as (b & Hb & Eb). unfold id in Eb. subst b.
    assert (E : nth_error (batches (commit pM csz (play_bits csz c bit pre) c)) (length pre) = Some (kth pre)).
    { apply nth_some. fold (kth pre). intros Z. rewrite Z in Hb. destruct Hb. }
    destruct (batch_size pM csz Hc _ _ _ _ E) as [K L].
    destruct (and_ranges t (length (kth pre))) as [rs|] eqn:R.
    2:{ unfold cnt. clear. induction (tuples t xs); cbn; lia. }
    assert (C : length (kth pre) mod t < length (kth pre) / t) by (rewrite L; now apply (bsize_covered pM csz Hc)).
    destruct (challenge_bound t (kth pre) rs Ht R C Hb) as (k & Hk & B).
    apply (cnt_coordinate xs t k); [exact Hk|]. intros l1 l2 H1 H2.
    fold n in L. rewrite <- L. apply (B (fun j => nth j (l1 ++ 0%N :: l2) 0%N)).
    - now apply NoDup_filter.
    - rewrite Forall_forall in Hlt |- *. intros x Hx. apply filter_In in Hx. now apply Hlt.
    - intros x Hx. apply filter_In in Hx. destruct Hx as [_ Hx]. apply N.eqb_eq in Hx.
      refine (eq_trans _ Hx). apply combined_ext. intros j. now rewrite (nth_mid l1 l2 x), H1.
  Qed.
  Lemma tuples_all_len (s : list (list N)) m : In s (tuples m (tuples t xs)) -> length s = m.
  Proof. intros Hs. now apply tuples_in in Hs. Qed.

  Definition collides (s : list (list N)) (deltas : list N) : Prop :=
    exists d1 d2 v1 v2, In d1 deltas /\ In d2 deltas /\
      game_exec r0 r1 pM t csz c bit reply s d1 = Some v1 /\ game_exec r0 r1 pM t csz c bit reply s d2 = Some v2 /\
      v_hash v1 <> v_hash v2 /\ H (v_hash v1) = H (v_hash v2).
  Let wins := cheats r0 r1 pM t csz c D Deqb H bit reply digest.

  Lemma sequence_bound deltas s : (forall a b : D, Deqb a b = true -> a = b) -> NoDup deltas -> Forall valid_delta deltas ->
    In s (tuples (num_checks csz n) (tuples t xs)) ->
    collides s deltas \/ cnt (wins s) deltas <= 2 + (if hits bad [] s then 1 else 0) * length deltas.
  Proof.
    intros Hd Nd Vd Hs.
    set (ds := filter (wins s) deltas).
    assert (Q : cnt (wins s) deltas = length ds) by reflexivity. rewrite Q.
    assert (W : length ds <= length deltas) by (unfold ds; clear; induction deltas as [|d l IH]; cbn; [lia|destruct (wins s d); cbn; lia]).
    destruct (session_soundness r0 r1 pM t csz (seeds_of s) (play_bits csz c bit s) (reply s) D Deqb H (digest s) c ds Hd) as [B|[B|B]].
    - now apply NoDup_filter.
    - intros d Hin. apply filter_In in Hin. destruct Hin as [Hin Hw]. rewrite Forall_forall in Vd. split; [now apply Vd|].
      unfold wins, cheats, game_exec, committed in Hw.
      destruct (ver_exec r0 r1 (cot_key pM d) d t csz (seeds_of s) (play_bits csz c bit s) (reply s) c) as [v|]; [|discriminate].
      exists v. split; [reflexivity|]. apply andb_true_iff in Hw. destruct Hw as [W1 W2]. split; [now apply negb_true_iff|].
      intros E. destruct (list_eq_dec _ _ _) as [_|F]; [discriminate|now apply F].
    - right. lia.
    - right. destruct B as (k & errs & rs & E & T & R & Z).
      assert (Hh : hits bad [] s = true).
      { destruct (batch_size pM csz Hc _ _ _ _ E) as [K L]. fold n in K.
        assert (Ls : length s = num_checks csz n) by now apply tuples_all_len.
        destruct (nth_error s k) as [a|] eqn:Ea; [|apply nth_error_None in Ea; lia].
        apply hits_nth. exists k, a. split; [exact Ea|]. cbn [app].
        assert (Kk : kth (firstn k s) = errs).
        { unfold kth. rewrite firstn_length, Nat.min_l by lia. rewrite (play_local pM csz Hc) in E.
          now apply nth_error_nth. }
        unfold bad. rewrite Kk, R. apply andb_true_iff. split; [apply existsb_exists; now exists true|].
        apply N.eqb_eq. refine (eq_trans _ Z). apply combined_ext. intros j. unfold seeds_of. now rewrite (nth_error_nth _ _ _ Ea). }
      rewrite Hh. lia.
    - left. destruct B as (d1 & d2 & v1 & v2 & I1 & I2 & X1 & X2 & X). exists d1, d2, v1, v2.
      apply filter_In in I1, I2. unfold game_exec. intuition.
  Qed.

  Lemma count_cheats deltas : (forall a b : D, Deqb a b = true -> a = b) -> NoDup deltas -> Forall valid_delta deltas ->
    let B := num_checks csz n in
    (exists s, In s (tuples B (tuples t xs)) /\ collides s deltas) \/
    cnt (fun sd => wins (fst sd) (snd sd)) (list_prod (tuples B (tuples t xs)) deltas) <=
      2 * q ^ (t * B) + n * q ^ (t * B - 1) * length deltas.
  Proof.
    intros Hd Nd Vd B.
    destruct (exists_or_all (fun s => collides s deltas) (fun s => cnt (wins s) deltas)
                (fun s => 2 + (if hits bad [] s then 1 else 0) * length deltas) (tuples B (tuples t xs))) as [E|E].
    { intros s Hs. now apply sequence_bound. }
    { now left. }
    right. rewrite cnt_prod. eapply Nat.le_trans; [exact E|].
    rewrite sumf_plus, sumf_const.
    assert (P1 : length (tuples B (tuples t xs)) = q ^ (t * B)) by (rewrite !tuples_len; unfold q; now rewrite Nat.pow_mul_r).
    rewrite P1. apply Nat.add_le_mono; [lia|].
    assert (M : sumf (fun s => (if hits bad [] s then 1 else 0) * length deltas) (tuples B (tuples t xs)) =
                cnt (hits bad []) (tuples B (tuples t xs)) * length deltas).
    { rewrite cnt_sum. generalize (tuples B (tuples t xs)). clear. induction l as [|x l IH]; cbn [sumf]; [easy|]. rewrite IH. lia. }
    rewrite M. apply Nat.mul_le_mono_r.
    pose proof (cnt_hits (tuples t xs) (q ^ (t - 1)) B bad (bsize csz n) []) as K. cbn [length Nat.add] in K.
    eapply Nat.le_trans; [apply K|].
    - intros p _ _. apply bad_count.
    - unfold B at 1. rewrite (sizes_sum pM csz Hc). rewrite tuples_len. fold q.
      destruct (Nat.eq_dec n 0) as [Z|Z]; [rewrite Z; lia|].
      assert (HB : forall m, m <> 0 -> 1 <= num_checks csz m) by (clear; intros [|m] Q; cbn [num_checks]; [now destruct Q|apply le_n_S, Nat.le_0_l]). apply HB in Z. fold B in Z.
      rewrite <- Nat.mul_assoc. apply Nat.mul_le_mono_l. rewrite <- Nat.pow_mul_r, <- Nat.pow_add_r.
      rewrite (exponent t B Ht Z). apply Nat.le_refl.
  Qed.
End G.
