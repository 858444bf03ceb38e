(** The number of (seeds, key) triples on which a prover cheats in a session with gates and relations. *)
From Coq Require Import NArith List Bool Arith Lia.
From Verif Require Import BoolModel BoolSpec BoolThms BoolThms2 BoolPolyModel BoolPolySpec BoolPolyProofs BSessModel BSessSpec BSessProofs BSessThms
  ThreadThms GameSpec CountAlg GameProofs GameArith2.
From Verif Require PropBool.
Import ListNotations.

(** * batches of a list *)
Lemma chunks_nth {A} n : 1 <= n -> forall k (l : list A),
  nth_error (chunks n l) k = if Nat.ltb (k * n) (length l) then Some (firstn n (skipn (k * n) l)) else None.
Proof.
  intros Hn. induction k as [|k IH]; intros l.
  - cbn [Nat.mul]. destruct l as [|x l]; [reflexivity|]. destruct (le_lt_dec (length (x :: l)) n) as [L|L].
    + rewrite chunks_short by exact L. cbn [nth_error length skipn]. rewrite firstn_all2 by exact L. reflexivity.
    + rewrite <- (firstn_skipn n (x :: l)) at 1. rewrite chunks_cons by (try exact Hn; rewrite firstn_length; lia). reflexivity.
  - destruct (le_lt_dec (length l) n) as [L|L].
    + rewrite chunks_short by exact L. replace (Nat.ltb (S k * n) (length l)) with false
        by (symmetry; apply Nat.ltb_ge; rewrite Nat.mul_succ_l; lia). destruct l; [reflexivity|]. cbn. now destruct k.
    + rewrite <- (firstn_skipn n l) at 1. rewrite chunks_cons by (try exact Hn; rewrite firstn_length; lia). cbn [nth_error].
      rewrite IH, skipn_length.
      assert (Q : skipn (k * n) (skipn n l) = skipn (S k * n) l).
      { rewrite Nat.mul_succ_l. clear. generalize (k * n). revert l. induction n as [|n IH]; intros l m; [now rewrite Nat.add_0_r|].
        rewrite Nat.add_succ_r. destruct l as [|x l]; [now rewrite !skipn_nil|]. cbn [skipn]. apply IH. }
      rewrite Q. destruct (Nat.ltb_spec (k * n) (length l - n)); destruct (Nat.ltb_spec (S k * n) (length l)); rewrite ?Nat.mul_succ_l in *;
        reflexivity || lia.
Qed.
Lemma chunk_size n (k : nat) (l : list bool) b : 1 <= n -> nth_error (chunks n l) k = Some b ->
  k < num_checks n (length l) /\ length b = bsize n (length l) k.
Proof.
  intros Hn. rewrite (chunks_nth n Hn). destruct (Nat.ltb_spec (k * n) (length l)) as [L|L]; [|discriminate]. intros [= <-].
  rewrite firstn_length, skipn_length. destruct (length l) as [|m] eqn:E; [lia|]. cbn [num_checks]. unfold bsize. cbn [checks_done last_batch].
  pose proof (Nat.div_mod m n ltac:(lia)) as D. pose proof (Nat.mod_upper_bound m n ltac:(lia)) as U.
  assert (K : k <= m / n) by (apply Nat.div_le_lower_bound; [lia|]; rewrite Nat.mul_comm; lia).
  split; [lia|]. destruct (Nat.ltb_spec k (m / n)) as [Q|Q].
  - assert (S k * n <= m / n * n) by (apply Nat.mul_le_mono_r; lia). rewrite Nat.mul_succ_l in *. rewrite (Nat.mul_comm n) in D. lia.
  - assert (k = m / n) by lia. subst k. rewrite (Nat.mul_comm n) in D. lia.
Qed.
Lemma chunk_local {A} n k (l1 l2 : list A) : 1 <= n -> length l1 = length l2 -> firstn (S k * n) l1 = firstn (S k * n) l2 ->
  nth_error (chunks n l1) k = nth_error (chunks n l2) k.
Proof.
  intros Hn L E. rewrite !(chunks_nth n Hn), L. destruct (Nat.ltb _ _); [|reflexivity]. f_equal.
  assert (Q : forall l : list A, firstn n (skipn (k * n) l) = skipn (k * n) (firstn (S k * n) l)).
  { intros l. rewrite Nat.mul_succ_l. clear. generalize (k * n). intros m. revert m l. induction m as [|m IH]; intros l; [reflexivity|].
    destruct l as [|x l]; [now rewrite !skipn_nil, firstn_nil|]. cbn [skipn firstn Nat.add]. apply IH. }
  now rewrite !Q, E.
Qed.

(** * which bits a batch of relations depends on *)
Lemma seen_gates csz psz prog : forall a r, map fst (bseen csz psz a r prog) = seen csz a (gates_of prog).
Proof.
  induction prog as [|[[x|b|i j|i|i j|i]|c] p IH]; intros a r; cbn [bseen gates_of seen map fst]; try reflexivity; now rewrite IH.
Qed.
Section Local.
  Variables (pM : nat -> N) (csz psz : nat).
  Hypothesis Hp : 1 <= psz.
  (** the committed bits, and the defects of the relations made so far *)
  Fixpoint crun (b : nat -> bool) (s : cst) (dl : list bool) (prog : list bop) : cst * list bool :=
    match prog with
    | [] => (s, dl)
    | OGate g :: p => crun b (c_step pM csz b s g) dl p
    | OPoly c :: p => crun b s (dl ++ defects (bcall_map (pwire (c_wires s)) c)) p
    end.
  Lemma crun_len b prog : forall s dl, length (snd (crun b s dl prog)) = length dl + count_rel prog.
  Proof.
    induction prog as [|[g|c] p IH]; intros s dl; cbn [crun count_rel snd]; [lia|apply IH|].
    rewrite IH, app_length, defects_len. unfold call_rels. destruct c; lia.
  Qed.
  Lemma crun_ext b prog : forall s dl, exists tl, snd (crun b s dl prog) = dl ++ tl.
  Proof.
    induction prog as [|[g|c] p IH]; intros s dl; cbn [crun snd]; [exists []; now rewrite app_nil_r|apply IH|].
    destruct (IH s (dl ++ defects (bcall_map (pwire (c_wires s)) c))) as (t & E). rewrite E, <- app_assoc. now eexists.
  Qed.
  Lemma c_grows b s g : exists more, c_wires (c_step pM csz b s g) = c_wires s ++ more /\ length more = makes_wire g.
  Proof.
    destruct g; cbn [c_step c_add c_wires makes_wire]; try (now eexists [_]).
    - destruct (Nat.eqb _ csz); now eexists [_].
    - exists []. now rewrite app_nil_r.
  Qed.
  Lemma c_grows_all b c : forall s, exists more, c_wires (fold_left (c_step pM csz b) c s) = c_wires s ++ more.
  Proof.
    induction c as [|g c IH]; intros s; cbn [fold_left]; [exists []; now rewrite app_nil_r|].
    destruct (c_grows b s g) as (m & W & _). destruct (IH (c_step pM csz b s g)) as (m' & W'). rewrite W', W, <- app_assoc. now eexists.
  Qed.
  Lemma crun_factor b prog : forall s dl, wf_prog (length (c_wires s)) prog = true ->
    crun b s dl prog = (fold_left (c_step pM csz b) (gates_of prog) s,
                        dl ++ committed_rels (c_wires (fold_left (c_step pM csz b) (gates_of prog) s)) prog).
  Proof.
    induction prog as [|[g|c] p IH]; intros s dl H; cbn [crun gates_of fold_left wf_prog] in *.
    - unfold committed_rels. cbn. now rewrite app_nil_r.
    - apply andb_true_iff in H. destruct H as [_ H]. destruct (c_grows b s g) as (m & W & L). apply IH. now rewrite W, app_length, L.
    - apply andb_true_iff in H. destruct H as [H1 H]. rewrite (IH _ _ H), <- app_assoc. f_equal. f_equal.
      unfold committed_rels. cbn [calls_of flat_map]. f_equal. f_equal. apply bcall_map_ext. intros i Hi.
      rewrite forallb_forall in H1. specialize (H1 _ Hi). apply Nat.ltb_lt in H1.
      destruct (c_grows_all b (gates_of p) s) as (m & W). rewrite W. unfold pwire. now rewrite app_nth1.
  Qed.
  Lemma done_iff r k : checks_done psz r <= k <-> r <= S k * psz.
  Proof.
    destruct r as [|r]; cbn [checks_done]; [split; intros; lia|]. split; intros H.
    - destruct (le_lt_dec (S r) (S k * psz)) as [|G]; [assumption|]. exfalso.
      assert (S k <= r / psz) by (apply Nat.div_le_lower_bound; [lia|]; rewrite Nat.mul_comm; lia). lia.
    - assert (r / psz < S k); [|lia]. apply Nat.div_lt_upper_bound; [lia|]. rewrite Nat.mul_comm. lia.
  Qed.
  Lemma firstn_ext (m : nat) (l t1 t2 : list bool) : m <= length l -> firstn m (l ++ t1) = firstn m (l ++ t2).
  Proof. intros L. rewrite !firstn_app. replace (m - length l) with 0 by lia. reflexivity. Qed.
  Lemma rel_local (b1 b2 : nat -> bool) k prog : forall s dl a, checks_done psz (length dl) <= k ->
    (forall i, i < length (bseen csz psz a (length dl) prog) -> snd (nth i (bseen csz psz a (length dl) prog) (0, 0)) <= k ->
       b1 (c_bits s + i) = b2 (c_bits s + i)) ->
    firstn (S k * psz) (snd (crun b1 s dl prog)) = firstn (S k * psz) (snd (crun b2 s dl prog)).
  Proof.
    induction prog as [|[g|c] p IH]; intros s dl a Hd H; [reflexivity| |].
    - cbn [crun].
      assert (Z : forall n l, bseen csz psz a (length dl) (OGate g :: p) = n :: l -> snd n <= k ->
                b1 (c_bits s) = b2 (c_bits s) /\
                forall m, m < length l -> snd (nth m l (0, 0)) <= k -> b1 (S (c_bits s) + m) = b2 (S (c_bits s) + m)).
      { intros n l E Hn. rewrite E in H. split.
        - specialize (H 0). rewrite Nat.add_0_r in H. apply H; [cbn; lia|exact Hn].
        - intros m Hm Hl. rewrite Nat.add_succ_l, <- Nat.add_succ_r. apply H; cbn [length nth]; [lia|exact Hl]. }
      destruct g as [x|v|i j|i|i j|i].
      + destruct (Z _ _ eq_refl Hd) as [Z1 Z2].
        assert (E : c_step pM csz b1 s (GIn x) = c_step pM csz b2 s (GIn x)) by (cbn [c_step]; unfold cbit; now rewrite Z1).
        rewrite E. apply (IH _ _ a); [exact Hd|exact Z2].
      + apply (IH _ _ a); [exact Hd|exact H].
      + apply (IH _ _ a); [exact Hd|exact H].
      + apply (IH _ _ a); [exact Hd|exact H].
      + destruct (Z _ _ eq_refl Hd) as [Z1 Z2].
        assert (E : c_step pM csz b1 s (GAnd i j) = c_step pM csz b2 s (GAnd i j)).
        { clear - Z1. cbn [c_step]. unfold cbit. destruct (Nat.eqb (length (c_errs s)) csz); cbn [c_flush c_bits c_cot]; now rewrite Z1. }
        rewrite E. apply (IH _ _ (S a)); [exact Hd|].
        replace (c_bits (c_step pM csz b2 s (GAnd i j))) with (S (c_bits s))
          by (cbn [c_step]; destruct (Nat.eqb (length (c_errs s)) csz); reflexivity).
        exact Z2.
      + destruct (Z _ _ eq_refl Hd) as [Z1 Z2].
        assert (E : c_step pM csz b1 s (GReveal i) = c_step pM csz b2 s (GReveal i)) by (cbn [c_step]; now rewrite Z1).
        rewrite E. apply (IH _ _ a); [exact Hd|exact Z2].
    - cbn [crun]. set (dl' := dl ++ defects (bcall_map (pwire (c_wires s)) c)).
      assert (L : length dl' = length dl + call_rels c) by (unfold dl'; rewrite app_length, defects_len; unfold call_rels; now destruct c).
      destruct (le_lt_dec (checks_done psz (length dl')) k) as [G|G].
      + apply (IH _ _ a); [exact G|]. rewrite L. exact H.
      + destruct (crun_ext b1 p s dl') as (t1 & E1). destruct (crun_ext b2 p s dl') as (t2 & E2). rewrite E1, E2. apply firstn_ext.
        assert (Q : ~ (length dl' <= S k * psz)) by (intros Q; apply done_iff in Q; lia). lia.
  Qed.
  Definition relerrs (b : nat -> bool) (prog : list bop) : list bool := committed_rels (c_wires (commit pM csz b (gates_of prog))) prog.
  Lemma relerrs_run b prog : wf_prog 0 prog = true -> relerrs b prog = snd (crun b c_init [] prog).
  Proof. intros W. now rewrite (crun_factor b prog c_init [] W). Qed.
  Lemma relerrs_len b prog : wf_prog 0 prog = true -> length (relerrs b prog) = count_rel prog.
  Proof. intros W. rewrite (relerrs_run _ _ W). apply crun_len. Qed.
  Lemma rel_play bit prog s r k : wf_prog 0 prog = true ->
    nth_error (chunks psz (relerrs (bplay csz psz prog bit s r) prog)) k =
    nth_error (chunks psz (relerrs (bplay csz psz prog bit s (firstn k r)) prog)) k.
  Proof.
    intros W. apply chunk_local; [exact Hp|now rewrite !relerrs_len|]. rewrite !(relerrs_run _ _ W).
    apply (rel_local _ _ k prog c_init [] 0); [cbn; lia|]. intros i _ Hi. cbn [c_init c_bits Nat.add length] in *.
    unfold bplay. now rewrite (firstn_firstn r), Nat.min_l.
  Qed.
  Hypothesis Hc : 1 <= csz.
  Lemma and_play bit prog s r k :
    nth_error (batches (commit pM csz (bplay csz psz prog bit s r) (gates_of prog))) k =
    nth_error (batches (commit pM csz (bplay csz psz prog bit (firstn k s) r) (gates_of prog))) k.
  Proof.
    apply (local_batch pM csz Hc). intros i _ Hi. unfold bplay. rewrite <- (seen_gates csz psz prog 0 0) in Hi.
    replace (nth i (map fst (bseen csz psz 0 0 prog)) 0) with (fst (nth i (bseen csz psz 0 0 prog) (0, 0))) in Hi
      by (symmetry; exact (map_nth fst (bseen csz psz 0 0 prog) (0, 0) i)).
    now rewrite (firstn_firstn s), Nat.min_l.
  Qed.
End Local.

Section G.
  Variables (r0 r1 : N) (pM : nat -> N) (ope : nat -> list N) (t csz psz : nat) (prog : list bop).
  Variables (D : Type) (Deqb : D -> D -> bool) (H : list N -> D).
  Variables (bit : list (list N) -> list N -> nat -> bool).
  Variables (reply preply : list (list N) -> list N -> nat -> N * N) (digest : list (list N) -> list N -> D).
  Variables (X Y deltas : list N).
  Hypothesis Ht : 1 <= t.
  Hypothesis Hc : 1 <= csz.
  Hypothesis Hp : 1 <= psz.
  Hypothesis Wf : wf_prog 0 prog = true.
  Hypothesis Hcov : all_covered t csz (count_and (gates_of prog)).
  Hypothesis NX : NoDup X.
  Hypothesis LX : Forall (fun x => (x < 2 ^ 128)%N) X.
  Hypothesis NY : NoDup Y.
  Hypothesis LY : Forall (fun x => (x < 2 ^ 128)%N) Y.
  Hypothesis Hd : forall a b : D, Deqb a b = true -> a = b.
  Hypothesis Nd : NoDup deltas.
  Hypothesis Vd : Forall valid_delta deltas.
  Hypothesis Hr : forall s r k, (fst (preply s r k) < 2 ^ 128)%N.
  Let n := count_and (gates_of prog).
  Let m := count_rel prog.
  Let Bm := num_checks csz n.
  Let Br := num_checks psz m.
  Let SS := tuples Bm (tuples t X).
  Let RR := tuples Br Y.
  Definition akth (s : list (list N)) (r : list N) : list bool :=
    nth (length s) (batches (commit pM csz (bplay csz psz prog bit s r) (gates_of prog))) [].
  Definition rkth (s : list (list N)) (r : list N) : list bool :=
    nth (length r) (chunks psz (relerrs pM csz (bplay csz psz prog bit s r) prog)) [].
  Definition abad (r : list N) (pre : list (list N)) (a : list N) : bool :=
    existsb id (akth pre r) &&
    match and_ranges t (length (akth pre r)) with
    | Some rs => N.eqb (combined_error rs (fun j => nth j a 0%N) (akth pre r)) 0
    | None => false
    end.
  Definition rbad (s : list (list N)) (pre : list N) (y : N) : bool :=
    existsb id (rkth s pre) && N.eqb (range_error y (rkth s pre)) 0.
  Lemma exists_true l : existsb id l = true <-> In true l.
  Proof. rewrite existsb_exists. split; [intros (b & Hb & E); unfold id in E; now subst|intros I; now exists true]. Qed.
  Lemma abad_count r pre : cnt (abad r pre) (tuples t X) <= bsize csz n (length pre) * length X ^ (t - 1).
  Proof.
    unfold abad. destruct (existsb id (akth pre r)) eqn:Ex; cbn [andb]; [|rewrite cnt_false; lia]. apply exists_true in Ex.
    assert (E : nth_error (batches (commit pM csz (bplay csz psz prog bit pre r) (gates_of prog))) (length pre) = Some (akth pre r)).
    { apply nth_some. fold (akth pre r). intros Z. rewrite Z in Ex. destruct Ex. }
    destruct (batch_size pM csz Hc _ _ _ _ E) as [K L].
    destruct (and_ranges t (length (akth pre r))) as [rs|] eqn:R; [|rewrite cnt_false; lia].
    assert (C : length (akth pre r) mod t < length (akth pre r) / t) by (rewrite L; now apply (bsize_covered pM csz Hc)).
    destruct (challenge_bound t (akth pre r) rs Ht R C Ex) as (k & Hk & B).
    apply (cnt_coordinate X t k); [exact Hk|]. intros l1 l2 H1 H2.
    fold n in L. rewrite <- L. apply (B (fun j => nth j (l1 ++ 0%N :: l2) 0%N)).
    - now apply NoDup_filter.
    - rewrite Forall_forall in LX |- *. intros x Hx. apply filter_In in Hx. now apply LX.
    - intros x Hx. apply filter_In in Hx. destruct Hx as [_ Hx]. apply N.eqb_eq in Hx.
      refine (eq_trans _ Hx). apply combined_ext. intros j. now rewrite (nth_mid l1 l2 x), H1.
  Qed.
  Lemma rbad_count s pre : cnt (rbad s pre) Y <= bsize psz m (length pre) * 1.
  Proof.
    unfold rbad. destruct (existsb id (rkth s pre)) eqn:Ex; cbn [andb]; [|rewrite cnt_false; lia]. apply exists_true in Ex.
    assert (E : nth_error (chunks psz (relerrs pM csz (bplay csz psz prog bit s pre) prog)) (length pre) = Some (rkth s pre)).
    { apply nth_some. fold (rkth s pre). intros Z. rewrite Z in Ex. destruct Ex. }
    destruct (chunk_size psz _ _ _ Hp E) as [K L]. rewrite (relerrs_len pM csz psz Hp _ _ Wf) in L. fold m in L.
    rewrite <- L, Nat.mul_1_r. apply (PropBool.C05_challenge_bound_one_thread _ Ex).
    - now apply NoDup_filter.
    - rewrite Forall_forall in LY |- *. intros x Hx. apply filter_In in Hx. now apply LY.
    - intros x Hx. apply filter_In in Hx. destruct Hx as [_ Hx]. now apply N.eqb_eq in Hx.
  Qed.

  Definition bcollides (s : list (list N)) (r : list N) : Prop :=
    exists d1 d2 v1 v2, In d1 deltas /\ In d2 deltas /\
      bgame r0 r1 pM ope t csz psz prog bit reply preply s r d1 = Some v1 /\
      bgame r0 r1 pM ope t csz psz prog bit reply preply s r d2 = Some v2 /\
      v_hash (bv_gates v1) <> v_hash (bv_gates v2) /\ H (v_hash (bv_gates v1)) = H (v_hash (bv_gates v2)).
  Let wins := bcheats r0 r1 pM ope t csz psz prog D Deqb H bit reply preply digest.

  Lemma b_sequence s r : In s SS -> In r RR ->
    bcollides s r \/ cnt (wins s r) deltas <= 2 + (b2n (hits (abad r) [] s) + b2n (hits (rbad s) [] r)) * length deltas.
  Proof.
    intros Is Ir. set (ds := filter (wins s r) deltas).
    assert (Q : cnt (wins s r) deltas = length ds) by reflexivity. rewrite Q.
    assert (W : length ds <= length deltas) by (exact (cnt_le (wins s r) deltas)).
    assert (Ls : length s = Bm) by (now apply tuples_in in Is).
    assert (Lr : length r = Br) by (now apply tuples_in in Ir).
    destruct (bsess_soundness r0 r1 pM ope t csz psz (seeds_of s) (fun k => nth k r 0%N) (bplay csz psz prog bit s r)
                (reply s r) (preply s r) D Deqb H (digest s r) prog ds Hd) as [B|[B|[B|B]]]; auto.
    - now apply NoDup_filter.
    - intros d Hin. apply filter_In in Hin. destruct Hin as [Hin Hwn]. rewrite Forall_forall in Vd. split; [now apply Vd|].
      unfold wins, bcheats, bgame, bcommitted in Hwn.
      destruct (bv_exec _ _ _ _ _ _ _ _ _ _ _ _ _ prog) as [v|]; [|discriminate]. exists v. split; [reflexivity|].
      apply andb_true_iff in Hwn. destruct Hwn as [W1 W2]. apply negb_true_iff in W1, W2. split; [exact W1|].
      apply andb_false_iff in W2. destruct W2 as [W2|W2]; [left|now right]. intros E. rewrite E in W2.
      destruct (list_eq_dec _ _ _) as [_|G]; [discriminate|now apply G].
    - right. lia.
    - right. destruct B as (k & errs & rs & E & T & R & Z).
      assert (Hh : hits (abad r) [] s = true).
      { destruct (batch_size pM csz Hc _ _ _ _ E) as [K L]. fold n in K. fold Bm in K.
        destruct (nth_error s k) as [a|] eqn:Ea; [|apply nth_error_None in Ea; lia].
        apply hits_nth. exists k, a. split; [exact Ea|]. cbn [app].
        assert (Kk : akth (firstn k s) r = errs).
        { unfold akth. rewrite firstn_length, Nat.min_l by lia. rewrite (and_play pM csz psz Hc) in E. now apply nth_error_nth. }
        unfold abad. rewrite Kk, R. apply andb_true_iff. split; [now apply exists_true|].
        apply N.eqb_eq. refine (eq_trans _ Z). apply combined_ext. intros j. unfold seeds_of. now rewrite (nth_error_nth _ _ _ Ea). }
      rewrite Hh. unfold b2n. lia.
    - right. destruct B as (k & errs & E & T & Z). fold (relerrs pM csz (bplay csz psz prog bit s r) prog) in E.
      assert (Hh : hits (rbad s) [] r = true).
      { destruct (chunk_size psz _ _ _ Hp E) as [K L]. rewrite (relerrs_len pM csz psz Hp _ _ Wf) in K. fold m in K. fold Br in K.
        destruct (nth_error r k) as [y|] eqn:Ea; [|apply nth_error_None in Ea; lia].
        apply hits_nth. exists k, y. split; [exact Ea|]. cbn [app].
        assert (Kk : rkth s (firstn k r) = errs).
        { unfold rkth. rewrite firstn_length, Nat.min_l by lia. rewrite (rel_play pM csz psz Hp _ _ _ _ _ Wf) in E. now apply nth_error_nth. }
        unfold rbad. rewrite Kk. apply andb_true_iff. split; [now apply exists_true|].
        apply N.eqb_eq. refine (eq_trans _ Z). now rewrite (nth_error_nth _ _ _ Ea). }
      rewrite Hh. unfold b2n. lia.
    - left. destruct B as (d1 & d2 & v1 & v2 & I1 & I2 & X1 & X2 & Xx). exists d1, d2, v1, v2.
      apply filter_In in I1, I2. unfold bgame. intuition.
  Qed.

  Lemma count_bcheats :
    (exists s r, In s SS /\ In r RR /\ bcollides s r) \/
    cnt (fun x => wins (fst (fst x)) (snd (fst x)) (snd x)) (list_prod (list_prod SS RR) deltas) <=
      2 * (length X ^ (t * Bm) * length Y ^ Br) +
      (n * length X ^ (t * Bm - 1) * length Y ^ Br + m * length X ^ (t * Bm) * length Y ^ (Br - 1)) * length deltas.
  Proof.
    destruct (exists_or_all (fun x => bcollides (fst x) (snd x)) (fun x => cnt (wins (fst x) (snd x)) deltas)
       (fun x => 2 + (b2n (hits (abad (snd x)) [] (fst x)) + b2n (hits (rbad (fst x)) [] (snd x))) * length deltas) (list_prod SS RR)) as [E|E].
    { intros [s r] I. apply in_prod_iff in I. now apply b_sequence. }
    { left. destruct E as ([s r] & I & C). apply in_prod_iff in I. exists s, r. tauto. }
    right. rewrite (cnt_prod (fun x => wins (fst x) (snd x))). eapply Nat.le_trans; [exact E|].
    rewrite sumf_plus, sumf_const, sumf_scale, sumf_plus, prod_length.
    assert (P1 : length SS = length X ^ (t * Bm)) by (unfold SS; rewrite !tuples_len; now rewrite Nat.pow_mul_r).
    assert (P2 : length RR = length Y ^ Br) by (unfold RR; now rewrite tuples_len).
    rewrite P1, P2. apply Nat.add_le_mono; [lia|]. apply Nat.mul_le_mono_r. apply Nat.add_le_mono.
    - transitivity (cnt (fun x => hits (abad (snd x)) [] (fst x)) (list_prod SS RR)); [rewrite cnt_sum; apply Nat.le_refl|].
      rewrite (cnt_prod (fun s r => hits (abad r) [] s)). transitivity (sumf (fun r => cnt (hits (abad r) []) SS) RR).
      { apply Nat.eq_le_incl. transitivity (sumf (fun s => sumf (fun r => if hits (abad r) [] s then 1 else 0) RR) SS).
        - apply sumf_ext_in. intros s _. now rewrite cnt_sum.
        - rewrite sumf_swap. apply sumf_ext_in. intros r _. now rewrite cnt_sum. }
      transitivity (sumf (fun _ : list N => n * length X ^ (t * Bm - 1)) RR); [|rewrite sumf_const, P2; lia].
      apply sumf_le. intros r _.
      pose proof (cnt_hits (tuples t X) (length X ^ (t - 1)) Bm (abad r) (bsize csz n) []) as K. cbn [length Nat.add] in K.
      eapply Nat.le_trans; [apply K; intros p _ _; apply abad_count|].
      unfold Bm at 1. rewrite (sizes_sum pM csz Hc), tuples_len.
      destruct (Nat.eq_dec n 0) as [Z|Z]; [rewrite Z; apply Nat.le_0_l|].
      assert (HB : forall m, m <> 0 -> 1 <= num_checks csz m) by (clear; intros [|m] Q; cbn [num_checks]; [now destruct Q|apply le_n_S, Nat.le_0_l]).
      apply HB in Z. fold Bm in Z. rewrite <- !Nat.mul_assoc. apply Nat.mul_le_mono_l.
      rewrite <- Nat.pow_mul_r, <- Nat.pow_add_r. rewrite (exponent t Bm Ht Z). apply Nat.le_refl.
    - transitivity (cnt (fun x => hits (rbad (fst x)) [] (snd x)) (list_prod SS RR)); [rewrite cnt_sum; apply Nat.le_refl|].
      rewrite (cnt_prod (fun s r => hits (rbad s) [] r)).
      transitivity (sumf (fun _ : list (list N) => m * length Y ^ (Br - 1)) SS); [|rewrite sumf_const, P1; lia].
      apply sumf_le. intros s _.
      pose proof (cnt_hits Y 1 Br (rbad s) (bsize psz m) []) as K. cbn [length Nat.add] in K.
      eapply Nat.le_trans; [apply K; intros p _ _; apply rbad_count|].
      unfold Br at 1. rewrite (sizes_sum pM psz Hp). lia.
  Qed.
End G.
