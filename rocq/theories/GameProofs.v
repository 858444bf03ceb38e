(** Which bits a batch of AND gates depends on, and the count of cheating executions of the boolean engine. *)
From Coq Require Import NArith List Bool Arith Lia.
From Verif Require Import BoolModel BoolSpec BoolThms BoolThms2 GameSpec CountAlg.
Import ListNotations.

Lemma div_succ a csz : 1 <= csz -> S a / csz = if Nat.eqb (S (a mod csz)) csz then S (a / csz) else a / csz.
Proof.
  intros H. pose proof (Nat.div_mod a csz ltac:(lia)) as E. pose proof (Nat.mod_upper_bound a csz ltac:(lia)) as U.
  destruct (Nat.eqb_spec (S (a mod csz)) csz) as [C|C].
  - symmetry. apply (Nat.div_unique (S a) csz (S (a / csz)) 0); [lia|]. rewrite Nat.mul_succ_r. lia.
  - symmetry. apply (Nat.div_unique (S a) csz (a / csz) (S (a mod csz))); [lia|]. lia.
Qed.
Lemma mod_succ a csz : 1 <= csz -> S a mod csz = if Nat.eqb (S (a mod csz)) csz then 0 else S (a mod csz).
Proof.
  intros H. pose proof (Nat.div_mod a csz ltac:(lia)) as E. pose proof (Nat.mod_upper_bound a csz ltac:(lia)) as U.
  destruct (Nat.eqb_spec (S (a mod csz)) csz) as [C|C].
  - symmetry. apply (Nat.mod_unique (S a) csz (S (a / csz)) 0); [lia|]. rewrite Nat.mul_succ_r. lia.
  - symmetry. apply (Nat.mod_unique (S a) csz (a / csz) (S (a mod csz))); [lia|]. lia.
Qed.

Lemma exponent t B : 1 <= t -> 1 <= B -> t - 1 + t * (B - 1) = t * B - 1.
Proof. intros Ht HB. destruct B as [|B]; [lia|]. rewrite Nat.mul_succ_r. replace (S B - 1) with B by lia. generalize (t * B). intros; lia. Qed.

Section Local.
  Variables (pM : nat -> N) (csz : nat).
  Hypothesis Hc : 1 <= csz.
  Definition at_gate (s : cst) (a : nat) : Prop :=
    length (c_done s) = checks_done csz a /\ length (c_errs s) = last_batch csz a.
  Lemma done_grows b c : forall s, exists tl, c_done (fold_left (c_step pM csz b) c s) = c_done s ++ tl.
  Proof.
    induction c as [|g c IH]; intros s; cbn [fold_left]; [exists []; now rewrite app_nil_r|].
    destruct (IH (c_step pM csz b s g)) as [tl E]. rewrite E.
    destruct g; cbn [c_step c_add c_done]; try (now exists tl).
    destruct (Nat.eqb (length (c_errs s)) csz); cbn [c_flush c_done]; [|now exists tl].
    exists ([c_errs s] ++ tl). now rewrite app_assoc.
  Qed.
  Lemma last_lt a : last_batch csz a <= csz.
  Proof. destruct a; cbn [last_batch]; [lia|]. pose proof (Nat.mod_upper_bound a csz ltac:(lia)). lia. Qed.
  Lemma at_gate_and b s a i j : at_gate s a ->
    at_gate (c_step pM csz b s (GAnd i j)) (S a) /\
    c_done (c_step pM csz b s (GAnd i j)) =
      c_done s ++ (if Nat.eqb (checks_done csz (S a)) (checks_done csz a) then [] else [c_errs s]) /\
    checks_done csz (S a) <= S (checks_done csz a).
  Proof.
    intros [D E]. unfold at_gate. cbn [c_step].
    assert (X : (Nat.eqb (length (c_errs s)) csz = true /\ checks_done csz (S a) = S (checks_done csz a) /\ last_batch csz (S a) = 1) \/
                (Nat.eqb (length (c_errs s)) csz = false /\ checks_done csz (S a) = checks_done csz a /\ last_batch csz (S a) = S (last_batch csz a))).
    { rewrite E. destruct a as [|a]; cbn [checks_done last_batch].
      - right. rewrite Nat.div_0_l, Nat.mod_0_l by lia. repeat split. apply Nat.eqb_neq. lia.
      - rewrite (div_succ a), (mod_succ a) by lia. destruct (Nat.eqb (S (a mod csz)) csz); [left|right]; repeat split. }
    destruct X as [(B & Q & L)|(B & Q & L)]; rewrite B, Q, L; cbn [c_flush c_done c_errs].
    - rewrite !app_length, D. cbn [length].
      replace (Nat.eqb (S (checks_done csz a)) (checks_done csz a)) with false by (symmetry; apply Nat.eqb_neq; lia).
      repeat split; lia.
    - rewrite Nat.eqb_refl, !app_length, app_nil_r, D, E. cbn [length]. repeat split; lia.
  Qed.
  Lemma at_gate_init : at_gate c_init 0.
  Proof. now split. Qed.

  Lemma local_run (b1 b2 : nat -> bool) k c : forall s a, at_gate s a -> checks_done csz a <= k ->
    (forall i, i < length (seen csz a c) -> nth i (seen csz a c) 0 <= k -> b1 (c_bits s + i) = b2 (c_bits s + i)) ->
    nth_error (batches (fold_left (c_step pM csz b1) c s)) k = nth_error (batches (fold_left (c_step pM csz b2) c s)) k.
  Proof.
    induction c as [|g c IH]; intros s a G Ha H; [reflexivity|]. cbn [fold_left].
    assert (Z : forall n l, nth 0 (n :: l) 0 <= k -> seen csz a (g :: c) = n :: l -> b1 (c_bits s) = b2 (c_bits s)).
    { intros n l Hn E. specialize (H 0). rewrite E, Nat.add_0_r in H. apply H; [cbn; lia|exact Hn]. }
    destruct g as [x|v|i j|i|i j|i].
    - assert (E : c_step pM csz b1 s (GIn x) = c_step pM csz b2 s (GIn x)).
      { cbn [c_step]. unfold cbit. now rewrite (Z (checks_done csz a) (seen csz a c)). }
      rewrite E. apply (IH _ a); [exact G|exact Ha|]. intros m Hm Hl. cbn [c_step c_bits]. rewrite Nat.add_succ_l, <- Nat.add_succ_r.
      apply H; cbn [seen length nth]; [lia|exact Hl].
    - apply (IH _ a); [exact G|exact Ha|exact H].
    - apply (IH _ a); [exact G|exact Ha|exact H].
    - apply (IH _ a); [exact G|exact Ha|exact H].
    - destruct (at_gate_and b1 s a i j G) as (G1 & D1 & S1). destruct (at_gate_and b2 s a i j G) as (G2 & D2 & _).
      destruct (le_lt_dec (checks_done csz (S a)) k) as [L|L].
      + assert (E : c_step pM csz b1 s (GAnd i j) = c_step pM csz b2 s (GAnd i j)).
        { assert (Q : b1 (c_bits s) = b2 (c_bits s)) by (apply (Z (checks_done csz (S a)) (seen csz (S a) c)); [exact L|reflexivity]).
          clear - Q. cbn [c_step]. unfold cbit. destruct (Nat.eqb (length (c_errs s)) csz); cbn [c_flush c_bits c_cot]; now rewrite Q. }
        rewrite E. apply (IH _ (S a)); [exact G2|exact L|]. intros m Hm Hl.
        replace (c_bits (c_step pM csz b2 s (GAnd i j))) with (S (c_bits s))
          by (cbn [c_step]; destruct (Nat.eqb (length (c_errs s)) csz); reflexivity).
        rewrite Nat.add_succ_l, <- Nat.add_succ_r. apply H; cbn [seen length nth]; [lia|exact Hl].
      + assert (K : checks_done csz a = k) by lia.
        replace (Nat.eqb (checks_done csz (S a)) (checks_done csz a)) with false in D1, D2 by (symmetry; apply Nat.eqb_neq; lia).
        destruct G as [GD _]. unfold batches.
        destruct (done_grows b1 c (c_step pM csz b1 s (GAnd i j))) as [t1 T1].
        destruct (done_grows b2 c (c_step pM csz b2 s (GAnd i j))) as [t2 T2].
        rewrite T1, T2, D1, D2, <- !app_assoc, !(nth_error_app2 (c_done s)) by lia. rewrite GD, K, Nat.sub_diag. reflexivity.
    - assert (E : c_step pM csz b1 s (GReveal i) = c_step pM csz b2 s (GReveal i)).
      { cbn [c_step]. now rewrite (Z (checks_done csz a) (seen csz a c)). }
      rewrite E. apply (IH _ a); [exact G|exact Ha|]. intros m Hm Hl. cbn [c_step c_bits]. rewrite Nat.add_succ_l, <- Nat.add_succ_r.
      apply H; cbn [seen length nth]; [lia|exact Hl].
  Qed.
  Lemma local_batch (b1 b2 : nat -> bool) k c :
    (forall i, i < length (seen csz 0 c) -> nth i (seen csz 0 c) 0 <= k -> b1 i = b2 i) ->
    nth_error (batches (commit pM csz b1 c)) k = nth_error (batches (commit pM csz b2 c)) k.
  Proof. intros H. apply (local_run b1 b2 k c c_init 0); [exact at_gate_init|cbn; lia|exact H]. Qed.
  Lemma play_local (Ch : Type) (bit : list Ch -> nat -> bool) c s k :
    nth_error (batches (commit pM csz (play_bits csz c bit s) c)) k =
    nth_error (batches (commit pM csz (play_bits csz c bit (firstn k s)) c)) k.
  Proof. apply local_batch. intros i _ Hi. unfold play_bits. now rewrite firstn_firstn, Nat.min_l. Qed.

  (** sizes of the batches *)
  Definition bsize (n k : nat) : nat := if Nat.ltb k (checks_done csz n) then csz else last_batch csz n.
  Lemma sizes_run b c : forall s a, at_gate s a -> Forall (fun e => length e = csz) (c_done s) ->
    at_gate (fold_left (c_step pM csz b) c s) (a + count_and c) /\
    Forall (fun e => length e = csz) (c_done (fold_left (c_step pM csz b) c s)).
  Proof.
    induction c as [|g c IH]; intros s a G F; cbn [fold_left count_and]; [now rewrite Nat.add_0_r|].
    destruct g as [x|v|i j|i|i j|i]; try (apply IH; [exact G|exact F]).
    destruct (at_gate_and b s a i j G) as (G1 & D1 & S1). rewrite <- Nat.add_succ_comm. apply IH; [exact G1|]. rewrite D1.
    apply Forall_app. split; [exact F|]. destruct (Nat.eqb_spec (checks_done csz (S a)) (checks_done csz a)) as [|Q]; [constructor|].
    constructor; [|constructor]. destruct G as [_ E]. rewrite E. destruct a as [|a]; cbn [checks_done last_batch] in *.
    - rewrite Nat.div_0_l in Q by lia. lia.
    - rewrite div_succ in Q by lia. destruct (Nat.eqb_spec (S (a mod csz)) csz); lia.
  Qed.
  Lemma batch_size b c k errs : nth_error (batches (commit pM csz b c)) k = Some errs ->
    k < num_checks csz (count_and c) /\ length errs = bsize (count_and c) k.
  Proof.
    unfold commit. destruct (sizes_run b c c_init 0 at_gate_init (Forall_nil _)) as [[D E] F]. cbn [Nat.add] in D, E.
    set (s := fold_left (c_step pM csz b) c c_init) in *. unfold batches, bsize. intros H.
    assert (Q : num_checks csz (count_and c) = match count_and c with 0 => 0 | _ => S (checks_done csz (count_and c)) end)
      by (destruct (count_and c); reflexivity).
    destruct (Nat.ltb_spec k (checks_done csz (count_and c))) as [L|L].
    - rewrite nth_error_app1 in H by lia. apply nth_error_In in H. rewrite Forall_forall in F. rewrite (F _ H). split; [|reflexivity].
      rewrite Q. destruct (count_and c); [cbn in L; lia|lia].
    - rewrite nth_error_app2 in H by lia. destruct (c_errs s) as [|e0 es] eqn:Ee; [destruct (k - length (c_done s)); discriminate|].
      destruct (k - length (c_done s)) as [|m] eqn:Em; [|destruct m; discriminate]. injection H as <-. rewrite <- E. split; [|reflexivity].
      rewrite Q. destruct (count_and c); [cbn in E; discriminate|]. lia.
  Qed.
  Lemma sum_const_seq (f : nat -> nat) v m : forall a, (forall k, a <= k < a + m -> f k = v) -> sumf f (seq a m) = m * v.
  Proof. induction m as [|m IH]; intros a H; cbn [seq sumf]; [easy|]. rewrite IH by (intros; apply H; lia). rewrite H by lia. lia. Qed.
  Lemma sumf_app (f : nat -> nat) l m : sumf f (l ++ m) = sumf f l + sumf f m.
  Proof. induction l as [|x l IH]; cbn [sumf app]; [easy|]. rewrite IH. lia. Qed.
  Lemma sizes_sum n : sumf (bsize n) (seq 0 (num_checks csz n)) = n.
  Proof.
    destruct n as [|n]; [reflexivity|]. cbn [num_checks]. rewrite seq_S, sumf_app. cbn [sumf].
    rewrite (sum_const_seq _ csz (n / csz) 0).
    - unfold bsize. cbn [checks_done last_batch]. rewrite Nat.ltb_irrefl.
      pose proof (Nat.div_mod n csz ltac:(lia)). lia.
    - intros k Hk. unfold bsize. cbn [checks_done]. destruct (Nat.ltb_spec k (n / csz)); [reflexivity|lia].
  Qed.
  Lemma bsize_covered t n k : all_covered t csz n -> k < num_checks csz n -> bsize n k mod t < bsize n k / t.
  Proof.
    intros [A B] Hk. unfold bsize. destruct n as [|n]; cbn [num_checks] in Hk; [lia|]. cbn [checks_done].
    destruct (Nat.ltb_spec k (n / csz)) as [L|L]; [|apply B; lia]. apply A.
    pose proof (Nat.div_mod n csz ltac:(lia)). assert (1 <= n / csz) by lia. nia.
  Qed.
End Local.

Lemma combined_ext rs f g errs : (forall j, f j = g j) -> combined_error rs f errs = combined_error rs g errs.
Proof. intros H. unfold combined_error. f_equal. apply map_ext. intros ir. now rewrite H. Qed.
Lemma nth_mid {A} (l1 l2 : list A) x d j : nth j (l1 ++ x :: l2) d = if Nat.eqb j (length l1) then x else nth j (l1 ++ d :: l2) d.
Proof.
  destruct (Nat.eqb_spec j (length l1)) as [->|Hj]; [now rewrite app_nth2, Nat.sub_diag by lia|].
  destruct (le_lt_dec (length l1) j) as [L|L]; [|now rewrite !app_nth1 by lia].
  rewrite !app_nth2 by lia. destruct (j - length l1) as [|m] eqn:E; [lia|reflexivity].
Qed.
Lemma exists_or_all {A} (Q : A -> Prop) (f g : A -> nat) (l : list A) :
  (forall x, In x l -> Q x \/ f x <= g x) -> (exists x, In x l /\ Q x) \/ sumf f l <= sumf g l.
Proof.
  induction l as [|x l IH]; intros H; [right; cbn; lia|]. destruct (H x (or_introl eq_refl)) as [Hx|Hx].
  - left. exists x. split; [now left|exact Hx].
  - destruct IH as [(y & Hy & Qy)|IH]; [intros; apply H; now right|left; exists y; split; [now right|exact Qy]|].
    right. cbn [sumf]. lia.
Qed.
