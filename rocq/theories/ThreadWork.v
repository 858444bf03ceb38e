(** The check tasks: footprints, lengths, results of one task, and their combination. *)
From Coq Require Import NArith List Bool Arith Lia.
From Verif Require Import Word FpModel GF128 BoolModel BoolSpec BoolThms ArithModel F2kModel ThreadModel ThreadSpec ThreadProofs.
Import ListNotations.

(** * Lists *)
Lemma F2_map {A B C} (P : B -> C -> Prop) (f : A -> B) (g : A -> C) l : (forall x, In x l -> P (f x) (g x)) -> Forall2 P (map f l) (map g l).
Proof. induction l as [|x l IH]; intro H; cbn; constructor; [apply H; now left|]. apply IH. intros; apply H; now right. Qed.
Lemma nth_error_tag {A} (rs : list A) : forall a i, nth_error (combine (seq a (length rs)) rs) i = option_map (fun r => (a + i, r)) (nth_error rs i).
Proof.
  induction rs as [|r rs IH]; intros a [|i]; cbn; auto; [now rewrite Nat.add_0_r|].
  rewrite IH. destruct (nth_error rs i); cbn; auto. do 2 f_equal. lia.
Qed.
Lemma in_tag {A} (rs : list A) x : In x (combine (seq 0 (length rs)) rs) -> nth_error rs (fst x) = Some (snd x).
Proof.
  intro H. apply In_nth_error in H. destruct H as [i H]. rewrite nth_error_tag in H. destruct (nth_error rs i) eqn:E; [|discriminate].
  cbn in H. injection H as <-. exact E.
Qed.
Lemma fold_tag {A B} (F : A -> nat -> A) (G : A -> nat * B -> A) rs : forall a acc,
  (forall acc i r, nth_error rs i = Some r -> F acc (a + i) = G acc (a + i, r)) ->
  fold_left F (seq a (length rs)) acc = fold_left G (combine (seq a (length rs)) rs) acc.
Proof.
  induction rs as [|r rs IH]; intros a acc H; cbn [length seq combine fold_left]; [reflexivity|].
  pose proof (H acc 0 r eq_refl) as H0. rewrite Nat.add_0_r in H0. rewrite H0. apply IH.
  intros acc' i r' E. specialize (H acc' (S i) r' E). now replace (S a + i) with (a + S i) by lia.
Qed.
Lemma segment_map {A B} (f : A -> B) s n l : map f (segment s n l) = segment s n (map f l).
Proof. unfold segment. now rewrite <- firstn_map, <- skipn_map. Qed.
Lemma skipn_nth {A} (l : list A) : forall s x, nth_error l s = Some x -> skipn s l = x :: skipn (S s) l.
Proof. induction l as [|y l IH]; intros [|s] x H; cbn in *; try discriminate; [congruence|]. now apply IH. Qed.
Lemma segment_seq {A} (f : nat -> A) (l : list A) s n : s + n <= length l -> (forall i x, nth_error l i = Some x -> f i = x) ->
  segment s n l = map f (seq s n).
Proof.
  revert s l. induction n as [|n IH]; intros s l L H; [reflexivity|]. cbn [seq map].
  destruct (nth_error l s) as [x|] eqn:E; [|apply nth_error_None in E; lia].
  rewrite (H s x E). rewrite <- (IH (S s) l) by (auto; lia). unfold segment.
  now rewrite (skipn_nth l s x E).
Qed.

(** * Ranges *)
Definition rs_disjoint (rs : list (nat * nat)) : Prop := forall a b s n s' n' i,
  nth_error rs a = Some (s, n) -> nth_error rs b = Some (s', n') -> s <= i < s + n -> s' <= i < s' + n' -> a = b.
Lemma split_disjoint t q q' : rs_disjoint (map (fun i => (i * q, q)) (seq 0 t) ++ [(t * q, q')]).
Proof.
  assert (N : forall a s n, nth_error (map (fun i => (i * q, q)) (seq 0 t) ++ [(t * q, q')]) a = Some (s, n) ->
            s = a * q /\ (a < t /\ n = q \/ a = t /\ n = q')).
  { intros a s n H. destruct (Nat.lt_ge_cases a t) as [L|L].
    - rewrite nth_error_app1 in H by (now rewrite map_length, seq_length).
      rewrite nth_error_map, (nth_error_nth' (seq 0 t) (n := a) 0) in H by (rewrite seq_length; lia). rewrite seq_nth in H by lia.
      cbn [Nat.add option_map] in H. injection H as <- <-. auto.
    - rewrite nth_error_app2 in H by (now rewrite map_length, seq_length). rewrite map_length, seq_length in H.
      destruct (a - t) as [|z] eqn:E; cbn in H; [|destruct z; discriminate]. injection H as <- <-. assert (a = t) by lia. subst. auto. }
  intros a b s n s' n' i Ha Hb Hi Hi'. apply N in Ha, Hb. destruct Ha as [-> Ha], Hb as [-> Hb].
  destruct (Nat.lt_trichotomy a b) as [L|[L|L]]; auto; exfalso.
  - assert (a < t /\ n = q) as [_ ->] by lia. assert (S a * q <= b * q) by (apply Nat.mul_le_mono_r; lia). lia.
  - assert (b < t /\ n' = q) as [_ ->] by lia. assert (S b * q <= a * q) by (apply Nat.mul_le_mono_r; lia). lia.
Qed.

(** * Footprints of the check tasks *)
Definition buffer (a : arr) : Prop := match a with Left | Right | Out | LVal | LMac | RVal | RMac | OMac => True | _ => False end.
Definition two (t i : nat) : Prop := i = 2 * t \/ i = 2 * t + 1.
Definition one (t i : nat) : Prop := i = t.
Definition reg (sm : nat -> nat -> Prop) (thr s n : nat) : fpr :=
  (fun l => l = (Seed, thr) \/ (buffer (fst l) /\ s <= snd l < s + n),
   fun l => (buffer (fst l) /\ s <= snd l < s + n) \/ (fst l = Sum /\ sm thr (snd l))).
Definition regs (sm : nat -> nat -> Prop) (rs : list (nat * nat)) : list fpr :=
  map (fun ir => reg sm (fst ir) (fst (snd ir)) (snd (snd ir))) (combine (seq 0 (length rs)) rs).
Lemma regs_nth sm rs i : nth_error (regs sm rs) i = option_map (fun r => reg sm i (fst r) (snd r)) (nth_error rs i).
Proof. unfold regs. rewrite nth_error_map, nth_error_tag. destruct (nth_error rs i); reflexivity. Qed.
Lemma tasks_nth task rs i : nth_error (tasks task rs) i = option_map (fun r => task i (fst r) (snd r)) (nth_error rs i).
Proof. unfold tasks. rewrite nth_error_map, nth_error_tag. destruct (nth_error rs i); reflexivity. Qed.
Lemma regs_separate (sm : nat -> nat -> Prop) rs : (forall a b i, sm a i -> sm b i -> a = b) -> rs_disjoint rs -> separate (regs sm rs).
Proof.
  intros Hs D i j f g N Ef Eg l Hl. rewrite regs_nth in Ef, Eg.
  destruct (nth_error rs i) as [[s n]|] eqn:Ei; [|discriminate]. destruct (nth_error rs j) as [[s' n']|] eqn:Ej; [|discriminate].
  cbn [option_map fst snd] in Ef, Eg. injection Ef as <-. injection Eg as <-. destruct l as [a x]. cbn [reg fst snd] in *.
  destruct Hl as [[Hb Hx]|[-> Hx]].
  - split.
    + intros [E|[_ Hx']]; [injection E as -> ->; exact Hb|]. apply N. eapply D; eauto.
    + intros [[_ Hx']|[-> _]]; [|exact Hb]. apply N. eapply D; eauto.
  - split; [intros [E|[Hb _]]; [discriminate|exact Hb]|]. intros [[Hb _]|[_ Hx']]; [exact Hb|]. apply N. eapply Hs; eauto.
Qed.
Lemma two_inj a b i : two a i -> two b i -> a = b. Proof. unfold two. lia. Qed.
Lemma one_inj a b i : one a i -> one b i -> a = b. Proof. unfold one. lia. Qed.

(** * Sub-programs *)
Lemma within_list (R W : loc -> Prop) ls : forall k, (forall l, In l ls -> R l) -> (forall vs, length vs = length ls -> within R W (k vs)) -> within R W (read_list ls k).
Proof.
  induction ls as [|l ls IH]; intros k H Hk; cbn [read_list within]; [now apply Hk|]. split; [apply H; now left|].
  intro v. apply IH; [intros; apply H; now right|]. intros vs L. apply Hk. cbn. now rewrite L.
Qed.
Lemma accesses_list n ls : forall k, (forall vs, length vs = length ls -> accesses n (k vs)) -> accesses (length ls + n) (read_list ls k).
Proof.
  induction ls as [|l ls IH]; intros k H; cbn [read_list length Nat.add accesses]; [now apply H|]. intro v. apply IH.
  intros vs L. apply H. cbn. now rewrite L.
Qed.
Lemma run_list ls : forall m k, run m (read_list ls k) = run m (k (map m ls)).
Proof. induction ls as [|l ls IH]; intros m k; cbn [read_list run map]; [reflexivity|]. now rewrite IH. Qed.
Lemma run_range a s n m k : run m (read_range a s n k) = run m (k (map (fun i => m (a, i)) (seq s n))).
Proof. unfold read_range. now rewrite run_list, map_map. Qed.
Lemma within_range (R W : loc -> Prop) a s n k : (forall i, s <= i < s + n -> R (a, i)) -> (forall vs, within R W (k vs)) -> within R W (read_range a s n k).
Proof. intros H Hk. apply within_list; auto. intros l Hl. apply in_map_iff in Hl. destruct Hl as [i [<- Hi]]. apply in_seq in Hi. now apply H. Qed.
Lemma accesses_range n' a s n k : (forall vs, accesses n' (k vs)) -> accesses (n + n') (read_range a s n k).
Proof. intro H. unfold read_range. pose proof (accesses_list n' (map (fun i => (a, i)) (seq s n)) k (fun vs _ => H vs)) as X. now rewrite map_length, seq_length in X. Qed.

(** boolean, prover *)
Lemma within_bp (R W : loc -> Prop) i n : forall k, (forall a j, buffer a -> i <= j < i + n -> R (a, j) /\ W (a, j)) -> within R W k -> within R W (bp_gates i n k).
Proof.
  revert i. induction n as [|n IH]; intros i k H Hk; cbn [bp_gates]; [exact Hk|]. cbn [within].
  assert (B : forall a, buffer a -> R (a, i) /\ W (a, i)) by (intros; apply H; auto; lia).
  repeat (split; [apply B; exact I|intro]). split; [apply B; exact I|]. split; [apply B; exact I|].
  apply IH; auto. intros; apply H; auto; lia.
Qed.
Lemma accesses_bp n' n : forall i k, accesses n' k -> accesses (9 * n + n') (bp_gates i n k).
Proof.
  induction n as [|n IH]; intros i k H; cbn [bp_gates]; [exact H|]. replace (9 * S n + n') with (9 + (9 * n + n')) by lia.
  cbn [Nat.add accesses]. intros. now apply IH.
Qed.
Definition prv_A (m : smem) (i : nat) : N * N := prv_terms (m (Left, i), m (Right, i), m (Out, i)).
Lemma run_bp n : forall i m k, exists m1, run m (bp_gates i n k) = run m1 k /\
  (forall j, m1 (Left, j) = if Nat.leb i j && Nat.ltb j (i + n) then fst (prv_A m j) else m (Left, j)) /\
  (forall j, m1 (Right, j) = if Nat.leb i j && Nat.ltb j (i + n) then snd (prv_A m j) else m (Right, j)) /\
  (forall a j, a <> Left -> a <> Right -> m1 (a, j) = m (a, j)).
Proof.
  induction n as [|n IH]; intros i m k.
  - exists m. split; [reflexivity|]. assert (Z : forall j, Nat.leb i j && Nat.ltb j (i + 0) = false).
    { intro j. destruct (Nat.leb_spec i j), (Nat.ltb_spec j (i + 0)); cbn; auto; lia. }
    split; [intro j; now rewrite Z|]. split; [intro j; now rewrite Z|auto].
  - cbn [bp_gates run]. set (m0 := put (put m (Left, i) _) (Right, i) _).
    destruct (IH (S i) m0 k) as (m1 & E & HL & HR & HO). exists m1. split; [exact E|].
    assert (P : forall a j, (a = Left \/ a = Right -> j <> i) -> m0 (a, j) = m (a, j)).
    { intros a j Hj. unfold m0. rewrite !put_other; auto; intro Q; injection Q as -> ->; now apply Hj; auto. }
    assert (PL : m0 (Left, i) = fst (prv_A m i)) by (unfold m0; rewrite put_other by discriminate; rewrite put_same; reflexivity).
    assert (PR : m0 (Right, i) = snd (prv_A m i)) by (unfold m0; rewrite put_same; reflexivity).
    assert (PA : forall j, j <> i -> prv_A m0 j = prv_A m j) by (intros j Hj; unfold prv_A; rewrite !P; auto).
    split; [|split].
    + intro j. rewrite HL. destruct (Nat.leb_spec (S i) j), (Nat.ltb_spec j (S i + n)), (Nat.leb_spec i j), (Nat.ltb_spec j (i + S n)); cbn [andb]; try lia;
        rewrite ?PA by lia; try reflexivity; try (apply P; intros _; lia). replace j with i by lia. exact PL.
    + intro j. rewrite HR. destruct (Nat.leb_spec (S i) j), (Nat.ltb_spec j (S i + n)), (Nat.leb_spec i j), (Nat.ltb_spec j (i + S n)); cbn [andb]; try lia;
        rewrite ?PA by lia; try reflexivity; try (apply P; intros _; lia). replace j with i by lia. exact PR.
    + intros a j N1 N2. rewrite HO by assumption. apply P. intros [|]; contradiction.
Qed.
Lemma in_rng i n j : In j (seq i n) -> Nat.leb i j && Nat.ltb j (i + n) = true.
Proof. intro H. apply in_seq in H. destruct (Nat.leb_spec i j), (Nat.ltb_spec j (i + n)); cbn; auto; lia. Qed.
Lemma bp_fits thr s n : fits (reg two thr s n) (bp_task thr s n).
Proof.
  unfold fits, bp_task. cbn [within]. split; [cbn; now left|]. intro sd. destruct (Nat.eqb n 0); [exact I|].
  apply within_bp. { intros a j Ha Hj. cbn. auto. }
  cbv zeta. apply within_range; [intros; cbn; auto|]. intro vs. cbn [within]. split; [cbn; unfold two; auto|].
  apply within_range; [intros; cbn; auto|]. intro vs'. cbn [within]. split; [cbn; unfold two; auto|exact I].
Qed.
Lemma bp_accesses thr s n : accesses (1 + if Nat.eqb n 0 then 0 else 9 * n + (n + (1 + (n + 1)))) (bp_task thr s n).
Proof.
  unfold bp_task. cbn [Nat.add accesses]. intro sd. destruct (Nat.eqb n 0); [reflexivity|]. apply accesses_bp. cbv zeta.
  apply accesses_range. intro. cbn [Nat.add accesses]. apply accesses_range. intro. reflexivity.
Qed.
Lemma bp_run m thr s n : n <> 0 ->
  let seg := map (prv_A m) (seq s n) in let chi := gf_coeff_gen (m (Seed, thr)) n in
  run m (bp_task thr s n) (Sum, 2 * thr) = gf_inn_prdt chi (map fst seg) /\
  run m (bp_task thr s n) (Sum, 2 * thr + 1) = gf_inn_prdt chi (map snd seg).
Proof.
  intros N seg chi. unfold bp_task. cbn [run]. destruct (Nat.eqb_spec n 0); [contradiction|].
  match goal with |- context [bp_gates s n ?k] => destruct (run_bp n s m k) as (m1 & E & HL & HR & HO) end.
  rewrite E. cbv zeta. rewrite run_range. cbn [run]. rewrite run_range. cbn [run]. split.
  - rewrite put_other by (intro Q; injection Q; lia). rewrite put_same. unfold chi, seg. f_equal. rewrite map_map. apply map_ext_in.
    intros j Hj. rewrite HL, in_rng by exact Hj. reflexivity.
  - rewrite put_same. unfold chi, seg. f_equal. rewrite map_map. apply map_ext_in.
    intros j Hj. rewrite put_other by discriminate. rewrite HR, in_rng by exact Hj. reflexivity.
Qed.
