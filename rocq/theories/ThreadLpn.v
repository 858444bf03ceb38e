(** The tasks of the two linear expansions under every schedule. *)
From Coq Require Import NArith List Bool Arith Lia.
From Verif Require Import Word FpModel GF128 BoolModel TreeModel VoleModel VoleF2kModel ThreadModel ThreadSpec ThreadProofs ThreadWork.
Import ListNotations.

Definition lreg (s e : nat) : fpr :=
  (fun l => match fst l with Tab | Tab2 => True | Vec | Vec2 => s <= snd l < e | _ => False end,
   fun l => match fst l with Vec | Vec2 => s <= snd l < e | _ => False end).
Definition lregs (rs : list (nat * nat)) : list fpr := map (fun r => lreg (fst r) (snd r)) rs.
Lemma lpn_ranges_disjoint n t : forall a b s e s' e' i, nth_error (lpn_ranges n t) a = Some (s, e) -> nth_error (lpn_ranges n t) b = Some (s', e') ->
  s <= i < e -> s' <= i < e' -> a = b.
Proof.
  unfold lpn_ranges. set (w := n / (t + 1)).
  assert (X : forall a s e, nth_error (map (fun i => (i * w, Nat.min ((i + 1) * w) n)) (seq 0 t) ++ [(t * w, Nat.min ((t + 1) * w) n)]) a = Some (s, e) ->
            s = a * w /\ e <= (a + 1) * w).
  { intros a s e H. destruct (Nat.lt_ge_cases a t) as [L|L].
    - rewrite nth_error_app1 in H by (now rewrite map_length, seq_length).
      rewrite nth_error_map, (nth_error_nth' (seq 0 t) (n := a) 0) in H by (rewrite seq_length; lia). rewrite seq_nth in H by lia.
      cbn [Nat.add option_map] in H. injection H as <- <-. split; [reflexivity|apply Nat.le_min_l].
    - rewrite nth_error_app2 in H by (now rewrite map_length, seq_length). rewrite map_length, seq_length in H.
      destruct (a - t) as [|z] eqn:E; cbn [nth_error] in H; [|destruct z; discriminate]. injection H as <- <-. replace a with t by lia.
      split; [reflexivity|apply Nat.le_min_l]. }
  intros a b s e s' e' i Ha Hb Hi Hi'. apply X in Ha, Hb. destruct Ha as [-> Ha], Hb as [-> Hb].
  destruct (Nat.lt_trichotomy a b) as [L|[L|L]]; auto; exfalso.
  - assert ((a + 1) * w <= b * w) by (apply Nat.mul_le_mono_r; lia). lia.
  - assert ((b + 1) * w <= a * w) by (apply Nat.mul_le_mono_r; lia). lia.
Qed.
Lemma lregs_separate n t : separate (lregs (lpn_ranges n t)).
Proof.
  intros i j f g N Ef Eg [a x] Hl. unfold lregs in Ef, Eg. rewrite nth_error_map in Ef, Eg.
  destruct (nth_error (lpn_ranges n t) i) as [[s e]|] eqn:Ei; [|discriminate]. destruct (nth_error (lpn_ranges n t) j) as [[s' e']|] eqn:Ej; [|discriminate].
  injection Ef as <-. injection Eg as <-. cbn [lreg fst snd] in *.
  destruct a; try contradiction; split; intro H; apply N; eapply (lpn_ranges_disjoint n t); eauto.
Qed.
Section L.
  Variable word : nat -> nat -> N.
  Variable k : nat.
  Variables (s e : nat).
  Notation ok := (within (fst (lreg s e)) (snd (lreg s e))).
  Lemma ok_tabs i n c : (forall vs, ok (c vs)) -> ok (read_list (tabs word k i n) c).
  Proof. intro H. apply within_list; auto. intros l Hl. unfold tabs in Hl. apply in_map_iff in Hl. destruct Hl as [w [<- _]]. exact I. Qed.
  Lemma ok_s4 i c : s <= i -> i + 4 <= e -> ok c -> ok (s_compute4 word k i c).
  Proof. intros L1 L2 Hc. apply ok_tabs. intro vs. cbn [add1_out within]. repeat (split; [cbn; lia|]; intros; split; [cbn; lia|]). exact Hc. Qed.
  Lemma ok_s1 i c : s <= i -> i < e -> ok c -> ok (s_compute1 word k i c).
  Proof. intros L1 L2 Hc. unfold s_compute1. cbn [within]. split; [cbn; lia|]. intro x. apply ok_tabs. intro vs. cbn [within]. split; [cbn; lia|exact Hc]. Qed.
  Lemma ok_r4 i c : s <= i -> i + 4 <= e -> ok c -> ok (r_compute4 word k i c).
  Proof. intros L1 L2 Hc. apply within_range; [intros; cbn; lia|]. intro xs. apply ok_tabs. intro vs. cbn [add2_out within]. repeat (split; [cbn; lia|]). exact Hc. Qed.
  Lemma ok_r1 i c : s <= i -> i < e -> ok c -> ok (r_compute1 word k i c).
  Proof. intros L1 L2 Hc. unfold r_compute1. cbn [within]. split; [cbn; lia|]. intro x. apply ok_tabs. intro vs. cbn [within]. split; [cbn; lia|exact Hc]. Qed.
  Lemma ok_loop p1 fuel : forall j, s <= j -> ok (lpn_loop word k fuel j e p1).
  Proof.
    induction fuel as [|f IH]; intros j Hj; cbn [lpn_loop]; [exact I|].
    destruct (Nat.ltb_spec (j + 4) e); [destruct p1; [apply ok_s4|apply ok_r4]; auto; try lia; apply IH; lia|].
    destruct (Nat.ltb_spec j e); [|exact I]. destruct p1; [apply ok_s1|apply ok_r1]; auto; apply IH; lia.
  Qed.
  Lemma ok_f2 tw i es : forall c, s <= i < e -> ok c -> ok (f2_out tw i es c).
  Proof.
    induction es as [|x es IH]; intros c Hi Hc; cbn [f2_out]; [exact Hc|]. destruct tw; cbn [within fst snd lreg].
    - split; [exact Hi|]. intro a. split; [exact I|]. intro b. split; [exact Hi|].
      split; [exact Hi|]. intro a'. split; [exact I|]. intro b'. split; [exact Hi|]. now apply IH.
    - split; [exact Hi|]. intro a'. split; [exact I|]. intro b'. split; [exact Hi|]. now apply IH.
  Qed.
  Lemma ok_f2loop tw fuel : forall j, s <= j -> ok (f2_loop word k tw fuel j e).
  Proof.
    induction fuel as [|f IH]; intros j Hj; cbn [f2_loop]; [exact I|].
    destruct (Nat.ltb_spec (j + 4) e); [|destruct (Nat.ltb_spec j e); [|exact I]; apply ok_f2; [lia|apply IH; lia]].
    do 4 (apply ok_f2; [lia|]). apply IH. lia.
  Qed.
End L.
Section Acc.
  Variable word : nat -> nat -> N.
  Variable k : nat.
  Lemma acc_tabs n' i n c : (forall vs, accesses n' (c vs)) -> accesses (n + n') (read_list (tabs word k i n) c).
  Proof. intro H. pose proof (accesses_list n' (tabs word k i n) c (fun vs _ => H vs)) as X. unfold tabs in X at 1. now rewrite map_length, seq_length in X. Qed.
  Lemma acc_loop p1 fuel : forall j e, exists n, accesses n (lpn_loop word k fuel j e p1).
  Proof.
    induction fuel as [|f IH]; intros j e; cbn [lpn_loop]; [exists 0; reflexivity|]. destruct (Nat.ltb (j + 4) e).
    - destruct (IH (j + 4) e) as [n H]. exists (48 + n). destruct p1.
      + apply (acc_tabs (8 + n) j 40). intro vs. cbn [add1_out Nat.add accesses]. auto.
      + apply (accesses_range (44 + n) Vec j 4). intro xs. replace (44 + n) with (40 + (4 + n)) by lia. apply acc_tabs. intro vs. cbn [add2_out Nat.add accesses]. exact H.
    - destruct (Nat.ltb j e); [|exists 0; reflexivity]. destruct (IH (S j) e) as [n H]. exists (12 + n). destruct p1.
      + cbn [s_compute1 Nat.add accesses]. intro x. apply (acc_tabs (1 + n) j 10). intro vs. exact H.
      + cbn [r_compute1 Nat.add accesses]. intro x. apply (acc_tabs (1 + n) j 10). intro vs. exact H.
  Qed.
  Lemma acc_f2 (tw : bool) n i es : forall c, accesses n c -> accesses ((if tw then 6 else 3) * length es + n) (f2_out tw i es c).
  Proof.
    induction es as [|x es IH]; intros c Hc; cbn [f2_out length]; [rewrite Nat.mul_0_r; exact Hc|]. destruct tw.
    - replace (6 * S (length es) + n) with (6 + (6 * length es + n)) by lia. cbn [Nat.add accesses]. intros. now apply IH.
    - replace (3 * S (length es) + n) with (3 + (3 * length es + n)) by lia. cbn [Nat.add accesses]. intros. now apply IH.
  Qed.
  Lemma acc_f2loop (tw : bool) fuel : forall j e, exists n, accesses n (f2_loop word k tw fuel j e).
  Proof.
    induction fuel as [|f IH]; intros j e; cbn [f2_loop]; [exists 0; reflexivity|]. destruct (Nat.ltb (j + 4) e).
    - destruct (IH (j + 4) e) as [n H]. eexists. do 4 apply acc_f2. exact H.
    - destruct (Nat.ltb j e); [|exists 0; reflexivity]. destruct (IH (S j) e) as [n H]. eexists. apply acc_f2. exact H.
  Qed.
  Lemma acc_exists {A} (f : A -> prog) l : (forall x, exists n, accesses n (f x)) -> exists ns, Forall2 accesses ns (map f l).
  Proof. intro H. induction l as [|x l [ns IH]]; [exists []; constructor|]. destruct (H x) as [n Hn]. exists (n :: ns). constructor; auto. Qed.
End Acc.

(** * Result *)
Section Res.
  Variable word : nat -> nat -> N.
  Variable k : nat.
  Variable pre : mem.
  Definition rel (m : smem) (V : mem) : Prop := (forall x, m (Tab, x) = pre x) /\ (forall j, m (Vec, j) = V j).
  Lemma rel_put m V i v : rel m V -> rel (put m (Vec, i) v) (mset V i v).
  Proof.
    intros [H1 H2]. split; [intro x; rewrite put_other by discriminate; apply H1|]. intro j. unfold mset. destruct (Nat.eqb_spec j i) as [->|N].
    - apply put_same.
    - rewrite put_other by congruence. apply H2.
  Qed.
  Lemma tabs_vals m V i n : rel m V -> map m (tabs word k i n) = map (fun w => pre (lpn_idx word k i w)) (seq 0 n).
  Proof. intros [H _]. unfold tabs. rewrite map_map. apply map_ext. intro w. apply H. Qed.
  Lemma lane_vals m V i l : rel m V -> l < 4 -> lane l (map m (tabs word k i 40)) = map pre (edges4 word k i l).
  Proof.
    intros H L. rewrite (tabs_vals m V) by exact H. unfold lane, edges4. rewrite map_map. apply map_ext_in. intros j Hj. apply in_seq in Hj.
    rewrite (nth_indep _ 0%N (pre (lpn_idx word k i 0))) by (rewrite map_length, seq_length; lia).
    rewrite (map_nth (fun w => pre (lpn_idx word k i w)) (seq 0 40) 0). now rewrite seq_nth by lia.
  Qed.
  Lemma run_s4 m V i c : rel m V -> exists m1, run m (s_compute4 word k i c) = run m1 c /\ rel m1 (compute4 word k true pre V i).
  Proof.
    intro H. unfold s_compute4. rewrite run_list. set (vs := map m (tabs word k i 40)).
    assert (Ln : forall l, l < 4 -> lane l vs = map pre (edges4 word k i l)) by (intros; eapply lane_vals; eauto). clearbody vs.
    assert (A : forall n l m V, l + n <= 4 -> rel m V -> exists m1, run m (add1_out i l n vs c) = run m1 c /\
               rel m1 (fold_left (fun V l => add1_lane pre V (i + l) (edges4 word k i l)) (seq l n) V)).
    { clear m V H. induction n as [|n IH]; intros l m V L H; cbn [add1_out seq fold_left]; [eauto|]. cbn [run]. apply IH; [lia|].
      rewrite Ln by lia. unfold add1_lane. destruct H as [H1 H2]. rewrite (H2 (i + l)), map_map, firstn_map, skipn_map. now apply rel_put. }
    apply (A 4 0 m V); [lia|exact H].
  Qed.
  Lemma run_r4 m V i c : rel m V -> exists m1, run m (r_compute4 word k i c) = run m1 c /\ rel m1 (compute4 word k false pre V i).
  Proof.
    intro H. unfold r_compute4. rewrite run_range, run_list. set (vs := map m (tabs word k i 40)). set (xs := map (fun j => m (Vec, j)) (seq i 4)).
    assert (Ln : forall l, l < 4 -> lane l vs = map pre (edges4 word k i l)) by (intros; eapply lane_vals; eauto). clearbody vs.
    assert (Lx : forall l, l < 4 -> nth l xs 0%N = V (i + l)).
    { intros l L. destruct H as [_ H]. unfold xs. cbn [seq map]. destruct l as [|[|[|[|l]]]]; try lia; cbn [nth]; rewrite H; f_equal; lia. }
    clearbody xs.
    assert (A : forall n l m W, l + n <= 4 -> rel m W -> (forall j, l <= j -> W (i + j) = V (i + j)) -> exists m1, run m (add2_out i l n xs vs c) = run m1 c /\
               rel m1 (fold_left (fun V l => add2_any pre V (i + l) (edges4 word k i l)) (seq l n) W)).
    { clear m H. induction n as [|n IH]; intros l m W L H Hw; cbn [add2_out seq fold_left]; [eauto|]. cbn [run]. apply IH; [lia| |].
      - rewrite Ln, Lx by lia. rewrite <- Hw by lia. unfold add2_any. rewrite firstn_map, skipn_map. now apply rel_put.
      - intros j Hj. unfold add2_any, mset. destruct (Nat.eqb_spec (i + j) (i + l)); [lia|]. apply Hw. lia. }
    apply (A 4 0 m V); [lia|exact H|auto].
  Qed.
  Lemma run_s1 m V i c : rel m V -> exists m1, run m (s_compute1 word k i c) = run m1 c /\ rel m1 (compute1 word k true pre V i).
  Proof.
    intro H. unfold s_compute1. cbn [run]. rewrite run_list, (tabs_vals m V) by exact H. cbn [run]. eexists. split; [reflexivity|].
    unfold compute1, add1_single, edges1. destruct H as [H1 H2]. rewrite (H2 i), !map_map, !firstn_map, !skipn_map, !map_map. apply rel_put. now split.
  Qed.
  Lemma run_r1 m V i c : rel m V -> exists m1, run m (r_compute1 word k i c) = run m1 c /\ rel m1 (compute1 word k false pre V i).
  Proof.
    intro H. unfold r_compute1. cbn [run]. rewrite run_list, (tabs_vals m V) by exact H. cbn [run]. eexists. split; [reflexivity|].
    unfold compute1, add2_any, edges1. destruct H as [H1 H2]. rewrite (H2 i), !firstn_map, !skipn_map, !map_map. apply rel_put. now split.
  Qed.
  Lemma run_loop p1 fuel : forall j e m V, rel m V -> rel (run m (lpn_loop word k fuel j e p1)) (task_loop word k fuel j e p1 pre V).
  Proof.
    induction fuel as [|f IH]; intros j e m V H; cbn [lpn_loop task_loop]; [exact H|]. destruct (Nat.ltb (j + 4) e).
    - destruct p1; [destruct (run_s4 m V j (lpn_loop word k f (j + 4) e true) H) as (m1 & -> & H1)|destruct (run_r4 m V j (lpn_loop word k f (j + 4) e false) H) as (m1 & -> & H1)]; now apply IH.
    - destruct (Nat.ltb j e); [|exact H].
      destruct p1; [destruct (run_s1 m V j (lpn_loop word k f (S j) e true) H) as (m1 & -> & H1)|destruct (run_r1 m V j (lpn_loop word k f (S j) e false) H) as (m1 & -> & H1)]; now apply IH.
  Qed.
  Lemma run_all_lpn p1 rs : forall m V, rel m V -> rel (run_all m (lpn_tasks word k p1 rs)) (run_ranges word k rs p1 pre V).
  Proof.
    unfold run_all, lpn_tasks, run_ranges. induction rs as [|[s e] rs IH]; intros m V H; cbn [map fold_left]; [exact H|]. apply IH. unfold task. cbn [fst snd]. now apply run_loop.
  Qed.
End Res.
Theorem lpn_schedule word k n t p1 m :
  schedule_independent m (lpn_tasks word k p1 (lpn_ranges n t))
    (fun m' => forall j, m' (Vec, j) = lpn_compute word k n t p1 (arr_of m Tab) (arr_of m Vec) j).
Proof.
  destruct (acc_exists (fun r => lpn_loop word k (snd r - fst r) (fst r) (snd r) p1) (lpn_ranges n t)) as [ns A]; [intros [s e]; apply acc_loop|].
  apply (weaken m _ (fun m' => forall x, m' x = run_all m (lpn_tasks word k p1 (lpn_ranges n t)) x)).
  - intros m' E j. rewrite E. destruct (run_all_lpn word k (arr_of m Tab) p1 (lpn_ranges n t) m (arr_of m Vec)) as [_ H]; [split; reflexivity|]. apply H.
  - apply (interleave (lregs (lpn_ranges n t)) ns); [apply lregs_separate| |exact A]. apply F2_map. intros [s e] _. unfold fits. cbn [fst snd]. apply ok_loop. lia.
Qed.

Section Res2.
  Variable word : nat -> nat -> N.
  Variable k : nat.
  Variables (pre pre2 : mem).
  Definition rel2 (m : smem) (V V2 : mem) : Prop :=
    (forall x, m (Tab, x) = pre x) /\ (forall x, m (Tab2, x) = pre2 x) /\ (forall j, m (Vec, j) = V j) /\ (forall j, m (Vec2, j) = V2 j).
  Lemma rel2_put m V V2 i v : rel2 m V V2 -> rel2 (put m (Vec, i) v) (mset V i v) V2.
  Proof.
    intros (H1 & H2 & H3 & H4). split; [|split; [|split]]; intro x; try (rewrite put_other by discriminate; auto; fail).
    unfold mset. destruct (Nat.eqb_spec x i) as [->|N]; [apply put_same|]. rewrite put_other by congruence. apply H3.
  Qed.
  Lemma rel2_put2 m V V2 i v : rel2 m V V2 -> rel2 (put m (Vec2, i) v) V (mset V2 i v).
  Proof.
    intros (H1 & H2 & H3 & H4). split; [|split; [|split]]; intro x; try (rewrite put_other by discriminate; auto; fail).
    unfold mset. destruct (Nat.eqb_spec x i) as [->|N]; [apply put_same|]. rewrite put_other by congruence. apply H4.
  Qed.
  Definition upd2 (tw : bool) (f : mem -> mem -> mem) (V2 : mem) : mem := if tw then f pre2 V2 else V2.
  Lemma run_f2 (tw : bool) i es : forall c m V V2, rel2 m V V2 -> exists m1, run m (f2_out tw i es c) = run m1 c /\
    rel2 m1 (f2_add pre V i es) (if tw then f2_add pre2 V2 i es else V2).
  Proof.
    unfold f2_add. induction es as [|x es IH]; intros c m V V2 H; cbn [f2_out fold_left]; [exists m; split; [reflexivity|destruct tw; exact H]|].
    pose proof H as (H1 & H2 & H3 & H4). destruct tw; cbn [run].
    - rewrite (H4 i), (H2 x). set (m0 := put m (Vec2, i) _).
      assert (R0 : rel2 m0 V (mset V2 i (N.lxor (V2 i) (pre2 x)))) by now apply rel2_put2. clearbody m0.
      pose proof R0 as (G1 & G2 & G3 & G4). rewrite (G3 i), (G1 x). apply IH. now apply rel2_put.
    - rewrite (H3 i), (H1 x). destruct (IH c _ _ V2 (rel2_put m V V2 i (N.lxor (V i) (pre x)) H)) as (m1 & E & R). eauto.
  Qed.
  Lemma run_f2loop (tw : bool) fuel : forall j e m V V2, rel2 m V V2 -> rel2 (run m (f2_loop word k tw fuel j e))
    (f2_task_loop word k fuel j e pre V) (if tw then f2_task_loop word k fuel j e pre2 V2 else V2).
  Proof.
    induction fuel as [|f IH]; intros j e m V V2 H; cbn [f2_loop f2_task_loop]; [destruct tw; exact H|]. destruct (Nat.ltb (j + 4) e).
    - unfold f2_compute4. cbn [seq fold_left].
      match goal with |- context [f2_out tw (j + 0) _ ?c] => destruct (run_f2 tw (j + 0) (f2_edges4 word k j 0) c m V V2 H) as (m1 & -> & H1) end.
      match goal with |- context [f2_out tw (j + 1) _ ?c] => destruct (run_f2 tw (j + 1) (f2_edges4 word k j 1) c m1 _ _ H1) as (m2 & -> & H2) end.
      match goal with |- context [f2_out tw (j + 2) _ ?c] => destruct (run_f2 tw (j + 2) (f2_edges4 word k j 2) c m2 _ _ H2) as (m3 & -> & H3) end.
      match goal with |- context [f2_out tw (j + 3) _ ?c] => destruct (run_f2 tw (j + 3) (f2_edges4 word k j 3) c m3 _ _ H3) as (m4 & -> & H4) end.
      specialize (IH (j + 4) e m4 _ _ H4). destruct tw; exact IH.
    - destruct (Nat.ltb j e); [|destruct tw; exact H]. unfold f2_compute1.
      match goal with |- context [f2_out tw j _ ?c] => destruct (run_f2 tw j (f2_edges1 word k j) c m V V2 H) as (m1 & -> & H1) end.
      specialize (IH (S j) e m1 _ _ H1). destruct tw; exact IH.
  Qed.
  Lemma run_all_f2 (tw : bool) rs : forall m V V2, rel2 m V V2 -> rel2 (run_all m (f2_tasks word k tw rs))
    (fold_left (fun V r => f2_task_loop word k (snd r - fst r) (fst r) (snd r) pre V) rs V)
    (if tw then fold_left (fun V r => f2_task_loop word k (snd r - fst r) (fst r) (snd r) pre2 V) rs V2 else V2).
  Proof.
    unfold run_all, f2_tasks. induction rs as [|[s e] rs IH]; intros m V V2 H; cbn [map fold_left]; [destruct tw; exact H|].
    pose proof (run_f2loop tw (e - s) s e m V V2 H) as R. specialize (IH _ _ _ R). cbn [fst snd] in *. destruct tw; exact IH.
  Qed.
End Res2.
Theorem f2_schedule word k n t (tw : bool) m :
  schedule_independent m (f2_tasks word k tw (lpn_ranges n t))
    (fun m' => (forall j, m' (Vec, j) = f2_lpn word k n t (arr_of m Tab) (arr_of m Vec) j) /\
               (forall j, m' (Vec2, j) = if tw then f2_lpn word k n t (arr_of m Tab2) (arr_of m Vec2) j else m (Vec2, j))).
Proof.
  destruct (acc_exists (fun r => f2_loop word k tw (snd r - fst r) (fst r) (snd r)) (lpn_ranges n t)) as [ns A]; [intros [s e]; apply acc_f2loop|].
  apply (weaken m _ (fun m' => forall x, m' x = run_all m (f2_tasks word k tw (lpn_ranges n t)) x)).
  - intros m' E. destruct (run_all_f2 word k (arr_of m Tab) (arr_of m Tab2) tw (lpn_ranges n t) m (arr_of m Vec) (arr_of m Vec2)) as (_ & _ & H3 & H4); [repeat split|].
    split; intro j; rewrite E; [apply H3|]. rewrite H4. destruct tw; reflexivity.
  - apply (interleave (lregs (lpn_ranges n t)) ns); [apply lregs_separate| |exact A]. apply F2_map. intros [s e] _. unfold fits. cbn [fst snd]. apply ok_f2loop. lia.
Qed.
