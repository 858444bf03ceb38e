(** Proofs about the mixed program. *)
From Coq Require Import NArith List Bool Arith Lia Ring.
From Verif Require Import Word WordProofs FpModel FpProofs Prime61 ArithModel ArithSpec ArithProofs ArithShadow ArithAlg LowMcModel
  ArithThms4 CopeProofs EdaModel EdaSpec EdaStock EdaProofs AbConvModel AbConvSpec.
Import ListNotations.
Ltac Zify.zify_post_hook ::= idtac.

(** * Arrays *)
Lemma rd_wr' {A} (dv : A) l i x j : i < length l -> rd dv (wr l i x) j = if j =? i then x else rd dv l j.
Proof.
  unfold rd. revert i j. induction l as [|y l IH]; intros i j H; [cbn in H; lia|]. destruct i as [|i], j as [|j]; cbn [wr nth Nat.eqb]; try reflexivity.
  apply IH. cbn in H. lia.
Qed.
Lemma wr_len' {A} (l : list A) i x : length (wr l i x) = length l.
Proof. revert i. induction l as [|y l IH]; intros [|i]; cbn; try reflexivity. now rewrite IH. Qed.
Lemma list_rd (l l' : list N) : length l = length l' -> (forall k, k < length l -> rd 0%N l k = rd 0%N l' k) -> l = l'.
Proof. intros L H. exact (nth_ext l l' 0%N 0%N L H). Qed.
Lemma rd_map (f : N -> N) l k : k < length l -> rd 0%N (map f l) k = f (rd 0%N l k).
Proof. intro H. unfold rd. rewrite (nth_indep _ 0%N (f 0%N)) by now rewrite map_length. apply map_nth. Qed.

(** * The loops *)
Lemma third_in fuel : forall j bound x, bound <= j + 3 * fuel -> (In x (every_third fuel j bound) <-> j <= x /\ x < bound /\ (x - j) mod 3 = 0).
Proof.
  induction fuel as [|fuel IH]; intros j bound x H; cbn [every_third].
  - split; [intros []|]. intros (H1 & H2 & _). lia.
  - destruct (Nat.ltb_spec j bound) as [L|L].
    + cbn [In]. rewrite IH by lia. split.
      * intros [<-|(H1 & H2 & H3)]; [rewrite Nat.sub_diag; repeat split; lia|]. split; [lia|]. split; [lia|].
        replace (x - j) with (x - (j + 3) + 1 * 3) by lia. now rewrite Nat.mod_add by lia.
      * intros (H1 & H2 & H3). destruct (Nat.eq_dec j x) as [->|N]; [now left|right].
        assert (j + 3 <= x). { destruct (Nat.le_gt_cases (j + 3) x) as [G|G]; [exact G|]. rewrite Nat.mod_small in H3 by lia. lia. }
        split; [lia|]. split; [lia|]. replace (x - j) with (x - (j + 3) + 1 * 3) in H3 by lia. now rewrite Nat.mod_add in H3 by lia.
    + split; [intros []|]. lia.
Qed.
Lemma slots_in sz i j : i < 3 -> (In j (slots sz i) <-> j mod 3 = i /\ j + 3 < sz).
Proof.
  intro Hi. unfold slots. rewrite third_in by lia. pose proof (Nat.div_mod j 3 ltac:(lia)) as D. pose proof (Nat.mod_upper_bound j 3 ltac:(lia)) as U. split.
  - intros (H1 & H2 & H3). split; [|lia]. apply Nat.div_exact in H3; [|lia]. symmetry. apply (Nat.mod_unique j 3 ((j - i) / 3) i); lia.
  - intros (H1 & H2). split; [lia|]. split; [lia|]. rewrite <- H1. replace (j - j mod 3) with (j / 3 * 3) by lia. apply Nat.mod_mul. lia.
Qed.
Definition up (g : N -> N -> N) (l : list N) (j : nat) : list N := wr l (j + 2) (g (rd 0%N l (j + 1)) (rd 0%N l j)).
Definition down (g : N -> N -> N) (l : list N) (j : nat) : list N := wr l j (g (rd 0%N l (j + 1)) (rd 0%N l (j + 2))).
Lemma up_len g js : forall l, length (fold_left (up g) js l) = length l.
Proof. induction js as [|j js IH]; intro l; [reflexivity|]. cbn [fold_left]. rewrite IH. apply wr_len'. Qed.
Lemma down_len g js : forall l, length (fold_left (down g) js l) = length l.
Proof. induction js as [|j js IH]; intro l; [reflexivity|]. cbn [fold_left]. rewrite IH. apply wr_len'. Qed.
Lemma up_fold g i js : forall l, (forall j, In j js -> j mod 3 = i /\ j + 3 < length l) ->
  forall k, rd 0%N (fold_left (up g) js l) k = if existsb (fun j => k =? j + 2) js then g (rd 0%N l (k - 1)) (rd 0%N l (k - 2)) else rd 0%N l k.
Proof.
  induction js as [|j js IH]; intros l H k; [reflexivity|]. cbn [fold_left existsb]. unfold up at 2. destruct (H j (or_introl eq_refl)) as [Hj Lj].
  rewrite IH by (intros j' Hj'; rewrite wr_len'; apply H; now right). rewrite !rd_wr' by lia.
  destruct (existsb (fun j0 => k =? j0 + 2) js) eqn:E.
  - apply existsb_exists in E. destruct E as (j' & J1 & J2). apply Nat.eqb_eq in J2. subst k. destruct (H j' (or_intror J1)) as [M1 _].
    assert (N1 : j' + 2 - 1 <> j + 2 /\ j' + 2 - 2 <> j + 2).
    { pose proof (Nat.div_mod j 3 ltac:(lia)). pose proof (Nat.div_mod j' 3 ltac:(lia)). lia. }
    destruct N1 as [N1 N2]. apply Nat.eqb_neq in N1, N2. rewrite N1, N2, orb_true_r. reflexivity.
  - destruct (Nat.eqb_spec k (j + 2)) as [->|N]; [|reflexivity]. cbn [orb]. f_equal; f_equal; lia.
Qed.
Lemma down_fold g i js : forall l, (forall j, In j js -> j mod 3 = i /\ j + 3 < length l) ->
  forall k, rd 0%N (fold_left (down g) js l) k = if existsb (fun j => k =? j) js then g (rd 0%N l (k + 1)) (rd 0%N l (k + 2)) else rd 0%N l k.
Proof.
  induction js as [|j js IH]; intros l H k; [reflexivity|]. cbn [fold_left existsb]. unfold down at 2. destruct (H j (or_introl eq_refl)) as [Hj Lj].
  rewrite IH by (intros j' Hj'; rewrite wr_len'; apply H; now right). rewrite !rd_wr' by lia.
  destruct (existsb (fun j0 => k =? j0) js) eqn:E.
  - apply existsb_exists in E. destruct E as (j' & J1 & J2). apply Nat.eqb_eq in J2. subst k. destruct (H j' (or_intror J1)) as [M1 _].
    assert (N1 : j' + 1 <> j /\ j' + 2 <> j).
    { pose proof (Nat.div_mod j 3 ltac:(lia)). pose proof (Nat.div_mod j' 3 ltac:(lia)). lia. }
    destruct N1 as [N1 N2]. apply Nat.eqb_neq in N1, N2. rewrite N1, N2, orb_true_r. reflexivity.
  - destruct (Nat.eqb_spec k j) as [->|N]; reflexivity.
Qed.
Definition up_at (sz i k : nat) : bool := (2 <=? k) && marked sz i (k - 2).
Lemma up_slots g sz i l : i < 3 -> length l = sz -> forall k,
  rd 0%N (fold_left (up g) (slots sz i) l) k = if up_at sz i k then g (rd 0%N l (k - 1)) (rd 0%N l (k - 2)) else rd 0%N l k.
Proof.
  intros Hi L k. rewrite (up_fold g i) by (intros j Hj; rewrite L; now apply slots_in).
  replace (existsb (fun j => k =? j + 2) (slots sz i)) with (up_at sz i k); [reflexivity|]. apply eq_true_iff_eq. rewrite existsb_exists. unfold up_at, marked.
  rewrite !andb_true_iff, Nat.leb_le, Nat.eqb_eq, Nat.ltb_lt. split.
  - intros (H1 & H2 & H3). exists (k - 2). split; [now apply slots_in|]. apply Nat.eqb_eq. lia.
  - intros (j & H1 & H2). apply Nat.eqb_eq in H2. subst k. apply slots_in in H1; [|exact Hi]. replace (j + 2 - 2) with j by lia. split; [lia|exact H1].
Qed.
Lemma down_slots g sz i l : i < 3 -> length l = sz -> forall k,
  rd 0%N (fold_left (down g) (slots sz i) l) k = if marked sz i k then g (rd 0%N l (k + 1)) (rd 0%N l (k + 2)) else rd 0%N l k.
Proof.
  intros Hi L k. rewrite (down_fold g i) by (intros j Hj; rewrite L; now apply slots_in).
  replace (existsb (fun j => k =? j) (slots sz i)) with (marked sz i k); [reflexivity|]. apply eq_true_iff_eq. rewrite existsb_exists. unfold marked.
  rewrite !andb_true_iff, Nat.eqb_eq, Nat.ltb_lt. split.
  - intros (H2 & H3). exists k. split; [now apply slots_in|]. now apply Nat.eqb_eq.
  - intros (j & H1 & H2). apply Nat.eqb_eq in H2. subst k. apply slots_in in H1; [|exact Hi]. exact H1.
Qed.
Lemma marked_lt sz i k : marked sz i k = true -> k + 3 < sz.
Proof. unfold marked. rewrite andb_true_iff, Nat.ltb_lt. tauto. Qed.
Lemma up_at_lt sz i k : up_at sz i k = true -> 2 <= k /\ k + 1 < sz.
Proof. unfold up_at. rewrite andb_true_iff, Nat.leb_le. intros [H1 H2]. apply marked_lt in H2. lia. Qed.

Definition gy (u v : N) : N := let s := iadd u v in isel s (itop s) (isub s (PR mod I62)).
Lemma y_up_eq js : forall l, (forall j, In j js -> j + 3 < length l) -> fold_left y_up js l = fold_left (up gy) js l.
Proof.
  induction js as [|j js IH]; intros l H; [reflexivity|]. cbn [fold_left]. assert (E : y_up l j = up gy l j).
  { unfold y_up, up. cbv zeta. rewrite rd_wr' by (specialize (H j (or_introl eq_refl)); lia). rewrite Nat.eqb_refl. unfold gy.
    generalize (iadd (rd 0%N l (j + 1)) (rd 0%N l j)). intro s. clear. generalize (isel s (itop s) (isub s (PR mod I62))). intro t. generalize (j + 2). intro n.
    revert n. induction l as [|x l IHl]; intros [|n]; cbn; try reflexivity. now rewrite IHl. }
  rewrite E. apply IH. intros j' Hj'. unfold up. rewrite wr_len'. apply H. now right.
Qed.

(** * Numbers *)
(** [u] represents [v]: equal, or p for 0 *)
Definition le_rep (u v : N) : Prop := (u <= PR /\ v < PR /\ u mod PR = v)%N.
Lemma le_rep_cases u v : le_rep u v -> u = v \/ (u = PR /\ v = 0%N).
Proof.
  intros (H1 & H2 & H3). destruct (N.eq_dec u PR) as [->|N]; [right; split; [reflexivity|]; rewrite <- H3; apply N.mod_same; discriminate|].
  left. rewrite N.mod_small in H3 by lia. exact H3.
Qed.
Lemma PR_val : PR = 2305843009213693951%N. Proof. reflexivity. Qed.
Lemma sub_mod s : (PR <= s -> s <= 2 * PR -> (s - PR) mod PR = s mod PR)%N.
Proof. intros H1 H2. replace s with ((s - PR) + 1 * PR)%N at 2 by lia. now rewrite N.mod_add by discriminate. Qed.
Lemma plain_rep u v u' v' : le_rep u v -> le_rep u' v' -> le_rep (plain_sum u u') ((v + v') mod PR).
Proof.
  intros (H1 & H2 & H3) (H1' & H2' & H3'). unfold plain_sum. pose proof PR_val as HP.
  rewrite N.mod_small by (change W64 with 18446744073709551616%N; lia). cbv zeta. subst v v'. rewrite <- N.add_mod by discriminate.
  assert (U : ((u + u') mod PR < PR)%N) by (apply N.mod_upper_bound; discriminate).
  destruct (N.ltb_spec PR (u + u')) as [L|L]; [|split; [lia|split; [exact U|reflexivity]]].
  rewrite sub64_small by (change W64 with 18446744073709551616%N; lia). split; [lia|]. split; [exact U|]. apply sub_mod; lia.
Qed.
Lemma gy_rep u v u' v' : le_rep u v -> le_rep u' v' -> le_rep (gy u u') ((v + v') mod PR).
Proof.
  intros (H1 & H2 & H3) (H1' & H2' & H3'). unfold gy. pose proof PR_val as HP. assert (HI : I62 = 4611686018427387904%N) by reflexivity.
  unfold iadd. rewrite (N.mod_small (u + u')) by lia. cbv zeta. subst v v'. rewrite <- N.add_mod by discriminate.
  assert (U : ((u + u') mod PR < PR)%N) by (apply N.mod_upper_bound; discriminate).
  rewrite itop_ok by lia. rewrite (N.mod_small PR) by lia.
  destruct (N.leb_spec 2305843009213693952 (u + u')) as [L|L]; cbn [isel].
  - rewrite isub_ge by lia. split; [lia|]. split; [exact U|]. apply sub_mod; lia.
  - split; [lia|]. split; [exact U|reflexivity].
Qed.
Add Ring fp_ring2 : fp_rt.
Lemma share_brel d a k : share_ok d a k -> brel a (toF (lo64 a), toF (hi64 a)) /\ krel d k (toF (lo64 a), toF (hi64 a)).
Proof.
  intro A. apply share_F in A. destruct A as ((A1 & A2 & A3) & A4). split.
  - exists (hi64 a), (lo64 a). split; [exact A1|]. split; [exact A2|]. split; [symmetry; apply mkblock_eta|reflexivity].
  - split; [exact A3|]. unfold kf. cbn [fst snd]. rewrite A4. ring.
Qed.
Lemma gate_add d a b k k' : (d < PR)%N -> share_ok d a k -> share_ok d b k' ->
  share_ok d (a_prv_add a b) (a_ver_add k k') /\ hi64 (a_prv_add a b) = ((hi64 a + hi64 b) mod PR)%N.
Proof.
  intros Hd A B. destruct (share_brel _ _ _ A) as [A1 A2]. destruct (share_brel _ _ _ B) as [B1 B2].
  pose proof (b_add _ _ _ _ A1 B1) as P. pose proof (k_add d Hd _ _ _ _ A2 B2) as Q. split; [exact (share_rel _ _ _ _ P Q)|].
  destruct (b_hi _ _ P) as [P1 P2]. cbn [snd] in P2. rewrite <- toF_add in P2. apply toF_inj; [exact P1|apply mod_PR_lt|]. now rewrite toF_mod.
Qed.
(** bool2arith of a number up to p *)
Lemma b2a_le d x r rp rk : (d < PR)%N -> (x <= PR)%N -> share_ok d rp rk -> r = hi64 rp ->
  share_ok d (snd (b2a_prv x r rp)) (b2a_ver d rk (fst (b2a_prv x r rp))) /\ hi64 (snd (b2a_prv x r rp)) = (x mod PR)%N.
Proof.
  intros Hd Hx M ->. destruct (N.eq_dec x PR) as [->|N].
  - pose proof M as M'. apply share_F in M'. destruct M' as ((R1 & _) & _). unfold b2a_prv, b2a_ver. cbv zeta. cbn [fst snd].
    assert (E : b2a_diff PR (hi64 rp) = (PR - hi64 rp)%N).
    { unfold b2a_diff. cbv zeta. pose proof PR_val. assert (HI : I62 = 4611686018427387904%N) by reflexivity.
      rewrite isub_ge by lia. rewrite itop_ok by lia. replace (2305843009213693952 <=? PR - hi64 rp)%N with false by (symmetry; apply N.leb_gt; lia). reflexivity. }
    rewrite E. destruct (addc_share d rp rk (PR - hi64 rp) M) as [A1 A2]; [lia|exact Hd|]. split; [exact A1|].
    rewrite A2. f_equal. lia.
  - assert (L : (x < PR)%N) by lia. destruct (b2a_one d x (hi64 rp) rp rk Hd L M eq_refl) as (_ & O2 & O3). split; [exact O2|]. rewrite O3. symmetry. now apply N.mod_small.
Qed.

Section Run.
  Variables (NN B C np_sz : nat) (rb rp rk : nat * nat -> N) (d : N) (sz : nat).
  Hypotheses (HN : 1 <= NN) (HB : 1 <= B) (Hsz : ell NN B C <= np_sz) (Hd : (d < PR)%N).
  Notation kth := (kth_mask NN (ell NN B C) np_sz).
  Hypothesis masks : forall k, share_ok d (rp (snd (kth k))) (rk (snd (kth k))) /\ rb (fst (kth k)) = hi64 (rp (snd (kth k))).
  Lemma b2a_les : forall xs k, Forall (fun x => (x <= PR)%N) xs ->
    let ms := map kth (seq k (length xs)) in
    let ps := map (fun xm => b2a_prv (fst xm) (rb (fst (snd xm))) (rp (snd (snd xm)))) (combine xs ms) in
    length ps = length xs /\
    Forall2 (share_ok d) (map snd ps) (map (fun vm => b2a_ver d (rk (snd (snd vm))) (fst vm)) (combine (map fst ps) ms)) /\
    map hi64 (map snd ps) = map (fun x => x mod PR)%N xs.
  Proof.
    induction xs as [|x xs IH]; intros k H; cbn zeta.
    - split; [reflexivity|]. split; [constructor|reflexivity].
    - inversion H as [|? ? Hx Hxs]; subst. destruct (IH (S k) Hxs) as (I1 & I2 & I3). cbn zeta in I1, I2, I3.
      destruct (masks k) as [M1 M2]. destruct (b2a_le d x _ _ _ Hd Hx M1 M2) as (O2 & O3).
      cbn [length seq map combine fst snd]. split; [now rewrite I1|]. split; [constructor; [exact O2|exact I2]|].
      now rewrite O3, I3.
  Qed.
  Lemma b2a_batch_le k s xs : inv NN B C np_sz k s -> Forall (fun x => (x <= PR)%N) xs ->
    let (ps, s1) := b2a_batch_prv NN B C np_sz rb rp xs s in
    let (ks, s2) := b2a_batch_ver NN B C np_sz rk d (map fst ps) s in
    Forall2 (share_ok d) (map snd ps) ks /\ map hi64 (map snd ps) = map (fun x => x mod PR)%N xs /\ length ps = length xs /\
    s1 = s2 /\ inv NN B C np_sz (k + length xs) s1.
  Proof.
    intros I H. unfold b2a_batch_prv, b2a_batch_ver.
    pose proof (b2a_les xs k H) as (L & L2 & L3). cbn zeta in L, L2, L3.
    pose proof (batch_inv NN B C np_sz HN HB Hsz true (length xs) k s I) as [E E2].
    destruct (batch NN B C np_sz true (length xs) s) as [ms s1] eqn:Eb. cbn [fst snd] in E, E2 |- *. rewrite <- E in L, L2, L3.
    match goal with |- context [batch _ _ _ _ _ ?n _] => replace n with (length xs) by (symmetry; rewrite (map_length fst); exact L) end.
    rewrite Eb. split; [exact L2|]. split; [exact L3|]. split; [exact L|]. split; [reflexivity|exact E2].
  Qed.
  Lemma a2b_batch k s xs keys : inv NN B C np_sz k s -> Forall2 (share_ok d) xs keys ->
    let (ps, s1) := a2b_batch_prv NN B C np_sz rp xs s in
    let (hv, s2) := a2b_batch_ver NN B C np_sz rk d keys (map fst ps) s in
    hv = map snd ps /\ a2b_batch_out NN B C np_sz rb (map fst ps) s = map hi64 xs /\ s1 = s2 /\ inv NN B C np_sz (k + length xs) s1.
  Proof.
    intros I H. pose proof (a2b_batch_ok NN B C np_sz rb rp rk d HN HB Hsz Hd masks k s xs keys I H) as (L2 & L3). cbn zeta in L2, L3.
    pose proof (batch_inv NN B C np_sz HN HB Hsz false (length xs) k s I) as [_ E2].
    revert L2 L3 E2. unfold a2b_batch_prv, a2b_batch_ver. rewrite <- (F2_len _ _ _ H).
    destruct (batch NN B C np_sz false (length xs) s) as [ms s1] eqn:Eb. cbn [fst snd]. intros L2 L3 E2.
    split; [exact L2|]. split; [exact L3|]. split; [reflexivity|exact E2].
  Qed.
  Definition madd (a b : N) : N := ((a + b) mod PR)%N.
  Definition t_inv (v : nat -> N) (st : tstate) : Prop :=
    length (t_a st) = sz /\ length (t_y st) = sz /\ t_hp st = t_hv st /\ t_sp st = t_sv st /\ (exists n, inv NN B C np_sz n (t_sp st)) /\
    (forall k, k < sz -> le_rep (rd 0%N (t_a st) k) (v k) /\ le_rep (rd 0%N (t_y st) k) (v k)).
  Definition t_post (v : nat -> N) (st : tstate) : Prop :=
    t_y st = map v (seq 0 sz) /\ map hi64 (t_x st) = map v (seq 0 sz) /\ Forall2 (share_ok d) (t_x st) (t_k st).
  Lemma F2_rd (R : N -> N -> Prop) x k : length x = sz -> length k = sz -> (forall j, j < sz -> R (rd 0%N x j) (rd 0%N k j)) -> Forall2 R x k.
  Proof.
    clear. revert k sz. induction x as [|a x IH]; intros [|b k] n Lx Lk H; cbn in Lx, Lk; subst n; try discriminate; constructor; [apply (H 0); lia|].
    injection Lk as Lk. apply (IH k (length x) eq_refl Lk). intros j Hj. apply (H (S j)). lia.
  Qed.
  Lemma F2_at (R : N -> N -> Prop) x k : Forall2 R x k -> forall j, j < length x -> R (rd 0%N x j) (rd 0%N k j).
  Proof. clear. unfold rd. induction 1 as [|a b x k H _ IH]; intros [|j] Hj; cbn in *; try lia; [exact H|]. apply IH. lia. Qed.
  Lemma map_rd (f : nat -> N) l : length l = sz -> (forall j, j < sz -> rd 0%N l j = f j) -> l = map f (seq 0 sz).
  Proof.
    clear. intros L H. apply list_rd; [now rewrite map_length, seq_length|]. rewrite L. intros j Hj. rewrite (H j Hj). unfold rd.
    rewrite (nth_indep _ 0%N (f 0)) by now rewrite map_length, seq_length. rewrite map_nth, seq_nth by exact Hj. reflexivity.
  Qed.
  Lemma pass_ok v st i : i < 3 -> t_inv v st -> t_inv (conv_step madd sz v i) (t_pass NN B C np_sz rb rp rk d sz st i) /\
    t_post (conv_step madd sz v i) (t_pass NN B C np_sz rb rp rk d sz st i).
  Proof.
    intros Hi (La & Ly & Hh & Hs & (n & Hn) & Hr). unfold t_pass.
    set (u := upper madd sz i v).
    rewrite y_up_eq by (intros j Hj; rewrite Ly; now apply (slots_in sz i j Hi)).
    set (y := fold_left (up gy) (slots sz i) (t_y st)). assert (Ly1 : length y = sz) by (unfold y; rewrite up_len; exact Ly).
    assert (Hy : forall k, k < sz -> le_rep (rd 0%N y k) (u k)).
    { intros k Hk. unfold y, u, upper. rewrite up_slots by assumption. fold (up_at sz i k). destruct (up_at sz i k) eqn:E; [|now apply Hr].
      apply up_at_lt in E. apply gy_rep; apply Hr; lia. }
    change (fold_left a_up) with (fold_left (up plain_sum)). set (a := fold_left (up plain_sum) (slots sz i) (t_a st)).
    assert (La1 : length a = sz) by (unfold a; rewrite up_len; exact La).
    assert (Ha : forall k, k < sz -> le_rep (rd 0%N a k) (u k)).
    { intros k Hk. unfold a, u, upper. rewrite up_slots by assumption. fold (up_at sz i k). destruct (up_at sz i k) eqn:E; [|now apply Hr].
      apply up_at_lt in E. apply plain_rep; apply Hr; lia. }
    assert (Fy : Forall (fun x => (x <= PR)%N) y).
    { apply Forall_forall. intros x Hx. apply (In_nth _ _ 0%N) in Hx. destruct Hx as (k & Hk & <-). rewrite Ly1 in Hk. apply (Hy k Hk). }
    rewrite <- Hs. pose proof (b2a_batch_le n (t_sp st) y Hn Fy) as P.
    destruct (b2a_batch_prv NN B C np_sz rb rp y (t_sp st)) as [ps s1]. destruct (b2a_batch_ver NN B C np_sz rk d (map fst ps) (t_sp st)) as [ks s2].
    destruct P as (P1 & P2 & P3 & <- & P5).
    change (fold_left x_down) with (fold_left (down a_prv_add)). change (fold_left k_down) with (fold_left (down a_ver_add)). change (fold_left a_down) with (fold_left (down plain_sum)).
    assert (Lx : length (map snd ps) = sz) by (rewrite map_length; congruence). assert (Lk : length ks = sz) by (rewrite <- (F2_len _ _ _ P1); exact Lx).
    assert (Hx : forall k, k < sz -> share_ok d (rd 0%N (map snd ps) k) (rd 0%N ks k) /\ hi64 (rd 0%N (map snd ps) k) = u k).
    { intros k Hk. split; [apply F2_at; [exact P1|lia]|]. rewrite <- (rd_map hi64) by lia. rewrite P2, (rd_map (fun x => (x mod PR)%N)) by lia. apply (Hy k Hk). }
    set (x' := fold_left (down a_prv_add) (slots sz i) (map snd ps)). set (k' := fold_left (down a_ver_add) (slots sz i) ks).
    set (a' := fold_left (down plain_sum) (slots sz i) a).
    assert (Hx' : forall k, k < sz -> share_ok d (rd 0%N x' k) (rd 0%N k' k) /\ hi64 (rd 0%N x' k) = conv_step madd sz v i k).
    { intros k Hk. unfold x', k', conv_step, lower. fold u. rewrite !down_slots by assumption. destruct (marked sz i k) eqn:E; [|now apply Hx].
      apply marked_lt in E. destruct (Hx (k + 1)) as [X1 X2]; [lia|]. destruct (Hx (k + 2)) as [Y1 Y2]; [lia|].
      destruct (gate_add _ _ _ _ _ Hd X1 Y1) as [G1 G2]. split; [exact G1|]. rewrite G2, X2, Y2. reflexivity. }
    assert (Ha' : forall k, k < sz -> le_rep (rd 0%N a' k) (conv_step madd sz v i k)).
    { intros k Hk. unfold a', conv_step, lower. fold u. rewrite down_slots by assumption. destruct (marked sz i k) eqn:E; [|now apply Ha].
      apply marked_lt in E. apply plain_rep; apply Ha; lia. }
    assert (Lx' : length x' = sz) by (unfold x'; now rewrite down_len). assert (Lk' : length k' = sz) by (unfold k'; now rewrite down_len).
    assert (La' : length a' = sz) by (unfold a'; now rewrite down_len).
    assert (F : Forall2 (share_ok d) x' k') by (apply F2_rd; [exact Lx'|exact Lk'|intros j Hj; now apply Hx']).
    assert (Ex : map hi64 x' = map (conv_step madd sz v i) (seq 0 sz)).
    { apply map_rd; [now rewrite map_length|]. intros j Hj. rewrite rd_map by lia. now apply Hx'. }
    pose proof (a2b_batch (n + length y) s1 x' k' P5 F) as Q.
    destruct (a2b_batch_prv NN B C np_sz rp x' s1) as [os s3]. destruct (a2b_batch_ver NN B C np_sz rk d k' (map fst os) s1) as [hv s4].
    destruct Q as (Q1 & Q2 & <- & Q4). split.
    - unfold t_inv. cbn [t_a t_y t_hp t_hv t_sp t_sv]. split; [exact La'|]. split; [rewrite Q2, map_length; exact Lx'|]. split; [now rewrite Hh, Q1|].
      split; [reflexivity|]. split; [eexists; exact Q4|]. intros k Hk. split; [now apply Ha'|]. rewrite Q2, rd_map by lia. destruct (Hx' k Hk) as [_ E]. rewrite E.
      destruct (Ha' k Hk) as (_ & Hu & _). split; [lia|]. split; [exact Hu|]. now apply N.mod_small.
    - unfold t_post. cbn [t_y t_x t_k]. rewrite Q2, Ex. split; [reflexivity|]. split; [reflexivity|exact F].
  Qed.
  Theorem run_ok a x0 k0 : length a = sz -> Forall (fun v => (v < PR)%N) a ->
    let st := t_run NN B C np_sz rb rp rk d sz a x0 k0 in let v := conv_mod sz a in
    t_y st = v /\ map hi64 (t_x st) = v /\ Forall2 (share_ok d) (t_x st) (t_k st) /\ t_hp st = t_hv st /\ Forall2 le_rep (t_a st) v.
  Proof.
    intros L F. cbv zeta. unfold t_run. cbn [seq flat_map app fold_left].
    set (s0 := {| t_a := a; t_y := _; t_x := x0; t_k := k0; t_hp := []; t_hv := []; t_sp := eda_init; t_sv := eda_init |}).
    assert (Y : map (fun v => v mod I62)%N a = a).
    { clear -F. induction F as [|v a H _ IH]; [reflexivity|]. cbn [map]. rewrite IH. f_equal. apply N.mod_small. now apply PR_I62. }
    assert (I0 : t_inv (fun k => nth k a 0%N) s0).
    { unfold t_inv, s0. cbn [t_a t_y t_hp t_hv t_sp t_sv]. rewrite Y. split; [exact L|]. split; [exact L|]. split; [reflexivity|]. split; [reflexivity|].
      split; [exists 0; reflexivity|]. intros k Hk. assert (U : (nth k a 0 < PR)%N) by (rewrite Forall_forall in F; apply F, nth_In; lia).
      assert (R : le_rep (rd 0%N a k) (nth k a 0%N)) by (split; [unfold rd; lia|]; split; [exact U|]; now apply N.mod_small). now split. }
    destruct (pass_ok _ _ 0 ltac:(lia) I0) as [I1 _]. destruct (pass_ok _ _ 1 ltac:(lia) I1) as [I2 _]. destruct (pass_ok _ _ 2 ltac:(lia) I2) as [I3 _].
    destruct (pass_ok _ _ 0 ltac:(lia) I3) as [I4 _]. destruct (pass_ok _ _ 1 ltac:(lia) I4) as [I5 _]. destruct (pass_ok _ _ 2 ltac:(lia) I5) as [I6 P6].
    clear I0 I1 I2 I3 I4 I5. destruct P6 as (P1 & P2 & P3). destruct I6 as (La & _ & Hh & _ & _ & Hr).
    split; [exact P1|]. split; [exact P2|]. split; [exact P3|]. split; [exact Hh|].
    apply F2_rd; [exact La|unfold conv_mod, conv_result; now rewrite map_length, seq_length|]. intros j Hj. destruct (Hr j Hj) as [R _].
    match goal with |- le_rep _ (rd 0%N ?w j) => replace (rd 0%N w j) with (fold_left (conv_step madd sz) [0; 1; 2; 0; 1; 2] (fun k => nth k a 0%N) j); [exact R|] end.
    unfold conv_mod, conv_result, rd. match goal with |- ?f j = _ => rewrite (nth_indep _ 0%N (f 0)) by now rewrite map_length, seq_length end.
    rewrite (map_nth _ (seq 0 sz) 0 j), seq_nth by exact Hj. reflexivity.
  Qed.
End Run.

(** * The plain copy alone *)
Lemma pass_a NN B C np_sz rb rp rk d sz st i :
  t_a (t_pass NN B C np_sz rb rp rk d sz st i) = fold_left (down plain_sum) (slots sz i) (fold_left (up plain_sum) (slots sz i) (t_a st)).
Proof.
  unfold t_pass. destruct (b2a_batch_prv _ _ _ _ _ _ _ _) as [ps sp]. destruct (b2a_batch_ver _ _ _ _ _ _ _ _) as [k sv].
  destruct (a2b_batch_prv _ _ _ _ _ _ _) as [os sp']. destruct (a2b_batch_ver _ _ _ _ _ _ _ _ _) as [hv sv']. reflexivity.
Qed.
Lemma passes_rd g sz is : Forall (fun i => i < 3) is -> forall l v, length l = sz -> (forall k, k < sz -> rd 0%N l k = v k) ->
  let r := fold_left (fun l i => fold_left (down g) (slots sz i) (fold_left (up g) (slots sz i) l)) is l in
  length r = sz /\ forall k, k < sz -> rd 0%N r k = fold_left (conv_step g sz) is v k.
Proof.
  induction 1 as [|i is Hi _ IH]; intros l v L H; cbn [fold_left]; [now split|]. apply IH.
  - now rewrite down_len, up_len.
  - intros k Hk. rewrite down_slots by (rewrite ?up_len; assumption). rewrite !up_slots by assumption. unfold conv_step, lower, upper. 
    change (fun k0 => (2 <=? k0) && marked sz i (k0 - 2)) with (up_at sz i). fold (up_at sz i k) (up_at sz i (k + 1)) (up_at sz i (k + 2)).
    assert (G : forall j, j < sz -> (if up_at sz i j then g (rd 0%N l (j - 1)) (rd 0%N l (j - 2)) else rd 0%N l j) = (if up_at sz i j then g (v (j - 1)) (v (j - 2)) else v j)).
    { intros j Hj. destruct (up_at sz i j) eqn:E; [|now apply H]. apply up_at_lt in E. now rewrite !H by lia. }
    destruct (marked sz i k) eqn:E; [|now apply G]. apply marked_lt in E. now rewrite !G by lia.
Qed.
Theorem run_a NN B C np_sz rb rp rk d sz a x0 k0 : length a = sz -> t_a (t_run NN B C np_sz rb rp rk d sz a x0 k0) = conv_result plain_sum sz a.
Proof.
  intro L. unfold t_run. cbn [seq flat_map app].
  assert (E : forall is st, t_a (fold_left (t_pass NN B C np_sz rb rp rk d sz) is st) =
    fold_left (fun l i => fold_left (down plain_sum) (slots sz i) (fold_left (up plain_sum) (slots sz i) l)) is (t_a st)).
  { induction is as [|i is IH]; intro st; [reflexivity|]. cbn [fold_left]. now rewrite IH, pass_a. }
  rewrite E. cbn [t_a]. destruct (passes_rd plain_sum sz [0; 1; 2; 0; 1; 2]) with (l := a) (v := fun k => nth k a 0%N) as [P1 P2].
  - repeat constructor.
  - exact L.
  - reflexivity.
  - unfold conv_result. apply map_rd; [exact P1|exact P2].
Qed.
(** small numbers are never reduced *)
Lemma step_small g sz i v w M : (forall a b, (a <= M * 2 -> b <= M * 2 -> g a b = a + b)%N) -> (forall k, v k = w k /\ (w k <= M)%N) ->
  forall k, conv_step g sz v i k = conv_step N.add sz w i k /\ (conv_step N.add sz w i k <= M * 4)%N.
Proof.
  intros G H. assert (U : forall k, upper g sz i v k = upper N.add sz i w k /\ (upper N.add sz i w k <= M * 2)%N).
  { intro k. unfold upper. destruct (_ && _); destruct (H k) as [E1 E2].
    - destruct (H (k - 1)) as [A1 A2], (H (k - 2)) as [B1 B2]. rewrite A1, B1, G by lia. split; [reflexivity|lia].
    - split; [exact E1|lia]. }
  intro k. unfold conv_step, lower. destruct (marked sz i k); destruct (U k) as [E1 E2].
  - destruct (U (k + 1)) as [A1 A2], (U (k + 2)) as [B1 B2]. rewrite A1, B1, G by lia. split; [reflexivity|lia].
  - split; [exact E1|lia].
Qed.
Lemma plain_small a b : (a + b <= PR)%N -> plain_sum a b = (a + b)%N.
Proof.
  intro H. unfold plain_sum. pose proof PR_val. rewrite N.mod_small by (change W64 with 18446744073709551616%N; lia). cbv zeta.
  now rewrite (proj2 (N.ltb_ge _ _) H).
Qed.
Theorem result_small sz a : Forall (fun v => (v < 2 ^ 31)%N) a ->
  conv_result plain_sum sz a = conv_int sz a /\ Forall (fun v => (v <= 2 ^ 43)%N) (conv_int sz a).
Proof.
  intro F. assert (H0 : forall k, nth k a 0%N = nth k a 0%N /\ (nth k a 0 <= 2 ^ 31)%N).
  { intro k. split; [reflexivity|]. destruct (Nat.lt_ge_cases k (length a)) as [L|L]; [|rewrite nth_overflow by exact L; lia].
    rewrite Forall_forall in F. apply N.lt_le_incl, F, nth_In, L. }
  assert (P : forall M : N, (M <= 2 ^ 41)%N -> forall u w, (u <= M * 2 -> w <= M * 2 -> plain_sum u w = u + w)%N).
  { intros M HM u w Hu Hw. apply plain_small. pose proof PR_val. change (2 ^ 41)%N with 2199023255552%N in HM. lia. }
  pose proof (step_small plain_sum sz 0 _ _ (2 ^ 31)%N (P (2 ^ 31)%N ltac:(discriminate)) H0) as H1. change (2 ^ 31 * 4)%N with (2 ^ 33)%N in H1.
  pose proof (step_small plain_sum sz 1 _ _ (2 ^ 33)%N (P (2 ^ 33)%N ltac:(discriminate)) H1) as H2. change (2 ^ 33 * 4)%N with (2 ^ 35)%N in H2.
  pose proof (step_small plain_sum sz 2 _ _ (2 ^ 35)%N (P (2 ^ 35)%N ltac:(discriminate)) H2) as H3. change (2 ^ 35 * 4)%N with (2 ^ 37)%N in H3.
  pose proof (step_small plain_sum sz 0 _ _ (2 ^ 37)%N (P (2 ^ 37)%N ltac:(discriminate)) H3) as H4. change (2 ^ 37 * 4)%N with (2 ^ 39)%N in H4.
  pose proof (step_small plain_sum sz 1 _ _ (2 ^ 39)%N (P (2 ^ 39)%N ltac:(discriminate)) H4) as H5. change (2 ^ 39 * 4)%N with (2 ^ 41)%N in H5.
  pose proof (step_small plain_sum sz 2 _ _ (2 ^ 41)%N (P (2 ^ 41)%N ltac:(discriminate)) H5) as H6. change (2 ^ 41 * 4)%N with (2 ^ 43)%N in H6.
  clear -H6. unfold conv_int, conv_result. cbn [fold_left]. split.
  - apply map_ext. intro k. apply H6.
  - apply Forall_forall. intros x Hx. apply in_map_iff in Hx. destruct Hx as (k & <- & _). apply H6.
Qed.
