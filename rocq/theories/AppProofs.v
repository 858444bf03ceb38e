(** Plain evaluation of the programs built in AppModel. *)
From Coq Require Import NArith List Bool Arith Lia.
From Verif Require Import Word FpModel ListUtil ArithModel ArithSpec AHideSpec AppModel AppSpec.
Import ListNotations.
Ltac Zify.zify_post_hook ::= idtac.

Lemma prm_nz : prm <> 0%N. Proof. discriminate. Qed.
Lemma for_S {S : Type} n (body : nat -> S -> S) s : for_ (Datatypes.S n) body s = body n (for_ n body s).
Proof. unfold for_. rewrite seq_S, fold_left_app. reflexivity. Qed.
Lemma for_ind {S : Type} (P : nat -> S -> Prop) n body s :
  P 0 s -> (forall i s, i < n -> P i s -> P (Datatypes.S i) (body i s)) -> P n (for_ n body s).
Proof.
  intros H0 Hs. assert (K : forall k, k <= n -> P k (for_ k body s)).
  { induction k; intro Hk; [exact H0|]. rewrite for_S. apply Hs; [lia|]. apply IHk. lia. }
  apply K. lia.
Qed.
Lemma fsum_ext n f g : (forall i, i < n -> f i = g i) -> fsum n f = fsum n g.
Proof. induction n; intro H; [reflexivity|]. cbn [fsum]. rewrite IHn, H; [reflexivity| |]; intros; try apply H; lia. Qed.
Lemma forall_lt_iff n P : forall_lt n P = true <-> forall i, i < n -> P i = true.
Proof.
  unfold forall_lt. rewrite forallb_forall. split; intros H i Hi.
  - apply H. apply in_seq. lia.
  - apply in_seq in Hi. apply H. lia.
Qed.
Lemma forall_lt_S n P : forall_lt (S n) P = forall_lt n P && P n.
Proof. unfold forall_lt. rewrite seq_S, forallb_app. cbn. now rewrite andb_true_r. Qed.
Lemma forall_lt_ext n P Q : (forall i, i < n -> P i = Q i) -> forall_lt n P = forall_lt n Q.
Proof. induction n; intro H; [reflexivity|]. rewrite !forall_lt_S, IHn, H; [reflexivity| |]; intros; try apply H; lia. Qed.

Lemma awith_app c1 : forall ins c2, awith_inputs ins (c1 ++ c2) = awith_inputs ins c1 ++ awith_inputs (skipn (acount_in c1) ins) c2.
Proof.
  induction c1 as [|g c1 IH]; intros ins c2; [reflexivity|].
  destruct g; cbn [app awith_inputs acount_in]; try (rewrite IH; reflexivity).
  destruct ins as [|y ins]; cbn [app skipn]; rewrite IH; [|reflexivity]. now rewrite skipn_nil.
Qed.
Lemma acount_in_app c1 c2 : acount_in (c1 ++ c2) = acount_in c1 + acount_in c2.
Proof. induction c1 as [|g c1 IH]; [reflexivity|]. destruct g; cbn [app acount_in]; rewrite IH; reflexivity. Qed.
Lemma acount_mul_app c1 c2 : acount_mul (c1 ++ c2) = acount_mul c1 + acount_mul c2.
Proof. induction c1 as [|g c1 IH]; [reflexivity|]. destruct g; cbn [app acount_mul]; rewrite IH; reflexivity. Qed.
Lemma acount_rel_app c1 c2 : acount_rel (c1 ++ c2) = acount_rel c1 + acount_rel c2.
Proof. induction c1 as [|g c1 IH]; [reflexivity|]. destruct g; cbn [app acount_rel]; rewrite IH; reflexivity. Qed.

Section Eval.
  Variable ins : list N.
  Variable Q : agate -> Prop.
  Definition P (c : ctx) : apl := aplain (awith_inputs ins (code c)).
  Definition W (c : ctx) : list N := pl_w (P c).
  Definition V (c : ctx) (i : nat) : N := nth i (W c) 0%N.
  Record good (a b r : nat) (outs : list N) (ok : bool) (c : ctx) : Prop := {
    g_len : length (W c) = next c; g_in : acount_in (code c) = a; g_mul : acount_mul (code c) = b; g_rel : acount_rel (code c) = r;
    g_ok : pl_ok (P c) = ok; g_outs : pl_outs (P c) = outs; g_q : Forall Q (code c) }.
  Definition gval (c : ctx) (g : agate) : N :=
    match g with
    | AIn x => (nth (acount_in (code c)) ins 0 mod prm)%N
    | APub a => (a mod prm)%N
    | AAdd i j => ((V c i + V c j) mod prm)%N
    | AMulC i k => ((V c i * k) mod prm)%N
    | AMul i j => ((V c i * V c j) mod prm)%N
    | _ => 0%N
    end.
  Definition isobj (g : agate) : bool :=
    match g with AIn _ | APub _ | AAdd _ _ | AMulC _ _ | AMul _ _ => true | _ => false end.
  Definition d_in (g : agate) : nat := match g with AIn _ => 1 | _ => 0 end.
  Definition d_mul (g : agate) : nat := match g with AMul _ _ => 1 | _ => 0 end.
  Lemma P_snoc l g n : (forall x, g = AIn x -> acount_in l < length ins) ->
    P {| code := l ++ [g]; next := n |} =
    pl_step (aplain (awith_inputs ins l)) (match g with AIn _ => AIn (nth (acount_in l) ins 0%N) | _ => g end).
  Proof.
    intro H. unfold P. cbn [code]. rewrite awith_app. unfold aplain. rewrite fold_left_app.
    destruct g; try reflexivity. cbn [awith_inputs]. specialize (H _ eq_refl).
    destruct (skipn (acount_in l) ins) as [|y tl] eqn:E.
    - apply (f_equal (@length N)) in E. rewrite skipn_length in E. cbn in E. lia.
    - assert (Hy : nth (acount_in l) ins 0%N = y).
      { rewrite <- (firstn_skipn (acount_in l) ins) at 1. rewrite app_nth2 by (rewrite firstn_length; lia).
        rewrite firstn_length, Nat.min_l, Nat.sub_diag, E by lia. reflexivity. }
      now rewrite Hy.
  Qed.
  Lemma good_obj a b r outs ok c g : good a b r outs ok c -> isobj g = true -> Q g -> (forall x, g = AIn x -> a < length ins) ->
    good (a + d_in g) (b + d_mul g) r outs ok (snd (obj g c)) /\ W (snd (obj g c)) = W c ++ [gval c g].
  Proof.
    intros [Hl Hi Hm Hr Hk Ho Hq] Hg HQ Hin. unfold obj. cbn [snd].
    assert (E : P {| code := code c ++ [g]; next := S (next c) |} =
                {| pl_w := W c ++ [gval c g]; pl_outs := pl_outs (P c); pl_ok := pl_ok (P c) |}).
    { rewrite P_snoc by (intros x Ex; rewrite Hi; exact (Hin x Ex)). destruct g; try discriminate Hg; reflexivity. }
    split; [|unfold W at 1; now rewrite E].
    constructor; cbn [code next].
    - unfold W. rewrite E. cbn [pl_w]. rewrite app_length, Hl. cbn [length]. lia.
    - rewrite acount_in_app, Hi. destruct g; reflexivity.
    - rewrite acount_mul_app, Hm. destruct g; reflexivity.
    - rewrite acount_rel_app, Hr. destruct g; try discriminate Hg; cbn; lia.
    - rewrite E. exact Hk.
    - rewrite E. exact Ho.
    - apply Forall_app. split; [exact Hq|]. constructor; [exact HQ|constructor].
  Qed.

  (** array [arr] holds [f j] at the indices below [n] *)
  Definition holds (c : ctx) (n : nat) (arr : nat -> nat) (f : nat -> N) : Prop :=
    forall j, j < n -> arr j < next c /\ V c (arr j) = f j.
  Lemma V_keep c c' l i : W c' = W c ++ l -> i < length (W c) -> V c' i = V c i.
  Proof. intros E Hi. unfold V. rewrite E. now apply app_nth1. Qed.
  Lemma V_new c c' v : W c' = W c ++ [v] -> V c' (length (W c)) = v.
  Proof. intros E. unfold V. rewrite E, app_nth2, Nat.sub_diag by lia. reflexivity. Qed.
  Lemma holds_obj c n arr f g v : length (W c) = next c -> W (snd (obj g c)) = W c ++ [v] -> holds c n arr f -> holds (snd (obj g c)) n arr f.
  Proof.
    intros Hl E H j Hj. destruct (H j Hj) as [H1 H2]. cbn [obj snd next]. split; [lia|].
    rewrite (V_keep _ _ _ _ E) by lia. exact H2.
  Qed.
  Lemma holds_put c n arr f g v i : length (W c) = next c -> W (snd (obj g c)) = W c ++ [v] -> holds c n arr f ->
    holds (snd (obj g c)) n (put arr i (next c)) (fun j => if Nat.eqb j i then v else f j).
  Proof.
    intros Hl E H j Hj. unfold put. destruct (Nat.eqb_spec j i) as [->|Hne].
    - cbn [obj snd next]. split; [lia|]. rewrite <- Hl. exact (V_new _ _ _ E).
    - exact (holds_obj _ _ _ _ _ _ Hl E H j Hj).
  Qed.
  (** writing past the end extends the array *)
  Lemma holds_push c n arr f g v : length (W c) = next c -> W (snd (obj g c)) = W c ++ [v] -> holds c n arr f -> f n = v ->
    holds (snd (obj g c)) (S n) (put arr n (next c)) f.
  Proof.
    intros Hl E H Hv j Hj. unfold put. destruct (Nat.eqb_spec j n) as [->|Hne].
    - cbn [obj snd next]. split; [lia|]. rewrite <- Hl, Hv. exact (V_new _ _ _ E).
    - apply (holds_obj _ _ _ _ _ _ Hl E H j). lia.
  Qed.
  Lemma holds_ext c n arr f g : (forall j, j < n -> f j = g j) -> holds c n arr f -> holds c n arr g.
  Proof. intros E H j Hj. rewrite <- (E j Hj). exact (H j Hj). Qed.

  (** calls that create no object *)
  Definition gtest (c : ctx) (g : agate) : bool :=
    match g with
    | ACheck i e => N.eqb (V c i) (e mod prm)
    | AZero i => N.eqb (V c i) 0
    | APoly xs ys coeff => N.eqb (rel_value (map (V c) xs) (map (V c) ys) (tl coeff) (hd 0%N coeff)) 0
    | AInner xs ys k => N.eqb (rel_value (map (V c) xs) (map (V c) ys) (ones (length xs)) k) 0
    | _ => true
    end.
  Definition isq (g : agate) : bool := match g with AReveal _ | ACheck _ _ | AZero _ | APoly _ _ _ | AInner _ _ _ => true | _ => false end.
  Definition d_rel (g : agate) : nat := match g with APoly _ _ _ | AInner _ _ _ => 1 | _ => 0 end.
  Definition d_out (c : ctx) (g : agate) : list N := match g with AReveal i => [V c i] | _ => [] end.
  Lemma good_query a b r outs ok c g : good a b r outs ok c -> isq g = true -> Q g ->
    good a b (r + d_rel g) (outs ++ d_out c g) (ok && gtest c g) (query g c) /\ W (query g c) = W c.
  Proof.
    intros [Hl Hi Hm Hr Hk Ho Hq] Hg HQ. unfold query.
    assert (E : P {| code := code c ++ [g]; next := next c |} =
                {| pl_w := W c; pl_outs := outs ++ d_out c g; pl_ok := ok && gtest c g |}).
    { rewrite P_snoc by (intros x Ex; subst g; discriminate Hg). fold (P c). rewrite <- Ho, <- Hk.
      destruct g; try discriminate Hg; cbn [d_out gtest]; rewrite ?app_nil_r, ?andb_true_r; reflexivity. }
    split; [|unfold W at 1; now rewrite E].
    constructor; cbn [code next].
    - unfold W. rewrite E. exact Hl.
    - rewrite acount_in_app, Hi. destruct g; try discriminate Hg; cbn; lia.
    - rewrite acount_mul_app, Hm. destruct g; try discriminate Hg; cbn; lia.
    - rewrite acount_rel_app, Hr. destruct g; reflexivity.
    - now rewrite E.
    - now rewrite E.
    - apply Forall_app. split; [exact Hq|]. constructor; [exact HQ|constructor].
  Qed.
  Lemma V_query c g i : W (query g c) = W c -> V (query g c) i = V c i.
  Proof. intro E. unfold V. now rewrite E. Qed.
  Lemma good_start : good 0 0 0 [] true start.
  Proof. constructor; try reflexivity. constructor. Qed.

  Lemma check_good a b r outs ok c len arr e f : good a b r outs ok c -> holds c len arr f -> (forall i, i < len -> Q (ACheck (arr i) (e i))) ->
    good a b r outs (ok && forall_lt len (fun i => N.eqb (f i) (e i mod prm))) (check_batch len arr e c) /\ W (check_batch len arr e c) = W c.
  Proof.
    intros G H HQ. unfold check_batch.
    apply (for_ind (fun k c' => good a b r outs (ok && forall_lt k (fun i => N.eqb (f i) (e i mod prm))) c' /\ W c' = W c)).
    - split; [|reflexivity]. unfold forall_lt. cbn. rewrite andb_true_r. exact G.
    - intros i c' Hi [G' E']. destruct (good_query _ _ _ _ _ _ (ACheck (arr i) (e i)) G' eq_refl (HQ i Hi)) as [G2 E2].
      cbn [d_rel d_out gtest] in G2. rewrite Nat.add_0_r, app_nil_r in G2.
      replace (V c' (arr i)) with (f i) in G2 by (unfold V; rewrite E'; symmetry; exact (proj2 (H i Hi))).
      rewrite <- andb_assoc, <- forall_lt_S in G2. split; [exact G2|]. now rewrite E2.
  Qed.
  Lemma zero_good a b r outs ok c len arr f : good a b r outs ok c -> holds c len arr f -> (forall i, i < len -> Q (AZero (arr i))) ->
    good a b r outs (ok && forall_lt len (fun i => N.eqb (f i) 0)) (zero_batch len arr c) /\ W (zero_batch len arr c) = W c.
  Proof.
    intros G H HQ. unfold zero_batch.
    apply (for_ind (fun k c' => good a b r outs (ok && forall_lt k (fun i => N.eqb (f i) 0)) c' /\ W c' = W c)).
    - split; [|reflexivity]. unfold forall_lt. cbn. rewrite andb_true_r. exact G.
    - intros i c' Hi [G' E']. destruct (good_query _ _ _ _ _ _ (AZero (arr i)) G' eq_refl (HQ i Hi)) as [G2 E2].
      cbn [d_rel d_out gtest] in G2. rewrite Nat.add_0_r, app_nil_r in G2.
      replace (V c' (arr i)) with (f i) in G2 by (unfold V; rewrite E'; symmetry; exact (proj2 (H i Hi))).
      rewrite <- andb_assoc, <- forall_lt_S in G2. split; [exact G2|]. now rewrite E2.
  Qed.
  Lemma reveal_good a b r outs ok c len arr f : good a b r outs ok c -> holds c len arr f -> (forall i, i < len -> Q (AReveal (arr i))) ->
    good a b r (outs ++ map f (seq 0 len)) ok (reveal_batch len arr c) /\ W (reveal_batch len arr c) = W c.
  Proof.
    intros G H HQ. unfold reveal_batch.
    apply (for_ind (fun k c' => good a b r (outs ++ map f (seq 0 k)) ok c' /\ W c' = W c)).
    - split; [|reflexivity]. cbn. rewrite app_nil_r. exact G.
    - intros i c' Hi [G' E']. destruct (good_query _ _ _ _ _ _ (AReveal (arr i)) G' eq_refl (HQ i Hi)) as [G2 E2].
      cbn [d_rel d_out gtest] in G2. rewrite Nat.add_0_r, andb_true_r in G2.
      replace (V c' (arr i)) with (f i) in G2 by (unfold V; rewrite E'; symmetry; exact (proj2 (H i Hi))).
      rewrite <- app_assoc in G2. split; [|now rewrite E2]. rewrite seq_S, map_app. exact G2.
  Qed.
End Eval.
