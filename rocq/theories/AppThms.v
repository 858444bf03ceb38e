(** The test programs compute what they are meant to: plain evaluation of SIS. *)
From Coq Require Import NArith List Bool Arith Lia Ring.
From Verif Require Import Word FpModel ListUtil ArithModel ArithSpec AHideSpec AppModel AppSpec AppProofs.
Import ListNotations.
Ltac Zify.zify_post_hook ::= idtac.

Section Arrays.
  Variables (ins : list N) (Q : agate -> Prop).
  Local Notation V := (V ins). Local Notation W := (W ins). Local Notation good := (good ins Q). Local Notation holds := (holds ins).
  Lemma gx a b r outs ok st i g : good a b r outs ok (cx st) -> isobj g = true -> Q g -> (forall x, g = AIn x -> a < length ins) ->
    good (a + d_in g) (b + d_mul g) r outs ok (snd (obj g (cx st))) /\ W (snd (obj g (cx st))) = W (cx st) ++ [gval ins (cx st) g] /\
    length (W (cx st)) = next (cx st) /\
    cx (set_x i g st) = snd (obj g (cx st)) /\ cx (set_y i g st) = snd (obj g (cx st)) /\ cx (set_z i g st) = snd (obj g (cx st)).
  Proof. intros G H1 H2 H3. destruct (good_obj ins Q _ _ _ _ _ _ g G H1 H2 H3) as [A B]. destruct G. auto 6. Qed.
End Arrays.

Section SisEval.
  Variables (ins : list N) (Q : agate -> Prop) (n m : nat) (A s t : nat -> N).
  Hypothesis HQin : forall i, i < m -> Q (AIn (s i)).
  Hypothesis HQpub : Q (APub 0).
  Hypothesis HQmul : forall i j, Q (AMul i j).
  Hypothesis HQadd : forall i j, Q (AAdd i j).
  Hypothesis HQa : forall i j k, i < n -> j < m -> Q (AMulC k (A (i * m + j))).
  Hypothesis HQneg : forall k, Q (AMulC k (PR - 1)).
  Hypothesis HQchk : forall k i, i < n + m -> Q (ACheck k (sis_want n t i)).
  Local Notation V := (V ins). Local Notation W := (W ins). Local Notation good := (good ins Q). Local Notation holds := (holds ins).
  Definition xv (a j : nat) : N := (nth (a + j) ins 0 mod prm)%N.
  Definition row (a i k : nat) : N := (fsum k (fun j => A (i * m + j)%nat * xv a j) mod prm)%N.
  Definition yv (a k : nat) : N :=
    if Nat.ltb k n then row a k m else (((xv a (k - n) * xv a (k - n)) mod prm + (xv a (k - n) * (PR - 1)) mod prm) mod prm)%N.
  Lemma sis_init_ok a b st : a + m <= length ins -> good a b 0 [] true (cx st) ->
    let st' := sis_init n m s st in
    good (a + m) b 0 [] true (cx st') /\ holds (cx st') m (ax st') (xv a) /\ holds (cx st') (n + m) (ay st') (fun _ => 0%N).
  Proof.
    intros Ha G st'. unfold st', sis_init.
    assert (L1 : let s1 := for_ m (fun i => set_x i (AIn (s i))) st in good (a + m) b 0 [] true (cx s1) /\ holds (cx s1) m (ax s1) (xv a)).
    { cbv zeta. apply (for_ind (fun k s1 => good (a + k) b 0 [] true (cx s1) /\ holds (cx s1) k (ax s1) (xv a))).
      - rewrite Nat.add_0_r. split; [exact G|]. intros j Hj. lia.
      - intros i s1 Hi [G1 H1]. destruct (gx ins Q _ _ _ _ _ s1 i (AIn (s i)) G1 eq_refl (HQin i Hi)) as (G2 & E2 & Hl & Ex & _); [intros; lia|].
        rewrite Ex. cbn [d_in d_mul] in G2. rewrite Nat.add_0_r, <- Nat.add_assoc, Nat.add_1_r in G2. split; [exact G2|].
        apply (holds_push ins _ _ _ _ _ _ Hl E2 H1). cbn [gval]. destruct G1 as [_ Hi1 _ _ _ _ _]. rewrite Hi1. reflexivity. }
    cbv zeta in L1. set (s1 := for_ m (fun i => set_x i (AIn (s i))) st) in *. destruct L1 as [G1 H1].
    apply (for_ind (fun k s2 => good (a + m) b 0 [] true (cx s2) /\ holds (cx s2) m (ax s2) (xv a) /\ holds (cx s2) k (ay s2) (fun _ => 0%N))).
    - split; [exact G1|]. split; [exact H1|]. intros j Hj. lia.
    - intros i s2 Hi (G2 & HX & HY). destruct (gx ins Q _ _ _ _ _ s2 i (APub 0) G2 eq_refl HQpub) as (G3 & E3 & Hl & _ & Ey & _); [discriminate|].
      rewrite Ey. cbn [d_in d_mul] in G3. rewrite !Nat.add_0_r in G3. split; [exact G3|]. split.
      + exact (holds_obj ins _ _ _ _ _ _ Hl E3 HX).
      + apply (holds_push ins _ _ _ _ _ _ Hl E3 HY). reflexivity.
  Qed.
  Lemma sis_squares_ok a b st : good a b 0 [] true (cx st) -> forall x f, holds (cx st) m (ax st) x -> holds (cx st) (n + m) (ay st) f ->
    let st' := sis_squares m st in
    good a (b + m) 0 [] true (cx st') /\ holds (cx st') m (ax st') x /\ holds (cx st') (n + m) (ay st') f /\
    holds (cx st') m (az st') (fun j => (x j * x j) mod prm)%N.
  Proof.
    intros G x f HX HY st'. unfold st', sis_squares.
    apply (for_ind (fun k s2 => good a (b + k) 0 [] true (cx s2) /\ holds (cx s2) m (ax s2) x /\ holds (cx s2) (n + m) (ay s2) f /\
       holds (cx s2) k (az s2) (fun j => (x j * x j) mod prm)%N)).
    - rewrite Nat.add_0_r. split; [exact G|]. split; [exact HX|]. split; [exact HY|]. intros j Hj. lia.
    - intros i s2 Hi (G2 & HX2 & HY2 & HZ2).
      destruct (gx ins Q _ _ _ _ _ s2 i (AMul (ax s2 i) (ax s2 i)) G2 eq_refl (HQmul _ _)) as (G3 & E3 & Hl & _ & _ & Ez); [discriminate|].
      rewrite Ez. cbn [d_in d_mul] in G3. rewrite Nat.add_0_r, <- Nat.add_assoc, Nat.add_1_r in G3. split; [exact G3|]. split; [|split].
      + exact (holds_obj ins _ _ _ _ _ _ Hl E3 HX2).
      + exact (holds_obj ins _ _ _ _ _ _ Hl E3 HY2).
      + apply (holds_push ins _ _ _ _ _ _ Hl E3 HZ2). cbn [gval]. now rewrite (proj2 (HX2 i Hi)).
  Qed.
  Lemma sis_cell_ok a b st i j x f r : i < n -> j < m -> good a b 0 [] true (cx st) -> holds (cx st) m (ax st) x ->
    holds (cx st) (n + m) (ay st) f -> holds (cx st) m (az st) r ->
    let st' := sis_cell m A i j st in
    good a b 0 [] true (cx st') /\ holds (cx st') m (ax st') x /\ holds (cx st') m (az st') r /\
    holds (cx st') (n + m) (ay st') (fun k => if Nat.eqb k i then (f i + (x j * A (i * m + j)%nat) mod prm) mod prm else f k)%N.
  Proof.
    intros Hi Hj G HX HY HZ st'. unfold st', sis_cell. cbv zeta beta.
    destruct (good_obj ins Q _ _ _ _ _ _ (AMulC (ax st j) (A (i * m + j))) G eq_refl (HQa _ _ _ Hi Hj)) as [G1 E1]; [discriminate|].
    assert (Hl0 : length (W (cx st)) = next (cx st)) by (destruct G; assumption).
    pose proof (holds_obj ins _ _ _ _ _ _ Hl0 E1 HX) as HX1. pose proof (holds_obj ins _ _ _ _ _ _ Hl0 E1 HY) as HY1.
    pose proof (holds_obj ins _ _ _ _ _ _ Hl0 E1 HZ) as HZ1.
    cbn [d_in d_mul] in G1. rewrite !Nat.add_0_r in G1.
    pose proof (V_new ins _ _ _ E1) as Hv. rewrite Hl0 in Hv. cbn [gval] in Hv. rewrite (proj2 (HX j Hj)) in Hv.
    change (obj (AMulC (ax st j) (A (i * m + j))) (cx st)) with (next (cx st), snd (obj (AMulC (ax st j) (A (i * m + j))) (cx st))).
    set (c1 := snd (obj (AMulC (ax st j) (A (i * m + j))) (cx st))) in *. cbv iota.
    destruct (gx ins Q _ _ _ _ _ (with_cx st c1) i (AAdd (ay st i) (next (cx st))) G1 eq_refl (HQadd _ _)) as (G3 & E3 & Hl & _ & Ey & _); [discriminate|].
    rewrite Ey. cbn [d_in d_mul with_cx cx] in *. rewrite !Nat.add_0_r in G3. split; [exact G3|]. split; [|split].
    - exact (holds_obj ins _ _ _ _ _ _ Hl E3 HX1).
    - exact (holds_obj ins _ _ _ _ _ _ Hl E3 HZ1).
    - pose proof (holds_put ins _ _ _ _ _ _ i Hl E3 HY1) as K. cbn [gval] in K. rewrite (proj2 (HY1 i ltac:(lia))), Hv in K. exact K.
  Qed.
  Lemma sis_rows_ok a b st a0 r : good a b 0 [] true (cx st) -> holds (cx st) m (ax st) (xv a0) ->
    holds (cx st) (n + m) (ay st) (fun _ => 0%N) -> holds (cx st) m (az st) r ->
    let st' := sis_rows n m A st in
    good a b 0 [] true (cx st') /\ holds (cx st') m (ax st') (xv a0) /\ holds (cx st') m (az st') r /\
    holds (cx st') (n + m) (ay st') (fun k => if Nat.ltb k n then row a0 k m else 0%N).
  Proof.
    intros G HX HY HZ st'. unfold st', sis_rows.
    apply (for_ind (fun i s1 => good a b 0 [] true (cx s1) /\ holds (cx s1) m (ax s1) (xv a0) /\ holds (cx s1) m (az s1) r /\
       holds (cx s1) (n + m) (ay s1) (fun k => if Nat.ltb k i then row a0 k m else 0%N))).
    - split; [exact G|]. split; [exact HX|]. split; [exact HZ|]. exact HY.
    - intros i s1 Hi (G1 & HX1 & HZ1 & HY1).
      assert (K : let s2 := for_ m (sis_cell m A i) s1 in good a b 0 [] true (cx s2) /\ holds (cx s2) m (ax s2) (xv a0) /\ holds (cx s2) m (az s2) r /\
        holds (cx s2) (n + m) (ay s2) (fun k => if Nat.eqb k i then row a0 i m else if Nat.ltb k i then row a0 k m else 0%N)).
      { cbv zeta. apply (for_ind (fun j s2 => good a b 0 [] true (cx s2) /\ holds (cx s2) m (ax s2) (xv a0) /\ holds (cx s2) m (az s2) r /\
          holds (cx s2) (n + m) (ay s2) (fun k => if Nat.eqb k i then row a0 i j else if Nat.ltb k i then row a0 k m else 0%N))).
        - split; [exact G1|]. split; [exact HX1|]. split; [exact HZ1|]. apply (holds_ext ins _ _ _ _ _) with (2 := HY1).
          intros k _. destruct (Nat.eqb_spec k i) as [->|]; [|reflexivity]. rewrite Nat.ltb_irrefl. reflexivity.
        - intros j s2 Hj (G2 & HX2 & HZ2 & HY2).
          destruct (sis_cell_ok a b s2 i j _ _ _ Hi Hj G2 HX2 HY2 HZ2) as (G3 & HX3 & HZ3 & HY3).
          split; [exact G3|]. split; [exact HX3|]. split; [exact HZ3|]. apply (holds_ext ins _ _ _ _ _) with (2 := HY3).
          intros k _. destruct (Nat.eqb_spec k i) as [->|Hne]; [|destruct (Nat.eqb_spec k i); [contradiction|reflexivity]].
          rewrite Nat.eqb_refl. unfold row. cbn [fsum]. rewrite <- N.add_mod by exact prm_nz. f_equal. f_equal. apply N.mul_comm. }
      destruct K as (G2 & HX2 & HZ2 & HY2). split; [exact G2|]. split; [exact HX2|]. split; [exact HZ2|].
      apply (holds_ext ins _ _ _ _ _) with (2 := HY2). intros k _. destruct (Nat.eqb_spec k i) as [->|Hne].
      + replace (Nat.ltb i (S i)) with true by (symmetry; apply Nat.ltb_lt; lia). reflexivity.
      + destruct (Nat.ltb_spec k i), (Nat.ltb_spec k (S i)); try reflexivity; lia.
  Qed.
  Lemma sis_diffs_ok a b st a0 : good a b 0 [] true (cx st) -> holds (cx st) m (ax st) (xv a0) ->
    holds (cx st) (n + m) (ay st) (fun k => if Nat.ltb k n then row a0 k m else 0%N) ->
    holds (cx st) m (az st) (fun j => (xv a0 j * xv a0 j) mod prm)%N ->
    let st' := sis_diffs n m st in good a b 0 [] true (cx st') /\ holds (cx st') (n + m) (ay st') (yv a0).
  Proof.
    intros G HX HY HZ st'.
    assert (K : good a b 0 [] true (cx st') /\ (forall j, m <= j < m -> ax st' j < next (cx st') /\ V (cx st') (ax st' j) = xv a0 j) /\
       holds (cx st') m (az st') (fun j => (xv a0 j * xv a0 j) mod prm)%N /\
       holds (cx st') (n + m) (ay st') (fun k => if Nat.ltb k (n + m) then yv a0 k else 0%N)).
    { unfold st', sis_diffs.
      apply (for_ind (fun i s1 => good a b 0 [] true (cx s1) /\ (forall j, i <= j < m -> ax s1 j < next (cx s1) /\ V (cx s1) (ax s1 j) = xv a0 j) /\
         holds (cx s1) m (az s1) (fun j => (xv a0 j * xv a0 j) mod prm)%N /\
         holds (cx s1) (n + m) (ay s1) (fun k => if Nat.ltb k (n + i) then yv a0 k else 0%N))).
      - split; [exact G|]. split; [intros j Hj; apply HX; lia|]. split; [exact HZ|]. apply (holds_ext ins _ _ _ _ _) with (2 := HY).
        intros k _. rewrite Nat.add_0_r. unfold yv. destruct (Nat.ltb k n); reflexivity.
      - intros i s1 Hi (G1 & HX1 & HZ1 & HY1). cbv zeta.
        destruct (gx ins Q _ _ _ _ _ s1 i (AMulC (ax s1 i) (PR - 1)) G1 eq_refl (HQneg _)) as (G2 & E2 & Hl1 & Ex & _ & _); [discriminate|].
        set (s2 := set_x i (AMulC (ax s1 i) (PR - 1)) s1) in *.
        cbn [d_in d_mul gval] in *. rewrite !Nat.add_0_r in G2. rewrite (proj2 (HX1 i ltac:(lia))) in E2.
        assert (HX2 : forall j, S i <= j < m -> ax s2 j < next (cx s2) /\ V (cx s2) (ax s2 j) = xv a0 j).
        { intros j Hj. destruct (HX1 j ltac:(lia)) as [B1 B2]. change (ax s2 j) with (put (ax s1) i (next (cx s1)) j). unfold put.
          destruct (Nat.eqb_spec j i); [lia|]. rewrite Ex. cbn [obj snd next]. split; [lia|]. rewrite (V_keep ins _ _ _ _ E2) by lia. exact B2. }
        assert (Hv : V (cx s2) (ax s2 i) = ((xv a0 i * (PR - 1)) mod prm)%N).
        { change (ax s2 i) with (put (ax s1) i (next (cx s1)) i). unfold put. rewrite Nat.eqb_refl, Ex, <- Hl1. exact (V_new ins _ _ _ E2). }
        pose proof (holds_obj ins _ _ _ _ _ _ Hl1 E2 HZ1) as HZ2. pose proof (holds_obj ins _ _ _ _ _ _ Hl1 E2 HY1) as HY2.
        rewrite <- Ex in G2, E2, HZ2, HY2. change (az s1) with (az s2) in HZ2. change (ay s1) with (ay s2) in HY2.
        destruct (gx ins Q _ _ _ _ _ s2 (i + n) (AAdd (az s2 i) (ax s2 i)) G2 eq_refl (HQadd _ _)) as (G3 & E3 & Hl2 & _ & Ey & _); [discriminate|].
        cbn [d_in d_mul gval] in *. rewrite !Nat.add_0_r in G3. rewrite Hv, (proj2 (HZ2 i Hi)) in E3.
        rewrite Ey. split; [exact G3|]. split; [|split].
        + intros j Hj. destruct (HX2 j Hj) as [B1 B2]. cbn [ax set_y obj snd next]. split; [lia|]. rewrite (V_keep ins _ _ _ _ E3) by lia. exact B2.
        + exact (holds_obj ins _ _ _ _ _ _ Hl2 E3 HZ2).
        + pose proof (holds_put ins _ _ _ _ _ _ (i + n) Hl2 E3 HY2) as K. apply (holds_ext ins _ _ _ _ _) with (2 := K).
          intros k Hk. destruct (Nat.eqb_spec k (i + n)) as [->|Hne].
          * replace (Nat.ltb (i + n) (n + S i)) with true by (symmetry; apply Nat.ltb_lt; lia). unfold yv.
            replace (Nat.ltb (i + n) n) with false by (symmetry; apply Nat.ltb_ge; lia). rewrite Nat.add_sub. reflexivity.
          * destruct (Nat.ltb_spec k (n + i)), (Nat.ltb_spec k (n + S i)); try reflexivity; lia. }
    destruct K as (G1 & _ & _ & HY1). split; [exact G1|]. apply (holds_ext ins _ _ _ _ _) with (2 := HY1).
    intros k Hk. replace (Nat.ltb k (n + m)) with true by (symmetry; apply Nat.ltb_lt; lia). reflexivity.
  Qed.
  Lemma sis_round_ok a b st : a + m <= length ins -> good a b 0 [] true (cx st) ->
    let st' := sis_round n m A s st in good (a + m) (b + m) 0 [] true (cx st') /\ holds (cx st') (n + m) (ay st') (yv a).
  Proof.
    intros Ha G st'. unfold st', sis_round. destruct (sis_init_ok a b st Ha G) as (G1 & X1 & Y1).
    destruct (sis_squares_ok _ _ _ G1 _ _ X1 Y1) as (G2 & X2 & Y2 & Z2).
    destruct (sis_rows_ok _ _ _ _ _ G2 X2 Y2 Z2) as (G3 & X3 & Z3 & Y3).
    exact (sis_diffs_ok _ _ _ _ G3 X3 Y3 Z3).
  Qed.
  Lemma sis_good rounds : length ins = rounds * m -> 1 <= rounds ->
    exists c, code c = sis n m A s t rounds /\
      good (rounds * m) (rounds * m) 0 [] (forall_lt (n + m) (fun i => N.eqb (yv ((rounds - 1) * m) i) (sis_want n t i mod prm))) c.
  Proof.
    intros Hlen Hr. unfold sis. cbv zeta. set (st := for_ rounds (fun _ => sis_round n m A s) (arrs0 start)).
    assert (K : good (rounds * m) (rounds * m) 0 [] true (cx st) /\ (1 <= rounds -> holds (cx st) (n + m) (ay st) (yv ((rounds - 1) * m)))).
    { apply (for_ind (fun k s1 => good (k * m) (k * m) 0 [] true (cx s1) /\ (1 <= k -> holds (cx s1) (n + m) (ay s1) (yv ((k - 1) * m))))).
      - split; [exact (good_start ins Q)|lia].
      - intros k s1 Hk [G1 _]. assert (Hb : k * m + m <= length ins) by (rewrite Hlen, Nat.add_comm; exact (Nat.mul_le_mono_r (S k) rounds m Hk)).
        destruct (sis_round_ok _ _ _ Hb G1) as [G2 H2].
        replace (S k * m) with (k * m + m) by apply Nat.add_comm. split; [exact G2|]. intros _. rewrite Nat.sub_succ, Nat.sub_0_r. exact H2. }
    destruct K as [G H]. specialize (H Hr).
    exists (check_batch (n + m) (ay st) (sis_want n t) (cx st)). split; [reflexivity|].
    exact (proj1 (check_good ins Q _ _ _ _ _ _ _ _ _ _ G H (fun i Hi => HQchk _ i Hi))).
  Qed.
End SisEval.
