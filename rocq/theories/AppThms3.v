(** zk_proof.cpp, inner_prdt.cpp and polynomial.cpp. *)
From Coq Require Import NArith List Bool Arith Lia Ring.
From Verif Require Import Word FpModel WordProofs FpProofs ListUtil Prime61 ArithModel ArithSpec AHideSpec AppModel AppSpec AppProofs AppThms AppThms2.
Import ListNotations.
Ltac Zify.zify_post_hook ::= idtac.
Add Ring fp_ring_app3 : fp_rt.

Fixpoint chain_pair (n : nat) (p : N * N) : N * N :=
  match n with 0 => p | S k => let q := chain_pair k p in let b := ((snd q + fst q) mod prm)%N in ((b * fst q) mod prm, b)%N end.
Lemma chain_pair_shift n p : chain_pair (S n) p = chain_pair n (chain_pair 1 p).
Proof. induction n; [reflexivity|]. cbn [chain_pair] in *. rewrite <- IHn. reflexivity. Qed.
Lemma chain_val_pair n : forall a b, chain_val n a b = ((fst (chain_pair n (a, b)) * snd (chain_pair n (a, b)) + fst (chain_pair n (a, b))) mod prm)%N.
Proof. induction n; intros a b; [reflexivity|]. rewrite chain_pair_shift. cbn [chain_val]. rewrite IHn. reflexivity. Qed.

Section Zk.
  Variables (ins : list N) (Q : agate -> Prop) (n : nat) (a0 b0 cr : N) (sz : nat) (d e f ee : nat -> N).
  Hypothesis HQ0 : Q (AIn a0) /\ Q (AIn b0) /\ Q (APub 4) /\ Q (APub (PR - 1)).
  Hypothesis HQin : forall i, i < sz -> Q (AIn (d i)) /\ Q (AIn (e i)) /\ Q (AIn (f i)).
  Hypothesis HQmul : forall i j, Q (AMul i j).
  Hypothesis HQadd : forall i j, Q (AAdd i j).
  Hypothesis HQcr : forall k, Q (ACheck k cr).
  Hypothesis HQchk : forall k i, i < sz -> Q (ACheck k (ee i)).
  Hypothesis HQrev : forall k, Q (AReveal k).
  Hypothesis HQzero : forall k, Q (AZero k).
  Local Notation V := (V ins). Local Notation W := (W ins). Local Notation good := (good ins Q). Local Notation holds := (holds ins).
  Definition iv (i : nat) : N := (nth i ins 0 mod prm)%N.
  Definition has (c : ctx) (i : nat) (v : N) : Prop := i < next c /\ V c i = v.
  Lemma new_obj a b r outs ok c g : good a b r outs ok c -> isobj g = true -> Q g -> (forall x, g = AIn x -> a < length ins) ->
    let c' := snd (obj g c) in good (a + d_in g) (b + d_mul g) r outs ok c' /\ has c' (next c) (gval ins c g) /\
    (forall i v, has c i v -> has c' i v) /\ (forall k arr h, holds c k arr h -> holds c' k arr h).
  Proof.
    intros G H1 H2 H3 c'. destruct (good_obj ins Q _ _ _ _ _ _ g G H1 H2 H3) as [G1 E1]. pose proof (g_len _ _ _ _ _ _ _ _ G) as L.
    split; [exact G1|]. split; [|split].
    - split; [cbn; lia|]. rewrite <- L. exact (V_new ins _ _ _ E1).
    - intros i v [B1 B2]. split; [cbn [c' obj snd next]; lia|]. unfold c'. rewrite (V_keep ins _ _ _ _ E1) by lia. exact B2.
    - intros k arr h. exact (holds_obj ins _ _ _ _ _ _ L E1).
  Qed.
  Lemma chain_good : 2 <= length ins ->
    let c := chain n a0 b0 cr start in
    good 2 (n + 1) 0 [] (N.eqb (chain_val n (iv 0) (iv 1)) (cr mod prm)) c.
  Proof.
    intros Hlen. cbv zeta. destruct HQ0 as (q1 & q2 & q3 & _). unfold chain.
    destruct (new_obj _ _ _ _ _ _ (AIn a0) (good_start ins Q) eq_refl q1) as (G1 & N1 & _ & _); [intros; lia|].
    cbn [gval] in N1. change (acount_in (code start)) with 0 in N1. fold (iv 0) in N1.
    change (obj (AIn a0) start) with (next start, snd (obj (AIn a0) start)). set (c1 := snd (obj (AIn a0) start)) in *. cbv iota.
    destruct (new_obj _ _ _ _ _ _ (AIn b0) G1 eq_refl q2) as (G2 & N2 & K2 & _); [cbn; intros; lia|].
    cbn [gval] in N2. change (acount_in (code c1)) with 1 in N2. fold (iv 1) in N2. apply K2 in N1.
    change (obj (AIn b0) c1) with (next c1, snd (obj (AIn b0) c1)). set (c2 := snd (obj (AIn b0) c1)) in *. cbv iota.
    destruct (new_obj _ _ _ _ _ _ (APub 4) G2 eq_refl q3) as (G3 & _ & K3 & _); [discriminate|]. apply K3 in N1. apply K3 in N2.
    change (obj (APub 4) c2) with (next c2, snd (obj (APub 4) c2)). set (c3 := snd (obj (APub 4) c2)) in *. cbv iota.
    cbn [d_in d_mul Nat.add] in G3.
    assert (L : let '(a, b, c) := for_ n ch_step (next start, next c1, c3) in
       good 2 n 0 [] true c /\ has c a (fst (chain_pair n (iv 0, iv 1))) /\ has c b (snd (chain_pair n (iv 0, iv 1)))).
    { apply (for_ind (fun k (s : nat * nat * ctx) => let '(a, b, c) := s in
        good 2 k 0 [] true c /\ has c a (fst (chain_pair k (iv 0, iv 1))) /\ has c b (snd (chain_pair k (iv 0, iv 1))))).
      - split; [exact G3|]. split; [exact N1|exact N2].
      - intros k [[a b] c] Hk (G & HA & HB). unfold ch_step. cbn [chain_pair].
        destruct (new_obj _ _ _ _ _ _ (AAdd b a) G eq_refl (HQadd _ _)) as (G4 & N4 & K4 & _); [discriminate|].
        cbn [gval] in N4. rewrite (proj2 HB), (proj2 HA) in N4. apply K4 in HA.
        change (obj (AAdd b a) c) with (next c, snd (obj (AAdd b a) c)). set (c4 := snd (obj (AAdd b a) c)) in *. cbv iota.
        destruct (new_obj _ _ _ _ _ _ (AMul (next c) a) G4 eq_refl (HQmul _ _)) as (G5 & N5 & K5 & _); [discriminate|].
        cbn [gval] in N5. rewrite (proj2 N4), (proj2 HA) in N5. apply K5 in N4.
        change (obj (AMul (next c) a) c4) with (next c4, snd (obj (AMul (next c) a) c4)). cbv iota.
        cbn [d_in d_mul] in G5. rewrite !Nat.add_0_r, Nat.add_1_r in G5. split; [exact G5|]. split; [exact N5|exact N4]. }
    destruct (for_ n ch_step (next start, next c1, c3)) as [[a b] c]. destruct L as (G & HA & HB).
    destruct (new_obj _ _ _ _ _ _ (AMul a b) G eq_refl (HQmul _ _)) as (G4 & N4 & K4 & _); [discriminate|].
    cbn [gval] in N4. rewrite (proj2 HA), (proj2 HB) in N4. apply K4 in HA.
    change (obj (AMul a b) c) with (next c, snd (obj (AMul a b) c)). set (c4 := snd (obj (AMul a b) c)) in *. cbv iota.
    destruct (new_obj _ _ _ _ _ _ (AAdd (next c) a) G4 eq_refl (HQadd _ _)) as (G5 & N5 & _ & _); [discriminate|].
    cbn [gval] in N5. rewrite (proj2 N4), (proj2 HA) in N5.
    change (obj (AAdd (next c) a) c4) with (next c4, snd (obj (AAdd (next c) a) c4)). set (c5 := snd (obj (AAdd (next c) a) c4)) in *. cbv iota.
    cbn [d_in d_mul] in G5. rewrite !Nat.add_0_r in G5.
    destruct (good_query ins Q _ _ _ _ _ _ (ACheck (next c4) cr) G5 eq_refl (HQcr _)) as [G6 _].
    cbn [d_rel d_out gtest app andb] in G6. rewrite Nat.add_0_r in G6. rewrite (proj2 N5) in G6. rewrite chain_val_pair.
    rewrite (N.add_mod_idemp_l _ _ _ prm_nz) in G6. exact G6.
  Qed.
  Definition tx (i : nat) : N := iv (2 + 3 * i).
  Definition ty (i : nat) : N := iv (3 + 3 * i).
  Definition tz (i : nat) : N := iv (4 + 3 * i).
  Definition vd (i : nat) : N := ((tx i * ty i) mod prm)%N.
  Definition ve (i : nat) : N := ((vd i + ty i) mod prm)%N.
  Definition vf (i : nat) : N := ((ve i + ((PR - 1) mod prm * tz i) mod prm) mod prm)%N.
  Lemma zk_items_good b ok c : 2 + 3 * sz <= length ins -> good 2 b 0 [] ok c ->
    let st := zk_items sz d e f c in
    good (2 + 3 * sz) (b + 2 * sz) 0 [] ok (cx st) /\ holds (cx st) sz (ax st) vd /\ holds (cx st) sz (ay st) ve /\ holds (cx st) sz (az st) vf.
  Proof.
    intros Hlen G st. unfold st, zk_items. destruct HQ0 as (_ & _ & _ & qp).
    destruct (new_obj _ _ _ _ _ _ (APub (PR - 1)) G eq_refl qp) as (G1 & N1 & _ & _); [discriminate|].
    change (obj (APub (PR - 1)) c) with (next c, snd (obj (APub (PR - 1)) c)). set (c1 := snd (obj (APub (PR - 1)) c)) in *. cbv iota.
    cbn [d_in d_mul gval] in *. rewrite !Nat.add_0_r in G1.
    assert (K : let s := for_ sz (zk_item d e f (next c)) (arrs0 c1) in
      good (2 + 3 * sz) (b + 2 * sz) 0 [] ok (cx s) /\ has (cx s) (next c) ((PR - 1) mod prm)%N /\
      holds (cx s) sz (ax s) vd /\ holds (cx s) sz (ay s) ve /\ holds (cx s) sz (az s) vf); [|cbv zeta in K; tauto].
    cbv zeta. apply (for_ind (fun k s => good (2 + 3 * k) (b + 2 * k) 0 [] ok (cx s) /\ has (cx s) (next c) ((PR - 1) mod prm)%N /\
      holds (cx s) k (ax s) vd /\ holds (cx s) k (ay s) ve /\ holds (cx s) k (az s) vf)).
    { cbn [arrs0 cx]. replace (b + 2 * 0) with b by (symmetry; apply Nat.add_0_r). split; [exact G1|]. split; [exact N1|]. repeat split; lia. }
    intros i s Hi (G2 & NP & HX & HY & HZ). destruct (HQin i Hi) as (q1 & q2 & q3).
    unfold zk_item. cbv zeta.
    set (s1 := set_x i (AIn (d i)) s). set (s2 := set_y i (AIn (e i)) s1). set (s3 := set_x i (AMul (ax s2 i) (ay s2 i)) s2).
    set (s4 := set_y i (AAdd (ax s3 i) (ay s3 i)) s3). set (s5 := set_z i (AIn (f i)) s4). set (s6 := set_z i (AMul (next c) (az s5 i)) s5).
    set (s7 := set_z i (AAdd (ay s6 i) (az s6 i)) s6).
    assert (A1 : ax s2 i = next (cx s)) by (cbn; unfold put; now rewrite Nat.eqb_refl).
    assert (A2 : ay s2 i = next (cx s1)) by (cbn; unfold put; now rewrite Nat.eqb_refl).
    assert (A3 : ax s3 i = next (cx s2)) by (unfold s3; cbn [set_x ax]; unfold put; now rewrite Nat.eqb_refl).
    assert (A4 : ay s3 i = next (cx s1)) by (exact A2).
    assert (A5 : az s5 i = next (cx s4)) by (unfold s5; cbn [set_z az]; unfold put; now rewrite Nat.eqb_refl).
    assert (A6 : ay s6 i = next (cx s3)) by (change (ay s6 i) with (ay s4 i); unfold s4; cbn [set_y ay]; unfold put; now rewrite Nat.eqb_refl).
    assert (A7 : az s6 i = next (cx s5)) by (unfold s6; cbn [set_z az]; unfold put; now rewrite Nat.eqb_refl).
    (* 1 *)
    destruct (new_obj _ _ _ _ _ _ (AIn (d i)) G2 eq_refl q1) as (G3 & M1 & K1 & H1); [intros; lia|].
    cbn [gval] in M1. rewrite (g_in _ _ _ _ _ _ _ _ G2) in M1. change (has (snd (obj (AIn (d i)) (cx s))) (next (cx s)) (tx i)) in M1.
    change (snd (obj (AIn (d i)) (cx s))) with (cx s1) in *. cbn [d_in d_mul] in G3. apply K1 in NP.
    apply H1 in HX. apply H1 in HY. apply H1 in HZ. clear K1 H1 G2.
    (* 2 *)
    destruct (new_obj _ _ _ _ _ _ (AIn (e i)) G3 eq_refl q2) as (G4 & M2 & K2 & H2); [intros; lia|].
    cbn [gval] in M2. rewrite (g_in _ _ _ _ _ _ _ _ G3) in M2. replace (2 + 3 * i + 1) with (3 + 3 * i) in M2 by lia.
    change (has (snd (obj (AIn (e i)) (cx s1))) (next (cx s1)) (ty i)) in M2.
    change (snd (obj (AIn (e i)) (cx s1))) with (cx s2) in *. cbn [d_in d_mul] in G4. apply K2 in NP. apply K2 in M1.
    apply H2 in HX. apply H2 in HY. apply H2 in HZ. clear K2 H2 G3.
    (* 3 *)
    destruct (new_obj _ _ _ _ _ _ (AMul (ax s2 i) (ay s2 i)) G4 eq_refl (HQmul _ _)) as (G5 & M3 & K3 & H3); [discriminate|].
    cbn [gval] in M3. rewrite A1, A2, (proj2 M1), (proj2 M2), <- A1, <- A2 in M3. fold (vd i) in M3.
    change (snd (obj (AMul (ax s2 i) (ay s2 i)) (cx s2))) with (cx s3) in *. cbn [d_in d_mul] in G5. apply K3 in NP. apply K3 in M2.
    apply H3 in HX. apply H3 in HY. apply H3 in HZ. clear K3 H3 G4 M1.
    (* 4 *)
    destruct (new_obj _ _ _ _ _ _ (AAdd (ax s3 i) (ay s3 i)) G5 eq_refl (HQadd _ _)) as (G6 & M4 & K4 & H4); [discriminate|].
    cbn [gval] in M4. rewrite A3, A4, (proj2 M3), (proj2 M2), <- A3, <- A4 in M4. fold (ve i) in M4.
    change (snd (obj (AAdd (ax s3 i) (ay s3 i)) (cx s3))) with (cx s4) in *. cbn [d_in d_mul] in G6. apply K4 in NP. apply K4 in M3.
    apply H4 in HX. apply H4 in HY. apply H4 in HZ. clear K4 H4 G5 M2.
    (* 5 *)
    destruct (new_obj _ _ _ _ _ _ (AIn (f i)) G6 eq_refl q3) as (G7 & M5 & K5 & H5); [intros; lia|].
    cbn [gval] in M5. rewrite (g_in _ _ _ _ _ _ _ _ G6) in M5. replace (2 + 3 * i + 1 + 1 + 0 + 0) with (4 + 3 * i) in M5 by lia.
    change (has (snd (obj (AIn (f i)) (cx s4))) (next (cx s4)) (tz i)) in M5.
    change (snd (obj (AIn (f i)) (cx s4))) with (cx s5) in *. cbn [d_in d_mul] in G7. apply K5 in NP. apply K5 in M3. apply K5 in M4.
    apply H5 in HX. apply H5 in HY. apply H5 in HZ. clear K5 H5 G6.
    (* 6 *)
    destruct (new_obj _ _ _ _ _ _ (AMul (next c) (az s5 i)) G7 eq_refl (HQmul _ _)) as (G8 & M6 & K6 & H6); [discriminate|].
    cbn [gval] in M6. rewrite A5, (proj2 NP), (proj2 M5), <- A5 in M6.
    change (snd (obj (AMul (next c) (az s5 i)) (cx s5))) with (cx s6) in *. cbn [d_in d_mul] in G8. apply K6 in NP. apply K6 in M3. apply K6 in M4.
    apply H6 in HX. apply H6 in HY. apply H6 in HZ. clear K6 H6 G7 M5.
    (* 7 *)
    destruct (new_obj _ _ _ _ _ _ (AAdd (ay s6 i) (az s6 i)) G8 eq_refl (HQadd _ _)) as (G9 & M7 & K7 & H7); [discriminate|].
    cbn [gval] in M7. rewrite A6, A7, (proj2 M4), (proj2 M6), <- A6, <- A7 in M7. fold (vf i) in M7.
    change (snd (obj (AAdd (ay s6 i) (az s6 i)) (cx s6))) with (cx s7) in *. cbn [d_in d_mul] in G9. apply K7 in NP. apply K7 in M3. apply K7 in M4.
    apply H7 in HX. apply H7 in HY. apply H7 in HZ. clear K7 H7 G8 M6.
    split; [|split; [exact NP|]].
    { replace (2 + 3 * S i) with (2 + 3 * i + 1 + 1 + 0 + 0 + 1 + 0 + 0) by lia.
      replace (b + 2 * S i) with (b + 2 * i + 0 + 0 + 1 + 0 + 0 + 1 + 0) by lia. exact G9. }
    assert (B1 : forall j, ax s7 j = if Nat.eqb j i then next (cx s2) else ax s j).
    { intro j. change (ax s7 j) with (put (ax s2) i (next (cx s2)) j). change (ax s2) with (put (ax s) i (next (cx s))). unfold put.
      destruct (Nat.eqb j i); reflexivity. }
    assert (B2 : forall j, ay s7 j = if Nat.eqb j i then next (cx s3) else ay s j).
    { intro j. change (ay s7 j) with (put (ay s3) i (next (cx s3)) j). change (ay s3) with (put (ay s) i (next (cx s1))). unfold put.
      destruct (Nat.eqb j i); reflexivity. }
    assert (B3 : forall j, az s7 j = if Nat.eqb j i then next (cx s6) else az s j).
    { intro j. change (az s7 j) with (put (put (put (az s) i (next (cx s4))) i (next (cx s5))) i (next (cx s6)) j). unfold put.
      destruct (Nat.eqb j i); reflexivity. }
    split; [|split]; intros j Hj.
    - rewrite B1. destruct (Nat.eqb_spec j i) as [->|]; [exact M3|apply HX; lia].
    - rewrite B2. destruct (Nat.eqb_spec j i) as [->|]; [exact M4|apply HY; lia].
    - rewrite B3. destruct (Nat.eqb_spec j i) as [->|]; [exact M7|apply HZ; lia].
  Qed.
  Lemma holds_W c c' k arr h : W c' = W c -> next c' = next c -> holds c k arr h -> holds c' k arr h.
  Proof. intros E1 E2 H j Hj. rewrite E2. unfold V, AppProofs.V. rewrite E1. exact (H j Hj). Qed.
  Lemma batch_next {A : Type} k (g : nat -> agate) c0 : next (for_ k (fun i c => query (g i) c) c0) = next c0.
  Proof. apply (for_ind (fun _ c => next c = next c0)); [reflexivity|]. intros i c _ H. exact H. Qed.
  Lemma zk_good : length ins = 2 + 3 * sz ->
    exists c, code c = zk_proof n a0 b0 cr sz d e f ee /\
      good (2 + 3 * sz) (n + 1 + 2 * sz) 0 (map vd (seq 0 sz))
        (N.eqb (chain_val n (iv 0) (iv 1)) (cr mod prm) && forall_lt sz (fun i => N.eqb (ve i) (ee i mod prm)) && forall_lt sz (fun i => N.eqb (vf i) 0)) c.
  Proof.
    intro Hlen. pose proof (chain_good ltac:(lia)) as G. cbv zeta in G.
    destruct (zk_items_good _ _ _ ltac:(lia) G) as (G1 & HX & HY & HZ). unfold zk_proof. cbv zeta.
    set (st := zk_items sz d e f (chain n a0 b0 cr start)) in *.
    destruct (reveal_good ins Q _ _ _ _ _ _ _ _ _ G1 HX (fun i _ => HQrev _)) as [G2 E2].
    set (c2 := reveal_batch sz (ax st) (cx st)) in *.
    assert (N2 : next c2 = next (cx st)) by exact (batch_next (A := unit) sz (fun i => AReveal (ax st i)) (cx st)).
    destruct (check_good ins Q _ _ _ _ _ _ _ _ _ _ G2 (holds_W _ _ _ _ _ E2 N2 HY) (fun i Hi => HQchk _ i Hi)) as [G3 E3].
    set (c3 := check_batch sz (ay st) ee c2) in *.
    assert (N3 : next c3 = next c2) by exact (batch_next (A := unit) sz (fun i => ACheck (ay st i) (ee i)) c2).
    assert (E3' : W c3 = W (cx st)) by (rewrite E3; exact E2). assert (N3' : next c3 = next (cx st)) by (rewrite N3; exact N2).
    destruct (zero_good ins Q _ _ _ _ _ _ _ _ _ G3 (holds_W _ _ _ _ _ E3' N3' HZ) (fun i Hi => HQzero _)) as [G4 _].
    exists (zero_batch sz (az st) c3). split; [reflexivity|exact G4].
  Qed.
End Zk.

Lemma neg_iff x z : (z < prm)%N -> N.eqb ((x mod prm + ((PR - 1) mod prm * z) mod prm) mod prm) 0 = eqm x z.
Proof.
  intro Hz. unfold eqm. rewrite <- N.add_mod by exact prm_nz. apply eq_true_iff_eq. rewrite !N.eqb_eq. change ((PR - 1) mod prm)%N with (PR - 1)%N. split.
  - intro E. assert (F : toF (x + (PR - 1) * z) = toF 0) by (apply toF_eq; exact E).
    rewrite toF_add, toF_mul in F. rewrite (toF_sub PR 1) in F by discriminate. rewrite toF_PR in F. change (toF 0) with p0 in F. change (toF 1) with p1 in F.
    assert (F' : toF x = toF z) by (transitivity (padd (padd (toF x) (pmul (psub p0 p1) (toF z))) (toF z)); [ring|rewrite F; ring]).
    apply toF_eq in F'. exact F'.
  - intro E. assert (F : toF x = toF z) by (apply toF_eq; exact E).
    assert (F' : toF (x + (PR - 1) * z) = toF 0).
    { rewrite toF_add, toF_mul, (toF_sub PR 1) by discriminate. rewrite toF_PR, F. change (toF 0) with p0. change (toF 1) with p1. ring. }
    apply toF_eq in F'. exact F'.
Qed.
Lemma zk_plain n a0 b0 cr sz d e f ee ins (Q : agate -> Prop) : length ins = 2 + 3 * sz -> Forall canon ins ->
  Q (AIn a0) /\ Q (AIn b0) /\ Q (APub 4) /\ Q (APub (PR - 1)) -> (forall i, i < sz -> Q (AIn (d i)) /\ Q (AIn (e i)) /\ Q (AIn (f i))) ->
  (forall i j, Q (AMul i j)) -> (forall i j, Q (AAdd i j)) -> (forall k, Q (ACheck k cr)) -> (forall k i, i < sz -> Q (ACheck k (ee i))) ->
  (forall k, Q (AReveal k)) -> (forall k, Q (AZero k)) ->
  let c := zk_proof n a0 b0 cr sz d e f ee in
  let q := aplain (awith_inputs ins c) in
  pl_outs q = map (fun i => nth (2 + 3 * i) ins 0 * nth (3 + 3 * i) ins 0 mod prm)%N (seq 0 sz) /\
  (forall dd, (forall i, i < sz -> nth i (pl_outs q) 0%N = (dd i mod prm)%N) -> pl_ok q = zk_rel n sz cr dd ee ins) /\
  (forall dd, zk_rel n sz cr dd ee ins = true -> pl_ok q = true /\ forall i, i < sz -> nth i (pl_outs q) 0%N = (dd i mod prm)%N) /\
  acount_in c = 2 + 3 * sz /\ acount_mul c = n + 1 + 2 * sz /\ acount_rel c = 0 /\ Forall Q c.
Proof.
  intros Hlen Hc H1 H2 H3 H4 H5 H6 H7 H8 c q. unfold q, c.
  destruct (zk_good ins Q n a0 b0 cr sz d e f ee H1 H2 H3 H4 H5 H6 H7 H8 Hlen) as (cc & <- & [_ Gi Gm Gr Gk Go Gq]).
  unfold P in Gk, Go. rewrite Gk, Go.
  assert (Ei : forall i, iv ins i = nth i ins 0%N) by (intro i; unfold iv; now apply canon_nth).
  assert (Hz : forall i, (iv ins i < prm)%N) by (intro i; apply N.mod_lt; exact prm_nz).
  assert (Ed : forall i, i < sz -> nth i (map (vd ins) (seq 0 sz)) 0%N = (nth (2 + 3 * i) ins 0 * nth (3 + 3 * i) ins 0 mod prm)%N).
  { intros i Hi. rewrite nth_indep with (d' := vd ins 0) by (rewrite map_length, seq_length; exact Hi). rewrite map_nth, seq_nth by exact Hi.
    cbn [Nat.add]. unfold vd, tx, ty. now rewrite !Ei. }
  assert (Ee : forall i, ve ins i = ((nth (2 + 3 * i) ins 0 * nth (3 + 3 * i) ins 0 + nth (3 + 3 * i) ins 0) mod prm)%N).
  { intro i. unfold ve, vd, tx, ty. rewrite !Ei. now rewrite N.add_mod_idemp_l by exact prm_nz. }
  assert (Ef : forall i, N.eqb (vf ins i) 0 = eqm (nth (2 + 3 * i) ins 0 * nth (3 + 3 * i) ins 0 + nth (3 + 3 * i) ins 0)%N (nth (4 + 3 * i) ins 0%N)).
  { intro i. unfold vf. rewrite Ee. unfold tz. rewrite neg_iff by apply Hz. now rewrite Ei. }
  assert (Er : forall dd, zk_rel n sz cr dd ee ins =
     (N.eqb (chain_val n (iv ins 0) (iv ins 1)) (cr mod prm) && forall_lt sz (fun i => N.eqb (ve ins i) (ee i mod prm)) && forall_lt sz (fun i => N.eqb (vf ins i) 0)) &&
     forall_lt sz (fun i => N.eqb (nth i (map (vd ins) (seq 0 sz)) 0%N) (dd i mod prm))).
  { intro dd. unfold zk_rel. cbv zeta. rewrite !Ei.
    assert (Ec : eqm (chain_val n (nth 0 ins 0%N) (nth 1 ins 0%N)) cr = N.eqb (chain_val n (nth 0 ins 0%N) (nth 1 ins 0%N)) (cr mod prm)).
    { unfold eqm. rewrite (N.mod_small (chain_val _ _ _)); [reflexivity|]. rewrite chain_val_pair. apply N.mod_lt. exact prm_nz. }
    rewrite Ec. apply eq_true_iff_eq. rewrite !andb_true_iff, !forall_lt_iff. split.
    - intros [A B]. repeat split; try exact A; intros i Hi; specialize (B i Hi); rewrite !andb_true_iff in B; destruct B as [[B1 B2] B3].
      + rewrite Ee. exact B2.
      + rewrite Ef. exact B3.
      + rewrite Ed by exact Hi. exact B1.
    - intros [[[A B] C] D]. split; [exact A|]. intros i Hi. rewrite !andb_true_iff. specialize (B i Hi). specialize (C i Hi). specialize (D i Hi).
      rewrite Ee in B. rewrite Ef in C. rewrite Ed in D by exact Hi. repeat split; assumption. }
  split; [|split; [|split; [|auto]]].
  - apply map_ext. intro i. unfold vd, tx, ty. now rewrite !Ei.
  - intros dd Hdd. rewrite Er. rewrite (proj2 (forall_lt_iff sz (fun i => N.eqb (nth i (map (vd ins) (seq 0 sz)) 0%N) (dd i mod prm)))); [now rewrite andb_true_r|].
    intros i Hi. apply N.eqb_eq. exact (Hdd i Hi).
  - intros dd Hr. rewrite Er in Hr. apply andb_true_iff in Hr. destruct Hr as [A B]. split; [exact A|]. rewrite forall_lt_iff in B.
    intros i Hi. apply N.eqb_eq. exact (B i Hi).
Qed.

(** ** inner products and polynomials *)
Lemma feed_good ins (Q : agate -> Prop) len w : len <= length ins -> (forall i, i < len -> Q (AIn (w i))) ->
  let st := feed_all len w in good ins Q len 0 0 [] true (cx st) /\ holds ins (cx st) len (ax st) (iv ins).
Proof.
  intros Hlen HQ st. unfold st, feed_all.
  apply (for_ind (fun k s1 => good ins Q k 0 0 [] true (cx s1) /\ holds ins (cx s1) k (ax s1) (iv ins))).
  - split; [exact (good_start ins Q)|]. intros j Hj. lia.
  - intros i s1 Hi [G1 H1]. destruct (gx ins Q _ _ _ _ _ s1 i (AIn (w i)) G1 eq_refl (HQ i Hi)) as (G2 & E2 & L & Ex & _); [intros; lia|].
    rewrite Ex. cbn [d_in d_mul] in G2. rewrite Nat.add_0_r, Nat.add_1_r in G2. split; [exact G2|].
    apply (holds_push ins _ _ _ _ _ _ L E2 H1). cbn [gval]. rewrite (g_in _ _ _ _ _ _ _ _ G1). reflexivity.
Qed.
Lemma fsum_front n f : fsum (S n) f = (f 0%nat + fsum n (fun i => f (S i)))%N.
Proof. induction n; [cbn; lia|]. cbn [fsum] in *. rewrite IHn. lia. Qed.
Lemma fold_fsum n : forall (F G : nat -> N) (cs : list N) k, length cs = n ->
  fold_right N.add 0%N (map (fun t => snd t * (fst (fst t) * snd (fst t)))%N (combine (combine (map F (seq k n)) (map G (seq k n))) cs)) =
  fsum n (fun i => nth i cs 0 * (F (k + i)%nat * G (k + i)%nat))%N.
Proof.
  induction n; intros F G cs k Hl; [reflexivity|]. destruct cs as [|c cs]; [discriminate|]. rewrite fsum_front.
  cbn [seq map combine fold_right fst snd nth]. rewrite IHn by (cbn in Hl; lia). rewrite Nat.add_0_r. f_equal.
  apply fsum_ext. intros i _. cbn [nth]. rewrite Nat.add_succ_r. reflexivity.
Qed.
Lemma rel_app_good ins (Q : agate -> Prop) sz rep w (g : list nat -> list nat -> agate) (R : bool) :
  length ins = 2 * sz -> (forall i, i < 2 * sz -> Q (AIn (w i))) -> 1 <= rep ->
  (forall xs ys, length xs = sz -> length ys = sz -> Q (g xs ys)) -> (forall xs ys, isq (g xs ys) = true /\ d_rel (g xs ys) = 1 /\ (forall c, d_out ins c (g xs ys) = [])) ->
  (forall c a, holds ins c (2 * sz) a (iv ins) -> gtest ins c (g (sub_arr a 0 sz) (sub_arr a sz sz)) = R) ->
  let st := feed_all (2 * sz) w in
  let c := for_ rep (fun _ c => query (g (sub_arr (ax st) 0 sz) (sub_arr (ax st) sz sz)) c) (cx st) in
  good ins Q (2 * sz) 0 rep [] R c.
Proof.
  intros Hlen HQ Hr Hg Hq HR st c. destruct (feed_good ins Q (2 * sz) w ltac:(lia) HQ) as [G H]. fold st in G, H.
  set (gg := g (sub_arr (ax st) 0 sz) (sub_arr (ax st) sz sz)) in *. destruct (Hq (sub_arr (ax st) 0 sz) (sub_arr (ax st) sz sz)) as (q1 & q2 & q3). fold gg in q1, q2, q3.
  assert (K : forall k, let c := for_ k (fun _ c => query gg c) (cx st) in
     good ins Q (2 * sz) 0 k [] (match k with 0 => true | _ => R end) c /\ W ins c = W ins (cx st) /\ next c = next (cx st)).
  { induction k; [split; [exact G|split; reflexivity]|]. destruct IHk as (G1 & E1 & N1). cbv zeta in *. rewrite for_S.
    set (c1 := for_ k (fun _ c => query gg c) (cx st)) in *.
    destruct (good_query ins Q _ _ _ _ _ _ gg G1 q1) as [G2 E2]; [apply Hg; unfold sub_arr; now rewrite map_length, seq_length|].
    rewrite q2, q3 in G2. rewrite Nat.add_1_r in G2. cbn [app] in G2.
    unfold gg in G2. rewrite (HR c1 (ax st)) in G2 by exact (holds_W ins _ _ _ _ _ E1 N1 H). fold gg in G2. split.
    - destruct k; [exact G2|]. rewrite andb_diag in G2. exact G2.
    - split; [rewrite E2; exact E1|exact N1]. }
  destruct (K rep) as (G1 & _). destruct rep; [lia|exact G1].
Qed.
Lemma rel_value_fsum ins c sz a cs c0 : holds ins c (2 * sz) a (iv ins) -> length cs = sz -> Forall canon ins ->
  rel_value (map (V ins c) (sub_arr a 0 sz)) (map (V ins c) (sub_arr a sz sz)) cs c0 =
  ((fsum sz (fun i => nth i cs 0 * (nth i ins 0 * nth (sz + i)%nat ins 0)) + c0) mod prm)%N.
Proof.
  intros H Hl Hc. unfold rel_value, sub_arr. rewrite !map_map. rewrite (fold_fsum sz (fun i => V ins c (a (0 + i))) (fun i => V ins c (a (sz + i))) cs 0 Hl).
  f_equal. f_equal. apply fsum_ext. intros i Hi. cbn [Nat.add]. rewrite (proj2 (H i ltac:(lia))), (proj2 (H (sz + i) ltac:(lia))).
  unfold iv. rewrite !canon_nth by exact Hc. reflexivity.
Qed.
Lemma poly_plain sz rep w coeff ins (Q : agate -> Prop) : length ins = 2 * sz -> Forall canon ins -> 1 <= rep -> length coeff = S sz ->
  (forall i, i < 2 * sz -> Q (AIn (w i))) -> (forall xs ys, length xs = sz -> length ys = sz -> Q (APoly xs ys coeff)) ->
  let c := poly_app sz rep w coeff in
  pl_ok (aplain (awith_inputs ins c)) = poly_rel sz (fun i => nth i coeff 0%N) ins /\
  pl_outs (aplain (awith_inputs ins c)) = [] /\ acount_in c = 2 * sz /\ acount_mul c = 0 /\ acount_rel c = rep /\ Forall Q c.
Proof.
  intros Hlen Hc Hr Hl HQ HQp c. destruct coeff as [|c0 cs]; [discriminate|]. cbn [length] in Hl. apply Nat.succ_inj in Hl.
  destruct (rel_app_good ins Q sz rep w (fun xs ys => APoly xs ys (c0 :: cs)) (poly_rel sz (fun i => nth i (c0 :: cs) 0%N) ins) Hlen HQ Hr HQp)
    as [_ Gi Gm Gr Gk Go Gq].
  - intros xs ys. repeat split.
  - intros cc a H. cbn [gtest tl hd]. rewrite (rel_value_fsum ins cc sz a cs c0 H Hl Hc). unfold poly_rel, eqm. cbn [nth]. reflexivity.
  - unfold c, poly_app. auto 6.
Qed.
Lemma inner_plain sz rep w k ins (Q : agate -> Prop) : length ins = 2 * sz -> Forall canon ins -> 1 <= rep ->
  (forall i, i < 2 * sz -> Q (AIn (w i))) -> (forall xs ys, length xs = sz -> length ys = sz -> Q (AInner xs ys k)) ->
  let c := inner_app sz rep w k in
  pl_ok (aplain (awith_inputs ins c)) = poly_rel sz (fun i => match i with 0 => k | _ => 1%N end) ins /\
  pl_outs (aplain (awith_inputs ins c)) = [] /\ acount_in c = 2 * sz /\ acount_mul c = 0 /\ acount_rel c = rep /\ Forall Q c.
Proof.
  intros Hlen Hc Hr HQ HQp c.
  destruct (rel_app_good ins Q sz rep w (fun xs ys => AInner xs ys k) (poly_rel sz (fun i => match i with 0 => k | _ => 1%N end) ins) Hlen HQ Hr HQp)
    as [_ Gi Gm Gr Gk Go Gq].
  - intros xs ys. repeat split.
  - intros cc a H. cbn [gtest]. replace (length (sub_arr a 0 sz)) with sz by (unfold sub_arr; now rewrite map_length, seq_length).
    rewrite (rel_value_fsum ins cc sz a (ones sz) k H) by (unfold ones; now rewrite ?repeat_length). unfold poly_rel, eqm.
    rewrite (fsum_ext sz _ (fun i => 1 * (nth i ins 0 * nth (sz + i)%nat ins 0))%N); [reflexivity|].
    intros i Hi. f_equal. unfold ones. rewrite nth_indep with (d' := 1%N) by (rewrite repeat_length; exact Hi). now rewrite nth_repeat.
  - unfold c, inner_app. auto 6.
Qed.
