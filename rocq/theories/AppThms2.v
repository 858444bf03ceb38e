(** The tests of the programs decide the relations of AppSpec. *)
From Coq Require Import NArith List Bool Arith Lia Ring.
From Verif Require Import Word FpModel WordProofs FpProofs ListUtil Prime61 ArithModel ArithSpec AHideSpec AppModel AppSpec AppProofs AppThms.
Import ListNotations.
Ltac Zify.zify_post_hook ::= idtac.
Add Ring fp_ring_app : fp_rt.

Lemma canon_nth ins i : Forall canon ins -> (nth i ins 0 mod prm)%N = nth i ins 0%N.
Proof.
  intro H. apply N.mod_small. destruct (Nat.lt_ge_cases i (length ins)) as [L|L].
  - rewrite Forall_forall in H. apply H. now apply nth_In.
  - rewrite nth_overflow by exact L. reflexivity.
Qed.
Lemma bit_iff x : (x < prm)%N ->
  N.eqb (((x * x) mod prm + (x * (PR - 1)) mod prm) mod prm) 0 = N.eqb x 0 || N.eqb x 1.
Proof.
  intro Hx. rewrite <- N.add_mod by exact prm_nz. apply eq_true_iff_eq. rewrite orb_true_iff, !N.eqb_eq. split.
  - intro E. assert (F : toF (x * x + x * (PR - 1)) = toF 0) by (apply toF_eq; exact E).
    rewrite toF_add, !toF_mul in F. rewrite (toF_sub PR 1) in F by discriminate. rewrite toF_PR in F.
    change (toF 0) with p0 in F. change (toF 1) with p1 in F.
    assert (F' : pmul (toF x) (psub (toF x) p1) = p0) by (rewrite <- F; ring).
    destruct (fp_nzd _ _ F') as [Z|Z]; [left|right].
    + change p0 with (toF 0) in Z. apply toF_eq in Z. rewrite N.mod_small in Z by exact Hx. exact Z.
    + assert (Z' : toF x = p1) by (transitivity (padd (psub (toF x) p1) p1); [ring|rewrite Z; ring]).
      change p1 with (toF 1) in Z'. apply toF_eq in Z'. rewrite N.mod_small in Z' by exact Hx. exact Z'.
  - intros [->| ->]; reflexivity.
Qed.

Lemma sis_plain n m A s t rounds ins (Q : agate -> Prop) : length ins = rounds * m -> 1 <= rounds -> Forall canon ins ->
  (forall i, i < m -> Q (AIn (s i))) -> Q (APub 0) -> (forall i j, Q (AMul i j)) -> (forall i j, Q (AAdd i j)) ->
  (forall i j k, i < n -> j < m -> Q (AMulC k (A (i * m + j)))) -> (forall k, Q (AMulC k (PR - 1))) ->
  (forall k i, i < n + m -> Q (ACheck k (sis_want n t i))) ->
  let c := sis n m A s t rounds in
  pl_ok (aplain (awith_inputs ins c)) = sis_rel n m A t (sis_part m (rounds - 1) ins) /\
  pl_outs (aplain (awith_inputs ins c)) = [] /\ acount_in c = rounds * m /\ acount_mul c = rounds * m /\ acount_rel c = 0 /\ Forall Q c.
Proof.
  intros Hlen Hr Hc H1 H2 H3 H4 H5 H6 H7 c. unfold c.
  destruct (sis_good ins Q n m A s t H1 H2 H3 H4 H5 H6 H7 rounds Hlen Hr) as (cc & <- & [_ Gi Gm Gr Gk Go Gq]).
  split; [|auto 6]. unfold P in Gk. rewrite Gk. set (a := (rounds - 1) * m).
  assert (Hx : forall j, xv ins a j = sis_part m (rounds - 1) ins j) by (intro j; unfold xv; now rewrite canon_nth).
  assert (Hx' : forall j, (xv ins a j < prm)%N) by (intro j; apply N.mod_lt; exact prm_nz).
  unfold sis_rel. apply eq_true_iff_eq. rewrite andb_true_iff, !forall_lt_iff. split.
  - intro H. split.
    + intros j Hj. specialize (H (n + j) ltac:(lia)). unfold yv, sis_want in H.
      replace (Nat.ltb (n + j) n) with false in H by (symmetry; apply Nat.ltb_ge; clear; lia).
      replace (n + j - n) with j in H by (clear; lia). change (0 mod prm)%N with 0%N in H. rewrite (bit_iff _ (Hx' j)), Hx in H. exact H.
    + intros i Hi. specialize (H i ltac:(lia)). unfold yv, sis_want in H.
      replace (Nat.ltb i n) with true in H by (symmetry; apply Nat.ltb_lt; exact Hi). unfold eqm, row in *.
      rewrite (fsum_ext m _ (fun j => A (i * m + j)%nat * sis_part m (rounds - 1) ins j)%N) in H; [exact H|].
      intros j _. now rewrite Hx.
  - intros [Hb Hr'] i Hi. unfold yv, sis_want. destruct (Nat.ltb_spec i n) as [L|L].
    + specialize (Hr' i L). unfold eqm, row in *.
      rewrite (fsum_ext m _ (fun j => A (i * m + j)%nat * sis_part m (rounds - 1) ins j)%N); [exact Hr'|].
      intros j _. now rewrite Hx.
    + change (0 mod prm)%N with 0%N. rewrite (bit_iff _ (Hx' _)), Hx. apply Hb. clear - L Hi. lia.
Qed.

(** ** matrix product *)
Section MatEval.
  Variables (ins : list N) (Q : agate -> Prop) (n : nat) (a b t : nat -> N).
  Hypothesis HQa : forall i, i < n * n -> Q (AIn (a i)).
  Hypothesis HQb : forall i, i < n * n -> Q (AIn (b i)).
  Hypothesis HQpub : Q (APub 0).
  Hypothesis HQmul : forall i j, Q (AMul i j).
  Hypothesis HQadd : forall i j, Q (AAdd i j).
  Hypothesis HQchk : forall k i, i < n * n -> Q (ACheck k (t i)).
  Local Notation V := (V ins). Local Notation W := (W ins). Local Notation good := (good ins Q). Local Notation holds := (holds ins).
  Definition av (i : nat) : N := (nth (2 * i) ins 0 mod prm)%N.
  Definition bv (i : nat) : N := (nth (2 * i + 1) ins 0 mod prm)%N.
  Lemma mm_init_ok st : 2 * (n * n) <= length ins -> good 0 0 0 [] true (cx st) ->
    let st' := mm_init n a b st in
    good (2 * (n * n)) 0 0 [] true (cx st') /\ holds (cx st') (n * n) (ax st') av /\ holds (cx st') (n * n) (ay st') bv /\
    holds (cx st') (n * n) (az st') (fun _ => 0%N).
  Proof.
    intros Ha G st'. unfold st', mm_init.
    apply (for_ind (fun k s1 => good (2 * k) 0 0 [] true (cx s1) /\ holds (cx s1) k (ax s1) av /\ holds (cx s1) k (ay s1) bv /\
       holds (cx s1) k (az s1) (fun _ => 0%N))).
    - split; [exact G|]. repeat split; lia.
    - intros i s1 Hi (G1 & X1 & Y1 & Z1).
      destruct (gx ins Q _ _ _ _ _ s1 i (AIn (a i)) G1 eq_refl (HQa i Hi)) as (G2 & E2 & L1 & C2 & _); [intros; lia|].
      pose proof (holds_obj ins _ _ _ _ _ _ L1 E2 Y1) as Y2. pose proof (holds_obj ins _ _ _ _ _ _ L1 E2 Z1) as Z2.
      assert (Hn1 : av i = gval ins (cx s1) (AIn (a i))) by (cbn [gval]; rewrite (g_in _ _ _ _ _ _ _ _ G1); reflexivity).
      pose proof (holds_push ins _ _ _ _ _ _ L1 E2 X1 Hn1) as X2.
      set (s2 := set_x i (AIn (a i)) s1) in *. rewrite <- C2 in *.
      change (put (ax s1) i (next (cx s1))) with (ax s2) in X2. change (ay s1) with (ay s2) in Y2. change (az s1) with (az s2) in Z2.
      cbn [d_in d_mul] in G2.
      destruct (gx ins Q _ _ _ _ _ s2 i (AIn (b i)) G2 eq_refl (HQb i Hi)) as (G3 & E3 & L2 & _ & C3 & _); [intros; lia|].
      pose proof (holds_obj ins _ _ _ _ _ _ L2 E3 X2) as X3. pose proof (holds_obj ins _ _ _ _ _ _ L2 E3 Z2) as Z3.
      assert (Hn2 : bv i = gval ins (cx s2) (AIn (b i))) by (cbn [gval]; rewrite (g_in _ _ _ _ _ _ _ _ G2); reflexivity).
      pose proof (holds_push ins _ _ _ _ _ _ L2 E3 Y2 Hn2) as Y3.
      set (s3 := set_y i (AIn (b i)) s2) in *. rewrite <- C3 in *.
      change (put (ay s2) i (next (cx s2))) with (ay s3) in Y3. change (ax s2) with (ax s3) in X3. change (az s2) with (az s3) in Z3.
      cbn [d_in d_mul] in G3.
      destruct (gx ins Q _ _ _ _ _ s3 i (APub 0) G3 eq_refl HQpub) as (G4 & E4 & L3 & _ & _ & C4); [discriminate|].
      rewrite C4. cbn [d_in d_mul] in G4. replace (2 * S i) with (2 * i + 1 + 1 + 0) by lia. split; [exact G4|]. split; [|split].
      + exact (holds_obj ins _ _ _ _ _ _ L3 E4 X3).
      + exact (holds_obj ins _ _ _ _ _ _ L3 E4 Y3).
      + apply (holds_push ins _ _ _ _ _ _ L3 E4 Z3). reflexivity.
  Qed.
  (** terms added to cell q so far *)
  Definition terms (i j k q : nat) : nat :=
    if Nat.ltb (q / n) i then n else if Nat.eqb (q / n) i then (if Nat.ltb (q mod n) k then S j else j) else 0.
  Definition part (q c : nat) : N := (fsum c (fun j => av (q / n * n + j) * bv (j * n + q mod n)) mod prm)%N.
  Definition cells (i j k q : nat) : N := part q (terms i j k q).
  Definition inv (m : nat) (f : nat -> N) (st : arrs) : Prop :=
    good (2 * (n * n)) m 0 [] true (cx st) /\ holds (cx st) (n * n) (ax st) av /\ holds (cx st) (n * n) (ay st) bv /\
    holds (cx st) (n * n) (az st) f.
  Lemma inv_ext m f g st : (forall q, q < n * n -> f q = g q) -> inv m f st -> inv m g st.
  Proof. intros E (G & X & Y & Z). split; [exact G|]. split; [exact X|]. split; [exact Y|]. exact (holds_ext ins _ _ _ _ _ E Z). Qed.
  Lemma mm_cell_ok i j k m st : i < n -> j < n -> k < n -> inv m (cells i j k) st -> inv (m + 1) (cells i j (S k)) (mm_cell n i j k st).
  Proof.
    intros Hi Hj Hk (G & X & Y & Z).
    assert (Bd : forall u v, u < n -> v < n -> u * n + v < n * n).
    { intros u v Hu Hv. apply Nat.lt_le_trans with (S u * n); [cbn; lia|]. apply Nat.mul_le_mono_r. lia. }
    unfold mm_cell.
    destruct (good_obj ins Q _ _ _ _ _ _ (AMul (ax st (i * n + j)) (ay st (j * n + k))) G eq_refl (HQmul _ _)) as [G1 E1]; [discriminate|].
    pose proof (g_len _ _ _ _ _ _ _ _ G) as L0.
    pose proof (holds_obj ins _ _ _ _ _ _ L0 E1 X) as X1. pose proof (holds_obj ins _ _ _ _ _ _ L0 E1 Y) as Y1.
    pose proof (holds_obj ins _ _ _ _ _ _ L0 E1 Z) as Z1.
    pose proof (V_new ins _ _ _ E1) as Hv. rewrite L0 in Hv. cbn [gval] in Hv.
    rewrite (proj2 (X _ (Bd _ _ Hi Hj))), (proj2 (Y _ (Bd _ _ Hj Hk))) in Hv.
    cbn [d_in d_mul] in G1. rewrite Nat.add_0_r in G1.
    change (obj (AMul (ax st (i * n + j)) (ay st (j * n + k))) (cx st)) with
      (next (cx st), snd (obj (AMul (ax st (i * n + j)) (ay st (j * n + k))) (cx st))).
    set (c1 := snd (obj (AMul (ax st (i * n + j)) (ay st (j * n + k))) (cx st))) in *. cbv iota.
    destruct (gx ins Q _ _ _ _ _ (with_cx st c1) (i * n + k) (AAdd (az st (i * n + k)) (next (cx st))) G1 eq_refl (HQadd _ _))
      as (G3 & E3 & L1 & _ & _ & Ez); [discriminate|].
    unfold inv. rewrite Ez. cbn [d_in d_mul with_cx cx] in *. rewrite !Nat.add_0_r in G3. split; [exact G3|]. split; [|split].
    - exact (holds_obj ins _ _ _ _ _ _ L1 E3 X1).
    - exact (holds_obj ins _ _ _ _ _ _ L1 E3 Y1).
    - pose proof (holds_put ins _ _ _ _ _ _ (i * n + k) L1 E3 Z1) as K. cbn [gval] in K.
      rewrite (proj2 (Z1 _ (Bd _ _ Hi Hk))), Hv in K. apply (holds_ext ins _ _ _ _ _) with (2 := K). intros q Hq.
      assert (Hd : (i * n + k) / n = i) by (rewrite Nat.add_comm, Nat.div_add, Nat.div_small by lia; reflexivity).
      assert (Hm : (i * n + k) mod n = k) by (rewrite Nat.add_comm, Nat.mod_add, Nat.mod_small by lia; reflexivity).
      destruct (Nat.eqb_spec q (i * n + k)) as [->|Hne].
      + unfold cells, part, terms. rewrite Hd, Hm, Nat.ltb_irrefl, Nat.eqb_refl.
        rewrite Nat.ltb_irrefl. replace (Nat.ltb k (S k)) with true by (symmetry; apply Nat.ltb_lt; lia). cbn [fsum].
        rewrite <- N.add_mod by exact prm_nz. reflexivity.
      + unfold cells, terms. f_equal. destruct (Nat.ltb (q / n) i); [reflexivity|]. destruct (Nat.eqb_spec (q / n) i) as [E|]; [|reflexivity].
        destruct (Nat.ltb_spec (q mod n) k), (Nat.ltb_spec (q mod n) (S k)); try reflexivity; [lia|].
        exfalso. apply Hne. rewrite (Nat.div_mod q n) by lia. rewrite E, (Nat.mul_comm n i). lia.
  Qed.
  Lemma mm_loop_ok st : inv 0 (fun _ => 0%N) st -> inv (n * n * n) (fun q => part q n) (mm_loop n st).
  Proof.
    intro H. unfold mm_loop.
    assert (K : inv (n * (n * n)) (cells n 0 0) (for_ n (fun i => for_ n (fun j => for_ n (mm_cell n i j))) st)).
    { apply (for_ind (fun i s1 => inv (i * (n * n)) (cells i 0 0) s1)).
      - apply (inv_ext _ (fun _ => 0%N)); [|exact H]. intros q _. unfold cells, terms. cbn [Nat.ltb Nat.leb].
        destruct (Nat.eqb _ _); reflexivity.
      - intros i s1 Hi H1.
        assert (K2 : inv (i * (n * n) + n * n) (cells i n 0) (for_ n (fun j => for_ n (mm_cell n i j)) s1)).
        { apply (for_ind (fun j s2 => inv (i * (n * n) + j * n) (cells i j 0) s2)).
          - rewrite Nat.add_0_r. exact H1.
          - intros j s2 Hj H2.
            assert (K3 : inv (i * (n * n) + j * n + n) (cells i j n) (for_ n (mm_cell n i j) s2)).
            { apply (for_ind (fun k s3 => inv (i * (n * n) + j * n + k) (cells i j k) s3)).
              - rewrite Nat.add_0_r. exact H2.
              - intros k s3 Hk H3. replace (i * (n * n) + j * n + S k) with (i * (n * n) + j * n + k + 1) by (rewrite Nat.add_1_r, Nat.add_succ_r; reflexivity).
                exact (mm_cell_ok i j k _ s3 Hi Hj Hk H3). }
            replace (i * (n * n) + S j * n) with (i * (n * n) + j * n + n) by (cbn; lia).
            apply (inv_ext _ _ _ _) with (2 := K3). intros q Hq. unfold cells, terms. f_equal.
            destruct (Nat.ltb _ _); [reflexivity|]. destruct (Nat.eqb _ _); [|reflexivity].
            replace (Nat.ltb (q mod n) n) with true by (symmetry; apply Nat.ltb_lt, Nat.mod_upper_bound; lia).
            replace (Nat.ltb (q mod n) 0) with false by (symmetry; apply Nat.ltb_ge; lia). reflexivity. }
        replace (S i * (n * n)) with (i * (n * n) + n * n) by (cbn; lia).
        apply (inv_ext _ _ _ _) with (2 := K2). intros q Hq. unfold cells, terms. f_equal.
        replace (Nat.ltb (q mod n) 0) with false by (symmetry; apply Nat.ltb_ge; lia).
        destruct (Nat.ltb_spec (q / n) i), (Nat.ltb_spec (q / n) (S i)), (Nat.eqb_spec (q / n) i), (Nat.eqb_spec (q / n) (S i)); try reflexivity; lia. }
    rewrite <- Nat.mul_assoc. apply (inv_ext _ _ _ _) with (2 := K). intros q Hq. unfold cells, terms.
    replace (Nat.ltb (q / n) n) with true; [reflexivity|]. symmetry. apply Nat.ltb_lt. apply Nat.div_lt_upper_bound; [|exact Hq].
    intros ->. cbn in Hq. lia.
  Qed.
  Lemma mm_good : length ins = 2 * (n * n) ->
    exists c, code c = matmul n a b t /\
      good (2 * (n * n)) (n * n * n) 0 [] (forall_lt (n * n) (fun q => N.eqb (part q n) (t q mod prm))) c.
  Proof.
    intro Hlen. unfold matmul. cbv zeta.
    destruct (mm_init_ok (arrs0 start)) as (G & X & Y & Z); [lia|exact (good_start ins Q)|].
    destruct (mm_loop_ok (mm_init n a b (arrs0 start))) as (G1 & X1 & Y1 & Z1).
    { split; [exact G|]. split; [exact X|]. split; [exact Y|exact Z]. }
    set (st := mm_loop n (mm_init n a b (arrs0 start))) in *.
    exists (check_batch (n * n) (az st) t (cx st)). split; [reflexivity|].
    exact (proj1 (check_good ins Q _ _ _ _ _ _ _ _ _ _ G1 Z1 (fun i Hi => HQchk _ i Hi))).
  Qed.
End MatEval.
Lemma mm_plain n a b t ins (Q : agate -> Prop) : length ins = 2 * (n * n) -> Forall canon ins ->
  (forall i, i < n * n -> Q (AIn (a i))) -> (forall i, i < n * n -> Q (AIn (b i))) -> Q (APub 0) -> (forall i j, Q (AMul i j)) ->
  (forall i j, Q (AAdd i j)) -> (forall k i, i < n * n -> Q (ACheck k (t i))) ->
  let c := matmul n a b t in
  pl_ok (aplain (awith_inputs ins c)) = mm_rel n t ins /\
  pl_outs (aplain (awith_inputs ins c)) = [] /\ acount_in c = 2 * (n * n) /\ acount_mul c = n * n * n /\ acount_rel c = 0 /\ Forall Q c.
Proof.
  intros Hlen Hc H1 H2 H3 H4 H5 H6 c. unfold c.
  destruct (mm_good ins Q n a b t H1 H2 H3 H4 H5 H6 Hlen) as (cc & <- & [_ Gi Gm Gr Gk Go Gq]).
  split; [|auto 6]. unfold P in Gk. rewrite Gk. unfold mm_rel. cbv zeta.
  assert (E : forall i k, i < n -> k < n -> part ins n (i * n + k) n =
     (fsum n (fun j => nth (2 * (i * n + j)) ins 0 * nth (2 * (j * n + k) + 1) ins 0) mod prm)%N).
  { intros i k Hi Hk. unfold part. f_equal. apply fsum_ext. intros j Hj. unfold av, bv. rewrite !canon_nth by exact Hc.
    replace ((i * n + k) / n) with i by (rewrite Nat.add_comm, Nat.div_add, Nat.div_small by lia; reflexivity).
    replace ((i * n + k) mod n) with k by (rewrite Nat.add_comm, Nat.mod_add, Nat.mod_small by lia; reflexivity). reflexivity. }
  apply eq_true_iff_eq. rewrite !forall_lt_iff. split.
  - intros H i Hi. apply forall_lt_iff. intros k Hk. unfold eqm. rewrite <- E by assumption. apply H.
    apply Nat.lt_le_trans with (S i * n); [cbn; lia|]. apply Nat.mul_le_mono_r. lia.
  - intros H q Hq. assert (Hn : n <> 0) by (intros ->; cbn in Hq; lia).
    assert (Hi : q / n < n) by (apply Nat.div_lt_upper_bound; assumption).
    specialize (H (q / n) Hi). rewrite forall_lt_iff in H. specialize (H (q mod n) (Nat.mod_upper_bound _ _ Hn)).
    unfold eqm in H. rewrite <- E in H by (try assumption; apply Nat.mod_upper_bound; exact Hn).
    replace (q / n * n + q mod n) with q in H by (rewrite (Nat.div_mod q n) at 1 by exact Hn; lia). exact H.
Qed.
