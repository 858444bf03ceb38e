(** Cut-and-choose: what survives the checks, and for how many offsets. *)
From Coq Require Import NArith List Bool Arith Lia Ring.
From Verif Require Import Word WordProofs FpModel FpProofs ListUtil Prime61 ArithModel ArithSpec ArithProofs CopeProofs
  LowMcProofs EdaModel EdaSpec EdaStock EdaProofs EdaThms GameSpec CountAlg EdaCutSpec EdaCutAlg.
Import ListNotations.
Ltac Zify.zify_post_hook ::= idtac.
Add Ring fp_ring : fp_rt.

Lemma partner_mate NN C r i : partner NN 2 C r 0 i = mate NN C r i.
Proof.
  unfold partner, mate, ell_faulty, ell, Bm1. f_equal. replace (2 * NN + C - NN) with (NN + C) by lia. f_equal. lia.
Qed.
Lemma fault_eq NN C : ell_faulty NN 2 C = NN + C.
Proof. unfold ell_faulty, ell. lia. Qed.
Lemma mate_lt NN C r i : 1 <= NN -> NN <= mate NN C r i < 2 * NN + C.
Proof. intro H. unfold mate. pose proof (Nat.mod_upper_bound (r + C + i) (NN + C)). lia. Qed.

(** * Offsets *)
Section Offsets.
  Variables (NN C : nat) (w f : nat -> N).
  Hypothesis HN : 1 <= NN.
  Notation M := (NN + C).
  Let dfc (t : nat) : fp := psub (toF (f t)) (toF (w t)).
  Let a (t : nat) : fp := if t mod M <? NN then psub (toF 0) (dfc (t mod M)) else toF 0.
  Let b (t : nat) : fp := dfc (NN + t mod M).
  Lemma surv_rot r : r + C <= M -> survives NN C w f r -> rot NN C a b r.
  Proof.
    intros Hr [Ho Hk] t Ht. unfold b, a. rewrite (Nat.mod_small t) by exact Ht. destruct (Nat.ltb_spec t NN) as [L|L].
    - specialize (Hk t L). unfold mate in Hk. apply (f_equal toF) in Hk. rewrite !toF_mod, !toF_add in Hk. unfold dfc.
      set (u := toF (f (NN + (r + C + t) mod M))) in *. set (v := toF (w (NN + (r + C + t) mod M))) in *.
      transitivity (psub (psub (padd (toF (f t)) u) (toF (f t))) v); [ring|]. rewrite <- Hk. change (toF 0) with p0. ring.
    - replace (r + C + t) with ((r + (t - NN)) + 1 * M) by lia. rewrite Nat.mod_add by lia. rewrite Nat.mod_small by lia.
      unfold dfc. rewrite (Ho (t - NN)) by lia. change (toF 0) with p0. ring.
  Qed.
  Theorem offsets_bound q i0 rs : (forall i, i < 2 * NN + C -> (w i < PR)%N /\ (f i < PR)%N) ->
    (forall d, Nat.divide d M -> C < d -> q <= d) -> i0 < NN -> w i0 <> f i0 ->
    NoDup rs -> (forall r, In r rs -> r < M /\ r + C <= M /\ survives NN C w f r) -> length rs * q <= M.
  Proof.
    intros Hc Hq Hi Hne ND H.
    apply (rot_bound (toF 0) NN C a b ltac:(lia)) with (i0 := i0); auto.
    - intro t. unfold b. now rewrite Nat.mod_mod by lia.
    - intro t. unfold a. now rewrite Nat.mod_mod by lia.
    - intros t Ht. unfold a. rewrite Nat.mod_small by lia. destruct (Nat.ltb_spec t NN); [lia|reflexivity].
    - unfold a. rewrite Nat.mod_small by lia. destruct (Nat.ltb_spec i0 NN); [|lia]. intro E. apply Hne.
      destruct (Hc i0 ltac:(lia)). apply toF_inj; auto. unfold dfc in E. change (toF 0) with p0 in E.
      transitivity (padd (toF (f i0)) (psub p0 (psub (toF (f i0)) (toF (w i0))))); [ring|]. rewrite E. ring.
    - intros r Hr. destruct (H r Hr) as (H1 & H2 & H3). split; [exact H1|now apply surv_rot].
  Qed.
End Offsets.

(** * Two keys that give the same hash input *)
Lemma lxor_two k k' d d' : N.lxor k d = N.lxor k' d' -> N.lxor k 0 = N.lxor k' 0 -> d = d'.
Proof.
  intros E A. rewrite !N.lxor_0_r in A. subst k'. apply (f_equal (N.lxor k)) in E.
  now rewrite <- !N.lxor_assoc, N.lxor_nilpotent, !N.lxor_0_l in E.
Qed.
Lemma f2_two d d' l k k' w v : bauth d l k w -> bauth d' l k' w -> ~ same62 v w -> op_recv_f2 d k v = op_recv_f2 d' k' v -> d = d'.
Proof.
  intros (L1 & L2 & A) (_ & L2' & A') Hn E.
  assert (Q : (forall j, j < 62 -> N.testbit v (N.of_nat j) = N.testbit w (N.of_nat j)) \/ d = d'); [|destruct Q as [Q|Q]; [contradiction (Hn Q)|exact Q]].
  assert (G : forall n, n <= 62 -> (forall j, j < n -> N.testbit v (N.of_nat j) = N.testbit w (N.of_nat j)) \/ d = d').
  { induction n as [|n IH]; intro Hle; [left; intros; lia|]. destruct IH as [IH|IH]; [lia| |now right].
    destruct (Bool.bool_dec (N.testbit v (N.of_nat n)) (N.testbit w (N.of_nat n))) as [B|B].
    - left. intros j Hj. destruct (Nat.eq_dec j n) as [->|Hd]; [exact B|apply IH; lia].
    - right. apply (f_equal (fun l => nth n l (HB 0%N))) in E. unfold op_recv_f2 in E.
      rewrite !recv_f2_nth in E by lia. rewrite Nat.add_0_l in E. specialize (A n Hle). specialize (A' n Hle).
      injection E as E. rewrite A in A'.
      clear IH A. revert B E A'. destruct (N.testbit v (N.of_nat n)), (N.testbit w (N.of_nat n)); intros B E A'; try contradiction.
      + exact (lxor_two _ _ _ _ E A').
      + exact (lxor_two _ _ _ _ A' E). }
  destruct (G 62) as [G'|G']; [lia| |]; auto.
Qed.
Lemma fp_two d d' a k k' v : share_ok d a k -> share_ok d' a k' -> (d < PR)%N -> (d' < PR)%N -> (v <= PR)%N ->
  (v mod PR <> hi64 a)%N -> op_recv_fp d k v = op_recv_fp d' k' v -> d = d'.
Proof.
  intros A A' Hd Hd' Hv Hne E. apply share_F in A. apply share_F in A'.
  destruct A as ((A1 & A2 & A3) & A4). destruct A' as ((_ & _ & B3) & B4).
  unfold op_recv_fp in E. injection E as E. rewrite !(lo_id k), !(lo_id k'), !(lo_id d), !(lo_id d') in E by now apply lt_le.
  apply (f_equal toF) in E.
  rewrite !am_F in E by first [now apply lt_le | apply lt_le, mm_lt; [exact Hv|now apply lt_le]].
  rewrite !mm_F in E by (try exact Hv; now apply lt_le).
  rewrite A4 in B4.
  assert (Z : pmul (psub (toF v) (toF (hi64 a))) (psub (toF d) (toF d')) = p0).
  { set (K := toF k) in *. set (K' := toF k') in *. set (D := toF d) in *. set (D' := toF d') in *. set (X := toF (hi64 a)) in *. set (V := toF v) in *.
    transitivity (psub (psub (padd K (pmul V D)) (padd K' (pmul V D'))) (psub (padd K (pmul X D)) (padd K' (pmul X D')))); [ring|].
    rewrite E, B4. ring. }
  apply fp_nzd in Z. destruct Z as [Z|Z].
  - exfalso. apply Hne. transitivity (hi64 a mod PR)%N; [|now apply N.mod_small]. apply toF_eq.
    transitivity (padd (psub (toF v) (toF (hi64 a))) (toF (hi64 a))); [ring|]. rewrite Z. ring.
  - apply toF_inj; auto. transitivity (padd (psub (toF d) (toF d')) (toF d')); [ring|]. rewrite Z. ring.
Qed.

(** * One run against a fixed offset: arbitrary words up to p, arbitrary hash input *)
Lemma recv_both_two {A} d2 df d2' df' (es : list A) (vl vl' : A -> list N) (va va' v : A -> N) rest rest' :
  (forall e, In e es -> length (vl e) = length (vl' e)) ->
  op_recv_both d2 df (map (fun e => (vl e, va e)) es) (map v es) ++ rest =
  op_recv_both d2' df' (map (fun e => (vl' e, va' e)) es) (map v es) ++ rest' ->
  rest = rest' /\ forall e, In e es ->
    op_recv_fp df (va e) (v e) = op_recv_fp df' (va' e) (v e) /\ op_recv_f2 d2 (vl e) (v e) = op_recv_f2 d2' (vl' e) (v e).
Proof.
  intros L E. rewrite !recv_both_es in E. apply app_inj_len in E.
  - destruct E as [E R]. apply app_inj_len in E; [|apply flat_map_len; reflexivity]. destruct E as [E1 E2]. split; [exact R|].
    intros e He. split.
    + apply (flat_map_inj (fun e => op_recv_fp df (va e) (v e)) (fun e => op_recv_fp df' (va' e) (v e)) es); auto.
    + apply (flat_map_inj (fun e => op_recv_f2 d2 (vl e) (v e)) (fun e => op_recv_f2 d2' (vl' e) (v e)) es); auto.
      intros x Hx. rewrite !recv_f2_len. now apply L.
  - rewrite !app_length. f_equal; apply flat_map_len; [reflexivity|]. intros x Hx. rewrite !recv_f2_len. now apply L.
Qed.
Lemma all_or_not (P : nat -> bool) n : (forall i, i < n -> P i = true) \/ exists i, i < n /\ P i = false.
Proof.
  induction n as [|n IH]; [left; intros; lia|]. destruct IH as [IH|(i & Hi & E)]; [|right; exists i; split; [lia|exact E]].
  destruct (P n) eqn:E; [left|right; exists n; split; [lia|exact E]]. intros i Hi. destruct (Nat.eq_dec i n) as [->|]; [exact E|apply IH; lia].
Qed.
Section Run.
  Variables (NN C : nat) (ap : nat -> N) (bl sl : nat -> list N) (w : nat -> N) (r : nat).
  Variables (ak : N -> nat -> N) (bk sk : N -> nat -> list N).
  Hypotheses (HN : 1 <= NN) (Hr : r < NN + C) (HrC : r + C <= NN + C).
  Hypothesis Hw : forall i, i < 2 * NN + C -> (w i < PR)%N.
  Hypothesis Hsh : forall d i, (d < PR)%N -> i < 2 * NN + C -> share_ok d (ap i) (ak d i).
  Hypothesis Hb : forall d i, i < 2 * NN + C -> bauth d (bl i) (bk d i) (w i).
  Hypothesis Hs : forall d i, i < NN -> bauth d (sl i) (sk d i) (bucket_f2 (w i) (w (mate NN C r i))).
  Notation f := (fun i => hi64 (ap i)).
  Theorem run_keys vo vb h : length vo = C -> length vb = NN -> Forall (fun v => (v <= PR)%N) (vo ++ vb) ->
    ~ survives NN C w f r ->
    let acc d2 df := (df < PR)%N /\ gen_ver NN C (ak df) (bk d2) (sk d2) d2 df r [vo; vb] = h in
    (forall d2 df d2' df', acc d2 df -> acc d2' df' -> d2 = d2') \/ (forall d2 df d2' df', acc d2 df -> acc d2' df' -> df = df').
  Proof.
    intros Lo Lb Hle Hns acc. apply Forall_app in Hle. destruct Hle as [Hvo Hvb].
    rewrite Forall_forall in Hvo, Hvb.
    set (fo i := nth i vo 0%N). set (fb i := nth i vb 0%N).
    assert (Eo : vo = map fo (seq 0 C)) by (rewrite <- Lo; symmetry; apply map_nth_seq).
    assert (Eb : vb = map fb (seq 0 NN)) by (rewrite <- Lb; symmetry; apply map_nth_seq).
    assert (Bo : forall i, i < C -> (fo i <= PR)%N) by (intros i Hi; apply Hvo, nth_In; lia).
    assert (Bb : forall i, i < NN -> (fb i <= PR)%N) by (intros i Hi; apply Hvb, nth_In; lia).
    assert (Two : forall d2 df d2' df', acc d2 df -> acc d2' df' ->
      (forall i, i < C -> op_recv_fp df (ak df (NN + (r + i))) (fo i) = op_recv_fp df' (ak df' (NN + (r + i))) (fo i) /\
                          op_recv_f2 d2 (bk d2 (NN + (r + i))) (fo i) = op_recv_f2 d2' (bk d2' (NN + (r + i))) (fo i)) /\
      (forall i, i < NN -> op_recv_fp df (fp_add_ver (ak df i) (ak df (mate NN C r i))) (fb i) =
                           op_recv_fp df' (fp_add_ver (ak df' i) (ak df' (mate NN C r i))) (fb i) /\
                           op_recv_f2 d2 (sk d2 i) (fb i) = op_recv_f2 d2' (sk d2' i) (fb i))).
    { intros d2 df d2' df' [_ A] [_ A']. rewrite <- A' in A. clear A'.
      assert (Hf : r < ell_faulty NN 2 C) by (rewrite fault_eq; exact Hr).
      rewrite !gen_ver_eq in A by assumption. rewrite Eo, Eb in A.
      apply (recv_both_two d2 df d2' df' (seq 0 C) (fun i => bk d2 (NN + (r + i))) (fun i => bk d2' (NN + (r + i)))
               (fun i => ak df (NN + (r + i))) (fun i => ak df' (NN + (r + i))) fo) in A.
      - destruct A as [A A1]. split.
        + intros i Hi. apply A1. apply in_seq. lia.
        + rewrite <- (app_nil_r (op_recv_both d2 df _ _)), <- (app_nil_r (op_recv_both d2' df' _ _)) in A.
          apply (recv_both_two d2 df d2' df' (seq 0 NN) (fun i => sk d2 i) (fun i => sk d2' i) _ _ fb) in A.
          * destruct A as [_ A2]. intros i Hi. specialize (A2 i ltac:(apply in_seq; lia)). unfold addv in A2. now rewrite partner_mate in A2.
          * intros i Hi. apply in_seq in Hi. destruct (Hs d2 i ltac:(lia)) as (_ & L1 & _). destruct (Hs d2' i ltac:(lia)) as (_ & L2 & _). congruence.
      - intros i Hi. apply in_seq in Hi.
        destruct (Hb d2 (NN + (r + i)) ltac:(lia)) as (_ & L1 & _). destruct (Hb d2' (NN + (r + i)) ltac:(lia)) as (_ & L2 & _). congruence. }
    assert (S62 : forall v x, (v mod I62 = x mod I62)%N \/ ~ same62 v x).
    { intros v x. destruct (N.eq_dec (v mod I62) (x mod I62)) as [E|E]; [now left|right]. intro Q. apply E. now apply same62_mod_eq. }
    assert (Small : forall v, (v <= PR)%N -> (v mod I62 = v)%N).
    { intros v Hv. apply N.mod_small. eapply N.le_lt_trans; [exact Hv|reflexivity]. }
    destruct (all_or_not (fun i => N.eqb (w (NN + (r + i))) (f (NN + (r + i)))) C) as [Ho|(i & Hi & Ne)].
    - destruct (all_or_not (fun i => N.eqb ((w i + w (mate NN C r i)) mod PR) ((f i + f (mate NN C r i)) mod PR)) NN) as [Hk|(i & Hi & Ne)].
      + exfalso. apply Hns. split; [intros q Hq; apply N.eqb_eq; now apply (Ho q)|intros q Hq; apply N.eqb_eq; now apply (Hk q)].
      + apply N.eqb_neq in Ne. pose proof (mate_lt NN C r i HN) as Hm.
        assert (I1 : i < 2 * NN + C) by lia. assert (I2 : mate NN C r i < 2 * NN + C) by lia.
        destruct (S62 (fb i) (bucket_f2 (w i) (w (mate NN C r i)))) as [E|E].
        * right. intros d2 df d2' df' A A'. destruct (Two d2 df d2' df' A A') as [_ T]. destruct (T i Hi) as [T1 _].
          destruct A as [D _]. destruct A' as [D' _].
          destruct (add_share df _ _ _ _ (Hsh df i D I1) (Hsh df (mate NN C r i) D I2)) as [A1 A2].
          destruct (add_share df' _ _ _ _ (Hsh df' i D' I1) (Hsh df' (mate NN C r i) D' I2)) as [A1' _].
          apply (fp_two df df' (fp_add_prv (ap i) (ap (mate NN C r i))) _ _ (fb i) A1 A1' D D' (Bb i Hi)); [|exact T1].
          rewrite A2. intro Q. apply Ne.
          pose proof (Hw _ I1) as W1. pose proof (Hw _ I2) as W2.
          rewrite Small in E by now apply Bb. rewrite Small in E by now apply bucket_lt. rewrite bucket_ok in E by assumption.
          rewrite <- Q, E. destruct (N.eqb_spec (w i + w (mate NN C r i)) PR) as [Z|Z]; [now rewrite Z|]. symmetry. now apply N.mod_mod.
        * left. intros d2 df d2' df' A A'. destruct (Two d2 df d2' df' A A') as [_ T]. destruct (T i Hi) as [_ T2].
          exact (f2_two d2 d2' _ _ _ _ _ (Hs d2 i Hi) (Hs d2' i Hi) E T2).
    - apply N.eqb_neq in Ne. cbn beta in Ne.
      assert (Hi' : NN + (r + i) < 2 * NN + C) by lia.
      destruct (S62 (fo i) (w (NN + (r + i)))) as [E|E].
      + right. intros d2 df d2' df' A A'. destruct (Two d2 df d2' df' A A') as [T _]. destruct (T i Hi) as [T1 _].
        destruct A as [D _]. destruct A' as [D' _].
        apply (fp_two df df' (ap (NN + (r + i))) _ _ (fo i) (Hsh df _ D Hi') (Hsh df' _ D' Hi') D D' (Bo i Hi)); [|exact T1].
        rewrite Small in E by now apply Bo. rewrite Small in E by (apply N.lt_le_incl; now apply Hw).
        rewrite E, N.mod_small by now apply Hw. exact Ne.
      + left. intros d2 df d2' df' A A'. destruct (Two d2 df d2' df' A A') as [T _]. destruct (T i Hi) as [_ T2].
        exact (f2_two d2 d2' _ _ _ _ _ (Hb d2 _ Hi') (Hb d2' _ Hi') E T2).
  Qed.
End Run.
(** * Conversely: halves that agree as far as the run looks are accepted, for every key *)
Section Accept.
  Variables (NN C : nat) (ap ak : nat -> N) (bl bk sl sk : nat -> list N) (w : nat -> N) (d2 df : N) (r : nat).
  Hypotheses (HN : 1 <= NN) (Hr : r < NN + C) (HrC : r + C <= NN + C) (Hdf : (df < PR)%N).
  Hypothesis Hw : forall i, i < 2 * NN + C -> (w i < PR)%N.
  Hypothesis Hsh : forall i, i < 2 * NN + C -> share_ok df (ap i) (ak i).
  Hypothesis Hb : forall i, i < 2 * NN + C -> bauth d2 (bl i) (bk i) (w i).
  Hypothesis Hs : forall i, i < NN -> bauth d2 (sl i) (sk i) (bucket_f2 (w i) (w (mate NN C r i))).
  Theorem surv_accepted : survives NN C w (fun i => hi64 (ap i)) r ->
    gen_ver NN C ak bk sk d2 df r [map (fun q => w (NN + (r + q))) (seq 0 C); map (fun i => bucket_f2 (w i) (w (mate NN C r i))) (seq 0 NN)]
    = snd (gen_prv NN C ap bl sl r).
  Proof.
    intros [Ho Hk].
    assert (Hf : r < ell_faulty NN 2 C) by (rewrite fault_eq; exact Hr).
    assert (HfC : r + C <= ell_faulty NN 2 C) by (rewrite fault_eq; exact HrC).
    apply (gen_accepts NN C ap ak bl bk sl sk d2 df r HN Hf w Hb).
    - intros i Hi. rewrite partner_mate. now apply Hs.
    - exact HfC.
    - intros q Hq. split; [apply same62_refl|]. assert (L : NN + (r + q) < 2 * NN + C) by lia.
      apply open_fp; [now apply Hsh|exact Hdf|apply prod_small; [now apply Hw|exact Hdf]|].
      rewrite N.mod_small by now apply Hw. now apply Ho.
    - intros i Hi. rewrite partner_mate. split; [apply same62_refl|]. pose proof (mate_lt NN C r i HN) as Hm.
      assert (I1 : i < 2 * NN + C) by lia. assert (I2 : mate NN C r i < 2 * NN + C) by lia. clear Hm.
      unfold addv, addp. rewrite partner_mate.
      destruct (add_share df _ _ _ _ (Hsh _ I1) (Hsh _ I2)) as [A1 A2]. pose proof (Hw _ I1) as W1. pose proof (Hw _ I2) as W2.
      apply open_fp; [exact A1|exact Hdf| |].
      + apply prod_bound; [now apply bucket_lt|now apply lt_le].
      + rewrite A2, bucket_ok by assumption. refine (eq_trans _ (Hk i Hi)). change prm with PR.
        destruct (N.eqb_spec (w i + w (mate NN C r i)) PR) as [Z|Z]; [now rewrite Z|]. now apply N.mod_mod.
  Qed.
End Accept.

(** * Planted differences *)
Section Planted.
  Variables (NN C d : nat) (e : N) (w f : nat -> N).
  Hypotheses (HN : 1 <= NN) (HdM : Nat.divide d (NN + C)) (HCd : C < d) (He : (e <= PR)%N).
  Hypothesis HP : planted NN C d e w f.
  Lemma mod_class t : (t mod (NN + C)) mod d = t mod d.
  Proof.
    destruct HdM as (k & Hk). rewrite (Nat.div_mod t (NN + C)) at 2 by lia.
    replace ((NN + C) * (t / (NN + C)) + t mod (NN + C)) with (t mod (NN + C) + (t / (NN + C) * k) * d) by (rewrite Hk at 3; lia).
    symmetry. apply Nat.mod_add. lia.
  Qed.
  Lemma pe_F a : toF ((a + (PR - e)) mod PR) = psub (toF a) (toF e).
  Proof. rewrite toF_mod, toF_add. replace (toF (PR - e)) with (psub (toF PR) (toF e)); [replace (toF PR) with p0 by (now apply (proj2 (toF_eq 0 PR))); ring|]. symmetry. now apply toF_sub. Qed.
  Theorem planted_survives r : r mod d = 0 -> r + C <= NN + C -> survives NN C w f r.
  Proof.
    intros Hr HrC. destruct HP as [H1 H2]. assert (Er : exists k, r = k * d) by (exists (r / d); rewrite (Nat.div_mod r d) at 1 by lia; lia).
    destruct Er as (k & ->). split.
    - intros q Hq. rewrite H2 by lia. rewrite Nat.add_comm, Nat.mod_add by lia. rewrite Nat.mod_small by lia.
      destruct (Nat.eqb_spec q C); [lia|reflexivity].
    - intros i Hi. unfold mate. rewrite (H1 i Hi).
      rewrite (H2 ((k * d + C + i) mod (NN + C))) by (apply Nat.mod_upper_bound; lia). rewrite mod_class.
      replace (k * d + C + i) with (C + i + k * d) by lia. rewrite Nat.mod_add by lia.
      rewrite <- Nat.add_mod_idemp_r by lia. pose proof (Nat.mod_upper_bound i d ltac:(lia)) as Hm.
      set (g := f (NN + (C + i + k * d) mod (NN + C))). clearbody g.
      assert (Q : ((C + i mod d) mod d =? C) = (i mod d =? 0)).
      { destruct (Nat.eqb_spec (i mod d) 0) as [Z|Z].
        - rewrite Z, Nat.add_0_r, Nat.mod_small by lia. apply Nat.eqb_refl.
        - apply Nat.eqb_neq. destruct (Nat.lt_ge_cases (C + i mod d) d) as [L|L].
          + rewrite Nat.mod_small by lia. lia.
          + replace (C + i mod d) with (C + i mod d - d + 1 * d) by lia. rewrite Nat.mod_add by lia. rewrite Nat.mod_small by lia. lia. }
      rewrite Q. destruct (i mod d =? 0); [|reflexivity]. clear - He HdM.
      apply toF_eq. rewrite !toF_add. rewrite pe_F, toF_mod, toF_add. ring.
  Qed.
End Planted.
(** conversions through a mask whose halves differ by e are off by e *)
Lemma conv_b2a x w a e : (x < PR -> w < PR -> w = (hi64 a + e) mod PR -> e <= PR -> hi64 a < PR ->
  hi64 (snd (b2a_prv x w a)) = (x + (PR - e)) mod PR)%N.
Proof.
  intros Hx Hw E He Ha. unfold b2a_prv. cbv zeta. cbn [snd]. unfold fp_addc_prv. rewrite hi64_mk.
  - rewrite (diff_ok x w Hx Hw). assert (L : ((x + (PR - w)) mod PR < PR)%N) by (apply N.mod_upper_bound; discriminate).
    rewrite am_val by assumption. apply toF_eq.
    rewrite !toF_add. rewrite toF_mod, toF_add, !toF_sub by first [exact He | now apply lt_le]. rewrite E, toF_mod, toF_add. ring.
  - unfold lo64. apply N.mod_upper_bound. discriminate.
Qed.
Lemma conv_a2b d rp rk a k w e : (share_ok d rp rk -> share_ok d a k -> w < PR -> w = (hi64 rp + e) mod PR -> e <= PR ->
  a2b_out (fst (a2b_open rp a)) w = (hi64 a + (PR - e)) mod PR)%N.
Proof.
  intros A B Hw E He. destruct (add_share d _ _ _ _ A B) as [_ S2]. unfold a2b_open, op_send_fp. cbn [fst]. rewrite S2.
  assert (L : ((hi64 rp + hi64 a) mod PR < PR)%N) by (apply N.mod_upper_bound; discriminate).
  rewrite a2b_ok by assumption. apply toF_eq. rewrite !toF_add, toF_mod, toF_add, !toF_sub by first [exact He | now apply lt_le].
  rewrite E, toF_mod, toF_add. ring.
Qed.

Lemma Rsub_eq a : psub (toF a) (toF a) = p0. Proof. ring. Qed.
Lemma Rsub_add a e : psub (padd (toF a) (toF e)) (toF a) = toF e. Proof. ring. Qed.

(** * Counting offsets and keys *)
Section CountPairs.
  Context {A B : Type}.
  Lemma cnt0 (P : B -> bool) m : (forall y, In y m -> P y = false) -> cnt P m = 0.
  Proof. unfold cnt. induction m as [|y m IH]; intro H; [reflexivity|]. cbn [filter]. rewrite H by now left. apply IH. intros; apply H. now right. Qed.
  Lemma cnt_some (P : B -> bool) m : cnt P m = 0 \/ exists y, In y m /\ P y = true.
  Proof.
    unfold cnt. induction m as [|y m IH]; [now left|]. cbn [filter]. destruct (P y) eqn:E; [right; exists y; split; [now left|exact E]|].
    destruct IH as [IH|(z & Hz & Ez)]; [now left|right; exists z; split; [now right|exact Ez]].
  Qed.
  Lemma cnt_one (P : B -> bool) m : NoDup m -> (forall y y', P y = true -> P y' = true -> y = y') -> cnt P m <= 1.
  Proof.
    intros ND H. induction m as [|y m IH]; [cbn; lia|]. inversion ND as [|? ? Hn ND']; subst. unfold cnt in *. cbn [filter]. destruct (P y) eqn:E; [|now apply IH].
    cbn [length]. enough (Z : length (filter P m) = 0) by lia. apply cnt0. intros z Hz. destruct (P z) eqn:Ez; [|reflexivity].
    exfalso. apply Hn. now rewrite (H y z).
  Qed.
  Lemma sum_first (P : A -> B -> bool) l m : NoDup l -> (forall x y x' y', P x y = true -> P x' y' = true -> x = x') ->
    sumf (fun x => cnt (P x) m) l <= length m.
  Proof.
    intros ND H. induction l as [|x l IH]; [cbn; lia|]. inversion ND as [|? ? Hn ND']; subst. cbn [sumf].
    destruct (cnt_some (P x) m) as [->|(y & Hy & E)]; [now apply IH|].
    assert (Z : sumf (fun x => cnt (P x) m) l = 0).
    { apply Nat.le_0_r. rewrite <- (Nat.mul_0_r (length l)). rewrite <- sumf_const. apply sumf_le. intros x' Hx'.
      rewrite cnt0; [lia|]. intros y' Hy'. destruct (P x' y') eqn:E'; [|reflexivity]. exfalso. apply Hn. now rewrite (H x y x' y'). }
    pose proof (cnt_le (P x) m). lia.
  Qed.
  Lemma sum_second (P : A -> B -> bool) l m : NoDup m -> (forall x y x' y', P x y = true -> P x' y' = true -> y = y') ->
    sumf (fun x => cnt (P x) m) l <= length l.
  Proof.
    intros ND H. rewrite <- (Nat.mul_1_r (length l)), <- sumf_const. apply sumf_le. intros x _. apply cnt_one; [exact ND|].
    intros y y' E E'. exact (H x y x y' E E').
  Qed.
End CountPairs.
Definition hitem_dec : forall a b : hitem, {a = b} + {a <> b}.
Proof. decide equality; apply N.eq_dec. Defined.
Section Counted.
  Variables (NN C : nat) (ap : nat -> N) (bl : nat -> list N) (sl : nat -> nat -> list N) (w : nat -> N).
  Variables (ak : N -> nat -> N) (bk : N -> nat -> list N) (sk : nat -> N -> nat -> list N).
  Hypotheses (HN : 1 <= NN) (HC : 1 <= C).
  Hypothesis Hw : forall i, i < 2 * NN + C -> (w i < PR)%N.
  Hypothesis Hsh : forall d i, (d < PR)%N -> i < 2 * NN + C -> share_ok d (ap i) (ak d i).
  Hypothesis Hb : forall d i, i < 2 * NN + C -> bauth d (bl i) (bk d i) (w i).
  Hypothesis Hs : forall r d i, i < NN -> bauth d (sl r i) (sk r d i) (bucket_f2 (w i) (w (mate NN C r i))).
  Variables (vo vb : nat -> list N) (h : nat -> list hitem) (D2 DF : list N).
  Hypothesis Hv : forall r, length (vo r) = C /\ length (vb r) = NN /\ Forall (fun v => (v <= PR)%N) (vo r ++ vb r).
  Hypotheses (N2 : NoDup D2) (NF : NoDup DF) (HF : forall d, In d DF -> (d < PR)%N).
  Definition accb (r : nat) (k : N * N) : bool :=
    if list_eq_dec hitem_dec (gen_ver NN C (ak (snd k)) (bk (fst k)) (sk r (fst k)) (fst k) (snd k) r [vo r; vb r]) (h r) then true else false.
  Notation f := (fun i => hi64 (ap i)).
  Definition survb (r : nat) : bool :=
    forallb (fun q => N.eqb (w (NN + (r + q))) (f (NN + (r + q)))) (seq 0 C) &&
    forallb (fun i => N.eqb ((w i + w (mate NN C r i)) mod PR) ((f i + f (mate NN C r i)) mod PR)) (seq 0 NN).
  Lemma survb_ok r : survb r = true <-> survives NN C w f r.
  Proof.
    unfold survb, survives. rewrite andb_true_iff, !forallb_forall. split.
    - intros [H1 H2]. split; intros i Hi; apply N.eqb_eq; [apply (H1 i)|apply (H2 i)]; apply in_seq; lia.
    - intros [H1 H2]. split; intros i Hi; apply in_seq in Hi; apply N.eqb_eq; [apply (H1 i)|apply (H2 i)]; lia.
  Qed.
  Lemma DF_only (P : N -> bool) : cnt P DF = cnt (fun d => N.ltb d PR && P d) DF.
  Proof.
    apply Nat.le_antisymm; apply cnt_mono.
    - intros d Hd E. rewrite E, andb_true_r. apply N.ltb_lt. now apply HF.
    - intros d _ E. now apply andb_true_iff in E.
  Qed.
  Lemma run_count r : r <= NN -> survb r = false -> cnt (accb r) (list_prod D2 DF) <= length D2 + length DF.
  Proof.
    intros Hr Hf. assert (Hns : ~ survives NN C w f r) by (intro Q; apply survb_ok in Q; congruence).
    destruct (Hv r) as (L1 & L2 & L3).
    assert (R1 : r < NN + C) by lia. assert (R2 : r + C <= NN + C) by lia.
    pose proof (run_keys NN C ap bl (sl r) w r ak bk (sk r) HN R1 R2 Hw Hsh Hb (Hs r) (vo r) (vb r) (h r) L1 L2 L3 Hns) as K. cbn zeta in K.
    set (P x y := N.ltb y PR && accb r (x, y)).
    assert (PA : forall x y, P x y = true -> (y < PR)%N /\ gen_ver NN C (ak y) (bk x) (sk r x) x y r [vo r; vb r] = h r).
    { intros x y E. unfold P in E. apply andb_true_iff in E. destruct E as [E1 E2]. apply N.ltb_lt in E1. split; [exact E1|].
      unfold accb in E2. cbn [fst snd] in E2. destruct (list_eq_dec _ _ _); [assumption|discriminate]. }
    assert (E : cnt (accb r) (list_prod D2 DF) = sumf (fun x => cnt (P x) DF) D2).
    { transitivity (cnt (fun p => accb r (fst p, snd p)) (list_prod D2 DF)).
      - apply Nat.le_antisymm; apply cnt_mono; intros [x y] _; auto.
      - rewrite (cnt_prod (fun x y => accb r (x, y))). apply Nat.le_antisymm; apply sumf_le; intros x _; apply Nat.eq_le_incl.
        + exact (DF_only (fun y => accb r (x, y))).
        + symmetry. exact (DF_only (fun y => accb r (x, y))). }
    rewrite E. destruct K as [K|K].
    - apply Nat.le_trans with (length DF); [|lia]. apply sum_first; [exact N2|]. intros x y x' y' Q Q'. apply PA in Q. apply PA in Q'. exact (K _ _ _ _ Q Q').
    - apply Nat.le_trans with (length D2); [|lia]. apply sum_second; [exact NF|]. intros x y x' y' Q Q'. apply PA in Q. apply PA in Q'. exact (K _ _ _ _ Q Q').
  Qed.
  Theorem counted q i0 : (forall d, Nat.divide d (NN + C) -> C < d -> q <= d) -> i0 < NN -> w i0 <> hi64 (ap i0) ->
    cnt (fun t => accb (fst t) (snd t)) (list_prod (seq 0 (S NN)) (list_prod D2 DF)) * q <=
    (NN + C) * (length D2 * length DF) + S NN * (length D2 + length DF) * q.
  Proof.
    intros Hq Hi Hne. rewrite cnt_prod.
    assert (L : sumf (fun r => cnt (accb r) (list_prod D2 DF)) (seq 0 (S NN)) <=
                cnt survb (seq 0 (S NN)) * (length D2 * length DF) + S NN * (length D2 + length DF)).
    { assert (E : cnt survb (seq 0 (S NN)) * (length D2 * length DF) = sumf (fun r => if survb r then length D2 * length DF else 0) (seq 0 (S NN))).
      { rewrite cnt_sum. clear. generalize (length D2 * length DF). intro D. induction (seq 0 (S NN)) as [|r l IH]; [reflexivity|].
        cbn [sumf]. rewrite Nat.mul_add_distr_r, IH. destruct (survb r); lia. }
      rewrite E. replace (S NN * (length D2 + length DF)) with (sumf (fun _ => length D2 + length DF) (seq 0 (S NN))) by (rewrite sumf_const, seq_length; reflexivity).
      rewrite <- sumf_plus. apply sumf_le. intros r Hr. apply in_seq in Hr.
      destruct (survb r) eqn:Es.
      - pose proof (cnt_le (accb r) (list_prod D2 DF)) as Q. rewrite prod_length in Q. lia.
      - rewrite Nat.add_0_l. apply run_count; [lia|exact Es]. }
    assert (O : cnt survb (seq 0 (S NN)) * q <= NN + C).
    { unfold cnt. apply (offsets_bound NN C w f HN q i0); auto.
      - intros i Hi'. split; [now apply Hw|]. assert (Z : (0 < PR)%N) by reflexivity. pose proof (Hsh 0%N i Z Hi') as Q. apply share_F in Q. apply Q.
      - apply NoDup_filter, seq_NoDup.
      - intros r Hr. apply filter_In in Hr. destruct Hr as [Hr Es]. apply in_seq in Hr. split; [lia|]. split; [lia|]. now apply survb_ok. }
    eapply Nat.le_trans; [apply Nat.mul_le_mono_r; exact L|]. rewrite Nat.mul_add_distr_r. apply Nat.add_le_mono_r.
    rewrite <- Nat.mul_assoc, (Nat.mul_comm (length D2 * length DF) q), Nat.mul_assoc. now apply Nat.mul_le_mono_r.
  Qed.
End Counted.
