(** Sessions of the conversion engine against a cheating prover. *)
From Coq Require Import NArith List Bool Arith Lia Ring.
From Verif Require Import Word WordProofs FpModel FpProofs ListUtil Prime61 ArithModel ArithSpec ArithProofs CopeProofs
  LowMcProofs EdaModel EdaSpec EdaStock EdaProofs EdaThms GameSpec CountAlg EdaCutSpec EdaCutAlg EdaCutThms EdaSessSpec.
Import ListNotations.
Ltac Zify.zify_post_hook ::= idtac.
Add Ring fp_ring : fp_rt.

(** all accepting key pairs share a component *)
Definition ks (H : N -> N -> list hitem) (h : list hitem) : Prop :=
  (forall d2 df d2' df', (df < PR)%N -> (df' < PR)%N -> H d2 df = h -> H d2' df' = h -> d2 = d2') \/
  (forall d2 df d2' df', (df < PR)%N -> (df' < PR)%N -> H d2 df = h -> H d2' df' = h -> df = df').
Definition flen (H : N -> N -> list hitem) (L : nat) : Prop := forall d2 df, length (H d2 df) = L.
Lemma ks_sub (H H' : N -> N -> list hitem) h h' :
  (forall d2 df, H d2 df = h -> H' d2 df = h') -> ks H' h' -> ks H h.
Proof. intros E [K|K]; [left|right]; intros d2 df d2' df' A B C D; apply (K d2 df d2' df'); auto. Qed.
Lemma ks_l H1 H2 L h : flen H1 L -> ks H1 (firstn L h) -> ks (fun d2 df => H1 d2 df ++ H2 d2 df) h.
Proof.
  intros F. apply ks_sub. intros d2 df <-. rewrite <- (F d2 df). rewrite firstn_app, Nat.sub_diag, firstn_all. now rewrite firstn_O, app_nil_r.
Qed.
Lemma ks_r H1 H2 L h : flen H1 L -> ks H2 (skipn L h) -> ks (fun d2 df => H1 d2 df ++ H2 d2 df) h.
Proof.
  intros F. apply ks_sub. intros d2 df <-. rewrite <- (F d2 df). rewrite skipn_app, Nat.sub_diag, skipn_all. reflexivity.
Qed.
Lemma flen_app H1 H2 L1 L2 : flen H1 L1 -> flen H2 L2 -> flen (fun d2 df => H1 d2 df ++ H2 d2 df) (L1 + L2).
Proof. intros A B d2 df. now rewrite app_length, A, B. Qed.
Lemma both_len {A} d2 df (es : list A) vl va v n : (forall e, In e es -> length (vl e) = n) ->
  length (op_recv_both d2 df (map (fun e => (vl e, va e)) es) (map v es)) = length es + length es * n.
Proof.
  intro H. rewrite recv_both_es, app_length. f_equal; induction es as [|e es IH]; cbn [flat_map length]; rewrite ?app_length; auto.
  - cbn [op_recv_fp length]. now rewrite IH by (intros; apply H; now right).
  - rewrite recv_f2_len, H by now left. rewrite IH by (intros; apply H; now right). reflexivity.
Qed.
Lemma v_eta (v : list N) n : length v = n -> v = map (fun i => nth i v 0%N) (seq 0 n).
Proof. intros <-. symmetry. apply map_nth_seq. Qed.

Lemma survb_iff NN C ap w r : survb NN C ap w r = true <-> survives NN C w (fun i => hi64 (ap i)) r.
Proof.
  unfold survb, survives. rewrite andb_true_iff, !forallb_forall. split.
  - intros [H1 H2]. split; intros i Hi; apply N.eqb_eq; [apply (H1 i)|apply (H2 i)]; apply in_seq; lia.
  - intros [H1 H2]. split; intros i Hi; apply in_seq in Hi; apply N.eqb_eq; [apply (H1 i)|apply (H2 i)]; lia.
Qed.
Section One.
  Variables (NN C : nat).
  Hypotheses (HN : 1 <= NN).
  Lemma gen_flen g r t : r <= NN -> 1 <= C -> cand_auth NN C g -> talk_auth NN C g r t ->
    flen (fun d2 df => gen_ver NN C (c_ak g df) (c_bk g d2) (t_sk t d2) d2 df r [t_vo t; t_vb t]) ((C + C * 62) + (NN + NN * 62)).
  Proof.
    intros Hr HC (A1 & A2 & A3) (T1 & T2 & T3 & _) d2 df.
    assert (Hf : r < ell_faulty NN 2 C) by (rewrite fault_eq; lia).
    rewrite (gen_ver_eq NN C (c_ap g) _ (c_bl g) _ (t_sl t) _ d2 df r HN Hf). rewrite (v_eta _ _ T2), (v_eta _ _ T3), app_length. f_equal.
    - rewrite (both_len d2 df (seq 0 C) (fun i => c_bk g d2 (NN + (r + i))) (fun i => c_ak g df (NN + (r + i))) _ 62); [now rewrite seq_length|].
      intros i Hi. apply in_seq in Hi. apply (A3 d2). lia.
    - rewrite (both_len d2 df (seq 0 NN) (fun i => t_sk t d2 i) _ _ 62); [now rewrite seq_length|].
      intros i Hi. apply in_seq in Hi. apply (T1 d2). lia.
  Qed.
  Definition goodc (g : gcand) (c : cdata) : Prop :=
    match c with
    | CvB i x lab key v => v = b2a_diff x (c_w g i)
    | CvA i a key v => (v mod PR = (hi64 (c_ap g i) + hi64 a) mod PR)%N
    end.
  Lemma share_lt d a k : share_ok d a k -> (hi64 a < PR)%N.
  Proof. intro S. apply share_F in S. apply S. Qed.
  Lemma cand_lt g i : cand_auth NN C g -> i < 2 * NN + C -> (hi64 (c_ap g i) < PR)%N /\ (c_w g i < PR)%N.
  Proof. intros (A1 & A2 & _) Hi. split; [|now apply A1]. apply (share_lt 0 _ (c_ak g 0%N i)). now apply A2. Qed.
  Lemma conv_ks g c h : cand_auth NN C g -> conv_auth NN g c -> goodc g c \/ ks (fun d2 df => conv_hash g d2 df c) h.
  Proof.
    intros A H. destruct c as [i x lab key v|i a key v]; cbn [conv_auth goodc conv_hash] in *.
    - destruct H as (H1 & H2 & H3 & H4). assert (Li : i < 2 * NN + C) by lia. destruct (cand_lt g i A Li) as [F1 F2].
      change prm with PR in H2, H3.
      destruct (N.eq_dec v (b2a_diff x (c_w g i))) as [E|E]; [now left|right; left].
      intros d2 df d2' df' _ _ Q Q'. rewrite <- Q' in Q. apply (f2_two d2 d2' _ _ _ _ v (H4 d2) (H4 d2')); [|exact Q].
      intro S. apply E. apply same62_mod_eq in S. assert (Ld : (b2a_diff x (c_w g i) < PR)%N) by (rewrite (diff_ok _ _ H2 F2); apply N.mod_upper_bound; discriminate).
      assert (W : forall y, (y <= PR)%N -> (y < I62)%N) by (intros y Hy; eapply N.le_lt_trans; [exact Hy|reflexivity]).
      rewrite (N.mod_small v) in S by now apply W. rewrite N.mod_small in S by now apply W, lt_le. exact S.
    - destruct H as (H1 & H2 & H3). assert (Li : i < 2 * NN + C) by lia. change prm with PR in H2.
      destruct (N.eq_dec (v mod PR) ((hi64 (c_ap g i) + hi64 a) mod PR)) as [E|E]; [now left|right; right].
      intros d2 df d2' df' D D' Q Q'. rewrite <- Q' in Q. destruct A as (_ & A2 & _).
      destruct (add_share df _ _ _ _ (A2 df i D Li) (H3 df D)) as [B1 B2]. destruct (add_share df' _ _ _ _ (A2 df' i D' Li) (H3 df' D')) as [B1' _].
      apply (fp_two df df' _ _ _ v B1 B1' D D' H2); [|exact Q]. now rewrite B2.
  Qed.
  Definition conv_len (c : cdata) : nat := match c with CvB _ _ _ _ _ => 62 | CvA _ _ _ _ => 1 end.
  Lemma conv_flen g c : conv_auth NN g c -> flen (fun d2 df => conv_hash g d2 df c) (conv_len c).
  Proof.
    intros H d2 df. destruct c as [i x lab key v|i a key v]; cbn [conv_auth conv_hash conv_len] in *; [|reflexivity].
    rewrite recv_f2_len. apply (proj2 (proj2 (proj2 H)) d2).
  Qed.
  Lemma convs_flen g cs : Forall (conv_auth NN g) cs -> flen (fun d2 df => flat_map (conv_hash g d2 df) cs) (list_sum (map conv_len cs)).
  Proof.
    induction 1 as [|c cs H F IH]; [intros ? ?; reflexivity|]. cbn [flat_map map list_sum fold_right].
    apply (flen_app (fun d2 df => conv_hash g d2 df c)); [now apply conv_flen|exact IH].
  Qed.
  Lemma convs_ks g cs : cand_auth NN C g -> Forall (conv_auth NN g) cs -> forall h,
    Forall (goodc g) cs \/ ks (fun d2 df => flat_map (conv_hash g d2 df) cs) h.
  Proof.
    intros A. induction 1 as [|c cs H F IH]; intro h; [left; constructor|]. cbn [flat_map].
    destruct (conv_ks g c (firstn (conv_len c) h) A H) as [G|K].
    - destruct (IH (skipn (conv_len c) h)) as [G'|K]; [left; now constructor|right].
      apply (ks_r (fun d2 df => conv_hash g d2 df c) _ (conv_len c)); [now apply conv_flen|exact K].
    - right. apply (ks_l (fun d2 df => conv_hash g d2 df c) _ (conv_len c)); [now apply conv_flen|exact K].
  Qed.
  Lemma gen_ks g r t : r <= NN -> 1 <= C -> cand_auth NN C g -> talk_auth NN C g r t -> forall h,
    (survives NN C (c_w g) (fun i => hi64 (c_ap g i)) r /\ Forall (goodc g) (t_conv t)) \/ ks (gen_hash NN C g r t) h.
  Proof.
    intros Hr HC A T h. pose proof (gen_flen g r t Hr HC A T) as L. set (n := C + C * 62 + (NN + NN * 62)) in L.
    pose proof A as (A1 & A2 & A3). pose proof T as (T1 & T2 & T3 & T4 & T5).
    destruct (survb NN C (c_ap g) (c_w g) r) eqn:Es.
    - apply survb_iff in Es. destruct (convs_ks g (t_conv t) A T5 (skipn n h)) as [G|K]; [left; now split|right].
      exact (ks_r _ _ n h L K).
    - right. apply (ks_l _ (fun d2 df => flat_map (conv_hash g d2 df) (t_conv t)) n h L).
      assert (Ns : ~ survives NN C (c_w g) (fun i => hi64 (c_ap g i)) r) by (intro Q; apply survb_iff in Q; congruence).
      assert (R1 : r < NN + C) by lia. assert (R2 : r + C <= NN + C) by lia.
      pose proof (run_keys NN C (c_ap g) (c_bl g) (t_sl t) (c_w g) r (c_ak g) (c_bk g) (t_sk t) HN R1 R2 A1 A2 A3 T1 _ _ (firstn n h) T2 T3 T4 Ns) as K.
      cbn zeta in K. destruct K as [K|K]; [left|right]; intros d2 df d2' df' D D' Q Q'; apply (K d2 df d2' df'); split; assumption.
  Qed.
  Lemma good_right g c : cand_auth NN C g -> conv_auth NN g c -> goodc g c ->
    (forall i, i < NN -> c_w g i = hi64 (c_ap g i)) -> rightb g c = true.
  Proof.
    intros A H G M. destruct c as [i x lab key v|i a key v]; cbn [conv_auth goodc rightb] in *; apply N.eqb_eq; change prm with PR in *.
    - destruct H as (H1 & H2 & H3 & H4). assert (Li : i < 2 * NN + C) by lia. destruct (cand_lt g i A Li) as [F1 F2].
      rewrite (M i H1) in G. rewrite G, (diff_ok _ _ H2 F1). now apply diff_sum.
    - destruct H as (H1 & H2 & H3). assert (Li : i < 2 * NN + C) by lia. destruct (cand_lt g i A Li) as [F1 F2].
      rewrite (M i H1). set (f := hi64 (c_ap g i)) in *.
      assert (Ha : (hi64 a < PR)%N) by (apply (share_lt 0 _ (key 0%N)); now apply H3).
      assert (O : toF (a2b_out v f) = psub (toF v) (toF f)).
      { destruct (N.eq_dec v PR) as [->|Hv].
        - unfold a2b_out. rewrite (N.mod_small PR I62) by reflexivity. unfold isub. rewrite (N.mod_small f I62) by (eapply N.lt_trans; [exact F1|reflexivity]).
          assert (E : ((PR + (I62 - f)) mod I62 = PR - f)%N).
          { replace (PR + (I62 - f))%N with ((PR - f) + 1 * I62)%N.
            - rewrite N.mod_add by discriminate. apply N.mod_small. apply N.le_lt_trans with PR; [apply N.le_sub_l|reflexivity].
            - assert (LI : (f < I62)%N) by (eapply N.lt_trans; [exact F1|reflexivity]). revert F1 LI. generalize PR I62. intros p q. lia. }
          rewrite E. unfold itop, isel. assert (B : N.testbit (PR - f) 61 = false).
          { apply N.bits_above_log2. destruct (N.eq_dec (PR - f) 0) as [->|Z]; [reflexivity|].
            apply N.log2_lt_pow2; [now apply N.neq_0_lt_0|]. apply N.le_lt_trans with PR; [apply N.le_sub_l|reflexivity]. }
          rewrite B. rewrite toF_sub by now apply lt_le. reflexivity.
        - assert (Lv : (v < PR)%N) by (apply N.le_neq; now split). rewrite a2b_ok by assumption. rewrite toF_mod, toF_add, toF_sub by now apply lt_le.
          replace (toF PR) with p0 by (now apply (proj2 (toF_eq 0 PR))). ring. }
      transitivity (hi64 a mod PR)%N; [|now apply N.mod_small]. apply toF_eq. rewrite O.
      replace (toF v) with (padd (toF f) (toF (hi64 a))); [ring|]. rewrite <- toF_add. apply toF_eq. now symmetry.
  Qed.
  (** what [rightb] says *)
  Lemma share_val a a' (k : N -> N) : (forall d, (d < PR)%N -> share_ok d a (k d)) -> (forall d, (d < PR)%N -> share_ok d a' (k d)) -> hi64 a = hi64 a'.
  Proof.
    intros A A'. pose proof (A 0%N eq_refl) as S0. pose proof (A' 0%N eq_refl) as S0'. pose proof (A 1%N eq_refl) as S1. pose proof (A' 1%N eq_refl) as S1'.
    apply share_F in S0. apply share_F in S0'. apply share_F in S1. apply share_F in S1'.
    destruct S0 as ((B1 & B2 & B3) & E0). destruct S0' as ((B1' & B2' & _) & E0'). destruct S1 as (_ & E1). destruct S1' as (_ & E1').
    apply toF_inj; [exact B1|exact B1'|]. rewrite E0 in E1. rewrite E0' in E1'. change (toF 0) with p0 in *. change (toF 1) with p1 in *.
    set (x := toF (hi64 a)) in *. set (y := toF (hi64 a')) in *. set (u := toF (k 0%N)) in *. set (v := toF (k 1%N)) in *.
    clearbody x y u v. transitivity (psub (padd v (pmul x p1)) v); [ring|]. rewrite <- E1. transitivity (psub (padd v (pmul y p1)) v); [rewrite <- E1'|]; ring.
  Qed.
  Lemma right_iff g c : cand_auth NN C g -> conv_auth NN g c -> (rightb g c = true <-> right g c).
  Proof.
    intros A H. destruct c as [i x lab key v|i a key v]; cbn [conv_auth rightb right] in *; [|apply N.eqb_eq].
    destruct H as (H1 & H2 & H3 & H4). assert (Li : i < 2 * NN + C) by lia. pose proof A as (_ & A2 & _). change prm with PR in *.
    assert (P : forall d, (d < PR)%N -> share_ok d (fp_addc_prv (c_ap g i) v) (b2a_ver d (c_ak g d i) v) /\ hi64 (fp_addc_prv (c_ap g i) v) = ((hi64 (c_ap g i) + v) mod PR)%N).
    { intros d Hd. unfold b2a_ver. apply addc_share; [now apply A2|exact H3|exact Hd]. }
    rewrite N.eqb_eq. split.
    - intro E. exists (fp_addc_prv (c_ap g i) v). split; [rewrite (proj2 (P 0%N eq_refl)); exact E|]. intros d Hd. now apply P.
    - intros (a & E & Q). rewrite <- (proj2 (P 0%N eq_refl)), <- E. apply (share_val _ _ (fun d => b2a_ver d (c_ak g d i) v)); [intros d Hd; now apply P|exact Q].
  Qed.
End One.

Section Many.
  Variables (NN C : nat) (st : strat).
  Hypotheses (HN : 1 <= NN) (HC : 1 <= C) (Hst : strat_auth NN C st).
  Notation g past := (s_cand st past).
  Notation t past r := (s_talk st past r).
  Fixpoint all_good (past rs : list nat) : Prop :=
    match rs with [] => True | r :: rs' => Forall (goodc (g past)) (t_conv (t past r)) /\ all_good (past ++ [r]) rs' end.
  Theorem sess_keys : forall rs past h, Forall (fun r => r <= NN) rs ->
    (all_survive NN C st past rs /\ all_good past rs) \/ ks (sess_hash NN C st past rs) h.
  Proof.
    destruct Hst as [Hc Ht]. induction rs as [|r rs IH]; intros past h F; [left; now split|]. inversion F as [|? ? Hr F']; subst.
    cbn [all_survive all_good sess_hash].
    assert (L : flen (gen_hash NN C (g past) r (t past r)) (C + C * 62 + (NN + NN * 62) + list_sum (map conv_len (t_conv (t past r))))).
    { apply (flen_app (fun d2 df => gen_ver NN C (c_ak (g past) df) (c_bk (g past) d2) (t_sk (t past r) d2) d2 df r [t_vo (t past r); t_vb (t past r)])).
      - apply gen_flen; auto.
      - apply (convs_flen NN). now apply (Ht past r Hr). }
    set (n := C + C * 62 + (NN + NN * 62) + list_sum (map conv_len (t_conv (t past r)))) in L.
    destruct (gen_ks NN C HN (g past) r (t past r) Hr HC (Hc past) (Ht past r Hr) (firstn n h)) as [[S G]|K].
    - destruct (IH (past ++ [r]) (skipn n h) F') as [[S' G']|K]; [left; split; split; assumption|right].
      exact (ks_r _ _ n h L K).
    - right. exact (ks_l _ (fun d2 df => sess_hash NN C st (past ++ [r]) rs d2 df) n h L K).
  Qed.
  Theorem good_all_right : forall rs past, Forall (fun r => r <= NN) rs -> all_good past rs -> masks_good NN st past rs -> all_right st past rs = true.
  Proof.
    destruct Hst as [Hc Ht]. induction rs as [|r rs IH]; intros past F G M; [reflexivity|]. inversion F as [|? ? Hr F']; subst.
    cbn [all_good masks_good all_right] in *. destruct G as [G G']. destruct M as [M M']. rewrite IH by assumption. rewrite andb_true_r.
    apply forallb_forall. intros c Hc'. apply (good_right NN C); auto.
    - destruct (Ht past r Hr) as (_ & _ & _ & _ & Q). rewrite Forall_forall in Q. now apply Q.
    - rewrite Forall_forall in G. now apply G.
  Qed.

  (** honest sessions *)
  Theorem honest_accepted : forall rs past d2 df, (df < PR)%N -> Forall (fun r => r <= NN) rs -> honest_sess NN C st past rs ->
    no_sum_p NN C st past rs -> sess_hash NN C st past rs d2 df = sess_prv NN C st past rs /\ all_right st past rs = true.
  Proof.
    destruct Hst as [Hc Ht]. induction rs as [|r rs IH]; intros past d2 df Hd F H P; [split; reflexivity|]. inversion F as [|? ? Hr F']; subst.
    cbn [honest_sess no_sum_p sess_hash sess_prv all_right] in *. cbv zeta. destruct H as [(M & W & Hh) H']. destruct P as [P P'].
    destruct (IH (past ++ [r]) d2 df Hd F' H' P') as [I1 I2]. rewrite I1, I2, andb_true_r.
    pose proof (Hc past) as A. pose proof A as (A1 & A2 & A3). pose proof (Ht past r Hr) as (T1 & T2 & T3 & T4 & T5).
    assert (Hf : r < ell_faulty NN 2 C) by (rewrite fault_eq; lia).
    rewrite (gen_prv_eq NN C _ (fun _ => 0%N) _ (fun _ => []) _ (fun _ => []) r HN Hf) in W. cbv zeta in W. cbn [fst] in W. injection W as W1 W2.
    assert (E : [t_vo (t past r); t_vb (t past r)] =
      [map (fun q => c_w (g past) (NN + (r + q))) (seq 0 C); map (fun i => bucket_f2 (c_w (g past) i) (c_w (g past) (mate NN C r i))) (seq 0 NN)]).
    { rewrite <- W1, <- W2. unfold op_send_both. cbn [fst]. rewrite !map_map. cbn [snd]. f_equal; [|f_equal].
      - apply map_ext_in. intros q Hq. apply in_seq in Hq. symmetry. apply M. lia.
      - apply map_ext_in. intros i Hi. apply in_seq in Hi. pose proof (mate_lt NN C r i HN) as Hm.
        assert (L1 : i < 2 * NN + C) by lia. assert (L2 : mate NN C r i < 2 * NN + C) by lia. unfold addp. rewrite partner_mate.
        destruct (add_share 0%N _ _ _ _ (A2 0%N i eq_refl L1) (A2 0%N _ eq_refl L2)) as [_ B2]. rewrite B2.
        destruct (cand_lt NN C (g past) i A L1) as [U1 U2]. destruct (cand_lt NN C (g past) _ A L2) as [V1 V2].
        rewrite bucket_ok by assumption. rewrite (M i L1), (M _ L2). specialize (P i ltac:(lia)).
        destruct (N.eqb_spec (hi64 (c_ap (g past) i) + hi64 (c_ap (g past) (mate NN C r i))) PR) as [Z|Z]; [contradiction|reflexivity]. }
    assert (Sv : survives NN C (c_w (g past)) (fun i => hi64 (c_ap (g past) i)) r).
    { split; [intros q Hq; apply M; lia|]. intros i Hi. pose proof (mate_lt NN C r i HN) as Hm. rewrite !M by lia. reflexivity. }
    split.
    - f_equal. unfold gen_hash. apply f_equal2.
      + rewrite E. apply surv_accepted; auto; lia.
      + rewrite Forall_forall in Hh, T5. clear - Hh T5 A2 Hd HN. induction (t_conv (t past r)) as [|c cs IHc]; [reflexivity|].
        cbn [flat_map]. rewrite IHc by (intros; first [apply Hh|apply T5]; now right). f_equal.
        specialize (Hh c (or_introl eq_refl)). specialize (T5 c (or_introl eq_refl)).
        destruct c as [i x lab key v|i a key v]; cbn [honest_conv conv_auth conv_hash conv_prv] in *.
        * subst v. unfold b2a_prv. cbn [fst]. apply (open_f2 d2 lab (key d2) (b2a_diff x (c_w (g past) i))); [apply T5|apply same62_refl].
        * subst v. assert (Li : i < 2 * NN + C) by lia. apply (a2b_one df (hi64 (c_ap (g past) i))); auto. apply T5. exact Hd.
    - apply forallb_forall. intros c Hc'. rewrite Forall_forall in Hh, T5. specialize (Hh c Hc'). specialize (T5 c Hc').
      apply (good_right NN C); auto; [|intros i Hi; apply M; lia].
      destruct c as [i x lab key v|i a key v]; cbn [honest_conv conv_auth goodc] in *; subst v; [reflexivity|].
      assert (Li : i < 2 * NN + C) by lia. destruct (add_share 0%N _ _ _ _ (A2 0%N i eq_refl Li) (proj2 (proj2 T5) 0%N eq_refl)) as [_ B2].
      unfold a2b_open, op_send_fp. cbn [fst]. rewrite B2. now apply N.mod_mod.
  Qed.

  (** counting offsets *)
  Definition evilb (past : list nat) : bool := negb (forallb (fun i => N.eqb (c_w (g past) i) (hi64 (c_ap (g past) i))) (seq 0 NN)).
  Definition survgb (past : list nat) (r : nat) : bool := survb NN C (c_ap (g past)) (c_w (g past)) r.
  Fixpoint badb (past rs : list nat) : bool :=
    match rs with [] => false | r :: rs' => if evilb past then survgb past r else badb (past ++ [r]) rs' end.
  Lemma evil_not past : evilb past = false -> forall i, i < NN -> c_w (g past) i = hi64 (c_ap (g past) i).
  Proof.
    unfold evilb. intros E i Hi. apply negb_false_iff in E. rewrite forallb_forall in E. apply N.eqb_eq, E, in_seq. lia.
  Qed.
  Lemma evil_some past : evilb past = true -> exists i, i < NN /\ c_w (g past) i <> hi64 (c_ap (g past) i).
  Proof.
    unfold evilb. intro E. apply negb_true_iff in E. destruct (all_or_not (fun i => N.eqb (c_w (g past) i) (hi64 (c_ap (g past) i))) NN) as [A|(i & Hi & Q)].
    - exfalso. enough (T : forallb (fun i => N.eqb (c_w (g past) i) (hi64 (c_ap (g past) i))) (seq 0 NN) = true) by congruence.
      apply forallb_forall. intros i Hi. apply in_seq in Hi. apply A. lia.
    - exists i. split; [exact Hi|]. now apply N.eqb_neq.
  Qed.
  Lemma bad_or_good : forall rs past, all_survive NN C st past rs -> badb past rs = false -> masks_good NN st past rs.
  Proof.
    induction rs as [|r rs IH]; intros past S B; [exact I|]. cbn [all_survive badb masks_good] in *. destruct S as [S1 S2].
    destruct (evilb past) eqn:E.
    - exfalso. apply survb_iff in S1. unfold survgb in B. congruence.
    - split; [now apply evil_not|now apply IH].
  Qed.
  Variable q : nat.
  Hypothesis Hq : forall d, Nat.divide d (NN + C) -> C < d -> q <= d.
  Notation K := (seq 0 (S NN)).
  Lemma surv_count past : evilb past = true -> cnt (survgb past) K * q <= NN + C.
  Proof.
    intro E. destruct (evil_some past E) as (i0 & Hi & Hne). destruct Hst as [Hc _]. specialize (Hc past). unfold cnt.
    apply (offsets_bound NN C (c_w (g past)) (fun i => hi64 (c_ap (g past) i)) HN q i0); auto.
    - intros i Hi'. destruct (cand_lt NN C (g past) i Hc Hi') as [Q1 Q2]. now split.
    - apply NoDup_filter, seq_NoDup.
    - intros r Hr. apply filter_In in Hr. destruct Hr as [Hr Es]. apply in_seq in Hr. split; [lia|]. split; [lia|]. now apply survb_iff.
  Qed.
  Theorem bad_count : forall n past, cnt (badb past) (tuples (S n) K) * q <= (NN + C) * S NN ^ n.
  Proof.
    induction n as [|n IH]; intro past; rewrite cnt_tuples; cbn [badb]; destruct (evilb past) eqn:E.
    - cbn [tuples]. rewrite Nat.pow_0_r, Nat.mul_1_r. eapply Nat.le_trans; [|exact (surv_count past E)]. apply Nat.mul_le_mono_r.
      rewrite cnt_sum. apply sumf_le. intros r _. unfold cnt. cbn [filter]. destruct (survgb past r); cbn; lia.
    - eapply Nat.le_trans; [apply Nat.mul_le_mono_r, (sumf_le _ (fun _ => 0)); intros r _; reflexivity|]. rewrite sumf_const, Nat.mul_0_r. lia.
    - assert (Q : sumf (fun r => cnt (fun _ : list nat => survgb past r) (tuples (S n) K)) K <= cnt (survgb past) K * S NN ^ S n).
      { rewrite cnt_sum. assert (L : length (tuples (S n) K) = S NN ^ S n) by (rewrite tuples_len, seq_length; reflexivity).
        rewrite <- L. generalize (tuples (S n) K). intro T. clear. induction K as [|r l IHl]; [cbn; lia|]. cbn [sumf].
        rewrite Nat.mul_add_distr_r. apply Nat.add_le_mono; [|exact IHl]. destruct (survgb past r).
        - rewrite Nat.mul_1_l. apply cnt_le.
        - rewrite cnt0; [lia|auto]. }
      eapply Nat.le_trans; [apply Nat.mul_le_mono_r; exact Q|]. rewrite <- Nat.mul_assoc, (Nat.mul_comm _ q), Nat.mul_assoc.
      apply Nat.mul_le_mono_r. now apply surv_count.
    - assert (Q : sumf (fun r => cnt (fun s => badb (past ++ [r]) s) (tuples (S n) K)) K * q <= sumf (fun _ => (NN + C) * S NN ^ n) K).
      { revert IH. generalize (tuples (S n) K). intros T IH. induction K as [|r l IHl]; [cbn; lia|]. cbn [sumf]. rewrite Nat.mul_add_distr_r. apply Nat.add_le_mono; [apply IH|exact IHl]. }
      eapply Nat.le_trans; [exact Q|]. rewrite sumf_const, seq_length. cbn [Nat.pow]. generalize (S NN ^ n). intro P. generalize (NN + C). intro M. lia.
  Qed.

  (** counting offsets and keys *)
  Variables (h : list nat -> list hitem) (D2 DF : list N).
  Hypotheses (N2 : NoDup D2) (NF : NoDup DF) (HF : forall d, In d DF -> (d < PR)%N).
  Definition cheatb (rs : list nat) (k : N * N) : bool :=
    (if list_eq_dec hitem_dec (sess_hash NN C st [] rs (fst k) (snd k)) (h rs) then true else false) && negb (all_right st [] rs).
  Lemma ks_count (H : N -> N -> list hitem) hh (P : N * N -> bool) :
    (forall x y, P (x, y) = true -> H x y = hh) -> ks H hh -> cnt P (list_prod D2 DF) <= length D2 + length DF.
  Proof.
    intros HP Kk. set (P' x y := N.ltb y PR && P (x, y)).
    assert (E : cnt P (list_prod D2 DF) <= sumf (fun x => cnt (P' x) DF) D2).
    { apply Nat.le_trans with (cnt (fun p => P' (fst p) (snd p)) (list_prod D2 DF)); [|now rewrite (cnt_prod P')].
      apply cnt_mono. intros [x y] Hin E. cbn [fst snd]. unfold P'. rewrite E, andb_true_r. apply N.ltb_lt, HF. now apply in_prod_iff in Hin. }
    assert (PA : forall x y, P' x y = true -> (y < PR)%N /\ H x y = hh).
    { intros x y Q. unfold P' in Q. apply andb_true_iff in Q. destruct Q as [Q1 Q2]. apply N.ltb_lt in Q1. split; [exact Q1|now apply HP]. }
    eapply Nat.le_trans; [exact E|]. destruct Kk as [Kk|Kk].
    - apply Nat.le_trans with (length DF); [|lia]. apply sum_first; [exact N2|]. intros x y x' y' Q Q'. apply PA in Q. apply PA in Q'.
      destruct Q, Q'. now apply (Kk x y x' y').
    - apply Nat.le_trans with (length D2); [|lia]. apply sum_second; [exact NF|]. intros x y x' y' Q Q'. apply PA in Q. apply PA in Q'.
      destruct Q, Q'. now apply (Kk x y x' y').
  Qed.
  Theorem sess_counted n :
    cnt (fun x => cheatb (fst x) (snd x)) (list_prod (tuples (S n) K) (list_prod D2 DF)) * q <=
    (NN + C) * S NN ^ n * (length D2 * length DF) + S NN ^ S n * (length D2 + length DF) * q.
  Proof.
    rewrite cnt_prod. set (D := length D2 * length DF). set (T := tuples (S n) K).
    assert (L : sumf (fun rs => cnt (cheatb rs) (list_prod D2 DF)) T <= cnt (badb []) T * D + S NN ^ S n * (length D2 + length DF)).
    { assert (E : cnt (badb []) T * D = sumf (fun rs => if badb [] rs then D else 0) T).
      { rewrite cnt_sum. clear. induction T as [|r l IH]; [reflexivity|]. cbn [sumf]. rewrite Nat.mul_add_distr_r, IH. destruct (badb [] r); lia. }
      assert (LT : length T = S NN ^ S n) by (unfold T; rewrite tuples_len, seq_length; reflexivity).
      rewrite E, <- LT, <- (sumf_const (length D2 + length DF) T), <- sumf_plus. apply sumf_le. intros rs Hrs.
      destruct (badb [] rs) eqn:Eb.
      - pose proof (cnt_le (cheatb rs) (list_prod D2 DF)) as Q. rewrite prod_length in Q. fold D in Q. lia.
      - rewrite Nat.add_0_l. assert (F : Forall (fun r => r <= NN) rs).
        { apply Forall_forall. intros r Hr. apply tuples_in in Hrs. destruct Hrs as [_ Hrs]. specialize (Hrs r Hr). apply in_seq in Hrs. lia. }
        destruct (sess_keys rs [] (h rs) F) as [[S G]|Kk].
        + rewrite cnt0; [lia|]. intros k _. unfold cheatb. rewrite (good_all_right rs [] F G (bad_or_good rs [] S Eb)). apply andb_false_r.
        + apply (ks_count (sess_hash NN C st [] rs) (h rs)); [|exact Kk]. intros x y Q. unfold cheatb in Q. apply andb_true_iff in Q. destruct Q as [Q _].
          cbn [fst snd] in Q. destruct (list_eq_dec _ _ _); [assumption|discriminate]. }
    eapply Nat.le_trans; [apply Nat.mul_le_mono_r; exact L|]. rewrite Nat.mul_add_distr_r. apply Nat.add_le_mono_r.
    rewrite <- Nat.mul_assoc, (Nat.mul_comm D q), Nat.mul_assoc. apply Nat.mul_le_mono_r. apply bad_count.
  Qed.
End Many.
