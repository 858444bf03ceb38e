From Coq Require Import NArith ZArith List Bool Arith Lia.
From Verif Require Import Word FpModel TreeModel TreeProofs VoleModel VoleSpec ArithSpec LpnProofs CopeProofs MpfssProofs PoolModel PoolSpec PoolProofs VoleTripleModel.
Import ListNotations.

Definition cot_ok (cnt : nat) (r : trand) : Prop := forall i, i < cnt ->
  r_ot_r r i = N.lxor (r_ot_s r i) (if r_ot_b r i then r_ot_delta r else 0%N).
(** parameters a stage needs *)
Definition lp_wf (p : lpn_param) : Prop :=
  lp_n p = lp_t p * 2 ^ lp_log p /\ 1 <= lp_log p /\ 1 <= lp_k p /\ (N.of_nat (lp_k p) < 2 ^ 31)%N.

Lemma vole_extend_ok L R H Hs word threads p rnd d key mac Y0 Z0 :
  lp_wf p -> 1 <= threads -> (d < PR)%N -> cot_ok (lp_log p * lp_t p) rnd ->
  corr d 0 (lp_M p) key mac ->
  let '(Y, Z, ok) := vole_extend L R H Hs word threads (lp_n p) (lp_t p) (lp_k p) (lp_log p) rnd d key mac Y0 Z0 in
  ok = true /\ corr d 0 (lp_n p) Y Z.
Proof.
  intros (Hn & Hl & Hk & Hk31) Ht Hd Hc Hcor. unfold vole_extend, lp_M in *.
  assert (Hc' : forall i, i < (lp_log p + 1 - 1) * lp_t p -> r_ot_r rnd i = N.lxor (r_ot_s rnd i) (if r_ot_b rnd i then r_ot_delta rnd else 0%N)).
  { intros i Hi. apply Hc. now rewrite Nat.add_sub in Hi. }
  pose proof (mpfss_ok L R H Hs threads (lp_t p) (lp_log p + 1) rnd d key mac ltac:(lia) Ht Hd Hc'
    (fun i Hi => Hcor i ltac:(lia) ltac:(lia)) Y0 Z0) as MP.
  destruct (mpfss_pair L R H Hs threads (lp_t p) (lp_log p + 1) rnd d key mac Y0 Z0) as [[Y Z] ok]. destruct MP as [-> MP].
  split; [reflexivity|].
  assert (C0 : forall q, q < lp_n p -> share_ok d (Z q) (Y q)).
  { intros q Hq. unfold leave_n in MP. rewrite Nat.add_sub in MP. rewrite Hn in Hq.
    assert (Hp : 2 ^ lp_log p <> 0) by (apply Nat.pow_nonzero; lia).
    pose proof (MP (q / 2 ^ lp_log p) (q mod 2 ^ lp_log p)) as X.
    rewrite (Nat.mul_comm (q / _)), <- Nat.div_mod_eq in X. apply X.
    - apply Nat.div_lt_upper_bound; lia.
    - now apply Nat.mod_upper_bound. }
  clear MP. destruct (lpn_ok word (lp_k p) (lp_n p) threads Hk Hk31) as (E & E1 & E2).
  assert (Pc : forall x, x < lp_k p -> share_ok d (view mac (lp_t p + 1) x) (view key (lp_t p + 1) x)).
  { intros x Hx. unfold view. apply Hcor; lia. }
  destruct (E2 true (view key (lp_t p + 1)) Y) as [A _]; [intros x Hx; exact (proj1 (share_parts word 0 _ _ _ (Pc x Hx)))|intros q Hq; exact (proj1 (share_parts word 0 _ _ _ (C0 q Hq)))|].
  destruct (E2 false (view mac (lp_t p + 1)) Z) as [B _]; [intros x Hx; exact (proj2 (share_parts word 0 _ _ _ (Pc x Hx)))|intros q Hq; exact (proj2 (share_parts word 0 _ _ _ (C0 q Hq)))|].
  intros q _ Hq. rewrite A, B by easy. apply (upd_corr word (lp_k p) 0 Hk Hk31); [apply E1|exact Pc|now apply C0].
Qed.

Section T.
  Variables (L R H Hs : N -> N) (word : nat -> nat -> N) (threads : nat) (pre0 pre main : lpn_param) (rnd : nat -> trand) (d : N).
  Variables (w0r w1r w0c w1c : nat -> nat -> N) (xr : nat -> N) (seedr : N) (garbage : nat -> mem).
  Hypothesis Hthr : 1 <= threads.
  Hypothesis Hd : (d < PR)%N.
  Hypothesis H0 : forall i j, (w0r i j < W64)%N /\ (w1r i j < W64)%N /\ (w0c i j < W64)%N /\ (w1c i j < W64)%N.
  Hypothesis Hx : forall j, (xr j < W64)%N.
  Hypothesis Hseed : (seedr < W64)%N.
  Hypothesis Wp0 : lp_wf pre0.
  Hypothesis Wp : lp_wf pre.
  Hypothesis Wm : lp_wf main.
  Hypothesis Sz0 : lp_M pre <= lp_n pre0.
  Hypothesis Sz1 : lp_M main <= lp_n pre.
  Hypothesis Sz2 : lp_M main <= lp_n main.
  Hypothesis C0 : cot_ok (lp_log pre0 * lp_t pre0) (rnd 0).
  Hypothesis C1 : cot_ok (lp_log pre * lp_t pre) (rnd 1).
  Hypothesis C2 : forall i, cot_ok (lp_log main * lp_t main) (rnd (i + 2)).
  Notation setup := (vt_setup L R H Hs word threads pre0 pre rnd d w0r w1r w0c w1c xr seedr).
  Notation seeds := (vt_seeds L R H Hs word threads pre0 pre main rnd d w0r w1r w0c w1c xr seedr garbage).
  Lemma base_corr j : share_ok d (base_mac w0r xr j) (base_key w0r w1r d (cope_tau w0r w1r (base_x xr)) j) /\ (cope_recv 61 w0r j < PR)%N.
  Proof.
    assert (Q : share_ok d (mkblock (base_x xr j) (cope_recv 61 w0r j)) (base_key w0r w1r d (cope_tau w0r w1r (base_x xr)) j)).
    { apply (cope_ok w0r w1r d); [apply H0|apply H0|exact Hd|apply mod1_lt, Hx]. }
    assert (P : (cope_recv 61 w0r j < PR)%N).
    { unfold cope_recv. apply prm2pr_ok. intros. apply mod1_lt. apply H0. }
    split; [|exact P]. unfold base_mac. rewrite ArithProofs.lo_id by (apply N.lt_le_incl; exact P). exact Q.
  Qed.
  Lemma base_ok_true size : 1 <= size -> base_ok size w0r w1r w0c w1c d xr seedr = true.
  Proof.
    intro Hs1. unfold base_ok, base_xz. apply base_check_ok; auto.
    - apply mod1_lt, Hseed.
    - intros j _. destruct (base_corr j) as [A B]. split; [|exact B]. unfold base_mac in A. rewrite ArithProofs.lo_id in A by (apply N.lt_le_incl; exact B). exact A.
    - apply (cope_ok w0c w1c d) with (u := fun _ => base_x xr size); [apply H0|apply H0|exact Hd|apply mod1_lt, Hx].
    - unfold cope_recv. apply prm2pr_ok. intros. apply mod1_lt. apply H0.
  Qed.
  Lemma setup_ok : let '(y, z, ok) := setup in ok = true /\ corr d 0 (lp_n pre) y z.
  Proof.
    unfold vt_setup. rewrite base_ok_true by lia. unfold stage.
    pose proof (vole_extend_ok L R H Hs word threads pre0 (rnd 0) d (base_key w0r w1r d (cope_tau w0r w1r (base_x xr))) (base_mac w0r xr) (fun _ => 0%N) (fun _ => 0%N) Wp0 Hthr Hd C0
      (fun j _ _ => proj1 (base_corr j))) as S0.
    destruct (vole_extend _ _ _ _ _ _ _ _ _ _ (rnd 0) _ _ _ _ _) as [[y0 z0] ok1]. destruct S0 as [-> S0].
    pose proof (vole_extend_ok L R H Hs word threads pre (rnd 1) d y0 z0 (fun _ => 0%N) (fun _ => 0%N) Wp Hthr Hd C1
      (fun j _ Hj => S0 j (Nat.le_0_l _) (Nat.lt_le_trans _ _ _ Hj Sz0))) as S1.
    destruct (vole_extend _ _ _ _ _ _ _ _ _ _ (rnd 1) _ _ _ _ _) as [[y z] ok2]. destruct S1 as [-> S1]. auto.
  Qed.
  Notation out i := (vt_extend L R H Hs word threads main rnd d garbage i (seeds i)).
  Lemma step_ok i : corr d 0 (lp_M main) (fst (seeds i)) (snd (seeds i)) ->
    snd (fst (out i)) = true /\ corr d 0 (lp_n main) (fst (fst (fst (out i)))) (snd (fst (fst (out i)))).
  Proof.
    intro C. unfold vt_extend, stage.
    pose proof (vole_extend_ok L R H Hs word threads main (rnd (i + 2)) d (fst (seeds i)) (snd (seeds i)) (garbage (2 * i)) (garbage (2 * i + 1)) Wm Hthr Hd (C2 i) C) as S.
    destruct (vole_extend _ _ _ _ _ _ _ _ _ _ (rnd (i + 2)) _ _ _ _ _) as [[y z] ok]. exact S.
  Qed.
  Lemma seeds_ok i : corr d 0 (lp_M main) (fst (seeds i)) (snd (seeds i)).
  Proof.
    induction i as [|i IH].
    - cbn [vt_seeds]. pose proof setup_ok as S. destruct setup as [[y z] ok]. destruct S as [_ S]. cbn [fst snd].
      intros j A B. apply S; lia.
    - pose proof (step_ok i IH) as [_ S]. cbn [vt_seeds]. unfold vt_extend in *.
      destruct (stage _ _ _ _ _ _ _ _ main (i + 2) _ _ _ _) as [[y z] ok]. cbn [fst snd] in *.
      intros j A B. rewrite !memcpy_in by lia. apply S; unfold lp_limit; lia.
  Qed.
  Theorem triple_ok : snd setup = true /\ forall i,
    vt_ok L R H Hs word threads pre0 pre main rnd d w0r w1r w0c w1c xr seedr garbage i = true /\
    forall p, p < lp_n main ->
      share_ok d (vt_mac L R H Hs word threads pre0 pre main rnd d w0r w1r w0c w1c xr seedr garbage i p)
                 (vt_key L R H Hs word threads pre0 pre main rnd d w0r w1r w0c w1c xr seedr garbage i p).
  Proof.
    split; [pose proof setup_ok as S; destruct setup as [[y z] ok]; apply S|].
    intro i. destruct (step_ok i (seeds_ok i)) as [A B]. split; [exact A|]. intros p Hp. apply B; [lia|exact Hp].
  Qed.

  (** through the pool: both parties issue the same requests *)
  Notation kitem := (vt_key L R H Hs word threads pre0 pre main rnd d w0r w1r w0c w1c xr seedr garbage).
  Notation mitem := (vt_mac L R H Hs word threads pre0 pre main rnd d w0r w1r w0c w1c xr seedr garbage).
  Theorem triple_session rs gk gm bk bm :
    lp_M main <= lp_limit main -> Forall req_ok rs ->
    exists keys macs stk stm,
      run_session kitem (lp_n main) (lp_M main) rs (pool_init (lp_n main) (lp_M main) gk) bk = Some (keys, stk) /\
      run_session mitem (lp_n main) (lp_M main) rs (pool_init (lp_n main) (lp_M main) gm) bm = Some (macs, stm) /\
      map (@length N) keys = map (req_len (lp_limit main)) rs /\
      Forall2 (Forall2 (fun k m => share_ok d m k)) keys macs.
  Proof.
    intros HM F. assert (E : lp_n main = lp_limit main + lp_M main) by (unfold lp_limit; lia).
    assert (H1 : 1 <= lp_M main) by (unfold lp_M; lia).
    destruct (session_tags kitem mitem (lp_M main) (lp_limit main) H1 HM rs gk gm bk bm F) as (outs & stk & stm & A & B & Ln & _ & HIn).
    rewrite <- E in A, B. exists (map (map (val kitem)) outs), (map (map (val mitem)) outs), stk, stm.
    split; [exact A|]. split; [exact B|]. split.
    - rewrite <- Ln, map_map. apply map_ext. intro. apply map_length.
    - assert (G : forall t, In t (concat outs) -> share_ok d (val mitem t) (val kitem t)).
      { intros t Ht. unfold val. apply triple_ok. specialize (HIn t Ht). lia. }
      clear -G. induction outs as [|o outs IH]; cbn [map]; constructor.
      + assert (G' : forall t, In t o -> share_ok d (val mitem t) (val kitem t)) by (intros; apply G; cbn; apply in_app_iff; auto).
        clear -G'. induction o; cbn [map]; constructor; [apply G'; now left|apply IHo; intros; apply G'; now right].
      + apply IH. intros. apply G. cbn. apply in_app_iff; auto.
  Qed.
End T.
