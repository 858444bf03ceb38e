(** The single-tree consistency_check of UnusedModel: when it accepts, and for how many digests. *)
From Coq Require Import NArith ZArith Lia List Bool Arith Ring.
From Verif Require Import Word FpModel WordProofs FpProofs PolyRoots Prime61 ArithSpec ArithProofs TreeModel TreeSpec TreeProofs VoleModel VoleSpec
  LpnProofs CopeProofs MpfssProofs VoleThms2 CheatAlg CheatProofs2 DebugModel UnusedModel UnusedSpec.
Import ListNotations.
Local Open Scope nat_scope.
Ltac Zify.zify_post_hook ::= idtac.
Add Ring fp_ring_ut : fp_rt.

Lemma mul_PR2 a b : (a < PR -> b < PR -> mod128 (mul128 a b) PR = (a * b) mod PR)%N.
Proof.
  intros Ha Hb. assert (B : (a * b < 2 ^ 122 - 1)%N).
  { apply N.le_lt_trans with ((PR - 1) * (PR - 1))%N; [apply N.mul_le_mono; unfold PR in *; lia|reflexivity]. }
  unfold mul128. rewrite N.mod_small by (eapply N.lt_trans; [exact B|reflexivity]). now apply mod128_correct.
Qed.
Lemma sub128_F a : (a <= PR)%N -> sub128 PR a = (PR - a)%N.
Proof. intro. apply sub128_small; [easy|reflexivity]. Qed.
Lemma digest1_lt H s : (one_digest H s < PR)%N.
Proof. apply mod1_lt, lo64_lt. Qed.
Lemma digest1_eq H s : one_digest H s = ((H s mod 2 ^ 64) mod prm)%N.
Proof. unfold one_digest. apply mod1_correct, lo64_lt. Qed.
Lemma nsum_F (f : nat -> N) n : toF (nsum (map f (seq 0 n))) = psum (fun i => toF (f i)) n.
Proof.
  induction n as [|n IH]; [reflexivity|]. rewrite seq_S, map_app, nsum_app, toF_add, IH. cbn [map nsum psum Nat.add].
  now rewrite N.add_0_r.
Qed.
Lemma toF_inv a b : toF a = toF b -> (a mod PR = b mod PR)%N.
Proof. intro E. apply toF_inj; [apply mod_PR_lt|apply mod_PR_lt|]. now rewrite !toF_mod. Qed.

Section Tree.
  Variables (H : N -> N) (depth : nat).
  Notation lv := (leave_n depth).
  Notation weighted := (power_sum lv).
  Lemma weighted_F e t : (e < PR)%N -> toF (weighted e t) = psum (fun i => pmul (chiF e lv i) (toF (t i))) lv.
  Proof.
    intro He. unfold power_sum. rewrite (nsum_F (fun i => (e ^ (1 + N.of_nat i) * t i)%N)). apply psum_ext. intros i Hi.
    rewrite toF_mul, chiF_pow, <- toF_pow by auto. do 3 f_equal. lia.
  Qed.
  Lemma spV_F e t : (e < PR)%N -> (forall j, j < lv -> (t j < PR)%N) -> (sp_V depth e t < PR)%N /\ toF (sp_V depth e t) = toF (weighted e t).
  Proof.
    intros He Ht. unfold sp_V. pose proof (lv_pos depth) as Lp.
    assert (B : forall j, j < lv -> (lo64 (t j) < PR)%N) by (intros j Hj; rewrite lo_id; [auto|apply N.lt_le_incl; auto]).
    destruct (inn_slice e _ lv He Lp B) as [[_ A1] [_ A2]]. split; [exact A1|].
    rewrite A2, weighted_F by easy. apply psum_ext. intros j Hj. rewrite lo_id; [reflexivity|apply N.lt_le_incl; auto].
  Qed.
  Lemma chi_alpha_F e b : (e < PR)%N -> (sp_chi_alpha depth e b < PR)%N /\ toF (sp_chi_alpha depth e b) = toF (e ^ (1 + N.of_nat (punctured (depth - 1) b))).
  Proof.
    intro He. unfold sp_chi_alpha. rewrite get_index_ok. pose proof (punctured_lt (depth - 1) b) as Hp. change (2 ^ (depth - 1)) with lv in Hp.
    split.
    - pose proof (chi_lt e lv He) as C. eapply Forall_forall in C; [exact C|]. apply nth_In. rewrite chi_len by (auto; apply lv_pos). exact Hp.
    - fold (chiF e lv (punctured (depth - 1) b)). rewrite chiF_pow, <- toF_pow by auto. do 2 f_equal. lia.
  Qed.

  Section Parties.
    Variables (d y z beta sum : N) (b : nat -> bool) (ts tr : mem).
    Hypothesis Hd : (d < PR)%N.
    Hypothesis Hz : share_ok d z y.
    Hypothesis Hbeta : (hi64 beta < PR)%N.
    Hypothesis Hts : forall j, j < lv -> (ts j < PR)%N.
    Hypothesis Htr : forall j, j < lv -> (tr j < PR)%N.
    Notation e := (one_digest H sum).
    Notation alpha := (punctured (depth - 1) b).
    Definition reply : N := one_V H depth sum d y ts (one_x H depth sum b z beta).
    Lemma reply_F : (reply < PR)%N /\ (one_W H depth sum z tr < PR)%N /\
      toF reply = padd (toF (weighted e ts)) (psub (pmul (toF d) (psub (pmul (toF (e ^ (1 + N.of_nat alpha))) (toF (hi64 beta))) (toF (hi64 z)))) (toF y)) /\
      toF (one_W H depth sum z tr) = psub (toF (weighted e tr)) (toF (lo64 z)).
    Proof.
      pose proof (digest1_lt H sum) as He. apply share_F in Hz. destruct Hz as [[Z1 [Z2 Z3]] Z4].
      destruct (spV_F e ts He Hts) as [A1 A2]. destruct (spV_F e tr He Htr) as [B1 B2]. destruct (chi_alpha_F e b He) as [C1 C2].
      assert (X : (one_x H depth sum b z beta < PR)%N /\
        toF (one_x H depth sum b z beta) = psub (pmul (toF (e ^ (1 + N.of_nat alpha))) (toF (hi64 beta))) (toF (hi64 z))).
      { unfold one_x. cbv zeta. rewrite mul_PR2 by auto. rewrite sub128_F by now apply N.lt_le_incl.
        rewrite mod128_s by (try apply N.le_sub_l; apply N.lt_le_incl, mod_PR_lt). split; [apply mod_PR_lt|].
        rewrite toF_mod, toF_add, toF_mod, toF_mul, toF_PR_sub, C2 by now apply N.lt_le_incl. ring. }
      destruct X as [X1 X2]. unfold reply, one_V, one_W. cbv zeta. set (xs := one_x H depth sum b z beta) in *. clearbody xs.
      rewrite mul_PR2 by auto. pose proof (mod_PR_lt (xs * d)) as Q. rewrite (sub128_F ((xs * d) mod PR)) by now apply N.lt_le_incl.
      rewrite (mod128_s y) by (try apply N.le_sub_l; now apply N.lt_le_incl).
      pose proof (mod_PR_lt (y + (PR - (xs * d) mod PR))) as Q2. rewrite (sub128_F ((y + (PR - (xs * d) mod PR)) mod PR)) by now apply N.lt_le_incl.
      rewrite (mod128_s (sp_V depth e ts)) by (try apply N.le_sub_l; now apply N.lt_le_incl).
      rewrite (sub128_F (lo64 z)) by now apply N.lt_le_incl.
      rewrite (mod128_s (sp_V depth e tr)) by (try apply N.le_sub_l; now apply N.lt_le_incl).
      split; [apply mod_PR_lt|]. split; [apply mod_PR_lt|]. split.
      - rewrite toF_mod, toF_add, toF_PR_sub by now apply N.lt_le_incl. rewrite toF_mod, toF_add, toF_PR_sub by now apply N.lt_le_incl.
        rewrite toF_mod, toF_mul, A2, X2. ring.
      - rewrite toF_mod, toF_add, toF_PR_sub, B2 by now apply N.lt_le_incl. ring.
    Qed.
    Lemma accept_iff : (one_recv H depth sum z beta b tr reply <> None <->
      (weighted e tr) mod PR = (weighted e ts + e ^ (1 + N.of_nat alpha) * (hi64 beta * d)) mod PR)%N.
    Proof.
      destruct reply_F as (R1 & R2 & R3 & R4). apply share_F in Hz. destruct Hz as [[Z1 [Z2 Z3]] Z4].
      unfold one_recv. destruct (N.eqb_spec (one_W H depth sum z tr) reply) as [E|E].
      - split; [intros _|discriminate]. apply toF_inv. rewrite toF_add, !toF_mul.
        apply (f_equal toF) in E. rewrite R3, R4, Z4 in E.
        transitivity (padd (psub (toF (weighted e tr)) (padd (toF y) (pmul (toF (hi64 z)) (toF d)))) (padd (toF y) (pmul (toF (hi64 z)) (toF d)))); [ring|].
        rewrite E. ring.
      - split; [intro Q; now elim Q|]. intros Q _. apply E. apply toF_inj; auto. rewrite R3, R4, Z4.
        apply toF_eq in Q. rewrite toF_add, !toF_mul in Q. rewrite Q. ring.
    Qed.
  End Parties.

  Notation goal := (right_leaf depth).
  Lemma goal_weighted d beta b ts e : (e < PR)%N ->
    toF (weighted e (goal d beta b ts)) = toF (weighted e ts + e ^ (1 + N.of_nat (punctured (depth - 1) b)) * (hi64 beta * d)).
  Proof.
    intro He. rewrite toF_add, !weighted_F, !toF_mul by easy. pose proof (punctured_lt (depth - 1) b) as Hp. change (2 ^ (depth - 1)) with lv in Hp.
    set (al := punctured (depth - 1) b) in *.
    replace (toF (e ^ (1 + N.of_nat al))) with (chiF e lv al) by (rewrite chiF_pow, <- toF_pow by auto; do 2 f_equal; lia).
    assert (E : forall n, psum (fun i => pmul (chiF e lv i) (toF (goal d beta b ts i))) n =
       padd (psum (fun i => pmul (chiF e lv i) (toF (ts i))) n) (if al <? n then pmul (chiF e lv al) (pmul (toF (hi64 beta)) (toF d)) else p0)).
    { induction n as [|n IH]; [cbn; ring|]. cbn [psum]. rewrite IH. unfold right_leaf at 1. fold al. destruct (Nat.eqb_spec n al) as [->|Ne].
      - rewrite Nat.ltb_irrefl. rewrite (proj2 (Nat.ltb_lt al (S al))) by lia. change prm with PR. rewrite toF_mod, toF_add, toF_mul. change (xval beta) with (hi64 beta). ring.
      - destruct (Nat.ltb_spec al n), (Nat.ltb_spec al (S n)); try lia; ring. }
    rewrite E, (proj2 (Nat.ltb_lt _ _) Hp). reflexivity.
  Qed.
End Tree.

(** honest trees *)
Lemma one_tree_honest H L R depth seed key mac d y z (b : nat -> bool) (t0s t0r : mem) : 2 <= depth -> (d < PR)%N ->
  share_ok d mac key -> share_ok d z y ->
  let '(ts, m0, m1, sum) := sp_send L R depth seed key t0s in
  forall m : mem, (forall x, x < depth - 1 -> m x = if b x then m1 x else m0 x) ->
  let tr := sp_recv L R depth b m sum mac t0r in
  exists out, one_recv H depth sum z mac b tr (one_V H depth sum d y ts (one_x H depth sum b z mac)) = Some out /\
    forall j, j < 2 ^ (depth - 1) -> share_ok d (out j) (ts j) /\ hi64 (out j) = (if j =? punctured (depth - 1) b then hi64 mac else 0%N).
Proof.
  intros Hdep Hd Hk Hz. pose proof (spfss_ok L R depth seed key mac d b t0s t0r Hdep Hk) as S.
  destruct (sp_send L R depth seed key t0s) as [[[ts m0] m1] sum]. intros m Hm tr.
  destruct (S m Hm) as (P & S1 & S2 & S3 & _). fold tr in S2, S3. clearbody tr. clear S.
  change (2 ^ (depth - 1)) with (leave_n depth) in *.
  pose proof (proj1 (share_F _ _ _) Hk) as [[K1 [K2 K3]] K4].
  assert (Bs : forall j, j < leave_n depth -> (ts j < PR)%N) by (intros j Hj; rewrite S1 by easy; apply mod_PR_lt).
  assert (Eg : forall j, j < leave_n depth -> tr j = right_leaf depth d mac b ts j).
  { intros j Hj. unfold right_leaf. destruct (Nat.eqb_spec j (punctured (depth - 1) b)) as [->|Ne]; [exact S3|now apply S2]. }
  assert (Br : forall j, j < leave_n depth -> (tr j < PR)%N).
  { intros j Hj. rewrite Eg by easy. unfold right_leaf. destruct (j =? _); [apply mod_PR_lt|auto]. }
  pose proof (accept_iff H depth d y z mac sum b ts tr Hd Hz K1 Bs Br) as A. unfold reply in A.
  destruct (one_recv H depth sum z mac b tr (one_V H depth sum d y ts (one_x H depth sum b z mac))) as [out|] eqn:E.
  - exists out. split; [reflexivity|]. unfold one_recv in E. destruct (N.eqb _ _); [|discriminate].
    injection E as <-. intros j Hj. unfold sp_mark. rewrite get_index_ok.
    pose proof (Br j Hj) as Q. pose proof (Bs j Hj) as Q2. assert (W : (PR < W64)%N) by reflexivity.
    destruct (Nat.eqb_spec j (punctured (depth - 1) b)) as [->|Ne].
    + rewrite mset_eq, lxor_mk by (eapply N.lt_trans; eauto). rewrite hi64_mk by (eapply N.lt_trans; eauto). split; [|reflexivity].
      apply share_F. rewrite hi64_mk, lo64_mk by (eapply N.lt_trans; eauto). split; [auto|]. rewrite S3, toF_mod, toF_add, toF_mul. reflexivity.
    + rewrite mset_neq by easy. assert (Hh : hi64 (tr j) = 0%N) by (unfold hi64; apply N.div_small; eapply N.lt_trans; [exact Q|reflexivity]).
      split; [|exact Hh]. apply share_F. rewrite Hh, lo_id by now apply N.lt_le_incl. split; [repeat split; auto; reflexivity|].
      rewrite S2 by easy. rewrite toF_0. ring.
  - exfalso. apply A; [|reflexivity]. pose proof (digest1_lt H sum) as He. apply toF_inv. rewrite <- goal_weighted by easy.
    rewrite !weighted_F by easy. apply psum_ext. intros j Hj. now rewrite Eg.
Qed.

(** a wrong tree passes for few digests *)
Lemma map_toF_NoDup l : (forall s, In s l -> (s < PR)%N) -> NoDup l -> NoDup (map toF l).
Proof.
  induction l as [|a l IH]; intros Hs Nl; cbn [map]; [constructor|]. inversion Nl; subst. constructor.
  - intro I. apply in_map_iff in I. destruct I as (y & E & Iy). apply toF_inj in E; [subst; contradiction|apply Hs; now right|apply Hs; now left].
  - apply IH; [intros; apply Hs; now right|easy].
Qed.
Lemma pmul_nz a b : pmul a b = p0 -> a <> p0 -> b = p0.
Proof. intros E Ne. destruct (fp_nzd a b E); [contradiction|easy]. Qed.
Lemma one_tree_few depth d y z beta sum b (ts tr : mem) es j : (d < PR)%N -> share_ok d z y -> (hi64 beta < PR)%N ->
  (forall j, j < leave_n depth -> (ts j < PR)%N) -> (forall j, j < leave_n depth -> (tr j < PR)%N) ->
  j < leave_n depth -> tr j <> right_leaf depth d beta b ts j ->
  NoDup es -> (forall e, In e es -> (e < PR)%N /\
     one_recv (fun _ => e) depth sum z beta b tr (one_V (fun _ => e) depth sum d y ts (one_x (fun _ => e) depth sum b z beta)) <> None) ->
  length es <= 2 ^ (depth - 1).
Proof.
  intros Hd Hz Hb Hts Htr Hj Ne Nd Ha. change (2 ^ (depth - 1)) with (leave_n depth).
  set (D := map (fun i => psub (toF (tr i)) (toF (right_leaf depth d beta b ts i))) (seq 0 (leave_n depth))).
  assert (LD : length D = leave_n depth) by (unfold D; now rewrite map_length, seq_length).
  assert (Bg : (right_leaf depth d beta b ts j < PR)%N) by (unfold right_leaf; destruct (j =? _); [apply mod_PR_lt|auto]).
  assert (Dj : ~ Forall (fun x => x = p0) D).
  { intro F. unfold D in F. rewrite Forall_map, Forall_forall in F. apply Ne. apply toF_inj; auto.
    apply (sub_zero fp p0 p1 padd pmul psub popp fp_rt). apply (F j). apply in_seq. lia. }
  assert (Nz : ~ Forall (fun x => x = p0) (p0 :: D)).
  { intro F. apply Forall_inv_tail in F. contradiction. }
  assert (Q : S (length (map toF es)) <= length (p0 :: D)); [|rewrite map_length in Q; cbn [length] in Q; rewrite LD in Q; lia].
  apply fp_root_count; [exact Nz|apply map_toF_NoDup; [intros s Hs; now apply Ha|easy]|].
  intros r Hr. apply in_map_iff in Hr. destruct Hr as (e & <- & Ie). destruct (Ha e Ie) as [He A].
  apply (accept_iff (fun _ => e) depth d y z beta sum b ts tr) in A; auto.
  assert (Ed : one_digest (fun _ => e) sum = e).
  { unfold one_digest. rewrite lo_id by now apply N.lt_le_incl. rewrite mod1_correct by (eapply N.lt_trans; [exact He|reflexivity]). now apply N.mod_small. }
  rewrite Ed in A. apply toF_eq in A. rewrite <- goal_weighted, !weighted_F in A by easy.
  cbn [pev]. unfold D. 
  assert (E2 : pmul (toF e) (pev (map (fun i => psub (toF (tr i)) (toF (right_leaf depth d beta b ts i))) (seq 0 (leave_n depth))) (toF e)) = p0).
  { rewrite <- chi_sum_pev by easy.
    rewrite (psum_ext _ (fun i => psub (pmul (chiF e (leave_n depth) i) (toF (tr i))) (pmul p1 (pmul (chiF e (leave_n depth) i) (toF (right_leaf depth d beta b ts i)))))) by (intros; ring).
    rewrite psum_lin, A. ring. }
  rewrite E2. ring.
Qed.
