(** Property C65: the mixed boolean/arithmetic test program. *)
From Coq Require Import NArith List Bool Arith Lia.
From Verif Require Import Word WordProofs FpModel ArithModel ArithSpec LowMcModel EdaModel EdaSpec EdaStock EdaProofs AbConvModel AbConvSpec AbConvProofs.
Import ListNotations.
Ltac Zify.zify_post_hook ::= idtac.

(** the masks the engine delivers are consistent on both sides *)
Definition masks_ok (NN B C np_sz : nat) (rb rp rk : nat * nat -> N) (d : N) : Prop :=
  forall k, let m := kth_mask NN (ell NN B C) np_sz k in share_ok d (rp (snd m)) (rk (snd m)) /\ rb (fst m) = hi64 (rp (snd m)).

(** honest parties: after the program the bits, the field elements and the plain copy agree with the recurrence modulo p,
    the shares are valid and both sides hashed the same words.  The plain copy may hold p where the value is 0. *)
Theorem C65_conversions_agree : forall NN B C np_sz rb rp rk d sz a x0 k0,
  1 <= NN -> 1 <= B -> ell NN B C <= np_sz -> (d < prm)%N -> masks_ok NN B C np_sz rb rp rk d ->
  length a = sz -> Forall (fun v => (v < prm)%N) a ->
  let st := t_run NN B C np_sz rb rp rk d sz a x0 k0 in let v := conv_mod sz a in
  t_y st = v /\ map hi64 (t_x st) = v /\ Forall2 (share_ok d) (t_x st) (t_k st) /\ t_hp st = t_hv st /\
  Forall2 (fun u w => u = w \/ (u = prm /\ w = 0%N)) (t_a st) v.
Proof.
  intros NN B C np_sz rb rp rk d sz a x0 k0 HN HB Hs Hd M L F. cbv zeta.
  destruct (run_ok NN B C np_sz rb rp rk d sz HN HB Hs Hd M a x0 k0 L F) as (R1 & R2 & R3 & R4 & R5).
  split; [exact R1|]. split; [exact R2|]. split; [exact R3|]. split; [exact R4|]. clear -R5. change prm with PR.
  induction R5 as [|u w la lv H _ IH]; constructor; [now apply le_rep_cases|exact IH].
Qed.
(** the program reports exactly the places where the plain copy holds p, and stops with an error if there is one *)
Theorem C65_reports : forall NN B C np_sz rb rp rk d sz a x0 k0,
  1 <= NN -> 1 <= B -> ell NN B C <= np_sz -> (d < prm)%N -> masks_ok NN B C np_sz rb rp rk d ->
  length a = sz -> Forall (fun v => (v < prm)%N) a ->
  let st := t_run NN B C np_sz rb rp rk d sz a x0 k0 in
  t_incorrect st = length (filter (N.eqb prm) (t_a st)) /\ (t_reveal_fails st = true <-> In prm (t_a st)).
Proof.
  intros NN B C np_sz rb rp rk d sz a x0 k0 HN HB Hs Hd M L F. cbv zeta.
  destruct (run_ok NN B C np_sz rb rp rk d sz HN HB Hs Hd M a x0 k0 L F) as (R1 & R2 & _ & _ & R5). revert R1 R2 R5.
  generalize (t_run NN B C np_sz rb rp rk d sz a x0 k0) (conv_mod sz a). clear. intros st v R1 R2 R5. unfold t_incorrect, t_reveal_fails. rewrite R1, R2. clear R1 R2.
  change prm with PR. revert R5. generalize (t_a st). clear. intros la R. split.
  - induction R as [|u w la v H _ IH]; [reflexivity|]. cbn [combine filter fst snd]. pose proof H as (H1 & H2 & _). pose proof PR_val.
    rewrite (N.mod_small u) by (change I62 with 4611686018427387904%N; lia).
    destruct (le_rep_cases _ _ H) as [->|[-> ->]].
    + rewrite N.eqb_refl. cbn [negb]. replace (PR =? w)%N with false by (symmetry; apply N.eqb_neq; lia). exact IH.
    + change (negb (0 =? PR)%N) with true. rewrite N.eqb_refl. cbn [length]. now rewrite IH.
  - rewrite negb_true_iff. assert (E : v = la <-> ~ In PR la).
    { induction R as [|u w la v H _ IH]; [split; [intros _ []|reflexivity]|]. pose proof H as (H1 & H2 & _). split.
      - intros E [->|I]; injection E as E1 E2; [lia|]. now apply IH.
      - intro N. destruct (le_rep_cases _ _ H) as [->|[-> _]]; [|exfalso; apply N; now left]. f_equal. apply IH. intro I. apply N. now right. }
    destruct (list_eq_dec N.eq_dec v la) as [Q|Q]; split; try discriminate.
    + intro I. exfalso. now apply E in I.
    + intros _. destruct (in_dec N.eq_dec PR la) as [I|I]; [exact I|]. exfalso. now apply Q, E.
    + reflexivity.
Qed.
(** it can happen: an honest run that is reported as wrong *)
Theorem C65_always_correct_refuted : forall NN B C np_sz rb rp rk d x0 k0,
  1 <= NN -> 1 <= B -> ell NN B C <= np_sz -> (d < prm)%N -> masks_ok NN B C np_sz rb rp rk d ->
  let a := [prm - 3; 1; 0; 0]%N in
  Forall (fun v => (v < prm)%N) a /\
  let st := t_run NN B C np_sz rb rp rk d 4 a x0 k0 in
  t_y st = [1; 1; 0; 0]%N /\ t_a st = [1; 1; prm; 0]%N /\ t_incorrect st = 1 /\ t_reveal_fails st = true.
Proof.
  intros NN B C np_sz rb rp rk d x0 k0 HN HB Hs Hd M a.
  assert (F : Forall (fun v => (v < prm)%N) a) by (repeat constructor). split; [exact F|]. cbv zeta.
  destruct (C65_conversions_agree NN B C np_sz rb rp rk d 4 a x0 k0 HN HB Hs Hd M eq_refl F) as (R1 & _).
  destruct (C65_reports NN B C np_sz rb rp rk d 4 a x0 k0 HN HB Hs Hd M eq_refl F) as (P1 & P2). cbv zeta in P1, P2, R1.
  assert (A : t_a (t_run NN B C np_sz rb rp rk d 4 a x0 k0) = [1; 1; prm; 0]%N) by (rewrite run_a by reflexivity; clear; vm_compute; reflexivity).
  split; [rewrite R1; clear; vm_compute; reflexivity|]. split; [exact A|]. rewrite A in P1, P2. split; [rewrite P1; clear; vm_compute; reflexivity|].
  apply P2. right. right. now left.
Qed.
(** the shipped inputs come from rand(), below 2^31: no sum is ever reduced, so the reductions are not exercised, and the
    run is reported as correct *)
Theorem C65_shipped_inputs : forall NN B C np_sz rb rp rk d sz a x0 k0,
  1 <= NN -> 1 <= B -> ell NN B C <= np_sz -> (d < prm)%N -> masks_ok NN B C np_sz rb rp rk d ->
  length a = sz -> Forall (fun v => (v < 2 ^ 31)%N) a ->
  let st := t_run NN B C np_sz rb rp rk d sz a x0 k0 in
  t_a st = conv_int sz a /\ t_y st = conv_int sz a /\ Forall (fun v => (v <= 2 ^ 43)%N) (conv_int sz a) /\ t_incorrect st = 0 /\ t_reveal_fails st = false.
Proof.
  intros NN B C np_sz rb rp rk d sz a x0 k0 HN HB Hs Hd M L F. cbv zeta.
  assert (F' : Forall (fun v => (v < prm)%N) a) by (eapply Forall_impl; [|exact F]; intros v Hv; eapply N.lt_trans; [exact Hv|reflexivity]).
  destruct (C65_conversions_agree NN B C np_sz rb rp rk d sz a x0 k0 HN HB Hs Hd M L F') as (R1 & _ & _ & _ & R5).
  destruct (C65_reports NN B C np_sz rb rp rk d sz a x0 k0 HN HB Hs Hd M L F') as (P1 & P2). cbv zeta in P1, P2, R1, R5.
  pose proof (run_a NN B C np_sz rb rp rk d sz a x0 k0 L) as A. destruct (result_small sz a F) as [S1 S2]. rewrite S1 in A. rewrite A in P1, P2, R5.
  assert (N : ~ In prm (conv_int sz a)).
  { intro I. rewrite Forall_forall in S2. apply S2 in I. revert I. clear. intro I. vm_compute in I. now apply I. }
  split; [exact A|]. split.
  { rewrite R1. clear -R5 N. induction R5 as [|u w la lv H _ IH]; [reflexivity|]. destruct H as [->|[-> _]]; [|exfalso; apply N; now left]. f_equal. apply IH. intro I. apply N. now right. }
  split; [exact S2|]. split.
  - rewrite P1. clear -N. induction (conv_int sz a) as [|u l IH]; [reflexivity|]. cbn [filter]. destruct (N.eqb_spec prm u) as [<-|_]; [exfalso; apply N; now left|].
    apply IH. intro I. apply N. now right.
  - apply not_true_iff_false. intro T. now apply N, P2.
Qed.

(** * A case: masks, shares and keys for key 1234567; eight elements, with reductions *)
Definition ab_key : N := 1234567.
Definition ab_mask (p : nat * nat) : N := (N.of_nat (fst p) * 1000003 + N.of_nat (snd p) * 2305843009213)%N.
Definition ab_mac (p : nat * nat) : N := ((N.of_nat (snd p) * 99991 + 12345) mod prm)%N.
Definition ab_rp (p : nat * nat) : N := mkblock (ab_mask p mod prm) (ab_mac p).
Definition ab_rk (p : nat * nat) : N := ((ab_mac p + (prm - (ab_mask p mod prm) * ab_key mod prm)) mod prm)%N.
(** the boolean half of the mask in (generation, index) form holds the value of its field half: stock of 1 mask, B = 2, C = 2 *)
Definition ab_slot (m : nat * nat) : nat * nat := snd (kth_mask 1 (ell 1 2 2) 9 (fst m - 1)).
Definition ab_rb (m : nat * nat) : N := hi64 (ab_rp (ab_slot m)).
Lemma ab_share p : share_ok ab_key (ab_rp p) (ab_rk p).
Proof.
  unfold share_ok, ab_rp, ab_rk. cbv zeta. change prm with PR.
  assert (Hm : (ab_mask p mod PR < PR)%N) by (apply N.mod_upper_bound; discriminate). assert (Hc : (ab_mac p < PR)%N) by (apply N.mod_upper_bound; discriminate).
  change (mkblock (ab_mask p mod PR) (ab_mac p) / 2 ^ 64)%N with (hi64 (mkblock (ab_mask p mod PR) (ab_mac p))).
  change (mkblock (ab_mask p mod PR) (ab_mac p) mod 2 ^ 64)%N with (lo64 (mkblock (ab_mask p mod PR) (ab_mac p))).
  rewrite hi64_mk, lo64_mk by now apply pr64. split; [exact Hm|]. split; [exact Hc|]. split; [apply N.mod_upper_bound; discriminate|].
  rewrite N.add_mod_idemp_l by discriminate. rewrite <- N.add_assoc. rewrite <- N.add_mod_idemp_r by discriminate.
  rewrite <- (N.add_mod_idemp_r (_ - _)) by discriminate.
  assert (Hx : ((ab_mask p mod PR) * ab_key mod PR < PR)%N) by (apply N.mod_upper_bound; discriminate).
  replace (PR - (ab_mask p mod PR) * ab_key mod PR + (ab_mask p mod PR) * ab_key mod PR)%N with PR by lia.
  rewrite N.mod_same, N.add_0_r by discriminate. symmetry. now apply N.mod_small.
Qed.
Example C65_masks : masks_ok 1 2 2 9 ab_rb ab_rp ab_rk ab_key.
Proof.
  intro k. cbv zeta. split; [apply ab_share|]. unfold ab_rb, ab_slot. f_equal. f_equal. f_equal. f_equal.
  unfold kth_mask. cbn [fst]. rewrite Nat.div_1_r. lia.
Qed.
Example C65_run : let a := [prm - 1; 5; 0; 7; prm - 2; 1; 4; 2]%N in
  conv_mod 8 a = t_y (t_run 1 2 2 9 ab_rb ab_rp ab_rk ab_key 8 a [] []) /\ nth 0 (conv_mod 8 a) 0%N <> nth 0 (conv_int 8 a) 0%N.
Proof. vm_compute. split; [reflexivity|discriminate]. Qed.

Print Assumptions C65_conversions_agree.
Print Assumptions C65_reports.
Print Assumptions C65_always_correct_refuted.
Print Assumptions C65_shipped_inputs.
