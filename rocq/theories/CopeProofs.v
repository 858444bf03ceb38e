From Coq Require Import NArith ZArith Lia List Bool Arith Ring.
From Verif Require Import Word FpModel WordProofs FpProofs PolyRoots Prime61 ArithSpec ArithProofs TreeModel TreeProofs VoleModel VoleSpec LpnProofs.
Import ListNotations.
Local Open Scope nat_scope.
Ltac Zify.zify_post_hook ::= idtac.
Add Ring fp_ring_c : fp_rt.

Fixpoint psum (f : nat -> fp) (n : nat) : fp := match n with 0 => p0 | S n' => padd (psum f n') (f n') end.
Lemma psum_ext f g n : (forall x, x < n -> f x = g x) -> psum f n = psum g n.
Proof. induction n as [|n IH]; intro H; [reflexivity|]. cbn [psum]. rewrite IH, H by (intros; auto). reflexivity. Qed.
Lemma psum_shift f n : psum f (S n) = padd (f 0) (psum (fun x => f (S x)) n).
Proof. induction n as [|n IH]; [cbn; ring|]. cbn [psum] in *. rewrite IH. ring. Qed.
Lemma psum_add f g n : psum (fun x => padd (f x) (g x)) n = padd (psum f n) (psum g n).
Proof. induction n as [|n IH]; cbn [psum]; [ring|]. rewrite IH. ring. Qed.
Lemma psum_scal c f n : psum (fun x => pmul c (f x)) n = pmul c (psum f n).
Proof. induction n as [|n IH]; cbn [psum]; [ring|]. rewrite IH. ring. Qed.

(** share_ok through the field *)
Lemma share_F d m key : share_ok d m key <-> (hi64 m < PR /\ lo64 m < PR /\ key < PR)%N /\ toF (lo64 m) = padd (toF key) (pmul (toF (hi64 m)) (toF d)).
Proof.
  unfold share_ok. change (m / 2 ^ 64)%N with (hi64 m). change (m mod 2 ^ 64)%N with (lo64 m). change prm with PR.
  split.
  - intros [A [B [C D]]]. split; [easy|]. rewrite D, toF_mod, toF_add, toF_mul. reflexivity.
  - intros [[A [B C]] D]. repeat split; auto. apply toF_inj; [easy|apply mod_PR_lt|]. rewrite toF_mod, toF_add, toF_mul. easy.
Qed.

Definition pow2F (i : nat) : fp := toF (2 ^ N.of_nat i).
Lemma pow_bound i : i < 61 -> (2 ^ N.of_nat i <= 2 ^ 60)%N.
Proof. intro H. apply N.pow_le_mono_r; [discriminate|lia]. Qed.
Lemma shl_ok a i : (a < PR)%N -> i < 61 -> mod128 (N.shiftl a (N.of_nat i) mod W128) PR = ((a * 2 ^ N.of_nat i) mod PR)%N.
Proof.
  intros Ha Hi. rewrite N.shiftl_mul_pow2. pose proof (pow_bound i Hi) as B.
  assert (Q : (a * 2 ^ N.of_nat i < 2 ^ 122 - 1)%N).
  { eapply N.le_lt_trans; [apply N.mul_le_mono; [apply N.lt_le_incl, Ha|exact B]|reflexivity]. }
  rewrite N.mod_small; [now apply mod128_correct|]. eapply N.lt_trans; [exact Q|reflexivity].
Qed.
Lemma prm2pr_loop_ok cnt : forall i a ret, i + cnt <= 61 -> (ret < PR)%N -> (forall x, i <= x < i + cnt -> (a x < PR)%N) ->
  (prm2pr_loop cnt i a ret < PR)%N /\
  toF (prm2pr_loop cnt i a ret) = padd (toF ret) (psum (fun x => pmul (pow2F (i + x)) (toF (a (i + x)))) cnt).
Proof.
  induction cnt as [|c IH]; intros i a ret Hi Hr Ha; cbn [prm2pr_loop].
  - split; [easy|]. cbn. ring.
  - rewrite shl_ok by (try apply Ha; lia).
    pose proof (mod_PR_lt (a i * 2 ^ N.of_nat i)) as M. rewrite !lo_id by (apply N.lt_le_incl; assumption).
    destruct (IH (S i) a (add_mod ret ((a i * 2 ^ N.of_nat i) mod PR))) as [B1 B2].
    + lia.
    + apply am_lt; [easy|now apply N.lt_le_incl].
    + intros x Hx. apply Ha. lia.
    + split; [easy|]. rewrite B2, am_F, toF_mod, toF_mul, psum_shift by now apply N.lt_le_incl. rewrite Nat.add_0_r.
      rewrite (psum_ext (fun x => pmul (pow2F (S i + x)) (toF (a (S i + x)))) (fun x => pmul (pow2F (i + S x)) (toF (a (i + S x)))))
        by (intros; now rewrite Nat.add_succ_r).
      unfold pow2F at 2. ring.
Qed.
Lemma prm2pr_ok a : (forall x, x < 61 -> (a x < PR)%N) ->
  (prm2pr 61 a < PR)%N /\ toF (prm2pr 61 a) = psum (fun x => pmul (pow2F x) (toF (a x))) 61.
Proof.
  intro H. destruct (prm2pr_loop_ok 61 0 a 0%N) as [A B]; [lia|reflexivity|intros; apply H; lia|].
  split; [exact A|]. unfold prm2pr. rewrite B. cbn [Nat.add]. rewrite toF_0. ring.
Qed.
Lemma add128_s a b : (a <= PR -> b <= PR -> add128 a b = a + b)%N.
Proof. intros. apply add128_small. unfold PR, W128 in *. lia. Qed.
Lemma mod128_s a b : (a <= PR -> b <= PR -> mod128 (add128 a b) PR = (a + b) mod PR)%N.
Proof. intros. rewrite add128_s by easy. apply mod128_correct. unfold PR in *. change (2^122-1)%N with 5316911983139663491615228241121378303%N. lia. Qed.
Lemma prm2pr128_loop_ok cnt : forall i a ret, i + cnt <= 61 -> (ret < PR)%N -> (forall x, i <= x < i + cnt -> (a x < PR)%N) ->
  (prm2pr128_loop cnt i a ret < PR)%N /\
  toF (prm2pr128_loop cnt i a ret) = padd (toF ret) (psum (fun x => pmul (pow2F (i + x)) (toF (a (i + x)))) cnt).
Proof.
  induction cnt as [|c IH]; intros i a ret Hi Hr Ha; cbn [prm2pr128_loop].
  - split; [easy|]. cbn. ring.
  - rewrite shl_ok by (try apply Ha; lia).
    pose proof (mod_PR_lt (a i * 2 ^ N.of_nat i)) as M. rewrite mod128_s by now apply N.lt_le_incl.
    destruct (IH (S i) a ((ret + (a i * 2 ^ N.of_nat i) mod PR) mod PR)%N) as [B1 B2].
    + lia.
    + apply mod_PR_lt.
    + intros x Hx. apply Ha. lia.
    + split; [easy|]. rewrite B2, toF_mod, toF_add, toF_mod, toF_mul, psum_shift. rewrite Nat.add_0_r.
      rewrite (psum_ext (fun x => pmul (pow2F (S i + x)) (toF (a (S i + x)))) (fun x => pmul (pow2F (i + S x)) (toF (a (i + S x)))))
        by (intros; now rewrite Nat.add_succ_r).
      unfold pow2F at 2. ring.
Qed.
(** sum of the powers selected by the bits *)
Lemma bits_sum d n : psum (fun i => if N.testbit d (N.of_nat i) then pow2F i else p0) n = toF (d mod 2 ^ N.of_nat n).
Proof.
  induction n as [|n IH]; [cbn [psum N.of_nat]; rewrite N.pow_0_r, N.mod_1_r; reflexivity|].
  cbn [psum]. rewrite IH. rewrite Nat2N.inj_succ, N.pow_succ_r'. rewrite (N.mul_comm 2), N.mod_mul_r by (try apply N.pow_nonzero; discriminate).
  rewrite toF_add, toF_mul. rewrite N.testbit_eqb. 
  set (q := ((d / 2 ^ N.of_nat n) mod 2)%N). assert (C : q = 0%N \/ q = 1%N) by (pose proof (N.mod_lt (d / 2 ^ N.of_nat n) 2 ltac:(discriminate)) as Q; fold q in Q; clearbody q; clear - Q; lia).
  clearbody q. unfold pow2F. destruct C as [C | C]; rewrite C; cbn [N.eqb Pos.eqb]; [rewrite toF_0|rewrite toF_1]; ring.
Qed.
Lemma dbit_sum d : (d < PR)%N -> psum (fun i => if dbit d i then pow2F i else p0) 61 = toF d.
Proof.
  intro H. unfold dbit. rewrite lo_id by now apply N.lt_le_incl. rewrite bits_sum. rewrite N.mod_small; [reflexivity|].
  eapply N.lt_trans; [exact H|reflexivity].
Qed.
Section C.
  Variables (w0r w1r : nat -> nat -> N) (d : N).
  Hypothesis H0 : forall i j, (w0r i j < W64)%N.
  Hypothesis H1 : forall i j, (w1r i j < W64)%N.
  Hypothesis Hd : (d < PR)%N.
  Lemma mod1_lt x : (x < W64)%N -> (mod1 x < PR)%N.
  Proof. intro. rewrite mod1_correct by easy. apply mod_PR_lt. Qed.
  Lemma tau_ok u i j : (u j < PR)%N ->
    (cope_tau w0r w1r u i j < PR)%N /\
    toF (cope_tau w0r w1r u i j) = psub (psub (toF (mod1 (w0r i j))) (toF (mod1 (w1r i j)))) (toF (u j)).
  Proof.
    intro Hu. unfold cope_tau. pose proof (mod1_lt _ (H0 i j)) as A. pose proof (mod1_lt _ (H1 i j)) as B.
    assert (C : (add_mod (mod1 (w1r i j)) (u j) < PR)%N) by (apply am_lt; [easy|now apply N.lt_le_incl]).
    split.
    - apply am_lt; [easy|]. apply sub_le. now apply N.lt_le_incl.
    - rewrite am_F by (try apply sub_le; now apply N.lt_le_incl). rewrite sub_F by now apply N.lt_le_incl.
      rewrite am_F by now apply N.lt_le_incl. ring.
  Qed.
  Lemma send_sum (w0 w1 : nat -> fp) (u : fp) n :
    psum (fun i => pmul (pow2F i) (padd (if dbit d i then w1 i else w0 i) (if dbit d i then psub (psub (w0 i) (w1 i)) u else p0))) n =
    psub (psum (fun i => pmul (pow2F i) (w0 i)) n) (pmul u (psum (fun i => if dbit d i then pow2F i else p0) n)).
  Proof. induction n as [|n IH]; cbn [psum]; [ring|]. rewrite IH. destruct (dbit d n); ring. Qed.
  Lemma cope_ok u j : (u j < PR)%N ->
    share_ok d (mkblock (u j) (cope_recv 61 w0r j)) (cope_send 61 w0r w1r d (cope_tau w0r w1r u) j).
  Proof.
    intro Hu. apply share_F.
    destruct (prm2pr_ok (fun i => mod1 (w0r i j))) as [A1 A2]; [intros; apply mod1_lt, H0|].
    assert (W : forall i, (mod1 (wsr w0r w1r d i j) < PR)%N) by (intro i; unfold wsr; destruct (dbit d i); apply mod1_lt; auto).
    destruct (prm2pr_ok (fun i => add_mod (mod1 (wsr w0r w1r d i j)) (if dbit d i then cope_tau w0r w1r u i j else 0%N))) as [B1 B2].
    { intros i _. apply am_lt; [apply W|]. destruct (dbit d i); [apply N.lt_le_incl, tau_ok, Hu|discriminate]. }
    unfold cope_recv, cope_send.
    rewrite hi64_mk, lo64_mk by (eapply N.lt_trans; [exact A1|reflexivity]).
    split; [auto|]. rewrite A2, B2.
    rewrite (psum_ext (fun x => pmul (pow2F x) (toF (add_mod (mod1 (wsr w0r w1r d x j)) (if dbit d x then cope_tau w0r w1r u x j else 0%N))))
      (fun i => pmul (pow2F i) (padd (if dbit d i then toF (mod1 (w1r i j)) else toF (mod1 (w0r i j)))
       (if dbit d i then psub (psub (toF (mod1 (w0r i j))) (toF (mod1 (w1r i j)))) (toF (u j)) else p0)))).
    - rewrite send_sum, dbit_sum by easy. ring.
    - intros i _. destruct (tau_ok u i j Hu) as [T1 T2]. rewrite am_F.
      + unfold wsr. destruct (dbit d i); [rewrite T2|rewrite toF_0]; reflexivity.
      + apply N.lt_le_incl, W.
      + destruct (dbit d i); [now apply N.lt_le_incl|discriminate].
  Qed.
End C.

(** single-element variant *)
Lemma ext_lt x : (extract_fp x < PR)%N.
Proof. rewrite extract_fp_ok. apply mod_PR_lt. Qed.
Lemma tau1_ok w0r w1r u i : (u < PR)%N ->
  (cope_tau1 w0r w1r u i < PR)%N /\
  toF (cope_tau1 w0r w1r u i) = psub (psub (toF (extract_fp (w0r i 0%nat))) (toF (extract_fp (w1r i 0%nat)))) (toF u).
Proof.
  intro Hu. unfold cope_tau1. pose proof (ext_lt (w0r i 0%nat)) as A. pose proof (ext_lt (w1r i 0%nat)) as B.
  rewrite (mod128_s (extract_fp (w1r i 0%nat))) by now apply N.lt_le_incl.
  pose proof (mod_PR_lt (extract_fp (w1r i 0%nat) + u)) as C.
  set (z := ((extract_fp (w1r i 0%nat) + u) mod PR)%N) in *.
  rewrite sub128_small by first [now apply N.lt_le_incl | reflexivity].
  rewrite mod128_s by first [apply N.le_sub_l | now apply N.lt_le_incl].
  split; [apply mod_PR_lt|]. rewrite toF_mod, toF_add, toF_PR_sub by now apply N.lt_le_incl. subst z. rewrite toF_mod, toF_add. ring.
Qed.
Lemma cope1_ok w0r w1r d u : (d < PR)%N -> (u < PR)%N ->
  share_ok d (mkblock u (cope_recv1 61 w0r)) (cope_send1 61 w0r w1r d (cope_tau1 w0r w1r u)).
Proof.
  intros Hd Hu. apply share_F. unfold cope_recv1, cope_send1.
  destruct (prm2pr128_loop_ok 61 0 (fun i => extract_fp (w0r i 0%nat)) 0%N) as [A1 A2]; [lia|reflexivity|intros; apply ext_lt|].
  assert (W : forall i, (extract_fp (wsr w0r w1r d i 0%nat) < PR)%N) by (intro i; apply ext_lt).
  assert (T : forall i, mod128 (add128 (extract_fp (wsr w0r w1r d i 0%nat)) (if dbit d i then cope_tau1 w0r w1r u i else 0%N)) PR =
     ((extract_fp (wsr w0r w1r d i 0%nat) + (if dbit d i then cope_tau1 w0r w1r u i else 0%N)) mod PR)%N).
  { intro i. apply mod128_s; [apply N.lt_le_incl, W|]. destruct (dbit d i); [apply N.lt_le_incl, tau1_ok, Hu|discriminate]. }
  destruct (prm2pr128_loop_ok 61 0 (fun i => mod128 (add128 (extract_fp (wsr w0r w1r d i 0%nat)) (if dbit d i then cope_tau1 w0r w1r u i else 0%N)) PR) 0%N) as [B1 B2]; [lia|reflexivity|intros; rewrite T; apply mod_PR_lt|].
  rewrite hi64_mk, lo64_mk by (eapply N.lt_trans; [exact A1|reflexivity]).
  split; [auto|]. rewrite A2, B2. cbn [Nat.add]. rewrite toF_0.
  rewrite (psum_ext (fun x => pmul (pow2F x) (toF (mod128 (add128 (extract_fp (wsr w0r w1r d x 0%nat)) (if dbit d x then cope_tau1 w0r w1r u x else 0%N)) PR)))
    (fun i => pmul (pow2F i) (padd (if dbit d i then toF (extract_fp (w1r i 0%nat)) else toF (extract_fp (w0r i 0%nat)))
     (if dbit d i then psub (psub (toF (extract_fp (w0r i 0%nat))) (toF (extract_fp (w1r i 0%nat)))) (toF u) else p0)))).
  - rewrite (send_sum d (fun i => toF (extract_fp (w0r i 0%nat))) (fun i => toF (extract_fp (w1r i 0%nat)))), dbit_sum by easy. ring.
  - intros i _. rewrite T, toF_mod, toF_add. destruct (tau1_ok w0r w1r u i Hu) as [T1 T2].
    unfold wsr. destruct (dbit d i); [rewrite T2|rewrite toF_0]; reflexivity.
Qed.

(** * the consistency check of the base generator *)
Lemma slice_S f n : slice f (S n) = slice f n ++ [f n].
Proof. unfold slice. now rewrite seq_S, map_app. Qed.
Lemma clt_slice f n : (forall x, x < n -> (f x < PR)%N) -> clt (slice f n).
Proof. intro H. apply Forall_map, Forall_forall. intros x Hx. apply in_seq in Hx. apply H. lia. Qed.
Lemma fdot_comm a : forall b, fdot a b = fdot b a.
Proof.
  induction a as [|x a IH]; intros [|y b]; try reflexivity. rewrite !fdot_cons, IH. ring.
Qed.
Lemma fdot_slice (c : list fp) (f : nat -> fp) : forall n, length c = n ->
  fdot c (map f (seq 0 n)) = psum (fun i => pmul (nth i c p0) (f i)) n.
Proof.
  intros n. revert c f. induction n as [|n IH]; intros c f H.
  - destruct c; [reflexivity|discriminate].
  - destruct c as [|x c]; [discriminate|]. cbn [seq map]. rewrite fdot_cons, psum_shift. cbn [nth]. f_equal.
    rewrite <- seq_shift, map_map. apply IH. now injection H.
Qed.
Lemma chi_len s n : 1 <= n -> length (uni_hash_coeff_gen s n) = n.
Proof.
  intro H. unfold uni_hash_coeff_gen. cbn [length].
  assert (L : forall m p, length (coeff_tail p s m) = m) by (induction m; intros; cbn [coeff_tail length]; congruence).
  rewrite L. lia.
Qed.
Definition chiF (s : N) (n i : nat) : fp := toF (nth i (uni_hash_coeff_gen s n) 0%N).
Lemma inn_slice s f n : (s < PR)%N -> 1 <= n -> (forall x, x < n -> (f x < PR)%N) ->
  (vector_inn_prdt_sum_red (slice f n) (uni_hash_coeff_gen s n) < PR /\ vector_inn_prdt_sum_red (uni_hash_coeff_gen s n) (slice f n) < PR)%N /\
  toF (vector_inn_prdt_sum_red (slice f n) (uni_hash_coeff_gen s n)) = psum (fun i => pmul (chiF s n i) (toF (f i))) n /\
  toF (vector_inn_prdt_sum_red (uni_hash_coeff_gen s n) (slice f n)) = psum (fun i => pmul (chiF s n i) (toF (f i))) n.
Proof.
  intros Hs Hn Hf. unfold vector_inn_prdt_sum_red.
  pose proof (clt_slice f n Hf) as C1. pose proof (chi_lt s n Hs) as C2.
  destruct (inn_ok (slice f n) (uni_hash_coeff_gen s n) 0%N eq_refl C2 C1) as [A1 A2].
  destruct (inn_ok (uni_hash_coeff_gen s n) (slice f n) 0%N eq_refl C1 C2) as [B1 B2].
  split; [auto|]. rewrite A2, B2, (fdot_comm (map toF (slice f n))).
  assert (E : fdot (map toF (uni_hash_coeff_gen s n)) (map toF (slice f n)) = psum (fun i => pmul (chiF s n i) (toF (f i))) n).
  { unfold slice. rewrite map_map. rewrite fdot_slice by (rewrite map_length; now apply chi_len). apply psum_ext. intros x Hx. unfold chiF.
    replace p0 with (toF 0%N) by reflexivity. now rewrite map_nth. }
  rewrite E, toF_0. split; ring.
Qed.
Lemma base_check_ok size d (key mac x : nat -> N) b c a seed :
  1 <= size -> (seed < PR)%N -> (d < PR)%N ->
  (forall j, j < size -> share_ok d (mkblock (x j) (mac j)) (key j) /\ (mac j < PR)%N) ->
  share_ok d (mkblock a c) b -> (c < PR)%N ->
  base_sender_check size d key b seed (base_recver_check size mac x c a seed) = true.
Proof.
  intros Hn Hs Hd Hj Hb Hc. unfold base_sender_check, base_recver_check. cbn [fst snd].
  assert (Hj' : forall j, j < size -> (x j < PR /\ mac j < PR /\ key j < PR)%N /\ toF (mac j) = padd (toF (key j)) (pmul (toF (x j)) (toF d))).
  { intros j L. destruct (Hj j L) as [Q M]. apply share_F in Q. rewrite hi64_mk, lo64_mk in Q by (eapply N.lt_trans; [exact M|reflexivity]). exact Q. }
  apply share_F in Hb. rewrite hi64_mk, lo64_mk in Hb by (eapply N.lt_trans; [exact Hc|reflexivity]).
  destruct Hb as [[Ha [_ Hb]] Eb].
  destruct (inn_slice seed (fun j => lo64 (mac j)) size Hs Hn) as [[A1 _] [A2 _]].
  { intros j L. rewrite lo_id by apply N.lt_le_incl, Hj', L. now apply Hj'. }
  destruct (inn_slice seed (fun j => lo64 (key j)) size Hs Hn) as [[B1 _] [B2 _]].
  { intros j L. rewrite lo_id by apply N.lt_le_incl, Hj', L. now apply Hj'. }
  destruct (inn_slice seed x size Hs Hn) as [[C1 _] [C2 _]]; [intros; now apply Hj'|].
  rewrite !(lo_id c), !(lo_id b), !(lo_id d) by now apply N.lt_le_incl.
  set (Im := vector_inn_prdt_sum_red (slice (fun j => lo64 (mac j)) size) _) in *.
  set (Ik := vector_inn_prdt_sum_red (slice (fun j => lo64 (key j)) size) _) in *.
  set (Ix := vector_inn_prdt_sum_red (slice x size) _) in *. clearbody Im Ik Ix.
  apply N.eqb_eq.
  pose proof (am_lt Ik b B1 (N.lt_le_incl _ _ Hb)) as Q1. pose proof (am_lt Ix a C1 (N.lt_le_incl _ _ Ha)) as Q2.
  pose proof (mm_lt (add_mod Ix a) d (N.lt_le_incl _ _ Q2) (N.lt_le_incl _ _ Hd)) as Q3.
  apply toF_inj.
  - apply am_lt; [easy|now apply N.lt_le_incl].
  - apply am_lt; [easy|now apply N.lt_le_incl].
  - rewrite !am_F, mm_F, am_F by now apply N.lt_le_incl. rewrite A2, B2, C2, Eb.
    rewrite (psum_ext (fun i => pmul (chiF seed size i) (toF (lo64 (mac i))))
      (fun i => padd (pmul (chiF seed size i) (toF (lo64 (key i)))) (pmul (toF d) (pmul (chiF seed size i) (toF (x i)))))).
    + rewrite psum_add, psum_scal. ring.
    + intros i L. destruct (Hj' i L) as [[X1 [X2 X3]] X4]. rewrite !lo_id by now apply N.lt_le_incl. rewrite X4. ring.
Qed.
