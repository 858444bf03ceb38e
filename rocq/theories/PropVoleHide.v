(** C58: the prover's messages in the correlation generators hide its values (VoleHideSpec.v). *)
From Coq Require Import NArith List Bool Arith Lia.
From Verif Require Import Word FpModel GF128 ListUtil ArithSpec TreeModel TreeSpec VoleModel VoleSpec VoleTripleModel VoleF2kModel VoleF2kSpec VoleThms TreeProofs
  VoleHideSpec VoleHideThms VoleHideThms2 VoleRawSeed.
Import ListNotations.

(** whatever the secrets and the masks, the messages have the expected shape, canonical words, and pass the verifier's check *)
Theorem C58_shape : forall L R H Hs threads t k log v s q, 1 <= log -> vpub_ok v -> vsec_ok s -> vmask_ok q ->
  trans_ok t k log v (transcript L R H Hs threads t k log v s q).
Proof. intros L R H Hs threads t k log v s q Hl Hv Hx Hq. exact (shape L R H Hs threads t k log v Hv Hl s q Hx Hq). Qed.

(** for fixed secrets every such transcript comes from exactly one choice of the masks.  So with uniform masks the messages are
    uniform over these transcripts, whatever the secrets are *)
Theorem C58_each_transcript_once : forall L R H Hs threads t k log v s m, 1 <= log -> vpub_ok v -> vsec_ok s -> trans_ok t k log v m ->
  exists q, vmask_ok q /\ transcript L R H Hs threads t k log v s q = m /\
  forall q', vmask_ok q' -> transcript L R H Hs threads t k log v s q' = m -> vmask_eq (vsize t k) (log * t) q' q.
Proof.
  intros L R H Hs threads t k log v s m Hl Hv Hx Hm. exists (solve Hs threads t k log v s m).
  split; [exact (solve_ok L R H Hs threads t k log v Hv Hl s m Hx Hm)|].
  split; [exact (solve_tr L R H Hs threads t k log v Hv Hl s m Hx Hm)|].
  intros q' Hq' <-. exact (solve_inv L R H Hs threads t k log v Hv Hl s q' Hx Hq').
Qed.

(** in particular, what one prover sent any other prover could have sent, with exactly one choice of its masks *)
Theorem C58_values_hidden : forall L R H Hs threads t k log v s s' q, 1 <= log -> vpub_ok v -> vsec_ok s -> vsec_ok s' -> vmask_ok q ->
  exists q', vmask_ok q' /\ transcript L R H Hs threads t k log v s' q' = transcript L R H Hs threads t k log v s q /\
  forall q'', vmask_ok q'' -> transcript L R H Hs threads t k log v s' q'' = transcript L R H Hs threads t k log v s q ->
    vmask_eq (vsize t k) (log * t) q'' q'.
Proof.
  intros L R H Hs threads t k log v s s' q Hl Hv Hx Hx' Hq.
  apply C58_each_transcript_once; auto. now apply C58_shape.
Qed.

(** the values delivered afterwards are a function of the secrets alone: noise plus ten table entries, none of them a mask.
    Both checks succeed *)
Theorem C58_delivered : forall L R H Hs word threads t k log n v, vpub_ok v -> 1 <= threads -> 1 <= log -> 1 <= k -> (N.of_nat k < 2 ^ 31)%N ->
  n = t * 2 ^ log ->
  exists E : nat -> list nat, (forall p x, In x (E p) -> x < k) /\
    (forall p, length (E p) = if p <? (threads + 1) * (n / (threads + 1)) then 10 else 0) /\
    forall s q, vsec_ok s -> vmask_ok q ->
      all_ok L R H Hs threads t k log v s q word n = true /\
      forall p, p < n -> delivered L R H Hs threads t k log v s q word n p = ((noise log s p + nsum (map (fun e => s_x s (t + 1 + e)) (E p))) mod prm)%N.
Proof. exact delivered_eq. Qed.

(** * GF(2^128) *)
(** the announced choices are uniform; the check word is the value at position t plus the noise values times their coefficients.
    If position t were only a mask, every pair of messages would come from exactly one choice of mask and bits *)
Theorem C58_f2k_messages : forall L R H Hs threads t log v b val, 1 <= threads -> 1 <= log ->
  (forall rb, snd (f_trans L R H Hs threads t log v b val rb) =
    N.lxor (xsum (fun s => gfmul (val s) (f2_coeff Hs log b (f_chal v) s)) t) (val t)) /\
  (forall ann w, length ann = t -> Forall (fun l => length l = log) ann ->
    exists rb z, f_trans L R H Hs threads t log v b (fun i => if i =? t then z else val i) rb = (ann, w) /\
    forall rb' z', f_trans L R H Hs threads t log v b (fun i => if i =? t then z' else val i) rb' = (ann, w) ->
      z' = z /\ forall i, i < log * t -> rb' i = rb i).
Proof.
  intros L R H Hs threads t log v b val Ht Hl. split.
  - intro rb. unfold f_trans. rewrite f2_transcript_eq by exact Ht. reflexivity.
  - intros ann w Ha Hf. unfold f_trans.
    set (S := xsum (fun s => gfmul (val s) (f2_coeff Hs log b (f_chal v) s)) t).
    assert (ES : forall z, xsum (fun s => gfmul (if s =? t then z else val s) (f2_coeff Hs log b (f_chal v) s)) t = S).
    { intro z. apply TreeProofs.xsum_ext. intros s Hs'. now rewrite (proj2 (Nat.eqb_neq s t)) by lia. }
    exists (fun x => xorb (b (x / log) (x mod log)) (nth (x mod log) (nth (x / log) ann []) false)), (N.lxor S w). split.
    + rewrite f2_transcript_eq by exact Ht. cbn [r_b r_ot_b r_chal f_rnd]. rewrite ES, Nat.eqb_refl. f_equal.
      * apply map_seq_eq with (d := []); [exact Ha|]. intros i Hi.
        apply map_seq_eq with (d := false); [rewrite Forall_forall in Hf; apply Hf, nth_In; now rewrite Ha|]. intros j Hj.
        replace ((i * log + j) / log) with i by (apply Nat.div_unique with j; lia).
        replace ((i * log + j) mod log) with j by (apply Nat.mod_unique with i; lia).
        rewrite <- xorb_assoc, xorb_nilpotent. apply xorb_false_l.
      * rewrite <- N.lxor_assoc, N.lxor_nilpotent. apply N.lxor_0_l.
    + intros rb' z' Q. rewrite f2_transcript_eq in Q by exact Ht. cbn [r_b r_ot_b r_chal f_rnd] in Q. rewrite ES, Nat.eqb_refl in Q.
      injection Q as Q1 Q2. split.
      * rewrite <- Q2, <- N.lxor_assoc, N.lxor_nilpotent. symmetry. apply N.lxor_0_l.
      * intros x Hx. rewrite <- Q1. assert (D : x / log < t) by (apply Nat.div_lt_upper_bound; lia).
        assert (M : x mod log < log) by (apply Nat.mod_upper_bound; lia).
        rewrite (nth_map_seq (fun i => map (fun j => xorb (b i j) (rb' (i * log + j))) (seq 0 log)) t (x / log) [] D).
        rewrite (nth_map_seq (fun j => xorb (b (x / log) j) (rb' (x / log * log + j))) log (x mod log) false M).
        replace (x / log * log + x mod log) with x by (rewrite Nat.mul_comm; now apply Nat.div_mod_eq).
        rewrite <- xorb_assoc, xorb_nilpotent. symmetry. apply xorb_false_l.
Qed.

(** but the expansion reads position t as well: delivered values use it as entry 0 of the table *)
Theorem C58_f2k_delivered : forall word threads t k log, 1 <= k -> (N.of_nat k < 2 ^ 31)%N ->
  exists E : nat -> list nat, (forall p x, In x (E p) -> x < k) /\
    (forall p, length (E p) = if p <? (threads + 1) * (t * 2 ^ log / (threads + 1)) then 10 else 0) /\
    forall L R H Hs v b val rb p, p < t * 2 ^ log ->
      f_out L R H Hs threads t k log v b val rb word p = N.lxor (f2_noise log b val p) (xorl (fun e => val (t + e)) (E p)).
Proof.
  intros word threads t k log Hk Hk31. destruct (f2_delivered_eq word threads k (t * 2 ^ log) Hk Hk31) as (E & E1 & E2 & E3).
  exists E. split; [exact E1|]. split; [exact E2|]. intros. unfold f_out. now rewrite E3.
Qed.
(** so two provers that could deliver different values are told apart for certain: every run gives the verifier one linear
    relation between the values it should not know *)
Theorem C58_f2k_reused_mask_refuted :
  (forall L R H Hs threads t log v b val b' val' rb rb', 1 <= threads ->
    f_trans L R H Hs threads t log v b val rb = f_trans L R H Hs threads t log v b' val' rb' ->
    N.lxor (xsum (fun s => gfmul (val s) (f2_coeff Hs log b (f_chal v) s)) t) (val t) =
    N.lxor (xsum (fun s => gfmul (val' s) (f2_coeff Hs log b' (f_chal v) s)) t) (val' t)) /\
  (exists threads t k log word b val val', forall L R H Hs v rb rb',
    f_trans L R H Hs threads t log v b val rb <> f_trans L R H Hs threads t log v b val' rb' /\
    exists p, p < t * 2 ^ log /\
      f_out L R H Hs threads t k log v b val rb word p <> f_out L R H Hs threads t k log v b val' rb' word p).
Proof.
  split.
  - intros L R H Hs threads t log v b val b' val' rb rb' Ht Q. unfold f_trans in Q. rewrite !f2_transcript_eq in Q by exact Ht.
    injection Q as _ Q. exact Q.
  - exists 1, 1, 2, 1, (fun _ w => if w =? 0 then 0%N else 1%N), (fun _ _ => false), (fun i => N.of_nat (i + 5)),
      (fun i => if i =? 1 then 77%N else N.of_nat (i + 5)). intros L R H Hs v rb rb'. split.
    + intro Q. unfold f_trans in Q. rewrite !f2_transcript_eq in Q by exact (le_n 1). injection Q as _ Q.
      revert Q. cbn [r_b r_chal f_rnd xsum]. set (c := f2_coeff _ _ _ _ _). change (if 0 =? 1 then 77%N else N.of_nat (0 + 5)) with 5%N.
      change (N.of_nat (0 + 5)) with 5%N. set (w := gfmul 5 c). clearbody w. intro Q. apply (f_equal (N.lxor w)) in Q.
            rewrite <- !N.lxor_assoc, !N.lxor_nilpotent, !N.lxor_0_l in Q. discriminate Q.
    + exists 0. split; [cbn; lia|]. unfold f_out, f2_delivered, f2_extend.
      destruct (f2_mpfss _ _ _ _ _ _ _ _ _ _ _ _ _ _) as [[Y Z] ok]. destruct (f2_mpfss _ _ _ _ _ _ _ _ _ _ _ _ _ _) as [[Y' Z'] ok'].
      cbn [fst snd]. vm_compute. discriminate.
Qed.

(** the seed of the base check must be reduced as in [vpub_ok]: Base_svole::recver_check uses the received word as it is (base_svole.h:86-88).
    For any seed with a large last coefficient [c], two provers that differ in one value only (0 or [x] at the last position, after eight zeros)
    are told apart for certain, whatever all masks: the second word of the answer is below p for the first and at least p for the second *)
Theorem C58_unreduced_seed_refuted : forall t k v seed x s s' q q', 9 <= k -> vsec_ok s -> vsec_ok s' -> vmask_ok q -> vmask_ok q' ->
  let c := nth (t + k) (uni_hash_coeff_gen seed (vsize t k)) 0%N in
  (3 * prm <= mult_mod x c <= 6 * prm)%N ->
  (forall j, t + k - 8 <= j -> j < t + k -> s_x s j = 0%N /\ s_x s' j = 0%N) -> s_x s (t + k) = 0%N -> s_x s' (t + k) = x ->
  (snd (raw_xz t k v s q seed) < prm)%N /\ (prm <= snd (raw_xz t k v s' q' seed))%N.
Proof.
  intros t k v seed x s s' q q' Hk Hs Hs' Hq Hq' c Hc Hz H0 Hx. split.
  - apply raw_small; try assumption. intros j A B. destruct (Nat.eq_dec j (t + k)) as [->|]; [exact H0|]. apply Hz; lia.
  - apply (raw_large t k v seed Hk s' q' x); try assumption. intros j A B. now apply Hz.
Qed.
(** such a seed and value for the sizes the library uses by default (vole_triple.h:31-32: 600 trees, 1220 table entries) *)
Example C58_unreduced_seed_case :
  let c := nth (600 + 1220) (uni_hash_coeff_gen 8353096282722727445 (vsize 600 1220)) 0%N in
  let x := (4 * (prm / 5))%N in (canon x /\ 3 * prm <= mult_mod x c <= 6 * prm)%N.
Proof. vm_compute. repeat split; discriminate. Qed.

(** a concrete set-up: two trees of four leaves, a table of three entries *)
Definition hv : vpub := {| v_d := 1000003; v_pad := fun i j => (N.of_nat (i * 31 + j * 7 + 3) * 123456789123 mod prm)%N;
  v_padc := fun i => (N.of_nat (i + 9) mod prm)%N; v_seed := 424242; v_root := fun s => N.of_nat (11 * s + 5); v_ot := fun i => N.of_nat (i * i + 1);
  v_otd := 12345; v_chal := fun s => N.of_nat (s + 40) |}.
Definition hs1 : vsec := {| s_x := fun j => (N.of_nat (j * j + 10) mod prm)%N; s_b := fun s j => Nat.odd (s + j) |}.
Definition hs2 : vsec := {| s_x := fun j => (N.of_nat (50 - j) mod prm)%N; s_b := fun s j => Nat.even (s * j) |}.
Definition hq : vmask := {| k_pad := fun i j => (N.of_nat (i * 13 + j * 17 + 1) * 987654321987 mod prm)%N; k_padc := fun i => (N.of_nat (i * 5) mod prm)%N;
  k_a := 31337; k_rb := fun i => Nat.even (i / 2); k_z := 777777 |}.
Definition hL (x : N) : N := (x * 3 + 1)%N.
Definition hR (x : N) : N := (x * 5 + 3)%N.
Definition hword (i w : nat) : N := N.of_nat (i * 17 + w * 29 + 5).
Example C58_hyps : vpub_ok hv /\ vsec_ok hs1 /\ vsec_ok hs2 /\ vmask_ok hq.
Proof.
  assert (M : forall x, canon (x mod prm)) by (intro; apply N.mod_lt; discriminate).
  split; [|split; [|split]].
  - split; [reflexivity|]. split; [intros; apply M|]. split; [intros; apply M|reflexivity].
  - intro; apply M.
  - intro; apply M.
  - split; [intros; apply M|]. split; [intros; apply M|]. split; reflexivity.
Qed.
(** the second prover sends the same messages with other masks and delivers other values *)
Definition hq2 : vmask := solve hR 2 2 3 2 hv hs2 (transcript hL hR hL hR 2 2 3 2 hv hs1 hq).
Example C58_case :
  let m1 := transcript hL hR hL hR 2 2 3 2 hv hs1 hq in let m2 := transcript hL hR hL hR 2 2 3 2 hv hs2 hq2 in
  (m_xz m1, m_ann m1, m_xs m1, nth 4 (nth 5 (m_tau m1) []) 0%N) = (m_xz m2, m_ann m2, m_xs m2, nth 4 (nth 5 (m_tau m2) []) 0%N) /\
  m_ann m1 = [[true; false]; [true; false]] /\ (k_z hq2 =? k_z hq)%N = false /\ (k_a hq2 =? k_a hq)%N = false /\
  delivered hL hR hL hR 2 2 3 2 hv hs1 hq hword 8 0 = 259%N /\
  delivered hL hR hL hR 2 2 3 2 hv hs2 hq2 hword 8 0 = 511%N.
Proof. vm_compute. repeat split. Qed.

Print Assumptions C58_shape.
Print Assumptions C58_each_transcript_once.
Print Assumptions C58_values_hidden.
Print Assumptions C58_delivered.
Print Assumptions C58_f2k_messages.
Print Assumptions C58_f2k_delivered.
Print Assumptions C58_f2k_reused_mask_refuted.
Print Assumptions C58_unreduced_seed_refuted.
