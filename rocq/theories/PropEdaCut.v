(** Property C55: the cut-and-choose of the mask generation against a cheating prover. *)
From Coq Require Import NArith List Bool Arith Lia.
From Verif Require Import Word FpModel Prime61 ArithSpec CopeProofs EdaModel EdaSpec GameSpec EdaCutSpec EdaCutAlg EdaCutThms.
Import ListNotations.
Ltac Zify.zify_post_hook ::= idtac.

(** the prover's candidates: shares [ap] (value and mac), boolean words [w] with labels [bl], labels [sl] of the bucket
    sums for the offset [r]; the verifier's keys for every pair of global keys *)
Definition authentic (NN C : nat) (ap : nat -> N) (bl : nat -> list N) (w : nat -> N)
  (ak : N -> nat -> N) (bk : N -> nat -> list N) : Prop :=
  (forall i, i < 2 * NN + C -> (w i < prm)%N) /\
  (forall d i, (d < prm)%N -> i < 2 * NN + C -> share_ok d (ap i) (ak d i)) /\
  (forall d i, i < 2 * NN + C -> bauth d (bl i) (bk d i) (w i)).
Definition authentic_sums (NN C r : nat) (w : nat -> N) (sl : nat -> list N) (sk : N -> nat -> list N) : Prop :=
  forall d i, i < NN -> bauth d (sl i) (sk d i) (bucket_f2 (w i) (w (mate NN C r i))).

(** ** One offset.  Halves that disagree where the run looks: whatever words up to p and whatever hash input the prover
    sends, all accepting key pairs share the boolean key or share the field key. *)
Theorem C55_disagreement_needs_key : forall NN C ap bl sl w r ak bk sk vo vb h,
  1 <= NN -> r < NN + C -> r + C <= NN + C -> authentic NN C ap bl w ak bk -> authentic_sums NN C r w sl sk ->
  length vo = C -> length vb = NN -> Forall (fun v => (v <= prm)%N) (vo ++ vb) ->
  ~ survives NN C w (fun i => hi64 (ap i)) r ->
  let acc d2 df := (df < prm)%N /\ gen_ver NN C (ak df) (bk d2) (sk d2) d2 df r [vo; vb] = h in
  (forall d2 df d2' df', acc d2 df -> acc d2' df' -> d2 = d2') \/ (forall d2 df d2' df', acc d2 df -> acc d2' df' -> df = df').
Proof.
  intros NN C ap bl sl w r ak bk sk vo vb h HN Hr HrC (A1 & A2 & A3) As.
  exact (run_keys NN C ap bl sl w r ak bk sk HN Hr HrC A1 A2 A3 As vo vb h).
Qed.
(** Halves that agree there are accepted for every key. *)
Theorem C55_agreement_accepted : forall NN C ap bl sl w r ak bk sk,
  1 <= NN -> r < NN + C -> r + C <= NN + C -> authentic NN C ap bl w ak bk -> authentic_sums NN C r w sl sk ->
  survives NN C w (fun i => hi64 (ap i)) r ->
  exists vo vb, length vo = C /\ length vb = NN /\
  forall d2 df, (df < prm)%N -> gen_ver NN C (ak df) (bk d2) (sk d2) d2 df r [vo; vb] = snd (gen_prv NN C ap bl sl r).
Proof.
  intros NN C ap bl sl w r ak bk sk HN Hr HrC (A1 & A2 & A3) As S.
  exists (map (fun q => w (NN + (r + q))) (seq 0 C)), (map (fun i => bucket_f2 (w i) (w (mate NN C r i))) (seq 0 NN)).
  split; [now rewrite map_length, seq_length|]. split; [now rewrite map_length, seq_length|].
  intros d2 df Hd. apply surv_accepted; auto.
Qed.

(** ** All offsets.  The partner of a mask is found by a rotation, so a wrong delivered mask survives for at most
    (NN + C) / q offsets, q the least divisor of NN + C above C. *)
Theorem C55_offsets_bound : forall NN C w f q i0 rs, 1 <= NN ->
  (forall i, i < 2 * NN + C -> (w i < prm)%N /\ (f i < prm)%N) ->
  (forall d, Nat.divide d (NN + C) -> C < d -> q <= d) -> i0 < NN -> w i0 <> f i0 ->
  NoDup rs -> (forall r, In r rs -> r < NN + C /\ r + C <= NN + C /\ survives NN C w f r) -> length rs * q <= NN + C.
Proof. intros NN C w f q i0 rs HN. exact (offsets_bound NN C w f HN q i0 rs). Qed.
(** the constants of the code: N = 800000, C = 2; N + C = 2 * 7 * 57143 *)
Theorem C55_code_offsets : forall w f i0 rs, let NN := 800 * 1000 in
  (forall i, i < 2 * NN + 2 -> (w i < prm)%N /\ (f i < prm)%N) -> i0 < NN -> w i0 <> f i0 ->
  NoDup rs -> (forall r, In r rs -> r < NN + 2 /\ r + 2 <= NN + 2 /\ survives NN 2 w f r) -> length rs * 7 <= NN + 2.
Proof.
  intros w f i0 rs NN Hc Hi Hne ND H. apply (C55_offsets_bound NN 2 w f 7 i0); auto; [unfold NN; lia|].
  intros d (k & Hk) Hd. clear - Hk Hd. unfold NN in Hk.
  destruct (Nat.lt_ge_cases d 7) as [L|L]; [exfalso|exact L].
  assert (Q : d = 3 \/ d = 4 \/ d = 5 \/ d = 6) by lia. destruct Q as [->|[->|[->| ->]]]; lia.
Qed.
(** with NN + C without a divisor between C and itself there is at most one such offset *)
Theorem C55_one_offset : forall NN C w f i0 r r', 1 <= NN ->
  (forall i, i < 2 * NN + C -> (w i < prm)%N /\ (f i < prm)%N) ->
  (forall d, Nat.divide d (NN + C) -> C < d -> d = NN + C) -> i0 < NN -> w i0 <> f i0 ->
  r < NN + C -> r + C <= NN + C -> survives NN C w f r -> r' < NN + C -> r' + C <= NN + C -> survives NN C w f r' -> r = r'.
Proof.
  intros NN C w f i0 r r' HN Hc Hd Hi Hne H1 H2 H3 H1' H2' H3'. destruct (Nat.eq_dec r r') as [E|E]; [exact E|exfalso].
  assert (L : length [r; r'] * (NN + C) <= NN + C).
  { apply (C55_offsets_bound NN C w f (NN + C) i0); auto.
    - intros d D1 D2. rewrite (Hd d D1 D2). lia.
    - constructor; [intros [Q|[]]; congruence|constructor; [intros []|constructor]].
    - intros x [<-|[<-|[]]]; auto. }
  cbn [length] in L. lia.
Qed.

(** ** Offsets and keys together.  The words and the hash input may depend on the offset. *)
Definition accepted (NN C : nat) (ak : N -> nat -> N) (bk : N -> nat -> list N) (sk : nat -> N -> nat -> list N)
  (vo vb : nat -> list N) (h : nat -> list hitem) (t : nat * (N * N)) : bool :=
  let '(r, (d2, df)) := t in
  if list_eq_dec hitem_dec (gen_ver NN C (ak df) (bk d2) (sk r d2) d2 df r [vo r; vb r]) (h r) then true else false.
Theorem C55_counted : forall NN C ap bl sl w ak bk sk vo vb h D2 DF q i0, 1 <= NN -> 1 <= C ->
  authentic NN C ap bl w ak bk -> (forall r, authentic_sums NN C r w (sl r) (sk r)) ->
  (forall r, length (vo r) = C /\ length (vb r) = NN /\ Forall (fun v => (v <= prm)%N) (vo r ++ vb r)) ->
  NoDup D2 -> NoDup DF -> (forall d, In d DF -> (d < prm)%N) ->
  (forall d, Nat.divide d (NN + C) -> C < d -> q <= d) -> i0 < NN -> w i0 <> hi64 (ap i0) ->
  cnt (accepted NN C ak bk sk vo vb h) (list_prod (seq 0 (S NN)) (list_prod D2 DF)) * q <=
  (NN + C) * (length D2 * length DF) + S NN * (length D2 + length DF) * q.
Proof.
  intros NN C ap bl sl w ak bk sk vo vb h D2 DF q i0 HN HC (A1 & A2 & A3) As Hv N2 NF HF Hq Hi Hne.
  pose proof (counted NN C ap bl sl w ak bk sk HN HC A1 A2 A3 As vo vb h D2 DF Hv N2 NF HF q i0 Hq Hi Hne) as K.
  replace (cnt (accepted NN C ak bk sk vo vb h) (list_prod (seq 0 (S NN)) (list_prod D2 DF)))
    with (cnt (fun t => accb NN C ak bk sk vo vb h (fst t) (snd t)) (list_prod (seq 0 (S NN)) (list_prod D2 DF))); [exact K|].
  unfold cnt. f_equal. apply filter_ext. intros (r & d2 & df). reflexivity.
Qed.

(** ** The bound is reached, which refutes the intended one (one offset of NN + C, as for a random permutation).
    For every divisor d of NN + C above C the prover plants the difference e at the masks 0, d, 2d, ... and -e at the
    others C, C + d, ...: the run is accepted for all keys at all offsets divisible by d, and every conversion through
    such a mask is off by e. *)
Lemma multiples_count d k : d <> 0 -> forall s, cnt (fun r => Nat.eqb (r mod d) 0) (seq (s * d) (k * d)) = k.
Proof.
  intro Hd. assert (One : forall s, cnt (fun r => Nat.eqb (r mod d) 0) (seq (s * d) d) = 1).
  { intro s. destruct d as [|d]; [contradiction|]. cbn [seq]. unfold cnt. cbn [filter].
    rewrite Nat.mod_mul by lia. cbn [Nat.eqb length]. f_equal. apply cnt0. intros r Hr. apply in_seq in Hr.
    apply Nat.eqb_neq. replace r with ((r - s * S d) + s * S d) by lia. rewrite Nat.mod_add by lia. rewrite Nat.mod_small by lia. lia. }
  induction k as [|k IH]; intro s; [reflexivity|].
  cbn [Nat.mul]. rewrite seq_app. unfold cnt in *. rewrite filter_app, app_length, One.
  replace (s * d + d) with (S s * d) by (cbn [Nat.mul]; lia). now rewrite IH.
Qed.
Theorem C55_planted_masks_refuted : forall NN C d e ap bl w ak bk, 1 <= NN -> 1 <= C -> Nat.divide d (NN + C) -> C < d -> (0 < e < prm)%N ->
  authentic NN C ap bl w ak bk -> planted NN C d e w (fun i => hi64 (ap i)) ->
  cnt (fun r => Nat.eqb (r mod d) 0) (seq 0 (NN + C)) * d = NN + C /\
  (forall r sl sk, r < NN + C -> r mod d = 0 -> authentic_sums NN C r w sl sk ->
     r + C <= NN + C /\
     exists vo vb, length vo = C /\ length vb = NN /\
     forall d2 df, (df < prm)%N -> gen_ver NN C (ak df) (bk d2) (sk d2) d2 df r [vo; vb] = snd (gen_prv NN C ap bl sl r)) /\
  (forall i, i < NN -> i mod d = 0 -> w i <> hi64 (ap i) /\
     (forall x, (x < prm)%N -> hi64 (snd (b2a_prv x (w i) (ap i))) = ((x + (prm - e)) mod prm)%N) /\
     (forall df a k, (df < prm)%N -> share_ok df a k -> a2b_out (fst (a2b_open (ap i) a)) (w i) = ((hi64 a + (prm - e)) mod prm)%N)).
Proof.
  intros NN C d e ap bl w ak bk HN HC HdM HCd He HA HP. pose proof HA as (A1 & A2 & A3).
  assert (He' : (e <= prm)%N) by (apply N.lt_le_incl; apply He).
  split; [|split].
  - destruct HdM as (k & ->). pose proof (multiples_count d k ltac:(lia) 0) as Q. rewrite Nat.mul_0_l in Q. now rewrite Q.
  - intros r sl sk Hr Hm As.
    assert (HrC : r + C <= NN + C).
    { destruct HdM as (k & Hk). rewrite (Nat.div_mod r d) in Hr |- * by lia. rewrite Hm, Nat.add_0_r in *.
      assert (Q : r / d < k) by (apply (Nat.mul_lt_mono_pos_l d); lia). assert (Q2 : d * S (r / d) <= d * k) by (apply Nat.mul_le_mono_l; lia). lia. }
    split; [exact HrC|]. apply (C55_agreement_accepted NN C ap bl sl w); auto. now apply (planted_survives NN C d e).
  - intros i Hi Hm. destruct HP as [H1 _]. pose proof (H1 i Hi) as W. rewrite Hm in W. cbn [Nat.eqb] in W.
    assert (Li : i < 2 * NN + C) by lia.
    assert (Z : (0 < prm)%N) by reflexivity. pose proof (A2 0%N i Z Li) as Sh. apply share_F in Sh. destruct Sh as ((Sh & _) & _).
    pose proof (A1 i Li) as Wl. split; [|split].
    + rewrite W. destruct He as [E1 E2]. clear - E1 E2 Sh. change prm with PR in *. intro Q.
      apply (f_equal toF) in Q. rewrite toF_mod, toF_add in Q.
      assert (T : toF e = toF 0).
      { replace (toF e) with (psub (padd (toF (hi64 (ap i))) (toF e)) (toF (hi64 (ap i)))).
        - rewrite Q. change (toF 0) with p0. apply (Rsub_eq (hi64 (ap i))).
        - apply (Rsub_add (hi64 (ap i)) e). }
      apply toF_inj in T; [|exact E2|reflexivity]. subst e. now apply N.lt_irrefl in E1.
    + intros x Hx. apply conv_b2a; auto.
    + intros df a k Hd Sa. apply (conv_a2b df (ap i) (ak df i) a k); auto.
Qed.

(** the constants of the code: one offset in seven *)
Theorem C55_code_planted_refuted : forall e ap bl w ak bk, let NN := 800 * 1000 in (0 < e < prm)%N ->
  authentic NN 2 ap bl w ak bk -> planted NN 2 7 e w (fun i => hi64 (ap i)) ->
  cnt (fun r => Nat.eqb (r mod 7) 0) (seq 0 (NN + 2)) * 7 = NN + 2 /\
  (forall r sl sk, r < NN + 2 -> r mod 7 = 0 -> authentic_sums NN 2 r w sl sk ->
     exists vo vb, length vo = 2 /\ length vb = NN /\
     forall d2 df, (df < prm)%N -> gen_ver NN 2 (ak df) (bk d2) (sk d2) d2 df r [vo; vb] = snd (gen_prv NN 2 ap bl sl r)) /\
  w 0 <> hi64 (ap 0).
Proof.
  intros e ap bl w ak bk NN He HA HP.
  assert (HN : 1 <= NN) by (unfold NN; lia).
  assert (HD : Nat.divide 7 (NN + 2)) by (exists (114 * 1000 + 286); unfold NN; lia).
  destruct (C55_planted_masks_refuted NN 2 7 e ap bl w ak bk HN ltac:(lia) HD ltac:(lia) He HA HP) as (H1 & H2 & H3).
  split; [exact H1|]. split; [intros r sl sk Hr Hm As; now apply (H2 r sl sk)|]. apply H3; [lia|reflexivity].
Qed.
(** every list of field values can be planted *)
Lemma plantable NN C d e f : (forall i, (f i < prm)%N) -> exists w, planted NN C d e w f /\ forall i, (w i < prm)%N.
Proof.
  intro Hf. exists (fun i => if Nat.ltb i NN then (if Nat.eqb (i mod d) 0 then (f i + e) mod prm else f i)%N
                             else (if Nat.eqb ((i - NN) mod d) C then (f i + (prm - e)) mod prm else f i)%N).
  split; [split|].
  - intros i Hi. destruct (Nat.ltb_spec i NN); [reflexivity|lia].
  - intros q Hq. destruct (Nat.ltb_spec (NN + q) NN); [lia|]. replace (NN + q - NN) with q by lia. reflexivity.
  - intro i. destruct (Nat.ltb i NN); [destruct (Nat.eqb (i mod d) 0)|destruct (Nat.eqb ((i - NN) mod d) C)]; auto; apply N.mod_upper_bound; discriminate.
Qed.

(** four delivered masks and two opened ones: NN + C = 6 has the divisor 3; planted with e = 5, offsets 0 and 3 of the
    five in range are accepted *)
Section Demo.
  Let d2 : N := 987654321987654321987654321%N.
  Let df : N := 123456789012345678%N.
  Let f (i : nat) : N := ((N.of_nat (i * i + 5 * i + 3) * 1000000007 * 998244353) mod prm)%N.
  Let m (i : nat) : N := ((N.of_nat (i * i * i + 11) * 1000000009 * 1000003) mod prm)%N.
  Let ap (i : nat) : N := mkblock (f i) (m i).
  Let ak (i : nat) : N := fsub (m i) (f i * df).
  Let lab (s : nat) : list N := map (fun j => N.of_nat s * 100 + N.of_nat j * N.of_nat j + 7)%N (seq 0 62).
  Let key (s : nat) (v : N) : list N :=
    map (fun jl => N.lxor (snd jl) (if N.testbit v (N.of_nat (fst jl)) then d2 else 0%N)) (combine (seq 0 62) (lab s)).
  Let w (i : nat) : N := if Nat.ltb i 4 then (if Nat.eqb (i mod 3) 0 then (f i + 5) mod prm else f i)%N
                         else (if Nat.eqb ((i - 4) mod 3) 2 then (f i + (prm - 5)) mod prm else f i)%N.
  Let run (r : nat) : bool :=
    let sums i := bucket_f2 (w i) (w (mate 4 2 r i)) in
    if list_eq_dec hitem_dec
         (gen_ver 4 2 ak (fun i => key i (w i)) (fun i => key (20 + i) (sums i)) d2 df r
            [map (fun q => w (4 + (r + q))) (seq 0 2); map sums (seq 0 4)])
         (snd (gen_prv 4 2 ap lab (fun i => lab (20 + i)) r)) then true else false.
  Example C55_case : map run (seq 0 5) = [true; false; false; true; false] /\
    forallb (fun i => Nat.eqb (if N.eqb (w i) (f i) then 0 else 1) (if Nat.eqb (i mod 3) 0 then 1 else 0)) (seq 0 4) = true /\
    hi64 (snd (b2a_prv 100 (w 3) (ap 3))) = 95%N /\ a2b_out (fst (a2b_open (ap 3) (mkblock 100 7))) (w 3) = 95%N.
  Proof. vm_compute. repeat split. Qed.
  Example C55_one_offset_case : (* NN + C = 5 + 2 is prime *)
    forall d, Nat.divide d 7 -> 2 < d -> d = 7.
  Proof. intros d (k & Hk) Hd. assert (L : k < 3) by nia. destruct k as [|[|[|k]]]; lia. Qed.
End Demo.
Print Assumptions C55_disagreement_needs_key.
Print Assumptions C55_agreement_accepted.
Print Assumptions C55_offsets_bound.
Print Assumptions C55_code_offsets.
Print Assumptions C55_one_offset.
Print Assumptions C55_counted.
Print Assumptions C55_planted_masks_refuted.
Print Assumptions C55_code_planted_refuted.
