(** Corollaries used by PropVole.v. *)
From Coq Require Import NArith ZArith List Bool Arith Lia.
From Verif Require Import Word FpModel ArithSpec TreeModel TreeSpec TreeProofs VoleModel VoleSpec LpnProofs CopeProofs MpfssProofs
  PoolModel PoolSpec PoolProofs VoleTripleModel VoleThms.
Import ListNotations.

Lemma choices_msgs len times : forall (b : nat -> nat -> bool) i st, snd (choices_all_r len b i times st) =
  map (fun s => map (fun j => xorb (b (i + s) j) (o_bits st (o_count st + (s * len + j)))) (seq 0 len)) (seq 0 times).
Proof.
  induction times as [|t IH]; intros b i st; cbn [choices_all_r]; [reflexivity|].
  unfold choices_recver. pose proof (flip_loop_ok len (o_count st) (b i) 0 (o_bits st)) as F.
  destruct (flip_loop len (o_count st) (b i) 0 (o_bits st)) as [bits' msg]. destruct F as [F1 F2].
  set (t1 := {| o_bits := bits'; o_count := o_count st + len |}). specialize (IH b (S i) t1).
  destruct (choices_all_r len b (S i) t t1) as [s1' msgs]. cbn [snd] in *. cbn [seq map]. f_equal.
  - rewrite F2. apply map_ext. intro x. now rewrite !Nat.add_0_r.
  - rewrite IH, <- seq_shift, map_map. apply map_ext. intro s. apply map_ext_in. intros j Hj. apply in_seq in Hj.
    cbn [t1 o_bits o_count]. rewrite F1, out_range by lia. f_equal; f_equal; lia.
Qed.

Lemma spfss_ok L R depth seed key mac d (b : nat -> bool) (t0s t0r : mem) : 2 <= depth -> share_ok d mac key ->
  let '(ts, m0, m1, sum) := sp_send L R depth seed key t0s in
  forall m : mem, (forall x, x < depth - 1 -> m x = if b x then m1 x else m0 x) ->
  let tr := sp_recv L R depth b m sum mac t0r in
  let pos := punctured (depth - 1) b in
  pos < 2 ^ (depth - 1) /\
  (forall j, j < 2 ^ (depth - 1) -> ts j = ((node L R seed (depth - 1) j mod 2 ^ 64) mod prm)%N) /\
  (forall j, j < 2 ^ (depth - 1) -> j <> pos -> tr j = ts j) /\
  tr pos = ((ts pos + xval mac * d) mod prm)%N /\
  (forall j, 2 ^ (depth - 1) <= j -> ts j = t0s j /\ tr j = t0r j).
Proof.
  intros Hd Hk. pose proof (proj1 (share_parts (fun _ _ => 0%N) 0 _ _ _ Hk)) as Kk.
  pose proof (sp_send_ok L R depth seed Hd key t0s (canon_PR _ Kk)) as S.
  destruct (sp_send L R depth seed key t0s) as [[[ts m0] m1] sum]. destruct S as (S1 & S2 & S3 & S4 & S5).
  intros m Hm. assert (Hm' : forall x, x < depth - 1 -> m x = (if b x then xsum (fun y => node L R seed (S x) (2 * y + 1)) (2 ^ x) else xsum (fun y => node L R seed (S x) (2 * y)) (2 ^ x))).
  { intros x Hx. destruct (S3 x Hx) as [<- <-]. now apply Hm. }
  pose proof (sp_recv_ok L R depth seed d Hd b m sum key mac t0r Hm' S4 S5 Hk) as Rv. cbv zeta in *.
  pose proof (punctured_lt (depth - 1) b) as Hp. destruct Rv as (R1 & R2 & R3).
  split; [exact Hp|]. split; [exact S1|]. split; [|split].
  - intros j Hj Ne. rewrite S1 by easy. now apply R1.
  - rewrite R2, S1 by easy. reflexivity.
  - intros j Hj. split; [now apply S2|now apply R3].
Qed.

Lemma upd_share d (word : nat -> nat -> N) k (Hk : 1 <= k) (Hk31 : (N.of_nat k < 2 ^ 31)%N) (preK preM : mem) key m e : (forall x, In x e -> x < k) -> (forall x, x < k -> share_ok d (preM x) (preK x)) -> share_ok d m key ->
  share_ok d (upd2 preM m e) (upd1 preK key e).
Proof. intros. exact (upd_corr word k 0 Hk Hk31 d preK preM key m e H H0 H1). Qed.

Lemma expansion_ok word k n threads : 1 <= k -> (N.of_nat k < 2 ^ 31)%N ->
  exists E : nat -> list nat,
  (forall p, length (E p) = if p <? lpn_reach n threads then 10 else 0) /\ (forall p x, In x (E p) -> x < k) /\
  forall d preK preM K M, corr d 0 k preK preM -> corr d 0 n K M ->
  let K' := lpn_compute word k n threads true preK K in
  let M' := lpn_compute word k n threads false preM M in
  corr d 0 n K' M' /\
  (forall p, p < n ->
    K' p = ((K p + nsum (map preK (E p))) mod prm)%N /\
    xval (M' p) = ((xval (M p) + nsum (map (fun x => xval (preM x)) (E p))) mod prm)%N /\
    mval (M' p) = ((mval (M p) + nsum (map (fun x => mval (preM x)) (E p))) mod prm)%N) /\
  (forall p, n <= p -> K' p = K p /\ M' p = M p).
Proof.
  intros Hk Hk31. destruct (lpn_ok word k n threads Hk Hk31) as (E & E1 & E2). exists E.
  split; [intro p; apply E1|]. split; [intros p x Hx; now apply (proj1 (E1 p))|].
  intros d preK preM K M Hp HV K' M'.
  assert (Pc : forall x, x < k -> share_ok d (preM x) (preK x)) by (intros; apply Hp; lia).
  assert (Vc : forall x, x < n -> share_ok d (M x) (K x)) by (intros; apply HV; lia).
  destruct (E2 true preK K) as [A A']; [intros x Hx; exact (proj1 (share_parts word 0 _ _ _ (Pc x Hx)))|intros q Hq; exact (proj1 (share_parts word 0 _ _ _ (Vc q Hq)))|].
  destruct (E2 false preM M) as [B B']; [intros x Hx; exact (proj2 (share_parts word 0 _ _ _ (Pc x Hx)))|intros q Hq; exact (proj2 (share_parts word 0 _ _ _ (Vc q Hq)))|].
  split; [|split].
  - intros q _ Hq. unfold K', M'. rewrite A, B by easy. apply (upd_share d word k Hk Hk31); [apply E1|exact Pc|now apply Vc].
  - intros p Hq. unfold K', M'. rewrite A, B by easy. cbn [upd]. unfold upd2. split; [reflexivity|].
    rewrite (mk_xval word k n Hk Hk31), (mk_mval word k n Hk Hk31) by apply upd1_canon. split; reflexivity.
  - intros p Hq. split; [now apply A'|now apply B'].
Qed.
Lemma reach_le n threads : lpn_reach n threads + n mod (threads + 1) = n.
Proof. unfold lpn_reach. rewrite <- Nat.div_mod_eq. reflexivity. Qed.
Lemma memory_need_ok M L need : 1 <= M -> 1 <= L -> 1 <= need ->
  exists r, 1 <= r /\ memory_need (L + M) M (Z.of_nat need) = Z.of_nat (r * L + M) /\ need <= r * L /\ (r - 1) * L < need.
Proof.
  intros HM HL Hn. exists ((need - 1) / L + 1). unfold memory_need, lim.
  replace (Z.of_nat (L + M) - Z.of_nat M)%Z with (Z.of_nat L) by lia. replace (Z.of_nat need - 1)%Z with (Z.of_nat (need - 1)) by lia.
  rewrite Z.quot_div_nonneg, <- Nat2Z.inj_div by lia.
  pose proof (Nat.div_mod_eq (need - 1) L) as E. pose proof (Nat.mod_upper_bound (need - 1) L ltac:(lia)) as U.
  set (q := (need - 1) / L) in *. set (r := (need - 1) mod L) in *. clearbody q r. rewrite (Nat.mul_comm L q) in E.
  split; [lia|]. split; [lia|]. rewrite Nat.add_sub. split; lia.
Qed.
Lemma lp_of_wf n t k log : (n = t * 2 ^ log)%N -> (1 <= log)%N -> (1 <= k)%N -> (k < 2 ^ 31)%N -> lp_wf (lp_of n t k log).
Proof.
  intros H1 H2 H3 H4. unfold lp_wf, lp_of. cbn [lp_n lp_t lp_k lp_log].
  assert (E1 : forall a, (1 <= a)%N -> 1 <= N.to_nat a) by (intros; lia).
  split; [|split; [now apply E1|split; [now apply E1|now rewrite N2Nat.id]]].
  subst n. change 2 with (N.to_nat 2). rewrite N2Nat.inj_mul, N2Nat.inj_pow. reflexivity.
Qed.
Lemma lp_M_N n t k log : N.of_nat (lp_M (lp_of n t k log)) = (k + t + 1)%N.
Proof. unfold lp_M, lp_of. cbn [lp_k lp_t]. lia. Qed.
Lemma lp_n_N n t k log : N.of_nat (lp_n (lp_of n t k log)) = n.
Proof. unfold lp_of. cbn [lp_n]. lia. Qed.
Lemma N_le_nat a b : (N.of_nat a <= N.of_nat b)%N -> a <= b. Proof. lia. Qed.
Lemma send_loop_len n len : forall k i pre bits m0 m1, length (send_loop n len k i pre bits m0 m1) = len.
Proof. induction len as [|l IH]; intros; cbn [send_loop length]; auto. Qed.
