(** Proofs about the self-check functions and compute_mu. *)
From Coq Require Import NArith List Bool Arith Lia Ring.
From Verif Require Import Word FpModel FpProofs Prime61 BoolModel BoolProofs BoolSpec ArithModel ArithSpec ArithProofs ArithThms4 DebugModel.
Import ListNotations.
Local Open Scope N_scope.
Add Ring fp_ring : fp_rt.

(** * bits *)
Lemma clear_szb k : k < 2 ^ 128 -> set_zero_bit k = N.clearbit k 0.
Proof.
  intro H. apply N.bits_inj. intro i. unfold set_zero_bit. rewrite N.land_spec, minusone_bit, N.clearbit_eqb.
  assert (Z : 128 <= i -> N.testbit k i = false).
  { intro L. destruct (N.eq_dec k 0) as [->|Z]; [apply N.bits_0|]. apply N.bits_above_log2.
    apply N.log2_lt_pow2; [lia|]. apply N.lt_le_trans with (1 := H). apply N.pow_le_mono_r; lia. }
  destruct (N.eqb_spec 0 i) as [<-|Hi]; [cbn; now rewrite !andb_false_r|].
  destruct (N.ltb_spec 0 i); [|lia]. destruct (N.ltb_spec i 128); cbn [andb negb]; rewrite ?andb_true_r; [reflexivity|].
  rewrite Z by lia. reflexivity.
Qed.
Lemma bchk_auth_ok d : forall keys recv, length keys = length recv -> Forall (fun k => k < 2 ^ 128) keys ->
  (forall ks, bchk_auth d keys recv = DOk ks ->
     ks = map (fun k => N.clearbit k 0) keys /\
     Forall2 (fun k r => snd r = N.odd (fst r) /\ N.lxor (N.clearbit k 0) (if snd r then d else 0) = fst r) keys recv) /\
  (Forall2 (fun k r => snd r = N.odd (fst r) /\ N.lxor (N.clearbit k 0) (if snd r then d else 0) = fst r) keys recv ->
     exists ks, bchk_auth d keys recv = DOk ks).
Proof.
  induction keys as [|k keys IH]; intros [|[m x] recv] L F; try discriminate.
  - cbn. split; [|eauto]. intros ks [= <-]. auto.
  - inversion_clear F as [|? ? Hk F']. cbn [length] in L. destruct (IH recv ltac:(lia) F') as [I1 I2]. cbn [bchk_auth].
    cbv zeta. rewrite (clear_szb k Hk). unfold getLSB. rewrite N.bit0_odd. unfold choice. split.
    + intros ks. destruct (Bool.eqb_spec x (N.odd m)) as [E1|]; cbn [negb]; [|discriminate].
      destruct (N.eqb_spec (N.lxor (N.clearbit k 0) (if x then d else 0)) m) as [E2|]; cbn [negb]; [|discriminate].
      destruct (bchk_auth d keys recv) as [ks'|] eqn:E; [|discriminate]. intros [= <-]. destruct (I1 ks' eq_refl) as [-> G].
      split; [reflexivity|]. constructor; auto.
    + intro G. inversion_clear G as [|? ? ? ? [G1 G2] G']. cbn [fst snd] in *. destruct (I2 G') as [ks ->].
      rewrite <- G1, Bool.eqb_reflx, G2, N.eqb_refl. cbn. eauto.
Qed.
Lemma bchk_and_ok d : forall keys recv, length keys = length recv ->
  Forall (fun k => fst (fst k) < 2 ^ 128 /\ snd (fst k) < 2 ^ 128 /\ snd k < 2 ^ 128) keys ->
  (bchk_and d keys recv = None <->
   Forall2 (fun k r => let '(a, b, c) := k in let '(ma, mb, mc) := r in
     N.odd mc = N.odd ma && N.odd mb /\ N.lxor (N.clearbit a 0) (if N.odd ma then d else 0) = ma /\
     N.lxor (N.clearbit b 0) (if N.odd mb then d else 0) = mb /\ N.lxor (N.clearbit c 0) (if N.odd mc then d else 0) = mc) keys recv).
Proof.
  induction keys as [|[[a b] c] keys IH]; intros [|[[ma mb] mc] recv] L F; try discriminate; [cbn; split; auto|].
  inversion_clear F as [|? ? (Ha & Hb & Hc) F']. cbn [fst snd] in *. cbn [length] in L. specialize (IH recv ltac:(lia) F').
  cbn [bchk_and]. cbv zeta. unfold bchk_one. rewrite (clear_szb a Ha), (clear_szb b Hb), (clear_szb c Hc). unfold getLSB. rewrite !N.bit0_odd. unfold choice.
  destruct (Bool.eqb_spec (N.odd mc) (N.odd ma && N.odd mb)) as [E1|E1]; cbn [negb]; [|split; [discriminate|intro G; inversion_clear G; tauto]].
  destruct (N.eqb_spec (N.lxor (N.clearbit a 0) (if N.odd ma then d else 0)) ma) as [E2|E2]; cbn [negb]; [|split; [discriminate|intro G; inversion_clear G; tauto]].
  destruct (N.eqb_spec (N.lxor (N.clearbit b 0) (if N.odd mb then d else 0)) mb) as [E3|E3]; cbn [negb]; [|split; [discriminate|intro G; inversion_clear G; tauto]].
  destruct (N.eqb_spec (N.lxor (N.clearbit c 0) (if N.odd mc then d else 0)) mc) as [E4|E4]; cbn [negb]; [|split; [discriminate|intro G; inversion_clear G; tauto]].
  rewrite IH. split; [intro G; constructor; auto|intro G; now inversion_clear G].
Qed.

(** * field *)
Lemma mod128_lt k : k < W128 -> mod128 k PR < 2 ^ 68.
Proof.
  intro H. unfold mod128. cbv zeta. rewrite land_PR, shr61.
  assert (k / 2305843009213693952 < 2 ^ 67) by (apply N.div_lt_upper_bound; [discriminate|exact H]).
  pose proof (mod61_lt k). unfold add128. rewrite N.mod_small by (unfold W128, PR in *; lia).
  rewrite csub128 by (unfold W128, PR in *; lia). destruct (N.leb_spec PR (k mod 2305843009213693952 + k / 2305843009213693952)); unfold PR in *; lia.
Qed.
Lemma dbg_mac_ok d x key : x < 2 ^ 64 -> d < PR -> key < 2 ^ 64 -> dbg_mac d x key = (key + x * d) mod PR.
Proof.
  intros Hx Hd Hk. unfold dbg_mac. cbv zeta. unfold mul128.
  assert (B : x * d < W128) by (unfold W128, PR in *; nia). rewrite (N.mod_small _ _ B).
  pose proof (mod128_lt _ B) as L. pose proof (mod128_congr _ B) as C.
  unfold add128. rewrite N.mod_small by (unfold W128; lia). rewrite mod128_correct by (change (2 ^ 122 - 1) with 5316911983139663491615228241121378303; lia).
  rewrite N.add_comm. rewrite <- N.add_mod_idemp_r, C, N.add_mod_idemp_r by discriminate. reflexivity.
Qed.
Lemma lo64_def r : lo64 r = r mod 2 ^ 64. Proof. reflexivity. Qed.
Lemma hi64_def r : hi64 r = r / 2 ^ 64. Proof. reflexivity. Qed.
Lemma hi64_lt r : r < 2 ^ 128 -> hi64 r < 2 ^ 64.
Proof. intro H. rewrite hi64_def. apply N.div_lt_upper_bound; [discriminate|]. change (2 ^ 64 * 2 ^ 64) with (2 ^ 128). exact H. Qed.

Definition frel (d k r : N) : Prop := r mod 2 ^ 64 = (k + r / 2 ^ 64 * d) mod prm.
Lemma achk_auth_ok d : d < prm -> forall keys recv i, length keys = length recv -> Forall (fun k => k < prm) keys -> Forall (fun r => r < 2 ^ 128) recv ->
  match achk_auth d i keys recv with
  | None => Forall2 (frel d) keys recv
  | Some j => (i <= j)%nat /\ (j - i < length keys)%nat /\ ~ frel d (nth (j - i) keys 0) (nth (j - i) recv 0) /\
      forall t, (t < j - i)%nat -> frel d (nth t keys 0) (nth t recv 0)
  end.
Proof.
  intro Hd. induction keys as [|k keys IH]; intros [|r recv] i L F G; try discriminate; [constructor|].
  inversion_clear F as [|? ? Hk F']. inversion_clear G as [|? ? Hr G']. cbn [achk_auth].
  assert (P64 : PR < 2 ^ 64) by reflexivity. rewrite prm_PR in Hd, Hk.
  rewrite dbg_mac_ok; [|now apply hi64_lt|exact Hd|lia]. rewrite lo64_def, hi64_def, <- prm_PR.
  fold (frel d k r). destruct (N.eqb_spec (r mod 2 ^ 64) ((k + r / 2 ^ 64 * d) mod prm)) as [E|E].
  - specialize (IH recv (S i) ltac:(cbn [length] in L; lia) F' G'). destruct (achk_auth d (S i) keys recv) as [j|].
    + destruct IH as (A & B & C & D). destruct (j - i)%nat as [|t] eqn:Et; [lia|]. replace (j - S i)%nat with t in * by lia.
      split; [lia|]. split; [cbn [length]; lia|]. split; [exact C|]. intros [|s] Hs; [exact E|]. apply D. lia.
    + constructor; assumption.
  - rewrite Nat.sub_diag. repeat split; [lia|cbn [length]; lia|exact E|lia].
Qed.
Lemma achk_mul_ok d : d < prm -> forall keys recv, length keys = length recv ->
  Forall (fun k => snd k < prm) keys ->
  Forall (fun r => fst (fst r) / 2 ^ 64 < prm /\ snd (fst r) / 2 ^ 64 < prm /\ snd r < 2 ^ 128) recv ->
  (achk_mul d keys recv = None <->
   Forall2 (fun k r => let '(a, b, c) := r in
     c / 2 ^ 64 = (a / 2 ^ 64 * (b / 2 ^ 64)) mod prm /\ frel d (snd k) c) keys recv).
Proof.
  intro Hd. induction keys as [|[[ka kb] kc] keys IH]; intros [|[[a b] c] recv] L F G; try discriminate; [cbn; split; auto|].
  inversion_clear F as [|? ? Hk F']. inversion_clear G as [|? ? (Ha & Hb & Hc) G']. cbn [fst snd] in *. cbn [length] in L.
  specialize (IH recv ltac:(lia) F' G'). cbn [achk_mul]. cbv zeta. rewrite prm_PR in Hd, Hk, Ha, Hb.
  assert (P64 : PR < 2 ^ 64) by reflexivity. assert (PP : PR * PR < 2 ^ 122 - 1) by reflexivity. assert (PW : 2 ^ 122 - 1 < W128) by reflexivity.
  assert (B : hi64 a * hi64 b < 2 ^ 122 - 1) by (rewrite !hi64_def; apply N.le_lt_trans with (PR * PR); [apply N.mul_le_mono; lia|exact PP]).
  assert (E : mod128 (mul128 (hi64 a) (hi64 b)) PR = (a / 2 ^ 64 * (b / 2 ^ 64)) mod prm).
  { unfold mul128. rewrite N.mod_small by lia. now rewrite mod128_correct. }
  rewrite E. set (q := (a / 2 ^ 64 * (b / 2 ^ 64)) mod prm) in *. assert (Hq : q < PR) by (apply N.mod_lt; discriminate).
  pose proof (dbg_mac_ok d q kc ltac:(lia) Hd ltac:(lia)) as M. unfold dbg_mac in M. cbv zeta in M. rewrite M. rewrite hi64_def, lo64_def, <- prm_PR.
  destruct (N.eqb_spec q (c / 2 ^ 64)) as [E1|E1]; cbn [negb].
  - destruct (N.eqb_spec ((kc + q * d) mod prm) (c mod 2 ^ 64)) as [E2|E2]; cbn [negb].
    + rewrite IH. split; [|intro X; now inversion_clear X]. intro X. constructor; [|exact X]. split; [now symmetry|]. unfold frel. cbn [snd]. now rewrite <- E1.
    + split; [discriminate|]. intro X. inversion_clear X as [|? ? ? ? X0 X']. destruct X0 as [X1 X2]. exfalso. apply E2. unfold frel in X2. cbn [snd] in X2. now rewrite X2, <- E1.
  - split; [discriminate|]. intro X. inversion_clear X as [|? ? ? ? X0 X']. destruct X0 as [X1 X2]. exfalso. apply E1. symmetry. exact X1.
Qed.
Lemma cchk_ok d : d < prm -> forall a b c i, length a = length b -> length b = length c ->
  Forall (fun x => x < 2 ^ 64) a -> Forall (fun x => x < prm) c ->
  (cchk_triple d i a b c = None <->
   forall j, (j < length a)%nat -> nth j b 0 = (nth j c 0 + nth j a 0 * d) mod prm).
Proof.
  intro Hd. induction a as [|x a IH]; intros [|y b] [|k c] i L1 L2 F G; try discriminate; [cbn; split; [lia|auto]|].
  inversion_clear F as [|? ? Hx F']. inversion_clear G as [|? ? Hk G']. cbn [length] in *. cbn [cchk_triple]. cbv zeta.
  assert (P64 : PR < 2 ^ 64) by reflexivity. rewrite prm_PR in Hd, Hk.
  pose proof (dbg_mac_ok d x k Hx Hd ltac:(lia)) as M. unfold dbg_mac in M. cbv zeta in M. rewrite M, <- prm_PR.
  destruct (N.eqb_spec ((k + x * d) mod prm) y) as [E|E].
  - rewrite (IH b c (S i)) by (auto; lia). split.
    + intros I [|j] Hj; [now symmetry|]. apply I. lia.
    + intros I j Hj. apply (I (S j)). lia.
  - split; [discriminate|]. intro I. exfalso. apply E. symmetry. apply (I 0%nat). lia.
Qed.
Lemma tchk_nodes_ok pos : forall v s i, length v = length s ->
  match tchk_nodes pos i v s with
  | None => forall j, (j < length v)%nat -> (i + j <> pos)%nat -> nth j v 0 = nth j s 0
  | Some t => (i <= t < i + length v)%nat /\ t <> pos /\ nth (t - i) v 0 <> nth (t - i) s 0
  end.
Proof.
  induction v as [|x v IH]; intros [|y s] i L; try discriminate; [cbn; lia|]. cbn [length] in L. cbn [tchk_nodes].
  specialize (IH s (S i) ltac:(lia)).
  assert (Z : forall (Q : i = pos \/ x = y),
    match tchk_nodes pos (S i) v s with
    | None => forall j, (j < length (x :: v))%nat -> (i + j <> pos)%nat -> nth j (x :: v) 0 = nth j (y :: s) 0
    | Some t => (i <= t < i + length (x :: v))%nat /\ t <> pos /\ nth (t - i) (x :: v) 0 <> nth (t - i) (y :: s) 0
    end).
  { intro Q. destruct (tchk_nodes pos (S i) v s) as [t|].
    - destruct IH as (A & B & C). cbn [length]. split; [lia|]. split; [exact B|]. replace (t - i)%nat with (S (t - S i)) by lia. exact C.
    - intros [|j] Hj Hp; [cbn; destruct Q; [lia|assumption]|]. cbn [nth]. apply IH; cbn [length] in Hj; lia. }
  destruct (Nat.eqb_spec i pos); [now apply Z; left|]. destruct (N.eqb_spec x y) as [E|E]; [now apply Z; right|].
  rewrite Nat.sub_diag. cbn [length nth]. repeat split; auto; lia.
Qed.
Lemma tchk_ok v s pos d beta x y z : length v = length s -> (pos < length v)%nat -> d < prm -> beta < prm -> x < prm -> y < prm -> Forall (fun k => k < prm) s ->
  (tchk v s pos d beta x y z = TPass <->
   (forall j, (j < length v)%nat -> j <> pos -> nth j v 0 = nth j s 0) /\ nth pos v 0 = (nth pos s 0 + beta * d) mod prm /\ z = (y + x * d) mod prm).
Proof.
  intros L Hp Hd Hb Hx Hy F. rewrite prm_PR in Hd, Hb, Hx, Hy. assert (P64 : PR < 2 ^ 64) by reflexivity.
  assert (Hs : nth pos s 0 < PR). { rewrite Forall_forall in F. apply F, nth_In. lia. }
  pose proof (dbg_mac_ok d beta (nth pos s 0) ltac:(lia) Hd ltac:(lia)) as M1. pose proof (dbg_mac_ok d x y ltac:(lia) Hd ltac:(lia)) as M2.
  unfold dbg_mac, mul128 in M1, M2. cbv zeta in M1, M2.
  unfold tchk. cbv zeta. unfold mul128. rewrite (N.mul_comm d beta), (N.mul_comm d x), M1, M2, <- prm_PR. pose proof (tchk_nodes_ok pos v s 0 L) as T.
  destruct (tchk_nodes pos 0 v s) as [t|].
  - split; [discriminate|]. intros (A & _). destruct T as (T1 & T2 & T3). rewrite Nat.sub_0_r in T3. exfalso. apply T3, A; lia.
  - destruct (N.eqb_spec ((nth pos s 0 + beta * d) mod prm) (nth pos v 0)) as [E1|E1]; cbn [negb]; [|split; [discriminate|]; intros (_ & B & _); exfalso; now apply E1].
    destruct (N.eqb_spec ((y + x * d) mod prm) z) as [E2|E2]; cbn [negb]; [|split; [discriminate|]; intros (_ & _ & C); exfalso; now apply E2].
    split; [|reflexivity]. intros _. split; [|split; now symmetry]. intros j Hj Hn. apply T; [exact Hj|exact Hn].
Qed.

(** * mu *)
Lemma share_split d blk key : share_ok d blk key -> brel blk (toF (blk mod 2 ^ 64), toF (blk / 2 ^ 64)) /\ krel d key (toF (blk mod 2 ^ 64), toF (blk / 2 ^ 64)).
Proof.
  unfold share_ok. cbv zeta. intros (Hx & Hm & Hk & E). split.
  - exists (blk / 2 ^ 64), (blk mod 2 ^ 64). split; [exact Hx|]. split; [exact Hm|]. split; [|reflexivity]. unfold mkblock. change W64 with (2 ^ 64). rewrite N.mul_comm. apply N.div_mod. discriminate.
  - split; [exact Hk|]. unfold kf. cbn [fst snd]. rewrite E. rewrite prm_PR, toF_mod, toF_add, toF_mul. ring.
Qed.
Lemma brel_val blk mx v : brel blk mx -> snd mx = toF v -> v < PR -> blk / 2 ^ 64 = v.
Proof. intros H E Hv. destruct (b_hi _ _ H) as [L T]. rewrite hi64_def in *. apply toF_inj; auto. now rewrite T, E. Qed.

Lemma Forall2_impl' {A B} (P Q : A -> B -> Prop) l l' : (forall a b, P a b -> Q a b) -> Forall2 P l l' -> Forall2 Q l l'.
Proof. intros H F. induction F; constructor; auto. Qed.
Lemma share_checks d keys blocks : d < prm -> Forall2 (share_ok d) blocks keys -> achk_auth d 0 keys blocks = None.
Proof.
  intro Hd. generalize 0%nat. intros i F. revert i. assert (P64 : PR < 2 ^ 64) by reflexivity. rewrite prm_PR in Hd.
  induction F as [|r k rs ks H _ IH]; intro i; [reflexivity|]. cbn [achk_auth]. destruct H as (Hx & Hm & Hk & E). rewrite prm_PR in *.
  rewrite dbg_mac_ok; [|rewrite hi64_def; lia|exact Hd|lia]. rewrite lo64_def, hi64_def, <- E, N.eqb_refl. apply IH.
Qed.
Lemma blk_lt q t : q < 2 ^ 64 -> t < 2 ^ 64 -> q * 2 ^ 64 + t < 2 ^ 128.
Proof. change (2 ^ 128) with (2 ^ 64 * 2 ^ 64). generalize (2 ^ 64). intros W Hq Ht. nia. Qed.
