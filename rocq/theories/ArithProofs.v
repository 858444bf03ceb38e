From Coq Require Import NArith List Bool Arith Lia Ring.
From Verif Require Import Word WordProofs FpModel FpProofs PolyRoots ListUtil Prime61 ArithModel ArithSpec.
Import ListNotations.
Local Open Scope N_scope.
Ltac Zify.zify_post_hook ::= idtac.
Add Ring fp_ring : fp_rt.

Lemma prm_PR : prm = PR. Proof. reflexivity. Qed.
Lemma PR_lt_W64 : PR < W64. Proof. reflexivity. Qed.

(** * Canonical results of the word operations *)
Lemma am_lt a b : a < PR -> b <= PR -> add_mod a b < PR.
Proof. intros. rewrite add_mod_correct by lia. apply mod_PR_lt. Qed.
Lemma am_lt' a b : a <= PR -> b < PR -> add_mod a b < PR.
Proof. intros. rewrite add_mod_correct by lia. apply mod_PR_lt. Qed.
Lemma am_F a b : a <= PR -> b <= PR -> toF (add_mod a b) = padd (toF a) (toF b).
Proof. intros. apply toF_add_mod. unfold PR, W64 in *. lia. Qed.
Lemma mm_lt a b : a <= PR -> b <= PR -> mult_mod a b < PR.
Proof. intros. rewrite mult_mod_ok by lia. apply mod_PR_lt. Qed.
Lemma mm_F a b : a <= PR -> b <= PR -> toF (mult_mod a b) = pmul (toF a) (toF b).
Proof. intros. rewrite mult_mod_ok by lia. now rewrite toF_mod, toF_mul. Qed.
Lemma sub_PR b : b <= PR -> sub64 PR b = PR - b.
Proof. intro. apply sub64_small; [easy|reflexivity]. Qed.
Lemma sub_F b : b <= PR -> toF (sub64 PR b) = popp (toF b).
Proof. intro. rewrite sub_PR by easy. now apply toF_PR_sub. Qed.
Lemma sub_le b : b <= PR -> sub64 PR b <= PR.
Proof. intro. rewrite sub_PR by easy. lia. Qed.
Lemma lo_id a : a <= PR -> lo64 a = a.
Proof. intro. unfold lo64. apply N.mod_small. unfold PR, W64 in *. lia. Qed.
Lemma W64_128 : W64 < W128. Proof. reflexivity. Qed.
Lemma sub128_PR b : b <= PR -> lo64 (sub128 PR b) = PR - b.
Proof. intro. rewrite sub128_small by (try easy; reflexivity). apply lo_id. lia. Qed.
Lemma fsub_F a b : toF (fsub a b) = psub (toF a) (toF b).
Proof.
  unfold fsub. rewrite prm_PR, toF_mod, toF_add.
  rewrite toF_PR_sub by (apply N.lt_le_incl, mod_PR_lt). rewrite toF_mod. reflexivity.
Qed.
Lemma fsub_lt a b : fsub a b < PR.
Proof. apply mod_PR_lt. Qed.

(** * Authenticated pairs: (mac, value) in the field; key of the verifier *)
Definition pair := (fp * fp)%type.
Definition kf (d : N) (mx : pair) : fp := psub (fst mx) (pmul (snd mx) (toF d)).
Definition krel (d : N) (key : N) (mx : pair) : Prop := key < PR /\ toF key = kf d mx.
Definition brel (blk : N) (mx : pair) : Prop :=
  exists x m, x < PR /\ m < PR /\ blk = mkblock x m /\ mx = (toF m, toF x).
Definition pneg (a : fp) := popp a.

Section Ver.
  Variable d : N.
  Hypothesis Hd : d < PR.
  Lemma k_zero : krel d 0 (p0, p0).
  Proof. split; [reflexivity|]. rewrite toF_0. unfold kf. cbn. ring. Qed.
  Lemma k_input key mx w : krel d key mx -> w <= PR ->
    krel d (a_ver_input d key w) (fst mx, psub (snd mx) (toF w)).
  Proof.
    intros [Hk E] Hw. unfold a_ver_input. cbv zeta. split.
    - apply am_lt; [easy|]. apply N.lt_le_incl, mm_lt; lia.
    - rewrite am_F; [|lia|apply N.lt_le_incl, mm_lt; lia]. rewrite mm_F, E by lia. unfold kf. cbn [fst snd]. ring.
  Qed.
  Lemma k_mul key mx w : krel d key mx -> w <= PR ->
    krel d (a_ver_mul d key w) (fst mx, psub (snd mx) (toF w)).
  Proof. exact (k_input key mx w). Qed.
  Lemma k_add a b x y : krel d a x -> krel d b y ->
    krel d (a_ver_add a b) (padd (fst x) (fst y), padd (snd x) (snd y)).
  Proof.
    intros [Ha Ea] [Hb Eb]. unfold a_ver_add.
    rewrite add128_small by (unfold PR, W128 in *; lia).
    rewrite mod128_correct by (change (2 ^ 122 - 1) with 5316911983139663491615228241121378303; unfold PR in *; lia).
    split; [apply mod_PR_lt|]. rewrite toF_mod, toF_add, Ea, Eb. unfold kf. cbn [fst snd]. ring.
  Qed.
  Lemma k_mulc a c x : krel d a x -> c <= PR ->
    krel d (a_ver_mulc a c) (pmul (fst x) (toF c), pmul (snd x) (toF c)).
  Proof.
    intros [Ha Ea] Hc. unfold a_ver_mulc. split; [apply mm_lt; lia|].
    rewrite mm_F, Ea by lia. unfold kf. cbn [fst snd]. ring.
  Qed.
  Lemma k_sub a b x y : krel d a x -> krel d b y ->
    krel d (a_ver_sub a b) (psub (fst x) (fst y), psub (snd x) (snd y)).
  Proof.
    intros [Ha Ea] [Hb Eb]. unfold a_ver_sub. cbv zeta. rewrite sub128_PR by lia.
    split; [apply am_lt'; lia|]. rewrite am_F by lia. rewrite toF_PR_sub, Ea, Eb by lia.
    unfold kf. cbn [fst snd]. ring.
  Qed.
  Lemma k_addc a c x : krel d a x -> c <= PR ->
    krel d (a_ver_addc d a c) (fst x, padd (snd x) (toF c)).
  Proof.
    intros [Ha Ea] Hc. unfold a_ver_addc. cbv zeta. pose proof (mm_lt c d Hc ltac:(lia)).
    rewrite sub128_PR by lia. split; [apply am_lt; lia|].
    rewrite am_F by lia. rewrite toF_PR_sub, mm_F, Ea by lia. unfold kf. cbn [fst snd]. ring.
  Qed.
  Lemma k_add2 a b x y : krel d a x -> krel d b y ->
    krel d (a_ver_add2 a b) (padd (fst x) (fst y), padd (snd x) (snd y)).
  Proof.
    intros [Ha Ea] [Hb Eb]. unfold a_ver_add2. split; [apply am_lt; lia|].
    rewrite am_F, Ea, Eb by lia. unfold kf. cbn [fst snd]. ring.
  Qed.
  Lemma k_pub pm a : pm < PR -> a <= PR -> krel d (a_ver_pub d pm a) (toF pm, toF a).
  Proof.
    intros Hp Ha. unfold a_ver_pub. cbv zeta. pose proof (mm_lt d a ltac:(lia) Ha).
    rewrite sub_PR by lia. split; [apply am_lt'; lia|].
    rewrite am_F by lia. rewrite toF_PR_sub, mm_F by lia. unfold kf. cbn [fst snd]. ring.
  Qed.
  Lemma k_vole pU pMac i : krel d (vole_key pU pMac d i) (toF (pMac i), toF (pU i)).
  Proof. unfold vole_key. split; [apply fsub_lt|]. rewrite fsub_F, toF_mul. reflexivity. Qed.

  (** * One item of a check: B = A0 - A1*d + E*d^2 *)
  Definition item := (fp * fp * fp)%type.
  Definition iA0 (t : item) : fp := fst (fst t).
  Definition iA1 (t : item) : fp := snd (fst t).
  Definition iE (t : item) : fp := snd t.
  Definition Bof (t : item) : fp :=
    padd (psub (iA0 t) (pmul (iA1 t) (toF d))) (pmul (iE t) (pmul (toF d) (toF d))).
  Definition itrel (v : N) (t : item) : Prop := v < PR /\ toF v = Bof t.
  Definition mul_item (l r o : pair) : item :=
    (pmul (fst l) (fst r),
     psub (padd (pmul (snd l) (fst r)) (pmul (snd r) (fst l))) (fst o),
     psub (pmul (snd l) (snd r)) (snd o)).
  Lemma it_mul kl kr ko l r o : krel d kl l -> krel d kr r -> krel d ko o ->
    itrel (a_ver_term d (kl, kr, ko)) (mul_item l r o).
  Proof.
    intros [H1 E1] [H2 E2] [H3 E3]. unfold a_ver_term. rewrite !lo_id by lia.
    pose proof (mm_lt kl kr ltac:(lia) ltac:(lia)). pose proof (mm_lt ko d ltac:(lia) ltac:(lia)).
    split; [apply am_lt; lia|]. rewrite am_F, !mm_F by lia. rewrite E1, E2, E3.
    unfold Bof, mul_item, kf, iA0, iA1, iE. cbn [fst snd]. ring.
  Qed.
End Ver.

(** * Prover side *)
Lemma b_zero : brel 0 (p0, p0).
Proof. exists 0, 0. repeat split. Qed.
Lemma b_lo blk mx : brel blk mx -> lo64 blk < PR /\ toF (lo64 blk) = fst mx.
Proof.
  intros (x & m & Hx & Hm & -> & ->). rewrite lo64_mk by (unfold PR, W64 in *; lia). now split.
Qed.
Lemma b_hi blk mx : brel blk mx -> hi64 blk < PR /\ toF (hi64 blk) = snd mx.
Proof.
  intros (x & m & Hx & Hm & -> & ->). rewrite hi64_mk by (unfold PR, W64 in *; lia). now split.
Qed.
Lemma b_mk x m : x < PR -> m < PR -> brel (mkblock x m) (toF m, toF x).
Proof. intros. exists x, m. auto. Qed.
Ltac lt64 := unfold PR, W64 in *; lia.
Lemma b_add a b x y : brel a x -> brel b y ->
  brel (a_prv_add a b) (padd (fst x) (fst y), padd (snd x) (snd y)).
Proof.
  intros Ba Bb. destruct (b_lo _ _ Ba) as [La Ea], (b_hi _ _ Ba) as [Ga Fa].
  destruct (b_lo _ _ Bb) as [Lb Eb], (b_hi _ _ Bb) as [Gb Fb].
  unfold a_prv_add. cbv zeta.
  rewrite !add128_small by (unfold PR, W128 in *; lia).
  rewrite !mod128_correct by (change (2 ^ 122 - 1) with 5316911983139663491615228241121378303; unfold PR in *; lia).
  set (u := (hi64 a + hi64 b) mod PR). set (v := (lo64 a + lo64 b) mod PR).
  assert (Hu : u < PR) by apply mod_PR_lt. assert (Hv : v < PR) by apply mod_PR_lt.
  replace (N.lxor (N.shiftl u 64 mod W128) v) with (mkblock u v).
  - rewrite <- Ea, <- Eb, <- Fa, <- Fb, <- !toF_add, <- (toF_mod (lo64 a + _)), <- (toF_mod (hi64 a + _)).
    now apply b_mk.
  - rewrite N.mod_small by (rewrite N.shiftl_mul_pow2; change (2 ^ 64) with W64; unfold PR, W64, W128 in *; lia).
    rewrite mkblock_lor by lt64. symmetry.
    rewrite N.lxor_comm, N.shiftl_mul_pow2, lxor_add_low by (change (2 ^ 64) with W64; lt64).
    rewrite <- N.shiftl_mul_pow2, N.lor_comm.
    rewrite N.lor_comm, <- mkblock_lor by lt64. unfold mkblock. rewrite N.shiftl_mul_pow2.
    change (2 ^ 64) with W64. lia.
Qed.
Lemma b_mulc a c x : brel a x -> c <= PR -> brel (a_prv_mulc a c) (pmul (fst x) (toF c), pmul (snd x) (toF c)).
Proof.
  intros (v & m & Hv & Hm & -> & ->) Hc. unfold a_prv_mulc. rewrite mult_mod_b_ok by lia.
  cbn [fst snd]. rewrite <- !toF_mul, <- (toF_mod (m * c)), <- (toF_mod (v * c)). apply b_mk; apply mod_PR_lt.
Qed.
Lemma b_sub a b x y : brel a x -> brel b y ->
  brel (a_prv_sub a b) (psub (fst x) (fst y), psub (snd x) (snd y)).
Proof.
  intros (v & m & Hv & Hm & -> & ->) (v' & m' & Hv' & Hm' & -> & ->). unfold a_prv_sub. cbv zeta.
  unfold mm_sub_epi64, prs. rewrite lanes2_mk by lt64. rewrite !sub_PR by lia.
  unfold mm_add_epi64. rewrite lanes2_mk by lt64. rewrite !add64_small by lt64.
  rewrite vec_mod_mk by lt64. cbn [fst snd].
  replace (psub (toF m) (toF m')) with (toF ((m + (PR - m')) mod PR))
    by (rewrite toF_mod, toF_add, toF_PR_sub by lia; ring).
  replace (psub (toF v) (toF v')) with (toF ((v + (PR - v')) mod PR))
    by (rewrite toF_mod, toF_add, toF_PR_sub by lia; ring).
  apply b_mk; apply mod_PR_lt.
Qed.
Lemma b_addc a c x : brel a x -> c <= PR -> brel (a_prv_addc a c) (fst x, padd (snd x) (toF c)).
Proof.
  intros (v & m & Hv & Hm & -> & ->) Hc. unfold a_prv_addc. cbv zeta.
  unfold mm_add_epi64. rewrite lanes2_mk by lt64. rewrite !add64_small by lt64.
  rewrite vec_mod_mk by lt64. cbn [fst snd]. rewrite N.add_0_r.
  rewrite <- toF_add, <- (toF_mod (v + c)), <- (toF_mod m). apply b_mk; apply mod_PR_lt.
Qed.
Lemma b_add2 a b x y : brel a x -> brel b y ->
  brel (a_prv_add2 a b) (padd (fst x) (fst y), padd (snd x) (snd y)).
Proof.
  intros (v & m & Hv & Hm & -> & ->) (v' & m' & Hv' & Hm' & -> & ->). unfold a_prv_add2.
  unfold mm_add_epi64. rewrite lanes2_mk by lt64. rewrite !add64_small by lt64.
  rewrite vec_mod_mk by lt64. cbn [fst snd].
  rewrite <- !toF_add, <- (toF_mod (m + _)), <- (toF_mod (v + _)). apply b_mk; apply mod_PR_lt.
Qed.
Lemma b_pub pm a : pm < PR -> a < PR -> brel (a_prv_pub pm a) (toF pm, toF a).
Proof. intros. now apply b_mk. Qed.
(** the input step: new block and word; the word is the field difference *)
Lemma b_input mac mx w : brel mac mx -> w < PR ->
  brel (fst (a_prv_input mac w)) (fst mx, toF w) /\
  snd (a_prv_input mac w) < PR /\ toF (snd (a_prv_input mac w)) = psub (snd mx) (toF w).
Proof.
  intros B Hw. destruct (b_lo _ _ B) as [L E], (b_hi _ _ B) as [G F]. unfold a_prv_input. cbv zeta. cbn [fst snd].
  split; [rewrite <- E; now apply b_mk|]. pose proof (sub_le w ltac:(lia)).
  split; [apply am_lt; lia|]. rewrite am_F, sub_F by lia. rewrite F. ring.
Qed.
Lemma b_mul mac mx Ma Mb a b : brel mac mx -> brel Ma a -> brel Mb b ->
  brel (fst (a_prv_mul mac Ma Mb)) (fst mx, pmul (snd a) (snd b)) /\
  snd (a_prv_mul mac Ma Mb) < PR /\
  toF (snd (a_prv_mul mac Ma Mb)) = psub (snd mx) (pmul (snd a) (snd b)).
Proof.
  intros B Ba Bb. destruct (b_hi _ _ Ba) as [Ga Fa], (b_hi _ _ Bb) as [Gb Fb].
  pose proof (mm_lt (hi64 Ma) (hi64 Mb) ltac:(lia) ltac:(lia)) as Hm.
  pose proof (b_input mac mx (mult_mod (hi64 Ma) (hi64 Mb)) B Hm) as H.
  rewrite mm_F, Fa, Fb in H by lia. exact H.
Qed.
Lemma p_terms gl gr go l r o : brel gl l -> brel gr r -> brel go o ->
  let t := a_prv_terms (gl, gr, go) in
  fst t < PR /\ snd t < PR /\ toF (fst t) = iA0 (mul_item l r o) /\ toF (snd t) = iA1 (mul_item l r o).
Proof.
  intros Bl Br Bo. destruct (b_lo _ _ Bl) as [L1 E1], (b_hi _ _ Bl) as [G1 F1].
  destruct (b_lo _ _ Br) as [L2 E2], (b_hi _ _ Br) as [G2 F2]. destruct (b_lo _ _ Bo) as [L3 E3].
  unfold a_prv_terms. cbv zeta. cbn [fst snd].
  pose proof (mm_lt (hi64 gl) (lo64 gr) ltac:(lia) ltac:(lia)).
  pose proof (mm_lt (hi64 gr) (lo64 gl) ltac:(lia) ltac:(lia)).
  pose proof (am_lt (mult_mod (hi64 gl) (lo64 gr)) (mult_mod (hi64 gr) (lo64 gl)) ltac:(lia) ltac:(lia)).
  pose proof (sub_le (lo64 go) ltac:(lia)).
  split; [apply mm_lt; lia|]. split; [apply am_lt; lia|].
  unfold mul_item, iA0, iA1. cbn [fst snd]. split.
  - now rewrite mm_F, E1, E2 by lia.
  - rewrite !am_F, !mm_F, sub_F by lia. rewrite F1, F2, E1, E2, E3. ring.
Qed.

(** * Dot products *)
Definition fdot (c l : list fp) : fp :=
  fold_right padd p0 (map (fun ab => pmul (fst ab) (snd ab)) (combine c l)).
Lemma fdot_cons a c x l : fdot (a :: c) (x :: l) = padd (pmul a x) (fdot c l).
Proof. reflexivity. Qed.
Definition clt (l : list N) : Prop := Forall (fun x => x < PR) l.
Lemma a_acc_ok xs : forall chi acc, acc < PR -> clt xs -> clt chi ->
  a_acc acc xs chi < PR /\ toF (a_acc acc xs chi) = padd (toF acc) (fdot (map toF chi) (map toF xs)).
Proof.
  induction xs as [|x xs IH]; intros [|c chi] acc Ha Hx Hc; cbn [a_acc map];
    try (split; [easy|]; unfold fdot; cbn; try ring; destruct (toF c); try ring; ring).
  inversion_clear Hx. inversion_clear Hc. pose proof (mm_lt x c ltac:(lia) ltac:(lia)).
  destruct (IH chi (add_mod acc (mult_mod x c))) as [H4 H5]; auto; [apply am_lt; lia|].
  split; [easy|]. rewrite H5, fdot_cons, am_F, mm_F by lia. ring.
Qed.
Lemma inn_ok chi : forall xs acc, acc < PR -> clt xs -> clt chi ->
  inn_prdt_acc acc chi xs < PR /\ toF (inn_prdt_acc acc chi xs) = padd (toF acc) (fdot (map toF chi) (map toF xs)).
Proof.
  induction chi as [|c chi IH]; intros [|x xs] acc Ha Hx Hc; cbn [inn_prdt_acc map];
    try (split; [easy|]; unfold fdot; cbn; ring).
  inversion_clear Hx. inversion_clear Hc. pose proof (mm_lt c x ltac:(lia) ltac:(lia)).
  destruct (IH xs (add_mod acc (mult_mod c x))) as [H4 H5]; auto; [apply am_lt; lia|].
  split; [easy|]. rewrite H5, fdot_cons, am_F, mm_F by lia. ring.
Qed.
Lemma tail_lt seed : seed < PR -> forall k prev, prev < PR -> clt (coeff_tail prev seed k).
Proof.
  intro H. induction k as [|k IH]; intros prev Hp; cbn [coeff_tail]; constructor; [apply mm_lt; lia|].
  apply IH. apply mm_lt; lia.
Qed.
Lemma chi_lt seed n : seed < PR -> clt (uni_hash_coeff_gen seed n).
Proof. intro H. constructor; [easy|]. now apply tail_lt. Qed.

Lemma fdot_Bof d c : forall its,
  fdot c (map (Bof d) its) =
  padd (psub (fdot c (map iA0 its)) (pmul (fdot c (map iA1 its)) (toF d)))
       (pmul (fdot c (map iE its)) (pmul (toF d) (toF d))).
Proof.
  induction c as [|a c IH]; intros [|t its]; cbn [map]; try (unfold fdot; cbn; ring).
  rewrite !fdot_cons, IH. unfold Bof. ring.
Qed.
