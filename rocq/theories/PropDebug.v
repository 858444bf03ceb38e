(** Property C47: the self-check functions accept exactly the share relation; the helper compute_mu keeps it. *)
From Coq Require Import NArith List Bool Arith Lia Ring.
From Verif Require Import Word FpModel FpProofs Prime61 BoolModel BoolProofs BoolAlg BoolSpec BoolThms2 ArithModel ArithSpec ArithProofs ArithThms4 TreeModel TreeSpec VoleModel VoleSpec DebugModel DebugProofs DebugSession.
From Verif Require PropBool PropArith PropVole.
Import ListNotations.
Local Open Scope N_scope.
Add Ring fp_ring : fp_rt.

(** ** bits: accepted iff every received bit is the mac's lowest bit and the mac is the key, its lowest bit cleared, plus
    bit times delta; an accepted run clears the lowest bit of the caller's keys *)
Definition bit_auth (d key mac : N) (x : bool) : Prop := x = N.odd mac /\ N.lxor (N.clearbit key 0) (if x then d else 0) = mac.
Theorem C47_bit_check : forall d keys recv, length keys = length recv -> Forall (fun k => k < 2 ^ 128) keys ->
  ((exists ks, bchk_auth d keys recv = DOk ks) <-> Forall2 (fun k r => bit_auth d k (fst r) (snd r)) keys recv) /\
  (forall ks, bchk_auth d keys recv = DOk ks -> ks = map (fun k => N.clearbit k 0) keys).
Proof.
  intros d keys recv L F. destruct (bchk_auth_ok d keys recv L F) as [A B]. split; [split|].
  - intros [ks E]. now apply (A ks).
  - exact B.
  - intros ks E. now apply (A ks).
Qed.
(** for even keys, as in every session, this is the share relation of the engine *)
Theorem C47_bit_relation : forall d key mac x, valid_delta d -> N.odd key = false ->
  (bit_auth d key mac x <-> x = N.odd mac /\ key = N.lxor mac (if x then d else 0)).
Proof.
  intros d key mac x [Hd H1] Hk. unfold bit_auth. assert (E : N.clearbit key 0 = key).
  { apply N.bits_inj. intro i. rewrite N.clearbit_eqb. destruct (N.eqb_spec 0 i) as [<-|]; [now rewrite N.bit0_odd, Hk|]. now rewrite andb_true_r. }
  rewrite E. split; intros [-> X]; (split; [reflexivity|]).
  - rewrite <- X at 1. now rewrite N.lxor_assoc, N.lxor_nilpotent, N.lxor_0_r.
  - rewrite X. now rewrite N.lxor_assoc, N.lxor_nilpotent, N.lxor_0_r.
Qed.
(** every wire of an honest session passes, the keys are unchanged, and the tested bits are the plain wire values *)
Theorem C47_bit_session : forall r0 r1 pM threads csz seeds c p d,
  valid_delta d -> prv_exec r0 r1 pM threads csz seeds c = Some p ->
  exists v, ver_exec r0 r1 (cot_key pM d) d threads csz seeds
              (fun i => nth i (p_bits p) false) (fun k => nth k (p_msgs p) (0, 0)) c = Some v /\
    bchk_auth d (v_wires v) (map (fun m => (m, N.odd m)) (p_wires p)) = DOk (v_wires v) /\
    map N.odd (p_wires p) = fst (plain_eval [] [] c).
Proof.
  intros r0 r1 pM threads csz seeds c p d Hd Hp. destruct (honest_wires r0 r1 pM threads csz seeds c p d Hd Hp) as (v & Ev & Ew & Sm & Ep).
  exists v. split; [exact Ev|]. split; [|exact Ep]. destruct Hd as [Hlt H1]. rewrite N.bit0_odd in H1.
  assert (K : forall m, m < 2 ^ 128 -> N.lxor m (if N.odd m then d else 0) < 2 ^ 128) by (intros m Hm; apply lxor128; [exact Hm|]; now destruct (N.odd m)).
  assert (O : forall m, N.odd (N.lxor m (if N.odd m then d else 0)) = false).
  { intro m. rewrite <- N.bit0_odd, N.lxor_spec, !N.bit0_odd. destruct (N.odd m) eqn:E; [now rewrite H1|]. reflexivity. }
  assert (C : forall m, N.clearbit (N.lxor m (if N.odd m then d else 0)) 0 = N.lxor m (if N.odd m then d else 0)).
  { intro m. apply N.bits_inj. intro i. rewrite N.clearbit_eqb. destruct (N.eqb_spec 0 i) as [<-|]; [rewrite N.bit0_odd, O; reflexivity|]. now rewrite andb_true_r. }
  assert (L : length (v_wires v) = length (map (fun m => (m, N.odd m)) (p_wires p))) by (now rewrite Ew, !map_length).
  assert (F : Forall (fun k => k < 2 ^ 128) (v_wires v)).
  { rewrite Ew. apply Forall_map. eapply Forall_impl; [|exact Sm]. exact K. }
  destruct (C47_bit_check d _ _ L F) as [A B]. destruct (proj2 A) as [ks Eks].
  - rewrite Ew. clear -C. induction (p_wires p) as [|m l IH]; [constructor|]. cbn [map]. constructor; [|exact IH]. cbn [fst snd].
    split; [reflexivity|]. rewrite C. now rewrite N.lxor_assoc, N.lxor_nilpotent, N.lxor_0_r.
  - rewrite Eks. f_equal. rewrite (B ks Eks), Ew, map_map. apply map_ext. exact C.
Qed.
(** AND triples: accepted iff all three macs are authenticated and the product bit is right *)
Theorem C47_and_check : forall d keys recv, length keys = length recv ->
  Forall (fun k => fst (fst k) < 2 ^ 128 /\ snd (fst k) < 2 ^ 128 /\ snd k < 2 ^ 128) keys ->
  (bchk_and d keys recv = None <->
   Forall2 (fun k r => let '(a, b, c) := k in let '(ma, mb, mc) := r in
     N.odd mc = N.odd ma && N.odd mb /\ bit_auth d a ma (N.odd ma) /\ bit_auth d b mb (N.odd mb) /\ bit_auth d c mc (N.odd mc)) keys recv).
Proof.
  intros d keys recv L F. rewrite (bchk_and_ok d keys recv L F). unfold bit_auth.
  split; intro G; (eapply Forall2_impl'; [|exact G]); intros [[a b] c] [[ma mb] mc]; cbn; tauto.
Qed.

(** ** field elements: for every received block, canonical or not, accepted iff mac = key + value * delta modulo p; the index
    reported is the first that fails *)
Definition field_auth (d key blk : N) : Prop := blk mod 2 ^ 64 = (key + blk / 2 ^ 64 * d) mod prm.
Theorem C47_field_check : forall d keys recv, d < prm -> length keys = length recv ->
  Forall (fun k => k < prm) keys -> Forall (fun r => r < 2 ^ 128) recv ->
  (achk_auth d 0 keys recv = None <-> Forall2 (field_auth d) keys recv) /\
  (forall i, achk_auth d 0 keys recv = Some i ->
     (i < length keys)%nat /\ ~ field_auth d (nth i keys 0) (nth i recv 0) /\
     forall t, (t < i)%nat -> field_auth d (nth t keys 0) (nth t recv 0)).
Proof.
  intros d keys recv Hd L F G. pose proof (achk_auth_ok d Hd keys recv 0 L F G) as X.
  destruct (achk_auth d 0 keys recv) as [j|]; [|split; [split; auto|discriminate]].
  rewrite Nat.sub_0_r in X. destruct X as (_ & A & B & C). split; [|now intros i [= <-]]. split; [discriminate|].
  intro Y. exfalso. apply B. clear -Y A. revert j A. induction Y as [|k r ks rs H _ IH]; intros j A; [cbn in A; lia|].
  destruct j as [|j]; [exact H|]. cbn [nth]. apply IH. cbn [length] in A. lia.
Qed.
Theorem C47_field_session : forall pub_mac pU pMac threads csz psz seeds pseeds (c : list agate) p d,
  vole_ok pU pMac -> pub_mac < prm -> (forall k, pseeds k < 2 ^ 64) -> Forall wf_honest c ->
  ap_exec pub_mac (vole_block pU pMac) threads csz psz seeds pseeds c = Some p -> d < prm ->
  exists v, av_exec pub_mac (vole_key pU pMac d) d threads csz psz seeds pseeds
      (fun k => nth k (ap_words p) 0) (fun k => nth k (ap_msgs p) (0, 0)) (fun k => nth k (ap_pmsgs p) (0, 0)) c = Some v /\
    achk_auth d 0 (av_w v) (ap_w p) = None.
Proof.
  intros pub_mac pU pMac threads csz psz seeds pseeds c p d Hv Hpm Hps Hwf Ep Hd.
  destruct (session_complete pub_mac pU pMac threads csz psz seeds pseeds c p d Hv Hpm Hps Hwf Ep Hd) as (_ & _ & v & Ev & _ & F & _).
  exists v. split; [exact Ev|]. apply share_checks; assumption.
Qed.
(** the correlations handed out by the generator (C25) pass VoleTriple::check_triple, and it accepts nothing else *)
Theorem C47_triple_check : forall d keys blocks, d < prm ->
  Forall2 (fun k m => share_ok d m k) keys blocks -> vchk_triple d blocks keys = None.
Proof. intros d keys blocks Hd F. unfold vchk_triple. apply share_checks; [exact Hd|]. clear -F. induction F; constructor; auto. Qed.
Theorem C47_triple_check_only : forall d keys blocks, d < prm -> length keys = length blocks ->
  Forall (fun k => k < prm) keys -> Forall (fun r => r / 2 ^ 64 < prm) blocks ->
  vchk_triple d blocks keys = None -> Forall2 (fun k m => share_ok d m k) keys blocks.
Proof.
  intros d keys blocks Hd L F G E. assert (G' : Forall (fun r => r < 2 ^ 128) blocks).
  { eapply Forall_impl; [|exact G]. intros r Hr. cbv beta in Hr. pose proof (N.div_mod r (2 ^ 64) ltac:(discriminate)). pose proof (N.mod_lt r (2 ^ 64) ltac:(discriminate)).
    change (2 ^ 128) with (2 ^ 64 * 2 ^ 64). assert (prm < 2 ^ 64) by reflexivity. nia. }
  destruct (C47_field_check d keys blocks Hd L F G') as [[A _] _]. specialize (A E). clear -A F G.
  induction A as [|k r ks rs H _ IH]; [constructor|]. inversion_clear F as [|? ? Hk F']. inversion_clear G as [|? ? Hr G']. constructor; [|now apply IH].
  unfold share_ok. cbv zeta. split; [exact Hr|]. split; [rewrite H; apply N.mod_lt; discriminate|]. split; [exact Hk|exact H].
Qed.
Theorem C47_cope_check : forall d a b c, d < prm -> length a = length b -> length b = length c ->
  Forall (fun x => x < 2 ^ 64) a -> Forall (fun x => x < prm) c ->
  (cchk_triple d 0 a b c = None <-> forall j, (j < length a)%nat -> nth j b 0 = (nth j c 0 + nth j a 0 * d) mod prm).
Proof. intros d a b c Hd L1 L2 F G. now apply cchk_ok. Qed.
(** products: for canonical factors, accepted iff the third value is the product and its mac is right ... *)
Theorem C47_mul_check : forall d keys recv, d < prm -> length keys = length recv ->
  Forall (fun k => snd k < prm) keys ->
  Forall (fun r => fst (fst r) / 2 ^ 64 < prm /\ snd (fst r) / 2 ^ 64 < prm /\ snd r < 2 ^ 128) recv ->
  (achk_mul d keys recv = None <->
   Forall2 (fun k r => let '(a, b, c) := r in
     c / 2 ^ 64 = (a / 2 ^ 64 * (b / 2 ^ 64)) mod prm /\ field_auth d (snd k) c) keys recv).
Proof. intros d keys recv Hd L F G. exact (achk_mul_ok d Hd keys recv L F G). Qed.
(** ... the macs of the factors are never compared with the keys, unlike in the Boolean check *)
Theorem C47_factor_macs_refuted : forall d ka kb kc x y, d < prm -> kc < prm -> x < prm -> y < prm ->
  exists a b c, a / 2 ^ 64 = x /\ b / 2 ^ 64 = y /\ ~ field_auth d ka a /\ ~ field_auth d kb b /\ achk_mul d [(ka, kb, kc)] [(a, b, c)] = None.
Proof.
  intros d ka kb kc x y Hd Hc Hx Hy. set (bad := fun k v => v * 2 ^ 64 + ((k + v * d) mod prm + 1)). set (q := (x * y) mod prm).
  assert (P : prm + 1 < 2 ^ 64) by reflexivity.
  assert (Z : forall v t, t < 2 ^ 64 -> (v * 2 ^ 64 + t) / 2 ^ 64 = v /\ (v * 2 ^ 64 + t) mod 2 ^ 64 = t).
  { intros v t Ht. rewrite N.div_add_l, N.div_small, N.add_0_r by (try discriminate; exact Ht). split; [reflexivity|].
    rewrite N.add_comm, N.mod_add by discriminate. now apply N.mod_small. }
  assert (B : forall k v, bad k v / 2 ^ 64 = v /\ ~ field_auth d k (bad k v)).
  { intros k v. pose proof (N.mod_lt (k + v * d) prm ltac:(discriminate)) as M. destruct (Z v ((k + v * d) mod prm + 1)) as [Z1 Z2]; [lia|].
    fold (bad k v) in Z1, Z2. split; [exact Z1|]. unfold field_auth. rewrite Z1, Z2. lia. }
  exists (bad ka x), (bad kb y), (q * 2 ^ 64 + (kc + q * d) mod prm).
  destruct (B ka x) as [B1 B2], (B kb y) as [B3 B4]. repeat (split; [assumption|]).
  pose proof (N.mod_lt (kc + q * d) prm ltac:(discriminate)) as M. assert (Hq : q < prm) by (apply N.mod_lt; discriminate).
  destruct (Z q ((kc + q * d) mod prm)) as [Z1 Z2]; [lia|].
  apply C47_mul_check; auto.
  - constructor; [|constructor]. cbn [fst snd]. rewrite B1, B3. split; [exact Hx|]. split; [exact Hy|].
    apply blk_lt; lia.
  - constructor; [|constructor]. split; [now rewrite Z1, B1, B3|]. unfold field_auth. cbn [snd]. now rewrite Z1, Z2.
Qed.
(** with a non-canonical factor a correct product is rejected: mod() reduces a product of two words only partly *)
Theorem C47_wide_factor_refuted : exists d kc a b c, d < prm /\ kc < prm /\ a < 2 ^ 128 /\ b < 2 ^ 128 /\
  c / 2 ^ 64 = (a / 2 ^ 64 * (b / 2 ^ 64)) mod prm /\ field_auth d kc c /\ achk_mul d [(0, 0, kc)] [(a, b, c)] = Some 1%nat.
Proof.
  exists 5, 7, (2 ^ 128 - 1), (2 ^ 128 - 1), (49 * 2 ^ 64 + 252). repeat (split; [vm_compute; reflexivity|]). vm_compute. reflexivity.
Qed.

(** ** punctured trees: accepted iff all leaves but one agree, that one differs by beta*delta, and the triple is right *)
Theorem C47_tree_check : forall v s pos d beta x y z, length v = length s -> (pos < length v)%nat ->
  d < prm -> beta < prm -> x < prm -> y < prm -> Forall (fun k => k < prm) s ->
  (tchk v s pos d beta x y z = TPass <->
   (forall j, (j < length v)%nat -> j <> pos -> nth j v 0 = nth j s 0) /\ nth pos v 0 = (nth pos s 0 + beta * d) mod prm /\ z = (y + x * d) mod prm).
Proof. exact tchk_ok. Qed.
(** honest trees (C19) with a valid triple pass *)
Theorem C47_tree_session : forall L R depth seed key mac d (b : nat -> bool) (t0s t0r : mem) tk tm, (2 <= depth)%nat -> d < prm ->
  share_ok d mac key -> share_ok d tm tk ->
  let '(ts, m0, m1, sum) := sp_send L R depth seed key t0s in
  forall m : mem, (forall x, (x < depth - 1)%nat -> m x = if b x then m1 x else m0 x) ->
  let tr := sp_recv L R depth b m sum mac t0r in
  let n := (2 ^ (depth - 1))%nat in
  tchk (map tr (seq 0 n)) (map ts (seq 0 n)) (punctured (depth - 1) b) d (xval mac) (xval tm) tk (tm mod 2 ^ 64) = TPass.
Proof.
  intros L R depth seed key mac d b t0s t0r tk tm H2 Hd Hs Ht.
  pose proof (PropVole.C19_punctured_tree L R depth seed key mac d b t0s t0r H2 Hs) as P.
  destruct (sp_send L R depth seed key t0s) as [[[ts m0] m1] sum]. intros m Hm tr n. specialize (P m Hm). cbv zeta in P. fold tr in P.
  destruct P as (P1 & P2 & P3 & P4 & _). fold n in P1, P2, P3.
  assert (N0 : forall (f : mem) j, (j < n)%nat -> nth j (map f (seq 0 n)) 0 = f j).
  { intros f j Hj. rewrite nth_indep with (d' := f 0%nat) by (now rewrite map_length, seq_length). rewrite map_nth, seq_nth by exact Hj. reflexivity. }
  apply C47_tree_check.
  - now rewrite !map_length.
  - now rewrite map_length, seq_length.
  - exact Hd.
  - apply Hs.
  - apply Ht.
  - apply Ht.
  - apply Forall_forall. intros k Hk. apply in_map_iff in Hk. destruct Hk as (j & <- & Hj). apply in_seq in Hj. rewrite P2 by lia. apply N.mod_lt. discriminate.
  - rewrite map_length, seq_length. split; [|split].
    + intros j Hj Hn. rewrite !N0 by exact Hj. now apply P3.
    + rewrite !N0 by exact P1. exact P4.
    + apply Ht.
Qed.

(** ** compute_mu: both parties' results are a share of c - z + sigma a + epsilon b + epsilon sigma *)
Theorem C47_mu : forall d a ka b kb c kc z kz eps sig, d < prm ->
  share_ok d a ka -> share_ok d b kb -> share_ok d c kc -> share_ok d z kz ->
  eps / 2 ^ 64 < prm -> sig / 2 ^ 64 < prm ->
  let e := eps / 2 ^ 64 in let s := sig / 2 ^ 64 in
  let P := mu_prv z a b c eps sig in let V := mu_vrf d kz ka kb kc e s in
  share_ok d P V /\ P / 2 ^ 64 = fsub (c / 2 ^ 64 + s * (a / 2 ^ 64) + e * (b / 2 ^ 64) + e * s) (z / 2 ^ 64) /\
  mu_prv_opt eps sig z a b c = P /\ mu_vrf_opt d e s kz ka kb kc = V.
Proof.
  intros d a ka b kb c kc z kz eps sig Hd Sa Sb Sc Sz He Hs e s P V.
  destruct (share_split _ _ _ Sa) as [Ba Ka], (share_split _ _ _ Sb) as [Bb Kb], (share_split _ _ _ Sc) as [Bc Kc], (share_split _ _ _ Sz) as [Bz Kz].
  rewrite prm_PR in Hd, He, Hs. fold e in He. fold s in Hs.
  assert (W : PR * PR < 2 ^ 122 - 1) by reflexivity. assert (W' : 2 ^ 122 - 1 < W128) by reflexivity.
  assert (L : e * s < 2 ^ 122 - 1) by (apply N.le_lt_trans with (PR * PR); [apply N.mul_le_mono; lia|exact W]).
  assert (Q : mod128 (mul128 e s) PR = (e * s) mod PR) by (unfold mul128; rewrite N.mod_small by lia; now apply mod128_correct).
  assert (Q' : mult_mod e s = (e * s) mod PR) by (now apply mult_mod_correct).
  assert (Hq : (e * s) mod PR <= PR) by (apply N.lt_le_incl, mod_PR_lt).
  assert (T : toF ((e * s) mod PR) = pmul (toF e) (toF s)) by (now rewrite toF_mod, toF_mul).
  set (q := (e * s) mod PR) in *.
  assert (BP : brel P (padd (padd (psub (toF (c mod 2 ^ 64)) (toF (z mod 2 ^ 64))) (pmul (toF (a mod 2 ^ 64)) (toF s))) (pmul (toF (b mod 2 ^ 64)) (toF e)),
                     padd (padd (padd (psub (toF (c / 2 ^ 64)) (toF (z / 2 ^ 64))) (pmul (toF (a / 2 ^ 64)) (toF s))) (pmul (toF (b / 2 ^ 64)) (toF e))) (toF q))).
  { unfold P, mu_prv. cbv zeta. rewrite !hi64_def. fold e s. rewrite Q.
    pose proof (b_sub _ _ _ _ Bc Bz) as B1. pose proof (b_mulc _ s _ Ba ltac:(lia)) as B2. pose proof (b_mulc _ e _ Bb ltac:(lia)) as B3.
    pose proof (b_add2 _ _ _ _ (b_add2 _ _ _ _ B1 B2) B3) as B4. cbn [fst snd] in B4. exact (b_addc _ q _ B4 Hq). }
  assert (KV : krel d V (padd (padd (psub (toF (c mod 2 ^ 64)) (toF (z mod 2 ^ 64))) (pmul (toF (a mod 2 ^ 64)) (toF s))) (pmul (toF (b mod 2 ^ 64)) (toF e)),
                     padd (padd (padd (psub (toF (c / 2 ^ 64)) (toF (z / 2 ^ 64))) (pmul (toF (a / 2 ^ 64)) (toF s))) (pmul (toF (b / 2 ^ 64)) (toF e))) (toF q))).
  { unfold V, mu_vrf. cbv zeta. rewrite Q.
    pose proof (k_sub d Hd _ _ _ _ Kc Kz) as B1. pose proof (k_mulc d Hd _ s _ Ka ltac:(lia)) as B2. pose proof (k_mulc d Hd _ e _ Kb ltac:(lia)) as B3.
    pose proof (k_add2 d Hd _ _ _ _ (k_add2 d Hd _ _ _ _ B1 B2) B3) as B4. cbn [fst snd] in B4. exact (k_addc d Hd _ q _ B4 Hq). }
  split; [exact (share_rel _ _ _ _ BP KV)|]. split; [|split].
  - apply (brel_val _ _ _ BP); [|apply fsub_lt]. cbn [snd]. rewrite fsub_F, !toF_add, !toF_mul, T. ring.
  - unfold P, mu_prv, mu_prv_opt. cbv zeta. rewrite !hi64_def. fold e s. now rewrite Q, Q'.
  - unfold V, mu_vrf, mu_vrf_opt. cbv zeta. assert (PW : PR < W64) by reflexivity. unfold lo64. rewrite !N.mod_small by lia. now rewrite Q, Q'.
Qed.
(** with a multiplication triple c = ab, the result is zero exactly if z is the product of a + epsilon and b + sigma *)
Theorem C47_mu_zero_iff : forall d a ka b kb c kc z kz eps sig, d < prm ->
  share_ok d a ka -> share_ok d b kb -> share_ok d c kc -> share_ok d z kz ->
  eps / 2 ^ 64 < prm -> sig / 2 ^ 64 < prm -> c / 2 ^ 64 = (a / 2 ^ 64 * (b / 2 ^ 64)) mod prm ->
  (mu_prv z a b c eps sig / 2 ^ 64 = 0 <-> z / 2 ^ 64 = ((a / 2 ^ 64 + eps / 2 ^ 64) * (b / 2 ^ 64 + sig / 2 ^ 64)) mod prm).
Proof.
  intros d a ka b kb c kc z kz eps sig Hd Sa Sb Sc Sz He Hs Hc.
  destruct (C47_mu d a ka b kb c kc z kz eps sig Hd Sa Sb Sc Sz He Hs) as (_ & E & _). cbv zeta in E. rewrite E.
  destruct Sz as (Hw & _). rewrite prm_PR in Hw.
  set (x := a / 2 ^ 64) in *. set (y := b / 2 ^ 64) in *. set (e := eps / 2 ^ 64) in *. set (s := sig / 2 ^ 64) in *. set (w := z / 2 ^ 64) in *.
  clearbody x y e s w. rewrite Hc, prm_PR.
  assert (F : toF (fsub ((x * y) mod PR + s * x + e * y + e * s) w) = psub (toF (((x + e) * (y + s)) mod PR)) (toF w)).
  { rewrite fsub_F, !toF_add, !toF_mod, !toF_mul, !toF_add. ring. }
  split; intro X.
  - rewrite X, toF_0 in F. apply toF_inj; [exact Hw|apply mod_PR_lt|].
    transitivity (psub (toF (((x + e) * (y + s)) mod PR)) p0); [rewrite F; ring|ring].
  - apply toF_inj; [apply fsub_lt|reflexivity|]. rewrite F, <- X, toF_0. ring.
Qed.

(** ** examples *)
Example C47_example_bits :
  let d := 0x1235 in let macs := [0x10; 0x21; 0xff31] in
  let keys := map (fun m => N.lxor m (if N.odd m then d else 0)) macs in
  bchk_auth d keys (map (fun m => (m, N.odd m)) macs) = DOk keys /\
  bchk_auth d keys [(0x10, false); (0x21, false); (0xff31, true)] = DErr 1 /\
  bchk_auth d keys [(0x10, false); (0x23, true); (0xff31, true)] = DErr 2 /\
  bchk_and d [(N.lxor 0x11 d, 0x20, 0x44)] [(0x11, 0x20, 0x44)] = None /\
  bchk_and d [(N.lxor 0x11 d, 0x20, 0x44)] [(0x11, 0x20, 0x45)] = Some 3%nat.
Proof. vm_compute. auto 10. Qed.
Example C47_example_field :
  let d := 1000 in let blk x m := mkblock x m in
  achk_auth d 0 [5; 7] [blk 3 3005; blk 2 2007] = None /\ achk_auth d 0 [5; 7] [blk 3 3005; blk 2 2008] = Some 1%nat /\
  achk_auth d 0 [5] [blk (prm + 3) 3005] = None /\
  achk_mul d [(1, 1, 9)] [(blk 4 0, blk 5 0, blk 20 20009)] = None /\ achk_mul d [(1, 1, 9)] [(blk 4 0, blk 5 0, blk 20 20008)] = Some 2%nat /\
  cchk_triple d 0 [3; 4] [3005; 4001] [5; 1] = None /\
  tchk [11; 5012; 13] [11; 12; 13] 1 d 5 2 6 2006 = TPass /\ tchk [11; 5012; 14] [11; 12; 13] 1 d 5 2 6 2006 = TNode 2 /\
  tchk [11; 5013; 13] [11; 12; 13] 1 d 5 2 6 2006 = TSecret /\ tchk [11; 5012; 13] [11; 12; 13] 1 d 5 2 6 2007 = TTriple.
Proof. vm_compute. auto 12. Qed.
Example C47_example_mu :
  let d := 1000 in let sh x k := mkblock x (k + x * d) in
  mu_prv (sh 35 1) (sh 3 2) (sh 4 3) (sh 12 4) (mkblock 2 0) (mkblock 3 0) / 2 ^ 64 = 0 /\
  mu_prv (sh 36 1) (sh 3 2) (sh 4 3) (sh 12 4) (mkblock 2 0) (mkblock 3 0) / 2 ^ 64 = prm - 1 /\
  share_ok d (sh 35 1) 1 /\ share_ok d (sh 3 2) 2 /\ share_ok d (sh 4 3) 3 /\ share_ok d (sh 12 4) 4.
Proof. vm_compute. repeat split. Qed.

Print Assumptions C47_bit_check.
Print Assumptions C47_bit_relation.
Print Assumptions C47_bit_session.
Print Assumptions C47_and_check.
Print Assumptions C47_field_check.
Print Assumptions C47_field_session.
Print Assumptions C47_triple_check.
Print Assumptions C47_triple_check_only.
Print Assumptions C47_cope_check.
Print Assumptions C47_mul_check.
Print Assumptions C47_factor_macs_refuted.
Print Assumptions C47_wide_factor_refuted.
Print Assumptions C47_tree_check.
Print Assumptions C47_tree_session.
Print Assumptions C47_mu.
Print Assumptions C47_mu_zero_iff.
