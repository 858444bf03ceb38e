(** The arithmetic prover over the channel against a verifier program that sends a batch challenge that is not reduced. *)
From Coq Require Import NArith List Bool Arith Lia.
From Verif Require Import Word WordProofs FpModel FpProofs ArithModel ArithSpec AHideSpec ArithThms3 WireModel WireProofs AWireModel AWireNet AWireProofs AWireAny.
Import ListNotations.
Local Open Scope N_scope.
Ltac Zify.zify_post_hook ::= idtac.

(** x * y = 0 for private x and y *)
Definition leak_circuit : list agate := [AIn 0; AIn 0; APoly [0%nat] [1%nat] [0; 1]].
(** the verifier's program: it keeps the second correction word, sends the challenge 7 * 2^61, and decides by the size of
    the second word of the answer.  Nothing is decided unless its own key of y is at least 4p/7 *)
Definition spy (k2 d : N) : aproc (option bool) :=
  QGet AtWord 8 (fun _ => QGet AtWord 8 (fun w => QPut (enc64 (7 * 2 ^ 61)) (QFlush (QGet AtPoly 16 (fun b => QGet AtDigest 32 (fun _ =>
    QDone (if 4 * prm <=? 7 * ((k2 + dec_bytes w * d) mod prm) then Some (prm <=? snd (dec_pair b)) else None))))))).

Lemma mult7 v : v < PR -> mult_mod (7 * 2 ^ 61) v = if PR <=? 7 * v then 7 * v - PR else 7 * v.
Proof.
  intro Hv. unfold mult_mod. cbv zeta. rewrite mult_res_eq by (unfold PR in Hv; lia).
  assert (X : 7 * 2 ^ 61 * v = 7 * v * 2305843009213693952) by (change (2 ^ 61) with 2305843009213693952; clear; lia).
  assert (E0 : N.land (mul64_lo (7 * 2 ^ 61) v) PR = 0).
  { rewrite land_PR. unfold mul64_lo. rewrite mod_mod61, X. apply N.mod_mul. discriminate. }
  rewrite E0, X, N.div_mul by discriminate. rewrite add64_small by (unfold PR, W64 in *; lia). rewrite N.add_0_l.
  apply csub64. unfold PR, W64 in *. lia.
Qed.
Lemma add_mod_csub a b : a + b < W64 -> add_mod a b = if PR <=? a + b then a + b - PR else a + b.
Proof. intro H. unfold add_mod. cbv zeta. rewrite add64_small by exact H. now apply csub64. Qed.
(** the second word of the answer to the challenge 7 * 2^61 *)
Definition leak_word (t u : N) : N := add_mod (vector_inn_prdt_sum_red [7 * 2 ^ 61] [t]) u.
Lemma leak_word_eq t u : leak_word t u = add_mod (add_mod 0 (mult_mod (7 * 2 ^ 61) t)) u.
Proof. reflexivity. Qed.
Lemma leak_small t u : 7 * t < PR -> u < PR -> leak_word t u < PR.
Proof.
  intros Ht Hu. rewrite leak_word_eq, mult7 by (clear - Ht; lia).
  destruct (N.leb_spec PR (7 * t)) as [X|X]; [exfalso; clear - X Ht; lia|].
  rewrite (add_mod_correct 0) by (clear - Ht; lia). rewrite N.add_0_l, (N.mod_small _ _ Ht).
  rewrite add_mod_correct by (clear - Ht Hu; lia). apply N.mod_lt. discriminate.
Qed.
Lemma leak_large t u : 4 * PR <= 7 * t -> t < PR -> u < PR -> PR <= leak_word t u.
Proof.
  intros Ht Hl Hu. rewrite leak_word_eq, mult7 by exact Hl.
  destruct (N.leb_spec PR (7 * t)) as [X|X]; [|exfalso; unfold PR in *; lia].
  rewrite (add_mod_csub 0) by (unfold PR, W64 in *; lia). rewrite N.add_0_l.
  destruct (N.leb_spec PR (7 * t - PR)) as [Y|Y]; [|exfalso; unfold PR in *; lia].
  rewrite add_mod_csub by (unfold PR, W64 in *; lia).
  destruct (N.leb_spec PR (7 * t - PR - PR + u)) as [Z|Z]; unfold PR in *; lia.
Qed.

Section Run.
  Variables (auto : bool) (coins : bool -> nat -> N) (pub_mac : N) (key : nat -> N) (d : N) (threads csz psz : nat).
  Variables (G : N -> nat -> N) (H : list N -> list N) (u0 u1 u2 : N).
  Hypothesis (Hcsz : (1 <= csz)%nat) (HH : forall l, length (H l) = 32%nat) (Hu0 : u0 < PR) (Hu1 : u1 < PR) (Hu2 : u2 < PR).
  Notation us := [u0; u1; u2].
  Notation pV := (vole_block (val_of us) (mac_of key d us)).
  Notation P x := (ap_prog pub_mac pV threads csz psz G H ap_init (awith_inputs [x; 0] leak_circuit)).
  Notation K2 := ((key 2%nat + u1 * d) mod prm).
  Notation "a ~~> b" := (exists w, @kruns coins (option apst) (option bool) w a b) (at level 70).

  Lemma mac_lt i : mac_of key d us i < PR.
  Proof. unfold mac_of. apply N.mod_lt. discriminate. Qed.
  Lemma blk_hi i : hi64 (pV i) = val_of us i.
  Proof. pose proof (mac_lt i). apply hi64_mk. unfold PR, W64 in *; lia. Qed.
  Lemma blk_lo i : lo64 (pV i) = mac_of key d us i.
  Proof. pose proof (mac_lt i). apply (lo64_mk (val_of us i)). unfold PR, W64 in *; lia. Qed.

  Lemma leak_term x : x <= 1 -> snd (poly_prv [fst (a_prv_input (pV 1%nat) x)] [fst (a_prv_input (pV 2%nat) 0)] [0; 1]) = x * K2.
  Proof.
    intro Hx. unfold poly_prv, poly_prv_term, a_prv_input. cbv zeta. cbn [combine tl fold_left fst snd].
    assert (A1 := mac_lt 1). assert (A2 := mac_lt 2). rewrite !blk_lo.
    rewrite !hi64_mk, !lo64_mk by (unfold PR, W64 in *; lia).
    assert (HK : mac_of key d us 2 = K2) by reflexivity. rewrite HK in *. generalize dependent K2. intros K2 A2 _.
    assert (Hx' : x = 0 \/ x = 1) by (clear - Hx; lia).
    rewrite (mult_mod_ok _ 0), N.mul_0_r, N.mod_0_l by (try discriminate; unfold PR in *; lia).
    rewrite (mult_mod_ok K2 x) by (unfold PR in *; lia).
    assert (Hm : (K2 * x) mod PR = x * K2).
    { destruct Hx' as [-> | ->]; [rewrite N.mul_0_r; reflexivity|]. rewrite N.mul_1_r, N.mul_1_l. now apply N.mod_small. }
    rewrite Hm. assert (HL : x * K2 < PR) by (rewrite <- Hm; apply N.mod_lt; discriminate). generalize dependent (x * K2). intros t _ HL.
    rewrite (add_mod_correct 0 t), N.add_0_l, (N.mod_small t) by (try assumption; clear - HL; lia).
    rewrite (mult_mod_ok 1 t), N.mul_1_l, (N.mod_small t) by (try assumption; unfold PR in *; lia).
    rewrite (add_mod_correct 0 t), N.add_0_l, (N.mod_small t) by (try assumption; clear - HL; lia). reflexivity.
  Qed.

  Lemma leak_second : snd (a_prv_input (pV 2%nat) 0) = u1.
  Proof.
    unfold a_prv_input. cbv zeta. cbn [snd]. rewrite blk_hi. cbn [val_of nth]. rewrite sub64_small by (unfold PR, W64; lia).
    rewrite add_mod_csub by (unfold PR, W64 in *; lia). destruct (N.leb_spec PR (u1 + (PR - 0))) as [X|X]; unfold PR in *; lia.
  Qed.

  Definition s_mid x : apst :=
    {| ap_w := [fst (a_prv_input (pV 1%nat) x); fst (a_prv_input (pV 2%nat) 0)]; ap_buf := [];
       ap_poly := [poly_prv [fst (a_prv_input (pV 1%nat) x)] [fst (a_prv_input (pV 2%nat) 0)] [0; 1]]; ap_hash := []; ap_vole := 3%nat;
       ap_chk := 0%nat; ap_pchk := 0%nat; ap_words := [snd (a_prv_input (pV 1%nat) x); snd (a_prv_input (pV 2%nat) 0)]; ap_msgs := []; ap_pmsgs := []; ap_outs := [] |}.
  Lemma prog_eq x : P x = QPut (enc64 (snd (a_prv_input (pV 1%nat) x))) (QPut (enc64 (snd (a_prv_input (pV 2%nat) 0)))
    (ap_batch_prog pV (s_mid x) (ap_end pV threads G H))).
  Proof. destruct psz; reflexivity. Qed.
  Definition s_fin x : apst := ap_batch_seed pV (7 * 2 ^ 61) (s_mid x).

  Lemma word_eq x : x <= 1 -> snd (last (ap_pmsgs (s_fin x)) (0, 0)) = leak_word (x * K2) u2.
  Proof.
    intro Hx. rewrite <- (leak_term x Hx).
    change (snd (last (ap_pmsgs (s_fin x)) (0, 0))) with (add_mod (vector_inn_prdt_sum_red [7 * 2 ^ 61] [snd (poly_prv [fst (a_prv_input (pV 1%nat) x)] [fst (a_prv_input (pV 2%nat) 0)] [0; 1])]) (hi64 (pV 3%nat))).
    rewrite blk_hi. change (val_of us 3%nat) with u2. unfold leak_word. reflexivity.
  Qed.
  Lemma pair_64 x : fst (last (ap_pmsgs (s_fin x)) (0, 0)) < 2 ^ 64 /\ snd (last (ap_pmsgs (s_fin x)) (0, 0)) < 2 ^ 64.
  Proof. apply msg_64. Qed.

  Lemma leak_run x : x <= 1 -> exists rd,
    K (P x) (spy (key 2%nat) d) [] [] [] 0 0 ~~>
    K (QDone (Some (s_fin x))) (QDone (if 4 * prm <=? 7 * K2 then Some (x =? 1) else None)) [] [] rd 0 0.
  Proof.
    intro Hx. rewrite prog_eq. unfold spy, ap_batch_prog, s_recv. eexists.
    eapply then_; [apply mv_put_get, enc64_len|]. cbn beta. eapply then_; [apply mv_put_get, enc64_len|]. cbn beta.
    eapply then_; [apply mv_flush_p|]. eapply then_; [apply mv_flush_p|].
    eapply then_; [apply mv_get_put, enc64_len|]. cbn beta zeta. rewrite (dec_enc64 (7 * 2 ^ 61)) by reflexivity. fold (s_fin x).
    eapply then_; [apply mv_flush_v|]. eapply then_; [apply mv_put_get, enc_pair_len|]. cbn beta.
    change (ap_end pV threads G H (s_fin x)) with (ap_fin H (s_fin x)). unfold ap_fin.
    eapply then_; [apply mv_put_get, HH|]. cbn beta. eapply then_; [apply mv_flush_p|].
    destruct (pair_64 x) as [L1 L2]. rewrite dec_enc_pair by assumption. rewrite word_eq by exact Hx.
    rewrite leak_second, dec_enc64 by (unfold PR in *; lia).
    replace (if 4 * prm <=? 7 * K2 then Some (prm <=? leak_word (x * K2) u2) else None) with (if 4 * prm <=? 7 * K2 then Some (x =? 1) else None).
    { exists 0%nat. constructor. }
    destruct (N.leb_spec (4 * prm) (7 * K2)) as [X|X]; [|reflexivity]. f_equal.
    assert (HK : K2 < PR) by (apply N.mod_lt; discriminate). generalize dependent K2. intros K2 X HK.
    assert (Hx' : x = 0 \/ x = 1) by (clear - Hx; lia). destruct Hx' as [-> | ->].
    - rewrite N.mul_0_l. symmetry. change (0 =? 1) with false. apply N.leb_gt. apply leak_small; [reflexivity|exact Hu2].
    - rewrite N.mul_1_l. symmetry. change (1 =? 1) with true. apply N.leb_le. now apply leak_large.
  Qed.
  Lemma leak_all x : x <= 1 -> exists bound, forall k n, msteps auto coins k (m_init (P x) (spy (key 2%nat) d)) n ->
    (k <= bound)%nat /\ ((exists n', pstep auto coins n n') \/ m_v n = QDone (if 4 * prm <=? 7 * K2 then Some (x =? 1) else None)).
  Proof.
    intro Hx. destruct (leak_run x Hx) as (rd & bound & R). exists bound. intros k n Hn.
    destruct (every_schedule auto coins (P x) (spy (key 2%nat) d) bound _ _ _ _ _ (cl_prog _ _ _ _ _ _ _ _ _) (fl_prog _ _ _ _ _ _ _ _ Hcsz _ _ _) ltac:(cbn; auto 20) R k n Hn) as [A [B|B]].
    - split; [exact A|now left].
    - split; [exact A|right; now subst n].
  Qed.
End Run.
