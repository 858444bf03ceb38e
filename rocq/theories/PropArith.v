(** Properties C08-C13 (arithmetic engine over F_p, p = 2^61-1). *)
From Coq Require Import NArith List Bool Arith Lia Ring.
From Verif Require Import Word WordProofs FpModel FpProofs PolyRoots ListUtil Prime61 BoolModel BoolSpec BoolThms
  ArithModel ArithSpec ArithProofs ArithShadow ArithAlg ArithThms ArithThms2 ArithThms3 ArithThms4 ArithThms5.
Import ListNotations.
Local Open Scope N_scope.
Ltac Zify.zify_post_hook ::= idtac.
Add Ring fp_ring : fp_rt.

(** ** C08: completeness.  [vole_block]/[vole_key] are the two sides of an ideal VOLE, [nth] is the channel.
    The wires and outputs are right for every honest run; acceptance additionally needs that the
    statement is true ([pl_ok]: every reveal_check, zero test and polynomial relation holds). *)
Theorem C08_honest_session_accepts :
  forall pub_mac pU pMac threads csz psz seeds pseeds (c : list agate) p d,
  vole_ok pU pMac -> pub_mac < prm -> (forall k, pseeds k < 2 ^ 64) -> Forall wf_honest c ->
  ap_exec pub_mac (vole_block pU pMac) threads csz psz seeds pseeds c = Some p -> d < prm ->
  map hi64 (ap_w p) = pl_w (aplain c) /\ ap_outs p = pl_outs (aplain c) /\
  exists v, av_exec pub_mac (vole_key pU pMac d) d threads csz psz seeds pseeds
      (fun k => nth k (ap_words p) 0) (fun k => nth k (ap_msgs p) (0, 0)) (fun k => nth k (ap_pmsgs p) (0, 0)) c = Some v /\
    av_outs v = pl_outs (aplain c) /\ Forall2 (share_ok d) (ap_w p) (av_w v) /\
    (pl_ok (aplain c) = true -> forall (D : Type) (Deqb : D -> D -> bool) (H : list N -> D),
      (forall a, Deqb a a = true) -> av_outcome Deqb H v (H (ap_hash p)) = (false, false)).
Proof. exact session_complete. Qed.
(** no undefined behaviour with up to 32 threads *)
Theorem C08_defined : forall pub_mac pV threads csz psz seeds pseeds c, (1 <= threads <= 32)%nat ->
  exists p, ap_exec pub_mac pV threads csz psz seeds pseeds c = Some p.
Proof. intros. now apply exec_defined. Qed.
(** 33 threads and 32 multiplications divide by zero *)
Theorem C08_many_threads_refuted :
  exists c, forall pub_mac pV csz psz seeds pseeds, (33 <= csz)%nat ->
    ap_exec pub_mac pV 33 csz psz seeds pseeds c = None.
Proof.
  exists (APub 0 :: repeat (AMul 0 0) 32). intros pub_mac pV csz psz seeds pseeds Hc.
  assert (R : forall m s, (length (ap_buf s) + m <= 32)%nat -> exists s',
     ap_run pub_mac pV 33 csz psz seeds pseeds s (repeat (AMul 0 0) m) = Some s' /\
     length (ap_buf s') = (length (ap_buf s) + m)%nat /\ ap_poly s' = ap_poly s).
  { induction m as [|m IH]; intros s Hs; cbn [repeat ap_run].
    - exists s. rewrite Nat.add_0_r. auto.
    - cbn [ap_step]. unfold ap_precheck. destruct (Nat.eqb_spec (length (ap_buf s)) csz); [lia|].
      cbn [a_prv_mul]. cbv zeta beta iota.
      match goal with |- context[ap_run _ _ _ _ _ _ _ ?x _] => destruct (IH x) as (s' & E & L & P) end.
      + cbn [ap_buf]. rewrite app_length. cbn [length]. lia.
      + exists s'. split; [exact E|]. cbn [ap_buf ap_poly] in L, P. rewrite app_length in L. cbn [length] in L. split; [lia|easy]. }
  unfold ap_exec. change (ap_run pub_mac pV 33 csz psz seeds pseeds ap_init (APub 0 :: repeat (AMul 0 0) 32))
    with (ap_run pub_mac pV 33 csz psz seeds pseeds (ap_add ap_init (a_prv_pub pub_mac 0)) (repeat (AMul 0 0) 32)).
  destruct (R 32%nat (ap_add ap_init (a_prv_pub pub_mac 0))) as (s & E & L & P); [cbn; lia|].
  rewrite E. unfold ap_final, ap_batch. rewrite P. cbn [ap_add ap_poly ap_init]. cbn [ap_add ap_init ap_buf length plus] in L.
  destruct (ap_buf s) as [|g gs] eqn:B; [discriminate|]. unfold ap_manage. rewrite B, L. reflexivity.
Qed.
(** a session with every kind of step, two multiplication batches and two relation batches *)
Definition demo_U (i : nat) : N := (N.of_nat (i * i + 5 * i + 1) * 1000000007 * 998244353) mod prm.
Definition demo_M (i : nat) : N := (N.of_nat (i * i * i + 11) * 1000000009 * 1000003) mod prm.
Definition demo_s (k i : nat) : N := N.of_nat (77 * k + i + 5) * 123456789123456789.
Definition demo_p (k : nat) : N := (N.of_nat (13 * k + 7) * 987654321987654321) mod 2 ^ 64.
Definition demo_c : list agate :=
  [AIn 3; AIn (prm - 1); APub 5; AMul 0 1; AMul 3 2; AMul 4 4; ASub 3 0; AAddC 6 9; AMulC 7 (prm - 1);
   AAdd 8 0; AReveal 9; AReveal 5; ACheck 3 (prm - 3); ASub 3 3; AZero 10;
   APoly [0%nat] [1%nat] [3; 1]; AInner [0%nat; 2%nat] [1%nat; 2%nat] (prm - 22); APoly [2%nat] [2%nat] [prm - 25; 1]].
Definition demo_d : N := 1234567890123456789.
Example C08_example :
  vole_ok demo_U demo_M /\ Forall wf_honest demo_c /\ pl_ok (aplain demo_c) = true /\ demo_d < prm /\
  pl_outs (aplain demo_c) = [0; 225] /\
  match ap_exec 77 (vole_block demo_U demo_M) 2 2 2 demo_s demo_p demo_c with
  | Some p => ap_outs p = [0; 225] /\ length (ap_msgs p) = 2%nat /\ length (ap_pmsgs p) = 2%nat
  | None => False end.
Proof.
  split; [intro i; split; (apply N.mod_lt; discriminate)|].
  split; [repeat (apply Forall_cons; [split; cbn; repeat split; repeat constructor|]); constructor|].
  vm_compute. repeat split.
Qed.

(** ** C09: soundness of a whole session against an arbitrary prover.  The correction words of inputs
    and multiplications are at most p, opened words are arbitrary 64-bit words, check messages are
    arbitrary with 64-bit second word.  Either few keys accept, or a challenge hides an error, or the
    transcript hash collides. *)
Theorem C09_session_soundness :
  forall pub_mac pU pMac threads csz psz seeds pseeds words chkmsg pchkmsg
         (D : Type) (Deqb : D -> D -> bool) (H : list N -> D) (dig : D) (c : list agate) (deltas : list N),
  (forall a b, Deqb a b = true -> a = b) -> NoDup deltas -> pub_mac < prm ->
  Forall wf_pub c -> words_ok words 0 c -> (forall k, pseeds k < 2 ^ 64) ->
  (forall k, snd (chkmsg k) < 2 ^ 64 /\ snd (pchkmsg k) < 2 ^ 64) ->
  let exec d := av_exec pub_mac (vole_key pU pMac d) d threads csz psz seeds pseeds words chkmsg pchkmsg c in
  let cm := acommit pU csz psz words c in
  let q := aplain (awith_inputs (ac_ins cm) c) in
  (forall d, In d deltas -> d < prm /\
     exists v, exec d = Some v /\ av_outcome Deqb H v dig = (false, false) /\
               (map (fun w => w mod prm) (av_outs v) <> pl_outs q \/ pl_ok q = false)) ->
  (length deltas <= 4)%nat \/
  (exists k errs rs, nth_error (mul_batches cm) k = Some errs /\ (exists e, In e errs /\ e <> 0) /\
     a_ranges threads (length errs) = Some rs /\ a_combined rs (a_chal seeds k) errs = 0) \/
  (exists k errs, nth_error (rel_batches cm) k = Some errs /\ (exists e, In e errs /\ e <> 0) /\
     a_combined [(0%nat, length errs)] (fun _ => pseeds k mod prm) errs = 0) \/
  (exists d1 d2 v1 v2, In d1 deltas /\ In d2 deltas /\ exec d1 = Some v1 /\ exec d2 = Some v2 /\
     av_hash v1 <> av_hash v2 /\ H (av_hash v1) = H (av_hash v2)).
Proof.
  intros. apply (session_bound pub_mac pU pMac threads csz psz seeds pseeds words chkmsg pchkmsg D Deqb H dig c deltas 4 false); auto.
Qed.
(** two keys when the second word of every check message is below 2^63 (a canonical word is) *)
Theorem C09_session_soundness_two :
  forall pub_mac pU pMac threads csz psz seeds pseeds words chkmsg pchkmsg
         (D : Type) (Deqb : D -> D -> bool) (H : list N -> D) (dig : D) (c : list agate) (deltas : list N),
  (forall a b, Deqb a b = true -> a = b) -> NoDup deltas -> pub_mac < prm ->
  Forall wf_pub c -> words_ok words 0 c -> (forall k, pseeds k < 2 ^ 64) ->
  (forall k, snd (chkmsg k) < 2 ^ 63 /\ snd (pchkmsg k) < 2 ^ 63) ->
  let exec d := av_exec pub_mac (vole_key pU pMac d) d threads csz psz seeds pseeds words chkmsg pchkmsg c in
  let cm := acommit pU csz psz words c in
  let q := aplain (awith_inputs (ac_ins cm) c) in
  (forall d, In d deltas -> d < prm /\
     exists v, exec d = Some v /\ av_outcome Deqb H v dig = (false, false) /\
               (map (fun w => w mod prm) (av_outs v) <> pl_outs q \/ pl_ok q = false)) ->
  (length deltas <= 2)%nat \/
  (exists k errs rs, nth_error (mul_batches cm) k = Some errs /\ (exists e, In e errs /\ e <> 0) /\
     a_ranges threads (length errs) = Some rs /\ a_combined rs (a_chal seeds k) errs = 0) \/
  (exists k errs, nth_error (rel_batches cm) k = Some errs /\ (exists e, In e errs /\ e <> 0) /\
     a_combined [(0%nat, length errs)] (fun _ => pseeds k mod prm) errs = 0) \/
  (exists d1 d2 v1 v2, In d1 deltas /\ In d2 deltas /\ exec d1 = Some v1 /\ exec d2 = Some v2 /\
     av_hash v1 <> av_hash v2 /\ H (av_hash v1) = H (av_hash v2)).
Proof.
  intros. apply (session_bound pub_mac pU pMac threads csz psz seeds pseeds words chkmsg pchkmsg D Deqb H dig c deltas 2 true); auto.
Qed.
(** one batch, no hash: the multiplication check alone *)
Theorem C09_batch_bound :
  forall pub_mac pU pMac threads csz psz seeds pseeds words chkmsg pchkmsg (c : list agate) (deltas : list N) k errs rs,
  NoDup deltas -> pub_mac < prm -> Forall wf_pub c -> words_ok words 0 c -> (forall k, pseeds k < 2 ^ 64) ->
  nth_error (mul_batches (acommit pU csz psz words c)) k = Some errs ->
  a_ranges threads (length errs) = Some rs -> a_combined rs (a_chal seeds k) errs <> 0 ->
  snd (chkmsg k) < 2 ^ 64 ->
  (forall d, In d deltas -> d < prm /\ exists v,
     av_exec pub_mac (vole_key pU pMac d) d threads csz psz seeds pseeds words chkmsg pchkmsg c = Some v /\ av_err v = false) ->
  (length deltas <= 4)%nat /\ (snd (chkmsg k) < 2 ^ 63 -> (length deltas <= 2)%nat).
Proof. intros. eapply mul_batch_bound; eauto. Qed.
(** challenges that hide a wrong product: at most as many values of one worker's seed as that worker
    has multiplications *)
Theorem C09_challenge_bound :
  forall t errs rs i, (1 <= t)%nat -> a_ranges t (length errs) = Some rs ->
  (length errs < 32 \/ length errs mod t < length errs / t)%nat ->
  (i < length errs)%nat -> nth i errs 0 mod prm <> 0 ->
  exists k, (k < length rs)%nat /\ forall (seed : nat -> N) xs, NoDup xs -> Forall (fun x => x < prm) xs ->
    (forall x, In x xs -> a_combined rs (fun j => if Nat.eqb j k then x else seed j) errs = 0) ->
    (length xs <= length errs)%nat.
Proof.
  intros t errs rs i Ht Hr Hc Hi He.
  destruct (proj2 (a_all_covered_iff t _ rs Ht Hr) Hc i Hi) as (s & n & Hin & Hsn).
  assert (Hn : (n <= length errs)%nat).
  { destruct (Nat.ltb_spec (length errs) 32) as [L|L].
    - unfold a_ranges in Hr. destruct (Nat.ltb_spec (length errs) 32); [|lia]. injection Hr as <-.
      destruct Hin as [E|[]]. injection E as <- <-. lia.
    - rewrite a_ranges_and in Hr by easy. pose proof (ranges_in_bounds t _ rs s n Ht Hr Hin). lia. }
  destruct (worker_bound rs errs i s n Hi He Hin Hsn) as (k & Hk & B). exists k. split; [easy|].
  intros seed xs H1 H2 H3. specialize (B seed xs H1 H2 H3). lia.
Qed.
(** converse: if every combination vanishes and the opened words are the committed values, one fixed
    set of messages passes for every key *)
Theorem C09_vanishing_combination_passes :
  forall pub_mac pU pMac threads csz psz seeds pseeds words c,
  (1 <= threads <= 32)%nat -> pub_mac < prm -> (forall k, pseeds k < 2 ^ 64) -> Forall wf_pub c -> words_ok words 0 c ->
  let cmt := acommit pU csz psz words c in
  (forall k errs rs, nth_error (mul_batches cmt) k = Some errs -> a_ranges threads (length errs) = Some rs ->
     a_combined rs (a_chal seeds k) errs = 0) ->
  (forall k errs, nth_error (rel_batches cmt) k = Some errs ->
     a_combined [(0%nat, length errs)] (fun _ => pseeds k mod prm) errs = 0) ->
  Forall (fun r => snd r = fst r) (ac_rev cmt) -> Forall (fun e => fst e = snd e) (ac_exp cmt) ->
  exists chkmsg pchkmsg hin, forall (D : Type) (Deqb : D -> D -> bool) (H : list N -> D) d,
    (forall a, Deqb a a = true) -> d < prm ->
    exists v, av_exec pub_mac (vole_key pU pMac d) d threads csz psz seeds pseeds words chkmsg pchkmsg c = Some v /\
      av_outcome Deqb H v (H hin) = (false, false) /\ av_outs v = claimed words 0 c.
Proof. exact vanishing_passes. Qed.
(** why the corrections are assumed at most p: the verifier does not reduce them, and a larger word
    commits the prover to no value at all (no line m - x*Delta fits the resulting keys) *)
Theorem C09_unreduced_correction_refuted :
  exists w, w < 2 ^ 64 /\ forall m x, exists d, d < prm /\ a_ver_input d 0 w mod prm <> fsub m (x * d).
Proof.
  exists (2 ^ 64 - 16). split; [reflexivity|]. intros m x.
  destruct (N.eq_dec (a_ver_input 1 0 (2 ^ 64 - 16) mod prm) (fsub m (x * 1))) as [E1|E1]; [|exists 1; now split].
  destruct (N.eq_dec (a_ver_input 2 0 (2 ^ 64 - 16) mod prm) (fsub m (x * 2))) as [E2|E2]; [|exists 2; now split].
  exists (prm - 2). split; [reflexivity|]. intro E3.
  apply (f_equal toF) in E1, E2, E3. rewrite fsub_F, toF_mul in E1, E2, E3.
  change (a_ver_input 1 0 (2 ^ 64 - 16) mod prm) with (prm - 8) in E1.
  change (a_ver_input 2 0 (2 ^ 64 - 16) mod prm) with (prm - 16) in E2.
  change (a_ver_input (prm - 2) 0 (2 ^ 64 - 16) mod prm) with 8 in E3.
  assert (Ex : toF x = psub (toF (prm - 8)) (toF (prm - 16))).
  { rewrite E1, E2. change (toF 1) with p1. replace (toF 2) with (padd p1 p1) by (now apply fv_inj). ring. }
  assert (Em : toF m = p0).
  { transitivity (padd (toF (prm - 8)) (pmul (toF x) (toF 1))); [rewrite E1; ring|]. rewrite Ex. now apply fv_inj. }
  rewrite Ex, Em in E3. apply (f_equal fv) in E3. vm_compute in E3. discriminate.
Qed.
(** a cheating session: 2*2 claimed to be 5, opened as 5, rejected by this key *)
Definition cheat_words (k : nat) : N :=
  match k with 0%nat => fsub (demo_U 1) 2 | 1%nat => fsub (demo_U 2) 5 | _ => 5 end.
Example C09_example :
  let c := [AIn 0; AMul 0 0; AReveal 1] in
  let cm := acommit demo_U 4 4 cheat_words c in
  mul_batches cm = [[prm - 1]] /\ pl_outs (aplain (awith_inputs (ac_ins cm) c)) = [4] /\
  words_ok cheat_words 0 c /\ Forall wf_pub c /\
  a_combined [(0%nat, 1%nat)] (a_chal demo_s 0) [prm - 1] <> 0 /\
  match av_exec 77 (vole_key demo_U demo_M demo_d) demo_d 1 4 4 demo_s demo_p cheat_words (fun _ => (0, 0)) (fun _ => (0, 0)) c with
  | Some v => av_outs v = [5] /\ av_err v = true
  | None => False end.
Proof.
  split; [vm_compute; reflexivity|]. split; [vm_compute; reflexivity|]. split; [vm_compute; repeat split; discriminate|].
  split; [repeat constructor|]. split; [vm_compute; discriminate|]. vm_compute. auto.
Qed.

(** ** C10: coverage *)
Theorem C10_exact_coverage : forall t cnt rs i, (1 <= t)%nat -> a_ranges t cnt = Some rs ->
  (covered rs i <-> if Nat.ltb cnt 32 then (i < cnt)%nat
                    else (i < t * (cnt / t) + (cnt mod t) mod (cnt / t))%nat).
Proof. exact a_covered_iff. Qed.
Theorem C10_complete_iff : forall t cnt rs, (1 <= t)%nat -> a_ranges t cnt = Some rs ->
  ((forall i, (i < cnt)%nat -> covered rs i) <-> (cnt < 32 \/ cnt mod t < cnt / t)%nat).
Proof. exact a_all_covered_iff. Qed.
Theorem C10_five_threads_complete : forall t cnt, (1 <= t <= 5)%nat ->
  exists rs, a_ranges t cnt = Some rs /\ forall i, (i < cnt)%nat -> covered rs i.
Proof.
  intros t cnt Ht. destruct (a_ranges_defined t cnt) as [rs E]; [lia|]. exists rs. split; [easy|].
  apply (a_all_covered_iff t cnt rs); [lia|easy|].
  destruct (Nat.lt_ge_cases cnt 32); [now left|right].
  pose proof (Nat.mod_upper_bound cnt t ltac:(lia)).
  assert (6 <= cnt / t)%nat by (apply Nat.div_le_lower_bound; lia). lia.
Qed.
Theorem C10_division_by_zero_iff : forall t cnt, (1 <= t)%nat -> (a_ranges t cnt = None <-> (32 <= cnt < t)%nat).
Proof.
  intros t cnt Ht. rewrite a_ranges_none. rewrite Nat.div_small_iff by lia. lia.
Qed.
Theorem C10_full_batch_complete : forall t, (1 <= t <= 1024)%nat ->
  exists rs, a_ranges t (1024 * 1024) = Some rs /\ forall i, (i < 1024 * 1024)%nat -> covered rs i.
Proof.
  intros t Ht.
  assert (L : forall n, (1024 <= n)%nat -> (32 <= n * n)%nat /\ (t <= n * n / t)%nat).
  { intros n Hn. split.
    - apply Nat.le_trans with (1 * n)%nat; [lia|]. apply Nat.mul_le_mono_r. lia.
    - apply Nat.div_le_lower_bound; [lia|]. apply Nat.mul_le_mono; lia. }
  specialize (L 1024%nat (le_n _)). set (n := (1024 * 1024)%nat) in *. clearbody n. destruct L as [L1 L2].
  rewrite a_ranges_and by easy. destruct (and_ranges t n) as [rs|] eqn:E.
  - exists rs. split; [easy|]. apply (all_covered_iff t n rs); [lia|easy|].
    pose proof (Nat.mod_upper_bound n t ltac:(lia)). lia.
  - apply and_ranges_none in E. lia.
Qed.
(** six threads and 35 multiplications: the last five are not checked; 0*0 = 1 is accepted and opened
    for every key, correlation and challenge *)
Theorem C10_unchecked_multiplication_refuted :
  exists c, (forall ins, pl_outs (aplain (awith_inputs ins c)) = [0]) /\
  forall pub_mac pU pMac seeds pseeds csz psz, (35 <= csz)%nat -> pub_mac < prm -> (forall k, pseeds k < 2 ^ 64) ->
  exists words chkmsg pchkmsg hin, words_ok words 0 c /\
    forall (D : Type) (Deqb : D -> D -> bool) (H : list N -> D) d,
    (forall a, Deqb a a = true) -> d < prm ->
    exists v, av_exec pub_mac (vole_key pU pMac d) d 6 csz psz seeds pseeds words chkmsg pchkmsg c = Some v /\
      av_outcome Deqb H v (H hin) = (false, false) /\ av_outs v = [1].
Proof.
  exists skip_c. split; [intro ins; vm_compute; now destruct ins|].
  intros pub_mac pU pMac seeds pseeds csz psz Hc Hpm Hps.
  destruct (skip_commit pU csz psz Hc) as (M & R & V & X).
  assert (Hw : words_ok (skip_words pU) 0 skip_c).
  { apply words_ok_small. intro k. unfold skip_words. destruct (Nat.ltb k 34); [apply mod_PR_lt|].
    destruct (Nat.eqb k 34); [apply fsub_lt|reflexivity]. }
  destruct (vanishing_passes pub_mac pU pMac 6 csz psz seeds pseeds (skip_words pU) skip_c) as (chk & pchk & hin & P); auto.
  - lia.
  - unfold skip_c. repeat constructor.
  - rewrite M. intros [|k] errs rs Hk Hrs; [|destruct k; discriminate]. injection Hk as <-. injection Hrs as <-.
    assert (Z : forall s n, a_range_error s (repeat 0 n) = 0).
    { intros s n. unfold a_range_error. generalize 0%nat as k. induction n as [|n IH]; intro k; [reflexivity|].
      cbn [repeat length seq combine map fold_right snd]. rewrite N.mul_0_r. exact (IH (S k)). }
    unfold a_combined. cbn [length seq combine map fst snd plus Nat.div Nat.divmod Nat.mul app].
    cbn [repeat app skipn firstn].
    change [0; 0; 0; 0; 0] with (repeat 0 5). rewrite !Z. reflexivity.
  - rewrite R. intros [|k] errs Hk; discriminate.
  - rewrite V. repeat constructor.
  - rewrite X. constructor.
  - exists (skip_words pU), chk, pchk, hin. split; [easy|]. exact P.
Qed.
Example C10_example : a_ranges 4 31 = Some [(0, 31)]%nat /\ a_ranges 3 40 = Some [(0, 13); (13, 13); (26, 14)]%nat.
Proof. vm_compute. auto. Qed.

(** ** C11: openings, at any point of a session.  [p] and [s] are the states of the two parties before the opening of
    wire i; [words (av_words s)] is the claimed word the verifier receives. *)
Lemma open_binds : forall d m x v, 0 < d < prm -> m < prm -> x < prm -> v < 2 ^ 63 ->
  add_mod (mult_mod v d) (fsub m (x * d)) = m -> v mod prm = x.
Proof.
  intros d m x v Hd Hm Hx Hv E.
  assert (Hv' : v < W64) by (eapply N.lt_trans; [exact Hv|reflexivity]).
  destruct (mm_add_F v d (fsub m (x * d)) Hv' (proj2 Hd) (fsub_lt _ _)) as (j & F & J).
  rewrite (J Hv), E, fsub_F, toF_mul in F.
  assert (Z : pmul (psub (toF v) (toF x)) (toF d) = p0).
  { transitivity (psub (padd (psub (pmul (toF v) (toF d)) p0) (psub (toF m) (pmul (toF x) (toF d)))) (toF m)); [ring|].
    rewrite <- F. ring. }
  apply fp_nzd in Z. destruct Z as [Z|Z].
  - assert (Q : toF v = toF x). { transitivity (padd (psub (toF v) (toF x)) (toF x)); [ring|]. rewrite Z. ring. }
    apply toF_eq in Q. rewrite (N.mod_small x) in Q by exact Hx. exact Q.
  - exfalso. apply (f_equal fv) in Z. rewrite fv_toF, N.mod_small in Z by apply Hd. cbn in Z. lia.
Qed.
Lemma open_accepts : forall d m x v, d < prm -> m < prm -> v <= prm -> v mod prm = x ->
  add_mod (mult_mod v d) (fsub m (x * d)) = m.
Proof.
  intros d m x v Hd Hm Hv <-. rewrite prm_PR in *.
  pose proof (mm_lt v d ltac:(lia) ltac:(lia)). pose proof (fsub_lt m (v mod PR * d)).
  apply toF_inj; [apply am_lt; lia|easy|].
  rewrite am_F, mm_F, fsub_F, toF_mul, toF_mod by lia. ring.
Qed.
(** a claim not congruent to the committed value: one key below 2^63, two keys below 2^64 *)
Lemma open_keys : forall m x v s deltas, m < prm -> x < prm -> v < 2 ^ 64 -> v mod prm <> x -> NoDup deltas ->
  (forall d, In d deltas -> d < prm /\ add_mod (mult_mod v d) (fsub m (x * d)) = s) ->
  (length deltas <= 2)%nat /\ (v < 2 ^ 63 -> (length deltas <= 1)%nat).
Proof.
  intros m x v s deltas Hm Hx Hv Hne Hnd Hd.
  apply (reveal_bound ((toF m, toF x), v) deltas s); auto.
  - cbn [fst snd]. intro E. apply Hne. apply toF_eq in E. now rewrite (N.mod_small x) in E by exact Hx.
  - intros d Hi. destruct (Hd d Hi) as [L E]. split; [exact L|]. rewrite <- E. unfold rev_mac. cbn [fst snd]. f_equal.
    transitivity (fv (toF (fsub m (x * d)))).
    + f_equal. rewrite fsub_F, toF_mul. reflexivity.
    + rewrite fv_toF. apply N.mod_small, fsub_lt.
Qed.
Lemma share_key d blk key : share_ok d blk key -> key = fsub (lo64 blk) (hi64 blk * d) /\ lo64 key = key /\ lo64 blk < prm /\ hi64 blk < prm.
Proof.
  intros (S1 & S2 & S3 & S4).
  change (blk / 2 ^ 64) with (hi64 blk) in *. change (blk mod 2 ^ 64) with (lo64 blk) in *.
  rewrite prm_PR in *. split; [|split; [apply lo_id; lia|auto]].
  apply toF_inj; [exact S3|apply fsub_lt|]. rewrite fsub_F, toF_mul, S4, toF_mod, toF_add, toF_mul. ring.
Qed.
(** matching transcripts bind the value modulo p *)
Theorem C11_opening_binds : forall pub_mac pV vK d threads csz psz seeds pseeds words chkmsg pchkmsg p s p' s' i,
  0 < d < prm -> share_ok d (awire (ap_w p) i) (awire (av_w s) i) -> words (av_words s) < 2 ^ 63 ->
  ap_step pub_mac pV threads csz psz seeds pseeds p (AReveal i) = Some p' ->
  av_step pub_mac vK d threads csz psz seeds pseeds words chkmsg pchkmsg s (AReveal i) = Some s' ->
  exists hp hv, ap_hash p' = ap_hash p ++ [hp] /\ av_hash s' = av_hash s ++ [hv] /\
    av_outs s' = av_outs s ++ [words (av_words s)] /\ (hv = hp -> words (av_words s) mod prm = hi64 (awire (ap_w p) i)).
Proof.
  intros pub_mac pV vK d threads csz psz seeds pseeds words chkmsg pchkmsg p s p' s' i Hd Hs Hv Ep Ev.
  cbn in Ep, Ev. injection Ep as <-. injection Ev as <-. unfold ap_reveal, av_reveal. cbn [ap_hash av_hash av_outs].
  do 2 eexists. split; [reflexivity|]. split; [reflexivity|]. split; [reflexivity|].
  destruct (share_key _ _ _ Hs) as (Ek & El & L1 & L2). rewrite (lo_id d) by (rewrite prm_PR in Hd; lia).
  rewrite El, Ek. intro E. exact (open_binds d _ _ _ Hd L1 L2 Hv E).
Qed.
(** every word up to p with the right residue is accepted *)
Theorem C11_opening_accepts : forall pub_mac pV vK d threads csz psz seeds pseeds words chkmsg pchkmsg p s p' s' i,
  d < prm -> share_ok d (awire (ap_w p) i) (awire (av_w s) i) -> words (av_words s) <= prm ->
  words (av_words s) mod prm = hi64 (awire (ap_w p) i) ->
  ap_step pub_mac pV threads csz psz seeds pseeds p (AReveal i) = Some p' ->
  av_step pub_mac vK d threads csz psz seeds pseeds words chkmsg pchkmsg s (AReveal i) = Some s' ->
  exists h, ap_hash p' = ap_hash p ++ [h] /\ av_hash s' = av_hash s ++ [h] /\ av_outs s' = av_outs s ++ [words (av_words s)].
Proof.
  intros pub_mac pV vK d threads csz psz seeds pseeds words chkmsg pchkmsg p s p' s' i Hd Hs Hv Hc Ep Ev.
  cbn in Ep, Ev. injection Ep as <-. injection Ev as <-. unfold ap_reveal, av_reveal. cbn [ap_hash av_hash av_outs].
  eexists. split; [reflexivity|]. split; [|reflexivity]. do 2 f_equal.
  destruct (share_key _ _ _ Hs) as (Ek & El & L1 & L2). rewrite (lo_id d) by (rewrite prm_PR in Hd; lia).
  rewrite El, Ek. exact (open_accepts d _ _ _ Hd L1 Hv Hc).
Qed.
(** the word p is a second accepted opening of 0: for every key, correlation and state; and x + p of x for suitable keys *)
Theorem C11_noncanonical_opening_refuted :
  (forall pub_mac pV vK d threads csz psz seeds pseeds words chkmsg pchkmsg p s p' s' i,
     d < prm -> share_ok d (awire (ap_w p) i) (awire (av_w s) i) -> hi64 (awire (ap_w p) i) = 0 -> words (av_words s) = prm ->
     ap_step pub_mac pV threads csz psz seeds pseeds p (AReveal i) = Some p' ->
     av_step pub_mac vK d threads csz psz seeds pseeds words chkmsg pchkmsg s (AReveal i) = Some s' ->
     exists h, ap_hash p' = ap_hash p ++ [h] /\ av_hash s' = av_hash s ++ [h] /\ av_outs s' = av_outs s ++ [prm]) /\
  (exists d m, 0 < d < prm /\ m < prm /\ add_mod (mult_mod (3 + prm) d) (fsub m (3 * d)) = m).
Proof.
  split.
  - intros pub_mac pV vK d threads csz psz seeds pseeds words chkmsg pchkmsg p s p' s' i Hd Hs Hz Hw Ep Ev.
    destruct (C11_opening_accepts _ _ _ _ _ _ _ _ _ _ _ _ _ _ _ _ _ Hd Hs ltac:(rewrite Hw; apply N.le_refl)
      ltac:(rewrite Hw, Hz; reflexivity) Ep Ev) as (h & A & B & C). rewrite Hw in C. eauto.
  - exists 1, 10. vm_compute. auto.
Qed.
(** a claim not congruent to the committed value x: one key below 2^63, two keys below 2^64, whatever string the prover hashes *)
Theorem C11_wrong_claim_keys : forall pub_mac threads csz psz seeds pseeds m x v str i deltas,
  m < prm -> x < prm -> v < 2 ^ 64 -> v mod prm <> x -> NoDup deltas ->
  (forall d, In d deltas -> d < prm /\ exists vK words chkmsg pchkmsg s s',
     awire (av_w s) i = fsub m (x * d) /\ words (av_words s) = v /\
     av_step pub_mac vK d threads csz psz seeds pseeds words chkmsg pchkmsg s (AReveal i) = Some s' /\ av_hash s' = av_hash s ++ [str]) ->
  (length deltas <= 2)%nat /\ (v < 2 ^ 63 -> (length deltas <= 1)%nat).
Proof.
  intros pub_mac threads csz psz seeds pseeds m x v str i deltas Hm Hx Hv Hne Hnd Hd.
  apply (open_keys m x v str deltas); auto. intros d Hi.
  destruct (Hd d Hi) as (L & vK & words & chkmsg & pchkmsg & s & s' & Ew & Evv & Ev & Eh). split; [exact L|].
  cbn in Ev. injection Ev as <-. unfold av_reveal in Eh. cbn [av_hash] in Eh. apply app_inv_head in Eh. injection Eh as <-.
  rewrite Ew, Evv, (lo_id d) by (rewrite prm_PR in L; lia).
  rewrite (lo_id (fsub m (x * d))); [reflexivity|]. pose proof (fsub_lt m (x * d)). lia.
Qed.
(** a session that opens 3 * (p-1): with the right word, and with that word plus one *)
Example C11_example :
  match ap_run 77 (vole_block demo_U demo_M) 1 2 2 demo_s demo_p ap_init [AIn 3; AIn (prm - 1); AMul 0 1] with
  | Some p =>
      let ws v k := if Nat.eqb k 3 then v else nth k (ap_words p) 0 in
      let run v := av_run 77 (vole_key demo_U demo_M demo_d) demo_d 1 2 2 demo_s demo_p (ws v) (fun _ => (0, 0)) (fun _ => (0, 0))
                     av_init [AIn 0; AIn 0; AMul 0 1; AReveal 2] in
      let m := lo64 (awire (ap_w p) 2) in
      match run (prm - 3), run (prm - 2) with
      | Some v, Some v' => av_hash v = [m] /\ av_outs v = [prm - 3] /\ (match av_hash v' with [h] => negb (N.eqb h m) | _ => false end) = true
      | _, _ => False end
  | None => False end.
Proof. vm_compute. auto. Qed.

(** ** C12: zero tests of a vector of wires, at any point of a session *)
Lemma zero_iff : forall d m x, 0 < d < prm -> m < prm -> x < prm ->
  (fsub m (x * d) = m <-> x = 0).
Proof.
  intros d m x Hd Hm Hx. split.
  - intro E.
    assert (Z : pmul (toF x) (toF d) = p0).
    { apply (f_equal toF) in E. rewrite fsub_F, toF_mul in E.
      transitivity (psub (toF m) (psub (toF m) (pmul (toF x) (toF d)))); [ring|]. rewrite E. ring. }
    apply fp_nzd in Z. destruct Z as [Z|Z]; apply (f_equal fv) in Z; rewrite fv_toF in Z.
    + rewrite N.mod_small in Z by exact Hx. exact Z.
    + rewrite N.mod_small in Z by apply Hd. cbn in Z. lia.
  - intros ->. apply toF_inj; [apply fsub_lt|exact Hm|]. rewrite fsub_F, N.mul_0_l, toF_0. ring.
Qed.
Lemma zero_keys : forall m x s deltas, m < prm -> 0 < x < prm -> NoDup deltas ->
  (forall d, In d deltas -> d < prm /\ fsub m (x * d) = s) -> (length deltas <= 1)%nat.
Proof.
  intros m x s deltas Hm Hx Hnd Hd.
  rewrite <- (map_length toF). apply (fp_lin (psub (toF s) (toF m)) (toF x)).
  - intro Z. apply (f_equal fv) in Z. rewrite fv_toF, N.mod_small in Z by apply Hx. cbn in Z. lia.
  - apply NoDup_map_in; [|exact Hnd]. intros a b Ha Hb. apply toF_inj; now apply Hd.
  - intros y Hy. apply in_map_iff in Hy. destruct Hy as (d & <- & Hi). destruct (Hd d Hi) as [_ E].
    rewrite <- E, fsub_F, toF_mul. ring.
Qed.
Lemma ap_zeros pub_mac pV threads csz psz seeds pseeds is : forall p p',
  ap_run pub_mac pV threads csz psz seeds pseeds p (map AZero is) = Some p' ->
  ap_hash p' = ap_hash p ++ map (fun i => lo64 (awire (ap_w p) i)) is.
Proof.
  induction is as [|i is IH]; intros p p' E; cbn [map ap_run ap_step] in E.
  - injection E as <-. now rewrite app_nil_r.
  - apply IH in E. cbn [ap_hash ap_w] in E. rewrite E, <- app_assoc. reflexivity.
Qed.
Lemma av_zeros pub_mac vK d threads csz psz seeds pseeds words chkmsg pchkmsg is : forall s s',
  av_run pub_mac vK d threads csz psz seeds pseeds words chkmsg pchkmsg s (map AZero is) = Some s' ->
  av_hash s' = av_hash s ++ map (fun i => lo64 (awire (av_w s) i)) is.
Proof.
  induction is as [|i is IH]; intros s s' E; cbn [map av_run av_step] in E.
  - injection E as <-. now rewrite app_nil_r.
  - apply IH in E. cbn [av_hash av_w] in E. rewrite E, <- app_assoc. reflexivity.
Qed.
(** honest shares: the two parties put the same strings into their hashes iff every tested value is 0 *)
Theorem C12_zero_test_iff : forall pub_mac pV vK d threads csz psz seeds pseeds words chkmsg pchkmsg p s p' s' is,
  0 < d < prm -> (forall i, In i is -> share_ok d (awire (ap_w p) i) (awire (av_w s) i)) ->
  ap_run pub_mac pV threads csz psz seeds pseeds p (map AZero is) = Some p' ->
  av_run pub_mac vK d threads csz psz seeds pseeds words chkmsg pchkmsg s (map AZero is) = Some s' ->
  exists hp hv, ap_hash p' = ap_hash p ++ hp /\ av_hash s' = av_hash s ++ hv /\ length hp = length is /\
    (hp = hv <-> forall i, In i is -> hi64 (awire (ap_w p) i) = 0).
Proof.
  intros pub_mac pV vK d threads csz psz seeds pseeds words chkmsg pchkmsg p s p' s' is Hd Hs Ep Ev.
  apply ap_zeros in Ep. apply av_zeros in Ev. do 2 eexists. split; [exact Ep|]. split; [exact Ev|].
  split; [now rewrite map_length|]. clear -Hd Hs.
  assert (One : forall i, In i is -> (lo64 (awire (ap_w p) i) = lo64 (awire (av_w s) i) <-> hi64 (awire (ap_w p) i) = 0)).
  { intros i Hi. destruct (share_key _ _ _ (Hs i Hi)) as (Ek & El & L1 & L2). rewrite El, Ek.
    rewrite <- (zero_iff d _ _ Hd L1 L2). split; congruence. }
  split.
  - intros E i Hi. apply One; [exact Hi|]. exact (proj1 map_ext_in_iff E i Hi).
  - intro Z. apply map_ext_in. intros i Hi. apply One; auto.
Qed.
(** a non-zero value among the tested ones: whatever strings the prover hashes, at most one key matches *)
Theorem C12_nonzero_one_key : forall pub_mac threads csz psz seeds pseeds is (m x : nat -> N) strs deltas,
  (forall i, In i is -> m i < prm /\ x i < prm) -> (exists i, In i is /\ x i <> 0) -> NoDup deltas ->
  (forall d, In d deltas -> d < prm /\ exists vK words chkmsg pchkmsg s s',
     (forall i, In i is -> awire (av_w s) i = fsub (m i) (x i * d)) /\
     av_run pub_mac vK d threads csz psz seeds pseeds words chkmsg pchkmsg s (map AZero is) = Some s' /\ av_hash s' = av_hash s ++ strs) ->
  (length deltas <= 1)%nat.
Proof.
  intros pub_mac threads csz psz seeds pseeds is m x strs deltas Hmx (i & Hi & Hx) Hnd Hd.
  destruct (In_nth_error _ _ Hi) as [j Hj].
  apply (zero_keys (m i) (x i) (nth j strs 0) deltas); [apply Hmx; auto| |exact Hnd|].
  - split; [|apply Hmx; auto]. destruct (x i); [easy|reflexivity].
  - intros d Hin. destruct (Hd d Hin) as (L & vK & words & chkmsg & pchkmsg & s & s' & Ew & Ev & Eh). split; [exact L|].
    apply av_zeros in Ev. rewrite Ev in Eh. apply app_inv_head in Eh. subst strs.
    erewrite nth_error_nth; [|apply map_nth_error; exact Hj].
    rewrite (Ew i Hi). symmetry. apply lo_id. pose proof (fsub_lt (m i) (x i * d)). lia.
Qed.
(** in a session: the verifier's transcript after zero tests of committed values *)
Theorem C12_session_zero_test :
  forall pub_mac pU pMac threads csz psz seeds pseeds c i p d,
  vole_ok pU pMac -> pub_mac < prm -> (forall k, pseeds k < 2 ^ 64) -> Forall wf_honest c -> 0 < d < prm ->
  pl_ok (aplain c) = true ->
  ap_exec pub_mac (vole_block pU pMac) threads csz psz seeds pseeds (c ++ [AZero i]) = Some p ->
  exists v, av_exec pub_mac (vole_key pU pMac d) d threads csz psz seeds pseeds
      (fun k => nth k (ap_words p) 0) (fun k => nth k (ap_msgs p) (0, 0)) (fun k => nth k (ap_pmsgs p) (0, 0))
      (c ++ [AZero i]) = Some v /\ (av_hash v = ap_hash p <-> nth i (pl_w (aplain c)) 0 = 0).
Proof.
  intros pub_mac pU pMac threads csz psz seeds pseeds c i p d Hv Hpm Hps Hwf Hd Hok E.
  assert (Hwf' : Forall wf_honest (c ++ [AZero i])) by (apply Forall_app; split; [easy|repeat constructor]).
  set (words := fun k => nth k (ap_words p) 0). set (cm := fun k => nth k (ap_msgs p) (0, 0)).
  set (pm := fun k => nth k (ap_pmsgs p) (0, 0)).
  destruct (session_complete pub_mac pU pMac threads csz psz seeds pseeds _ p d Hv Hpm Hps Hwf' E (proj2 Hd))
    as (W & _ & v & Ev & _ & Sh & Acc). exists v. split; [exact Ev|].
  assert (Pw : pl_w (aplain (c ++ [AZero i])) = pl_w (aplain c)).
  { unfold aplain. rewrite fold_left_app. reflexivity. }
  assert (Pok : pl_ok (aplain (c ++ [AZero i])) = N.eqb (nth i (pl_w (aplain c)) 0) 0).
  { unfold aplain in *. rewrite fold_left_app. cbn [fold_left pl_step pl_ok]. rewrite Hok. reflexivity. }
  rewrite Pw in W.
  (* last hash entries *)
  assert (HP : exists h, ap_hash p = h ++ [lo64 (nth i (ap_w p) 0)]).
  { clear -E. unfold ap_exec in E.
    assert (R : forall l s, ap_run pub_mac (vole_block pU pMac) threads csz psz seeds pseeds s (l ++ [AZero i]) =
      match ap_run pub_mac (vole_block pU pMac) threads csz psz seeds pseeds s l with
      | None => None
      | Some s' => ap_step pub_mac (vole_block pU pMac) threads csz psz seeds pseeds s' (AZero i) end).
    { induction l as [|g l IH]; intro s; cbn [app ap_run]; [reflexivity|]. destruct (ap_step _ _ _ _ _ _ _ s g); auto. }
    rewrite R in E. destruct (ap_run _ _ _ _ _ _ _ ap_init c) as [s|]; [|discriminate]. cbn [ap_step] in E.
    unfold ap_final, ap_batch in E. cbv zeta in E.
    exists (ap_hash s).
    destruct (ap_poly s); cbn in E; destruct (ap_buf s);
      try (injection E as <-; reflexivity);
      unfold ap_manage in E; destruct (a_ranges _ _); try discriminate; injection E as <-; reflexivity. }
  assert (HV : exists h, av_hash v = h ++ [lo64 (nth i (av_w v) 0)]).
  { fold words cm pm in Ev. clearbody words cm pm. clear -Ev. unfold av_exec in Ev.
    assert (R : forall l s, av_run pub_mac (vole_key pU pMac d) d threads csz psz seeds pseeds words cm pm s (l ++ [AZero i]) =
      match av_run pub_mac (vole_key pU pMac d) d threads csz psz seeds pseeds words cm pm s l with
      | None => None
      | Some s' => av_step pub_mac (vole_key pU pMac d) d threads csz psz seeds pseeds words cm pm s' (AZero i) end).
    { induction l as [|g l IH]; intro s; cbn [app av_run]; [reflexivity|]. destruct (av_step _ _ _ _ _ _ _ _ _ _ _ s g); auto. }
    rewrite R in Ev. destruct (av_run _ _ _ _ _ _ _ _ _ _ _ av_init c) as [s|]; [|discriminate]. cbn [av_step] in Ev.
    unfold av_final, av_batch in Ev. cbv zeta in Ev.
    exists (av_hash s).
    destruct (av_poly s); cbn in Ev; destruct (av_buf s);
      try (injection Ev as <-; reflexivity);
      unfold av_manage in Ev; destruct (a_ranges _ _); try discriminate; injection Ev as <-; reflexivity. }
  split.
  - intro Eq. destruct HP as [h1 HP], HV as [h2 HV]. rewrite HP, HV in Eq. apply app_inj_tail in Eq. destruct Eq as [_ Eq].
    rewrite <- W. change 0 with (hi64 0) at 1. rewrite map_nth.
    assert (S0 : share_ok d (nth i (ap_w p) 0) (nth i (av_w v) 0)).
    { clear -Sh Hd. revert i. induction Sh as [|a b la lb Hab Sh IH]; intros [|i]; cbn [nth]; auto;
        unfold share_ok; repeat split; reflexivity. }
    destruct S0 as (S1 & S2 & S3 & S4). fold (hi64 (nth i (ap_w p) 0)) in *.
    change (nth i (ap_w p) 0 / 2 ^ 64) with (hi64 (nth i (ap_w p) 0)) in *.
    change (nth i (ap_w p) 0 mod 2 ^ 64) with (lo64 (nth i (ap_w p) 0)) in *.
    rewrite prm_PR in *. rewrite lo_id in Eq by (apply N.lt_le_incl; exact S3). rewrite Eq in S4.
    set (x := hi64 (nth i (ap_w p) 0)) in *. set (m := lo64 (nth i (ap_w p) 0)) in *. clearbody x m.
    apply (proj1 (zero_iff d m x Hd S2 S1)).
    apply toF_inj; [apply fsub_lt|exact S2|]. rewrite fsub_F, toF_mul.
    apply (f_equal toF) in S4. rewrite toF_mod, toF_add, toF_mul in S4.
    transitivity (psub (toF m) (psub (padd (toF m) (pmul (toF x) (toF d))) (toF m))); [ring|]. rewrite <- S4. ring.
  - intro Z. rewrite Z in Pok. specialize (Acc Pok (list N) (fun a b => if list_eq_dec N.eq_dec a b then true else false) (fun l => l)).
    assert (Hr : forall a : list N, (if list_eq_dec N.eq_dec a a then true else false) = true)
      by (intro a; destruct (list_eq_dec N.eq_dec a a); congruence).
    specialize (Acc Hr). unfold av_outcome in Acc. injection Acc as A1 _. apply orb_false_elim in A1. destruct A1 as [_ A1].
    destruct (list_eq_dec N.eq_dec (av_hash v) (ap_hash p)); [easy|discriminate].
Qed.
(** 3 - 3 and 3 * (p-1) tested: the first string matches, the second does not *)
Example C12_example :
  match ap_run 77 (vole_block demo_U demo_M) 1 2 2 demo_s demo_p ap_init [AIn 3; AIn (prm - 1); AMul 0 1; ASub 0 0; AZero 3; AZero 2] with
  | Some p =>
      match av_run 77 (vole_key demo_U demo_M demo_d) demo_d 1 2 2 demo_s demo_p (fun k => nth k (ap_words p) 0) (fun _ => (0, 0)) (fun _ => (0, 0))
              av_init [AIn 0; AIn 0; AMul 0 1; ASub 0 0; AZero 3; AZero 2] with
      | Some v => match ap_hash p, av_hash v with [a; b], [a'; b'] => a = a' /\ N.eqb b b' = false | _, _ => False end
      | None => False end
  | None => False end.
Proof. vm_compute. auto. Qed.

(** ** C13: polynomial relations (completeness and the session bound are C08 and C09, whose circuits
    contain fp_zkp_poly_deg2 and fp_zkp_inner_prdt steps); here one relation batch alone. *)
Theorem C13_batch_bound :
  forall pub_mac pU pMac threads csz psz seeds pseeds words chkmsg pchkmsg (c : list agate) (deltas : list N) k errs,
  NoDup deltas -> pub_mac < prm -> Forall wf_pub c -> words_ok words 0 c -> (forall k, pseeds k < 2 ^ 64) ->
  nth_error (rel_batches (acommit pU csz psz words c)) k = Some errs ->
  a_combined [(0%nat, length errs)] (fun _ => pseeds k mod prm) errs <> 0 ->
  snd (pchkmsg k) < 2 ^ 64 ->
  (forall d, In d deltas -> d < prm /\ exists v,
     av_exec pub_mac (vole_key pU pMac d) d threads csz psz seeds pseeds words chkmsg pchkmsg c = Some v /\ av_cheat v = false) ->
  (length deltas <= 4)%nat /\ (snd (pchkmsg k) < 2 ^ 63 -> (length deltas <= 2)%nat).
Proof. intros. eapply rel_batch_bound; eauto. Qed.
Theorem C13_challenge_bound : forall errs i, (i < length errs)%nat -> nth i errs 0 mod prm <> 0 ->
  forall xs, NoDup xs -> Forall (fun x => x < prm) xs ->
  (forall x, In x xs -> a_combined [(0%nat, length errs)] (fun _ => x) errs = 0) -> (length xs <= length errs)%nat.
Proof.
  intros errs i Hi He xs Hnd Hx Hz.
  destruct (worker_bound [(0%nat, length errs)] errs i 0 (length errs) Hi He) as (k & Hk & B); [now left|lia|].
  cbn [length] in Hk. replace k with 0%nat in B by lia. apply (B (fun _ => 0) xs); auto.
Qed.
Theorem C13_honest_accepts :
  forall pub_mac pU pMac threads csz psz seeds pseeds (c : list agate) p d,
  vole_ok pU pMac -> pub_mac < prm -> (forall k, pseeds k < 2 ^ 64) -> Forall wf_honest c ->
  ap_exec pub_mac (vole_block pU pMac) threads csz psz seeds pseeds c = Some p -> d < prm -> pl_ok (aplain c) = true ->
  exists v, av_exec pub_mac (vole_key pU pMac d) d threads csz psz seeds pseeds
      (fun k => nth k (ap_words p) 0) (fun k => nth k (ap_msgs p) (0, 0)) (fun k => nth k (ap_pmsgs p) (0, 0)) c = Some v /\
    av_cheat v = false.
Proof.
  intros pub_mac pU pMac threads csz psz seeds pseeds c p d Hv Hpm Hps Hwf E Hd Hok.
  destruct (session_complete pub_mac pU pMac threads csz psz seeds pseeds c p d Hv Hpm Hps Hwf E Hd) as (_ & _ & v & Ev & _ & _ & A).
  exists v. split; [easy|]. specialize (A Hok unit (fun _ _ => true) (fun _ => tt) (fun _ => eq_refl)).
  unfold av_outcome in A. now injection A.
Qed.
(** a false relation is recorded only as cheating, it does not stop the session *)
Definition cheat_words2 (k : nat) : N := match k with 0%nat => fsub (demo_U 1) 2 | _ => 0 end.
Example C13_example :
  let c := [AIn 0; APoly [0%nat] [0%nat] [prm - 5; 1]] in
  let cm := acommit demo_U 4 4 cheat_words2 c in
  rel_batches cm = [[prm - 1]] /\ pl_ok (aplain (awith_inputs (ac_ins cm) c)) = false /\
  a_combined [(0%nat, 1%nat)] (fun _ => demo_p 0 mod prm) [prm - 1] <> 0 /\
  match av_exec 77 (vole_key demo_U demo_M demo_d) demo_d 1 4 4 demo_s demo_p cheat_words2 (fun _ => (0, 0)) (fun _ => (0, 0)) c with
  | Some v => av_err v = false /\ av_cheat v = true
  | None => False end.
Proof. vm_compute. repeat split; discriminate. Qed.

Print Assumptions C08_honest_session_accepts.
Print Assumptions C08_defined.
Print Assumptions C08_many_threads_refuted.
Print Assumptions C09_session_soundness.
Print Assumptions C09_session_soundness_two.
Print Assumptions C09_batch_bound.
Print Assumptions C09_challenge_bound.
Print Assumptions C09_vanishing_combination_passes.
Print Assumptions C09_unreduced_correction_refuted.
Print Assumptions C10_exact_coverage.
Print Assumptions C10_complete_iff.
Print Assumptions C10_five_threads_complete.
Print Assumptions C10_unchecked_multiplication_refuted.
Print Assumptions C11_opening_binds.
Print Assumptions C11_opening_accepts.
Print Assumptions C11_noncanonical_opening_refuted.
Print Assumptions C11_wrong_claim_keys.
Print Assumptions C12_zero_test_iff.
Print Assumptions C12_nonzero_one_key.
Print Assumptions C12_session_zero_test.
Print Assumptions C13_batch_bound.
Print Assumptions C13_challenge_bound.
Print Assumptions C13_honest_accepts.
