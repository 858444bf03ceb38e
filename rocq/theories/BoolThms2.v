From Coq Require Import NArith List Bool Arith Lia Ring.
From Verif Require Import Word WordProofs GF128 GF128Ring GF128Field PolyRoots ListUtil
  BoolModel BoolSpec BoolProofs BoolAlg BoolThms.
Import ListNotations.
Ltac Zify.zify_post_hook ::= idtac.

(** * How many challenges hide an error *)
Lemma gdot_powers l : forall pw x,
  gdot (map toG (gf_powers_from pw x (length l))) l = gmul (toG pw) (peval GF g0 gadd gmul l (toG x)).
Proof.
  induction l as [|e l IH]; intros pw x; cbn [length gf_powers_from map gdot peval]; [ring|].
  rewrite IH, toG_gfmul. ring.
Qed.
Lemma range_error_poly seed errs :
  toG (range_error seed errs) = gmul (toG seed) (peval GF g0 gadd gmul (map b2g errs) (toG seed)).
Proof.
  rewrite range_error_ok. unfold gf_coeff_gen. rewrite <- (map_length b2g errs). apply gdot_powers.
Qed.
Lemma combine_seq_mid {A} (r1 r2 : list A) x a :
  combine (seq a (length (r1 ++ x :: r2))) (r1 ++ x :: r2) =
  combine (seq a (length r1)) r1 ++ (a + length r1, x) :: combine (seq (S (a + length r1)) (length r2)) r2.
Proof.
  revert a. induction r1 as [|y r1 IH]; intro a; cbn.
  - now rewrite Nat.add_0_r.
  - f_equal. rewrite IH. rewrite Nat.add_succ_r. reflexivity.
Qed.
Lemma gsum_app l1 l2 : gsum (l1 ++ l2) = gadd (gsum l1) (gsum l2).
Proof.
  induction l1 as [|x l IH].
  - change (gsum []) with g0. cbn [app]. ring.
  - change (gsum ((x :: l) ++ l2)) with (gadd x (gsum (l ++ l2))).
    change (gsum (x :: l)) with (gadd x (gsum l)). rewrite IH. ring.
Qed.
Lemma in_combine_seq {A} (l : list A) a j x : In (j, x) (combine (seq a (length l)) l) -> a <= j < a + length l.
Proof. intro H. apply in_combine_l in H. now apply in_seq in H. Qed.
Lemma challenge_bound t errs rs : 1 <= t -> and_ranges t (length errs) = Some rs ->
  length errs mod t < length errs / t -> In true errs ->
  exists k, k < t /\ forall (seed : nat -> N) xs, NoDup xs -> Forall (fun x => (x < 2 ^ 128)%N) xs ->
    (forall x, In x xs -> combined_error rs (fun j => if Nat.eqb j k then x else seed j) errs = 0%N) ->
    length xs <= length errs.
Proof.
  intros Ht Hr Hc Hin.
  destruct (In_nth _ _ false Hin) as [i [Hi Ei]].
  destruct (proj2 (all_covered_iff t _ rs Ht Hr) Hc i Hi) as [s [n [Hsn Hrange]]].
  destruct (in_split _ _ Hsn) as [r1 [r2 Er]].
  assert (Hlen : length rs = t).
  { apply and_ranges_some in Hr. cbv zeta in Hr. destruct Hr as [_ ->].
    rewrite app_length, map_length, seq_length. cbn. lia. }
  exists (length r1). split; [rewrite <- Hlen, Er, app_length; cbn; lia|].
  intros seed xs Hnd Hlt Hz.
  set (seg := firstn n (skipn s errs)) in *.
  assert (Hseg : In true seg).
  { replace true with (nth (i - s) seg false).
    - apply nth_In. unfold seg. rewrite firstn_length, skipn_length. lia.
    - rewrite <- Ei. unfold seg. clear -Hrange Hi.
      assert (L : i - s < length (firstn n (skipn s errs))) by (rewrite firstn_length, skipn_length; lia).
      rewrite <- (app_nth1 _ (skipn n (skipn s errs)) false L), firstn_skipn.
      rewrite <- (firstn_skipn s errs) at 2. rewrite app_nth2; rewrite firstn_length; [|lia].
      f_equal. lia. }
  set (rest := gadd
     (gsum (map (fun ir => toG (range_error (seed (fst ir)) (firstn (snd (snd ir)) (skipn (fst (snd ir)) errs))))
                (combine (seq 0 (length r1)) r1)))
     (gsum (map (fun ir => toG (range_error (seed (fst ir)) (firstn (snd (snd ir)) (skipn (fst (snd ir)) errs))))
                (combine (seq (S (length r1)) (length r2)) r2)))).
  assert (Hpoly : forall x, In x xs -> peval GF g0 gadd gmul (rest :: map b2g seg) (toG x) = g0).
  { intros x Hx. specialize (Hz x Hx). apply (f_equal toG) in Hz. unfold combined_error in Hz.
    rewrite toG_foldxor, map_map, Er, combine_seq_mid in Hz.
    rewrite map_app, gsum_app in Hz. cbn [map fst snd] in Hz. rewrite Nat.eqb_refl in Hz.
    change (gsum (?a :: ?l)) with (gadd a (gsum l)) in Hz.
    cbn [plus] in Hz. fold seg in Hz. rewrite range_error_poly in Hz.
    change (toG 0) with g0 in Hz. etransitivity; [|exact Hz]. clear Hz. cbn [peval]. unfold rest.
    set (e1 := map _ (combine (seq 0 (length r1)) r1)) at 1.
    set (e2 := map _ (combine (seq (S (length r1)) (length r2)) r2)) at 1.
    match goal with |- _ = gadd (gsum ?a1) (gadd _ (gsum ?a2)) => assert (A1 : a1 = e1); [|assert (A2 : a2 = e2)] end.
    - unfold e1. apply map_ext_in. intros [j [a b]] Hj. cbn [fst snd].
      apply in_combine_seq in Hj. replace (Nat.eqb j (length r1)) with false; [reflexivity|].
      symmetry. apply Nat.eqb_neq. lia.
    - unfold e2. apply map_ext_in. intros [j [a b]] Hj. cbn [fst snd].
      apply in_combine_seq in Hj. replace (Nat.eqb j (length r1)) with false; [reflexivity|].
      symmetry. apply Nat.eqb_neq. lia.
    - rewrite A1, A2. ring. }
  assert (B : S (length (map toG xs)) <= length (rest :: map b2g seg)).
  { apply GF_root_count.
    - intro F. inversion F as [|? ? _ F' [Ea Eb]]; subst. rewrite Forall_map in F'.
      rewrite Forall_forall in F'. specialize (F' true Hseg). apply b2g_inj0 in F'. discriminate.
    - now apply In_map_toG_inj.
    - intros r Hr'. apply in_map_iff in Hr'. destruct Hr' as [x [<- Hx]]. now apply Hpoly. }
  cbn [length] in B. rewrite !map_length in B. unfold seg in B.
  rewrite firstn_length, skipn_length in B. lia.
Qed.

(** * Completeness *)
Section Honest.
  Variables (r0 r1 : N) (pM : nat -> N) (threads csz : nat) (seeds : nat -> nat -> N) (bitmsg : nat -> bool).
  Definition agree (l : list bool) : Prop := forall i b, nth_error l i = Some b -> bitmsg i = b.
  Lemma agree_app l l' : agree (l ++ l') -> agree l.
  Proof.
    intros H i b E. apply H. rewrite nth_error_app1; [easy|]. apply nth_error_Some. congruence.
  Qed.
  Lemma agree_last l b : agree (l ++ [b]) -> bitmsg (length l) = b.
  Proof. intro H. apply H. rewrite nth_error_app2, Nat.sub_diag by lia. reflexivity. Qed.
  Definition hmsg (ci : check_inst) : N * N :=
    prv_A_star (map pgate (ci_buf ci)) (ci_ranges ci) (seeds (ci_idx ci)) (map fst (ci_ope ci)).
  Definition ci_good (ci : check_inst) : Prop :=
    Forall lsb_ok_gate (ci_buf ci) /\ Forall lsb_ok (ci_ope ci) /\ length (ci_ope ci) = 128%nat /\
    Forall (fun g => eErr g = false) (ci_buf ci).
  Record psim (p : pst) (s : sst) : Prop := {
    ps_w : p_wires p = map fst (s_wires s);
    ps_b : p_buf p = map pgate (s_buf s);
    ps_h : p_hash p = map (fun r => fst (fst r)) (s_rev s);
    ps_c : p_cot p = s_cot s; ps_k : p_chk p = s_chk s;
    ps_m : s_bits s = length (p_bits p);
    ps_o : p_outs p = map snd (s_rev s);
    ps_g : p_msgs p = map hmsg (s_checks s);
    ps_n : s_chk s = length (s_checks s);
    ps_i : forall k ci, nth_error (s_checks s) k = Some ci -> ci_idx ci = k;
    ps_lsb : Forall lsb_ok (s_wires s);
    ps_bl : Forall lsb_ok_gate (s_buf s);
    ps_be : Forall (fun g => eErr g = false) (s_buf s);
    ps_cg : Forall ci_good (s_checks s);
    ps_r : Forall (fun r => snd (fst r) = snd r) (s_rev s) }.
  Lemma wire_fst ws i : wire (map fst ws) i = fst (swire ws i).
  Proof. unfold wire, swire. change 0%N with (fst (0%N, false)) at 1. apply map_nth. Qed.
  Lemma swire_lsb ws i : Forall lsb_ok ws -> lsb_ok (swire ws i).
  Proof.
    intro H. unfold swire. destruct (nth_in_or_default i ws (0%N, false)) as [Hin|E].
    - rewrite Forall_forall in H. now apply H.
    - rewrite E. reflexivity.
  Qed.
  Lemma psim_manage p p' s : psim p s -> prv_manage pM threads seeds p = Some p' ->
    exists s', s_manage pM threads s = Some s' /\ psim p' s' /\ p_bits p' = p_bits p /\
               s_wires s' = s_wires s /\ s_rev s' = s_rev s.
  Proof.
    intros [] H. unfold prv_manage in H. unfold s_manage. rewrite ps_b0, map_length in H.
    destruct (and_ranges threads (length (s_buf s))) as [rs|] eqn:E; [|discriminate].
    injection H as <-. eexists. split; [reflexivity|]. split; [|repeat split].
    constructor; cbn [s_wires s_buf s_rev s_cot s_chk s_bits s_checks p_wires p_buf p_hash p_cot p_chk p_bits p_msgs p_outs]; auto.
    - rewrite map_app, ps_g0. f_equal. cbn [map]. f_equal. unfold hmsg.
      cbn [ci_buf ci_ranges ci_idx ci_ope]. rewrite ps_k0, ps_c0.
      f_equal.
    - rewrite app_length. cbn [length]. lia.
    - intros k ci Hk. destruct (lt_dec k (length (s_checks s))) as [L|G].
      + rewrite nth_error_app1 in Hk by easy. now apply ps_i0.
      + rewrite nth_error_app2 in Hk by lia. destruct (k - length (s_checks s)) as [|m] eqn:Ek; [|destruct m; discriminate].
        cbn [nth_error] in Hk. injection Hk as <-. cbn [ci_idx]. lia.
    - apply Forall_app. split; [easy|]. constructor; [|constructor].
      unfold ci_good. cbn [ci_buf ci_ope]. repeat split; auto.
      + apply Forall_map. apply Forall_forall. intros i _. reflexivity.
  Qed.
  Lemma psim_precheck p p' s : psim p s -> prv_precheck pM threads csz seeds p = Some p' ->
    exists s', s_precheck pM threads csz s = Some s' /\ psim p' s' /\ p_bits p' = p_bits p /\
               s_wires s' = s_wires s /\ s_rev s' = s_rev s.
  Proof.
    intros Hp H. unfold prv_precheck in H. unfold s_precheck.
    rewrite (ps_b _ _ Hp), map_length in H.
    destruct (Nat.eqb (length (s_buf s)) csz).
    - destruct (prv_manage pM threads seeds p) as [p1|] eqn:E; [|discriminate]. injection H as <-.
      destruct (psim_manage p p1 s Hp E) as [s1 [-> [Hp1 [Eb [Ew Er]]]]].
      eexists. split; [reflexivity|]. split; [|repeat split; auto].
      destruct Hp1. constructor; cbn; auto.
    - injection H as <-. exists s. auto.
  Qed.
  Lemma psim_step p p' s g : psim p s -> prv_step r0 r1 pM threads csz seeds p g = Some p' ->
    agree (p_bits p') ->
    exists s', s_step r0 r1 pM threads csz bitmsg s g = Some s' /\ psim p' s' /\
      (exists more, p_bits p' = p_bits p ++ more) /\
      forall c, plain_eval (map snd (s_wires s)) (map snd (s_rev s)) (g :: c) =
                plain_eval (map snd (s_wires s')) (map snd (s_rev s')) c.
  Proof.
    intros Hp H Ha. destruct g as [x|b|i j|i|i j|i]; cbn [prv_step s_step] in *.
    - unfold prv_input in H. injection H as <-. cbn [p_bits] in Ha.
      apply agree_last in Ha. destruct Hp.
      assert (E : snew pM bitmsg s = (set_value_in_block (pM (p_cot p)) x, x)).
      { unfold snew. rewrite <- ps_c0, ps_m0, Ha. now destruct (getLSB (pM (p_cot p))), x. }
      eexists. split; [reflexivity|]. rewrite E. split; [|split].
      + constructor; cbn; auto.
        * now rewrite map_app, ps_w0.
        * rewrite app_length. cbn. lia.
        * apply Forall_app. split; [easy|]. constructor; [|constructor]. apply getLSB_svb.
      + now eexists.
      + intro c. cbn. now rewrite map_app.
    - injection H as <-. destruct Hp. eexists. split; [reflexivity|]. split; [|split].
      + constructor; cbn; auto.
        * now rewrite map_app, ps_w0.
        * apply Forall_app. split; [easy|]. constructor; [|constructor]. unfold lsb_ok. cbn.
          unfold prv_pub_label. destruct b.
          -- rewrite getLSB_lxor. unfold getLSB. rewrite N.land_spec. cbn. now rewrite andb_false_r.
          -- unfold getLSB. rewrite N.land_spec. cbn. now rewrite andb_false_r.
      + exists []. now rewrite app_nil_r.
      + intro c. cbn. now rewrite map_app.
    - injection H as <-. destruct Hp. eexists. split; [reflexivity|]. split; [|split].
      + constructor; cbn; auto.
        * rewrite map_app, ps_w0. cbn. unfold xor_gate. now rewrite !wire_fst.
        * apply Forall_app. split; [easy|]. constructor; [|constructor]. unfold lsb_ok. cbn.
          rewrite getLSB_lxor. now rewrite !(swire_lsb _ _ ps_lsb0).
      + exists []. now rewrite app_nil_r.
      + intro c. cbn. rewrite map_app, !pwire_snd. reflexivity.
    - injection H as <-. destruct Hp. eexists. split; [reflexivity|]. split; [|split].
      + constructor; cbn; auto.
        * rewrite map_app, ps_w0. cbn. now rewrite !wire_fst.
        * apply Forall_app. split; [easy|]. constructor; [|constructor]. unfold lsb_ok, prv_not. cbn.
          rewrite getLSB_lxor, (swire_lsb _ _ ps_lsb0). now destruct (snd (swire (s_wires s) i)).
      + exists []. now rewrite app_nil_r.
      + intro c. cbn. rewrite map_app, !pwire_snd. reflexivity.
    - destruct (prv_precheck pM threads csz seeds p) as [p1|] eqn:E; [|discriminate].
      destruct (psim_precheck p p1 s Hp E) as [s1 [-> [Hp1 [Eb [Ew Er]]]]].
      unfold prv_and in H. injection H as <-. cbn [p_bits] in Ha. apply agree_last in Ha.
      rewrite <- Ew, <- Er, <- Eb. destruct Hp1.
      rewrite ps_w0, !wire_fst in *.
      pose proof (swire_lsb _ i ps_lsb0) as Li. pose proof (swire_lsb _ j ps_lsb0) as Lj.
      rewrite Li, Lj in *.
      assert (En : snew pM bitmsg s1 = (set_value_in_block (pM (p_cot p1)) (snd (swire (s_wires s1) i) && snd (swire (s_wires s1) j)),
                     snd (swire (s_wires s1) i) && snd (swire (s_wires s1) j))).
      { unfold snew. rewrite <- ps_c0, ps_m0, Ha.
        now destruct (getLSB (pM (p_cot p1))), (snd (swire (s_wires s1) i) && snd (swire (s_wires s1) j)). }
      eexists. split; [reflexivity|]. rewrite En. split; [|split].
      + constructor; cbn; auto.
        * rewrite map_app. reflexivity.
        * rewrite map_app, ps_b0. reflexivity.
        * rewrite app_length. cbn. lia.
        * apply Forall_app. split; [easy|]. constructor; [|constructor]. apply getLSB_svb.
        * apply Forall_app. split; [easy|]. constructor; [|constructor]. cbn. repeat split; auto. apply getLSB_svb.
        * apply Forall_app. split; [easy|]. constructor; [|constructor]. cbn. now rewrite xorb_nilpotent.
      + now eexists.
      + intro c. cbn. rewrite map_app, !pwire_snd. reflexivity.
    - injection H as <-. cbn [p_bits] in Ha. apply agree_last in Ha. destruct Hp.
      pose proof (swire_lsb _ i ps_lsb0) as Li. rewrite ps_w0, wire_fst in *. rewrite Li in *.
      eexists. split; [reflexivity|]. split; [|split].
      + constructor; cbn; auto.
        * now rewrite map_app, ps_h0.
        * rewrite app_length. cbn. lia.
        * rewrite map_app, ps_o0, ps_m0, Ha. reflexivity.
        * apply Forall_app. split; [easy|]. constructor; [|constructor]. cbn. now rewrite ps_m0, Ha.
      + now eexists.
      + intro c. cbn. rewrite map_app, pwire_snd. cbn. now rewrite ps_m0, Ha.
  Qed.
  Lemma prv_bits_mono g : forall p p', prv_step r0 r1 pM threads csz seeds p g = Some p' ->
    exists more, p_bits p' = p_bits p ++ more.
  Proof.
    intros p p' H. destruct g; cbn in H; try (injection H as <-; cbn; eauto; fail);
      try (injection H as <-; exists []; cbn; now rewrite app_nil_r).
    destruct (prv_precheck pM threads csz seeds p) as [p1|] eqn:E; [|discriminate]. injection H as <-. cbn.
    assert (Eb : p_bits p1 = p_bits p).
    { unfold prv_precheck in E. destruct (Nat.eqb _ _); [|now injection E as <-].
      unfold prv_manage in E. destruct (and_ranges _ _); [|discriminate]. now injection E as <-. }
    rewrite Eb. eauto.
  Qed.
  Lemma prv_run_mono c : forall p p', prv_run r0 r1 pM threads csz seeds p c = Some p' ->
    exists more, p_bits p' = p_bits p ++ more.
  Proof.
    induction c as [|g c IH]; intros p p' H; cbn in H.
    - injection H as <-. exists []. now rewrite app_nil_r.
    - destruct (prv_step r0 r1 pM threads csz seeds p g) as [p1|] eqn:E; [|discriminate].
      destruct (prv_bits_mono g p p1 E) as [m1 E1]. destruct (IH p1 p' H) as [m2 E2].
      exists (m1 ++ m2). now rewrite E2, E1, app_assoc.
  Qed.
  Lemma psim_run c : forall p p' s, psim p s -> prv_run r0 r1 pM threads csz seeds p c = Some p' ->
    agree (p_bits p') ->
    exists s', s_run r0 r1 pM threads csz bitmsg s c = Some s' /\ psim p' s' /\
      plain_eval (map snd (s_wires s)) (map snd (s_rev s)) c = (map snd (s_wires s'), map snd (s_rev s')).
  Proof.
    induction c as [|g c IH]; intros p p' s Hp H Ha; cbn [prv_run s_run] in *.
    - injection H as <-. exists s. auto.
    - destruct (prv_step r0 r1 pM threads csz seeds p g) as [p1|] eqn:E; [|discriminate].
      destruct (prv_run_mono c p1 p' H) as [m Em].
      assert (Ha1 : agree (p_bits p1)) by (rewrite Em in Ha; now apply agree_app in Ha).
      destruct (psim_step p p1 s g Hp E Ha1) as [s1 [-> [Hp1 [_ Hpl]]]].
      destruct (IH p1 p' s1 Hp1 H Ha) as [s' [Es [Hp' Hpl']]].
      exists s'. split; [exact Es|]. split; [exact Hp'|]. rewrite Hpl. exact Hpl'.
  Qed.
  Lemma psim_exec c p : prv_exec r0 r1 pM threads csz seeds c = Some p -> agree (p_bits p) ->
    exists s, s_exec r0 r1 pM threads csz bitmsg c = Some s /\ psim p s /\
      plain_outputs c = map snd (s_rev s).
  Proof.
    unfold prv_exec, s_exec. intros H Ha.
    destruct (prv_run r0 r1 pM threads csz seeds p_init c) as [p1|] eqn:E; [|discriminate].
    assert (H0 : psim p_init s_init).
    { constructor; cbn; auto. intros k ci Hk. destruct k; discriminate. }
    assert (Eb : p_bits p = p_bits p1).
    { unfold prv_final in H. destruct (p_buf p1); [now injection H as <-|].
      unfold prv_manage in H. destruct (and_ranges _ _); [|discriminate]. now injection H as <-. }
    rewrite Eb in Ha. destruct (psim_run c _ _ _ H0 E Ha) as [s1 [-> [Hp1 Hpl]]].
    unfold prv_final in H. unfold s_final. rewrite (ps_b _ _ Hp1) in H.
    assert (Ho : plain_outputs c = map snd (s_rev s1)) by (unfold plain_outputs; cbn in Hpl; now rewrite Hpl).
    destruct (s_buf s1) as [|g b] eqn:Es.
    - cbn in H. injection H as <-. exists s1. auto.
    - cbn [map] in H. destruct (psim_manage p1 p s1 Hp1 H) as [s' [-> [Hp' [_ [_ Er]]]]].
      exists s'. split; [reflexivity|]. split; [exact Hp'|]. now rewrite Er.
  Qed.
End Honest.

Theorem session_complete :
  forall (r0 r1 : N) (pM : nat -> N) (threads csz : nat) (seeds : nat -> nat -> N)
         (D : Type) (Deqb : D -> D -> bool) (H : list N -> D) (c : list gate) (p : pst) (d : N),
  (forall a, Deqb a a = true) ->
  valid_delta d ->
  prv_exec r0 r1 pM threads csz seeds c = Some p ->
  exists v, ver_exec r0 r1 (cot_key pM d) d threads csz seeds
              (fun i => nth i (p_bits p) false) (fun k => nth k (p_msgs p) (0, 0)%N) c = Some v /\
    v_outs v = plain_outputs c /\ p_outs p = plain_outputs c /\
    ver_finalize Deqb H v (H (p_hash p)) = false.
Proof.
  intros r0 r1 pM threads csz seeds D Deqb H c p d Drefl [Hlt H1] Hp.
  set (bm := fun i => nth i (p_bits p) false). set (cmsg := fun k => nth k (p_msgs p) (0, 0)%N).
  assert (Ha : agree bm (p_bits p)).
  { intros i b E. unfold bm. now apply nth_error_nth. }
  destruct (psim_exec r0 r1 pM threads csz seeds bm c p Hp Ha) as [s [Es [Hs Ho]]].
  pose proof (sim_exec r0 r1 pM threads csz bm d seeds cmsg H1 Hlt c) as S. rewrite Es in S.
  rewrite <- (ver_exec_ext _ _ (cot_key pM d)) in S by (intro; apply keys_vK).
  destruct (ver_exec r0 r1 (cot_key pM d) d threads csz seeds bm cmsg c) as [v|]; [|easy].
  exists v. split; [reflexivity|].
  assert (Hhash : v_hash v = p_hash p).
  { rewrite (vs_h _ _ _ _ _ S), (ps_h _ _ _ Hs). apply map_ext_in. intros r Hr.
    pose proof (ps_r _ _ _ Hs) as R. rewrite Forall_forall in R. specialize (R r Hr).
    unfold rev_key. rewrite R, xorb_nilpotent. cbn [choice]. apply N.lxor_0_r. }
  assert (Hch : v_cheat v = []).
  { rewrite (vs_x _ _ _ _ _ S).
    assert (F : forall ci, In ci (s_checks s) -> ci_ok d seeds cmsg ci = true).
    { intros ci Hin. pose proof (ps_cg _ _ _ Hs) as G. rewrite Forall_forall in G.
      destruct (G ci Hin) as [G1 [G2 [G3 G4]]]. unfold ci_ok.
      destruct (In_nth_error _ _ Hin) as [k Hk]. pose proof (ps_i _ _ _ Hs k ci Hk) as Ek.
      assert (Em : cmsg (ci_idx ci) = hmsg seeds ci).
      { unfold cmsg. rewrite (ps_g _ _ _ Hs), Ek. apply nth_error_nth. now rewrite nth_error_map, Hk. }
      rewrite Em. unfold hmsg. now apply honest_accept. }
    assert (Z : filter (fun ci => negb (ci_ok d seeds cmsg ci)) (s_checks s) = []).
    { clear -F. induction (s_checks s) as [|ci l IH]; [reflexivity|]. cbn.
      rewrite (F ci (or_introl eq_refl)). cbn. apply IH. intros. apply F. now right. }
    now rewrite Z. }
  split; [now rewrite (vs_o _ _ _ _ _ S), Ho|].
  split; [now rewrite (ps_o _ _ _ Hs), Ho|].
  unfold ver_finalize. now rewrite Hhash, Drefl, Hch.
Qed.

(** * When the session is free of undefined behaviour *)
Section Defined.
  Variables (r0 r1 : N) (pM : nat -> N) (threads csz : nat) (seeds : nat -> nat -> N).
  Lemma manage_defined s : 1 <= threads -> threads <= length (p_buf s) -> exists s', prv_manage pM threads seeds s = Some s' /\ p_buf s' = p_buf s.
  Proof.
    intros Ht Hl. unfold prv_manage. destruct (and_ranges threads (length (p_buf s))) eqn:E; [eauto|].
    apply and_ranges_none in E. apply Nat.div_small_iff in E; lia.
  Qed.
  Lemma step_len s g : prv_step r0 r1 pM threads csz seeds s g = None ->
    match g with GAnd _ _ => True | _ => False end.
  Proof. now destruct g. Qed.
  Lemma run_defined c : 1 <= threads -> threads <= csz -> forall s n,
    (length (p_buf s) = last_batch csz n) ->
    exists s', prv_run r0 r1 pM threads csz seeds s c = Some s' /\
               length (p_buf s') = last_batch csz (n + count_and c).
  Proof.
    intros Ht Hc. induction c as [|g c IH]; intros s n Hn; cbn [prv_run count_and].
    - exists s. now rewrite Nat.add_0_r.
    - destruct g as [x|b|i j|i|i j|i]; try (apply IH; exact Hn).
      cbn [prv_step].
      assert (P : exists s1, prv_precheck pM threads csz seeds s = Some s1 /\
                   S (length (p_buf s1)) = last_batch csz (S n)).
      { unfold prv_precheck. destruct (Nat.eqb_spec (length (p_buf s)) csz) as [E|E].
        - destruct (manage_defined s Ht ltac:(lia)) as [s1 [-> _]]. eexists. split; [reflexivity|]. cbn.
          f_equal. unfold last_batch in Hn. destruct n as [|n]; [lia|].
          symmetry. assert (En : S n = (n / csz + 1) * csz).
          { pose proof (Nat.div_mod_eq n csz). nia. }
          rewrite En. apply Nat.mod_mul. lia.
        - exists s. split; [reflexivity|]. cbn. f_equal. unfold last_batch in Hn.
          destruct n as [|n]; [rewrite Hn; symmetry; apply Nat.mod_small; lia|].
          rewrite Hn. pose proof (Nat.mod_upper_bound n csz ltac:(lia)).
          pose proof (Nat.div_mod_eq n csz).
          apply Nat.mod_unique with (n / csz); lia. }
      destruct P as [s1 [-> Hl]]. unfold prv_and.
      destruct (IH {| p_wires := p_wires s1 ++ [set_value_in_block (pM (p_cot s1)) (getLSB (wire (p_wires s1) i) && getLSB (wire (p_wires s1) j))];
          p_buf := p_buf s1 ++ [(wire (p_wires s1) i, wire (p_wires s1) j, set_value_in_block (pM (p_cot s1)) (getLSB (wire (p_wires s1) i) && getLSB (wire (p_wires s1) j)))];
          p_hash := p_hash s1; p_cot := S (p_cot s1); p_chk := p_chk s1;
          p_bits := p_bits s1 ++ [xorb (getLSB (wire (p_wires s1) i) && getLSB (wire (p_wires s1) j)) (getLSB (pM (p_cot s1)))];
          p_msgs := p_msgs s1; p_outs := p_outs s1 |} (S n)) as [s' [E1 E2]].
      + cbn [p_buf]. rewrite app_length. cbn [length]. lia.
      + exists s'. split; [exact E1|]. rewrite E2. f_equal. lia.
  Qed.
  Lemma exec_defined c : 1 <= threads -> threads <= csz ->
    ((exists p, prv_exec r0 r1 pM threads csz seeds c = Some p) <->
     (count_and c = 0 \/ threads <= last_batch csz (count_and c))).
  Proof.
    intros Ht Hc. destruct (run_defined c Ht Hc p_init 0 eq_refl) as [s [E Hl]]. cbn [plus] in Hl.
    unfold prv_exec. rewrite E. unfold prv_final. destruct (p_buf s) as [|g b] eqn:Eb.
    - split; [|eauto]. intros _. left. cbn in Hl. destruct (count_and c); [reflexivity|discriminate].
    - split.
      + intros [p Hp]. right. unfold prv_manage in Hp. rewrite Eb, Hl in Hp.
        destruct (and_ranges threads (last_batch csz (count_and c))) eqn:Er; [|discriminate].
        apply and_ranges_some in Er. cbv zeta in Er. destruct Er as [Hq _].
        destruct (le_lt_dec threads (last_batch csz (count_and c))) as [|L]; [easy|].
        rewrite (Nat.div_small _ _ L) in Hq. lia.
      + intros [Z|G].
        * rewrite Z in Hl. discriminate.
        * destruct (manage_defined s Ht ltac:(rewrite Eb, Hl; exact G)) as [s' [E' _]]. eauto.
  Qed.
End Defined.

(** * Tightness: an error whose challenge combination is zero passes for every Delta *)
Lemma accept_zero d buf rs seed ope : combined_error rs seed (map eErr buf) = 0%N ->
  ver_accept d (gv (gadd (gO0 ope) (gS0 buf rs seed)), gv (gadd (gO1 ope) (gS1 buf rs seed)))
    (ver_B_star d (map (vgate d) buf) rs seed (map (kof d) ope)) = true.
Proof.
  intro Z. unfold ver_accept. apply N.eqb_eq. apply toG_inj.
  - apply lxor_lt; [apply gfmul_lt|apply gv_lt].
  - apply Bstar_lt.
  - rewrite toG_lxor, toG_gfmul, Bstar_decomp, gSE_combined, Z. cbn [fst snd].
    rewrite !toG_gv. change (toG 0) with g0. ring.
Qed.
Theorem undetected_if_combination_zero :
  forall (r0 r1 : N) (pM : nat -> N) (threads csz : nat) (seeds : nat -> nat -> N)
         (bitmsg : nat -> bool) (c : list gate) s,
  s_exec r0 r1 pM threads csz bitmsg c = Some s ->
  let cm := commit pM csz bitmsg c in
  (forall k errs rs, nth_error (batches cm) k = Some errs -> and_ranges threads (length errs) = Some rs ->
     combined_error rs (seeds k) errs = 0%N) ->
  Forall (fun r => fst r = snd r) (c_rev cm) ->
  exists chkmsg hin, forall (D : Type) (Deqb : D -> D -> bool) (H : list N -> D) d,
    (forall a, Deqb a a = true) -> valid_delta d ->
    exists v, ver_exec r0 r1 (cot_key pM d) d threads csz seeds bitmsg chkmsg c = Some v /\
      ver_finalize Deqb H v (H hin) = false /\ v_outs v = map snd (c_rev cm).
Proof.
  intros r0 r1 pM threads csz seeds bitmsg c s Es cm Hz Hr.
  destruct (exec_proj r0 r1 pM threads csz bitmsg c s Es) as [Pb [Pr Pi]]. fold cm in Pb, Pr.
  exists (fun k => match nth_error (s_checks s) k with
                   | Some ci => (gv (gadd (gO0 (ci_ope ci)) (gS0 (ci_buf ci) (ci_ranges ci) (seeds k))),
                                 gv (gadd (gO1 (ci_ope ci)) (gS1 (ci_buf ci) (ci_ranges ci) (seeds k))))
                   | None => (0, 0)%N end), (map (fun r => fst (fst r)) (s_rev s)).
  set (cmsg := fun k => _). intros D Deqb H d Drefl [Hlt H1].
  pose proof (sim_exec r0 r1 pM threads csz bitmsg d seeds cmsg H1 Hlt c) as S. rewrite Es in S.
  rewrite <- (ver_exec_ext _ _ (cot_key pM d)) in S by (intro; apply keys_vK).
  destruct (ver_exec r0 r1 (cot_key pM d) d threads csz seeds bitmsg cmsg c) as [v|]; [|easy].
  exists v. split; [reflexivity|].
  assert (Hhash : v_hash v = map (fun r => fst (fst r)) (s_rev s)).
  { rewrite (vs_h _ _ _ _ _ S). apply map_ext_in. intros r Hin.
    rewrite Pr in Hr. rewrite Forall_map in Hr. rewrite Forall_forall in Hr. specialize (Hr r Hin). cbn in Hr.
    unfold rev_key. rewrite Hr, xorb_nilpotent. cbn [choice]. apply N.lxor_0_r. }
  assert (Hch : v_cheat v = []).
  { rewrite (vs_x _ _ _ _ _ S).
    assert (F : forall ci, In ci (s_checks s) -> ci_ok d seeds cmsg ci = true).
    { intros ci Hin. destruct (In_nth_error _ _ Hin) as [k Hk]. destruct (Pi k ci Hk) as [Ek [Er _]].
      unfold ci_ok. rewrite Ek. unfold cmsg at 1. rewrite Hk. apply accept_zero.
      apply (Hz k); [now rewrite Pb, nth_error_map, Hk|now rewrite map_length]. }
    assert (Z : filter (fun ci => negb (ci_ok d seeds cmsg ci)) (s_checks s) = []).
    { clearbody cmsg. clear -F. induction (s_checks s) as [|ci l IH]; [reflexivity|]. cbn [filter].
      rewrite (F ci (or_introl eq_refl)). cbn [negb]. apply IH. intros. apply F. now right. }
    now rewrite Z. }
  split.
  - unfold ver_finalize. now rewrite Hhash, Drefl, Hch.
  - now rewrite (vs_o _ _ _ _ _ S), Pr, map_map.
Qed.
(** the shadow run is defined whenever the honest prover's run is (same counters) *)
Lemma s_prv_defined r0 r1 pM threads csz seeds bitmsg c :
  (exists p, prv_exec r0 r1 pM threads csz seeds c = Some p) ->
  exists s, s_exec r0 r1 pM threads csz bitmsg c = Some s.
Proof.
  intros [p Hp].
  assert (R : forall c p s p', length (p_buf p) = length (s_buf s) ->
    prv_run r0 r1 pM threads csz seeds p c = Some p' ->
    exists s', s_run r0 r1 pM threads csz bitmsg s c = Some s' /\ length (p_buf p') = length (s_buf s')).
  { clear. induction c as [|g c IH]; intros p s p' Hl H; cbn [prv_run s_run] in *.
    - injection H as <-. eauto.
    - assert (St : forall p1, prv_step r0 r1 pM threads csz seeds p g = Some p1 ->
        exists s1, s_step r0 r1 pM threads csz bitmsg s g = Some s1 /\ length (p_buf p1) = length (s_buf s1)).
      { intros p1 E. destruct g as [x|b|i j|i|i j|i]; cbn [prv_step s_step] in *;
          try (unfold prv_input in E; injection E as <-; eexists; split; [reflexivity|exact Hl]).
        unfold prv_precheck, s_precheck in *. rewrite Hl in E.
        destruct (Nat.eqb (length (s_buf s)) csz).
        - unfold prv_manage, s_manage in *. rewrite Hl in E.
          destruct (and_ranges threads (length (s_buf s))); [|discriminate].
          injection E as <-. eexists. split; [reflexivity|]. reflexivity.
        - injection E as <-. eexists. split; [reflexivity|]. cbn. rewrite !app_length. cbn. lia. }
      destruct (prv_step r0 r1 pM threads csz seeds p g) as [p1|]; [|discriminate].
      destruct (St p1 eq_refl) as [s1 [-> Hl1]]. eapply IH; eauto. }
  unfold prv_exec in Hp. destruct (prv_run r0 r1 pM threads csz seeds p_init c) as [p1|] eqn:E; [|discriminate].
  destruct (R c p_init s_init p1 eq_refl E) as [s1 [E1 Hl]]. unfold s_exec. rewrite E1.
  unfold prv_final, s_final in *. destruct (p_buf p1) as [|g b] eqn:Eb.
  - destruct (s_buf s1); [eauto|discriminate].
  - destruct (s_buf s1) as [|g' b'] eqn:Eb'; [discriminate|].
    unfold prv_manage, s_manage in *. rewrite Eb' . rewrite Eb in Hp. rewrite Hl in Hp.
    destruct (and_ranges threads (length (g' :: b'))); [eauto|discriminate].
Qed.
