From Coq Require Import NArith List Bool Arith Lia Ring.
From Verif Require Import Word WordProofs GF128 GF128Ring GF128Field PolyRoots ListUtil BoolModel BoolSpec BoolProofs BoolAlg.
Import ListNotations.
Ltac Zify.zify_post_hook ::= idtac.

(** * Work split *)
Lemma and_ranges_none t cnt : and_ranges t cnt = None <-> cnt / t = 0.
Proof.
  unfold and_ranges. destruct (Nat.eqb_spec (cnt / t) 0); split; intro; try easy.
Qed.
Lemma and_ranges_some t cnt rs : and_ranges t cnt = Some rs ->
  let q := cnt / t in 1 <= q /\
  rs = map (fun i => (i * q, q)) (seq 0 (t - 1)) ++ [((t - 1) * q, q + cnt mod q)].
Proof.
  unfold and_ranges. destruct (Nat.eqb_spec (cnt / t) 0); [discriminate|].
  intro H. injection H as <-. cbv zeta. split; [now apply Nat.neq_0_lt_0|reflexivity].
Qed.
Lemma split_total t cnt q : 1 <= t -> q = cnt / t -> 1 <= q ->
  cnt mod q = (cnt mod t) mod q /\ cnt = t * q + cnt mod t.
Proof.
  intros Ht -> Hq. pose proof (Nat.div_mod_eq cnt t) as E. split; [|exact E].
  rewrite E at 1. rewrite (Nat.mul_comm t), Nat.add_comm, (Nat.mul_comm _ t).
  rewrite Nat.mod_add by lia. reflexivity.
Qed.
Lemma covered_iff t cnt rs i : 1 <= t -> and_ranges t cnt = Some rs ->
  (covered rs i <-> i < t * (cnt / t) + (cnt mod t) mod (cnt / t)).
Proof.
  intros Ht H. apply and_ranges_some in H. cbv zeta in H. destruct H as [Hq ->].
  set (q := cnt / t) in *. destruct (split_total t cnt q Ht eq_refl Hq) as [Em _]. rewrite Em.
  set (r := (cnt mod t) mod q). unfold covered. split.
  - intros [s [n [Hin Hi]]]. apply in_app_iff in Hin. destruct Hin as [Hin|Hin].
    + apply in_map_iff in Hin. destruct Hin as [j [Ej Hj]]. injection Ej as <- <-.
      apply in_seq in Hj. assert (S j * q <= t * q) by (apply Nat.mul_le_mono_r; lia). lia.
    + destruct Hin as [Hin|[]]. injection Hin as <- <-.
      assert (E : (t - 1) * q + q = t * q) by (replace t with (S (t - 1)) at 2 by lia; lia). lia.
  - intro Hi. destruct (lt_dec i ((t - 1) * q)) as [L|G].
    + exists (i / q * q), q. split.
      * apply in_app_iff. left. apply in_map_iff. exists (i / q). split; [reflexivity|].
        apply in_seq. split; [apply Nat.le_0_l|]. cbn. apply Nat.div_lt_upper_bound; lia.
      * pose proof (Nat.div_mod_eq i q). pose proof (Nat.mod_upper_bound i q ltac:(lia)). lia.
    + exists ((t - 1) * q), (q + r). split; [apply in_app_iff; right; now left|].
      assert (E : (t - 1) * q + q = t * q) by (replace t with (S (t - 1)) at 2 by lia; lia). lia.
Qed.
Lemma ranges_in_bounds t cnt rs s n : 1 <= t -> and_ranges t cnt = Some rs ->
  In (s, n) rs -> s + n <= cnt.
Proof.
  intros Ht H Hin. apply and_ranges_some in H. cbv zeta in H. destruct H as [Hq ->].
  set (q := cnt / t) in *. destruct (split_total t cnt q Ht eq_refl Hq) as [Em Ec].
  assert (Hr : (cnt mod t) mod q <= cnt mod t) by (apply Nat.mod_le; lia).
  assert (E : (t - 1) * q + q = t * q) by (replace t with (S (t - 1)) at 2 by lia; lia).
  apply in_app_iff in Hin. destruct Hin as [Hin|Hin].
  - apply in_map_iff in Hin. destruct Hin as [j [Ej Hj]]. injection Ej as <- <-.
    apply in_seq in Hj. assert (S j * q <= t * q) by (apply Nat.mul_le_mono_r; lia). lia.
  - destruct Hin as [Hin|[]]. injection Hin as <- <-. rewrite Em. lia.
Qed.
Lemma ranges_disjoint t cnt rs a b s n s' n' i : 1 <= t -> and_ranges t cnt = Some rs ->
  nth_error rs a = Some (s, n) -> nth_error rs b = Some (s', n') ->
  s <= i < s + n -> s' <= i < s' + n' -> a = b.
Proof.
  intros Ht H. apply and_ranges_some in H. cbv zeta in H. destruct H as [Hq ->].
  set (q := cnt / t) in *.
  assert (N : forall k s n, nth_error (map (fun i => (i * q, q)) (seq 0 (t - 1)) ++ [((t - 1) * q, q + cnt mod q)]) k = Some (s, n) ->
     (k < t - 1 /\ s = k * q /\ n = q) \/ (k = t - 1 /\ s = (t - 1) * q)).
  { intros k s0 n0 E. destruct (lt_dec k (t - 1)) as [L|G].
    - left. rewrite nth_error_app1 in E by now rewrite map_length, seq_length.
      rewrite nth_error_map in E.
      rewrite (nth_error_nth' _ 0) in E by now rewrite seq_length.
      rewrite seq_nth in E by easy. cbn in E. injection E as <- <-. auto.
    - right. rewrite nth_error_app2 in E by (rewrite map_length, seq_length; lia).
      rewrite map_length, seq_length in E.
      destruct (k - (t - 1)) as [|m] eqn:Ek; [|destruct m; discriminate]. cbn in E. injection E as <- _.
      split; [lia|reflexivity]. }
  intros Ha Hb Hi Hi'. apply N in Ha, Hb.
  destruct Ha as [[La [-> ->]]|[-> ->]], Hb as [[Lb [-> ->]]|[-> ->]]; auto.
  - destruct (lt_eq_lt_dec a b) as [[L| ->]|L]; auto.
    + assert (S a * q <= b * q) by (apply Nat.mul_le_mono_r; lia). lia.
    + assert (S b * q <= a * q) by (apply Nat.mul_le_mono_r; lia). lia.
  - assert (S a * q <= (t - 1) * q) by (apply Nat.mul_le_mono_r; lia). lia.
  - assert (S b * q <= (t - 1) * q) by (apply Nat.mul_le_mono_r; lia). lia.
Qed.
Lemma all_covered_iff t cnt rs : 1 <= t -> and_ranges t cnt = Some rs ->
  ((forall i, i < cnt -> covered rs i) <-> cnt mod t < cnt / t).
Proof.
  intros Ht H. pose proof H as H'. apply and_ranges_some in H'. cbv zeta in H'. destruct H' as [Hq _].
  pose proof (Nat.div_mod_eq cnt t) as E.
  split.
  - intro A. destruct (lt_dec (cnt mod t) (cnt / t)) as [|G]; [easy|exfalso].
    assert (P : 0 < cnt mod t) by lia.
    specialize (A (cnt - 1) ltac:(lia)). apply (covered_iff t cnt rs) in A; auto.
    assert ((cnt mod t) mod (cnt / t) < cnt / t) by (apply Nat.mod_upper_bound; lia). lia.
  - intros L i Hi. apply (covered_iff t cnt rs); auto. rewrite (Nat.mod_small (cnt mod t)) by easy. lia.
Qed.

(** * Commitment = projection of the shadow *)
Section Proj.
  Variables (r0 r1 : N) (pM : nat -> N) (threads csz : nat) (bitmsg : nat -> bool).
  Record csim (s : sst) (c : cst) : Prop := {
    cs_w : c_wires c = map snd (s_wires s);
    cs_e : c_errs c = map eErr (s_buf s);
    cs_d : c_done c = map (fun ci => map eErr (ci_buf ci)) (s_checks s);
    cs_c : c_cot c = s_cot s; cs_b : c_bits c = s_bits s;
    cs_r : c_rev c = map (fun r => (snd (fst r), snd r)) (s_rev s);
    cs_k : s_chk s = length (s_checks s);
    cs_i : forall k ci, nth_error (s_checks s) k = Some ci ->
             ci_idx ci = k /\ and_ranges threads (length (ci_buf ci)) = Some (ci_ranges ci) /\
             length (ci_ope ci) = 128%nat }.
  Lemma pwire_snd ws i : pwire (map snd ws) i = snd (swire ws i).
  Proof. unfold pwire, swire. change false with (snd (0%N, false)). apply map_nth. Qed.
  Lemma csim_manage s s' c : csim s c -> s_manage pM threads s = Some s' ->
    csim (s_clear s') (c_flush c) /\ s_buf s' = s_buf s /\
    s_checks s' = s_checks s ++ [{| ci_buf := s_buf s; ci_ranges := match and_ranges threads (length (s_buf s)) with Some r => r | None => [] end;
       ci_idx := s_chk s; ci_ope := map (sM pM) (seq (s_cot s) 128) |}].
  Proof.
    intros [] H. unfold s_manage in H.
    destruct (and_ranges threads (length (s_buf s))) as [rs|] eqn:E; [|discriminate].
    injection H as <-. split; [|split; reflexivity]. constructor; cbn; auto.
    - now rewrite map_app, cs_d0, cs_e0.
    - rewrite app_length. cbn. lia.
    - intros k ci Hk. destruct (lt_dec k (length (s_checks s))) as [L|G].
      + rewrite nth_error_app1 in Hk by easy. now apply cs_i0.
      + rewrite nth_error_app2 in Hk by lia. destruct (k - length (s_checks s)) as [|m] eqn:Ek; [|destruct m; discriminate].
        cbn in Hk. injection Hk as <-. cbn [ci_idx ci_buf ci_ranges ci_ope].
        split; [lia|]. split; [exact E|reflexivity].
  Qed.
  Lemma csim_precheck s s' c : csim s c -> s_precheck pM threads csz s = Some s' ->
    csim s' (if Nat.eqb (length (c_errs c)) csz then c_flush c else c).
  Proof.
    intros Hc H. unfold s_precheck in H. rewrite (cs_e s c Hc), map_length.
    destruct (Nat.eqb (length (s_buf s)) csz).
    - destruct (s_manage pM threads s) as [s1|] eqn:E; [|discriminate]. injection H as <-.
      now destruct (csim_manage s s1 c Hc E).
    - now injection H as <-.
  Qed.
  Lemma csim_step s s' c g : csim s c -> s_step r0 r1 pM threads csz bitmsg s g = Some s' ->
    csim s' (c_step pM csz bitmsg c g).
  Proof.
    intros Hc H. destruct g as [x|b|i j|i|i j|i]; cbn [s_step c_step] in *.
    - injection H as <-. destruct Hc. constructor; cbn; auto.
      rewrite map_app, cs_w0. cbn. unfold cbit. now rewrite cs_c0, cs_b0.
    - injection H as <-. destruct Hc. constructor; cbn; auto. now rewrite map_app, cs_w0.
    - injection H as <-. destruct Hc. constructor; cbn; auto. rewrite map_app, cs_w0. now rewrite !pwire_snd.
    - injection H as <-. destruct Hc. constructor; cbn; auto. rewrite map_app, cs_w0. now rewrite !pwire_snd.
    - destruct (s_precheck pM threads csz s) as [s1|] eqn:E; [|discriminate]. injection H as <-.
      pose proof (csim_precheck s s1 c Hc E) as H1.
      set (c1 := if (length (c_errs c) =? csz)%nat then c_flush c else c) in *.
      destruct H1. constructor; cbn; auto.
      + rewrite map_app, cs_w0. cbn. unfold cbit. now rewrite cs_c0, cs_b0.
      + rewrite map_app, cs_e0, cs_w0. cbn. unfold cbit. now rewrite !pwire_snd, cs_c0, cs_b0.
    - injection H as <-. destruct Hc. constructor; cbn; auto. rewrite map_app, cs_r0, cs_w0, cs_b0. cbn.
      now rewrite pwire_snd.
  Qed.
  Lemma csim_run l : forall s s' c, csim s c -> s_run r0 r1 pM threads csz bitmsg s l = Some s' ->
    csim s' (fold_left (c_step pM csz bitmsg) l c).
  Proof.
    induction l as [|g l IH]; intros s s' c Hc H; cbn in *; [now injection H as <-|].
    destruct (s_step r0 r1 pM threads csz bitmsg s g) as [s1|] eqn:E; [|discriminate].
    eapply IH; [|exact H]. eapply csim_step; eauto.
  Qed.
  (** after the final batch *)
  Lemma exec_proj l s : s_exec r0 r1 pM threads csz bitmsg l = Some s ->
    let cm := commit pM csz bitmsg l in
    batches cm = map (fun ci => map eErr (ci_buf ci)) (s_checks s) /\
    c_rev cm = map (fun r => (snd (fst r), snd r)) (s_rev s) /\
    (forall k ci, nth_error (s_checks s) k = Some ci ->
       ci_idx ci = k /\ and_ranges threads (length (ci_buf ci)) = Some (ci_ranges ci) /\ length (ci_ope ci) = 128%nat).
  Proof.
    unfold s_exec. intro H.
    destruct (s_run r0 r1 pM threads csz bitmsg s_init l) as [s1|] eqn:E; [|discriminate].
    assert (H0 : csim s_init c_init).
    { constructor; try reflexivity. intros k ci Hk. destruct k; discriminate. }
    pose proof (csim_run l _ _ _ H0 E) as Hc. fold (commit pM csz bitmsg l) in Hc.
    set (cm := commit pM csz bitmsg l) in *. cbv zeta.
    unfold s_final in H. unfold batches. rewrite (cs_e _ _ Hc), (cs_d _ _ Hc), (cs_r _ _ Hc).
    destruct (s_buf s1) as [|g b] eqn:Eb.
    - injection H as <-. cbn [map]. rewrite app_nil_r. split; [reflexivity|]. split; [reflexivity|]. apply (cs_i _ _ Hc).
    - destruct (csim_manage s1 s cm Hc H) as [Hc' [_ Hch]].
      assert (Hr : s_rev s = s_rev s1).
      { unfold s_manage in H. destruct (and_ranges _ _); [|discriminate]. now injection H as <-. }
      rewrite Hr. rewrite Eb in Hch. split; [|split; [reflexivity|apply (cs_i _ _ Hc')]].
      rewrite Hch, map_app. reflexivity.
  Qed.
End Proj.

(** * No errors: committed values are the plain evaluation *)
Lemma commit_plain pM csz bitmsg l : forall s,
  let s' := fold_left (c_step pM csz bitmsg) l s in
  exists ins revs errs, c_ins s' = c_ins s ++ ins /\ c_rev s' = c_rev s ++ revs /\
    concat (c_done s') ++ c_errs s' = (concat (c_done s) ++ c_errs s) ++ errs /\
    (Forall (fun e => e = false) errs -> forall outs,
       plain_eval (c_wires s) outs (with_inputs ins l) = (c_wires s', outs ++ map fst revs)).
Proof.
  induction l as [|g l IH]; intro s; cbn [fold_left].
  - exists [], [], []. rewrite !app_nil_r. repeat split; auto. intros _ outs. cbn. now rewrite app_nil_r.
  - destruct (IH (c_step pM csz bitmsg s g)) as [ins [revs [errs [H1 [H2 [H3 H4]]]]]].
    set (s' := fold_left (c_step pM csz bitmsg) l (c_step pM csz bitmsg s g)) in *. cbv zeta.
    destruct g as [x|b|i j|i|i j|i]; cbn [c_step] in *.
    + exists (cbit pM bitmsg s :: ins), revs, errs. cbn in H1, H2, H3, H4. rewrite <- app_assoc in H1.
      repeat split; auto.
    + exists ins, revs, errs. repeat split; auto.
    + exists ins, revs, errs. repeat split; auto.
    + exists ins, revs, errs. repeat split; auto.
    + set (s1 := if (length (c_errs s) =? csz)%nat then c_flush s else s) in *.
      assert (Es : c_wires s1 = c_wires s /\ c_ins s1 = c_ins s /\ c_rev s1 = c_rev s /\
                   concat (c_done s1) ++ c_errs s1 = concat (c_done s) ++ c_errs s).
      { unfold s1. destruct (Nat.eqb _ _); auto. cbn. rewrite concat_app. cbn. now rewrite !app_nil_r. }
      destruct Es as [Ew [Ei [Er Ee]]].
      exists ins, revs, (xorb (pwire (c_wires s1) i && pwire (c_wires s1) j) (cbit pM bitmsg s1) :: errs).
      cbn in H1, H2, H3, H4. rewrite Ei in H1. rewrite Er in H2. repeat split; auto.
      * rewrite H3, app_assoc, Ee, <- !app_assoc. reflexivity.
      * intros HF outs. inversion HF as [|? ? He HF' [Ea Eb]]; subst. cbn [with_inputs plain_eval].
        specialize (H4 HF' outs). rewrite Ew in *. rewrite <- H4. f_equal. f_equal. f_equal.
        clear -He. destruct (pwire _ i && pwire _ j), (cbit _ _ _); cbn in *; congruence.
    + exists ins, ((pwire (c_wires s) i, bitmsg (c_bits s)) :: revs), errs. cbn in H1, H2, H3, H4.
      repeat split; auto.
      * now rewrite H2, <- app_assoc.
      * intros HF outs. cbn [with_inputs plain_eval]. rewrite (H4 HF). cbn. now rewrite <- app_assoc.
Qed.
Lemma batches_concat s : concat (batches s) = concat (c_done s) ++ c_errs s.
Proof.
  unfold batches. rewrite concat_app. f_equal. destruct (c_errs s); cbn; [reflexivity|]. now rewrite app_nil_r.
Qed.
Lemma no_errors_plain pM csz bitmsg l :
  let cm := commit pM csz bitmsg l in
  Forall (fun b => Forall (fun e => e = false) b) (batches cm) ->
  plain_outputs (with_inputs (c_ins cm) l) = map fst (c_rev cm).
Proof.
  intros cm H. destruct (commit_plain pM csz bitmsg l c_init) as [ins [revs [errs [H1 [H2 [H3 H4]]]]]].
  fold (commit pM csz bitmsg l) in *. fold cm in H1, H2, H3, H4. cbn in H1, H2, H3.
  unfold plain_outputs. rewrite H1. specialize (H4 ltac:(rewrite <- H3, <- batches_concat; now apply Forall_concat) []).
  cbn [c_init c_wires] in H4. rewrite H4. cbn. now rewrite H2.
Qed.

(** * Session soundness *)
Definition keys := cot_key.
Lemma keys_vK pM d i : cot_key pM d i = vK pM d i.
Proof. unfold cot_key, vK, kof, sM, choice, getLSB. reflexivity. Qed.
Lemma ver_exec_ext r0 r1 K K' d t csz seeds bm cm c : (forall i, K i = K' i) ->
  ver_exec r0 r1 K d t csz seeds bm cm c = ver_exec r0 r1 K' d t csz seeds bm cm c.
Proof.
  intro E.
  assert (M : forall s, ver_manage K d t seeds cm s = ver_manage K' d t seeds cm s).
  { intro s. unfold ver_manage. destruct (and_ranges _ _); [|reflexivity].
    replace (vK_slice K (v_cot s) 128) with (vK_slice K' (v_cot s) 128); [reflexivity|].
    unfold vK_slice. now apply map_ext. }
  assert (S : forall s g, ver_step r0 r1 K d t csz seeds bm cm s g = ver_step r0 r1 K' d t csz seeds bm cm s g).
  { intros s g. destruct g; cbn; rewrite ?E; auto.
    unfold ver_precheck. rewrite M. destruct (Nat.eqb _ _); [|now rewrite E].
    destruct (ver_manage K' d t seeds cm s); [|reflexivity]. now rewrite E. }
  assert (R : forall c s, ver_run r0 r1 K d t csz seeds bm cm s c = ver_run r0 r1 K' d t csz seeds bm cm s c).
  { clear c. induction c as [|g c IH]; intro s; cbn; auto. rewrite S. destruct (ver_step _ _ _ _ _ _ _ _ _ s g); auto. }
  unfold ver_exec. rewrite R. destruct (ver_run _ _ K' _ _ _ _ _ _ _ c); [|reflexivity].
  unfold ver_final. destruct (v_buf v); auto.
Qed.
Lemma repeat_nil_iff {A} (a : A) n : repeat a n = [] -> n = 0.
Proof. destruct n; [easy|discriminate]. Qed.
Lemma finalize_false {D} (Deqb : D -> D -> bool) H s dig :
  ver_finalize Deqb H s dig = false -> v_cheat s = [] /\ Deqb (H (v_hash s)) dig = true.
Proof.
  unfold ver_finalize. destruct (Deqb (H (v_hash s)) dig).
  - destruct (v_cheat s); [auto|discriminate].
  - destruct (v_cheat s); discriminate.
Qed.
Lemma combined_lt rs seed errs : (combined_error rs seed errs < 2 ^ 128)%N.
Proof.
  assert (Fx : forall l, Forall (fun x => (x < 2 ^ 128)%N) l -> (fold_right N.lxor 0 l < 2 ^ 128)%N).
  { induction 1; cbn [fold_right]; [reflexivity|]. now apply lxor_lt. }
  unfold combined_error. apply Fx. apply Forall_map. apply Forall_forall. intros ir _.
  unfold range_error. apply Fx. apply Forall_map. apply Forall_forall. intros ce _. apply gfmul_lt.
Qed.
Lemma In_map_toG_inj l : Forall (fun d => (d < 2 ^ 128)%N) l -> NoDup l -> NoDup (map toG l).
Proof.
  intros HF HN. apply NoDup_map_in; [|exact HN]. intros x y Hx Hy E.
  rewrite Forall_forall in HF. apply toG_inj; auto.
Qed.
Lemma existsb_In_true l : Exists (fun e => e = true) l <-> In true l.
Proof. rewrite Exists_exists. split; [intros [x [H ->]]; auto|eauto]. Qed.
Lemma all_false_dec l : Forall (fun e => e = false) l \/ In true l.
Proof.
  induction l as [|[|] l IH]; [left; constructor|right; now left|].
  destruct IH; [left; constructor; auto|right; now right].
Qed.
Lemma batches_dec (bs : list (list bool)) :
  Forall (fun b => Forall (fun e => e = false) b) bs \/
  exists k b, nth_error bs k = Some b /\ In true b.
Proof.
  induction bs as [|b bs IH]; [left; constructor|].
  destruct (all_false_dec b) as [H|H]; [|right; now exists 0, b].
  destruct IH as [IH|[k [b' [Hk Hb]]]]; [left; constructor; auto|right; now exists (S k), b'].
Qed.

Theorem session_soundness :
  forall (r0 r1 : N) (pM : nat -> N) (threads csz : nat) (seeds : nat -> nat -> N)
         (bitmsg : nat -> bool) (chkmsg : nat -> N * N)
         (D : Type) (Deqb : D -> D -> bool) (H : list N -> D) (dig : D) (c : list gate) (deltas : list N),
  (forall a b, Deqb a b = true -> a = b) ->
  NoDup deltas ->
  let cm := commit pM csz bitmsg c in
  let exec d := ver_exec r0 r1 (cot_key pM d) d threads csz seeds bitmsg chkmsg c in
  (forall d, In d deltas -> valid_delta d /\
     exists v, exec d = Some v /\ ver_finalize Deqb H v dig = false /\
               v_outs v <> plain_outputs (with_inputs (c_ins cm) c)) ->
  length deltas <= 2 \/
  (exists k errs rs, nth_error (batches cm) k = Some errs /\ In true errs /\
     and_ranges threads (length errs) = Some rs /\ combined_error rs (seeds k) errs = 0%N) \/
  (exists d1 d2 v1 v2, In d1 deltas /\ In d2 deltas /\ exec d1 = Some v1 /\ exec d2 = Some v2 /\
     v_hash v1 <> v_hash v2 /\ H (v_hash v1) = H (v_hash v2)).
Proof.
  intros r0 r1 pM threads csz seeds bitmsg chkmsg D Deqb H dig c deltas Deq Hnd cm exec Hall.
  destruct deltas as [|d0 [|d1 rest]]; [left; cbn; lia|left; cbn; lia|].
  set (deltas := d0 :: d1 :: rest) in *.
  assert (Hex : forall d, In d deltas -> exists v s, exec d = Some v /\
      s_exec r0 r1 pM threads csz bitmsg c = Some s /\ vsim d seeds chkmsg v s /\ v_cheat v = [] /\
      H (v_hash v) = dig /\ v_outs v <> plain_outputs (with_inputs (c_ins cm) c)).
  { intros d Hd. destruct (Hall d Hd) as [[Hlt H1] [v [Ev [Hf Ho]]]].
    pose proof (sim_exec r0 r1 pM threads csz bitmsg d seeds chkmsg H1 Hlt c) as S.
    unfold exec in Ev |- *. rewrite <- (ver_exec_ext _ _ (cot_key pM d)) in S by (intro; apply keys_vK). rewrite Ev in S.
    destruct (s_exec r0 r1 pM threads csz bitmsg c) as [s|]; [|easy].
    apply finalize_false in Hf. destruct Hf as [Hc Hh]. apply Deq in Hh.
    exists v, s. repeat split; auto; apply S. }
  destruct (Hex d0 (or_introl eq_refl)) as [v0 [s [Ev0 [Es [S0 [Hc0 [Hh0 Ho0]]]]]]].
  destruct (exec_proj r0 r1 pM threads csz bitmsg c s Es) as [Pb [Pr Pi]]. fold cm in Pb, Pr.
  destruct (batches_dec (batches cm)) as [Hok|[k [errs [Hk Ht]]]].
  - (* no gate error: a reveal is wrong *)
    right. right.
    pose proof (no_errors_plain pM csz bitmsg c Hok) as Hp. fold cm in Hp.
    assert (Hrev : exists r, In r (s_rev s) /\ snd (fst r) <> snd r).
    { rewrite (vs_o _ _ _ _ _ S0), Hp, Pr, map_map in Ho0. cbn in Ho0.
      clear -Ho0. induction (s_rev s) as [|r l IH]; [now contradiction Ho0|].
      destruct (bool_dec (snd (fst r)) (snd r)) as [E|E].
      - destruct IH as [r' [Hin Hne]].
        + intro E'. apply Ho0. cbn. now rewrite E, E'.
        + exists r'. split; [now right|easy].
      - exists r. split; [now left|easy]. }
    destruct (Hex d1 (or_intror (or_introl eq_refl))) as [v1 [s1 [Ev1 [Es1 [S1 [_ [Hh1 _]]]]]]].
    rewrite Es in Es1. injection Es1 as <-.
    exists d0, d1, v0, v1. repeat split; auto; [now left|right; now left| |congruence].
    destruct Hrev as [r [Hin Hne]].
    rewrite (vs_h _ _ _ _ _ S0), (vs_h _ _ _ _ _ S1). intro E.
    assert (E' : rev_key d0 r = rev_key d1 r).
    { clear -E Hin. induction (s_rev s) as [|r' l IH]; [easy|]. cbn in E. injection E as E1 E2.
      destruct Hin as [->|Hin]; auto. }
    unfold rev_key in E'. assert (X : xorb (snd (fst r)) (snd r) = true).
    { destruct (snd (fst r)), (snd r); auto; now contradiction Hne. }
    rewrite X in E'. cbn [choice] in E'.
    assert (E2 : d0 = d1).
    { rewrite <- (lxor_cancel (fst (fst r)) d0), E'. apply lxor_cancel. }
    subst d1. inversion Hnd as [|? ? Hni _]. apply Hni. now left.
  - (* a gate is wrong in batch k *)
    rewrite Pb in Hk. rewrite nth_error_map in Hk.
    destruct (nth_error (s_checks s) k) as [ci|] eqn:Ek; [|discriminate]. cbn in Hk. injection Hk as <-.
    destruct (Pi k ci Ek) as [Ei [Er El]].
    destruct (N.eq_dec (combined_error (ci_ranges ci) (seeds k) (map eErr (ci_buf ci))) 0) as [Z|NZ].
    + right. left. exists k, (map eErr (ci_buf ci)), (ci_ranges ci).
      rewrite Pb, nth_error_map, Ek, map_length. repeat split; auto.
    + left. rewrite <- (map_length toG deltas).
      eapply (GF_quad _ _ (gSE (ci_buf ci) (ci_ranges ci) (seeds k))).
      * rewrite gSE_combined. intro E. apply NZ. apply toG_inj; [apply combined_lt|reflexivity|exact E].
      * apply In_map_toG_inj; [|exact Hnd]. apply Forall_forall. intros d Hd. now destruct (Hall d Hd) as [[? _] _].
      * intros g Hg. apply in_map_iff in Hg. destruct Hg as [d [<- Hd]].
        destruct (Hex d Hd) as [v [s1 [_ [Es1 [S1 [Hc1 _]]]]]].
        rewrite Es in Es1. injection Es1 as <-.
        assert (Acc : ci_ok d seeds chkmsg ci = true).
        { rewrite (vs_x _ _ _ _ _ S1) in Hc1. apply repeat_nil_iff in Hc1.
          destruct (ci_ok d seeds chkmsg ci) eqn:Ec; [reflexivity|exfalso].
          apply nth_error_In in Ek.
          assert (In ci (filter (fun ci => negb (ci_ok d seeds chkmsg ci)) (s_checks s))).
          { apply filter_In. now rewrite Ec. }
          destruct (filter _ _); [easy|cbn in Hc1; lia]. }
        unfold ci_ok in Acc. rewrite Ei in Acc.
        exact (accept_poly _ _ _ _ _ _ Acc).
Qed.
