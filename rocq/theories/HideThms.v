(** Hiding theorems of the boolean engine. *)
From Coq Require Import NArith List Bool Arith Lia.
From Verif Require Import GF128 Word WordProofs BoolModel BoolSpec BoolAlg BoolProofs BoolThms BoolThms2 LowMcThms HideSpec HideProofs.
Import ListNotations.

(** * Existence of the honest session for adaptive challenges *)
Lemma seeds_step r0 r1 pM t csz sd sd' s s' g : p_wires s = p_wires s' -> p_buf s = p_buf s' -> p_cot s = p_cot s' ->
  p_bits s = p_bits s' ->
  match prv_step r0 r1 pM t csz sd s g, prv_step r0 r1 pM t csz sd' s' g with
  | Some q, Some q' => p_wires q = p_wires q' /\ p_buf q = p_buf q' /\ p_cot q = p_cot q' /\ p_bits q = p_bits q'
  | None, None => True | _, _ => False end.
Proof.
  intros W B C T. destruct g as [x|v|i j|i|i j|i]; cbn; try (rewrite ?W, ?B, ?C, ?T; repeat split; auto; fail).
  unfold prv_precheck, prv_manage. rewrite B.
  destruct (Nat.eqb (length (p_buf s')) csz); [destruct (and_ranges t (length (p_buf s'))); [|easy]|];
    cbn; rewrite ?W, ?B, ?C, ?T; repeat split; auto.
Qed.
Lemma seeds_run r0 r1 pM t csz sd sd' c : forall s s', p_wires s = p_wires s' -> p_buf s = p_buf s' -> p_cot s = p_cot s' ->
  p_bits s = p_bits s' ->
  match prv_run r0 r1 pM t csz sd s c, prv_run r0 r1 pM t csz sd' s' c with
  | Some q, Some q' => p_wires q = p_wires q' /\ p_buf q = p_buf q' /\ p_cot q = p_cot q' /\ p_bits q = p_bits q'
  | None, None => True | _, _ => False end.
Proof.
  induction c as [|g c IH]; intros s s' W B C T; cbn [prv_run]; [auto|].
  pose proof (seeds_step r0 r1 pM t csz sd sd' s s' g W B C T) as H.
  destruct (prv_step r0 r1 pM t csz sd s g) as [q|], (prv_step r0 r1 pM t csz sd' s' g) as [q'|]; try easy.
  destruct H as [W1 [B1 [C1 T1]]]. now apply IH.
Qed.
Lemma seeds_bits r0 r1 pM t csz sd sd' c p p' : prv_exec r0 r1 pM t csz sd c = Some p ->
  prv_exec r0 r1 pM t csz sd' c = Some p' -> p_bits p = p_bits p'.
Proof.
  unfold prv_exec. pose proof (seeds_run r0 r1 pM t csz sd sd' c p_init p_init eq_refl eq_refl eq_refl eq_refl) as H.
  destruct (prv_run r0 r1 pM t csz sd p_init c) as [q|], (prv_run r0 r1 pM t csz sd' p_init c) as [q'|]; try easy.
  destruct H as [_ [B [_ T]]]. unfold prv_final, prv_manage. rewrite B.
  destruct (p_buf q') as [|x l]; [intros E E'; now injection E as <-; injection E' as <-|].
  destruct (and_ranges t (length (x :: l))); [|discriminate].
  intros E E'. now injection E as <-; injection E' as <-.
Qed.
Lemma adaptive {A M} (G : list M -> A -> M) (l : list A) : exists ms, length ms = length l /\
  forall k a, nth_error l k = Some a -> nth_error ms k = Some (G (firstn k ms) a).
Proof.
  induction l as [|a l IH] using rev_ind; [exists []; split; [reflexivity|intros [|k]; discriminate]|].
  destruct IH as [ms [L H]]. exists (ms ++ [G ms a]). split; [rewrite !app_length; cbn; lia|].
  intros k b E. destruct (lt_dec k (length l)) as [Hk|Hk].
  - rewrite nth_error_app1 in E by exact Hk. rewrite nth_error_app1 by lia. rewrite (H k b E). do 2 f_equal.
    rewrite firstn_app. replace (k - length ms) with 0 by lia. cbn. now rewrite app_nil_r.
  - assert (k = length l) as ->.
    { assert (k < length (l ++ [a])) by (apply nth_error_Some; congruence). rewrite app_length in *. cbn in *. lia. }
    rewrite nth_error_app2, Nat.sub_diag in E by lia. injection E as <-.
    rewrite nth_error_app2, <- L, Nat.sub_diag by lia. cbn. do 2 f_equal.
    rewrite firstn_app, firstn_all, Nat.sub_diag. cbn. now rewrite app_nil_r.
Qed.
Lemma nth_error_ext' {A} (l : list A) : forall l', (forall k, nth_error l k = nth_error l' k) -> l = l'.
Proof.
  induction l as [|a l IH]; intros [|b l'] H; auto; try (specialize (H 0); discriminate).
  f_equal; [specialize (H 0); now injection H|]. apply IH. intro k. exact (H (S k)).
Qed.
Lemma exec_exists r0 r1 pM t csz F c : session_ok t csz c ->
  exists p, prv_exec r0 r1 pM t csz (challenges F (p_bits p) (p_msgs p)) c = Some p.
Proof.
  intros [[Ht Hc] Hl].
  assert (D : forall sd, exists p, prv_exec r0 r1 pM t csz sd c = Some p).
  { intro sd. apply exec_defined; auto. }
  destruct (D (fun _ _ => 0%N)) as [p0 E0]. set (bits := p_bits p0).
  set (bm := fun i => nth i bits false).
  assert (Ag : agree bm bits) by (intros i b E; unfold bm; now apply nth_error_nth).
  destruct (psim_exec r0 r1 pM t csz (fun _ _ => 0%N) bm c p0 E0 Ag) as [s [Es _]].
  destruct (adaptive (fun ms ci => hmsg (fun k => F (length ms) bits ms) ci) (s_checks s)) as [ms [L H]].
  destruct (D (challenges F bits ms)) as [p E].
  assert (Eb : p_bits p = bits) by (unfold bits; symmetry; eapply seeds_bits; eauto).
  destruct (psim_exec r0 r1 pM t csz (challenges F bits ms) bm c p E) as [s' [Es' [Ps _]]]; [now rewrite Eb|].
  rewrite Es in Es'. injection Es' as <-.
  assert (Em : p_msgs p = ms).
  { rewrite (ps_g _ _ _ Ps). apply nth_error_ext'. intro k. rewrite nth_error_map.
    destruct (nth_error (s_checks s) k) as [ci|] eqn:Ek; cbn [option_map].
    - rewrite (H k ci Ek). f_equal. unfold hmsg. rewrite (ps_i _ _ _ Ps k ci Ek).
      assert (k < length ms) by (rewrite L; apply nth_error_Some; congruence).
      unfold challenges. rewrite firstn_length, Nat.min_l by lia. reflexivity.
    - symmetry. apply nth_error_None. rewrite L. now apply nth_error_None. }
  exists p. now rewrite Eb, Em.
Qed.

(** * Sent bits: corrections and revealed bits *)
Lemma step_weave r0 r1 pM t csz sd s s' g : prv_step r0 r1 pM t csz sd s g = Some s' ->
  exists more o, p_bits s' = p_bits s ++ more /\ p_outs s' = p_outs s ++ o /\
    more = match g with GIn _ | GAnd _ _ => firstn 1 more | GReveal _ => o | _ => [] end /\
    length more = match g with GIn _ | GAnd _ _ | GReveal _ => 1 | _ => 0 end /\
    length o = match g with GReveal _ => 1 | _ => 0 end.
Proof.
  destruct g as [x|v|i j|i|i j|i]; cbn [prv_step]; intro H;
    try (injection H as <-; exists [], []; cbn; rewrite !app_nil_r; auto; fail).
  - unfold prv_input in H. injection H as <-. eexists [_], []. cbn. rewrite app_nil_r. auto.
  - destruct (prv_precheck pM t csz sd s) as [s1|] eqn:E; [|discriminate].
    assert (X : p_bits s1 = p_bits s /\ p_outs s1 = p_outs s).
    { unfold prv_precheck in E. destruct (Nat.eqb _ _); [|now injection E as <-].
      unfold prv_manage in E. destruct (and_ranges _ _); [|discriminate]. now injection E as <-. }
    destruct X as [X Y]. unfold prv_and in H. injection H as <-. cbn [p_bits p_outs]. rewrite X, Y.
    eexists [_], []. rewrite app_nil_r. auto.
  - injection H as <-. cbn [p_bits p_outs]. eexists [_], [_]. auto.
Qed.
Lemma run_weave r0 r1 pM t csz sd c : forall s s', prv_run r0 r1 pM t csz sd s c = Some s' ->
  exists more o, p_bits s' = p_bits s ++ more /\ p_outs s' = p_outs s ++ o /\
    weave c (masked_bits c more) o = more /\
    length (masked_bits c more) = count_in c + count_and c.
Proof.
  induction c as [|g c IH]; intros s s' H; cbn [prv_run] in H.
  - injection H as <-. exists [], []. cbn. rewrite !app_nil_r. auto.
  - destruct (prv_step r0 r1 pM t csz sd s g) as [s1|] eqn:E; [|discriminate].
    destruct (step_weave _ _ _ _ _ _ _ _ _ E) as [m1 [o1 [B1 [O1 [M1 [L1 L1']]]]]].
    destruct (IH _ _ H) as [m2 [o2 [B2 [O2 [W2 L2]]]]].
    exists (m1 ++ m2), (o1 ++ o2). rewrite B2, O2, B1, O1, <- !app_assoc. split; [auto|split; [auto|]].
    destruct g; destruct m1 as [|bb [|]]; cbn in L1; try discriminate; destruct o1 as [|? [|]]; cbn in L1'; try discriminate;
      cbn [app masked_bits weave count_in count_and hd tl length]; rewrite ?W2, ?L2; try (split; [reflexivity|lia]).
    cbn in M1. injection M1 as <-. auto.
Qed.
Lemma exec_weave r0 r1 pM t csz sd c p : prv_exec r0 r1 pM t csz sd c = Some p ->
  weave c (masked_bits c (p_bits p)) (p_outs p) = p_bits p /\
  length (masked_bits c (p_bits p)) = count_in c + count_and c.
Proof.
  unfold prv_exec. destruct (prv_run r0 r1 pM t csz sd p_init c) as [s|] eqn:E; [|discriminate].
  destruct (run_weave _ _ _ _ _ _ _ _ _ E) as [m [o [B [O [W L]]]]]. cbn in B, O. subst m o.
  unfold prv_final. intro H.
  assert (X : p_bits p = p_bits s /\ p_outs p = p_outs s).
  { destruct (p_buf s); [now injection H as <-|]. unfold prv_manage in H. destruct (and_ranges _ _); [|discriminate]. now injection H as <-. }
  destruct X as [-> ->]. auto.
Qed.
Lemma weave_inputs c : forall ins m o, weave (with_inputs ins c) m o = weave c m o.
Proof.
  induction c as [|g c IH]; intros ins m o; [reflexivity|].
  destruct g; cbn [with_inputs]; try (cbn [weave]; now rewrite ?IH).
  destruct ins; cbn [weave]; now rewrite ?IH.
Qed.

(** * Blocks as bits *)
Lemma block_bits_length a : length (block_bits a) = 128. Proof. unfold block_bits. now rewrite map_length, seq_length. Qed.
Lemma bits_block_testbit l : forall i, N.testbit (bits_block l) (N.of_nat i) = nth i l false.
Proof.
  induction l as [|b l IH]; intro i; [cbn [bits_block]; rewrite N.bits_0; now destruct i|].
  cbn [bits_block]. assert (E : (2 * bits_block l + (if b then 1 else 0) = 2 * bits_block l + N.b2n b)%N) by (now destruct b).
  rewrite E. destruct i as [|i]; [apply N.testbit_0_r|].
  rewrite Nat2N.inj_succ. cbn [nth]. rewrite N.testbit_succ_r. apply IH.
Qed.
Lemma bits_block_of a : (a < 2 ^ 128)%N -> bits_block (block_bits a) = a.
Proof.
  intro H. apply N.bits_inj. intro i. rewrite <- (N2Nat.id i). rewrite bits_block_testbit. unfold block_bits.
  destruct (lt_dec (N.to_nat i) 128) as [L|L].
  - rewrite nth_indep with (d' := (fun i => N.testbit a (N.of_nat i)) 0) by (rewrite map_length, seq_length; lia).
    rewrite (map_nth (fun i => N.testbit a (N.of_nat i))), seq_nth by lia. reflexivity.
  - rewrite nth_overflow by (rewrite map_length, seq_length; lia). symmetry. apply bit_high; [exact H|lia].
Qed.
Lemma split_at {A} n (a b : list A) : length a = n -> firstn n (a ++ b) = a /\ skipn n (a ++ b) = b.
Proof. intros <-. rewrite firstn_app, skipn_app, Nat.sub_diag, firstn_all, skipn_all. cbn. now rewrite app_nil_r. Qed.
Lemma blocks_of (l : list (N * N)) : Forall (fun A => snd A < 2 ^ 128)%N l ->
  blocks (length l) (flat_map (fun A => block_bits (snd A)) l) = map snd l.
Proof.
  induction l as [|A l IH]; intro H; [reflexivity|]. inversion H; subst.
  cbn [length blocks flat_map map].
  destruct (split_at 128 (block_bits (snd A)) (flat_map (fun A => block_bits (snd A)) l) (block_bits_length _)) as [-> ->].
  rewrite IH by assumption. f_equal. now apply bits_block_of.
Qed.
Lemma flat_len (l : list (N * N)) : length (flat_map (fun A => block_bits (snd A)) l) = 128 * length l.
Proof. induction l as [|A l IH]; [reflexivity|]. cbn [flat_map length]. rewrite app_length, block_bits_length, IH. lia. Qed.

Lemma manage_lt pM t sd s s' : prv_manage pM t sd s = Some s' ->
  Forall (fun A => snd A < 2 ^ 128)%N (p_msgs s) -> Forall (fun A => snd A < 2 ^ 128)%N (p_msgs s').
Proof.
  unfold prv_manage. destruct (and_ranges _ _); [|discriminate]. intros H F. injection H as <-. cbn [p_msgs].
  apply Forall_app. split; [exact F|]. constructor; [|constructor]. apply A_snd_lt. unfold pM_slice. now rewrite map_length, seq_length.
Qed.
Lemma run_lt r0 r1 pM t csz sd c : forall s s', prv_run r0 r1 pM t csz sd s c = Some s' ->
  Forall (fun A => snd A < 2 ^ 128)%N (p_msgs s) -> Forall (fun A => snd A < 2 ^ 128)%N (p_msgs s').
Proof.
  induction c as [|g c IH]; intros s s' H F; cbn [prv_run] in H; [now injection H as <-|].
  destruct (prv_step r0 r1 pM t csz sd s g) as [s1|] eqn:E; [|discriminate]. apply (IH _ _ H). clear H.
  destruct g; cbn [prv_step] in E; try (now injection E as <-).
  destruct (prv_precheck pM t csz sd s) as [s2|] eqn:E2; [|discriminate]. injection E as <-. cbn.
  unfold prv_precheck in E2. destruct (Nat.eqb _ _); [|now injection E2 as <-].
  destruct (prv_manage pM t sd s) as [s3|] eqn:E3; [|discriminate]. injection E2 as <-. cbn.
  eapply manage_lt; eauto.
Qed.
Lemma exec_lt r0 r1 pM t csz sd c p : prv_exec r0 r1 pM t csz sd c = Some p ->
  Forall (fun A => snd A < 2 ^ 128)%N (p_msgs p).
Proof.
  unfold prv_exec. destruct (prv_run r0 r1 pM t csz sd p_init c) as [s|] eqn:E; [|discriminate].
  assert (F : Forall (fun A => snd A < 2 ^ 128)%N (p_msgs s)) by (eapply run_lt; [eassumption|constructor]).
  unfold prv_final. destruct (p_buf s); intro H; [now injection H as <-|]. eapply manage_lt; eauto.
Qed.

(** * The map from randomness to coins *)
Section Bij.
  Variables (r0 r1 : N) (key : nat -> N) (d : N) (threads csz : nat) (F : challenger) (c : list gate).
  Hypothesis Hkey : valid_keys key.
  Hypothesis Hd : valid_delta d.
  Hypothesis Hok : session_ok threads csz c.
  Notation honest := (honest r0 r1 key d threads csz F c).
  Notation n := (entropy csz c).
  Lemma mac_lsb u i : getLSB (mac key d u (S i)) = nth i u false.
  Proof.
    unfold mac, getLSB. rewrite N.lxor_spec, (Hkey (S i)). destruct Hd as [_ H].
    destruct (nth i u false); [now rewrite H|reflexivity].
  Qed.
  Lemma mac_inj u u' i : getLSB (mac key d u i) = getLSB (mac key d u' i) -> mac key d u i = mac key d u' i.
  Proof. destruct i as [|i]; [reflexivity|]. rewrite !mac_lsb. intro E. unfold mac. now rewrite E. Qed.
  Lemma mac_key u i : cot_key (mac key d u) d i = key i.
  Proof.
    unfold cot_key. destruct i as [|i].
    - unfold mac. rewrite N.lxor_0_r, (Hkey 0). apply N.lxor_0_r.
    - change (N.testbit (mac key d u (S i)) 0) with (getLSB (mac key d u (S i))). rewrite mac_lsb. unfold mac.
      rewrite N.lxor_assoc, N.lxor_nilpotent. apply N.lxor_0_r.
  Qed.
  Lemma ok_inputs ins : session_ok threads csz (with_inputs ins c).
  Proof. unfold session_ok. destruct (with_inputs_counts c ins) as [_ [-> _]]. exact Hok. Qed.
  Lemma ent_inputs ins : entropy csz (with_inputs ins c) = n.
  Proof. unfold entropy. destruct (with_inputs_counts c ins) as [-> [-> _]]. reflexivity. Qed.
  Lemma csz1 : 1 <= csz. Proof. destruct Hok. lia. Qed.
  Lemma honest_exists ins u : exists p, honest ins u p.
  Proof. unfold HideSpec.honest. apply exec_exists. apply ok_inputs. Qed.
  Lemma honest_outs ins u p : honest ins u p -> p_outs p = plain_outputs (with_inputs ins c).
  Proof.
    intro H. destruct (session_complete r0 r1 _ threads csz _ unit (fun _ _ => true) (fun _ => tt) _ p d ltac:(auto) Hd H) as [v [_ [_ [E _]]]].
    exact E.
  Qed.
  Lemma coins_length ins u p : honest ins u p -> length (coins c p) = n.
  Proof.
    intro H. destruct (exec_counts _ _ _ _ _ _ csz1 _ _ H) as [_ [L _]].
    destruct (exec_weave _ _ _ _ _ _ _ _ H) as [_ W]. rewrite with_inputs_masked in W.
    destruct (with_inputs_counts c ins) as [A [B _]]. rewrite A, B in W. rewrite B in L.
    unfold coins, entropy. rewrite app_length, W, flat_len, L. lia.
  Qed.
  Lemma coins_split ins u p : honest ins u p ->
    firstn (count_in c + count_and c) (coins c p) = masked_bits c (p_bits p) /\
    skipn (count_in c + count_and c) (coins c p) = flat_map (fun A => block_bits (snd A)) (p_msgs p).
  Proof.
    intro H. destruct (exec_weave _ _ _ _ _ _ _ _ H) as [_ W]. rewrite with_inputs_masked in W.
    destruct (with_inputs_counts c ins) as [A [B _]]. rewrite A, B in W. rewrite <- W. unfold coins.
    rewrite firstn_app, skipn_app, Nat.sub_diag, firstn_all, skipn_all. cbn. now rewrite app_nil_r.
  Qed.
  Lemma coins_parts ins u p : honest ins u p ->
    p_bits p = weave c (firstn (count_in c + count_and c) (coins c p)) (plain_outputs (with_inputs ins c)) /\
    map snd (p_msgs p) = blocks (checks csz (count_and c)) (skipn (count_in c + count_and c) (coins c p)).
  Proof.
    intro H. destruct (coins_split _ _ _ H) as [-> ->]. split.
    - rewrite <- (honest_outs _ _ _ H). destruct (exec_weave _ _ _ _ _ _ _ _ H) as [W _].
      rewrite with_inputs_masked, weave_inputs in W. now symmetry.
    - destruct (exec_counts _ _ _ _ _ _ csz1 _ _ H) as [_ [L _]]. destruct (with_inputs_counts c ins) as [_ [B _]].
      rewrite B in L. rewrite <- L. symmetry. apply blocks_of. eapply exec_lt; exact H.
  Qed.
  Lemma mac_list u u' : length u = n -> length u' = n ->
    (forall i, 1 <= i < 1 + n -> mac key d u i = mac key d u' i) -> u = u'.
  Proof.
    intros L L' H. apply nth_ext with false false; [congruence|]. intros i Hi.
    rewrite <- !mac_lsb. f_equal. apply H. lia.
  Qed.
  Lemma honest_inj ins u u' p p' : length u = n -> length u' = n -> honest ins u p -> honest ins u' p' ->
    coins c p = coins c p' -> u = u' /\ p = p'.
  Proof.
    intros L L' H H' E.
    destruct (coins_parts _ _ _ H) as [B M], (coins_parts _ _ _ H') as [B' M']. rewrite E in B, M.
    rewrite <- B' in B. rewrite <- M' in M.
    destruct (lock_exec r0 r1 (mac key d u) (mac key d u') threads csz F (p_bits p) (p_msgs p) (p_msgs p')
                (mac_inj u u') (or_intror M) (with_inputs ins c) p p' csz1 H) as [Ep S]; auto.
    { rewrite B. exact H'. }
    split; [|exact Ep]. apply mac_list; auto. intros i Hi. apply S.
    destruct (exec_counts _ _ _ _ _ _ csz1 _ _ H) as [_ [_ [C _]]]. rewrite C, ent_inputs. lia.
  Qed.
  Lemma honest_unique ins u p p' : honest ins u p -> honest ins u p' -> p = p'.
  Proof.
    intros H H'. assert (B : p_bits p = p_bits p') by (eapply seeds_bits; [exact H|exact H']).
    destruct (lock_exec r0 r1 (mac key d u) (mac key d u) threads csz F (p_bits p) (p_msgs p) (p_msgs p')
                (mac_inj u u) (or_introl (fun i => eq_refl)) (with_inputs ins c) p p' csz1 H) as [Ep _]; auto.
    rewrite B. exact H'.
  Qed.
  Lemma finite_choice {B} (R : list bool -> B -> Prop) m : (forall v, length v = m -> exists b, R v b) ->
    exists f, forall v, length v = m -> R v (f v).
  Proof.
    intro H. assert (D : exists b : B, True) by (destruct (H (repeat false m) (repeat_length _ _)) as [b _]; eauto).
    destruct D as [b0 _].
    assert (G : forall l, (forall v, In v l -> length v = m) -> exists f, forall v, In v l -> R v (f v)).
    { induction l as [|x l IH]; intro Hl; [exists (fun _ => b0); easy|].
      destruct IH as [f Hf]; [intros; apply Hl; now right|]. destruct (H x) as [b Hb]; [apply Hl; now left|].
      exists (fun v => if list_eq_dec bool_dec v x then b else f v). intros v Hv.
      destruct (list_eq_dec bool_dec v x) as [->|Ne]; [exact Hb|]. destruct Hv as [->|Hv]; [easy|auto]. }
    destruct (G (vecs m)) as [f Hf]; [intro v; apply in_vecs|]. exists f. intros v L. apply Hf. now apply in_vecs.
  Qed.
  (** every coin string comes from exactly one list of random bits *)
  Lemma coins_onto ins w : length w = n -> exists u p, length u = n /\ honest ins u p /\ coins c p = w.
  Proof.
    intro Lw. destruct (finite_choice (fun u p => honest ins u p) n) as [f Hf]; [intros; apply honest_exists|].
    destruct (inj_surj n (fun u => coins c (f u))) with (w := w) as [u [Lu Eu]]; auto.
    - intros v Lv. eapply coins_length. apply Hf. exact Lv.
    - intros a b La Lb E. eapply honest_inj; [exact La|exact Lb|apply Hf; exact La|apply Hf; exact Lb|exact E].
    - exists u, (f u). auto.
  Qed.
End Bij.

(** * The simulator reproduces the view *)
Definition er (v : vst) := (v_wires v, v_buf v, v_hash v, v_cot v, v_chk v, v_bits v).
Section Sim.
  Variables (r0 r1 : N) (key : nat -> N) (d : N) (threads csz : nat) (F : challenger).
  Variables (bits : list bool) (P : list (N * N)).
  Let sd := challenges F bits P.
  Let cm := fun k => nth k P (0, 0)%N.
  Let bm := fun i => nth i bits false.
  Let a1s := map snd P.
  Notation ver_manage' := (ver_manage key d threads sd cm).
  Notation ver_step' := (ver_step r0 r1 key d threads csz sd bm cm).
  Notation ver_run' := (ver_run r0 r1 key d threads csz sd bm cm).
  Notation sim_msg' := (sim_msg key d threads F bits a1s).
  Notation sim_step' := (sim_step r0 r1 key d threads csz F bits a1s).
  Notation sim_run' := (sim_run r0 r1 key d threads csz F bits a1s).
  Lemma vmanage_mono v v' : ver_manage' v = Some v' ->
    (v_cheat v' = [] -> v_cheat v = []) /\ v_chk v' = S (v_chk v) /\ v_hash v' = v_hash v.
  Proof.
    unfold ver_manage. destruct (and_ranges _ _); [|discriminate]. intro H. injection H as <-. cbn [v_cheat v_chk v_hash].
    split; [|auto]. destruct (ver_accept _ _ _); auto. intro E. apply app_eq_nil in E. easy.
  Qed.
  Lemma vstep_mono v v' g : ver_step' v g = Some v' -> (v_cheat v' = [] -> v_cheat v = []) /\ v_chk v <= v_chk v'.
  Proof.
    destruct g; cbn [ver_step]; intro H; try (injection H as <-; cbn; auto; fail).
    destruct (ver_precheck key d threads csz sd cm v) as [v1|] eqn:E; [|discriminate]. injection H as <-. cbn [v_cheat v_chk].
    unfold ver_precheck in E. destruct (Nat.eqb _ _); [|injection E as <-; auto].
    destruct (ver_manage' v) as [v2|] eqn:E2; [|discriminate]. injection E as <-.
    destruct (vmanage_mono _ _ E2) as [A [B _]]. cbn. split; [exact A|lia].
  Qed.
  Lemma vrun_mono c : forall v v', ver_run' v c = Some v' -> (v_cheat v' = [] -> v_cheat v = []) /\ v_chk v <= v_chk v'.
  Proof.
    induction c as [|g c IH]; intros v v' H; cbn [ver_run] in H; [injection H as <-; auto|].
    destruct (ver_step' v g) as [v1|] eqn:E; [|discriminate].
    destruct (vstep_mono _ _ _ E), (IH _ _ H). split; [auto|lia].
  Qed.
  Lemma sim_msg_ok v w v' : ver_manage' v = Some v' -> v_cheat v' = [] -> er v = er w -> v_chk v < length P ->
    sim_msg' w (firstn (v_chk v) P) = Some (firstn (v_chk v') P).
  Proof.
    intros H Ch E L. destruct (vmanage_mono _ _ H) as [_ [Ek _]]. rewrite Ek.
    unfold er in E. injection E as Ew Eb Eh Ec Ek' Ebt.
    unfold ver_manage in H. unfold sim_msg. rewrite <- Eb, <- Ec.
    destruct (and_ranges threads (length (v_buf v))) as [rs|]; [|discriminate].
    injection H as <-. cbn [v_cheat] in Ch. rewrite firstn_length, Nat.min_l by lia. f_equal.
    destruct (ver_accept d (cm (v_chk v)) _) eqn:A; [|apply app_eq_nil in Ch; easy].
    unfold ver_accept in A. apply N.eqb_eq in A. unfold sd, challenges in A. cbv beta in A.
    change (fun i => F (v_chk v) bits (firstn (v_chk v) P) i) with (F (v_chk v) bits (firstn (v_chk v) P)) in A.
    rewrite <- A. unfold a1s. change 0%N with (snd (0, 0)%N) at 1. rewrite map_nth. fold (cm (v_chk v)).
    change (snd (0, 0)%N) with 0%N. rewrite map_nth with (d := (0, 0)%N). fold (cm (v_chk v)).
    rewrite (N.lxor_comm (gfmul _ _)), N.lxor_assoc, N.lxor_nilpotent, N.lxor_0_r.
    rewrite <- surjective_pairing. unfold cm. clear -L.
    revert L. generalize (v_chk v). induction P as [|x l IH]; intros k L; [cbn in L; lia|].
    destruct k as [|k]; [reflexivity|]. cbn [firstn nth app]. f_equal. apply IH. cbn in L. lia.
  Qed.
  Lemma sim_ver_ok v w v' g : ver_step' v g = Some v' -> er v = er w ->
    exists w', sim_ver r0 r1 key d threads csz bits w g = Some w' /\ er v' = er w'.
  Proof.
    intros H E. unfold er in E. injection E as Ew Eb Eh Ec Ek Ebt. unfold sim_ver. fold bm.
    destruct g; cbn [ver_step] in *;
      try (injection H as <-; eexists; split; [reflexivity|]; unfold er; cbn; rewrite ?Ew, ?Eb, ?Eh, ?Ec, ?Ek, ?Ebt; reflexivity).
    unfold ver_precheck, ver_manage in *. rewrite Eb in H.
    destruct (Nat.eqb (length (v_buf w)) csz); [destruct (and_ranges threads (length (v_buf w))); [|discriminate]|];
      injection H as <-; eexists; (split; [reflexivity|]); unfold er; cbn -[vK_slice]; rewrite ?Ew, ?Eb, ?Eh, ?Ec, ?Ek, ?Ebt; reflexivity.
  Qed.
  Lemma sim_run_ok c : forall v w v', ver_run' v c = Some v' -> v_cheat v' = [] -> er v = er w -> v_chk v' <= length P ->
    exists w', sim_run' (w, firstn (v_chk v) P) c = Some (w', firstn (v_chk v') P) /\ er v' = er w'.
  Proof.
    induction c as [|g c IH]; intros v w v' H Ch E L; cbn [ver_run sim_run] in *.
    - injection H as <-. eauto.
    - destruct (ver_step' v g) as [v1|] eqn:E1; [|discriminate].
      destruct (vrun_mono _ _ _ H) as [Ch1 L1]. specialize (Ch1 Ch).
      destruct (sim_ver_ok v w v1 g E1 E) as [w1 [Ew1 Er1]].
      assert (M : (match g with
           | GAnd _ _ => if Nat.eqb (length (v_buf w)) csz then sim_msg' w (firstn (v_chk v) P) else Some (firstn (v_chk v) P)
           | _ => Some (firstn (v_chk v) P) end) = Some (firstn (v_chk v1) P)).
      { destruct g; cbn [ver_step] in E1; try (injection E1 as <-; reflexivity).
        destruct (ver_precheck key d threads csz sd cm v) as [v2|] eqn:E2; [|discriminate].
        injection E1 as <-. cbn [v_chk v_cheat] in *. unfold ver_precheck in E2.
        assert (Eb : v_buf v = v_buf w) by (unfold er in E; now injection E). rewrite <- Eb.
        destruct (Nat.eqb (length (v_buf v)) csz); [|now injection E2 as <-].
        destruct (ver_manage' v) as [v3|] eqn:E3; [|discriminate]. injection E2 as <-. cbn [v_clear v_chk v_cheat] in *.
        apply sim_msg_ok; auto. destruct (vmanage_mono _ _ E3) as [_ [K _]]. lia. }
      unfold sim_step. rewrite M, Ew1. now apply IH.
  Qed.
  Lemma sim_exec_ok c v : ver_exec r0 r1 key d threads csz sd bm cm c = Some v -> v_cheat v = [] -> v_chk v = length P ->
    HideSpec.sim_exec r0 r1 key d threads csz F bits a1s c = Some (bits, P, v_hash v).
  Proof.
    unfold ver_exec. destruct (ver_run' v_init c) as [v1|] eqn:E; [|discriminate]. intros H Ch K.
    assert (X : v_chk v1 <= length P /\ v_cheat v1 = []).
    { unfold ver_final in H. destruct (v_buf v1); [injection H as <-; rewrite K; auto|].
      destruct (vmanage_mono _ _ H) as [A [B _]]. split; [lia|auto]. }
    destruct X as [L1 Ch1].
    destruct (sim_run_ok c v_init v_init v1 E Ch1 eq_refl L1) as [w [Es Er]]. cbn [v_init v_chk firstn] in Es.
    unfold HideSpec.sim_exec. fold v_init in Es. rewrite Es.
    assert (Eb : v_buf v1 = v_buf w /\ v_hash v1 = v_hash w) by (unfold er in Er; injection Er; auto). destruct Eb as [Eb Eh].
    unfold ver_final in H. rewrite <- Eb, <- Eh. destruct (v_buf v1) as [|x l] eqn:Eq.
    - injection H as <-. rewrite K, firstn_all. reflexivity.
    - destruct (vmanage_mono _ _ H) as [_ [B Ehh]].
      rewrite (sim_msg_ok v1 w v H Ch Er) by lia. rewrite K, firstn_all, Ehh. reflexivity.
  Qed.
End Sim.
Lemma ver_inputs r0 r1 K d t csz sd bm cm c : forall ins v,
  ver_run r0 r1 K d t csz sd bm cm v (with_inputs ins c) = ver_run r0 r1 K d t csz sd bm cm v c.
Proof.
  induction c as [|g c IH]; intros ins v; [reflexivity|].
  destruct g; cbn [with_inputs]; try (cbn [ver_run]; destruct (ver_step _ _ _ _ _ _ _ _ _ _ _); [apply IH|reflexivity]).
  destruct ins; cbn [ver_run ver_step]; apply IH.
Qed.
Lemma ver_chk_counts r0 r1 pM t csz sd c p d v : valid_delta d -> prv_exec r0 r1 pM t csz sd c = Some p ->
  ver_exec r0 r1 (cot_key pM d) d t csz sd (fun i => nth i (p_bits p) false) (fun k => nth k (p_msgs p) (0, 0)%N) c = Some v ->
  v_chk v = length (p_msgs p).
Proof.
  intros [Hlt H1] Hp Hv.
  set (bm := fun i => nth i (p_bits p) false) in *. set (cmsg := fun k => nth k (p_msgs p) (0, 0)%N) in *.
  assert (Ha : agree bm (p_bits p)) by (intros i b E; unfold bm; now apply nth_error_nth).
  destruct (psim_exec r0 r1 pM t csz sd bm c p Hp Ha) as [s [Es [Hs Ho]]].
  pose proof (BoolProofs.sim_exec r0 r1 pM t csz bm d sd cmsg H1 Hlt c) as S. rewrite Es in S.
  rewrite <- (ver_exec_ext _ _ (cot_key pM d)) in S by (intro; apply keys_vK). rewrite Hv in S.
  rewrite (vs_k _ _ _ _ _ S), (ps_n _ _ _ Hs), (ps_g _ _ _ Hs). now rewrite map_length.
Qed.
Definition leqb (a b : list N) : bool := if list_eq_dec N.eq_dec a b then true else false.
Theorem view_simulated r0 r1 key d threads csz F c : valid_keys key -> valid_delta d -> session_ok threads csz c ->
  forall ins u p, honest r0 r1 key d threads csz F c ins u p ->
  simulate r0 r1 key d threads csz F c (plain_outputs (with_inputs ins c)) (coins c p) = Some (view p).
Proof.
  intros Hk Hd Hok ins u p H.
  destruct (session_complete r0 r1 _ threads csz _ (list N) leqb (fun l => l) _ p d ltac:(intro; unfold leqb; now destruct (list_eq_dec _ _ _)) Hd H) as [v [Ev [_ [_ Ef]]]].
  pose proof (ver_chk_counts _ _ _ _ _ _ _ _ _ _ Hd H Ev) as K.
  apply finalize_false in Ef. destruct Ef as [Eh Ch].
  assert (Hh : v_hash v = p_hash p) by (unfold leqb in *; now destruct (list_eq_dec N.eq_dec (v_hash v) (p_hash p))).
  rewrite (ver_exec_ext _ _ _ key) in Ev by (intro; now apply mac_key).
  unfold ver_exec in Ev. rewrite ver_inputs in Ev. fold (ver_exec r0 r1 key d threads csz (challenges F (p_bits p) (p_msgs p)) (fun i => nth i (p_bits p) false) (fun k => nth k (p_msgs p) (0, 0)%N) c) in Ev.
  unfold simulate.
  destruct (coins_parts r0 r1 key d threads csz F c Hd Hok ins u p H) as [<- <-].
  unfold view. rewrite <- Hh. now apply sim_exec_ok.
Qed.

(** * Bijections and distributions *)
Section Final.
  Variables (r0 r1 : N) (key : nat -> N) (d : N) (threads csz : nat) (F : challenger) (c : list gate).
  Hypothesis Hkey : valid_keys key.
  Hypothesis Hd : valid_delta d.
  Hypothesis Hok : session_ok threads csz c.
  Notation honest := (honest r0 r1 key d threads csz F c).
  Notation n := (entropy csz c).
  Lemma same_coins_view ins ins' u u' p p' : plain_outputs (with_inputs ins c) = plain_outputs (with_inputs ins' c) ->
    honest ins u p -> honest ins' u' p' -> coins c p = coins c p' -> view p = view p'.
  Proof.
    intros Eo H H' Ec.
    pose proof (view_simulated r0 r1 key d threads csz F c Hkey Hd Hok ins u p H) as S.
    pose proof (view_simulated r0 r1 key d threads csz F c Hkey Hd Hok ins' u' p' H') as S'.
    rewrite <- Eo, <- Ec, S in S'. congruence.
  Qed.
  Lemma view_coins p p' : view p = view p' -> coins c p = coins c p'.
  Proof. unfold view, coins. intro H. injection H as -> -> _. reflexivity. Qed.
  Theorem view_bijection ins ins' : plain_outputs (with_inputs ins c) = plain_outputs (with_inputs ins' c) ->
    exists phi psi : list bool -> list bool,
      (forall u, length u = n -> length (phi u) = n /\ psi (phi u) = u) /\
      (forall u, length u = n -> length (psi u) = n /\ phi (psi u) = u) /\
      (forall u p p', length u = n -> honest ins u p -> honest ins' (phi u) p' -> view p = view p').
  Proof.
    intro Eo.
    assert (X : forall i j, exists f, forall u, length u = n -> length (f u) = n /\
              exists p p', honest i u p /\ honest j (f u) p' /\ coins c p = coins c p').
    { intros i j. apply (finite_choice (fun u w => length w = n /\ exists p p', honest i u p /\ honest j w p' /\ coins c p = coins c p')).
      intros u Lu. destruct (honest_exists r0 r1 key d threads csz F c Hok i u) as [p Hp].
      destruct (coins_onto r0 r1 key d threads csz F c Hkey Hd Hok j (coins c p)) as [w [p' [Lw [Hp' Ec]]]].
      - eapply coins_length; eauto.
      - exists w. split; [exact Lw|]. exists p, p'. auto. }
    destruct (X ins ins') as [phi Hphi], (X ins' ins) as [psi Hpsi]. exists phi, psi.
    assert (U : forall i u p p', honest i u p -> honest i u p' -> p = p') by (intros; eapply honest_unique; eauto).
    split; [|split].
    - intros u Lu. destruct (Hphi u Lu) as [Lp [p [p' [H1 [H2 E]]]]]. split; [exact Lp|].
      destruct (Hpsi _ Lp) as [Lq [q [q' [H3 [H4 E']]]]]. rewrite (U _ _ _ _ H3 H2) in E'.
      eapply honest_inj with (p := q') (p' := p); eauto. congruence.
    - intros u Lu. destruct (Hpsi u Lu) as [Lp [p [p' [H1 [H2 E]]]]]. split; [exact Lp|].
      destruct (Hphi _ Lp) as [Lq [q [q' [H3 [H4 E']]]]]. rewrite (U _ _ _ _ H3 H2) in E'.
      eapply honest_inj with (p := q') (p' := p); eauto. congruence.
    - intros u p p' Lu H1 H2. destruct (Hphi u Lu) as [_ [q [q' [H3 [H4 E]]]]].
      rewrite (U _ _ _ _ H1 H3), (U _ _ _ _ H2 H4). eapply same_coins_view; eauto.
  Qed.
  (** the views of the honest prover are exactly the simulated ones, each produced by exactly
      one list of random bits *)
  Theorem view_uniform ins :
    (forall u u' p p', length u = n -> length u' = n -> honest ins u p -> honest ins u' p' -> view p = view p' -> u = u') /\
    (forall t, (exists u p, length u = n /\ honest ins u p /\ view p = t) <->
       (exists r, length r = n /\ simulate r0 r1 key d threads csz F c (plain_outputs (with_inputs ins c)) r = Some t)).
  Proof.
    split.
    - intros u u' p p' L L' H H' E. eapply honest_inj with (p := p) (p' := p'); eauto. now apply view_coins.
    - intro t. split.
      + intros [u [p [L [H <-]]]]. exists (coins c p). split; [eapply coins_length; eauto|]. eapply view_simulated; eauto.
      + intros [r [L S]]. destruct (coins_onto r0 r1 key d threads csz F c Hkey Hd Hok ins r L) as [u [p [Lu [H E]]]].
        exists u, p. split; [exact Lu|]. split; [exact H|].
        rewrite <- E, (view_simulated r0 r1 key d threads csz F c Hkey Hd Hok ins u p H) in S. congruence.
  Qed.
End Final.
