(** Wires of an honest Boolean session: share relation, range and plain values. *)
From Coq Require Import NArith List Bool Arith Lia.
From Verif Require Import Word BoolModel BoolProofs BoolAlg BoolSpec BoolThms BoolThms2 DebugModel.
Import ListNotations.

Lemma lxor128 a b : (a < 2 ^ 128 -> b < 2 ^ 128 -> N.lxor a b < 2 ^ 128)%N.
Proof.
  intros Ha Hb. destruct (N.eq_dec (N.lxor a b) 0) as [->|Z]; [reflexivity|].
  apply N.log2_lt_pow2; [lia|]. eapply N.le_lt_trans; [apply N.log2_lxor|].
  apply N.max_lub_lt; (match goal with |- (N.log2 ?x < _)%N => destruct (N.eq_dec x 0) as [->|]; [reflexivity|apply N.log2_lt_pow2; [lia|assumption]] end).
Qed.
Lemma svb128 a v : (set_value_in_block a v < 2 ^ 128)%N.
Proof. unfold set_value_in_block. apply lxor128; [exact (szb_lt a)|now destruct v]. Qed.
Definition small (l : list N) : Prop := Forall (fun w => w < 2 ^ 128)%N l.
Lemma wire_small ws i : small ws -> (wire ws i < 2 ^ 128)%N.
Proof. intro H. unfold wire. destruct (nth_in_or_default i ws 0%N) as [I|E]; [|rewrite E; reflexivity]. unfold small in H. rewrite Forall_forall in H. now apply H. Qed.
Lemma small_app ws w : small ws -> (w < 2 ^ 128)%N -> small (ws ++ [w]).
Proof. intros. apply Forall_app. split; [assumption|]. constructor; auto. Qed.
Section S.
  Variables (r0 r1 : N) (pM : nat -> N) (threads csz : nat) (seeds : nat -> nat -> N).
  Lemma manage_wires s s' : prv_manage pM threads seeds s = Some s' -> p_wires s' = p_wires s.
  Proof. unfold prv_manage. destruct (and_ranges _ _); [|discriminate]. now intros [= <-]. Qed.
  Lemma step_small s g s' : small (p_wires s) -> prv_step r0 r1 pM threads csz seeds s g = Some s' -> small (p_wires s').
  Proof.
    intros H. assert (M : (minusone < 2 ^ 128)%N) by exact minusone_lt.
    destruct g; cbn [prv_step]; unfold prv_input, prv_and; cbv zeta.
    - intros [= <-]. cbn [p_wires]. apply small_app; [exact H|apply svb128].
    - intros [= <-]. cbn [p_add p_wires]. apply small_app; [exact H|]. unfold prv_pub_label. destruct b; [apply lxor128; [|reflexivity]|]; apply szb_lt.
    - intros [= <-]. cbn [p_add p_wires]. apply small_app; [exact H|]. apply lxor128; now apply wire_small.
    - intros [= <-]. cbn [p_add p_wires]. apply small_app; [exact H|]. apply lxor128; [now apply wire_small|reflexivity].
    - destruct (prv_precheck pM threads csz seeds s) as [s1|] eqn:E; [|discriminate]. intros [= <-]. cbn [p_wires].
      assert (W : p_wires s1 = p_wires s).
      { unfold prv_precheck in E. destruct (Nat.eqb _ _); [|congruence]. destruct (prv_manage pM threads seeds s) as [s2|] eqn:E2; [|discriminate].
        injection E as <-. cbn [p_clear p_wires]. now apply manage_wires. }
      apply small_app; [now rewrite W|apply svb128].
    - intros [= <-]. exact H.
  Qed.
  Lemma exec_small c p : prv_exec r0 r1 pM threads csz seeds c = Some p -> small (p_wires p).
  Proof.
    unfold prv_exec. destruct (prv_run r0 r1 pM threads csz seeds p_init c) as [s|] eqn:E; [|discriminate].
    assert (R : forall c s s', small (p_wires s) -> prv_run r0 r1 pM threads csz seeds s c = Some s' -> small (p_wires s')).
    { clear. induction c as [|g c IH]; intros s s' H; cbn [prv_run]; [now intros [= <-]|].
      destruct (prv_step r0 r1 pM threads csz seeds s g) as [s1|] eqn:E; [|discriminate]. intro X. apply (IH s1 s'); [|exact X]. now apply (step_small s g). }
    assert (Z : small (p_wires s)) by (apply (R c p_init s); [constructor|exact E]).
    unfold prv_final. destruct (p_buf s); [now intros [= <-]|]. intro X. now rewrite (manage_wires _ _ X).
  Qed.
  Variables (bitmsg : nat -> bool).
  Lemma psim_exec_wires c p : prv_exec r0 r1 pM threads csz seeds c = Some p -> agree bitmsg (p_bits p) ->
    exists s, s_exec r0 r1 pM threads csz bitmsg c = Some s /\ psim seeds p s /\ fst (plain_eval [] [] c) = map snd (s_wires s).
  Proof.
    unfold prv_exec, s_exec. intros H Ha.
    destruct (prv_run r0 r1 pM threads csz seeds p_init c) as [p1|] eqn:E; [|discriminate].
    assert (H0 : psim seeds p_init s_init).
    { constructor; cbn; auto. intros k ci Hk. destruct k; discriminate. }
    assert (Eb : p_bits p = p_bits p1).
    { unfold prv_final in H. destruct (p_buf p1); [now injection H as <-|].
      unfold prv_manage in H. destruct (and_ranges _ _); [|discriminate]. now injection H as <-. }
    rewrite Eb in Ha. destruct (psim_run r0 r1 pM threads csz seeds bitmsg c _ _ _ H0 E Ha) as [s1 [-> [Hp1 Hpl]]].
    unfold prv_final in H. unfold s_final. rewrite (ps_b _ _ _ Hp1) in H.
    cbn in Hpl.
    destruct (s_buf s1) as [|g b] eqn:Es.
    - cbn in H. injection H as <-. exists s1. rewrite Hpl. auto.
    - cbn [map] in H. destruct (psim_manage pM threads csz seeds bitmsg p1 p s1 Hp1 H) as [s' [-> [Hp' [_ [Ew _]]]]].
      exists s'. split; [reflexivity|]. split; [exact Hp'|]. rewrite Hpl, Ew. reflexivity.
  Qed.
End S.
Theorem honest_wires r0 r1 pM threads csz seeds c p d : valid_delta d -> prv_exec r0 r1 pM threads csz seeds c = Some p ->
  exists v, ver_exec r0 r1 (cot_key pM d) d threads csz seeds (fun i => nth i (p_bits p) false) (fun k => nth k (p_msgs p) (0, 0)%N) c = Some v /\
    v_wires v = map (fun m => N.lxor m (if N.odd m then d else 0%N)) (p_wires p) /\ small (p_wires p) /\ map N.odd (p_wires p) = fst (plain_eval [] [] c).
Proof.
  intros [Hlt H1] Hp. set (bm := fun i => nth i (p_bits p) false). set (cmsg := fun k => nth k (p_msgs p) (0, 0)%N).
  assert (Ha : agree bm (p_bits p)). { intros i b E. unfold bm. now apply nth_error_nth. }
  destruct (psim_exec_wires r0 r1 pM threads csz seeds bm c p Hp Ha) as [s [Es [Hs Ho]]].
  pose proof (sim_exec r0 r1 pM threads csz bm d seeds cmsg H1 Hlt c) as S. rewrite Es in S.
  rewrite <- (ver_exec_ext _ _ (cot_key pM d)) in S by (intro; apply keys_vK).
  destruct (ver_exec r0 r1 (cot_key pM d) d threads csz seeds bm cmsg c) as [v|]; [|easy].
  exists v. split; [reflexivity|]. rewrite (vs_w _ _ _ _ _ S), (ps_w _ _ _ Hs), !map_map. pose proof (ps_lsb _ _ _ Hs) as Lo. split; [|split].
  - apply map_ext_in. intros w Hw. rewrite Forall_forall in Lo. specialize (Lo w Hw). unfold lsb_ok, getLSB in Lo. rewrite N.bit0_odd in Lo. unfold kof, choice. now rewrite Lo.
  - rewrite <- (ps_w _ _ _ Hs). exact (exec_small _ _ _ _ _ _ _ _ Hp).
  - rewrite Ho. apply map_ext_in. intros w Hw. rewrite Forall_forall in Lo. specialize (Lo w Hw). unfold lsb_ok, getLSB in Lo. now rewrite N.bit0_odd in Lo.
Qed.
