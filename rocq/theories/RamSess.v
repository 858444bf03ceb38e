(** The set-equality test run through the multiplication engine. *)
From Coq Require Import NArith List Bool Arith Permutation Lia Ring.
From Verif Require Import Word WordProofs GF128 GF128Ring GF128Field ListUtil PolyRoots GfmulModel BoolModel BoolSpec F2kModel F2kSpec F2kAlg F2kProofs F2kSim F2kThms VoleF2kSpec RamModel RamSpec RamAlg RamProd.
Import ListNotations.
Ltac Zify.zify_post_hook ::= idtac.

Lemma first_bad {A} (f : A -> N) (l : list (list A)) : Forall (Forall (fun e => f e = 0%N)) l \/
  exists k es e, nth_error l k = Some es /\ In e es /\ f e <> 0%N.
Proof.
  induction l as [|b l [IH|[k [es [e [H1 H2]]]]]]; [now left| |right; now exists (S k), es, e].
  assert (Db : Forall (fun e => f e = 0%N) b \/ exists e, In e b /\ f e <> 0%N).
  { clear. induction b as [|e b [IH|[x [H1 H2]]]]; [now left| |right; exists x; split; [now right|exact H2]].
    destruct (N.eq_dec (f e) 0); [left; now constructor|right; exists e; split; [now left|exact n]]. }
  destruct Db as [Db|[e [H1 H2]]]; [left; now constructor|right; now exists 0, b, e].
Qed.
(** circuits without products of three or four factors *)
Definition deg5 (g : fgate) : Prop := match g with FMul3 _ _ _ | FMul4 _ _ _ _ => False | _ => True end.
Lemma fcommit_deg5 ev voleV bM bufsz polysz corr bitmsg c : (forall g, In g c -> deg5 g) ->
  Forall (Forall (fun e => fst e = 5)) (pbatches (fcommit ev voleV bM bufsz polysz corr bitmsg c)).
Proof.
  intro H. unfold fcommit.
  assert (G : forall s, Forall (fun e : nat * N => fst e = 5) (fc_perrs s) -> Forall (Forall (fun e : nat * N => fst e = 5)) (fc_pdone s) ->
    let s' := fold_left (fc_step ev voleV bM bufsz polysz corr bitmsg) c s in
    Forall (fun e : nat * N => fst e = 5) (fc_perrs s') /\ Forall (Forall (fun e : nat * N => fst e = 5)) (fc_pdone s')).
  { induction c as [|g c IH]; intros s H1 H2; cbn [fold_left]; [auto|].
    assert (Hc : forall g, In g c -> deg5 g) by (intros; apply H; now right).
    assert (Hg : deg5 g) by (apply H; now left). apply (IH Hc).
    - destruct g; cbn [fc_step]; try exact H1; try contradiction.
      + unfold fc_mul, fc_flush. destruct (Nat.eqb _ _); exact H1.
      + unfold fc_chain. cbn [fc_perrs]. apply Forall_app. split; [destruct (_ && _); [constructor|exact H1]|repeat constructor].
    - destruct g; cbn [fc_step]; try exact H2; try contradiction.
      + unfold fc_mul, fc_flush. destruct (Nat.eqb _ _); exact H2.
      + unfold fc_chain. cbn [fc_pdone]. destruct (_ && _); [|exact H2]. apply Forall_app. split; [exact H2|]. constructor; [exact H1|constructor]. }
  destruct (G fc_init) as [G1 G2]; [constructor..|]. unfold pbatches. apply Forall_app. split; [exact G2|].
  destruct (fc_perrs _); [constructor|]. constructor; [exact G1|constructor].
Qed.
Section Sess.
  Variables (ext : nat -> fwire) (voleV voleM : nat -> nat -> N) (bM oM : nat -> N).
  Variables (threads bufsz polysz : nat) (seeds : nat -> nat -> N) (pseeds : nat -> N) (acc_last : bool) (n : nat) (r : N).
  Hypothesis Ht : 1 <= threads.
  Hypothesis Hn64 : (N.of_nat n < 2 ^ 64)%N.
  Hypothesis Hr : (r < 2 ^ 128)%N.
  Hypothesis Hext : forall i, i < 2 * n -> (fst (ext i) < 2 ^ 128)%N.
  Variables (c : list fgate) (a0 a1 : nat).
  Hypothesis Hc : seteq_circuit acc_last n r = Some (c, a0, a1).
  Let ev i := fst (ext i).
  Let xs := map ev (seq 0 n).
  Let ys := map ev (seq n n).
  Lemma n_ge3 : 3 <= n.
  Proof. destruct (le_lt_dec 3 n) as [L|L]; [exact L|]. rewrite (seteq_small acc_last n r L) in Hc. discriminate. Qed.
  Lemma circ : let ws := fplain ev 0 [] c in a0 < length ws /\ a1 < length ws /\
    fval ws a0 = shifted_product r xs /\ fval ws a1 = shifted_product r ys /\ count_mul c = 2 * ((n - 1) mod 4) /\
    (forall g, In g c -> deg5 g).
  Proof.
    destruct (seteq_circuit_ok acc_last n r ev n_ge3 Hn64 Hr Hext) as [c' [b0 [b1 [E [H1 [H2 [H3 [H4 [H5 H6]]]]]]]]].
    rewrite Hc in E. injection E as <- <- <-. cbv zeta. repeat split; auto.
    intros g Hg. destruct (H6 g Hg) as [->|[[? [? ->]]|[[? [? ->]]|[? [? [? [? [? ->]]]]]]]]; exact I.
  Qed.
  Lemma seteq_sound (Hb : 1 <= bufsz) junk corr bitmsg chkmsg polymsg g1 g2 msg ds :
    (forall k, (r0 (polymsg k) < 2 ^ 128)%N) -> NoDup ds ->
    (forall d, In d ds -> valid_delta d /\ exists v,
       f_session ext voleV voleM bM oM threads bufsz polysz seeds pseeds junk corr bitmsg chkmsg polymsg g1 g2 c d = Some v /\
       fv_printed v = 0 /\ seteq_accept (fv_w v) a0 a1 msg = true) ->
    let cm := fcommit ev voleV bM bufsz polysz corr bitmsg c in
    length ds <= 5 \/ mul_errors_cancel threads seeds cm \/ prod_errors_cancel pseeds cm \/
    shifted_product r xs = shifted_product r ys.
  Proof.
    intros Hp ND Hall cm. destruct circ as (L0 & L1 & V0 & V1 & _ & D5).
    destruct (first_bad (fun e => e) (fbatches cm)) as [B1|[k [es [e [H1 [H2 H3]]]]]].
    - destruct (first_bad snd (pbatches cm)) as [B2|[k [es [e [H1 [H2 H3]]]]]].
      + assert (W : fc_w cm = fplain ev 0 [] c) by now apply no_error_plain.
        destruct (outputs_bound ext voleV voleM bM oM threads bufsz polysz seeds pseeds junk corr bitmsg Ht Hb c) as [ws [Ew Hk]].
        fold ev cm in Ew. rewrite W in Ew.
        destruct (N.eq_dec (shifted_product r xs) (shifted_product r ys)) as [E|E]; [auto|]. left.
        assert (U : forall d d', In d ds -> In d' ds -> d = d').
        { assert (K : forall d, In d ds -> (d < 2 ^ 128)%N /\ gfmul (N.lxor (shifted_product r xs) (shifted_product r ys)) d =
              N.lxor (N.lxor (snd (pw ws a0)) (snd (pw ws a1))) (N.lxor (fst msg) (snd msg))).
          { intros d Hd. destruct (Hall d Hd) as [Vd [v [Es [_ Ea]]]]. split; [apply Vd|].
            pose proof (Hk _ _ _ _ _ _ Vd Es) as Ev. rewrite Ev in Ea. unfold seteq_accept, vw in Ea. apply N.eqb_eq in Ea.
            assert (Lw : length ws = length (fplain ev 0 [] c)) by (rewrite <- Ew, map_length; reflexivity).
            assert (Q : forall a, a < length ws -> nth a (map (key_of d) ws) 0%N = N.lxor (snd (pw ws a)) (gfmul (fval (fplain ev 0 [] c) a) d)).
            { intros a La. rewrite <- Ew. unfold fval, pw. rewrite (nth_indep _ 0%N (key_of d (0, 0)%N)) by now rewrite map_length.
              rewrite map_nth. unfold key_of. f_equal. f_equal. now rewrite (map_nth fst ws (0, 0)%N). }
            rewrite (Q a0), (Q a1), V0, V1 in Ea by lia. rewrite gfmul_lxor_l.
            set (u := gfmul (shifted_product r xs) d) in *. set (w := gfmul (shifted_product r ys) d) in *.
            clear -Ea. apply N.bits_inj. intro i. apply (f_equal (fun z => N.testbit z i)) in Ea. rewrite !N.lxor_spec in *.
            destruct (N.testbit u i), (N.testbit w i), (N.testbit (snd (pw ws a0)) i), (N.testbit (snd (pw ws a1)) i), (N.testbit (fst msg) i), (N.testbit (snd msg) i); cbn in *; congruence. }
          intros d d' Hd Hd'. destruct (K d Hd) as [Bd Ed]. destruct (K d' Hd') as [Bd' Ed']. rewrite <- Ed' in Ed.
          apply (f_equal (fun z => N.lxor z (gfmul (N.lxor (shifted_product r xs) (shifted_product r ys)) d'))) in Ed.
          rewrite N.lxor_nilpotent, <- gfmul_lxor_r in Ed. apply gfmul_nzd in Ed; [|apply lxor_lt; apply sprod_lt|now apply lxor_lt].
          destruct Ed as [Ed|Ed]; apply N.lxor_eq in Ed; [contradiction|exact Ed]. }
        destruct ds as [|d [|d' ds]]; cbn [length]; [lia|lia|]. exfalso. inversion ND as [|? ? Nd _]; subst. apply Nd. left. apply U; cbn; auto.
      + destruct (N.eq_dec (weighted (pseeds k) (deg_errs 5 es)) 0) as [Z|Z].
        * right. right. left. exists k, es. split; [exact H1|]. split; [|exact Z]. exists e. split; [exact H2|]. split; [|exact H3].
          pose proof (fcommit_deg5 ev voleV bM bufsz polysz corr bitmsg c D5) as F. fold cm in F. rewrite Forall_forall in F.
          specialize (F es (nth_error_In _ _ H1)). rewrite Forall_forall in F. now apply F.
        * left. apply (poly_sound ext voleV voleM bM oM threads bufsz polysz seeds pseeds junk corr bitmsg Ht Hb c chkmsg polymsg g1 g2 k es ds H1 Z (Hp k) ND).
          intros d Hd. destruct (Hall d Hd) as [Vd [v [Es _]]]. eauto.
    - destruct (N.eq_dec (fcombined (f_ranges threads (length es)) (seeds k) es) 0) as [Z|Z].
      + right. left. exists k, es. split; [exact H1|]. split; [now exists e|exact Z].
      + left. apply Nat.le_trans with 2; [|lia].
        apply (mul_sound ext voleV voleM bM oM threads bufsz polysz seeds pseeds junk corr bitmsg Ht Hb c chkmsg polymsg g1 g2 k es ds H1 Z ND).
        intros d Hd. destruct (Hall d Hd) as [Vd [v [Es [Pr _]]]]. eauto.
  Qed.
  Lemma seteq_honest junkp junkv g1 g2 g3 g4 h1 h2 d : threads <= bufsz -> 6 <= bufsz -> (forall r i, (junkv r i < 2 ^ 128)%N) -> valid_delta d ->
    (n mod 4 = 1 \/ threads <= 2 * ((n - 1) mod 4)) -> Permutation xs ys ->
    let p := fp_exec ext voleV voleM bM oM threads bufsz polysz seeds pseeds junkp g1 g2 g3 g4 c in
    exists v, f_session ext voleV voleM bM oM threads bufsz polysz seeds pseeds junkv
       (fun i => nth i (fp_corr p) 0%N) (fun i => nth i (fp_bits p) false)
       (fun k => nth k (fp_msgs p) (0, 0)%N) (fun k => nth k (fp_pmsgs p) (0, 0, 0, 0, 0)%N) h1 h2 c d = Some v /\
      fv_printed v = 0 /\ fv_cheat v = [] /\ seteq_accept (fv_w v) a0 a1 (seteq_msg (fp_w p) a0 a1) = true.
  Proof.
    intros Htb H6 Hj Vd Hm HP p. destruct circ as (L0 & L1 & V0 & V1 & Cm & _). pose proof n_ge3 as H3.
    destruct (honest_run ext voleV voleM bM oM threads bufsz polysz seeds pseeds junkp junkv Ht Htb Hj g1 g2 g3 g4 h1 h2 c d Vd) as [v [E1 [E2 [E3 E4]]]].
    { rewrite Cm. unfold last_batch. destruct ((n - 1) mod 4) as [|m] eqn:Em; [now left|]. right.
      assert ((n - 1) mod 4 < 4) by (apply Nat.mod_upper_bound; lia).
      destruct Hm as [Hm|Hm].
      - exfalso. assert (n = 4 * (n / 4) + 1) by (pose proof (Nat.div_mod n 4 ltac:(lia)) as Q; rewrite Hm in Q; exact Q).
        replace (n - 1) with (n / 4 * 4) in Em by lia. rewrite Nat.mod_mul in Em by lia. discriminate.
      - replace (2 * S m) with (S (2 * m + 1)) by lia. rewrite Nat.mod_small by lia. lia. }
    exists v. fold p in E1, E4. split; [exact E1|]. split; [exact E2|]. split; [exact E3|].
    rewrite E4. unfold seteq_accept, seteq_msg, vw. cbn [fst snd]. apply N.eqb_eq.
    pose proof (fp_exec_plain ext voleV voleM bM oM threads bufsz polysz seeds pseeds junkp g1 g2 g3 g4 c) as W. fold ev p in W.
    assert (Lw : length (fp_w p) = length (fplain ev 0 [] c)) by now rewrite <- W, map_length.
    assert (Q : forall a, a < length (fp_w p) -> nth a (map (key_of d) (fp_w p)) 0%N = N.lxor (snd (pw (fp_w p) a)) (gfmul (fval (fplain ev 0 [] c) a) d)).
    { intros a La. rewrite <- W. unfold fval, pw. rewrite (nth_indep _ 0%N (key_of d (0, 0)%N)) by now rewrite map_length.
      rewrite map_nth. unfold key_of. f_equal. f_equal. now rewrite (map_nth fst (fp_w p) (0, 0)%N). }
    rewrite (Q a0), (Q a1), V0, V1 by lia. rewrite (sprod_perm r xs ys HP).
    assert (X : forall a b, N.lxor (N.lxor a b) a = b) by (intros; rewrite N.lxor_comm, <- N.lxor_assoc, N.lxor_nilpotent; apply N.lxor_0_l).
    now rewrite !X.
  Qed.
End Sess.
