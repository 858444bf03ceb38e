From Coq Require Import NArith List Bool Arith Lia.
From Verif Require Import Word FpModel ArithModel ArithSpec BoolModel BoolSpec ClientModel ClientSpec.
Import ListNotations.

Section Machine.
  Context {G O S : Type}.
  Variables (step : S -> G -> option S) (outs : S -> list O) (ask : nat -> G) (opens : G -> bool) (dflt : O).
  Hypothesis Hstep : forall s g s', step s g = Some s' -> exists t, outs s' = outs s ++ t /\ length t = (if opens g then 1 else 0).
  Hypothesis Hask : forall i, opens (ask i) = true.
  Variable run : S -> list G -> option S.
  Hypothesis Hnil : forall s, run s [] = Some s.
  Hypothesis Hcons : forall s g c, run s (g :: c) = match step s g with None => None | Some s' => run s' c end.
  Notation crun := (c_run step outs ask dflt).
  Notation taken := (taken ask opens dflt).
  Lemma open_one s g s' : step s g = Some s' -> opens g = true -> exists o, outs s' = outs s ++ [o].
  Proof. intros E X. destruct (Hstep _ _ _ E) as (t & Et & L). rewrite X in L. destruct t as [|o [|? ?]]; try discriminate. eauto. Qed.
  Lemma open_none s g s' : step s g = Some s' -> opens g = false -> outs s' = outs s.
  Proof. intros E X. destruct (Hstep _ _ _ E) as (t & Et & L). rewrite X in L. destruct t; try discriminate. now rewrite app_nil_r in Et. Qed.
  (** running a program is running the gates it takes *)
  Lemma crun_taken cl : forall s s', crun s cl = Some s' -> exists t, outs s' = outs s ++ t /\ run s (taken t cl) = Some s'.
  Proof.
    induction cl as [|g k IH|i k IH]; intros s s' E; cbn [c_run ClientSpec.taken] in *.
    - injection E as <-. exists []. rewrite app_nil_r, Hnil. auto.
    - destruct (step s g) as [s1|] eqn:Es; [|discriminate]. destruct (IH _ _ E) as (t & Et & Er).
      destruct (opens g) eqn:Eo.
      + destruct (open_one _ _ _ Es Eo) as [o X]. exists (o :: t). rewrite Hcons, Es, Et, X, <- app_assoc. cbn. auto.
      + exists t. rewrite Hcons, Es, Et, (open_none _ _ _ Es Eo). auto.
    - destruct (step s (ask i)) as [s1|] eqn:Es; [|discriminate]. destruct (open_one _ _ _ Es (Hask i)) as [o X].
      rewrite X, last_last in E. destruct (IH _ _ _ E) as (t & Et & Er).
      exists (o :: t). rewrite Hcons, Es, Et, X, <- app_assoc. cbn. auto.
  Qed.
  (** conversely, a run of the taken gates whose outputs are the assumed ones is a run of the program *)
  Lemma run_outs c : forall s s', run s c = Some s' -> exists t, outs s' = outs s ++ t.
  Proof.
    induction c as [|g c IH]; intros s s' E; rewrite ?Hnil, ?Hcons in E.
    - injection E as <-. exists []. now rewrite app_nil_r.
    - destruct (step s g) as [s1|] eqn:Es; [|discriminate]. destruct (IH _ _ E) as [t Et]. destruct (Hstep _ _ _ Es) as (u & Eu & _).
      exists (u ++ t). now rewrite Et, Eu, app_assoc.
  Qed.
  Lemma taken_crun cl : forall s s' t, run s (taken t cl) = Some s' -> outs s' = outs s ++ t -> crun s cl = Some s'.
  Proof.
    induction cl as [|g k IH|i k IH]; intros s s' t E X; cbn [c_run ClientSpec.taken] in *.
    - now rewrite Hnil in E.
    - rewrite Hcons in E. destruct (step s g) as [s1|] eqn:Es; [|discriminate]. apply (IH s1 s' _ E).
      destruct (opens g) eqn:Eo.
      + destruct (open_one _ _ _ Es Eo) as [o Y]. destruct (run_outs _ _ _ E) as [u Eu]. rewrite X, Y, <- app_assoc in Eu. apply app_inv_head in Eu.
        rewrite X, Eu, Y, <- app_assoc. reflexivity.
      + now rewrite (open_none _ _ _ Es Eo).
    - rewrite Hcons in E. destruct (step s (ask i)) as [s1|] eqn:Es; [|discriminate]. destruct (open_one _ _ _ Es (Hask i)) as [o Y].
      destruct (run_outs _ _ _ E) as [u Eu]. rewrite X, Y, <- app_assoc in Eu. apply app_inv_head in Eu. subst t. cbn [hd tl app] in E.
      rewrite Y, last_last. apply (IH o s1 s' u E). now rewrite X, Y, <- app_assoc.
  Qed.
End Machine.

(** * Field programs *)
Lemma ap_manage_outs pV threads seeds s s' : ap_manage pV threads seeds s = Some s' -> ap_outs s' = ap_outs s.
Proof. unfold ap_manage. destruct (a_ranges _ _); [|discriminate]. intro E. now injection E as <-. Qed.
Lemma ap_batch_outs pV pseeds s : ap_outs (ap_batch pV pseeds s) = ap_outs s.
Proof. unfold ap_batch. now destruct (ap_poly s). Qed.
Lemma ap_step_outs pub_mac pV threads csz psz seeds pseeds s g s' : ap_step pub_mac pV threads csz psz seeds pseeds s g = Some s' ->
  exists t, ap_outs s' = ap_outs s ++ t /\ length t = (if fp_opens g then 1 else 0).
Proof.
  assert (Z : forall l : list N, exists t, l = l ++ t /\ length t = 0) by (intro l; exists []; rewrite app_nil_r; auto).
  assert (Q : forall t, ap_outs (ap_queue pV psz pseeds s t) = ap_outs s).
  { intro t. unfold ap_queue. cbn [ap_outs]. destruct (Nat.leb _ _); [apply ap_batch_outs|reflexivity]. }
  destruct g; cbn [ap_step fp_opens]; intro E; try (injection E as <-; rewrite ?Q; apply Z).
  - unfold ap_precheck in E. destruct (Nat.eqb _ _).
    + destruct (ap_manage pV threads seeds s) as [s1|] eqn:Em; [|discriminate]. apply ap_manage_outs in Em. injection E as <-. cbn [ap_outs ap_clear]. rewrite Em. apply Z.
    + injection E as <-. apply Z.
  - injection E as <-. cbn [ap_reveal ap_outs]. eauto.
Qed.
Lemma ap_final_outs pV threads seeds pseeds s s' : ap_final pV threads seeds pseeds s = Some s' -> ap_outs s' = ap_outs s.
Proof.
  unfold ap_final. cbv zeta. destruct (ap_buf _); intro E; [injection E as <-; apply ap_batch_outs|].
  apply ap_manage_outs in E. now rewrite E, ap_batch_outs.
Qed.
Lemma av_manage_outs vK delta threads seeds chk s s' : av_manage vK delta threads seeds chk s = Some s' -> av_outs s' = av_outs s /\ av_words s' = av_words s.
Proof. unfold av_manage. destruct (a_ranges _ _); [|discriminate]. intro E. now injection E as <-. Qed.
Lemma av_batch_outs vK delta pseeds pchk s : av_outs (av_batch vK delta pseeds pchk s) = av_outs s /\ av_words (av_batch vK delta pseeds pchk s) = av_words s.
Proof. unfold av_batch. now destruct (av_poly s). Qed.
(** what the verifier's step does to its outputs and word count depends on the received words only *)
Definition told (words : nat -> N) (g : agate) (k : nat) : list N := if fp_opens g then [words k] else [].
Definition moved (g : agate) : nat := match g with AIn _ | AMul _ _ | AReveal _ | ACheck _ _ => 1 | _ => 0 end.
Lemma av_step_outs pub_mac vK delta threads csz psz seeds pseeds words chk pchk s g s' :
  av_step pub_mac vK delta threads csz psz seeds pseeds words chk pchk s g = Some s' ->
  av_outs s' = av_outs s ++ told words g (av_words s) /\ av_words s' = moved g + av_words s.
Proof.
  assert (Q : forall t, av_outs (av_queue vK delta psz pseeds pchk s t) = av_outs s /\ av_words (av_queue vK delta psz pseeds pchk s t) = av_words s).
  { intro t. unfold av_queue. cbn [av_outs av_words]. destruct (Nat.leb _ _); [apply av_batch_outs|auto]. }
  unfold told. destruct g; cbn [av_step fp_opens moved]; intro E;
  try (injection E as <-; cbn [av_outs av_words av_add av_reveal]; rewrite ?app_nil_r; auto; fail);
  try (injection E as <-; rewrite app_nil_r; apply Q).
  unfold av_precheck in E. destruct (Nat.eqb _ _).
  - destruct (av_manage vK delta threads seeds chk s) as [s1|] eqn:Em; [|discriminate]. apply av_manage_outs in Em. destruct Em as [E1 E2].
    injection E as <-. cbn [av_outs av_words av_clear]. rewrite E1, E2, app_nil_r. auto.
  - injection E as <-. cbn [av_outs av_words]. rewrite app_nil_r. auto.
Qed.
Lemma av_final_outs vK delta threads seeds pseeds chk pchk s s' : av_final vK delta threads seeds pseeds chk pchk s = Some s' -> av_outs s' = av_outs s.
Proof.
  unfold av_final. cbv zeta. destruct (av_buf _); intro E; [injection E as <-; apply av_batch_outs|].
  apply av_manage_outs in E. destruct E as [E _]. rewrite E. apply av_batch_outs.
Qed.
Section Fp.
  Variables (pub_mac : N) (threads csz psz : nat) (seeds : nat -> nat -> N) (pseeds : nat -> N).
  Lemma ap_client_taken pV cl p : ap_client pub_mac threads csz psz seeds pseeds pV cl = Some p ->
    ap_exec pub_mac pV threads csz psz seeds pseeds (fp_taken (ap_outs p) cl) = Some p.
  Proof.
    unfold ap_client, ap_exec. destruct (c_run _ _ _ _ ap_init cl) as [s|] eqn:E; [|discriminate]. intro F.
    destruct (crun_taken _ ap_outs AReveal fp_opens 0%N (ap_step_outs _ _ _ _ _ _ _) (fun _ => eq_refl) (ap_run pub_mac pV threads csz psz seeds pseeds)
      (fun _ => eq_refl) (fun _ _ _ => eq_refl) cl _ _ E) as (t & Et & Er). cbn [ap_init ap_outs app] in Et. subst t.
    rewrite (ap_final_outs _ _ _ _ _ _ F). unfold fp_taken. now rewrite Er.
  Qed.
  Lemma taken_ap_client pV cl p t : ap_exec pub_mac pV threads csz psz seeds pseeds (fp_taken t cl) = Some p -> ap_outs p = t ->
    ap_client pub_mac threads csz psz seeds pseeds pV cl = Some p.
  Proof.
    unfold ap_client, ap_exec. destruct (ap_run _ _ _ _ _ _ _ ap_init _) as [s|] eqn:E; [|discriminate]. intros F X.
    rewrite (ap_final_outs _ _ _ _ _ _ F) in X.
    now rewrite (taken_crun _ ap_outs AReveal fp_opens 0%N (ap_step_outs _ _ _ _ _ _ _) (fun _ => eq_refl) (ap_run pub_mac pV threads csz psz seeds pseeds)
      (fun _ => eq_refl) (fun _ _ _ => eq_refl) cl _ _ t E X).
  Qed.
  Lemma av_step_len vK d words chk pchk s g s' : av_step pub_mac vK d threads csz psz seeds pseeds words chk pchk s g = Some s' ->
    exists t, av_outs s' = av_outs s ++ t /\ length t = (if fp_opens g then 1 else 0).
  Proof. intro E. apply av_step_outs in E. destruct E as [E _]. eexists. split; [exact E|]. unfold told. now destruct (fp_opens g). Qed.
  Lemma av_client_taken vK d words chk pchk cl v : av_client pub_mac threads csz psz seeds pseeds vK d words chk pchk cl = Some v ->
    av_exec pub_mac vK d threads csz psz seeds pseeds words chk pchk (fp_taken (av_outs v) cl) = Some v.
  Proof.
    unfold av_client, av_exec. destruct (c_run _ _ _ _ av_init cl) as [s|] eqn:E; [|discriminate]. intro F.
    destruct (crun_taken _ av_outs AReveal fp_opens 0%N (av_step_len _ _ _ _ _) (fun _ => eq_refl) (av_run pub_mac vK d threads csz psz seeds pseeds words chk pchk)
      (fun _ => eq_refl) (fun _ _ _ => eq_refl) cl _ _ E) as (t & Et & Er). cbn [av_init av_outs app] in Et. subst t.
    rewrite (av_final_outs _ _ _ _ _ _ _ _ _ F). unfold fp_taken. now rewrite Er.
  Qed.
  Lemma taken_av_client vK d words chk pchk cl v t : av_exec pub_mac vK d threads csz psz seeds pseeds words chk pchk (fp_taken t cl) = Some v -> av_outs v = t ->
    av_client pub_mac threads csz psz seeds pseeds vK d words chk pchk cl = Some v.
  Proof.
    unfold av_client, av_exec. destruct (av_run _ _ _ _ _ _ _ _ _ _ _ av_init _) as [s|] eqn:E; [|discriminate]. intros F X.
    rewrite (av_final_outs _ _ _ _ _ _ _ _ _ F) in X.
    now rewrite (taken_crun _ av_outs AReveal fp_opens 0%N (av_step_len _ _ _ _ _) (fun _ => eq_refl) (av_run pub_mac vK d threads csz psz seeds pseeds words chk pchk)
      (fun _ => eq_refl) (fun _ _ _ => eq_refl) cl _ _ t E X).
  Qed.
  Lemma av_same_outs vK vK' d d' words chk pchk cl : forall s1 s2 v1 v2,
    c_run (av_step pub_mac vK d threads csz psz seeds pseeds words chk pchk) av_outs AReveal 0%N s1 cl = Some v1 ->
    c_run (av_step pub_mac vK' d' threads csz psz seeds pseeds words chk pchk) av_outs AReveal 0%N s2 cl = Some v2 ->
    av_outs s1 = av_outs s2 -> av_words s1 = av_words s2 -> av_outs v1 = av_outs v2.
  Proof.
    induction cl as [|g k IH|i k IH]; intros s1 s2 v1 v2 E1 E2 X Y; cbn [c_run] in *; [congruence| |].
    - destruct (av_step pub_mac vK d threads csz psz seeds pseeds words chk pchk s1 g) as [a|] eqn:A; [|discriminate].
      destruct (av_step pub_mac vK' d' threads csz psz seeds pseeds words chk pchk s2 g) as [b|] eqn:B; [|discriminate].
      destruct (av_step_outs _ _ _ _ _ _ _ _ _ _ _ _ _ _ A) as [A1 A2], (av_step_outs _ _ _ _ _ _ _ _ _ _ _ _ _ _ B) as [B1 B2].
      apply (IH _ _ _ _ E1 E2); congruence.
    - destruct (av_step pub_mac vK d threads csz psz seeds pseeds words chk pchk s1 (AReveal i)) as [a|] eqn:A; [|discriminate].
      destruct (av_step pub_mac vK' d' threads csz psz seeds pseeds words chk pchk s2 (AReveal i)) as [b|] eqn:B; [|discriminate].
      destruct (av_step_outs _ _ _ _ _ _ _ _ _ _ _ _ _ _ A) as [A1 A2], (av_step_outs _ _ _ _ _ _ _ _ _ _ _ _ _ _ B) as [B1 B2].
      assert (Z : av_outs a = av_outs b) by congruence. rewrite <- Z in E2. apply (IH _ _ _ _ _ E1 E2); congruence.
  Qed.
End Fp.
(** the plain execution takes the gates of its own outputs *)
Lemma pl_step_outs s g : exists t, pl_outs (pl_step s g) = pl_outs s ++ t /\ length t = (if fp_opens g then 1 else 0).
Proof. destruct g; cbn; try (exists []; rewrite app_nil_r; auto; fail). eauto. Qed.
Lemma plain_taken cl : forall ins s, exists t, pl_outs (fp_plain ins s cl) = pl_outs s ++ t /\
  fold_left pl_step (awith_inputs ins (fp_taken t cl)) s = fp_plain ins s cl.
Proof.
  unfold fp_taken. induction cl as [|g k IH|i k IH]; intros ins s; cbn [fp_plain taken].
  - exists []. rewrite app_nil_r. split; [reflexivity|]. now destruct ins.
  - assert (W : forall s', (pl_outs s' = pl_outs s) -> forall ins', exists t, pl_outs (fp_plain ins' s' k) = pl_outs s ++ t /\
      fold_left pl_step (awith_inputs ins' (taken AReveal fp_opens 0%N t k)) s' = fp_plain ins' s' k).
    { intros s' X ins'. destruct (IH ins' s') as (t & E1 & E2). exists t. rewrite E1, X. auto. }
    destruct g; cbn [fp_opens awith_inputs fold_left]; try (apply W; reflexivity).
    + destruct ins as [|y ins]; cbn [awith_inputs fold_left]; apply W; reflexivity.
    + destruct (IH ins (pl_step s (AReveal i))) as (t & E1 & E2). exists (pval (pl_w s) i :: t). cbn [tl]. split; [|exact E2].
      rewrite E1. cbn [pl_step pl_outs]. now rewrite <- app_assoc.
  - destruct (IH (pval (pl_w s) i) ins (pl_step s (AReveal i))) as (t & E1 & E2). exists (pval (pl_w s) i :: t). cbn [tl hd awith_inputs fold_left]. split; [|exact E2].
    rewrite E1. cbn [pl_step pl_outs]. now rewrite <- app_assoc.
Qed.
Lemma fold_outs c : forall s, exists t, pl_outs (fold_left pl_step c s) = pl_outs s ++ t.
Proof.
  induction c as [|g c IH]; intro s; cbn [fold_left]; [exists []; now rewrite app_nil_r|].
  destruct (IH (pl_step s g)) as [t E]. destruct (pl_step_outs s g) as (u & U & _). exists (u ++ t). now rewrite E, U, app_assoc.
Qed.
Lemma taken_plain cl : forall ins s t, pl_outs (fold_left pl_step (awith_inputs ins (fp_taken t cl)) s) = pl_outs s ++ t ->
  fold_left pl_step (awith_inputs ins (fp_taken t cl)) s = fp_plain ins s cl.
Proof.
  unfold fp_taken. induction cl as [|g k IH|i k IH]; intros ins s t X; cbn [fp_plain taken] in *.
  - now destruct ins.
  - destruct g; cbn [fp_opens awith_inputs fold_left] in *; try (apply IH; exact X).
    + destruct ins as [|y ins]; cbn [awith_inputs fold_left] in *; apply IH; exact X.
    + apply IH. match type of X with pl_outs (fold_left _ ?c ?s1) = _ => destruct (fold_outs c s1) as [u U] end.
      rewrite X in U. cbn [pl_step pl_outs] in *. rewrite <- app_assoc in U. apply app_inv_head in U. subst t. cbn [tl app] in *. now rewrite X, <- app_assoc.
  - cbn [awith_inputs fold_left] in *.
    match type of X with pl_outs (fold_left _ ?c ?s1) = _ => destruct (fold_outs c s1) as [u U] end.
    rewrite X in U. cbn [pl_step pl_outs] in *. rewrite <- app_assoc in U. apply app_inv_head in U. subst t. cbn [tl hd app] in *. apply IH. rewrite X. cbn [pl_outs]. now rewrite <- app_assoc.
Qed.

(** * Bit programs *)
Lemma prv_manage_outs pM threads seeds s s' : prv_manage pM threads seeds s = Some s' -> p_outs s' = p_outs s.
Proof. unfold prv_manage. destruct (and_ranges _ _); [|discriminate]. intro E. now injection E as <-. Qed.
Lemma prv_step_outs r0 r1 pM threads csz seeds s g s' : prv_step r0 r1 pM threads csz seeds s g = Some s' ->
  exists t, p_outs s' = p_outs s ++ t /\ length t = (if bit_opens g then 1 else 0).
Proof.
  assert (Z : forall l : list bool, exists t, l = l ++ t /\ length t = 0) by (intro l; exists []; rewrite app_nil_r; auto).
  destruct g; cbn [prv_step bit_opens]; intro E; try (injection E as <-; apply Z).
  - unfold prv_precheck in E. destruct (Nat.eqb _ _).
    + destruct (prv_manage pM threads seeds s) as [s1|] eqn:Em; [|discriminate]. apply prv_manage_outs in Em. injection E as <-. cbn [p_outs p_clear]. rewrite Em. apply Z.
    + injection E as <-. apply Z.
  - injection E as <-. cbn [p_outs]. eauto.
Qed.
Lemma prv_final_outs pM threads seeds s s' : prv_final pM threads seeds s = Some s' -> p_outs s' = p_outs s.
Proof. unfold prv_final. destruct (p_buf s); intro E; [now injection E as <-|now apply prv_manage_outs in E]. Qed.
Lemma ver_manage_outs vK d threads seeds chk s s' : ver_manage vK d threads seeds chk s = Some s' -> v_outs s' = v_outs s /\ v_bits s' = v_bits s.
Proof. unfold ver_manage. destruct (and_ranges _ _); [|discriminate]. intro E. now injection E as <-. Qed.
Definition btold (bits : nat -> bool) (g : gate) (k : nat) : list bool := if bit_opens g then [bits k] else [].
Definition bmoved (g : gate) : nat := match g with GIn _ | GAnd _ _ | GReveal _ => 1 | _ => 0 end.
Lemma ver_step_outs r0 r1 vK d threads csz seeds bits chk s g s' : ver_step r0 r1 vK d threads csz seeds bits chk s g = Some s' ->
  v_outs s' = v_outs s ++ btold bits g (v_bits s) /\ v_bits s' = bmoved g + v_bits s.
Proof.
  unfold btold. destruct g; cbn [ver_step bit_opens bmoved]; intro E; try (injection E as <-; cbn [v_outs v_bits v_add]; rewrite ?app_nil_r; auto; fail).
  unfold ver_precheck in E. destruct (Nat.eqb _ _).
  - destruct (ver_manage vK d threads seeds chk s) as [s1|] eqn:Em; [|discriminate]. apply ver_manage_outs in Em. destruct Em as [E1 E2].
    injection E as <-. cbn [v_outs v_bits v_clear]. rewrite E1, E2, app_nil_r. auto.
  - injection E as <-. cbn [v_outs v_bits]. rewrite app_nil_r. auto.
Qed.
Lemma ver_final_outs vK d threads seeds chk s s' : ver_final vK d threads seeds chk s = Some s' -> v_outs s' = v_outs s.
Proof. unfold ver_final. destruct (v_buf s); intro E; [now injection E as <-|now apply ver_manage_outs in E]. Qed.
Section Bits.
  Variables (r0 r1 : N) (threads csz : nat) (seeds : nat -> nat -> N).
  Lemma taken_prv_client pM cl p t : prv_exec r0 r1 pM threads csz seeds (bit_taken t cl) = Some p -> p_outs p = t ->
    prv_client r0 r1 threads csz seeds pM cl = Some p.
  Proof.
    unfold prv_client, prv_exec. destruct (prv_run _ _ _ _ _ _ p_init _) as [s|] eqn:E; [|discriminate]. intros F X.
    rewrite (prv_final_outs _ _ _ _ _ F) in X.
    now rewrite (taken_crun _ p_outs GReveal bit_opens false (prv_step_outs _ _ _ _ _ _) (fun _ => eq_refl) (prv_run r0 r1 pM threads csz seeds)
      (fun _ => eq_refl) (fun _ _ _ => eq_refl) cl _ _ t E X).
  Qed.
  Lemma ver_step_len vK d bits chk s g s' : ver_step r0 r1 vK d threads csz seeds bits chk s g = Some s' ->
    exists t, v_outs s' = v_outs s ++ t /\ length t = (if bit_opens g then 1 else 0).
  Proof. intro E. apply ver_step_outs in E. destruct E as [E _]. eexists. split; [exact E|]. unfold btold. now destruct (bit_opens g). Qed.
  Lemma ver_client_taken vK d bits chk cl v : ver_client r0 r1 threads csz seeds vK d bits chk cl = Some v ->
    ver_exec r0 r1 vK d threads csz seeds bits chk (bit_taken (v_outs v) cl) = Some v.
  Proof.
    unfold ver_client, ver_exec. destruct (c_run _ _ _ _ v_init cl) as [s|] eqn:E; [|discriminate]. intro F.
    destruct (crun_taken _ v_outs GReveal bit_opens false (ver_step_len _ _ _ _) (fun _ => eq_refl) (ver_run r0 r1 vK d threads csz seeds bits chk)
      (fun _ => eq_refl) (fun _ _ _ => eq_refl) cl _ _ E) as (t & Et & Er). cbn [v_init v_outs app] in Et. subst t.
    rewrite (ver_final_outs _ _ _ _ _ _ _ F). unfold bit_taken. now rewrite Er.
  Qed.
  Lemma taken_ver_client vK d bits chk cl v t : ver_exec r0 r1 vK d threads csz seeds bits chk (bit_taken t cl) = Some v -> v_outs v = t ->
    ver_client r0 r1 threads csz seeds vK d bits chk cl = Some v.
  Proof.
    unfold ver_client, ver_exec. destruct (ver_run _ _ _ _ _ _ _ _ _ v_init _) as [s|] eqn:E; [|discriminate]. intros F X.
    rewrite (ver_final_outs _ _ _ _ _ _ _ F) in X.
    now rewrite (taken_crun _ v_outs GReveal bit_opens false (ver_step_len _ _ _ _) (fun _ => eq_refl) (ver_run r0 r1 vK d threads csz seeds bits chk)
      (fun _ => eq_refl) (fun _ _ _ => eq_refl) cl _ _ t E X).
  Qed.
  Lemma ver_same_outs vK vK' d d' bits chk cl : forall s1 s2 v1 v2,
    c_run (ver_step r0 r1 vK d threads csz seeds bits chk) v_outs GReveal false s1 cl = Some v1 ->
    c_run (ver_step r0 r1 vK' d' threads csz seeds bits chk) v_outs GReveal false s2 cl = Some v2 ->
    v_outs s1 = v_outs s2 -> v_bits s1 = v_bits s2 -> v_outs v1 = v_outs v2.
  Proof.
    induction cl as [|g k IH|i k IH]; intros s1 s2 v1 v2 E1 E2 X Y; cbn [c_run] in *; [congruence| |].
    - destruct (ver_step r0 r1 vK d threads csz seeds bits chk s1 g) as [a|] eqn:A; [|discriminate].
      destruct (ver_step r0 r1 vK' d' threads csz seeds bits chk s2 g) as [b|] eqn:B; [|discriminate].
      destruct (ver_step_outs _ _ _ _ _ _ _ _ _ _ _ _ A) as [A1 A2], (ver_step_outs _ _ _ _ _ _ _ _ _ _ _ _ B) as [B1 B2].
      apply (IH _ _ _ _ E1 E2); congruence.
    - destruct (ver_step r0 r1 vK d threads csz seeds bits chk s1 (GReveal i)) as [a|] eqn:A; [|discriminate].
      destruct (ver_step r0 r1 vK' d' threads csz seeds bits chk s2 (GReveal i)) as [b|] eqn:B; [|discriminate].
      destruct (ver_step_outs _ _ _ _ _ _ _ _ _ _ _ _ A) as [A1 A2], (ver_step_outs _ _ _ _ _ _ _ _ _ _ _ _ B) as [B1 B2].
      assert (Z : v_outs a = v_outs b) by congruence. rewrite <- Z in E2. apply (IH _ _ _ _ _ E1 E2); congruence.
  Qed.
End Bits.
Lemma bit_plain_taken cl : forall ins ws outs, exists t, snd (bit_plain ins ws outs cl) = outs ++ t /\
  plain_eval ws outs (with_inputs ins (bit_taken t cl)) = bit_plain ins ws outs cl.
Proof.
  unfold bit_taken. induction cl as [|g k IH|i k IH]; intros ins ws outs; cbn [bit_plain taken].
  - exists []. rewrite app_nil_r. split; [reflexivity|]. now destruct ins.
  - destruct g; cbn [bit_opens with_inputs plain_eval]; try apply IH.
    + destruct ins as [|y ins]; cbn [with_inputs plain_eval]; apply IH.
    + destruct (IH ins ws (outs ++ [pwire ws i])) as (t & E1 & E2). exists (pwire ws i :: t). cbn [tl]. split; [|exact E2]. now rewrite E1, <- app_assoc.
  - destruct (IH (pwire ws i) ins ws (outs ++ [pwire ws i])) as (t & E1 & E2). exists (pwire ws i :: t). cbn [tl hd with_inputs plain_eval]. split; [|exact E2]. now rewrite E1, <- app_assoc.
Qed.
Lemma eval_outs c : forall ws outs, exists t, snd (plain_eval ws outs c) = outs ++ t.
Proof.
  induction c as [|g c IH]; intros ws outs; cbn [plain_eval]; [exists []; now rewrite app_nil_r|].
  destruct g; try apply IH. destruct (IH ws (outs ++ [pwire ws i])) as [t E]. exists (pwire ws i :: t). now rewrite E, <- app_assoc.
Qed.
Lemma taken_bit_plain cl : forall ins ws outs t, snd (plain_eval ws outs (with_inputs ins (bit_taken t cl))) = outs ++ t ->
  plain_eval ws outs (with_inputs ins (bit_taken t cl)) = bit_plain ins ws outs cl.
Proof.
  unfold bit_taken. induction cl as [|g k IH|i k IH]; intros ins ws outs t X; cbn [bit_plain taken] in *.
  - now destruct ins.
  - destruct g; cbn [bit_opens with_inputs plain_eval] in *; try (apply IH; exact X).
    + destruct ins as [|y ins]; cbn [with_inputs plain_eval] in *; apply IH; exact X.
    + apply IH. match type of X with snd (plain_eval ?a ?b ?c) = _ => destruct (eval_outs c a b) as [u U] end.
      rewrite X in U. rewrite <- app_assoc in U. apply app_inv_head in U. subst t. cbn [tl app] in *. now rewrite X, <- app_assoc.
  - cbn [with_inputs plain_eval] in *. match type of X with snd (plain_eval ?a ?b ?c) = _ => destruct (eval_outs c a b) as [u U] end.
    rewrite X in U. rewrite <- app_assoc in U. apply app_inv_head in U. subst t. cbn [tl hd app] in *. apply IH. now rewrite X, <- app_assoc.
Qed.

Lemma taken_reduced : forall (cl : fp_prog) outs, fp_reduces cl -> fp_taken (map (fun w => w mod prm)%N outs) cl = fp_taken outs cl.
Proof.
  unfold fp_taken. induction cl as [|g k IH|i k IH]; intros outs R; cbn [taken]; cbn [fp_reduces] in R; [reflexivity| |].
  - f_equal. destruct (fp_opens g); [|now apply IH]. destruct outs as [|o outs]; cbn [tl map]; [now apply (IH [])|now apply IH].
  - f_equal. destruct outs as [|o outs]; cbn [tl hd map].
    + apply (IH 0%N []). apply R.
    + destruct (R o) as [E _]. rewrite <- E. apply IH. apply R.
Qed.
