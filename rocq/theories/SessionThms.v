From Coq Require Import List Bool Arith Lia.
From Verif Require Import SessionModel SessionSpec SessionProofs.
Import ListNotations.

Lemma safe_iff tr c : safe tr c <-> safe_st (bst tr) (ast tr) (cst tr) c.
Proof.
  destruct c; cbn [safe safe_st]; rewrite ?bool_open_iff, ?bool_never_iff, ?arith_open_iff, ?arith_never_iff, ?conv_open_iff, ?conv_never_iff; try tauto.
  - destruct (bst tr); intuition discriminate.
  - destruct conv; [rewrite bool_open_iff, bool_never_iff; destruct (bst tr); intuition discriminate|intuition discriminate].
  - destruct (ast tr), (cst tr); intuition discriminate.
Qed.
Lemma exits_iff tr c : exits tr c <-> exits_st (bst tr) (ast tr) (cst tr) c.
Proof.
  destruct c; cbn [exits exits_st]; try tauto.
  - destruct conv; [|tauto]. apply bool_never_iff.
  - now rewrite conv_open_iff, arith_open_iff.
Qed.
Lemma cst_ast tr : cst tr = Open -> ast tr = Open.
Proof.
  induction tr as [|c tr IH] using rev_ind; [discriminate|].
  rewrite cst_snoc, ast_snoc. destruct c; cbn [cstat astat]; auto.
  destruct (cst tr); discriminate.
Qed.

Lemma run_app ver g t1 t2 :
  run ver g (t1 ++ t2) = bind (run ver g t1) (fun r => bind (run ver (fst r) t2) (fun r' => Done (fst r', snd r ++ snd r'))).
Proof.
  revert g. induction t1 as [|c t1 IH]; intro g; cbn [app run bind].
  - cbn [bind fst snd app]. now destruct (run ver g t2) as [[]| |].
  - destruct (step ver g c) as [[g1 o]| |]; [|easy|easy]. cbn [bind fst snd]. rewrite IH.
    destruct (run ver g1 t1) as [[g2 f]| |]; [|easy|easy]. cbn [bind fst snd].
    destruct (run ver g2 t2) as [[g3 f']| |]; [|easy|easy]. cbn [bind fst snd]. now destruct o.
Qed.
Lemma run_snoc_done ver g t c g' fl : run ver g (t ++ [c]) = Done (g', fl) ->
  exists g1 f1 o, run ver g t = Done (g1, f1) /\ step ver g1 c = Done (g', o) /\
                  fl = f1 ++ match o with Some b => [b] | None => [] end.
Proof.
  rewrite run_app. destruct (run ver g t) as [[g1 f1]| |]; [|discriminate|discriminate]. cbn [bind fst snd run].
  destruct (step ver g1 c) as [[g2 o]| |] eqn:Es; [|discriminate|discriminate]. cbn [bind fst snd].
  intro H. assert (g2 = g' /\ f1 ++ match o with Some b => [b] | None => [] end = fl) as [<- <-]
    by (destruct o; split; congruence). exists g1, f1, o. auto.
Qed.
Lemma run_prefix ver g t1 t2 r : run ver g (t1 ++ t2) = Done r ->
  exists g1 f1 f2, run ver g t1 = Done (g1, f1) /\ run ver g1 t2 = Done (fst r, f2) /\ snd r = f1 ++ f2.
Proof.
  rewrite run_app. destruct (run ver g t1) as [[g1 f1]| |]; [|discriminate|discriminate]. cbn [bind fst snd].
  destruct (run ver g1 t2) as [[g2 f2]| |] eqn:E; [|discriminate|discriminate]. cbn [bind fst snd].
  intro H. injection H as <-. cbn [fst snd]. eauto 6.
Qed.

(** number of failures recorded since the last setup_zk_bool *)
Definition nfail (tr : list call) : nat :=
  snd (fold_left (fun st c => let '((b, a), n) := st in
                   ((bstat b c, astat a c), (if resets c then 0 else n) + fails (rec_st b a c)))
                 tr ((Never, Never), 0)).
Lemma nfail_state tr :
  fold_left (fun st c => let '((b, a), n) := st in
                   ((bstat b c, astat a c), (if resets c then 0 else n) + fails (rec_st b a c)))
                 tr ((Never, Never), 0) = ((bst tr, ast tr), nfail tr).
Proof.
  unfold nfail. induction tr as [|c tr IH] using rev_ind; [reflexivity|].
  rewrite fold_left_app. cbn [fold_left]. rewrite IH. cbn [snd]. now rewrite bst_snoc, ast_snoc.
Qed.
Lemma nfail_snoc tr c : nfail (tr ++ [c]) = (if resets c then 0 else nfail tr) + fails (rec_st (bst tr) (ast tr) c).
Proof. unfold nfail at 1. rewrite fold_left_app. cbn [fold_left]. now rewrite nfail_state. Qed.

Lemma rec_fails tr c : fails (rec_st (bst tr) (ast tr) c) <> 0 <-> records_failure tr c.
Proof.
  destruct c as [|ok|p q d|cv| |ok| |co p zo]; cbn [records_failure rec_st];
    rewrite ?bool_open_iff, ?arith_open_iff; unfold fails.
  - cbn. tauto.
  - destruct ok; cbn; intuition congruence.
  - destruct (bst tr); [cbn; intuition discriminate| |cbn; intuition discriminate].
    destruct p as [[]|], q as [[]|], d; cbn; intuition (try congruence).
  - cbn; tauto.
  - cbn; tauto.
  - destruct ok; cbn; intuition congruence.
  - cbn; tauto.
  - destruct (ast tr); [cbn; intuition discriminate| |cbn; intuition discriminate].
    destruct p as [[]|]; cbn; intuition congruence.
Qed.
Lemma nfail_iff tr : nfail tr <> 0 <-> failure_since_setup tr.
Proof.
  unfold failure_since_setup. induction tr as [|c tr IH] using rev_ind.
  - cbn. split; [easy|]. intros (pre & c & post & E & _). now destruct pre.
  - rewrite nfail_snoc. split.
    + intro H. destruct (Nat.eq_dec (fails (rec_st (bst tr) (ast tr) c)) 0) as [Z|Z].
      * destruct (resets c) eqn:R; [lia|]. assert (N : nfail tr <> 0) by lia. apply IH in N.
        destruct N as (pre & x & post & -> & F & NI). exists pre, x, (post ++ [c]). rewrite <- app_assoc. repeat split; auto.
        intro I. change (x :: post ++ [c]) with ((x :: post) ++ [c]) in I. apply in_app_or in I.
        destruct I as [I|[I|[]]]; [auto|subst c; discriminate].
      * apply rec_fails in Z. exists tr, c, []. repeat split; auto. intros [X|[]]. now subst c.
    + intros (pre & x & post & E & F & NI). apply app_snoc_inv in E. destruct E as [(-> & -> & ->)|(p' & -> & ->)].
      * apply rec_fails in F. lia.
      * assert (N : nfail (pre ++ x :: p') <> 0).
        { apply IH. exists pre, x, p'. repeat split; auto. intro I. apply NI. destruct I as [I|I]; [now left|right; apply in_or_app; auto]. }
        destruct (resets c) eqn:R; [|lia]. destruct c; try discriminate.
        exfalso. apply NI. right. apply in_or_app. right. now left.
Qed.

Lemma st_dec (s t : status) : s = t \/ s <> t.
Proof. destruct s, t; (now left) || (right; discriminate). Qed.
Lemma b_dec (s t : bool) : s = t \/ s <> t.
Proof. destruct s, t; (now left) || (right; discriminate). Qed.
Lemma safe_dec b a v c : safe_st b a v c \/ ~ safe_st b a v c.
Proof.
  pose proof (st_dec b Open). pose proof (st_dec b Closed). pose proof (st_dec a Open). pose proof (st_dec a Closed).
  pose proof (st_dec v Open). pose proof (st_dec v Closed).
  destruct c; cbn [safe_st]; try tauto. pose proof (b_dec conv true). tauto.
Qed.
Lemma exits_dec b a v c : exits_st b a v c \/ ~ exits_st b a v c.
Proof.
  pose proof (st_dec b Never). pose proof (st_dec a Open). pose proof (st_dec v Open).
  destruct c; cbn [exits_st]; try tauto; [destruct conv; tauto|].
  pose proof (b_dec conv_ok false). pose proof (b_dec zk_ok false). tauto.
Qed.

Section Run.
  Variable ver : bool.
  Lemma reach tr g fl : run ver glob0 tr = Done (g, fl) ->
    (exists K, inv K (bst tr) (ast tr) (cst tr) g) /\ length (g_msg g) = (if ver then nfail tr else 0) /\
    length fl = finals tr.
  Proof.
    revert g fl. induction tr as [|c tr IH] using rev_ind; intros g fl H.
    - cbn in H. injection H as <- <-. split; [exists (fun _ => KCirc); apply inv0|]. cbn. now destruct ver.
    - apply run_snoc_done in H. destruct H as (g1 & f1 & o & R & S & ->). destruct (IH _ _ R) as ((K & I) & M & L).
      destruct (step_spec ver K _ _ _ g1 c I (cst_ast tr)) as (H1 & H2 & H3).
      assert (SF : safe_st (bst tr) (ast tr) (cst tr) c /\ ~ exits_st (bst tr) (ast tr) (cst tr) c).
      { destruct (safe_dec (bst tr) (ast tr) (cst tr) c) as [X|X]; [|rewrite (H3 X) in S; discriminate].
        split; [exact X|]. intro Y. rewrite (H1 X Y) in S. discriminate. }
      destruct SF as [SF NX]. destruct (H2 SF NX) as (g' & r & S' & ((K' & I') & M' & R' & _)).
      rewrite S in S'. injection S' as <- <-.
      rewrite bst_snoc, ast_snoc, cst_snoc, nfail_snoc. split; [eauto|]. split.
      + rewrite M', M. destruct ver, (resets c); lia.
      + unfold finals in *. rewrite filter_app, !app_length, L. f_equal. rewrite R'. now destruct c.
  Qed.

  Theorem call_outcome tr g fl c : run ver glob0 tr = Done (g, fl) ->
    (step ver g c = UB <-> ~ safe tr c) /\
    (step ver g c = Exit <-> safe tr c /\ exits tr c) /\
    ((exists r, step ver g c = Done r) <-> safe tr c /\ ~ exits tr c).
  Proof.
    intro R. destruct (reach _ _ _ R) as ((K & I) & _).
    destruct (step_spec ver K _ _ _ g c I (cst_ast tr)) as (H1 & H2 & H3).
    rewrite <- safe_iff in H1, H2, H3. rewrite <- exits_iff in H1, H2.
    pose proof (safe_dec (bst tr) (ast tr) (cst tr) c) as D. rewrite <- safe_iff in D.
    pose proof (exits_dec (bst tr) (ast tr) (cst tr) c) as D'. rewrite <- exits_iff in D'.
    destruct D as [S|S].
    - destruct D' as [X|X].
      + rewrite (H1 S X). split; [split; [discriminate|tauto]|]. split; [tauto|]. split; [intros [r Y]; discriminate|tauto].
      + destruct (H2 S X) as (g' & r & -> & _). split; [split; [discriminate|tauto]|]. split; [split; [discriminate|tauto]|]. split; [tauto|eauto].
    - rewrite (H3 S). split; [tauto|]. split; [split; [discriminate|tauto]|]. split; [intros [r Y]; discriminate|tauto].
  Qed.

  Theorem run_defined tr : (exists r, run ver glob0 tr = Done r) <->
    forall pre c post, tr = pre ++ c :: post -> safe pre c /\ ~ exits pre c.
  Proof.
    induction tr as [|c tr IH] using rev_ind.
    - split; [intros _ pre c post E; now destruct pre|intros _; eexists; reflexivity].
    - split.
      + intros [[g fl] H] pre x post E. apply run_snoc_done in H. destruct H as (g1 & f1 & o & R & S & _).
        apply app_snoc_inv in E. destruct E as [(-> & -> & ->)|(p' & -> & ->)].
        * destruct (call_outcome _ _ _ c R) as (_ & _ & C). apply C. eauto.
        * destruct IH as [IH _]. eapply IH; eauto.
      + intro H. destruct IH as [_ IH]. destruct IH as [[g fl] R].
        { intros pre x post ->. apply (H pre x (post ++ [c])). now rewrite <- app_assoc. }
        destruct (call_outcome _ _ _ c R) as (_ & _ & C). destruct C as [_ C].
        destruct C as [[g' o] S]; [now apply (H tr c [])|].
        rewrite run_app, R. cbn [bind fst snd run]. rewrite S. cbn [bind fst snd]. eauto.
  Qed.

  (** the flag of every finalize_zk_bool *)
  Theorem flag_iff pre p q d post g fl :
    run ver glob0 (pre ++ FinalBool p q d :: post) = Done (g, fl) ->
    (nth (finals pre) fl false = true <-> ver = true /\ failure_since_setup (pre ++ [FinalBool p q d])).
  Proof.
    replace (pre ++ FinalBool p q d :: post) with ((pre ++ [FinalBool p q d]) ++ post) by now rewrite <- app_assoc.
    intro H. apply run_prefix in H. destruct H as (g1 & f1 & f2 & R & _ & E). cbn [snd] in E. subst fl.
    destruct (reach _ _ _ R) as (_ & M & _).
    pose proof R as R'. apply run_snoc_done in R. destruct R as (g0 & f0 & o & R0 & S & ->).
    destruct (reach _ _ _ R0) as ((K & I) & M0 & L0).
    destruct (call_outcome _ _ _ (FinalBool p q d) R0) as (_ & _ & C). destruct C as [C _].
    destruct C as [SF NX]; [eauto|]. rewrite safe_iff in SF. rewrite exits_iff in NX.
    destruct (step_spec ver K _ _ _ g0 (FinalBool p q d) I (cst_ast pre)) as (_ & H2 & _).
    destruct (H2 SF NX) as (g' & r & S' & (_ & _ & Er & _)). rewrite S in S'. injection S' as <- ->.
    subst r. rewrite app_nth1 by (rewrite app_length; cbn; lia). rewrite app_nth2 by lia. rewrite <- L0, Nat.sub_diag. cbn [nth].
    rewrite negb_true_iff, Nat.eqb_neq, M, <- nfail_iff. destruct ver; intuition lia.
  Qed.

  Theorem flags_count tr g fl : run ver glob0 tr = Done (g, fl) -> length fl = finals tr.
  Proof. intro H. now destruct (reach _ _ _ H) as (_ & _ & L). Qed.

  Lemma run_done_app_step tr g fl c : run ver glob0 tr = Done (g, fl) ->
    run ver glob0 (tr ++ [c]) = bind (step ver g c) (fun r => Done (fst r, fl ++ match snd r with Some b => [b] | None => [] end)).
  Proof.
    intro R. rewrite run_app, R. cbn [bind fst snd run]. destruct (step ver g c) as [[g' o]| |]; [|easy|easy].
    cbn [bind fst snd]. now destruct o.
  Qed.

  Lemma conv_closed mid s : s <> Open -> (forall c, In c mid -> c <> SetupArith true) ->
    s <> Never -> fold_left cstat mid s = Closed.
  Proof.
    revert s. induction mid as [|c mid IH]; intros s N H N'; cbn [fold_left].
    - now destruct s.
    - assert (X : cstat s c = Closed).
      { destruct c; cbn [cstat]; try (now destruct s). destruct conv; [exfalso; apply (H (SetupArith true)); [now left|easy]|now destruct s]. }
      apply IH; rewrite ?X; try discriminate. intros x I. apply H. now right.
  Qed.
  (** the conversion object is deleted a second time *)
  Theorem double_delete pre co p zo mid co' p' zo' r :
    In (SetupArith true) pre -> (forall c, In c mid -> c <> SetupArith true) ->
    run ver glob0 (pre ++ FinalArith co p zo :: mid) = Done r ->
    run ver glob0 (pre ++ FinalArith co p zo :: mid ++ [FinalArith co' p' zo']) = UB.
  Proof.
    intros Hin Hmid R. destruct r as [g fl].
    replace (pre ++ FinalArith co p zo :: mid ++ [FinalArith co' p' zo'])
      with ((pre ++ FinalArith co p zo :: mid) ++ [FinalArith co' p' zo']) by now rewrite <- app_assoc.
    rewrite (run_done_app_step _ _ _ _ R).
    destruct (call_outcome _ _ _ (FinalArith co' p' zo') R) as (C & _ & _). destruct C as [_ C]. rewrite C; [reflexivity|].
    rewrite safe_iff. cbn [safe_st]. intros [_ N]. apply N.
    unfold cst. rewrite fold_left_app. cbn [fold_left].
    change (fold_left cstat pre Never) with (cst pre).
    assert (NN : cst pre <> Never). { rewrite <- conv_never_iff. unfold conv_never. tauto. }
    assert (X : cstat (cst pre) (FinalArith co p zo) = Closed) by (cbn [cstat]; now destruct (cst pre)).
    rewrite X. apply conv_closed; auto; discriminate.
  Qed.
End Run.

(** the prover never records anything *)
Theorem prover_flags tr g fl : run false glob0 tr = Done (g, fl) -> fl = repeat false (finals tr) /\ g_msg g = [].
Proof.
  revert g fl. induction tr as [|c tr IH] using rev_ind; intros g fl H.
  - cbn in H. injection H as <- <-. easy.
  - pose proof H as H'. destruct (reach _ _ _ _ H) as (_ & M & _).
    apply run_snoc_done in H. destruct H as (g1 & f1 & o & R & S & ->). destruct (IH _ _ R) as [-> M1].
    assert (Mg : g_msg g = []) by (destruct (g_msg g); [easy|discriminate]). split; [|exact Mg].
    unfold finals. rewrite filter_app, app_length, repeat_app. unfold finals. f_equal.
    destruct c; cbn [step filter length repeat] in *;
      try (match type of S with context [bind ?x _] => destruct x as [y| |] eqn:Ex; cbn [bind] in S; try discriminate end;
           injection S as <- <-; try reflexivity).
    + injection S as <- <-. reflexivity.
    + unfold final_bool in Ex. destruct (delete (h_live g1) (g_circ g1)) as [h| |]; try discriminate. cbn [bind] in Ex.
      destruct (delete h (g_prot g1)) as [h'| |]; try discriminate. cbn [bind] in Ex. injection Ex as <-. cbn [fst snd] in *.
      unfold cheated. now rewrite Mg.
Qed.

(** flags do not depend on what happens afterwards; in particular on failures of the arithmetic engine
    finalised after the boolean one *)
Theorem late_failures_lost ver pre p q d post post' r r' :
  run ver glob0 (pre ++ FinalBool p q d :: post) = Done r ->
  run ver glob0 (pre ++ FinalBool p q d :: post') = Done r' ->
  nth (finals pre) (snd r) false = nth (finals pre) (snd r') false.
Proof.
  replace (pre ++ FinalBool p q d :: post) with ((pre ++ [FinalBool p q d]) ++ post) by now rewrite <- app_assoc.
  replace (pre ++ FinalBool p q d :: post') with ((pre ++ [FinalBool p q d]) ++ post') by now rewrite <- app_assoc.
  intros H H'. apply run_prefix in H. apply run_prefix in H'.
  destruct H as (g1 & f1 & f2 & R & _ & ->). destruct H' as (g1' & f1' & f2' & R' & _ & ->).
  rewrite R in R'. injection R' as <- <-.
  assert (L : length f1 = finals pre + 1).
  { rewrite (flags_count _ _ _ _ R). unfold finals. now rewrite filter_app, app_length. }
  rewrite !app_nth1 by lia. reflexivity.
Qed.

(** * The key used by conversions *)
Lemma key_step ver K b a v g c g' r : inv K b a v g -> (v = Open -> a = Open) ->
  step ver g c = Done (g', r) ->
  g_key g' = (match c with SetupArith true => g_prot g | _ => g_key g end) /\
  g_prot g' = (match c with SetupBool => Some (S (h_next g)) | _ => g_prot g end) /\
  h_next g <= h_next g' /\ (c = SetupBool -> h_next g' = S (S (h_next g))).
Proof.
  intros I VA S. split.
  - destruct (step_spec ver K b a v g c I VA) as (H1 & H2 & H3).
    destruct (safe_dec b a v c) as [X|X]; [|rewrite (H3 X) in S; discriminate].
    destruct (exits_dec b a v c) as [Y|Y]; [rewrite (H1 X Y) in S; discriminate|].
    destruct (H2 X Y) as (g1 & r1 & S1 & (_ & _ & _ & E)). rewrite S in S1. injection S1 as <- <-. exact E.
  - destruct c; cbn [step] in S.
    + injection S as <- <-. cbn. repeat split; lia.
    + unfold bool_batch in S. destruct (deref2 (h_live g) (g_circ g)); cbn [bind] in S; try discriminate.
      injection S as <- <-. cbn. repeat split; discriminate || lia.
    + unfold final_bool in S. destruct (delete (h_live g) (g_circ g)) as [h| |]; cbn [bind] in S; try discriminate.
      destruct (delete h (g_prot g)) as [h'| |]; cbn [bind] in S; try discriminate.
      injection S as <- <-. cbn. repeat split; discriminate || lia.
    + unfold setup_arith in S. destruct conv, (g_circ g) as [i|] eqn:E; cbn [bind] in S; try discriminate.
      * match type of S with context [deref ?h ?q] => destruct (deref h q) as [y| |]; cbn [bind] in S; try discriminate end.
        match type of S with context [deref2 ?h ?q] => destruct (deref2 h q) as [y'| |]; cbn [bind] in S; try discriminate end.
        injection S as <- <-. cbn. repeat split; discriminate || lia.
      * injection S as <- <-. cbn. repeat split; discriminate || lia.
      * injection S as <- <-. cbn. repeat split; discriminate || lia.
    + unfold arith_use in S. destruct (deref (h_live g) (g_zk g)); cbn [bind] in S; try discriminate.
      injection S as <- <-. repeat split; discriminate || lia.
    + unfold arith_batch in S. destruct (deref2 (h_live g) (g_poly g)); cbn [bind] in S; try discriminate.
      injection S as <- <-. cbn. repeat split; discriminate || lia.
    + unfold convert in S. destruct (deref2 (h_live g) (g_conv g)); cbn [bind] in S; try discriminate.
      destruct (deref (h_live g) (g_prot g)); cbn [bind] in S; try discriminate.
      destruct (deref2 (h_live g) (g_circ g)); cbn [bind] in S; try discriminate.
      injection S as <- <-. repeat split; discriminate || lia.
    + unfold final_arith in S.
      match type of S with bind (bind ?x _) _ = _ => destruct x as [h1| |]; cbn [bind] in S; try discriminate end.
      match type of S with bind (bind ?x _) _ = _ => destruct x as [h2| |]; cbn [bind] in S; try discriminate end.
      match type of S with bind (bind ?x _) _ = _ => destruct x as [h3| |]; cbn [bind] in S; try discriminate end.
      injection S as <- <-. cbn. repeat split; discriminate || lia.
Qed.
Lemma prot_bound ver tr g fl p : run ver glob0 tr = Done (g, fl) -> g_prot g = Some p -> p < h_next g.
Proof.
  intros R E. destruct (reach _ _ _ _ R) as ((K & [F B A V]) & _).
  destruct (bst tr).
  - destruct B as [_ B]. congruence.
  - destruct B as (c & q & _ & B & _ & _ & _ & L & _). congruence.
  - destruct B as (c & q & _ & B & _ & _ & _ & L & _). congruence.
Qed.
Theorem conversion_key ver pre mid g fl :
  run ver glob0 (pre ++ SetupArith true :: mid) = Done (g, fl) ->
  (forall c, In c mid -> c <> SetupArith true) ->
  (g_key g = g_prot g <-> ~ In SetupBool mid).
Proof.
  intros R H. 
  assert (G : forall g fl, run ver glob0 (pre ++ SetupArith true :: mid) = Done (g, fl) ->
    exists k, g_key g = Some k /\ k < h_next g /\ (g_key g = g_prot g <-> ~ In SetupBool mid)).
  { clear R g fl. induction mid as [|c mid IH] using rev_ind; intros g fl R.
    - apply run_snoc_done in R. destruct R as (g1 & f1 & o & R & S & _).
      destruct (reach _ _ _ _ R) as ((K & I) & _).
      destruct (key_step _ _ _ _ _ _ _ _ _ I (cst_ast pre) S) as (E1 & E2 & L & _). cbn beta iota in E1, E2.
      destruct (g_prot g1) as [k|] eqn:Ep.
      + exists k. repeat split; auto; [pose proof (prot_bound _ _ _ _ _ R Ep); lia|now rewrite E1, E2].
      + exfalso. cbn [step] in S. unfold setup_arith in S. destruct (g_circ g1); [|discriminate].
        rewrite Ep in S. discriminate.
    - replace (pre ++ SetupArith true :: mid ++ [c]) with ((pre ++ SetupArith true :: mid) ++ [c]) in R by now rewrite <- app_assoc.
      apply run_snoc_done in R. destruct R as (g1 & f1 & o & R & S & _).
      destruct IH with (g := g1) (fl := f1) as (k & Ek & Lk & IFF); [intros x I; apply H, in_or_app; auto|exact R|].
      destruct (reach _ _ _ _ R) as ((K & I) & _).
      destruct (key_step _ _ _ _ _ _ _ _ _ I (cst_ast _) S) as (E1 & E2 & L & L').
      assert (NC : c <> SetupArith true) by (apply H, in_or_app; right; now left).
      assert (E1' : g_key g = Some k) by (rewrite E1; destruct c; auto; destruct conv; [now contradiction NC|auto]).
      exists k. split; [exact E1'|]. split; [lia|]. rewrite in_app_iff.
      destruct c; cbn [In] in *; try (rewrite E2, E1', <- Ek, IFF; intuition discriminate).
      rewrite E1', E2. split; [intro X; injection X as X; lia|intro X; exfalso; apply X; auto]. }
  destruct (G _ _ R) as (k & _ & _ & X). exact X.
Qed.

(** * Sessions in the intended order *)
Definition resting (conv : bool) (K : nat -> kind) (g : glob) : Prop :=
  exists b a v, inv K b a v g /\ (b <> Open) /\ (a <> Open) /\ v <> Open /\ (conv = false -> v = Never).
Lemma fails_cons x l : fails (x :: l) = (if x then 0 else 1) + fails l.
Proof. unfold fails. destruct x; reflexivity. Qed.
Lemma fails_app l l' : fails (l ++ l') = fails l + fails l'.
Proof. unfold fails. now rewrite filter_app, app_length. Qed.
Definition use_fails (us : list call) : nat := length (filter call_fails us).
Lemma uses_run ver conv us : forall K v g, Forall (use_ok conv) us -> (conv = true -> v = Open) ->
  inv K Open Open v g ->
  exists K' g', run ver g us = Done (g', []) /\ inv K' Open Open v g' /\
    length (g_msg g') = length (g_msg g) + (if ver then use_fails us else 0).
Proof.
  induction us as [|c us IH]; intros K v g HU Hv I.
  - exists K, g. cbn [run]. split; [reflexivity|]. split; [exact I|]. unfold use_fails. cbn [filter length]. destruct ver; lia.
  - pose proof (Forall_inv HU) as U. apply Forall_inv_tail in HU.
    destruct (step_spec ver K _ _ _ g c I (fun _ => eq_refl)) as (_ & H2 & _).
    assert (SX : safe_st Open Open v c /\ ~ exits_st Open Open v c) by (destruct c; cbn [use_ok safe_st exits_st] in *; try contradiction; split; auto; intros []).
    destruct SX as [SF NX]. destruct (H2 SF NX) as (g1 & o & S & ((K1 & I1) & M & E & _)).
    assert (Hst : bstat Open c = Open /\ astat Open c = Open /\ cstat v c = v /\ o = None /\ resets c = false /\
                  fails (rec_st Open Open c) = if call_fails c then 1 else 0).
    { destruct c; cbn in U; try easy; cbn [bstat astat cstat resets rec_st call_fails]; try (destruct ok; repeat split; auto; fail); repeat split; auto. }
    destruct Hst as (T1 & T2 & T3 & -> & Er & Ef). rewrite T1, T2, T3 in I1.
    destruct (IH K1 v g1 HU Hv I1) as (K' & g' & R & I' & M').
    exists K', g'. cbn [run]. rewrite S. cbn [bind fst snd]. rewrite R. cbn [bind fst snd]. split; [reflexivity|]. split; [exact I'|].
    rewrite M', M, Er, Ef. unfold use_fails. cbn [filter]. destruct ver, (call_fails c); cbn [length]; lia.
Qed.
Lemma existsb_count us : existsb call_fails us = negb (Nat.eqb (length (filter call_fails us)) 0).
Proof. induction us as [|c l IHl]; [reflexivity|]. cbn [existsb filter]. destruct (call_fails c); [reflexivity|exact IHl]. Qed.
Lemma astat_final b : b = Open -> match b with Never => Never | _ => Closed end = Closed.
Proof. now intros ->. Qed.
Lemma session_run ver conv s K g : Forall (use_ok conv) (s_uses s) -> resting conv K g ->
  exists K' g', run ver g (session_calls conv s) = Done (g', [ver && session_fails s]) /\ resting conv K' g'.
Proof.
  intros HU (b & a & v & I & NB & NA & NV & CV).
  unfold session_calls.
  destruct (step_setup_bool ver _ _ _ _ _ I) as (g1 & S1 & ((K1 & I1) & M1 & _)).
  cbn [bstat astat cstat] in I1.
  assert (S2 : exists g2 K2, step ver g1 (SetupArith conv) = Done (g2, None) /\
     inv K2 Open Open (if conv then Open else Never) g2 /\ length (g_msg g2) = 0).
  { destruct (step_setup_arith ver _ _ _ _ _ conv I1) as (H1 & _ & _).
    destruct H1 as (g2 & S2 & ((K2 & I2) & M2 & _)); [now right|]. exists g2, K2. split; [exact S2|]. split.
    - cbn [bstat astat cstat] in I2. destruct conv; [exact I2|]. now rewrite CV in I2 by easy.
    - rewrite M2, M1. cbn. unfold fails. cbn. now destruct ver. }
  destruct S2 as (g2 & K2 & S2 & I2 & M2).
  assert (HV : conv = true -> (if conv then Open else Never) = Open) by (now intros ->).
  destruct (uses_run ver conv (s_uses s) K2 _ g2 HU HV I2) as (K3 & g3 & R3 & I3 & M3).
  rewrite M2 in M3. cbn [plus] in M3.
  assert (VA : (if conv then Open else Never) = Open -> Open = Open) by auto.
  destruct (step_final_arith ver _ _ _ _ _ true (s_conv_poly s) true I3 VA) as (_ & H4 & _).
  destruct H4 as (g4 & S4 & ((K4 & I4) & M4 & _)).
  { split; [discriminate|]. destruct conv; discriminate. }
  { cbn [exits_st]. intros [[_ X]|[_ X]]; discriminate. }
  destruct (step_final_bool ver _ _ _ _ _ (s_poly s) (s_and s) (s_dig s) I4) as (H5 & _).
  destruct H5 as (g5 & r & S5 & ((K5 & I5) & M5 & E5 & _)); [discriminate|].
  exists K5, g5. split.
  - cbn [app run]. rewrite S1. cbn [bind fst snd]. rewrite S2. cbn [bind fst snd].
    rewrite run_app, R3. cbn [bind fst snd run]. rewrite S4. cbn [bind fst snd]. rewrite S5. cbn [bind fst snd].
    rewrite E5. cbn [app]. do 3 f_equal.
    rewrite M5, M4, M3. cbn [resets rec_st bstat].
    unfold session_fails, use_fails. destruct ver; [|reflexivity]. cbn [andb].
    rewrite existsb_count. generalize (length (filter call_fails (s_uses s))) as n. intro n.
    destruct (s_conv_poly s) as [[]|], (s_poly s) as [[]|], (s_and s) as [[]|], (s_dig s), n; cbn; try reflexivity; f_equal; rewrite ?Nat.add_0_r; auto.
  - exists Closed, Closed, (if conv then Closed else Never). cbn [bstat astat cstat] in I5.
    split; [destruct conv; exact I5|]. repeat split; try discriminate; destruct conv; discriminate || easy.
Qed.
Theorem sessions_run ver conv ss : Forall (fun s => Forall (use_ok conv) (s_uses s)) ss ->
  exists g, run ver glob0 (flat_map (session_calls conv) ss) = Done (g, map (fun s => ver && session_fails s) ss).
Proof.
  assert (R0 : resting conv (fun _ => KCirc) glob0).
  { exists Never, Never, Never. split; [apply inv0|]. repeat split; discriminate. }
  revert R0. generalize glob0 as g, (fun _ : nat => KCirc) as K. induction ss as [|s ss IH]; intros g K R H.
  - exists g. reflexivity.
  - destruct (session_run ver conv s K g (Forall_inv H) R) as (K' & g' & E & R').
    destruct (IH g' K' R' (Forall_inv_tail H)) as (g'' & E'). exists g''.
    cbn [flat_map map]. rewrite run_app, E. cbn [bind fst snd]. rewrite E'. reflexivity.
Qed.
