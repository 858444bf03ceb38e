(** Hiding, arithmetic engine: the simulator reproduces the view; bijection and uniformity. *)
From Coq Require Import NArith List Bool Arith Lia.
From Verif Require Import Word WordProofs FpModel FpProofs Prime61 ListUtil ArithModel ArithSpec ArithProofs ArithShadow ArithAlg
  ArithThms ArithThms2 ArithThms3 ArithThms4 HideSpec HideProofs AHideSpec AHideProofs AHideLock.
Import ListNotations.
Ltac Zify.zify_post_hook ::= idtac.
Add Ring fp_ring : fp_rt.

(** * Vectors over a finite alphabet *)
Section Vecs.
  Context {A : Type} (dec : forall x y : A, {x = y} + {x <> y}) (al : list A).
  Fixpoint wvecs (n : nat) : list (list A) :=
    match n with 0 => [[]] | S n' => flat_map (fun x => map (cons x) (wvecs n')) al end.
  Lemma in_wvecs n v : In v (wvecs n) <-> length v = n /\ Forall (fun x => In x al) v.
  Proof.
    revert v. induction n as [|n IH]; intro v; cbn [wvecs].
    - split; [intros [<-|[]]; auto|]. intros [L _]. destruct v; [now left|discriminate].
    - rewrite in_flat_map. split.
      + intros (x & Hx & Hv). apply in_map_iff in Hv. destruct Hv as (w & <- & Hw). apply IH in Hw. destruct Hw. cbn. auto.
      + intros [L H]. destruct v as [|x v]; [discriminate|]. inversion_clear H. exists x. split; [easy|].
        apply in_map, IH. cbn in L. split; [lia|easy].
  Qed.
  Lemma wvecs_nodup n : NoDup al -> NoDup (wvecs n).
  Proof.
    intro ND. induction n as [|n IH]; cbn [wvecs]; [constructor; [easy|constructor]|].
    assert (G : forall l, NoDup l -> NoDup (flat_map (fun x => map (cons x) (wvecs n)) l)); [|now apply G].
    induction l as [|x l IHl]; intro Hl; cbn [flat_map]; [constructor|]. inversion_clear Hl as [|? ? Hx Hl'].
    assert (N1 : NoDup (map (cons x) (wvecs n))).
    { clear -IH. induction IH as [|y l Hy _ IH]; cbn; [constructor|]. constructor; [|easy].
      rewrite in_map_iff. intros (z & E & Hz). injection E as ->. contradiction. }
    specialize (IHl Hl'). clear IH ND. revert N1 IHl.
    assert (D : forall v, In v (map (cons x) (wvecs n)) -> ~ In v (flat_map (fun x => map (cons x) (wvecs n)) l)).
    { intros v Hv Hf. apply in_map_iff in Hv. destruct Hv as (w & <- & _). apply in_flat_map in Hf.
      destruct Hf as (y & Hy & Hf). apply in_map_iff in Hf. destruct Hf as (z & E & _). injection E as -> _. contradiction. }
    revert D. generalize (flat_map (fun x => map (cons x) (wvecs n)) l) (map (cons x) (wvecs n)). clear.
    intros r l D N1 N2. induction l as [|y l IH]; cbn; [easy|]. inversion_clear N1. constructor.
    - rewrite in_app_iff. intros [I|I]; [contradiction|]. eapply D; [now left|exact I].
    - apply IH; auto. intros; apply D. now right.
  Qed.
  Lemma winj_surj n (f : list A -> list A) (D : list A -> Prop) : NoDup al ->
    (forall v, D v <-> length v = n /\ Forall (fun x => In x al) v) ->
    (forall v, D v -> D (f v)) -> (forall a b, D a -> D b -> f a = f b -> a = b) ->
    forall w, D w -> exists v, D v /\ f v = w.
  Proof.
    intros ND HD Hf Hi w Hw. assert (HI : forall v, D v <-> In v (wvecs n)) by (intro; now rewrite HD, in_wvecs).
    assert (N1 : NoDup (map f (wvecs n))).
    { assert (G : forall l, (forall v, In v l -> D v) -> NoDup l -> NoDup (map f l)).
      { induction l as [|x l IH]; intros Hl Hd; cbn; [constructor|]. inversion Hd; subst. constructor.
        - rewrite in_map_iff. intros [y [E Hy]]. apply Hi in E; [subst; contradiction|apply Hl; now right|apply Hl; now left].
        - apply IH; auto. intros; apply Hl; now right. }
      apply G; [intro; apply HI|now apply wvecs_nodup]. }
    assert (Inc : incl (wvecs n) (map f (wvecs n))).
    { apply NoDup_length_incl; [exact N1|now rewrite map_length|].
      intros x Hx. apply in_map_iff in Hx. destruct Hx as (y & <- & Hy). apply HI, Hf, HI, Hy. }
    apply HI in Hw. apply Inc, in_map_iff in Hw. destruct Hw as (v & E & Hv). exists v. split; [now apply HI|easy].
  Qed.
  Lemma wchoice {B} (R : list A -> B -> Prop) n (D : list A -> Prop) (b0 : B) :
    (forall v, D v <-> length v = n /\ Forall (fun x => In x al) v) ->
    (forall v, D v -> exists b, R v b) -> exists f, forall v, D v -> R v (f v).
  Proof.
    intros HD H.
    assert (G : forall l, (forall v, In v l -> D v) -> exists f, forall v, In v l -> R v (f v)).
    { induction l as [|x l IH]; intro Hl; [exists (fun _ => b0); easy|].
      destruct IH as [f Hf]; [intros; apply Hl; now right|]. destruct (H x) as [b Hb]; [apply Hl; now left|].
      exists (fun v => if list_eq_dec dec v x then b else f v). intros v Hv.
      destruct (list_eq_dec dec v x) as [->|Ne]; [exact Hb|]. destruct Hv as [->|Hv]; [easy|auto]. }
    destruct (G (wvecs n)) as [f Hf]; [intros v Hv; now apply HD, in_wvecs|].
    exists f. intros v L. apply Hf. now apply in_wvecs, HD.
  Qed.
End Vecs.
Lemma alphabet p : exists al : list N, NoDup al /\ forall x, In x al <-> (x < p)%N.
Proof.
  exists (map N.of_nat (seq 0 (N.to_nat p))). split.
  - assert (G : forall l, NoDup l -> NoDup (map N.of_nat l)); [|apply G, seq_NoDup].
    induction 1; cbn; constructor; auto. rewrite in_map_iff. intros (y & E & Hy). apply Nat2N.inj in E. now subst.
  - intro x. rewrite in_map_iff. split.
    + intros (y & <- & Hy). apply in_seq in Hy. lia.
    + intro Hx. exists (N.to_nat x). split; [lia|]. apply in_seq. lia.
Qed.

(** * Verifier states without the flags *)
Definition strip (v : avst) : avst :=
  {| av_w := av_w v; av_buf := av_buf v; av_poly := av_poly v; av_hash := av_hash v; av_vole := av_vole v;
     av_chk := av_chk v; av_pchk := av_pchk v; av_words := av_words v; av_outs := av_outs v; av_err := false; av_cheat := false |}.
Section Strip.
  Variables (pm : N) (vK vK' : nat -> N) (d : N) (t csz psz : nat) (sd sd' : nat -> nat -> N) (ps ps' : nat -> N)
    (words : nat -> N) (cm cm' pmm pmm' : nat -> N * N).
  Hypothesis HK : forall i, vK i = vK' i.
  Lemma strip_batch v v' : strip v = strip v' -> strip (av_batch vK d ps pmm v) = strip (av_batch vK' d ps' pmm' v').
  Proof.
    destruct v as [a1 a2 a3 a4 a5 a6 a7 a8 a9 a10 a11], v' as [b1 b2 b3 b4 b5 b6 b7 b8 b9 b10 b11].
    unfold strip. cbn. intro E. injection E as -> -> -> -> -> -> -> -> ->. unfold av_batch. cbn [av_poly]. now destruct b3.
  Qed.
  Lemma strip_step v v' g : strip v = strip v' ->
    option_map strip (av_step pm vK d t csz psz sd ps words cm pmm v g) =
    option_map strip (av_step pm vK' d t csz psz sd' ps' words cm' pmm' v' g).
  Proof.
    intro E. pose proof (strip_batch v v' E) as SB. revert E SB.
    destruct v as [a1 a2 a3 a4 a5 a6 a7 a8 a9 a10 a11], v' as [b1 b2 b3 b4 b5 b6 b7 b8 b9 b10 b11].
    unfold strip at 1 2. cbn [av_w av_buf av_poly av_hash av_vole av_chk av_pchk av_words av_outs av_err av_cheat].
    intro E. injection E as -> -> -> -> -> -> -> -> ->. intro SB.
    destruct g; cbn [av_step option_map]; try reflexivity.
    - cbn. now rewrite HK.
    - unfold av_precheck, av_manage. cbn [av_buf]. destruct (Nat.eqb (length b2) csz);
        [destruct (a_ranges t (length b2)); [|reflexivity]|]; cbn; now rewrite HK.
    - unfold av_queue. cbn [av_poly]. f_equal. destruct (Nat.leb psz (length b3)); [|reflexivity].
      set (x := av_batch _ _ _ _ _) in *. set (y := av_batch _ _ _ _ _) in SB |- *. clearbody x y.
      unfold strip in *. cbn. injection SB as -> -> -> -> -> -> -> -> ->. reflexivity.
    - unfold av_queue. cbn [av_poly]. f_equal. destruct (Nat.leb psz (length b3)); [|reflexivity].
      set (x := av_batch _ _ _ _ _) in *. set (y := av_batch _ _ _ _ _) in SB |- *. clearbody x y.
      unfold strip in *. cbn. injection SB as -> -> -> -> -> -> -> -> ->. reflexivity.
  Qed.
End Strip.
Lemma pl_ok_step q g : pl_ok (pl_step q g) = true -> pl_ok q = true.
Proof. destruct g; cbn; auto; intro H; now apply andb_prop in H. Qed.
Lemma pl_ok_run c : forall q, pl_ok (fold_left pl_step c q) = true -> pl_ok q = true.
Proof. induction c as [|g c IH]; intros q H; cbn in H; auto. eapply pl_ok_step, IH, H. Qed.
(** flags and hash of the verifier of an honest prover with a valid witness *)
Lemma no_flags p s q v d : (d < PR)%N -> psim p s q -> vsim d v s -> pl_ok q = true ->
  av_err v = false /\ av_cheat v = false /\ av_hash v = ap_hash p.
Proof.
  intros Hd S V Hok. destruct (ps_ok _ _ _ S Hok) as (Z1 & Z2 & Z3 & Z4).
  assert (Hh : av_hash v = ap_hash p).
  { rewrite (vs_h _ _ _ V), (ps_h _ _ _ S). apply map_ext_in. intros [[m x] w] Hr.
    rewrite Forall_forall in Z3. specialize (Z3 _ Hr). cbn [fst snd] in Z3. subst w. now apply rev_mac_honest. }
  assert (Acc : forall ci, hmsg ci -> zE (ci_items ci) -> ci_acc d ci = true).
  { intros ci Hm Hz. eapply ci_acc_honest; eauto. }
  rewrite (vs_e _ _ _ V), (vs_x _ _ _ V). rewrite !existsb_negb_false.
  - split; [|auto]. cbn [orb]. clear -Z4. induction Z4 as [|e l He _ IH]; [reflexivity|]. cbn [existsb]. rewrite IH, orb_false_r.
    unfold exp_bad. rewrite He. now rewrite N.eqb_refl.
  - pose proof (ps_p _ _ _ S) as P. rewrite Forall_forall in *. intros ci Hc. apply Acc; auto.
  - pose proof (ps_m _ _ _ S) as P. rewrite Forall_forall in *. intros ci Hc. destruct (P ci Hc). apply Acc; auto.
Qed.
Lemma accept_msg d W ope m : a_ver_accept d W ope m = true -> accepted d W ope (snd m) = m.
Proof.
  unfold a_ver_accept, accepted. cbv zeta. intro H. apply N.eqb_eq in H. rewrite <- H. now destruct m.
Qed.
Lemma snd_nth {A B} (l : list (A * B)) k a b : nth k (map snd l) b = snd (nth k l (a, b)).
Proof. change b with (snd (a, b)) at 1. apply map_nth. Qed.

Section Sim.
  Variables (pub_mac : N) (key : nat -> N) (d : N) (threads csz psz : nat).
  Variables (F : ahist -> nat -> N) (G : ahist -> N).
  Hypothesis Hpm : (pub_mac < PR)%N.
  Hypothesis HG : forall h, (G h < W64)%N.
  Hypothesis Hcsz : 1 <= csz.
  Hypothesis Hpsz : 1 <= psz.
  Hypothesis Hkd : akeys_ok key d.
  Variables (u : list N) (P : apst).
  Hypothesis Hu : Forall canon u.
  Hypothesis HPw : Forall (fun w => (w < PR)%N) (ap_words P).
  Notation U := (val_of u).
  Notation M := (mac_of key d u).
  Notation pV := (vole_block U M).
  Notation ws := (ap_words P).
  Notation a1s := (map snd (ap_msgs P)).
  Notation b1s := (map snd (ap_pmsgs P)).
  Notation wf k := (nth k ws 0%N).
  Let words := fun k => nth k ws 0%N.
  Let cm := fun k => nth k (ap_msgs P) (0, 0)%N.
  Let pmm := fun k => nth k (ap_pmsgs P) (0, 0)%N.
  Notation step := (ah_step pub_mac threads csz psz F G pV).
  Notation run := (ah_run pub_mac threads csz psz F G pV).
  Notation sstep := (asim_step pub_mac key d threads csz psz F G ws a1s b1s).
  Notation srun := (asim_run pub_mac key d threads csz psz F G ws a1s b1s).
  Lemma d_lt : (d < PR)%N. Proof. apply Hkd. Qed.
  Lemma vok : vole_ok U M. Proof. now apply vole_ok_of. Qed.
  Lemma keys i : vole_key U M d i = key i. Proof. now apply key_ok. Qed.
  (** the simulator's state [v] beside the prover's state [p]; [vv] is the real verifier *)
  Definition joint (p : apst) (v : avst) (q : apl) : Prop :=
    exists s vv, psim p s q /\ vsim d vv s /\ strip v = strip vv.
  Lemma joint_hist p v q : joint p v q -> apre p P -> sim_hist ws v (ap_msgs p) (ap_pmsgs p) = hist p.
  Proof.
    intros (s & vv & S & V & E) ([x Hx] & _). unfold sim_hist, hist. f_equal. f_equal.
    assert (Ew : av_words v = length (ap_words p)).
    { change (av_words (strip v) = length (ap_words p)). rewrite E. cbn. now rewrite (vs_k _ _ _ V), (ps_lw _ _ _ S). }
    rewrite Ew, Hx, firstn_app, Nat.sub_diag, firstn_all. cbn. now rewrite app_nil_r.
  Qed.
  Lemma strip_fields v vv : strip v = strip vv -> av_buf v = av_buf vv /\ av_poly v = av_poly vv /\ av_vole v = av_vole vv.
  Proof. intro E. unfold strip in E. injection E. auto. Qed.
  Lemma nm k l m : prefix (l ++ [m]) (ap_msgs P) -> k = length l -> cm k = m. Proof. intros H ->. now apply prefix_nth. Qed.
  Lemma npm k l m : prefix (l ++ [m]) (ap_pmsgs P) -> k = length l -> pmm k = m. Proof. intros H ->. now apply prefix_nth. Qed.
  Lemma sim_msg_ok p s q v vv p' vv' sd : psim p s q -> vsim d vv s -> strip v = strip vv -> apre p P ->
    ap_manage pV threads sd p = Some p' -> prefix (ap_msgs p') (ap_msgs P) ->
    sd = (fun _ => F (hist p)) ->
    av_manage (vole_key U M d) d threads sd cm vv = Some vv' -> av_err vv' = false ->
    asim_msg key d threads F ws a1s v (ap_msgs p) (ap_pmsgs p) = Some (ap_msgs p').
  Proof.
    intros S V E A Hm Hpre -> Hv Herr.
    assert (J : joint p v q) by (exists s, vv; auto). pose proof (joint_hist p v q J A) as HH.
    destruct (strip_fields _ _ E) as (Eb & _ & Ev).
    unfold asim_msg. rewrite HH, Eb, Ev. unfold av_manage in Hv. unfold ap_manage in Hm.
    assert (L : length (ap_buf p) = length (av_buf vv)).
    { rewrite (F2_length _ _ _ (ps_b _ _ _ S)). symmetry. apply (F2_length _ _ _ (vs_b _ _ _ V)). }
    rewrite L in Hm. destruct (a_ranges threads (length (av_buf vv))) as [rs|]; [|discriminate].
    cbv zeta in Hv, Hm. injection Hv as <-. cbn [av_err] in Herr. apply orb_false_elim in Herr. destruct Herr as [_ Herr].
    apply negb_false_iff in Herr. apply accept_msg in Herr. injection Hm as <-. cbn [ap_msgs] in *.
    f_equal. f_equal. f_equal. rewrite (snd_nth _ _ 0%N). fold cm.
    change (nth (length (ap_msgs p)) (ap_msgs P) (0, 0)%N) with (cm (length (ap_msgs p))).
    assert (Ek : av_chk vv = length (ap_msgs p)) by now rewrite (vs_c _ _ _ V), (ps_lm _ _ _ S).
    rewrite Ek in Herr. rewrite keys in Herr.
    rewrite <- (nm _ _ _ Hpre eq_refl). exact Herr.
  Qed.
  Lemma sim_pmsg_ok p s q v vv g : psim p s q -> vsim d vv s -> strip v = strip vv -> apre p P ->
    let p' := ap_batch pV g p in let vv' := av_batch (vole_key U M d) d g pmm vv in
    prefix (ap_pmsgs p') (ap_pmsgs P) -> g = (fun _ => G (hist p)) -> av_cheat vv' = false ->
    asim_pmsg key d G ws b1s v (ap_msgs p) (ap_pmsgs p) = ap_pmsgs p'.
  Proof.
    intros S V E A p' vv' Hpre -> Herr. subst p' vv'.
    assert (J : joint p v q) by (exists s, vv; auto). pose proof (joint_hist p v q J A) as HH.
    destruct (strip_fields _ _ E) as (_ & Eb & Ev).
    unfold asim_pmsg. rewrite HH, Eb, Ev. unfold av_batch in Herr. unfold ap_batch in *.
    assert (L : length (ap_poly p) = length (av_poly vv)).
    { rewrite (F2_length _ _ _ (ps_q _ _ _ S)). symmetry. apply (F2_length _ _ _ (vs_q _ _ _ V)). }
    destruct (av_poly vv) as [|x l] eqn:Ex; destruct (ap_poly p) as [|y l'] eqn:Ey; [easy|discriminate|discriminate|].
    rewrite <- Ex, <- Ey in *. clear Ex Ey.
    cbv zeta in *. cbn [av_cheat ap_pmsgs] in *. apply orb_false_elim in Herr. destruct Herr as [_ Herr].
    apply negb_false_iff in Herr. apply accept_msg in Herr.
    f_equal. f_equal. rewrite (snd_nth _ _ 0%N). fold pmm.
    change (nth (length (ap_pmsgs p)) (ap_pmsgs P) (0, 0)%N) with (pmm (length (ap_pmsgs p))).
    assert (Ek : av_pchk vv = length (ap_pmsgs p)) by now rewrite (vs_pc _ _ _ V), (ps_lp _ _ _ S).
    rewrite Ek in Herr. rewrite keys in Herr. rewrite L in *.
    rewrite <- (npm _ _ _ Hpre eq_refl). exact Herr.
  Qed.
  Lemma strip_some (x y : option avst) b : option_map strip x = option_map strip y -> y = Some b ->
    exists a, x = Some a /\ strip a = strip b.
  Proof. intros H ->. destruct x as [a|]; [|discriminate]. exists a. split; [reflexivity|]. cbn [option_map] in H. congruence. Qed.
  Lemma sim_step_ok p v q g p' : joint p v q -> wf_honest g -> step p g = Some p' -> apre p p' -> apre p' P ->
    pl_ok (pl_step q g) = true ->
    exists v', sstep (v, ap_msgs p, ap_pmsgs p) g = Some (v', ap_msgs p', ap_pmsgs p') /\ joint p' v' (pl_step q g).
  Proof.
    intros (s & vv & S & V & E) W Hs A0 A Hok. unfold ah_step in Hs.
    destruct (p_step pub_mac U M threads csz psz (fun _ => F (hist p)) (fun _ => G (hist p)) vok Hpm (fun _ => HG _)
                words cm pmm p s q g p' S W Hs (apre_agree p' P A)) as (s' & Es & S').
    pose proof (ArithShadow.sim_step pub_mac U M threads csz psz (fun _ => F (hist p)) (fun _ => G (hist p)) words cm pmm d d_lt Hpm
                  vv s g (fun _ => HG _) (proj1 W)) as SS.
    assert (Wd : match g with AIn _ | AMul _ _ => (words (s_words s) <= PR)%N | _ => True end).
    { destruct g; auto; apply N.lt_le_incl; apply nth_small; exact HPw. }
    specialize (SS Wd V). rewrite Es in SS.
    destruct (av_step pub_mac (vole_key U M d) d threads csz psz (fun _ => F (hist p)) (fun _ => G (hist p)) words cm pmm vv g)
      as [vv'|] eqn:Ev; [|easy].
    destruct (no_flags p' s' _ vv' d d_lt S' SS Hok) as (N1 & N2 & _).
    destruct (strip_some (asim_ver pub_mac key d threads csz psz ws v g) _ vv'
      (strip_step pub_mac key (vole_key U M d) d threads csz psz _ _ _ _ words _ _ _ _ (fun i => eq_sym (keys i)) v vv g E) Ev) as (v' & Ev' & E').
    exists v'. split; [|exists s', vv'; auto]. unfold asim_step. rewrite Ev'. destruct (strip_fields _ _ E) as (Eb & Ep & _).
    assert (AP : apre p P) by (eapply apre_trans; eauto).
    assert (L : length (av_buf vv) = length (ap_buf p)).
    { rewrite (F2_length _ _ _ (ps_b _ _ _ S)). apply (F2_length _ _ _ (vs_b _ _ _ V)). }
    assert (L2 : length (av_poly vv) = length (ap_poly p)).
    { rewrite (F2_length _ _ _ (ps_q _ _ _ S)). apply (F2_length _ _ _ (vs_q _ _ _ V)). }
    destruct A as (A1 & A2 & A3).
    destruct g as [x|b|i j|i c|i j|i j|i c|i|i e|i|xs ys cf|xs ys c]; cbn [ap_step av_step] in Hs, Ev;
      try (injection Hs as <-; reflexivity).
    - rewrite Eb, L. unfold ap_precheck in Hs. unfold av_precheck in Ev. rewrite L in Ev.
      destruct (Nat.eqb (length (ap_buf p)) csz).
      + destruct (ap_manage pV threads _ p) as [p1|] eqn:Em; [|discriminate].
        destruct (av_manage _ d threads _ cm vv) as [vv1|] eqn:Emv; [|discriminate].
        unfold a_prv_mul in Hs. injection Hs as <-. injection Ev as <-. cbn [ap_msgs ap_pmsgs ap_clear av_err av_clear] in *.
        assert (Ep1 : ap_pmsgs p1 = ap_pmsgs p).
        { destruct (amanage_facts _ _ _ _ _ Em) as (m & _ & Q & _). exact Q. }
        rewrite Ep1. erewrite sim_msg_ok; eauto.
      + unfold a_prv_mul in Hs. injection Hs as <-. reflexivity.
    - rewrite Ep, L2. injection Hs as <-. injection Ev as <-. unfold ap_queue in *. unfold av_queue in N2. rewrite L2 in N2.
      cbn [ap_msgs ap_pmsgs av_cheat] in *. destruct (Nat.leb psz (length (ap_poly p))); [|reflexivity].
      erewrite sim_pmsg_ok; eauto.
      destruct (abatch_cases pV (fun _ => G (hist p)) p) as [[_ Q]|(m & _ & _ & Q & _)]; now rewrite Q.
    - rewrite Ep, L2. injection Hs as <-. injection Ev as <-. unfold ap_queue in *. unfold av_queue in N2. rewrite L2 in N2.
      cbn [ap_msgs ap_pmsgs av_cheat] in *. destruct (Nat.leb psz (length (ap_poly p))); [|reflexivity].
      erewrite sim_pmsg_ok; eauto.
      destruct (abatch_cases pV (fun _ => G (hist p)) p) as [[_ Q]|(m & _ & _ & Q & _)]; now rewrite Q.
  Qed.
  Lemma sim_run_ok c : forall p v q a b r p', joint p v q -> acinv csz psz p a b r -> Forall wf_honest c ->
    run p c = Some p' -> apre p' P -> pl_ok (fold_left pl_step c q) = true ->
    exists v', srun (v, ap_msgs p, ap_pmsgs p) c = Some (v', ap_msgs p', ap_pmsgs p') /\ joint p' v' (fold_left pl_step c q).
  Proof.
    induction c as [|g c IH]; intros p v q a b r p' J I W H A Hok; cbn [ah_run asim_run fold_left] in *.
    - injection H as <-. eauto.
    - destruct (step p g) as [p1|] eqn:E1; [|discriminate]. inversion_clear W as [|? ? Wg Wc].
      destruct (acinv_step _ _ _ _ _ _ _ Hcsz Hpsz _ _ _ _ _ _ I E1) as [I1 A0].
      destruct (acinv_run _ _ _ _ _ _ _ Hcsz Hpsz _ _ _ _ _ _ I1 H) as [_ A1].
      destruct (sim_step_ok p v q g p1 J Wg E1 A0 (apre_trans _ _ _ A1 A) (pl_ok_run c _ Hok)) as (v1 & Es & J1).
      rewrite Es. eapply IH; eauto.
  Qed.
  Lemma joint_init : joint ap_init av_init pl_init.
  Proof. exists s_init, av_init. split; [apply psim_start|]. split; [constructor; constructor|reflexivity]. Qed.
  Lemma sim_exec_ok c : Forall wf_honest c -> ah_exec pub_mac threads csz psz F G pV c = Some P -> pl_ok (aplain c) = true ->
    asim_exec pub_mac key d threads csz psz F G ws a1s b1s c = Some (aview P).
  Proof.
    intros W H Hok. unfold ah_exec in H. destruct (run ap_init c) as [p|] eqn:Er; [|discriminate].
    destruct (final_facts _ _ _ _ _ F G Hcsz Hpsz c p P Er H) as (A0 & A1 & _).
    destruct (sim_run_ok c ap_init av_init pl_init 0 0 0 p joint_init (acinv_init csz psz) W Er (apre_trans _ _ _ A0 A1) Hok) as (v & Es & J).
    unfold asim_exec. cbn [ap_init ap_msgs ap_pmsgs] in Es. rewrite Es. fold (aplain c) in J.
    pose proof (apre_trans _ _ _ A0 A1) as AP.
    destruct J as (s & vv & S & V & E).
    pose proof (p_batch pub_mac U M threads (fun _ => F (hist p)) (fun _ => G (hist p)) vok Hpm (fun _ => HG _) words cm pmm p s _ S
                 (apre_agree _ P A1)) as S1.
    pose proof (ArithShadow.sim_batch pub_mac U M threads (fun _ => F (hist p)) (fun _ => G (hist p)) words cm pmm d d_lt Hpm vv s (fun _ => HG _) V) as V1.
    destruct (no_flags _ _ _ _ _ d_lt S1 V1 Hok) as (N1 & N2 & N3).
    unfold ah_final in H. cbv zeta in H |- *.
    rewrite (sim_pmsg_ok p s _ v vv (fun _ => G (hist p)) S V E AP (proj2 (proj2 A1)) eq_refl N2).
    pose proof (strip_batch key (vole_key U M d) d (fun _ => 0%N) (fun _ => G (hist p)) (fun _ => (0, 0)%N) pmm v vv E) as E1.
    set (v1 := av_batch key d (fun _ => 0%N) (fun _ => (0, 0)%N) v) in *.
    set (vv1 := av_batch (vole_key U M d) d (fun _ => G (hist p)) pmm vv) in *.
    assert (Q : ap_msgs p = ap_msgs (ap_batch pV (fun _ => G (hist p)) p)).
    { destruct (abatch_cases pV (fun _ => G (hist p)) p) as [[_ Q]|(m & _ & _ & Q & _)]; now rewrite Q. }
    rewrite Q.
    set (p1 := ap_batch pV (fun _ => G (hist p)) p) in *.
    set (s1 := s_batch U M (fun _ => G (hist p)) pmm s) in *. clearbody v1 vv1 p1 s1. clear Q S V E Es Er AP A0 p v vv s.
    assert (Eh : av_hash v1 = ap_hash p1) by (rewrite <- N3; change (av_hash (strip v1) = av_hash (strip vv1)); now rewrite E1).
    destruct (strip_fields _ _ E1) as (Eb & _ & _).
    assert (L : length (av_buf vv1) = length (ap_buf p1)).
    { rewrite (F2_length _ _ _ (ps_b _ _ _ S1)). apply (F2_length _ _ _ (vs_b _ _ _ V1)). }
    rewrite Eb. destruct (ap_buf p1) as [|x l] eqn:Ex; destruct (av_buf vv1) as [|y l'] eqn:Ey; try discriminate.
    - injection H as <-. unfold aview. now rewrite Eh.
    - rewrite <- Ey in *. clear Ey.
      destruct (p_manage pub_mac U M threads psz (fun _ => F (hist p1)) (fun _ => G (hist p1)) vok Hpm (fun _ => HG _)
        words cm pmm p1 s1 _ P S1 (apre_agree _ _ (apre_refl P)) H) as (s2 & E2 & S2).
      pose proof (ArithShadow.sim_manage U M threads (fun _ => F (hist p1)) cm d vv1 s1 V1) as V2. rewrite E2 in V2.
      destruct (av_manage _ d threads _ cm vv1) as [vv2|] eqn:Ev2; [|easy].
      destruct (no_flags _ _ _ _ _ d_lt S2 V2 Hok) as (M1 & _ & _).
      rewrite (sim_msg_ok p1 s1 (aplain c) v1 vv1 P vv2 (fun _ => F (hist p1)) S1 V1 E1 A1 H (prefix_refl _) eq_refl Ev2 M1).
      assert (X : ap_pmsgs P = ap_pmsgs p1 /\ ap_hash P = ap_hash p1).
      { destruct (amanage_facts _ _ _ _ _ H) as (m & _ & Q & _). split; [exact Q|]. unfold ap_manage in H.
        destruct (a_ranges _ _); [|discriminate]. now injection H as <-. }
      destruct X as [X1 X2]. unfold aview. rewrite X1, X2, Eh. reflexivity.
  Qed.
End Sim.
Lemma asim_inputs pm key d t csz psz F G ws a1s b1s c : forall ins st,
  asim_run pm key d t csz psz F G ws a1s b1s st (awith_inputs ins c) = asim_run pm key d t csz psz F G ws a1s b1s st c.
Proof.
  induction c as [|g c IH]; intros ins st; [reflexivity|].
  destruct g; cbn [awith_inputs]; try (cbn [asim_run]; destruct (asim_step _ _ _ _ _ _ _ _ _ _ _ _ _); [apply IH|reflexivity]).
  destruct ins; cbn [asim_run]; destruct st as [[v ms] pms]; cbn; apply IH.
Qed.
