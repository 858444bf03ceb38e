(** Hiding over the channel: the verifier's whole view of a mixed session does not depend on the witness. *)
From Coq Require Import NArith List Bool Arith Lia.
From Verif Require Import Word WordProofs GF128 GF128Ring BoolModel BoolSpec BoolProofs BoolAlg BoolThms BoolThms2 BoolIOModel BoolIOSpec BoolIOProofs
  BoolIOThms BoolIOThms2 HideSpec HideProofs BoolPolyModel BoolPolySpec BSessModel BSessSpec BSessProofs BSessThms BSessHideSpec BSessHide WireModel WireNet WireProofs
  WireAny BWireModel BWireSpec BWireProofs BWireThms BWireHideSpec.
Import ListNotations.

(** * Two senders that follow the same list of actions *)
Section Lock.
  Variables (bs br reset : bool) (NB : nat).
  Lemma fl_reads n : forall e, e_reads (fst (flush_loop bs NB n e)) = e_reads e.
  Proof.
    induction n as [|n IH]; intro x; [reflexivity|]. cbn [flush_loop]. destruct (Nat.eqb (e_ptr x) 0); [reflexivity|].
    assert (Q : e_reads (fst (send_bit bs NB x true)) = e_reads x) by (unfold send_bit; destruct (Nat.eqb _ _); reflexivity).
    destruct (send_bit bs NB x true) as [x1 o1]. pose proof (IH x1) as Q1.
    destruct (flush_loop bs NB n x1) as [x2 o2]. cbn [fst] in *. congruence.
  Qed.
  Lemma s_act_reads e a ch e' o ch' : s_act bs reset NB e a ch = Some (e', o, ch') ->
    e_reads e' = e_reads e ++ match a with AXfer false x => [RdData (firstn (length x) ch)] | _ => [] end.
  Proof.
    assert (FS : forall e, e_reads (fst (flush_s bs NB e)) = e_reads e) by (intros; apply fl_reads).
    destruct a as [b|[]|[] x| |]; cbn [s_act].
    - assert (Q : e_reads (fst (send_bit bs NB e b)) = e_reads e) by (unfold send_bit; destruct (Nat.eqb _ _); reflexivity).
      destruct (send_bit bs NB e b) as [e1 o1]. intro X. injection X as <- _ _. rewrite app_nil_r. exact Q.
    - pose proof (FS e) as Q. destruct (Nat.eqb (e_ptr e) 0); [|destruct (flush_s bs NB e) as [e1 o1]]; intro X; injection X as <- _ _; rewrite app_nil_r; auto.
    - pose proof (FS e) as Q. destruct (Nat.eqb (e_ptr e) NB); [|destruct (flush_s bs NB e) as [e1 o1]]; intro X; injection X as <- _ _; rewrite app_nil_r; auto.
    - intro X. injection X as <- _ _. now rewrite app_nil_r.
    - unfold raw_read. destruct (Nat.ltb _ _); [discriminate|]. intro X. injection X as <- _ _. reflexivity.
    - pose proof (FS e) as Q. destruct (flush_s bs NB e) as [e1 o1]. intro X. injection X as <- _ _. rewrite app_nil_r. exact Q.
    - intro X. injection X as <- _ _. cbn. now rewrite app_nil_r.
  Qed.
  (** a sender that follows a list performs its first action *)
  Lemma s_move {R} (P : proc R) e l dg res rs P' e' o rs' : follow true P l dg res -> s_proc bs reset NB P e rs = Some (P', e', o, rs') ->
    exists a l', l = a :: l' /\ s_act bs reset NB e a rs = Some (e', o, rs').
  Proof.
    intros F E. destruct (s_forward bs reset NB res P e l dg rs P' e' o rs' F E) as (a & l' & A & B & _). eauto.
  Qed.
  Lemma s_can {R} (P : proc R) e a l dg res rs e' o rs' : follow true P (a :: l) dg res -> s_act bs reset NB e a rs = Some (e', o, rs') ->
    exists P', s_proc bs reset NB P e rs = Some (P', e', o, rs').
  Proof.
    intros F E. destruct a as [b|d|[] x| |]; cbn [follow Bool.eqb] in F.
    - destruct F as (k & -> & F). cbn [s_proc]. rewrite E. eauto.
    - destruct F as (k & -> & F). cbn [s_proc]. rewrite E. eauto.
    - destruct F as (k & -> & F). cbn [s_proc]. rewrite E. eauto.
    - destruct F as (k & -> & F). cbn [s_proc s_act] in *. destruct (raw_read e (length x) rs) as [[e1 ch]|]; [|discriminate]. injection E as -> <- ->. eauto.
    - destruct F as (k & -> & F). cbn [s_proc]. rewrite E. eauto.
    - destruct dg as [|h dg]; [destruct F|]. destruct F as (k & -> & F). cbn [s_proc]. rewrite E. eauto.
  Qed.
  Context {RP RV : Type}.
  Variables (gs gr : list bool) (P P' : proc RP) (V : proc RV) (L : list act) (DL : list (list N)) (res res' : RP) (eF : ep).
  Hypothesis FP : follow true P L DL res.
  Hypothesis FP' : follow true P' L DL res'.
  Hypothesis Hdg : forall i h h', nth_error (e_digests eF) i = Some h -> nth_error DL i = Some h' -> h = h'.
  Hypothesis Hrd : forall i x x', nth_error (e_reads eF) i = Some (RdData x) -> nth_error (exp_s L) i = Some (RdData x') -> length x = length x' -> x = x'.
  Definition lock (n n' : @net RP RV) : Prop :=
    n_s n' = n_s n /\ n_v n' = n_v n /\ n_r n' = n_r n /\ n_sr n' = n_sr n /\ n_rs n' = n_rs n /\
    exists l, follow true (n_p n) l (skipn (length (e_digests (n_s n))) DL) res /\ follow true (n_p n') l (skipn (length (e_digests (n_s n))) DL) res' /\
      exp_s l = skipn (length (e_reads (n_s n))) (exp_s L).
  Lemma prefix_at {A} (a b : list A) x : prefix (a ++ [x]) b -> nth_error b (length a) = Some x.
  Proof. intros [t E]. rewrite E, <- app_assoc, nth_error_app2, Nat.sub_diag by lia. reflexivity. Qed.
  Lemma skipn_cons_e {A} n (l : list A) x t : skipn n l = x :: t -> nth_error l n = Some x /\ skipn (S n) l = t.
  Proof.
    revert l. induction n as [|n IH]; intros l E; [now rewrite (eq_refl : skipn 0 l = l) in E; subst|].
    destruct l as [|y l]; [discriminate|]. cbn [skipn nth_error] in *. now apply IH.
  Qed.
  Lemma lock_run k : forall n, nsteps bs br reset NB k (n_init NB gs gr P V) n ->
    prefix (e_digests (n_s n)) (e_digests eF) -> prefix (e_reads (n_s n)) (e_reads eF) ->
    exists n', nsteps bs br reset NB k (n_init NB gs gr P' V) n' /\ lock n n'.
  Proof.
    induction k as [|k IH]; intros n Hn D1 D2; inversion Hn as [c Hc|k' c1 n1 c2 Hn1 St]; subst.
    - eexists. split; [constructor|]. repeat (split; [reflexivity|]). exists L. cbn. auto.
    - destruct St as [Q e W r sr rs Q' e' o rs' Ha|Q e W r sr rs W' r' o sr' Ha]; cbn [n_s] in D1, D2.
      + assert (Mono : prefix (e_digests e) (e_digests e') /\ prefix (e_reads e) (e_reads e')).
        { destruct Q; cbn [s_proc] in Ha; try discriminate;
          try (match type of Ha with match s_act bs reset NB e ?a rs with _ => _ end = _ =>
            destruct (s_act bs reset NB e a rs) as [[[e1 o1] c1]|] eqn:Es; [|discriminate]; injection Ha as _ <- _ _;
            pose proof (s_act_digests bs reset NB _ _ _ _ _ _ Es) as A1; pose proof (s_act_reads _ _ _ _ _ _ Es) as A2; split; eexists; eassumption end).
          unfold raw_read in Ha. destruct (Nat.ltb _ _); [discriminate|]. injection Ha as _ <- _ _. cbn [e_digests e_reads]. split; [apply prefix_refl|now eexists]. }
        destruct (IH _ Hn1) as ([Q1 e1 W1 r1 sr1 rs1] & R & E1 & E2 & E3 & E4 & E5 & l & F1 & F2 & X).
        { eapply prefix_trans; [apply Mono|exact D1]. }
        { eapply prefix_trans; [apply Mono|exact D2]. }
        cbn [n_s n_v n_r n_sr n_rs n_p] in *. subst.
        destruct (s_forward bs reset NB res Q e l _ rs Q' e' o rs' F1 Ha) as (a & l' & -> & Ac & K1).
        destruct (s_can _ _ _ _ _ _ _ _ _ _ F2 Ac) as [Q1' Ha'].
        destruct (s_forward bs reset NB res' Q1 e _ _ rs Q1' e' o rs' F2 Ha') as (a0 & l0 & Ea & _ & K2). injection Ea as <- <-.
        eexists. split; [econstructor; [exact R|apply NS; exact Ha']|]. repeat (split; [reflexivity|]). exists l'. cbn [n_p n_s].
        pose proof (s_act_digests bs reset NB _ _ _ _ _ _ Ac) as A1. pose proof (s_act_reads _ _ _ _ _ _ Ac) as A2.
        assert (C1 : forall x, a = AXfer false x -> firstn (length x) rs = x).
        { intros x ->. cbn [exp_s] in X. symmetry in X. apply skipn_cons_e in X. destruct X as [X _].
          rewrite A2 in D2. apply prefix_at in D2. apply (Hrd _ _ _ D2 X).
          cbn [s_act] in Ac. unfold raw_read in Ac. destruct (Nat.ltb_spec (length rs) (length x)); [discriminate|]. rewrite firstn_length. lia. }
        assert (C2 : a = AHash -> exists dg', skipn (length (e_digests e)) DL = e_hash e :: dg').
        { intros ->. rewrite A1 in D1. apply prefix_at in D1. cbn [follow] in F1.
          destruct (skipn (length (e_digests e)) DL) as [|h dg'] eqn:Es; [destruct F1|]. apply skipn_cons_e in Es. destruct Es as [Es _].
          exists dg'. f_equal. symmetry. exact (Hdg _ _ _ D1 Es). }
        assert (Sk : skipn (length (e_digests e')) DL = match a with AHash => tl (skipn (length (e_digests e)) DL) | _ => skipn (length (e_digests e)) DL end).
        { rewrite A1. destruct a; rewrite ?app_nil_r; try reflexivity. destruct (C2 eq_refl) as [dg' Es]. rewrite Es. cbn [tl].
          rewrite app_length. cbn [length]. rewrite Nat.add_1_r. apply skipn_cons_e in Es. apply Es. }
        rewrite Sk. split; [exact (K1 C1 C2)|]. split; [exact (K2 C1 C2)|].
        rewrite A2. destruct a as [b|d|[] x| |]; cbn [exp_s] in X; rewrite ?app_nil_r; try exact X.
        symmetry in X. apply skipn_cons_e in X. rewrite app_length. cbn [length]. rewrite Nat.add_1_r. symmetry. apply X.
      + destruct (IH _ Hn1 D1 D2) as ([Q1 e1 W1 r1 sr1 rs1] & R & E1 & E2 & E3 & E4 & E5 & l & F1 & F2 & X).
        cbn [n_s n_v n_r n_sr n_rs n_p] in *. subst.
        eexists. split; [econstructor; [exact R|apply NR; exact Ha]|]. repeat (split; [reflexivity|]). exists l. cbn [n_p n_s]. auto.
  Qed.
End Lock.

Lemma prefix_same {A} (a b c : list A) : prefix a c -> prefix b c -> length a = length b -> a = b.
Proof.
  intros [t E] [t' E'] L. rewrite E in E'. apply (f_equal (firstn (length a))) in E'.
  rewrite firstn_app, Nat.sub_diag, firstn_all in E'. rewrite L, firstn_app, Nat.sub_diag, firstn_all in E'. cbn in E'. now rewrite !app_nil_r in E'.
Qed.
(** the programs differ in the private inputs only *)
Definition gate_like (g g' : gate) : Prop := match g, g' with GIn _, GIn _ => True | _, _ => g = g' end.
Definition bop_like (o o' : bop) : Prop :=
  match o, o' with OGate g, OGate g' => gate_like g g' | OPoly c, OPoly c' => c = c' | _, _ => False end.
Lemma inputs_like prog : forall ins ins', Forall2 bop_like (bwith_inputs ins prog) (bwith_inputs ins' prog).
Proof.
  assert (gr : forall g, gate_like g g) by (intros []; cbn; auto).
  induction prog as [|[g|c] prog IH]; intros ins ins'; cbn [bwith_inputs].
  - constructor.
  - destruct g; try (constructor; [cbn; reflexivity|apply IH]). destruct ins, ins'; (constructor; [cbn; auto|apply IH]).
  - constructor; [reflexivity|apply IH].
Qed.

(** * Two honest runs with the same messages perform the same actions *)
Section Same.
  Variables (r0 r1 : N) (pM pM' : nat -> N) (threads csz psz : nat) (ope ope' : nat -> list N) (rseeds : nat -> N) (G : list N -> nat -> N) (H : list N -> list N).
  Hypothesis Hth : 1 <= threads.
  Hypothesis Hcsz : threads <= csz.
  Hypothesis HH : forall l, length (H l) = 32.
  Hypothesis Hope : forall k, length (ope k) = 128.
  Hypothesis Hope' : forall k, length (ope' k) = 128.
  Hypothesis Hrs : forall k, (rseeds k < 2 ^ 128)%N.
  Variable seeds : nat -> nat -> N.
  Notation bs1 := (bsched r0 r1 pM threads csz psz rseeds ope H seeds).
  Notation bs2 := (bsched r0 r1 pM' threads csz psz rseeds ope' H seeds).
  Notation batch1 := (pp_batch_check rseeds ope).
  Notation batch2 := (pp_batch_check rseeds ope').
  Definition glike (s s' : pst) : Prop := length (p_buf s') = length (p_buf s) /\ length (p_bits s') = length (p_bits s) /\ length (p_msgs s') = length (p_msgs s).
  Definition rlike (s s' : ppst) : Prop := length (pp_buf s') = length (pp_buf s) /\ pp_chk s' = pp_chk s /\ length (pp_msgs s') = length (pp_msgs s).
  Lemma rlike_batch s s' : rlike s s' -> rlike (batch1 s) (batch2 s').
  Proof.
    intros R. pose proof R as (A & B & C). unfold pp_batch_check. destruct (pp_buf s), (pp_buf s'); try discriminate; [exact R|].
    split; [reflexivity|]. cbn [pp_chk pp_msgs]. rewrite !app_length, B, C. auto.
  Qed.
  Lemma rlike_push s s' i j : rlike s s' -> rlike (pp_push s i) (pp_push s' j).
  Proof. intros (A & B & C). unfold rlike, pp_push. cbn. rewrite !app_length, A. auto. Qed.
  Lemma rel_ops_same s s' : rlike s s' -> pp_msgs (batch1 s) = pp_msgs (batch2 s') -> rel_ops rseeds ope s = rel_ops rseeds ope' s'.
  Proof.
    intros (A & B & C) E. unfold rel_ops. rewrite <- E, B. destruct (pp_buf s), (pp_buf s'); try discriminate; reflexivity.
  Qed.
  Lemma isched_like its : forall its' s s', length its' = length its -> rlike s s' ->
    rlike (snd (isched psz rseeds ope its s)) (snd (isched psz rseeds ope' its' s')).
  Proof.
    induction its as [|i its IH]; intros [|i' its'] s s' L R; try discriminate; [exact R|]. cbn [isched]. pose proof R as (A & _). rewrite A.
    destruct (Nat.leb psz (length (pp_buf s))).
    - specialize (IH its' (pp_push (batch1 s) i) (pp_push (batch2 s') i') ltac:(now injection L) ltac:(apply rlike_push, rlike_batch, R)).
      destruct (isched psz rseeds ope its _), (isched psz rseeds ope' its' _). exact IH.
    - apply IH; [now injection L|now apply rlike_push].
  Qed.
  Lemma isched_same its : forall its' s s' M, length its' = length its -> rlike s s' ->
    prefix (pp_msgs (snd (isched psz rseeds ope its s))) M -> prefix (pp_msgs (snd (isched psz rseeds ope' its' s'))) M ->
    fst (isched psz rseeds ope its s) = fst (isched psz rseeds ope' its' s').
  Proof.
    induction its as [|i its IH]; intros [|i' its'] s s' M L R M1 M2; try discriminate; [reflexivity|]. cbn [isched] in *. pose proof R as (A & _). rewrite A in *.
    destruct (Nat.leb psz (length (pp_buf s))).
    - specialize (IH its' (pp_push (batch1 s) i) (pp_push (batch2 s') i') M ltac:(now injection L) ltac:(apply rlike_push, rlike_batch, R)).
      pose proof (isched_prefix psz rseeds ope its (pp_push (batch1 s) i)) as Q1. pose proof (isched_prefix psz rseeds ope' its' (pp_push (batch2 s') i')) as Q2.
      destruct (isched psz rseeds ope its _) as [o1 q1], (isched psz rseeds ope' its' _) as [o2 q2]. cbn [fst snd pp_push pp_msgs] in *. rewrite (IH M1 M2). f_equal.
      apply rel_ops_same; [exact R|]. apply (prefix_same _ _ M).
      + eapply prefix_trans; eassumption.
      + eapply prefix_trans; eassumption.
      + symmetry. apply rlike_batch, R.
    - apply IH with (M := M); auto. now apply rlike_push.
  Qed.
  Lemma chk_ops_same s s' : p_msgs s = p_msgs s' -> chk_ops s = chk_ops s'.
  Proof. intro E. unfold chk_ops. now rewrite E. Qed.
  Lemma bsched_same prog : forall prog' s s' os os' p p', Forall2 bop_like prog prog' -> glike (bp_gates s) (bp_gates s') -> rlike (bp_poly s) (bp_poly s') ->
    bs1 s prog = Some (os, p) -> bs2 s' prog' = Some (os', p') -> bview p = bview p' -> os = os'.
  Proof.
    induction prog as [|o prog IH]; intros prog' s s' os os' p p' Lk Gl Rl E E' V; inversion Lk as [|o1 o2 l1 l2 Lo Lp]; subst; clear Lk.
    - cbn [bsched] in *. assert (Q : pp_msgs (bp_poly p) = pp_msgs (bp_poly p') /\ p_hash (bp_gates p) = p_hash (bp_gates p') /\ p_msgs (bp_gates p) = p_msgs (bp_gates p')).
      { unfold bview, view in V. injection V as _ V1 V2 V3. auto. }
      destruct Q as (Q1 & Q2 & Q3). destruct Gl as (Gb & _). destruct (p_buf (bp_gates s)) as [|b0 bb], (p_buf (bp_gates s')) as [|b0' bb']; try discriminate.
      + apply some2 in E; destruct E as [<- <-]. apply some2 in E'; destruct E' as [<- <-]. cbn [bp_gates bp_poly] in *.
        rewrite (rel_ops_same _ _ Rl Q1). unfold fin_ops. now rewrite Q2.
      + destruct (prv_manage pM threads seeds (bp_gates s)) as [s1|]; [|discriminate]. destruct (prv_manage pM' threads seeds (bp_gates s')) as [s1'|]; [|discriminate].
        apply some2 in E; destruct E as [<- <-]. apply some2 in E'; destruct E' as [<- <-]. cbn [bp_gates bp_poly] in *.
        rewrite (rel_ops_same _ _ Rl Q1), (chk_ops_same _ _ Q3). unfold fin_ops. now rewrite Q2.
    - destruct o as [g|c], o2 as [g'|c']; cbn [bop_like] in Lo; try contradiction.
      + assert (Gs : sends g' = sends g /\ (forall n, full csz g' n = full csz g n) /\ (match g' with GAnd _ _ => 1 | _ => 0 end) = (match g with GAnd _ _ => 1 | _ => 0 end)).
        { destruct g, g'; cbn in Lo; try discriminate Lo; try (injection Lo; intros; subst); repeat split. }
        destruct Gs as (Gs & Gf & Ga). cbn [bsched] in E, E'. pose proof Gl as (Gb & Gi & Gm). rewrite Gf, Gb in E'.
        destruct (full csz g (length (p_buf (bp_gates s)))) eqn:Ef.
        * destruct (prv_manage pM threads seeds (bp_gates s)) as [s1|] eqn:Em; [|discriminate]. destruct (prv_manage pM' threads seeds (bp_gates s')) as [s1'|] eqn:Em'; [|discriminate].
          destruct (prv_step r0 r1 pM threads csz seeds (p_clear s1) g) as [s2|] eqn:Es; [|discriminate].
          destruct (prv_step r0 r1 pM' threads csz seeds (p_clear s1') g') as [s2'|] eqn:Es'; [|discriminate].
          destruct (bs1 {| bp_gates := s2; bp_poly := bp_poly s |} prog) as [[oA pA]|] eqn:E1; [|discriminate]. apply some2 in E; destruct E as [<- <-].
          destruct (bs2 {| bp_gates := s2'; bp_poly := bp_poly s' |} l2) as [[oB pB]|] eqn:E1'; [|discriminate]. apply some2 in E'; destruct E' as [<- <-].
          destruct (manage_facts pM threads seeds _ _ Em) as (_ & B1 & _ & _ & A & M1 & _). destruct (manage_facts pM' threads seeds _ _ Em') as (_ & B1' & _ & _ & A' & M1' & _).
          destruct (step_facts r0 r1 pM pM threads csz G Hth Hcsz seeds (p_clear s1) g s2 (clear_not_full csz s1 g ltac:(lia)) Es) as (_ & M2 & (b & B2) & L2).
          destruct (step_facts r0 r1 pM' pM' threads csz G Hth Hcsz seeds (p_clear s1') g' s2' (clear_not_full csz s1' g' ltac:(lia)) Es') as (_ & M2' & (b' & B2') & L2').
          cbn [p_clear p_msgs p_bits p_buf length] in *.
          destruct (bsched_prefix r0 r1 pM pM threads csz psz ope ope rseeds G H Hth Hcsz HH Hope Hrs seeds prog _ _ _ E1) as (X1 & X2 & _).
          destruct (bsched_prefix r0 r1 pM' pM' threads csz psz ope' ope' rseeds G H Hth Hcsz HH Hope' Hrs seeds l2 _ _ _ E1') as (Y1 & Y2 & _). cbn [bp_gates] in *.
          assert (V' := V). unfold bview, view in V'. injection V' as V1 V2 V3 V4. rewrite <- V1 in Y1. rewrite <- V2 in Y2.
          assert (Lb : length (p_bits s2) = length (p_bits s2')) by (rewrite B2, B2', Gs, B1, B1', !app_length, Gi; destruct (sends g); reflexivity).
          assert (Lm : length (p_msgs s2) = length (p_msgs s2')) by (rewrite M2, M2', M1, M1', !app_length, Gm; reflexivity).
          pose proof (prefix_same _ _ _ X1 Y1 Lb) as Eb. pose proof (prefix_same _ _ _ X2 Y2 Lm) as Emm.
          rewrite (chk_ops_same s1 s1') by congruence.
          assert (Bo : bit_ops g s2 = bit_ops g' s2') by (unfold bit_ops; now rewrite Gs, Eb). rewrite Bo. do 2 f_equal.
          refine (IH l2 _ _ _ _ _ _ Lp _ _ E1 E1' V); cbn [bp_gates bp_poly]; [|exact Rl].
          split; [rewrite L2, L2', Ga; reflexivity|]. split; [now symmetry|now symmetry].
        * destruct (prv_step r0 r1 pM threads csz seeds (bp_gates s) g) as [s2|] eqn:Es; [|discriminate].
          destruct (prv_step r0 r1 pM' threads csz seeds (bp_gates s') g') as [s2'|] eqn:Es'; [|discriminate].
          destruct (bs1 {| bp_gates := s2; bp_poly := bp_poly s |} prog) as [[oA pA]|] eqn:E1; [|discriminate]. apply some2 in E; destruct E as [<- <-].
          destruct (bs2 {| bp_gates := s2'; bp_poly := bp_poly s' |} l2) as [[oB pB]|] eqn:E1'; [|discriminate]. apply some2 in E'; destruct E' as [<- <-].
          destruct (step_facts r0 r1 pM pM threads csz G Hth Hcsz seeds (bp_gates s) g s2 Ef Es) as (_ & M2 & (b & B2) & L2).
          destruct (step_facts r0 r1 pM' pM' threads csz G Hth Hcsz seeds (bp_gates s') g' s2' ltac:(now rewrite Gf, Gb) Es') as (_ & M2' & (b' & B2') & L2').
          destruct (bsched_prefix r0 r1 pM pM threads csz psz ope ope rseeds G H Hth Hcsz HH Hope Hrs seeds prog _ _ _ E1) as (X1 & X2 & _).
          destruct (bsched_prefix r0 r1 pM' pM' threads csz psz ope' ope' rseeds G H Hth Hcsz HH Hope' Hrs seeds l2 _ _ _ E1') as (Y1 & Y2 & _). cbn [bp_gates] in *.
          assert (V' := V). unfold bview, view in V'. injection V' as V1 V2 V3 V4. rewrite <- V1 in Y1. rewrite <- V2 in Y2.
          assert (Lb : length (p_bits s2) = length (p_bits s2')) by (rewrite B2, B2', Gs, !app_length, Gi; destruct (sends g); reflexivity).
          assert (Lm : length (p_msgs s2) = length (p_msgs s2')) by (now rewrite M2, M2', Gm).
          pose proof (prefix_same _ _ _ X1 Y1 Lb) as Eb.
          assert (Bo : bit_ops g s2 = bit_ops g' s2') by (unfold bit_ops; now rewrite Gs, Eb). rewrite Bo. f_equal.
          refine (IH l2 _ _ _ _ _ _ Lp _ _ E1 E1' V); cbn [bp_gates bp_poly]; [|exact Rl].
          split; [rewrite L2, L2', Ga, Gb; reflexivity|]. split; [now symmetry|now symmetry].
      + subst c'. cbn [bsched] in E, E'.
        set (it := prv_items (bcall_map (wire (p_wires (bp_gates s))) c)) in *. set (it' := prv_items (bcall_map (wire (p_wires (bp_gates s'))) c)) in *.
        assert (Li : length it' = length it) by (unfold it, it'; now rewrite !prv_items_len).
        pose proof (isched_like it it' _ _ Li Rl) as RL. pose proof (isched_same it it' (bp_poly s) (bp_poly s') (pp_msgs (bp_poly p)) Li Rl) as Si.
        destruct (isched psz rseeds ope it (bp_poly s)) as [oi q], (isched psz rseeds ope' it' (bp_poly s')) as [oi' q']. cbn [fst snd] in *.
        destruct (bs1 {| bp_gates := bp_gates s; bp_poly := q |} prog) as [[oA pA]|] eqn:E1; [|discriminate]. apply some2 in E; destruct E as [<- <-].
        destruct (bs2 {| bp_gates := bp_gates s'; bp_poly := q' |} l2) as [[oB pB]|] eqn:E1'; [|discriminate]. apply some2 in E'; destruct E' as [<- <-].
        destruct (bsched_prefix r0 r1 pM pM threads csz psz ope ope rseeds G H Hth Hcsz HH Hope Hrs seeds prog _ _ _ E1) as (_ & _ & X3).
        destruct (bsched_prefix r0 r1 pM' pM' threads csz psz ope' ope' rseeds G H Hth Hcsz HH Hope' Hrs seeds l2 _ _ _ E1') as (_ & _ & Y3). cbn [bp_poly] in *.
        assert (V' := V). unfold bview, view in V'. injection V' as V1 V2 V3 V4. rewrite <- V4 in Y3.
        rewrite (Si X3 Y3). f_equal. refine (IH l2 _ _ _ _ _ _ Lp _ _ E1 E1' V); cbn [bp_gates bp_poly]; [exact Gl|exact RL].
  Qed.
End Same.

(** * What the prover reads in an honest run: the seeds, in order *)
Lemma exp_s_app a : forall b, exp_s (a ++ b) = exp_s a ++ exp_s b.
Proof. induction a as [|x a IH]; intro b; [reflexivity|]. destruct x as [|[]|[] y| |]; cbn; now rewrite ?IH. Qed.
Section Up.
  Variables (r0 r1 : N) (pM : nat -> N) (threads csz psz : nat) (ope : nat -> list N) (rseeds : nat -> N) (H : list N -> list N) (seeds : nat -> nat -> N).
  Notation up := (fun a n => map (fun i => RdData (enc_block (rseeds i))) (seq a n)).
  Notation bsched := (bsched r0 r1 pM threads csz psz rseeds ope H seeds).
  Lemma rel_up s : exists n, exp_s (compile (rel_ops rseeds ope s)) = up (pp_chk s) n /\ pp_chk (pp_batch_check rseeds ope s) = pp_chk s + n.
  Proof.
    unfold rel_ops, pp_batch_check. destruct (pp_buf s).
    - exists 0. cbn. auto.
    - exists 1. cbn [pp_chk]. split; [reflexivity|lia].
  Qed.
  Lemma isched_up its : forall s, exists n, exp_s (compile (fst (isched psz rseeds ope its s))) = up (pp_chk s) n /\ pp_chk (snd (isched psz rseeds ope its s)) = pp_chk s + n.
  Proof.
    induction its as [|i its IH]; intro s; cbn [isched]; [exists 0; cbn; auto|]. destruct (Nat.leb psz (length (pp_buf s))).
    - destruct (rel_up s) as (n & A & B). destruct (IH (pp_push (pp_batch_check rseeds ope s) i)) as (m & C & D).
      destruct (isched psz rseeds ope its _) as [os q]. cbn [fst snd pp_push pp_chk] in *. exists (n + m).
      rewrite compile_app, exp_s_app, A, C, D, B, seq_app, map_app. split; [reflexivity|lia].
    - exact (IH (pp_push s i)).
  Qed.
  Lemma bsched_up prog : forall s os p, bsched s prog = Some (os, p) -> exists n, exp_s (compile os) = up (pp_chk (bp_poly s)) n.
  Proof.
    induction prog as [|[g|c] prog IH]; intros s os p E; cbn [BWireProofs.bsched] in E.
    - destruct (rel_up (bp_poly s)) as (n & A & _). exists n. destruct (p_buf (bp_gates s)).
      + apply some2 in E; destruct E as [<- _]. rewrite compile_app, exp_s_app, A. cbn. now rewrite app_nil_r.
      + destruct (prv_manage _ _ _ _); [|discriminate]. apply some2 in E; destruct E as [<- _]. rewrite compile_app, exp_s_app, A. cbn. now rewrite app_nil_r.
    - assert (B : forall s2, exp_s (compile (bit_ops g s2)) = []) by (intro; unfold bit_ops; destruct (sends g); reflexivity).
      destruct (full csz g (length (p_buf (bp_gates s)))).
      + destruct (prv_manage _ _ _ _) as [s1|]; [|discriminate]. destruct (prv_step _ _ _ _ _ _ _ _) as [s2|]; [|discriminate].
        destruct (bsched {| bp_gates := s2; bp_poly := bp_poly s |} prog) as [[oA pA]|] eqn:E1; [|discriminate]. apply some2 in E; destruct E as [<- _].
        destruct (IH _ _ _ E1) as (n & A). exists n. rewrite !compile_app, !exp_s_app, A, B. reflexivity.
      + destruct (prv_step _ _ _ _ _ _ _ _) as [s2|]; [|discriminate].
        destruct (bsched {| bp_gates := s2; bp_poly := bp_poly s |} prog) as [[oA pA]|] eqn:E1; [|discriminate]. apply some2 in E; destruct E as [<- _].
        destruct (IH _ _ _ E1) as (n & A). exists n. rewrite !compile_app, !exp_s_app, A, B. reflexivity.
    - set (its := prv_items _) in *. destruct (isched_up its (bp_poly s)) as (n & A & B). destruct (isched psz rseeds ope its (bp_poly s)) as [oi q]. cbn [fst snd] in *.
      destruct (bsched {| bp_gates := bp_gates s; bp_poly := q |} prog) as [[oA pA]|] eqn:E1; [|discriminate]. apply some2 in E; destruct E as [<- _].
      destruct (IH _ _ _ E1) as (m & C). cbn [bp_poly] in C. exists (n + m). now rewrite compile_app, exp_s_app, A, C, B, seq_app, map_app.
  Qed.
End Up.

Lemma enc_dec_gen l : Forall (fun b => (b < 256)%N) l -> map (fun i => (dec_bytes l / 2 ^ (8 * N.of_nat i)) mod 256)%N (seq 0 (length l)) = l.
Proof.
  induction 1 as [|b l Hb Hl IH]; [reflexivity|]. cbn [length seq map dec_bytes]. f_equal.
  - change (8 * N.of_nat 0)%N with 0%N. rewrite N.pow_0_r, N.div_1_r, N.mul_comm, N.mod_add by discriminate. now apply N.mod_small.
  - rewrite <- seq_shift, map_map. rewrite <- IH at 2. apply map_ext. intro i.
    replace (8 * N.of_nat (S i))%N with (8 + 8 * N.of_nat i)%N by lia. rewrite N.pow_add_r. change (2 ^ 8)%N with 256%N.
    rewrite <- N.div_div by (try apply N.pow_nonzero; discriminate). rewrite N.mul_comm, N.div_add by discriminate.
    rewrite (N.div_small b) by exact Hb. now rewrite N.add_0_l.
Qed.
Lemma enc_dec l : Forall (fun b => (b < 256)%N) l -> length l = 16 -> enc_block (dec_bytes l) = l.
Proof. intros F L. pose proof (enc_dec_gen l F) as E. rewrite L in E. exact E. Qed.
Lemma dec_bound l : Forall (fun b => (b < 256)%N) l -> (dec_bytes l < 2 ^ (8 * N.of_nat (length l)))%N.
Proof.
  induction 1 as [|b l Hb Hl IH]; [reflexivity|]. cbn [dec_bytes length].
  replace (2 ^ (8 * N.of_nat (S (length l))))%N with (256 * 2 ^ (8 * N.of_nat (length l)))%N; [lia|].
  rewrite Nat2N.inj_succ, N.mul_succ_r, N.pow_add_r. change (2 ^ 8)%N with 256%N. lia.
Qed.

Section Main.
  Variables (bs br reset : bool) (NB : nat) (gs gr : list bool) (r0 r1 : N) (key : nat -> N) (rkey : nat -> nat -> N) (d : N) (threads csz psz : nat)
    (G : list N -> nat -> N) (H : list N -> list N) (RV : Type) (V : proc RV) (prog : list bop) (k : nat) (t : ep * proc RV * ep * list N * list N).
  Hypothesis Hkey : valid_keys key.
  Hypothesis Hrkey : valid_rkeys rkey.
  Hypothesis Hd : valid_delta d.
  Hypothesis HH : forall l, length (H l) = 32.
  Hypothesis Hp : 1 <= psz.
  Hypothesis Wf : wf_prog 0 prog = true.
  Hypothesis Hok : session_ok threads csz (gates_of prog).
  Let eF : ep := fst (fst (fst (fst t))).
  Hypothesis HB : Forall (Forall (fun b => (b < 256)%N)) (read_data (e_reads eF)).
  Notation reach := (reaching bs br reset NB gs gr r0 r1 key rkey d threads csz psz G H V prog k t).
  (** the challenges of this situation *)
  Let sd (j : nat) : nat -> N := G (nth j (e_digests eF) []).
  Let rs (j : nat) : N := match nth_error (e_reads eF) j with Some (RdData x) => dec_bytes (firstn 16 x) | _ => 0%N end.
  Let bh := bh r0 r1 key rkey d threads csz psz sd rs prog.
  Lemma rd_bytes j x : nth_error (e_reads eF) j = Some (RdData x) -> Forall (fun b => (b < 256)%N) x.
  Proof.
    intro E. apply nth_error_In in E. revert E HB. clear. induction (e_reads eF) as [|[b|y] l IH]; intros E HB; [destruct E| |].
    - destruct E as [E|E]; [discriminate|]. now apply IH.
    - cbn [read_data] in HB. inversion HB; subst. destruct E as [E|E]; [now injection E as ->|now apply IH].
  Qed.
  Lemma rs_lt j : (rs j < 2 ^ 128)%N.
  Proof.
    unfold rs. destruct (nth_error (e_reads eF) j) as [[b|x]|] eqn:E; try reflexivity. apply rd_bytes in E.
    eapply N.lt_le_trans; [apply dec_bound; rewrite <- (firstn_skipn 16 x) in E; apply Forall_app in E; apply E|].
    apply N.pow_le_mono_r; [discriminate|]. pose proof (firstn_le_length 16 x). lia.
  Qed.
  Lemma bh_defined ins u ru : length u = entropy csz (gates_of prog) -> length ru = rel_entropy psz prog -> exists p, bh ins u ru p.
  Proof.
    intros Lu Lr. exact (bsess_hiding_defined r0 r1 key rkey d threads csz psz (fun k _ _ i => sd k i) (fun k _ _ => rs k) prog Hp Wf Hok ins u ru Lu Lr).
  Qed.
  Lemma reach_transfer ins ins' w : bouts (bwith_inputs ins prog) = bouts (bwith_inputs ins' prog) ->
    all_hold (brels (bwith_inputs ins prog)) = true -> all_hold (brels (bwith_inputs ins' prog)) = true ->
    reach ins w -> exists w', reach ins' w' /\ exists p p', bh ins (fst w) (snd w) p /\ bh ins' (fst w') (snd w') p' /\ bview p = bview p'.
  Proof.
    destruct w as [u ru]. intros Ho Ha Ha' (Lu & Lr & n & Hn & Et). cbn [fst snd] in *.
    destruct (bh_defined ins u ru Lu Lr) as [p Bp].
    destruct (bh_transfer r0 r1 key rkey d threads csz psz sd rs prog Hkey Hrkey Hd Hp Wf Hok ins ins' u ru p Ho Ha Ha' Bp) as (u' & ru' & p' & Bp' & Ev).
    exists (u', ru'). cbn [fst snd]. split; [|exists p, p'; auto]. pose proof Bp as (_ & _ & X). pose proof Bp' as (Lu' & Lr' & X').
    split; [exact Lu'|]. split; [exact Lr'|]. destruct Hok as [[Hth Hcsz] _].
    assert (Ho1 : forall x j, length (omac rkey d x j) = 128) by (intros; unfold omac; now rewrite map_length, seq_length).
    destruct (bsched_run r0 r1 (mac key d u) threads csz psz rs (omac rkey d ru) H Hth Hcsz sd _ _ _ X) as [os S1].
    destruct (bsched_run r0 r1 (mac key d u') threads csz psz rs (omac rkey d ru') H Hth Hcsz sd _ _ _ X') as [os' S2].
    assert (Eo : os = os').
    { refine (bsched_same r0 r1 _ _ threads csz psz _ _ rs G H Hth Hcsz HH (Ho1 ru) (Ho1 ru') rs_lt sd _ _ _ _ _ _ _ _ (inputs_like prog ins ins') _ _ S1 S2 (eq_sym Ev)); repeat split. }
    subst os'.
    set (dl := map (fun j => nth j (e_digests eF) []) (seq 0 (nchal os))).
    assert (Ldl : length dl = nchal os) by (unfold dl; now rewrite map_length, seq_length).
    assert (Nth : forall i h, nth_error dl i = Some h -> h = nth i (e_digests eF) []).
    { intros i h E. assert (Li : i < nchal os) by (rewrite <- Ldl; apply nth_error_Some; now rewrite E).
      unfold dl in E. rewrite (map_nth_error _ i (seq 0 (nchal os)) (d := i)) in E; [now injection E|].
      rewrite (nth_error_nth' _ 0) by (now rewrite seq_length). now rewrite seq_nth by exact Li. }
    assert (Sd : seeds_are G sd 0 dl).
    { intros i h E. cbn. unfold sd. now rewrite (Nth i h E). }
    pose proof (bprv_follow r0 r1 (mac key d u) key threads csz psz (omac rkey d ru) (omac rkey d ru) rs G H Hth Hcsz HH (Ho1 ru) rs_lt sd _ _ _ _ dl S1 Sd Ldl) as F1.
    pose proof (bprv_follow r0 r1 (mac key d u') key threads csz psz (omac rkey d ru') (omac rkey d ru') rs G H Hth Hcsz HH (Ho1 ru') rs_lt sd _ _ _ _ dl S2 Sd Ldl) as F2.
    assert (En : n_s n = eF) by (unfold eF; now rewrite <- Et).
    destruct (lock_run bs br reset NB gs gr _ _ V _ dl _ _ eF F1 F2) with (k := k) (n := n) as (n' & R & E1 & E2 & E3 & E4 & E5 & _).
    - intros i h h' A B. rewrite (Nth i h' B). symmetry. now apply nth_error_nth.
    - intros i x x' A B Lx. rewrite compile_app, exp_s_app in B. cbn [compile flat_map compile1 app exp_s] in B. rewrite app_nil_r in B.
      destruct (bsched_up _ _ _ _ _ _ _ _ _ _ _ _ _ _ S1) as (m & Em). rewrite Em in B. cbn [bp_init bp_poly pp_chk] in B.
      assert (Li : i < m) by (rewrite <- (seq_length m 0), <- (map_length (fun i => RdData (enc_block (rs i)))); apply nth_error_Some; now rewrite B).
      rewrite (map_nth_error _ i (seq 0 m) (d := i)) in B.
      + injection B as <-. rewrite enc_block_len in Lx. unfold rs. rewrite A.
        assert (Fx : firstn 16 x = x) by (rewrite <- Lx; apply firstn_all). rewrite Fx. symmetry. apply enc_dec; [exact (rd_bytes _ _ A)|exact Lx].
      + rewrite (nth_error_nth' _ 0) by (now rewrite seq_length). now rewrite seq_nth by exact Li.
    - exact Hn.
    - rewrite En. apply prefix_refl.
    - rewrite En. apply prefix_refl.
    - exists n'. split; [exact R|]. unfold outside in *. now rewrite E1, E2, E3, E4, E5.
  Qed.
  Lemma reach_one_to_one ins ins' : bouts (bwith_inputs ins prog) = bouts (bwith_inputs ins' prog) ->
    all_hold (brels (bwith_inputs ins prog)) = true -> all_hold (brels (bwith_inputs ins' prog)) = true ->
    exists E, one_to_one (reach ins) (reach ins') E.
  Proof.
    intros Ho Ha Ha'. exists (fun w w' => exists p p', bh ins (fst w) (snd w) p /\ bh ins' (fst w') (snd w') p' /\ bview p = bview p').
    assert (Fn : forall i u ru p q, bh i u ru p -> bh i u ru q -> p = q) by (intros i u ru p q (_ & _ & A) (_ & _ & B); congruence).
    split; [|split; [|split]].
    - intros w Hw. exact (reach_transfer ins ins' w Ho Ha Ha' Hw).
    - intros w Hw. destruct (reach_transfer ins' ins w (eq_sym Ho) Ha' Ha Hw) as (w' & R & p & p' & A & B & C). exists w'. split; [exact R|]. exists p', p. auto.
    - intros [u ru] [u1 ru1] [u2 ru2] (p & p1 & A & B & C) (q & p2 & A' & B' & C'). cbn [fst snd] in *. pose proof (Fn _ _ _ _ _ A A'). subst q.
      destruct (bh_unique r0 r1 key rkey d threads csz psz sd rs prog Hkey Hrkey Hd Hp Wf Hok ins' _ _ _ _ _ _ B B' ltac:(congruence)) as (-> & -> & _). reflexivity.
    - intros [u1 ru1] [u2 ru2] [u ru] (p1 & p & B & A & C) (p2 & q & B' & A' & C'). cbn [fst snd] in *. pose proof (Fn _ _ _ _ _ A A'). subst q.
      destruct (bh_unique r0 r1 key rkey d threads csz psz sd rs prog Hkey Hrkey Hd Hp Wf Hok ins _ _ _ _ _ _ B B' ltac:(congruence)) as (-> & -> & _). reflexivity.
  Qed.
End Main.
