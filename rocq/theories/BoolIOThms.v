(** Interleaved execution of two BoolIO endpoints: safety, absence of deadlock, final state. *)
From Coq Require Import NArith List Bool Arith Lia.
From Verif Require Import Word BoolIOModel BoolIOSpec BoolIOProofs.
Import ListNotations.

Section Thms.
  Variables (bs br reset : bool) (NB : nat).
  Hypothesis HNB : 1 <= NB.
  Notation sqr := (sq_run bs reset NB).
  Notation rrun := (r_run br reset NB).
  Notation step := (kstep bs br reset NB).

  Lemma r_act_frame r a ch x r' o ch' : r_act br reset NB r a ch = Some (r', o, ch') ->
    r_act br reset NB r a (ch ++ x) = Some (r', o, ch' ++ x).
  Proof.
    destruct a as [b|[]|[] b| |]; cbn [r_act].
    - unfold recv_bit. destruct (Nat.eqb (e_ptr r) NB).
      + destruct (recv_bool_raw br NB ch) as [[[bits h] c]|] eqn:E; [|discriminate].
        rewrite (recv_raw_frame _ _ _ _ _ E). cbn [fst snd]. congruence.
      + congruence.
    - congruence.
    - congruence.
    - unfold raw_read. destruct (Nat.ltb_spec (length ch) (length b)) as [|H]; [discriminate|].
      destruct (Nat.ltb_spec (length (ch ++ x)) (length b)) as [X|_]; [rewrite app_length in X; lia|].
      rewrite firstn_app, skipn_app. replace (length b - length ch) with 0 by lia.
      cbn [firstn skipn]. rewrite app_nil_r. congruence.
    - congruence.
    - congruence.
    - congruence.
  Qed.
  Lemma r_run_frame l : forall r ch x r' o ch', rrun r l ch = Some (r', o, ch') ->
    rrun r l (ch ++ x) = Some (r', o, ch' ++ x).
  Proof.
    induction l as [|a l IH]; intros r ch x r' o ch' H; cbn [r_run] in *; [congruence|].
    destruct (r_act br reset NB r a ch) as [[[r1 o1] c1]|] eqn:E; [|discriminate].
    rewrite (r_act_frame _ _ _ x _ _ _ E).
    destruct (rrun r1 l c1) as [[[r2 o2] c2]|] eqn:E2; [|discriminate].
    rewrite (IH _ _ x _ _ _ E2). congruence.
  Qed.
  Lemma r_run_app l1 : forall r l2 ch, rrun r (l1 ++ l2) ch =
    match rrun r l1 ch with
    | None => None
    | Some (r1, o1, c1) => match rrun r1 l2 c1 with None => None | Some (r2, o2, c2) => Some (r2, o1 ++ o2, c2) end
    end.
  Proof.
    induction l1 as [|a l1 IH]; intros r l2 ch; cbn [app r_run].
    - destruct (rrun r l2 ch) as [[[? ?] ?]|]; reflexivity.
    - destruct (r_act br reset NB r a ch) as [[[r1 o1] c1]|]; [|reflexivity]. rewrite IH.
      destruct (rrun r1 l1 c1) as [[[r2 o2] c2]|]; [|reflexivity].
      destruct (rrun r2 l2 c2) as [[[r3 o3] c3]|]; [|reflexivity]. now rewrite app_assoc.
  Qed.
  Lemma r_run_pay l : forall r ch r' o ch', rrun r l ch = Some (r', o, ch') -> o = pay_rs l.
  Proof.
    induction l as [|a l IH]; intros r ch r' o ch' H; cbn [r_run pay_rs] in *; [congruence|].
    destruct (r_act br reset NB r a ch) as [[[r1 o1] c1]|] eqn:E; [|discriminate].
    destruct (rrun r1 l c1) as [[[r2 o2] c2]|] eqn:E2; [|discriminate]. apply IH in E2. subst o2.
    injection H as <- <- <-. destruct a as [b|[]|[] b| |]; cbn [r_act] in E.
    - destruct (recv_bit br NB r ch) as [[[? ?] ?]|]; [|discriminate]. injection E as <- <- <-. reflexivity.
    - injection E as <- <- <-. reflexivity.
    - injection E as <- <- <-. reflexivity.
    - destruct (raw_read r (length b) ch) as [[? ?]|]; [|discriminate]. injection E as <- <- <-. reflexivity.
    - injection E as <- <- <-. reflexivity.
    - injection E as <- <- <-. reflexivity.
    - injection E as <- <- <-. reflexivity.
  Qed.
  Lemma pay_app a : forall b, pay_rs (a ++ b) = pay_rs a ++ pay_rs b.
  Proof.
    induction a as [|x a IH]; intro b; [reflexivity|]. cbn [app].
    destruct x as [|[]|[] c| |]; cbn [pay_rs]; rewrite IH; auto. now rewrite app_assoc.
  Qed.
  Lemma r_act_reads r a ch r' o ch' : r_act br reset NB r a ch = Some (r', o, ch') -> prefix (e_reads r) (e_reads r').
  Proof.
    destruct a as [b|[]|[] b| |]; cbn [r_act].
    - unfold recv_bit. destruct (Nat.eqb (e_ptr r) NB).
      + destruct (recv_bool_raw br NB ch) as [[[bits h] c]|] eqn:E; [|discriminate].
        intro H. injection H as <- _ _. eexists. reflexivity.
      + intro H. injection H as <- _ _. eexists. reflexivity.
    - intro H. injection H as <- _ _. exists []. rewrite app_nil_r. now destruct (Nat.eqb _ _).
    - intro H. injection H as <- _ _. exists []. rewrite app_nil_r. now destruct (Nat.eqb _ _).
    - unfold raw_read. destruct (Nat.ltb (length ch) (length b)); [discriminate|].
      intro H. injection H as <- _ _. eexists. reflexivity.
    - intro H. injection H as <- _ _. exists []. now rewrite app_nil_r.
    - intro H. injection H as <- _ _. exists []. now rewrite app_nil_r.
    - intro H. injection H as <- _ _. exists []. now rewrite app_nil_r.
  Qed.
  Lemma prefix_trans {A} (a b c : list A) : prefix a b -> prefix b c -> prefix a c.
  Proof. intros [x ->] [y ->]. exists (x ++ y). now rewrite app_assoc. Qed.
  Lemma prefix_refl {A} (a : list A) : prefix a a. Proof. exists []. now rewrite app_nil_r. Qed.
  Lemma r_run_reads l : forall r ch r' o ch', rrun r l ch = Some (r', o, ch') -> prefix (e_reads r) (e_reads r').
  Proof.
    induction l as [|a l IH]; intros r ch r' o ch' H; cbn [r_run] in *.
    - injection H as <- _ _. apply prefix_refl.
    - destruct (r_act br reset NB r a ch) as [[[r1 o1] c1]|] eqn:E; [|discriminate].
      destruct (rrun r1 l c1) as [[[r2 o2] c2]|] eqn:E2; [|discriminate]. injection H as <- _ _.
      eapply prefix_trans; [eapply r_act_reads; eauto|eapply IH; eauto].
  Qed.

  (** * Compiled schedules *)
  Lemma wf_app a : forall al b, wf al (a ++ b) = true -> wf al a = true.
  Proof.
    induction a as [|x a IH]; intros al b H; [reflexivity|]. cbn [app] in H.
    destruct x as [|[]|x c| |]; cbn [wf] in *; try (eapply IH; eassumption).
    apply andb_prop in H. destruct H as [-> H]. eapply IH; eassumption.
  Qed.
  Lemma wf_compile os : forall al, wf al (compile os) = true.
  Proof.
    induction os as [|o os IH]; intro al; [reflexivity|]. unfold compile. cbn [flat_map]. fold (compile os).
    destruct o as [b|[] bs'| | |]; cbn [compile1 app wf andb]; auto.
  Qed.
  Lemma wfh_compile os : no_bare_hash os -> forall al, wfh al (compile os) = true.
  Proof.
    induction 1 as [|o os H _ IH]; intro al; [reflexivity|]. unfold compile. cbn [flat_map]. fold (compile os).
    destruct o as [b|[] bs'| | |]; cbn [compile1 app wfh andb]; auto.
  Qed.
  Lemma exp_r_compile os : exp_r (compile os) = to_receiver os.
  Proof.
    induction os as [|o os IH]; [reflexivity|]. unfold compile. cbn [flat_map]. fold (compile os).
    destruct o as [b|[] bs'| | |]; cbn [compile1 app exp_r to_receiver]; now rewrite ?IH.
  Qed.
  Lemma exp_s_compile os : exp_s (compile os) = to_sender os.
  Proof.
    induction os as [|o os IH]; [reflexivity|]. unfold compile. cbn [flat_map]. fold (compile os).
    destruct o as [b|[] bs'| | |]; cbn [compile1 app exp_s to_sender]; now rewrite ?IH.
  Qed.
  Lemma to_receiver_app a b : to_receiver (a ++ b) = to_receiver a ++ to_receiver b.
  Proof. induction a as [|o a IH]; [reflexivity|]. destruct o as [|[]| | |]; cbn; now rewrite IH. Qed.
  Lemma to_sender_app a b : to_sender (a ++ b) = to_sender a ++ to_sender b.
  Proof. induction a as [|o a IH]; [reflexivity|]. destruct o as [|[]| | |]; cbn; now rewrite IH. Qed.

  (** * Invariant of the interleaved execution *)
  Variables (gs gr : list bool) (os : list op).
  Hypothesis Hgs : length gs = NB.
  Notation s0 := (ep_init NB gs true).
  Notation r0 := (ep_init NB gr false).
  Definition L : list act := compile (os ++ [OFlush]).
  Definition KI (c : conf) : Prop :=
    exists dS dR outS, L = dS ++ k_sl c /\ L = dR ++ k_rl c /\
      sqr s0 dS = (k_s c, outS) /\ rrun r0 dR outS = Some (k_r c, pay_rs dR, k_sr c) /\
      pay_rs dR = pay_rs dS ++ k_rs c.
  Lemma app_eq_prefix {A} (a b x y : list A) : a ++ x = b ++ y -> length b <= length a -> exists z, a = b ++ z.
  Proof.
    revert a. induction b as [|u b IH]; intros a E H; [now exists a|].
    destruct a as [|v a]; [cbn in H; lia|]. cbn in E. injection E as <- E.
    destruct (IH a E) as [z ->]; [cbn in H; lia|]. now exists z.
  Qed.
  Lemma s_act_sq e a rs e' o rs' rest : s_act bs reset NB e a rs = Some (e', o, rs') ->
    (forall b, a = AXfer false b -> exists z, rs ++ rest = b ++ z) ->
    sq bs reset NB e a = (e', o) /\ rs = pay_rs [a] ++ rs'.
  Proof.
    intros H X. destruct a as [b|[]|[] b| |]; cbn [s_act sq pay_rs] in *.
    - destruct (send_bit bs NB e b) as [e1 o1]. injection H as <- <- <-. auto.
    - destruct (if Nat.eqb (e_ptr e) 0 then _ else _) as [e1 o1]. injection H as <- <- <-. auto.
    - destruct (if Nat.eqb (e_ptr e) NB then _ else _) as [e1 o1]. injection H as <- <- <-. auto.
    - injection H as <- <- <-. auto.
    - unfold raw_read in H. destruct (Nat.ltb_spec (length rs) (length b)) as [|Hl]; [discriminate|].
      injection H as <- <- <-. destruct (X b eq_refl) as [z E].
      destruct (app_eq_prefix _ _ _ _ E Hl) as [w ->].
      rewrite firstn_app, firstn_all, Nat.sub_diag, firstn_O, !app_nil_r.
      rewrite skipn_app, skipn_all, Nat.sub_diag. auto.
    - destruct (flush_s bs NB e) as [e1 o1]. injection H as <- <- <-. auto.
    - injection H as <- <- <-. auto.
  Qed.
  Lemma KI_init : KI (k_init NB gs gr os).
  Proof. exists [], [], []. repeat split. Qed.
  Lemma KI_step c c' : KI c -> step c c' -> KI c'.
  Proof.
    intros (dS & dR & outS & ES & ER & HS & HR & HP) H.
    destruct H as [e a l r rl sr rs e' o rs' Ha|e sl r a l sr rs r' o sr' Ha]; cbn [k_s k_sl k_r k_rl k_sr k_rs] in *.
    - assert (X : forall b, a = AXfer false b -> exists z, rs ++ pay_rs rl = b ++ z).
      { intros b ->. exists (pay_rs l). apply (app_inv_head (pay_rs dS)).
        rewrite app_assoc, <- HP, <- pay_app, <- ER, ES, pay_app. reflexivity. }
      destruct (s_act_sq _ _ _ _ _ _ _ Ha X) as [Hq Hrs].
      exists (dS ++ [a]), dR, (outS ++ o). cbn [k_s k_sl k_r k_rl k_sr k_rs].
      split; [now rewrite <- app_assoc|]. split; [easy|]. split.
      + rewrite sq_run_app, HS. cbn [sq_run]. rewrite Hq. now rewrite app_nil_r.
      + split; [now apply r_run_frame|]. now rewrite HP, pay_app, <- app_assoc, <- Hrs.
    - exists dS, (dR ++ [a]), outS. cbn [k_s k_sl k_r k_rl k_sr k_rs].
      split; [easy|]. split; [now rewrite <- app_assoc|]. split; [easy|].
      assert (R : rrun r0 (dR ++ [a]) outS = Some (r', pay_rs dR ++ o, sr')).
      { rewrite r_run_app, HR. cbn [r_run]. rewrite Ha. now rewrite app_nil_r. }
      pose proof (r_run_pay _ _ _ _ _ _ R) as P. split; [now rewrite <- P|].
      rewrite <- P, HP, app_assoc. reflexivity.
  Qed.
  Lemma KI_reach c : ksteps bs br reset NB (k_init NB gs gr os) c -> KI c.
  Proof.
    intro H. remember (k_init NB gs gr os) as c0. induction H as [c|c c' c'' H IH Hs].
    - subst. apply KI_init.
    - subst. eapply KI_step; eauto.
  Qed.
  (** a list of scheduled actions leaving the sender aligned is read completely *)
  Lemma sync_from_start l e out hk : wf true l = true -> (hk = true -> wfh true l = true) -> sqr s0 l = (e, out) -> e_ptr e = 0 ->
    exists r', rrun r0 l out = Some (r', pay_rs l, []) /\ e_reads r' = exp_r l /\ e_reads e = exp_s l /\
      (hk = true -> e_hash r' = e_hash e /\ e_digests r' = e_digests e).
  Proof.
    intros W Hh E Z.
    destruct (sync bs br reset NB HNB hk l true s0 r0 e out out W (fun _ => eq_refl) Hh) as (r' & A & B & C & D & F); auto.
    - split; [exact Hgs|]. split; [cbn; lia|]. left. cbn. repeat split; auto.
    - exists r'. auto.
  Qed.
  Lemma sq_run_ok l : forall e, e_ptr e < NB -> length (e_buf e) = NB ->
    e_ptr (fst (sqr e l)) < NB /\ length (e_buf (fst (sqr e l))) = NB.
  Proof.
    induction l as [|a l IH]; intros e H1 H2; [auto|]. cbn [sq_run].
    destruct (sq_ptr bs reset NB HNB e a H1 H2) as [P1 P2]. destruct (sq bs reset NB e a) as [e1 o1]. cbn [fst] in *.
    destruct (IH e1 P1 P2) as [Q1 Q2]. destruct (sqr e1 l). auto.
  Qed.
  Lemma sq_align_end l a e out : is_align a = true -> sqr s0 (l ++ [a]) = (e, out) -> e_ptr e = 0.
  Proof.
    intros Ha E. rewrite sq_run_app in E. pose proof (sq_run_ok l s0 ltac:(cbn; lia) Hgs) as [P1 P2].
    destruct (sqr s0 l) as [e1 o1]. cbn [fst] in *. cbn [sq_run] in E.
    rewrite sq_align in E by (auto; lia).
    destruct (Nat.eq_dec (e_ptr e1) 0) as [Z|Z].
    - rewrite flush_zero in E by auto. injection E as <- _. exact Z.
    - destruct (flush_pos bs NB HNB e1 ltac:(lia) P2) as (blk & Eb & _). rewrite Eb in E. injection E as <- _. reflexivity.
  Qed.
  Lemma L_eq : L = compile os ++ [AFlush].
  Proof. unfold L, compile. now rewrite flat_map_app. Qed.
  Lemma L_final e out : sqr s0 L = (e, out) -> e_ptr e = 0.
  Proof. rewrite L_eq. now apply sq_align_end. Qed.
  Lemma L_wf : wf true L = true. Proof. apply wf_compile. Qed.

  (** every transfer in a compiled schedule is preceded by its alignment *)
  Lemma xfer_after_align os' : forall d fs b l, compile os' = d ++ AXfer fs b :: l -> exists d', d = d' ++ [AAlign fs].
  Proof.
    induction os' as [|o os' IH]; intros d fs b l E; [now destruct d|].
    unfold compile in E. cbn [flat_map] in E. fold (compile os') in E.
    assert (Tail : forall d1 d2, d = d1 ++ d2 -> compile os' = d2 ++ AXfer fs b :: l -> exists d', d = d' ++ [AAlign fs]).
    { intros d1 d2 -> E'. destruct (IH _ _ _ _ E') as [d' ->]. exists (d1 ++ d'). now rewrite app_assoc. }
    destruct o as [x|x y| | |]; cbn [compile1 app] in E.
    - destruct d as [|d0 d]; [discriminate|]. injection E as <- E. now apply (Tail [ABit x] d).
    - destruct d as [|d0 [|d1 d]]; [discriminate| |].
      + injection E as <- <- _ _. now exists [].
      + injection E as <- <- E. now apply (Tail [AAlign x; AXfer x y] d).
    - destruct d as [|d0 d]; [discriminate|]. injection E as <- E. now apply (Tail [AFlush] d).
    - destruct d as [|d0 [|d1 d]]; [discriminate|discriminate|].
      injection E as <- <- E. now apply (Tail [AFlush; AHash] d).
    - destruct d as [|d0 d]; [discriminate|]. injection E as <- E. now apply (Tail [AHash] d).
  Qed.
  Lemma prefix_run l1 l2 r ch x : rrun r (l1 ++ l2) ch = Some x -> exists y, rrun r l1 ch = Some y.
  Proof. rewrite r_run_app. destruct (rrun r l1 ch); [eauto|discriminate]. Qed.

  Theorem no_deadlock c : ksteps bs br reset NB (k_init NB gs gr os) c -> k_done c \/ exists c', step c c'.
  Proof.
    intro H. apply KI_reach in H. destruct H as (dS & dR & outS & ES & ER & HS & HR & HP).
    destruct c as [s sl r rl sr rs]; cbn [k_s k_sl k_r k_rl k_sr k_rs] in *.
    assert (RS : forall a rl' x, rl = a :: rl' -> rrun r0 (dR ++ [a]) outS = Some x ->
       exists c', step {| k_s := s; k_sl := sl; k_r := r; k_rl := rl; k_sr := sr; k_rs := rs |} c').
    { intros a rl' x -> Hx. rewrite r_run_app, HR in Hx. cbn [r_run] in Hx.
      destruct (r_act br reset NB r a sr) as [[[r1 o1] c1]|] eqn:E; [|discriminate].
      eexists. apply KR. exact E. }
    assert (SS : forall a sl', sl = a :: sl' -> s_act bs reset NB s a rs <> None ->
       exists c', step {| k_s := s; k_sl := sl; k_r := r; k_rl := rl; k_sr := sr; k_rs := rs |} c').
    { intros a sl' -> Hx. destruct (s_act bs reset NB s a rs) as [[[e1 o1] c1]|] eqn:E; [|easy].
      eexists. apply KS. exact E. }
    destruct sl as [|a sl].
    - (* sender finished *)
      destruct rl as [|a rl]; [left; now split|right].
      rewrite app_nil_r in ES. subst dS.
      destruct (sync_from_start L s outS false L_wf ltac:(easy) HS (L_final _ _ HS)) as (r' & R & _).
      rewrite ER in R. replace (dR ++ a :: rl) with ((dR ++ [a]) ++ rl) in R by now rewrite <- app_assoc.
      destruct (prefix_run _ _ _ _ _ R) as [y Hy]. eapply RS; eauto.
    - right. destruct a as [b|x|[] b| |].
      + eapply SS; [reflexivity|]. cbn [s_act]. now destruct (send_bit bs NB s b).
      + eapply SS; [reflexivity|]. destruct x; cbn [s_act]; now destruct (if Nat.eqb _ _ then _ else _).
      + eapply SS; [reflexivity|]. easy.
      + (* the sender reads *)
        destruct (le_lt_dec (length b) (length rs)) as [Hl|Hl].
        * eapply SS; [reflexivity|]. cbn [s_act]. unfold raw_read.
          destruct (Nat.ltb_spec (length rs) (length b)); [lia|]. easy.
        * destruct (xfer_after_align (os ++ [OFlush]) dS false b sl ES) as [d' Ed].
          assert (Hz : e_ptr s = 0) by (rewrite Ed in HS; now apply sq_align_end in HS).
          assert (Wd : wf true dS = true) by (apply (wf_app dS true (AXfer false b :: sl)); rewrite <- ES; apply L_wf).
          destruct (sync_from_start dS s outS false Wd ltac:(easy) HS Hz) as (r' & R & _).
          (* the receiver has not passed this point *)
          assert (Hlen : length dR <= length dS).
          { destruct (le_lt_dec (length dR) (length dS)) as [|Hg]; [easy|exfalso].
            assert (X : dR ++ rl = (dS ++ [AXfer false b]) ++ sl) by (rewrite <- ER, ES, <- app_assoc; reflexivity).
            destruct (app_eq_prefix _ _ _ _ X) as [z ->]; [rewrite app_length; cbn; lia|].
            rewrite !pay_app in HP. cbn [pay_rs] in HP. rewrite <- app_assoc, app_nil_r in HP.
            apply app_inv_head in HP. rewrite <- HP, app_length in Hl. lia. }
          assert (X : dS ++ AXfer false b :: sl = dR ++ rl) by congruence.
          destruct (app_eq_prefix _ _ _ _ X Hlen) as [z Ez].
          destruct z as [|a z].
          -- rewrite app_nil_r in Ez. rewrite Ez in X. apply app_inv_head in X. subst rl.
             eexists. eapply KR. reflexivity.
          -- assert (Erl : rl = a :: z ++ AXfer false b :: sl).
             { apply (app_inv_head dR). rewrite <- X, Ez, <- app_assoc. reflexivity. }
             rewrite Ez in R. replace (dR ++ a :: z) with ((dR ++ [a]) ++ z) in R by now rewrite <- app_assoc.
             destruct (prefix_run _ _ _ _ _ R) as [y Hy]. eapply RS; eauto.
      + eapply SS; [reflexivity|]. cbn [s_act]. now destruct (flush_s bs NB s).
      + eapply SS; [reflexivity|]. easy.
  Qed.
  Theorem final_state c : ksteps bs br reset NB (k_init NB gs gr os) c -> k_done c ->
    e_reads (k_r c) = to_receiver os /\ e_reads (k_s c) = to_sender os /\ k_sr c = [] /\ k_rs c = [] /\
    (no_bare_hash os -> e_hash (k_r c) = e_hash (k_s c) /\ e_digests (k_r c) = e_digests (k_s c)).
  Proof.
    intros H [E1 E2]. apply KI_reach in H. destruct H as (dS & dR & outS & ES & ER & HS & HR & HP).
    rewrite E1, app_nil_r in ES. rewrite E2, app_nil_r in ER. subst dS dR.
    destruct (sync_from_start L (k_s c) outS false L_wf ltac:(easy) HS (L_final _ _ HS)) as (r' & R & A & B & _).
    rewrite R in HR. injection HR as -> Hsr. unfold L in A, B. rewrite exp_r_compile in A. rewrite exp_s_compile in B.
    rewrite to_receiver_app in A. rewrite to_sender_app in B. cbn in A, B. rewrite app_nil_r in A, B.
    split; [easy|]. split; [easy|]. split; [easy|]. split.
    - apply (app_inv_head (pay_rs L)). now rewrite <- HP, app_nil_r.
    - intro Hn.
      destruct (sync_from_start L (k_s c) outS true L_wf) as (r'' & R' & _ & _ & C); auto.
      { intros _. apply wfh_compile. apply Forall_app. split; [exact Hn|]. repeat constructor. }
      { now apply (L_final _ _ HS). }
      rewrite R in R'. injection R' as <-. now apply C.
  Qed.
  Theorem reads_prefix c : ksteps bs br reset NB (k_init NB gs gr os) c ->
    prefix (e_reads (k_r c)) (to_receiver os).
  Proof.
    intro H. apply KI_reach in H. destruct H as (dS & dR & outS & ES & ER & HS & HR & HP).
    destruct (sqr s0 L) as [e out] eqn:EL.
    destruct (sync_from_start L e out false L_wf ltac:(easy) EL (L_final _ _ EL)) as (r' & R & A & _).
    unfold L in A. rewrite exp_r_compile, to_receiver_app in A. cbn in A. rewrite app_nil_r in A. rewrite <- A.
    rewrite ES, sq_run_app, HS in EL. destruct (sqr (k_s c) (k_sl c)) as [e2 o2]. injection EL as _ <-.
    rewrite ER, r_run_app, (r_run_frame _ _ _ o2 _ _ _ HR) in R.
    destruct (rrun (k_r c) (k_rl c) (k_sr c ++ o2)) as [[[r2 o3] c3]|] eqn:E3; [|discriminate].
    injection R as <- _ _. eapply r_run_reads; eauto.
  Qed.
  Theorem sender_prefix c : ksteps bs br reset NB (k_init NB gs gr os) c -> prefix (e_reads (k_s c)) (to_sender os).
  Proof.
    intro H. apply KI_reach in H. destruct H as (dS & dR & outS & ES & ER & HS & HR & HP).
    assert (M : forall l e e' o, sqr e l = (e', o) -> e_reads e' = e_reads e ++ exp_s l).
    { clear. induction l as [|a l IH]; intros e e' o E; [injection E as <- _; now rewrite app_nil_r|].
      cbn [sq_run] in E. destruct (sq bs reset NB e a) as [e1 o1] eqn:Ea. destruct (sqr e1 l) as [e2 o2] eqn:E2.
      injection E as <- _. rewrite (IH _ _ _ E2).
      assert (FL : forall f e e' o, flush_loop bs NB f e = (e', o) -> e_reads e' = e_reads e).
      { clear. induction f as [|f IH]; intros e e' o E; cbn [flush_loop] in E; [congruence|].
        destruct (Nat.eqb (e_ptr e) 0); [congruence|]. destruct (send_bit bs NB e true) as [e1 o1] eqn:E1.
        destruct (flush_loop bs NB f e1) as [e2 o2] eqn:E2. injection E as <- _. rewrite (IH _ _ _ E2).
        unfold send_bit in E1. destruct (Nat.eqb _ _); injection E1 as <- _; reflexivity. }
      destruct a as [b|[]|[] b| |]; cbn [sq exp_s] in *.
      - unfold send_bit in Ea. destruct (Nat.eqb _ _); injection Ea as <- _; reflexivity.
      - destruct (Nat.eqb _ _); [injection Ea as <- _; reflexivity|]. now rewrite (FL _ _ _ _ Ea).
      - destruct (Nat.eqb _ _); [injection Ea as <- _; reflexivity|]. now rewrite (FL _ _ _ _ Ea).
      - injection Ea as <- _. reflexivity.
      - injection Ea as <- _. cbn [add_read e_reads]. now rewrite <- app_assoc.
      - now rewrite (FL _ _ _ _ Ea).
      - injection Ea as <- _. reflexivity. }
    rewrite (M _ _ _ _ HS). cbn [ep_init e_reads app].
    assert (X : exp_s (dS ++ k_sl c) = exp_s dS ++ exp_s (k_sl c)).
    { clear. induction dS as [|a l IH]; [reflexivity|]. cbn [app]. destruct a as [|[]|[]| |]; cbn [exp_s]; now rewrite IH. }
    rewrite <- ES in X. unfold L in X. rewrite exp_s_compile, to_sender_app in X. cbn in X. rewrite app_nil_r in X.
    now exists (exp_s (k_sl c)).
  Qed.
  Lemma step_measure c c' : step c c' -> length (k_sl c) + length (k_rl c) = S (length (k_sl c') + length (k_rl c')).
  Proof. destruct 1; cbn; lia. Qed.
  Theorem terminates c : ksteps bs br reset NB (k_init NB gs gr os) c -> exists c', ksteps bs br reset NB c c' /\ k_done c'.
  Proof.
    assert (G : forall n c, length (k_sl c) + length (k_rl c) = n -> ksteps bs br reset NB (k_init NB gs gr os) c ->
      exists c', ksteps bs br reset NB c c' /\ k_done c').
    { induction n as [|n IH]; intros c' Hn Hc.
      - exists c'. split; [constructor|]. split; [destruct (k_sl c')|destruct (k_rl c')]; cbn in Hn; try easy; lia.
      - destruct (no_deadlock c' Hc) as [D|[c2 S]]; [exists c'; split; [constructor|easy]|].
        pose proof (step_measure _ _ S). destruct (IH c2 ltac:(lia)) as (c3 & S3 & D3); [econstructor; eauto|].
        exists c3. split; [|easy]. clear -S S3. induction S3 as [c|c c2' c3 S3 IH Hs].
        + econstructor; [constructor|eauto].
        + econstructor; eauto. }
    intro H. eapply G; eauto.
  Qed.
End Thms.
