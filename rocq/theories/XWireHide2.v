(** Hiding in a session with both engines on one channel: equal messages give equal lists of actions. *)
From Coq Require Import NArith List Bool Arith Lia.
From Verif Require Import Word WordProofs GF128 GF128Ring FpModel FpProofs ArithModel ArithSpec AHideSpec AHideThms2 BoolModel BoolSpec BoolProofs BoolAlg BoolThms BoolThms2 BoolIOModel BoolIOSpec BoolIOProofs
  BoolIOThms BoolIOThms2 HideSpec HideProofs BoolPolyModel BoolPolySpec BSessModel BSessSpec BSessProofs BSessThms BSessHideSpec BSessHide WireModel WireNet WireProofs
  WireAny BWireModel BWireSpec BWireProofs BWireThms BWireHideSpec BWireHide AWireModel AWireNet AWireProofs XWireModel XWireArith XWireBool XWireThms XWireHideSpec XWireHide.
From Verif Require AWireHide.
Import ListNotations.

Definition xop_like (o o' : xop) : Prop :=
  match o, o' with
  | XB a, XB a' => bop_like a a' | XA a, XA a' => AWireHide.agate_like a a' | XData d x, XData d' x' => d = d' /\ x = x' | XSync, XSync => True | _, _ => False
  end.
Section Same.
  Variables (r0 r1 : N) (pM pM' vK : nat -> N) (threads csz psz : nat) (ope ope' opek : nat -> list N) (rseeds : nat -> N) (G : list N -> nat -> N) (H : list N -> list N).
  Variables (pub_mac : N) (pV pV' : nat -> N) (acsz apsz : nat) (AG : N -> nat -> N) (AH : list N -> list N) (coins : bool -> nat -> N) (seeds : nat -> nat -> N).
  Hypothesis Hth : 1 <= threads.
  Hypothesis Hcsz : threads <= csz.
  Hypothesis HH : forall l, length (H l) = 32.
  Hypothesis Hope : forall k, length (ope k) = 128.
  Hypothesis Hope' : forall k, length (ope' k) = 128.
  Hypothesis Hrs : forall k, (rseeds k < 2 ^ 128)%N.
  Hypothesis Hpsz : 1 <= psz.
  Hypothesis Hacsz : 1 <= acsz.
  Definition bsame (b b' : bprv) : Prop := p_bits (bp_gates b) = p_bits (bp_gates b') /\ p_msgs (bp_gates b) = p_msgs (bp_gates b') /\ pp_msgs (bp_poly b) = pp_msgs (bp_poly b').
  Definition blike (b b' : bprv) : Prop := glike (bp_gates b) (bp_gates b') /\ rlike (bp_poly b) (bp_poly b').
  Definition asame (a a' : apst) : Prop := ap_words a = ap_words a' /\ ap_msgs a = ap_msgs a' /\ ap_pmsgs a = ap_pmsgs a'.
  Definition arlike (a a' : apst) : Prop := AWireHide.alike a a' /\ ap_chk a' = ap_chk a /\ ap_pchk a' = ap_pchk a.
  Lemma bop_same s s' o o' b b' : blike s s' -> bop_like o o' ->
    bp_step r0 r1 pM threads csz psz seeds rseeds ope s o = Some b -> bp_step r0 r1 pM' threads csz psz seeds rseeds ope' s' o' = Some b' ->
    blike b b' /\ (bsame b b' -> bop_ops r0 r1 pM threads csz psz rseeds ope seeds s o = bop_ops r0 r1 pM' threads csz psz rseeds ope' seeds s' o').
  Proof.
    intros [Gl Rl] Lo E E'. destruct o as [g|c], o' as [g'|c']; cbn [bop_like] in Lo; try contradiction.
    - assert (Gs : sends g' = sends g /\ (forall n, full csz g' n = full csz g n) /\ (match g' with GAnd _ _ => 1 | _ => 0 end) = (match g with GAnd _ _ => 1 | _ => 0 end)).
      { destruct g, g'; cbn in Lo; try discriminate Lo; try (injection Lo; intros; subst); repeat split. }
      destruct Gs as (Gs & Gf & Ga). pose proof Gl as (Gb & Gi & Gm). cbn [bp_step bop_ops] in *. rewrite Gf, Gb.
      destruct (full csz g (length (p_buf (bp_gates s)))) eqn:Ef.
      + destruct (prv_manage pM threads seeds (bp_gates s)) as [s1|] eqn:Em.
        2:{ rewrite (step_full_none r0 r1 pM threads csz seeds (bp_gates s) g Ef Em) in E. discriminate. }
        assert (Ef' : full csz g' (length (p_buf (bp_gates s'))) = true) by (now rewrite Gf, Gb).
        destruct (prv_manage pM' threads seeds (bp_gates s')) as [s1'|] eqn:Em'.
        2:{ rewrite (step_full_none r0 r1 pM' threads csz seeds (bp_gates s') g' Ef' Em') in E'. discriminate. }
        rewrite (step_full r0 r1 pM threads csz Hth Hcsz seeds (bp_gates s) g s1 Ef Em) in E. rewrite (step_full r0 r1 pM' threads csz Hth Hcsz seeds (bp_gates s') g' s1' Ef' Em') in E'.
        destruct (prv_step r0 r1 pM threads csz seeds (p_clear s1) g) as [s2|] eqn:Es; [|discriminate].
        destruct (prv_step r0 r1 pM' threads csz seeds (p_clear s1') g') as [s2'|] eqn:Es'; [|discriminate]. injection E as <-. injection E' as <-.
        destruct (manage_facts pM threads seeds _ _ Em) as (_ & B1 & _ & _ & A & M1 & _). destruct (manage_facts pM' threads seeds _ _ Em') as (_ & B1' & _ & _ & A' & M1' & _).
        destruct (step_facts r0 r1 pM pM threads csz G Hth Hcsz seeds (p_clear s1) g s2 (clear_not_full csz s1 g ltac:(lia)) Es) as (_ & M2 & (x & B2) & L2).
        destruct (step_facts r0 r1 pM' pM' threads csz G Hth Hcsz seeds (p_clear s1') g' s2' (clear_not_full csz s1' g' ltac:(lia)) Es') as (_ & M2' & (x' & B2') & L2').
        cbn [p_clear p_msgs p_bits p_buf length] in *.
        split; [split; [|exact Rl]; cbn [bp_gates]; split; [rewrite L2, L2', Ga; reflexivity|]; split; [rewrite B2, B2', Gs, B1, B1', !app_length, Gi; destruct (sends g); reflexivity|
          rewrite M2, M2', M1, M1', !app_length, Gm; reflexivity]|].
        intros (V1 & V2 & _). cbn [bp_gates] in *. rewrite (chk_ops_same s1 s1') by congruence. f_equal. unfold bit_ops. now rewrite Gs, V1.
      + assert (Ef' : full csz g' (length (p_buf (bp_gates s'))) = false) by (now rewrite Gf, Gb).
        destruct (prv_step r0 r1 pM threads csz seeds (bp_gates s) g) as [s2|] eqn:Es; [|discriminate].
        destruct (prv_step r0 r1 pM' threads csz seeds (bp_gates s') g') as [s2'|] eqn:Es'; [|discriminate]. injection E as <-. injection E' as <-.
        destruct (step_facts r0 r1 pM pM threads csz G Hth Hcsz seeds (bp_gates s) g s2 Ef Es) as (_ & M2 & (x & B2) & L2).
        destruct (step_facts r0 r1 pM' pM' threads csz G Hth Hcsz seeds (bp_gates s') g' s2' Ef' Es') as (_ & M2' & (x' & B2') & L2').
        split; [split; [|exact Rl]; cbn [bp_gates]; split; [rewrite L2, L2', Ga, Gb; reflexivity|]; split; [rewrite B2, B2', Gs, !app_length, Gi; destruct (sends g); reflexivity|
          now rewrite M2, M2']|].
        intros (V1 & V2 & _). cbn [bp_gates] in *. unfold bit_ops. now rewrite Gs, V1.
    - subst c'. cbn [bp_step bop_ops] in *. injection E as <-. injection E' as <-. unfold pp_call.
      set (it := prv_items (bcall_map (wire (p_wires (bp_gates s))) c)) in *. set (it' := prv_items (bcall_map (wire (p_wires (bp_gates s'))) c)) in *.
      assert (Li : length it' = length it) by (unfold it, it'; now rewrite !prv_items_len). rewrite <- !isched_fold. unfold blike, bsame. cbn [bp_gates bp_poly].
      split; [split; [exact Gl|]|].
      + apply isched_like; assumption.
      + intros (_ & _ & V3). eapply isched_same; [exact Li|exact Rl|apply prefix_refl|]. rewrite V3. apply prefix_refl.
  Qed.
  Lemma bend_same s s' b b' : blike s s' -> bfinal pM threads rseeds ope seeds s = Some b -> bfinal pM' threads rseeds ope' seeds s' = Some b' -> bview b = bview b' ->
    bend_ops pM threads rseeds ope H seeds s = bend_ops pM' threads rseeds ope' H seeds s'.
  Proof.
    intros [Gl Rl] E E' V. unfold bfinal, prv_final in *. unfold bend_ops. destruct Gl as (Gb & _).
    destruct (p_buf (bp_gates s)) as [|b0 bb], (p_buf (bp_gates s')) as [|b0' bb']; try discriminate.
    - injection E as <-. injection E' as <-. unfold bview, view in V. cbn [bp_gates bp_poly] in V. injection V as _ Q3 Q2 Q1.
      rewrite (rel_ops_same ope ope' rseeds _ _ Rl Q1). unfold fin_ops. now rewrite Q2.
    - destruct (prv_manage pM threads seeds (bp_gates s)) as [s1|]; [|discriminate]. destruct (prv_manage pM' threads seeds (bp_gates s')) as [s1'|]; [|discriminate].
      injection E as <-. injection E' as <-. unfold bview, view in V. cbn [bp_gates bp_poly] in V. injection V as _ Q3 Q2 Q1.
      rewrite (rel_ops_same ope ope' rseeds _ _ Rl Q1), (chk_ops_same _ _ Q3). unfold fin_ops. now rewrite Q2.
  Qed.
  Notation sdA := (fun k : nat => AG (coins false k)).
  Lemma aop_same s s' g g' a a' : arlike s s' -> AWireHide.agate_like g g' ->
    ap_step pub_mac pV threads acsz apsz sdA (coins true) s g = Some a -> ap_step pub_mac pV' threads acsz apsz sdA (coins true) s' g' = Some a' ->
    arlike a a' /\ (asame a a' -> aop_ops threads pub_mac pV acsz apsz AG coins s g = aop_ops threads pub_mac pV' acsz apsz AG coins s' g').
  Proof.
    intros ((A1 & A2 & A3 & A4 & A5) & A6 & A7) Lg E E'.
    assert (Gs : a_sends g' = a_sends g /\ (forall n, a_full acsz g' n = a_full acsz g n) /\ (forall n, a_pfull apsz g' n = a_pfull apsz g n) /\
      AWireHide.g_mul g' = AWireHide.g_mul g /\ AWireHide.g_rel g' = AWireHide.g_rel g).
    { destruct g, g'; cbn in Lg; try discriminate Lg; try (injection Lg; intros; subst); repeat split. }
    destruct Gs as (Gs & Gf & Gp & Gm & Gr). unfold aop_ops. rewrite Gf, Gp, A1, A2.
    destruct (a_full acsz g (length (ap_buf s))) eqn:F1; [|destruct (a_pfull apsz g (length (ap_poly s))) eqn:F2].
    - assert (F1' : a_full acsz g' (length (ap_buf s')) = true) by (now rewrite Gf, A1).
      rewrite (p_full pub_mac pV threads acsz apsz AG coins Hacsz s g F1) in E. rewrite (p_full pub_mac pV' threads acsz apsz AG coins Hacsz s' g' F1') in E'.
      destruct (ap_manage pV threads sdA s) as [a1|] eqn:Em; [|discriminate]. destruct (ap_manage pV' threads sdA s') as [a1'|] eqn:Em'; [|discriminate].
      destruct (man_szs _ _ _ _ _ Em) as (_ & M2 & M3 & M4 & M5 & M6 & M7). destruct (man_szs _ _ _ _ _ Em') as (_ & M2' & M3' & M4' & M5' & M6' & M7').
      destruct (step_sizes pub_mac pV threads acsz apsz _ _ (ap_clear a1) g a (clear_full _ Hacsz _ _) (full_not_p _ _ _ _ _ F1) E) as (S1 & S2 & S3 & S4 & S5 & S6 & S7).
      destruct (step_sizes pub_mac pV' threads acsz apsz _ _ (ap_clear a1') g' a' (clear_full _ Hacsz _ _) (full_not_p _ _ _ _ _ F1') E') as (S1' & S2' & S3' & S4' & S5' & S6' & S7').
      cbn [ap_clear ap_buf ap_poly ap_words ap_msgs ap_pmsgs ap_chk ap_pchk length] in *. rewrite Gm, Gr, Gs in *. rewrite E, E'.
      split; [unfold arlike, AWireHide.alike; repeat split; lia|].
      intros (V1 & V2 & V3). destruct g, g'; try discriminate. cbn [ap_step] in E, E'. unfold ap_precheck in E, E'. cbn [ap_clear ap_buf length] in E, E'.
      destruct (Nat.eqb_spec 0 acsz); [lia|]. unfold a_prv_mul in E, E'. injection E as <-. injection E' as <-. cbn [ap_clear ap_msgs ap_words] in *.
      unfold acheck_ops, word_ops. cbn [ap_words]. now rewrite A6, V1, V2.
    - assert (F1' : a_full acsz g' (length (ap_buf s')) = false) by (now rewrite Gf, A1).
      assert (F2' : a_pfull apsz g' (length (ap_poly s')) = true) by (now rewrite Gp, A2).
      rewrite (p_pfull pub_mac pV threads acsz apsz AG coins s g F2) in E. rewrite (p_pfull pub_mac pV' threads acsz apsz AG coins s' g' F2') in E'.
      pose proof (pfull_ne _ _ _ F2) as Z. pose proof (pfull_ne _ _ _ F2') as Z'.
      assert (Ne : ap_poly s <> []) by (intro X; rewrite X in Z; now cbn in Z). assert (Ne' : ap_poly s' <> []) by (intro X; rewrite X in Z'; now cbn in Z').
      destruct (bat_szs pV (coins true) _ Ne) as (M1 & M2 & M3 & M4 & M5 & M6 & M7). destruct (bat_szs pV' (coins true) _ Ne') as (M1' & M2' & M3' & M4' & M5' & M6' & M7').
      destruct (step_sizes pub_mac pV threads acsz apsz _ _ _ g a ltac:(eapply pfull_not; exact F2) (bat_pfull pV apsz coins s g) E) as (S1 & S2 & S3 & S4 & S5 & S6 & S7).
      destruct (step_sizes pub_mac pV' threads acsz apsz _ _ _ g' a' ltac:(eapply pfull_not; exact F2') (bat_pfull pV' apsz coins s' g') E') as (S1' & S2' & S3' & S4' & S5' & S6' & S7').
      rewrite Gm, Gr, Gs in *. rewrite E, E'. split; [unfold arlike, AWireHide.alike; repeat split; lia|].
      intros (V1 & V2 & V3). unfold word_ops. rewrite Gs, V1. f_equal. unfold abatch_ops. rewrite A7. do 4 f_equal.
      assert (P : forall pv x y, ap_step pub_mac pv threads acsz apsz sdA (coins true) (ap_batch pv (coins true) x) y = None \/
        forall z, ap_step pub_mac pv threads acsz apsz sdA (coins true) (ap_batch pv (coins true) x) y = Some z -> a_pfull apsz y (length (ap_poly x)) = true -> ap_pmsgs z = ap_pmsgs (ap_batch pv (coins true) x)).
      { intros pv x y. right. intros z Ez Fz. assert (Pn : ap_poly (ap_batch pv (coins true) x) = []) by (unfold ap_batch; destruct (ap_poly x) eqn:Q; [exact Q|reflexivity]).
        destruct y; try discriminate; cbn [ap_step] in Ez; injection Ez as <-; unfold ap_queue; rewrite (bat_nil pv coins _ Pn);
          destruct (Nat.leb apsz (length (ap_poly (ap_batch pv (coins true) x)))); reflexivity. }
      destruct (P pV s g) as [X|X]; [congruence|]. destruct (P pV' s' g') as [X'|X']; [congruence|]. rewrite <- (X a E F2), <- (X' a' E' F2'), V3. reflexivity.
    - assert (F1' : a_full acsz g' (length (ap_buf s')) = false) by (now rewrite Gf, A1).
      assert (F2' : a_pfull apsz g' (length (ap_poly s')) = false) by (now rewrite Gp, A2).
      destruct (step_sizes pub_mac pV threads acsz apsz _ _ _ g a F1 F2 E) as (S1 & S2 & S3 & S4 & S5 & S6 & S7).
      destruct (step_sizes pub_mac pV' threads acsz apsz _ _ _ g' a' F1' F2' E') as (S1' & S2' & S3' & S4' & S5' & S6' & S7').
      rewrite Gm, Gr, Gs in *. rewrite E, E'. split; [unfold arlike, AWireHide.alike; repeat split; lia|].
      intros (V1 & _). unfold word_ops. now rewrite Gs, V1.
  Qed.
  Lemma aend_same s s' a a' : arlike s s' -> ap_final pV threads sdA (coins true) s = Some a -> ap_final pV' threads sdA (coins true) s' = Some a' -> aview a = aview a' ->
    aend_ops threads pV AG AH coins s = aend_ops threads pV' AG AH coins s'.
  Proof.
    intros ((A1 & A2 & A3 & A4 & A5) & A6 & A7) E E' V. unfold ap_final in E, E'. cbv zeta in E, E'. unfold aend_ops. cbv zeta.
    unfold aview in V. injection V as V1 V2 V3 V4.
    assert (T : forall t t', length (ap_buf t') = length (ap_buf t) -> ap_chk t' = ap_chk t ->
      match ap_buf t with [] => Some t | _ => ap_manage pV threads sdA t end = Some a -> match ap_buf t' with [] => Some t' | _ => ap_manage pV' threads sdA t' end = Some a' ->
      ap_pmsgs t = ap_pmsgs t' /\
      match ap_buf t with [] => adig_ops AH t | _ => match ap_manage pV threads sdA t with None => [] | Some p2 => acheck_ops coins t p2 ++ adig_ops AH p2 end end =
      match ap_buf t' with [] => adig_ops AH t' | _ => match ap_manage pV' threads sdA t' with None => [] | Some p2 => acheck_ops coins t' p2 ++ adig_ops AH p2 end end).
    { intros t t' B1 B6 Et Et'. assert (PM : ap_pmsgs a = ap_pmsgs t /\ ap_pmsgs a' = ap_pmsgs t').
      { assert (W : forall pv x y, ap_manage pv threads sdA x = Some y -> ap_pmsgs y = ap_pmsgs x) by (intros pv x y Q; unfold ap_manage in Q; destruct (a_ranges threads (length (ap_buf x))); [now injection Q as <-|discriminate]).
        split; [destruct (ap_buf t); [now injection Et as ->|exact (W _ _ _ Et)]|destruct (ap_buf t'); [now injection Et' as ->|exact (W _ _ _ Et')]]. }
      destruct PM as [P1 P2]. split; [congruence|].
      destruct (ap_buf t), (ap_buf t'); try discriminate B1.
      - injection Et as ->. injection Et' as ->. unfold adig_ops. now rewrite V4.
      - rewrite Et, Et'. unfold adig_ops, acheck_ops. now rewrite V4, V2, B6. }
    destruct (ap_poly s) as [|x xs] eqn:Ep, (ap_poly s') as [|x' xs'] eqn:Ep'; try discriminate A2.
    - rewrite (bat_nil pV coins s Ep) in *. rewrite (bat_nil pV' coins s' Ep') in *. cbn [app]. exact (proj2 (T s s' A1 A6 E E')).
    - assert (Ne : ap_poly s <> []) by (rewrite Ep; discriminate). assert (Ne' : ap_poly s' <> []) by (rewrite Ep'; discriminate).
      destruct (bat_szs pV (coins true) _ Ne) as (M1 & _ & _ & _ & _ & M6 & _). destruct (bat_szs pV' (coins true) _ Ne') as (M1' & _ & _ & _ & _ & M6' & _).
      destruct (T (ap_batch pV (coins true) s) (ap_batch pV' (coins true) s') ltac:(lia) ltac:(lia) E E') as [T1 T2]. rewrite T2. f_equal. unfold abatch_ops. now rewrite A7, T1.
  Qed.
  Notation sched := (xsched r0 r1 pM threads csz psz ope rseeds H pub_mac pV acsz apsz AG AH coins seeds).
  Notation sched' := (xsched r0 r1 pM' threads csz psz ope' rseeds H pub_mac pV' acsz apsz AG AH coins seeds).
  Lemma xsched_same prog : forall prog' s s' os os' p p', Forall2 xop_like prog prog' -> blike (xp_b s) (xp_b s') -> arlike (xp_a s) (xp_a s') ->
    sched s prog = Some (os, p) -> sched' s' prog' = Some (os', p') -> bview (xp_b p) = bview (xp_b p') -> aview (xp_a p) = aview (xp_a p') -> os = os'.
  Proof.
    assert (BS : forall pr pr' s s' os os' p p', sched s pr = Some (os, p) -> sched' s' pr' = Some (os', p') -> bview (xp_b p) = bview (xp_b p') -> blike (xp_b s) (xp_b s') -> bsame (xp_b s) (xp_b s')).
    { intros pr pr' s s' os os' p p' E E' V [(G1 & G2 & G3) (R1 & R2 & R3)].
      destruct (@xsched_pre r0 r1 pM vK threads csz psz ope opek rseeds G H pub_mac pV acsz apsz AG AH coins Hth Hcsz HH Hope Hrs seeds _ _ _ _ E) as [(X1 & X2 & X3) _].
      destruct (@xsched_pre r0 r1 pM' vK threads csz psz ope' opek rseeds G H pub_mac pV' acsz apsz AG AH coins Hth Hcsz HH Hope' Hrs seeds _ _ _ _ E') as [(Y1 & Y2 & Y3) _].
      unfold bview, view in V. injection V as V1 V2 V3 V4. rewrite <- V1 in Y1. rewrite <- V2 in Y2. rewrite <- V4 in Y3.
      split; [|split]; [eapply prefix_same; eauto|eapply prefix_same; eauto|eapply prefix_same; eauto]. }
    assert (AS : forall pr pr' s s' os os' p p', sched s pr = Some (os, p) -> sched' s' pr' = Some (os', p') -> aview (xp_a p) = aview (xp_a p') -> arlike (xp_a s) (xp_a s') -> asame (xp_a s) (xp_a s')).
    { intros pr pr' s s' os os' p p' E E' V [Al _].
      destruct (@xsched_pre r0 r1 pM vK threads csz psz ope opek rseeds G H pub_mac pV acsz apsz AG AH coins Hth Hcsz HH Hope Hrs seeds _ _ _ _ E) as [_ X].
      destruct (@xsched_pre r0 r1 pM' vK threads csz psz ope' opek rseeds G H pub_mac pV' acsz apsz AG AH coins Hth Hcsz HH Hope' Hrs seeds _ _ _ _ E') as [_ Y].
      exact (AWireHide.up_same _ _ _ _ X Y V Al). }
    induction prog as [|o prog IH]; intros prog' s s' os os' p p' Lk Bl Al E E' V W; inversion Lk as [|o1 o2 l1 l2 Lo Lp]; subst; clear Lk.
    - cbn [xsched] in *. destruct (bfinal pM threads rseeds ope seeds (xp_b s)) as [b|] eqn:Eb; [|discriminate]. destruct (ap_final pV _ _ _ (xp_a s)) as [a|] eqn:Ea; [|discriminate].
      destruct (bfinal pM' threads rseeds ope' seeds (xp_b s')) as [b'|] eqn:Eb'; [|discriminate]. destruct (ap_final pV' _ _ _ (xp_a s')) as [a'|] eqn:Ea'; [|discriminate].
      apply some2 in E; destruct E as [<- <-]. apply some2 in E'; destruct E' as [<- <-]. cbn [xp_b xp_a] in *.
      now rewrite (bend_same _ _ _ _ Bl Eb Eb' V), (aend_same _ _ _ _ Al Ea Ea' W).
    - destruct o as [o|g|dd x|], o2 as [o'|g'|dd' x'|]; cbn [xop_like] in Lo; try contradiction; cbn [xsched] in E, E'.
      + destruct (bp_step r0 r1 pM threads csz psz seeds rseeds ope (xp_b s) o) as [b|] eqn:Eb; [|discriminate]. destruct (bp_step r0 r1 pM' threads csz psz seeds rseeds ope' (xp_b s') o') as [b'|] eqn:Eb'; [|discriminate].
        destruct (sched _ prog) as [[oA pA]|] eqn:E1; [|discriminate]. destruct (sched' _ l2) as [[oB pB]|] eqn:E1'; [|discriminate].
        apply some2 in E; destruct E as [<- <-]. apply some2 in E'; destruct E' as [<- <-]. destruct (bop_same _ _ _ _ _ _ Bl Lo Eb Eb') as [Bl2 Q].
        rewrite (Q (BS _ _ {| xp_b := b; xp_a := xp_a s; xp_got := xp_got s |} {| xp_b := b'; xp_a := xp_a s'; xp_got := xp_got s' |} _ _ _ _ E1 E1' V Bl2)). f_equal. exact (IH l2 {| xp_b := b; xp_a := xp_a s; xp_got := xp_got s |} {| xp_b := b'; xp_a := xp_a s'; xp_got := xp_got s' |} _ _ _ _ Lp Bl2 Al E1 E1' V W).
      + destruct (ap_step pub_mac pV _ _ _ _ _ (xp_a s) g) as [a|] eqn:Ea; [|discriminate]. destruct (ap_step pub_mac pV' _ _ _ _ _ (xp_a s') g') as [a'|] eqn:Ea'; [|discriminate].
        destruct (sched _ prog) as [[oA pA]|] eqn:E1; [|discriminate]. destruct (sched' _ l2) as [[oB pB]|] eqn:E1'; [|discriminate].
        apply some2 in E; destruct E as [<- <-]. apply some2 in E'; destruct E' as [<- <-]. destruct (aop_same _ _ _ _ _ _ Al Lo Ea Ea') as [Al2 Q].
        rewrite (Q (AS _ _ {| xp_b := xp_b s; xp_a := a; xp_got := xp_got s |} {| xp_b := xp_b s'; xp_a := a'; xp_got := xp_got s' |} _ _ _ _ E1 E1' W Al2)). f_equal. exact (IH l2 {| xp_b := xp_b s; xp_a := a; xp_got := xp_got s |} {| xp_b := xp_b s'; xp_a := a'; xp_got := xp_got s' |} _ _ _ _ Lp Bl Al2 E1 E1' V W).
      + destruct Lo as [<- <-]. destruct (sched _ prog) as [[oA pA]|] eqn:E1; [|discriminate]. destruct (sched' _ l2) as [[oB pB]|] eqn:E1'; [|discriminate].
        apply some2 in E; destruct E as [<- <-]. apply some2 in E'; destruct E' as [<- <-]. f_equal. refine (IH l2 _ _ _ _ _ _ Lp _ _ E1 E1' V W); assumption.
      + destruct (sched _ prog) as [[oA pA]|] eqn:E1; [|discriminate]. destruct (sched' _ l2) as [[oB pB]|] eqn:E1'; [|discriminate].
        apply some2 in E; destruct E as [<- <-]. apply some2 in E'; destruct E' as [<- <-]. f_equal. exact (IH l2 _ _ _ _ _ _ Lp Bl Al E1 E1' V W).
  Qed.
End Same.
