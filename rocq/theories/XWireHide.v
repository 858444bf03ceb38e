(** Hiding in a session with both engines on one channel. *)
From Coq Require Import NArith List Bool Arith Lia.
From Verif Require Import Word WordProofs GF128 GF128Ring FpModel FpProofs ArithModel ArithSpec AHideSpec AHideThms2 BoolModel BoolSpec BoolProofs BoolAlg BoolThms BoolThms2 BoolIOModel BoolIOSpec BoolIOProofs
  BoolIOThms BoolIOThms2 HideSpec HideProofs BoolPolyModel BoolPolySpec BSessModel BSessSpec BSessProofs BSessThms BSessHideSpec BSessHide WireModel WireNet WireProofs
  WireAny BWireModel BWireSpec BWireProofs BWireThms BWireHideSpec BWireHide AWireModel AWireNet AWireProofs XWireModel XWireArith XWireBool XWireThms XWireHideSpec.
From Verif Require AWireHide.
Import ListNotations.

(** * What the prover reads in an honest run *)
Fixpoint ucount (r : urole) (l : list urole) : nat := match l with [] => 0 | x :: l' => (if urole_eqb r x then 1 else 0) + ucount r l' end.
Lemma ucount_app r a b : ucount r (a ++ b) = ucount r a + ucount r b.
Proof. induction a as [|x a IH]; [reflexivity|]. cbn [app ucount]. rewrite IH. lia. Qed.
Section Exp.
  Variable ex : urole -> nat -> list N.
  Fixpoint uexp (pre rl : list urole) : list rd :=
    match rl with [] => [] | r :: rl' => RdData (ex r (ucount r pre)) :: uexp (pre ++ [r]) rl' end.
  Lemma uexp_app a : forall pre b, uexp pre (a ++ b) = uexp pre a ++ uexp (pre ++ a) b.
  Proof.
    induction a as [|x a IH]; intros pre b; cbn [app uexp]; [now rewrite app_nil_r|]. rewrite IH, <- app_assoc. reflexivity.
  Qed.
  Lemma uexp_nth rl : forall pre i y, nth_error (uexp pre rl) i = Some y -> exists r, nth_error rl i = Some r /\ y = RdData (ex r (ucount r (pre ++ firstn i rl))).
  Proof.
    induction rl as [|r rl IH]; intros pre [|i] y E; try discriminate; cbn [uexp nth_error firstn] in *.
    - exists r. rewrite app_nil_r. split; [reflexivity|]. now injection E as <-.
    - destruct (IH _ _ _ E) as (r' & A & B). exists r'. split; [exact A|]. rewrite <- app_assoc in B. exact B.
  Qed.
End Exp.
Lemma upick_nth {A} (z : A) rl : forall ds i r x, nth_error rl i = Some r -> nth_error ds i = Some x -> nth (ucount r (firstn i rl)) (upick r rl ds) z = x.
Proof.
  induction rl as [|r' rl IH]; intros [|y ds] [|i] r x E1 E2; try discriminate; cbn [nth_error firstn upick ucount] in *.
  - injection E1 as ->. injection E2 as ->. assert (urole_eqb r r = true) as -> by (now destruct r). reflexivity.
  - destruct (urole_eqb r r'); cbn [Nat.add nth]; now apply IH.
Qed.
Lemma upick_in {A} r rl : forall (ds : list A) x, In x (upick r rl ds) -> In x ds.
Proof.
  induction rl as [|y rl IH]; intros [|z ds] x Hx; cbn [upick] in Hx; try contradiction.
  destruct (urole_eqb r y); [destruct Hx as [->|Hx]; [now left|]|]; right; now apply IH.
Qed.

(** * Sizes along a step of the arithmetic engine *)
Section Sizes.
  Variables (pub_mac : N) (pV : nat -> N) (threads csz psz : nat) (sd : nat -> nat -> N) (ps : nat -> N).
  Notation stp := (ap_step pub_mac pV threads csz psz sd ps).
  Lemma step_sizes s g s2 : a_full csz g (length (ap_buf s)) = false -> a_pfull psz g (length (ap_poly s)) = false -> stp s g = Some s2 ->
    length (ap_buf s2) = AWireHide.g_mul g + length (ap_buf s) /\ length (ap_poly s2) = AWireHide.g_rel g + length (ap_poly s) /\
    length (ap_words s2) = (if a_sends g then 1 else 0) + length (ap_words s) /\ length (ap_msgs s2) = length (ap_msgs s) /\ length (ap_pmsgs s2) = length (ap_pmsgs s) /\
    ap_chk s2 = ap_chk s /\ ap_pchk s2 = ap_pchk s.
  Proof.
    intros F1 F2 E.
    assert (Q : forall t, (Nat.leb psz (length (ap_poly s)) && negb (length (ap_poly s) =? 0))%bool = false ->
      let s' := ap_queue pV psz ps s t in ap_buf s' = ap_buf s /\ ap_poly s' = ap_poly s ++ [t] /\ ap_words s' = ap_words s /\ ap_msgs s' = ap_msgs s /\ ap_pmsgs s' = ap_pmsgs s /\
        ap_chk s' = ap_chk s /\ ap_pchk s' = ap_pchk s).
    { intros t Fx. unfold ap_queue. destruct (Nat.leb psz (length (ap_poly s))); cbn [andb] in Fx; cbv zeta; [|repeat split].
      destruct (ap_poly s) eqn:Ep; [|discriminate]. unfold ap_batch. rewrite Ep. cbn [ap_buf ap_poly ap_words ap_msgs ap_pmsgs ap_chk ap_pchk]. rewrite Ep. repeat split. }
    destruct g; cbn [ap_step a_full a_pfull AWireHide.g_mul AWireHide.g_rel a_sends] in *; unfold a_prv_input, a_prv_mul, ap_precheck in E; rewrite ?F1 in E;
      try (injection E as <-; cbn [ap_buf ap_poly ap_words ap_msgs ap_pmsgs ap_add ap_reveal ap_chk ap_pchk]; rewrite ?app_length; cbn [length]; repeat split; clear; lia).
    - injection E as <-. destruct (Q (poly_prv (awires (ap_w s) xs) (awires (ap_w s) ys) coeff) F2) as (-> & -> & -> & -> & -> & -> & ->). rewrite app_length. cbn [length]. repeat split; clear; lia.
    - injection E as <-. destruct (Q (inner_prv (awires (ap_w s) xs) (awires (ap_w s) ys)) F2) as (-> & -> & -> & -> & -> & -> & ->). rewrite app_length. cbn [length]. repeat split; clear; lia.
  Qed.
  Lemma man_szs s s1 : ap_manage pV threads sd s = Some s1 -> length (ap_buf s1) = length (ap_buf s) /\ length (ap_poly s1) = length (ap_poly s) /\
    length (ap_words s1) = length (ap_words s) /\ length (ap_msgs s1) = S (length (ap_msgs s)) /\ length (ap_pmsgs s1) = length (ap_pmsgs s) /\ ap_chk s1 = S (ap_chk s) /\ ap_pchk s1 = ap_pchk s.
  Proof.
    unfold ap_manage. destruct (a_ranges threads (length (ap_buf s))); [|discriminate]. intro E. injection E as <-.
    cbn [ap_buf ap_poly ap_words ap_msgs ap_pmsgs ap_chk ap_pchk]. rewrite app_length. cbn [length]. repeat split; clear; lia.
  Qed.
  Lemma bat_szs s : ap_poly s <> [] -> let s1 := ap_batch pV ps s in length (ap_buf s1) = length (ap_buf s) /\ length (ap_poly s1) = 0 /\
    length (ap_words s1) = length (ap_words s) /\ length (ap_msgs s1) = length (ap_msgs s) /\ length (ap_pmsgs s1) = S (length (ap_pmsgs s)) /\ ap_chk s1 = ap_chk s /\ ap_pchk s1 = S (ap_pchk s).
  Proof.
    intro Ne. cbv zeta. unfold ap_batch. destruct (ap_poly s); [congruence|]. cbn [ap_buf ap_poly ap_words ap_msgs ap_pmsgs ap_chk ap_pchk]. rewrite app_length. cbn [length]. repeat split; clear; lia.
  Qed.
End Sizes.
Lemma pfull_ne psz g n : a_pfull psz g n = true -> n <> 0.
Proof. intros F ->. destruct g; try discriminate; cbn in F; now rewrite andb_false_r in F. Qed.

Section Up.
  Variables (r0 r1 : N) (pM vK : nat -> N) (threads csz psz : nat) (ope opek : nat -> list N) (rseeds : nat -> N) (G : list N -> nat -> N) (H : list N -> list N).
  Variables (pub_mac : N) (pV : nat -> N) (acsz apsz : nat) (AG : N -> nat -> N) (AH : list N -> list N) (coins : bool -> nat -> N) (seeds : nat -> nat -> N) (D : list (list N)).
  Hypothesis Hth : 1 <= threads.
  Hypothesis Hcsz : threads <= csz.
  Hypothesis Hpsz : 1 <= psz.
  Hypothesis Hacsz : 1 <= acsz.
  Notation sched := (xsched r0 r1 pM threads csz psz ope rseeds H pub_mac pV acsz apsz AG AH coins seeds).
  Definition uex (r : urole) (j : nat) : list N :=
    match r with URel => enc_block (rseeds j) | UMul => enc_block (coins false j) | UPoly => enc64 (mod1 (coins true j)) | UData => nth j D [] end.
  Definition uinv (pre : list urole) (s : xprv) (prog : list xop) : Prop :=
    ucount URel pre = pp_chk (bp_poly (xp_b s)) /\ ucount UMul pre = ap_chk (xp_a s) /\ ucount UPoly pre = ap_pchk (xp_a s) /\
    exists d0, D = d0 ++ data_to true prog /\ ucount UData pre = length d0.
  Notation ur s := (uroles psz acsz apsz (length (pp_buf (bp_poly (xp_b s)))) (length (ap_buf (xp_a s))) (length (ap_poly (xp_a s)))).
  Lemma rel_u pre s : ucount URel pre = pp_chk s -> let l := uif (negb (length (pp_buf s) =? 0)) URel in
    exp_s (compile (rel_ops rseeds ope s)) = uexp uex pre l /\ pp_chk (pp_batch_check rseeds ope s) = pp_chk s + length l.
  Proof.
    intro C. unfold rel_ops, pp_batch_check. destruct (pp_buf s); cbn [length Nat.eqb negb uif uexp uex]; [split; [reflexivity|lia]|].
    cbn [compile flat_map compile1 app exp_s pp_chk]. rewrite C. split; [reflexivity|lia].
  Qed.
  Lemma items_u its : forall pre s, ucount URel pre = pp_chk s -> let l := map (fun _ => URel) (fst (item_roles psz (length its) (length (pp_buf s)))) in
    exp_s (compile (fst (isched psz rseeds ope its s))) = uexp uex pre l /\ pp_chk (snd (isched psz rseeds ope its s)) = pp_chk s + length l /\
    length (pp_buf (snd (isched psz rseeds ope its s))) = snd (item_roles psz (length its) (length (pp_buf s))).
  Proof.
    induction its as [|i its IH]; intros pre s C; cbn [isched length item_roles]; [cbn; split; [reflexivity|split; [lia|reflexivity]]|].
    destruct (Nat.leb_spec psz (length (pp_buf s))) as [L|L].
    - destruct (rel_u pre s C) as [A B]. destruct (Nat.eqb_spec (length (pp_buf s)) 0) as [Z|Z]; [lia|]. cbn [negb uif length] in A, B.
      set (s1 := pp_push (pp_batch_check rseeds ope s) i). assert (P1 : length (pp_buf s1) = 1).
      { unfold s1, pp_batch_check. destruct (pp_buf s); [now cbn in Z|reflexivity]. }
      specialize (IH (pre ++ [URel]) s1). assert (C1 : ucount URel (pre ++ [URel]) = pp_chk s1) by (rewrite ucount_app; cbn [ucount urole_eqb s1 pp_push pp_chk]; unfold s1; cbn [pp_push pp_chk]; lia).
      specialize (IH C1). rewrite P1 in IH. destruct (isched psz rseeds ope its s1) as [os q]. destruct (item_roles psz (length its) 1) as [l q']. cbn [fst snd map length] in *.
      destruct IH as (I1 & I2 & I3). rewrite compile_app, exp_s_app, A, I1. split; [cbn [uexp]; reflexivity|]. split; [|exact I3]. rewrite I2. unfold s1. cbn [pp_push pp_chk]. lia.
    - specialize (IH pre (pp_push s i) C). cbn [pp_push pp_buf pp_chk] in IH. rewrite app_length in IH. cbn [length] in IH. rewrite Nat.add_1_r in IH. exact IH.
  Qed.
  Lemma xsched_up prog : forall s os p pre, sched s prog = Some (os, p) -> uinv pre s prog -> exp_s (compile os) = uexp uex pre (ur s prog).
  Proof.
    induction prog as [|[o|g|dd x|] prog IH]; intros s os p pre E (C1 & C2 & C3 & d0 & C4 & C5); cbn [xsched] in E.
    - destruct (bfinal pM threads rseeds ope seeds (xp_b s)) as [b|] eqn:Eb; [|discriminate]. destruct (ap_final _ _ _ _ (xp_a s)) as [a|] eqn:Ea; [|discriminate].
      apply some2 in E. destruct E as [<- _]. cbn [uroles]. rewrite compile_app, exp_s_app, !uexp_app. f_equal; [|].
      + unfold bend_ops. rewrite compile_app, exp_s_app. destruct (rel_u pre _ C1) as [A _]. rewrite A.
        destruct (p_buf (bp_gates (xp_b s))); [|destruct (prv_manage _ _ _ _)]; cbn; now rewrite app_nil_r.
      + set (l1 := uif (negb (length (pp_buf (bp_poly (xp_b s))) =? 0)) URel). unfold aend_ops. cbv zeta. rewrite compile_app, exp_s_app.
        assert (K2 : ucount UMul (pre ++ l1) = ap_chk (xp_a s) /\ ucount UPoly (pre ++ l1) = ap_pchk (xp_a s)).
        { rewrite !ucount_app. unfold l1. destruct (negb _); cbn; lia. }
        destruct K2 as [K2 K3]. destruct (ap_poly (xp_a s)) eqn:Ep.
        * rewrite (bat_nil pV coins (xp_a s) Ep). cbn [length Nat.eqb negb uif uexp app compile flat_map exp_s]. rewrite app_nil_r.
          unfold ap_final in Ea. cbv zeta in Ea. rewrite (bat_nil pV coins (xp_a s) Ep) in Ea.
          destruct (ap_buf (xp_a s)) eqn:Em; [reflexivity|]. rewrite Ea. cbn. unfold uex. now rewrite K2.
        * assert (Ne : ap_poly (xp_a s) <> []) by (rewrite Ep; discriminate). destruct (bat_szs pV (coins true) _ Ne) as (B1 & B2 & _ & _ & _ & B3 & _).
          unfold ap_final in Ea. cbv zeta in Ea. rewrite <- B1. cbn [length Nat.eqb negb uif uexp].
          f_equal; [cbn; unfold uex; now rewrite K3|].
          destruct (ap_buf (ap_batch pV (coins true) (xp_a s))) eqn:Em; [reflexivity|]. rewrite Ea.
          cbn [length Nat.eqb negb uif uexp]. cbn. rewrite ucount_app. cbn [ucount urole_eqb]. rewrite K2, Nat.add_0_r, B3. reflexivity.
    - destruct (bp_step r0 r1 pM threads csz psz seeds rseeds ope (xp_b s) o) as [b|] eqn:Eb; [|discriminate].
      destruct (sched _ prog) as [[os1 p1]|] eqn:E1; [|discriminate]. apply some2 in E. destruct E as [<- _]. rewrite compile_app, exp_s_app. destruct o as [g|c]; cbn [bp_step] in Eb.
      + destruct (prv_step _ _ _ _ _ _ _ _) as [gg|] eqn:Es; [|discriminate]. injection Eb as <-.
        cbn [uroles]. rewrite (IH _ _ _ pre E1) by (split; [exact C1|]; split; [exact C2|]; split; [exact C3|]; eauto). cbn [xp_b xp_a bp_poly].
        assert (B : forall s2, exp_s (compile (bit_ops g s2)) = []) by (intro; unfold bit_ops; destruct (sends g); reflexivity).
        assert (Z : exp_s (compile (bop_ops r0 r1 pM threads csz psz rseeds ope seeds (xp_b s) (OGate g))) = []).
        { unfold bop_ops. destruct (full csz g _); [destruct (prv_manage _ _ _ _) as [s1|]; [|reflexivity]; rewrite compile_app, exp_s_app; destruct (prv_step _ _ _ _ _ _ (p_clear s1) g); cbn; auto|].
          destruct (prv_step _ _ _ _ _ _ (bp_gates (xp_b s)) g); cbn; auto. }
        now rewrite Z.
      + injection Eb as <-. cbn [uroles bop_ops]. set (its := prv_items _) in *.
        assert (Ln : length its = nrel c) by (unfold its; apply prv_items_len). destruct (items_u its pre _ C1) as (A1 & A2 & A3). rewrite Ln in *.
        unfold pp_call in E1. fold its in E1. rewrite <- isched_fold in E1.
        destruct (item_roles psz (nrel c) (length (pp_buf (bp_poly (xp_b s))))) as [l q']. cbn [fst snd] in *. rewrite uexp_app, A1. f_equal.
        rewrite (IH _ _ _ (pre ++ map (fun _ => URel) l) E1).
        * cbn [xp_b xp_a bp_poly]. now rewrite A3.
        * assert (Cn : forall r, ucount r (map (fun _ => URel) l) = if urole_eqb r URel then length l else 0).
          { intro r. clear. induction l as [|x l IH]; [now destruct r|]. cbn [map ucount length]. rewrite IH. now destruct r. }
          unfold uinv. cbn [xp_b xp_a bp_poly]. rewrite !ucount_app, !Cn. cbn [urole_eqb]. rewrite A2, map_length.
          split; [lia|]. split; [lia|]. split; [lia|]. exists d0. split; [exact C4|lia].
    - destruct (ap_step _ _ _ _ _ _ _ (xp_a s) g) as [a|] eqn:Ea; [|discriminate].
      destruct (sched _ prog) as [[os1 p1]|] eqn:E1; [|discriminate]. apply some2 in E. destruct E as [<- _]. rewrite compile_app, exp_s_app.
      assert (W : forall q, exp_s (compile (word_ops g q)) = []) by (intro; unfold word_ops; destruct (a_sends g); reflexivity).
      unfold aop_ops. destruct (a_full acsz g (length (ap_buf (xp_a s)))) eqn:F1; [|destruct (a_pfull apsz g (length (ap_poly (xp_a s)))) eqn:F2].
      + rewrite (p_full pub_mac pV threads acsz apsz AG coins Hacsz (xp_a s) g F1) in Ea. destruct (ap_manage _ _ _ (xp_a s)) as [a1|] eqn:Em; [|discriminate].
        destruct (man_szs _ _ _ _ _ Em) as (_ & M2 & _ & _ & _ & M6 & M7).
        destruct (step_sizes pub_mac pV threads acsz apsz _ _ (ap_clear a1) g a (clear_full _ Hacsz _ _) (full_not_p _ _ _ _ _ F1) Ea) as (S1 & S2 & _ & _ & _ & S6 & S7).
        rewrite Ea. destruct g; try discriminate. cbn [a_full] in F1. cbn [uroles]. rewrite F1. rewrite compile_app, exp_s_app, W. cbn. rewrite C2. f_equal.
        cbn [ap_clear ap_buf ap_poly ap_chk ap_pchk length AWireHide.g_mul AWireHide.g_rel Nat.add] in *.
        rewrite (IH _ _ _ (pre ++ [UMul]) E1).
        * cbn [xp_b xp_a]. now rewrite S1, S2, M2.
        * unfold uinv. cbn [xp_b xp_a]. rewrite !ucount_app. cbn [ucount urole_eqb]. split; [lia|]. split; [lia|]. split; [lia|]. exists d0. split; [exact C4|lia].
      + rewrite (p_pfull pub_mac pV threads acsz apsz AG coins (xp_a s) g F2) in Ea. pose proof (pfull_ne _ _ _ F2) as Z.
        assert (Ne : ap_poly (xp_a s) <> []) by (intro X; rewrite X in Z; now cbn in Z). destruct (bat_szs pV (coins true) _ Ne) as (M1 & M2 & _ & _ & _ & M6 & M7).
        destruct (step_sizes pub_mac pV threads acsz apsz _ _ _ g a ltac:(eapply pfull_not; exact F2) (bat_pfull pV apsz coins (xp_a s) g) Ea) as (S1 & S2 & _ & _ & _ & S6 & S7).
        rewrite Ea. rewrite compile_app, exp_s_app, W. rewrite app_nil_r.
        assert (U : uroles psz acsz apsz (length (pp_buf (bp_poly (xp_b s)))) (length (ap_buf (xp_a s))) (length (ap_poly (xp_a s))) (XA g :: prog) =
          UPoly :: uroles psz acsz apsz (length (pp_buf (bp_poly (xp_b s)))) (length (ap_buf a)) (length (ap_poly a)) prog).
        { destruct g; try discriminate; cbn [a_pfull] in F2; cbn [uroles]; rewrite F2, S1, S2, M1, M2; reflexivity. }
        rewrite U. cbn. rewrite C3. f_equal. rewrite (IH _ _ _ (pre ++ [UPoly]) E1); [reflexivity|].
        unfold uinv. cbn [xp_b xp_a]. rewrite !ucount_app. cbn [ucount urole_eqb]. split; [lia|]. split; [lia|]. split; [lia|]. exists d0. split; [exact C4|lia].
      + rewrite Ea, W. destruct (step_sizes pub_mac pV threads acsz apsz _ _ _ g a F1 F2 Ea) as (S1 & S2 & _ & _ & _ & S6 & S7).
        assert (U : uroles psz acsz apsz (length (pp_buf (bp_poly (xp_b s)))) (length (ap_buf (xp_a s))) (length (ap_poly (xp_a s))) (XA g :: prog) =
          uroles psz acsz apsz (length (pp_buf (bp_poly (xp_b s)))) (length (ap_buf a)) (length (ap_poly a)) prog).
        { destruct g; cbn [a_full a_pfull] in F1, F2; cbn [uroles]; rewrite ?F1, ?F2, S1, S2; reflexivity. }
        rewrite U. cbn [app]. rewrite (IH _ _ _ pre E1); [reflexivity|]. unfold uinv. cbn [xp_b xp_a]. split; [lia|]. split; [lia|]. split; [lia|]. eauto.
    - destruct (sched _ prog) as [[os1 p1]|] eqn:E1; [|discriminate]. apply some2 in E. destruct E as [<- _]. rewrite compile_app, exp_s_app. destruct dd; cbn [uroles].
      + rewrite (IH _ _ _ pre E1); [reflexivity|]. split; [exact C1|]. split; [exact C2|]. split; [exact C3|]. exists d0. split; [exact C4|exact C5].
      + cbn [data_to Bool.eqb negb] in C4. rewrite (IH _ _ _ (pre ++ [UData]) E1).
        * cbn. rewrite C5, C4, app_nth2, Nat.sub_diag by lia. reflexivity.
        * unfold uinv. cbn [xp_b xp_a]. rewrite !ucount_app. cbn [ucount urole_eqb]. split; [lia|]. split; [lia|]. split; [lia|]. exists (d0 ++ [x]).
          split; [rewrite <- app_assoc; exact C4|]. rewrite app_length. cbn [length]. lia.
    - destruct (sched s prog) as [[os1 p1]|] eqn:E1; [|discriminate]. apply some2 in E. destruct E as [<- _]. cbn [uroles]. rewrite compile_app, exp_s_app.
      rewrite (IH _ _ _ pre E1); [reflexivity|]. split; [exact C1|]. split; [exact C2|]. split; [exact C3|]. eauto.
  Qed.
End Up.
