(** Two programs that follow a common schedule: every interleaving of them is an interleaving of the schedule. *)
From Coq Require Import NArith List Bool Arith Lia.
From Verif Require Import Word BoolIOModel BoolIOSpec BoolIOProofs BoolIOThms WireModel.
Import ListNotations.

(** program [P] performs exactly the actions [l], ending with [res], when its reads deliver the scheduled data and its
    hashes the entries of [dg]; [snd]: it runs on the sending endpoint *)
Fixpoint follow {R : Type} (snd : bool) (P : proc R) (l : list act) (dg : list (list N)) (res : R) : Prop :=
  match l with
  | [] => P = PDone res
  | ABit b :: l' => if snd then exists k, P = PBit b k /\ follow snd k l' dg res
                    else exists k, P = PGetBit k /\ follow snd (k b) l' dg res
  | AAlign d :: l' => exists k, P = PAlign d k /\ follow snd k l' dg res
  | AXfer d x :: l' => if Bool.eqb d snd then exists k, P = PPut x k /\ follow snd k l' dg res
                       else exists k, P = PGet (length x) k /\ follow snd (k x) l' dg res
  | AFlush :: l' => exists k, P = PFlush k /\ follow snd k l' dg res
  | AHash :: l' => match dg with [] => False | h :: dg' => exists k, P = PHash k /\ follow snd (k h) l' dg' res end
  end.

Section Sim.
  Variables (bs br reset : bool) (NB : nat).
  Hypothesis HNB : 1 <= NB.
  Variables (gs gr : list bool) (os : list op).
  Hypothesis Hgs : length gs = NB.
  Hypothesis Hos : no_bare_hash os.
  Notation c0 := (k_init NB gs gr os).
  Notation step := (kstep bs br reset NB).
  Notation steps := (ksteps bs br reset NB).
  (** the hash inputs of the whole schedule *)
  Definition dgs : list (list N) := e_digests (fst (sq_run bs reset NB (ep_init NB gs true) (compile (os ++ [OFlush])))).

  Lemma s_act_digests e a ch e' o ch' : s_act bs reset NB e a ch = Some (e', o, ch') ->
    e_digests e' = e_digests e ++ match a with AHash => [e_hash e] | _ => [] end.
  Proof.
    assert (SB : forall e b, e_digests (fst (send_bit bs NB e b)) = e_digests e)
      by (intros; unfold send_bit; destruct (Nat.eqb _ _); reflexivity).
    assert (FL : forall n e, e_digests (fst (flush_loop bs NB n e)) = e_digests e).
    { induction n as [|n IH]; intro x; [reflexivity|]. cbn [flush_loop]. destruct (Nat.eqb (e_ptr x) 0); [reflexivity|].
      pose proof (SB x true) as Q. destruct (send_bit bs NB x true) as [x1 o1]. pose proof (IH x1) as Q1.
      destruct (flush_loop bs NB n x1) as [x2 o2]. cbn [fst] in *. congruence. }
    assert (FS : forall e, e_digests (fst (flush_s bs NB e)) = e_digests e) by (intros; apply FL).
    destruct a as [b|[]|[] x| |]; cbn [s_act].
    - pose proof (SB e b) as Q. destruct (send_bit bs NB e b) as [e1 o1]. intro X. injection X as <- _ _. rewrite app_nil_r. exact Q.
    - pose proof (FS e) as Q. destruct (Nat.eqb (e_ptr e) 0); [|destruct (flush_s bs NB e) as [e1 o1]]; intro X; injection X as <- _ _; rewrite app_nil_r; auto.
    - pose proof (FS e) as Q. destruct (Nat.eqb (e_ptr e) NB); [|destruct (flush_s bs NB e) as [e1 o1]]; intro X; injection X as <- _ _; rewrite app_nil_r; auto.
    - intro X. injection X as <- _ _. now rewrite app_nil_r.
    - unfold raw_read. destruct (Nat.ltb _ _); [discriminate|]. intro X. injection X as <- _ _. now rewrite app_nil_r.
    - pose proof (FS e) as Q. destruct (flush_s bs NB e) as [e1 o1]. intro X. injection X as <- _ _. rewrite app_nil_r. exact Q.
    - intro X. injection X as <- _ _. reflexivity.
  Qed.
  Lemma r_act_digests e a ch e' o ch' : r_act br reset NB e a ch = Some (e', o, ch') ->
    e_digests e' = e_digests e ++ match a with AHash => [e_hash e] | _ => [] end.
  Proof.
    destruct a as [b|[]|[] x| |]; cbn [r_act].
    - unfold recv_bit. destruct (Nat.eqb (e_ptr e) NB).
      + destruct (recv_bool_raw br NB ch) as [[[bits h] c]|]; [|discriminate]. intro X. injection X as <- _ _. now rewrite app_nil_r.
      + intro X. injection X as <- _ _. now rewrite app_nil_r.
    - destruct (Nat.eqb (e_ptr e) NB); intro X; injection X as <- _ _; now rewrite app_nil_r.
    - destruct (Nat.eqb (e_ptr e) 0); intro X; injection X as <- _ _; now rewrite app_nil_r.
    - unfold raw_read. destruct (Nat.ltb _ _); [discriminate|]. intro X. injection X as <- _ _. now rewrite app_nil_r.
    - intro X. injection X as <- _ _. now rewrite app_nil_r.
    - intro X. injection X as <- _ _. now rewrite app_nil_r.
    - intro X. injection X as <- _ _. reflexivity.
  Qed.
  Lemma step_digests c c' : step c c' -> prefix (e_digests (k_s c)) (e_digests (k_s c')) /\ prefix (e_digests (k_r c)) (e_digests (k_r c')).
  Proof.
    destruct 1 as [e a l r rl sr rs e' o rs' Ha|e sl r a l sr rs r' o sr' Ha]; cbn [k_s k_r].
    - apply s_act_digests in Ha. split; [eexists; exact Ha|apply prefix_refl].
    - apply r_act_digests in Ha. split; [apply prefix_refl|eexists; exact Ha].
  Qed.
  Lemma steps_digests c c' : steps c c' -> prefix (e_digests (k_s c)) (e_digests (k_s c')) /\ prefix (e_digests (k_r c)) (e_digests (k_r c')).
  Proof.
    induction 1 as [c|c c' c'' _ [A B] Hs]; [split; apply prefix_refl|].
    destruct (step_digests _ _ Hs) as [A' B']. split; eapply prefix_trans; eassumption.
  Qed.
  Lemma steps_trans a b c : steps a b -> steps b c -> steps a c.
  Proof. intros H1 H2. revert H1. induction H2; intros; [assumption|]. econstructor; [apply IHksteps; assumption|eassumption]. Qed.
  Lemma digests_prefix c : steps c0 c -> prefix (e_digests (k_s c)) dgs /\ prefix (e_digests (k_r c)) dgs.
  Proof.
    intro H. destruct (terminates bs br reset NB HNB gs gr os Hgs c H) as (c' & H1 & H2).
    pose proof (steps_trans _ _ _ H H1) as H3. destruct (steps_digests _ _ H1) as [A B].
    destruct (final_state bs br reset NB HNB gs gr os Hgs c' H3 H2) as (_ & _ & _ & _ & F). destruct (F Hos) as [_ F2].
    assert (E : e_digests (k_s c') = dgs).
    { destruct H2 as [E1 _]. apply (KI_reach bs br reset NB HNB gs gr os Hgs) in H3.
      destruct H3 as (dS & dR & outS & ES & _ & HS & _). rewrite E1, app_nil_r in ES. unfold dgs.
      unfold L in ES. rewrite ES, HS. reflexivity. }
    rewrite F2 in B. rewrite E in A, B. now split.
  Qed.
  Lemma prefix_next {A} (a b : list A) x : prefix (a ++ [x]) b -> skipn (length a) b = x :: skipn (length (a ++ [x])) b.
  Proof.
    intros [y ->]. rewrite app_length. cbn [length]. rewrite <- app_assoc.
    rewrite skipn_app, skipn_all, Nat.sub_diag. cbn [app skipn].
    rewrite skipn_app, skipn_all2 by lia. cbn [app]. now replace (length a + 1 - length a) with 1 by lia.
  Qed.
  (** number of reads of the receiver *)
  Lemma r_act_one r a ch r' o ch' : r_act br reset NB r a ch = Some (r', o, ch') ->
    length (e_reads r') = length (e_reads r) + length (exp_r [a]).
  Proof.
    destruct a as [b|[]|[] x| |]; cbn [r_act exp_r length].
    - unfold recv_bit. destruct (Nat.eqb (e_ptr r) NB).
      + destruct (recv_bool_raw br NB ch) as [[[bits h] c]|]; [|discriminate]. intro X. injection X as <- _ _. cbn. rewrite app_length. reflexivity.
      + intro X. injection X as <- _ _. cbn. rewrite app_length. reflexivity.
    - destruct (Nat.eqb (e_ptr r) NB); intro X; injection X as <- _ _; cbn; lia.
    - destruct (Nat.eqb (e_ptr r) 0); intro X; injection X as <- _ _; cbn; lia.
    - unfold raw_read. destruct (Nat.ltb _ _); [discriminate|]. intro X. injection X as <- _ _. cbn. rewrite app_length. reflexivity.
    - intro X. injection X as <- _ _. lia.
    - intro X. injection X as <- _ _. cbn. lia.
    - intro X. injection X as <- _ _. cbn. lia.
  Qed.
  Lemma exp_r_cons a l : exp_r (a :: l) = exp_r [a] ++ exp_r l.
  Proof. destruct a as [b|[]|[] x| |]; reflexivity. Qed.
  Lemma exp_r_app a : forall b, exp_r (a ++ b) = exp_r a ++ exp_r b.
  Proof. induction a as [|x a IH]; intro b; [reflexivity|]. cbn [app]. rewrite exp_r_cons, (exp_r_cons x a), IH. apply app_assoc. Qed.
  Lemma r_run_count l : forall r ch r' o ch', r_run br reset NB r l ch = Some (r', o, ch') ->
    length (e_reads r') = length (e_reads r) + length (exp_r l).
  Proof.
    induction l as [|a l IH]; intros r ch r' o ch' H; cbn [r_run] in H; [injection H as <- _ _; cbn; lia|].
    destruct (r_act br reset NB r a ch) as [[[r1 o1] c1]|] eqn:E; [|discriminate].
    destruct (r_run br reset NB r1 l c1) as [[[r2 o2] c2]|] eqn:E2; [|discriminate]. injection H as <- _ _.
    apply r_act_one in E. apply IH in E2. rewrite exp_r_cons, app_length. lia.
  Qed.
  (** the value a receiver's read returns is the scheduled one *)
  Lemma read_value c a l r' o ch' x y : steps c0 c -> k_rl c = a :: l -> exp_r [a] = [y] ->
    r_act br reset NB (k_r c) a (k_sr c) = Some (r', o, ch') -> e_reads r' = e_reads (k_r c) ++ [x] -> x = y.
  Proof.
    intros H E1 E2 Ha Er.
    assert (H' : steps c0 {| k_s := k_s c; k_sl := k_sl c; k_r := r'; k_rl := l; k_sr := ch'; k_rs := k_rs c ++ o |}).
    { econstructor; [exact H|]. destruct c as [s sl r rl sr rs]. cbn [k_s k_sl k_r k_rl k_sr k_rs] in *. subst rl. now constructor. }
    apply (reads_prefix bs br reset NB HNB gs gr os Hgs) in H'. cbn [k_r] in H'. rewrite Er in H'.
    apply (KI_reach bs br reset NB HNB gs gr os Hgs) in H. destruct H as (dS & dR & outS & ES & ER & HS & HR & HP).
    apply r_run_count in HR. cbn [ep_init e_reads length Nat.add] in HR.
    assert (T : to_receiver os = exp_r dR ++ y :: exp_r l).
    { assert (X : exp_r (L os) = exp_r dR ++ exp_r (k_rl c)) by (rewrite <- exp_r_app; f_equal; exact ER).
      rewrite E1, exp_r_cons, E2 in X. cbn [app] in X. rewrite <- X. unfold L. rewrite exp_r_compile.
      clear. induction os as [|q l IH]; [reflexivity|]. destruct q as [|[]| | |]; cbn; now rewrite <- IH. }
    rewrite T in H'. destruct H' as [z Hz]. rewrite <- app_assoc in Hz. cbn [app] in Hz.
    assert (P : nth_error (exp_r dR ++ y :: exp_r l) (length (exp_r dR)) = nth_error (e_reads (k_r c) ++ x :: z) (length (e_reads (k_r c))))
      by (rewrite Hz; now rewrite HR).
    rewrite !nth_error_app2, !Nat.sub_diag in P by lia. cbn in P. congruence.
  Qed.
  (** and for the sender *)
  Lemma sread_value c x l e' o ch' y : steps c0 c -> k_sl c = AXfer false y :: l ->
    s_act bs reset NB (k_s c) (AXfer false y) (k_rs c) = Some (e', o, ch') -> e_reads e' = e_reads (k_s c) ++ [RdData x] -> x = y.
  Proof.
    intros H E1 Ha Er.
    assert (H' : steps c0 {| k_s := e'; k_sl := l; k_r := k_r c; k_rl := k_rl c; k_sr := k_sr c ++ o; k_rs := ch' |}).
    { econstructor; [exact H|]. destruct c as [s sl r rl sr rs]. cbn [k_s k_sl k_r k_rl k_sr k_rs] in *. subst sl. now constructor. }
    apply (KI_reach bs br reset NB HNB gs gr os Hgs) in H. destruct H as (dS & dR & outS & ES & ER & HS & HR & HP).
    apply (KI_reach bs br reset NB HNB gs gr os Hgs) in H'. destruct H' as (dS' & dR' & outS' & ES' & ER' & HS' & HR' & HP').
    cbn [k_s k_sl] in *. rewrite E1 in ES.
    assert (dS' = dS ++ [AXfer false y]).
    { apply (app_inv_tail l). rewrite <- ES', <- app_assoc. exact ES. }
    subst dS'. rewrite sq_run_app, HS in HS'. cbn [sq_run sq] in HS'. injection HS' as <- _.
    unfold add_read in Er. cbn [e_reads] in Er. apply app_inv_head in Er. congruence.
  Qed.

  Context {RP RV : Type}.
  Variables (P0 : proc RP) (V0 : proc RV) (resP : RP) (resV : RV).
  Hypothesis FP : follow true P0 (compile (os ++ [OFlush])) dgs resP.
  Hypothesis FV : follow false V0 (compile (os ++ [OFlush])) dgs resV.
  Notation n0 := (n_init NB gs gr P0 V0).
  Notation nst := (nstep bs br reset NB).
  Notation nsts := (nsteps bs br reset NB).

  Definition rel (n : net) (c : conf) : Prop :=
    steps c0 c /\ n_s n = k_s c /\ n_r n = k_r c /\ n_sr n = k_sr c /\ n_rs n = k_rs c /\
    follow true (n_p n) (k_sl c) (skipn (length (e_digests (k_s c))) dgs) resP /\
    follow false (n_v n) (k_rl c) (skipn (length (e_digests (k_r c))) dgs) resV.
  Lemma rel_init : rel n0 c0.
  Proof. split; [constructor|]. repeat (split; [reflexivity|]). split; assumption. Qed.
  (** the sender's next action in both semantics *)
  Lemma s_forward P e l dg rs P' e' o rs' : follow true P l dg resP -> s_proc bs reset NB P e rs = Some (P', e', o, rs') ->
    exists a l', l = a :: l' /\ s_act bs reset NB e a rs = Some (e', o, rs') /\
      ((forall x, a = AXfer false x -> firstn (length x) rs = x) ->
       (a = AHash -> exists dg', dg = e_hash e :: dg') ->
       follow true P' l' (match a with AHash => tl dg | _ => dg end) resP).
  Proof.
    intros F E. destruct l as [|a l]; [cbn in F; subst P; discriminate|].
    assert (Q : forall a' (k : proc RP), match s_act bs reset NB e a' rs with Some (e', o, ch) => Some (k, e', o, ch) | None => None end = Some (P', e', o, rs') ->
      s_act bs reset NB e a' rs = Some (e', o, rs') /\ P' = k).
    { intros a' k X. destruct (s_act bs reset NB e a' rs) as [[[x1 x2] x3]|]; [|discriminate]. now injection X as -> -> -> ->. }
    exists a, l. split; [reflexivity|]. destruct a as [b|d|[] x| |]; cbn [follow Bool.eqb] in F.
    - destruct F as (k & -> & F). cbn [s_proc] in E. apply Q in E as [E ->]. split; [exact E|]. intros; exact F.
    - destruct F as (k & -> & F). cbn [s_proc] in E. apply Q in E as [E ->]. split; [exact E|]. intros; exact F.
    - destruct F as (k & -> & F). cbn [s_proc] in E. apply Q in E as [E ->]. split; [exact E|]. intros; exact F.
    - destruct F as (k & -> & F). cbn [s_proc] in E. cbn [s_act]. destruct (raw_read e (length x) rs) as [[e1 ch]|]; [|discriminate].
      injection E as <- <- <- <-. split; [reflexivity|]. intros V _. now rewrite (V x eq_refl).
    - destruct F as (k & -> & F). cbn [s_proc] in E. apply Q in E as [E ->]. split; [exact E|]. intros; exact F.
    - destruct dg as [|h dg]; [destruct F|]. destruct F as (k & -> & F). cbn [s_proc] in E. apply Q in E as [E ->]. split; [exact E|].
      intros _ V. destruct (V eq_refl) as [dg' X]. injection X as -> ->. exact F.
  Qed.
  Lemma r_forward V r l dg sr V' r' o sr' : follow false V l dg resV -> r_proc br reset NB V r sr = Some (V', r', o, sr') ->
    exists a l', l = a :: l' /\ r_act br reset NB r a sr = Some (r', o, sr') /\
      ((forall y, exp_r [a] = [y] -> e_reads r' = e_reads r ++ [y]) ->
       (a = AHash -> exists dg', dg = e_hash r :: dg') ->
       follow false V' l' (match a with AHash => tl dg | _ => dg end) resV).
  Proof.
    intros F E. destruct l as [|a l]; [cbn in F; subst V; discriminate|].
    assert (Q : forall a' (k : proc RV), match r_act br reset NB r a' sr with Some (e', o, ch) => Some (k, e', o, ch) | None => None end = Some (V', r', o, sr') ->
      r_act br reset NB r a' sr = Some (r', o, sr') /\ V' = k).
    { intros a' k X. destruct (r_act br reset NB r a' sr) as [[[x1 x2] x3]|]; [|discriminate]. now injection X as -> -> -> ->. }
    exists a, l. split; [reflexivity|]. destruct a as [b|d|[] x| |]; cbn [follow Bool.eqb] in F.
    - destruct F as (k & -> & F). cbn [r_proc] in E. cbn [r_act]. destruct (recv_bit br NB r sr) as [[[b' r1] c1]|] eqn:Eb; [|discriminate].
      injection E as <- <- <- <-. split; [reflexivity|]. intros Vl _. specialize (Vl _ eq_refl).
      assert (X : e_reads r1 = e_reads r ++ [RdBit b']).
      { unfold recv_bit in Eb. destruct (Nat.eqb (e_ptr r) NB).
        - destruct (recv_bool_raw br NB sr) as [[[bits h] c]|]; [|discriminate]. injection Eb as <- <- _. reflexivity.
        - injection Eb as <- <- _. reflexivity. }
      rewrite X in Vl. apply app_inv_head in Vl. injection Vl as ->. exact F.
    - destruct F as (k & -> & F). cbn [r_proc] in E. apply Q in E as [E ->]. split; [exact E|]. intros; exact F.
    - destruct F as (k & -> & F). cbn [r_proc] in E. cbn [r_act]. unfold raw_read in *.
      destruct (Nat.ltb (length sr) (length x)); [discriminate|].
      injection E as <- <- <- <-. split; [reflexivity|]. intros Vl _. specialize (Vl _ eq_refl). cbn [e_reads] in Vl.
      apply app_inv_head in Vl. injection Vl as Vl. now rewrite Vl.
    - destruct F as (k & -> & F). cbn [r_proc] in E. apply Q in E as [E ->]. split; [exact E|]. intros; exact F.
    - destruct F as (k & -> & F). cbn [r_proc] in E. apply Q in E as [E ->]. split; [exact E|]. intros; exact F.
    - destruct dg as [|h dg]; [destruct F|]. destruct F as (k & -> & F). cbn [r_proc] in E. apply Q in E as [E ->]. split; [exact E|].
      intros _ Vl. destruct (Vl eq_refl) as [dg' X]. injection X as -> ->. exact F.
  Qed.
  Lemma rel_step n n' c : rel n c -> nst n n' -> exists c', rel n' c' /\ step c c'.
  Proof.
    intros (H & E1 & E2 & E3 & E4 & F1 & F2) Hn. destruct Hn as [P e V r sr rs P' e' o rs' Ha|P e V r sr rs V' r' o sr' Ha];
    cbn [n_p n_s n_v n_r n_sr n_rs] in *; subst.
    - destruct (s_forward _ _ _ _ _ _ _ _ _ F1 Ha) as (a & l & El & Hact & Fw).
      set (c' := {| k_s := e'; k_sl := l; k_r := k_r c; k_rl := k_rl c; k_sr := k_sr c ++ o; k_rs := rs' |}).
      assert (Hst : step c c').
      { destruct c as [s sl r1 rl sr1 rs1]. cbn [k_s k_sl k_r k_rl k_sr k_rs] in *. subst sl. now constructor. }
      assert (H' : steps c0 c') by (econstructor; eassumption).
      exists c'. split; [|exact Hst]. split; [exact H'|]. repeat (split; [reflexivity|]). split; [|exact F2].
      cbn [n_p n_v k_s k_sl c']. destruct (digests_prefix c' H') as [D1 _]. cbn [k_s c'] in D1.
      pose proof (s_act_digests _ _ _ _ _ _ Hact) as Dg.
      assert (X : skipn (length (e_digests e')) dgs = match a with AHash => tl (skipn (length (e_digests (k_s c))) dgs) | _ => skipn (length (e_digests (k_s c))) dgs end).
      { rewrite Dg. destruct a; rewrite ?app_nil_r; try reflexivity. rewrite Dg in D1. now rewrite (prefix_next _ _ _ D1). }
      rewrite X. apply Fw.
      + intros x ->. assert (Y : e_reads e' = e_reads (k_s c) ++ [RdData (firstn (length x) (k_rs c))]).
        { cbn [s_act] in Hact. unfold raw_read in Hact. destruct (Nat.ltb _ _); [discriminate|]. injection Hact as <- _ _. reflexivity. }
        exact (sread_value c _ l e' o rs' x H El Hact Y).
      + intros ->. rewrite Dg in D1. rewrite (prefix_next _ _ _ D1). eauto.
    - destruct (r_forward _ _ _ _ _ _ _ _ _ F2 Ha) as (a & l & El & Hact & Fw).
      set (c' := {| k_s := k_s c; k_sl := k_sl c; k_r := r'; k_rl := l; k_sr := sr'; k_rs := k_rs c ++ o |}).
      assert (Hst : step c c').
      { destruct c as [s sl r1 rl sr1 rs1]. cbn [k_s k_sl k_r k_rl k_sr k_rs] in *. subst rl. now constructor. }
      assert (H' : steps c0 c') by (econstructor; eassumption).
      exists c'. split; [|exact Hst]. split; [exact H'|]. repeat (split; [reflexivity|]). split; [exact F1|].
      cbn [n_p n_v k_r k_rl c']. destruct (digests_prefix c' H') as [_ D1]. cbn [k_r c'] in D1.
      pose proof (r_act_digests _ _ _ _ _ _ Hact) as Dg.
      assert (X : skipn (length (e_digests r')) dgs = match a with AHash => tl (skipn (length (e_digests (k_r c))) dgs) | _ => skipn (length (e_digests (k_r c))) dgs end).
      { rewrite Dg. destruct a; rewrite ?app_nil_r; try reflexivity. rewrite Dg in D1. now rewrite (prefix_next _ _ _ D1). }
      rewrite X. apply Fw.
      + intros y Ey. assert (Y : exists x, e_reads r' = e_reads (k_r c) ++ [x]).
        { destruct (r_act_reads br reset NB _ _ _ _ _ _ Hact) as [z Hz]. pose proof (r_act_one _ _ _ _ _ _ Hact) as Q.
          rewrite Hz, app_length, Ey in Q. cbn in Q. destruct z as [|x [|? ?]]; cbn in Q; try lia. eauto. }
        destruct Y as [x Hx]. rewrite (read_value c a l r' o sr' x y H El Ey Hact Hx) in Hx. exact Hx.
      + intros ->. rewrite Dg in D1. rewrite (prefix_next _ _ _ D1). eauto.
  Qed.
  Lemma rel_steps k n : nsts k n0 n -> exists c, rel n c /\ k + length (k_sl c) + length (k_rl c) = 2 * length (compile (os ++ [OFlush])).
  Proof.
    intro H. remember n0 as m eqn:Em. induction H as [m|k m n n' H IH Hs].
    - subst. exists c0. split; [apply rel_init|]. cbn [k_init k_sl k_rl]. lia.
    - destruct (IH Em) as (c & Hc & Hl). destruct (rel_step _ _ _ Hc Hs) as (c' & Hc' & St). exists c'. split; [exact Hc'|].
      apply (step_measure bs br reset NB HNB gs Hgs) in St. lia.
  Qed.
  (** a step of the schedule is a step of the programs *)
  Lemma rel_back n c c' : rel n c -> step c c' -> exists n', nst n n'.
  Proof.
    intros (H & E1 & E2 & E3 & E4 & F1 & F2) St. destruct n as [P e V r sr rs]. cbn [n_p n_s n_v n_r n_sr n_rs] in *.
    destruct (digests_prefix c' ltac:(econstructor; eassumption)) as [D1 D2].
    destruct St as [e0 a l r1 rl sr1 rs1 e' o rs' Ha|e0 sl r1 a l sr1 rs1 r' o sr' Ha]; cbn [k_s k_sl k_r k_rl k_sr k_rs] in *; subst.
    - assert (X : exists P', s_proc bs reset NB P e0 rs1 = Some (P', e', o, rs')).
      { destruct a as [b|d|[] x| |]; cbn [follow Bool.eqb] in F1.
        - destruct F1 as (k & -> & _). exists k. cbn [s_proc]. now rewrite Ha.
        - destruct F1 as (k & -> & _). exists k. cbn [s_proc]. now rewrite Ha.
        - destruct F1 as (k & -> & _). exists k. cbn [s_proc]. now rewrite Ha.
        - destruct F1 as (k & -> & _). cbn [s_proc s_act] in *. destruct (raw_read e0 (length x) rs1) as [[e1 ch]|]; [|discriminate].
          injection Ha as <- <- <-. eexists; reflexivity.
        - destruct F1 as (k & -> & _). exists k. cbn [s_proc]. now rewrite Ha.
        - destruct (skipn (length (e_digests e0)) dgs); [destruct F1|]. destruct F1 as (k & -> & _). eexists. cbn [s_proc]. now rewrite Ha. }
      destruct X as [P' X]. eexists. apply NS. exact X.
    - assert (X : exists V', r_proc br reset NB V r1 sr1 = Some (V', r', o, sr')).
      { destruct a as [b|d|[] x| |]; cbn [follow Bool.eqb] in F2.
        - destruct F2 as (k & -> & _). cbn [r_proc r_act] in *. destruct (recv_bit br NB r1 sr1) as [[[b' r2] c1]|]; [|discriminate].
          injection Ha as <- <- <-. eexists; reflexivity.
        - destruct F2 as (k & -> & _). exists k. cbn [r_proc]. now rewrite Ha.
        - destruct F2 as (k & -> & _). cbn [r_proc r_act] in *. destruct (raw_read r1 (length x) sr1) as [[e1 ch]|]; [|discriminate].
          injection Ha as <- <- <-. eexists; reflexivity.
        - destruct F2 as (k & -> & _). exists k. cbn [r_proc]. now rewrite Ha.
        - destruct F2 as (k & -> & _). exists k. cbn [r_proc]. now rewrite Ha.
        - destruct (skipn (length (e_digests r1)) dgs); [destruct F2|]. destruct F2 as (k & -> & _). eexists. cbn [r_proc]. now rewrite Ha. }
      destruct X as [V' X]. eexists. apply NR. exact X.
  Qed.
  (** every run is finite, never stuck before both programs are done, and ends with the scheduled results *)
  Theorem net_run k n : nsts k n0 n ->
    k <= 2 * length (compile (os ++ [OFlush])) /\
    ((exists n', nst n n') \/ (n_p n = PDone resP /\ n_v n = PDone resV /\ n_sr n = [] /\ n_rs n = [])).
  Proof.
    intro H. destruct (rel_steps k n H) as (c & Hc & Hl). split; [lia|].
    pose proof Hc as (Hs & E1 & E2 & E3 & E4 & F1 & F2).
    destruct (no_deadlock bs br reset NB HNB gs gr os Hgs c Hs) as [D|[c' St]].
    - right. destruct (final_state bs br reset NB HNB gs gr os Hgs c Hs D) as (_ & _ & X1 & X2 & _).
      destruct D as [D1 D2]. rewrite D1 in F1. rewrite D2 in F2. cbn in F1, F2. rewrite E3, E4. auto.
    - left. exact (rel_back n c c' Hc St).
  Qed.
End Sim.
