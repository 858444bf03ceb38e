(** Proofs about the gate-level wide memory: circuits. *)
From Coq Require Import NArith List Bool Arith Lia.
From Verif Require Import Word WordProofs GF128 BoolModel BoolSpec F2kModel F2kSpec VoleF2kSpec RamModel RamSpec
  RamGateModel RamGateSpec RamGateProofs RamGateThms WideGateModel WideGateSpec.
Import ListNotations.
Ltac Zify.zify_post_hook ::= idtac.

Lemma map_field_app ws e n l : words_ok (length ws) n l -> map (field (ws ++ e)) l = map (field ws) l.
Proof. intros [_ F]. apply map_ext_in. intros x Hx. rewrite Forall_forall in F. destruct (F x Hx) as [_ G]. now apply field_app. Qed.
Lemma words_ok_le w w' n l : words_ok w n l -> w <= w' -> words_ok w' n l.
Proof. intros [L F] H. split; [exact L|]. eapply Forall_impl; [|exact F]. intros x Hx. now apply (wires_ok_le w). Qed.
Lemma run_more_eq la : forall lb ws eq t, is_wire t ws eq -> Forall (wires_ok (length ws) 64) la -> Forall (wires_ok (length ws) 64) lb -> length la = length lb ->
  runs (b_more_eq eq (combine la lb)) ws (is_wire (t && words_eq (map (field ws) la) (map (field ws) lb))).
Proof.
  induction la as [|a la IH]; intros [|b lb] ws eq t Ht Fa Fb L; try discriminate; [apply runs_ret; cbn; now rewrite andb_true_r|].
  cbn [combine b_more_eq map words_eq]. pose proof (Forall_inv Fa) as Ka. pose proof (Forall_inv Fb) as Kb. apply Forall_inv_tail in Fa, Fb.
  eapply runs_bind; [apply (run_eq _ 64 _ _ Ka Kb)|]. intros e1 e He.
  eapply runs_bind; [apply run_and; [apply is_wire_app; exact Ht|exact He]|]. intros e2 eq' He'. rewrite <- app_assoc in *.
  assert (W : forall l, Forall (wires_ok (length ws) 64) l -> Forall (wires_ok (length (ws ++ e1 ++ e2)) 64) l /\ map (field (ws ++ e1 ++ e2)) l = map (field ws) l).
  { intros l F. split; [|apply (map_field_app _ _ (length l)); now split]. eapply Forall_impl; [|exact F]. intros x Hx. eapply wires_ok_le; [exact Hx|]. rewrite app_length. lia. }
  destruct (W la Fa) as [Fa' Ea]. destruct (W lb Fb) as [Fb' Eb].
  eapply runs_weaken; [apply (IH lb _ _ _ He' Fa' Fb')|]; [cbn in L; lia|]. intros e3 z Hz. rewrite Ea, Eb, <- andb_assoc in Hz. exact Hz.
Qed.
Lemma run_words_eq ws n la lb : 1 <= n -> words_ok (length ws) n la -> words_ok (length ws) n lb ->
  runs (b_words_eq la lb) ws (is_wire (words_eq (map (field ws) la) (map (field ws) lb))).
Proof.
  intros Hn [La Fa] [Lb Fb]. destruct la as [|a la]; [cbn in La; lia|]. destruct lb as [|b lb]; [cbn in Lb; lia|]. unfold b_words_eq. cbn [hd tl].
  eapply runs_bind; [apply (run_eq _ 64 _ _ (Forall_inv Fa) (Forall_inv Fb))|]. intros e1 e He. apply Forall_inv_tail in Fa, Fb.
  assert (W : forall l, Forall (wires_ok (length ws) 64) l -> Forall (wires_ok (length (ws ++ e1)) 64) l /\ map (field (ws ++ e1)) l = map (field ws) l).
  { intros l F. split; [|apply (map_field_app _ _ (length l)); now split]. eapply Forall_impl; [|exact F]. intros x Hx. eapply wires_ok_le; [exact Hx|]. rewrite app_length. lia. }
  destruct (W la Fa) as [Fa' Ea]. destruct (W lb Fb) as [Fb' Eb].
  eapply runs_weaken; [apply (run_more_eq la lb _ _ _ He Fa' Fb')|]; [cbn in La, Lb; lia|]. intros e3 z Hz. rewrite Ea, Eb in Hz. exact Hz.
Qed.
Lemma shape_more_eq la : forall lb eq, Forall (fun l => length l = 64) la -> Forall (fun l => length l = 64) lb -> length la = length lb ->
  shape (b_more_eq eq (combine la lb)) (65 * length la).
Proof.
  induction la as [|a la IH]; intros [|b lb] eq Fa Fb L; try discriminate; [apply shape_ret|]. cbn [combine b_more_eq].
  eapply shape_eq; [eapply shape_bind; [apply (shape_beq 64); [exact (Forall_inv Fa)|exact (Forall_inv Fb)]|intro]; eapply shape_bind; [apply shape_a|intro];
    apply (IH lb _ (Forall_inv_tail Fa) (Forall_inv_tail Fb)); cbn in L; lia|]. cbn [length]. lia.
Qed.
Lemma shape_words_eq n la lb : 1 <= n -> length la = n -> length lb = n -> Forall (fun l => length l = 64) la -> Forall (fun l => length l = 64) lb ->
  shape (b_words_eq la lb) (65 * n - 1).
Proof.
  intros Hn La Lb Fa Fb. destruct la as [|a la]; [cbn in La; lia|]. destruct lb as [|b lb]; [cbn in Lb; lia|]. unfold b_words_eq. cbn [hd tl].
  eapply shape_eq; [eapply shape_bind; [apply (shape_beq 64); [exact (Forall_inv Fa)|exact (Forall_inv Fb)]|intro];
    apply (shape_more_eq la lb _ (Forall_inv_tail Fa) (Forall_inv_tail Fb)); cbn in La, Lb; lia|]. cbn in La. lia.
Qed.

(** * The order condition *)
Section Order.
  Variables (index_sz step_sz nw : nat).
  (** wires of a record *)
  Definition zrec_ok (w : nat) (m : zrec) : Prop :=
    wires_ok w index_sz (z_idx m) /\ wires_ok w step_sz (z_step m) /\ words_ok w nw (z_val m) /\ z_op m < w.
  Lemma zrec_ok_le w w' m : zrec_ok w m -> w <= w' -> zrec_ok w' m.
  Proof. intros (A & B & C & D) H. split; [now apply (wires_ok_le w)|]. split; [now apply (wires_ok_le w)|]. split; [now apply (words_ok_le w)|lia]. Qed.
  Lemma zentry_app w ws e m : zrec_ok w m -> w <= length ws -> zentry_at (ws ++ e) m = zentry_at ws m.
  Proof.
    intros H L. destruct (zrec_ok_le _ _ _ H L) as ((_ & A) & (_ & B) & C & D). unfold zentry_at.
    now rewrite !field_app, pwire_app, (map_field_app ws e nw) by assumption.
  Qed.
  Lemma run_worder l : 1 <= step_sz -> 1 <= nw -> forall ws cond c, is_wire c ws cond -> Forall (zrec_ok (length ws)) l ->
    runs (b_worder cond l) ws (is_wire (c && ext_order step_sz (map (zentry_at ws) l))).
  Proof.
    intros Hst Hnw. induction l as [|a l IH]; intros ws cond c Hc F; [apply runs_ret; cbn; now rewrite andb_true_r|].
    destruct l as [|b l]; [apply runs_ret; cbn; now rewrite andb_true_r|].
    pose proof (Forall_inv F) as Ka. pose proof (Forall_inv (Forall_inv_tail F)) as Kb. apply Forall_inv_tail in F.
    cbn [b_worder]. set (rest := b :: l) in *.
    destruct Ka as (Ai & As & Av & Ao). destruct Kb as (Bi & Bs & Bv & Bo).
    assert (exists st, step_sz = S st) as [st Est] by (destruct step_sz as [|st]; [lia|now exists st]). rewrite Est in As, Bs.
    assert (LE : forall e, length ws <= length (ws ++ e)) by (intro; rewrite app_length; lia).
    assert (FA : forall e n x, wires_ok (length ws) n x -> field (ws ++ e) x = field ws x) by (intros e n x [_ Fx]; now apply field_app).
    eapply runs_bind; [apply (run_eq ws _ _ _ Ai Bi)|]. intros e1 eq Heq.
    eapply runs_bind; [apply run_not; exact Heq|]. intros e2 neq Hneq.
    rewrite <- app_assoc in *. eapply runs_bind; [apply (run_lt _ st); eapply wires_ok_le; eauto|]. intros e3 ls Hls. rewrite !(FA _ (S st)) in Hls by assumption.
    rewrite <- app_assoc in *. eapply runs_bind; [apply (run_words_eq _ nw _ _ Hnw); eapply words_ok_le; eauto|]. intros e4 ev Hev. rewrite !(map_field_app ws _ nw) in Hev by assumption.
    eapply runs_bind; [apply run_not; apply is_wire_app; rewrite app_assoc, app_assoc, <- (app_assoc ws); apply is_wire_app; exact Hneq|]. intros e5 same Hsame.
    eapply runs_bind; [apply run_and; [exact Hsame|]|].
    { do 2 apply is_wire_app. rewrite app_assoc. rewrite <- app_assoc. exact Hls. }
    intros e6 t1 Ht1. eapply runs_bind; [apply (run_not _ _ (pwire ws (z_op b)))|].
    { do 4 apply is_wire_app. now split. }
    intros e7 rd Hrd. eapply runs_bind; [apply run_and; [exact Hrd|]|].
    { do 3 apply is_wire_app. exact Hev. }
    intros e8 t2 Ht2. eapply runs_bind; [apply (run_or _ _ _ _ (pwire ws (z_op b)) Ht2)|].
    { do 6 apply is_wire_app. now split. }
    intros e9 t3 Ht3. eapply runs_bind; [apply run_and; [|exact Ht3]|].
    { do 3 apply is_wire_app. exact Ht1. }
    intros e10 t4 Ht4. eapply runs_bind; [apply run_or; [|exact Ht4]|].
    { do 7 apply is_wire_app. rewrite app_assoc, app_assoc, <- (app_assoc ws). apply is_wire_app. exact Hneq. }
    intros e11 t5 Ht5. eapply runs_bind; [apply run_and; [|exact Ht5]|].
    { do 9 apply is_wire_app. exact Hc. }
    intros e12 c3 Hc3. rewrite <- !app_assoc in Hc3. rewrite <- !app_assoc.
    match type of Hc3 with is_wire _ (ws ++ ?x) _ => set (E := x) in * end.
    eapply runs_weaken; [apply (IH (ws ++ E) c3 _ Hc3)|].
    { eapply Forall_impl; [|exact F]. intros m Hm. eapply zrec_ok_le; [exact Hm|apply LE]. }
    intros e13 z Hz. assert (M : map (zentry_at (ws ++ E)) rest = map (zentry_at ws) rest).
    { apply map_ext_in. intros m Hm. rewrite Forall_forall in F. apply (zentry_app (length ws)); auto. }
    rewrite M in Hz. revert Hz. unfold rest. cbn [map ext_order w_idx w_step w_op w_val zentry_at].
    rewrite Est, !andb_assoc. auto.
  Qed.
  Lemma shape_worder l : 1 <= step_sz -> 1 <= nw -> Forall (fun m => length (z_idx m) = index_sz /\ length (z_step m) = step_sz /\ length (z_val m) = nw /\ Forall (fun l => length l = 64) (z_val m)) l ->
    forall cond, shape (b_worder cond l) ((length l - 1) * (index_sz + step_sz + 65 * nw + 4)).
  Proof.
    intros Hst Hnw. induction l as [|a l IH]; intros F cond; [apply shape_ret|]. destruct l as [|b l]; [apply shape_ret|].
    destruct (Forall_inv F) as (A1 & A2 & A3 & A4). destruct (Forall_inv (Forall_inv_tail F)) as (B1 & B2 & B3 & B4). apply Forall_inv_tail in F.
    cbn [b_worder]. assert (exists st, step_sz = S st) as [st Est] by (destruct step_sz as [|st]; [lia|now exists st]). rewrite Est in A2, B2.
    eapply shape_eq.
    - eapply shape_bind; [apply (shape_beq index_sz); assumption|intro]. eapply shape_bind; [apply shape_n|intro]. eapply shape_bind; [apply (shape_lt st); assumption|intro].
      eapply shape_bind; [apply (shape_words_eq nw); assumption|intro]. eapply shape_bind; [apply shape_n|intro]. eapply shape_bind; [apply shape_a|intro].
      eapply shape_bind; [apply shape_n|intro]. eapply shape_bind; [apply shape_a|intro]. eapply shape_bind; [apply shape_or|intro].
      eapply shape_bind; [apply shape_a|intro]. eapply shape_bind; [apply shape_or|intro]. eapply shape_bind; [apply shape_a|intro]. apply (IH F).
    - cbn [length]. rewrite !Nat.sub_succ, !Nat.sub_0_r. cbn [Nat.mul]. lia.
  Qed.
End Order.
