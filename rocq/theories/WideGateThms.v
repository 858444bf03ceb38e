(** The circuit of a program with a check of the wide memory, for all private inputs. *)
From Coq Require Import NArith List Bool Arith Lia.
From Verif Require Import Word WordProofs GF128 BoolModel BoolSpec F2kModel F2kSpec F2kProofs VoleF2kSpec RamModel RamSpec
  RamGateModel RamGateSpec RamGateProofs RamGateThms WideGateModel WideGateSpec WideGateProofs.
Import ListNotations.
Ltac Zify.zify_post_hook ::= idtac.

Lemma word_bits_len vs : length (word_bits vs) = 64 * length vs.
Proof. unfold word_bits. induction vs as [|v vs IH]; [reflexivity|]. cbn [flat_map]. rewrite app_length, int_bits_len, IH. cbn [length]. lia. Qed.
Lemma z_words_ok w a n : a + 64 * n <= w -> words_ok w n (z_words a n).
Proof.
  intro H. unfold z_words. split; [now rewrite map_length, seq_length|]. apply Forall_forall. intros l Hl. apply in_map_iff in Hl. destruct Hl as (j & <- & Hj).
  apply in_seq in Hj. apply seq_ok. lia.
Qed.
Section Prog.
  Variables (index_sz step_sz nw : nat).
  Notation z_do := (z_do step_sz nw). Notation z_run := (z_run step_sz nw).
  Notation rok := (zrec_ok index_sz step_sz nw).
  Definition zinv (s : zst) : Prop :=
    forall i m, nth_error (z_recs s) i = Some m -> rok (z_next s) m /\
      forall ins, field (plain_wires (with_inputs ins (z_gates s))) (z_step m) = (N.of_nat i mod 2 ^ N.of_nat step_sz)%N.
  Lemma zinv_more gs recs X : zinv {| z_gates := gs; z_recs := recs |} -> zinv {| z_gates := gs ++ X; z_recs := recs |}.
  Proof.
    intros H i m E. destruct (H i m E) as [A B]. unfold z_next in *. cbn [z_gates z_recs] in *. split; [eapply zrec_ok_le; [exact A|rewrite nwires_app; lia]|].
    intro ins. destruct (wires_ext ins gs X) as [e ->]. rewrite field_app; [apply B|]. rewrite wires_len. apply A.
  Qed.
  Lemma zinv_snoc gs recs m : zinv {| z_gates := gs; z_recs := recs |} -> rok (nwires gs) m ->
    (forall ins, field (plain_wires (with_inputs ins gs)) (z_step m) = (N.of_nat (length recs) mod 2 ^ N.of_nat step_sz)%N) ->
    zinv {| z_gates := gs; z_recs := recs ++ [m] |}.
  Proof.
    intros H A B i m' E. cbn [z_recs] in E. destruct (lt_dec i (length recs)) as [L|L].
    - rewrite nth_error_app1 in E by exact L. exact (H i m' E).
    - rewrite nth_error_app2 in E by lia. destruct (i - length recs) as [|j] eqn:Ei; [|destruct j; discriminate]. injection E as <-.
      replace i with (length recs) by lia. split; [exact A|exact B].
  Qed.
  Lemma z_do_inv s o : zinv s -> zcalls_ok index_sz step_sz nw (z_next s) [o] -> zinv (z_do s o).
  Proof.
    destruct s as [gs recs]. unfold z_next. cbn [z_gates]. intros H K. unfold WideGateModel.z_do, z_now. cbn [z_gates z_recs].
    destruct o as [X|idx vs|idx val]; cbn [zcalls_ok] in K.
    - now apply zinv_more.
    - destruct K as [Ki [Kl _]]. assert (Lb : length (word_bits vs) = 64 * nw) by now rewrite word_bits_len, Kl.
      apply zinv_snoc; [now apply zinv_more| |].
      + rewrite !nwires_app, nwires_ins, nwires_pubs, !int_bits_len, Lb. change (nwires [GPub false]) with 1. unfold z_next. cbn [z_gates].
        split; [eapply wires_ok_le; [exact Ki|lia]|]. split; [apply seq_ok; lia|]. split; [apply z_words_ok; lia|]. cbn [z_op]. lia.
      + intro ins. cbn [z_step]. unfold z_next. cbn [z_gates]. rewrite <- Lb. now apply step_field.
    - destruct K as [Ki [Kv _]]. apply zinv_snoc; [now apply zinv_more| |].
      + rewrite !nwires_app, nwires_pubs, !int_bits_len. change (nwires [GPub true]) with 1. unfold z_next. cbn [z_gates].
        split; [eapply wires_ok_le; [exact Ki|lia]|]. split; [apply seq_ok; lia|]. split; [eapply words_ok_le; [exact Kv|lia]|]. cbn [z_op]. lia.
      + intro ins. cbn [z_step]. unfold z_next. cbn [z_gates]. pose proof (step_field step_sz ins gs (N.of_nat (length recs)) [] [GPub true] eq_refl) as E.
        cbn [map app length] in E. rewrite Nat.add_0_r in E. exact E.
  Qed.
  Lemma zcalls_ok_cons w o os : zcalls_ok index_sz step_sz nw w (o :: os) <->
    zcalls_ok index_sz step_sz nw w [o] /\
    zcalls_ok index_sz step_sz nw (z_next (z_do {| z_gates := map GPub (repeat false w); z_recs := [] |} o)) os.
  Proof.
    unfold WideGateModel.z_do, z_now. destruct o as [X|idx vs|idx val]; cbn [zcalls_ok z_gates z_recs]; unfold z_next; cbn [z_gates];
      rewrite ?nwires_app, ?nwires_ins, ?nwires_pubs, ?int_bits_len, ?repeat_length, ?word_bits_len; cbn [length];
      try change (nwires [GPub false]) with 1; try change (nwires [GPub true]) with 1; rewrite ?Nat.add_assoc; try tauto.
    split; [intros (A & <- & B)|intros [(A & <- & _) B]]; auto.
  Qed.
  Lemma z_do_next s s' o : z_next s = z_next s' -> z_next (z_do s o) = z_next (z_do s' o).
  Proof.
    unfold WideGateModel.z_do, z_now. intro E. destruct o; unfold z_next in *; cbn [z_gates] in *; rewrite !nwires_app, E, ?nwires_ins, ?nwires_pubs, ?nwires_app, ?nwires_pubs, ?int_bits_len; reflexivity.
  Qed.
  Lemma z_fold_inv os : forall s, zinv s -> zcalls_ok index_sz step_sz nw (z_next s) os ->
    zinv (fold_left z_do os s) /\ length (z_recs (fold_left z_do os s)) = length (z_recs s) + zcalls os.
  Proof.
    induction os as [|o os IH]; intros s H K; [cbn; split; [exact H|unfold zcalls; cbn; lia]|]. cbn [fold_left].
    apply zcalls_ok_cons in K. destruct K as [K1 K2].
    rewrite (z_do_next _ s) in K2 by (unfold z_next; cbn [z_gates]; now rewrite nwires_pubs, repeat_length).
    destruct (IH (z_do s o) (z_do_inv s o H K1) K2) as [A B]. split; [exact A|]. rewrite B. unfold zcalls.
    destruct o; cbn [WideGateModel.z_do z_recs filter is_zcall length]; rewrite ?app_length; cbn [length]; lia.
  Qed.
  Lemma z_run_inv os : zcalls_ok index_sz step_sz nw 0 os -> zinv (z_run os) /\ length (z_recs (z_run os)) = zcalls os.
  Proof.
    intro K. unfold WideGateModel.z_run. apply (z_fold_inv os {| z_gates := []; z_recs := [] |}); [|exact K].
    intros i m E. destruct i; discriminate.
  Qed.

  (** * The whole circuit *)
  Lemma zfeeds_ins claims : Forall (fun e => length (w_val e) = nw) claims -> exists bs, flat_map (z_feed index_sz step_sz) claims = map GIn bs /\ length bs = length claims * z_width index_sz step_sz nw.
  Proof.
    induction claims as [|e claims IH]; intro F; [now exists []|]. destruct (IH (Forall_inv_tail F)) as (bs & E & L). cbn [flat_map]. rewrite E. unfold z_feed at 1. rewrite <- map_app. eexists. split; [reflexivity|].
    rewrite !app_length, L, !int_bits_len, word_bits_len, (Forall_inv F). unfold z_width. cbn [length]. lia.
  Qed.
  Lemma zsorted_ok w n : Forall (rok (w + n * z_width index_sz step_sz nw)) (z_sorted index_sz step_sz nw w n).
  Proof.
    apply Forall_forall. intros m Hm. apply in_map_iff in Hm. destruct Hm as (i & <- & Hi). apply in_seq in Hi.
    assert (B : (i + 1) * z_width index_sz step_sz nw <= n * z_width index_sz step_sz nw) by (apply Nat.mul_le_mono_r; lia).
    unfold z_width in *. unfold z_fed, zrec_ok. cbn [z_idx z_step z_val z_op].
    split; [apply seq_ok; lia|]. split; [apply seq_ok; lia|]. split; [apply z_words_ok; lia|]. lia.
  Qed.
  Lemma zsorted_len w n : length (z_sorted index_sz step_sz nw w n) = n.
  Proof. unfold z_sorted. now rewrite map_length, seq_length. Qed.
  Lemma run_wcondition ws l : 1 <= step_sz -> 1 <= nw -> Forall (rok (length ws)) l ->
    runs (b_wcondition l) ws (is_wire (ext_order step_sz (map (zentry_at ws) l))).
  Proof.
    intros Hs Hn F. unfold b_wcondition. eapply runs_bind; [apply run_pub|]. intros e t Ht.
    assert (M : map (zentry_at (ws ++ e)) l = map (zentry_at ws) l).
    { apply map_ext_in. intros m Hm. rewrite Forall_forall in F. apply (zentry_app index_sz step_sz nw (length ws)); auto. }
    rewrite <- M. apply (run_worder index_sz step_sz nw l Hs Hn _ _ true Ht). eapply Forall_impl; [|exact F]. intros m Hm. eapply zrec_ok_le; [exact Hm|rewrite app_length; lia].
  Qed.
  Lemma shape_wcondition l w : 1 <= step_sz -> 1 <= nw -> Forall (rok w) l ->
    shape (b_wcondition l) ((length l - 1) * (index_sz + step_sz + 65 * nw + 4)).
  Proof.
    intros Hs Hn F. unfold b_wcondition. eapply shape_eq; [eapply shape_bind; [apply shape_p|intro; apply (shape_worder index_sz step_sz nw l Hs Hn)]|reflexivity].
    eapply Forall_impl; [|exact F]. intros m ((A & _) & (B & _) & (C & C2) & _). split; [exact A|]. split; [exact B|]. split; [exact C|].
    eapply Forall_impl; [|exact C2]. now intros x [Hx _].
  Qed.
  Variables (os : list zop) (claims : list wentry) (post : list gate).
  Hypothesis Hstep : 1 <= step_sz.
  Hypothesis Hnw : 1 <= nw.
  Hypothesis Hcalls : zcalls_ok index_sz step_sz nw 0 os.
  Hypothesis Hclaims : length claims = zcalls os.
  Hypothesis Hwords : Forall (fun e => length (w_val e) = nw) claims.
  Let bc := z_check index_sz step_sz nw os claims post.
  Let sorted := fst (z_lists index_sz step_sz nw os).
  Let recs := snd (z_lists index_sz step_sz nw os).
  (** structure of the circuit for all inputs *)
  Lemma zcheck_struct : exists gs cond bs,
    bc = z_gates (z_run os) ++ map GIn bs ++ gs ++ [GReveal cond] ++ post /\
    b_wcondition sorted (z_next (z_run os) + length bs) = (gs, cond) /\
    length bs = zcalls os * z_width index_sz step_sz nw /\ flat_map (z_feed index_sz step_sz) claims = map GIn bs.
  Proof.
    unfold bc, z_check, sorted, z_lists. cbn [fst]. destruct (zfeeds_ins claims Hwords) as (bs & E & L). rewrite E, nwires_ins.
    destruct (b_wcondition (z_sorted index_sz step_sz nw (z_next (z_run os)) (length (z_recs (z_run os)))) (z_next (z_run os) + length bs)) as [gs cond] eqn:Ec.
    exists gs, cond, bs. split; [reflexivity|]. split; [exact Ec|]. split; [now rewrite L, Hclaims|reflexivity].
  Qed.
  Lemma zcheck_meaning ins : let W := plain_wires (with_inputs ins bc) in
    Forall (rok (length W)) sorted /\ Forall (rok (length W)) recs /\ length sorted = zcalls os /\ length recs = zcalls os /\
    nth (z_reveal step_sz nw os) (plain_outputs (with_inputs ins bc)) false = ext_order step_sz (map (zentry_at W) sorted) /\
    (forall i m, nth_error recs i = Some m -> field W (z_step m) = (N.of_nat i mod 2 ^ N.of_nat step_sz)%N) /\
    exists e, W = plain_wires (with_inputs ins (z_gates (z_run os) ++ flat_map (z_feed index_sz step_sz) claims)) ++ e.
  Proof.
    intro W. destruct zcheck_struct as (gs & cond & bs & E & Ec & Lb & Ef). destruct (z_run_inv os Hcalls) as [I L].
    set (G := z_gates (z_run os)) in *. unfold W in *. rewrite E, Ef.
    assert (SO : Forall (rok (nwires G + length bs)) sorted).
    { unfold sorted, z_lists. cbn [fst]. rewrite L, Lb. apply zsorted_ok. }
    assert (SL : length sorted = zcalls os) by (unfold sorted, z_lists; cbn [fst]; now rewrite zsorted_len).
    set (W1 := plain_wires (with_inputs ins (G ++ map GIn bs))).
    assert (L1 : length W1 = nwires G + length bs) by (unfold W1; now rewrite wires_len, nwires_app, nwires_ins).
    assert (SO1 : Forall (rok (length W1)) sorted) by now rewrite L1.
    destruct (run_wcondition W1 sorted Hstep Hnw SO1) as (e & Ee & We).
    change (nwires G) with (z_next (z_run os)) in L1. rewrite L1, Ec in Ee, We. cbn [fst snd] in Ee, We.
    pose proof (shape_wcondition sorted _ Hstep Hnw SO (z_next (z_run os) + length bs)) as [_ Lg]. rewrite Ec in Lg. cbn [fst] in Lg.
    destruct (wires_ext ins (G ++ map GIn bs) (gs ++ [GReveal cond] ++ post)) as [e2 E2]. rewrite <- app_assoc in E2. fold W1 in E2.
    assert (LW : length W1 <= length (plain_wires (with_inputs ins (G ++ map GIn bs ++ gs ++ [GReveal cond] ++ post)))) by (rewrite E2, app_length; lia).
    split; [eapply Forall_impl; [|exact SO1]; intros m Hm; eapply zrec_ok_le; [exact Hm|exact LW]|].
    assert (RO : Forall (rok (nwires G)) recs).
    { apply Forall_forall. intros m Hm. apply In_nth_error in Hm. destruct Hm as [i Hi]. destruct (I i m Hi) as [A _]. exact A. }
    split; [eapply Forall_impl; [|exact RO]; intros m Hm; eapply zrec_ok_le; [exact Hm|]; revert LW; rewrite L1; unfold z_next; fold G; lia|].
    split; [exact SL|]. split; [exact L|]. split; [|split].
    - rewrite E2. assert (M : map (zentry_at (W1 ++ e2)) sorted = map (zentry_at W1) sorted).
      { apply map_ext_in. intros m Hm. rewrite Forall_forall in SO1. apply (zentry_app index_sz step_sz nw (length W1)); auto. }
      rewrite M. unfold plain_outputs. rewrite (app_assoc G), with_inputs_app, plain_eval_app.
      change (fst (plain_eval [] [] (with_inputs ins (G ++ map GIn bs)))) with W1.
      rewrite (with_inputs_app gs), (with_inputs_logic gs) by exact Lg. rewrite (plain_eval_app gs), Ee. cbn [fst snd]. cbn [app with_inputs plain_eval].
      match goal with |- context [plain_eval ?x ?y ?z] => destruct (plain_eval_ext z x y) as (e3 & o3 & -> & _) end. cbn [snd].
      destruct (plain_eval_ext (with_inputs ins (G ++ map GIn bs)) [] []) as (e4 & o4 & E4 & _ & Lo). rewrite E4. cbn [snd app].
      assert (X : z_reveal step_sz nw os = length o4).
      { rewrite Lo. destruct (with_inputs_count (G ++ map GIn bs) ins) as (_ & -> & _). unfold nrev, z_reveal. rewrite filter_app, app_length. fold G.
        replace (filter _ (map GIn bs)) with (@nil gate); [cbn; lia|]. clear. induction bs; auto. }
      rewrite X, <- app_assoc. rewrite app_nth2 by lia. rewrite Nat.sub_diag. cbn [app nth]. apply We.
    - intros i m Hi. destruct (I i m Hi) as [A B]. destruct (wires_ext ins G (map GIn bs ++ gs ++ [GReveal cond] ++ post)) as [e5 ->].
      rewrite field_app; [apply B|]. rewrite wires_len. apply A.
    - exists e2. exact E2.
  Qed.
  Lemma zcheck_ands : count_and bc = count_and (z_gates (z_run os)) + (zcalls os - 1) * (index_sz + step_sz + 65 * nw + 4) + count_and post.
  Proof.
    destruct zcheck_struct as (gs & cond & bs & E & Ec & Lb & Ef). rewrite E, !count_and_app. destruct (z_run_inv os Hcalls) as [I L].
    assert (SO : Forall (rok (z_next (z_run os) + zcalls os * z_width index_sz step_sz nw)) sorted).
    { unfold sorted, z_lists. cbn [fst]. rewrite L. apply zsorted_ok. }
    pose proof (shape_wcondition sorted _ Hstep Hnw SO (z_next (z_run os) + length bs)) as [C _]. rewrite Ec in C. cbn [fst] in C. rewrite C.
    assert (SL : length sorted = zcalls os) by (unfold sorted, z_lists; cbn [fst]; now rewrite zsorted_len). rewrite SL.
    assert (Z : count_and (map GIn bs) = 0) by (clear; induction bs; auto). rewrite Z. cbn [count_and]. lia.
  Qed.
  (** the recorded list is the numbered log *)
  Lemma zrecs_numbered ws : (forall i m, nth_error recs i = Some m -> field ws (z_step m) = N.of_nat i) ->
    map (zentry_at ws) recs = wnumbered 0 (map (zaccess_at ws) recs).
  Proof.
    intro H. unfold wnumbered. assert (G : forall l s, (forall i m, nth_error l i = Some m -> field ws (z_step m) = N.of_nat (s + i)) ->
      map (zentry_at ws) l = map (fun ix : nat * wacc => {| w_idx := b_addr (snd ix); w_step := N.of_nat (fst ix); w_op := b_write (snd ix); w_val := b_val (snd ix) |})
        (combine (seq s (length (map (zaccess_at ws) l))) (map (zaccess_at ws) l))).
    { clear. induction l as [|m l IH]; intros s H; [reflexivity|]. cbn [map length seq combine]. f_equal.
      - unfold zentry_at, zaccess_at. cbn [fst snd b_addr b_write b_val]. rewrite (H 0 m eq_refl). now rewrite Nat.add_0_r.
      - apply IH. intros i m' Hi. rewrite (H (S i) m' Hi). f_equal. lia. }
    apply (G recs 0). exact H.
  Qed.
End Prog.
