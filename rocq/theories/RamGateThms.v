(** The circuit of a program with a memory check, for all private inputs. *)
From Coq Require Import NArith List Bool Arith Lia.
From Verif Require Import Word WordProofs GF128 BoolModel BoolSpec F2kModel F2kSpec F2kProofs VoleF2kSpec RamModel RamSpec RamGateModel RamGateSpec RamGateProofs.
Import ListNotations.
Ltac Zify.zify_post_hook ::= idtac.

(** * Replacing inputs *)
Definition nin (c : list gate) : nat := length (filter (fun g => match g with GIn _ => true | _ => false end) c).
Lemma with_inputs_app a : forall ins b, with_inputs ins (a ++ b) = with_inputs ins a ++ with_inputs (skipn (nin a) ins) b.
Proof.
  induction a as [|g a IH]; intros ins b; [reflexivity|]. destruct g; cbn [app with_inputs]; try (rewrite IH; reflexivity).
  destruct ins as [|y ins]; rewrite IH; [|reflexivity]. now rewrite !skipn_nil.
Qed.
Lemma with_inputs_logic a ins : forallb logic a = true -> with_inputs ins a = a.
Proof.
  revert ins. induction a as [|g a IH]; intros ins H; [reflexivity|]. cbn [forallb] in H. apply andb_true_iff in H. destruct H as [Hg H].
  destruct g; try discriminate Hg; cbn [with_inputs]; now rewrite IH.
Qed.
Lemma with_inputs_nil c : with_inputs [] c = c.
Proof. induction c as [|g c IH]; [reflexivity|]. destruct g; cbn [with_inputs]; now rewrite IH. Qed.
Lemma with_inputs_count c : forall ins, nwires (with_inputs ins c) = nwires c /\ nrev (with_inputs ins c) = nrev c /\ nin (with_inputs ins c) = nin c.
Proof.
  induction c as [|g c IH]; intro ins; [now cbn|].
  destruct g; cbn [with_inputs]; try (destruct (IH ins) as (A & B & C); unfold nwires, nrev, nin in *; cbn; lia).
  destruct ins as [|y ins]; [destruct (IH []) as (A & B & C)|destruct (IH ins) as (A & B & C)]; unfold nwires, nrev, nin in *; cbn; lia.
Qed.
Lemma with_inputs_ins bs : forall ins, exists bs', with_inputs ins (map GIn bs) = map GIn bs' /\ length bs' = length bs.
Proof.
  induction bs as [|b bs IH]; intro ins; [now exists []|]. cbn [map with_inputs]. destruct ins as [|y ins].
  - destruct (IH []) as (bs' & -> & L). exists (b :: bs'). cbn. auto.
  - destruct (IH ins) as (bs' & -> & L). exists (y :: bs'). cbn. auto.
Qed.
Lemma eval_ins bs : forall ws outs, plain_eval ws outs (map GIn bs) = (ws ++ bs, outs).
Proof. induction bs as [|b bs IH]; intros; [now rewrite app_nil_r|]. cbn [map plain_eval]. now rewrite IH, <- app_assoc. Qed.
Lemma eval_pubs bs : forall ws outs, plain_eval ws outs (map GPub bs) = (ws ++ bs, outs).
Proof. induction bs as [|b bs IH]; intros; [now rewrite app_nil_r|]. cbn [map plain_eval]. now rewrite IH, <- app_assoc. Qed.
Lemma pubs_logic bs : forallb logic (map GPub bs) = true.
Proof. induction bs; auto. Qed.
Lemma nwires_ins bs : nwires (map GIn bs) = length bs.
Proof. unfold nwires. induction bs; cbn in *; auto. Qed.
Lemma nwires_pubs bs : nwires (map GPub bs) = length bs.
Proof. unfold nwires. induction bs; cbn in *; auto. Qed.
Lemma int_bits_len n v : length (int_bits n v) = n.
Proof. unfold int_bits. now rewrite map_length, seq_length. Qed.
Lemma int_bits_word n v : word_of (int_bits n v) = (v mod 2 ^ N.of_nat n)%N.
Proof.
  unfold int_bits. refine (eq_trans _ (eq_trans (word_of_bits v n 0) _)); [|now rewrite N.pow_0_r, N.div_1_r].
  f_equal. apply map_ext. intro i. now rewrite N.add_0_r.
Qed.
Lemma wires_seq (A B C : list bool) : map (pwire (A ++ B ++ C)) (seq (length A) (length B)) = B.
Proof.
  apply (nth_ext _ _ false false); [now rewrite map_length, seq_length|]. intros i Hi. rewrite map_length, seq_length in Hi.
  rewrite (nth_indep _ false (pwire (A ++ B ++ C) 0)) by (now rewrite map_length, seq_length). rewrite map_nth, seq_nth by exact Hi.
  unfold pwire. rewrite app_nth2_plus. now apply app_nth1.
Qed.
Lemma field_mid (A B C : list bool) n : length A = n -> field (A ++ B ++ C) (seq n (length B)) = word_of B.
Proof. intros <-. unfold field. now rewrite wires_seq. Qed.
Lemma seq_ok w a n : a + n <= w -> wires_ok w n (seq a n).
Proof. intro H. split; [apply seq_length|]. apply Forall_forall. intros i Hi. apply in_seq in Hi. lia. Qed.

(** * The recorded calls *)
Section Prog.
  Variables (index_sz step_sz val_sz : nat).
  Notation m_do := (m_do step_sz val_sz). Notation m_run := (m_run step_sz val_sz).
  Definition rec_ok (w : nat) (m : mrec) : Prop :=
    wires_ok w index_sz (m_idx m) /\ wires_ok w step_sz (m_step m) /\ wires_ok w val_sz (m_val m) /\ m_op m < w.
  Lemma rec_ok_le w w' m : rec_ok w m -> w <= w' -> rec_ok w' m.
  Proof. intros (A & B & C & D) H. split; [now apply (wires_ok_le w)|]. split; [now apply (wires_ok_le w)|]. split; [now apply (wires_ok_le w)|lia]. Qed.
  Lemma wires_len ins c : length (plain_wires (with_inputs ins c)) = nwires c.
  Proof.
    unfold plain_wires. destruct (plain_eval_ext (with_inputs ins c) [] []) as (e & o & E & L & _). rewrite E. cbn [fst app]. rewrite L.
    apply with_inputs_count.
  Qed.
  Lemma wires_app ins a b : plain_wires (with_inputs ins (a ++ b)) =
    fst (plain_eval (plain_wires (with_inputs ins a)) (plain_outputs (with_inputs ins a)) (with_inputs (skipn (nin a) ins) b)).
  Proof. unfold plain_wires, plain_outputs. now rewrite with_inputs_app, plain_eval_app. Qed.
  Lemma wires_ext ins a b : exists e, plain_wires (with_inputs ins (a ++ b)) = plain_wires (with_inputs ins a) ++ e.
  Proof. rewrite wires_app. match goal with |- exists e, fst (plain_eval ?x ?y ?z) = _ => destruct (plain_eval_ext z x y) as (e & o & E & _); exists e; now rewrite E end. Qed.
  Definition minv (s : mst) : Prop :=
    forall i m, nth_error (m_recs s) i = Some m -> rec_ok (m_next s) m /\
      forall ins, field (plain_wires (with_inputs ins (m_gates s))) (m_step m) = (N.of_nat i mod 2 ^ N.of_nat step_sz)%N.
  Lemma minv_more gs recs X : minv {| m_gates := gs; m_recs := recs |} -> minv {| m_gates := gs ++ X; m_recs := recs |}.
  Proof.
    intros H i m E. destruct (H i m E) as [A B]. cbn [m_gates m_recs m_next] in *. unfold m_next in *. cbn [m_gates] in *. split; [eapply rec_ok_le; [exact A|rewrite nwires_app; lia]|].
    intro ins. destruct (wires_ext ins gs X) as [e ->]. rewrite field_app; [apply B|]. rewrite wires_len. apply A.
  Qed.
  Lemma minv_snoc gs recs m : minv {| m_gates := gs; m_recs := recs |} -> rec_ok (nwires gs) m ->
    (forall ins, field (plain_wires (with_inputs ins gs)) (m_step m) = (N.of_nat (length recs) mod 2 ^ N.of_nat step_sz)%N) ->
    minv {| m_gates := gs; m_recs := recs ++ [m] |}.
  Proof.
    intros H A B i m' E. cbn [m_recs] in E. destruct (lt_dec i (length recs)) as [L|L].
    - rewrite nth_error_app1 in E by exact L. exact (H i m' E).
    - rewrite nth_error_app2 in E by lia. destruct (i - length recs) as [|j] eqn:Ei; [|destruct j; discriminate]. injection E as <-.
      replace i with (length recs) by lia. split; [exact A|exact B].
  Qed.
  (** the step of the new record, behind [a] more wires *)
  Lemma step_field ins gs k a tail : forallb logic tail = true ->
    field (plain_wires (with_inputs ins (gs ++ map GIn a ++ map GPub (int_bits step_sz k) ++ tail))) (seq (nwires gs + length a) step_sz) = (k mod 2 ^ N.of_nat step_sz)%N.
  Proof.
    intro HT. rewrite wires_app, with_inputs_app, plain_eval_app. destruct (with_inputs_ins a (skipn (nin gs) ins)) as (a' & -> & La).
    rewrite eval_ins. cbn [fst snd]. rewrite (with_inputs_logic (map GPub (int_bits step_sz k) ++ tail)) by (now rewrite forallb_app, pubs_logic, HT). rewrite plain_eval_app, eval_pubs. cbn [fst snd].
    match goal with |- context [plain_eval ?x ?y tail] => destruct (plain_eval_ext tail x y) as (e & o & -> & _) end. cbn [fst].
    rewrite <- (app_assoc (_ ++ a')). rewrite <- (int_bits_len step_sz k) at 2. rewrite field_mid; [apply int_bits_word|].
    rewrite app_length, wires_len. lia.
  Qed.
  Lemma m_do_inv s o : minv s -> calls_ok index_sz step_sz val_sz (m_next s) [o] -> minv (m_do s o).
  Proof.
    destruct s as [gs recs]. unfold m_next. cbn [m_gates]. intros H K. unfold RamGateModel.m_do, m_now. cbn [m_gates m_recs m_next].
    destruct o as [X|idx v|idx val|op idx v]; cbn [calls_ok] in K.
    - now apply minv_more.
    - destruct K as [Ki _]. apply minv_snoc; [now apply minv_more| |].
      + rewrite !nwires_app, nwires_ins, nwires_pubs, !int_bits_len. cbn [nwires filter length].
        split; [eapply wires_ok_le; [exact Ki|lia]|]. split; [apply seq_ok; cbn [m_next m_gates]; unfold m_next; cbn [m_gates]; lia|]. split; [apply seq_ok; unfold m_next; cbn [m_gates]; lia|].
        cbn [m_op]. unfold m_next. cbn [m_gates]. change (nwires [GPub false]) with 1. lia.
      + intro ins. cbn [m_step]. unfold m_next. cbn [m_gates]. rewrite <- (int_bits_len val_sz v) at 2. now apply step_field.
    - destruct K as [Ki [Kv _]]. apply minv_snoc; [now apply minv_more| |].
      + rewrite !nwires_app, nwires_pubs, !int_bits_len. change (nwires [GPub true]) with 1.
        split; [eapply wires_ok_le; [exact Ki|lia]|]. split; [apply seq_ok; unfold m_next; cbn [m_gates]; lia|]. split; [eapply wires_ok_le; [exact Kv|lia]|].
        cbn [m_op]. unfold m_next. cbn [m_gates]. lia.
      + intro ins. cbn [m_step]. unfold m_next. cbn [m_gates]. pose proof (step_field ins gs (N.of_nat (length recs)) [] [GPub true] eq_refl) as E.
        cbn [map app length] in E. rewrite Nat.add_0_r in E. exact E.
    - destruct K as [Ki [Ko _]]. apply minv_snoc; [now apply minv_more| |].
      + rewrite !nwires_app, nwires_ins, nwires_pubs, !int_bits_len.
        split; [eapply wires_ok_le; [exact Ki|lia]|]. split; [apply seq_ok; unfold m_next; cbn [m_gates]; lia|]. split; [apply seq_ok; unfold m_next; cbn [m_gates]; lia|].
        cbn [m_op]. lia.
      + intro ins. cbn [m_step]. unfold m_next. cbn [m_gates]. rewrite <- (int_bits_len val_sz v) at 2.
        pose proof (step_field ins gs (N.of_nat (length recs)) (int_bits val_sz v) [] eq_refl) as E. rewrite app_nil_r in E. exact E.
  Qed.
  Lemma calls_ok_cons w o os : calls_ok index_sz step_sz val_sz w (o :: os) <->
    calls_ok index_sz step_sz val_sz w [o] /\
    calls_ok index_sz step_sz val_sz (m_next (m_do {| m_gates := map GPub (repeat false w); m_recs := [] |} o)) os.
  Proof.
    unfold RamGateModel.m_do, m_now. destruct o; cbn [calls_ok m_gates m_recs]; unfold m_next; cbn [m_gates];
      rewrite ?nwires_app, ?nwires_ins, ?nwires_pubs, ?int_bits_len, ?repeat_length; cbn [length];
      try change (nwires [GPub false]) with 1; try change (nwires [GPub true]) with 1; rewrite ?Nat.add_assoc; tauto.
  Qed.
  Lemma m_do_next s s' o : m_next s = m_next s' -> m_next (m_do s o) = m_next (m_do s' o).
  Proof.
    unfold RamGateModel.m_do, m_now. intro E. destruct o; unfold m_next in *; cbn [m_gates] in *; rewrite !nwires_app, E, ?nwires_ins, ?nwires_pubs, ?nwires_app, ?nwires_pubs, ?int_bits_len; reflexivity.
  Qed.
  Lemma m_fold_inv os : forall s, minv s -> calls_ok index_sz step_sz val_sz (m_next s) os ->
    minv (fold_left m_do os s) /\ length (m_recs (fold_left m_do os s)) = length (m_recs s) + calls os.
  Proof.
    induction os as [|o os IH]; intros s H K; [cbn; split; [exact H|unfold calls; cbn; lia]|]. cbn [fold_left].
    apply calls_ok_cons in K. destruct K as [K1 K2].
    rewrite (m_do_next _ s) in K2 by (unfold m_next; cbn [m_gates]; now rewrite nwires_pubs, repeat_length).
    destruct (IH (m_do s o) (m_do_inv s o H K1) K2) as [A B]. split; [exact A|]. rewrite B. unfold calls.
    destruct o; cbn [RamGateModel.m_do m_recs filter is_call length]; rewrite ?app_length; cbn [length]; lia.
  Qed.
  Lemma m_run_inv os : calls_ok index_sz step_sz val_sz 0 os -> minv (m_run os) /\ length (m_recs (m_run os)) = calls os.
  Proof.
    intro K. unfold RamGateModel.m_run. apply (m_fold_inv os {| m_gates := []; m_recs := [] |}); [|exact K].
    intros i m E. destruct i; discriminate.
  Qed.

  (** * The whole circuit *)
  Lemma feeds_ins claims : exists bs, flat_map (m_feed index_sz step_sz val_sz) claims = map GIn bs /\ length bs = length claims * m_width index_sz step_sz val_sz.
  Proof.
    induction claims as [|e claims (bs & E & L)]; [now exists []|]. cbn [flat_map]. rewrite E. unfold m_feed at 1. rewrite <- map_app. eexists. split; [reflexivity|].
    rewrite !app_length, L, !int_bits_len. unfold m_width. cbn [length]. lia.
  Qed.
  Lemma sorted_ok w n : Forall (claim_ok index_sz step_sz val_sz (w + n * m_width index_sz step_sz val_sz)) (m_sorted index_sz step_sz val_sz w n).
  Proof.
    apply Forall_forall. intros m Hm. apply in_map_iff in Hm. destruct Hm as (i & <- & Hi). apply in_seq in Hi.
    assert (B : (i + 1) * m_width index_sz step_sz val_sz <= n * m_width index_sz step_sz val_sz) by (apply Nat.mul_le_mono_r; lia).
    unfold m_width in *. unfold m_fed, claim_ok. cbn [m_idx m_step m_val m_op].
    split; [apply seq_ok; lia|]. split; [apply seq_ok; lia|]. split; [apply seq_ok; lia|]. lia.
  Qed.
  Lemma sorted_len w n : length (m_sorted index_sz step_sz val_sz w n) = n.
  Proof. unfold m_sorted. now rewrite map_length, seq_length. Qed.
  Lemma run_condition ws l : 1 <= step_sz -> Forall (claim_ok index_sz step_sz val_sz (length ws)) l ->
    runs (b_condition l) ws (is_wire (rw_order index_sz step_sz (map (entry_at ws) l))).
  Proof.
    intros Hs F. unfold b_condition. eapply runs_bind; [apply run_pub|]. intros e t Ht.
    assert (M : map (entry_at (ws ++ e)) l = map (entry_at ws) l).
    { apply map_ext_in. intros m Hm. rewrite Forall_forall in F. apply (entry_app index_sz step_sz val_sz (length ws)); auto. }
    rewrite <- M. apply (run_order index_sz step_sz val_sz l Hs _ _ true Ht). eapply Forall_impl; [|exact F]. intros m Hm. eapply claim_ok_le; [exact Hm|rewrite app_length; lia].
  Qed.
  Lemma shape_condition l w : 1 <= step_sz -> Forall (claim_ok index_sz step_sz val_sz w) l ->
    shape (b_condition l) ((length l - 1) * (2 * index_sz + step_sz + val_sz + 7)).
  Proof.
    intros Hs F. unfold b_condition. eapply shape_eq; [eapply shape_bind; [apply shape_p|intro; apply (shape_order index_sz step_sz val_sz l Hs)]|reflexivity].
    eapply Forall_impl; [|exact F]. intros m ((A & _) & (B & _) & (C & _) & _). auto.
  Qed.
  Variables (os : list mop) (claims : list entry) (post : list gate).
  Hypothesis Hstep : 1 <= step_sz.
  Hypothesis Hcalls : calls_ok index_sz step_sz val_sz 0 os.
  Hypothesis Hclaims : length claims = calls os.
  Let bc := m_check index_sz step_sz val_sz os claims post.
  Let sorted := fst (m_lists index_sz step_sz val_sz os).
  Let recs := snd (m_lists index_sz step_sz val_sz os).
  (** structure of the circuit for all inputs *)
  Lemma check_struct : exists gs cond bs,
    bc = m_gates (m_run os) ++ map GIn bs ++ gs ++ [GReveal cond] ++ post /\
    b_condition sorted (m_next (m_run os) + length bs) = (gs, cond) /\
    length bs = calls os * m_width index_sz step_sz val_sz /\ flat_map (m_feed index_sz step_sz val_sz) claims = map GIn bs.
  Proof.
    unfold bc, m_check, sorted, m_lists. cbn [fst]. destruct (feeds_ins claims) as (bs & E & L). rewrite E, nwires_ins.
    destruct (b_condition (m_sorted index_sz step_sz val_sz (m_next (m_run os)) (length (m_recs (m_run os)))) (m_next (m_run os) + length bs)) as [gs cond] eqn:Ec.
    exists gs, cond, bs. split; [reflexivity|]. split; [exact Ec|]. split; [now rewrite L, Hclaims|reflexivity].
  Qed.
  Lemma check_meaning ins : let W := plain_wires (with_inputs ins bc) in
    Forall (claim_ok index_sz step_sz val_sz (length W)) sorted /\ Forall (rec_ok (length W)) recs /\ length sorted = calls os /\ length recs = calls os /\
    nth (m_reveal step_sz val_sz os) (plain_outputs (with_inputs ins bc)) false = rw_order index_sz step_sz (map (entry_at W) sorted) /\
    (forall i m, nth_error recs i = Some m -> field W (m_step m) = (N.of_nat i mod 2 ^ N.of_nat step_sz)%N) /\
    exists e, W = plain_wires (with_inputs ins (m_gates (m_run os) ++ flat_map (m_feed index_sz step_sz val_sz) claims)) ++ e.
  Proof.
    intro W. destruct check_struct as (gs & cond & bs & E & Ec & Lb & Ef). destruct (m_run_inv os Hcalls) as [I L].
    set (G := m_gates (m_run os)) in *. unfold W in *. rewrite E, Ef.
    assert (SO : Forall (claim_ok index_sz step_sz val_sz (nwires G + length bs)) sorted).
    { unfold sorted, m_lists. cbn [fst]. rewrite L, Lb. apply sorted_ok. }
    assert (SL : length sorted = calls os) by (unfold sorted, m_lists; cbn [fst]; now rewrite sorted_len).
    set (W1 := plain_wires (with_inputs ins (G ++ map GIn bs))).
    assert (L1 : length W1 = nwires G + length bs) by (unfold W1; now rewrite wires_len, nwires_app, nwires_ins).
    assert (SO1 : Forall (claim_ok index_sz step_sz val_sz (length W1)) sorted) by now rewrite L1.
    destruct (run_condition W1 sorted Hstep SO1) as (e & Ee & We).
    change (nwires G) with (m_next (m_run os)) in L1. rewrite L1, Ec in Ee, We. cbn [fst snd] in Ee, We.
    pose proof (shape_condition sorted _ Hstep SO (m_next (m_run os) + length bs)) as [_ Lg]. rewrite Ec in Lg. cbn [fst] in Lg.
    destruct (wires_ext ins (G ++ map GIn bs) (gs ++ [GReveal cond] ++ post)) as [e2 E2]. rewrite <- app_assoc in E2. fold W1 in E2.
    assert (LW : length W1 <= length (plain_wires (with_inputs ins (G ++ map GIn bs ++ gs ++ [GReveal cond] ++ post)))) by (rewrite E2, app_length; lia).
    split; [eapply Forall_impl; [|exact SO1]; intros m Hm; eapply claim_ok_le; [exact Hm|exact LW]|].
    assert (RO : Forall (rec_ok (nwires G)) recs).
    { apply Forall_forall. intros m Hm. apply In_nth_error in Hm. destruct Hm as [i Hi]. destruct (I i m Hi) as [A _]. exact A. }
    split; [eapply Forall_impl; [|exact RO]; intros m Hm; eapply rec_ok_le; [exact Hm|]; revert LW; rewrite L1; unfold m_next; fold G; lia|].
    split; [exact SL|]. split; [exact L|]. split; [|split].
    - rewrite E2. assert (M : map (entry_at (W1 ++ e2)) sorted = map (entry_at W1) sorted).
      { apply map_ext_in. intros m Hm. rewrite Forall_forall in SO1. apply (entry_app index_sz step_sz val_sz (length W1)); auto. }
      rewrite M. unfold plain_outputs. rewrite (app_assoc G), with_inputs_app, plain_eval_app.
      change (fst (plain_eval [] [] (with_inputs ins (G ++ map GIn bs)))) with W1.
      rewrite (with_inputs_app gs), (with_inputs_logic gs) by exact Lg. rewrite (plain_eval_app gs), Ee. cbn [fst snd]. cbn [app with_inputs plain_eval].
      match goal with |- context [plain_eval ?x ?y ?z] => destruct (plain_eval_ext z x y) as (e3 & o3 & -> & _) end. cbn [snd].
      destruct (plain_eval_ext (with_inputs ins (G ++ map GIn bs)) [] []) as (e4 & o4 & E4 & _ & Lo). rewrite E4. cbn [snd app].
      assert (X : m_reveal step_sz val_sz os = length o4).
      { rewrite Lo. destruct (with_inputs_count (G ++ map GIn bs) ins) as (_ & -> & _). unfold nrev, m_reveal. rewrite filter_app, app_length. fold G.
        replace (filter _ (map GIn bs)) with (@nil gate); [cbn; lia|]. clear. induction bs; auto. }
      rewrite X, <- app_assoc. rewrite app_nth2 by lia. rewrite Nat.sub_diag. cbn [app nth]. apply We.
    - intros i m Hi. destruct (I i m Hi) as [A B]. destruct (wires_ext ins G (map GIn bs ++ gs ++ [GReveal cond] ++ post)) as [e5 ->].
      rewrite field_app; [apply B|]. rewrite wires_len. apply A.
    - exists e2. exact E2.
  Qed.
  Lemma check_ands : count_and bc = count_and (m_gates (m_run os)) + (calls os - 1) * (2 * index_sz + step_sz + val_sz + 7) + count_and post.
  Proof.
    destruct check_struct as (gs & cond & bs & E & Ec & Lb & Ef). rewrite E, !count_and_app. destruct (m_run_inv os Hcalls) as [I L].
    assert (SO : Forall (claim_ok index_sz step_sz val_sz (m_next (m_run os) + calls os * m_width index_sz step_sz val_sz)) sorted).
    { unfold sorted, m_lists. cbn [fst]. rewrite L. apply sorted_ok. }
    pose proof (shape_condition sorted _ Hstep SO (m_next (m_run os) + length bs)) as [C _]. rewrite Ec in C. cbn [fst] in C. rewrite C.
    assert (SL : length sorted = calls os) by (unfold sorted, m_lists; cbn [fst]; now rewrite sorted_len). rewrite SL.
    assert (Z : count_and (map GIn bs) = 0) by (clear; induction bs; auto). rewrite Z. cbn [count_and]. lia.
  Qed.
  (** the recorded list is the numbered log *)
  Lemma recs_numbered ws : (forall i m, nth_error recs i = Some m -> field ws (m_step m) = N.of_nat i) ->
    map (entry_at ws) recs = numbered 0 (map (access_at ws) recs).
  Proof.
    intro H. unfold numbered. assert (G : forall l s, (forall i m, nth_error l i = Some m -> field ws (m_step m) = N.of_nat (s + i)) ->
      map (entry_at ws) l = map (fun ix : nat * acc => {| e_idx := a_addr (snd ix); e_step := N.of_nat (fst ix); e_op := a_write (snd ix); e_val := a_val (snd ix) |})
        (combine (seq s (length (map (access_at ws) l))) (map (access_at ws) l))).
    { clear. induction l as [|m l IH]; intros s H; [reflexivity|]. cbn [map length seq combine]. f_equal.
      - unfold entry_at, access_at. cbn [fst snd a_addr a_write a_val]. rewrite (H 0 m eq_refl). now rewrite Nat.add_0_r.
      - apply IH. intros i m' Hi. rewrite (H (S i) m' Hi). f_equal. lia. }
    apply (G recs 0). exact H.
  Qed.
End Prog.
