(** The circuit of a program with a read-only memory, for all private inputs. *)
From Coq Require Import NArith List Bool Arith Lia.
From Verif Require Import Word WordProofs GF128 BoolModel BoolSpec F2kModel F2kSpec F2kProofs VoleF2kSpec RamModel RamSpec
  RamGateModel RamGateSpec RamGateProofs RamGateThms RamGateSess RoGateModel RoGateSpec.
Import ListNotations.
Ltac Zify.zify_post_hook ::= idtac.

Definition noin (g : gate) : bool := match g with GIn _ => false | _ => true end.
Lemma with_inputs_noin a : forall ins, forallb noin a = true -> with_inputs ins a = a.
Proof.
  induction a as [|g a IH]; intros ins H; [reflexivity|]. cbn [forallb] in H. apply andb_true_iff in H. destruct H as [Hg H].
  destruct g; try discriminate Hg; cbn [with_inputs]; now rewrite IH.
Qed.
Lemma logic_noin a : forallb logic a = true -> forallb noin a = true.
Proof. rewrite !forallb_forall. intros H g Hg. specialize (H g Hg). now destruct g. Qed.
Lemma nin_noin a : forallb noin a = true -> nin a = 0.
Proof.
  unfold nin. induction a as [|g a IH]; intro H; [reflexivity|]. cbn [forallb] in H. apply andb_true_iff in H. destruct H as [Hg H].
  destruct g; try discriminate Hg; cbn [filter]; auto.
Qed.

Section Prog.
  Variables (index_sz val_sz : nat).
  (** * The order of neighbours *)
  Definition qclaim_ok (w : nat) (m : qrec) : Prop := wires_ok w (index_sz + 1) (q_idx m) /\ wires_ok w val_sz (q_val m).
  Lemma qclaim_le w w' m : qclaim_ok w m -> w <= w' -> qclaim_ok w' m.
  Proof. intros [A B] H. split; now apply (wires_ok_le w). Qed.
  Definition pair_bit (a b : N * N) : bool :=
    ilt (index_sz + 1) (fst a) (fst b) || (N.eqb (fst a) (fst b) && N.eqb (snd a) (snd b)).
  Fixpoint pair_bits (l : list (N * N)) : list bool :=
    match l with a :: (b :: _) as r => pair_bit a b :: pair_bits r | _ => [] end.
  Lemma pair_bits_len l : length (pair_bits l) = length l - 1.
  Proof. induction l as [|a [|b l] IH]; [reflexivity|reflexivity|]. cbn [pair_bits length] in *. rewrite IH. lia. Qed.
  Lemma pair_bits_order l : forallb (fun b => b) (pair_bits l) = ro_order index_sz l.
  Proof. induction l as [|a [|b l] IH]; [reflexivity|reflexivity|]. cbn [pair_bits forallb ro_order] in *. rewrite IH. reflexivity. Qed.
  Lemma run_pair ws a b : qclaim_ok (length ws) a -> qclaim_ok (length ws) b ->
    runs (b_pair a b) ws (is_wire (pair_bit (pair_at ws a) (pair_at ws b))).
  Proof.
    intros [Ai Av] [Bi Bv]. unfold b_pair, pair_bit, pair_at. cbn [fst snd]. rewrite Nat.add_1_r in *.
    assert (FA : forall e n x, wires_ok (length ws) n x -> field (ws ++ e) x = field ws x) by (intros e n x [_ Fx]; now apply field_app).
    assert (LE : forall e, length ws <= length (ws ++ e)) by (intro; rewrite app_length; lia).
    eapply runs_bind; [apply (run_lt ws index_sz _ _ Ai Bi)|]. intros e1 l Hl.
    eapply runs_bind; [apply (run_eq _ (S index_sz)); eapply wires_ok_le; eauto|]. intros e2 ei Hei. rewrite !(FA _ (S index_sz)) in Hei by assumption.
    rewrite <- app_assoc in *. eapply runs_bind; [apply (run_eq _ val_sz); eapply wires_ok_le; eauto|]. intros e3 ev Hev. rewrite !(FA _ val_sz) in Hev by assumption.
    eapply runs_bind; [apply run_and; [|exact Hev]|].
    { apply is_wire_app. exact Hei. }
    intros e4 e He. apply run_or; [|exact He]. rewrite app_assoc. do 3 apply is_wire_app. exact Hl.
  Qed.
  Lemma shape_pair a b : length (q_idx a) = index_sz + 1 -> length (q_idx b) = index_sz + 1 -> length (q_val a) = val_sz -> length (q_val b) = val_sz ->
    shape (b_pair a b) (2 * index_sz + val_sz + 3).
  Proof.
    intros A B C D. rewrite Nat.add_1_r in A, B. unfold b_pair. eapply shape_eq.
    - eapply shape_bind; [apply (shape_lt index_sz); assumption|intro]. eapply shape_bind; [apply (shape_beq (S index_sz)); assumption|intro].
      eapply shape_bind; [apply (shape_beq val_sz); assumption|intro]. eapply shape_bind; [apply shape_a|intro]. apply shape_or.
    - lia.
  Qed.
  Lemma pair_app w ws e m : qclaim_ok w m -> w <= length ws -> pair_at (ws ++ e) m = pair_at ws m.
  Proof.
    intros [[_ A] [_ B]] H. unfold pair_at. rewrite !field_app; [reflexivity| |].
    - eapply Forall_impl; [|exact B]. intros i Hi; cbv beta in *; lia.
    - eapply Forall_impl; [|exact A]. intros i Hi; cbv beta in *; lia.
  Qed.
  Lemma order_eval l : forall ws, Forall (qclaim_ok (length ws)) l ->
    exists e, (forall outs, plain_eval ws outs (q_order (length ws) l) = (ws ++ e, outs ++ pair_bits (map (pair_at ws) l))) /\
      forallb noin (q_order (length ws) l) = true /\ count_and (q_order (length ws) l) = (length l - 1) * (2 * index_sz + val_sz + 3).
  Proof.
    induction l as [|a l IH]; intros ws F; [exists []; cbn; split; [intro; now rewrite !app_nil_r|auto]|].
    destruct l as [|b l]; [exists []; cbn; split; [intro; now rewrite !app_nil_r|auto]|].
    pose proof (Forall_inv F) as Ka. pose proof (Forall_inv (Forall_inv_tail F)) as Kb. apply Forall_inv_tail in F.
    cbn [q_order]. set (rest := b :: l) in *.
    destruct (run_pair ws a b Ka Kb) as (e1 & E1 & [H1 H2]).
    destruct (shape_pair a b (proj1 (proj1 Ka)) (proj1 (proj1 Kb)) (proj1 (proj2 Ka)) (proj1 (proj2 Kb)) (length ws)) as [C1 G1].
    destruct (b_pair a b (length ws)) as [gs eq]. cbn [fst snd] in *.
    assert (L1 : length (ws ++ e1) = length ws + nwires gs).
    { destruct (plain_eval_ext gs ws []) as (e & o & Ee & Le & _). rewrite E1 in Ee. injection Ee as Ee _. apply app_inv_head in Ee. subst e. now rewrite app_length, Le. }
    destruct (IH (ws ++ e1)) as (e2 & E2 & G2 & C2).
    { eapply Forall_impl; [|exact F]. intros m Hm. eapply qclaim_le; [exact Hm|rewrite app_length; lia]. }
    rewrite L1 in E2, G2, C2. exists (e1 ++ e2).
    assert (M : map (pair_at (ws ++ e1)) rest = map (pair_at ws) rest).
    { apply map_ext_in. intros m Hm. rewrite Forall_forall in F. apply (pair_app (length ws)); auto. }
    rewrite M in E2. split; [|split].
    - intro outs. rewrite plain_eval_app, E1. cbn [fst snd app plain_eval]. rewrite E2. f_equal; [now rewrite app_assoc|].
      rewrite <- app_assoc. f_equal. unfold rest. cbn [map pair_bits app]. now rewrite H2.
    - rewrite forallb_app, (logic_noin _ G1). cbn [andb app forallb noin]. exact G2.
    - rewrite count_and_app, C1. cbn [app count_and]. refine (eq_trans (f_equal (Nat.add _) C2) _). unfold rest. cbn [length]. rewrite !Nat.sub_succ, !Nat.sub_0_r. cbn [Nat.mul]. lia.
  Qed.

  (** * The recorded calls *)
  Definition qrec_ok (w : nat) (m : qrec) : Prop :=
    (index_sz <= length (q_idx m) /\ Forall (fun i => i < w) (q_idx m)) /\ wires_ok w val_sz (q_val m).
  Lemma qrec_le w w' m : qrec_ok w m -> w <= w' -> qrec_ok w' m.
  Proof. intros [[A A'] B] H. split; [split; [exact A|eapply Forall_impl; [|exact A']; intros i Hi; cbv beta in *; lia]|]. now apply (wires_ok_le w). Qed.
  Lemma qrec_app w ws e m : qrec_ok w m -> w <= length ws -> pair_at (ws ++ e) m = pair_at ws m.
  Proof.
    intros [[_ A] [_ B]] H. unfold pair_at. rewrite !field_app; [reflexivity| |].
    - eapply Forall_impl; [|exact B]. intros i Hi; cbv beta in *; lia.
    - eapply Forall_impl; [|exact A]. intros i Hi; cbv beta in *; lia.
  Qed.
  (** after [k] cells *)
  Definition initial (pre : list gate) (k : nat) (data : list (list nat)) (s : qst) : Prop :=
    q_next s = nwires pre + k * (index_sz + 1) /\ map q_val (q_recs s) = data /\ length data = k /\
    (exists X, q_gates s = pre ++ X) /\
    forall i m, nth_error (q_recs s) i = Some m -> qrec_ok (q_next s) m /\
      forall ins, field (plain_wires (with_inputs ins (q_gates s))) (q_idx m) = (N.of_nat i mod 2 ^ N.of_nat (index_sz + 1))%N.
  Lemma put_initial pre k data s x : initial pre k data s -> wires_ok (nwires pre) val_sz x ->
    initial pre (S k) (data ++ [x]) (q_put index_sz s (k, x)).
  Proof.
    intros (A & B & C & [X EX] & D) Hx. unfold q_put. cbn [fst snd]. unfold initial, q_next in *. cbn [q_gates q_recs].
    set (P := map GPub (int_bits (index_sz + 1) (N.of_nat k))). assert (LP : nwires P = index_sz + 1) by (unfold P; now rewrite nwires_pubs, int_bits_len).
    split; [rewrite nwires_app, LP; lia|]. split; [now rewrite map_app, B|]. split; [rewrite app_length; cbn; lia|].
    split; [exists (X ++ P); now rewrite EX, app_assoc|].
    assert (LR : length (q_recs s) = k) by (rewrite <- C, <- B; now rewrite map_length).
    intros i m Hi. destruct (lt_dec i (length (q_recs s))) as [L|L].
    - rewrite nth_error_app1 in Hi by exact L. destruct (D i m Hi) as [D1 D2]. split; [eapply qrec_le; [exact D1|rewrite nwires_app; lia]|].
      intro ins. destruct (wires_ext ins (q_gates s) P) as [e ->]. rewrite field_app; [apply D2|]. rewrite wires_len. apply D1.
    - rewrite nth_error_app2 in Hi by lia. destruct (i - length (q_recs s)) as [|j] eqn:Ei; [|destruct j; discriminate]. injection Hi as <-.
      replace i with k by lia. split.
      + split; cbn [q_idx q_val].
        * destruct (seq_ok (nwires (q_gates s ++ P)) (nwires (q_gates s)) (index_sz + 1)) as [S1 S2]; [rewrite nwires_app, LP; lia|]. split; [rewrite S1; lia|exact S2].
        * eapply wires_ok_le; [exact Hx|]. rewrite EX, !nwires_app. lia.
      + intro ins. cbn [q_idx]. rewrite wires_app. rewrite (with_inputs_logic P) by (unfold P; apply pubs_logic). unfold P. rewrite eval_pubs. cbn [fst].
        pose proof (field_mid (plain_wires (with_inputs ins (q_gates s))) (int_bits (index_sz + 1) (N.of_nat k)) [] _ (wires_len ins (q_gates s))) as Q.
        rewrite app_nil_r, int_bits_len in Q. rewrite Q. apply int_bits_word.
  Qed.
  Lemma fold_initial pre more : Forall (wires_ok (nwires pre) val_sz) more -> forall k data s, initial pre k data s ->
    initial pre (k + length more) (data ++ more) (fold_left (q_put index_sz) (combine (seq k (length more)) more) s).
  Proof.
    induction more as [|x more IH]; intros F k data s H; [cbn; now rewrite Nat.add_0_r, app_nil_r|]. cbn [length seq combine fold_left].
    replace (k + S (length more)) with (S k + length more) by lia. replace (data ++ x :: more) with ((data ++ [x]) ++ more) by (rewrite <- app_assoc; reflexivity).
    apply (IH (Forall_inv_tail F)). apply put_initial; [exact H|exact (Forall_inv F)].
  Qed.
  Lemma init_initial pre data : Forall (wires_ok (nwires pre) val_sz) data -> initial pre (length data) data (q_init index_sz pre data).
  Proof.
    intro F. unfold q_init. apply (fold_initial pre data F 0 [] {| q_gates := pre; q_recs := [] |}). split; [unfold q_next; cbn [q_gates]; lia|]. split; [reflexivity|].
    split; [reflexivity|]. split; [exists []; now rewrite app_nil_r|]. intros i m E. destruct i; discriminate.
  Qed.
  Lemma fold_reads os : forall s, reads_ok index_sz val_sz (q_next s) os ->
    exists X rd, let s' := fold_left (q_do val_sz) os s in
      q_gates s' = q_gates s ++ X /\ q_recs s' = q_recs s ++ rd /\ length rd = length (filter is_read os) /\
      Forall (fun m => qrec_ok (q_next s') m /\ length (q_idx m) = index_sz) rd.
  Proof.
    induction os as [|o os IH]; intros s K; [exists [], []; cbn; rewrite !app_nil_r; auto|]. cbn [fold_left].
    destruct o as [gs|idx v]; cbn [reads_ok] in K.
    - destruct (IH (q_do val_sz s (QGates gs))) as (X & rd & A & B & C & D).
      { unfold q_next in *. cbn [q_do q_gates]. now rewrite nwires_app. }
      exists (gs ++ X), rd. cbv zeta in *. split; [rewrite A; cbn [q_do q_gates]; now rewrite app_assoc|]. split; [exact B|]. split; [exact C|exact D].
    - destruct K as [Ki K]. destruct (IH (q_do val_sz s (QRead idx v))) as (X & rd & A & B & C & D).
      { unfold q_next in *. cbn [q_do q_gates]. now rewrite nwires_app, nwires_ins, int_bits_len. }
      exists (map GIn (int_bits val_sz v) ++ X), ({| q_idx := idx; q_val := seq (q_next s) val_sz |} :: rd). cbv zeta in *.
      split; [rewrite A; cbn [q_do q_gates]; now rewrite app_assoc|]. split; [rewrite B; cbn [q_do q_recs]; now rewrite <- app_assoc|].
      split; [cbn [filter is_read length]; now rewrite C|]. constructor; [|exact D].
      assert (N1 : q_next s + val_sz <= q_next (fold_left (q_do val_sz) os (q_do val_sz s (QRead idx v)))).
      { unfold q_next. rewrite A. cbn [q_do q_gates]. rewrite !nwires_app, nwires_ins, int_bits_len. lia. }
      split; [|apply Ki]. split; cbn [q_idx q_val].
      + destruct Ki as [K1 K2]. split; [lia|]. eapply Forall_impl; [|exact K2]. intros i Hi; cbv beta in *; lia.
      + apply seq_ok. lia.
  Qed.

  Variables (pre : list gate) (data : list (list nat)) (os : list qop) (claims : list (N * N)) (post : list gate).
  Hypothesis Hprog : program_ok index_sz val_sz pre data os.
  Hypothesis Hclaims : length claims = records data os.
  Notation s := (q_run index_sz val_sz pre data os).
  Notation bc := (q_check index_sz val_sz pre data os claims post).
  Notation sorted := (fst (q_lists index_sz val_sz pre data os)).
  Notation recs := (snd (q_lists index_sz val_sz pre data os)).
  Lemma run_records : length recs = records data os /\ Forall (qrec_ok (q_next s)) recs /\ map q_val (firstn (length data) recs) = data /\
    Forall (fun m => length (q_idx m) = index_sz) (skipn (length data) recs) /\
    forall i m, i < length data -> nth_error recs i = Some m ->
      forall ins, field (plain_wires (with_inputs ins (q_gates s))) (q_idx m) = (N.of_nat i mod 2 ^ N.of_nat (index_sz + 1))%N.
  Proof.
    destruct Hprog as [F K]. destruct (init_initial pre data F) as (A & B & _ & _ & D). rewrite <- A in K.
    destruct (fold_reads os _ K) as (X & rd & E1 & E2 & E3 & E4). fold (q_run index_sz val_sz pre data os) in E1, E2, E4. cbv zeta in *.
    change (snd (q_lists index_sz val_sz pre data os)) with (q_recs s). rewrite E2.
    assert (LR : length (q_recs (q_init index_sz pre data)) = length data) by (rewrite <- B at 2; now rewrite map_length).
    assert (NX : q_next (q_init index_sz pre data) <= q_next s) by (unfold q_next; rewrite E1, nwires_app; lia).
    split; [rewrite app_length, LR, E3; reflexivity|]. split; [|split; [|split]].
    - apply Forall_app. split; [|eapply Forall_impl; [|exact E4]; intros m Hm; apply Hm].
      apply Forall_forall. intros m Hm. apply In_nth_error in Hm. destruct Hm as [i Hi]. destruct (D i m Hi) as [D1 _]. eapply qrec_le; [exact D1|exact NX].
    - rewrite firstn_app, LR, Nat.sub_diag. cbn [firstn]. rewrite app_nil_r, <- LR, firstn_all. exact B.
    - rewrite skipn_app, LR, Nat.sub_diag. cbn [skipn]. rewrite <- LR at 1. rewrite skipn_all. cbn [app]. eapply Forall_impl; [|exact E4]. intros m Hm. apply Hm.
    - intros i m Hi Hm ins. rewrite nth_error_app1 in Hm by lia. destruct (D i m Hm) as [D1 D2]. rewrite E1.
      destruct (wires_ext ins (q_gates (q_init index_sz pre data)) X) as [e ->]. rewrite field_app; [apply D2|]. rewrite wires_len. apply D1.
  Qed.
  (** the recorded list is the memory followed by the reads *)
  Lemma recorded_list ws : (N.of_nat (length data) <= 2 ^ N.of_nat index_sz)%N ->
    (forall i m, i < length data -> nth_error recs i = Some m -> field ws (q_idx m) = (N.of_nat i mod 2 ^ N.of_nat (index_sz + 1))%N) ->
    map (pair_at ws) recs = ro_records (map (field ws) data) (reads_at index_sz val_sz ws pre data os).
  Proof.
    intros Hd HF. destruct run_records as (L & _ & V & _). rewrite <- (firstn_skipn (length data) recs) at 1. rewrite map_app. unfold ro_records, reads_at.
    change (snd (q_lists index_sz val_sz pre data os)) with (q_recs s) in *. f_equal. rewrite map_length.
    assert (P2 : (2 ^ N.of_nat index_sz <= 2 ^ N.of_nat (index_sz + 1))%N) by (apply N.pow_le_mono_r; lia).
    assert (G : forall l s0 dd, map q_val l = dd -> (forall i m, nth_error l i = Some m -> field ws (q_idx m) = N.of_nat (s0 + i)) ->
       map (pair_at ws) l = combine (map N.of_nat (seq s0 (length dd))) (map (field ws) dd)).
    { clear. induction l as [|m l IH]; intros s0 dd E H; subst dd; [reflexivity|]. cbn [map length seq combine]. f_equal.
      - unfold pair_at. rewrite (H 0 m eq_refl). now rewrite Nat.add_0_r.
      - apply IH; [reflexivity|]. intros i m' Hi. rewrite (H (S i) m' Hi). f_equal. lia. }
    apply (G _ 0 data V). intros i m Hi. assert (Li : i < length data).
    { assert (i < length (firstn (length data) (q_recs s))) by (apply nth_error_Some; congruence). rewrite firstn_length in H. lia. }
    cbn [Nat.add]. rewrite (HF i m Li).
    - apply N.mod_small. lia.
    - rewrite <- (firstn_skipn (length data) (q_recs s)). rewrite nth_error_app1; [exact Hi|]. apply nth_error_Some. congruence.
  Qed.
  (** * The whole circuit *)
  Lemma qfeeds_ins l : exists bs, flat_map (q_feed index_sz val_sz) l = map GIn bs /\ length bs = length l * q_width index_sz val_sz.
  Proof.
    induction l as [|e l (bs & E & L)]; [now exists []|]. cbn [flat_map]. rewrite E. unfold q_feed at 1. rewrite <- map_app. eexists. split; [reflexivity|].
    rewrite !app_length, L, !int_bits_len. unfold q_width. cbn [length]. lia.
  Qed.
  Lemma qsorted_ok w n : Forall (qclaim_ok (w + n * q_width index_sz val_sz)) (q_sorted index_sz val_sz w n).
  Proof.
    apply Forall_forall. intros m Hm. apply in_map_iff in Hm. destruct Hm as (i & <- & Hi). apply in_seq in Hi.
    assert (B : (i + 1) * q_width index_sz val_sz <= n * q_width index_sz val_sz) by (apply Nat.mul_le_mono_r; lia).
    unfold q_width in *. unfold q_fed, qclaim_ok. cbn [q_idx q_val]. split; apply seq_ok; lia.
  Qed.
  Lemma qsorted_len w n : length (q_sorted index_sz val_sz w n) = n.
  Proof. unfold q_sorted. now rewrite map_length, seq_length. Qed.
  Lemma verdict_app a b c n : length b = n -> q_verdict (length a) n (a ++ b ++ c) = forallb (fun x => x) b.
  Proof.
    intros <-. unfold q_verdict. assert (E : map (fun i => nth (length a + i) (a ++ b ++ c) false) (seq 0 (length b)) = b).
    { apply (nth_ext _ _ false false); [now rewrite map_length, seq_length|]. intros i Hi. rewrite map_length, seq_length in Hi.
      rewrite (nth_indep _ false (nth (length a + 0) (a ++ b ++ c) false)) by (now rewrite map_length, seq_length).
      rewrite (map_nth (fun i => nth (length a + i) (a ++ b ++ c) false)), seq_nth by exact Hi. cbn [Nat.add]. rewrite app_nth2_plus. now apply app_nth1. }
    rewrite <- E at 2. generalize (seq 0 (length b)). intro l. induction l as [|i l IH]; [reflexivity|]. cbn [map forallb]. now rewrite IH.
  Qed.
  Lemma qcheck_meaning ins : let W := plain_wires (with_inputs ins bc) in
    Forall (qclaim_ok (length W)) sorted /\ Forall (qrec_ok (length W)) recs /\ length sorted = records data os /\
    q_verdict (q_reveal index_sz val_sz pre data os) (records data os - 1) (plain_outputs (with_inputs ins bc)) = ro_order index_sz (map (pair_at W) sorted) /\
    (exists e, W = plain_wires (with_inputs ins (q_gates s)) ++ e) /\
    (exists e, W = plain_wires (with_inputs ins (q_gates s ++ flat_map (q_feed index_sz val_sz) claims)) ++ e) /\
    count_and bc = count_and (q_gates s) + (records data os - 1) * (2 * index_sz + val_sz + 3) + count_and post.
  Proof.
    intro W. destruct run_records as (L & RO & _). change (snd (q_lists index_sz val_sz pre data os)) with (q_recs s) in *.
    destruct (qfeeds_ins claims) as (bs & Ef & Lb).
    assert (E : bc = q_gates s ++ map GIn bs ++ q_order (q_next s + length bs) sorted ++ post).
    { unfold q_check, q_lists. cbn [fst]. now rewrite Ef, nwires_ins. }
    unfold W. rewrite E, Ef. set (G := q_gates s) in *.
    assert (SO : Forall (qclaim_ok (nwires G + length bs)) sorted).
    { unfold q_lists. cbn [fst]. rewrite L, Lb, Hclaims. apply qsorted_ok. }
    assert (SL : length sorted = records data os) by (unfold q_lists; cbn [fst]; now rewrite qsorted_len).
    set (W1 := plain_wires (with_inputs ins (G ++ map GIn bs))).
    assert (L1 : length W1 = nwires G + length bs) by (unfold W1; now rewrite wires_len, nwires_app, nwires_ins).
    rewrite <- L1 in SO. destruct (order_eval sorted W1 SO) as (e & Ee & Ge & Ce). rewrite L1 in Ee, Ge, Ce. change (nwires G) with (q_next s) in Ee, Ge, Ce.
    set (O := q_order (q_next s + length bs) sorted) in *.
    destruct (wires_ext ins (G ++ map GIn bs) (O ++ post)) as [e2 E2]. rewrite <- app_assoc in E2. fold W1 in E2.
    assert (LW : length W1 <= length (plain_wires (with_inputs ins (G ++ map GIn bs ++ O ++ post)))) by (rewrite E2, app_length; lia).
    split; [eapply Forall_impl; [|exact SO]; intros m Hm; eapply qclaim_le; [exact Hm|exact LW]|].
    split; [eapply Forall_impl; [|exact RO]; intros m Hm; eapply qrec_le; [exact Hm|]; revert LW; rewrite L1; unfold q_next; fold G; lia|].
    split; [exact SL|]. split; [|split; [apply wires_ext|split; [exists e2; exact E2|]]].
    - rewrite E2. assert (M : map (pair_at (W1 ++ e2)) sorted = map (pair_at W1) sorted).
      { apply map_ext_in. intros m Hm. rewrite Forall_forall in SO. apply (pair_app (length W1)); auto. }
      rewrite M. unfold plain_outputs. rewrite (app_assoc G), with_inputs_app, plain_eval_app.
      change (fst (plain_eval [] [] (with_inputs ins (G ++ map GIn bs)))) with W1.
      rewrite (with_inputs_app O), (with_inputs_noin O) by exact Ge. rewrite (plain_eval_app O), Ee. cbn [fst snd].
      match goal with |- context [plain_eval ?x ?y ?z] => destruct (plain_eval_ext z x y) as (e3 & o3 & -> & _) end. cbn [snd].
      destruct (plain_eval_ext (with_inputs ins (G ++ map GIn bs)) [] []) as (e4 & o4 & E4 & _ & Lo). rewrite E4. cbn [snd app].
      assert (X : q_reveal index_sz val_sz pre data os = length o4).
      { rewrite Lo. destruct (with_inputs_count (G ++ map GIn bs) ins) as (_ & -> & _). unfold nrev, q_reveal. rewrite filter_app, app_length. fold G.
        replace (filter _ (map GIn bs)) with (@nil gate); [cbn; lia|]. clear. induction bs; auto. }
      rewrite X, <- app_assoc, verdict_app by (rewrite pair_bits_len, map_length, SL; reflexivity). apply pair_bits_order.
    - rewrite !count_and_app, Ce, SL. assert (Z : count_and (map GIn bs) = 0) by (clear; induction bs; auto). rewrite Z. lia.
  Qed.
End Prog.
