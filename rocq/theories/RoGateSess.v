(** The whole check of the read-only memory: boolean session, packed labels and set equality under one key. *)
From Coq Require Import NArith List Bool Arith Lia Permutation Sorted.
From Verif Require Import Word WordProofs GF128 GF128Ring GF128Field PolyRoots ListUtil GfmulModel BoolModel BoolSpec BoolProofs BoolAlg BoolThms BoolThms2
  F2kModel F2kSpec F2kAlg F2kProofs VoleF2kSpec RamModel RamSpec RamPack RamThms RamSess RamProd PropRam RamGateModel RamGateSpec RamGateProofs RamGateThms RamGateSess
  RoGateModel RoGateSpec RoGateProofs.
Import ListNotations.
Ltac Zify.zify_post_hook ::= idtac.

Lemma q_pack_kof d index_sz val_sz sw m : index_sz + val_sz <= 128 -> index_sz <= length (q_idx m) -> val_sz <= length (q_val m) ->
  q_pack index_sz val_sz (map (kof d) sw) m =
  key_of d (ro_word index_sz val_sz (pair_at (map snd sw) m), q_pack index_sz val_sz (map fst sw) m).
Proof.
  intros Hw Hi Hv. unfold q_pack.
  assert (K : forall l, map (wire (map (kof d) sw)) l = map (kof d) (map (swire sw) l)) by (intro l; rewrite map_map; apply map_ext; intro; apply wire_kof).
  assert (F : forall l, map (wire (map fst sw)) l = map fst (map (swire sw) l)) by (intro l; rewrite map_map; apply map_ext; intro; apply wire_fst).
  assert (G : forall l, map (pwire (map snd sw)) l = map snd (map (swire sw) l)) by (intro l; rewrite map_map; apply map_ext; intro; apply pwire_snd).
  rewrite !K, !F. unfold pair_at, field. rewrite !G. apply ro_pack_mac_kof; now rewrite ?map_length.
Qed.
Section Check.
  Variables (index_sz val_sz : nat) (pre : list gate) (data : list (list nat)) (os : list qop) (claims : list (N * N)) (post : list gate).
  Hypothesis Hwidth : index_sz + val_sz <= 128.
  Hypothesis Hprog : program_ok index_sz val_sz pre data os.
  Hypothesis Hclaims : length claims = records data os.
  Hypothesis Hdata : (N.of_nat (length data) <= 2 ^ N.of_nat index_sz)%N.
  Hypothesis Hlong64 : (N.of_nat (records data os) < 2 ^ 64)%N.
  Notation bc := (q_check index_sz val_sz pre data os claims post).
  Notation sorted := (fst (q_lists index_sz val_sz pre data os)).
  Notation recs := (snd (q_lists index_sz val_sz pre data os)).
  Definition qelem (ws : list bool) (i : nat) : N := nth i (map (fun m => ro_word index_sz val_sz (pair_at ws m)) (sorted ++ recs)) 0%N.
  Lemma qall_lengths m : In m (sorted ++ recs) -> index_sz <= length (q_idx m) /\ val_sz <= length (q_val m).
  Proof.
    clear Hwidth Hlong64 Hdata. intro H. destruct (qcheck_meaning index_sz val_sz pre data os claims post Hprog Hclaims []) as (A & B & _). cbv zeta in A, B.
    apply in_app_or in H. destruct H as [H|H].
    - rewrite Forall_forall in A. destruct (A m H) as ((A1 & _) & (A2 & _)). rewrite A1, A2. lia.
    - rewrite Forall_forall in B. destruct (B m H) as ((A1 & _) & (A2 & _)). rewrite A2. lia.
  Qed.
  Lemma qmacs_key d sw i : q_macs index_sz val_sz (map (kof d) sw) pre data os i =
    key_of d (qelem (map snd sw) i, q_macs index_sz val_sz (map fst sw) pre data os i).
  Proof.
    unfold q_macs, qelem. pose proof qall_lengths as AL. set (L := sorted ++ recs) in *. clearbody L.
    destruct (lt_dec i (length L)) as [Hi|Hi].
    - destruct (nth_error L i) as [m|] eqn:E; [|apply nth_error_None in E; lia].
      rewrite !(nth_error_nth _ i _ (map_nth_error _ i L E)).
      apply nth_error_In in E. destruct (AL m E) as (A1 & A2). now apply q_pack_kof.
    - rewrite !nth_overflow by (rewrite map_length; lia). symmetry. apply key_of_zero.
  Qed.
  (** facts about the recorded list, for all inputs *)
  Lemma qlog_facts ins : let W := plain_wires (with_inputs ins bc) in
    map (pair_at W) recs = ro_records (map (field W) data) (reads_at index_sz val_sz W pre data os) /\
    Forall (fun x => (x < 2 ^ N.of_nat val_sz)%N) (map (field W) data) /\
    Forall (ro_fits index_sz val_sz) (reads_at index_sz val_sz W pre data os) /\
    Forall (fun e => (fst e < 2 ^ N.of_nat (index_sz + 1))%N /\ (snd e < 2 ^ N.of_nat val_sz)%N) (map (pair_at W) sorted) /\
    length sorted = records data os /\ length recs = records data os /\
    q_verdict (q_reveal index_sz val_sz pre data os) (records data os - 1) (plain_outputs (with_inputs ins bc)) = ro_order index_sz (map (pair_at W) sorted).
  Proof.
    clear Hwidth Hlong64. intro W. destruct (qcheck_meaning index_sz val_sz pre data os claims post Hprog Hclaims ins) as (A & B & L1 & O & [e EW] & _ & _). fold W in A, B, O, EW.
    destruct (run_records index_sz val_sz pre data os claims Hprog Hclaims) as (L2 & R & V & RI & D).
    split; [|split; [|split; [|split; [|split; [exact L1|split; [exact L2|exact O]]]]]].
    - apply (recorded_list index_sz val_sz pre data os claims Hprog Hclaims); [exact Hdata|]. intros i m Hi Hm. rewrite EW. rewrite field_app; [now apply (D i m)|]. rewrite wires_len.
      rewrite Forall_forall in R. apply nth_error_In in Hm. apply (R m Hm).
    - apply Forall_forall. intros x Hx. apply in_map_iff in Hx. destruct Hx as (l & <- & Hl). apply field_lt. destruct Hprog as [F _]. rewrite Forall_forall in F. apply (F l Hl).
    - unfold reads_at. apply Forall_forall. intros x Hx. apply in_map_iff in Hx. destruct Hx as (m & <- & Hm).
      change (q_recs (q_run index_sz val_sz pre data os)) with recs in Hm. rewrite Forall_forall in RI, B. pose proof (RI m Hm) as H1.
      assert (Im : In m recs) by (rewrite <- (firstn_skipn (length data) recs); apply in_or_app; now right).
      destruct (B m Im) as [_ [B2 _]]. split; cbn [pair_at fst snd]; now apply field_lt.
    - apply Forall_forall. intros x Hx. apply in_map_iff in Hx. destruct Hx as (m & <- & Hm). rewrite Forall_forall in A. destruct (A m Hm) as ((A1 & _) & (A2 & _)).
      split; cbn [pair_at fst snd]; now apply field_lt.
  Qed.
  (** ** Soundness *)
  Lemma qcheck_sound r0 r1 pM threads csz seeds bitmsg D (Deqb : D -> D -> bool) H voleV voleM bM oM fthreads bufsz polysz rs :
    (forall a b, Deqb a b = true -> a = b) -> 1 <= fthreads -> 1 <= bufsz -> 1 <= records data os ->
    let cm := commit pM csz bitmsg bc in
    let W := plain_wires (with_inputs (c_ins cm) bc) in
    ~ and_errors_cancel threads seeds cm ->
    Forall (fun m => (field W (q_idx m) < 2 ^ N.of_nat index_sz)%N) sorted ->
    ~ ro_consistent (map (field W) data) (reads_at index_sz val_sz W pre data os) -> NoDup rs ->
    (forall r, In r rs -> (r < 2 ^ 128)%N /\
       ro_check_passes r0 r1 pM threads csz seeds bitmsg D Deqb H voleV voleM bM oM fthreads bufsz polysz index_sz val_sz pre data os claims post r) ->
    length rs < records data os.
  Proof.
    intros Deq Ht Hb H1 cm W NA Hin NR ND Hall.
    destruct (qlog_facts (c_ins cm)) as (En & LD & LF & CF & L1 & L2 & O). fold W in En, LD, LF, CF, O.
    destruct rs as [|ra rs']; [cbn; lia|].
    assert (Sess : forall r, In r (ra :: rs') -> exists s, s_exec r0 r1 pM threads csz bitmsg bc = Some s /\ c_wires cm = W /\
        ro_order index_sz (map (pair_at W) sorted) = true /\
        seteq_passes (fun i => (qelem (c_wires cm) i, q_macs index_sz val_sz (map fst (s_wires s)) pre data os i)) voleV voleM bM oM fthreads bufsz polysz true (records data os) r).
    { intros r Hr. destruct (Hall r Hr) as [_ (chk & dig & fseeds & pseeds & junk & corr & fbits & fchk & polymsg & g1 & g2 & msg & ds & c & a0 & a1 & Ec & Hpm & NDd & L6 & Hd & NH & C1 & C2)].
      cbv zeta in C1, C2, Hd, NH. fold cm in C1, C2.
      destruct (accepted_session r0 r1 pM threads csz seeds bitmsg chk D Deqb H dig bc ds Deq NDd) as (s & Es & Hok & Hv); [lia| |exact NA|exact NH|].
      { intros d Id. destruct (Hd d Id) as [Vd (v & w & E1 & E2 & _)]. split; [exact Vd|]. exists v. auto. }
      fold cm in Hok, Hv. exists s. split; [exact Es|].
      assert (EW : c_wires cm = W) by (symmetry; apply no_errors_wires; exact Hok).
      split; [exact EW|].
      split.
      - destruct ds as [|d ds']; [cbn in L6; lia|]. destruct (Hd d (or_introl eq_refl)) as [_ (v & w & E1 & _ & E3 & _)].
        destruct (Hv d v (or_introl eq_refl) E1) as [_ Ho]. rewrite Ho in E3. rewrite <- O. exact E3.
      - exists fseeds, pseeds, junk, corr, fbits, fchk, polymsg, g1, g2, msg, ds, c, a0, a1.
        split; [exact Ec|]. split; [exact Hpm|]. split; [exact NDd|]. split; [exact L6|]. split; [|split; [exact C1|exact C2]].
        intros d Id. destruct (Hd d Id) as [Vd (v & w & E1 & E2 & E3 & E4 & E5 & E6)]. split; [exact Vd|]. exists w. split; [|auto].
        unfold f_session. rewrite <- E4. apply fv_exec_extk. intro i. destruct (Hv d v Id E1) as [Hw _]. rewrite Hw, qmacs_key.
        unfold cm. rewrite (exec_wires _ _ _ _ _ _ _ _ Es). reflexivity. }
    destruct (Sess ra (or_introl eq_refl)) as (s & Es & EW & Ord & _).
    rewrite <- L1, <- (map_length (pair_at W)).
    refine (C33_session index_sz val_sz (map (field W) data) (reads_at index_sz val_sz W pre data os) (map (pair_at W) sorted)
      (fun i => (qelem (c_wires cm) i, q_macs index_sz val_sz (map fst (s_wires s)) pre data os i)) voleV voleM bM oM fthreads bufsz polysz (ra :: rs')
      Ht Hb Hwidth _ _ _ _ LD LF _ Ord NR ND _).
    - rewrite map_length, L1. exact Hlong64.
    - rewrite map_length, L1. cbn [fst]. rewrite EW, map_map. apply (nth_halves (fun m => ro_word index_sz val_sz (pair_at W m)) sorted recs (records data os) 0%N L1 L2).
    - rewrite map_length, L1. cbn [fst]. rewrite EW, <- En, map_map. apply (nth_halves (fun m => ro_word index_sz val_sz (pair_at W m)) sorted recs (records data os) 0%N L1 L2).
    - rewrite map_length. exact Hdata.
    - apply Forall_forall. intros e He. rewrite Forall_forall in CF. destruct (CF e He) as (_ & F3). split; [|exact F3].
      apply in_map_iff in He. destruct He as (m & <- & Hm). rewrite Forall_forall in Hin. exact (Hin m Hm).
    - intros r Hr. split; [now apply Hall|]. rewrite map_length, L1. destruct (Sess r Hr) as (s' & Es' & _ & _ & P). rewrite Es in Es'. injection Es' as <-. exact P.
  Qed.
  (** ** Completeness *)
  Definition qfeed_bits (e : N * N) : list bool := int_bits val_sz (snd e) ++ int_bits (index_sz + 1) (fst e).
  Lemma qfeed_bits_len e : length (qfeed_bits e) = q_width index_sz val_sz.
  Proof. unfold qfeed_bits, q_width. rewrite !app_length, !int_bits_len. reflexivity. Qed.
  Lemma qfed_entry A e C w : length A = w -> (fst e < 2 ^ N.of_nat (index_sz + 1))%N /\ (snd e < 2 ^ N.of_nat val_sz)%N ->
    pair_at (A ++ qfeed_bits e ++ C) (q_fed index_sz val_sz w) = e.
  Proof.
    intros <- (F1 & F2). unfold pair_at, q_fed, qfeed_bits. cbn [q_idx q_val].
    assert (E1 : field (A ++ (int_bits val_sz (snd e) ++ int_bits (index_sz + 1) (fst e)) ++ C) (seq (length A) val_sz) = snd e).
    { rewrite <- app_assoc. rewrite <- (int_bits_len val_sz (snd e)) at 2. rewrite field_mid by reflexivity. rewrite int_bits_word. now apply N.mod_small. }
    assert (E2 : field (A ++ (int_bits val_sz (snd e) ++ int_bits (index_sz + 1) (fst e)) ++ C) (seq (length A + val_sz) (index_sz + 1)) = fst e).
    { pose proof (field_mid (A ++ int_bits val_sz (snd e)) (int_bits (index_sz + 1) (fst e)) C (length A + val_sz)) as Q.
      rewrite app_length, !int_bits_len in Q. rewrite <- !app_assoc in Q. rewrite <- app_assoc. rewrite Q by reflexivity. rewrite int_bits_word. now apply N.mod_small. }
    rewrite E1, E2. now destruct e.
  Qed.
  Lemma qfed_entries l : Forall (fun e => (fst e < 2 ^ N.of_nat (index_sz + 1))%N /\ (snd e < 2 ^ N.of_nat val_sz)%N) l ->
    forall A C w, length A = w -> map (pair_at (A ++ flat_map qfeed_bits l ++ C)) (q_sorted index_sz val_sz w (length l)) = l.
  Proof.
    clear Hwidth Hlong64 Hdata. intro F. induction l as [|e l IH]; intros A C w HA; [reflexivity|].
    assert (SS : q_sorted index_sz val_sz w (length (e :: l)) = q_fed index_sz val_sz w :: q_sorted index_sz val_sz (w + q_width index_sz val_sz) (length l)).
    { unfold q_sorted. cbn [length seq map]. f_equal; [f_equal; lia|]. rewrite <- seq_shift, map_map. apply map_ext. intro i. f_equal. rewrite Nat.mul_succ_l. clear. lia. }
    rewrite SS. cbn [map flat_map]. f_equal.
    - rewrite <- app_assoc. apply qfed_entry; [exact HA|exact (Forall_inv F)].
    - rewrite <- app_assoc, app_assoc. apply (IH (Forall_inv_tail F)). rewrite app_length, qfeed_bits_len. now rewrite HA.
  Qed.
  Lemma qfeeds_bits l : flat_map (q_feed index_sz val_sz) l = map GIn (flat_map qfeed_bits l).
  Proof. induction l as [|e l IH]; [reflexivity|]. cbn [flat_map]. rewrite IH, map_app. reflexivity. Qed.
  Lemma qprefix : let W := plain_wires bc in let W0 := plain_wires (q_gates (q_run index_sz val_sz pre data os)) in
    map (field W) data = map (field W0) data /\ reads_at index_sz val_sz W pre data os = reads_at index_sz val_sz W0 pre data os.
  Proof.
    intros W W0. destruct (qcheck_meaning index_sz val_sz pre data os claims post Hprog Hclaims []) as (_ & _ & _ & _ & [e EW] & _). rewrite !with_inputs_nil in EW. fold W W0 in EW.
    destruct (run_records index_sz val_sz pre data os claims Hprog Hclaims) as (_ & R & V & _).
    pose proof (wires_len [] (q_gates (q_run index_sz val_sz pre data os))) as LW. rewrite with_inputs_nil in LW. fold W0 in LW.
    change (nwires (q_gates (q_run index_sz val_sz pre data os))) with (q_next (q_run index_sz val_sz pre data os)) in LW. rewrite <- LW in R. rewrite EW. split.
    - apply map_ext_in. intros l Hl. apply field_app. rewrite <- V in Hl. apply in_map_iff in Hl. destruct Hl as (m & <- & Hm). rewrite Forall_forall in R.
      assert (Im : In m recs) by (rewrite <- (firstn_skipn (length data) recs); apply in_or_app; now left). apply (R m Im).
    - unfold reads_at. apply map_ext_in. intros m Hm. change (q_recs (q_run index_sz val_sz pre data os)) with recs in Hm. rewrite Forall_forall in R.
      assert (Im : In m recs) by (rewrite <- (firstn_skipn (length data) recs); apply in_or_app; now right). eapply qrec_app; [exact (R m Im)|reflexivity].
  Qed.
  Lemma qcheck_accepts r0 r1 pM threads csz seeds D (Deqb : D -> D -> bool) H p d voleV voleM bM oM fthreads bufsz polysz fseeds pseeds r junkp junkv g1 g2 g3 g4 h1 h2 :
    let W := plain_wires (q_gates (q_run index_sz val_sz pre data os)) in
    let recorded := ro_records (map (field W) data) (reads_at index_sz val_sz W pre data os) in
    (forall a, Deqb a a = true) -> valid_delta d ->
    Forall (fun e => (fst e < 2 ^ N.of_nat (index_sz + 1))%N /\ (snd e < 2 ^ N.of_nat val_sz)%N) claims ->
    ro_order index_sz claims = true ->
    Permutation (map (ro_word index_sz val_sz) claims) (map (ro_word index_sz val_sz) recorded) ->
    prv_exec r0 r1 pM threads csz seeds bc = Some p ->
    1 <= fthreads -> fthreads <= bufsz -> 6 <= bufsz -> 3 <= records data os -> (r < 2 ^ 128)%N -> (forall r i, (junkv r i < 2 ^ 128)%N) ->
    (records data os mod 4 = 1 \/ fthreads <= 2 * ((records data os - 1) mod 4)) ->
    ro_check_accepted r0 r1 pM threads csz seeds D Deqb H voleV voleM bM oM fthreads bufsz polysz fseeds pseeds junkp junkv g1 g2 g3 g4 h1 h2
      index_sz val_sz pre data os claims post r p d.
  Proof.
    intros W0 recorded Drefl Vd FC ORD PC Hp Ht Htb H6 H3 Hr Hj Hm. unfold ro_check_accepted. fold W0. fold recorded.
    set (ext := fun i => (nth i (map (ro_word index_sz val_sz) (claims ++ recorded)) 0%N, q_macs index_sz val_sz (p_wires p) pre data os i)).
    destruct (qlog_facts []) as (En & LD & LF & CF & L1 & L2 & O). rewrite with_inputs_nil in *. set (W := plain_wires bc) in *.
    destruct qprefix as [EP1 EP2]. fold W W0 in EP1, EP2. rewrite EP1, EP2 in En. fold recorded in En.
    assert (ES : map (pair_at W) sorted = claims).
    { destruct (qcheck_meaning index_sz val_sz pre data os claims post Hprog Hclaims []) as (_ & _ & _ & _ & _ & [e Ee] & _). rewrite !with_inputs_nil in Ee. fold W in Ee. rewrite Ee.
      rewrite qfeeds_bits. unfold plain_wires at 1. rewrite plain_eval_app, eval_ins. cbn [fst]. rewrite <- app_assoc.
      unfold q_lists. cbn [fst]. change (length (q_recs (q_run index_sz val_sz pre data os))) with (length recs). rewrite L2, <- Hclaims. apply qfed_entries; [exact FC|].
      pose proof (wires_len [] (q_gates (q_run index_sz val_sz pre data os))) as LW. rewrite with_inputs_nil in LW. exact LW. }
    destruct (honest_wires r0 r1 pM threads csz seeds (fun i => nth i (p_bits p) false) bc p Hp) as (s & Es & Ew1 & Ew2).
    { intros i b E. now apply nth_error_nth. }
    fold W in Ew2.
    destruct (session_complete r0 r1 pM threads csz seeds D Deqb H bc p d Drefl Vd Hp) as (v & Ev & Ho & _ & Hf).
    assert (Hw : v_wires v = map (kof d) (s_wires s)).
    { destruct Vd as [Hlt Hl1]. pose proof (sim_exec r0 r1 pM threads csz (fun i => nth i (p_bits p) false) d seeds (fun k => nth k (p_msgs p) (0, 0)%N) Hl1 Hlt bc) as S.
      rewrite Es in S. rewrite <- (ver_exec_ext _ _ (cot_key pM d)) in S by (intro; apply keys_vK). rewrite Ev in S. apply (vs_w _ _ _ _ _ S). }
    assert (EX : forall i, qelem W i = fst (ext i)).
    { intro i. unfold qelem, ext. cbn [fst]. rewrite map_app, map_app. rewrite <- (map_map (pair_at W)), ES, <- (map_map (pair_at W)), En. reflexivity. }
    assert (K : forall i, q_macs index_sz val_sz (v_wires v) pre data os i = key_of d (ext i)).
    { intro i. rewrite Hw, qmacs_key, <- Ew1, <- Ew2, EX. reflexivity. }
    assert (Ln : length recorded = records data os) by (rewrite <- En, map_length; exact L2).
    destruct (nth_halves (ro_word index_sz val_sz) claims recorded (records data os) 0%N Hclaims Ln) as [N1 N2].
    destruct (C33_honest_set_equality ext voleV voleM bM oM fthreads bufsz polysz fseeds pseeds true (records data os) r junkp junkv g1 g2 g3 g4 h1 h2 d Ht Htb H6 H3 Hlong64 Hr) as (c & a0 & a1 & Ec & w & E1 & E2 & E3 & E4); auto.
    { intros i Hi. unfold ext. cbn [fst]. destruct (nth_in_or_default i (map (ro_word index_sz val_sz) (claims ++ recorded)) 0%N) as [I| ->]; [|reflexivity].
      apply in_map_iff in I. destruct I as (e & <- & _). now apply ro_word_lt. }
    { unfold ext. cbn [fst]. rewrite N1, N2. exact PC. }
    exists v, c, a0, a1. split; [exact Ev|]. split; [exact Hf|]. split.
    { rewrite Ho, O, ES. exact ORD. }
    split; [exact Ec|]. cbv zeta. exists w. split; [|auto]. rewrite <- E1. unfold f_session. apply fv_exec_extk. exact K.
  Qed.
End Check.

(** the honest memory and reads, and their ranges *)
Lemma honest_facts index_sz val_sz pre data os : program_ok index_sz val_sz pre data os -> (N.of_nat (length data) <= 2 ^ N.of_nat index_sz)%N ->
  let W := plain_wires (q_gates (q_run index_sz val_sz pre data os)) in
  length (ro_records (map (field W) data) (reads_at index_sz val_sz W pre data os)) = records data os /\
  Forall (fun x => (x < 2 ^ N.of_nat val_sz)%N) (map (field W) data) /\ Forall (ro_fits index_sz val_sz) (reads_at index_sz val_sz W pre data os).
Proof.
  intros Hp Hd W. set (dummy := repeat (0, 0)%N (records data os)). assert (L : length dummy = records data os) by apply repeat_length.
  destruct (qlog_facts index_sz val_sz pre data os dummy [] Hp L Hd []) as (A & B & C & _ & _ & E & _). rewrite with_inputs_nil in *.
  destruct (qprefix index_sz val_sz pre data os dummy [] Hp L) as [E1 E2]. rewrite E1, E2 in *. fold W in A, B, C. split; [|auto].
  rewrite <- A, map_length. exact E.
Qed.
Lemma records_wide index_sz val_sz mem reads : (N.of_nat (length mem) <= 2 ^ N.of_nat index_sz)%N -> Forall (fun x => (x < 2 ^ N.of_nat val_sz)%N) mem ->
  Forall (ro_fits index_sz val_sz) reads ->
  Forall (fun e => (fst e < 2 ^ N.of_nat (index_sz + 1))%N /\ (snd e < 2 ^ N.of_nat val_sz)%N) (ro_records mem reads).
Proof.
  intros Hm Fm Fr. eapply Forall_impl; [|exact (ro_records_fits index_sz val_sz mem reads Hm Fm Fr)]. intros e [E1 E2]. split; [|exact E2].
  eapply N.lt_le_trans; [exact E1|]. apply N.pow_le_mono_r; lia.
Qed.
