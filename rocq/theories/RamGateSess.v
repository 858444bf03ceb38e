(** The whole memory check: boolean session, packed labels and set equality under one key. *)
From Coq Require Import NArith List Bool Arith Lia Permutation Sorted.
From Verif Require Import Word WordProofs GF128 GF128Ring GF128Field PolyRoots ListUtil GfmulModel BoolModel BoolSpec BoolProofs BoolAlg BoolThms BoolThms2
  F2kModel F2kSpec F2kAlg F2kProofs VoleF2kSpec RamModel RamSpec RamPack RamThms RamSess RamProd PropRam RamGateModel RamGateSpec RamGateProofs RamGateThms.
Import ListNotations.
Ltac Zify.zify_post_hook ::= idtac.

(** * An accepted boolean session *)
Lemma exec_wires r0 r1 pM threads csz bitmsg l s : s_exec r0 r1 pM threads csz bitmsg l = Some s ->
  c_wires (commit pM csz bitmsg l) = map snd (s_wires s).
Proof.
  unfold s_exec. intro H. destruct (s_run r0 r1 pM threads csz bitmsg s_init l) as [s1|] eqn:E; [|discriminate].
  assert (H0 : csim threads s_init c_init).
  { constructor; try reflexivity. intros k ci Hk. destruct k; discriminate. }
  pose proof (csim_run r0 r1 pM threads csz bitmsg l _ _ _ H0 E) as Hc. fold (commit pM csz bitmsg l) in Hc. rewrite (cs_w _ _ _ Hc).
  unfold s_final in H. destruct (s_buf s1); [now injection H as <-|]. unfold s_manage in H. destruct (and_ranges _ _); [|discriminate]. now injection H as <-.
Qed.
Lemma no_errors_wires pM csz bitmsg l : let cm := commit pM csz bitmsg l in
  Forall (fun b => Forall (fun e => e = false) b) (batches cm) -> plain_wires (with_inputs (c_ins cm) l) = c_wires cm.
Proof.
  intros cm H. destruct (commit_plain pM csz bitmsg l c_init) as [ins [revs [errs [H1 [H2 [H3 H4]]]]]].
  fold (commit pM csz bitmsg l) in *. fold cm in H1, H2, H3, H4. cbn in H1, H2, H3.
  unfold plain_wires. rewrite H1. specialize (H4 ltac:(rewrite <- H3, <- batches_concat; now apply Forall_concat) []).
  cbn [c_init c_wires] in H4. now rewrite H4.
Qed.
Lemma accepted_session r0 r1 pM threads csz seeds bitmsg chkmsg D (Deqb : D -> D -> bool) H dig c deltas :
  (forall a b, Deqb a b = true -> a = b) -> NoDup deltas -> 3 <= length deltas ->
  let cm := commit pM csz bitmsg c in
  let exec d := ver_exec r0 r1 (cot_key pM d) d threads csz seeds bitmsg chkmsg c in
  (forall d, In d deltas -> valid_delta d /\ exists v, exec d = Some v /\ ver_finalize Deqb H v dig = false) ->
  ~ and_errors_cancel threads seeds cm ->
  (forall d1 d2 v1 v2, In d1 deltas -> In d2 deltas -> exec d1 = Some v1 -> exec d2 = Some v2 -> H (v_hash v1) = H (v_hash v2) -> v_hash v1 = v_hash v2) ->
  exists s, s_exec r0 r1 pM threads csz bitmsg c = Some s /\
    Forall (fun b => Forall (fun e => e = false) b) (batches cm) /\
    forall d v, In d deltas -> exec d = Some v -> v_wires v = map (kof d) (s_wires s) /\ v_outs v = plain_outputs (with_inputs (c_ins cm) c).
Proof.
  intros Deq Hnd H3 cm exec Hall NA NH.
  destruct deltas as [|d0 [|d1 rest]]; [cbn in H3; lia|cbn in H3; lia|].
  set (deltas := d0 :: d1 :: rest) in *.
  assert (Hex : forall d, In d deltas -> exists v s, exec d = Some v /\
      s_exec r0 r1 pM threads csz bitmsg c = Some s /\ vsim d seeds chkmsg v s /\ v_cheat v = [] /\ H (v_hash v) = dig).
  { intros d Hd. destruct (Hall d Hd) as [[Hlt H1] [v [Ev Hf]]].
    pose proof (sim_exec r0 r1 pM threads csz bitmsg d seeds chkmsg H1 Hlt c) as S.
    unfold exec in Ev |- *. rewrite <- (ver_exec_ext _ _ (cot_key pM d)) in S by (intro; apply keys_vK). rewrite Ev in S.
    destruct (s_exec r0 r1 pM threads csz bitmsg c) as [s|]; [|easy].
    apply finalize_false in Hf. destruct Hf as [Hc Hh]. apply Deq in Hh.
    exists v, s. repeat split; auto; apply S. }
  destruct (Hex d0 (or_introl eq_refl)) as [v0 [s [Ev0 [Es [S0 [Hc0 Hh0]]]]]].
  destruct (exec_proj r0 r1 pM threads csz bitmsg c s Es) as [Pb [Pr Pi]]. fold cm in Pb, Pr.
  exists s. split; [exact Es|]. destruct (batches_dec (batches cm)) as [Hok|[k [errs [Hk Ht]]]].
  - split; [exact Hok|].
    pose proof (no_errors_plain pM csz bitmsg c Hok) as Hp. fold cm in Hp.
    destruct (Hex d1 (or_intror (or_introl eq_refl))) as [v1 [s1 [Ev1 [Es1 [S1 [_ Hh1]]]]]].
    rewrite Es in Es1. injection Es1 as <-.
    assert (Hrev : forall r, In r (s_rev s) -> snd (fst r) = snd r).
    { intros r Hin. destruct (bool_dec (snd (fst r)) (snd r)) as [E|Hne]; [exact E|exfalso].
      assert (E : v_hash v0 = v_hash v1) by (apply (NH d0 d1); [now left|right; now left|exact Ev0|exact Ev1|congruence]).
      rewrite (vs_h _ _ _ _ _ S0), (vs_h _ _ _ _ _ S1) in E.
      assert (E' : rev_key d0 r = rev_key d1 r).
      { clear -E Hin. induction (s_rev s) as [|r' l IH]; [easy|]. cbn in E. injection E as E1 E2. destruct Hin as [->|Hin]; auto. }
      unfold rev_key in E'. assert (X : xorb (snd (fst r)) (snd r) = true) by (destruct (snd (fst r)), (snd r); auto; now contradiction Hne).
      rewrite X in E'. cbn [choice] in E'.
      assert (E2 : d0 = d1) by (rewrite <- (lxor_cancel (fst (fst r)) d0), E'; apply lxor_cancel).
      subst d1. inversion Hnd as [|? ? Hni _]. apply Hni. now left. }
    intros d v Hd Ev. destruct (Hex d Hd) as [v' [s1 [Ev' [Es1' [S [_ _]]]]]]. rewrite Ev in Ev'. injection Ev' as <-. rewrite Es in Es1'. injection Es1' as <-.
    split; [apply (vs_w _ _ _ _ _ S)|]. rewrite Hp, Pr, map_map, (vs_o _ _ _ _ _ S). cbn. apply map_ext_in. intros r Hr. symmetry. now apply Hrev.
  - exfalso. rewrite Pb in Hk. rewrite nth_error_map in Hk.
    destruct (nth_error (s_checks s) k) as [ci|] eqn:Ek; [|discriminate]. cbn in Hk. injection Hk as <-.
    destruct (Pi k ci Ek) as [Ei [Er El]].
    destruct (N.eq_dec (combined_error (ci_ranges ci) (seeds k) (map eErr (ci_buf ci))) 0) as [Z|NZ].
    + apply NA. exists k, (map eErr (ci_buf ci)), (ci_ranges ci).
      rewrite Pb, nth_error_map, Ek, map_length. repeat split; auto.
    + enough (length deltas <= 2) by lia. rewrite <- (map_length toG deltas).
      eapply (GF_quad _ _ (gSE (ci_buf ci) (ci_ranges ci) (seeds k))).
      * rewrite gSE_combined. intro E. apply NZ. apply toG_inj; [apply combined_lt|reflexivity|exact E].
      * apply In_map_toG_inj; [|exact Hnd]. apply Forall_forall. intros d Hd. now destruct (Hall d Hd) as [[? _] _].
      * intros g Hg. apply in_map_iff in Hg. destruct Hg as [d [<- Hd]].
        destruct (Hex d Hd) as [v [s1 [_ [Es1 [S1 [Hc1 _]]]]]].
        rewrite Es in Es1. injection Es1 as <-.
        assert (Acc : ci_ok d seeds chkmsg ci = true).
        { rewrite (vs_x _ _ _ _ _ S1) in Hc1. apply repeat_nil_iff in Hc1.
          destruct (ci_ok d seeds chkmsg ci) eqn:Ec; [reflexivity|exfalso].
          apply nth_error_In in Ek.
          assert (In ci (filter (fun ci => negb (ci_ok d seeds chkmsg ci)) (s_checks s))).
          { apply filter_In. now rewrite Ec. }
          destruct (filter _ _); [easy|cbn in Hc1; lia]. }
        unfold ci_ok in Acc. rewrite Ei in Acc.
        exact (accept_poly _ _ _ _ _ _ Acc).
Qed.

(** * Packed labels *)
Lemma m_pack_kof d index_sz step_sz val_sz sw m : index_sz + step_sz + 1 + val_sz <= 128 ->
  index_sz <= length (m_idx m) -> val_sz <= length (m_val m) -> step_sz <= length (m_step m) ->
  m_pack index_sz step_sz val_sz (map (kof d) sw) m =
  key_of d (rw_word index_sz step_sz val_sz (entry_at (map snd sw) m), m_pack index_sz step_sz val_sz (map fst sw) m).
Proof.
  intros Hw Hi Hv Hs. unfold m_pack.
  assert (K : forall l, map (wire (map (kof d) sw)) l = map (kof d) (map (swire sw) l)) by (intro l; rewrite map_map; apply map_ext; intro; apply wire_kof).
  assert (F : forall l, map (wire (map fst sw)) l = map fst (map (swire sw) l)) by (intro l; rewrite map_map; apply map_ext; intro; apply wire_fst).
  assert (G : forall l, map (pwire (map snd sw)) l = map snd (map (swire sw) l)) by (intro l; rewrite map_map; apply map_ext; intro; apply pwire_snd).
  rewrite !K, !F, wire_kof, wire_fst. unfold entry_at, field. rewrite !G, pwire_snd. apply rw_pack_mac_kof; now rewrite ?map_length.
Qed.
Lemma key_of_zero d : key_of d (0, 0)%N = 0%N.
Proof. unfold key_of. cbn [fst snd]. reflexivity. Qed.

(** * The set-equality test depends on the keys only *)
Lemma fv_exec_extk e e' vK bK oK d t b p seeds pseeds junk corr bits chk poly g1 g2 c : (forall i, e i = e' i) ->
  fv_exec e vK bK oK d t b p seeds pseeds junk corr bits chk poly g1 g2 c =
  fv_exec e' vK bK oK d t b p seeds pseeds junk corr bits chk poly g1 g2 c.
Proof.
  intro H. unfold fv_exec. assert (R : forall c s, fv_run e vK bK oK d t b p seeds pseeds junk corr bits chk poly s c = fv_run e' vK bK oK d t b p seeds pseeds junk corr bits chk poly s c).
  { clear c. induction c as [|g c IH]; intro s; [reflexivity|]. cbn [fv_run].
    replace (fv_step e vK bK oK d t b p seeds pseeds junk corr bits chk poly s g) with (fv_step e' vK bK oK d t b p seeds pseeds junk corr bits chk poly s g).
    - destruct (fv_step e' vK bK oK d t b p seeds pseeds junk corr bits chk poly s g); auto.
    - destruct g; cbn [fv_step]; try reflexivity. now rewrite H. }
  now rewrite R.
Qed.

(** * The elements of the set-equality test *)
Lemma nth_halves {A B} (f : A -> B) L1 L2 k d : length L1 = k -> length L2 = k ->
  map (fun i => nth i (map f (L1 ++ L2)) d) (seq 0 k) = map f L1 /\ map (fun i => nth i (map f (L1 ++ L2)) d) (seq k k) = map f L2.
Proof.
  intros H1 H2. rewrite map_app. split.
  - apply (nth_ext _ _ d d); [now rewrite !map_length, seq_length|]. intros i Hi. rewrite map_length, seq_length in Hi.
    rewrite (nth_indep _ d (nth 0 (map f L1 ++ map f L2) d)) by (now rewrite map_length, seq_length).
    rewrite (map_nth (fun i => nth i (map f L1 ++ map f L2) d)), seq_nth by exact Hi. apply app_nth1. rewrite map_length. lia.
  - apply (nth_ext _ _ d d); [now rewrite !map_length, seq_length|]. intros i Hi. rewrite map_length, seq_length in Hi.
    rewrite (nth_indep _ d (nth 0 (map f L1 ++ map f L2) d)) by (now rewrite map_length, seq_length).
    rewrite (map_nth (fun i => nth i (map f L1 ++ map f L2) d)), seq_nth by exact Hi. rewrite app_nth2 by (rewrite map_length; lia). f_equal. rewrite map_length. lia.
Qed.
Lemma field_lt ws l n : length l = n -> (field ws l < 2 ^ N.of_nat n)%N.
Proof. intros <-. unfold field. rewrite <- (map_length (pwire ws)). apply word_lt. Qed.
Section Check.
  Variables (index_sz step_sz val_sz : nat) (os : list mop) (claims : list entry) (post : list gate).
  Hypothesis Hstep : 1 <= step_sz.
  Hypothesis Hwidth : index_sz + step_sz + 1 + val_sz <= 128.
  Hypothesis Hcalls : calls_ok index_sz step_sz val_sz 0 os.
  Hypothesis Hclaims : length claims = calls os.
  Hypothesis Hlong : (N.of_nat (calls os) <= 2 ^ N.of_nat (step_sz - 1))%N.
  Hypothesis Hlong64 : (N.of_nat (calls os) < 2 ^ 64)%N.
  Notation bc := (m_check index_sz step_sz val_sz os claims post).
  Notation sorted := (fst (m_lists index_sz step_sz val_sz os)).
  Notation recs := (snd (m_lists index_sz step_sz val_sz os)).
  Definition welem (ws : list bool) (i : nat) : N := nth i (map (fun m => rw_word index_sz step_sz val_sz (entry_at ws m)) (sorted ++ recs)) 0%N.
  Lemma all_lengths m : In m (sorted ++ recs) -> index_sz <= length (m_idx m) /\ val_sz <= length (m_val m) /\ step_sz <= length (m_step m).
  Proof.
    intro H. destruct (check_meaning index_sz step_sz val_sz os claims post Hstep Hcalls Hclaims []) as (A & B & _). cbv zeta in A, B.
    apply in_app_or in H. destruct H as [H|H].
    - rewrite Forall_forall in A. destruct (A m H) as ((A1 & _) & (A2 & _) & (A3 & _) & _). rewrite A1, A2, A3. lia.
    - rewrite Forall_forall in B. destruct (B m H) as ((A1 & _) & (A2 & _) & (A3 & _) & _). rewrite A1, A2, A3. lia.
  Qed.
  Lemma macs_key d sw i : m_macs index_sz step_sz val_sz (map (kof d) sw) os i =
    key_of d (welem (map snd sw) i, m_macs index_sz step_sz val_sz (map fst sw) os i).
  Proof.
    unfold m_macs, welem. pose proof all_lengths as AL. set (L := sorted ++ recs) in *. clearbody L.
    destruct (lt_dec i (length L)) as [Hi|Hi].
    - destruct (nth_error L i) as [m|] eqn:E; [|apply nth_error_None in E; lia].
      rewrite !(nth_error_nth _ i _ (map_nth_error _ i L E)).
      apply nth_error_In in E. destruct (AL m E) as (A1 & A2 & A3). now apply m_pack_kof.
    - rewrite !nth_overflow by (rewrite map_length; lia). symmetry. apply key_of_zero.
  Qed.
  (** facts about the log, for all inputs *)
  Lemma log_facts ins : let W := plain_wires (with_inputs ins bc) in
    map (entry_at W) recs = numbered 0 (map (access_at W) recs) /\
    log_fits index_sz step_sz val_sz (numbered 0 (map (access_at W) recs)) /\
    Forall (fun e => (e_idx e < 2 ^ N.of_nat (index_sz + 1))%N /\ (e_step e < 2 ^ N.of_nat step_sz)%N /\ (e_val e < 2 ^ N.of_nat val_sz)%N) (map (entry_at W) sorted) /\
    length sorted = calls os /\ length recs = calls os /\
    nth (m_reveal step_sz val_sz os) (plain_outputs (with_inputs ins bc)) false = rw_order index_sz step_sz (map (entry_at W) sorted).
  Proof.
    clear Hwidth Hlong64.
    intro W. destruct (check_meaning index_sz step_sz val_sz os claims post Hstep Hcalls Hclaims ins) as (A & B & L1 & L2 & O & S & _). fold W in A, B, O, S.
    assert (P2 : (2 ^ N.of_nat (step_sz - 1) <= 2 ^ N.of_nat step_sz)%N) by (apply N.pow_le_mono_r; lia).
    assert (E : map (entry_at W) recs = numbered 0 (map (access_at W) recs)).
    { apply recs_numbered. intros i m Hi. rewrite (S i m Hi). apply N.mod_small. assert (i < length recs) by (apply nth_error_Some; congruence). lia. }
    split; [exact E|]. split; [|split; [|split; [exact L1|split; [exact L2|exact O]]]].
    - rewrite <- E. split; [|split; [|exact Hstep]].
      + apply Forall_forall. intros e He. apply in_map_iff in He. destruct He as (m & <- & Hm). rewrite Forall_forall in B. destruct (B m Hm) as ((A1 & _) & (A2 & _) & (A3 & _) & _).
        split; [now apply field_lt|]. split; now apply field_lt.
      + apply Forall_forall. intros e He. apply in_map_iff in He. destruct He as (m & <- & Hm). apply In_nth_error in Hm. destruct Hm as [i Hi].
        cbn [e_step entry_at]. rewrite (S i m Hi). assert (i < length recs) by (apply nth_error_Some; congruence). rewrite N.mod_small by lia. lia.
    - apply Forall_forall. intros e He. apply in_map_iff in He. destruct He as (m & <- & Hm). rewrite Forall_forall in A. destruct (A m Hm) as ((A1 & _) & (A2 & _) & (A3 & _) & _).
      split; [now apply field_lt|]. split; now apply field_lt.
  Qed.
  (** ** Soundness *)
  Lemma check_sound r0 r1 pM threads csz seeds bitmsg D (Deqb : D -> D -> bool) H voleV voleM bM oM fthreads bufsz polysz rs :
    (forall a b, Deqb a b = true -> a = b) -> 1 <= fthreads -> 1 <= bufsz ->
    let cm := commit pM csz bitmsg bc in
    let W := plain_wires (with_inputs (c_ins cm) bc) in
    ~ and_errors_cancel threads seeds cm ->
    Forall (fun m => (field W (m_idx m) < 2 ^ N.of_nat index_sz)%N) sorted ->
    ~ reads_latest (map (access_at W) recs) -> NoDup rs ->
    (forall r, In r rs -> (r < 2 ^ 128)%N /\
       check_passes r0 r1 pM threads csz seeds bitmsg D Deqb H voleV voleM bM oM fthreads bufsz polysz index_sz step_sz val_sz os claims post r) ->
    length rs < calls os.
  Proof.
    intros Deq Ht Hb cm W NA Hin NR ND Hall.
    destruct (log_facts (c_ins cm)) as (En & LF & CF & L1 & L2 & O). fold W in En, LF, CF, O.
    destruct rs as [|ra rs'].
    { cbn. destruct (calls os) eqn:Ez; [|lia]. exfalso. apply NR. destruct recs; [|discriminate]. intros pre x pst E. destruct pre; discriminate. }
    assert (Sess : forall r, In r (ra :: rs') -> exists s, s_exec r0 r1 pM threads csz bitmsg bc = Some s /\ c_wires cm = W /\
        rw_order index_sz step_sz (map (entry_at W) sorted) = true /\
        seteq_passes (fun i => (welem (c_wires cm) i, m_macs index_sz step_sz val_sz (map fst (s_wires s)) os i)) voleV voleM bM oM fthreads bufsz polysz false (calls os) r).
    { intros r Hr. destruct (Hall r Hr) as [_ (chk & dig & fseeds & pseeds & junk & corr & fbits & fchk & polymsg & g1 & g2 & msg & ds & c & a0 & a1 & Ec & Hpm & NDd & L6 & Hd & NH & C1 & C2)].
      cbv zeta in C1, C2, Hd, NH. fold cm in C1, C2.
      destruct (accepted_session r0 r1 pM threads csz seeds bitmsg chk D Deqb H dig bc ds Deq NDd) as (s & Es & Hok & Hv); [lia| |exact NA|exact NH|].
      { intros d Id. destruct (Hd d Id) as [Vd (v & w & E1 & E2 & _)]. split; [exact Vd|]. exists v. auto. }
      fold cm in Hok, Hv. exists s. split; [exact Es|].
      assert (EW : c_wires cm = W) by (symmetry; apply no_errors_wires; exact Hok).
      split; [exact EW|].
      split.
      - destruct ds as [|d ds']; [cbn in L6; lia|]. destruct (Hd d (or_introl eq_refl)) as [_ (v & w & E1 & _ & E3 & _)].
        destruct (Hv d v (or_introl eq_refl) E1) as [_ Ho]. rewrite Ho in E3. rewrite <- O. exact E3.
      - exists fseeds, pseeds, junk, corr, fbits, fchk, polymsg, g1, g2, msg, ds, c, a0, a1.
        split; [exact Ec|]. split; [exact Hpm|]. split; [exact NDd|]. split; [exact L6|]. split; [|split; [exact C1|exact C2]].
        intros d Id. destruct (Hd d Id) as [Vd (v & w & E1 & E2 & E3 & E4 & E5 & E6)]. split; [exact Vd|]. exists w. split; [|auto].
        unfold f_session. rewrite <- E4. apply fv_exec_extk. intro i. destruct (Hv d v Id E1) as [Hw _]. rewrite Hw, macs_key.
        unfold cm. rewrite (exec_wires _ _ _ _ _ _ _ _ Es). reflexivity. }
    destruct (Sess ra (or_introl eq_refl)) as (s & Es & EW & Ord & _).
    rewrite <- L1, <- (map_length (entry_at W)).
    refine (C34_session index_sz step_sz val_sz (map (access_at W) recs) (map (entry_at W) sorted)
      (fun i => (welem (c_wires cm) i, m_macs index_sz step_sz val_sz (map fst (s_wires s)) os i)) voleV voleM bM oM fthreads bufsz polysz (ra :: rs')
      Ht Hb Hwidth _ _ _ LF _ Ord NR ND _).
    - rewrite map_length, L1. exact Hlong64.
    - rewrite map_length, L1. cbn [fst]. rewrite EW, map_map. apply (nth_halves (fun m => rw_word index_sz step_sz val_sz (entry_at W m)) sorted recs (calls os) 0%N L1 L2).
    - rewrite map_length, L1. cbn [fst]. rewrite EW, <- En, map_map. apply (nth_halves (fun m => rw_word index_sz step_sz val_sz (entry_at W m)) sorted recs (calls os) 0%N L1 L2).
    - apply Forall_forall. intros e He. rewrite Forall_forall in CF. destruct (CF e He) as (_ & F2 & F3). split; [|split; [exact F2|exact F3]].
      apply in_map_iff in He. destruct He as (m & <- & Hm). rewrite Forall_forall in Hin. exact (Hin m Hm).
    - intros r Hr. split; [now apply Hall|]. rewrite map_length, L1. destruct (Sess r Hr) as (s' & Es' & _ & _ & P). rewrite Es in Es'. injection Es' as <-. exact P.
  Qed.
  (** ** Completeness *)
  Definition feed_bits (e : entry) : list bool :=
    int_bits val_sz (e_val e) ++ [e_op e] ++ int_bits step_sz (e_step e) ++ int_bits (index_sz + 1) (e_idx e).
  Lemma feed_bits_len e : length (feed_bits e) = m_width index_sz step_sz val_sz.
  Proof. unfold feed_bits, m_width. rewrite !app_length, !int_bits_len. cbn [length]. clear. lia. Qed.
  Lemma fed_entry A e C w : length A = w ->
    (e_idx e < 2 ^ N.of_nat (index_sz + 1))%N /\ (e_step e < 2 ^ N.of_nat step_sz)%N /\ (e_val e < 2 ^ N.of_nat val_sz)%N ->
    entry_at (A ++ feed_bits e ++ C) (m_fed index_sz step_sz val_sz w) = e.
  Proof.
    intros <- (F1 & F2 & F3). unfold entry_at, m_fed, feed_bits. cbn [m_idx m_step m_val m_op].
    assert (Q1 : forall B X Y, field (A ++ B ++ X ++ Y) (seq (length A + length B) (length X)) = word_of X).
    { intros B X Y. rewrite app_assoc. apply field_mid. apply app_length. }
    assert (E1 : field (A ++ (int_bits val_sz (e_val e) ++ [e_op e] ++ int_bits step_sz (e_step e) ++ int_bits (index_sz + 1) (e_idx e)) ++ C) (seq (length A) val_sz) = e_val e).
    { rewrite <- (int_bits_len val_sz (e_val e)) at 2. rewrite <- app_assoc. rewrite field_mid by reflexivity. rewrite int_bits_word. now apply N.mod_small. }
    assert (E2 : field (A ++ (int_bits val_sz (e_val e) ++ [e_op e] ++ int_bits step_sz (e_step e) ++ int_bits (index_sz + 1) (e_idx e)) ++ C) (seq (length A + val_sz + 1) step_sz) = e_step e).
    { pose proof (Q1 (int_bits val_sz (e_val e) ++ [e_op e]) (int_bits step_sz (e_step e)) (int_bits (index_sz + 1) (e_idx e) ++ C)) as Q.
      rewrite app_length, !int_bits_len in Q. cbn [length] in Q. rewrite Nat.add_assoc in Q. rewrite <- !app_assoc in Q. rewrite <- !app_assoc. rewrite Q, int_bits_word. now apply N.mod_small. }
    assert (E3 : field (A ++ (int_bits val_sz (e_val e) ++ [e_op e] ++ int_bits step_sz (e_step e) ++ int_bits (index_sz + 1) (e_idx e)) ++ C) (seq (length A + val_sz + 1 + step_sz) (index_sz + 1)) = e_idx e).
    { pose proof (Q1 (int_bits val_sz (e_val e) ++ [e_op e] ++ int_bits step_sz (e_step e)) (int_bits (index_sz + 1) (e_idx e)) C) as Q.
      rewrite !app_length, !int_bits_len in Q. cbn [length] in Q. rewrite !Nat.add_assoc in Q. rewrite <- !app_assoc in Q. rewrite <- !app_assoc. rewrite Q, int_bits_word. now apply N.mod_small. }
    rewrite E1, E2, E3. assert (E4 : pwire (A ++ (int_bits val_sz (e_val e) ++ [e_op e] ++ int_bits step_sz (e_step e) ++ int_bits (index_sz + 1) (e_idx e)) ++ C) (length A + val_sz) = e_op e).
    { unfold pwire. rewrite <- (int_bits_len val_sz (e_val e)) at 1. rewrite <- app_assoc, app_nth2_plus, app_nth2 by (clear; lia). now rewrite Nat.sub_diag. }
    rewrite E4. now destruct e.
  Qed.
  Lemma fed_entries l : Forall (fun e => (e_idx e < 2 ^ N.of_nat (index_sz + 1))%N /\ (e_step e < 2 ^ N.of_nat step_sz)%N /\ (e_val e < 2 ^ N.of_nat val_sz)%N) l ->
    forall A C w, length A = w -> map (entry_at (A ++ flat_map feed_bits l ++ C)) (m_sorted index_sz step_sz val_sz w (length l)) = l.
  Proof.
    intro F. induction l as [|e l IH]; intros A C w HA; [reflexivity|].
    assert (SS : m_sorted index_sz step_sz val_sz w (length (e :: l)) = m_fed index_sz step_sz val_sz w :: m_sorted index_sz step_sz val_sz (w + m_width index_sz step_sz val_sz) (length l)).
    { unfold m_sorted. cbn [length seq map]. f_equal; [f_equal; lia|]. rewrite <- seq_shift, map_map. apply map_ext. intro i. f_equal. rewrite Nat.mul_succ_l. clear. lia. }
    rewrite SS. cbn [map flat_map]. f_equal.
    - rewrite <- app_assoc. apply fed_entry; [exact HA|exact (Forall_inv F)].
    - rewrite <- app_assoc, app_assoc. apply (IH (Forall_inv_tail F)). rewrite app_length, feed_bits_len. now rewrite HA.
  Qed.
  Lemma feeds_bits l : flat_map (m_feed index_sz step_sz val_sz) l = map GIn (flat_map feed_bits l).
  Proof. induction l as [|e l IH]; [reflexivity|]. cbn [flat_map]. rewrite IH, map_app. reflexivity. Qed.
  Lemma honest_wires r0 r1 pM threads csz seeds bitmsg c p : prv_exec r0 r1 pM threads csz seeds c = Some p -> agree bitmsg (p_bits p) ->
    exists s, s_exec r0 r1 pM threads csz bitmsg c = Some s /\ p_wires p = map fst (s_wires s) /\ plain_wires c = map snd (s_wires s).
  Proof.
    intros Hp Ha. destruct (psim_exec r0 r1 pM threads csz seeds bitmsg c p Hp Ha) as [s [Es [Hs _]]]. exists s. split; [exact Es|]. split; [apply (ps_w _ _ _ Hs)|].
    unfold prv_exec in Hp. unfold s_exec in Es.
    destruct (prv_run r0 r1 pM threads csz seeds p_init c) as [p1|] eqn:E; [|discriminate].
    assert (H0 : psim seeds p_init s_init).
    { constructor; cbn; auto. intros k ci Hk. destruct k; discriminate. }
    assert (Eb : p_bits p = p_bits p1).
    { unfold prv_final in Hp. destruct (p_buf p1); [now injection Hp as <-|].
      unfold prv_manage in Hp. destruct (and_ranges _ _); [|discriminate]. now injection Hp as <-. }
    rewrite Eb in Ha. destruct (psim_run r0 r1 pM threads csz seeds bitmsg c _ _ _ H0 E Ha) as [s1 [E1 [Hp1 Hpl]]]. rewrite E1 in Es.
    cbn [s_init s_wires s_rev map] in Hpl. unfold plain_wires. rewrite Hpl. cbn [fst].
    unfold s_final in Es. destruct (s_buf s1); [now injection Es as <-|]. unfold s_manage in Es. destruct (and_ranges _ _); [|discriminate]. now injection Es as <-.
  Qed.
  Lemma prefix_log : map (access_at (plain_wires bc)) recs = map (access_at (plain_wires (m_gates (m_run step_sz val_sz os)))) recs.
  Proof.
    destruct (check_struct index_sz step_sz val_sz os claims post Hclaims) as (gs & cond & bs & E & _). destruct (m_run_inv index_sz step_sz val_sz os Hcalls) as [I _].
    apply map_ext_in. intros m Hm'. apply In_nth_error in Hm'. destruct Hm' as [i Hi]. destruct (I i m Hi) as [((_ & A1) & _ & (_ & A3) & A4) _].
    rewrite E. destruct (wires_ext [] (m_gates (m_run step_sz val_sz os)) (map GIn bs ++ gs ++ [GReveal cond] ++ post)) as [e Ee]. rewrite !with_inputs_nil in Ee. rewrite Ee.
    pose proof (wires_len [] (m_gates (m_run step_sz val_sz os))) as LW. rewrite with_inputs_nil in LW. change (nwires (m_gates (m_run step_sz val_sz os))) with (m_next (m_run step_sz val_sz os)) in LW. rewrite <- LW in A1, A3, A4.
    unfold access_at. now rewrite !field_app, pwire_app by assumption.
  Qed.
  Lemma check_accepts r0 r1 pM threads csz seeds D (Deqb : D -> D -> bool) H p d voleV voleM bM oM fthreads bufsz polysz fseeds pseeds r junkp junkv g1 g2 g3 g4 h1 h2 :
    let log := map (access_at (plain_wires (m_gates (m_run step_sz val_sz os)))) recs in
    (forall a, Deqb a a = true) -> valid_delta d ->
    Forall (fun e => (e_idx e < 2 ^ N.of_nat (index_sz + 1))%N /\ (e_step e < 2 ^ N.of_nat step_sz)%N /\ (e_val e < 2 ^ N.of_nat val_sz)%N) claims ->
    rw_order index_sz step_sz claims = true ->
    Permutation (map (rw_word index_sz step_sz val_sz) claims) (map (rw_word index_sz step_sz val_sz) (numbered 0 log)) ->
    prv_exec r0 r1 pM threads csz seeds bc = Some p ->
    1 <= fthreads -> fthreads <= bufsz -> 6 <= bufsz -> 3 <= calls os -> (r < 2 ^ 128)%N -> (forall r i, (junkv r i < 2 ^ 128)%N) ->
    (calls os mod 4 = 1 \/ fthreads <= 2 * ((calls os - 1) mod 4)) ->
    check_accepted r0 r1 pM threads csz seeds D Deqb H voleV voleM bM oM fthreads bufsz polysz fseeds pseeds junkp junkv g1 g2 g3 g4 h1 h2
      index_sz step_sz val_sz os claims post r p d.
  Proof.
    intros log Drefl Vd FC ORD PC Hp Ht Htb H6 H3 Hr Hj Hm. unfold check_accepted. fold log. set (ext := fun i => (nth i (map (rw_word index_sz step_sz val_sz) (claims ++ numbered 0 log)) 0%N, m_macs index_sz step_sz val_sz (p_wires p) os i)).
    destruct (log_facts []) as (En & LF & CF & L1 & L2 & O). rewrite with_inputs_nil in *. set (W := plain_wires bc) in *.
    pose proof prefix_log as EL. fold W in EL. fold log in EL.
    rewrite EL in En, LF.
    assert (ES : map (entry_at W) sorted = claims).
    { destruct (check_struct index_sz step_sz val_sz os claims post Hclaims) as (gs & cond & bs & E & _ & _ & Ef). rewrite feeds_bits in Ef.
      assert (Eb : bs = flat_map feed_bits claims).
      { clear -Ef. revert Ef. generalize (flat_map feed_bits claims) as b2. intros b2. revert bs. induction b2 as [|x b2 IH]; destruct bs as [|y bs]; intro Q; try discriminate; [reflexivity|]. cbn [map] in Q. inversion Q. subst. f_equal. auto. }
      destruct (wires_ext [] (m_gates (m_run step_sz val_sz os) ++ map GIn bs) (gs ++ [GReveal cond] ++ post)) as [e Ee]. rewrite !with_inputs_nil, <- app_assoc, <- E in Ee. fold W in Ee. rewrite Ee.
      unfold plain_wires. rewrite plain_eval_app, eval_ins. cbn [fst]. rewrite <- app_assoc. rewrite Eb.
      unfold m_lists. cbn [fst]. destruct (m_run_inv index_sz step_sz val_sz os Hcalls) as [_ LR]. rewrite LR, <- Hclaims. apply fed_entries; [exact FC|].
      pose proof (wires_len [] (m_gates (m_run step_sz val_sz os))) as LW. rewrite with_inputs_nil in LW. exact LW. }
    destruct (honest_wires r0 r1 pM threads csz seeds (fun i => nth i (p_bits p) false) bc p Hp) as (s & Es & Ew1 & Ew2).
    { intros i b E. now apply nth_error_nth. }
    fold W in Ew2.
    destruct (session_complete r0 r1 pM threads csz seeds D Deqb H bc p d Drefl Vd Hp) as (v & Ev & Ho & _ & Hf).
    assert (Hw : v_wires v = map (kof d) (s_wires s)).
    { destruct Vd as [Hlt Hl1]. pose proof (sim_exec r0 r1 pM threads csz (fun i => nth i (p_bits p) false) d seeds (fun k => nth k (p_msgs p) (0, 0)%N) Hl1 Hlt bc) as S.
      rewrite Es in S. rewrite <- (ver_exec_ext _ _ (cot_key pM d)) in S by (intro; apply keys_vK). rewrite Ev in S. apply (vs_w _ _ _ _ _ S). }
    assert (EX : forall i, welem W i = fst (ext i)).
    { intro i. unfold welem, ext. cbn [fst]. rewrite map_app, map_app. rewrite <- (map_map (entry_at W)), ES, <- (map_map (entry_at W)), En. reflexivity. }
    assert (K : forall i, m_macs index_sz step_sz val_sz (v_wires v) os i = key_of d (ext i)).
    { intro i. rewrite Hw, macs_key, <- Ew1, <- Ew2, EX. reflexivity. }
    assert (Ln : length (numbered 0 log) = calls os) by (rewrite <- En, map_length; exact L2).
    destruct (nth_halves (rw_word index_sz step_sz val_sz) claims (numbered 0 log) (calls os) 0%N Hclaims Ln) as [N1 N2].
    destruct (C33_honest_set_equality ext voleV voleM bM oM fthreads bufsz polysz fseeds pseeds false (calls os) r junkp junkv g1 g2 g3 g4 h1 h2 d Ht Htb H6 H3 Hlong64 Hr) as (c & a0 & a1 & Ec & w & E1 & E2 & E3 & E4); auto.
    { intros i Hi. unfold ext. cbn [fst]. destruct (nth_in_or_default i (map (rw_word index_sz step_sz val_sz) (claims ++ numbered 0 log)) 0%N) as [I| ->]; [|reflexivity].
      apply in_map_iff in I. destruct I as (e & <- & _). now apply rw_word_lt. }
    { unfold ext. cbn [fst]. rewrite N1, N2. exact PC. }
    exists v, c, a0, a1. split; [exact Ev|]. split; [exact Hf|]. split.
    { rewrite Ho, O, ES. exact ORD. }
    split; [exact Ec|]. cbv zeta. exists w. split; [|auto]. rewrite <- E1. unfold f_session. apply fv_exec_extk. exact K.
  Qed.
End Check.
