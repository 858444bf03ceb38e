(** The whole check of the wide memory: boolean session, packed and compressed labels and set equality under one key. *)
From Coq Require Import NArith List Bool Arith Lia Permutation Sorted.
From Verif Require Import Word WordProofs GF128 GF128Ring GF128Field PolyRoots ListUtil GfmulModel BoolModel BoolSpec BoolProofs BoolAlg BoolThms BoolThms2
  F2kModel F2kSpec F2kAlg F2kProofs VoleF2kSpec RamModel RamSpec RamPack RamWide RamThms RamSess RamProd PropRam
  RamGateModel RamGateSpec RamGateProofs RamGateThms RamGateSess WideCountSpec WideCount PropWideCount WideGateModel WideGateSpec WideGateProofs WideGateThms.
Import ListNotations.
Ltac Zify.zify_post_hook ::= idtac.

(** * Packed labels *)
Lemma z_pack_kof d coef index_sz step_sz nw w sw m : index_sz <= 32 -> step_sz <= 31 -> 1 <= nw -> zrec_ok index_sz step_sz nw w m ->
  z_pack coef (map (kof d) sw) m = key_of d (compress coef (wide_row (zentry_at (map snd sw) m)), z_pack coef (map fst sw) m).
Proof.
  intros Hi Hs Hn ((Li & _) & (Ls & _) & (Lv & Fv) & _). unfold z_pack.
  assert (K : forall l, map (wire (map (kof d) sw)) l = map (kof d) (map (swire sw) l)) by (intro l; rewrite map_map; apply map_ext; intro; apply wire_kof).
  assert (F : forall l, map (wire (map fst sw)) l = map fst (map (swire sw) l)) by (intro l; rewrite map_map; apply map_ext; intro; apply wire_fst).
  assert (G : forall l, map (pwire (map snd sw)) l = map snd (map (swire sw) l)) by (intro l; rewrite map_map; apply map_ext; intro; apply pwire_snd).
  assert (K2 : map (map (wire (map (kof d) sw))) (z_val m) = map (map (kof d)) (map (map (swire sw)) (z_val m))) by (rewrite map_map; apply map_ext; intro; apply K).
  assert (F2 : map (map (wire (map fst sw))) (z_val m) = map (map fst) (map (map (swire sw)) (z_val m))) by (rewrite map_map; apply map_ext; intro; apply F).
  assert (G2 : map (field (map snd sw)) (z_val m) = map vbits (map (map (swire sw)) (z_val m))) by (rewrite map_map; apply map_ext; intro l; unfold field, vbits; now rewrite G).
  rewrite K2, F2, !K, !F, wire_kof, wire_fst.
  destruct (ext_pack_mac_kof d (map (swire sw) (z_idx m)) (map (map (swire sw)) (z_val m)) (map (swire sw) (z_step m)) (swire sw (z_op m))) as (ms & E1 & E2 & L).
  - destruct (z_val m); [cbn in Lv; lia|discriminate].
  - apply Forall_forall. intros l Hl. apply in_map_iff in Hl. destruct Hl as (x & <- & Hx). rewrite map_length. rewrite Forall_forall in Fv. apply (Fv x Hx).
  - rewrite map_length. lia.
  - rewrite map_length. lia.
  - rewrite E1, E2. unfold zentry_at. rewrite G2, pwire_snd. unfold field. rewrite !G. apply compress_kof. now rewrite L.
Qed.
Section Check.
  Variables (index_sz step_sz nw : nat) (os : list zop) (claims : list wentry) (post : list gate).
  Hypothesis Hindex : index_sz <= 32.
  Hypothesis Hstep : 1 <= step_sz.
  Hypothesis Hstep31 : step_sz <= 31.
  Hypothesis Hnw : 1 <= nw.
  Hypothesis Hcalls : zcalls_ok index_sz step_sz nw 0 os.
  Hypothesis Hclaims : length claims = zcalls os.
  Hypothesis Hwords : Forall (fun e => length (w_val e) = nw) claims.
  Hypothesis Hlong : (N.of_nat (zcalls os) <= 2 ^ N.of_nat (step_sz - 1))%N.
  Notation bc := (z_check index_sz step_sz nw os claims post).
  Notation sorted := (fst (z_lists index_sz step_sz nw os)).
  Notation recs := (snd (z_lists index_sz step_sz nw os)).
  Lemma zlong64 : (N.of_nat (zcalls os) < 2 ^ 64)%N.
  Proof.
    eapply N.le_lt_trans; [exact Hlong|]. apply N.pow_lt_mono_r; lia.
  Qed.
  Definition zelem (coef : list N) (ws : list bool) (i : nat) : N := nth i (map (fun m => compress coef (wide_row (zentry_at ws m))) (sorted ++ recs)) 0%N.
  Lemma zall_ok m : In m (sorted ++ recs) -> exists w, zrec_ok index_sz step_sz nw w m.
  Proof.
    intro H. destruct (zcheck_meaning index_sz step_sz nw os claims post Hstep Hnw Hcalls Hclaims Hwords []) as (A & B & _). cbv zeta in A, B.
    apply in_app_or in H. destruct H as [H|H].
    - rewrite Forall_forall in A. eexists. exact (A m H).
    - rewrite Forall_forall in B. eexists. exact (B m H).
  Qed.
  Lemma zmacs_key coef d sw i : z_macs index_sz step_sz nw coef (map (kof d) sw) os i =
    key_of d (zelem coef (map snd sw) i, z_macs index_sz step_sz nw coef (map fst sw) os i).
  Proof.
    unfold z_macs, zelem. pose proof zall_ok as AL. set (L := sorted ++ recs) in *. clearbody L.
    destruct (lt_dec i (length L)) as [Hi|Hi].
    - destruct (nth_error L i) as [m|] eqn:E; [|apply nth_error_None in E; lia].
      rewrite !(nth_error_nth _ i _ (map_nth_error _ i L E)).
      apply nth_error_In in E. destruct (AL m E) as (w & A). exact (z_pack_kof d coef index_sz step_sz nw w sw m Hindex Hstep31 Hnw A).
    - rewrite !nth_overflow by (rewrite map_length; lia). symmetry. apply key_of_zero.
  Qed.
  Lemma zfield_words ws w l : words_ok w nw l -> Forall w64 (map (field ws) l) /\ length (map (field ws) l) = nw.
  Proof.
    intros [L F]. split; [|now rewrite map_length]. apply Forall_forall. intros x Hx. apply in_map_iff in Hx. destruct Hx as (y & <- & Hy). rewrite Forall_forall in F. destruct (F y Hy) as [Ly _].
    apply (field_lt ws y 64 Ly).
  Qed.
  (** facts about the log, for all inputs *)
  Lemma zlog_facts ins : let W := plain_wires (with_inputs ins bc) in
    map (zentry_at W) recs = wnumbered 0 (map (zaccess_at W) recs) /\
    wlog_fits index_sz step_sz nw (wnumbered 0 (map (zaccess_at W) recs)) /\
    Forall wide_fits (map (zentry_at W) sorted) /\ Forall (fun e => length (w_val e) = nw) (map (zentry_at W) sorted) /\
    length sorted = zcalls os /\ length recs = zcalls os /\
    nth (z_reveal step_sz nw os) (plain_outputs (with_inputs ins bc)) false = ext_order step_sz (map (zentry_at W) sorted).
  Proof.
    intro W. destruct (zcheck_meaning index_sz step_sz nw os claims post Hstep Hnw Hcalls Hclaims Hwords ins) as (A & B & L1 & L2 & O & S & _). fold W in A, B, O, S.
    assert (P2 : (2 ^ N.of_nat (step_sz - 1) <= 2 ^ N.of_nat step_sz)%N) by (apply N.pow_le_mono_r; lia).
    assert (E : map (zentry_at W) recs = wnumbered 0 (map (zaccess_at W) recs)).
    { apply zrecs_numbered. intros i m Hi. rewrite (S i m Hi). apply N.mod_small. assert (i < length recs) by (apply nth_error_Some; congruence). lia. }
    split; [exact E|]. split; [|split; [|split; [|split; [exact L1|split; [exact L2|exact O]]]]].
    - rewrite <- E. split; [exact Hindex|]. split; [lia|].
      apply Forall_forall. intros e He. apply in_map_iff in He. destruct He as (m & <- & Hm). rewrite Forall_forall in B. destruct (B m Hm) as ((A1 & _) & (A2 & _) & A3 & _).
      destruct (zfield_words W _ _ A3) as [Q1 Q2].
      split; [now apply field_lt|]. split.
      + apply In_nth_error in Hm. destruct Hm as [i Hi]. cbn [w_step zentry_at]. rewrite (S i m Hi). assert (i < length recs) by (apply nth_error_Some; congruence). rewrite N.mod_small by lia. lia.
      + cbn [w_val zentry_at]. split; [exact Q1|]. split; [|exact Q2]. intro Z. rewrite Z in Q2. cbn in Q2. lia.
    - apply Forall_forall. intros e He. apply in_map_iff in He. destruct He as (m & <- & Hm). rewrite Forall_forall in A. destruct (A m Hm) as ((A1 & _) & (A2 & _) & A3 & _).
      destruct (zfield_words W _ _ A3) as [Q1 Q2]. split; [|split; [|split; [exact Q1|]]].
      + eapply N.lt_le_trans; [apply (field_lt W _ _ A1)|]. change (2 ^ 32)%N with (2 ^ N.of_nat 32)%N. apply N.pow_le_mono_r; lia.
      + eapply N.lt_le_trans; [apply (field_lt W _ _ A2)|]. change (2 ^ 31)%N with (2 ^ N.of_nat 31)%N. apply N.pow_le_mono_r; lia.
      + cbn [w_val zentry_at]. intro Z. rewrite Z in Q2. cbn in Q2. lia.
    - apply Forall_forall. intros e He. apply in_map_iff in He. destruct He as (m & <- & Hm). rewrite Forall_forall in A. destruct (A m Hm) as (_ & _ & A3 & _).
      exact (proj2 (zfield_words W _ _ A3)).
  Qed.
  (** ** Soundness, if the claimed list is sorted by address *)
  Lemma zcheck_sound r0 r1 pM threads csz seeds bitmsg D (Deqb : D -> D -> bool) H voleV voleM bM oM fthreads bufsz polysz cs :
    (forall a b, Deqb a b = true -> a = b) -> 1 <= fthreads -> 1 <= bufsz ->
    let cm := commit pM csz bitmsg bc in
    let W := plain_wires (with_inputs (c_ins cm) bc) in
    ~ and_errors_cancel threads seeds cm ->
    StronglySorted (fun a b => (w_idx a <= w_idx b)%N) (map (zentry_at W) sorted) ->
    ~ wreads_latest (map (zaccess_at W) recs) -> NoDup cs -> Forall (blocks ((nw + 2) / 2)) cs ->
    (forall coef, In coef cs -> exists rs, NoDup rs /\ zcalls os <= length rs /\ forall r, In r rs -> (r < 2 ^ 128)%N /\
       wide_passes r0 r1 pM threads csz seeds bitmsg D Deqb H voleV voleM bM oM fthreads bufsz polysz index_sz step_sz nw os claims post coef r) ->
    (N.of_nat (length cs) * 2 ^ 128 <= N.of_nat (zcalls os * zcalls os) * 2 ^ (128 * N.of_nat ((nw + 2) / 2)))%N.
  Proof.
    intros Deq Ht Hb cm W NA SS NR ND FC Hall.
    destruct (zlog_facts (c_ins cm)) as (En & LF & CF & CW & L1 & L2 & O). fold W in En, LF, CF, CW, O.
    destruct cs as [|ca cs']; [cbn; lia|].
    assert (NZ : 1 <= zcalls os).
    { destruct (zcalls os) eqn:Ez; [|lia]. exfalso. apply NR. destruct recs; [|discriminate]. intros pre x pst E. destruct pre; discriminate. }
    assert (Sess : forall coef r, wide_passes r0 r1 pM threads csz seeds bitmsg D Deqb H voleV voleM bM oM fthreads bufsz polysz index_sz step_sz nw os claims post coef r ->
        exists s, s_exec r0 r1 pM threads csz bitmsg bc = Some s /\ c_wires cm = W /\
        ext_order step_sz (map (zentry_at W) sorted) = true /\
        seteq_passes (fun i => (zelem coef (c_wires cm) i, z_macs index_sz step_sz nw coef (map fst (s_wires s)) os i)) voleV voleM bM oM fthreads bufsz polysz false (zcalls os) r).
    { intros coef r (chk & dig & fseeds & pseeds & junk & corr & fbits & fchk & polymsg & g1 & g2 & msg & ds & c & a0 & a1 & Ec & Hpm & NDd & L6 & Hd & NH & C1 & C2).
      cbv zeta in C1, C2, Hd, NH. fold cm in C1, C2.
      destruct (accepted_session r0 r1 pM threads csz seeds bitmsg chk D Deqb H dig bc ds Deq NDd) as (s & Es & Hok & Hv); [lia| |exact NA|exact NH|].
      { intros d Id. destruct (Hd d Id) as [Vd (v & w & E1 & E2 & _)]. split; [exact Vd|]. exists v. auto. }
      fold cm in Hok, Hv. exists s. split; [exact Es|].
      assert (EW : c_wires cm = W) by (symmetry; apply no_errors_wires; exact Hok).
      split; [exact EW|].
      split.
      - destruct ds as [|d ds']; [cbn in L6; lia|]. destruct (Hd d (or_introl eq_refl)) as [_ (v & w & E1 & _ & E3 & _)].
        destruct (Hv d v (or_introl eq_refl) E1) as [_ Ho]. rewrite Ho in E3. rewrite <- O. exact E3.
      - exists fseeds, pseeds, junk, corr, fbits, fchk, polymsg, g1, g2, msg, ds, c, a0, a1.
        split; [exact Ec|]. split; [exact Hpm|]. split; [exact NDd|]. split; [exact L6|]. split; [|split; [exact C1|exact C2]].
        intros d Id. destruct (Hd d Id) as [Vd (v & w & E1 & E2 & E3 & E4 & E5 & E6)]. split; [exact Vd|]. exists w. split; [|auto].
        unfold f_session. rewrite <- E4. apply fv_exec_extk. intro i. destruct (Hv d v Id E1) as [Hw _]. rewrite Hw, zmacs_key.
        unfold cm. rewrite (exec_wires _ _ _ _ _ _ _ _ Es). reflexivity. }
    assert (First : exists s, s_exec r0 r1 pM threads csz bitmsg bc = Some s /\ c_wires cm = W /\ ext_order step_sz (map (zentry_at W) sorted) = true).
    { destruct (Hall ca (or_introl eq_refl)) as (rs & _ & Lr & Hr). destruct rs as [|r rs]; [cbn in Lr; lia|].
      destruct (Hr r (or_introl eq_refl)) as [_ P]. destruct (Sess ca r P) as (s & E1 & E2 & E3 & _). eauto. }
    destruct First as (s & Es & EW & Ord).
    assert (Ll : length (map (zentry_at W) sorted) = length (map (zaccess_at W) recs)) by (rewrite !map_length; congruence).
    assert (Q : (N.of_nat (length (ca :: cs')) * 2 ^ 128 <= N.of_nat (length (map (zentry_at W) sorted) * length (map (zentry_at W) sorted)) * 2 ^ (128 * N.of_nat ((nw + 2) / 2)))%N).
    { refine (C35_session_if_sorted index_sz step_sz nw (map (zaccess_at W) recs) (map (zentry_at W) sorted) fthreads bufsz polysz (ca :: cs')
        Ht Hb LF CF CW Ll _ SS Ord NR ND FC _).
      - rewrite map_length, L1. apply zlong64.
      - intros coef Hc. destruct (Hall coef Hc) as (rs & NDr & Lr & Hr).
        exists (fun i => (zelem coef (c_wires cm) i, z_macs index_sz step_sz nw coef (map fst (s_wires s)) os i)), voleV, voleM, bM, oM, rs.
        rewrite map_length, L1. cbn [fst]. rewrite EW.
        destruct (nth_halves (fun m => compress coef (wide_row (zentry_at W m))) sorted recs (zcalls os) 0%N L1 L2) as [N1 N2].
        split; [rewrite map_map; exact N1|]. split; [rewrite <- En, map_map; exact N2|].
        split; [exact NDr|]. split; [exact Lr|]. intros r Ir. destruct (Hr r Ir) as [Rr P]. split; [exact Rr|].
        destruct (Sess coef r P) as (s' & Es' & _ & _ & Sp). rewrite Es in Es'. injection Es' as <-. rewrite EW in Sp. exact Sp. }
    rewrite map_length, L1 in Q. exact Q.
  Qed.
  (** ** Completeness *)
  Definition zfeed_bits (e : wentry) : list bool :=
    word_bits (w_val e) ++ [w_op e] ++ int_bits step_sz (w_step e) ++ int_bits index_sz (w_idx e).
  Lemma zfeed_bits_len e : length (w_val e) = nw -> length (zfeed_bits e) = z_width index_sz step_sz nw.
  Proof. intro L. unfold zfeed_bits, z_width. rewrite !app_length, !int_bits_len, word_bits_len, L. cbn [length]. clear. lia. Qed.
  Lemma fed_words vs : Forall w64 vs -> forall A C w, length A = w -> map (field (A ++ word_bits vs ++ C)) (z_words w (length vs)) = vs.
  Proof.
    intro F. induction vs as [|v vs IH]; intros A C w HA; [reflexivity|].
    assert (SS : z_words w (length (v :: vs)) = seq w 64 :: z_words (w + 64) (length vs)).
    { unfold z_words. change (seq 0 (length (v :: vs))) with (0 :: seq 1 (length vs)). cbn [map]. rewrite Nat.mul_0_r, Nat.add_0_r. f_equal. rewrite <- seq_shift, map_map. apply map_ext. intro i. f_equal. clear. lia. }
    rewrite SS. cbn [map]. unfold word_bits. cbn [flat_map]. fold (word_bits vs). f_equal.
    - rewrite <- app_assoc. rewrite <- (int_bits_len 64 v) at 2. rewrite field_mid by exact HA. rewrite int_bits_word. apply N.mod_small. exact (Forall_inv F).
    - rewrite <- app_assoc, app_assoc. apply (IH (Forall_inv_tail F)). rewrite app_length, int_bits_len. lia.
  Qed.
  Definition zfits (e : wentry) : Prop :=
    (w_idx e < 2 ^ N.of_nat index_sz)%N /\ (w_step e < 2 ^ N.of_nat step_sz)%N /\ Forall w64 (w_val e) /\ length (w_val e) = nw.
  Lemma zfed_entry A e C w : length A = w -> zfits e ->
    zentry_at (A ++ zfeed_bits e ++ C) (z_fed index_sz step_sz nw w) = e.
  Proof.
    intros HA (F1 & F2 & F3 & F4). unfold zentry_at, z_fed, zfeed_bits. cbn [z_idx z_step z_val z_op].
    assert (Q1 : forall B X Y, field (A ++ B ++ X ++ Y) (seq (w + length B) (length X)) = word_of X).
    { intros B X Y. rewrite app_assoc. apply field_mid. rewrite app_length. now rewrite HA. }
    set (V := word_bits (w_val e)) in *. assert (LV : length V = 64 * nw) by (unfold V; now rewrite word_bits_len, F4).
    assert (E1 : map (field (A ++ (V ++ [w_op e] ++ int_bits step_sz (w_step e) ++ int_bits index_sz (w_idx e)) ++ C)) (z_words w nw) = w_val e).
    { rewrite <- app_assoc, <- F4. now apply fed_words. }
    assert (E2 : field (A ++ (V ++ [w_op e] ++ int_bits step_sz (w_step e) ++ int_bits index_sz (w_idx e)) ++ C) (seq (w + 64 * nw + 1) step_sz) = w_step e).
    { pose proof (Q1 (V ++ [w_op e]) (int_bits step_sz (w_step e)) (int_bits index_sz (w_idx e) ++ C)) as Q.
      rewrite app_length, !int_bits_len, LV in Q. cbn [length] in Q. rewrite Nat.add_assoc in Q. rewrite <- !app_assoc in Q. rewrite <- !app_assoc. rewrite Q, int_bits_word. now apply N.mod_small. }
    assert (E3 : field (A ++ (V ++ [w_op e] ++ int_bits step_sz (w_step e) ++ int_bits index_sz (w_idx e)) ++ C) (seq (w + 64 * nw + 1 + step_sz) index_sz) = w_idx e).
    { pose proof (Q1 (V ++ [w_op e] ++ int_bits step_sz (w_step e)) (int_bits index_sz (w_idx e)) C) as Q.
      rewrite !app_length, !int_bits_len, LV in Q. cbn [length] in Q. rewrite !Nat.add_assoc in Q. rewrite <- !app_assoc in Q. rewrite <- !app_assoc. rewrite Q, int_bits_word. now apply N.mod_small. }
    assert (E4 : pwire (A ++ (V ++ [w_op e] ++ int_bits step_sz (w_step e) ++ int_bits index_sz (w_idx e)) ++ C) (w + 64 * nw) = w_op e).
    { unfold pwire. rewrite <- LV, <- HA. rewrite <- app_assoc, app_nth2_plus, app_nth2 by (clear; lia). now rewrite Nat.sub_diag. }
    rewrite E1, E2, E3, E4. now destruct e.
  Qed.
  Lemma zfed_entries l : Forall zfits l ->
    forall A C w, length A = w -> map (zentry_at (A ++ flat_map zfeed_bits l ++ C)) (z_sorted index_sz step_sz nw w (length l)) = l.
  Proof.
    intro F. induction l as [|e l IH]; intros A C w HA; [reflexivity|].
    assert (SS : z_sorted index_sz step_sz nw w (length (e :: l)) = z_fed index_sz step_sz nw w :: z_sorted index_sz step_sz nw (w + z_width index_sz step_sz nw) (length l)).
    { unfold z_sorted. cbn [length seq map]. f_equal; [f_equal; lia|]. rewrite <- seq_shift, map_map. apply map_ext. intro i. f_equal. rewrite Nat.mul_succ_l. clear. lia. }
    rewrite SS. cbn [map flat_map]. f_equal.
    - rewrite <- app_assoc. apply zfed_entry; [exact HA|exact (Forall_inv F)].
    - rewrite <- app_assoc, app_assoc. apply (IH (Forall_inv_tail F)). rewrite app_length, zfeed_bits_len by (apply (Forall_inv F)). now rewrite HA.
  Qed.
  Lemma zfeeds_bits l : flat_map (z_feed index_sz step_sz) l = map GIn (flat_map zfeed_bits l).
  Proof. induction l as [|e l IH]; [reflexivity|]. cbn [flat_map]. rewrite IH, map_app. reflexivity. Qed.
  Lemma zprefix_log : map (zaccess_at (plain_wires bc)) recs = map (zaccess_at (plain_wires (z_gates (z_run step_sz nw os)))) recs.
  Proof.
    destruct (zcheck_struct index_sz step_sz nw os claims post Hclaims Hwords) as (gs & cond & bs & E & _). destruct (z_run_inv index_sz step_sz nw os Hcalls) as [I _].
    apply map_ext_in. intros m Hm'. apply In_nth_error in Hm'. destruct Hm' as [i Hi]. destruct (I i m Hi) as [((_ & A1) & _ & A3 & A4) _].
    rewrite E. destruct (wires_ext [] (z_gates (z_run step_sz nw os)) (map GIn bs ++ gs ++ [GReveal cond] ++ post)) as [e Ee]. rewrite !with_inputs_nil in Ee. rewrite Ee.
    pose proof (wires_len [] (z_gates (z_run step_sz nw os))) as LW. rewrite with_inputs_nil in LW. change (nwires (z_gates (z_run step_sz nw os))) with (z_next (z_run step_sz nw os)) in LW. rewrite <- LW in A1, A3, A4.
    unfold zaccess_at. now rewrite !field_app, pwire_app, (map_field_app _ _ nw) by assumption.
  Qed.
  Lemma zcheck_accepts r0 r1 pM threads csz seeds D (Deqb : D -> D -> bool) H p d voleV voleM bM oM fthreads bufsz polysz fseeds pseeds coef r junkp junkv g1 g2 g3 g4 h1 h2 :
    let log := map (zaccess_at (plain_wires (z_gates (z_run step_sz nw os)))) recs in
    (forall a, Deqb a a = true) -> valid_delta d ->
    Forall zfits claims -> ext_order step_sz claims = true -> Permutation claims (wnumbered 0 log) ->
    prv_exec r0 r1 pM threads csz seeds bc = Some p ->
    1 <= fthreads -> fthreads <= bufsz -> 6 <= bufsz -> 3 <= zcalls os -> (r < 2 ^ 128)%N -> (forall r i, (junkv r i < 2 ^ 128)%N) ->
    (zcalls os mod 4 = 1 \/ fthreads <= 2 * ((zcalls os - 1) mod 4)) ->
    wide_accepted r0 r1 pM threads csz seeds D Deqb H voleV voleM bM oM fthreads bufsz polysz fseeds pseeds junkp junkv g1 g2 g3 g4 h1 h2
      index_sz step_sz nw os claims post coef r p d.
  Proof.
    intros log Drefl Vd FC ORD PC Hp Ht Htb H6 H3 Hr Hj Hm. unfold wide_accepted. fold log. set (ext := fun i => (nth i (map (fun e => compress coef (wide_row e)) (claims ++ wnumbered 0 log)) 0%N, z_macs index_sz step_sz nw coef (p_wires p) os i)).
    destruct (zlog_facts []) as (En & LF & CF & CW & L1 & L2 & O). rewrite with_inputs_nil in *. set (W := plain_wires bc) in *.
    pose proof zprefix_log as EL. fold W in EL. fold log in EL.
    rewrite EL in En, LF.
    assert (ES : map (zentry_at W) sorted = claims).
    { destruct (zcheck_struct index_sz step_sz nw os claims post Hclaims Hwords) as (gs & cond & bs & E & _ & _ & Ef). rewrite zfeeds_bits in Ef.
      assert (Eb : bs = flat_map zfeed_bits claims).
      { clear -Ef. revert Ef. generalize (flat_map zfeed_bits claims) as b2. intros b2. revert bs. induction b2 as [|x b2 IH]; destruct bs as [|y bs]; intro Q; try discriminate; [reflexivity|]. cbn [map] in Q. inversion Q. subst. f_equal. auto. }
      destruct (wires_ext [] (z_gates (z_run step_sz nw os) ++ map GIn bs) (gs ++ [GReveal cond] ++ post)) as [e Ee]. rewrite !with_inputs_nil, <- app_assoc, <- E in Ee. fold W in Ee. rewrite Ee.
      unfold plain_wires. rewrite plain_eval_app, eval_ins. cbn [fst]. rewrite <- app_assoc. rewrite Eb.
      unfold z_lists. cbn [fst]. destruct (z_run_inv index_sz step_sz nw os Hcalls) as [_ LR]. rewrite LR, <- Hclaims. apply zfed_entries; [exact FC|].
      pose proof (wires_len [] (z_gates (z_run step_sz nw os))) as LW. rewrite with_inputs_nil in LW. exact LW. }
    destruct (honest_wires r0 r1 pM threads csz seeds (fun i => nth i (p_bits p) false) bc p Hp) as (s & Es & Ew1 & Ew2).
    { intros i b E. now apply nth_error_nth. }
    fold W in Ew2.
    destruct (session_complete r0 r1 pM threads csz seeds D Deqb H bc p d Drefl Vd Hp) as (v & Ev & Ho & _ & Hf).
    assert (Hw : v_wires v = map (kof d) (s_wires s)).
    { destruct Vd as [Hlt Hl1]. pose proof (sim_exec r0 r1 pM threads csz (fun i => nth i (p_bits p) false) d seeds (fun k => nth k (p_msgs p) (0, 0)%N) Hl1 Hlt bc) as S.
      rewrite Es in S. rewrite <- (ver_exec_ext _ _ (cot_key pM d)) in S by (intro; apply keys_vK). rewrite Ev in S. apply (vs_w _ _ _ _ _ S). }
    assert (EX : forall i, zelem coef W i = fst (ext i)).
    { intro i. unfold zelem, ext. cbn [fst]. rewrite map_app, map_app.
      rewrite <- (map_map (zentry_at W) (fun e => compress coef (wide_row e)) sorted), ES, <- (map_map (zentry_at W) (fun e => compress coef (wide_row e)) recs), En. reflexivity. }
    assert (K : forall i, z_macs index_sz step_sz nw coef (v_wires v) os i = key_of d (ext i)).
    { intro i. rewrite Hw, zmacs_key, <- Ew1, <- Ew2, EX. reflexivity. }
    assert (Ln : length (wnumbered 0 log) = zcalls os) by (rewrite <- En, map_length; exact L2).
    destruct (nth_halves (fun e => compress coef (wide_row e)) claims (wnumbered 0 log) (zcalls os) 0%N Hclaims Ln) as [N1 N2].
    destruct (C33_honest_set_equality ext voleV voleM bM oM fthreads bufsz polysz fseeds pseeds false (zcalls os) r junkp junkv g1 g2 g3 g4 h1 h2 d Ht Htb H6 H3 zlong64 Hr) as (c & a0 & a1 & Ec & w & E1 & E2 & E3 & E4); auto.
    { intros i Hi. unfold ext. cbn [fst]. destruct (nth_in_or_default i (map (fun e => compress coef (wide_row e)) (claims ++ wnumbered 0 log)) 0%N) as [I| ->]; [|reflexivity].
      apply in_map_iff in I. destruct I as (e & <- & _). apply compress_lt. }
    { unfold ext. cbn [fst]. rewrite N1, N2. now apply Permutation_map. }
    exists v, c, a0, a1. split; [exact Ev|]. split; [exact Hf|]. split.
    { rewrite Ho, O, ES. exact ORD. }
    split; [exact Ec|]. cbv zeta. exists w. split; [|auto]. rewrite <- E1. unfold f_session. apply fv_exec_extk. exact K.
  Qed.
End Check.

(** claims that are a rearrangement of the log have the shape check() feeds *)
Lemma log_of_claims index_sz step_sz nw os claims :
  index_sz <= 32 -> 1 <= step_sz -> step_sz <= 31 -> 1 <= nw -> zcalls_ok index_sz step_sz nw 0 os ->
  (N.of_nat (zcalls os) <= 2 ^ N.of_nat (step_sz - 1))%N ->
  let log := map (zaccess_at (plain_wires (z_gates (z_run step_sz nw os)))) (snd (z_lists index_sz step_sz nw os)) in
  Permutation claims (wnumbered 0 log) ->
  length claims = zcalls os /\ Forall (fun e => length (w_val e) = nw) claims /\ Forall (zfits index_sz step_sz nw) claims /\
  wlog_fits index_sz step_sz nw (wnumbered 0 log).
Proof.
  intros A1 A2 A3 A4 A5 A6 log PC.
  assert (LN : length (wnumbered 0 log) = zcalls os).
  { unfold wnumbered, log. rewrite map_length, combine_length, seq_length, map_length, Nat.min_id. unfold z_lists. cbn [snd]. apply (z_run_inv index_sz step_sz nw os A5). }
  assert (LF : wlog_fits index_sz step_sz nw (wnumbered 0 log)).
  { set (dummy := repeat {| w_idx := 0; w_step := 0; w_op := false; w_val := repeat 0 nw |}%N (zcalls os)). assert (B1 : length dummy = zcalls os) by apply repeat_length.
    assert (B2 : Forall (fun e => length (w_val e) = nw) dummy).
    { apply Forall_forall. intros e He. apply repeat_spec in He. subst e. apply repeat_length. }
    destruct (zlog_facts index_sz step_sz nw os dummy [] A1 A2 A3 A4 A5 B1 B2 A6 []) as (_ & B & _). rewrite with_inputs_nil in B. rewrite (zprefix_log index_sz step_sz nw os dummy [] A5 B1 B2) in B. exact B. }
  split; [rewrite <- LN; now apply Permutation_length|].
  assert (FC : Forall (zfits index_sz step_sz nw) claims).
  { destruct LF as (_ & _ & LF). rewrite Forall_forall in LF |- *. intros e He. destruct (LF e) as (F1 & F2 & F3 & _ & F4); [now apply (Permutation_in _ PC)|].
    split; [exact F1|]. split; [|now split]. eapply N.lt_le_trans; [exact F2|]. apply N.pow_le_mono_r; lia. }
  split; [|split; [exact FC|exact LF]]. eapply Forall_impl; [|exact FC]. intros e He. apply He.
Qed.

(** a list in which no key is carried by more than half of the entries (rounded up) can be rearranged so that no key follows
    itself; the first entry can avoid one key that at most half of them (rounded down) carry *)
Section Spread.
  Context {A : Type}.
  Variable f : A -> N.
  Definition carries (k : N) (l : list A) : nat := length (filter (fun e => N.eqb (f e) k) l).
  Lemma carries_app k l1 l2 : carries k (l1 ++ l2) = carries k l1 + carries k l2.
  Proof. unfold carries. now rewrite filter_app, app_length. Qed.
  Lemma carries_cons k a l : carries k (a :: l) = (if N.eqb (f a) k then 1 else 0) + carries k l.
  Proof. unfold carries. cbn [filter]. now destruct (N.eqb (f a) k). Qed.
  Lemma carries_le k l : carries k l <= length l.
  Proof. induction l as [|a l IH]; [reflexivity|]. rewrite carries_cons. cbn [length]. destruct (N.eqb (f a) k); lia. Qed.
  Lemma carries_two k k' l : k <> k' -> carries k l + carries k' l <= length l.
  Proof.
    intro D. induction l as [|a l IH]; [reflexivity|]. rewrite !carries_cons. cbn [length].
    destruct (N.eqb_spec (f a) k), (N.eqb_spec (f a) k'); subst; try lia; congruence.
  Qed.
  Lemma carries_other k l : carries k l < length l -> exists l1 a l2, l = l1 ++ a :: l2 /\ f a <> k.
  Proof.
    induction l as [|a l IH]; [cbn; lia|]. rewrite carries_cons. cbn [length]. destruct (N.eqb_spec (f a) k) as [E|E].
    - intro H. destruct IH as (l1 & b & l2 & -> & Hb); [lia|]. exists (a :: l1), b, l2. auto.
    - intros _. exists [], a, l. auto.
  Qed.
  Lemma carries_some k l : 1 <= carries k l -> exists l1 a l2, l = l1 ++ a :: l2 /\ f a = k.
  Proof.
    induction l as [|a l IH]; [cbn; lia|]. rewrite carries_cons. destruct (N.eqb_spec (f a) k) as [E|E].
    - intros _. exists [], a, l. auto.
    - intro H. destruct IH as (l1 & b & l2 & -> & Hb); [lia|]. exists (a :: l1), b, l2. auto.
  Qed.
  Lemma crowded_dec l n : (exists k, n < carries k l) \/ (forall k, carries k l <= n).
  Proof.
    destruct (existsb (fun e => Nat.ltb n (carries (f e) l)) l) eqn:E.
    - left. apply existsb_exists in E. destruct E as (e & _ & He). apply Nat.ltb_lt in He. eauto.
    - right. intro k. destruct (le_lt_dec (carries k l) n) as [H|H]; [exact H|]. exfalso.
      destruct (carries_some k l ltac:(lia)) as (l1 & a & l2 & El & Ea).
      assert (X : existsb (fun e => Nat.ltb n (carries (f e) l)) l = true).
      { apply existsb_exists. exists a. split; [rewrite El; apply in_or_app; right; now left|]. apply Nat.ltb_lt. now rewrite Ea. }
      congruence.
  Qed.
  Lemma spread_from n : forall l k0, length l = n -> (forall k, carries k l <= (n + 1) / 2) -> carries k0 l <= n / 2 ->
    exists l', Permutation l' l /\ (forall l1 a b l2, l' = l1 ++ a :: b :: l2 -> f a <> f b) /\ (forall a l2, l' = a :: l2 -> f a <> k0).
  Proof.
    induction n as [|n IH]; intros l k0 Hl Ha Hk.
    - destruct l; [|discriminate]. exists []. split; [constructor|]. split; [intros [|? ?] ? ? ?; discriminate|discriminate].
    - assert (P : exists l1 a l2, l = l1 ++ a :: l2 /\ f a <> k0 /\ (forall k, k <> f a -> carries k l <= (n + 1) / 2) /\ carries (f a) l <= n / 2 + 1).
      { destruct (crowded_dec l (S n / 2)) as [[k K]|K].
        - destruct (carries_some k l ltac:(lia)) as (l1 & a & l2 & El & Ea). exists l1, a, l2. split; [exact El|]. rewrite Ea.
          split; [intros ->; lia|]. pose proof (Ha k) as Hk1. split.
          + intros k' D. pose proof (carries_two k k' l ltac:(congruence)) as T. rewrite Hl in T.
            pose proof (Nat.div_mod (S n) 2 ltac:(lia)). pose proof (Nat.mod_upper_bound (S n) 2 ltac:(lia)).
            pose proof (Nat.div_mod (n + 1) 2 ltac:(lia)). pose proof (Nat.mod_upper_bound (n + 1) 2 ltac:(lia)). lia.
          + pose proof (Nat.div_mod (S n + 1) 2 ltac:(lia)). pose proof (Nat.mod_upper_bound (S n + 1) 2 ltac:(lia)).
            pose proof (Nat.div_mod n 2 ltac:(lia)). pose proof (Nat.mod_upper_bound n 2 ltac:(lia)). lia.
        - destruct (carries_other k0 l) as (l1 & a & l2 & El & Ea).
          { rewrite Hl. pose proof (Nat.div_mod (S n) 2 ltac:(lia)). lia. }
          exists l1, a, l2. split; [exact El|]. split; [exact Ea|]. split.
          + intros k _. specialize (K k). replace (n + 1) with (S n) by lia. exact K.
          + specialize (K (f a)). pose proof (Nat.div_mod (S n) 2 ltac:(lia)). pose proof (Nat.mod_upper_bound (S n) 2 ltac:(lia)).
            pose proof (Nat.div_mod n 2 ltac:(lia)). pose proof (Nat.mod_upper_bound n 2 ltac:(lia)). lia. }
      destruct P as (l1 & a & l2 & El & Ea & K1 & K2). subst l.
      assert (R : forall k, carries k (l1 ++ a :: l2) = (if N.eqb (f a) k then 1 else 0) + carries k (l1 ++ l2)).
      { intro k. rewrite !carries_app, carries_cons. lia. }
      assert (D2 : n / 2 <= (n + 1) / 2) by (apply Nat.div_le_mono; lia).
      destruct (IH (l1 ++ l2) (f a)) as (l' & P' & N' & F').
      + rewrite app_length in *. cbn [length] in Hl. lia.
      + intro k. destruct (N.eq_dec k (f a)) as [->|D].
        * rewrite R, N.eqb_refl in K2. lia.
        * specialize (K1 k D). rewrite R in K1. lia.
      + rewrite R, N.eqb_refl in K2. lia.
      + exists (a :: l'). split; [|split].
        * apply Permutation_cons_app. exact P'.
        * intros m1 x y m2 E. destruct m1 as [|z m1]; cbn [app] in E; injection E as -> E.
          -- intro Q. symmetry in Q. exact (F' _ _ E Q).
          -- exact (N' _ _ _ _ E).
        * intros b m E. injection E as -> _. exact Ea.
  Qed.
  Lemma spread l : (forall k, carries k l <= (length l + 1) / 2) ->
    exists l', Permutation l' l /\ (forall l1 a b l2, l' = l1 ++ a :: b :: l2 -> f a <> f b).
  Proof.
    intro H. assert (Z : exists k0, carries k0 l = 0).
    { exists (1 + fold_right N.max 0 (map f l))%N. assert (G : forall m, (fold_right N.max 0 (map f l) < m)%N -> carries m l = 0).
      { induction l as [|a l IH]; intros m Hm; [reflexivity|]. cbn [map fold_right] in Hm. rewrite carries_cons.
        destruct (N.eqb_spec (f a) m) as [E|E]; [lia|]. clear H. assert (IH' : carries m l = 0).
        { clear IH. assert (B : (fold_right N.max 0 (map f l) < m)%N) by lia. clear Hm E. induction l as [|b l IH]; [reflexivity|].
          cbn [map fold_right] in B. rewrite carries_cons. destruct (N.eqb_spec (f b) m); [lia|]. rewrite IH; lia. }
        lia. }
      apply G. lia. }
    destruct Z as [k0 Z]. destruct (spread_from (length l) l k0 eq_refl H ltac:(lia)) as (l' & P & N & _). eauto.
  Qed.
End Spread.
