(** Completeness and soundness of sessions with gates and relations. *)
From Coq Require Import NArith List Bool Arith Lia Ring.
From Verif Require Import Word WordProofs GF128 GF128Ring GF128Field PolyRoots ListUtil BoolModel BoolSpec BoolProofs BoolAlg BoolThms BoolThms2
  BoolPolyModel BoolPolySpec BoolPolyProofs BoolPolyThms BSessModel BSessSpec BSessProofs.
Import ListNotations.
Ltac Zify.zify_post_hook ::= idtac.

(** the wires of the shadow are the committed bits *)
Lemma shadow_final_wires pM threads s s' : s_final pM threads s = Some s' -> s_wires s' = s_wires s.
Proof.
  unfold s_final, s_manage. destruct (s_buf s) as [|x l] eqn:E; [now intros [= <-]|]. destruct (and_ranges _ _); [|discriminate]. now intros [= <-].
Qed.
Lemma shadow_commit r0 r1 pM threads csz bitmsg c s : s_exec r0 r1 pM threads csz bitmsg c = Some s ->
  c_wires (commit pM csz bitmsg c) = map snd (s_wires s).
Proof.
  unfold s_exec. destruct (s_run r0 r1 pM threads csz bitmsg s_init c) as [s1|] eqn:E; [|discriminate]. intros F.
  rewrite (shadow_final_wires _ _ _ _ F). unfold commit.
  assert (C : csim threads s_init c_init).
  { constructor; try reflexivity. intros k ci Hk. destruct k; discriminate. }
  exact (cs_w _ _ _ (csim_run r0 r1 pM threads csz bitmsg c s_init s1 c_init C E)).
Qed.
Definition shadow_calls (s : sst) (prog : list bop) : list (bcall (N * bool)) :=
  map (bcall_map (swire (s_wires s))) (calls_of prog).
Lemma shadow_keys d s prog :
  map (bcall_map (wire (map (kof d) (s_wires s)))) (calls_of prog) = map (bcall_map (akey d)) (shadow_calls s prog).
Proof.
  unfold shadow_calls. rewrite map_map. apply map_ext. intros c. rewrite bcall_map_map. apply bcall_map_ext. intros i _.
  transitivity (kof d (swire (s_wires s) i)); [apply wire_kof|reflexivity].
Qed.
Lemma shadow_labels s prog :
  map (bcall_map (wire (map fst (s_wires s)))) (calls_of prog) = map (bcall_map fst) (shadow_calls s prog).
Proof.
  unfold shadow_calls. rewrite map_map. apply map_ext. intros c. rewrite bcall_map_map. apply bcall_map_ext. intros i _.
  now rewrite wire_fst.
Qed.
Lemma shadow_errs s prog : errs_all (shadow_calls s prog) = committed_rels (map snd (s_wires s)) prog.
Proof.
  unfold errs_all, shadow_calls, committed_rels. rewrite flat_map_map. apply flat_map_ext. intros c. f_equal. rewrite bcall_map_map.
  apply bcall_map_ext. intros i _. now rewrite pwire_snd.
Qed.

(** * honest sessions *)
Theorem bsess_complete :
  forall r0 r1 pM threads csz psz seeds rseeds ope (D : Type) (Deqb : D -> D -> bool) (H : list N -> D) prog p d,
  (forall a, Deqb a a = true) -> valid_delta d -> 1 <= psz -> (forall k, length (ope k) = 128) ->
  wf_prog 0 prog = true -> all_hold (brels prog) = true ->
  bp_exec r0 r1 pM threads csz psz seeds rseeds ope prog = Some p ->
  exists v, bv_exec r0 r1 (cot_key pM d) d threads csz psz seeds rseeds (fun k => map (ot_key d) (ope k))
              (fun i => nth i (p_bits (bp_gates p)) false) (fun k => nth k (p_msgs (bp_gates p)) (0, 0)%N)
              (fun k => nth k (pp_msgs (bp_poly p)) (0, 0)%N) prog = Some v /\
    v_outs (bv_gates v) = bouts prog /\ p_outs (bp_gates p) = bouts prog /\
    bv_finalize Deqb H v (H (p_hash (bp_gates p))) = false.
Proof.
  intros r0 r1 pM threads csz psz seeds rseeds ope D Deqb H prog p d Hd Vd Hp Hope W Hr E.
  rewrite (bp_exec_factor _ _ _ _ _ _ _ _ _ _ W) in E.
  destruct (prv_exec r0 r1 pM threads csz seeds (gates_of prog)) as [p0|] eqn:Ep; [|discriminate]. injection E as <-. cbn [bp_gates bp_poly].
  destruct (session_complete r0 r1 pM threads csz seeds D Deqb H (gates_of prog) p0 d Hd Vd Ep) as (v & Ev & Ov & Op & F).
  rewrite (bv_exec_factor _ _ _ _ _ _ _ _ _ _ _ _ _ _ W), Ev. eexists. split; [reflexivity|]. cbn [bv_gates bv_poly].
  rewrite (bouts_gates _ W). split; [exact Ov|]. split; [exact Op|]. unfold bv_finalize. cbn [bv_gates bv_poly]. rewrite F, orb_false_r.
  set (bitmsg := fun i => nth i (p_bits p0) false) in *.
  assert (Ag : agree bitmsg (p_bits p0)) by (intros i b Hi; unfold bitmsg; now apply nth_error_nth).
  destruct Vd as [Lt L1].
  pose proof (sim_exec r0 r1 pM threads csz bitmsg d seeds (fun k => nth k (p_msgs p0) (0, 0)%N) L1 Lt (gates_of prog)) as Sx.
  rewrite <- (ver_exec_ext _ _ (cot_key pM d)) in Sx by (intro; apply keys_vK). rewrite Ev in Sx.
  destruct (psim_exec r0 r1 pM threads csz seeds bitmsg (gates_of prog) p0 Ep Ag) as (s & Es & Ps & _). rewrite Es in Sx.
  (* plain wires *)
  assert (Pw : fst (plain_eval [] [] (gates_of prog)) = map snd (s_wires s)).
  { unfold prv_exec in Ep. destruct (prv_run r0 r1 pM threads csz seeds p_init (gates_of prog)) as [p1|] eqn:E1; [|discriminate].
    assert (Ag1 : agree bitmsg (p_bits p1)).
    { unfold prv_final, prv_manage in Ep. destruct (p_buf p1); [injection Ep as <-; exact Ag|]. destruct (and_ranges _ _); [|discriminate].
      injection Ep as <-. exact Ag. }
    assert (I : psim seeds p_init s_init).
    { constructor; try reflexivity; try constructor. intros k ci Hk. destruct k; discriminate. }
    destruct (psim_run r0 r1 pM threads csz seeds bitmsg (gates_of prog) p_init p1 s_init I E1 Ag1) as (s1 & R1 & _ & Q1).
    unfold s_exec in Es. rewrite R1 in Es. rewrite (shadow_final_wires _ _ _ _ Es). exact (f_equal fst Q1). }
  rewrite (vs_w _ _ _ _ _ Sx), shadow_keys, (ps_w _ _ _ Ps), shadow_labels.
  pose proof (poly_complete psz rseeds ope (shadow_calls s prog) d Hp Hope) as C. unfold vexec in C. rewrite C; [reflexivity| |].
  - apply Forall_forall. intros c Hc. unfold shadow_calls in Hc. apply in_map_iff in Hc. destruct Hc as (c0 & <- & _).
    rewrite wires_of_map. apply Forall_forall. intros w Hw. apply in_map_iff in Hw. destruct Hw as (i & <- & _).
    exact (swire_lsb _ i (ps_lsb _ _ _ Ps)).
  - rewrite shadow_errs, <- Pw, <- (brels_gates _ W). now apply all_hold_false.
Qed.
(** * when the session is free of undefined behaviour *)
Lemma bsess_defined r0 r1 pM threads csz psz seeds rseeds ope prog : 1 <= threads -> threads <= csz -> wf_prog 0 prog = true ->
  ((exists p, bp_exec r0 r1 pM threads csz psz seeds rseeds ope prog = Some p) <->
   (count_and (gates_of prog) = 0 \/ threads <= last_batch csz (count_and (gates_of prog)))).
Proof.
  intros Ht Hc W. rewrite <- (exec_defined r0 r1 pM threads csz seeds (gates_of prog) Ht Hc).
  rewrite (bp_exec_factor _ _ _ _ _ _ _ _ _ _ W). split; intros (p & E).
  - destruct (prv_exec r0 r1 pM threads csz seeds (gates_of prog)) as [p0|]; [now exists p0|discriminate].
  - rewrite E. now eexists.
Qed.

(** * soundness *)
(** accepting an AND batch with an error *)
Lemma and_error_bound r0 r1 pM threads csz seeds bitmsg chkmsg (D : Type) (Deqb : D -> D -> bool) (H : list N -> D) dig c deltas k errs :
  NoDup deltas ->
  let cm := commit pM csz bitmsg c in
  (forall d, In d deltas -> valid_delta d /\
     exists v, ver_exec r0 r1 (cot_key pM d) d threads csz seeds bitmsg chkmsg c = Some v /\ ver_finalize Deqb H v dig = false) ->
  nth_error (batches cm) k = Some errs -> In true errs ->
  length deltas <= 2 \/ exists rs, and_ranges threads (length errs) = Some rs /\ combined_error rs (seeds k) errs = 0%N.
Proof.
  intros Hnd cm Hall Hk Ht. destruct deltas as [|d0 rest]; [left; cbn; lia|]. set (deltas := d0 :: rest) in *.
  assert (Hex : forall d, In d deltas -> exists v s, ver_exec r0 r1 (cot_key pM d) d threads csz seeds bitmsg chkmsg c = Some v /\
      s_exec r0 r1 pM threads csz bitmsg c = Some s /\ vsim d seeds chkmsg v s /\ v_cheat v = []).
  { intros d Hd. destruct (Hall d Hd) as [[Hlt H1] [v [Ev Hf]]].
    pose proof (sim_exec r0 r1 pM threads csz bitmsg d seeds chkmsg H1 Hlt c) as S.
    rewrite <- (ver_exec_ext _ _ (cot_key pM d)) in S by (intro; apply keys_vK). rewrite Ev in S.
    destruct (s_exec r0 r1 pM threads csz bitmsg c) as [s|]; [|easy].
    apply finalize_false in Hf. destruct Hf as [Hc _]. exists v, s. repeat split; auto; apply S. }
  destruct (Hex d0 (or_introl eq_refl)) as [v0 [s [Ev0 [Es [S0 Hc0]]]]].
  destruct (exec_proj r0 r1 pM threads csz bitmsg c s Es) as [Pb [Pr Pi]]. fold cm in Pb, Pr.
  rewrite Pb in Hk. rewrite nth_error_map in Hk.
  destruct (nth_error (s_checks s) k) as [ci|] eqn:Ek; [|discriminate]. cbn in Hk. injection Hk as <-.
  destruct (Pi k ci Ek) as [Ei [Er El]].
  destruct (N.eq_dec (combined_error (ci_ranges ci) (seeds k) (map eErr (ci_buf ci))) 0) as [Z|NZ].
  - right. exists (ci_ranges ci). rewrite map_length. now split.
  - left. rewrite <- (map_length toG deltas).
    eapply (GF_quad _ _ (gSE (ci_buf ci) (ci_ranges ci) (seeds k))).
    * rewrite gSE_combined. intro E. apply NZ. apply toG_inj; [apply combined_lt|reflexivity|exact E].
    * apply In_map_toG_inj; [|exact Hnd]. apply Forall_forall. intros d Hd. now destruct (Hall d Hd) as [[? _] _].
    * intros g Hg. apply in_map_iff in Hg. destruct Hg as [d [<- Hd]].
      destruct (Hex d Hd) as [v [s1 [_ [Es1 [S1 Hc1]]]]].
      rewrite Es in Es1. injection Es1 as <-.
      assert (Acc : ci_ok d seeds chkmsg ci = true).
      { rewrite (vs_x _ _ _ _ _ S1) in Hc1. apply repeat_nil_iff in Hc1.
        destruct (ci_ok d seeds chkmsg ci) eqn:Ec; [reflexivity|exfalso].
        apply nth_error_In in Ek.
        assert (In ci (filter (fun ci => negb (ci_ok d seeds chkmsg ci)) (s_checks s))).
        { apply filter_In. now rewrite Ec. }
        destruct (filter _ _); [easy|cbn in Hc1; lia]. }
      unfold ci_ok in Acc. rewrite Ei in Acc.
      exact (accept_poly _ _ _ _ _ _ Acc).
Qed.
Lemma no_errors_wires pM csz bitmsg l :
  let cm := commit pM csz bitmsg l in
  Forall (fun b => Forall (fun e => e = false) b) (batches cm) ->
  plain_eval [] [] (with_inputs (c_ins cm) l) = (c_wires cm, map fst (c_rev cm)).
Proof.
  intros cm H. destruct (commit_plain pM csz bitmsg l c_init) as [ins [revs [errs [H1 [H2 [H3 H4]]]]]].
  fold (commit pM csz bitmsg l) in *. fold cm in H1, H2, H3, H4. cbn in H1, H2, H3, H4.
  rewrite H1, H2. apply H4. rewrite <- H3, <- batches_concat. clear - H. induction H as [|b l0 Hb _ IH]; [constructor|].
  cbn [concat]. apply Forall_app. now split.
Qed.
Lemma finalize_both {D} (Deqb : D -> D -> bool) H s dig : bv_finalize Deqb H s dig = false ->
  pv_cheat (bv_poly s) = [] /\ ver_finalize Deqb H (bv_gates s) dig = false.
Proof. unfold bv_finalize. destruct (pv_cheat (bv_poly s)); cbn [orb]; [now split|discriminate]. Qed.
Lemma in_chunks {A} bs (l : list A) x : 1 <= bs -> In x l -> exists k b, nth_error (chunks bs l) k = Some b /\ In x b.
Proof.
  intros Hb Hin. unfold chunks. revert Hin. assert (L : length l <= length l) by lia. revert L.
  generalize (length l) at 2 3 as f. intros f. revert l.
  induction f as [|f IH]; intros [|e l] L Hin; try (cbn in L; lia); try easy. cbn [chunk_fuel].
  rewrite <- (firstn_skipn bs (e :: l)) in Hin. apply in_app_or in Hin. destruct Hin as [Hin|Hin].
  - exists 0, (firstn bs (e :: l)). auto.
  - destruct (IH (skipn bs (e :: l))) as (k & b & E & H); [rewrite skipn_length; cbn [length] in *; lia|easy|].
    exists (S k), b. auto.
Qed.

Theorem bsess_soundness :
  forall r0 r1 pM ope threads csz psz seeds rseeds bitmsg chkmsg relmsg (D : Type) (Deqb : D -> D -> bool) (H : list N -> D) dig prog deltas,
  (forall a b, Deqb a b = true -> a = b) -> NoDup deltas -> 1 <= psz -> wf_prog 0 prog = true ->
  (forall k, (fst (relmsg k) < 2 ^ 128)%N) ->
  let cm := commit pM csz bitmsg (gates_of prog) in
  let q := bwith_inputs (c_ins cm) prog in
  let exec d := bv_exec r0 r1 (cot_key pM d) d threads csz psz seeds rseeds (fun k => map (ot_key d) (ope k)) bitmsg chkmsg relmsg prog in
  (forall d, In d deltas -> valid_delta d /\
     exists v, exec d = Some v /\ bv_finalize Deqb H v dig = false /\
               (v_outs (bv_gates v) <> bouts q \/ all_hold (brels q) = false)) ->
  length deltas <= 2 \/
  (exists k errs rs, nth_error (batches cm) k = Some errs /\ In true errs /\
     and_ranges threads (length errs) = Some rs /\ combined_error rs (seeds k) errs = 0%N) \/
  (exists k errs, nth_error (chunks psz (committed_rels (c_wires cm) prog)) k = Some errs /\ In true errs /\
     range_error (rseeds k) errs = 0%N) \/
  (exists d1 d2 v1 v2, In d1 deltas /\ In d2 deltas /\ exec d1 = Some v1 /\ exec d2 = Some v2 /\
     v_hash (bv_gates v1) <> v_hash (bv_gates v2) /\ H (v_hash (bv_gates v1)) = H (v_hash (bv_gates v2))).
Proof.
  intros r0 r1 pM ope threads csz psz seeds rseeds bitmsg chkmsg relmsg D Deqb H dig prog deltas Deq Hnd Hp W Hm cm q exec Hall.
  assert (Hf : forall d, In d deltas -> valid_delta d /\ exists v,
     ver_exec r0 r1 (cot_key pM d) d threads csz seeds bitmsg chkmsg (gates_of prog) = Some v /\ ver_finalize Deqb H v dig = false /\
     pv_cheat (pv_exec psz rseeds d (fun k => map (ot_key d) (ope k)) relmsg (map (bcall_map (wire (v_wires v))) (calls_of prog))) = [] /\
     exec d = Some {| bv_gates := v; bv_poly := pv_exec psz rseeds d (fun k => map (ot_key d) (ope k)) relmsg (map (bcall_map (wire (v_wires v))) (calls_of prog)) |} /\
     (v_outs v <> bouts q \/ all_hold (brels q) = false)).
  { intros d Hd. destruct (Hall d Hd) as (Vd & v & E & F & O). split; [exact Vd|]. unfold exec in E.
    rewrite (bv_exec_factor _ _ _ _ _ _ _ _ _ _ _ _ _ _ W) in E.
    destruct (ver_exec r0 r1 (cot_key pM d) d threads csz seeds bitmsg chkmsg (gates_of prog)) as [v0|] eqn:Ev; [|discriminate].
    injection E as <-. apply finalize_both in F. cbn [bv_gates bv_poly] in *. destruct F as [F1 F2]. exists v0.
    split; [reflexivity|]. split; [exact F2|]. split; [exact F1|]. split; [|exact O]. unfold exec.
    rewrite (bv_exec_factor _ _ _ _ _ _ _ _ _ _ _ _ _ _ W), Ev. reflexivity. }
  assert (Wq : wf_prog 0 q = true) by (unfold q; now rewrite wf_with).
  destruct (batches_dec (batches cm)) as [Hok|[k [errs [Hk Ht]]]].
  2:{ destruct (and_error_bound r0 r1 pM threads csz seeds bitmsg chkmsg D Deqb H dig (gates_of prog) deltas k errs Hnd) as [B|(rs & R & Z)]; auto.
      - intros d Hd. destruct (Hf d Hd) as (Vd & v & E & F & _). split; [exact Vd|]. exists v. now split.
      - right. left. exists k, errs, rs. repeat split; assumption. }
  pose proof (no_errors_wires pM csz bitmsg (gates_of prog) Hok) as Pw. fold cm in Pw.
  destruct (all_hold (brels q)) eqn:Ah.
  - (* every relation holds: a revealed value is wrong *)
    destruct (session_soundness r0 r1 pM threads csz seeds bitmsg chkmsg D Deqb H dig (gates_of prog) deltas Deq Hnd) as [B|[B|B]].
    + intros d Hd. destruct (Hf d Hd) as (Vd & v & E & F & _ & _ & [O|O]); [|discriminate]. split; [exact Vd|]. exists v.
      split; [exact E|]. split; [exact F|]. rewrite (bouts_gates _ Wq) in O. unfold q in O. rewrite gates_with in O. exact O.
    + now left.
    + right. left. exact B.
    + right. right. right. destruct B as (d1 & d2 & v1 & v2 & I1 & I2 & E1 & E2 & X).
      destruct (Hf d1 I1) as (_ & w1 & F1 & _ & _ & G1 & _). destruct (Hf d2 I2) as (_ & w2 & F2 & _ & _ & G2 & _).
      rewrite E1 in F1. rewrite E2 in F2. injection F1 as <-. injection F2 as <-.
      exists d1, d2. eexists _, _. split; [exact I1|]. split; [exact I2|]. split; [exact G1|]. split; [exact G2|]. exact X.
  - (* a relation is false *)
    assert (Er : brels q = committed_rels (c_wires cm) prog).
    { rewrite (brels_gates _ Wq). unfold q at 1. rewrite gates_with, Pw. cbn [fst]. unfold committed_rels, q. now rewrite calls_with. }
    apply all_hold_true in Ah. rewrite Er in Ah. destruct (in_chunks psz _ _ Hp Ah) as (k & b & Ek & Hb).
    destruct (N.eq_dec (range_error (rseeds k) b) 0) as [Z|Z]; [right; right; left; exists k, b; now repeat split|].
    left. destruct deltas as [|d0 rest] eqn:Ed; [cbn; lia|]. rewrite <- Ed in *. clear Ed.
    assert (Hs : exists s, s_exec r0 r1 pM threads csz bitmsg (gates_of prog) = Some s /\ deltas <> [] \/ deltas = []).
    { destruct deltas as [|d1 r1']; [exists s_init; now right|]. destruct (Hf d1 (or_introl eq_refl)) as ((Hlt & H1) & v & Ev & _).
      pose proof (sim_exec r0 r1 pM threads csz bitmsg d1 seeds chkmsg H1 Hlt (gates_of prog)) as Sx.
      rewrite <- (ver_exec_ext _ _ (cot_key pM d1)) in Sx by (intro; apply keys_vK). rewrite Ev in Sx.
      destruct (s_exec r0 r1 pM threads csz bitmsg (gates_of prog)) as [s|]; [|easy]. exists s. left. now split. }
    destruct Hs as (s & [[Es _]|Hs]); [|rewrite Hs; cbn; lia].
    eapply (poly_batch_bound psz rseeds ope (shadow_calls s prog) relmsg deltas k b Hp Hnd).
    + intros d Hd. now destruct (Hf d Hd) as ((Hlt & _) & _).
    + exact Hm.
    + rewrite shadow_errs, <- (shadow_commit _ _ _ _ _ _ _ _ Es). exact Ek.
    + exact Z.
    + intros d Hd. destruct (Hf d Hd) as ((Hlt & H1) & v & Ev & _ & Hc & _). unfold vexec. rewrite <- shadow_keys.
      pose proof (sim_exec r0 r1 pM threads csz bitmsg d seeds chkmsg H1 Hlt (gates_of prog)) as Sx.
      rewrite <- (ver_exec_ext _ _ (cot_key pM d)) in Sx by (intro; apply keys_vK). rewrite Ev, Es in Sx.
      now rewrite <- (vs_w _ _ _ _ _ Sx).
Qed.
