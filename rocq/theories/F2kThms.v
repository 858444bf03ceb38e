From Coq Require Import NArith List Bool Arith Lia Ring.
From Verif Require Import Word WordProofs GF128 GF128Ring GF128Field GfmulModel PolyRoots ListUtil.
From Verif Require Import BoolModel BoolSpec BoolProofs BoolAlg BoolThms BoolThms2 F2kModel F2kSpec F2kAlg F2kProofs F2kSim.
Import ListNotations.
Ltac Zify.zify_post_hook ::= idtac.
Arguments enum : simpl never.

Lemma nth_error_map_some {A B} (f : A -> B) l k y : nth_error (map f l) k = Some y ->
  exists x, nth_error l k = Some x /\ y = f x.
Proof. rewrite nth_error_map. destruct (nth_error l k) as [x|]; [|discriminate]. intro E. injection E as <-. eauto. Qed.

Lemma filter_nil {A} (f : A -> bool) l : (forall x, In x l -> f x = false) -> filter f l = [].
Proof. induction l as [|x l IH]; intro H; [reflexivity|]. cbn. rewrite (H x (or_introl eq_refl)). apply IH. intros; apply H. now right. Qed.

Section Thms.
  Variables (ext : nat -> fwire) (voleV voleM : nat -> nat -> N) (bM oM : nat -> N).
  Variables (threads bufsz polysz : nat) (seeds : nat -> nat -> N) (pseeds : nat -> N) (junk : nat -> nat -> N).
  Variables (corr : nat -> N) (bitmsg : nat -> bool).
  Hypothesis Ht : 1 <= threads.
  Hypothesis Hb : 1 <= bufsz.
  Variable c : list fgate.
  Let cm := fcommit (fun i => fst (ext i)) voleV bM bufsz polysz corr bitmsg c.
  Let sh := fs_exec ext voleV voleM bM bufsz polysz corr bitmsg c.
  Let run chkmsg polymsg g1 g2 d :=
    f_session ext voleV voleM bM oM threads bufsz polysz seeds pseeds junk corr bitmsg chkmsg polymsg g1 g2 c d.
  Lemma run_sim chkmsg polymsg g1 g2 d : valid_delta d ->
    match run chkmsg polymsg g1 g2 d with
    | Some v => fvsim voleV voleM oM threads seeds pseeds junk chkmsg polymsg d v sh
    | None => pfail pseeds polymsg d sh end.
  Proof. intros [H1 H2]. apply (vexec_sim ext voleV voleM bM oM threads bufsz polysz seeds pseeds junk corr bitmsg chkmsg polymsg d H2 H1 Ht Hb). Qed.
  Lemma outputs_bound : exists ws, map fst ws = fc_w cm /\
    forall chkmsg polymsg g1 g2 d v, valid_delta d -> run chkmsg polymsg g1 g2 d = Some v -> fv_w v = map (key_of d) ws.
  Proof.
    exists (fs_w sh). split.
    - symmetry. apply (fproj_exec ext voleV voleM bM bufsz polysz corr bitmsg c).
    - intros chkmsg polymsg g1 g2 d v Hd E. pose proof (run_sim chkmsg polymsg g1 g2 d Hd) as S. rewrite E in S. apply (vf_w _ _ _ _ _ _ _ _ _ _ _ _ S).
  Qed.
  Lemma mul_sound chkmsg polymsg g1 g2 k es ds : nth_error (fbatches cm) k = Some es ->
    fcombined (f_ranges threads (length es)) (seeds k) es <> 0%N -> NoDup ds ->
    (forall d, In d ds -> valid_delta d /\ exists v, run chkmsg polymsg g1 g2 d = Some v /\ fv_printed v = 0) ->
    length ds <= 2.
  Proof.
    intros Hk Hc Hnd Hall.
    destruct (fproj_exec ext voleV voleM bM bufsz polysz corr bitmsg c) as [E1 _].
    change (fbatches cm = map (map fgV) (fs_checks sh)) in E1. rewrite E1 in Hk.
    destruct (nth_error_map_some _ _ _ _ Hk) as [buf [Hbuf ->]]. rewrite map_length in Hc.
    rewrite <- (map_length toG ds).
    set (rs := f_ranges threads (length buf)) in *.
    eapply (GF_quad _ _ (HE buf rs (seeds k))).
    - rewrite HE_combined. intro E. apply Hc. apply toG_inj; [apply fcombined_lt|reflexivity|exact E].
    - apply In_map_toG_inj; [|exact Hnd]. apply Forall_forall. intros d Hd. now destruct (Hall d Hd) as [[? _] _].
    - intros g Hg. apply in_map_iff in Hg. destruct Hg as [d [<- Hd]].
      destruct (Hall d Hd) as [Vd [v [Er Ep]]]. pose proof (run_sim chkmsg polymsg g1 g2 d Vd) as S. rewrite Er in S.
      rewrite (vf_pr _ _ _ _ _ _ _ _ _ _ _ _ S) in Ep. unfold nfail in Ep. apply length_zero_iff_nil in Ep.
      assert (A : ck_ok oM threads seeds junk chkmsg d (k, buf) = true).
      { destruct (ck_ok _ _ _ _ _ _ (k, buf)) eqn:Ek; [reflexivity|exfalso].
        assert (I : In (k, buf) (filter (fun kb => negb (ck_ok oM threads seeds junk chkmsg d kb)) (enum (fs_checks sh)))).
        { apply filter_In. split; [now apply enum_nth|now rewrite Ek]. }
        rewrite Ep in I. destruct I. }
      unfold ck_ok in A. cbn [fst snd] in A. apply f_accept_poly in A. exact A.
  Qed.
  Lemma poly_sound chkmsg polymsg g1 g2 k es ds : nth_error (pbatches cm) k = Some es ->
    weighted (pseeds k) (deg_errs 5 es) <> 0%N -> (r0 (polymsg k) < 2 ^ 128)%N -> NoDup ds ->
    (forall d, In d ds -> valid_delta d /\ exists v, run chkmsg polymsg g1 g2 d = Some v) ->
    length ds <= 5.
  Proof.
    intros Hk Hc Hm Hnd Hall.
    destruct (fproj_exec ext voleV voleM bM bufsz polysz corr bitmsg c) as [_ [E1 _]].
    change (pbatches cm = map (map perr) (fs_pchecks sh)) in E1. rewrite E1 in Hk.
    destruct (nth_error_map_some _ _ _ _ Hk) as [buf [Hbuf ->]].
    apply (poly_keys buf (pseeds k) (polymsg k)); auto.
    - pose proof (fs_exec_pok ext voleV voleM bM bufsz polysz corr bitmsg Hb c) as P. fold sh in P.
      rewrite Forall_forall in P. apply P. eapply nth_error_In; eauto.
    - rewrite dsum_weighted. intro E. apply Hc. apply toG_inj; [apply weighted_lt|reflexivity|exact E].
    - intros d Hd. destruct (Hall d Hd) as [Vd [v Er]]. split; [apply Vd|].
      pose proof (run_sim chkmsg polymsg g1 g2 d Vd) as S. rewrite Er in S.
      apply (vf_ok _ _ _ _ _ _ _ _ _ _ _ _ S (k, buf)). now apply enum_nth.
  Qed.
  Lemma vanishing : (forall r i, (junk r i < 2 ^ 128)%N) ->
    (forall k es, nth_error (fbatches cm) k = Some es -> fcombined (f_ranges threads (length es)) (seeds k) es = 0%N) ->
    (forall k es, nth_error (pbatches cm) k = Some es -> weighted (pseeds k) (deg_errs 5 es) = 0%N) ->
    exists chkmsg polymsg, (forall k, (fst (chkmsg k) < 2 ^ 128 /\ snd (chkmsg k) < 2 ^ 128)%N) /\
      (forall k, (r0 (polymsg k) < 2 ^ 128 /\ r1 (polymsg k) < 2 ^ 128 /\ r2 (polymsg k) < 2 ^ 128 /\ r3 (polymsg k) < 2 ^ 128 /\ r4 (polymsg k) < 2 ^ 128)%N) /\
      forall g1 g2 d, valid_delta d ->
      exists v, run chkmsg polymsg g1 g2 d = Some v /\ fv_printed v = 0 /\ fv_cheat v = [].
  Proof.
    intros Hj Hm Hp.
    destruct (fproj_exec ext voleV voleM bM bufsz polysz corr bitmsg c) as [E1 [E2 _]].
    change (fbatches cm = map (map fgV) (fs_checks sh)) in E1.
    change (pbatches cm = map (map perr) (fs_pchecks sh)) in E2.
    set (chk := fun k => let buf := nth k (fs_checks sh) [] in let rs := f_ranges threads (length buf) in
       (gv (gadd (gO0 (ope oM k)) (H0 buf rs (seeds k) (junk k))), gv (gadd (gO1 (ope oM k)) (H1 buf rs (seeds k))))).
    set (pm := fun k => let buf := nth k (fs_pchecks sh) [] in let P := psums buf (pseeds k) in
       (r0 P, r1 P, r2 P, gv (gadd (toG (r3 P)) (dsum (pseeds k) 3 buf)), gv (gadd (toG (r4 P)) (dsum (pseeds k) 4 buf)))).
    exists chk, pm. split; [intro k; split; apply gv_lt|]. split.
    { intro k. unfold pm. cbn [r0 r1 r2 r3 r4]. split; [apply inn_lt|]. split; [apply inn_lt|]. split; [apply inn_lt|]. split; apply gv_lt. }
    intros g1 g2 d Vd. pose proof (run_sim chk pm g1 g2 d Vd) as S.
    destruct (run chk pm g1 g2 d) as [v|].
    - exists v. split; [reflexivity|]. split; [|apply (vf_ch _ _ _ _ _ _ _ _ _ _ _ _ S)].
      rewrite (vf_pr _ _ _ _ _ _ _ _ _ _ _ _ S). unfold nfail.
      replace (filter _ _) with (@nil (nat * list fgateS)); [reflexivity|]. symmetry.
      apply filter_nil. intros [k buf] Hin. apply enum_nth in Hin. apply negb_false_iff.
      unfold ck_ok. cbn [fst snd]. unfold ver_accept. apply N.eqb_eq.
      assert (En : nth k (fs_checks sh) [] = buf) by now apply nth_error_nth.
      unfold chk. rewrite En. cbn [fst snd]. apply toG_inj.
      + apply lxor_lt; [apply gfmul_lt|apply gv_lt].
      + apply lv_B_lt. apply Hj.
      + rewrite lv_B_decomp, toG_lxor, toG_gfmul, !toG_gv, HE_combined.
        specialize (Hm k (map fgV buf)). rewrite map_length in Hm. rewrite Hm.
        * rewrite toG_0. ring.
        * rewrite E1, nth_error_map, Hin. reflexivity.
    - destruct S as [[k buf] [Hin Hf]]. exfalso. apply enum_nth in Hin.
      assert (En : nth k (fs_pchecks sh) [] = buf) by now apply nth_error_nth.
      assert (T : pk_ok pseeds pm d (k, buf) = true); [|congruence].
      unfold pk_ok. cbn [fst snd]. apply poly_accept_iff.
      + pose proof (fs_exec_pok ext voleV voleM bM bufsz polysz corr bitmsg Hb c) as P. fold sh in P.
        rewrite Forall_forall in P. apply P. eapply nth_error_In; eauto.
      + unfold pm. rewrite En. apply psums_lt.
      + unfold pm. rewrite En. cbn [r0 r1 r2 r3 r4]. rewrite !toG_gv, (dsum_weighted _ 5).
        specialize (Hp k (map perr buf)). unfold perr in Hp. rewrite Hp, toG_0.
        * ring.
        * rewrite E2, nth_error_map, Hin. reflexivity.
  Qed.
  Lemma never_flagged chkmsg polymsg g1 g2 d v : valid_delta d -> run chkmsg polymsg g1 g2 d = Some v -> fv_cheat v = [].
  Proof. intros Vd E. pose proof (run_sim chkmsg polymsg g1 g2 d Vd) as S. rewrite E in S. apply (vf_ch _ _ _ _ _ _ _ _ _ _ _ _ S). Qed.
  Lemma stop_independent chk1 chk2 polymsg g1 g2 d : valid_delta d ->
    (run chk1 polymsg g1 g2 d = None <-> run chk2 polymsg g1 g2 d = None).
  Proof.
    intro Vd. pose proof (run_sim chk1 polymsg g1 g2 d Vd) as S1. pose proof (run_sim chk2 polymsg g1 g2 d Vd) as S2.
    destruct (run chk1 polymsg g1 g2 d), (run chk2 polymsg g1 g2 d); split; intro E; try discriminate E; auto; exfalso.
    - destruct S2 as [kb [I F]]. rewrite (vf_ok _ _ _ _ _ _ _ _ _ _ _ _ S1 kb I) in F. discriminate.
    - destruct S1 as [kb [I F]]. rewrite (vf_ok _ _ _ _ _ _ _ _ _ _ _ _ S2 kb I) in F. discriminate.
  Qed.
  Lemma no_poly_no_stop chkmsg polymsg g1 g2 d : valid_delta d -> pbatches cm = [] -> run chkmsg polymsg g1 g2 d <> None.
  Proof.
    intros Vd Hp E. pose proof (run_sim chkmsg polymsg g1 g2 d Vd) as S. rewrite E in S.
    destruct (fproj_exec ext voleV voleM bM bufsz polysz corr bitmsg c) as [_ [E2 _]].
    change (pbatches cm = map (map perr) (fs_pchecks sh)) in E2. rewrite Hp in E2. symmetry in E2. apply map_eq_nil in E2.
    destruct S as [kb [I _]]. unfold enum in I. rewrite E2 in I. destruct I.
  Qed.
End Thms.

(** * Ranges *)
Lemma f_ranges_eq t cnt : 1 <= t -> t <= cnt -> and_ranges t cnt = Some (f_ranges t cnt).
Proof.
  intros Ht Hc. unfold and_ranges, f_ranges. destruct (Nat.ltb_spec cnt t); [lia|].
  destruct (Nat.eqb_spec (cnt / t) 0) as [E|E]; [apply Nat.div_small_iff in E; lia|reflexivity].
Qed.
Lemma f_ranges_one cnt : 1 <= cnt -> f_ranges 1 cnt = [(0, cnt)].
Proof.
  intro H. unfold f_ranges. destruct (Nat.ltb_spec cnt 1); [lia|]. rewrite Nat.div_1_r, Nat.mod_same by lia.
  cbn. now rewrite Nat.add_0_r.
Qed.
Lemma f_ranges_nonempty t cnt : 1 <= t -> t <= cnt -> Forall (fun r => snd r <> 0) (f_ranges t cnt).
Proof.
  intros Ht Hc. unfold f_ranges. destruct (Nat.ltb_spec cnt t); [lia|].
  assert (E : 1 <= cnt / t) by (apply Nat.div_le_lower_bound; lia).
  apply Forall_app. split; [|constructor; [cbn; lia|constructor]]. apply Forall_map, Forall_forall. intros i _. cbn. lia.
Qed.
(** * How many challenges hide an error *)
Lemma weighted_poly seed es :
  toG (weighted seed es) = gmul (toG seed) (peval GF g0 gadd gmul (map toG es) (toG seed)).
Proof.
  rewrite weighted_ok. unfold gf_coeff_gen. rewrite <- (map_length toG es). apply gdot_powers.
Qed.
Lemma weighted_seeds es xs : Forall (fun e => (e < 2 ^ 128)%N) es -> (exists e, In e es /\ e <> 0%N) -> NoDup xs -> Forall (fun x => (x < 2 ^ 128)%N) xs ->
  (forall x, In x xs -> weighted x es = 0%N) -> length xs <= length es.
Proof.
  intros Hl [e [He Hn]] Hnd Hlt Hz. rewrite <- (map_length toG xs), <- (map_length toG es).
  apply le_S_n. apply (GF_root_count (g0 :: map toG es)).
  - intro F. inversion F as [|? ? _ F']; subst. rewrite Forall_map, Forall_forall in F'. specialize (F' e He).
    apply Hn. apply toG_inj; [|reflexivity|exact F']. rewrite Forall_forall in Hl. now apply Hl.
  - now apply In_map_toG_inj.
  - intros r Hr. apply in_map_iff in Hr. destruct Hr as [x [<- Hx]]. specialize (Hz x Hx). apply (f_equal toG) in Hz.
    rewrite weighted_poly, toG_0 in Hz. cbn [peval]. rewrite Hz. ring.
Qed.
(** any number of workers, all multiplications covered: one worker's seed has few bad values *)
Lemma fcombined_seeds t es : 1 <= t -> t <= length es -> length es mod t < length es / t ->
  Forall (fun e => (e < 2 ^ 128)%N) es -> (exists e, In e es /\ e <> 0%N) ->
  exists k, k < t /\ forall (seed : nat -> N) xs, NoDup xs -> Forall (fun x => (x < 2 ^ 128)%N) xs ->
    (forall x, In x xs -> fcombined (f_ranges t (length es)) (fun j => if Nat.eqb j k then x else seed j) es = 0%N) ->
    length xs <= length es.
Proof.
  intros Ht Htl Hc Hl [e [Hin Hn]]. set (rs := f_ranges t (length es)).
  pose proof (f_ranges_eq t (length es) Ht Htl) as Hr. fold rs in Hr.
  destruct (In_nth _ _ 0%N Hin) as [i [Hi Ei]].
  destruct (proj2 (all_covered_iff t _ rs Ht Hr) Hc i Hi) as [s [n [Hsn Hrange]]].
  destruct (in_split _ _ Hsn) as [r1 [r2 Er]].
  assert (Hlen : length rs = t) by now apply f_ranges_length.
  exists (length r1). split; [rewrite <- Hlen, Er, app_length; cbn; lia|].
  intros seed xs Hnd Hlt Hz.
  set (seg := firstn n (skipn s es)) in *.
  assert (Hseg : In e seg).
  { replace e with (nth (i - s) seg 0%N).
    - apply nth_In. unfold seg. rewrite firstn_length, skipn_length. lia.
    - rewrite <- Ei. unfold seg. clear -Hrange Hi.
      assert (L : i - s < length (firstn n (skipn s es))) by (rewrite firstn_length, skipn_length; lia).
      rewrite <- (app_nth1 _ (skipn n (skipn s es)) 0%N L), firstn_skipn.
      rewrite <- (firstn_skipn s es) at 2. rewrite app_nth2; rewrite firstn_length; [|lia].
      f_equal. lia. }
  set (rest := gadd
     (gsum (map (fun ir => toG (weighted (seed (fst ir)) (firstn (snd (snd ir)) (skipn (fst (snd ir)) es))))
                (combine (seq 0 (length r1)) r1)))
     (gsum (map (fun ir => toG (weighted (seed (fst ir)) (firstn (snd (snd ir)) (skipn (fst (snd ir)) es))))
                (combine (seq (S (length r1)) (length r2)) r2)))).
  assert (Hpoly : forall x, In x xs -> peval GF g0 gadd gmul (rest :: map toG seg) (toG x) = g0).
  { intros x Hx. specialize (Hz x Hx). apply (f_equal toG) in Hz. unfold fcombined in Hz.
    rewrite toG_foldxor, map_map, Er, combine_seq_mid in Hz.
    rewrite map_app, gsum_app in Hz. cbn [map fst snd] in Hz. rewrite Nat.eqb_refl in Hz.
    change (gsum (?a :: ?l)) with (gadd a (gsum l)) in Hz.
    cbn [plus] in Hz. fold seg in Hz. rewrite weighted_poly in Hz.
    rewrite toG_0 in Hz. etransitivity; [|exact Hz]. clear Hz. cbn [peval]. unfold rest.
    set (e1 := map _ (combine (seq 0 (length r1)) r1)) at 1.
    set (e2 := map _ (combine (seq (S (length r1)) (length r2)) r2)) at 1.
    match goal with |- _ = gadd (gsum ?a1) (gadd _ (gsum ?a2)) => assert (A1 : a1 = e1); [|assert (A2 : a2 = e2)] end.
    - unfold e1. apply map_ext_in. intros [j [a b]] Hj. cbn [fst snd].
      apply in_combine_seq in Hj. replace (Nat.eqb j (length r1)) with false; [reflexivity|].
      symmetry. apply Nat.eqb_neq. lia.
    - unfold e2. apply map_ext_in. intros [j [a b]] Hj. cbn [fst snd].
      apply in_combine_seq in Hj. replace (Nat.eqb j (length r1)) with false; [reflexivity|].
      symmetry. apply Nat.eqb_neq. lia.
    - rewrite A1, A2. ring. }
  assert (B : S (length (map toG xs)) <= length (rest :: map toG seg)).
  { apply GF_root_count.
    - intro F. inversion F as [|? ? _ F' [Ea Eb]]. rewrite Forall_map in F'.
      rewrite Forall_forall in F'. specialize (F' _ Hseg). apply Hn. apply toG_inj; [|reflexivity|exact F'].
      rewrite Forall_forall in Hl. now apply Hl.
    - now apply In_map_toG_inj.
    - intros r Hr'. apply in_map_iff in Hr'. destruct Hr' as [x [<- Hx]]. now apply Hpoly. }
  cbn [length] in B. rewrite !map_length in B. unfold seg in B.
  rewrite firstn_length, skipn_length in B. lia.
Qed.

(** * No error: the committed values are the plain values *)
Section Plain.
  Variables (ev : nat -> N) (voleV : nat -> nat -> N) (bM : nat -> N) (bufsz polysz : nat).
  Variables (corr : nat -> N) (bitmsg : nat -> bool).
  Definition all_errs (s : fcst) : list N := concat (fc_done s) ++ fc_errs s.
  Definition all_perrs (s : fcst) : list (nat * N) := concat (fc_pdone s) ++ fc_perrs s.
  Let STEP := fc_step ev voleV bM bufsz polysz corr bitmsg.
  Lemma step_grow s g : exists x y, all_errs (STEP s g) = all_errs s ++ x /\ all_perrs (STEP s g) = all_perrs s ++ y.
  Proof.
    assert (CH : forall n prod, exists x y, all_errs (fc_chain bM polysz bitmsg s n prod) = all_errs s ++ x /\
       all_perrs (fc_chain bM polysz bitmsg s n prod) = all_perrs s ++ y).
    { intros n prod. unfold fc_chain, all_errs, all_perrs. set (v := fc_bitval _ _ _). clearbody v.
      exists [], [(n, N.lxor prod v)]. cbn.
      split; [now rewrite app_nil_r|].
      destruct (_ && _); rewrite ?concat_app; cbn; rewrite ?app_nil_r, <- ?app_assoc; reflexivity. }
    unfold STEP. destruct g as [|i k|i j|i j k|i j k l|i j k l m]; cbn [fc_step]; auto;
      try (exists [], []; rewrite !app_nil_r; now split).
    unfold fc_mul, fc_flush, all_errs, all_perrs. destruct (Nat.eqb _ _); cbn; eexists [_], [];
      (split; [|now rewrite app_nil_r]); rewrite ?concat_app; cbn; rewrite ?app_nil_r, <- ?app_assoc; reflexivity.
  Qed.
  Lemma lxor_0 a b : N.lxor a b = 0%N -> b = a.
  Proof. intro H. now apply N.lxor_eq in H. Qed.
  Lemma step_plain s g c : Forall (fun e => e = 0%N) (all_errs (STEP s g)) -> Forall (fun e => snd e = 0%N) (all_perrs (STEP s g)) ->
    fplain ev (fc_ext s) (fc_w s) (g :: c) = fplain ev (fc_ext (STEP s g)) (fc_w (STEP s g)) c.
  Proof.
    assert (CH : forall n prod, Forall (fun e => snd e = 0%N) (all_perrs (fc_chain bM polysz bitmsg s n prod)) ->
       fc_w (fc_chain bM polysz bitmsg s n prod) = fc_w s ++ [prod] /\ fc_ext (fc_chain bM polysz bitmsg s n prod) = fc_ext s).
    { intros n prod H. unfold all_perrs in H. apply Forall_app in H. destruct H as [_ H].
      unfold fc_chain in *. set (v := fc_bitval _ _ _) in *. clearbody v. cbn [fc_perrs] in H.
      apply Forall_app in H. destruct H as [_ H]. inversion H as [|? ? E _]. cbn in E. apply lxor_0 in E. split; [|reflexivity].
      cbn. now rewrite E. }
    intros H1 H2. unfold STEP in *. destruct g as [|i k|i j|i j k|i j k l|i j k l m]; cbn [fc_step] in *.
    - cbn [fplain]. unfold fc_add. cbn [fc_ext fc_w]. now rewrite Nat.add_1_r.
    - cbn [fplain]. unfold fc_add. cbn [fc_ext fc_w]. now rewrite Nat.add_0_r.
    - unfold all_errs, fc_mul in H1. cbn [fc_done fc_errs] in H1. apply Forall_app in H1. destruct H1 as [_ H1].
      apply Forall_app in H1. destruct H1 as [_ H1]. inversion H1 as [|? ? E _]. apply lxor_0 in E.
      cbn [fplain]. unfold fc_mul. cbn [fc_ext fc_w]. rewrite E.
      unfold fc_flush. destruct (Nat.eqb _ _); reflexivity.
    - destruct (CH _ _ H2) as [-> ->]. reflexivity.
    - destruct (CH _ _ H2) as [-> ->]. reflexivity.
    - destruct (CH _ _ H2) as [-> ->]. reflexivity.
  Qed.
  Lemma run_grow c : forall s, exists x y, all_errs (fold_left STEP c s) = all_errs s ++ x /\ all_perrs (fold_left STEP c s) = all_perrs s ++ y.
  Proof.
    induction c as [|g c IH]; intro s; [exists [], []; rewrite !app_nil_r; now split|].
    cbn [fold_left]. destruct (IH (STEP s g)) as [x [y [-> ->]]]. destruct (step_grow s g) as [x' [y' [-> ->]]].
    eexists _, _. rewrite <- !app_assoc. split; reflexivity.
  Qed.
  Lemma run_plain c : forall s, Forall (fun e => e = 0%N) (all_errs (fold_left STEP c s)) -> Forall (fun e => snd e = 0%N) (all_perrs (fold_left STEP c s)) ->
    fplain ev (fc_ext s) (fc_w s) c = fc_w (fold_left STEP c s).
  Proof.
    induction c as [|g c IH]; intros s H1 H2; [reflexivity|]. cbn [fold_left] in *.
    destruct (run_grow c (STEP s g)) as [x [y [E1 E2]]].
    rewrite step_plain; [now apply IH| |].
    - rewrite E1 in H1. now apply Forall_app in H1.
    - rewrite E2 in H2. now apply Forall_app in H2.
  Qed.
  Lemma concat_batches s : concat (fbatches s) = all_errs s /\ concat (pbatches s) = all_perrs s.
  Proof.
    unfold fbatches, pbatches, all_errs, all_perrs. rewrite !concat_app.
    split; f_equal; [destruct (fc_errs s)|destruct (fc_perrs s)]; cbn; rewrite ?app_nil_r; reflexivity.
  Qed.
  Lemma no_error_plain c : let cm := fcommit ev voleV bM bufsz polysz corr bitmsg c in
    Forall (Forall (fun e => e = 0%N)) (fbatches cm) -> Forall (Forall (fun e => snd e = 0%N)) (pbatches cm) ->
    fc_w cm = fplain ev 0 [] c.
  Proof.
    intros cm H1 H2. symmetry. unfold cm, fcommit. apply (run_plain c fc_init);
      [rewrite <- (proj1 (concat_batches _)); apply Forall_concat; exact H1|
       rewrite <- (proj2 (concat_batches _)); apply Forall_concat; exact H2].
  Qed.
End Plain.

(** * Honest runs *)
Section Honest.
  Variables (ext : nat -> fwire) (voleV voleM : nat -> nat -> N) (bM oM : nat -> N).
  Variables (threads bufsz polysz : nat) (seeds : nat -> nat -> N) (pseeds : nat -> N).
  Variables (junkp : nat -> nat -> N * N) (junkv : nat -> nat -> N).
  Hypothesis Ht : 1 <= threads.
  Hypothesis Hb : threads <= bufsz.
  Hypothesis Hj : forall r i, (junkv r i < 2 ^ 128)%N.
  Let PSTEP := fp_step ext voleV voleM bM oM threads bufsz polysz seeds pseeds junkp.
  Lemma fp_pre_w p : fp_w (fp_pre voleV voleM oM threads bufsz seeds junkp p) = fp_w p /\ fp_ext (fp_pre voleV voleM oM threads bufsz seeds junkp p) = fp_ext p.
  Proof. unfold fp_pre. destruct (Nat.eqb (fp_ccnt p) bufsz); cbn; destruct (Nat.eqb _ _); auto. Qed.
  Lemma fp_batch_w p : fp_w (fp_batch pseeds p) = fp_w p /\ fp_ext (fp_batch pseeds p) = fp_ext p.
  Proof. unfold fp_batch. destruct (Nat.eqb _ _); auto. Qed.
  Lemma fp_plain c : forall p, fplain (fun i => fst (ext i)) (fp_ext p) (map fst (fp_w p)) c = map fst (fp_w (fold_left PSTEP c p)).
  Proof.
    induction c as [|g c IH]; intro p; [reflexivity|]. cbn [fold_left]. rewrite <- IH. clear IH.
    assert (CH : forall v row, fp_ext (fp_chain bM polysz pseeds p v row) = fp_ext p /\
       map fst (fp_w (fp_chain bM polysz pseeds p v row)) = map fst (fp_w p) ++ [v]).
    { intros v row. unfold fp_chain. cbn [fp_w fp_ext]. destruct (fp_batch_w p) as [E1 E2].
      destruct (Nat.leb _ _); rewrite ?E1, ?E2, map_app; auto. }
    unfold PSTEP. destruct g as [|i k|i j|i j k|i j k l|i j k l m]; cbn [fplain fp_step]; rewrite ?fval_pw.
    - unfold fp_add. cbn [fp_ext fp_w]. now rewrite map_app, Nat.add_1_r.
    - unfold fp_add. cbn [fp_ext fp_w]. now rewrite map_app, Nat.add_0_r.
    - unfold fp_mul. cbn [fp_ext fp_w]. destruct (fp_pre_w p) as [-> ->]. now rewrite map_app.
    - edestruct CH as [-> ->]. unfold prod3. now rewrite (gfmul_comm (fst (pw (fp_w p) k))).
    - edestruct CH as [-> ->]. unfold prod4, prod3. now rewrite (gfmul_comm (fst (pw (fp_w p) k))), (gfmul_comm (fst (pw (fp_w p) l))).
    - edestruct CH as [-> ->]. unfold prod5, prod4, prod3.
      now rewrite (gfmul_comm (fst (pw (fp_w p) k))), (gfmul_comm (fst (pw (fp_w p) l))), (gfmul_comm (fst (pw (fp_w p) m))).
  Qed.
  Lemma fp_exec_plain g1 g2 g3 g4 c : map fst (fp_w (fp_exec ext voleV voleM bM oM threads bufsz polysz seeds pseeds junkp g1 g2 g3 g4 c)) =
    fplain (fun i => fst (ext i)) 0 [] c.
  Proof.
    transitivity (map fst (fp_w (fold_left PSTEP c (fp_init voleV voleM g1 g2 g3 g4)))); [|symmetry; apply (fp_plain c (fp_init voleV voleM g1 g2 g3 g4))].
    unfold fp_exec, fp_final. fold PSTEP. set (p := fold_left PSTEP c _). destruct (fp_batch_w p) as [E _].
    destruct (Nat.eqb _ _); cbn; now rewrite E.
  Qed.
  (** sizes of the batches *)
  Lemma fs_count corr bitmsg c : let s := fs_run ext voleV voleM bM bufsz polysz corr bitmsg c in
    1 <= bufsz -> Forall (fun b => length b = bufsz) (fs_checks s) /\
    length (fs_checks s) * bufsz + length (fs_buf s) = count_mul c /\
    (length (fs_buf s) = 0 -> fs_checks s = []) /\ length (fs_buf s) <= bufsz.
  Proof.
    intros s H1. unfold s. clear s. unfold fs_run.
    assert (Hcount : forall c g, count_mul (c ++ [g]) = count_mul c + count_mul [g]).
    { clear. induction c as [|h c IH]; intro g; [reflexivity|]. cbn [app count_mul]. destruct h; rewrite IH; cbn; destruct g; cbn; lia. }
    induction c as [|g c IH] using rev_ind; [cbn; repeat split; auto; lia|].
    rewrite fold_left_app, Hcount. cbn [fold_left]. set (s := fold_left _ c fs_init) in *. clearbody s.
    destruct IH as (A & B & C & D).
    destruct g as [|i k|i j|i j k|i j k l|i j k l m]; cbn [fs_step count_mul].
    - cbn. rewrite Nat.add_0_r. auto.
    - cbn. rewrite Nat.add_0_r. auto.
    - unfold fs_mul, fs_flush. destruct (Nat.eqb_spec (length (fs_buf s)) bufsz) as [E|E]; cbn; rewrite !app_length; cbn.
      + repeat split; try lia. apply Forall_app. auto.
      + repeat split; auto; try lia.
    - unfold fs_chain, fs_batch. destruct (Nat.leb _ _); [destruct (Nat.eqb _ _)|]; cbn; rewrite Nat.add_0_r; auto.
    - unfold fs_chain, fs_batch. destruct (Nat.leb _ _); [destruct (Nat.eqb _ _)|]; cbn; rewrite Nat.add_0_r; auto.
    - unfold fs_chain, fs_batch. destruct (Nat.leb _ _); [destruct (Nat.eqb _ _)|]; cbn; rewrite Nat.add_0_r; auto.
  Qed.
  Lemma fs_batch_sizes corr bitmsg c b : (count_mul c = 0 \/ threads <= last_batch bufsz (count_mul c)) ->
    In b (fs_checks (fs_exec ext voleV voleM bM bufsz polysz corr bitmsg c)) -> threads <= length b.
  Proof.
    intros Hc Hin. destruct (fs_count corr bitmsg c ltac:(lia)) as (A & B & C & D). unfold fs_exec, fs_final in Hin.
    set (s := fs_run _ _ _ _ _ _ _ _ c) in *.
    assert (E : fs_checks (fs_batch s) = fs_checks s /\ fs_buf (fs_batch s) = fs_buf s)
      by (clearbody s; unfold fs_batch; destruct (Nat.eqb (length (fs_pbuf s)) 0); split; reflexivity). destruct E as [E1 E2]. rewrite E2 in Hin.
    assert (A' : In b (fs_checks s) -> threads <= length b).
    { intro I. rewrite Forall_forall in A. rewrite (A b I). exact Hb. }
    destruct (Nat.eqb_spec (length (fs_buf s)) 0) as [Z|Z]; [rewrite E1 in Hin; auto|].
    cbn in Hin. rewrite E1, E2 in Hin. apply in_app_iff in Hin. destruct Hin as [I|[<-|[]]]; [auto|].
    destruct Hc as [Hc|Hc]; [lia|]. replace (length (fs_buf s)) with (last_batch bufsz (count_mul c)); [exact Hc|].
    unfold last_batch. rewrite <- B. destruct (length (fs_buf s)) as [|n]; [lia|]. rewrite Nat.add_succ_r. f_equal.
    rewrite Nat.add_comm, Nat.mod_add by lia. apply Nat.mod_small. lia.
  Qed.
  Lemma nth_error_enum {A B} (f : nat * A -> B) l k x y : nth_error l k = Some x -> nth k (map f (enum l)) y = f (k, x).
  Proof.
    intro H. apply nth_error_nth. rewrite nth_error_map.
    assert (E : nth_error (enum l) k = Some (k, x)); [|now rewrite E].
    revert H. induction l as [|z l IH] using rev_ind; [destruct k; discriminate|].
    rewrite enum_snoc. intro H. destruct (lt_eq_lt_dec k (length l)) as [[L| ->]|G].
    - rewrite nth_error_app1 in H |- * by (rewrite ?enum_length; lia). auto.
    - rewrite nth_error_app2, Nat.sub_diag in H by lia. rewrite nth_error_app2, enum_length, Nat.sub_diag by (rewrite enum_length; lia). cbn in *. congruence.
    - rewrite (proj2 (nth_error_None _ _)) in H by (rewrite app_length; cbn; lia). discriminate.
  Qed.
  Theorem honest_run g1 g2 g3 g4 h1 h2 c d :
    valid_delta d -> (count_mul c = 0 \/ threads <= last_batch bufsz (count_mul c)) ->
    let p := fp_exec ext voleV voleM bM oM threads bufsz polysz seeds pseeds junkp g1 g2 g3 g4 c in
    exists v, f_session ext voleV voleM bM oM threads bufsz polysz seeds pseeds junkv
       (fun i => nth i (fp_corr p) 0%N) (fun i => nth i (fp_bits p) false)
       (fun k => nth k (fp_msgs p) (0, 0)%N) (fun k => nth k (fp_pmsgs p) (0, 0, 0, 0, 0)%N) h1 h2 c d = Some v /\
      fv_printed v = 0 /\ fv_cheat v = [] /\ fv_w v = map (key_of d) (fp_w p).
  Proof.
    intros Vd Hc p. set (corr := fun i => nth i (fp_corr p) 0%N). set (bitmsg := fun i => nth i (fp_bits p) false).
    set (chk := fun k => nth k (fp_msgs p) (0, 0)%N). set (pm := fun k => nth k (fp_pmsgs p) (0, 0, 0, 0, 0)%N).
    assert (P : fpsim voleV voleM oM threads seeds pseeds junkp p (fs_exec ext voleV voleM bM bufsz polysz corr bitmsg c)).
    { unfold p. apply pexec_sim; auto; try lia; fold p; apply prefix_nth. }
    pose proof (run_sim ext voleV voleM bM oM threads bufsz polysz seeds pseeds junkv corr bitmsg Ht ltac:(lia) c chk pm h1 h2 d Vd) as S.
    cbv beta zeta in S.
    destruct (f_session _ _ _ _ _ _ _ _ _ _ _ _ _ _ _ _ _ c d) as [v|].
    - exists v. split; [reflexivity|]. split; [|split].
      + rewrite (vf_pr _ _ _ _ _ _ _ _ _ _ _ _ S). unfold nfail.
        replace (filter _ _) with (@nil (nat * list fgateS)); [reflexivity|]. symmetry.
        apply filter_nil. intros [k buf] Hin. apply enum_nth in Hin. apply negb_false_iff.
        unfold ck_ok. cbn [fst snd]. unfold chk. rewrite (pf_m _ _ _ _ _ _ _ _ _ P), (nth_error_enum _ _ _ _ _ Hin).
        unfold msg_of. cbn [fst snd].
        replace (map oM (seq (128 * k) 128)) with (map fst (ope oM k)) by (unfold ope; now rewrite map_map).
        apply f_honest_accept.
        * unfold ope. apply Forall_map, Forall_forall. intros i _. reflexivity.
        * unfold ope. now rewrite map_length, seq_length.
        * apply f_ranges_nonempty; [exact Ht|]. eapply fs_batch_sizes; eauto. eapply nth_error_In; eauto.
        * pose proof (pf_h2 _ _ _ _ _ _ _ _ _ P) as H. rewrite Forall_forall in H. apply H. eapply nth_error_In; eauto.
        * apply Hj.
      + apply (vf_ch _ _ _ _ _ _ _ _ _ _ _ _ S).
      + rewrite (vf_w _ _ _ _ _ _ _ _ _ _ _ _ S). now rewrite (pf_w _ _ _ _ _ _ _ _ _ P).
    - exfalso. destruct S as [[k buf] [Hin Hf]]. apply enum_nth in Hin.
      assert (T : pk_ok pseeds pm d (k, buf) = true); [|congruence]. unfold pk_ok. cbn [fst snd]. unfold pm.
      rewrite (pf_q _ _ _ _ _ _ _ _ _ P), (nth_error_enum _ _ _ _ _ Hin). cbn [fst snd]. apply poly_honest.
      + pose proof (fs_exec_pok ext voleV voleM bM bufsz polysz corr bitmsg ltac:(lia) c) as H.
        rewrite Forall_forall in H. apply H. eapply nth_error_In; eauto.
      + pose proof (pf_h4 _ _ _ _ _ _ _ _ _ P) as H. rewrite Forall_forall in H. apply H. eapply nth_error_In; eauto.
  Qed.
End Honest.

(** * Corrections chosen after the challenge *)
Lemma fc_mul_build voleV bufsz corr w e k b er dn pe pd prod x : length er < bufsz ->
  corr k = N.lxor (voleV (length dn) (length er)) (N.lxor prod x) ->
  fc_mul voleV bufsz corr {| fc_w := w; fc_ext := e; fc_corr := k; fc_bits := b; fc_errs := er; fc_done := dn; fc_perrs := pe; fc_pdone := pd |} prod =
  {| fc_w := w ++ [N.lxor prod x]; fc_ext := e; fc_corr := S k; fc_bits := b; fc_errs := er ++ [x]; fc_done := dn; fc_perrs := pe; fc_pdone := pd |}.
Proof.
  intros H Hc. assert (E : forall a b, N.lxor a (N.lxor a b) = b) by (intros; now rewrite <- N.lxor_assoc, N.lxor_nilpotent, N.lxor_0_l).
  unfold fc_mul, fc_flush. cbn [fc_errs]. rewrite (proj2 (Nat.eqb_neq _ _)) by lia.
  cbn [fc_w fc_ext fc_corr fc_bits fc_errs fc_done fc_perrs fc_pdone]. now rewrite Hc, !E.
Qed.
Definition late_c : list fgate := [FExt; FMul 0 0; FMul 0 0].
(** the error of the second product is whatever makes it [w], the error of the first is [s] times that *)
Definition late_corr (x : N) (voleV : nat -> nat -> N) (s w : N) (i : nat) : N :=
  N.lxor (voleV 0 i) (N.lxor (gfmul x x) (match i with 0 => gfmul s (N.lxor (gfmul x x) w) | _ => N.lxor (gfmul x x) w end)).
Lemma late_commit (ext : nat -> fwire) voleV bM bufsz polysz seeds bitmsg w : 2 <= bufsz ->
  let cm := fcommit (fun i => fst (ext i)) voleV bM bufsz polysz (late_corr (fst (ext 0)) voleV (seeds 0 0) w) bitmsg late_c in
  (exists u, fc_w cm = [fst (ext 0); u; w]) /\
  (forall k es, nth_error (fbatches cm) k = Some es -> fcombined (f_ranges 1 (length es)) (seeds k) es = 0%N) /\ pbatches cm = [].
Proof.
  intro Hb. set (x := fst (ext 0)). set (s := seeds 0 0). set (y := N.lxor (gfmul x x) w). cbv zeta.
  set (cm := fcommit _ _ _ _ _ _ _ _).
  assert (W : fc_w cm = [x; N.lxor (gfmul x x) (gfmul s y); N.lxor (gfmul x x) y] /\ fbatches cm = [[gfmul s y; y]%N] /\ pbatches cm = []).
  { unfold cm, fcommit, late_c. cbn [fold_left fc_step fc_init fc_add fc_w fc_ext app]. unfold fc_add, fc_init, fval.
    cbn [fc_w fc_ext fc_corr fc_bits fc_errs fc_done fc_perrs fc_pdone app nth]. fold x.
    rewrite (fc_mul_build _ _ _ _ _ _ _ _ _ _ _ _ (gfmul s y)) by (cbn [length]; first [lia|reflexivity]). cbn [fc_w app nth].
    rewrite (fc_mul_build _ _ _ _ _ _ _ _ _ _ _ _ y) by (cbn [length app]; first [lia|reflexivity]). cbn [fc_w app nth].
    auto. }
  destruct W as (W1 & W2 & W3). split; [|split; [|exact W3]].
  - exists (N.lxor (gfmul x x) (gfmul s y)). rewrite W1. unfold y. now rewrite <- (N.lxor_assoc (gfmul x x)), N.lxor_nilpotent, N.lxor_0_l.
  - rewrite W2. intros [|k] es Hk; [|destruct k; discriminate]. injection Hk as <-.
    cbn [length]. rewrite f_ranges_one by lia. unfold fcombined, weighted.
    cbn [length seq combine map fst snd fold_right firstn skipn gf_coeff_gen gf_powers_from]. fold s.
    rewrite !N.lxor_0_r. replace (gfmul (gfmul s s) y) with (gfmul s (gfmul s y)); [apply N.lxor_nilpotent|].
    apply toG_inj; try apply gfmul_lt. rewrite !toG_gfmul. ring.
Qed.
