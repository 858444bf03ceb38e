(** The honest prover's program of the GF(2^128) engine follows the schedule of its own messages. *)
From Coq Require Import NArith List Bool Arith Lia.
From Verif Require Import Word WordProofs GF128 GF128Ring BoolModel BoolSpec BoolAlg BoolIOModel BoolIOSpec F2kModel F2kSpec F2kAlg HideProofs WireModel WireNet WireProofs FWireModel FWireProofs FWireFollow.
Import ListNotations.

Section Prv.
  Variables (ext : nat -> fwire) (voleV voleM : nat -> nat -> N) (bM oM : nat -> N).
  Variables (threads bufsz polysz : nat) (junk : nat -> nat -> N * N).
  Variables (G : list N -> nat -> N) (Gp : list N -> N).
  Variables (seeds : nat -> nat -> N) (pseeds : nat -> N).
  Variables (corr : nat -> N) (bitmsg : nat -> bool) (chkmsg : nat -> N * N) (polymsg : nat -> row5).
  Hypothesis Hb : 1 <= bufsz.
  Notation ops := (ops corr bitmsg chkmsg polymsg).
  Notation seeded := (seeded G Gp seeds pseeds).
  Notation gitems := (gitems bufsz polysz).
  Notation items := (items bufsz polysz).
  Notation pstep := (fp_step ext voleV voleM bM oM threads bufsz polysz seeds pseeds junk).
  Notation pfinal := (fp_final oM threads seeds pseeds junk).
  Notation pmanage := (fp_manage oM threads seeds junk).
  Notation pbatch := (fp_batch pseeds).
  Notation pmul := (fp_mul voleV voleM oM threads bufsz seeds junk).
  Notation pchain := (fp_chain bM polysz pseeds).
  Notation pprog := (fprv_prog ext voleV voleM bM oM threads bufsz polysz junk G Gp).
  Definition pshape (s : fpst) (h : shp) : Prop :=
    fp_ccnt s = h_c h /\ length (fp_poly s) = h_p h /\ length (fp_corr s) = h_corr h /\ length (fp_bits s) = h_bits h /\
    length (fp_msgs s) = h_chk h /\ length (fp_pmsgs s) = h_pchk h.
  (** the message functions agree with what has been sent *)
  Definition said (s : fpst) : Prop :=
    (forall i x, nth_error (fp_corr s) i = Some x -> corr i = x) /\ (forall i x, nth_error (fp_bits s) i = Some x -> bitmsg i = x) /\
    (forall i x, nth_error (fp_msgs s) i = Some x -> chkmsg i = x) /\ (forall i x, nth_error (fp_pmsgs s) i = Some x -> polymsg i = x).
  Definition longer (s s' : fpst) : Prop :=
    prefix (fp_corr s) (fp_corr s') /\ prefix (fp_bits s) (fp_bits s') /\ prefix (fp_msgs s) (fp_msgs s') /\ prefix (fp_pmsgs s) (fp_pmsgs s').
  Lemma pfx_refl {A} (a : list A) : prefix a a.
  Proof. exists []. now rewrite app_nil_r. Qed.
  Lemma pfx_trans {A} (a b c : list A) : prefix a b -> prefix b c -> prefix a c.
  Proof. intros [x ->] [y ->]. exists (x ++ y). now rewrite app_assoc. Qed.
  Lemma pfx_app {A} (a b : list A) : prefix a (a ++ b).
  Proof. now exists b. Qed.
  Lemma pfx_nth {A} (a b : list A) i x : prefix a b -> nth_error a i = Some x -> nth_error b i = Some x.
  Proof. intros [y ->] E. rewrite nth_error_app1; [exact E|]. apply nth_error_Some. congruence. Qed.
  Lemma longer_refl s : longer s s.
  Proof. repeat split; apply pfx_refl. Qed.
  Lemma longer_trans a b c : longer a b -> longer b c -> longer a c.
  Proof. intros (A1 & A2 & A3 & A4) (B1 & B2 & B3 & B4). repeat split; eapply pfx_trans; eassumption. Qed.
  Lemma said_back s s' : longer s s' -> said s' -> said s.
  Proof. intros (A1 & A2 & A3 & A4) (B1 & B2 & B3 & B4). repeat split; intros i x E; [apply B1|apply B2|apply B3|apply B4]; eapply pfx_nth; eassumption. Qed.
  Lemma longer_manage s : longer s (pmanage s).
  Proof. unfold fp_manage, longer. cbn [fp_corr fp_bits fp_msgs fp_pmsgs]. repeat split; try apply pfx_refl. apply pfx_app. Qed.
  Lemma longer_batch s : longer s (pbatch s).
  Proof.
    unfold fp_batch. destruct (Nat.eqb _ _); [apply longer_refl|]. unfold longer. cbn [fp_corr fp_bits fp_msgs fp_pmsgs]. repeat split; try apply pfx_refl. apply pfx_app.
  Qed.
  Lemma longer_pre s : longer s (fp_pre voleV voleM oM threads bufsz seeds junk s).
  Proof.
    unfold fp_pre. destruct (Nat.eqb (fp_ccnt s) bufsz).
    - pose proof (longer_manage s) as L. destruct (Nat.eqb (fp_acnt (fp_clear (pmanage s))) bufsz); exact L.
    - destruct (Nat.eqb (fp_acnt s) bufsz); repeat split; apply pfx_refl.
  Qed.
  Lemma longer_mul s a b : longer s (pmul s a b).
  Proof.
    eapply longer_trans; [apply longer_pre|]. unfold fp_mul, longer. cbn [fp_corr fp_bits fp_msgs fp_pmsgs]. repeat split; try apply pfx_refl. apply pfx_app.
  Qed.
  Lemma longer_chain s v row : longer s (pchain s v row).
  Proof.
    unfold fp_chain. set (s' := if Nat.leb polysz (length (fp_poly s)) then pbatch s else s).
    eapply (longer_trans s s').
    - unfold s'. destruct (Nat.leb _ _); [apply longer_batch|apply longer_refl].
    - unfold longer. cbn [fp_corr fp_bits fp_msgs fp_pmsgs]. repeat split; try apply pfx_refl. apply pfx_app.
  Qed.
  Lemma longer_step s g : longer s (pstep s g).
  Proof. destruct g; cbn [fp_step]; try apply longer_mul; try apply longer_chain; repeat split; apply pfx_refl. Qed.
  Lemma longer_fold c : forall s, longer s (fold_left pstep c s).
  Proof. induction c as [|g c IH]; intro s; [apply longer_refl|]. cbn [fold_left]. eapply longer_trans; [apply longer_step|apply IH]. Qed.
  Lemma longer_final s : longer s (pfinal s).
  Proof.
    unfold fp_final. eapply longer_trans; [apply longer_batch|]. destruct (Nat.eqb _ _); [apply longer_refl|apply longer_manage].
  Qed.

  Lemma last_said {A} (l : list A) x d n (f : nat -> A) : length l = n -> (forall i y, nth_error (l ++ [x]) i = Some y -> f i = y) -> last (l ++ [x]) d = f n.
  Proof. intros Hl Hf. rewrite last_last. symmetry. apply Hf. rewrite nth_error_app2, <- Hl, Nat.sub_diag by lia. reflexivity. Qed.

  Lemma p_chk_follow s k l dl hh res : seeds (length (fp_msgs s)) = G hh -> said (pmanage s) -> follow true (k (pmanage s)) l dl res ->
    follow true (fp_check_prog oM threads junk G s k) (compile (ops [IChk (length (fp_msgs s))]) ++ l) (hh :: dl) res.
  Proof.
    intros E (_ & _ & Sd & _) F. unfold fp_check_prog. cbn [FWireProofs.ops flat_map iops app compile compile1 follow Bool.eqb].
    do 3 (eexists; split; [reflexivity|]). cbn beta zeta.
    replace (fp_manage oM threads (fun _ => G hh) junk s) with (pmanage s) by (unfold fp_manage; now rewrite E).
    pose proof (last_said (fp_msgs s) _ (0, 0)%N _ chkmsg eq_refl Sd : last (fp_msgs (pmanage s)) (0, 0)%N = chkmsg (length (fp_msgs s))) as L. rewrite L.
    eexists. split; [reflexivity|]. eexists. split; [reflexivity|]. exact F.
  Qed.
  Lemma p_poly_follow s k l dl hh res : length (fp_poly s) <> 0 -> pseeds (length (fp_pmsgs s)) = Gp hh -> said (pbatch s) -> follow true (k (pbatch s)) l dl res ->
    follow true (fp_batch_prog Gp s k) (compile (ops [IPoly (length (fp_pmsgs s))]) ++ l) (hh :: dl) res.
  Proof.
    intros Hn E (_ & _ & _ & Sd) F. unfold fp_batch_prog. rewrite (proj2 (Nat.eqb_neq _ _) Hn).
    cbn [FWireProofs.ops flat_map iops app compile compile1 follow Bool.eqb].
    do 3 (eexists; split; [reflexivity|]). cbn beta zeta.
    replace (fp_batch (fun _ => Gp hh) s) with (pbatch s) by (unfold fp_batch; now rewrite E).
    assert (L : last (fp_pmsgs (pbatch s)) (0, 0, 0, 0, 0)%N = polymsg (length (fp_pmsgs s))).
    { unfold fp_batch in *. rewrite (proj2 (Nat.eqb_neq _ _) Hn) in *. cbn [fp_pmsgs] in *. exact (last_said (fp_pmsgs s) _ (0, 0, 0, 0, 0)%N _ polymsg eq_refl Sd). }
    rewrite L.
    eexists. split; [reflexivity|]. exact F.
  Qed.
  Lemma pbatch_facts s : length (fp_poly s) <> 0 ->
    fp_ccnt (pbatch s) = fp_ccnt s /\ fp_poly (pbatch s) = [] /\ fp_corr (pbatch s) = fp_corr s /\ fp_bits (pbatch s) = fp_bits s /\ fp_bcnt (pbatch s) = fp_bcnt s /\
    fp_msgs (pbatch s) = fp_msgs s /\ length (fp_pmsgs (pbatch s)) = S (length (fp_pmsgs s)).
  Proof.
    intros Hn. unfold fp_batch. rewrite (proj2 (Nat.eqb_neq _ _) Hn). cbn. rewrite app_length. cbn. repeat split. lia.
  Qed.
  Lemma p_mul_follow s h a b k l its dl res : pshape s h ->
    seeded (fst (mul_items bufsz h) ++ its) dl ->
    let s2 := pmul s a b in said s2 ->
    (forall dl', pshape s2 (snd (mul_items bufsz h)) -> seeded its dl' -> follow true (k s2) l dl' res) ->
    follow true (fp_mul_prog voleV voleM oM threads bufsz junk G s a b k) (compile (ops (fst (mul_items bufsz h))) ++ l) dl res.
  Proof.
    intros Sh Sd s2 Hsaid K. pose proof Sh as (S1 & S2 & S3 & S4 & S5 & S6). unfold fp_mul_prog. rewrite S1. revert Sd K. unfold mul_items.
    assert (LC : forall s0, last (fp_corr (fp_mul voleV voleM oM threads bufsz (fun _ _ => 0%N) junk s0 a b)) 0%N = corr (h_corr h) ->
      forall l dl, follow true (k (fp_mul voleV voleM oM threads bufsz (fun _ _ => 0%N) junk s0 a b)) l dl res ->
      follow true (let s' := fp_mul voleV voleM oM threads bufsz (fun _ _ => 0%N) junk s0 a b in PAlign true (PPut (enc_block (last (fp_corr s') 0%N)) (k s')))
        (compile (ops [ICorr (h_corr h)]) ++ l) dl res).
    { intros s0 E l0 dl0 F. cbn zeta. rewrite E. cbn [FWireProofs.ops flat_map iops app compile compile1 follow Bool.eqb].
      eexists. split; [reflexivity|]. eexists. split; [reflexivity|]. exact F. }
    assert (LS : last (fp_corr s2) 0%N = corr (h_corr h)).
    { destruct Hsaid as (Sc & _). unfold s2 in *. unfold fp_mul in *. cbn [fp_corr] in *. apply last_said; [|exact Sc].
      rewrite <- S3. destruct (longer_pre s) as [[x Lx] _]. unfold fp_pre in *. destruct (Nat.eqb (fp_ccnt s) bufsz);
      [destruct (Nat.eqb (fp_acnt (fp_clear (pmanage s))) bufsz)|destruct (Nat.eqb (fp_acnt s) bufsz)]; reflexivity. }
    destruct (Nat.eqb_spec (h_c h) bufsz) as [E|E]; cbn [fst snd app FWireProofs.seeded]; intros Sd K.
    - destruct dl as [|hh dl]; [destruct Sd|]. destruct Sd as [Sd1 Sd2].
      change (ops [IChk (h_chk h); ICorr (h_corr h)]) with (ops [IChk (h_chk h)] ++ ops [ICorr (h_corr h)]). rewrite compile_app, <- app_assoc.
      rewrite <- S5 in *.
      assert (X : fp_mul voleV voleM oM threads bufsz (fun _ _ => 0%N) junk (fp_clear (pmanage s)) a b = s2).
      { unfold s2, fp_mul, fp_pre. rewrite S1, (proj2 (Nat.eqb_eq _ _) E). change (fp_ccnt (fp_clear (pmanage s))) with 0.
        rewrite (proj2 (Nat.eqb_neq 0 bufsz)) by lia. reflexivity. }
      apply p_chk_follow; [exact Sd1| |].
      + apply (said_back _ s2); [|exact Hsaid]. rewrite <- X.
        change (longer (fp_clear (pmanage s)) (fp_mul voleV voleM oM threads bufsz (fun _ _ => 0%N) junk (fp_clear (pmanage s)) a b)).
        unfold fp_mul, fp_pre. change (fp_ccnt (fp_clear (pmanage s))) with 0. rewrite (proj2 (Nat.eqb_neq 0 bufsz)) by lia.
        destruct (Nat.eqb (fp_acnt (fp_clear (pmanage s))) bufsz); unfold longer; cbn [fp_corr fp_bits fp_msgs fp_pmsgs fp_refill]; repeat split; try apply pfx_refl; apply pfx_app.
      + apply LC; [now rewrite X|]. rewrite X. apply K; [|exact Sd2].
        unfold s2, fp_mul, fp_pre. rewrite S1, (proj2 (Nat.eqb_eq _ _) E).
        destruct (Nat.eqb (fp_acnt (fp_clear (pmanage s))) bufsz); unfold pshape; cbn; rewrite !app_length; cbn; repeat split; auto; lia.
    - assert (X : fp_mul voleV voleM oM threads bufsz (fun _ _ => 0%N) junk s a b = s2).
      { unfold s2, fp_mul, fp_pre. rewrite S1, (proj2 (Nat.eqb_neq _ _) E). reflexivity. }
      apply LC; [now rewrite X|]. rewrite X. apply K; [|exact Sd].
      unfold s2, fp_mul, fp_pre. rewrite S1, (proj2 (Nat.eqb_neq _ _) E).
      destruct (Nat.eqb (fp_acnt s) bufsz); unfold pshape; cbn; rewrite !app_length; cbn; repeat split; auto; lia.
  Qed.
  Lemma chain_bits_are s v row : fp_bits (pchain s v row) = fp_bits s ++ fp_chain_bits bM s v.
  Proof.
    unfold fp_chain, fp_chain_bits. cbn [fp_bits]. rewrite map_map. f_equal. destruct (Nat.leb _ _); [|reflexivity]. unfold fp_batch. now destruct (Nat.eqb _ _).
  Qed.
  Lemma comb_len v : length (combine (seq 0 130) (in_bits v)) = 130.
  Proof. rewrite combine_length, seq_length. unfold in_bits, in65. rewrite !app_length, !map_length, !seq_length. reflexivity. Qed.
  Lemma chain_bits_len s v : length (fp_chain_bits bM s v) = 130.
  Proof. unfold fp_chain_bits. rewrite map_length, combine_length, seq_length. unfold in_bits, in65. rewrite !app_length, !map_length, !seq_length. reflexivity. Qed.
  Lemma bits_as_map a (l : list bool) (pre : list bool) : length pre = a -> (forall i x, nth_error (pre ++ l) i = Some x -> bitmsg i = x) -> l = map bitmsg (seq a (length l)).
  Proof.
    revert a pre. induction l as [|b l IH]; intros a pre Hp Hm; [reflexivity|]. cbn [length seq map]. f_equal.
    - symmetry. apply Hm. rewrite nth_error_app2, <- Hp, Nat.sub_diag by lia. reflexivity.
    - apply (IH (S a) (pre ++ [b])); [rewrite app_length; cbn; lia|]. rewrite <- app_assoc. exact Hm.
  Qed.
  Lemma p_chain_follow s h v row k l its dl res : pshape s h ->
    seeded (fst (chain_items polysz h) ++ its) dl ->
    let s2 := pchain s v row in said s2 ->
    (forall dl', pshape s2 (snd (chain_items polysz h)) -> seeded its dl' -> follow true (k s2) l dl' res) ->
    follow true (fp_chain_prog bM polysz Gp s v row k) (compile (ops (fst (chain_items polysz h))) ++ l) dl res.
  Proof.
    intros Sh Sd s2 Hsaid K. pose proof Sh as (S1 & S2 & S3 & S4 & S5 & S6). unfold fp_chain_prog.
    assert (BM : fp_chain_bits bM s v = map bitmsg (seq (length (fp_bits s)) 130)).
    { rewrite <- (chain_bits_len s v). apply (bits_as_map _ _ (fp_bits s) eq_refl). destruct Hsaid as (_ & Sb & _). unfold s2 in Sb. rewrite chain_bits_are in Sb. exact Sb. }
    rewrite BM. revert Sd K. unfold chain_items. rewrite <- S2, <- S4, <- S6.
    destruct (Nat.leb polysz (length (fp_poly s)) && negb (Nat.eqb (length (fp_poly s)) 0)) eqn:Ef; cbn [fst snd]; intros Sd K.
    - apply andb_prop in Ef. destruct Ef as [F1 F2]. apply negb_true_iff, Nat.eqb_neq in F2.
      rewrite <- app_assoc, seeded_bits in Sd. cbn [app FWireProofs.seeded] in Sd. destruct dl as [|hh dl]; [destruct Sd|]. destruct Sd as [Sd1 Sd2].
      rewrite ops_app, compile_app, <- app_assoc, compile_bits. apply put_bits_follow. rewrite F1.
      destruct (pbatch_facts s F2) as (A1 & A2 & A3 & A4 & A5 & A6 & A7).
      assert (Z : forall ps, (if Nat.leb polysz (length (@nil row5)) then fp_batch ps (pbatch s) else pbatch s) = pbatch s).
      { intro ps. unfold fp_batch at 1. rewrite A2. cbn [length Nat.eqb]. now destruct (Nat.leb polysz 0). }
      assert (X : fp_chain bM polysz (fun _ => 0%N) (pbatch s) v row = s2).
      { unfold s2, fp_chain. cbv zeta. rewrite F1, !A2, Z, !A2, !A5. reflexivity. }
      apply p_poly_follow; auto.
      + apply (said_back _ s2); [|exact Hsaid]. unfold s2, fp_chain. rewrite F1. unfold longer. cbn [fp_corr fp_bits fp_msgs fp_pmsgs]. repeat split; try apply pfx_refl. apply pfx_app.
      + cbn beta. rewrite X. apply K; [|exact Sd2]. unfold s2, fp_chain. rewrite F1. unfold pshape.
        cbn [fp_ccnt fp_poly fp_corr fp_bits fp_msgs fp_pmsgs h_c h_p h_corr h_bits h_chk h_pchk]. rewrite !app_length, A1, A2, A3, A4, A6, A7, !map_length, comb_len. cbn [length]. repeat split; auto.
    - rewrite seeded_bits in Sd. rewrite compile_bits. apply put_bits_follow.
      assert (Hp : length (fp_poly s) = 0 \/ Nat.leb polysz (length (fp_poly s)) = false).
      { destruct (Nat.leb polysz (length (fp_poly s))); [left|now right]. cbn in Ef. apply negb_false_iff, Nat.eqb_eq in Ef. exact Ef. }
      assert (Z : forall ps, (if Nat.leb polysz (length (fp_poly s)) then fp_batch ps s else s) = s).
      { intro ps. destruct Hp as [Hp| ->]; [|reflexivity]. unfold fp_batch. rewrite Hp. cbn [Nat.eqb]. now destruct (Nat.leb polysz 0). }
      assert (X : fp_chain bM polysz (fun _ => 0%N) s v row = s2).
      { unfold s2, fp_chain. rewrite !Z. reflexivity. }
      assert (Q : follow true (k (fp_chain bM polysz (fun _ => 0%N) s v row)) l dl res).
      { rewrite X. apply K; [|exact Sd]. unfold s2, fp_chain. rewrite !Z. unfold pshape.
        cbn [fp_ccnt fp_poly fp_corr fp_bits fp_msgs fp_pmsgs h_c h_p h_corr h_bits h_chk h_pchk]. rewrite !app_length, !map_length, comb_len. cbn [length].
        repeat split; auto. lia. }
      cbn zeta. destruct (Nat.leb polysz (length (fp_poly s))); [|exact Q]. unfold fp_batch_prog. destruct Hp as [Hp|Hp]; [|discriminate].
      rewrite Hp. exact Q.
  Qed.
  Lemma p_gate_follow s h g k l its dl res : pshape s h ->
    seeded (fst (gitems h g) ++ its) dl -> said (pstep s g) ->
    (forall dl', pshape (pstep s g) (snd (gitems h g)) -> seeded its dl' -> follow true (k (pstep s g)) l dl' res) ->
    follow true (fp_gate_prog ext voleV voleM bM oM threads bufsz polysz junk G Gp s g k) (compile (ops (fst (gitems h g))) ++ l) dl res.
  Proof.
    intros Sh Sd Hsaid K. destruct g; cbn [FWireProofs.gitems fp_gate_prog fp_step] in *.
    - cbn [fst app snd] in *. apply K; [|exact Sd]. destruct Sh as (S1 & S2 & S3 & S4 & S5 & S6). repeat split; assumption.
    - cbn [fst app snd] in *. apply K; [|exact Sd]. destruct Sh as (S1 & S2 & S3 & S4 & S5 & S6). repeat split; assumption.
    - now apply p_mul_follow with (its := its).
    - now apply p_chain_follow with (its := its).
    - now apply p_chain_follow with (its := its).
    - now apply p_chain_follow with (its := its).
  Qed.
  Lemma p_end_follow s h dl : pshape s h -> seeded (end_items h) dl -> said (pfinal s) ->
    follow true (fp_end_prog oM threads junk G Gp s) (compile (ops (end_items h) ++ [OFlush])) dl (pfinal s).
  Proof.
    intros Sh Sd Hs. pose proof Sh as (S1 & S2 & S3 & S4 & S5 & S6). unfold fp_end_prog, end_items in *. rewrite ops_app, <- app_assoc.
    assert (CH : forall s h dl, fp_ccnt s = h_c h -> length (fp_msgs s) = h_chk h -> seeded (if Nat.eqb (h_c h) 0 then [] else [IChk (h_chk h)]) dl ->
      said (if Nat.eqb (fp_ccnt s) 0 then s else pmanage s) ->
      follow true (if Nat.eqb (fp_ccnt s) 0 then PFlush (PDone s) else fp_check_prog oM threads junk G s (fun s => PFlush (PDone s)))
        (compile (ops (if Nat.eqb (h_c h) 0 then [] else [IChk (h_chk h)]) ++ [OFlush])) dl (if Nat.eqb (fp_ccnt s) 0 then s else pmanage s)).
    { clear s h dl Sh Sd Hs S1 S2 S3 S4 S5 S6. intros s h dl E1 E2 Sd Hs. rewrite E1 in *. destruct (Nat.eqb (h_c h) 0).
      - cbn in *. subst dl. eexists. split; reflexivity.
      - cbn [FWireProofs.seeded] in Sd. destruct dl as [|hh dl]; [destruct Sd|]. destruct Sd as [Sd ->]. rewrite compile_app, <- E2 in *.
        apply p_chk_follow; [exact Sd|exact Hs|]. cbn. eexists. split; reflexivity. }
    unfold fp_final in *. rewrite <- S2, <- S6 in *. destruct (Nat.eqb_spec (length (fp_poly s)) 0) as [Z|Z].
    - unfold fp_batch_prog. assert (X : pbatch s = s) by (unfold fp_batch; rewrite Z; reflexivity). rewrite X in *. rewrite Z.
      cbn [Nat.eqb app FWireProofs.ops flat_map] in *. apply CH; auto.
    - cbn [app FWireProofs.seeded] in Sd. destruct dl as [|hh dl]; [destruct Sd|]. destruct Sd as [Sd1 Sd2].
      rewrite compile_app. destruct (pbatch_facts s Z) as (A1 & A2 & A3 & A4 & A5 & A6 & A7).
      apply p_poly_follow; auto.
      + eapply said_back; [|exact Hs]. destruct (Nat.eqb (fp_ccnt (pbatch s)) 0); [apply longer_refl|apply longer_manage].
      + apply CH; auto; congruence.
  Qed.
  Lemma p_follow c : forall s h dl, pshape s h -> seeded (items h c) dl ->
    let p := pfinal (fold_left pstep c s) in said p ->
    follow true (pprog s c) (compile (ops (items h c) ++ [OFlush])) dl p.
  Proof.
    induction c as [|g c IH]; intros s h dl Sh Sd p Hs; cbn [fprv_prog FWireProofs.items fold_left] in *.
    - now apply p_end_follow.
    - rewrite ops_app, <- app_assoc, compile_app.
      apply p_gate_follow with (its := items (snd (gitems h g)) c); auto.
      + eapply said_back; [|exact Hs]. unfold p. eapply longer_trans; [apply longer_fold|apply longer_final].
      + intros dl' Sh' Sd'. apply IH; assumption.
  Qed.
End Prv.
