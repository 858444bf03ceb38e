(** The calls of the arithmetic engine on the shared endpoint follow the schedule of the honest prover's run. *)
From Coq Require Import NArith List Bool Arith Lia.
From Verif Require Import Word WordProofs FpModel FpProofs ArithModel ArithSpec ArithProofs ArithShadow ArithThms ArithThms2 ArithThms3 ArithThms4
  BoolIOModel BoolIOSpec WireModel WireNet WireProofs AWireModel AWireNet AWireProofs XWireModel.
Import ListNotations.

(** no bit and no challenge in a list of operations *)
Definition quiet (os : list op) : Prop := Forall (fun o => match o with OData _ _ | OFlush => True | _ => False end) os.
Lemma quiet_facts os : quiet os -> no_bare_hash os /\ nchal os = 0 /\ bits_of os = [].
Proof.
  induction 1 as [|o os Ho Q (A & B & C)]; [repeat constructor|].
  destruct o; try contradiction; cbn [nchal bits_of]; (split; [constructor; [exact I|exact A]|]); auto.
Qed.

Lemma agree_last {A} (f : nat -> A) l l' t x z : agree f l' -> l' = (l ++ [x]) ++ t -> f (length l) = last (l ++ [x]) z.
Proof. intros Ag ->. rewrite last_last. apply Ag. rewrite <- app_assoc, nth_error_app2, Nat.sub_diag by (clear; lia). reflexivity. Qed.

Section Arith.
  Variables (threads : nat) (pub_mac : N) (pV vV : nat -> N) (adelta : N) (acsz apsz : nat) (AG : N -> nat -> N) (AH : list N -> list N).
  Variable coins : bool -> nat -> N.
  Hypothesis Hcoins : forall k, (coins false k < 2 ^ 128)%N.
  Hypothesis Hcsz : 1 <= acsz.
  Hypothesis HAH : forall l, length (AH l) = 32.
  Notation seeds := (fun k : nat => AG (coins false k)).
  Notation pseeds := (coins true).
  Notation pstep_ := (ap_step pub_mac pV threads acsz apsz seeds pseeds).
  Notation pman := (ap_manage pV threads seeds).
  Notation pbat := (ap_batch pV pseeds).
  Notation pcheck := (xp_check threads pV AG).
  Notation vcheck := (xv_check threads vV adelta AG coins).
  Notation pbatch := (xp_batch pV).
  Notation vbatch := (xv_batch vV adelta coins).
  Notation pgate := (xp_gate threads pub_mac pV acsz apsz).
  Notation vgate := (xv_gate threads pub_mac vV adelta acsz apsz).
  Notation parith := (xp_arith threads pub_mac pV acsz apsz AG).
  Notation varith := (xv_arith threads pub_mac vV adelta acsz apsz AG coins).
  Notation pend := (xp_arith_end threads pV AG AH).
  Notation vend_ := (xv_arith_end threads vV adelta AG AH coins).
  (** * schedules *)
  Definition acheck_ops (p p1 : apst) : list op :=
    [OFlush; OData false (enc_block (coins false (ap_chk p))); OFlush; OData true (enc_pair (last (ap_msgs p1) (0, 0)%N)); OFlush].
  Definition abatch_ops (p : apst) : list op :=
    [OFlush; OData false (enc64 (mod1 (coins true (ap_pchk p)))); OData true (enc_pair (last (ap_pmsgs (pbat p)) (0, 0)%N))].
  Definition word_ops (g : agate) (p : apst) : list op := if a_sends g then [OData true (enc64 (last (ap_words p) 0%N))] else [].
  Definition aop_ops (p : apst) (g : agate) : list op :=
    if a_full acsz g (length (ap_buf p)) then
      match pman p with
      | None => []
      | Some p1 => acheck_ops p p1 ++ match pstep_ (ap_clear p1) g with None => [] | Some p2 => word_ops g p2 end
      end
    else if a_pfull apsz g (length (ap_poly p)) then abatch_ops p ++ match pstep_ (pbat p) g with None => [] | Some p2 => word_ops g p2 end
    else match pstep_ p g with None => [] | Some p2 => word_ops g p2 end.
  Definition adig_ops (p : apst) : list op := [OData true (AH (ap_hash p))].
  Definition aend_ops (p : apst) : list op :=
    (match ap_poly p with [] => [] | _ => abatch_ops p end) ++
    (let p' := pbat p in
     match ap_buf p' with [] => adig_ops p' | _ => match pman p' with None => [] | Some p2 => acheck_ops p' p2 ++ adig_ops p2 end end).
  Lemma quiet_app a b : quiet a -> quiet b -> quiet (a ++ b).
  Proof. intros; now apply Forall_app. Qed.
  Lemma word_quiet g p : quiet (word_ops g p).
  Proof. unfold word_ops. destruct (a_sends g); repeat constructor. Qed.
  Lemma aop_quiet p g : quiet (aop_ops p g).
  Proof.
    unfold aop_ops. destruct (a_full _ _ _); [|destruct (a_pfull _ _ _)].
    - destruct (pman p) as [p1|]; [|constructor]. apply quiet_app; [repeat constructor|]. destruct (pstep_ _ g); [apply word_quiet|constructor].
    - apply quiet_app; [repeat constructor|]. destruct (pstep_ _ g); [apply word_quiet|constructor].
    - destruct (pstep_ _ g); [apply word_quiet|constructor].
  Qed.
  Lemma aend_quiet p : quiet (aend_ops p).
  Proof.
    unfold aend_ops. apply quiet_app; [destruct (ap_poly p); repeat constructor|]. cbv zeta. destruct (ap_buf (pbat p)); [repeat constructor|].
    destruct (pman (pbat p)); [|constructor]. apply quiet_app; repeat constructor.
  Qed.
  (** * the prover *)
  Lemma pf_check {R : Type} p p1 (k : apst -> proc (option R)) l dl res : pman p = Some p1 ->
    follow true (k p1) l dl res -> follow true (pcheck p k) (compile (acheck_ops p p1) ++ l) dl res.
  Proof.
    intros Ep F. unfold xp_check, acheck_ops. set (x := coins false (ap_chk p)).
    assert (Hx : dec_bytes (enc_block x) = x) by (apply dec_enc, Hcoins).
    assert (E : ap_manage pV threads (fun _ => AG (dec_bytes (enc_block x))) p = Some p1).
    { rewrite <- Ep, Hx. unfold ap_manage. reflexivity. }
    pose proof (enc_block_len x) as Lx. set (bx := enc_block x) in *. set (y := enc_pair _).
    cbn [compile flat_map compile1 app follow Bool.eqb]. eexists. split; [reflexivity|]. eexists. split; [reflexivity|]. rewrite Lx.
    eexists. split; [reflexivity|]. cbn beta. eexists. split; [reflexivity|]. rewrite E.
    eexists. split; [reflexivity|]. eexists. split; [reflexivity|]. eexists. split; [reflexivity|]. exact F.
  Qed.
  Lemma pf_batch {R : Type} p (k : apst -> proc (option R)) l dl res :
    follow true (k (pbat p)) l dl res -> follow true (pbatch p k) (compile (abatch_ops p) ++ l) dl res.
  Proof.
    intros F. unfold xp_batch, abatch_ops. set (x := mod1 (coins true (ap_pchk p))).
    assert (Hx : dec_bytes (enc64 x) = x) by (apply dec_enc64, mod1_64).
    assert (E : ap_batch_seed pV (dec_bytes (enc64 x)) p = pbat p) by (rewrite Hx; reflexivity).
    pose proof (enc64_len x) as Lx. set (bx := enc64 x) in *. set (y := enc_pair (last (ap_pmsgs (pbat p)) (0, 0)%N)) in *.
    cbn [compile flat_map compile1 app follow Bool.eqb]. eexists. split; [reflexivity|]. eexists. split; [reflexivity|]. rewrite Lx.
    eexists. split; [reflexivity|]. cbn beta. rewrite E.
    eexists. split; [reflexivity|]. eexists. split; [reflexivity|]. exact F.
  Qed.
  Lemma pf_gate {R : Type} p g p' (k : apst -> proc (option R)) l dl res :
    a_full acsz g (length (ap_buf p)) = false -> a_pfull apsz g (length (ap_poly p)) = false -> pstep_ p g = Some p' ->
    follow true (k p') l dl res -> follow true (pgate p g k) (compile (word_ops g p') ++ l) dl res.
  Proof.
    intros F1 F2 Ep F. unfold xp_gate, word_ops. rewrite (ap_gate_step pub_mac pV threads acsz apsz p g F1 F2 _ _ seeds pseeds), Ep.
    destruct (a_sends g); [|exact F]. cbn [compile flat_map compile1 app follow Bool.eqb].
    eexists. split; [reflexivity|]. eexists. split; [reflexivity|]. exact F.
  Qed.
  Lemma pf_arith {R : Type} p g p' (k : apst -> proc (option R)) l dl res : pstep_ p g = Some p' ->
    follow true (k p') l dl res -> follow true (parith p g k) (compile (aop_ops p g) ++ l) dl res.
  Proof.
    intros Ep F. unfold xp_arith, aop_ops. destruct (a_full acsz g (length (ap_buf p))) eqn:F1; [|destruct (a_pfull apsz g (length (ap_poly p))) eqn:F2].
    - rewrite (p_full pub_mac pV threads acsz apsz AG coins Hcsz p g F1) in Ep. destruct (pman p) as [p1|] eqn:Em; [|discriminate]. rewrite Ep.
      rewrite compile_app, <- app_assoc. apply pf_check; [exact Em|]. apply pf_gate; auto; [now apply clear_full|]. now apply full_not_p with (csz := acsz) (n := length (ap_buf p)).
    - rewrite (p_pfull pub_mac pV threads acsz apsz AG coins p g F2) in Ep. rewrite Ep. rewrite compile_app, <- app_assoc. apply pf_batch. apply pf_gate; auto.
      + now apply pfull_not with (psz := apsz) (n := length (ap_poly p)).
      + apply bat_pfull.
    - rewrite Ep. now apply pf_gate.
  Qed.
  Lemma pf_end {R : Type} p p' (k : apst -> proc (option R)) l dl res : ap_final pV threads seeds pseeds p = Some p' ->
    follow true (k p') l dl res -> follow true (pend p k) (compile (aend_ops p) ++ l) dl res.
  Proof.
    intros Ep F. unfold ap_final in Ep. cbv zeta in Ep. unfold xp_arith_end, aend_ops. cbv zeta.
    assert (D : forall q dl, follow true (k q) l dl res -> follow true (PAlign true (PPut (AH (ap_hash q)) (k q))) (compile (adig_ops q) ++ l) dl res).
    { intros q dl0 Fq. unfold adig_ops. set (y := AH (ap_hash q)). cbn [compile flat_map compile1 app follow Bool.eqb].
      eexists. split; [reflexivity|]. eexists. split; [reflexivity|]. exact Fq. }
    assert (E : forall q, match ap_buf q with [] => Some q | _ => pman q end = Some p' ->
      follow true (match ap_buf q with [] => PAlign true (PPut (AH (ap_hash q)) (k q)) | _ => pcheck q (fun s => PAlign true (PPut (AH (ap_hash s)) (k s))) end)
        (compile (match ap_buf q with [] => adig_ops q | _ => match pman q with None => [] | Some p2 => acheck_ops q p2 ++ adig_ops p2 end end) ++ l) dl res).
    { intros q Eq. destruct (ap_buf q).
      - injection Eq as ->. now apply D.
      - rewrite Eq, compile_app, <- app_assoc. apply pf_check; [exact Eq|]. now apply D. }
    destruct (ap_poly p) eqn:E1.
    - rewrite (bat_nil pV coins p E1) in *. cbn [app]. now apply E.
    - rewrite compile_app, <- app_assoc. apply pf_batch. now apply E.
  Qed.
  (** * the verifier *)
  Variables (words : nat -> N) (chkmsg pchkmsg : nat -> N * N) (pf : apst).
  Hypothesis Agw : agree words (ap_words pf).
  Hypothesis Agc : agree chkmsg (ap_msgs pf).
  Hypothesis Agp : agree pchkmsg (ap_pmsgs pf).
  Hypothesis Hw64 : forall k, (words k < 2 ^ 64)%N.
  Notation vstep_ := (av_step pub_mac vV adelta threads acsz apsz seeds pseeds words chkmsg pchkmsg).
  Notation vman := (av_manage vV adelta threads seeds chkmsg).
  Notation vbat := (av_batch vV adelta pseeds pchkmsg).
  Lemma vf_check {R : Type} p v p1 v1 (k : avst -> proc (option R)) l dl res : like p v -> pman p = Some p1 -> vman v = Some v1 -> av_err v1 = false -> upto p1 pf ->
    follow false (k v1) l dl res -> follow false (vcheck v k) (compile (acheck_ops p p1) ++ l) dl res.
  Proof.
    intros L Ep Ev Hno (_ & (t & U) & _) F. unfold xv_check, acheck_ops. rewrite (lk_chk _ _ L).
    destruct (man_msg pV threads AG coins _ _ Ep) as [m Em]. assert (Mm : chkmsg (av_chk v) = last (ap_msgs p1) (0, 0)%N).
    { rewrite Em in U |- *. rewrite (lk_msgs _ _ L). eapply agree_last; [exact Agc|exact U]. }
    assert (Lm : (fst (last (ap_msgs p1) (0, 0)) < 2 ^ 64 /\ snd (last (ap_msgs p1) (0, 0)) < 2 ^ 64)%N).
    { unfold ap_manage in Ep. destruct (a_ranges threads (length (ap_buf p))) as [rs|]; [|discriminate]. injection Ep as <-.
      cbn [ap_msgs]. rewrite last_last. apply msg_64. }
    set (x := coins false (av_chk v)) in *.
    assert (Ev' : av_manage vV adelta threads (fun _ => AG x) (fun _ => dec_pair (enc_pair (last (ap_msgs p1) (0, 0)%N))) v = Some v1).
    { rewrite dec_enc_pair by apply Lm. rewrite <- Mm, <- Ev. reflexivity. }
    assert (Er : exists rs, a_ranges threads (length (av_buf v)) = Some rs).
    { unfold av_manage in Ev. destruct (a_ranges threads (length (av_buf v))); [eauto|discriminate]. }
    destruct Er as [rs Er]. rewrite Er. pose proof (enc_pair_len (last (ap_msgs p1) (0, 0)%N)) as Ly.
    set (y := enc_pair (last (ap_msgs p1) (0, 0)%N)) in *. set (bx := enc_block x).
    cbn [compile flat_map compile1 app follow Bool.eqb]. eexists. split; [reflexivity|]. eexists. split; [reflexivity|].
    eexists. split; [reflexivity|]. eexists. split; [reflexivity|]. eexists. split; [reflexivity|]. rewrite Ly.
    eexists. split; [reflexivity|]. cbn beta. rewrite Ev', Hno. eexists. split; [reflexivity|]. exact F.
  Qed.
  Lemma vf_batch {R : Type} p v (k : avst -> proc (option R)) l dl res : like p v -> ap_poly p <> [] -> upto (pbat p) pf ->
    follow false (k (vbat v)) l dl res -> follow false (vbatch v k) (compile (abatch_ops p) ++ l) dl res.
  Proof.
    intros L Np (_ & _ & (t & U)) F. unfold xv_batch, abatch_ops. rewrite (lk_pchk _ _ L).
    destruct (bat_msg pV coins _ Np) as [m Em]. assert (Mm : pchkmsg (av_pchk v) = last (ap_pmsgs (pbat p)) (0, 0)%N).
    { rewrite Em in U |- *. rewrite (lk_pmsgs _ _ L). eapply agree_last; [exact Agp|exact U]. }
    assert (Lm : (fst (last (ap_pmsgs (pbat p)) (0, 0)) < 2 ^ 64 /\ snd (last (ap_pmsgs (pbat p)) (0, 0)) < 2 ^ 64)%N).
    { unfold ap_batch. destruct (ap_poly p); [congruence|]. cbn [ap_pmsgs]. rewrite last_last. apply msg_64. }
    set (x := coins true (av_pchk v)) in *.
    assert (Ev' : av_batch vV adelta (fun _ => x) (fun _ => dec_pair (enc_pair (last (ap_pmsgs (pbat p)) (0, 0)%N))) v = vbat v).
    { rewrite dec_enc_pair by apply Lm. rewrite <- Mm. reflexivity. }
    pose proof (enc_pair_len (last (ap_pmsgs (pbat p)) (0, 0)%N)) as Ly.
    set (y := enc_pair (last (ap_pmsgs (pbat p)) (0, 0)%N)) in *. set (bx := enc64 (mod1 x)).
    cbn [compile flat_map compile1 app follow Bool.eqb]. eexists. split; [reflexivity|]. eexists. split; [reflexivity|].
    eexists. split; [reflexivity|]. eexists. split; [reflexivity|]. rewrite Ly. eexists. split; [reflexivity|]. cbn beta. rewrite Ev'. exact F.
  Qed.
  Lemma vf_gate {R : Type} p v g p' v' (k : avst -> proc (option R)) l dl res : like p v ->
    a_full acsz g (length (ap_buf p)) = false -> a_pfull apsz g (length (ap_poly p)) = false ->
    pstep_ p g = Some p' -> vstep_ v g = Some v' -> av_err v' = false -> upto p' pf ->
    follow false (k v') l dl res -> follow false (vgate v g k) (compile (word_ops g p') ++ l) dl res.
  Proof.
    intros L F1 F2 Ep Ev Hno ((t & U) & _ & _) F.
    assert (F3 : a_full acsz g (length (av_buf v)) = false) by (rewrite <- (lk_buf _ _ L); exact F1).
    assert (F4 : a_pfull apsz g (length (av_poly v)) = false) by (rewrite <- (lk_poly _ _ L); exact F2).
    unfold xv_gate, word_ops. destruct (a_sends g) eqn:Eg.
    - destruct (sent_word pub_mac pV threads acsz apsz AG coins _ _ _ F1 Eg Ep) as [w Ew].
      assert (W1 : words (av_words v) = last (ap_words p') 0%N).
      { rewrite Ew in U |- *. rewrite (lk_words _ _ L). eapply agree_last; [exact Agw|exact U]. }
      pose proof (Hw64 (av_words v)) as W2. rewrite W1 in W2.
      pose proof (dec_enc64 _ W2) as Dy. pose proof (enc64_len (last (ap_words p') 0%N)) as Ly. set (y := enc64 (last (ap_words p') 0%N)) in *.
      cbn [compile flat_map compile1 app follow Bool.eqb]. eexists. split; [reflexivity|]. rewrite Ly. eexists. split; [reflexivity|]. cbn beta.
      rewrite Dy. rewrite (av_gate_step pub_mac vV adelta threads acsz apsz v g F3 F4 _ _ _ _ _ seeds pseeds words chkmsg pchkmsg) by (intros _; now rewrite W1).
      rewrite Ev, Hno. exact F.
    - rewrite (av_gate_step pub_mac vV adelta threads acsz apsz v g F3 F4 _ _ _ _ _ seeds pseeds words chkmsg pchkmsg) by congruence.
      rewrite Ev, Hno. exact F.
  Qed.
  Lemma vf_arith {R : Type} p v g p' v' (k : avst -> proc (option R)) l dl res : like p v ->
    pstep_ p g = Some p' -> vstep_ v g = Some v' -> av_err v' = false -> upto p' pf ->
    like p' v' /\ (follow false (k v') l dl res -> follow false (varith v g k) (compile (aop_ops p g) ++ l) dl res).
  Proof.
    intros L Eg Egv N2 U2. unfold xv_arith, aop_ops. rewrite <- (lk_buf _ _ L), <- (lk_poly _ _ L).
    destruct (a_full acsz g (length (ap_buf p))) eqn:F1; [|destruct (a_pfull apsz g (length (ap_poly p))) eqn:F2].
    - rewrite (p_full pub_mac pV threads acsz apsz AG coins Hcsz p g F1) in Eg. assert (F1v := F1). rewrite (lk_buf _ _ L) in F1v.
      rewrite (v_full pub_mac vV adelta threads acsz apsz AG coins words chkmsg pchkmsg Hcsz v g F1v) in Egv.
      destruct (pman p) as [p1|] eqn:Em; [|discriminate]. destruct (vman v) as [v1|] eqn:Emv; [|discriminate]. rewrite Eg.
      assert (N1 : av_err v1 = false).
      { destruct (av_err v1) eqn:X; [|reflexivity]. exfalso. erewrite step_err in N2; [discriminate|exact Egv|exact X]. }
      assert (U1 : upto p1 pf) by (eapply upto_trans; [|exact U2]; change (upto (ap_clear p1) p'); eapply step_upto; exact Eg).
      assert (L1 : like (ap_clear p1) (av_clear v1)) by (eapply like_clear, like_man; eauto).
      assert (X1 := clear_full acsz Hcsz p1 g). assert (X2 := full_not_p acsz apsz g _ (length (ap_poly (ap_clear p1))) F1).
      split; [eapply like_step; eauto|]. intro F. rewrite compile_app, <- app_assoc. eapply vf_check; eauto. eapply vf_gate; eauto.
    - assert (Hne : ap_poly p <> []).
      { intro Z. rewrite Z in F2. destruct g; try discriminate; cbn in F2; now rewrite andb_false_r in F2. }
      rewrite (p_pfull pub_mac pV threads acsz apsz AG coins p g F2) in Eg. assert (F2v := F2). rewrite (lk_poly _ _ L) in F2v.
      rewrite (v_pfull pub_mac vV adelta threads acsz apsz AG coins words chkmsg pchkmsg v g F2v) in Egv. rewrite Eg.
      assert (U1 : upto (pbat p) pf) by (eapply upto_trans; [|exact U2]; eapply step_upto; exact Eg).
      assert (L1 : like (pbat p) (vbat v)) by (eapply like_bat; eauto).
      assert (X2 := bat_pfull pV apsz coins p g). assert (X1 := pfull_not acsz apsz g _ (length (ap_buf (pbat p))) F2).
      split; [eapply like_step; eauto|]. intro F. rewrite compile_app, <- app_assoc. eapply vf_batch; eauto. eapply vf_gate; eauto.
    - rewrite Eg. split; [eapply like_step; eauto|]. intro F. eapply vf_gate; eauto.
  Qed.
  Lemma vf_end {R : Type} p v vf (k : avst -> proc (option R)) l dl res : like p v ->
    ap_final pV threads seeds pseeds p = Some pf -> av_final vV adelta threads seeds pseeds chkmsg pchkmsg v = Some vf -> av_err vf = false ->
    same_bytes (AH (av_hash vf)) (AH (ap_hash pf)) = true ->
    follow false (k vf) l dl res -> follow false (vend_ v k) (compile (aend_ops p) ++ l) dl res.
  Proof.
    intros L Ep Ev Hno Hs F. unfold ap_final in Ep. unfold av_final in Ev. cbv zeta in Ep, Ev. unfold xv_arith_end, aend_ops. cbv zeta.
    assert (D : forall dl, follow false (k vf) l dl res ->
      follow false (PAlign true (PGet 32 (fun b => if same_bytes (AH (av_hash vf)) b then k vf else PDone None))) (compile (adig_ops pf) ++ l) dl res).
    { intros dl0 Fq. unfold adig_ops. pose proof (HAH (ap_hash pf)) as Ly. set (y := AH (ap_hash pf)) in *. cbn [compile flat_map compile1 app follow Bool.eqb].
      eexists. split; [reflexivity|]. rewrite Ly. eexists. split; [reflexivity|]. cbn beta. rewrite Hs. exact Fq. }
    assert (E : forall q w, like q w -> match ap_buf q with [] => Some q | _ => pman q end = Some pf -> match av_buf w with [] => Some w | _ => vman w end = Some vf ->
      follow false (match av_buf w with [] => PAlign true (PGet 32 (fun b => if same_bytes (AH (av_hash w)) b then k w else PDone None))
                    | _ => vcheck w (fun s => PAlign true (PGet 32 (fun b => if same_bytes (AH (av_hash s)) b then k s else PDone None))) end)
        (compile (match ap_buf q with [] => adig_ops q | _ => match pman q with None => [] | Some p2 => acheck_ops q p2 ++ adig_ops p2 end end) ++ l) dl res).
    { intros q w Lq Eq Ew. pose proof (lk_buf _ _ Lq) as Q. destruct (ap_buf q) eqn:B1, (av_buf w) eqn:B2; try discriminate.
      - injection Eq as ->. injection Ew as ->. now apply D.
      - rewrite Eq, compile_app, <- app_assoc. eapply vf_check; eauto using upto_refl. }
    pose proof (lk_poly _ _ L) as Q. destruct (ap_poly p) eqn:E1, (av_poly v) eqn:E2; try discriminate.
    - rewrite (bat_nil pV coins p E1) in *. rewrite (vbat_nil vV adelta coins pchkmsg v E2) in *. cbn [app]. now apply E.
    - assert (Hne : ap_poly p <> []) by (rewrite E1; discriminate).
      rewrite compile_app, <- app_assoc. eapply vf_batch; eauto.
      + destruct (ap_buf (pbat p)) eqn:Eb; [injection Ep as ->; apply upto_refl|apply (man_upto pV threads AG coins _ _ Ep)].
      + apply E; auto. eapply like_bat; eauto.
  Qed.
End Arith.
