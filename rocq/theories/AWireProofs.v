(** The honest programs of the arithmetic engine: one schedule completes with the results of the message-level session. *)
From Coq Require Import NArith List Bool Arith Lia.
From Verif Require Import Word WordProofs FpModel FpProofs ArithModel ArithSpec ArithProofs ArithShadow ArithThms ArithThms2 ArithThms3 ArithThms4 WireModel WireProofs AWireModel AWireNet.
Import ListNotations.

(** * Encoding of words *)
Lemma enc64_len x : length (enc64 x) = 8.
Proof. unfold enc64. now rewrite map_length, seq_length. Qed.
Lemma dec_enc64 x : (x < 2 ^ 64)%N -> dec_bytes (enc64 x) = x.
Proof.
  intro H. unfold enc64. rewrite dec_seq. change (8 * N.of_nat 0)%N with 0%N. change (8 * N.of_nat 8)%N with 64%N.
  rewrite N.pow_0_r, N.div_1_r. now apply N.mod_small.
Qed.
Lemma enc_pair_len A : length (enc_pair A) = 16.
Proof. unfold enc_pair. now rewrite app_length, !enc64_len. Qed.
Lemma dec_enc_pair A : (fst A < 2 ^ 64)%N -> (snd A < 2 ^ 64)%N -> dec_pair (enc_pair A) = A.
Proof.
  intros H1 H2. unfold dec_pair, enc_pair.
  assert (E1 : firstn 8 (enc64 (fst A) ++ enc64 (snd A)) = enc64 (fst A)).
  { rewrite <- (enc64_len (fst A)), firstn_app, Nat.sub_diag, firstn_all. cbn [firstn]. apply app_nil_r. }
  assert (E2 : skipn 8 (enc64 (fst A) ++ enc64 (snd A)) = enc64 (snd A)).
  { rewrite <- (enc64_len (fst A)), skipn_app, Nat.sub_diag, skipn_all. reflexivity. }
  assert (E3 : firstn 8 (enc64 (snd A)) = enc64 (snd A)) by (rewrite <- (enc64_len (snd A)) at 1; apply firstn_all).
  rewrite E1, E2, E3, !dec_enc64 by assumption. now destruct A.
Qed.
Lemma sub64_lt a b : (sub64 a b < 2 ^ 64)%N.
Proof. unfold sub64. apply N.mod_lt. discriminate. Qed.
Lemma add64_lt a b : (add64 a b < 2 ^ 64)%N.
Proof. unfold add64. apply N.mod_lt. discriminate. Qed.
Lemma add_mod_64 a b : (add_mod a b < 2 ^ 64)%N.
Proof. unfold add_mod. cbv zeta. match goal with |- context[if ?b then _ else _] => destruct b end; [apply sub64_lt|apply add64_lt]. Qed.
Lemma mod1_64 x : (mod1 x < 2 ^ 64)%N.
Proof. unfold mod1. cbv zeta. match goal with |- context[if ?b then _ else _] => destruct b end; [apply sub64_lt|apply add64_lt]. Qed.
Lemma msg_64 UV o : (fst (a_prv_msg UV o) < 2 ^ 64)%N /\ (snd (a_prv_msg UV o) < 2 ^ 64)%N.
Proof. split; apply add_mod_64. Qed.

(** * Synchronous moves *)
Section Moves.
  Variable coins : bool -> nat -> N.
  Context {RP RV : Type}.
  Notation "a ~~> b" := (exists w, @kruns coins RP RV w a b) (at level 70).
  Lemma then_ a b c : a ~~> b -> b ~~> c -> a ~~> c.
  Proof. intros [w H] [w' H']. exists (w + w'). eapply kruns_app; eauto. Qed.
  Lemma one w a b : kstep coins w a b -> a ~~> b.
  Proof. intro H. exists (w + 0). econstructor; [exact H|constructor]. Qed.
  Lemma mv_put_get bs P t len V rd c0 c1 : length bs = len ->
    K (QPut bs P) (QGet t len V) [] [] rd c0 c1 ~~> K P (V bs) [] [] (rd ++ [(t, bs)]) c0 c1.
  Proof.
    intro L. eapply then_; [eapply one, KP; reflexivity|]. eapply one. cbn [app].
    replace bs with (firstn len bs) at 2 3 by (rewrite <- L; apply firstn_all).
    replace (@nil N) with (skipn len bs) at 2 by (rewrite <- L; apply skipn_all).
    change (@nil N) with ((@nil N) ++ []) at 2. eapply KV. cbn [kact]. destruct (Nat.ltb_spec (length bs) len); [lia|reflexivity].
  Qed.
  Lemma mv_get_put bs t len P V rd c0 c1 : length bs = len ->
    K (QGet t len P) (QPut bs V) [] [] rd c0 c1 ~~> K (P bs) V [] [] rd c0 c1.
  Proof.
    intro L. eapply then_; [eapply one, KV; reflexivity|]. eapply one. cbn [app]. rewrite app_nil_r.
    replace bs with (firstn len bs) at 2 by (rewrite <- L; apply firstn_all).
    replace (@nil N) with (skipn len bs) at 3 by (rewrite <- L; apply skipn_all).
    change (@nil N) with ((@nil N) ++ []) at 2. eapply KP. cbn [kact]. destruct (Nat.ltb_spec (length bs) len); [lia|reflexivity].
  Qed.
  Lemma mv_flush_p P V rd c0 c1 : K (QFlush P) V [] [] rd c0 c1 ~~> K P V [] [] rd c0 c1.
  Proof. eapply one. change (@nil N) with ((@nil N) ++ []) at 3. eapply KP. reflexivity. Qed.
  Lemma mv_flush_v P V rd c0 c1 : K P (QFlush V) [] [] rd c0 c1 ~~> K P V [] [] rd c0 c1.
  Proof. eapply one. rewrite <- (app_nil_r rd) at 2. change (@nil N) with ((@nil N) ++ []) at 4. eapply KV. reflexivity. Qed.
  Lemma mv_coin0 P k rd c0 c1 : K P (QCoin false k) [] [] rd c0 c1 ~~> K P (k (coins false c0)) [] [] rd (S c0) c1.
  Proof. eapply one, KC0. Qed.
  Lemma mv_coin1 P k rd c0 c1 : K P (QCoin true k) [] [] rd c0 c1 ~~> K P (k (coins true c1)) [] [] rd c0 (S c1).
  Proof. eapply one, KC1. Qed.
End Moves.

(** * One call at a time *)
Section Engine.
  Variables (pub_mac : N) (pV vK : nat -> N) (delta : N) (threads csz psz : nat).
  Variables (G : N -> nat -> N) (H : list N -> list N) (coins : bool -> nat -> N).
  Hypothesis Hcoins : forall k, (coins false k < 2 ^ 128)%N.
  Variables (words : nat -> N) (chkmsg pchkmsg : nat -> N * N).
  Notation seeds := (fun k : nat => G (coins false k)).
  Notation pseeds := (coins true).
  Notation "a ~~> b" := (exists w, @kruns coins (option apst) vend w a b) (at level 70).
  Notation pstep_ := (ap_step pub_mac pV threads csz psz seeds pseeds).
  Notation vstep_ := (av_step pub_mac vK delta threads csz psz seeds pseeds words chkmsg pchkmsg).
  Notation pman := (ap_manage pV threads seeds).
  Notation vman := (av_manage vK delta threads seeds chkmsg).
  Notation pbat := (ap_batch pV pseeds).
  Notation vbat := (av_batch vK delta pseeds pchkmsg).
  Notation pcheck := (ap_check_prog pV threads G).
  Notation vcheck := (av_check_prog vK delta threads G).
  Notation pgate := (ap_gate pub_mac pV threads csz psz).
  Notation vgate := (av_gate pub_mac vK delta threads csz psz).

  Lemma sync_check p v kp kv p' v' rd c1 :
    pman p = Some p' -> vman v = Some v' -> av_err v' = false -> ap_chk p = av_chk v ->
    chkmsg (av_chk v) = last (ap_msgs p') (0, 0)%N ->
    exists rd', K (pcheck p kp) (vcheck v kv) [] [] rd (av_chk v) c1 ~~> K (kp p') (kv v') [] [] rd' (S (av_chk v)) c1.
  Proof.
    intros Ep Ev Hno Ec Em. unfold ap_check_prog, av_check_prog, s_recv, r_send.
    set (x := coins false (av_chk v)). assert (Hx : dec_bytes (enc_block x) = x) by (apply dec_enc, Hcoins).
    assert (Ep' : ap_manage pV threads (fun _ => G x) p = Some p').
    { rewrite <- Ep. unfold ap_manage. now rewrite Ec. }
    assert (Lm : (fst (last (ap_msgs p') (0, 0)) < 2 ^ 64 /\ snd (last (ap_msgs p') (0, 0)) < 2 ^ 64)%N).
    { unfold ap_manage in Ep. destruct (a_ranges threads (length (ap_buf p))) as [rs|]; [|discriminate]. injection Ep as <-.
      cbn [ap_msgs]. rewrite last_last. apply msg_64. }
    assert (Ev' : av_manage vK delta threads (fun _ => G x) (fun _ => dec_pair (enc_pair (last (ap_msgs p') (0, 0)%N))) v = Some v').
    { rewrite dec_enc_pair by apply Lm. rewrite <- Em, <- Ev. reflexivity. }
    assert (Er : exists rs, a_ranges threads (length (av_buf v)) = Some rs).
    { unfold av_manage in Ev. destruct (a_ranges threads (length (av_buf v))); [eauto|discriminate]. }
    destruct Er as [rs Er]. rewrite Er.
    eexists. eapply then_; [apply mv_flush_p|]. eapply then_; [apply mv_flush_p|]. eapply then_; [apply mv_flush_v|].
    eapply then_; [apply mv_coin0|]. cbn beta. fold x. eapply then_; [apply mv_flush_v|].
    eapply then_; [apply mv_get_put, enc_block_len|]. cbn beta. rewrite Hx, Ep'.
    eapply then_; [apply mv_flush_p|]. eapply then_; [apply mv_flush_v|].
    eapply then_; [apply mv_put_get, enc_pair_len|]. cbn beta. rewrite Ev', Hno.
    eapply then_; [apply mv_flush_p|]. apply mv_flush_v.
  Qed.
  Lemma sync_batch p v kp kv rd c0 :
    ap_poly p <> [] -> av_poly v <> [] -> ap_pchk p = av_pchk v ->
    pchkmsg (av_pchk v) = last (ap_pmsgs (pbat p)) (0, 0)%N ->
    exists rd', K (ap_batch_prog pV p kp) (av_batch_prog vK delta v kv) [] [] rd c0 (av_pchk v) ~~>
                K (kp (pbat p)) (kv (vbat v)) [] [] rd' c0 (S (av_pchk v)).
  Proof.
    intros Np Nv Ec Em. unfold ap_batch_prog, av_batch_prog, s_recv, r_send.
    set (x := coins true (av_pchk v)). assert (Hx : dec_bytes (enc64 (mod1 x)) = mod1 x) by (apply dec_enc64, mod1_64).
    assert (Ep' : ap_batch_seed pV (mod1 x) p = pbat p).
    { unfold ap_batch_seed, ap_batch. rewrite Ec. reflexivity. }
    assert (Lm : (fst (last (ap_pmsgs (pbat p)) (0, 0)) < 2 ^ 64 /\ snd (last (ap_pmsgs (pbat p)) (0, 0)) < 2 ^ 64)%N).
    { unfold ap_batch. destruct (ap_poly p); [congruence|]. cbn [ap_pmsgs]. rewrite last_last. apply msg_64. }
    assert (Ev' : av_batch vK delta (fun _ => x) (fun _ => dec_pair (enc_pair (last (ap_pmsgs (pbat p)) (0, 0)%N))) v = vbat v).
    { rewrite dec_enc_pair by apply Lm. rewrite <- Em. reflexivity. }
    eexists. eapply then_; [apply mv_flush_p|]. eapply then_; [apply mv_flush_p|]. eapply then_; [apply mv_flush_v|].
    eapply then_; [apply mv_coin1|]. cbn beta. fold x. eapply then_; [apply mv_flush_v|].
    eapply then_; [apply mv_get_put, enc64_len|]. cbn beta zeta. rewrite Hx, Ep'.
    eapply then_; [apply mv_put_get, enc_pair_len|]. cbn beta. rewrite Ev'. exists 0. constructor.
  Qed.

  (** gates with room in the buffers do not look at challenges or check messages *)
  Lemma ap_gate_step p g : a_full csz g (length (ap_buf p)) = false -> a_pfull psz g (length (ap_poly p)) = false ->
    forall sd ps sd' ps', ap_step pub_mac pV threads csz psz sd ps p g = ap_step pub_mac pV threads csz psz sd' ps' p g.
  Proof.
    intros F1 F2 sd ps sd' ps'. destruct g; cbn [ap_step a_full a_pfull] in *; try reflexivity.
    - unfold ap_precheck. now rewrite F1.
    - unfold ap_queue. destruct (Nat.leb psz (length (ap_poly p))); [|reflexivity]. cbn [andb] in F2.
      destruct (ap_poly p) eqn:E; [|discriminate]. unfold ap_batch. rewrite E. reflexivity.
    - unfold ap_queue. destruct (Nat.leb psz (length (ap_poly p))); [|reflexivity]. cbn [andb] in F2.
      destruct (ap_poly p) eqn:E; [|discriminate]. unfold ap_batch. rewrite E. reflexivity.
  Qed.
  Lemma av_gate_step v g : a_full csz g (length (av_buf v)) = false -> a_pfull psz g (length (av_poly v)) = false ->
    forall sd ps w cm pm sd' ps' w' cm' pm', (a_sends g = true -> w (av_words v) = w' (av_words v)) ->
    av_step pub_mac vK delta threads csz psz sd ps w cm pm v g = av_step pub_mac vK delta threads csz psz sd' ps' w' cm' pm' v g.
  Proof.
    intros F1 F2 sd ps w cm pm sd' ps' w' cm' pm' Hw. destruct g; cbn [av_step a_full a_pfull a_sends] in *; try reflexivity.
    - now rewrite Hw.
    - unfold av_precheck. rewrite F1. now rewrite Hw.
    - unfold av_reveal. now rewrite Hw.
    - unfold av_reveal. now rewrite Hw.
    - unfold av_queue. destruct (Nat.leb psz (length (av_poly v))); [|reflexivity]. cbn [andb] in F2.
      destruct (av_poly v) eqn:E; [|discriminate]. unfold av_batch. rewrite E. reflexivity.
    - unfold av_queue. destruct (Nat.leb psz (length (av_poly v))); [|reflexivity]. cbn [andb] in F2.
      destruct (av_poly v) eqn:E; [|discriminate]. unfold av_batch. rewrite E. reflexivity.
  Qed.
  Lemma sync_gate p v g kp kv p' v' rd c0 c1 :
    a_full csz g (length (ap_buf p)) = false -> a_pfull psz g (length (ap_poly p)) = false ->
    a_full csz g (length (av_buf v)) = false -> a_pfull psz g (length (av_poly v)) = false ->
    pstep_ p g = Some p' -> vstep_ v g = Some v' -> av_err v' = false ->
    (a_sends g = true -> words (av_words v) = last (ap_words p') 0 /\ words (av_words v) < 2 ^ 64)%N ->
    exists rd', K (pgate p g kp) (vgate v g kv) [] [] rd c0 c1 ~~> K (kp p') (kv v') [] [] rd' c0 c1.
  Proof.
    intros F1 F2 F3 F4 Ep Ev Hno Hw. unfold ap_gate, av_gate.
    rewrite (ap_gate_step p g F1 F2 _ _ seeds pseeds), Ep. destruct (a_sends g) eqn:Eg.
    - destruct (Hw eq_refl) as [W1 W2]. eexists. eapply then_; [apply mv_put_get, enc64_len|]. cbn beta.
      rewrite dec_enc64 by (rewrite <- W1; exact W2).
      rewrite (av_gate_step v g F3 F4 _ _ _ _ _ seeds pseeds words chkmsg pchkmsg) by (intros _; now rewrite W1).
      rewrite Ev, Hno. exists 0. constructor.
    - eexists. rewrite (av_gate_step v g F3 F4 _ _ _ _ _ seeds pseeds words chkmsg pchkmsg) by congruence.
      rewrite Ev, Hno. exists 0. constructor.
  Qed.

  (** * A whole session in lock step *)
  Record like (p : apst) (v : avst) : Prop := {
    lk_buf : length (ap_buf p) = length (av_buf v); lk_poly : length (ap_poly p) = length (av_poly v);
    lk_words : av_words v = length (ap_words p); lk_chk : ap_chk p = av_chk v; lk_pchk : ap_pchk p = av_pchk v;
    lk_msgs : av_chk v = length (ap_msgs p); lk_pmsgs : av_pchk v = length (ap_pmsgs p) }.
  Definition upto (p pf : apst) : Prop :=
    (exists t, ap_words pf = ap_words p ++ t) /\ (exists t, ap_msgs pf = ap_msgs p ++ t) /\ (exists t, ap_pmsgs pf = ap_pmsgs p ++ t).
  Lemma upto_refl p : upto p p.
  Proof. repeat split; exists []; now rewrite app_nil_r. Qed.
  Lemma upto_trans p q r : upto p q -> upto q r -> upto p r.
  Proof.
    unfold upto. intros ((a & A) & (b & B) & (c & C)) ((a2 & A2) & (b2 & B2) & (c2 & C2)). rewrite A2, B2, C2, A, B, C.
    split; [|split]; eexists; symmetry; apply app_assoc.
  Qed.
  Lemma man_upto p p' : pman p = Some p' -> upto p p'.
  Proof.
    unfold ap_manage. destruct (a_ranges threads (length (ap_buf p))); [|discriminate]. intro E. injection E as <-.
    split; [|split]; cbn [ap_words ap_msgs ap_pmsgs]; eexists; try reflexivity; symmetry; apply app_nil_r.
  Qed.
  Lemma bat_upto p : upto p (pbat p).
  Proof.
    unfold ap_batch. destruct (ap_poly p); [apply upto_refl|].
    split; [|split]; cbn [ap_words ap_msgs ap_pmsgs]; eexists; try reflexivity; symmetry; apply app_nil_r.
  Qed.
  Lemma step_upto p g p' : pstep_ p g = Some p' -> upto p p'.
  Proof.
    assert (A : forall w, upto p (ap_add p w)) by (intro w; exact (upto_refl p)).
    destruct g; cbn [ap_step]; unfold a_prv_input, a_prv_mul; intro E; try (injection E as <-; auto; fail).
    - injection E as <-. split; [|split]; cbn [ap_words ap_msgs ap_pmsgs]; eexists; try reflexivity; symmetry; apply app_nil_r.
    - unfold ap_precheck in E. destruct (Nat.eqb (length (ap_buf p)) csz).
      + destruct (pman p) as [p1|] eqn:Em; [|discriminate]. injection E as <-.
        apply (upto_trans p p1); [now apply man_upto|].
        split; [|split]; cbn [ap_words ap_msgs ap_pmsgs ap_clear]; eexists; try reflexivity; symmetry; apply app_nil_r.
      + injection E as <-. split; [|split]; cbn [ap_words ap_msgs ap_pmsgs]; eexists; try reflexivity; symmetry; apply app_nil_r.
    - injection E as <-. split; [|split]; cbn [ap_words ap_msgs ap_pmsgs ap_reveal]; eexists; try reflexivity; symmetry; apply app_nil_r.
    - injection E as <-. split; [|split]; cbn [ap_words ap_msgs ap_pmsgs ap_reveal]; eexists; try reflexivity; symmetry; apply app_nil_r.
    - injection E as <-. exact (upto_refl p).
    - injection E as <-. unfold ap_queue. destruct (Nat.leb psz (length (ap_poly p))); [exact (bat_upto p)|exact (upto_refl p)].
    - injection E as <-. unfold ap_queue. destruct (Nat.leb psz (length (ap_poly p))); [exact (bat_upto p)|exact (upto_refl p)].
  Qed.
  Notation pfin := (ap_final pV threads seeds pseeds).
  Notation vfin := (av_final vK delta threads seeds pseeds chkmsg pchkmsg).
  Notation prun := (ap_run pub_mac pV threads csz psz seeds pseeds).
  Notation vrun := (av_run pub_mac vK delta threads csz psz seeds pseeds words chkmsg pchkmsg).
  Definition p_rest (p : apst) (c : list agate) : option apst := match prun p c with None => None | Some s => pfin s end.
  Definition v_rest (v : avst) (c : list agate) : option avst := match vrun v c with None => None | Some s => vfin s end.
  Lemma rest_upto c : forall p pf, p_rest p c = Some pf -> upto p pf.
  Proof.
    unfold p_rest. induction c as [|g c IH]; intros p pf; cbn [ap_run].
    - unfold ap_final. cbv zeta. intro E. eapply upto_trans; [apply bat_upto|]. destruct (ap_buf (pbat p)); [injection E as <-; apply upto_refl|now apply man_upto].
    - destruct (pstep_ p g) as [p1|] eqn:E1; [|discriminate]. intro E. eapply upto_trans; [eapply step_upto; eauto|]. now apply IH.
  Qed.

  (** the verifier's error flag stays up *)
  Lemma man_err v v' : vman v = Some v' -> av_err v = true -> av_err v' = true.
  Proof. unfold av_manage. destruct (a_ranges threads (length (av_buf v))); [|discriminate]. intro E. injection E as <-. cbn [av_err]. now intros ->. Qed.
  Lemma bat_err v : av_err (vbat v) = av_err v.
  Proof. unfold av_batch. now destruct (av_poly v). Qed.
  Lemma step_err v g v' : vstep_ v g = Some v' -> av_err v = true -> av_err v' = true.
  Proof.
    destruct g; cbn [av_step]; intros E He; try (injection E as <-; cbn [av_err av_add av_reveal]; auto; fail).
    - unfold av_precheck in E. destruct (Nat.eqb (length (av_buf v)) csz).
      + destruct (vman v) as [v1|] eqn:Em; [|discriminate]. injection E as <-. cbn [av_err av_clear]. eapply man_err; eauto.
      + injection E as <-. exact He.
    - injection E as <-. cbn [av_err av_reveal]. now rewrite He.
    - injection E as <-. unfold av_queue. destruct (Nat.leb psz (length (av_poly v))); cbn [av_err]; [now rewrite bat_err|exact He].
    - injection E as <-. unfold av_queue. destruct (Nat.leb psz (length (av_poly v))); cbn [av_err]; [now rewrite bat_err|exact He].
  Qed.
  Lemma rest_err c : forall v vf, v_rest v c = Some vf -> av_err v = true -> av_err vf = true.
  Proof.
    unfold v_rest. induction c as [|g c IH]; intros v vf; cbn [av_run].
    - unfold av_final. cbv zeta. intros E He. destruct (av_buf (vbat v)); [injection E as <-; now rewrite bat_err|eapply man_err; [exact E|now rewrite bat_err]].
    - destruct (vstep_ v g) as [v1|] eqn:E1; [|discriminate]. intros E He. eapply IH; [exact E|]. eapply step_err; eauto.
  Qed.
  Lemma rest_noerr c v vf : v_rest v c = Some vf -> av_err vf = false -> av_err v = false.
  Proof. intros E He. destruct (av_err v) eqn:X; [|reflexivity]. rewrite (rest_err c v vf E X) in He. discriminate. Qed.

  (** full buffers: check first, then the gate *)
  Hypothesis Hcsz : 1 <= csz.
  Lemma p_full p g : a_full csz g (length (ap_buf p)) = true ->
    pstep_ p g = match pman p with None => None | Some p1 => pstep_ (ap_clear p1) g end.
  Proof.
    destruct g; try discriminate. cbn [a_full ap_step]. intro F. unfold ap_precheck at 1. rewrite F. destruct (pman p) as [p1|]; [|reflexivity].
    unfold ap_precheck. cbn [ap_clear ap_buf length]. destruct (Nat.eqb_spec 0 csz) as [e|]; [rewrite <- e in Hcsz; inversion Hcsz|reflexivity].
  Qed.
  Lemma v_full v g : a_full csz g (length (av_buf v)) = true ->
    vstep_ v g = match vman v with None => None | Some v1 => vstep_ (av_clear v1) g end.
  Proof.
    destruct g; try discriminate. cbn [a_full av_step]. intro F. unfold av_precheck at 1. rewrite F. destruct (vman v) as [v1|]; [|reflexivity].
    unfold av_precheck. cbn [av_clear av_buf length]. destruct (Nat.eqb_spec 0 csz) as [e|]; [rewrite <- e in Hcsz; inversion Hcsz|reflexivity].
  Qed.
  Lemma bat_poly p : ap_poly (pbat p) = [].
  Proof. unfold ap_batch. destruct (ap_poly p) eqn:E; [exact E|reflexivity]. Qed.
  Lemma vbat_poly v : av_poly (vbat v) = [].
  Proof. unfold av_batch. destruct (av_poly v) eqn:E; [exact E|reflexivity]. Qed.
  Lemma bat_nil p : ap_poly p = [] -> pbat p = p.
  Proof. unfold ap_batch. now intros ->. Qed.
  Lemma vbat_nil v : av_poly v = [] -> vbat v = v.
  Proof. unfold av_batch. now intros ->. Qed.
  Lemma p_pfull p g : a_pfull psz g (length (ap_poly p)) = true -> pstep_ p g = pstep_ (pbat p) g.
  Proof.
    assert (W : ap_w (pbat p) = ap_w p) by (unfold ap_batch; now destruct (ap_poly p)).
    assert (Q : forall t, (Nat.leb psz (length (ap_poly p)) && negb (length (ap_poly p) =? 0))%bool = true -> ap_queue pV psz pseeds p t = ap_queue pV psz pseeds (pbat p) t).
    { intros t F. apply andb_prop in F. destruct F as [F _]. unfold ap_queue. rewrite F, (bat_nil (pbat p) (bat_poly p)). destruct (Nat.leb psz (length (ap_poly (pbat p)))); reflexivity. }
    destruct g; try discriminate; cbn [a_pfull ap_step]; intro F; rewrite W; now rewrite Q.
  Qed.
  Lemma v_pfull v g : a_pfull psz g (length (av_poly v)) = true -> vstep_ v g = vstep_ (vbat v) g.
  Proof.
    assert (W : av_w (vbat v) = av_w v) by (unfold av_batch; now destruct (av_poly v)).
    assert (Q : forall t, (Nat.leb psz (length (av_poly v)) && negb (length (av_poly v) =? 0))%bool = true -> av_queue vK delta psz pseeds pchkmsg v t = av_queue vK delta psz pseeds pchkmsg (vbat v) t).
    { intros t F. apply andb_prop in F. destruct F as [F _]. unfold av_queue. rewrite F, (vbat_nil (vbat v) (vbat_poly v)). destruct (Nat.leb psz (length (av_poly (vbat v)))); reflexivity. }
    destruct g; try discriminate; cbn [a_pfull av_step]; intro F; rewrite W; now rewrite Q.
  Qed.
  Lemma clear_full p1 g : a_full csz g (length (ap_buf (ap_clear p1))) = false.
  Proof. destruct g; try reflexivity. cbn. destruct csz; [inversion Hcsz|reflexivity]. Qed.
  Lemma vclear_full v1 g : a_full csz g (length (av_buf (av_clear v1))) = false.
  Proof. destruct g; try reflexivity. cbn. destruct csz; [inversion Hcsz|reflexivity]. Qed.
  Lemma bat_pfull p g : a_pfull psz g (length (ap_poly (pbat p))) = false.
  Proof. rewrite bat_poly. destruct g; try reflexivity; cbn; apply andb_false_r. Qed.
  Lemma vbat_pfull v g : a_pfull psz g (length (av_poly (vbat v))) = false.
  Proof. rewrite vbat_poly. destruct g; try reflexivity; cbn; apply andb_false_r. Qed.
  Lemma full_not_p g n m : a_full csz g n = true -> a_pfull psz g m = false.
  Proof. destruct g; try discriminate; reflexivity. Qed.
  Lemma pfull_not g n m : a_pfull psz g n = true -> a_full csz g m = false.
  Proof. destruct g; try discriminate; reflexivity. Qed.

  Lemma like_man p v p' v' : like p v -> pman p = Some p' -> vman v = Some v' -> like p' v'.
  Proof.
    intros L. unfold ap_manage, av_manage. destruct (a_ranges threads (length (ap_buf p))); [|discriminate]. destruct (a_ranges threads (length (av_buf v))); [|discriminate].
    intros E1 E2. injection E1 as <-. injection E2 as <-. destruct L.
    split; cbn [ap_buf av_buf ap_poly av_poly av_words ap_words ap_chk av_chk ap_pchk av_pchk ap_msgs ap_pmsgs]; rewrite ?app_length; cbn [length]; lia.
  Qed.
  Lemma like_clear p v : like p v -> like (ap_clear p) (av_clear v).
  Proof. intros [L1 L2 L3 L4 L5 L6 L7]. split; auto. Qed.
  Lemma like_bat p v : like p v -> ap_poly p <> [] -> like (pbat p) (vbat v).
  Proof.
    intros [L1 L2 L3 L4 L5 L6 L7] Hne. unfold ap_batch, av_batch. destruct (ap_poly p) eqn:E1, (av_poly v) eqn:E2; try discriminate; [congruence|].
    split; cbn [ap_buf av_buf ap_poly av_poly av_words ap_words ap_chk av_chk ap_pchk av_pchk ap_msgs ap_pmsgs]; rewrite ?app_length; cbn [length]; auto; lia.
  Qed.
  Lemma like_step p v g p' v' : like p v -> a_full csz g (length (ap_buf p)) = false -> a_pfull psz g (length (ap_poly p)) = false ->
    pstep_ p g = Some p' -> vstep_ v g = Some v' -> like p' v'.
  Proof.
    intros L F1 F2 E1 E2. pose proof L as [L1 L2 L3 L4 L5 L6 L7].
    destruct g; cbn [ap_step av_step a_full a_pfull] in *; unfold a_prv_input, a_prv_mul, ap_precheck, av_precheck in *; cbv zeta in *;
    rewrite <- ?L1, ?F1 in *; rewrite ?F1 in *;
    try (injection E1 as <-; injection E2 as <-; split;
      cbn [ap_buf av_buf ap_poly av_poly av_words ap_words ap_chk av_chk ap_pchk av_pchk ap_msgs ap_pmsgs ap_add av_add ap_reveal av_reveal]; rewrite ?app_length; cbn [length]; auto; lia).
    - injection E1 as <-. injection E2 as <-. unfold ap_queue, av_queue. rewrite <- L2.
      assert (Q : ap_poly p = [] -> av_poly v = []) by (intro Z; rewrite Z in L2; now destruct (av_poly v)).
      destruct (Nat.leb psz (length (ap_poly p))).
      + assert (Z : ap_poly p = []) by (destruct (ap_poly p); [reflexivity|discriminate]). rewrite (bat_nil p Z), (vbat_nil v (Q Z)).
        split; cbn [ap_buf av_buf ap_poly av_poly av_words ap_words ap_chk av_chk ap_pchk av_pchk ap_msgs ap_pmsgs]; rewrite ?app_length; cbn [length]; auto; lia.
      + split; cbn [ap_buf av_buf ap_poly av_poly av_words ap_words ap_chk av_chk ap_pchk av_pchk ap_msgs ap_pmsgs]; rewrite ?app_length; cbn [length]; auto; lia.
    - injection E1 as <-. injection E2 as <-. unfold ap_queue, av_queue. rewrite <- L2.
      assert (Q : ap_poly p = [] -> av_poly v = []) by (intro Z; rewrite Z in L2; now destruct (av_poly v)).
      destruct (Nat.leb psz (length (ap_poly p))).
      + assert (Z : ap_poly p = []) by (destruct (ap_poly p); [reflexivity|discriminate]). rewrite (bat_nil p Z), (vbat_nil v (Q Z)).
        split; cbn [ap_buf av_buf ap_poly av_poly av_words ap_words ap_chk av_chk ap_pchk av_pchk ap_msgs ap_pmsgs]; rewrite ?app_length; cbn [length]; auto; lia.
      + split; cbn [ap_buf av_buf ap_poly av_poly av_words ap_words ap_chk av_chk ap_pchk av_pchk ap_msgs ap_pmsgs]; rewrite ?app_length; cbn [length]; auto; lia.
  Qed.
  Lemma sent_word p g p' : a_full csz g (length (ap_buf p)) = false -> a_sends g = true -> pstep_ p g = Some p' ->
    exists w, ap_words p' = ap_words p ++ [w].
  Proof.
    intros F1 Hs E. destruct g; try discriminate; cbn [ap_step a_full] in *; unfold a_prv_input, a_prv_mul, ap_precheck in E; cbv zeta in E;
    rewrite ?F1 in E; injection E as <-; eexists; reflexivity.
  Qed.
  Lemma man_msg p p' : pman p = Some p' -> exists m, ap_msgs p' = ap_msgs p ++ [m].
  Proof. unfold ap_manage. destruct (a_ranges threads (length (ap_buf p))); [|discriminate]. intro E. injection E as <-. eexists. reflexivity. Qed.
  Lemma bat_msg p : ap_poly p <> [] -> exists m, ap_pmsgs (pbat p) = ap_pmsgs p ++ [m].
  Proof. unfold ap_batch. destruct (ap_poly p); [congruence|]. intros _. eexists. reflexivity. Qed.
  Lemma agree_at {A} (f : nat -> A) l l' t x z : agree f l' -> l' = (l ++ [x]) ++ t -> f (length l) = last (l ++ [x]) z.
  Proof.
    intros Ag E. rewrite last_last. apply Ag. rewrite E, <- app_assoc, nth_error_app2, Nat.sub_diag by lia. reflexivity.
  Qed.

  Variable pf : apst.
  Hypothesis Agw : agree words (ap_words pf).
  Hypothesis Agc : agree chkmsg (ap_msgs pf).
  Hypothesis Agp : agree pchkmsg (ap_pmsgs pf).
  Hypothesis Hw64 : forall k, (words k < 2 ^ 64)%N.
  Notation pprog := (ap_prog pub_mac pV threads csz psz G H).
  Notation vprog := (av_prog pub_mac vK delta threads csz psz G H).
  Definition st (P : aproc (option apst)) (V : aproc vend) rd (v : avst) := K P V [] [] rd (av_chk v) (av_pchk v).

  Lemma man_chk v v' : vman v = Some v' -> av_chk v' = S (av_chk v) /\ av_pchk v' = av_pchk v.
  Proof. unfold av_manage. destruct (a_ranges threads (length (av_buf v))); [|discriminate]. intro E. injection E as <-. split; reflexivity. Qed.
  Lemma lock_check p v kp kv p' v' rd : like p v -> pman p = Some p' -> vman v = Some v' -> av_err v' = false -> upto p' pf ->
    exists rd', st (pcheck p kp) (vcheck v kv) rd v ~~> st (kp p') (kv v') rd' v'.
  Proof.
    intros L Ep Ev Hno (_ & (t & U) & _). destruct (man_chk _ _ Ev) as [C0 C1]. unfold st. rewrite C0, C1.
    apply sync_check; auto; [apply (lk_chk _ _ L)|]. destruct (man_msg _ _ Ep) as [m Em]. rewrite Em in U |- *. rewrite (lk_msgs _ _ L).
    eapply agree_at; [exact Agc|exact U].
  Qed.
  Lemma lock_batch p v kp kv rd : like p v -> ap_poly p <> [] -> upto (pbat p) pf ->
    exists rd', st (ap_batch_prog pV p kp) (av_batch_prog vK delta v kv) rd v ~~> st (kp (pbat p)) (kv (vbat v)) rd' (vbat v).
  Proof.
    intros L Hne (_ & _ & (t & U)).
    assert (Hv : av_poly v <> []) by (pose proof (lk_poly _ _ L) as Q; destruct (av_poly v); [|congruence]; destruct (ap_poly p); [congruence|discriminate]).
    assert (C : av_chk (vbat v) = av_chk v /\ av_pchk (vbat v) = S (av_pchk v)) by (unfold av_batch; destruct (av_poly v); [congruence|split; reflexivity]).
    destruct C as [C0 C1]. unfold st. rewrite C0, C1.
    apply sync_batch; auto; [apply (lk_pchk _ _ L)|]. destruct (bat_msg _ Hne) as [m Em]. rewrite Em in U |- *. rewrite (lk_pmsgs _ _ L).
    eapply agree_at; [exact Agp|exact U].
  Qed.
  Lemma gate_chk v g v' : a_full csz g (length (av_buf v)) = false -> a_pfull psz g (length (av_poly v)) = false -> vstep_ v g = Some v' ->
    av_chk v' = av_chk v /\ av_pchk v' = av_pchk v.
  Proof.
    intros F1 F2 E. destruct g; cbn [av_step a_full a_pfull] in *; unfold av_precheck in *; rewrite ?F1 in E; injection E as <-; try (split; reflexivity).
    - unfold av_queue. destruct (Nat.leb psz (length (av_poly v))) eqn:El; [|split; reflexivity].
      assert (Z : av_poly v = []) by (destruct (av_poly v); [reflexivity|discriminate]). rewrite (vbat_nil v Z). split; reflexivity.
    - unfold av_queue. destruct (Nat.leb psz (length (av_poly v))) eqn:El; [|split; reflexivity].
      assert (Z : av_poly v = []) by (destruct (av_poly v); [reflexivity|discriminate]). rewrite (vbat_nil v Z). split; reflexivity.
  Qed.
  Lemma lock_gate p v g kp kv p' v' rd : like p v -> a_full csz g (length (ap_buf p)) = false -> a_pfull psz g (length (ap_poly p)) = false ->
    pstep_ p g = Some p' -> vstep_ v g = Some v' -> av_err v' = false -> upto p' pf ->
    exists rd', st (pgate p g kp) (vgate v g kv) rd v ~~> st (kp p') (kv v') rd' v'.
  Proof.
    intros L F1 F2 Ep Ev Hno ((t & U) & _ & _).
    assert (F3 : a_full csz g (length (av_buf v)) = false) by (rewrite <- (lk_buf _ _ L); exact F1).
    assert (F4 : a_pfull psz g (length (av_poly v)) = false) by (rewrite <- (lk_poly _ _ L); exact F2).
    destruct (gate_chk _ _ _ F3 F4 Ev) as [C0 C1]. unfold st. rewrite C0, C1.
    apply sync_gate; auto. intro Hs. split; [|apply Hw64]. destruct (sent_word _ _ _ F1 Hs Ep) as [w Ew]. rewrite Ew in U |- *. rewrite (lk_words _ _ L).
    eapply agree_at; [exact Agw|exact U].
  Qed.
  Lemma lock_end p v vf rd : like p v -> match ap_buf p with [] => Some p | _ => pman p end = Some pf ->
    match av_buf v with [] => Some v | _ => vman v end = Some vf -> av_err vf = false ->
    exists rd', st (ap_end pV threads G H p) (av_end vK delta threads G H v) rd v ~~> st (ap_fin H pf) (av_fin H vf) rd' vf.
  Proof.
    intros L Ep Ev Hno. unfold ap_end, av_end. pose proof (lk_buf _ _ L) as Q. destruct (ap_buf p) eqn:E1, (av_buf v) eqn:E2; try discriminate.
    - injection Ep as ->. injection Ev as ->. exists rd, 0. constructor.
    - eapply lock_check; eauto. apply upto_refl.
  Qed.
  Lemma lock_run c : forall p v vf rd, like p v -> p_rest p c = Some pf -> v_rest v c = Some vf -> av_err vf = false ->
    exists rd', st (pprog p c) (vprog v c) rd v ~~> st (ap_fin H pf) (av_fin H vf) rd' vf.
  Proof.
    induction c as [|g c IH]; intros p v vf rd L Ep Ev Hno.
    - cbn [ap_prog av_prog]. unfold p_rest, v_rest in Ep, Ev. cbn [ap_run av_run] in Ep, Ev. unfold ap_final, av_final in Ep, Ev. cbv zeta in Ep, Ev.
      pose proof (lk_poly _ _ L) as Q. destruct (ap_poly p) eqn:E1, (av_poly v) eqn:E2; try discriminate.
      + rewrite (bat_nil p E1) in Ep. rewrite (vbat_nil v E2) in Ev. now apply lock_end.
      + assert (Hne : ap_poly p <> []) by (rewrite E1; discriminate).
        assert (U : upto (pbat p) pf).
        { destruct (ap_buf (pbat p)) eqn:Eb; [injection Ep as ->; apply upto_refl|now apply man_upto]. }
        destruct (lock_batch p v (ap_end pV threads G H) (av_end vK delta threads G H) rd L Hne U) as (rd1 & S1).
        destruct (lock_end (pbat p) (vbat v) vf rd1 (like_bat _ _ L Hne) Ep Ev Hno) as (rd2 & S2).
        exists rd2. eapply then_; eauto.
    - cbn [ap_prog av_prog]. unfold p_rest in Ep. unfold v_rest in Ev. cbn [ap_run av_run] in Ep, Ev.
      destruct (pstep_ p g) as [p2|] eqn:Eg; [|discriminate]. destruct (vstep_ v g) as [v2|] eqn:Egv; [|discriminate].
      fold (p_rest p2 c) in Ep. fold (v_rest v2 c) in Ev.
      pose proof (rest_upto _ _ _ Ep) as U2. pose proof (rest_noerr _ _ _ Ev Hno) as N2.
      rewrite <- (lk_buf _ _ L), <- (lk_poly _ _ L).
      destruct (a_full csz g (length (ap_buf p))) eqn:F1; [|destruct (a_pfull psz g (length (ap_poly p))) eqn:F2].
      + rewrite (p_full _ _ F1) in Eg. assert (F1v := F1). rewrite (lk_buf _ _ L) in F1v. rewrite (v_full _ _ F1v) in Egv.
        destruct (pman p) as [p1|] eqn:Em; [|discriminate]. destruct (vman v) as [v1|] eqn:Emv; [|discriminate].
        assert (N1 : av_err v1 = false).
        { destruct (av_err v1) eqn:X; [|reflexivity]. exfalso. rewrite (step_err (av_clear v1) g v2 Egv X) in N2. discriminate. }
        pose proof (step_upto _ _ _ Eg) as U1. pose proof (upto_trans _ _ _ U1 U2 : upto p1 pf) as U1'.
        pose proof (like_clear _ _ (like_man _ _ _ _ L Em Emv)) as L1.
        pose proof (clear_full p1 g) as X1. pose proof (full_not_p g _ (length (ap_poly (ap_clear p1))) F1) as X2.
        destruct (lock_check p v (fun s => ap_gate pub_mac pV threads csz psz (ap_clear s) g (fun s => pprog s c))
                    (fun s => av_gate pub_mac vK delta threads csz psz (av_clear s) g (fun s => vprog s c)) p1 v1 rd L Em Emv N1 U1') as (rd1 & S1).
        destruct (lock_gate (ap_clear p1) (av_clear v1) g (fun s => pprog s c) (fun s => vprog s c) p2 v2 rd1 L1 X1 X2 Eg Egv N2 U2) as (rd2 & S2).
        destruct (IH p2 v2 vf rd2 (like_step _ _ _ _ _ L1 X1 X2 Eg Egv) Ep Ev Hno) as (rd3 & S3).
        exists rd3. eapply then_; [exact S1|]. eapply then_; [exact S2|exact S3].
      + assert (Hne : ap_poly p <> []).
        { intro Z. rewrite Z in F2. destruct g; try discriminate; cbn in F2; now rewrite andb_false_r in F2. }
        rewrite (p_pfull _ _ F2) in Eg. assert (F2v := F2). rewrite (lk_poly _ _ L) in F2v. rewrite (v_pfull _ _ F2v) in Egv.
        pose proof (step_upto _ _ _ Eg) as U1. pose proof (upto_trans _ _ _ U1 U2) as U1'.
        pose proof (like_bat _ _ L Hne) as L1.
        pose proof (bat_pfull p g) as X2. pose proof (pfull_not g _ (length (ap_buf (pbat p))) F2) as X1.
        destruct (lock_batch p v (fun s => ap_gate pub_mac pV threads csz psz s g (fun s => pprog s c))
                    (fun s => av_gate pub_mac vK delta threads csz psz s g (fun s => vprog s c)) rd L Hne U1') as (rd1 & S1).
        destruct (lock_gate (pbat p) (vbat v) g (fun s => pprog s c) (fun s => vprog s c) p2 v2 rd1 L1 X1 X2 Eg Egv N2 U2) as (rd2 & S2).
        destruct (IH p2 v2 vf rd2 (like_step _ _ _ _ _ L1 X1 X2 Eg Egv) Ep Ev Hno) as (rd3 & S3).
        exists rd3. eapply then_; [exact S1|]. eapply then_; [exact S2|exact S3].
      + destruct (lock_gate p v g (fun s => pprog s c) (fun s => vprog s c) p2 v2 rd L F1 F2 Eg Egv N2 U2) as (rd2 & S2).
        destruct (IH p2 v2 vf rd2 (like_step _ _ _ _ _ L F1 F2 Eg Egv) Ep Ev Hno) as (rd3 & S3).
        exists rd3. eapply then_; [exact S2|exact S3].
  Qed.
  Lemma lock_session c vf : length (H (ap_hash pf)) = 32 -> same_bytes (H (av_hash vf)) (H (ap_hash pf)) = true ->
    p_rest ap_init c = Some pf -> v_rest av_init c = Some vf -> av_err vf = false ->
    exists rd, K (pprog ap_init c) (vprog av_init c) [] [] [] 0 0 ~~> K (QDone (Some pf)) (QDone (VEnd vf)) [] [] rd (av_chk vf) (av_pchk vf).
  Proof.
    intros Hl Hs Ep Ev Hno. destruct (lock_run c ap_init av_init vf [] (Build_like ap_init av_init eq_refl eq_refl eq_refl eq_refl eq_refl eq_refl eq_refl) Ep Ev Hno) as (rd & S1).
    eexists. eapply then_; [exact S1|]. unfold ap_fin, av_fin, st. eapply then_; [apply mv_put_get, Hl|]. cbn beta. rewrite Hs. apply mv_flush_p.
  Qed.
End Engine.
