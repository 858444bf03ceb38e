(** The verifier for a key Delta is the image of the shadow; the honest prover coincides with it. *)
From Coq Require Import NArith List Bool Arith Lia Ring.
From Verif Require Import Word WordProofs GF128 GF128Ring GF128Field ListUtil.
From Verif Require Import BoolModel BoolSpec BoolProofs BoolAlg BoolThms F2kModel F2kSpec F2kAlg F2kProofs.
Import ListNotations.
Ltac Zify.zify_post_hook ::= idtac.

Arguments enum : simpl never.
Lemma aupd_same f i v : aupd f i v i = v.
Proof. unfold aupd. now rewrite Nat.eqb_refl. Qed.
Lemma aupd_other f i v j : j <> i -> aupd f i v j = f j.
Proof. intro H. unfold aupd. now rewrite (proj2 (Nat.eqb_neq j i) H). Qed.
Lemma map_seq_snoc {A} (f g : nat -> A) n : (forall i, i < n -> f i = g i) ->
  map f (seq 0 (S n)) = map g (seq 0 n) ++ [f n].
Proof.
  intro H. rewrite seq_S, map_app. cbn. f_equal. apply map_ext_in. intros i Hi. apply in_seq in Hi. apply H. lia.
Qed.
Lemma seq_offset n m : map (fun i => n + i) (seq 0 m) = seq n m.
Proof.
  induction m as [|m IH]; [reflexivity|]. rewrite !seq_S, map_app, IH. reflexivity.
Qed.
Definition kgate (d : N) (g : fgateS) : N * N * N := let '(l, r, o) := g in (key_of d l, key_of d r, key_of d o).

Section VSim.
  Variables (ext : nat -> fwire) (voleV voleM : nat -> nat -> N) (bM oM : nat -> N).
  Variables (threads bufsz polysz : nat) (seeds : nat -> nat -> N) (pseeds : nat -> N).
  Variable junk : nat -> nat -> N.
  Variables (corr : nat -> N) (bitmsg : nat -> bool) (chkmsg : nat -> N * N) (polymsg : nat -> row5).
  Variable d : N.
  Hypothesis Hd1 : getLSB d = true.
  Hypothesis Hd : (d < 2 ^ 128)%N.
  Hypothesis Ht : 1 <= threads.
  Hypothesis Hb : 1 <= bufsz.
  Definition extk i := key_of d (ext i).
  Definition voleK r i := key_of d (voleV r i, voleM r i).
  Definition bK i := kof d (bM i, getLSB (bM i)).
  Definition oK i := kof d (oM i, getLSB (oM i)).
  Definition ope (k : nat) : list (N * bool) := map (fun i => (oM i, getLSB (oM i))) (seq (128 * k) 128).
  Definition ck_ok (kb : nat * list fgateS) : bool :=
    ver_accept d (chkmsg (fst kb))
      (lv_B d (snd kb) (f_ranges threads (length (snd kb))) (seeds (fst kb)) (junk (fst kb)) (map (kof d) (ope (fst kb)))).
  Definition pk_ok (kb : nat * list pent) : bool :=
    ver_poly_accept d (map (v_row d) (snd kb)) (pseeds (fst kb)) (polymsg (fst kb)).
  Definition nfail (s : fsst) : nat := length (filter (fun kb => negb (ck_ok kb)) (enum (fs_checks s))).
  Arguments nfail : simpl never.
  Record fvsim (v : fvst) (s : fsst) : Prop := {
    vf_w : fv_w v = map (key_of d) (fs_w s); vf_e : fv_ext v = fs_ext s; vf_c : fv_corr v = fs_corr s;
    vf_b : fv_bits v = fs_bits s; vf_bc : fv_bcnt v = fs_bits s;
    vf_ac : fv_acnt v = length (fs_buf s); vf_cc : fv_ccnt v = length (fs_buf s);
    vf_rf : fv_refills v = S (fs_vr s);
    vf_buf : map (fun i => (fv_lm v i, fv_rm v i, fv_amac v i)) (seq 0 (length (fs_buf s))) = map (kgate d) (fs_buf s);
    vf_am : forall i, length (fs_buf s) <= i -> fv_amac v i = voleK (fs_vr s) i;
    vf_oc : fv_ocnt v = 128 * length (fs_checks s); vf_k : fv_chk v = length (fs_checks s);
    vf_p : fv_poly v = map (v_row d) (fs_pbuf s); vf_pk : fv_pchk v = length (fs_pchecks s);
    vf_pr : fv_printed v = nfail s; vf_ch : fv_cheat v = [];
    vf_ok : forall kb, In kb (enum (fs_pchecks s)) -> pk_ok kb = true }.
  Lemma vw_key ws i : vw (map (key_of d) ws) i = key_of d (pw ws i).
  Proof. unfold vw, pw. change 0%N with (key_of d (0%N, 0%N)) at 1. apply map_nth. Qed.
  Lemma vmanage_sim v s : fvsim v s ->
    fvsim (fv_manage oK d threads seeds junk chkmsg v) (fs_manage s).
  Proof.
    intros []. unfold fv_manage, fs_manage. constructor; cbn; auto.
    - rewrite vf_oc0, app_length. cbn. lia.
    - rewrite vf_k0, app_length. cbn. lia.
    - rewrite vf_pr0. unfold nfail. cbn [fs_checks]. rewrite enum_snoc, filter_app, app_length. cbn [filter].
      rewrite vf_ac0, vf_cc0, vf_k0, vf_oc0.
      rewrite (fv_B_list d _ _ _ (fs_buf s)); [|exact Ht|].
      2:{ change (fun g : fgateS => let '(l, r, o) := g in (key_of d l, key_of d r, key_of d o)) with (kgate d).
          rewrite <- vf_buf0. apply map_ext. intro i.
          now replace (length (fs_buf s) + i - length (fs_buf s)) with i by lia. }
      replace (map oK (seq (128 * length (fs_checks s)) 128)) with (map (kof d) (ope (length (fs_checks s))))
        by (unfold ope; now rewrite map_map).
      change (ver_accept d _ _) with (ck_ok (length (fs_checks s), fs_buf s)).
      destruct (ck_ok (length (fs_checks s), fs_buf s)); cbn [negb length]; lia.
  Qed.
  Lemma vpre_sim v s : fvsim v s ->
    fvsim (fv_pre voleK oK d threads bufsz seeds junk chkmsg v) (fs_flush bufsz s).
  Proof.
    intro H. unfold fv_pre, fs_flush. rewrite (vf_cc v s H).
    destruct (Nat.eqb_spec (length (fs_buf s)) bufsz) as [E|E].
    - pose proof (vmanage_sim v s H) as []. cbn in *.
      rewrite vf_ac0. rewrite (proj2 (Nat.eqb_eq _ _) E).
      constructor; cbn; auto.
    - rewrite (vf_ac v s H), (proj2 (Nat.eqb_neq _ _) E). exact H.
  Qed.
  Lemma vmul_sim v s a b : fvsim v s ->
    fvsim (fv_mul voleK oK d threads bufsz seeds junk corr chkmsg v (key_of d a) (key_of d b))
          (fs_mul voleV voleM bufsz corr s a b).
  Proof.
    intro H. unfold fv_mul, fs_mul. pose proof (vpre_sim v s H) as H'.
    set (v' := fv_pre _ _ _ _ _ _ _ _ v) in *. set (s' := fs_flush bufsz s) in *. clearbody v' s'. clear H v s.
    destruct H'. set (n := length (fs_buf s')) in *.
    set (w := (N.lxor (voleV (fs_vr s') n) (corr (fs_corr s')), voleM (fs_vr s') n)).
    assert (Ew : N.lxor (fv_amac v' n) (gfmul (corr (fv_corr v')) d) = key_of d w).
    { rewrite vf_am0, vf_c0 by lia. unfold voleK, w, key_of. cbn [fst snd].
      rewrite gfmul_lxor_l, N.lxor_assoc. reflexivity. }
    constructor; cbn; auto.
    - rewrite map_app, vf_w0. cbn [map]. rewrite vf_ac0, aupd_same, Ew. reflexivity.
    - rewrite vf_ac0, app_length. cbn. lia.
    - rewrite vf_cc0, app_length. cbn. lia.
    - rewrite app_length. cbn [length]. fold n. rewrite Nat.add_1_r.
      rewrite (map_seq_snoc _ (fun i => (fv_lm v' i, fv_rm v' i, fv_amac v' i))).
      + rewrite vf_buf0, map_app. cbn [map]. rewrite vf_ac0, vf_cc0, !aupd_same, Ew. reflexivity.
      + intros i Hi. rewrite vf_ac0, vf_cc0, !aupd_other by lia. reflexivity.
    - intros i Hi. rewrite app_length in Hi. cbn in Hi. rewrite vf_ac0, aupd_other by (unfold n in *; lia). apply vf_am0. unfold n in *; lia.
  Qed.
  Definition pfail (s : fsst) : Prop := exists kb, In kb (enum (fs_pchecks s)) /\ pk_ok kb = false.
  Lemma vbatch_sim v s : fvsim v s ->
    match fv_batch d pseeds polymsg v with Some v' => fvsim v' (fs_batch s) | None => pfail (fs_batch s) end.
  Proof.
    intro H. unfold fv_batch, fs_batch. rewrite (vf_p v s H), map_length.
    destruct (Nat.eqb (length (fs_pbuf s)) 0); [exact H|].
    destruct (ver_poly_accept _ _ _ _) eqn:E.
    - destruct H. constructor; cbn; auto.
      + rewrite vf_pk0, app_length. cbn. lia.
      + intros kb Hin. rewrite enum_snoc in Hin. apply in_app_iff in Hin. destruct Hin as [Hin|[<-|[]]]; auto.
        unfold pk_ok. cbn [fst snd]. now rewrite <- vf_pk0.
    - exists (length (fs_pchecks s), fs_pbuf s). cbn. rewrite enum_snoc. split; [apply in_app_iff; right; now left|].
      unfold pk_ok. cbn [fst snd]. now rewrite <- (vf_pk v s H).
  Qed.
  Lemma blab_key i : ver_input d (bK i) (bitmsg i) = kof d (blab bM bitmsg i).
  Proof. unfold bK, blab. now apply kof_input. Qed.
  Lemma vchain_sim v s fs row : fvsim v s ->
    (forall w, row (key_of d w) = v_row d (fs, w)) ->
    match fv_chain bK d polysz pseeds bitmsg polymsg v row with
    | Some v' => fvsim v' (fs_chain bM polysz bitmsg s fs) | None => pfail (fs_chain bM polysz bitmsg s fs) end.
  Proof.
    intros H Hr. unfold fv_chain, fs_chain. rewrite (vf_p v s H), map_length.
    assert (Em : pack130 (map (fun i => ver_input d (bK (fv_bcnt v + i)) (bitmsg (fv_bits v + i))) (seq 0 130)) =
                 key_of d (belem bM bitmsg (fs_bits s))).
    { rewrite (vf_bc v s H), (vf_b v s H).
      rewrite (map_ext _ (fun i => kof d (blab bM bitmsg (fs_bits s + i)))) by (intro; apply blab_key).
      rewrite <- (map_map (fun i => fs_bits s + i) (fun i => kof d (blab bM bitmsg i))).
      replace (map (fun i => fs_bits s + i) (seq 0 130)) with (seq (fs_bits s) 130).
      2:{ symmetry. apply seq_offset. }
      rewrite <- map_map. rewrite pack130_kof by now rewrite map_length, seq_length. reflexivity. }
    rewrite Em. clear Em. set (w := belem bM bitmsg (fs_bits s)). clearbody w.
    assert (B : match (if Nat.leb polysz (length (fs_pbuf s)) then fv_batch d pseeds polymsg v else Some v) with
                | Some v' => fvsim v' (if Nat.leb polysz (length (fs_pbuf s)) then fs_batch s else s)
                | None => pfail (if Nat.leb polysz (length (fs_pbuf s)) then fs_batch s else s) end).
    { destruct (Nat.leb polysz _); [now apply vbatch_sim|exact H]. }
    destruct (if Nat.leb polysz _ then fv_batch d pseeds polymsg v else Some v) as [v'|].
    - set (s' := if Nat.leb polysz _ then fs_batch s else s) in *. clearbody s'. clear H v s.
      destruct B. constructor; cbn; auto.
      + now rewrite map_app, vf_w0.
      + now rewrite map_app, vf_p0, Hr.
    - set (s' := if Nat.leb polysz _ then fs_batch s else s) in *. clearbody s'. exact B.
  Qed.
  Let VSTEP := fv_step extk voleK bK oK d threads bufsz polysz seeds pseeds junk corr bitmsg chkmsg polymsg.
  Let SSTEP := fs_step ext voleV voleM bM bufsz polysz corr bitmsg.
  Lemma vstep_sim v s g : fvsim v s ->
    match VSTEP v g with Some v' => fvsim v' (SSTEP s g) | None => pfail (SSTEP s g) end.
  Proof.
    intro H. unfold VSTEP, SSTEP. destruct g as [|i k|i j|i j k|i j k l|i j k l m]; cbn [fv_step fs_step];
      rewrite ?(vf_w v s H), ?vw_key.
    - destruct H. constructor; cbn; auto.
      + rewrite map_app, vf_w0, vf_e0. reflexivity.
    - destruct H. constructor; cbn; auto.
      + rewrite map_app, vf_w0. cbn [map]. f_equal. f_equal. unfold key_of. cbn [fst snd].
        rewrite gfmul_lxor_l, (gfmul_comm d k), N.lxor_assoc. reflexivity.
    - now apply vmul_sim.
    - apply vchain_sim; [exact H|reflexivity].
    - apply vchain_sim; [exact H|reflexivity].
    - apply vchain_sim; [exact H|reflexivity].
  Qed.
  Lemma pfail_batch s : pfail s -> pfail (fs_batch s).
  Proof.
    intros [kb [Hin Hk]]. exists kb. split; [|exact Hk]. unfold fs_batch. destruct (Nat.eqb _ 0); [exact Hin|]. cbn.
    rewrite enum_snoc. apply in_app_iff. now left.
  Qed.
  Lemma pfail_step s g : pfail s -> pfail (SSTEP s g).
  Proof.
    intro H. unfold SSTEP.
    destruct g as [|i k|i j|i j k|i j k l|i j k l m]; cbn [fs_step]; try exact H.
    - unfold fs_mul, fs_flush. destruct (Nat.eqb _ _); exact H.
    - unfold fs_chain. destruct (Nat.leb _ _); [apply pfail_batch in H|]; exact H.
    - unfold fs_chain. destruct (Nat.leb _ _); [apply pfail_batch in H|]; exact H.
    - unfold fs_chain. destruct (Nat.leb _ _); [apply pfail_batch in H|]; exact H.
  Qed.
  Lemma pfail_run c : forall s, pfail s -> pfail (fold_left SSTEP c s).
  Proof. induction c as [|g c IH]; intros s H; [exact H|]. cbn. apply IH. now apply pfail_step. Qed.
  Lemma vrun_sim c : forall v s, fvsim v s ->
    match fv_run extk voleK bK oK d threads bufsz polysz seeds pseeds junk corr bitmsg chkmsg polymsg v c with
    | Some v' => fvsim v' (fold_left SSTEP c s) | None => pfail (fold_left SSTEP c s) end.
  Proof.
    induction c as [|g c IH]; intros v s H; [exact H|]. cbn [fv_run fold_left].
    pose proof (vstep_sim v s g H) as S. unfold VSTEP in S.
    destruct (fv_step _ _ _ _ _ _ _ _ _ _ _ _ _ _ _ v g) as [v'|]; [now apply IH|now apply pfail_run].
  Qed.
  Lemma vexec_sim g1 g2 c :
    match fv_exec extk voleK bK oK d threads bufsz polysz seeds pseeds junk corr bitmsg chkmsg polymsg g1 g2 c with
    | Some v => fvsim v (fs_exec ext voleV voleM bM bufsz polysz corr bitmsg c)
    | None => pfail (fs_exec ext voleV voleM bM bufsz polysz corr bitmsg c) end.
  Proof.
    unfold fv_exec, fs_exec, fs_run.
    assert (H0 : fvsim (fv_init voleK g1 g2) fs_init).
    { constructor; cbn; auto. }
    pose proof (vrun_sim c _ _ H0) as H.
    change (fold_left (fs_step ext voleV voleM bM bufsz polysz corr bitmsg) c fs_init) with (fold_left SSTEP c fs_init).
    destruct (fv_run _ _ _ _ _ _ _ _ _ _ _ _ _ _ _ (fv_init voleK g1 g2) c) as [v|].
    - unfold fv_final, fs_final. pose proof (vbatch_sim v _ H) as B.
      destruct (fv_batch _ _ _ v) as [v'|].
      + rewrite (vf_cc _ _ B). destruct (Nat.eqb _ 0); [exact B|now apply vmanage_sim].
      + destruct (Nat.eqb _ 0); exact B.
    - unfold fs_final. apply pfail_batch in H. destruct (Nat.eqb _ 0); exact H.
  Qed.
End VSim.

Definition prefix_of {A} (l : list A) (f : nat -> A) : Prop := l = map f (seq 0 (length l)).
Lemma app_inj_len {C} (a b r r' : list C) : length a = length b -> a ++ r = b ++ r' -> a = b /\ r = r'.
Proof.
  revert b. induction a as [|x a IH]; intros [|y b] L E; try discriminate L; [now split|].
  injection E as -> E. injection L as L. destruct (IH b L E) as [-> ->]. now split.
Qed.
Lemma prefix_app {A} (l m : list A) f : prefix_of (l ++ m) f ->
  prefix_of l f /\ m = map f (seq (length l) (length m)).
Proof.
  unfold prefix_of. rewrite app_length, seq_app, map_app. intro H. cbn [Nat.add] in H.
  apply app_inj_len in H; [exact H|]. now rewrite map_length, seq_length.
Qed.
Lemma prefix_nth {A} (l : list A) x : prefix_of l (fun i => nth i l x).
Proof.
  unfold prefix_of. induction l as [|y l IH]; [reflexivity|]. cbn [length seq map nth]. f_equal.
  rewrite <- seq_shift, map_map. exact IH.
Qed.
Lemma enum_length {A} (l : list A) : length (enum l) = length l.
Proof. unfold enum. rewrite combine_length, seq_length. apply Nat.min_id. Qed.
Section PSim.
  Variables (ext : nat -> fwire) (voleV voleM : nat -> nat -> N) (bM oM : nat -> N).
  Variables (threads bufsz polysz : nat) (seeds : nat -> nat -> N) (pseeds : nat -> N).
  Variable junk : nat -> nat -> N * N.
  Variables (corr : nat -> N) (bitmsg : nat -> bool).
  Hypothesis Ht : 1 <= threads.
  Hypothesis Hb : 1 <= bufsz.
  Definition msg_of (kb : nat * list fgateS) : N * N :=
    lp_A (snd kb) (f_ranges threads (length (snd kb))) (seeds (fst kb)) (junk (fst kb)) (map oM (seq (128 * fst kb) 128)).
  Record fpsim (p : fpst) (s : fsst) : Prop := {
    pf_w : fp_w p = fs_w s; pf_e : fp_ext p = fs_ext s;
    pf_c : length (fp_corr p) = fs_corr s; pf_b : length (fp_bits p) = fs_bits s; pf_bc : fp_bcnt p = fs_bits s;
    pf_ac : fp_acnt p = length (fs_buf s); pf_cc : fp_ccnt p = length (fs_buf s);
    pf_rf : fp_refills p = S (fs_vr s);
    pf_buf : map (fun i => ((fp_lv p i, fp_lm p i), (fp_rv p i, fp_rm p i), (fp_aval p i, fp_amac p i)))
               (seq 0 (length (fs_buf s))) = fs_buf s;
    pf_av : forall i, length (fs_buf s) <= i -> fp_aval p i = voleV (fs_vr s) i;
    pf_am : forall i, fp_amac p i = voleM (fs_vr s) i;
    pf_oc : fp_ocnt p = 128 * length (fs_checks s);
    pf_p : fp_poly p = map p_row (fs_pbuf s);
    pf_m : fp_msgs p = map msg_of (enum (fs_checks s));
    pf_q : fp_pmsgs p = map (fun kb => psums (snd kb) (pseeds (fst kb))) (enum (fs_pchecks s));
    pf_h1 : Forall (fun g => fgV g = 0%N) (fs_buf s);
    pf_h2 : Forall (Forall (fun g => fgV g = 0%N)) (fs_checks s);
    pf_h3 : Forall (fun e => p_err e = 0%N) (fs_pbuf s);
    pf_h4 : Forall (Forall (fun e => p_err e = 0%N)) (fs_pchecks s) }.
  Lemma pmanage_sim p s : fpsim p s -> fpsim (fp_manage oM threads seeds junk p) (fs_manage s).
  Proof.
    intros []. unfold fp_manage, fs_manage. constructor; cbn; auto.
    - rewrite pf_oc0, app_length. cbn. lia.
    - rewrite enum_snoc, map_app, pf_m0. f_equal. cbn [map]. f_equal. unfold msg_of at 3. cbn [fst snd].
      rewrite pf_ac0, pf_cc0, pf_oc0, map_length, enum_length.
      apply (fp_A_list _ _ _ _ _ (fp_aval p)); [exact Ht|].
      etransitivity; [|exact pf_buf0]. apply map_ext. intro i.
      now replace (length (fs_buf s) + i - length (fs_buf s)) with i by lia.
    - apply Forall_app. auto.
  Qed.
  Lemma ppre_sim p s : fpsim p s ->
    fpsim (fp_pre voleV voleM oM threads bufsz seeds junk p) (fs_flush bufsz s).
  Proof.
    intro H. unfold fp_pre, fs_flush. rewrite (pf_cc p s H).
    destruct (Nat.eqb_spec (length (fs_buf s)) bufsz) as [E|E].
    - pose proof (pmanage_sim p s H) as []. cbn in *.
      rewrite pf_ac0. rewrite (proj2 (Nat.eqb_eq _ _) E).
      constructor; cbn; auto.
      all: intros; now rewrite pf_rf0.
    - rewrite (pf_ac p s H), (proj2 (Nat.eqb_neq _ _) E). exact H.
  Qed.
  Lemma fp_pre_corr p : fp_corr (fp_pre voleV voleM oM threads bufsz seeds junk p) = fp_corr p /\
    fp_bits (fp_pre voleV voleM oM threads bufsz seeds junk p) = fp_bits p.
  Proof. unfold fp_pre. destruct (Nat.eqb (fp_ccnt p) bufsz); cbn; destruct (Nat.eqb _ _); auto. Qed.
  Lemma pmul_sim p s a b : fpsim p s ->
    let p' := fp_mul voleV voleM oM threads bufsz seeds junk p a b in
    prefix_of (fp_corr p') corr -> fpsim p' (fs_mul voleV voleM bufsz corr s a b).
  Proof.
    intros H p' Hp. unfold p' in *. clear p'. unfold fp_mul, fs_mul in *. pose proof (ppre_sim p s H) as H'.
    set (q := fp_pre _ _ _ _ _ _ _ p) in *. set (t := fs_flush bufsz s) in *. clearbody q t. clear H p s.
    cbn [fp_corr] in Hp. apply prefix_app in Hp. destruct Hp as [_ Hp]. cbn [length seq map] in Hp. injection Hp as Hp.
    destruct H'. set (n := length (fs_buf t)) in *.
    assert (Ev : N.lxor (voleV (fs_vr t) n) (corr (fs_corr t)) = gfmul (fst a) (fst b)).
    { rewrite pf_c0, pf_ac0, pf_av0 in Hp by lia. rewrite <- Hp.
      rewrite (N.lxor_comm (gfmul _ _)), <- N.lxor_assoc, N.lxor_nilpotent. apply N.lxor_0_l. }
    rewrite Ev.
    constructor; cbn [fp_w fp_ext fp_corr fp_bits fp_bcnt fp_acnt fp_ccnt fp_refills fp_lv fp_lm fp_rv fp_rm fp_aval fp_amac
       fp_ocnt fp_poly fp_msgs fp_pmsgs fs_w fs_ext fs_corr fs_bits fs_buf fs_vr fs_checks fs_pbuf fs_pchecks]; auto.
    - rewrite pf_w0, pf_am0, pf_ac0. reflexivity.
    - rewrite app_length, pf_c0. cbn. lia.
    - rewrite pf_ac0, app_length. cbn. lia.
    - rewrite pf_cc0, app_length. cbn. lia.
    - rewrite app_length. cbn [length]. fold n. rewrite Nat.add_1_r.
      rewrite (map_seq_snoc _ (fun i => ((fp_lv q i, fp_lm q i), (fp_rv q i, fp_rm q i), (fp_aval q i, fp_amac q i)))).
      + rewrite pf_buf0. rewrite pf_ac0, pf_cc0, !aupd_same, pf_am0. f_equal. destruct a, b. reflexivity.
      + intros i Hi. rewrite pf_ac0, pf_cc0, !aupd_other by lia. reflexivity.
    - intros i Hi. rewrite app_length in Hi. cbn in Hi. rewrite pf_ac0, aupd_other by (unfold n in *; lia). apply pf_av0. unfold n in *; lia.
    - apply Forall_app. split; [exact pf_h5|]. constructor; [|constructor]. cbn [fgV fst snd]. apply N.lxor_nilpotent.
  Qed.
  Lemma pbatch_sim p s : fpsim p s -> fpsim (fp_batch pseeds p) (fs_batch s).
  Proof.
    intro H. unfold fp_batch, fs_batch. rewrite (pf_p p s H), map_length.
    destruct (Nat.eqb (length (fs_pbuf s)) 0); [exact H|]. destruct H. constructor; cbn; auto.
    - rewrite enum_snoc, map_app, pf_q0, map_length, enum_length. reflexivity.
    - apply Forall_app. auto.
  Qed.
  Lemma fp_batch_bits p : fp_bits (fp_batch pseeds p) = fp_bits p /\ fp_corr (fp_batch pseeds p) = fp_corr p.
  Proof. unfold fp_batch. destruct (Nat.eqb _ 0); auto. Qed.
  Lemma pchain_sim p s fs v row : fpsim p s -> (v < 2 ^ 128)%N ->
    (forall w, row (snd w) = p_row (fs, w)) -> (forall m, p_err (fs, (v, m)) = 0%N) ->
    let p' := fp_chain bM polysz pseeds p v row in
    prefix_of (fp_bits p') bitmsg -> fpsim p' (fs_chain bM polysz bitmsg s fs).
  Proof.
    intros H Hv Hr He p' Hp. unfold p' in *. clear p'. unfold fp_chain, fs_chain in *.
    set (ls := map _ (combine _ _)) in *. cbn [fp_bits] in Hp.
    assert (Hp' : map snd ls = map bitmsg (seq (fs_bits s) (length (map snd ls)))).
    { apply prefix_app in Hp. destruct Hp as [_ Hp]. rewrite Hp at 1.
      replace (fp_bits (if polysz <=? length (fp_poly p) then fp_batch pseeds p else p)) with (fp_bits p)
        by (destruct (polysz <=? _); [now rewrite (proj1 (fp_batch_bits p))|reflexivity]).
      now rewrite (pf_b p s H). }
    clear Hp.
    assert (Ll : length ls = 130).
    { unfold ls. rewrite map_length, combine_length, seq_length, in_bits_length. reflexivity. }
    rewrite map_length, Ll in Hp'.
    assert (Ew : map (blab bM bitmsg) (seq (fs_bits s) 130) = combine (map fst ls) (in_bits v)).
    { rewrite <- seq_offset in Hp' |- *. rewrite !map_map in *. unfold ls in *. clear ls Ll.
      rewrite !map_map in Hp'. rewrite map_map. rewrite (pf_bc p s H) in *.
      pose proof (in_bits_length v) as Lb. revert Hp' Lb. generalize (in_bits v) as bs. generalize 130 as n. generalize (fs_bits s) as k. clear.
      intros k n. generalize 0 as z. induction n as [|n IH]; intros z [|b bs] Hp' Lb; cbn [seq combine map length] in *; try discriminate; [reflexivity|].
      injection Hp' as E Hp'. cbn [fst snd prv_input] in *. f_equal; [|apply IH; [exact Hp'|lia]].
      unfold blab. rewrite <- E, <- xorb_assoc, xorb_nilpotent, xorb_false_l. reflexivity. }
    assert (Eb : belem bM bitmsg (fs_bits s) = (v, pack130 (map fst ls))).
    { unfold belem. rewrite Ew.
      assert (L2 : length (map fst ls) = length (in_bits v)) by (rewrite map_length, Ll, in_bits_length; reflexivity).
      replace (map snd (combine (map fst ls) (in_bits v))) with (in_bits v).
      2:{ clear -L2. revert L2. generalize (map fst ls) as x, (in_bits v) as y. induction x; intros [|b y] L; cbn in *; try discriminate; auto. f_equal. apply IHx. lia. }
      replace (map fst (combine (map fst ls) (in_bits v))) with (map fst ls).
      2:{ clear -L2. revert L2. generalize (map fst ls) as x, (in_bits v) as y. induction x; intros [|b y] L; cbn in *; try discriminate; auto. f_equal. apply IHx. lia. }
      now rewrite used_in_bits. }
    rewrite Eb. set (m := pack130 (map fst ls)). clearbody m.
    assert (Lb : length (map snd ls) = 130) by now rewrite map_length.
    set (bs := map snd ls) in *. clearbody bs. clear ls Ll Hp' Ew Eb.
    rewrite (pf_p p s H), map_length.
    assert (B : fpsim (if polysz <=? length (fs_pbuf s) then fp_batch pseeds p else p)
                      (if polysz <=? length (fs_pbuf s) then fs_batch s else s)).
    { destruct (polysz <=? _); [now apply pbatch_sim|exact H]. }
    set (q := if polysz <=? length (fs_pbuf s) then fp_batch pseeds p else p) in *.
    set (t := if polysz <=? length (fs_pbuf s) then fs_batch s else s) in *. clearbody q t.
    clear H p s. destruct B.
    constructor; cbn [fp_w fp_ext fp_corr fp_bits fp_bcnt fp_acnt fp_ccnt fp_refills fp_lv fp_lm fp_rv fp_rm fp_aval fp_amac
       fp_ocnt fp_poly fp_msgs fp_pmsgs fs_w fs_ext fs_corr fs_bits fs_buf fs_vr fs_checks fs_pbuf fs_pchecks]; auto.
    - now rewrite pf_w0.
    - rewrite app_length, pf_b0. lia.
    - rewrite map_app, pf_p0. cbn [map]. now rewrite <- Hr.
    - apply Forall_app. auto.
  Qed.
  Let PSTEP := fp_step ext voleV voleM bM oM threads bufsz polysz seeds pseeds junk.
  Let SSTEP := fs_step ext voleV voleM bM bufsz polysz corr bitmsg.
  Lemma pstep_sim p s g : fpsim p s -> prefix_of (fp_corr (PSTEP p g)) corr -> prefix_of (fp_bits (PSTEP p g)) bitmsg ->
    fpsim (PSTEP p g) (SSTEP s g).
  Proof.
    intros H P1 P2. unfold PSTEP, SSTEP in *.
    destruct g as [|i k|i j|i j k|i j k l|i j k l m]; cbn [fp_step fs_step] in *; rewrite ?(pf_w p s H) in *.
    - destruct H. constructor; cbn; auto; congruence.
    - destruct H. constructor; cbn; auto; congruence.
    - now apply pmul_sim.
    - apply pchain_sim; auto; [apply gfmul_lt|]. intro m. unfold p_err. cbn [fst snd].
      rewrite (gfmul_comm (fst (pw (fs_w s) k))). apply N.lxor_nilpotent.
    - apply pchain_sim; auto; [apply gfmul_lt|]. intro m. unfold p_err, prod4, prod3. cbn [fst snd].
      rewrite (gfmul_comm (fst (pw (fs_w s) k))), (gfmul_comm (fst (pw (fs_w s) l))). apply N.lxor_nilpotent.
    - apply pchain_sim; auto; [apply gfmul_lt|]. intro m'. unfold p_err, prod5, prod4, prod3. cbn [fst snd].
      rewrite (gfmul_comm (fst (pw (fs_w s) k))), (gfmul_comm (fst (pw (fs_w s) l))), (gfmul_comm (fst (pw (fs_w s) m))).
      apply N.lxor_nilpotent.
  Qed.
  Lemma step_grows p g : exists x y, fp_corr (PSTEP p g) = fp_corr p ++ x /\ fp_bits (PSTEP p g) = fp_bits p ++ y.
  Proof.
    unfold PSTEP. destruct g as [|i k|i j|i j k|i j k l|i j k l m]; cbn [fp_step];
      try (exists [], []; rewrite !app_nil_r; now split).
    - unfold fp_mul. cbn [fp_corr fp_bits]. destruct (fp_pre_corr p) as [-> ->].
      eexists _, []. split; [reflexivity|now rewrite app_nil_r].
    - unfold fp_chain. cbn [fp_corr fp_bits].
      destruct (fp_batch_bits p) as [E1 E2].
      destruct (polysz <=? _); rewrite ?E1, ?E2; exists []; eexists; (split; [now rewrite app_nil_r|reflexivity]).
    - unfold fp_chain. cbn [fp_corr fp_bits].
      destruct (fp_batch_bits p) as [E1 E2].
      destruct (polysz <=? _); rewrite ?E1, ?E2; exists []; eexists; (split; [now rewrite app_nil_r|reflexivity]).
    - unfold fp_chain. cbn [fp_corr fp_bits].
      destruct (fp_batch_bits p) as [E1 E2].
      destruct (polysz <=? _); rewrite ?E1, ?E2; exists []; eexists; (split; [now rewrite app_nil_r|reflexivity]).
  Qed.
  Lemma prun_sim g1 g2 g3 g4 c : let p := fold_left PSTEP c (fp_init voleV voleM g1 g2 g3 g4) in
    prefix_of (fp_corr p) corr -> prefix_of (fp_bits p) bitmsg -> fpsim p (fold_left SSTEP c fs_init).
  Proof.
    induction c as [|g c IH] using rev_ind; cbv zeta.
    - intros _ _. cbn [fold_left]. constructor; cbn; auto.
    - rewrite !fold_left_app. cbn [fold_left]. intros P1 P2. cbv zeta in IH.
      destruct (step_grows (fold_left PSTEP c (fp_init voleV voleM g1 g2 g3 g4)) g) as [x [y [E1 E2]]].
      apply pstep_sim; auto. apply IH.
      + rewrite E1 in P1. now apply prefix_app in P1.
      + rewrite E2 in P2. now apply prefix_app in P2.
  Qed.
  Lemma pexec_sim g1 g2 g3 g4 c :
    let p := fp_exec ext voleV voleM bM oM threads bufsz polysz seeds pseeds junk g1 g2 g3 g4 c in
    prefix_of (fp_corr p) corr -> prefix_of (fp_bits p) bitmsg ->
    fpsim p (fs_exec ext voleV voleM bM bufsz polysz corr bitmsg c).
  Proof.
    cbv zeta. unfold fp_exec, fs_exec, fp_final, fs_final, fs_run.
    set (p := fold_left _ c (fp_init voleV voleM g1 g2 g3 g4)).
    intros P1 P2.
    assert (E : forall q, q = fp_batch pseeds p -> fp_corr (if fp_ccnt q =? 0 then q else fp_manage oM threads seeds junk q) = fp_corr p /\
       fp_bits (if fp_ccnt q =? 0 then q else fp_manage oM threads seeds junk q) = fp_bits p).
    { intros q ->. destruct (fp_batch_bits p) as [E1 E2]. destruct (fp_ccnt _ =? 0); cbn; auto. }
    destruct (E _ eq_refl) as [E1 E2]. rewrite E1 in P1. rewrite E2 in P2.
    pose proof (prun_sim g1 g2 g3 g4 c P1 P2) as H.
    change (fold_left PSTEP c _) with p in H. apply pbatch_sim in H.
    change (fold_left SSTEP c fs_init) with (fold_left (fs_step ext voleV voleM bM bufsz polysz corr bitmsg) c fs_init) in H.
    rewrite (pf_cc _ _ H). destruct (length _ =? 0); [exact H|now apply pmanage_sim].
  Qed.
End PSim.
