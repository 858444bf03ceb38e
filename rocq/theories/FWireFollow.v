(** Both programs of the GF(2^128) engine follow the schedule. *)
From Coq Require Import NArith List Bool Arith Lia.
From Verif Require Import Word WordProofs GF128 BoolModel BoolSpec BoolIOModel BoolIOSpec F2kModel F2kSpec WireModel WireNet WireProofs FWireModel FWireProofs.
Import ListNotations.

Lemma put_bits_follow {R} (f : nat -> bool) (k : proc R) n : forall a l dl res,
  follow true k l dl res ->
  follow true (put_bits (map f (seq a n)) k) (map (fun i => ABit (f i)) (seq a n) ++ l) dl res.
Proof.
  induction n as [|n IH]; intros a l dl res F; [exact F|]. cbn [seq map put_bits app follow]. eexists. split; [reflexivity|]. now apply IH.
Qed.
Lemma get_bits_follow {R} (f : nat -> bool) n : forall a (k : list bool -> proc R) l dl res,
  follow false (k (map f (seq a n))) l dl res ->
  follow false (get_bits n k) (map (fun i => ABit (f i)) (seq a n) ++ l) dl res.
Proof.
  induction n as [|n IH]; intros a k l dl res F; [exact F|]. cbn [seq map get_bits app follow]. eexists. split; [reflexivity|]. now apply IH.
Qed.
Section C.
  Variables (corr : nat -> N) (bitmsg : nat -> bool) (chkmsg : nat -> N * N) (polymsg : nat -> row5).
  Notation ops := (ops corr bitmsg chkmsg polymsg).
  Lemma compile_bits a n : compile (ops (map IBit (seq a n))) = map (fun i => ABit (bitmsg i)) (seq a n).
  Proof. revert a. induction n as [|n IH]; intro a; [reflexivity|]. cbn. f_equal. apply IH. Qed.
End C.

Section Ver.
  Variables (extk : nat -> N) (voleK : nat -> nat -> N) (bK oK : nat -> N) (delta : N).
  Variables (threads bufsz polysz : nat) (junk : nat -> nat -> N).
  Variables (G : list N -> nat -> N) (Gp : list N -> N).
  Variables (seeds : nat -> nat -> N) (pseeds : nat -> N).
  Variables (corr : nat -> N) (bitmsg : nat -> bool) (chkmsg : nat -> N * N) (polymsg : nat -> row5).
  Hypothesis Hb : 1 <= bufsz.
  Hypothesis Hcorr : forall i, blk (corr i).
  Hypothesis Hchk : forall i, blk2 (chkmsg i).
  Hypothesis Hpoly : forall i, blk5 (polymsg i).
  Notation ops := (ops corr bitmsg chkmsg polymsg).
  Notation seeded := (seeded G Gp seeds pseeds).
  Notation gitems := (gitems bufsz polysz).
  Notation items := (items bufsz polysz).
  Notation vstep := (fv_step extk voleK bK oK delta threads bufsz polysz seeds pseeds junk corr bitmsg chkmsg polymsg).
  Notation vrun := (fv_run extk voleK bK oK delta threads bufsz polysz seeds pseeds junk corr bitmsg chkmsg polymsg).
  Notation vfinal := (fv_final oK delta threads seeds pseeds junk chkmsg polymsg).
  Notation vmanage := (fv_manage oK delta threads seeds junk chkmsg).
  Notation vbatch := (fv_batch delta pseeds polymsg).
  Notation vprog := (fver_prog extk voleK bK oK delta threads bufsz polysz junk G Gp).
  Definition vshape (v : fvst) (h : shp) : Prop :=
    fv_ccnt v = h_c h /\ length (fv_poly v) = h_p h /\ fv_corr v = h_corr h /\ fv_bits v = h_bits h /\ fv_chk v = h_chk h /\ fv_pchk v = h_pchk h.

  Lemma v_chk_follow v k l dl hh res : seeds (fv_chk v) = G hh -> follow false (k (vmanage v)) l dl res ->
    follow false (fv_check_prog oK delta threads junk G v k) (compile (ops [IChk (fv_chk v)]) ++ l) (hh :: dl) res.
  Proof.
    intros E F. unfold fv_check_prog. cbn [FWireProofs.ops flat_map iops app compile compile1 follow Bool.eqb].
    do 3 (eexists; split; [reflexivity|]). rewrite enc2_len. eexists. split; [reflexivity|]. eexists. split; [reflexivity|].
    cbn beta. unfold fv_manage in *. destruct (Hchk (fv_chk v)) as [A B]. rewrite dec2_enc2, <- E by assumption. exact F.
  Qed.
  Lemma v_poly_follow v v' k l dl hh res : length (fv_poly v) <> 0 -> pseeds (fv_pchk v) = Gp hh -> vbatch v = Some v' -> follow false (k v') l dl res ->
    follow false (fv_batch_prog delta Gp v k) (compile (ops [IPoly (fv_pchk v)]) ++ l) (hh :: dl) res.
  Proof.
    intros Hn E Eb F. unfold fv_batch_prog. rewrite (proj2 (Nat.eqb_neq _ _) Hn).
    cbn [FWireProofs.ops flat_map iops app compile compile1 follow Bool.eqb].
    do 3 (eexists; split; [reflexivity|]). rewrite enc5_len. eexists. split; [reflexivity|]. cbn beta.
    rewrite dec5_enc5 by apply Hpoly.
    replace (fv_batch delta (fun _ => Gp hh) (fun _ => polymsg (fv_pchk v)) v) with (vbatch v).
    - now rewrite Eb.
    - unfold fv_batch. rewrite E. reflexivity.
  Qed.
  Lemma vbatch_facts v v' : length (fv_poly v) <> 0 -> vbatch v = Some v' ->
    fv_w v' = fv_w v /\ fv_ccnt v' = fv_ccnt v /\ fv_poly v' = [] /\ fv_corr v' = fv_corr v /\ fv_bits v' = fv_bits v /\ fv_bcnt v' = fv_bcnt v /\
    fv_chk v' = fv_chk v /\ fv_pchk v' = S (fv_pchk v).
  Proof.
    intros Hn E. unfold fv_batch in E. rewrite (proj2 (Nat.eqb_neq _ _) Hn) in E.
    destruct (ver_poly_accept _ _ _ _); [|discriminate]. injection E as <-. repeat split.
  Qed.
  Lemma v_mul_follow v h a b k l its dl res : vshape v h ->
    seeded (fst (mul_items bufsz h) ++ its) dl ->
    let v2 := fv_mul voleK oK delta threads bufsz seeds junk corr chkmsg v a b in
    (forall dl', vshape v2 (snd (mul_items bufsz h)) -> seeded its dl' -> follow false (k v2) l dl' res) ->
    follow false (fv_mul_prog voleK oK delta threads bufsz junk G v a b k) (compile (ops (fst (mul_items bufsz h))) ++ l) dl res.
  Proof.
    intros Sh Sd v2 K. pose proof Sh as (S1 & S2 & S3 & S4 & S5 & S6). unfold fv_mul_prog. rewrite S1. revert Sd K. unfold mul_items.
    destruct (Nat.eqb_spec (h_c h) bufsz) as [E|E]; cbn [fst snd app seeded]; intros Sd K.
    - destruct dl as [|hh dl]; [destruct Sd|]. destruct Sd as [Sd1 Sd2].
      change (ops [IChk (h_chk h); ICorr (h_corr h)]) with (ops [IChk (h_chk h)] ++ ops [ICorr (h_corr h)]). rewrite compile_app, <- app_assoc.
      rewrite <- S5 in *. apply v_chk_follow; [exact Sd1|].
      set (v1 := vmanage v). assert (X : fv_clear v1 = fv_clear (vmanage v)) by reflexivity.
      cbn [FWireProofs.ops flat_map iops app compile compile1 follow Bool.eqb]. do 1 (eexists; split; [reflexivity|]).
      rewrite enc_block_len. eexists. split; [reflexivity|]. cbn beta. rewrite dec_enc by apply Hcorr.
      replace (fv_mul voleK oK delta threads bufsz (fun _ _ => 0%N) junk (fun _ => corr (h_corr h)) (fun _ => (0%N, 0%N)) (fv_clear v1) a b) with v2.
      + apply K; [|exact Sd2]. unfold v2, fv_mul, fv_pre. rewrite S1, (proj2 (Nat.eqb_eq _ _) E).
        destruct (Nat.eqb (fv_acnt (fv_clear (vmanage v))) bufsz); unfold vshape; cbn; repeat split; auto; lia.
      + unfold v2, fv_mul, fv_pre. rewrite S1, (proj2 (Nat.eqb_eq _ _) E). change (fv_ccnt (fv_clear v1)) with 0.
        rewrite (proj2 (Nat.eqb_neq 0 bufsz)) by lia. fold v1. destruct (Nat.eqb (fv_acnt (fv_clear v1)) bufsz); cbn; rewrite S3; reflexivity.
    - cbn [FWireProofs.ops flat_map iops app compile compile1 follow Bool.eqb]. do 1 (eexists; split; [reflexivity|]).
      rewrite enc_block_len. eexists. split; [reflexivity|]. cbn beta. rewrite dec_enc by apply Hcorr.
      replace (fv_mul voleK oK delta threads bufsz (fun _ _ => 0%N) junk (fun _ => corr (h_corr h)) (fun _ => (0%N, 0%N)) v a b) with v2.
      + apply K; [|exact Sd]. unfold v2, fv_mul, fv_pre. rewrite S1, (proj2 (Nat.eqb_neq _ _) E).
        destruct (Nat.eqb (fv_acnt v) bufsz); unfold vshape; cbn; repeat split; auto; lia.
      + unfold v2, fv_mul, fv_pre. rewrite S1, (proj2 (Nat.eqb_neq _ _) E). destruct (Nat.eqb (fv_acnt v) bufsz); cbn; rewrite S3; reflexivity.
  Qed.
  (** reading from the bits just received, or from the whole list of bits *)
  Lemma chain_bits_eq v row pd pm : length (fv_poly v) = 0 \/ Nat.leb polysz (length (fv_poly v)) = false ->
    fv_chain bK delta polysz (fun _ => 0%N) (fun j => nth (j - fv_bits v) (map bitmsg (seq (fv_bits v) 130)) false) (fun _ => (0, 0, 0, 0, 0)%N) v row =
    fv_chain bK delta polysz pd bitmsg pm v row.
  Proof.
    intro Hp. unfold fv_chain.
    assert (B : forall ps ms, (if Nat.leb polysz (length (fv_poly v)) then fv_batch delta ps ms v else Some v) = Some v).
    { intros ps ms. destruct Hp as [Hp| ->]; [|reflexivity]. unfold fv_batch. rewrite Hp. cbn [Nat.eqb]. now destruct (Nat.leb polysz 0). }
    rewrite !B.
    assert (M : map (fun i => ver_input delta (bK (fv_bcnt v + i)) (nth (fv_bits v + i - fv_bits v) (map bitmsg (seq (fv_bits v) 130)) false)) (seq 0 130) =
                map (fun i => ver_input delta (bK (fv_bcnt v + i)) (bitmsg (fv_bits v + i))) (seq 0 130)).
    { apply map_ext_in. intros i Hi. apply in_seq in Hi. f_equal. replace (fv_bits v + i - fv_bits v) with i by lia.
      rewrite (nth_indep _ false (bitmsg 0)) by (rewrite map_length, seq_length; lia). rewrite map_nth, seq_nth by lia. reflexivity. }
    now rewrite M.
  Qed.
  Lemma v_chain_follow v v2 h row k l its dl res : vshape v h ->
    seeded (fst (chain_items polysz h) ++ its) dl ->
    fv_chain bK delta polysz pseeds bitmsg polymsg v row = Some v2 ->
    (forall dl', vshape v2 (snd (chain_items polysz h)) -> seeded its dl' -> follow false (k v2) l dl' res) ->
    follow false (fv_chain_prog bK delta polysz Gp v row k) (compile (ops (fst (chain_items polysz h))) ++ l) dl res.
  Proof.
    intros Sh Sd E K. pose proof Sh as (S1 & S2 & S3 & S4 & S5 & S6). unfold fv_chain_prog.
    assert (SH : forall v v2 h, vshape v h -> (length (fv_poly v) = 0 \/ Nat.leb polysz (length (fv_poly v)) = false) ->
      fv_chain bK delta polysz pseeds bitmsg polymsg v row = Some v2 ->
      vshape v2 {| h_c := h_c h; h_p := S (h_p h); h_corr := h_corr h; h_bits := h_bits h + 130; h_chk := h_chk h; h_pchk := h_pchk h |}).
    { clear. intros v v2 h (S1 & S2 & S3 & S4 & S5 & S6) Hp E. unfold fv_chain in E.
      assert (B : (if Nat.leb polysz (length (fv_poly v)) then vbatch v else Some v) = Some v).
      { destruct Hp as [Hp| ->]; [|reflexivity]. unfold fv_batch. rewrite Hp. cbn [Nat.eqb]. now destruct (Nat.leb polysz 0). }
      rewrite B in E. injection E as <-. unfold vshape. cbn. rewrite app_length. cbn. repeat split; auto; lia. }
    revert Sd K. unfold chain_items. rewrite <- S2, <- S4, <- S6.
    destruct (Nat.leb polysz (length (fv_poly v)) && negb (Nat.eqb (length (fv_poly v)) 0)) eqn:Ef; cbn [fst snd]; intros Sd K.
    - apply andb_prop in Ef. destruct Ef as [F1 F2]. apply negb_true_iff, Nat.eqb_neq in F2.
      rewrite <- app_assoc, seeded_bits in Sd. cbn [app FWireProofs.seeded] in Sd. destruct dl as [|hh dl]; [destruct Sd|]. destruct Sd as [Sd1 Sd2].
      rewrite ops_app, compile_app, <- app_assoc, compile_bits. apply get_bits_follow. rewrite F1.
      destruct (vbatch v) as [v'|] eqn:Eb.
      2:{ unfold fv_chain in E. rewrite F1, Eb in E. discriminate. }
      apply v_poly_follow with (v' := v'); auto. destruct (vbatch_facts v v' F2 Eb) as (A0 & A1 & A2 & A3 & A4 & A5 & A6 & A7).
      assert (E' : fv_chain bK delta polysz pseeds bitmsg polymsg v' row = Some v2).
      { rewrite <- E. unfold fv_chain. rewrite F1, Eb, A2, A4, A5.
        assert (Z : (if Nat.leb polysz (length (@nil N)) then vbatch v' else Some v') = Some v').
        { unfold fv_batch. rewrite A2. cbn [length Nat.eqb]. now destruct (Nat.leb polysz 0). }
        rewrite Z. rewrite !A2, !A4, !A5. reflexivity. }
      cbn beta zeta. rewrite <- A4, (chain_bits_eq v' row pseeds polymsg), E' by (left; now rewrite A2).
      apply K; [|exact Sd2].
      pose proof (SH v' v2 {| h_c := h_c h; h_p := 0; h_corr := h_corr h; h_bits := fv_bits v; h_chk := h_chk h; h_pchk := S (fv_pchk v) |}) as Q.
      cbn [h_c h_p h_corr h_bits h_chk h_pchk] in Q. apply Q; auto.
      + unfold vshape. cbn [h_c h_p h_corr h_bits h_chk h_pchk]. rewrite A1, A2, A3, A4, A6, A7. repeat split; auto.
      + left. now rewrite A2.
    - rewrite seeded_bits in Sd. rewrite compile_bits. apply get_bits_follow.
      assert (Hp : length (fv_poly v) = 0 \/ Nat.leb polysz (length (fv_poly v)) = false).
      { destruct (Nat.leb polysz (length (fv_poly v))); [left|now right]. cbn in Ef. apply negb_false_iff, Nat.eqb_eq in Ef. exact Ef. }
      cbn zeta.
      assert (Q : follow false (match fv_chain bK delta polysz (fun _ => 0%N) (fun j => nth (j - fv_bits v) (map bitmsg (seq (fv_bits v) 130)) false)
                     (fun _ => (0, 0, 0, 0, 0)%N) v row with None => PDone None | Some s' => k s' end) l dl res).
      { rewrite (chain_bits_eq v row pseeds polymsg Hp), E. apply K; [|exact Sd].
        pose proof (SH v v2 h Sh Hp E) as Z. rewrite <- S2, <- S4, <- S6 in Z. exact Z. }
      destruct (Nat.leb polysz (length (fv_poly v))); [|exact Q]. unfold fv_batch_prog. destruct Hp as [Hp|Hp]; [|discriminate].
      rewrite Hp. exact Q.
  Qed.
  Lemma v_gate_follow v v2 h g k l its dl res : vshape v h ->
    seeded (fst (gitems h g) ++ its) dl -> vstep v g = Some v2 ->
    (forall dl', vshape v2 (snd (gitems h g)) -> seeded its dl' -> follow false (k v2) l dl' res) ->
    follow false (fv_gate_prog extk voleK bK oK delta threads bufsz polysz junk G Gp v g k) (compile (ops (fst (gitems h g))) ++ l) dl res.
  Proof.
    intros Sh Sd E K. destruct g; cbn [FWireProofs.gitems fv_gate_prog fv_step] in *.
    - injection E as <-. cbn [fst app snd] in *. apply K; [|exact Sd]. destruct Sh as (S1 & S2 & S3 & S4 & S5 & S6). repeat split; assumption.
    - injection E as <-. cbn [fst app snd] in *. apply K; [|exact Sd]. destruct Sh as (S1 & S2 & S3 & S4 & S5 & S6). repeat split; assumption.
    - injection E as <-. now apply v_mul_follow with (its := its).
    - now apply v_chain_follow with (v2 := v2) (its := its).
    - now apply v_chain_follow with (v2 := v2) (its := its).
    - now apply v_chain_follow with (v2 := v2) (its := its).
  Qed.
  Lemma v_end_follow v vf h dl : vshape v h -> seeded (end_items h) dl -> vfinal v = Some vf ->
    follow false (fv_end_prog oK delta threads junk G Gp v) (compile (ops (end_items h) ++ [OFlush])) dl (Some vf).
  Proof.
    intros Sh Sd E. pose proof Sh as (S1 & S2 & S3 & S4 & S5 & S6). unfold fv_end_prog, end_items in *. rewrite ops_app, <- app_assoc.
    assert (CH : forall v h dl vf, fv_ccnt v = h_c h -> fv_chk v = h_chk h -> seeded (if Nat.eqb (h_c h) 0 then [] else [IChk (h_chk h)]) dl ->
      (if Nat.eqb (fv_ccnt v) 0 then v else vmanage v) = vf ->
      follow false (if Nat.eqb (fv_ccnt v) 0 then PFlush (PDone (Some v)) else fv_check_prog oK delta threads junk G v (fun s => PFlush (PDone (Some s))))
        (compile (ops (if Nat.eqb (h_c h) 0 then [] else [IChk (h_chk h)]) ++ [OFlush])) dl (Some vf)).
    { clear - Hchk. intros v h dl vf E1 E2 Sd <-. rewrite E1. destruct (Nat.eqb (h_c h) 0).
      - cbn in *. subst dl. eexists. split; reflexivity.
      - cbn [FWireProofs.seeded] in Sd. destruct dl as [|hh dl]; [destruct Sd|]. destruct Sd as [Sd ->]. rewrite compile_app, <- E2 in *.
        apply v_chk_follow; [exact Sd|]. cbn. eexists. split; reflexivity. }
    unfold fv_final in E. rewrite <- S2, <- S6 in *. destruct (Nat.eqb_spec (length (fv_poly v)) 0) as [Z|Z].
    - unfold fv_batch_prog. rewrite Z. cbn [Nat.eqb app FWireProofs.ops flat_map]. apply CH; auto.
      unfold fv_batch in E. rewrite Z in E. cbn [Nat.eqb] in E. now injection E.
    - destruct (vbatch v) as [v'|] eqn:Eb; [|discriminate]. injection E as E. cbn [app FWireProofs.seeded] in Sd. destruct dl as [|hh dl]; [destruct Sd|]. destruct Sd as [Sd1 Sd2].
      rewrite compile_app. apply v_poly_follow with (v' := v'); auto.
      destruct (vbatch_facts v v' Z Eb) as (A0 & A1 & A2 & A3 & A4 & A5 & A6 & A7). apply CH; auto; congruence.
  Qed.
  Lemma v_follow c : forall v vf h dl, vshape v h -> seeded (items h c) dl ->
    match vrun v c with None => None | Some v => vfinal v end = Some vf ->
    follow false (vprog v c) (compile (ops (items h c) ++ [OFlush])) dl (Some vf).
  Proof.
    induction c as [|g c IH]; intros v vf h dl Sh Sd E; cbn [fver_prog FWireProofs.items fv_run] in *.
    - now apply v_end_follow.
    - destruct (vstep v g) as [v2|] eqn:Es; [|discriminate]. rewrite ops_app, <- app_assoc, compile_app.
      apply v_gate_follow with (v2 := v2) (its := items (snd (gitems h g)) c); auto.
  Qed.
End Ver.
