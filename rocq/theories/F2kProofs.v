(** Shadow execution: values and macs fixed by the correlations and the prover's messages, without
    Delta.  The verifier for a key Delta is its image, the honest prover coincides with it. *)
From Coq Require Import NArith List Bool Arith Lia Ring.
From Verif Require Import Word WordProofs GF128 GF128Ring GF128Field GfmulModel GfmulProofs PolyRoots ListUtil.
From Verif Require Import BoolModel BoolSpec BoolProofs BoolAlg BoolThms F2kModel F2kSpec F2kAlg.
Import ListNotations.
Ltac Zify.zify_post_hook ::= idtac.

(** * Packing of labels *)
Lemma word_of_ch bs : word_of bs = ch_word (map b2N bs).
Proof.
  induction bs as [|b bs IH]; [reflexivity|]. cbn [word_of fold_right map ch_word].
  fold (word_of bs). rewrite IH. now destruct b.
Qed.
Lemma getLSB_b2N b : getLSB (b2N b) = b. Proof. now destruct b. Qed.
Lemma word_of_gdot bs : length bs = 128 -> toG (word_of bs) = gdot (map b2g bs) gB.
Proof.
  intro H. rewrite word_of_ch. rewrite <- ch_bits_word by now rewrite map_length.
  rewrite ch_bits_ok by now rewrite map_length. rewrite map_map. f_equal.
  apply map_ext. intro b. now rewrite getLSB_b2N.
Qed.
Lemma gdot_app a1 : forall a2 b1 b2, length a1 = length b1 ->
  gdot (a1 ++ a2) (b1 ++ b2) = gadd (gdot a1 b1) (gdot a2 b2).
Proof.
  induction a1 as [|x a1 IH]; intros a2 [|y b1] b2 H; cbn in *; try discriminate; [ring|].
  rewrite IH by lia. ring.
Qed.
(** the 128 positions of the 130 labels that are packed *)
Definition used {A} (l : list A) : list A := firstn 64 l ++ firstn 64 (skipn 65 l).
Lemma used_map {A B} (f : A -> B) l : used (map f l) = map f (used l).
Proof. unfold used. now rewrite skipn_map, !firstn_map, map_app. Qed.
Lemma used_length {A} (l : list A) : length l = 130 -> length (used l) = 128.
Proof. intro H. unfold used. rewrite app_length, !firstn_length, skipn_length. lia. Qed.
Lemma pack_base_length : length pack_base = 128. Proof. reflexivity. Qed.
Lemma toG_pack130 l : length l = 130 -> toG (pack130 l) = gdot (map toG (used l)) gB.
Proof.
  intro H. unfold pack130. rewrite toG_lxor, !toG_inn. unfold used, gB. rewrite map_app.
  rewrite <- (firstn_skipn 64 pack_base) at 3. rewrite map_app, gdot_app; [reflexivity|].
  rewrite !map_length, !firstn_length, pack_base_length. lia.
Qed.
Lemma pack130_lt l : (pack130 l < 2 ^ 128)%N.
Proof. unfold pack130. apply lxor_lt; apply inn_lt. Qed.
Lemma pack130_kof d (l : list (N * bool)) : length l = 130 ->
  pack130 (map (kof d) l) = key_of d (word_of (used (map snd l)), pack130 (map fst l)).
Proof.
  intro H. apply toG_inj.
  - apply pack130_lt.
  - unfold key_of. apply lxor_lt; [apply pack130_lt|apply gfmul_lt].
  - rewrite toG_key. cbn [fst snd]. rewrite !toG_pack130 by now rewrite map_length.
    rewrite word_of_gdot by (apply used_length; now rewrite map_length).
    rewrite !used_map, !map_map. apply gdot_lin2. intros o _. apply toG_kof.
Qed.
Lemma word_of_bits v n : forall sh,
  word_of (map (fun i => N.testbit v (N.of_nat i + sh)) (seq 0 n)) = ((v / 2 ^ sh) mod 2 ^ N.of_nat n)%N.
Proof.
  induction n as [|n IH]; intro sh.
  - cbn [seq map word_of fold_right]. now rewrite N.pow_0_r, N.mod_1_r.
  - cbn [seq]. rewrite <- seq_shift, map_cons, map_map. cbn [word_of fold_right].
    rewrite (map_ext _ (fun i => N.testbit v (N.of_nat i + (sh + 1)))) by (intro i; f_equal; lia).
    fold (word_of (map (fun i => N.testbit v (N.of_nat i + (sh + 1))) (seq 0 n))). rewrite IH.
    rewrite Nat2N.inj_succ, N.pow_succ_r', N.mod_mul_r by (apply N.neq_sym, N.lt_neq; lia || (apply N.neq_0_lt_0, N.pow_nonzero; lia)).
    rewrite N.div_div by (try apply N.pow_nonzero; lia).
    replace (2 ^ sh * 2)%N with (2 ^ (sh + 1))%N by (rewrite N.pow_add_r, N.pow_1_r; lia).
    change (N.of_nat 0 + sh)%N with sh.
    assert (E : b2N (N.testbit v sh) = ((v / 2 ^ sh) mod 2)%N).
    { rewrite <- N.shiftr_div_pow2, <- N.bit0_mod, N.shiftr_spec by lia. rewrite N.add_0_l. now destruct (N.testbit v sh). }
    rewrite E. lia.
Qed.
Lemma word_of_app a b : word_of (a ++ b) = (word_of a + 2 ^ N.of_nat (length a) * word_of b)%N.
Proof. rewrite !word_of_ch, map_app, ch_word_app, map_length. reflexivity. Qed.
Lemma firstn_len_app {A} n (a b : list A) : length a = n -> firstn n (a ++ b) = a.
Proof. intros <-. rewrite firstn_app, firstn_all, Nat.sub_diag, firstn_O. apply app_nil_r. Qed.
Lemma skipn_len_app {A} n (a b : list A) : length a = n -> skipn n (a ++ b) = b.
Proof. intros <-. rewrite skipn_app, skipn_all, Nat.sub_diag. reflexivity. Qed.
Lemma used_in_bits v : (v < 2 ^ 128)%N -> word_of (used (in_bits v)) = v.
Proof.
  intro H. unfold used, in_bits.
  rewrite (skipn_len_app 65) by (unfold in65; now rewrite app_length, map_length, seq_length).
  unfold in65. rewrite <- app_assoc, !firstn_len_app by now rewrite map_length, seq_length.
  rewrite word_of_app, !word_of_bits, map_length, seq_length.
  change (N.of_nat 64) with 64%N. change (2 ^ 0)%N with 1%N. rewrite N.div_1_r.
  rewrite (N.mod_small (v / 2 ^ 64)) by (apply N.div_lt_upper_bound; [discriminate|exact H]).
  pose proof (N.div_mod v (2 ^ 64)%N ltac:(discriminate)). lia.
Qed.
Lemma in_bits_length v : length (in_bits v) = 130.
Proof. unfold in_bits, in65. rewrite !app_length, !map_length, !seq_length. reflexivity. Qed.
Lemma used_seq b : used (seq b 130) = seq b 64 ++ seq (b + 65) 64.
Proof.
  unfold used. rewrite (seq_app 64 66 b : seq b 130 = _), firstn_len_app by now rewrite seq_length.
  f_equal. rewrite <- (seq_app 64 66 b : seq b 130 = _), (seq_app 65 65 b : seq b 130 = _), skipn_len_app by now rewrite seq_length.
  now rewrite (seq_app 64 1 (b + 65) : seq (b + 65) 65 = _), firstn_len_app by now rewrite seq_length.
Qed.
Lemma combine_snoc {A B} (q : list A) : forall (l : list B) a x, length q = length l ->
  combine (q ++ [a]) (l ++ [x]) = combine q l ++ [(a, x)].
Proof.
  induction q as [|z q IH]; intros [|y l] a x H; cbn in *; try discriminate; [reflexivity|].
  f_equal. apply IH. now injection H.
Qed.
Lemma enum_snoc {A} (l : list A) x : enum (l ++ [x]) = enum l ++ [(length l, x)].
Proof.
  unfold enum. rewrite app_length, seq_app. apply combine_snoc. apply seq_length.
Qed.
Lemma enum_nth {A} (l : list A) k x : In (k, x) (enum l) <-> nth_error l k = Some x.
Proof.
  induction l as [|y l IH] using rev_ind.
  - cbn. split; [easy|]. destruct k; discriminate.
  - rewrite enum_snoc, in_app_iff, IH. cbn [In]. destruct (lt_eq_lt_dec k (length l)) as [[L| ->]|G].
    + rewrite nth_error_app1 by easy. split; [|tauto]. intros [H|[E|[]]]; [exact H|]. injection E as E _. lia.
    + rewrite nth_error_app2, Nat.sub_diag by easy. cbn. split.
      * intros [H|[E|[]]]; [|congruence]. exfalso.
        assert (nth_error l (length l) <> None) by congruence. apply nth_error_Some in H0. lia.
      * intro E. right. left. congruence.
    + rewrite (proj2 (nth_error_None (l ++ [y]) k)) by (rewrite app_length; cbn; lia).
      rewrite (proj2 (nth_error_None l k)) by lia. split; [|discriminate]. intros [H|[E|[]]]; [discriminate|]. injection E as E _. lia.
Qed.

Record fsst := { fs_w : list fwire; fs_ext : nat; fs_corr : nat; fs_bits : nat;
                 fs_buf : list fgateS; fs_vr : nat; fs_checks : list (list fgateS);
                 fs_pbuf : list pent; fs_pchecks : list (list pent) }.
Section Shadow.
  Variables (ext : nat -> fwire) (voleV voleM : nat -> nat -> N) (bM : nat -> N) (bufsz polysz : nat).
  Variables (corr : nat -> N) (bitmsg : nat -> bool).
  Definition fs_add (s : fsst) (w : fwire) (e : nat) : fsst :=
    {| fs_w := fs_w s ++ [w]; fs_ext := fs_ext s + e; fs_corr := fs_corr s; fs_bits := fs_bits s;
       fs_buf := fs_buf s; fs_vr := fs_vr s; fs_checks := fs_checks s; fs_pbuf := fs_pbuf s; fs_pchecks := fs_pchecks s |}.
  Definition fs_flush (s : fsst) : fsst :=
    if Nat.eqb (length (fs_buf s)) bufsz then
    {| fs_w := fs_w s; fs_ext := fs_ext s; fs_corr := fs_corr s; fs_bits := fs_bits s;
       fs_buf := []; fs_vr := S (fs_vr s); fs_checks := fs_checks s ++ [fs_buf s];
       fs_pbuf := fs_pbuf s; fs_pchecks := fs_pchecks s |} else s.
  Definition fs_mul (s : fsst) (a b : fwire) : fsst :=
    let s := fs_flush s in
    let w := (N.lxor (voleV (fs_vr s) (length (fs_buf s))) (corr (fs_corr s)), voleM (fs_vr s) (length (fs_buf s))) in
    {| fs_w := fs_w s ++ [w]; fs_ext := fs_ext s; fs_corr := S (fs_corr s); fs_bits := fs_bits s;
       fs_buf := fs_buf s ++ [(a, b, w)]; fs_vr := fs_vr s; fs_checks := fs_checks s;
       fs_pbuf := fs_pbuf s; fs_pchecks := fs_pchecks s |}.
  Definition blab (i : nat) : N * bool :=
    let x := xorb (getLSB (bM i)) (bitmsg i) in (set_value_in_block (bM i) x, x).
  Definition belem (b : nat) : fwire :=
    (word_of (used (map snd (map blab (seq b 130)))), pack130 (map fst (map blab (seq b 130)))).
  Definition fs_batch (s : fsst) : fsst :=
    if Nat.eqb (length (fs_pbuf s)) 0 then s else
    {| fs_w := fs_w s; fs_ext := fs_ext s; fs_corr := fs_corr s; fs_bits := fs_bits s;
       fs_buf := fs_buf s; fs_vr := fs_vr s; fs_checks := fs_checks s;
       fs_pbuf := []; fs_pchecks := fs_pchecks s ++ [fs_pbuf s] |}.
  Definition fs_chain (s : fsst) (fs : list fwire) : fsst :=
    let w := belem (fs_bits s) in
    let s := if Nat.leb polysz (length (fs_pbuf s)) then fs_batch s else s in
    {| fs_w := fs_w s ++ [w]; fs_ext := fs_ext s; fs_corr := fs_corr s; fs_bits := fs_bits s + 130;
       fs_buf := fs_buf s; fs_vr := fs_vr s; fs_checks := fs_checks s;
       fs_pbuf := fs_pbuf s ++ [(fs, w)]; fs_pchecks := fs_pchecks s |}.
  Definition fs_step (s : fsst) (g : fgate) : fsst :=
    let W := pw (fs_w s) in
    match g with
    | FExt => fs_add s (ext (fs_ext s)) 1
    | FAddC i c => fs_add s (N.lxor (fst (W i)) c, snd (W i)) 0
    | FMul i j => fs_mul s (W i) (W j)
    | FMul3 i j k => fs_chain s [W i; W j; W k]
    | FMul4 i j k l => fs_chain s [W i; W j; W k; W l]
    | FMul5 i j k l m => fs_chain s [W i; W j; W k; W l; W m]
    end.
  Definition fs_init : fsst :=
    {| fs_w := []; fs_ext := 0; fs_corr := 0; fs_bits := 0; fs_buf := []; fs_vr := 0; fs_checks := [];
       fs_pbuf := []; fs_pchecks := [] |}.
  Definition fs_manage (s : fsst) : fsst :=
    {| fs_w := fs_w s; fs_ext := fs_ext s; fs_corr := fs_corr s; fs_bits := fs_bits s;
       fs_buf := fs_buf s; fs_vr := fs_vr s; fs_checks := fs_checks s ++ [fs_buf s];
       fs_pbuf := fs_pbuf s; fs_pchecks := fs_pchecks s |}.
  Definition fs_final (s : fsst) : fsst :=
    let s := fs_batch s in if Nat.eqb (length (fs_buf s)) 0 then s else fs_manage s.
  Definition fs_run (c : list fgate) : fsst := fold_left fs_step c fs_init.
  Definition fs_exec (c : list fgate) : fsst := fs_final (fs_run c).

  (** ** Projection on the commitments of the specification *)
  Definition ev (i : nat) : N := fst (ext i).
  Definition perr (e : pent) : nat * N := (p_deg e, p_err e).
  Record fproj (s : fsst) (c : fcst) : Prop := {
    fj_w : fc_w c = map fst (fs_w s); fj_e : fc_ext c = fs_ext s; fj_c : fc_corr c = fs_corr s;
    fj_b : fc_bits c = fs_bits s; fj_r : fc_errs c = map fgV (fs_buf s); fj_v : length (fc_done c) = fs_vr s;
    fj_d : fc_done c = map (map fgV) (fs_checks s);
    fj_p : fc_perrs c = map perr (fs_pbuf s); fj_q : fc_pdone c = map (map perr) (fs_pchecks s) }.
  Lemma fval_pw ws i : fval (map fst ws) i = fst (pw ws i).
  Proof. unfold fval, pw. change 0%N with (fst (0%N, 0%N)) at 1. apply map_nth. Qed.
  Lemma belem_val b : fst (belem b) = fc_bitval bM bitmsg b.
  Proof. unfold belem, fc_bitval. cbn [fst]. rewrite map_map, used_map, used_seq. reflexivity. Qed.
  Lemma fproj_step s c g : fproj s c -> fproj (fs_step s g) (fc_step ev voleV bM bufsz polysz corr bitmsg c g).
  Proof.
    intros [].
    assert (CH : forall fs n prod, p_err (fs, belem (fs_bits s)) = N.lxor prod (fc_bitval bM bitmsg (fs_bits s)) ->
              length fs = n ->
              fproj (fs_chain s fs) (fc_chain bM polysz bitmsg c n prod)).
    { intros fs n prod Ep En. unfold fs_chain, fc_chain, fs_batch. rewrite fj_p0, map_length, fj_b0.
      destruct (Nat.leb polysz (length (fs_pbuf s))); [destruct (Nat.eqb (length (fs_pbuf s)) 0) eqn:E0|];
        cbn [andb negb]; constructor; cbn [fc_w fs_w fc_ext fs_ext fc_corr fs_corr fc_bits fs_bits fc_errs fs_buf
          fc_done fs_vr fs_checks fc_perrs fs_pbuf fc_pdone fs_pchecks]; auto;
        try (now rewrite map_app, fj_w0; cbn [map]; rewrite belem_val);
        try (now rewrite fj_q0, map_app); unfold perr at 1; cbn [map app];
        rewrite ?map_app; cbn [map]; unfold perr, p_deg; cbn [fst snd]; rewrite Ep, En; try reflexivity. }
    destruct g as [|i k|i j|i j k|i j k l|i j k l m]; cbn [fs_step fc_step].
    - constructor; cbn; auto; try lia. rewrite map_app, fj_w0, fj_e0. reflexivity.
    - constructor; cbn; auto; try lia. rewrite map_app, fj_w0, fval_pw. reflexivity.
    - unfold fs_mul, fc_mul, fs_flush, fc_flush. rewrite fj_r0, map_length.
      destruct (Nat.eqb (length (fs_buf s)) bufsz).
      + constructor; cbn; auto.
        * rewrite map_app, fj_w0, app_length, fj_v0, fj_c0. cbn. now rewrite Nat.add_1_r.
        * rewrite app_length, fj_v0, fj_c0, fj_w0, !fval_pw. cbn. now rewrite Nat.add_1_r.
        * rewrite app_length, fj_v0. cbn. lia.
        * now rewrite map_app, fj_d0.
      + constructor; cbn; auto.
        * rewrite map_app, fj_w0, fj_v0, fj_c0, fj_r0, map_length. reflexivity.
        * rewrite fj_v0, fj_c0, fj_w0, fj_r0, map_length, !fval_pw, map_app. reflexivity.
    - rewrite fj_w0, !fval_pw. apply CH; [|reflexivity]. unfold p_err. cbn [fst snd]. now rewrite belem_val.
    - rewrite fj_w0, !fval_pw. apply CH; [|reflexivity]. unfold p_err. cbn [fst snd]. now rewrite belem_val.
    - rewrite fj_w0, !fval_pw. apply CH; [|reflexivity]. unfold p_err. cbn [fst snd]. now rewrite belem_val.
  Qed.
  Lemma fproj_run c : fproj (fs_run c) (fcommit ev voleV bM bufsz polysz corr bitmsg c).
  Proof.
    unfold fs_run, fcommit. induction c as [|g c IH] using rev_ind; [now constructor|].
    rewrite !fold_left_app. cbn [fold_left]. now apply fproj_step.
  Qed.
  Lemma fproj_exec c : let cm := fcommit ev voleV bM bufsz polysz corr bitmsg c in
    fbatches cm = map (map fgV) (fs_checks (fs_exec c)) /\
    pbatches cm = map (map perr) (fs_pchecks (fs_exec c)) /\
    fc_w cm = map fst (fs_w (fs_exec c)).
  Proof.
    cbv zeta. destruct (fproj_run c). unfold fs_exec, fs_final, fs_batch, fbatches, pbatches.
    set (s := fs_run c) in *. rewrite fj_r0, fj_d0, fj_p0, fj_q0, fj_w0.
    destruct (fs_pbuf s) as [|e l] eqn:Ep; cbn [length Nat.eqb fs_buf fs_pchecks fs_w];
      destruct (fs_buf s) as [|b l'] eqn:Eb; cbn [length Nat.eqb fs_manage fs_checks fs_pchecks fs_w fs_buf map];
      rewrite ?app_nil_r, ?map_app, ?Eb; auto.
  Qed.
  (** structural facts about the shadow *)
  Definition fs_wf (s : fsst) : Prop :=
    length (fs_buf s) <= bufsz /\ Forall (fun b => length b = bufsz) (fs_checks s) /\
    length (fs_checks s) = fs_vr s /\
    Forall p_ok (fs_pbuf s) /\ Forall (Forall p_ok) (fs_pchecks s).
  Hypothesis Hb : 1 <= bufsz.
  Lemma fs_wf_step s g : fs_wf s -> fs_wf (fs_step s g).
  Proof.
    intros (A & B & C & D & E).
    assert (CH : forall fs, p_ok (fs, belem (fs_bits s)) -> fs_wf (fs_chain s fs)).
    { intros fs Hp. unfold fs_chain, fs_batch, fs_wf.
      destruct (Nat.leb polysz (length (fs_pbuf s))); [destruct (Nat.eqb (length (fs_pbuf s)) 0)|];
        cbn; repeat split; auto; try (apply Forall_app; auto). }
    destruct g as [|i k|i j|i j k|i j k l|i j k l m]; cbn [fs_step].
    - repeat split; auto.
    - repeat split; auto.
    - unfold fs_mul, fs_flush, fs_wf. destruct (Nat.eqb_spec (length (fs_buf s)) bufsz) as [Ez|Ez]; cbn;
        rewrite ?app_length; cbn; repeat split; auto; try lia; try (apply Forall_app; auto).
    - apply CH. unfold p_ok, p_deg. cbn. auto.
    - apply CH. unfold p_ok, p_deg. cbn. auto.
    - apply CH. unfold p_ok, p_deg. cbn. auto.
  Qed.
  Lemma fs_wf_run c : fs_wf (fs_run c).
  Proof.
    unfold fs_run. induction c as [|g c IH] using rev_ind; [repeat split; cbn; auto; lia|].
    rewrite fold_left_app. now apply fs_wf_step.
  Qed.
  Lemma fs_exec_pok c : Forall (Forall p_ok) (fs_pchecks (fs_exec c)).
  Proof.
    destruct (fs_wf_run c) as (_ & _ & _ & D & E). unfold fs_exec, fs_final, fs_batch.
    destruct (Nat.eqb (length (fs_pbuf (fs_run c))) 0); cbn;
      destruct (Nat.eqb (length (fs_buf (fs_run c))) 0); cbn; auto; apply Forall_app; auto.
  Qed.
End Shadow.
