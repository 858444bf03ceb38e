(** Proofs for the composition of engines and generators. *)
From Coq Require Import NArith ZArith List Bool Arith Lia.
From Verif Require Import Word FpModel ArithModel ArithSpec PoolModel PoolSpec PoolProofs EndModel BoolModel F2kModel F2kSpec F2kAlg.
Import ListNotations.

(** * The stream of single hand-outs *)
Section Stream.
  Context {A : Type}.
  Variable item : nat -> nat -> A.
  Variables (M L : nat).
  Hypothesis HM : 1 <= M.
  Hypothesis HML : M <= L.
  Variables (garbage : arr A) (bufs : nat -> arr A).
  Notation after := (pool_after item (L + M) M garbage bufs).
  Notation next := (pool_next item (L + M) M garbage bufs).

  Lemma after_rep i : exists outs s, rep item L (after i) s /\ length outs = i /\
    outs ++ fst s = runs_tags L 0 (snd s).
  Proof.
    induction i as [|i (outs & s & R & E1 & E2)].
    - exists [], ([], 0). split; [apply (rep_init item M L HM HML)|]. split; reflexivity.
    - cbn [pool_after]. destruct (extend item (L + M) M 1 (after i) (bufs i)) as [st' d'] eqn:E.
      destruct (extend_served item M L HM HML 1 _ _ _ _ _ R E) as (out & s' & (c & S1 & S2 & S3 & _) & R' & _).
      exists (outs ++ out), s'. split; [exact R'|]. split; [rewrite app_length; lia|].
      rewrite <- app_assoc, S3, app_assoc, E2, S1. unfold runs_tags. now rewrite <- flat_map_app, <- seq_app.
  Qed.
  Lemma next_item i : next i = item (i / L) (i mod L).
  Proof.
    destruct (after_rep i) as (outs & s & R & E1 & E2). unfold pool_next.
    destruct (extend item (L + M) M 1 (after i) (bufs i)) as [st' d'] eqn:E. cbn [snd].
    destruct (extend_served item M L HM HML 1 _ _ _ _ _ R E) as (out & s' & (c & S1 & S2 & S3 & _) & R' & V & _).
    rewrite (V 0) by lia. destruct out as [|t [|? ?]]; try (cbn in S2; lia). cbn [nth].
    assert (X : nth i (runs_tags L 0 (snd s')) (0, 0) = t).
    { assert (Y : (outs ++ [t]) ++ fst s' = runs_tags L 0 (snd s')).
      { rewrite <- app_assoc, S3, app_assoc, E2, S1. unfold runs_tags. now rewrite <- flat_map_app, <- seq_app. }
      rewrite <- Y, app_nth1 by (rewrite app_length; cbn; lia). rewrite app_nth2 by lia. now rewrite E1, Nat.sub_diag. }
    rewrite (runs_nth M L HM HML) in X; [now subst t|].
    assert (Y : length ((outs ++ [t]) ++ fst s') = length (runs_tags L 0 (snd s'))).
    { rewrite <- app_assoc, S3, app_assoc, E2, S1. unfold runs_tags. now rewrite <- flat_map_app, <- seq_app. }
    rewrite runs_len in Y. rewrite !app_length in Y. cbn in Y. lia.
  Qed.
  (** requests of any sizes: consecutive pieces of the same stream *)
  Lemma chunks_ok : forall ks st s bf, rep item L st s ->
    exists outs st' s', run_session item (L + M) M (map Take ks) st bf = Some (map (map (val item)) outs, st') /\
      rep item L st' s' /\ map (@length tag) outs = ks /\ snd s <= snd s' /\
      concat outs ++ fst s' = fst s ++ runs_tags L (snd s) (snd s' - snd s).
  Proof.
    induction ks as [|k ks IH]; intros st s bf R.
    - exists [], st, s. cbn. rewrite Nat.sub_diag. cbn. rewrite app_nil_r. repeat split; auto; apply R.
    - cbn [map run_session]. destruct (extend item (L + M) M (Z.of_nat k) st (bf 0)) as [st1 d1] eqn:E.
      destruct (extend_served item M L HM HML _ _ _ _ _ _ R E) as (out & s1 & (c & S1 & S2 & S3 & _) & R1 & V & _).
      destruct (IH st1 s1 (fun i => bf (S i)) R1) as (outs & st' & s' & E' & R' & L2 & L1 & P).
      exists (out :: outs), st', s'. rewrite E'. split; [cbn [map]; now rewrite (map_vals item d1 out k S2 V)|].
      split; [exact R'|]. split; [cbn; now rewrite S2, L2|]. split; [lia|].
      cbn [concat]. rewrite <- app_assoc, P, app_assoc, S3, <- app_assoc. f_equal.
      unfold runs_tags. rewrite S1, <- flat_map_app, <- seq_app. now replace (c + (snd s' - (snd s + c))) with (snd s' - snd s) by lia.
  Qed.
  Lemma chunks_stream ks bf : exists outs st',
    run_session item (L + M) M (map Take ks) (pool_init (L + M) M garbage) bf = Some (outs, st') /\
    map (@length A) outs = ks /\ concat outs = map next (seq 0 (fold_right Nat.add 0 ks)).
  Proof.
    destruct (chunks_ok ks _ ([], 0) bf (rep_init item M L HM HML garbage)) as (outs & st' & s' & E & _ & L2 & _ & P).
    exists (map (map (val item)) outs), st'. split; [exact E|].
    split; [rewrite map_map, <- L2; apply map_ext; intro; apply map_length|].
    cbn [fst snd app] in P. rewrite Nat.sub_0_r in P. rewrite <- concat_map.
    assert (Len : length (concat outs) = fold_right Nat.add 0 ks).
    { rewrite <- L2. clear. induction outs as [|o outs IH]; [reflexivity|]. cbn. now rewrite app_length, IH. }
    apply nth_ext with (d := val item (0, 0)) (d' := next 0); [now rewrite !map_length, seq_length|].
    intros i Hi. rewrite map_length in Hi. rewrite !map_nth, seq_nth by lia. cbn [Nat.add]. rewrite next_item.
    assert (X : nth i (concat outs) (0, 0) = (i / L, i mod L)).
    { rewrite <- (app_nth1 (concat outs) (fst s') (0, 0) Hi), P. apply (runs_nth M L HM HML).
      rewrite <- (runs_len L (snd s') 0), <- P, app_length. lia. }
    unfold val. now rewrite X.
  Qed.
End Stream.

(** * The arithmetic engine only depends on the values of the correlations *)
Section PExt.
  Variables (pub_mac : N) (pV pV' : nat -> N) (threads csz psz : nat) (seeds : nat -> nat -> N) (pseeds : nat -> N).
  Hypothesis E : forall i, pV i = pV' i.
  Lemma ap_manage_ext s : ap_manage pV threads seeds s = ap_manage pV' threads seeds s.
  Proof. unfold ap_manage. now rewrite E. Qed.
  Lemma ap_batch_ext s : ap_batch pV pseeds s = ap_batch pV' pseeds s.
  Proof. unfold ap_batch. destruct (ap_poly s); [reflexivity|]. now rewrite E. Qed.
  Lemma ap_step_ext s g : ap_step pub_mac pV threads csz psz seeds pseeds s g = ap_step pub_mac pV' threads csz psz seeds pseeds s g.
  Proof.
    destruct g; cbn [ap_step]; rewrite ?E; try reflexivity.
    - unfold ap_precheck. rewrite ap_manage_ext. destruct (Nat.eqb (length (ap_buf s)) csz); [destruct (ap_manage pV' threads seeds s)|]; rewrite ?E; reflexivity.
    - unfold ap_queue. now rewrite ap_batch_ext.
    - unfold ap_queue. now rewrite ap_batch_ext.
  Qed.
  Lemma ap_run_ext c : forall s, ap_run pub_mac pV threads csz psz seeds pseeds s c = ap_run pub_mac pV' threads csz psz seeds pseeds s c.
  Proof.
    induction c as [|g c IH]; intros s; [reflexivity|]. cbn [ap_run]. rewrite ap_step_ext.
    destruct (ap_step pub_mac pV' threads csz psz seeds pseeds s g); [apply IH|reflexivity].
  Qed.
  Lemma ap_exec_ext c : ap_exec pub_mac pV threads csz psz seeds pseeds c = ap_exec pub_mac pV' threads csz psz seeds pseeds c.
  Proof.
    unfold ap_exec. rewrite ap_run_ext. destruct (ap_run pub_mac pV' threads csz psz seeds pseeds ap_init c) as [s|]; [|reflexivity].
    unfold ap_final. rewrite ap_batch_ext. destruct (ap_buf (ap_batch pV' pseeds s)); [reflexivity|]. apply ap_manage_ext.
  Qed.
End PExt.
Section VExt.
  Variables (pub_mac : N) (vK vK' : nat -> N) (d : N) (threads csz psz : nat) (seeds : nat -> nat -> N) (pseeds : nat -> N).
  Variables (words : nat -> N) (cm pm : nat -> N * N).
  Hypothesis E : forall i, vK i = vK' i.
  Lemma av_manage_ext s : av_manage vK d threads seeds cm s = av_manage vK' d threads seeds cm s.
  Proof. unfold av_manage. now rewrite E. Qed.
  Lemma av_batch_ext s : av_batch vK d pseeds pm s = av_batch vK' d pseeds pm s.
  Proof. unfold av_batch. destruct (av_poly s); [reflexivity|]. now rewrite E. Qed.
  Lemma av_step_ext s g : av_step pub_mac vK d threads csz psz seeds pseeds words cm pm s g =
    av_step pub_mac vK' d threads csz psz seeds pseeds words cm pm s g.
  Proof.
    destruct g; cbn [av_step]; rewrite ?E; try reflexivity.
    - unfold av_precheck. rewrite av_manage_ext. destruct (Nat.eqb (length (av_buf s)) csz); [destruct (av_manage vK' d threads seeds cm s)|]; rewrite ?E; reflexivity.
    - unfold av_queue. now rewrite av_batch_ext.
    - unfold av_queue. now rewrite av_batch_ext.
  Qed.
  Lemma av_run_ext c : forall s, av_run pub_mac vK d threads csz psz seeds pseeds words cm pm s c =
    av_run pub_mac vK' d threads csz psz seeds pseeds words cm pm s c.
  Proof.
    induction c as [|g c IH]; intros s; [reflexivity|]. cbn [av_run]. rewrite av_step_ext.
    destruct (av_step pub_mac vK' d threads csz psz seeds pseeds words cm pm s g); [apply IH|reflexivity].
  Qed.
  Lemma av_exec_ext c : av_exec pub_mac vK d threads csz psz seeds pseeds words cm pm c =
    av_exec pub_mac vK' d threads csz psz seeds pseeds words cm pm c.
  Proof.
    unfold av_exec. rewrite av_run_ext. destruct (av_run pub_mac vK' d threads csz psz seeds pseeds words cm pm av_init c) as [s|]; [|reflexivity].
    unfold av_final. rewrite av_batch_ext. destruct (av_buf (av_batch vK' d pseeds pm s)); [reflexivity|]. apply av_manage_ext.
  Qed.
End VExt.

(** * The GF(2^128) verifier only looks at the first [bufsz] entries of each refill *)
Section FExt.
  Variables (extk : nat -> N) (vK vK' : nat -> nat -> N) (bK oK : nat -> N) (d : N).
  Variables (threads bufsz polysz : nat) (seeds : nat -> nat -> N) (pseeds : nat -> N) (junk : nat -> nat -> N).
  Variables (corr : nat -> N) (bitmsg : nat -> bool) (chkmsg : nat -> N * N) (polymsg : nat -> row5).
  Hypothesis Ht : 1 <= threads.
  Hypothesis Hb : 1 <= bufsz.
  Hypothesis E : forall r i, i < bufsz -> vK r i = vK' r i.
  Definition same (s s' : fvst) : Prop :=
    fv_acnt s <= bufsz /\ (forall i, i < bufsz -> fv_amac s i = fv_amac s' i) /\
    s' = {| fv_w := fv_w s; fv_ext := fv_ext s; fv_amac := fv_amac s'; fv_acnt := fv_acnt s;
       fv_refills := fv_refills s; fv_lm := fv_lm s; fv_rm := fv_rm s; fv_ccnt := fv_ccnt s;
       fv_ocnt := fv_ocnt s; fv_bcnt := fv_bcnt s; fv_poly := fv_poly s; fv_corr := fv_corr s;
       fv_bits := fv_bits s; fv_chk := fv_chk s; fv_pchk := fv_pchk s;
       fv_printed := fv_printed s; fv_cheat := fv_cheat s |}.
  Lemma B_star_ext lm rm om om' cnt seed jk ope : (forall i, i < cnt -> om i = om' i) ->
    fv_B_star d lm rm om (f_ranges threads cnt) seed jk ope = fv_B_star d lm rm om' (f_ranges threads cnt) seed jk ope.
  Proof.
    intro H. unfold fv_B_star. generalize (packing ope).
    assert (X : forall i r, In (i, r) (combine (seq 0 (length (f_ranges threads cnt))) (f_ranges threads cnt)) ->
      fv_range d lm rm om (fst r) (snd r) (seed i) (jk i) = fv_range d lm rm om' (fst r) (snd r) (seed i) (jk i)).
    { intros i [s n] Hin. apply in_combine_r in Hin. apply f_ranges_in_bounds in Hin; [|exact Ht].
      cbn [fst snd]. unfold fv_range. destruct (Nat.eqb n 0); [reflexivity|]. f_equal. apply map_ext_in.
      intros k Hk. apply in_seq in Hk. unfold fv_term. now rewrite H by lia. }
    revert X. generalize (combine (seq 0 (length (f_ranges threads cnt))) (f_ranges threads cnt)).
    induction l as [|[i r] l IH]; intros X a; [reflexivity|]. cbn [fold_left fst snd].
    rewrite (X i r) by now left. apply IH. intros. apply X. now right.
  Qed.
  Lemma same_manage s s' : same s s' ->
    same (fv_manage oK d threads seeds junk chkmsg s) (fv_manage oK d threads seeds junk chkmsg s').
  Proof.
    intros (H1 & H2 & H3). unfold fv_manage.
    assert (X : fv_B_star d (fv_lm s) (fv_rm s) (fun i => fv_amac s (fv_acnt s + i - fv_ccnt s)) (f_ranges threads (fv_ccnt s))
              (seeds (fv_chk s)) (junk (fv_chk s)) (map oK (seq (fv_ocnt s) 128)) =
            fv_B_star d (fv_lm s) (fv_rm s) (fun i => fv_amac s' (fv_acnt s + i - fv_ccnt s)) (f_ranges threads (fv_ccnt s))
              (seeds (fv_chk s)) (junk (fv_chk s)) (map oK (seq (fv_ocnt s) 128))).
    { apply B_star_ext. intros i Hi. apply H2. lia. }
    rewrite H3. cbn [fv_w fv_ext fv_amac fv_acnt fv_refills fv_lm fv_rm fv_ccnt fv_ocnt fv_bcnt fv_poly fv_corr fv_bits fv_chk fv_pchk fv_printed fv_cheat].
    rewrite X. split; [exact H1|]. split; [exact H2|reflexivity].
  Qed.
  Lemma same_pre s s' : same s s' ->
    same (fv_pre vK oK d threads bufsz seeds junk chkmsg s) (fv_pre vK' oK d threads bufsz seeds junk chkmsg s').
  Proof.
    intro S0. unfold fv_pre.
    assert (S1 : same (if Nat.eqb (fv_ccnt s) bufsz then fv_clear (fv_manage oK d threads seeds junk chkmsg s) else s)
                      (if Nat.eqb (fv_ccnt s') bufsz then fv_clear (fv_manage oK d threads seeds junk chkmsg s') else s')).
    { assert (X : fv_ccnt s' = fv_ccnt s) by (destruct S0 as (_ & _ & ->); reflexivity). rewrite X.
      destruct (Nat.eqb (fv_ccnt s) bufsz); [|exact S0]. apply same_manage in S0.
      revert S0. generalize (fv_manage oK d threads seeds junk chkmsg s) (fv_manage oK d threads seeds junk chkmsg s').
      intros a a' (H1 & H2 & H3). rewrite H3. split; [exact H1|]. split; [exact H2|reflexivity]. }
    revert S1. generalize (if Nat.eqb (fv_ccnt s) bufsz then fv_clear (fv_manage oK d threads seeds junk chkmsg s) else s)
      (if Nat.eqb (fv_ccnt s') bufsz then fv_clear (fv_manage oK d threads seeds junk chkmsg s') else s').
    intros a a' S1. assert (X : fv_acnt a' = fv_acnt a) by (destruct S1 as (_ & _ & ->); reflexivity). rewrite X.
    destruct (Nat.eqb (fv_acnt a) bufsz); [|exact S1]. destruct S1 as (H1 & H2 & H3). rewrite H3.
    split; [cbn; lia|]. split; [cbn; intros i Hi; now apply E|reflexivity].
  Qed.
  Lemma pre_acnt s : fv_acnt s <= bufsz -> fv_acnt (fv_pre vK oK d threads bufsz seeds junk chkmsg s) < bufsz.
  Proof.
    intro H. unfold fv_pre.
    assert (X : fv_acnt (if Nat.eqb (fv_ccnt s) bufsz then fv_clear (fv_manage oK d threads seeds junk chkmsg s) else s) = fv_acnt s)
      by (destruct (Nat.eqb (fv_ccnt s) bufsz); reflexivity).
    destruct (Nat.eqb_spec (fv_acnt (if Nat.eqb (fv_ccnt s) bufsz then fv_clear (fv_manage oK d threads seeds junk chkmsg s) else s)) bufsz) as [Y|Y].
    - cbn. lia.
    - rewrite X in *. lia.
  Qed.
  Lemma same_batch s s' : same s s' ->
    match fv_batch d pseeds polymsg s, fv_batch d pseeds polymsg s' with
    | Some a, Some a' => same a a' | None, None => True | _, _ => False end.
  Proof.
    intros (H1 & H2 & H3). rewrite H3. unfold fv_batch.
    cbn [fv_w fv_ext fv_amac fv_acnt fv_refills fv_lm fv_rm fv_ccnt fv_ocnt fv_bcnt fv_poly fv_corr fv_bits fv_chk fv_pchk fv_printed fv_cheat].
    destruct (Nat.eqb (length (fv_poly s)) 0); [split; [exact H1|split; [exact H2|reflexivity]]|].
    destruct (ver_poly_accept d (fv_poly s) (pseeds (fv_pchk s)) (polymsg (fv_pchk s))); [|exact I].
    split; [exact H1|split; [exact H2|reflexivity]].
  Qed.
  Lemma same_chain s s' row : same s s' ->
    match fv_chain bK d polysz pseeds bitmsg polymsg s row, fv_chain bK d polysz pseeds bitmsg polymsg s' row with
    | Some a, Some a' => same a a' | None, None => True | _, _ => False end.
  Proof.
    intro S0. unfold fv_chain. pose proof (same_batch s s' S0) as S1.
    assert (X : fv_poly s' = fv_poly s /\ fv_bcnt s' = fv_bcnt s /\ fv_bits s' = fv_bits s) by (destruct S0 as (_ & _ & ->); repeat split; reflexivity).
    destruct X as (-> & -> & ->).
    assert (S2 : match (if Nat.leb polysz (length (fv_poly s)) then fv_batch d pseeds polymsg s else Some s),
                       (if Nat.leb polysz (length (fv_poly s)) then fv_batch d pseeds polymsg s' else Some s') with
                 | Some a, Some a' => same a a' | None, None => True | _, _ => False end)
      by (destruct (Nat.leb polysz (length (fv_poly s))); [exact S1|exact S0]).
    destruct (if Nat.leb polysz (length (fv_poly s)) then fv_batch d pseeds polymsg s else Some s) as [a|],
             (if Nat.leb polysz (length (fv_poly s)) then fv_batch d pseeds polymsg s' else Some s') as [a'|]; try exact S2.
    destruct S2 as (H1 & H2 & H3). rewrite H3. split; [exact H1|split; [exact H2|reflexivity]].
  Qed.
  Lemma same_mul s s' a b : same s s' ->
    same (fv_mul vK oK d threads bufsz seeds junk corr chkmsg s a b) (fv_mul vK' oK d threads bufsz seeds junk corr chkmsg s' a b).
  Proof.
    intro S0. pose proof (pre_acnt s (proj1 S0)) as Hlt. apply same_pre in S0. unfold fv_mul. cbv zeta.
    revert Hlt S0. generalize (fv_pre vK oK d threads bufsz seeds junk chkmsg s) (fv_pre vK' oK d threads bufsz seeds junk chkmsg s').
    intros t t' Hlt (H1 & H2 & H3). rewrite H3.
    unfold same. cbn [fv_w fv_ext fv_amac fv_acnt fv_refills fv_lm fv_rm fv_ccnt fv_ocnt fv_bcnt fv_poly fv_corr fv_bits fv_chk fv_pchk fv_printed fv_cheat].
    split; [lia|]. split.
    - intros i Hi. unfold aupd. destruct (Nat.eqb i (fv_acnt t)); [|now apply H2]. now rewrite (H2 _ Hlt).
    - f_equal. unfold aupd. rewrite Nat.eqb_refl. now rewrite (H2 _ Hlt).
  Qed.
  Lemma same_add s s' w e : same s s' -> same (fv_add s w e) (fv_add s' w e).
  Proof. intros (H1 & H2 & H3). rewrite H3. split; [exact H1|split; [exact H2|reflexivity]]. Qed.
  Lemma same_step s s' g : same s s' ->
    match fv_step extk vK bK oK d threads bufsz polysz seeds pseeds junk corr bitmsg chkmsg polymsg s g,
          fv_step extk vK' bK oK d threads bufsz polysz seeds pseeds junk corr bitmsg chkmsg polymsg s' g with
    | Some a, Some a' => same a a' | None, None => True | _, _ => False end.
  Proof.
    intro S0. assert (X : fv_w s' = fv_w s /\ fv_ext s' = fv_ext s) by (destruct S0 as (_ & _ & ->); split; reflexivity).
    destruct X as [Xw Xe]. destruct g; cbn [fv_step]; rewrite ?Xw, ?Xe; try (now apply same_add); try (now apply same_chain). now apply same_mul.
  Qed.
  Lemma same_run c : forall s s', same s s' ->
    match fv_run extk vK bK oK d threads bufsz polysz seeds pseeds junk corr bitmsg chkmsg polymsg s c,
          fv_run extk vK' bK oK d threads bufsz polysz seeds pseeds junk corr bitmsg chkmsg polymsg s' c with
    | Some a, Some a' => same a a' | None, None => True | _, _ => False end.
  Proof.
    induction c as [|g c IH]; intros s s' S0; [exact S0|]. cbn [fv_run]. pose proof (same_step s s' g S0) as S1.
    destruct (fv_step extk vK bK oK d threads bufsz polysz seeds pseeds junk corr bitmsg chkmsg polymsg s g),
      (fv_step extk vK' bK oK d threads bufsz polysz seeds pseeds junk corr bitmsg chkmsg polymsg s' g); try easy. now apply IH.
  Qed.
  Lemma fv_exec_ext g1 g2 c :
    match fv_exec extk vK bK oK d threads bufsz polysz seeds pseeds junk corr bitmsg chkmsg polymsg g1 g2 c,
          fv_exec extk vK' bK oK d threads bufsz polysz seeds pseeds junk corr bitmsg chkmsg polymsg g1 g2 c with
    | Some a, Some a' => same a a' | None, None => True | _, _ => False end.
  Proof.
    unfold fv_exec. assert (S0 : same (fv_init vK g1 g2) (fv_init vK' g1 g2)).
    { split; [cbn; lia|]. split; [intros i Hi; cbn; now apply E|reflexivity]. }
    apply (same_run c) in S0.
    destruct (fv_run extk vK bK oK d threads bufsz polysz seeds pseeds junk corr bitmsg chkmsg polymsg (fv_init vK g1 g2) c) as [a|],
      (fv_run extk vK' bK oK d threads bufsz polysz seeds pseeds junk corr bitmsg chkmsg polymsg (fv_init vK' g1 g2) c) as [a'|]; try easy.
    unfold fv_final. apply same_batch in S0. destruct (fv_batch d pseeds polymsg a) as [b|], (fv_batch d pseeds polymsg a') as [b'|]; try easy.
    assert (X : fv_ccnt b' = fv_ccnt b) by (destruct S0 as (_ & _ & ->); reflexivity). rewrite X.
    destruct (Nat.eqb (fv_ccnt b) 0); [exact S0|now apply same_manage].
  Qed.
End FExt.
