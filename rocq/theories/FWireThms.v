(** Sessions of the GF(2^128) engine over the channel: honest parties, and a prover that sends given messages. *)
From Coq Require Import NArith List Bool Arith Lia.
From Verif Require Import Word WordProofs GF128 GF128Ring BoolModel BoolSpec BoolProofs BoolAlg BoolIOModel BoolIOSpec BoolIOThms F2kModel F2kSpec F2kAlg F2kProofs F2kSim F2kThms HideProofs WireModel WireNet WireProofs FWireModel FWireProofs FWireFollow FWirePrv.
Import ListNotations.

(** * The prover's bits do not depend on the challenges *)
Definition strip (s : fpst) : fpst :=
  {| fp_w := fp_w s; fp_ext := fp_ext s; fp_aval := fp_aval s; fp_amac := fp_amac s;
     fp_acnt := fp_acnt s; fp_refills := fp_refills s;
     fp_lv := fp_lv s; fp_lm := fp_lm s; fp_rv := fp_rv s; fp_rm := fp_rm s; fp_ccnt := fp_ccnt s;
     fp_ocnt := fp_ocnt s; fp_bcnt := fp_bcnt s; fp_poly := fp_poly s;
     fp_corr := fp_corr s; fp_bits := fp_bits s; fp_msgs := []; fp_pmsgs := [] |}.
Section Strip.
  Variables (ext : nat -> fwire) (voleV voleM : nat -> nat -> N) (bM oM : nat -> N) (threads bufsz polysz : nat) (junk : nat -> nat -> N * N).
  Variables (sd sd' : nat -> nat -> N) (pd pd' : nat -> N).
  Lemma strip_manage s : strip (fp_manage oM threads sd junk s) = strip (fp_manage oM threads sd' junk (strip s)).
  Proof. reflexivity. Qed.
  Lemma strip_batch s : strip (fp_batch pd s) = strip (fp_batch pd' (strip s)).
  Proof. unfold fp_batch. cbn [fp_poly strip]. destruct (Nat.eqb (length (fp_poly s)) 0); reflexivity. Qed.
  Lemma strip_pre s : strip (fp_pre voleV voleM oM threads bufsz sd junk s) = strip (fp_pre voleV voleM oM threads bufsz sd' junk (strip s)).
  Proof.
    unfold fp_pre. cbn [fp_ccnt strip]. destruct (Nat.eqb (fp_ccnt s) bufsz).
    - cbn [fp_acnt fp_clear fp_manage strip]. destruct (Nat.eqb (fp_acnt s) bufsz); reflexivity.
    - cbn [fp_acnt strip]. destruct (Nat.eqb (fp_acnt s) bufsz); reflexivity.
  Qed.
  Definition mul_core (s : fpst) (a b : fwire) : fpst :=
    let valc := gfmul (fst a) (fst b) in
    {| fp_w := fp_w s ++ [(valc, fp_amac s (fp_acnt s))]; fp_ext := fp_ext s;
       fp_aval := aupd (fp_aval s) (fp_acnt s) valc; fp_amac := fp_amac s;
       fp_acnt := S (fp_acnt s); fp_refills := fp_refills s;
       fp_lv := aupd (fp_lv s) (fp_ccnt s) (fst a); fp_lm := aupd (fp_lm s) (fp_ccnt s) (snd a);
       fp_rv := aupd (fp_rv s) (fp_ccnt s) (fst b); fp_rm := aupd (fp_rm s) (fp_ccnt s) (snd b);
       fp_ccnt := S (fp_ccnt s); fp_ocnt := fp_ocnt s; fp_bcnt := fp_bcnt s; fp_poly := fp_poly s;
       fp_corr := fp_corr s ++ [N.lxor valc (fp_aval s (fp_acnt s))]; fp_bits := fp_bits s; fp_msgs := []; fp_pmsgs := [] |}.
  Lemma strip_mul s a b : strip (fp_mul voleV voleM oM threads bufsz sd junk s a b) = strip (fp_mul voleV voleM oM threads bufsz sd' junk (strip s) a b).
  Proof.
    transitivity (mul_core (strip (fp_pre voleV voleM oM threads bufsz sd junk s)) a b); [reflexivity|]. rewrite strip_pre. reflexivity.
  Qed.
  Definition chain_core (s : fpst) (v m : N) (bits : list bool) (row : N -> row5) : fpst :=
    {| fp_w := fp_w s ++ [(v, m)]; fp_ext := fp_ext s; fp_aval := fp_aval s; fp_amac := fp_amac s;
       fp_acnt := fp_acnt s; fp_refills := fp_refills s;
       fp_lv := fp_lv s; fp_lm := fp_lm s; fp_rv := fp_rv s; fp_rm := fp_rm s; fp_ccnt := fp_ccnt s;
       fp_ocnt := fp_ocnt s; fp_bcnt := fp_bcnt s + 130; fp_poly := fp_poly s ++ [row m];
       fp_corr := fp_corr s; fp_bits := fp_bits s ++ bits; fp_msgs := []; fp_pmsgs := [] |}.
  Lemma strip_chain s v row : strip (fp_chain bM polysz pd s v row) = strip (fp_chain bM polysz pd' (strip s) v row).
  Proof.
    set (ls := map (fun ix => prv_input (bM (fp_bcnt s + fst ix)) (snd ix)) (combine (seq 0 130) (in_bits v))).
    transitivity (chain_core (strip (if Nat.leb polysz (length (fp_poly s)) then fp_batch pd s else s)) v (pack130 (map fst ls)) (map snd ls) row); [reflexivity|].
    replace (strip (if Nat.leb polysz (length (fp_poly s)) then fp_batch pd s else s)) with
            (strip (if Nat.leb polysz (length (fp_poly s)) then fp_batch pd' (strip s) else strip s)); [reflexivity|].
    destruct (Nat.leb polysz (length (fp_poly s))); [|reflexivity]. symmetry. apply strip_batch.
  Qed.
  Notation step := (fp_step ext voleV voleM bM oM threads bufsz polysz sd pd junk).
  Notation step' := (fp_step ext voleV voleM bM oM threads bufsz polysz sd' pd' junk).
  Lemma strip_step s g : strip (step s g) = strip (step' (strip s) g).
  Proof. destruct g; cbn [fp_step]; try apply strip_mul; try apply strip_chain; reflexivity. Qed.
End Strip.
Lemma strip_step2 ext voleV voleM bM oM threads bufsz polysz junk sd sd' pd pd' s s' g : strip s = strip s' ->
  strip (fp_step ext voleV voleM bM oM threads bufsz polysz sd pd junk s g) = strip (fp_step ext voleV voleM bM oM threads bufsz polysz sd' pd' junk s' g).
Proof.
  intro E. rewrite (strip_step _ _ _ _ _ _ _ _ _ sd sd' pd pd'), E. symmetry. apply strip_step.
Qed.
Lemma exec_bits ext voleV voleM bM oM threads bufsz polysz junk sd sd' pd pd' g1 g2 g3 g4 c :
  fp_bits (fp_exec ext voleV voleM bM oM threads bufsz polysz sd pd junk g1 g2 g3 g4 c) =
  fp_bits (fp_exec ext voleV voleM bM oM threads bufsz polysz sd' pd' junk g1 g2 g3 g4 c).
Proof.
  assert (F : forall s s', strip s = strip s' ->
    strip (fold_left (fp_step ext voleV voleM bM oM threads bufsz polysz sd pd junk) c s) = strip (fold_left (fp_step ext voleV voleM bM oM threads bufsz polysz sd' pd' junk) c s')).
  { induction c as [|g c IH]; intros s s' E; [exact E|]. cbn [fold_left]. apply IH. now apply strip_step2. }
  assert (Z : forall sd pd s, fp_bits (fp_final oM threads sd pd junk s) = fp_bits s).
  { intros. unfold fp_final, fp_batch. destruct (Nat.eqb (length (fp_poly s)) 0), (Nat.eqb _ 0); reflexivity. }
  unfold fp_exec. rewrite !Z. exact (f_equal fp_bits (F _ _ eq_refl)).
Qed.

(** * Messages are blocks *)
Section Blk.
  Variables (ext : nat -> fwire) (voleV voleM : nat -> nat -> N) (bM oM : nat -> N) (threads bufsz polysz : nat) (junk : nat -> nat -> N * N).
  Variables (seeds : nat -> nat -> N) (pseeds : nat -> N).
  Hypothesis HV : forall r i, blk (voleV r i).
  Hypothesis HJ : forall r i, blk2 (junk r i).
  Notation step := (fp_step ext voleV voleM bM oM threads bufsz polysz seeds pseeds junk).
  Lemma blk_xor a b : blk a -> blk b -> blk (N.lxor a b).
  Proof. apply lxor_lt. Qed.
  Definition okmsgs (s : fpst) : Prop :=
    (forall i, blk (fp_aval s i)) /\ Forall blk (fp_corr s) /\ Forall blk2 (fp_msgs s) /\ Forall blk5 (fp_pmsgs s).
  Lemma A_blk lv lm rv rm om rs sd jk ope : (forall i, blk2 (jk i)) -> length ope = 128 -> blk2 (fp_A_star lv lm rv rm om rs sd jk ope).
  Proof.
    intros Hj Hl. unfold fp_A_star. generalize (combine (seq 0 (length rs)) rs). intro l.
    assert (I : forall acc, blk2 acc -> blk2 (fold_left (fun acc ir =>
      let s := fp_range lv lm rv rm om (fst (snd ir)) (snd (snd ir)) (sd (fst ir)) (jk (fst ir)) in
      (N.lxor (fst acc) (fst s), N.lxor (snd acc) (snd s))) l acc)).
    { induction l as [|ir l IH]; intros acc Ha; [exact Ha|]. cbn [fold_left]. apply IH.
      assert (R : blk2 (fp_range lv lm rv rm om (fst (snd ir)) (snd (snd ir)) (sd (fst ir)) (jk (fst ir)))).
      { unfold fp_range. destruct (Nat.eqb _ 0); [apply Hj|]. split; apply inn_lt. }
      destruct Ha, R. split; cbn [fst snd]; apply blk_xor; assumption. }
    apply I. split; cbn [fst snd].
    - apply inn_lt.
    - unfold ch_bits. apply mkblock_lt; apply ch_word64; lia.
  Qed.
  Lemma ok_manage s : okmsgs s -> okmsgs (fp_manage oM threads seeds junk s).
  Proof.
    intros (A & B & C & D). unfold fp_manage. repeat split; cbn [fp_aval fp_corr fp_msgs fp_pmsgs]; auto.
    apply Forall_app. split; [exact C|]. constructor; [|constructor]. apply A_blk; [intro; apply HJ|]. now rewrite map_length, seq_length.
  Qed.
  Lemma sums_blk rows sd : blk5 (prv_poly_sums rows sd).
  Proof. repeat split; apply inn_lt. Qed.
  Lemma ok_batch s : okmsgs s -> okmsgs (fp_batch pseeds s).
  Proof.
    intros (A & B & C & D). unfold fp_batch. destruct (Nat.eqb _ 0); [now repeat split|].
    repeat split; cbn [fp_aval fp_corr fp_msgs fp_pmsgs]; auto.
    apply Forall_app. split; [exact D|]. constructor; [apply sums_blk|constructor].
  Qed.
  Lemma ok_pre s : okmsgs s -> okmsgs (fp_pre voleV voleM oM threads bufsz seeds junk s).
  Proof.
    intro H. unfold fp_pre.
    assert (K : okmsgs (if Nat.eqb (fp_ccnt s) bufsz then fp_clear (fp_manage oM threads seeds junk s) else s)).
    { destruct (Nat.eqb (fp_ccnt s) bufsz); [exact (ok_manage s H)|exact H]. }
    destruct (Nat.eqb (fp_acnt _) bufsz); [|exact K]. destruct K as (A & B & C & D).
    split; [intro i; apply HV|]. split; [exact B|]. split; [exact C|exact D].
  Qed.
  Lemma ok_mul s a b : okmsgs s -> okmsgs (fp_mul voleV voleM oM threads bufsz seeds junk s a b).
  Proof.
    intro H. apply ok_pre in H. destruct H as (A & B & C & D). unfold fp_mul. repeat split; cbn [fp_aval fp_corr fp_msgs fp_pmsgs]; auto.
    - intro i. unfold aupd. destruct (Nat.eqb _ _); [apply gfmul_lt|apply A].
    - apply Forall_app. split; [exact B|]. constructor; [|constructor]. apply blk_xor; [apply gfmul_lt|apply A].
  Qed.
  Lemma ok_chain s v row : okmsgs s -> okmsgs (fp_chain bM polysz pseeds s v row).
  Proof.
    intro H. assert (K : okmsgs (if Nat.leb polysz (length (fp_poly s)) then fp_batch pseeds s else s)).
    { destruct (Nat.leb _ _); [now apply ok_batch|exact H]. }
    unfold fp_chain. destruct K as (A & B & C & D). repeat split; cbn [fp_aval fp_corr fp_msgs fp_pmsgs]; auto.
  Qed.
  Lemma ok_step s g : okmsgs s -> okmsgs (step s g).
  Proof. intro H. destruct g; cbn [fp_step]; try (now apply ok_mul); try (now apply ok_chain); destruct H as (A & B & C & D); repeat split; assumption. Qed.
  Lemma ok_exec g1 g2 g3 g4 c : okmsgs (fp_exec ext voleV voleM bM oM threads bufsz polysz seeds pseeds junk g1 g2 g3 g4 c).
  Proof.
    unfold fp_exec. assert (F : forall s, okmsgs s -> okmsgs (fold_left step c s)).
    { induction c as [|g c' IH]; intros s H; [exact H|]. cbn [fold_left]. apply IH. now apply ok_step. }
    assert (I : okmsgs (fold_left step c (fp_init voleV voleM g1 g2 g3 g4))).
    { apply F. repeat split; try constructor. intro i. apply HV. }
    apply ok_batch in I. unfold fp_final. destruct (Nat.eqb _ 0); [exact I|now apply ok_manage].
  Qed.
End Blk.
Lemma nth_blk {A} (P : A -> Prop) l x : Forall P l -> P x -> forall i, P (nth i l x).
Proof.
  intros H Hx i. destruct (Nat.lt_ge_cases i (length l)) as [L|L]; [|now rewrite nth_overflow].
  rewrite Forall_forall in H. apply H. now apply nth_In.
Qed.

(** * The challenges of a session depend on the circuit and the bits only *)
Definition fdigests (bs reset : bool) (NB : nat) (gs : list bool) (bufsz polysz : nat) (c : list fgate) (bitmsg : nat -> bool) : list (list N) :=
  dgs bs reset NB gs (ops (fun _ => 0%N) bitmsg (fun _ => (0, 0)%N) (fun _ => (0, 0, 0, 0, 0)%N) (items bufsz polysz h_init c)).
Section Net.
  Variables (bs br reset : bool) (NB : nat) (gs gr : list bool).
  Variables (ext : nat -> fwire) (voleV voleM : nat -> nat -> N) (bM oM : nat -> N) (threads bufsz polysz : nat).
  Variables (G : list N -> nat -> N) (Gp : list N -> N).
  Hypothesis HNB : 1 <= NB.
  Hypothesis Hgs : length gs = NB.
  Hypothesis Hb : 1 <= bufsz.
  Variables (c : list fgate).
  Notation its := (items bufsz polysz h_init c).
  Notation dl bitmsg := (fdigests bs reset NB gs bufsz polysz c bitmsg).
  Definition fseeds (bitmsg : nat -> bool) (k : nat) : nat -> N := G (nth k (chkd its (dl bitmsg)) []).
  Definition fpseeds (bitmsg : nat -> bool) (k : nat) : N := Gp (nth k (polyd its (dl bitmsg)) []).
  Lemma dl_is corr bitmsg chkmsg polymsg : dgs bs reset NB gs (ops corr bitmsg chkmsg polymsg its) = dl bitmsg.
  Proof. apply dgs_shape; [apply ops_shape|apply ops_bits]. Qed.
  Lemma dl_len bitmsg : length (dl bitmsg) = nhash its.
  Proof. unfold fdigests. rewrite dgs_len. apply ops_nchal. Qed.
  Lemma dl_seeded bitmsg : seeded G Gp (fseeds bitmsg) (fpseeds bitmsg) its (dl bitmsg).
  Proof. apply (seeded_of G Gp _ _ its 0 0); [exact (counted_items bufsz polysz c h_init)|apply dl_len|reflexivity|reflexivity]. Qed.
  Definition vprog (junk : nat -> nat -> N) (h1 h2 : nat -> N) (d : N) : proc (option fvst) :=
    fver_prog (fun i => key_of d (ext i)) (fun r i => key_of d (voleV r i, voleM r i)) (cot_key bM d) (cot_key oM d) d
      threads bufsz polysz junk G Gp (fv_init (fun r i => key_of d (voleV r i, voleM r i)) h1 h2) c.
  Lemma ver_net junk corr bitmsg chkmsg polymsg h1 h2 d v :
    (forall i, blk (corr i)) -> (forall i, blk2 (chkmsg i)) -> (forall i, blk5 (polymsg i)) ->
    f_session ext voleV voleM bM oM threads bufsz polysz (fseeds bitmsg) (fpseeds bitmsg) junk corr bitmsg chkmsg polymsg h1 h2 c d = Some v ->
    follow false (vprog junk h1 h2 d) (compile (ops corr bitmsg chkmsg polymsg its ++ [OFlush])) (dl bitmsg) (Some v).
  Proof.
    intros H1 H2 H3 E. unfold vprog. eapply v_follow; eauto.
    - repeat split.
    - apply dl_seeded.
  Qed.
  (** whatever the messages are: the program that sends them gives the session with these challenges *)
  Theorem replay_net junk corr bitmsg chkmsg polymsg h1 h2 d v :
    (forall i, blk (corr i)) -> (forall i, blk2 (chkmsg i)) -> (forall i, blk5 (polymsg i)) ->
    f_session ext voleV voleM bM oM threads bufsz polysz (fseeds bitmsg) (fpseeds bitmsg) junk corr bitmsg chkmsg polymsg h1 h2 c d = Some v ->
    let os := ops corr bitmsg chkmsg polymsg its in
    forall k n, nsteps bs br reset NB k (n_init NB gs gr (replay (compile (os ++ [OFlush]))) (vprog junk h1 h2 d)) n ->
    k <= 2 * length (compile (os ++ [OFlush])) /\
    ((exists n', nstep bs br reset NB n n') \/
     (n_p n = PDone tt /\ n_v n = PDone (Some v) /\ n_sr n = [] /\ n_rs n = [])).
  Proof.
    intros H1 H2 H3 E os k n Hn. pose proof (ver_net junk corr bitmsg chkmsg polymsg h1 h2 d v H1 H2 H3 E) as FV.
    pose proof (replay_ops_follow corr bitmsg chkmsg polymsg its (dl bitmsg) (dl_len bitmsg)) as FP.
    rewrite <- (dl_is corr bitmsg chkmsg polymsg) in FV, FP.
    exact (net_run bs br reset NB HNB gs gr os Hgs (ops_no_bare corr bitmsg chkmsg polymsg its) _ _ _ _ FP FV k n Hn).
  Qed.
  Theorem honest_net junkp junkv g1 g2 g3 g4 h1 h2 d : 1 <= threads -> threads <= bufsz -> valid_delta d ->
    (forall r i, blk (voleV r i)) -> (forall r i, blk2 (junkp r i)) -> (forall r i, blk (junkv r i)) ->
    (count_mul c = 0 \/ threads <= last_batch bufsz (count_mul c)) ->
    exists (bound : nat) (p : fpst) (v : fvst), forall k n,
      nsteps bs br reset NB k (n_init NB gs gr (fprv_prog ext voleV voleM bM oM threads bufsz polysz junkp G Gp (fp_init voleV voleM g1 g2 g3 g4) c)
                                               (vprog junkv h1 h2 d)) n ->
      k <= bound /\
      ((exists n', nstep bs br reset NB n n') \/
       (n_p n = PDone p /\ n_v n = PDone (Some v) /\ n_sr n = [] /\ n_rs n = [])) /\
      map fst (fp_w p) = fplain (fun i => fst (ext i)) 0 [] c /\ fv_printed v = 0 /\ fv_cheat v = [] /\ fv_w v = map (key_of d) (fp_w p).
  Proof.
    intros Ht Htb Vd HV HJ HJv Hc.
    set (pz := fp_exec ext voleV voleM bM oM threads bufsz polysz (fun _ _ => 0%N) (fun _ => 0%N) junkp g1 g2 g3 g4 c).
    set (bitmsg := fun i => nth i (fp_bits pz) false).
    set (p := fp_exec ext voleV voleM bM oM threads bufsz polysz (fseeds bitmsg) (fpseeds bitmsg) junkp g1 g2 g3 g4 c).
    destruct (honest_run ext voleV voleM bM oM threads bufsz polysz (fseeds bitmsg) (fpseeds bitmsg) junkp junkv Ht Htb HJv g1 g2 g3 g4 h1 h2 c d Vd Hc) as (v & Ev & P1 & P2 & P3).
    fold p in Ev, P3.
    assert (Eb : fp_bits p = fp_bits pz) by apply exec_bits.
    rewrite Eb in Ev. fold bitmsg in Ev.
    set (corr := fun i => nth i (fp_corr p) 0%N) in *. set (chkmsg := fun k => nth k (fp_msgs p) (0, 0)%N) in *. set (polymsg := fun k => nth k (fp_pmsgs p) (0, 0, 0, 0, 0)%N) in *.
    destruct (ok_exec ext voleV voleM bM oM threads bufsz polysz junkp (fseeds bitmsg) (fpseeds bitmsg) HV HJ g1 g2 g3 g4 c) as (_ & K1 & K2 & K3).
    fold p in K1, K2, K3.
    assert (B1 : forall i, blk (corr i)) by (apply nth_blk; [exact K1|reflexivity]).
    assert (B2 : forall i, blk2 (chkmsg i)) by (apply nth_blk; [exact K2|split; reflexivity]).
    assert (B3 : forall i, blk5 (polymsg i)) by (apply nth_blk; [exact K3|repeat split; reflexivity]).
    pose proof (ver_net junkv corr bitmsg chkmsg polymsg h1 h2 d v B1 B2 B3 Ev) as FV.
    assert (FP : follow true (fprv_prog ext voleV voleM bM oM threads bufsz polysz junkp G Gp (fp_init voleV voleM g1 g2 g3 g4) c)
                   (compile (ops corr bitmsg chkmsg polymsg its ++ [OFlush])) (dl bitmsg) p).
    { unfold p, fp_exec. apply p_follow with (seeds := fseeds bitmsg) (pseeds := fpseeds bitmsg); auto.
      - repeat split.
      - apply dl_seeded.
      - change (said corr bitmsg chkmsg polymsg p). repeat split; intros i x Hi.
        + apply nth_error_nth. exact Hi.
        + unfold bitmsg. rewrite <- Eb. apply nth_error_nth. exact Hi.
        + apply nth_error_nth. exact Hi.
        + apply nth_error_nth. exact Hi. }
    rewrite <- (dl_is corr bitmsg chkmsg polymsg) in FV, FP.
    exists (2 * length (compile (ops corr bitmsg chkmsg polymsg its ++ [OFlush]))), p, v. intros k n Hn.
    destruct (net_run bs br reset NB HNB gs gr _ Hgs (ops_no_bare corr bitmsg chkmsg polymsg its) _ _ _ _ FP FV k n Hn) as [A B].
    split; [exact A|]. split; [exact B|]. split; [|auto].
    apply fp_exec_plain.
  Qed.
End Net.
