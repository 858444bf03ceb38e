(** The programs of the arithmetic engine: flush discipline, and the verifier against an arbitrary prover program. *)
From Coq Require Import NArith List Bool Arith Lia.
From Verif Require Import Word FpModel ArithModel ArithSpec WireModel WireProofs WireAny AWireModel AWireNet AWireProofs.
Import ListNotations.

(** * Flush discipline *)
Definition is_poly (g : agate) : bool := match g with APoly _ _ _ | AInner _ _ _ => true | _ => false end.
Definition no_poly (c : list agate) : Prop := Forall (fun g => is_poly g = false) c.
Section Discipline.
  Variables (pub_mac : N) (pV vK : nat -> N) (delta : N) (threads csz psz : nat).
  Variables (G : N -> nat -> N) (H : list N -> list N) (auto : bool).
  Hypothesis Hcsz : 1 <= csz.
  Notation pprog := (ap_prog pub_mac pV threads csz psz G H).
  Notation vprog := (av_prog pub_mac vK delta threads csz psz G H).
  Lemma step_some p g : a_full csz g (length (ap_buf p)) = false -> forall sd ps, exists p', ap_step pub_mac pV threads csz psz sd ps p g = Some p'.
  Proof.
    intros F sd ps. destruct g; cbn [ap_step a_full] in *; unfold a_prv_input, a_prv_mul, ap_precheck; rewrite ?F; eexists; reflexivity.
  Qed.
  Lemma fl_check p k d : (forall s, flushed auto false (k s)) -> flushed auto d (ap_check_prog pV threads G p k).
  Proof.
    intro Hk. unfold ap_check_prog, s_recv. cbn [flushed]. split; [now right|]. intro b.
    match goal with |- context[ap_manage ?a ?b ?c ?d] => destruct (ap_manage a b c d) end; cbn [flushed]; [apply Hk|reflexivity].
  Qed.
  Lemma fl_batch p k d : (forall s, flushed auto true (k s)) -> flushed auto d (ap_batch_prog pV p k).
  Proof. intro Hk. unfold ap_batch_prog, s_recv. cbn [flushed]. split; [now right|]. intro b. apply Hk. Qed.
  Lemma fl_gate p g k d : a_full csz g (length (ap_buf p)) = false -> (forall s d, flushed auto d (k s)) -> flushed auto d (ap_gate pub_mac pV threads csz psz p g k).
  Proof.
    intros F Hk. unfold ap_gate. destruct (step_some p g F (fun _ _ => 0%N) (fun _ => 0%N)) as [p' ->]. destruct (a_sends g); cbn [flushed]; apply Hk.
  Qed.
  Lemma fl_fin p d : flushed auto d (ap_fin H p).
  Proof. reflexivity. Qed.
  Lemma fl_end p d : flushed auto d (ap_end pV threads G H p).
  Proof. unfold ap_end. destruct (ap_buf p); [apply fl_fin|]. apply fl_check. intro s. apply fl_fin. Qed.
  Lemma fl_prog c : forall p d, flushed auto d (pprog p c).
  Proof.
    induction c as [|g c IH]; intros p d; cbn [ap_prog].
    - destruct (ap_poly p); [apply fl_end|]. apply fl_batch. intro s. apply fl_end.
    - destruct (a_full csz g (length (ap_buf p))) eqn:F1; [|destruct (a_pfull psz g (length (ap_poly p))) eqn:F2].
      + apply fl_check. intro s. apply fl_gate; [now apply clear_full|]. intros s' d'. apply IH.
      + apply fl_batch. intro s. apply fl_gate; [eapply pfull_not; eauto|]. intros s' d'. apply IH.
      + apply fl_gate; [exact F1|]. intros s' d'. apply IH.
  Qed.
  Lemma cl_check p k : (forall s, coinless (k s)) -> coinless (ap_check_prog pV threads G p k).
  Proof.
    intro Hk. unfold ap_check_prog, s_recv. cbn [coinless]. intro b.
    match goal with |- context[ap_manage ?a ?b ?c ?d] => destruct (ap_manage a b c d) end; cbn [coinless]; auto.
  Qed.
  Lemma cl_gate p g k : (forall s, coinless (k s)) -> coinless (ap_gate pub_mac pV threads csz psz p g k).
  Proof.
    intro Hk. unfold ap_gate. match goal with |- context[ap_step ?a ?b ?c ?d ?e ?f ?g ?h ?i] => destruct (ap_step a b c d e f g h i) end; [|exact I].
    destruct (a_sends g); cbn [coinless]; auto.
  Qed.
  Lemma cl_end p : coinless (ap_end pV threads G H p).
  Proof. unfold ap_end. destruct (ap_buf p); [exact I|]. apply cl_check. intro s. exact I. Qed.
  Lemma cl_prog c : forall p, coinless (pprog p c).
  Proof.
    induction c as [|g c IH]; intro p; cbn [ap_prog].
    - destruct (ap_poly p); [apply cl_end|]. unfold ap_batch_prog, s_recv. cbn [coinless]. intro b. apply cl_end.
    - destruct (a_full csz g (length (ap_buf p))); [|destruct (a_pfull psz g (length (ap_poly p)))].
      + apply cl_check. intro s. apply cl_gate, IH.
      + unfold ap_batch_prog, s_recv. cbn [coinless]. intro b. apply cl_gate, IH.
      + apply cl_gate, IH.
  Qed.
  (** the verifier: its relation proofs rely on NetIO's own flush *)
  Lemma vfl_check v k : (forall s, (av_poly v = [] -> av_poly s = []) -> flushed auto false (k s)) -> flushed auto false (av_check_prog vK delta threads G v k).
  Proof.
    intro Hk. unfold av_check_prog, r_send. cbn [flushed]. intro x. destruct (a_ranges threads (length (av_buf v))) eqn:Er; [|reflexivity].
    split; [now right|]. intro b. unfold av_manage. rewrite Er. match goal with |- context[if ?e then _ else _] => destruct e end; [reflexivity|].
    cbn [flushed]. apply Hk. cbn [av_poly]. auto.
  Qed.
  Lemma vfl_batch v k : auto = true -> (forall s, flushed auto false (k s)) -> flushed auto false (av_batch_prog vK delta v k).
  Proof. intros Ha Hk. unfold av_batch_prog, r_send. cbn [flushed]. intro x. split; [now left|]. intro b. apply Hk. Qed.
  Lemma vfl_gate v g k : (forall s, (is_poly g = false -> av_poly v = [] -> av_poly s = []) -> flushed auto false (k s)) -> a_full csz g (length (av_buf v)) = false ->
    flushed auto false (av_gate pub_mac vK delta threads csz psz v g k).
  Proof.
    intros Hk F. unfold av_gate.
    assert (X : forall w, flushed auto false (match av_step pub_mac vK delta threads csz psz (fun _ _ => 0%N) (fun _ => 0%N) (fun _ => w)
                        (fun _ => (0, 0)%N) (fun _ => (0, 0)%N) v g with
                | None => QDone VUndef | Some s' => if av_err s' then QDone VError else k s' end)).
    { intro w. match goal with |- context[match ?e with _ => _ end] => destruct e as [v'|] eqn:E end; [|reflexivity].
      destruct (av_err v'); [reflexivity|]. apply Hk. intros Hg Hp.
      destruct g; try discriminate; cbn [av_step a_full] in *; unfold av_precheck in E; rewrite ?F in E; injection E as <-; exact Hp. }
    destruct (a_sends g); [|apply X]. cbn [flushed]. split; [now right|]. intro b. apply X.
  Qed.
  Lemma vfl_end v : flushed auto false (av_end vK delta threads G H v).
  Proof.
    assert (Ff : forall s, flushed auto false (av_fin H s)).
    { intro s. unfold av_fin. cbn [flushed]. split; [now right|]. intro b. now destruct (same_bytes _ _). }
    unfold av_end. destruct (av_buf v); [apply Ff|]. apply vfl_check. auto.
  Qed.
  Lemma vfl_prog c : forall v, auto = true \/ (no_poly c /\ av_poly v = []) -> flushed auto false (vprog v c).
  Proof.
    induction c as [|g c IH]; intros v Ha; cbn [av_prog].
    - destruct (av_poly v) eqn:Ep; [apply vfl_end|]. apply vfl_batch; [|intro; apply vfl_end]. destruct Ha as [Ha|[_ Ha]]; [exact Ha|discriminate].
    - assert (Hn : forall s : avst, auto = true \/ (is_poly g = false /\ no_poly c /\ av_poly s = []) -> a_full csz g (length (av_buf s)) = false ->
          flushed auto false (av_gate pub_mac vK delta threads csz psz s g (fun s => vprog s c))).
      { intros s Hs F. apply vfl_gate; [|exact F]. intros s' Hs'. apply IH. destruct Hs as [Hs|(A & B & C)]; [now left|]. right. auto. }
      assert (Ha' : auto = true \/ (is_poly g = false /\ no_poly c /\ av_poly v = [])).
      { destruct Ha as [Ha|[Ha Hb]]; [now left|]. right. unfold no_poly in *. inversion Ha; subst. auto. }
      destruct (a_full csz g (length (av_buf v))) eqn:F1; [|destruct (a_pfull psz g (length (av_poly v))) eqn:F2].
      + apply vfl_check. intros s Hs. apply Hn; [|now apply vclear_full]. destruct Ha' as [X|(X & Y & Z)]; [now left|]. right. auto.
      + assert (auto = true). { destruct Ha' as [X|(X & Y & Z)]; [exact X|]. destruct g; discriminate. }
        apply vfl_batch; [assumption|]. intro s. apply Hn; [now left|]. eapply pfull_not; eauto.
      + apply Hn; assumption.
  Qed.
End Discipline.

(** * The verifier's result *)
Definition site_eqb (a b : site) : bool :=
  match a, b with AtWord, AtWord | AtCheck, AtCheck | AtPoly, AtPoly | AtSeed, AtSeed | AtPSeed, AtPSeed | AtDigest, AtDigest => true | _, _ => false end.
Lemma site_eqb_eq a b : site_eqb a b = true -> a = b.
Proof. destruct a, b; try discriminate; reflexivity. Qed.
Lemma site_eqb_refl a : site_eqb a a = true.
Proof. now destruct a. Qed.
(** what was read at one call *)
Fixpoint reads_at (t : site) (l : list (site * list N)) : list (list N) :=
  match l with [] => [] | (s, x) :: l' => if site_eqb s t then x :: reads_at t l' else reads_at t l' end.
Definition words_of (l : list (site * list N)) (i : nat) : N := dec_bytes (nth i (reads_at AtWord l) []).
Definition chk_of (l : list (site * list N)) (i : nat) : N * N := dec_pair (nth i (reads_at AtCheck l) []).
Definition pchk_of (l : list (site * list N)) (i : nat) : N * N := dec_pair (nth i (reads_at AtPoly l) []).
Definition dig_of (l : list (site * list N)) : list N := nth 0 (reads_at AtDigest l) [].

(** a program fed with reads and coins *)
Fixpoint aeat {R : Type} (coins : bool -> nat -> N) (V : aproc R) (reads : list (site * list N)) (c0 c1 : nat) : option R :=
  match V with
  | QDone r => match reads with [] => Some r | _ => None end
  | QPut _ k => aeat coins k reads c0 c1
  | QGet t len k => match reads with
                    | (s, x) :: rs => if site_eqb s t && Nat.eqb (length x) len then aeat coins (k x) rs c0 c1 else None
                    | [] => None end
  | QFlush k => aeat coins k reads c0 c1
  | QCoin false k => aeat coins (k (coins false c0)) reads (S c0) c1
  | QCoin true k => aeat coins (k (coins true c1)) reads c0 (S c1)
  end.
(** the program left after some reads and coins; it stops in front of the next read or coin *)
Fixpoint awalk {R : Type} (coins : bool -> nat -> N) (V : aproc R) (reads : list (site * list N)) (c0 c1 n0 n1 : nat) {struct V} : option (aproc R) :=
  match V with
  | QDone r => match reads with [] => if (Nat.eqb c0 n0 && Nat.eqb c1 n1)%bool then Some V else None | _ => None end
  | QPut _ k => awalk coins k reads c0 c1 n0 n1
  | QGet t len k => match reads with
                    | (s, x) :: rs => if site_eqb s t && Nat.eqb (length x) len then awalk coins (k x) rs c0 c1 n0 n1 else None
                    | [] => if (Nat.eqb c0 n0 && Nat.eqb c1 n1)%bool then Some V else None end
  | QFlush k => awalk coins k reads c0 c1 n0 n1
  | QCoin b k =>
      if (match reads with [] => Nat.eqb c0 n0 && Nat.eqb c1 n1 | _ => false end)%bool then Some V
      else if b then awalk coins (k (coins true c1)) reads c0 (S c1) n0 n1 else awalk coins (k (coins false c0)) reads (S c0) c1 n0 n1
  end.
Section Run.
  Variables (auto : bool) (coins : bool -> nat -> N).
  Context {RP RV : Type}.
  Lemma aact_eat (V V' : aproc RV) vs vs' o pv pv' r reads c0 c1 : aact auto V vs pv = Some (V', vs', o, pv', r) ->
    aeat coins V (r ++ reads) c0 c1 = aeat coins V' reads c0 c1.
  Proof.
    destruct V as [v|bs k|t len k|k|b k]; cbn [aact]; intro E; try discriminate.
    - injection E as <- <- <- <- <-. reflexivity.
    - destruct (auto && negb (is_nil vs)); [injection E as <- <- <- <- <-; reflexivity|].
      destruct (Nat.ltb_spec (length pv) len) as [L|L]; [discriminate|]. injection E as <- <- <- <- <-.
      cbn [app aeat]. rewrite site_eqb_refl, firstn_length, Nat.min_l, Nat.eqb_refl by lia. reflexivity.
    - injection E as <- <- <- <- <-. reflexivity.
  Qed.
  Lemma eat_steps (P : aproc RP) (V : aproc RV) k n : msteps auto coins k (m_init P V) n -> forall reads,
    aeat coins V (m_reads n ++ reads) 0 0 = aeat coins (m_v n) reads (m_c0 n) (m_c1 n).
  Proof.
    intro Hn. remember (m_init P V) as n0 eqn:E0. induction Hn as [n|k n n1 n2 Hn IH Hs]; intro reads; [now subst|].
    specialize (IH E0). destruct Hs as [n1 n2 M|P0 V0 a b vs pv vp rd0 x0 x1 Ha|P0 V0 ps a b pv vp rd0 x0 x1 Ha]; [|exact (IH reads)|exact (IH reads)].
    destruct M; cbn [m_v m_reads m_c0 m_c1] in *; try exact (IH reads).
    rewrite <- app_assoc, IH. eapply aact_eat; eauto.
  Qed.
  Lemma eat_end (P : aproc RP) (V : aproc RV) k n r : msteps auto coins k (m_init P V) n -> m_v n = QDone r -> aeat coins V (m_reads n) 0 0 = Some r.
  Proof. intros Hn Hv. pose proof (eat_steps P V k n Hn []) as X. rewrite app_nil_r, Hv in X. exact X. Qed.

  (** reads and coins only grow *)
  Definition later (n n' : @anet RP RV) : Prop := (exists t, m_reads n' = m_reads n ++ t) /\ m_c0 n <= m_c0 n' /\ m_c1 n <= m_c1 n'.
  Lemma step_later (n n' : @anet RP RV) : mstep auto coins n n' -> later n n'.
  Proof.
    intro M. destruct M as [n n' M|P0 V0 a b vs pv vp rd0 x0 x1 Ha|P0 V0 ps a b pv vp rd0 x0 x1 Ha].
    - destruct M; (split; [|split]); cbn [m_reads m_c0 m_c1]; try lia; try (exists []; now rewrite app_nil_r). eexists. reflexivity.
    - split; [exists []; now rewrite app_nil_r|split; cbn; lia].
    - split; [exists []; now rewrite app_nil_r|split; cbn; lia].
  Qed.
  Lemma steps_later k (n n' : @anet RP RV) : msteps auto coins k n n' -> later n n'.
  Proof.
    induction 1 as [n|k n n1 n2 Hn IH Hs].
    - split; [exists []; now rewrite app_nil_r|split; lia].
    - destruct IH as ((t & E) & A & B). destruct (step_later _ _ Hs) as ((t' & E') & A' & B'). split; [|split; lia].
      rewrite E', E. eexists. symmetry. apply app_assoc.
  Qed.
  (** a run only depends on the coins drawn in it *)
  Lemma step_coins coins' (n n' : @anet RP RV) : mstep auto coins n n' -> (forall i, i < m_c0 n' -> coins' false i = coins false i) ->
    (forall i, i < m_c1 n' -> coins' true i = coins true i) -> mstep auto coins' n n'.
  Proof.
    intros M A0 A1. destruct M as [n n' M|P0 V0 a b vs pv vp rd0 x0 x1 Ha|P0 V0 ps a b pv vp rd0 x0 x1 Ha].
    - apply MProg. destruct M; cbn [m_c0 m_c1] in *.
      + now apply MP with (r := r).
      + now apply MV.
      + rewrite <- A0 by lia. apply MC0.
      + rewrite <- A1 by lia. apply MC1.
    - now apply MDP.
    - now apply MDV.
  Qed.
  Lemma steps_coins coins' k (n n' : @anet RP RV) : msteps auto coins k n n' -> (forall i, i < m_c0 n' -> coins' false i = coins false i) ->
    (forall i, i < m_c1 n' -> coins' true i = coins true i) -> msteps auto coins' k n n'.
  Proof.
    induction 1 as [n|k n n1 n2 Hn IH Hs]; intros A0 A1; [constructor|]. destruct (step_later _ _ Hs) as (_ & L0 & L1).
    econstructor; [apply IH; intros; [apply A0|apply A1]; lia|]. apply step_coins; assumption.
  Qed.
End Run.

(** ** its result is that of the message-level session on what it has read *)
Section Result.
  Variables (pub_mac : N) (vK : nat -> N) (delta : N) (threads csz psz : nat).
  Variables (G : N -> nat -> N) (H : list N -> list N) (coins : bool -> nat -> N).
  Hypothesis Hcsz : 1 <= csz.
  Variable RD : list (site * list N).
  Notation seeds := (fun k : nat => G (coins false k)).
  Notation pseeds := (coins true).
  Notation vstep_ := (av_step pub_mac vK delta threads csz psz seeds pseeds (words_of RD) (chk_of RD) (pchk_of RD)).
  Notation vman := (av_manage vK delta threads seeds (chk_of RD)).
  Notation vbat := (av_batch vK delta pseeds (pchk_of RD)).
  Notation vrest := (v_rest pub_mac vK delta threads csz psz G coins (words_of RD) (chk_of RD) (pchk_of RD)).
  Notation vprog := (av_prog pub_mac vK delta threads csz psz G H).
  Record apos (v : avst) (reads : list (site * list N)) : Prop := {
    ps_w_ : skipn (av_words v) (reads_at AtWord RD) = reads_at AtWord reads;
    ps_c_ : skipn (av_chk v) (reads_at AtCheck RD) = reads_at AtCheck reads;
    ps_p_ : skipn (av_pchk v) (reads_at AtPoly RD) = reads_at AtPoly reads;
    ps_d_ : reads_at AtDigest RD = reads_at AtDigest reads }.
  Notation eat V reads v := (aeat coins V reads (av_chk v) (av_pchk v)).
  Lemma eat_check v k reads r : apos v reads -> eat (av_check_prog vK delta threads G v k) reads v = Some r ->
    (r = VUndef /\ vman v = None) \/
    exists v1, vman v = Some v1 /\
      ((r = VError /\ av_err v1 = true) \/ (av_err v1 = false /\ exists reads', apos v1 reads' /\ eat (k v1) reads' v1 = Some r)).
  Proof.
    intros [P1 P2 P3 P4] E. unfold av_check_prog, r_send in E. cbn [aeat] in E.
    destruct (a_ranges threads (length (av_buf v))) as [rs|] eqn:Er.
    - right. cbn [aeat] in E. destruct reads as [|[t x] reads]; [discriminate|]. destruct (site_eqb t AtCheck) eqn:Et; [|discriminate].
      apply site_eqb_eq in Et. subst t. cbn [andb] in E. destruct (Nat.eqb (length x) 16); [|discriminate].
      cbn [reads_at site_eqb] in P1, P2, P3, P4. destruct (skipn_cons _ _ _ _ [] P2) as [N2 Q2].
      assert (EM : av_manage vK delta threads (fun _ => G (coins false (av_chk v))) (fun _ => dec_pair x) v = vman v).
      { unfold av_manage. unfold chk_of at 1. now rewrite N2. }
      rewrite EM in E. destruct (vman v) as [v1|] eqn:Ev; [|unfold av_manage in Ev; rewrite Er in Ev; discriminate].
      exists v1. split; [reflexivity|]. destruct (av_err v1) eqn:Ee.
      + left. split; [|reflexivity]. cbn [aeat] in E. destruct reads; [|discriminate]. now injection E as <-.
      + right. split; [reflexivity|]. exists reads. cbn [aeat] in E. unfold av_manage in Ev. rewrite Er in Ev. injection Ev as <-. split; [|exact E].
        split; assumption.
    - left. cbn [aeat] in E. destruct reads; [|discriminate]. injection E as <-. split; [reflexivity|]. unfold av_manage. now rewrite Er.
  Qed.
  Lemma eat_batch v k reads r : av_poly v <> [] -> apos v reads -> eat (av_batch_prog vK delta v k) reads v = Some r ->
    exists reads', apos (vbat v) reads' /\ eat (k (vbat v)) reads' (vbat v) = Some r.
  Proof.
    intros Hne [P1 P2 P3 P4] E. unfold av_batch_prog, r_send in E. cbn [aeat] in E. destruct reads as [|[t x] reads]; [discriminate|].
    destruct (site_eqb t AtPoly) eqn:Et; [|discriminate]. apply site_eqb_eq in Et. subst t. cbn [andb] in E. destruct (Nat.eqb (length x) 16); [|discriminate].
    cbn [reads_at site_eqb] in P1, P2, P3, P4. destruct (skipn_cons _ _ _ _ [] P3) as [N3 Q3].
    assert (EM : av_batch vK delta (fun _ => coins true (av_pchk v)) (fun _ => dec_pair x) v = vbat v).
    { unfold av_batch. unfold pchk_of at 1. now rewrite N3. }
    rewrite EM in E. exists reads.
    assert (X : av_chk (vbat v) = av_chk v /\ av_pchk (vbat v) = S (av_pchk v) /\ av_words (vbat v) = av_words v).
    { unfold av_batch. destruct (av_poly v); [congruence|]. repeat split. }
    destruct X as (X1 & X2 & X3). rewrite X1, X2. split; [|exact E]. split; rewrite ?X1, ?X2, ?X3; assumption.
  Qed.
  Lemma eat_gate v g k reads r : a_full csz g (length (av_buf v)) = false -> a_pfull psz g (length (av_poly v)) = false ->
    apos v reads -> eat (av_gate pub_mac vK delta threads csz psz v g k) reads v = Some r ->
    exists v1, vstep_ v g = Some v1 /\
      ((r = VError /\ av_err v1 = true) \/ (av_err v1 = false /\ exists reads', apos v1 reads' /\ eat (k v1) reads' v1 = Some r)).
  Proof.
    intros F1 F2 [P1 P2 P3 P4] E. unfold av_gate in E.
    assert (EX : exists v1, vstep_ v g = Some v1 /\ av_words v1 = (if a_sends g then S (av_words v) else av_words v) /\ av_chk v1 = av_chk v /\ av_pchk v1 = av_pchk v).
    { assert (Q : forall t, (Nat.leb psz (length (av_poly v)) && negb (length (av_poly v) =? 0))%bool = false ->
        let q := av_queue vK delta psz pseeds (pchk_of RD) v t in av_words q = av_words v /\ av_chk q = av_chk v /\ av_pchk q = av_pchk v).
      { intros t Z. unfold av_queue. destruct (Nat.leb psz (length (av_poly v))); [|repeat split].
        destruct (av_poly v) eqn:Ep; [|discriminate]. unfold av_batch. rewrite Ep. repeat split. }
      destruct g; cbn [av_step a_full a_pfull a_sends] in *; unfold av_precheck; rewrite ?F1;
      try (eexists; split; [reflexivity|]; repeat split; fail); (eexists; split; [reflexivity|]; now apply Q). }
    destruct EX as (v1 & Ev1 & X1 & X2 & X3). exists v1. split; [exact Ev1|]. destruct (a_sends g) eqn:Eg.
    - cbn [aeat] in E. destruct reads as [|[t x] reads]; [discriminate|]. destruct (site_eqb t AtWord) eqn:Et; [|discriminate].
      apply site_eqb_eq in Et. subst t. cbn [andb] in E. destruct (Nat.eqb (length x) 8); [|discriminate].
      cbn [reads_at site_eqb] in P1, P2, P3, P4. destruct (skipn_cons _ _ _ _ [] P1) as [N1 Q1].
      rewrite (av_gate_step pub_mac vK delta threads csz psz v g F1 F2 _ _ _ _ _ seeds pseeds (words_of RD) (chk_of RD) (pchk_of RD)) in E by (intros _; unfold words_of; now rewrite N1).
      rewrite Ev1 in E. destruct (av_err v1) eqn:Ee.
      + left. split; [|reflexivity]. cbn [aeat] in E. destruct reads; [|discriminate]. now injection E as <-.
      + right. split; [reflexivity|]. exists reads. rewrite X2, X3. split; [|exact E]. split; rewrite ?X1, ?X2, ?X3; assumption.
    - rewrite (av_gate_step pub_mac vK delta threads csz psz v g F1 F2 _ _ _ _ _ seeds pseeds (words_of RD) (chk_of RD) (pchk_of RD)) in E by congruence.
      rewrite Ev1 in E. destruct (av_err v1) eqn:Ee.
      + left. split; [|reflexivity]. cbn [aeat] in E. destruct reads; [|discriminate]. now injection E as <-.
      + right. split; [reflexivity|]. exists reads. rewrite X2, X3. split; [|exact E]. split; rewrite ?X1, ?X2, ?X3; assumption.
  Qed.
  Definition says (rest : option avst) (r : vend) : Prop :=
    match r with
    | VEnd v => rest = Some v /\ av_err v = false /\ same_bytes (H (av_hash v)) (dig_of RD) = true
    | VError => forall v, rest = Some v -> av_err v = true \/ same_bytes (H (av_hash v)) (dig_of RD) = false
    | VUndef => rest = None
    end.
  Lemma says_fin v reads r : av_err v = false -> apos v reads -> eat (av_fin H v) reads v = Some r -> says (Some v) r.
  Proof.
    intros Hno [P1 P2 P3 P4] E. unfold av_fin in E. cbn [aeat] in E. destruct reads as [|[t x] reads]; [discriminate|].
    destruct (site_eqb t AtDigest) eqn:Et; [|discriminate]. apply site_eqb_eq in Et. subst t. cbn [andb] in E. destruct (Nat.eqb (length x) 32); [|discriminate].
    cbn [reads_at site_eqb] in P4. assert (D : dig_of RD = x) by (unfold dig_of; now rewrite P4).
    destruct (same_bytes (H (av_hash v)) x) eqn:Es; cbn [aeat] in E; destruct reads; try discriminate; injection E as <-; cbn [says]; rewrite D.
    - auto.
    - intros v' Ev. injection Ev as <-. now right.
  Qed.
  Lemma says_end v reads r : av_err v = false -> apos v reads -> eat (av_end vK delta threads G H v) reads v = Some r ->
    says (match av_buf v with [] => Some v | _ => vman v end) r.
  Proof.
    intros Hno P E. unfold av_end in E. destruct (av_buf v); [now apply (says_fin v reads)|].
    destruct (eat_check v _ reads r P E) as [[-> X]|(v1 & Ev & [[-> Ee]|(Ee & reads' & P' & E')])].
    - exact X.
    - rewrite Ev. intros v' X. injection X as <-. now left.
    - rewrite Ev. now apply (says_fin v1 reads').
  Qed.
  Lemma eat_ver c : forall v reads r, av_err v = false -> apos v reads -> eat (vprog v c) reads v = Some r -> says (vrest v c) r.
  Proof.
    induction c as [|g c IH]; intros v reads r Hno P E; cbn [av_prog] in E.
    - unfold v_rest. cbn [av_run]. unfold av_final. cbv zeta. destruct (av_poly v) eqn:Ep.
      + rewrite (vbat_nil vK delta coins (pchk_of RD) v Ep). now apply (says_end v reads).
      + destruct (eat_batch v _ reads r ltac:(rewrite Ep; discriminate) P E) as (reads' & P' & E').
        eapply says_end; [|exact P'|exact E']. now rewrite bat_err.
    - assert (GATE : forall v1 reads1, a_full csz g (length (av_buf v1)) = false -> a_pfull psz g (length (av_poly v1)) = false ->
         av_err v1 = false -> apos v1 reads1 -> eat (av_gate pub_mac vK delta threads csz psz v1 g (fun s => vprog s c)) reads1 v1 = Some r ->
         says (match vstep_ v1 g with None => None | Some v2 => vrest v2 c end) r).
      { intros v1 reads1 F1 F2 N1 P1 E1. destruct (eat_gate v1 g _ reads1 r F1 F2 P1 E1) as (v2 & -> & [[-> Ee]|(Ee & reads' & P' & E')]).
        - intros v' X. left. eapply rest_err; eauto.
        - now apply (IH v2 reads'). }
      unfold v_rest. cbn [av_run]. 
      assert (R : match match vstep_ v g with None => None | Some s' => av_run pub_mac vK delta threads csz psz seeds pseeds (words_of RD) (chk_of RD) (pchk_of RD) s' c end with
                  | None => None | Some s => av_final vK delta threads seeds pseeds (chk_of RD) (pchk_of RD) s end =
                  match vstep_ v g with None => None | Some v2 => vrest v2 c end) by (destruct (vstep_ v g); reflexivity).
      rewrite R. clear R.
      destruct (a_full csz g (length (av_buf v))) eqn:F1; [|destruct (a_pfull psz g (length (av_poly v))) eqn:F2].
      + rewrite v_full by assumption.
        destruct (eat_check v _ reads r P E) as [[-> X]|(v1 & Ev & [[-> Ee]|(Ee & reads' & P' & E')])].
        * now rewrite X.
        * rewrite Ev. intros v' X. left. destruct (vstep_ (av_clear v1) g) as [v2|] eqn:E2; [|discriminate].
          eapply rest_err; [exact X|]. eapply step_err; [exact E2|exact Ee].
        * rewrite Ev. apply (GATE (av_clear v1) reads'); auto; [now apply vclear_full|eapply full_not_p; eauto|]. destruct P' as [Q1 Q2 Q3 Q4]. split; assumption.
      + rewrite v_pfull by assumption. assert (Hne : av_poly v <> []).
        { intro Z. rewrite Z in F2. destruct g; try discriminate; cbn in F2; now rewrite andb_false_r in F2. }
        destruct (eat_batch v _ reads r Hne P E) as (reads' & P' & E').
        apply (GATE (vbat v) reads'); auto; [eapply pfull_not; eauto|apply vbat_pfull|now rewrite bat_err].
      + now apply (GATE v reads).
  Qed.
End Result.
