(** Two programs over buffered byte streams: if one schedule completes, every schedule does. *)
From Coq Require Import NArith List Bool Arith Lia.
From Verif Require Import AWireModel.
Import ListNotations.

(** * Without send buffers *)
Section Kahn.
  Variable coins : bool -> nat -> N.
  Context {RP RV : Type}.
  Definition kact {R : Type} (P : aproc R) (inq : list N) : option (aproc R * list N * list N * list (site * list N)) :=
    match P with
    | QDone _ | QCoin _ _ => None
    | QPut bs k => Some (k, bs, inq, [])
    | QGet t len k => if Nat.ltb (length inq) len then None
                      else Some (k (firstn len inq), [], skipn len inq, [(t, firstn len inq)])
    | QFlush k => Some (k, [], inq, [])
    end.
  Inductive knet : Type := K (P : aproc RP) (V : aproc RV) (pv vp : list N) (rd : list (site * list N)) (c0 c1 : nat).
  (** a step with its weight: one plus the bytes sent *)
  Inductive kstep : nat -> knet -> knet -> Prop :=
  | KP P V pv vp rd c0 c1 P' o vp' r : kact P vp = Some (P', o, vp', r) ->
      kstep (S (length o)) (K P V pv vp rd c0 c1) (K P' V (pv ++ o) vp' rd c0 c1)
  | KV P V pv vp rd c0 c1 V' o pv' r : kact V pv = Some (V', o, pv', r) ->
      kstep (S (length o)) (K P V pv vp rd c0 c1) (K P V' pv' (vp ++ o) (rd ++ r) c0 c1)
  | KC0 P k pv vp rd c0 c1 : kstep 1 (K P (QCoin false k) pv vp rd c0 c1) (K P (k (coins false c0)) pv vp rd (S c0) c1)
  | KC1 P k pv vp rd c0 c1 : kstep 1 (K P (QCoin true k) pv vp rd c0 c1) (K P (k (coins true c1)) pv vp rd c0 (S c1)).
  Inductive kruns : nat -> knet -> knet -> Prop :=
  | KRefl s : kruns 0 s s
  | KCons w n s s' f : kstep w s s' -> kruns n s' f -> kruns (w + n) s f.
  Definition kdone (s : knet) : Prop := match s with K (QDone _) (QDone _) [] [] _ _ _ => True | _ => False end.

  Lemma kruns_app a b s t f : kruns a s t -> kruns b t f -> kruns (a + b) s f.
  Proof. induction 1 as [s|w n s s' t H1 H IH]; intro B; [exact B|]. rewrite <- Nat.add_assoc. econstructor; eauto. Qed.
  Lemma kact_app {R} (P : aproc R) q P' o q' r x : kact P q = Some (P', o, q', r) -> kact P (q ++ x) = Some (P', o, q' ++ x, r).
  Proof.
    destruct P as [v|bs k|t len k|k|b k]; cbn [kact]; intro E; try discriminate.
    - injection E as <- <- <- <-. reflexivity.
    - destruct (Nat.ltb_spec (length q) len) as [L|L]; [discriminate|]. injection E as <- <- <- <-.
      destruct (Nat.ltb_spec (length (q ++ x)) len) as [L'|L']; [rewrite app_length in L'; lia|].
      rewrite firstn_app, skipn_app. replace (len - length q) with 0 by lia. cbn [firstn skipn]. now rewrite app_nil_r.
    - injection E as <- <- <- <-. reflexivity.
  Qed.
  Lemma diamond w1 w2 s s1 s2 : kstep w1 s s1 -> kstep w2 s s2 ->
    (w1 = w2 /\ s1 = s2) \/ exists t, kstep w2 s1 t /\ kstep w1 s2 t.
  Proof.
    intros H1 H2. destruct H1 as [P V pv vp rd c0 c1 P' o vp' r E|P V pv vp rd c0 c1 V' o pv' r E|P k pv vp rd c0 c1|P k pv vp rd c0 c1]; inversion H2; subst;
    try (left; split; congruence); try match goal with E : kact (QCoin _ _) _ = Some _ |- _ => discriminate E end.
    - right. eexists. split; [eapply KV, kact_app; eassumption|]. eapply KP, kact_app; eassumption.
    - right. eexists. split; [apply KC0|]. eapply KP; eassumption.
    - right. eexists. split; [apply KC1|]. eapply KP; eassumption.
    - right. eexists. split; [eapply KP, kact_app; eassumption|]. eapply KV, kact_app; eassumption.
    - right. eexists. split; [eapply KP; eassumption|]. apply KC0.
    - right. eexists. split; [eapply KP; eassumption|]. apply KC1.
  Qed.
  Lemma completes_step n s f : kruns n s f -> kdone f -> forall w s', kstep w s s' -> exists m, n = w + m /\ kruns m s' f.
  Proof.
    induction 1 as [s|w1 n s s1 f H1 H IH]; intros D w s' Hs.
    - exfalso. destruct Hs as [P V pv vp rd c0 c1 P' o vp' r E|P V pv vp rd c0 c1 V' o pv' r E|P k pv vp rd c0 c1|P k pv vp rd c0 c1]; cbn [kdone] in D; destruct P; try contradiction; try discriminate.
      destruct V; try contradiction. discriminate.
    - destruct (diamond _ _ _ _ _ H1 Hs) as [[<- <-]|(t & T1 & T2)]; [eauto|].
      destruct (IH D _ _ T1) as (m & -> & R). exists (w1 + m). split; [lia|]. econstructor; eauto.
  Qed.
  Lemma kruns_cases n s f : kruns n s f -> s = f \/ exists w s', kstep w s s'.
  Proof. destruct 1; eauto. Qed.
  Lemma kdone_stays n f f' : kdone f -> kruns n f f' -> n = 0 /\ f' = f.
  Proof.
    intros D R. destruct R as [|w n f s' f' Hs R]; [auto|]. exfalso.
    destruct (completes_step 0 f f (KRefl f) D _ _ Hs) as (m & E & _). destruct Hs; discriminate.
  Qed.
End Kahn.

(** * Flush discipline: nothing is left in the send buffer when the program waits or ends *)
Fixpoint flushed {R : Type} (auto dirty : bool) (P : aproc R) : Prop :=
  match P with
  | QDone _ => dirty = false
  | QPut _ k => flushed auto true k
  | QGet _ _ k => (auto = true \/ dirty = false) /\ forall x, flushed auto false (k x)
  | QFlush k => flushed auto false k
  | QCoin _ k => forall x, flushed auto dirty (k x)
  end.
Lemma flushed_weaken {R} auto (P : aproc R) dirty : flushed auto dirty P -> flushed auto false P.
Proof.
  revert dirty. induction P as [r|bs k IH|t len k IH|k IH|b k IH]; intros dirty; cbn [flushed]; auto.
  - intros [_ H]. auto.
  - intros H x. eapply IH; eauto.
Qed.
Lemma flushed_dirty {R} auto (P : aproc R) d d' : (d' = true -> d = true) -> flushed auto d P -> flushed auto d' P.
Proof. intros I F. destruct d'; [rewrite I in F by reflexivity; exact F|]. eapply flushed_weaken; eauto. Qed.

(** * With send buffers *)
Section Buffered.
  Variables (auto : bool) (coins : bool -> nat -> N).
  Context {RP RV : Type}.
  Notation net := (@anet RP RV).
  Definition view (n : net) : knet :=
    K (m_p n) (m_v n) (m_pv n ++ m_ps n) (m_vp n ++ m_vs n) (m_reads n) (m_c0 n) (m_c1 n).
  Definition held (n : net) : nat := length (m_ps n) + length (m_vs n).
  Definition disc (n : net) : Prop :=
    flushed auto (negb (is_nil (m_ps n))) (m_p n) /\ flushed auto (negb (is_nil (m_vs n))) (m_v n).

  (** one action of one party, seen without buffers *)
  Lemma aact_view {R} (P P' : aproc R) pend pend' q q' o r x : aact auto P pend q = Some (P', pend', o, q', r) ->
    (P' = P /\ o = pend /\ pend' = [] /\ pend <> [] /\ q' = q /\ r = []) \/
    exists o', kact P (q ++ x) = Some (P', o', q' ++ x, r) /\ pend ++ o' = o ++ pend' /\ length pend' <= length pend + length o'.
  Proof.
    destruct P as [v|bs k|t len k|k|b k]; cbn [aact]; intro E; try discriminate.
    - injection E as <- <- <- <- <-. right. exists bs. cbn [kact]. rewrite app_length. auto.
    - destruct (auto && negb (is_nil pend)) eqn:Ea.
      + injection E as <- <- <- <- <-. left. apply andb_prop in Ea. destruct Ea as [_ Ea]. destruct pend; [discriminate|]. repeat split; congruence.
      + destruct (Nat.ltb_spec (length q) len) as [L|L]; [discriminate|]. injection E as <- <- <- <- <-. right. exists [].
        split; [|split; [apply app_nil_r|lia]].
        apply (kact_app (QGet t len k) q (k (firstn len q)) [] (skipn len q) [(t, firstn len q)] x). cbn [kact]. now destruct (Nat.ltb_spec (length q) len); [lia|].
    - injection E as <- <- <- <- <-. right. exists []. cbn [kact length app]. rewrite !app_nil_r. repeat split; lia.
  Qed.
  Lemma aact_flushed {R} (P P' : aproc R) pend pend' q q' o r : aact auto P pend q = Some (P', pend', o, q', r) ->
    flushed auto (negb (is_nil pend)) P -> flushed auto (negb (is_nil pend')) P'.
  Proof.
    destruct P as [v|bs k|t len k|k|b k]; cbn [aact]; intro E; try discriminate; intro F.
    - injection E as <- <- <- <- <-. cbn [flushed] in F. eapply flushed_dirty; [|exact F]. auto.
    - destruct (auto && negb (is_nil pend)) eqn:Ea.
      + injection E as <- <- <- <- <-. cbn [flushed is_nil negb] in *. split; [now right|apply F].
      + destruct (Nat.ltb_spec (length q) len) as [L|L]; [discriminate|]. injection E as <- <- <- <- <-.
        cbn [flushed] in F. destruct F as [F1 F2]. destruct (is_nil pend) eqn:Ep; cbn [negb] in *; [apply F2|].
        rewrite Bool.andb_true_r in Ea. destruct F1; congruence.
    - injection E as <- <- <- <- <-. exact F.
  Qed.
  Lemma step_view n n' : mstep auto coins n n' ->
    (view n' = view n /\ held n' < held n) \/ (exists w, kstep coins w (view n) (view n') /\ held n' + 1 <= held n + w).
  Proof.
    intro M. destruct M as [n n' M|P V a b vs pv vp rd c0 c1 Ha|P V ps a b pv vp rd c0 c1 Ha].
    - destruct M as [P V ps vs pv vp rd c0 c1 P' ps' o vp' r E|P V ps vs pv vp rd c0 c1 V' vs' o pv' r E|P k ps vs pv vp rd c0 c1|P k ps vs pv vp rd c0 c1];
      unfold view, held; cbn [m_p m_v m_ps m_vs m_pv m_vp m_reads m_c0 m_c1].
      + destruct (aact_view _ _ _ _ _ _ _ _ vs E) as [(-> & -> & -> & Hne & -> & ->)|(o' & Ek & Eo & L)].
        * left. rewrite app_nil_r. split; [reflexivity|]. destruct ps; [congruence|]. cbn [length]. lia.
        * right. exists (S (length o')). split; [|lia]. rewrite <- app_assoc, <- Eo, app_assoc. eapply KP. exact Ek.
      + destruct (aact_view _ _ _ _ _ _ _ _ ps E) as [(-> & -> & -> & Hne & -> & ->)|(o' & Ek & Eo & L)].
        * left. rewrite !app_nil_r. split; [reflexivity|]. destruct vs; [congruence|]. cbn [length]. lia.
        * right. exists (S (length o')). split; [|lia]. rewrite <- (app_assoc vp), <- Eo, app_assoc. eapply KV. exact Ek.
      + right. exists 1. split; [apply KC0|lia].
      + right. exists 1. split; [apply KC1|lia].
    - left. unfold view, held. cbn [m_p m_v m_ps m_vs m_pv m_vp m_reads m_c0 m_c1]. rewrite <- app_assoc. split; [reflexivity|].
      rewrite app_length. destruct a; [congruence|]. cbn [length]. lia.
    - left. unfold view, held. cbn [m_p m_v m_ps m_vs m_pv m_vp m_reads m_c0 m_c1]. rewrite <- app_assoc. split; [reflexivity|].
      rewrite app_length. destruct a; [congruence|]. cbn [length]. lia.
  Qed.
  Lemma step_disc n n' : mstep auto coins n n' -> disc n -> disc n'.
  Proof.
    intros M [D1 D2]. destruct M as [n n' M|P V a b vs pv vp rd c0 c1 Ha|P V ps a b pv vp rd c0 c1 Ha].
    - destruct M; cbn [m_p m_v m_ps m_vs] in *; (split; cbn [m_p m_v m_ps m_vs]); auto; eapply aact_flushed; eauto.
    - cbn [m_p m_v m_ps m_vs] in *. split; cbn [m_p m_v m_ps m_vs]; [|exact D2]. eapply flushed_dirty; [|exact D1]. destruct a; [congruence|reflexivity].
    - cbn [m_p m_v m_ps m_vs] in *. split; cbn [m_p m_v m_ps m_vs]; [exact D1|]. eapply flushed_dirty; [|exact D2]. destruct a; [congruence|reflexivity].
  Qed.
  (** a program with something in its send buffer can always move *)
  Lemma dirty_moves {R} (P : aproc R) pend q : pend <> [] -> flushed auto (negb (is_nil pend)) P ->
    (exists b k, P = QCoin b k) \/ exists r, aact auto P pend q = Some r.
  Proof.
    intros Hp F. destruct P as [v|bs k|t len k|k|b k]; cbn [flushed aact] in *.
    - destruct pend; [congruence|discriminate].
    - right. eauto.
    - destruct F as [[F|F] _]; [|destruct pend; [congruence|discriminate]]. rewrite F. destruct pend; [congruence|]. right. cbn. eauto.
    - right. eauto.
    - left. eauto.
  Qed.
  Lemma coin_moves (n : net) b k : m_v n = QCoin b k -> exists n', pstep auto coins n n'.
  Proof. destruct n as [P V ps vs pv vp rd c0 c1]. cbn [m_v]. intros ->. destruct b; eexists; [apply MC1|apply MC0]. Qed.
  Lemma v_moves (n : net) r : aact auto (m_v n) (m_vs n) (m_pv n) = Some r -> exists n', pstep auto coins n n'.
  Proof. destruct n as [P V ps vs pv vp rd c0 c1]. cbn [m_v m_vs m_pv]. destruct r as [[[[V' vs'] o] pv'] r]. intro E. eexists. eapply MV, E. Qed.
  Lemma p_moves (n : net) r : aact auto (m_p n) (m_ps n) (m_vp n) = Some r -> exists n', pstep auto coins n n'.
  Proof. destruct n as [P V ps vs pv vp rd c0 c1]. cbn [m_p m_ps m_vp]. destruct r as [[[[P' ps'] o] vp'] r]. intro E. eexists. eapply MP, E. Qed.
  (** what can move without buffers can move with them *)
  Lemma kact_moves {R} (P : aproc R) pend q r : kact P q = Some r -> exists r', aact auto P pend q = Some r'.
  Proof.
    destruct P as [v|bs k|t len k|k|b k]; cbn [kact aact]; intro E; try discriminate; eauto.
    destruct (auto && negb (is_nil pend)); [eauto|]. destruct (Nat.ltb (length q) len); [discriminate|eauto].
  Qed.
  Lemma progress (n : net) w s : (forall b k, m_p n <> QCoin b k) -> disc n -> kstep coins w (view n) s -> exists n', pstep auto coins n n'.
  Proof.
    intros NC [D1 D2] Hs. destruct (is_nil (m_ps n)) eqn:E1.
    - destruct (is_nil (m_vs n)) eqn:E2.
      + destruct n as [P V ps vs pv vp rd c0 c1]. cbn [m_p m_v m_ps m_vs] in *. destruct ps; [|discriminate]. destruct vs; [|discriminate].
        unfold view in Hs. cbn [m_p m_v m_ps m_vs m_pv m_vp m_reads m_c0 m_c1] in Hs. rewrite !app_nil_r in Hs. inversion Hs; subst.
        * match goal with E : kact _ _ = Some _ |- _ => destruct (kact_moves _ [] _ _ E) as [r' X] end. eapply p_moves. exact X.
        * match goal with E : kact _ _ = Some _ |- _ => destruct (kact_moves _ [] _ _ E) as [r' X] end. eapply v_moves. exact X.
        * eapply coin_moves. reflexivity.
        * eapply coin_moves. reflexivity.
      + destruct (dirty_moves (m_v n) (m_vs n) (m_pv n)) as [(b & k & E)|[r E]].
        * now destruct (m_vs n).
        * rewrite E2. exact D2.
        * eapply coin_moves; eauto.
        * eapply v_moves; eauto.
    - destruct (dirty_moves (m_p n) (m_ps n) (m_vp n)) as [(b & k & E)|[r E]].
      + now destruct (m_ps n).
      + rewrite E1. exact D1.
      + elim (NC b k E).
      + eapply p_moves; eauto.
  Qed.

  (** if one schedule of the unbuffered programs completes, every buffered run is finite, never stuck, and ends there *)
  Fixpoint coinless {R : Type} (P : aproc R) : Prop :=
    match P with
    | QDone _ => True
    | QPut _ k | QFlush k => coinless k
    | QGet _ _ k => forall x, coinless (k x)
    | QCoin _ _ => False
    end.
  Lemma aact_coinless {R} (P P' : aproc R) pend pend' q q' o r : aact auto P pend q = Some (P', pend', o, q', r) -> coinless P -> coinless P'.
  Proof.
    destruct P as [v|bs k|t len k|k|b k]; cbn [aact]; intro E; try discriminate; intro F.
    - injection E as <- <- <- <- <-. exact F.
    - destruct (auto && negb (is_nil pend)); [injection E as <- <- <- <- <-; exact F|].
      destruct (Nat.ltb (length q) len); [discriminate|]. injection E as <- <- <- <- <-. apply F.
    - injection E as <- <- <- <- <-. exact F.
  Qed.
  Theorem every_schedule (P : aproc RP) (V : aproc RV) bound rp rv rd c0 c1 :
    coinless P -> flushed auto false P -> flushed auto false V ->
    kruns coins bound (K P V [] [] [] 0 0) (K (QDone rp) (QDone rv) [] [] rd c0 c1) ->
    forall k n, msteps auto coins k (m_init P V) n ->
      k <= bound /\
      ((exists n', pstep auto coins n n') \/
       n = {| m_p := QDone rp; m_v := QDone rv; m_ps := []; m_vs := []; m_pv := []; m_vp := []; m_reads := rd; m_c0 := c0; m_c1 := c1 |}).
  Proof.
    intros CL FP FV R k n Hn. set (f := K (QDone rp) (QDone rv) [] [] rd c0 c1) in *.
    assert (D : kdone f) by exact I.
    assert (INV : coinless (m_p n) /\ disc n /\ exists m, kruns coins m (view n) f /\ k + m + held n <= bound).
    { remember (m_init P V) as n0 eqn:E0. induction Hn as [n|k n n1 n2 Hn IH Hs].
      - subst. split; [exact CL|]. split; [split; assumption|]. exists bound. split; [exact R|]. unfold held. cbn. lia.
      - destruct (IH E0) as (C & Dn & m & Rm & L). split; [|split].
        + destruct Hs as [n1 n2 M|P0 V0 a b vs pv vp rd0 x0 x1 Ha|P0 V0 ps a b pv vp rd0 x0 x1 Ha]; [|exact C|exact C].
          destruct M; cbn [m_p] in *; auto. eapply aact_coinless; eauto.
        + eapply step_disc; eauto.
        + destruct (step_view _ _ Hs) as [[-> Lh]|(w & Kw & Lh)].
          * exists m. split; [exact Rm|lia].
          * destruct (completes_step coins _ _ _ Rm D _ _ Kw) as (m' & -> & R'). exists m'. split; [exact R'|lia]. }
    destruct INV as (C & Dn & m & Rm & L). split; [lia|]. destruct (kruns_cases _ _ _ _ Rm) as [E3|(w & s' & Hs)].
    - right. clear L Rm Hn. destruct n as [P0 V0 ps vs pv vp rd0 x0 x1]. unfold view in E3. cbn in E3. unfold f in E3. injection E3 as -> -> E4 E5 -> -> ->.
      apply app_eq_nil in E4, E5. destruct E4 as [-> ->], E5 as [-> ->]. reflexivity.
    - left. eapply progress; eauto. intros b k' E. rewrite E in C. exact C.
  Qed.
End Buffered.
