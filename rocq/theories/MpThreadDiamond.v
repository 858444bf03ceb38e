(** Steps of different threads commute when they do not clash, so one complete execution decides all. *)
From Coq Require Import NArith List Bool Arith Lia.
From Verif Require Import MpThreadModel MpThreadSpec.
Import ListNotations.

Definition eqv (s s' : st) : Prop :=
  (forall x, s_mem s x = s_mem s' x) /\ (forall x, s_out s x = s_out s' x) /\
  (forall x, s_net s x = s_net s' x) /\ (forall x, s_tok s x = s_tok s' x).
Lemma eqv_refl s : eqv s s. Proof. repeat split; auto. Qed.
Lemma eqv_sym s s' : eqv s s' -> eqv s' s. Proof. intros (A & B & C & D). repeat split; intro; symmetry; auto. Qed.
Lemma eqv_trans a b c : eqv a b -> eqv b c -> eqv a c.
Proof.
  intros (A & B & C & D) (A' & B' & C' & D'). repeat split; intro x;
    [rewrite A; apply A'|rewrite B; apply B'|rewrite C; apply C'|rewrite D; apply D'].
Qed.
Ltac decs := repeat match goal with
  | |- context [loc_dec ?a ?b] => destruct (loc_dec a b)
  | |- context [chan_dec ?a ?b] => destruct (chan_dec a b)
  | |- context [tok_dec ?a ?b] => destruct (tok_dec a b)
  end.
Ltac eqv4 := split; [|split; [|split]]; intro; cbn [s_mem s_out s_net s_tok set_mem set_out set_net set_tok flush].
Section Diamond.
  Variable cap : nat.
  (** the effect of a send or flush on its connection *)
  Definition pushed (s : st) (c : chan) (o a : list N) : st := set_out (set_net s c (s_net s c ++ a)) c o.
  Definition sent (o : list N) (v : N) : list N * list N :=
    if Nat.leb cap (length (o ++ [v])) then ([], o ++ [v]) else (o ++ [v], []).
  Lemma send_pushed s c v : eqv (send cap s c v) (pushed s c (fst (sent (s_out s c) v)) (snd (sent (s_out s c) v))).
  Proof.
    unfold send, sent. cbn [s_out set_out]. destruct (chan_dec c c); [|congruence].
    destruct (Nat.leb cap (length (s_out s c ++ [v]))); cbn [fst snd]; unfold pushed; eqv4; auto; decs; subst; auto; try congruence.
    now rewrite app_nil_r.
  Qed.
  Lemma flush_pushed s c : eqv (flush s c) (pushed s c [] (s_out s c)).
  Proof. apply eqv_refl. Qed.
  Lemma pushed_eqv s s' c o a : eqv s s' -> eqv (pushed s c o a) (pushed s' c o a).
  Proof. intros (A & B & C & D). unfold pushed. eqv4; auto; decs; subst; auto; now rewrite C. Qed.
  Lemma set_mem_eqv s s' l v : eqv s s' -> eqv (set_mem s l v) (set_mem s' l v).
  Proof. intros (A & B & C & D). eqv4; auto; decs; auto. Qed.
  Lemma set_net_eqv s s' l v : eqv s s' -> eqv (set_net s l v) (set_net s' l v).
  Proof. intros (A & B & C & D). eqv4; auto; decs; auto. Qed.
  Lemma set_tok_eqv s s' l v : eqv s s' -> eqv (set_tok s l v) (set_tok s' l v).
  Proof. intros (A & B & C & D). eqv4; auto; decs; auto. Qed.
  Lemma send_eqv s s' c v : eqv s s' -> eqv (send cap s c v) (send cap s' c v).
  Proof.
    intro E. eapply eqv_trans; [apply send_pushed|]. eapply eqv_trans; [|apply eqv_sym, send_pushed].
    destruct E as (A & B & C & D). rewrite (B c). apply pushed_eqv. repeat split; auto.
  Qed.
  Lemma flush_eqv s s' c : eqv s s' -> eqv (flush s c) (flush s' c).
  Proof.
    intro E. eapply eqv_trans; [apply flush_pushed|]. eapply eqv_trans; [|apply eqv_sym, flush_pushed].
    destruct E as (A & B & C & D). rewrite (B c). apply pushed_eqv. repeat split; auto.
  Qed.
  Lemma act_eqv s s' p s1 p1 : eqv s s' -> act cap s p = Some (s1, p1) -> exists s1', act cap s' p = Some (s1', p1) /\ eqv s1 s1'.
  Proof.
    intros E H. pose proof E as (A & B & C & D). destruct p; cbn [act] in *; try discriminate.
    - injection H as <- <-. rewrite (A l). eauto.
    - injection H as <- <-. eexists. split; [reflexivity|]. now apply set_mem_eqv.
    - injection H as <- <-. eexists. split; [reflexivity|]. now apply send_eqv.
    - injection H as <- <-. eexists. split; [reflexivity|]. now apply flush_eqv.
    - rewrite <- (C c). destruct (s_net s c); [discriminate|]. injection H as <- <-. eexists. split; [reflexivity|]. now apply set_net_eqv.
    - injection H as <- <-. rewrite (D t). eexists. split; [reflexivity|]. now apply set_tok_eqv.
    - rewrite <- (D t). destruct (s_tok s t); [discriminate|]. injection H as <- <-. eexists. split; [reflexivity|]. now apply set_tok_eqv.
  Qed.

  (** every action is one of five effects *)
  Inductive eff := ENone | EMem (l : loc) (v : N) | EPush (c : chan) (o a : list N) | EPop (c : chan) | ETok (t : tok) (up : bool).
  Definition apply_eff (s : st) (e : eff) : st :=
    match e with
    | ENone => s
    | EMem l v => set_mem s l v
    | EPush c o a => pushed s c o a
    | EPop c => set_net s c (tl (s_net s c))
    | ETok t up => set_tok s t (if up then S (s_tok s t) else pred (s_tok s t))
    end.
  Definition eff_of (s : st) (p : prog) : eff :=
    match p with
    | Done | Read _ _ => ENone
    | Write l v _ => EMem l v
    | Send c v _ => EPush c (fst (sent (s_out s c) v)) (snd (sent (s_out s c) v))
    | Flush c _ => EPush c [] (s_out s c)
    | Recv c _ => EPop c
    | Signal t _ => ETok t true
    | Await t _ => ETok t false
    end.
  Lemma act_eff s p s1 p1 : act cap s p = Some (s1, p1) -> eqv s1 (apply_eff s (eff_of s p)).
  Proof.
    destruct p; cbn [act eff_of apply_eff]; intro H; try discriminate.
    - injection H as <- <-. apply eqv_refl.
    - injection H as <- <-. apply eqv_refl.
    - injection H as <- <-. apply send_pushed.
    - injection H as <- <-. apply flush_pushed.
    - destruct (s_net s c) eqn:E; [discriminate|]. injection H as <- <-. cbn [tl]. apply eqv_refl.
    - injection H as <- <-. apply eqv_refl.
    - destruct (s_tok s t) eqn:E; [discriminate|]. injection H as <- <-. cbn [pred]. apply eqv_refl.
  Qed.
  (** effects of actions that do not clash leave each other enabled, unchanged, and commute *)
  Lemma act_stable s p q s1 p1 s2 q1 : ~ clash p q -> act cap s p = Some (s1, p1) -> act cap s q = Some (s2, q1) ->
    exists s3, act cap s2 p = Some (s3, p1) /\ eqv s3 (apply_eff s2 (eff_of s p)).
  Proof.
    intros N Hp Hq. pose proof (act_eff _ _ _ _ Hq) as (A & B & C & D).
    assert (X : exists s3, act cap s2 p = Some (s3, p1) /\ eff_of s2 p = eff_of s p).
    { destruct p; cbn [act eff_of] in *; try discriminate.
      - injection Hp as <- <-. exists s2. split; [|reflexivity].
        assert (E : s_mem s2 l = s_mem s l).
        { rewrite A. destruct q; cbn [eff_of apply_eff pushed set_mem set_out set_net set_tok s_mem clash] in *; try reflexivity. decs; congruence. }
        now rewrite E.
      - injection Hp as <- <-. eexists. split; reflexivity.
      - injection Hp as <- <-. eexists. split; [reflexivity|].
        assert (E : s_out s2 c = s_out s c).
        { rewrite B. destruct q; cbn [eff_of apply_eff pushed set_mem set_out set_net set_tok s_out clash] in *; try reflexivity; decs; congruence. }
        now rewrite E.
      - injection Hp as <- <-. eexists. split; [reflexivity|].
        assert (E : s_out s2 c = s_out s c).
        { rewrite B. destruct q; cbn [eff_of apply_eff pushed set_mem set_out set_net set_tok s_out clash] in *; try reflexivity; decs; congruence. }
        now rewrite E.
      - destruct (s_net s c) as [|v vs] eqn:E; [discriminate|]. injection Hp as <- <-.
        assert (E2 : exists vs', s_net s2 c = v :: vs').
        { rewrite C. destruct q; cbn [eff_of apply_eff pushed set_mem set_out set_net set_tok s_net clash] in *; try (eexists; exact E);
            decs; subst; try (eexists; exact E); try (rewrite E; cbn [app]; eauto); try congruence. }
        destruct E2 as [vs' E2]. rewrite E2. eauto.
      - injection Hp as <- <-. eexists. split; reflexivity.
      - destruct (s_tok s t) as [|n] eqn:E; [discriminate|]. injection Hp as <- <-.
        assert (E2 : exists n', s_tok s2 t = S n').
        { rewrite D. destruct q; cbn [eff_of apply_eff pushed set_mem set_out set_net set_tok s_tok clash] in *; try (eexists; exact E);
            decs; subst; try (eexists; exact E); try (rewrite E; cbn [pred]; eauto); try congruence. }
        destruct E2 as [n' E2]. rewrite E2. eauto. }
    destruct X as [s3 [X1 X2]]. exists s3. split; [exact X1|]. rewrite <- X2. now apply (act_eff _ _ _ _ X1).
  Qed.
  Lemma apply_eqv s s' e : eqv s s' -> eqv (apply_eff s e) (apply_eff s' e).
  Proof.
    intro E. pose proof E as (A & B & C & D). destruct e; cbn [apply_eff]; auto using set_mem_eqv, pushed_eqv.
    - rewrite (C c). now apply set_net_eqv.
    - rewrite (D t). now apply set_tok_eqv.
  Qed.
  Lemma eff_commute s p q s1 p1 s2 q1 : ~ clash p q -> act cap s p = Some (s1, p1) -> act cap s q = Some (s2, q1) ->
    eqv (apply_eff (apply_eff s (eff_of s p)) (eff_of s q)) (apply_eff (apply_eff s (eff_of s q)) (eff_of s p)).
  Proof.
    intros N Hp Hq.
    destruct p; cbn [act] in Hp; try discriminate; destruct q; cbn [act] in Hq; try discriminate; cbn [clash] in N;
      cbn [eff_of apply_eff pushed set_mem set_out set_net set_tok s_mem s_out s_net s_tok];
      try apply eqv_refl;
      (unfold pushed; eqv4; try reflexivity; decs; subst; try congruence; try reflexivity);
      try (match goal with H : context [s_net ?s ?c] |- _ => destruct (s_net s c) eqn:?; [discriminate|] end; reflexivity);
      try (match goal with H : context [s_tok ?s ?c] |- _ => destruct (s_tok s c) eqn:?; [discriminate|] end; reflexivity).
  Qed.
  Lemma commute s p q s1 p1 s2 q1 : ~ clash p q -> ~ clash q p -> act cap s p = Some (s1, p1) -> act cap s q = Some (s2, q1) ->
    exists a c, act cap s2 p = Some (a, p1) /\ act cap s1 q = Some (c, q1) /\ eqv a c.
  Proof.
    intros N N' Hp Hq. destruct (act_stable _ _ _ _ _ _ _ N Hp Hq) as [a [Ha Ea]].
    destruct (act_stable _ _ _ _ _ _ _ N' Hq Hp) as [c [Hc Ec]]. exists a, c. repeat split; auto;
    pose proof (act_eff _ _ _ _ Hp) as E1; pose proof (act_eff _ _ _ _ Hq) as E2;
    pose proof (apply_eqv _ _ (eff_of s p) E2) as F2; pose proof (apply_eqv _ _ (eff_of s q) E1) as F1;
    pose proof (eff_commute _ _ _ _ _ _ _ N Hp Hq) as Z;
    (assert (X : eqv a c) by (eapply eqv_trans; [exact Ea|]; eapply eqv_trans; [exact F2|]; eapply eqv_trans; [apply eqv_sym, Z|]; eapply eqv_trans; [apply eqv_sym, F1|]; apply eqv_sym, Ec)); apply X.
  Qed.

  (** configurations *)
  Definition ceq (c c' : conf) : Prop := eqv (fst c) (fst c') /\ forall x, snd c x = snd c' x.
  Lemma ceq_refl c : ceq c c. Proof. split; [apply eqv_refl|auto]. Qed.
  Lemma ceq_sym a b : ceq a b -> ceq b a. Proof. intros [A B]. split; [now apply eqv_sym|intro; symmetry; auto]. Qed.
  Lemma ceq_trans a b c : ceq a b -> ceq b c -> ceq a c.
  Proof. intros [A B] [A' B']. split; [eapply eqv_trans; eauto|intro; rewrite B; auto]. Qed.
  Lemma step_ceq t c d c1 : ceq c d -> step cap t c c1 -> exists d1, step cap t d d1 /\ ceq c1 d1.
  Proof.
    intros [A B] [p' [H U]]. destruct (act_eqv _ (fst d) _ _ _ A H) as [s1 [H1 E1]]. rewrite (B t) in H1.
    exists (s1, upd (snd d) t p'). split; [exists p'; auto|]. split; [exact E1|]. intro x. rewrite U. cbn [snd]. unfold upd. destruct (tid_dec x t); auto.
  Qed.
  Lemma steps_ceq n : forall c d c1, ceq c d -> steps cap n c c1 -> exists d1, steps cap n d d1 /\ ceq c1 d1.
  Proof.
    induction n as [|n IH]; intros c d c1 E H; inversion H as [c0|n0 t c0 c' c'' H1 H2]; subst; [exists d; split; [constructor|exact E]|].
    destruct (step_ceq _ _ _ _ E H1) as [d' [H3 E']]. destruct (IH _ _ _ E' H2) as [d1 [H4 E1]]. exists d1. split; [econstructor; eauto|exact E1].
  Qed.
  Lemma step_det t c c1 c2 : step cap t c c1 -> step cap t c c2 -> ceq c1 c2.
  Proof.
    intros [p [H U]] [q [H' U']]. rewrite H in H'. injection H' as E <-. split; [rewrite E; apply eqv_refl|]. intro x. now rewrite U, U'.
  Qed.
  Lemma diamond t t' c c1 c2 : t <> t' -> ~ race (snd c) -> step cap t c c1 -> step cap t' c c2 ->
    exists d1 d2, step cap t' c1 d1 /\ step cap t c2 d2 /\ ceq d1 d2.
  Proof.
    intros N R [p [H U]] [q [H' U']].
    assert (R1 : ~ clash (snd c t) (snd c t')) by (intro X; apply R; exists t, t'; auto).
    assert (R2 : ~ clash (snd c t') (snd c t)) by (intro X; apply R; exists t', t; auto).
    destruct (commute _ _ _ _ _ _ _ R1 R2 H H') as (a & e & Ha & He & E).
    assert (V1 : snd c1 t' = snd c t') by (rewrite U; unfold upd; destruct (tid_dec t' t); congruence).
    assert (V2 : snd c2 t = snd c t) by (rewrite U'; unfold upd; destruct (tid_dec t t'); congruence).
    exists (e, upd (snd c1) t' q), (a, upd (snd c2) t p). split; [exists q; rewrite V1; auto|]. split; [exists p; rewrite V2; auto|].
    split; [now apply eqv_sym|]. intro x. cbn [snd]. unfold upd. rewrite U, U'. unfold upd.
    destruct (tid_dec x t'), (tid_dec x t); subst; congruence.
  Qed.
  Lemma done_stuck t c c' : all_done (snd c) -> ~ step cap t c c'.
  Proof. intros D [p [H _]]. rewrite D in H. discriminate. Qed.
  Lemma race_ceq c d : ceq c d -> race (snd c) -> race (snd d).
  Proof. intros [_ B] (t & t' & N & C). exists t, t'. split; [exact N|]. now rewrite <- !B. Qed.

  (** a set of configurations closed under steps and without races *)
  Variable Safe : conf -> Prop.
  Hypothesis safe_step : forall t c c', Safe c -> step cap t c c' -> Safe c'.
  Hypothesis safe_race : forall c, Safe c -> ~ race (snd c).
  Lemma descent T : forall c f t c1, Safe c -> steps cap T c f -> all_done (snd f) -> step cap t c c1 ->
    exists T' f1, T = S T' /\ steps cap T' c1 f1 /\ ceq f f1.
  Proof.
    induction T as [|T IH]; intros c f t c1 S H D H1; inversion H as [c0|n0 t2 c0 c2 c'' H2 H3]; subst.
    - exfalso. exact (done_stuck _ _ _ D H1).
    - exists T. destruct (tid_dec t t2) as [->|N].
      + destruct (steps_ceq _ _ _ _ (step_det _ _ _ _ H2 H1) H3) as [f1 [H4 E]]. eauto.
      + destruct (diamond _ _ _ _ _ N (safe_race _ S) H1 H2) as (d1 & d2 & K1 & K2 & E).
        destruct (IH _ _ _ _ (safe_step _ _ _ S H2) H3 D K2) as (T' & f1 & -> & H4 & E1).
        destruct (steps_ceq _ _ _ _ (ceq_sym _ _ E) H4) as [f2 [H5 E2]]. exists f2. split; [reflexivity|].
        split; [econstructor; eauto|eapply ceq_trans; eauto].
  Qed.
  Lemma descents n : forall T c f c', Safe c -> steps cap T c f -> all_done (snd f) -> steps cap n c c' ->
    Safe c' /\ exists T' f1, T = n + T' /\ steps cap T' c' f1 /\ ceq f f1.
  Proof.
    induction n as [|n IH]; intros T c f c' S H D H1; inversion H1 as [c0|n0 t c0 c1 c'' H2 H3]; subst.
    - split; [exact S|]. exists T, f. repeat split; auto using eqv_refl.
    - destruct (descent _ _ _ _ _ S H D H2) as (T1 & f1 & -> & H4 & E1).
      assert (D1 : all_done (snd f1)) by (intro x; destruct E1 as [_ E1]; now rewrite <- E1).
      destruct (IH _ _ _ _ (safe_step _ _ _ S H2) H4 D1 H3) as [S' (T2 & f2 & -> & H5 & E2)].
      split; [exact S'|]. exists T2, f2. split; [reflexivity|]. split; [exact H5|eapply ceq_trans; eauto].
  Qed.
  Theorem independent c T f (Q : (loc -> N) -> Prop) : Safe c -> steps cap T c f -> all_done (snd f) -> clean (fst f) ->
    (forall m, (forall x, m x = s_mem (fst f) x) -> Q m) -> pair_independent cap c Q.
  Proof.
    intros S H D CL HQ. constructor.
    - intros n c' H1. destruct (descents _ _ _ _ _ S H D H1) as [S' _]. now apply safe_race.
    - exists T. intros n c' H1. destruct (descents _ _ _ _ _ S H D H1) as [S' (T' & f1 & -> & H2 & E)].
      split; [lia|]. split; [split|].
      + intro X. assert (T' = 0) by lia. subst T'. inversion H2; subst. intro x. destruct E as [_ E]. now rewrite <- E.
      + intro X. destruct T'; [lia|]. inversion H2 as [|n0 t c0 c1 c'' H3 H4]; subst. exfalso. exact (done_stuck _ _ _ X H3).
      + intro X. destruct T'; [lia|]. inversion H2 as [|n0 t c0 c1 c'' H3 H4]; subst. eauto.
    - intros n c' H1 X. destruct (descents _ _ _ _ _ S H D H1) as [S' (T' & f1 & -> & H2 & E)].
      destruct T'; [|inversion H2 as [|n0 t c0 c1 c'' H3 H4]; subst; exfalso; exact (done_stuck _ _ _ X H3)].
      inversion H2; subst. destruct E as [(A & B & C & F) _]. split.
      + destruct CL as [C1 C2]. split; [intro x; rewrite <- B, <- C; apply C1|intro x; rewrite <- F; apply C2].
      + apply HQ. intro x. symmetry. apply A.
  Qed.
End Diamond.
