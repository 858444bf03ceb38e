(** Permissions that travel with the start and the end of tasks: programs that keep to them never race. *)
From Coq Require Import NArith List Bool Arith Lia.
From Verif Require Import MpThreadModel MpThreadSpec MpThreadDiamond.
Import ListNotations.

Inductive res := RMem (l : loc) | RSend (c : chan) | RRecv (c : chan) | RSig (t : tok) | RWait (t : tok).
Definition rset : Type := res -> Prop.
Section Perm.
  Variable cap : nat.
  Variables go gs : tok -> rset.   (* what a signal hands over for exclusive use / for reading *)
  Hypothesis go_sig : forall t, go t (RSig t).
  Fixpoint fit (own shr : rset) (p : prog) : Prop :=
    match p with
    | Done => True
    | Read l k => (own (RMem l) \/ shr (RMem l)) /\ forall v, fit own shr (k v)
    | Write l _ k => own (RMem l) /\ fit own shr k
    | Send c _ k | Flush c k => own (RSend c) /\ fit own shr k
    | Recv c k => own (RRecv c) /\ forall v, fit own shr (k v)
    | Signal t k => own (RSig t) /\ (forall r, go t r -> own r /\ ~ shr r /\ ~ gs t r) /\ (forall r, gs t r -> own r \/ shr r) /\
        fit (fun r => own r /\ ~ go t r /\ ~ gs t r) (fun r => shr r \/ gs t r) k
    | Await t k => own (RWait t) /\ fit (fun r => own r \/ go t r) (fun r => shr r \/ gs t r) k
    end.
  Lemma fit_mono p : forall own shr own' shr' : rset, (forall r, own r -> own' r) -> (forall r, shr r <-> shr' r) -> fit own shr p -> fit own' shr' p.
  Proof.
    induction p as [|l k IH|l v k IH|c v k IH|c k IH|c k IH|t k IH|t k IH]; intros own shr own' shr' A B H; cbn [fit] in *; auto.
    - destruct H as [H1 H2]. split; [rewrite <- B; destruct H1; auto|]. intro v. eapply IH; eauto.
    - destruct H as [H1 H2]. split; [auto|eapply IH; eauto].
    - destruct H as [H1 H2]. split; [auto|eapply IH; eauto].
    - destruct H as [H1 H2]. split; [auto|eapply IH; eauto].
    - destruct H as [H1 H2]. split; [auto|]. intro v. eapply IH; eauto.
    - destruct H as (H1 & H2 & H3 & H4). split; [auto|].
      split; [intros r Hr; rewrite <- B; destruct (H2 r Hr) as (X & Y & Z); auto|].
      split; [intros r Hr; rewrite <- B; destruct (H3 r Hr); auto|]. eapply IH; [| |exact H4]; cbn; intro r; [|rewrite B; reflexivity].
      intros (X & Y & Z). auto.
    - destruct H as [H1 H2]. split; [auto|]. eapply IH; [| |exact H2]; cbn; intro r; [intros [Hr|Hr]; auto|rewrite B; reflexivity].
  Qed.
  Record perms (own shr : tid -> rset) (c : conf) : Prop := {
    pm_fit : forall t, fit (own t) (shr t) (snd c t);
    pm_apart : forall t t' r, t <> t' -> own t r -> ~ own t' r /\ ~ shr t' r;
    pm_one : forall k, s_tok (fst c) k <= 1;
    pm_go : forall k t r, s_tok (fst c) k = 1 -> go k r -> ~ own t r /\ ~ shr t r;
    pm_gs : forall k t r, s_tok (fst c) k = 1 -> gs k r -> ~ own t r;
    pm_two : forall k k' r, k <> k' -> s_tok (fst c) k = 1 -> s_tok (fst c) k' = 1 -> go k r -> ~ go k' r /\ ~ gs k' r }.
  Definition safe (c : conf) : Prop := exists own shr, perms own shr c.
  Lemma safe_race c : safe c -> ~ race (snd c).
  Proof.
    intros (own & shr & P) (t & t' & N & C). pose proof (pm_fit _ _ _ P t) as F. pose proof (pm_fit _ _ _ P t') as F'.
    pose proof (pm_apart _ _ _ P t t') as A. pose proof (pm_apart _ _ _ P t' t) as A'.
    assert (N' : t' <> t) by congruence.
    destruct (snd c t), (snd c t'); cbn [clash] in C; try contradiction; subst; cbn [fit] in F, F';
      destruct F as [F1 _], F' as [F2 _];
      try (destruct (A _ N F1); tauto); try (destruct (A' _ N' F2); tauto).
  Qed.
  Definition one (f : tid -> rset) (t : tid) (v : rset) : tid -> rset := fun x => if tid_dec x t then v else f x.
  Lemma one_same f t v : one f t v t = v. Proof. unfold one. destruct (tid_dec t t); congruence. Qed.
  Lemma one_other f t v x : x <> t -> one f t v x = f x. Proof. unfold one. destruct (tid_dec x t); congruence. Qed.

  Lemma tok_send s c v : s_tok (send cap s c v) = s_tok s.
  Proof. unfold send. destruct (Nat.leb _ _); reflexivity. Qed.
  (** a step that hands nothing over *)
  Lemma perms_local own shr c c' t p' : perms own shr c -> (forall k, s_tok (fst c') k = s_tok (fst c) k) ->
    (forall x, snd c' x = upd (snd c) t p' x) -> fit (own t) (shr t) p' -> perms own shr c'.
  Proof.
    intros P T U F. constructor.
    - intro x. rewrite U. unfold upd. destruct (tid_dec x t); [subst; exact F|apply (pm_fit _ _ _ P)].
    - apply (pm_apart _ _ _ P).
    - intro k. rewrite T. apply (pm_one _ _ _ P).
    - intros k x r. rewrite T. apply (pm_go _ _ _ P).
    - intros k x r. rewrite T. apply (pm_gs _ _ _ P).
    - intros k k' r. rewrite !T. apply (pm_two _ _ _ P).
  Qed.
  Lemma safe_step t c c' : safe c -> step cap t c c' -> safe c'.
  Proof.
    intros (own & shr & P) (p' & H & U). pose proof (pm_fit _ _ _ P t) as F.
    destruct (snd c t) as [|l k|l v k|h v k|h k|h k|e k|e k]; cbn [act fit] in *; try discriminate.
    - injection H as E <-. exists own, shr. destruct F as [_ F]. eapply perms_local; eauto. intro. now rewrite <- E.
    - injection H as E <-. exists own, shr. destruct F as [_ F]. eapply perms_local; eauto. intro. now rewrite <- E.
    - injection H as E <-. exists own, shr. destruct F as [_ F]. eapply perms_local; eauto. intro. now rewrite <- E, tok_send.
    - injection H as E <-. exists own, shr. destruct F as [_ F]. eapply perms_local; eauto. intro. now rewrite <- E.
    - destruct (s_net (fst c) h); [discriminate|]. injection H as E <-. exists own, shr. destruct F as [_ F]. eapply perms_local; eauto. intro. now rewrite <- E.
    - injection H as E <-. destruct F as (F1 & F2 & F3 & F4).
      assert (Z : s_tok (fst c) e = 0).
      { pose proof (pm_one _ _ _ P e). destruct (Nat.eq_dec (s_tok (fst c) e) 1) as [X|X]; [|lia].
        destruct (pm_go _ _ _ P e t _ X (go_sig e)). contradiction. }
      assert (T : forall x, s_tok (fst c') x = if tok_dec x e then 1 else s_tok (fst c) x).
      { intro x. rewrite <- E. cbn [set_tok s_tok]. destruct (tok_dec x e); [now rewrite Z|reflexivity]. }
      exists (one own t (fun r => own t r /\ ~ go e r /\ ~ gs e r)), (one shr t (fun r => shr t r \/ gs e r)).
      assert (O : forall x r, one own t (fun r => own t r /\ ~ go e r /\ ~ gs e r) x r -> own x r).
      { intros x r. destruct (tid_dec x t) as [->|N]; [rewrite one_same; tauto|rewrite one_other by assumption; auto]. }
      constructor.
      + intro x. rewrite U. unfold upd. destruct (tid_dec x t) as [->|N]; [now rewrite !one_same|].
        rewrite !one_other by assumption. apply (pm_fit _ _ _ P).
      + intros x y r N Hx. destruct (tid_dec x t) as [->|Nx].
        * rewrite one_same in Hx. destruct Hx as (X1 & X2 & X3). rewrite !one_other by congruence. apply (pm_apart _ _ _ P _ _ _ N X1).
        * rewrite one_other in Hx by assumption. destruct (tid_dec y t) as [->|Ny].
          -- rewrite !one_same. destruct (pm_apart _ _ _ P _ _ _ N Hx) as [A B].
             split; [tauto|]. intros [Y|Y]; [tauto|]. destruct (F3 r Y); tauto.
          -- rewrite !one_other by assumption. apply (pm_apart _ _ _ P _ _ _ N Hx).
      + intro x. rewrite T. destruct (tok_dec x e); [lia|apply (pm_one _ _ _ P)].
      + intros x y r. rewrite T. destruct (tok_dec x e) as [->|N]; intros X G.
        * destruct (tid_dec y t) as [->|Ny].
          -- rewrite !one_same. pose proof (F2 r G) as W. tauto.
          -- rewrite !one_other by assumption. destruct (F2 r G) as [W _]. apply (pm_apart _ _ _ P t y r); [congruence|exact W].
        * pose proof (fun y => pm_go _ _ _ P x y r X G) as W. split; [intro Y; apply O in Y; destruct (W y); contradiction|].
          destruct (tid_dec y t) as [->|Ny]; [rewrite one_same|rewrite one_other by assumption; apply W].
          destruct (W t). intros [Y|Y]; [contradiction|]. destruct (F3 r Y); contradiction.
      + intros x y r. rewrite T. destruct (tok_dec x e) as [->|N]; intros X G.
        * destruct (tid_dec y t) as [->|Ny]; [rewrite one_same; tauto|]. rewrite one_other by assumption. intro Y.
          destruct (pm_apart _ _ _ P y t r Ny Y). destruct (F3 r G); contradiction.
        * intro Y. apply O in Y. exact (pm_gs _ _ _ P x y r X G Y).
      + intros x y r N. rewrite !T. destruct (tok_dec x e) as [->|Nx], (tok_dec y e) as [->|Ny]; try congruence; intros X Y G.
        * destruct (F2 r G) as [W _]. split; [intro Z'; destruct (pm_go _ _ _ P y t r Y Z'); contradiction|intro Z'; now apply (pm_gs _ _ _ P y t r Y Z')].
        * destruct (pm_go _ _ _ P x t r X G) as [W1 W2]. split; [intro Z'; destruct (F2 r Z'); contradiction|intro Z'; destruct (F3 r Z'); contradiction].
        * now apply (pm_two _ _ _ P x y r).
    - destruct (s_tok (fst c) e) as [|n] eqn:Z; [discriminate|]. injection H as E <-. destruct F as [F1 F2].
      assert (Z1 : s_tok (fst c) e = 1) by (pose proof (pm_one _ _ _ P e); lia). assert (n = 0) by lia. subst n.
      assert (T : forall x, s_tok (fst c') x = if tok_dec x e then 0 else s_tok (fst c) x).
      { intro x. rewrite <- E. cbn [set_tok s_tok]. destruct (tok_dec x e); reflexivity. }
      exists (one own t (fun r => own t r \/ go e r)), (one shr t (fun r => shr t r \/ gs e r)).
      constructor.
      + intro x. rewrite U. unfold upd. destruct (tid_dec x t) as [->|N]; [now rewrite !one_same|].
        rewrite !one_other by assumption. apply (pm_fit _ _ _ P).
      + intros x y r N Hx. destruct (tid_dec x t) as [->|Nx].
        * rewrite one_same in Hx. rewrite !one_other by congruence. destruct Hx as [Hx|Hx].
          -- apply (pm_apart _ _ _ P _ _ _ N Hx).
          -- apply (pm_go _ _ _ P e y r Z1 Hx).
        * rewrite one_other in Hx by assumption. destruct (tid_dec y t) as [->|Ny].
          -- rewrite !one_same. destruct (pm_apart _ _ _ P _ _ _ N Hx) as [A B]. split; intros [Y|Y]; try tauto.
             ++ destruct (pm_go _ _ _ P e x r Z1 Y); contradiction.
             ++ now apply (pm_gs _ _ _ P e x r Z1 Y).
          -- rewrite !one_other by assumption. apply (pm_apart _ _ _ P _ _ _ N Hx).
      + intro x. rewrite T. destruct (tok_dec x e); [lia|apply (pm_one _ _ _ P)].
      + intros x y r. rewrite T. destruct (tok_dec x e) as [->|N]; intros X G; [discriminate|].
        pose proof (fun y => pm_go _ _ _ P x y r X G) as W.
        destruct (tid_dec y t) as [->|Ny]; [rewrite !one_same|rewrite !one_other by assumption; apply W].
        destruct (pm_two _ _ _ P x e r N X Z1 G). destruct (W t). tauto.
      + intros x y r. rewrite T. destruct (tok_dec x e) as [->|N]; intros X G; [discriminate|].
        pose proof (fun y => pm_gs _ _ _ P x y r X G) as W.
        destruct (tid_dec y t) as [->|Ny]; [rewrite one_same|rewrite one_other by assumption; apply W].
        intros [Y|Y]; [now apply (W t)|]. assert (N' : e <> x) by congruence. destruct (pm_two _ _ _ P e x r N' Z1 X Y). contradiction.
      + intros x y r N. rewrite !T. destruct (tok_dec x e) as [->|Nx], (tok_dec y e) as [->|Ny]; try discriminate; try (intros; discriminate).
        apply (pm_two _ _ _ P x y r N).
  Qed.
End Perm.
