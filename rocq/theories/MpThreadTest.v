(** Executions of the threads for given schedules, and wrong programs that the property excludes (C52). *)
From Coq Require Import NArith List Bool Arith Lia.
From Verif Require Import Word FpModel TreeModel VoleModel MpThreadModel MpThreadSpec MpThreadDiamond MpThreadRun.
Import ListNotations.

(** * Schedules *)
Definition one (cap : nat) (t : tid) (c : conf) : option conf :=
  match act cap (fst c) (snd c t) with Some (s, p) => Some (s, upd (snd c) t p) | None => None end.
(** [t] runs until its next action satisfies [stop], or until it has to wait *)
Fixpoint until (cap : nat) (stop : prog -> bool) (fuel : nat) (t : tid) (c : conf) : conf :=
  match fuel with
  | 0 => c
  | S f => if stop (snd c t) then c else match one cap t c with Some c' => until cap stop f t c' | None => c end
  end.
Fixpoint script (cap fuel : nat) (l : list (tid * (prog -> bool))) (c : conf) : conf :=
  match l with [] => c | (t, stop) :: l' => script cap fuel l' (until cap stop fuel t c) end.
Definition never (p : prog) : bool := false.
Definition at_send (ch : chan) (p : prog) : bool := match p with Send c _ _ => if chan_dec c ch then true else false | _ => false end.
Definition at_write (l : loc) (p : prog) : bool := match p with Write x _ _ => if loc_dec x l then true else false | _ => false end.
Definition at_read (l : loc) (p : prog) : bool := match p with Read x _ => if loc_dec x l then true else false | _ => false end.
Definition is_done (p : prog) : bool := match p with Done => true | _ => false end.
Definition blocked (cap : nat) (c : conf) (t : tid) : bool := match act cap (fst c) (snd c t) with None => true | Some _ => false end.

Lemma steps_app cap n k a b c : steps cap n a b -> steps cap k b c -> steps cap (n + k) a c.
Proof. induction 1; intro B; cbn; [exact B|econstructor; eauto]. Qed.
Lemma one_step cap t c c' : one cap t c = Some c' -> step cap t c c'.
Proof. unfold one. destruct (act cap (fst c) (snd c t)) as [[s p]|] eqn:E; [|discriminate]. intro Q. injection Q as <-. exists p. split; [exact E|reflexivity]. Qed.
Lemma until_steps cap stop fuel t : forall c, exists n, steps cap n c (until cap stop fuel t c).
Proof.
  induction fuel as [|f IH]; intro c; cbn [until]; [exists 0; constructor|]. destruct (stop (snd c t)); [exists 0; constructor|].
  destruct (one cap t c) as [c'|] eqn:E; [|exists 0; constructor]. destruct (IH c') as [n Hn]. exists (S n). econstructor; [apply one_step; eauto|exact Hn].
Qed.
Lemma script_steps cap fuel l : forall c, exists n, steps cap n c (script cap fuel l c).
Proof.
  induction l as [|[t stop] l IH]; intro c; cbn [script]; [exists 0; constructor|].
  destruct (until_steps cap stop fuel t c) as [n Hn]. destruct (IH (until cap stop fuel t c)) as [k Hk]. exists (n + k). eapply steps_app; eauto.
Qed.
Lemma until_other cap stop fuel t x : x <> t -> forall c, snd (until cap stop fuel t c) x = snd c x.
Proof.
  intro Hx. induction fuel as [|f IH]; intro c; cbn [until]; [reflexivity|]. destruct (stop (snd c t)); [reflexivity|].
  unfold one. destruct (act cap (fst c) (snd c t)) as [[s p]|]; [|reflexivity]. rewrite IH. cbn [snd]. now apply upd_other.
Qed.
Lemma script_other cap fuel x l : (forall e, In e l -> fst e <> x) -> forall c, snd (script cap fuel l c) x = snd c x.
Proof.
  induction l as [|[t stop] l IH]; intros Hx c; cbn [script]; [reflexivity|]. rewrite IH by (intros; apply Hx; now right).
  apply until_other. intro E. now apply (Hx (t, stop) (or_introl eq_refl)).
Qed.
(** a script that ends with nothing able to move refutes the property unless everything has ended *)
Lemma stuck_refutes cap c l fuel Q t0 : (forall t, ~ In t (map fst l) -> snd c t = Done) ->
  forallb (blocked cap (script cap fuel l c)) (map fst l) = true -> is_done (snd (script cap fuel l c) t0) = false -> ~ pair_independent cap c Q.
Proof.
  intros D B N [_ [T HT] _]. destruct (script_steps cap fuel l c) as [n Hn]. destruct (HT n _ Hn) as (A & E & F).
  destruct (Nat.eq_dec n T) as [->|NE].
  - pose proof (proj1 E eq_refl t0) as X. rewrite X in N. discriminate.
  - destruct (F ltac:(lia)) as (t & c' & p & X & _). destruct (in_dec tid_dec t (map fst l)) as [I|I].
    + rewrite forallb_forall in B. specialize (B t I). unfold blocked in B. rewrite X in B. discriminate.
    + rewrite script_other in X; [rewrite (D t I) in X; discriminate|]. intros e Ie E0. apply I. rewrite <- E0. now apply in_map.
Qed.
(** a script after which two threads are about to do the same thing to one resource refutes it *)
Definition clash_b (p q : prog) : bool :=
  match p, q with
  | Read l _, Write l' _ _ | Write l _ _, Read l' _ | Write l _ _, Write l' _ _ => if loc_dec l l' then true else false
  | Send c _ _, Send c' _ _ => if chan_dec c c' then true else false
  | _, _ => false
  end.
Lemma clash_ok p q : clash_b p q = true -> clash p q.
Proof. destruct p, q; cbn; try discriminate; try (destruct (loc_dec _ _); [auto|discriminate]); destruct (chan_dec _ _); [auto|discriminate]. Qed.
Lemma race_refutes cap c l fuel Q t t' : t <> t' ->
  clash_b (snd (script cap fuel l c) t) (snd (script cap fuel l c) t') = true -> ~ pair_independent cap c Q.
Proof. intros N E [X _ _]. destruct (script_steps cap fuel l c) as [n Hn]. apply (X n _ Hn). exists t, t'. split; [exact N|now apply clash_ok]. Qed.

(** * Wrong programs *)
(** connection [a] used in place of connection [b] *)
Fixpoint rechannel (f : nat -> nat) (p : prog) : prog :=
  match p with
  | Done => Done
  | Read l k => Read l (fun v => rechannel f (k v))
  | Write l v k => Write l v (rechannel f k)
  | Send c v k => Send (fst c, f (snd c)) v (rechannel f k)
  | Flush c k => Flush (fst c, f (snd c)) (rechannel f k)
  | Recv c k => Recv (fst c, f (snd c)) (fun v => rechannel f (k v))
  | Signal t k => Signal t (rechannel f k)
  | Await t k => Await t (rechannel f k)
  end.
(** no flush *)
Fixpoint no_flush (p : prog) : prog :=
  match p with
  | Done => Done
  | Read l k => Read l (fun v => no_flush (k v))
  | Write l v k => Write l v (no_flush k)
  | Send c v k => Send c v (no_flush k)
  | Flush c k => no_flush k
  | Recv c k => Recv c (fun v => no_flush (k v))
  | Signal t k => Signal t (no_flush k)
  | Await t k => Await t (no_flush k)
  end.
(** no future::get *)
Fixpoint no_get (p : prog) : prog :=
  match p with
  | Done => Done
  | Read l k => Read l (fun v => no_get (k v))
  | Write l v k => Write l v (no_get k)
  | Send c v k => Send c v (no_get k)
  | Flush c k => Flush c (no_get k)
  | Recv c k => Recv c (fun v => no_get (k v))
  | Signal t k => Signal t (no_get k)
  | Await (Back sd ph i) k => no_get k
  | Await t k => Await t (no_get k)
  end.
