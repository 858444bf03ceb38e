(** Runs of single threads and of the phases of mpfss(). *)
From Coq Require Import NArith List Bool Arith Lia.
From Verif Require Import Word FpModel TreeModel VoleModel MpThreadModel MpThreadSpec MpThreadDiamond.
Import ListNotations.

Section Run.
  Variable cap : nat.
  (** one thread alone, up to extensional equality of states *)
  Inductive exec : st -> prog -> st -> prog -> Prop :=
  | exec_0 s s' p : eqv s s' -> exec s p s' p
  | exec_S s p s1 p1 s' p' : act cap s p = Some (s1, p1) -> exec s1 p1 s' p' -> exec s p s' p'.
  Lemma exec_refl s p : exec s p s p. Proof. apply exec_0, eqv_refl. Qed.
  Lemma exec_eqv_l s p s' p' : exec s p s' p' -> forall s0, eqv s0 s -> exec s0 p s' p'.
  Proof.
    induction 1 as [s s' p E|s p s1 p1 s' p' A H IH]; intros s0 E0; [apply exec_0; eapply eqv_trans; eauto|].
    destruct (act_eqv cap _ _ _ _ _ (eqv_sym _ _ E0) A) as (s2 & A2 & E2). eapply exec_S; [exact A2|]. apply IH. now apply eqv_sym.
  Qed.
  Lemma exec_trans a p b q : exec a p b q -> forall c r, exec b q c r -> exec a p c r.
  Proof. induction 1 as [s s' p E|s p s1 p1 s' p' A H IH]; intros c r K; [eapply exec_eqv_l; eauto|]. eapply exec_S; eauto. Qed.
  Lemma exec_eqv_r a p b q c : exec a p b q -> eqv b c -> exec a p c q.
  Proof. intros H E. eapply exec_trans; [exact H|]. now apply exec_0. Qed.
  Lemma exec_1 s p s1 p1 : act cap s p = Some (s1, p1) -> exec s p s1 p1.
  Proof. intro H. eapply exec_S; [exact H|]. apply exec_refl. Qed.

  (** all threads *)
  Definition reach (c d : conf) : Prop := exists n c', steps cap n c c' /\ ceq c' d.
  Lemma reach_refl c d : ceq c d -> reach c d. Proof. intro E. exists 0, c. split; [constructor|exact E]. Qed.
  Lemma steps_app n : forall a b m c, steps cap n a b -> steps cap m b c -> steps cap (n + m) a c.
  Proof. induction n as [|n IH]; intros a b m c H K; inversion H; subst; [exact K|]. cbn. econstructor; eauto. Qed.
  Lemma reach_trans a b c : reach a b -> reach b c -> reach a c.
  Proof.
    intros (n & b1 & H & E) (m & c1 & K & F). destruct (steps_ceq cap _ _ _ _ (ceq_sym _ _ E) K) as (c2 & K2 & F2).
    exists (n + m), c2. split; [eapply steps_app; eauto|]. eapply ceq_trans; [apply ceq_sym, F2|exact F].
  Qed.
  Lemma reach_ceq a b c : reach a b -> ceq b c -> reach a c.
  Proof. intros H E. eapply reach_trans; [exact H|]. now apply reach_refl. Qed.
  Lemma reach_exec s p s' p' : exec s p s' p' -> forall ps t, ps t = p -> reach (s, ps) (s', upd ps t p').
  Proof.
    induction 1 as [s s' p E|s p s1 p1 s' p' A H IH]; intros ps t Ht.
    - apply reach_refl. split; [exact E|]. intro x. cbn. unfold upd. destruct (tid_dec x t); congruence.
    - assert (U : upd ps t p1 t = p1) by (unfold upd; destruct (tid_dec t t); congruence).
      destruct (IH (upd ps t p1) t U) as (n & c' & K & E). exists (S n), c'. split.
      + eapply steps_S; [|exact K]. exists p1. cbn [fst snd]. rewrite Ht. auto.
      + eapply ceq_trans; [exact E|]. split; [apply eqv_refl|]. intro x. cbn. unfold upd. destruct (tid_dec x t); reflexivity.
  Qed.
  Lemma upd_same ps t p : upd ps t p t = p. Proof. unfold upd. destruct (tid_dec t t); congruence. Qed.
  Lemma upd_other ps t p x : x <> t -> upd ps t p x = ps x. Proof. unfold upd. destruct (tid_dec x t); congruence. Qed.

  (** states with nothing buffered and at most one connection in use *)
  Definition arr (m : loc -> N) (sd : side) (a : cell) : mem := fun i => m (sd, a, i).
  Definition cell_eqb (a b : cell) : bool :=
    match a, b with
    | Bits, Bits | Pre, Pre | Tri, Tri | Val, Val | Vec, Vec | Buf, Buf | Chi, Chi | Seed, Seed | Verdict, Verdict => true
    | _, _ => false
    end.
  Definition side_eqb (a b : side) : bool := match a, b with Snd, Snd | Rcv, Rcv => true | _, _ => false end.
  Definition warr (m : loc -> N) (sd : side) (a : cell) (f : mem) : loc -> N :=
    fun l => let '(sd', a', i) := l in if side_eqb sd' sd && cell_eqb a' a then f i else m l.
  Definition quiet (m : loc -> N) (tk : tok -> nat) (c : chan) (l : list N) : st :=
    {| s_mem := m; s_out := fun _ => []; s_net := fun x => if chan_dec x c then l else []; s_tok := tk |}.
  Definition still (m : loc -> N) (tk : tok -> nat) : st := {| s_mem := m; s_out := fun _ => []; s_net := fun _ => []; s_tok := tk |}.
  Lemma still_quiet m tk c : eqv (still m tk) (quiet m tk c []).
  Proof. repeat split; cbn; auto. intro x. destruct (chan_dec x c); reflexivity. Qed.
  Definition wmem (s : st) (m : loc -> N) : st := {| s_mem := m; s_out := s_out s; s_net := s_net s; s_tok := s_tok s |}.

  Lemma exec_read_from sd a n : forall i k s, exec s (read_from sd a i n k) s (k (map (arr (s_mem s) sd a) (seq i n))).
  Proof.
    induction n as [|n IH]; intros i k s; cbn [read_from seq map]; [apply exec_refl|]. eapply exec_S; [reflexivity|].
    apply (IH (S i) (fun vs => k (s_mem s (sd, a, i) :: vs))).
  Qed.
  Lemma exec_write_from sd a vs : forall i k s,
    exec s (write_from sd a i vs k) (wmem s (warr (s_mem s) sd a (store (arr (s_mem s) sd a) i (length vs) (fun j => nth j vs 0%N)))) k.
  Proof.
    induction vs as [|v vs IH]; intros i k s; cbn [write_from length].
    - apply exec_0. repeat split; auto. intros [[x y] j]. cbn [wmem s_mem warr]. destruct (side_eqb x sd && cell_eqb y a) eqn:E; auto.
      unfold store, arr. replace ((i <=? j) && (j <? i + 0)) with false; [|symmetry; apply andb_false_iff; destruct (Nat.leb_spec i j); [right; apply Nat.ltb_ge; lia|now left]].
      apply andb_true_iff in E. destruct E as [E1 E2]. destruct x, sd; try discriminate; destruct y, a; try discriminate; reflexivity.
    - eapply exec_S; [reflexivity|]. eapply exec_eqv_r; [apply IH|]. repeat split; auto. intros [[x y] j].
      cbn [wmem s_mem warr set_mem]. destruct (side_eqb x sd && cell_eqb y a) eqn:E.
      + apply andb_true_iff in E. destruct E as [E1 E2].
        assert (x = sd) by (destruct x, sd; try discriminate; reflexivity). assert (y = a) by (destruct y, a; try discriminate; reflexivity). subst x y.
        unfold store, arr. cbn [set_mem s_mem]. destruct (Nat.eq_dec j i) as [->|Nj].
        * replace ((S i <=? i) && (i <? S i + length vs)) with false by (symmetry; apply andb_false_iff; left; apply Nat.leb_gt; lia).
          replace ((i <=? i) && (i <? i + S (length vs))) with true by (symmetry; apply andb_true_iff; split; [apply Nat.leb_le|apply Nat.ltb_lt]; lia).
          rewrite Nat.sub_diag. destruct (loc_dec (sd, a, i) (sd, a, i)); [reflexivity|congruence].
        * replace ((S i <=? j) && (j <? S i + length vs)) with ((i <=? j) && (j <? i + S (length vs))).
          2:{ apply eq_true_iff_eq. rewrite !andb_true_iff, !Nat.leb_le, !Nat.ltb_lt. lia. }
          destruct ((i <=? j) && (j <? i + S (length vs))) eqn:B.
          -- apply andb_true_iff in B. rewrite Nat.leb_le, Nat.ltb_lt in B. replace (j - i) with (S (j - S i)) by lia. reflexivity.
          -- destruct (loc_dec (sd, a, j) (sd, a, i)); [congruence|reflexivity].
      + destruct (loc_dec (x, y, j) (sd, a, i)) as [Q|]; [|reflexivity]. injection Q as -> -> ->. destruct sd, a; discriminate.
  Qed.
  (** sends *)
  Definition sends (s : st) (c : chan) (vs : list N) : st := fold_left (fun s v => send cap s c v) vs s.
  Lemma sends_ok c vs : forall s,
    (forall x, s_mem (sends s c vs) x = s_mem s x) /\ (forall x, s_tok (sends s c vs) x = s_tok s x) /\
    (forall x, x <> c -> s_out (sends s c vs) x = s_out s x /\ s_net (sends s c vs) x = s_net s x) /\
    s_net (sends s c vs) c ++ s_out (sends s c vs) c = s_net s c ++ s_out s c ++ vs.
  Proof.
    induction vs as [|v vs IH]; intro s; cbn [sends fold_left]; [repeat split; auto; now rewrite app_nil_r|].
    fold (sends (send cap s c v) c vs). destruct (IH (send cap s c v)) as (A & B & C & D).
    destruct (send_pushed cap s c v) as (A' & B' & C' & D'). unfold pushed in A', B', C', D'. cbn [set_out set_net s_mem s_out s_net s_tok] in A', B', C', D'.
    split; [intro x; now rewrite A, A'|]. split; [intro x; now rewrite B, D'|]. split.
    - intros x N. destruct (C x N) as [C1 C2]. rewrite C1, C2, B', C'. destruct (chan_dec x c); [contradiction|auto].
    - rewrite D, B', C'. destruct (chan_dec c c); [|congruence]. unfold sent. destruct (Nat.leb cap (length (s_out s c ++ [v]))); cbn [fst snd].
      + rewrite <- !app_assoc. reflexivity.
      + rewrite app_nil_r, <- !app_assoc. reflexivity.
  Qed.
  Lemma sends_mem s c vs : s_mem (sends s c vs) = s_mem s.
  Proof.
    revert s. induction vs as [|v vs IH]; intro s; cbn [sends fold_left]; [reflexivity|]. fold (sends (send cap s c v) c vs). rewrite IH.
    unfold send. destruct (Nat.leb _ _); reflexivity.
  Qed.
  Lemma flush_sends m tk c vs : eqv (flush (sends (still m tk) c vs) c) (quiet m tk c vs).
  Proof.
    destruct (sends_ok c vs (still m tk)) as (A & B & C & D). cbn [still s_mem s_out s_net s_tok app] in *.
    repeat split; intro x; cbn [flush set_out set_net quiet s_mem s_out s_net s_tok].
    - apply A.
    - destruct (chan_dec x c); [reflexivity|]. now apply C.
    - destruct (chan_dec x c); [subst; exact D|]. now apply C.
    - apply B.
  Qed.
  Lemma flush_quiet m tk c c' l : eqv (flush (quiet m tk c l) c') (quiet m tk c l).
  Proof.
    repeat split; intro x; cbn [flush set_out set_net quiet s_mem s_out s_net s_tok]; auto.
    - destruct (chan_dec x c'); reflexivity.
    - destruct (chan_dec x c'); [subst|reflexivity]. now rewrite app_nil_r.
  Qed.
  Lemma sends_app s c a b : sends s c (a ++ b) = sends (sends s c a) c b.
  Proof. unfold sends. apply fold_left_app. Qed.
  Lemma exec_recv m tk c v l k : exec (quiet m tk c (v :: l)) (Recv c k) (quiet m tk c l) (k v).
  Proof.
    eapply exec_S; [cbn [act quiet s_net]; destruct (chan_dec c c); [reflexivity|congruence]|]. apply exec_0.
    repeat split; auto. intro x. cbn [set_net quiet s_net]. destruct (chan_dec x c); reflexivity.
  Qed.
  Lemma exec_signal m tk t k : exec (still m tk) (Signal t k) (still m (fun x => if tok_dec x t then S (tk t) else tk x)) k.
  Proof. eapply exec_S; [reflexivity|]. apply exec_refl. Qed.
  Lemma exec_await m tk t k n : tk t = S n -> exec (still m tk) (Await t k) (still m (fun x => if tok_dec x t then n else tk x)) k.
  Proof. intro H. eapply exec_S; [cbn [act still s_tok]; rewrite H; reflexivity|]. apply exec_refl. Qed.
  Lemma reach_signal m tk t k ps T : ps T = Signal t k -> reach (still m tk, ps) (still m (fun x => if tok_dec x t then S (tk t) else tk x), upd ps T k).
  Proof. intro H. eapply reach_exec; [apply exec_signal|exact H]. Qed.
  Lemma still_ext m m' tk tk' : (forall x, m x = m' x) -> (forall x, tk x = tk' x) -> eqv (still m tk) (still m' tk').
  Proof. intros A B. repeat split; cbn; auto. Qed.

  (** * A phase, given what one item on both sides does *)
  Variables (threads tree_n : nat) (item : side -> nat -> nat -> nat -> prog -> prog).
  Variables (ph : nat) (X : Type) (Inv : X -> (loc -> N) -> Prop) (stepX : X -> nat -> nat -> X).
  Notation p_items := (p_items item).
  Notation p_task := (p_task threads tree_n item).
  Notation p_phase := (p_phase threads tree_n item).
  Notation nt := (threads - 1).
  Hypothesis item_pair : forall x m tk ch s kA kB, s < tree_n -> ch < threads -> Inv x m ->
    exists m1 m' l, exec (still m tk) (item Snd ph ch s kA) (quiet m1 tk (Snd, ch) l) kA /\
      exec (quiet m1 tk (Snd, ch) l) (item Rcv ph ch s kB) (still m' tk) kB /\ Inv (stepX x s ch) m'.
  Hypothesis Ht : 0 < threads.
  Definition runX (x : X) (ts : list (nat * nat)) : X := fold_left (fun x sc => stepX x (fst sc) (snd sc)) ts x.
  Lemma items_pair A B : A <> B -> forall ss x m tk ch kA kB ps, (forall s, In s ss -> s < tree_n) -> ch < threads -> Inv x m ->
    ps A = p_items Snd ph ch ss kA -> ps B = p_items Rcv ph ch ss kB ->
    exists m', Inv (runX x (map (fun s => (s, ch)) ss)) m' /\ reach (still m tk, ps) (still m' tk, upd (upd ps A kA) B kB).
  Proof.
    intros NAB. induction ss as [|s ss IH]; intros x m tk ch kA kB ps Hss Hch HI EA EB; cbn [MpThreadModel.p_items map runX fold_left fst snd] in *.
    - exists m. split; [exact HI|]. apply reach_refl. split; [apply eqv_refl|]. intro y. cbn. unfold upd.
      destruct (tid_dec y B); [congruence|]. destruct (tid_dec y A); congruence.
    - destruct (item_pair x m tk ch s (p_items Snd ph ch ss kA) (p_items Rcv ph ch ss kB) (Hss s (or_introl eq_refl)) Hch HI) as (m1 & m2 & l & E1 & E2 & HI2).
      destruct (IH (stepX x s ch) m2 tk ch kA kB (upd (upd ps A (p_items Snd ph ch ss kA)) B (p_items Rcv ph ch ss kB))) as (m' & HI' & RC); auto.
      { intros s' Hs'. apply Hss. now right. }
      { rewrite upd_other, upd_same by assumption. reflexivity. }
      { now rewrite upd_same. }
      exists m'. split; [exact HI'|]. eapply reach_trans; [apply (reach_exec _ _ _ _ E1 _ _ EA)|].
      eapply reach_trans; [apply (reach_exec _ _ _ _ E2 _ B); rewrite upd_other by congruence; exact EB|].
      eapply reach_ceq; [exact RC|]. split; [apply eqv_refl|]. intro y. cbn. unfold upd.
      destruct (tid_dec y B); [reflexivity|]. destruct (tid_dec y A); reflexivity.
  Qed.
  (** tokens when tasks [lo, nt) have been enqueued and not started, tasks [from, hi) have ended and not been collected *)
  Definition toks (lo from hi : side -> nat) (top : side -> nat) : tok -> nat := fun t =>
    match t with
    | Go sd p i => if Nat.eqb p ph && (lo sd <=? i) && (i <? top sd) then 1 else 0
    | Back sd p i => if Nat.eqb p ph && (from sd <=? i) && (i <? hi sd) then 1 else 0
    end.
  Definition zero (_ : side) : nat := 0.
  Definition with_ (f : side -> nat) (sd : side) (v : nat) : side -> nat := fun x => if side_dec x sd then v else f x.
  Lemma enqueue_run m sd c : forall k i (top : side -> nat), top sd = i -> forall lo from hi, lo sd <= i ->
    exec (still m (toks lo from hi top)) (p_enqueue sd ph i k c) (still m (toks lo from hi (with_ top sd (i + k)))) c.
  Proof.
    induction k as [|k IH]; intros i top Et lo from hi Hlo; cbn [p_enqueue].
    - apply exec_0, still_ext; auto. intros [d p j|d p j]; cbn [toks]; auto. unfold with_. destruct (side_dec d sd); [subst; now rewrite Nat.add_0_r|reflexivity].
    - eapply exec_trans; [apply exec_signal|]. eapply exec_trans.
      + eapply exec_eqv_l; [apply (IH (S i) (with_ top sd (S i))) with (lo := lo) (from := from) (hi := hi); [unfold with_; destruct (side_dec sd sd); congruence|lia]|].
        apply still_ext; auto. intros [d p j|d p j].
        * cbn [toks]. unfold with_. destruct (tok_dec (Go d p j) (Go sd ph i)) as [E|N].
          -- injection E as -> -> ->. destruct (side_dec sd sd); [|congruence]. rewrite Nat.eqb_refl, Et. cbn [andb].
             replace (lo sd <=? i) with true by (symmetry; apply Nat.leb_le; lia). rewrite Nat.ltb_irrefl. cbn [andb].
             replace (i <? S i) with true by (symmetry; apply Nat.ltb_lt; lia). reflexivity.
          -- destruct (side_dec d sd) as [->|Nd]; [|reflexivity]. rewrite Et.
             destruct (Nat.eqb_spec p ph) as [->|]; [|reflexivity]. assert (j <> i) by congruence.
             replace (j <? S i) with (j <? i); [reflexivity|]. destruct (Nat.ltb_spec j i), (Nat.ltb_spec j (S i)); auto; lia.
        * cbn [toks]. destruct (tok_dec (Back d p j) (Go sd ph i)); [discriminate|reflexivity].
      + apply exec_0, still_ext; auto. intros [d p j|d p j]; cbn [toks]; auto. unfold with_. destruct (side_dec d sd); [|reflexivity].
        replace (S i + k) with (i + S k) by lia. reflexivity.
  Qed.
  Lemma get_run m sd c : forall k i (from : side -> nat), from sd = i -> forall lo hi top, hi sd = i + k ->
    exec (still m (toks lo from hi top)) (p_get sd ph i k c) (still m (toks lo (with_ from sd (i + k)) hi top)) c.
  Proof.
    induction k as [|k IH]; intros i from Ef lo hi top Hh; cbn [p_get].
    - apply exec_0, still_ext; auto. intros [d p j|d p j]; cbn [toks]; auto. unfold with_. destruct (side_dec d sd); [subst; now rewrite Nat.add_0_r|reflexivity].
    - eapply exec_trans; [apply (exec_await _ _ _ _ 0)|].
      { cbn [toks]. rewrite Nat.eqb_refl, Ef, Hh, Nat.leb_refl. cbn [andb]. replace (i <? i + S k) with true by (symmetry; apply Nat.ltb_lt; lia). reflexivity. }
      eapply exec_trans.
      + eapply exec_eqv_l; [apply (IH (S i) (with_ from sd (S i))) with (lo := lo) (hi := hi) (top := top); [unfold with_; destruct (side_dec sd sd); congruence|rewrite Hh; lia]|].
        apply still_ext; auto. intros [d p j|d p j].
        * cbn [toks]. destruct (tok_dec (Go d p j) (Back sd ph i)); [discriminate|reflexivity].
        * cbn [toks]. unfold with_. destruct (tok_dec (Back d p j) (Back sd ph i)) as [E|N].
          -- injection E as -> -> ->. destruct (side_dec sd sd); [|congruence].
             replace (S i <=? i) with false by (symmetry; apply Nat.leb_gt; lia). now rewrite andb_false_r.
          -- destruct (side_dec d sd) as [->|Nd]; [|reflexivity]. rewrite Ef.
             destruct (Nat.eqb_spec p ph) as [->|]; [|reflexivity]. assert (j <> i) by congruence.
             replace (S i <=? j) with (i <=? j); [reflexivity|]. destruct (Nat.leb_spec i j), (Nat.leb_spec (S i) j); auto; lia.
      + apply exec_0, still_ext; auto. intros [d p j|d p j]; cbn [toks]; auto. unfold with_. destruct (side_dec d sd); [|reflexivity].
        replace (S i + k) with (i + S k) by lia. reflexivity.
  Qed.
  Lemma range_lt i s : i < nt -> In s (range_of threads tree_n i) -> s < tree_n.
  Proof.
    unfold range_of, width. rewrite in_seq. intros Hi Hs0. pose proof (Nat.mul_div_le tree_n threads ltac:(lia)) as Q.
    assert (S i * (tree_n / threads) <= threads * (tree_n / threads)) by (apply Nat.mul_le_mono_r; lia). cbn in H. lia.
  Qed.
  Lemma last_lt s : In s (last_range threads tree_n) -> s < tree_n.
  Proof. unfold last_range. rewrite in_seq. lia. Qed.
  Definition task_list (i : nat) : list (nat * nat) := map (fun j => (j, (i * width threads tree_n) / width threads tree_n)) (range_of threads tree_n i).
  Lemma chan_lt i s : i < nt -> In s (range_of threads tree_n i) -> i * width threads tree_n / width threads tree_n < threads.
  Proof. unfold range_of. rewrite in_seq. intros Hi H. rewrite Nat.div_mul by lia. lia. Qed.
  Definition lev (k : nat) (_ : side) : nat := k.
  (** both parties' tasks i *)
  Lemma task_pair i x m ps : i < nt -> Inv x m -> (forall sd, ps (Task sd ph i) = p_task sd ph i) ->
    exists m', Inv (runX x (task_list i)) m' /\
      reach (still m (toks (lev i) zero (lev i) (lev nt)), ps)
            (still m' (toks (lev (S i)) zero (lev (S i)) (lev nt)), upd (upd ps (Task Snd ph i) Done) (Task Rcv ph i) Done).
  Proof.
    intros Hi HI Hps.
    set (ch := i * width threads tree_n / width threads tree_n).
    assert (T1 : toks (lev i) zero (lev i) (lev nt) (Go Snd ph i) = 1).
    { cbn [toks]. unfold lev. rewrite Nat.eqb_refl, Nat.leb_refl. cbn [andb]. replace (i <? nt) with true by (symmetry; apply Nat.ltb_lt; lia). reflexivity. }
    assert (EA : exec (still m (toks (lev i) zero (lev i) (lev nt))) (ps (Task Snd ph i))
       (still m (toks (with_ (lev i) Snd (S i)) zero (lev i) (lev nt))) (p_items Snd ph ch (range_of threads tree_n i) (Signal (Back Snd ph i) Done))).
    { rewrite Hps. unfold MpThreadModel.p_task. fold ch. eapply exec_trans; [apply (exec_await _ _ _ _ 0), T1|]. apply exec_0, still_ext; auto.
      intros [d p j|d p j]; cbn [toks]; [|destruct (tok_dec (Back d p j) (Go Snd ph i)); [discriminate|reflexivity]].
      destruct (tok_dec (Go d p j) (Go Snd ph i)) as [E|N]; unfold with_, lev.
      - injection E as -> -> ->. destruct (side_dec Snd Snd); [|congruence]. replace (S i <=? i) with false by (symmetry; apply Nat.leb_gt; lia). now rewrite andb_false_r.
      - destruct (side_dec d Snd) as [->|]; [|reflexivity]. destruct (Nat.eqb_spec p ph) as [->|]; [|reflexivity]. assert (j <> i) by congruence.
        replace (S i <=? j) with (i <=? j); [reflexivity|]. destruct (Nat.leb_spec i j), (Nat.leb_spec (S i) j); auto; lia. }
    set (ps1 := upd ps (Task Snd ph i) (p_items Snd ph ch (range_of threads tree_n i) (Signal (Back Snd ph i) Done))).
    assert (EB : exec (still m (toks (with_ (lev i) Snd (S i)) zero (lev i) (lev nt))) (ps1 (Task Rcv ph i))
       (still m (toks (lev (S i)) zero (lev i) (lev nt))) (p_items Rcv ph ch (range_of threads tree_n i) (Signal (Back Rcv ph i) Done))).
    { unfold ps1. rewrite upd_other by discriminate. rewrite Hps. unfold MpThreadModel.p_task. fold ch. eapply exec_trans; [apply (exec_await _ _ _ _ 0)|].
      { cbn [toks]. unfold with_. destruct (side_dec Rcv Snd); [discriminate|]. unfold lev. rewrite Nat.eqb_refl, Nat.leb_refl. cbn [andb].
        replace (i <? nt) with true by (symmetry; apply Nat.ltb_lt; lia). reflexivity. }
      apply exec_0, still_ext; auto.
      intros [d p j|d p j]; cbn [toks]; [|destruct (tok_dec (Back d p j) (Go Rcv ph i)); [discriminate|reflexivity]].
      destruct (tok_dec (Go d p j) (Go Rcv ph i)) as [E|N]; unfold with_, lev.
      - injection E as -> -> ->. replace (S i <=? i) with false by (symmetry; apply Nat.leb_gt; lia). now rewrite andb_false_r.
      - destruct (side_dec d Snd) as [->|Nd]; [reflexivity|]. assert (d = Rcv) by (destruct d; congruence). subst d.
        destruct (Nat.eqb_spec p ph) as [->|]; [|reflexivity]. assert (j <> i) by congruence.
        replace (S i <=? j) with (i <=? j); [reflexivity|]. destruct (Nat.leb_spec i j), (Nat.leb_spec (S i) j); auto; lia. }
    set (ps2 := upd ps1 (Task Rcv ph i) (p_items Rcv ph ch (range_of threads tree_n i) (Signal (Back Rcv ph i) Done))).
    assert (CH : range_of threads tree_n i = [] \/ ch < threads).
    { destruct (range_of threads tree_n i) as [|s l] eqn:E; [now left|right]. apply (chan_lt i s Hi). rewrite E. now left. }
    assert (M : exists m', Inv (runX x (task_list i)) m' /\
       reach (still m (toks (lev (S i)) zero (lev i) (lev nt)), ps2)
             (still m' (toks (lev (S i)) zero (lev i) (lev nt)), upd (upd ps2 (Task Snd ph i) (Signal (Back Snd ph i) Done)) (Task Rcv ph i) (Signal (Back Rcv ph i) Done))).
    { destruct CH as [CH|CH].
      - unfold task_list. rewrite CH. exists m. split; [exact HI|]. apply reach_refl. split; [apply eqv_refl|]. intro y. cbn [snd].
        unfold ps2, ps1. rewrite CH. cbn [MpThreadModel.p_items]. unfold upd. destruct (tid_dec y (Task Rcv ph i)); [reflexivity|]. destruct (tid_dec y (Task Snd ph i)); reflexivity.
      - unfold task_list. fold ch. apply items_pair; auto; try discriminate.
        + intros s. now apply range_lt.
        + unfold ps2. rewrite upd_other by discriminate. unfold ps1. now rewrite upd_same.
        + unfold ps2. now rewrite upd_same. }
    destruct M as (m' & HI' & RC). exists m'. split; [exact HI'|].
    eapply reach_trans; [apply (reach_exec _ _ _ _ EA ps (Task Snd ph i) eq_refl)|]. fold ps1.
    eapply reach_trans; [apply (reach_exec _ _ _ _ EB ps1 (Task Rcv ph i) eq_refl)|]. fold ps2.
    eapply reach_trans; [exact RC|].
    eapply reach_trans; [apply (reach_signal _ _ (Back Snd ph i) Done _ (Task Snd ph i)); rewrite upd_other by discriminate; now rewrite upd_same|].
    eapply reach_trans; [apply (reach_signal _ _ (Back Rcv ph i) Done _ (Task Rcv ph i)); rewrite upd_other by discriminate; now rewrite upd_same|].
    apply reach_refl. split.
    - apply still_ext; auto. intros [d p j|d p j]; cbn [toks].
      + destruct (tok_dec (Go d p j) (Back Rcv ph i)); [discriminate|]. destruct (tok_dec (Go d p j) (Back Snd ph i)); [discriminate|reflexivity].
      + destruct (tok_dec (Back Rcv ph i) (Back Snd ph i)); [discriminate|]. unfold zero, lev. rewrite Nat.eqb_refl, Nat.ltb_irrefl. cbn [andb].
        rewrite !andb_false_r. cbn [andb Nat.leb].
        destruct (tok_dec (Back d p j) (Back Rcv ph i)) as [E|N1]; [injection E as -> -> ->|destruct (tok_dec (Back d p j) (Back Snd ph i)) as [E|N2]; [injection E as -> -> ->|]].
        * rewrite Nat.eqb_refl. replace (i <? S i) with true by (symmetry; apply Nat.ltb_lt; lia). reflexivity.
        * rewrite Nat.eqb_refl. replace (i <? S i) with true by (symmetry; apply Nat.ltb_lt; lia). reflexivity.
        * destruct (Nat.eqb_spec p ph) as [->|]; [|reflexivity]. assert (j <> i) by (destruct d; congruence).
          replace (j <? S i) with (j <? i); [reflexivity|]. destruct (Nat.ltb_spec j i), (Nat.ltb_spec j (S i)); auto; lia.
    - intro y. cbn [snd]. unfold ps2, ps1, upd. destruct (tid_dec y (Task Rcv ph i)); [reflexivity|]. destruct (tid_dec y (Task Snd ph i)); reflexivity.
  Qed.
  Definition fin (k : nat) (ps : tid -> prog) : tid -> prog := fun t =>
    match t with Task sd p j => if Nat.eqb p ph && (j <? k) then Done else ps t | _ => ps t end.
  Lemma tasks_run ps x m : Inv x m -> (forall sd i, i < nt -> ps (Task sd ph i) = p_task sd ph i) -> forall k, k <= nt ->
    exists m', Inv (runX x (flat_map task_list (seq 0 k))) m' /\
      reach (still m (toks zero zero zero (lev nt)), ps) (still m' (toks (lev k) zero (lev k) (lev nt)), fin k ps).
  Proof.
    intros HI Hps. induction k as [|k IH]; intro Hk.
    - exists m. split; [exact HI|]. apply reach_refl. split; [apply still_ext; auto; intros [d p j|d p j]; reflexivity|].
      intros [d|d p j]; cbn; auto. now rewrite andb_false_r.
    - destruct IH as (m1 & HI1 & R1); [lia|].
      destruct (task_pair k _ m1 (fin k ps) Hk HI1) as (m2 & HI2 & R2).
      { intro sd. cbn [fin]. rewrite Nat.ltb_irrefl, andb_false_r. apply Hps. lia. }
      exists m2. split.
      + rewrite seq_S, flat_map_app. cbn [flat_map]. rewrite app_nil_r. unfold runX in *. rewrite fold_left_app. exact HI2.
      + eapply reach_trans; [exact R1|]. eapply reach_ceq; [exact R2|]. split; [apply eqv_refl|]. intros [d|d p j]; cbn [snd].
        * rewrite !upd_other by discriminate. reflexivity.
        * unfold upd. destruct (tid_dec (Task d p j) (Task Rcv ph k)) as [E|N1].
          -- injection E as -> -> ->. cbn [fin]. rewrite Nat.eqb_refl. replace (k <? S k) with true by (symmetry; apply Nat.ltb_lt; lia). reflexivity.
          -- destruct (tid_dec (Task d p j) (Task Snd ph k)) as [E|N2].
             ++ injection E as -> -> ->. cbn [fin]. rewrite Nat.eqb_refl. replace (k <? S k) with true by (symmetry; apply Nat.ltb_lt; lia). reflexivity.
             ++ cbn [fin]. destruct (Nat.eqb_spec p ph) as [->|]; [|reflexivity]. assert (j <> k) by (destruct d; congruence).
                replace (j <? S k) with (j <? k); [reflexivity|]. destruct (Nat.ltb_spec j k), (Nat.ltb_spec j (S k)); auto; lia.
  Qed.
  Definition notok (_ : tok) : nat := 0.
  (** the whole phase *)
  Lemma phase_run ps x m kS kR : Inv x m -> (forall sd i, i < nt -> ps (Task sd ph i) = p_task sd ph i) ->
    ps (Main Snd) = p_phase Snd ph kS -> ps (Main Rcv) = p_phase Rcv ph kR ->
    exists m', Inv (runX x (tree_tasks threads tree_n)) m' /\
      reach (still m notok, ps) (still m' notok, upd (upd (fin nt ps) (Main Snd) kS) (Main Rcv) kR).
  Proof.
    intros HI Hps ES ER. unfold MpThreadModel.p_phase in ES, ER.
    set (iS := p_items Snd ph nt (last_range threads tree_n) (p_get Snd ph 0 nt kS)) in *.
    set (iR := p_items Rcv ph nt (last_range threads tree_n) (p_get Rcv ph 0 nt kR)) in *.
    assert (E1 : exec (still m notok) (ps (Main Snd)) (still m (toks zero zero zero (with_ zero Snd nt))) iS).
    { rewrite ES. eapply exec_eqv_l; [apply (enqueue_run m Snd iS nt 0 zero eq_refl zero zero zero (Nat.le_refl 0))|].
      apply still_ext; auto. intros [d p j|d p j]; cbn [toks]; unfold zero, notok; [rewrite !andb_false_r|rewrite !andb_false_r]; reflexivity. }
    set (ps1 := upd ps (Main Snd) iS).
    assert (E2 : exec (still m (toks zero zero zero (with_ zero Snd nt))) (ps1 (Main Rcv)) (still m (toks zero zero zero (lev nt))) iR).
    { unfold ps1. rewrite upd_other by discriminate. rewrite ER. eapply exec_eqv_r.
      - apply (enqueue_run m Rcv iR nt 0 (with_ zero Snd nt)); [unfold with_; destruct (side_dec Rcv Snd); [discriminate|reflexivity]|unfold zero; lia].
      - apply still_ext; auto. intros [d p j|d p j]; cbn [toks]; auto. unfold with_, lev. destruct (side_dec d Rcv); [reflexivity|].
        destruct (side_dec d Snd); [reflexivity|]. destruct d; congruence. }
    set (ps2 := upd ps1 (Main Rcv) iR).
    destruct (tasks_run ps2 x m HI) with (k := nt) as (m3 & HI3 & R3).
    { intros sd i Hi. unfold ps2, ps1. rewrite !upd_other by discriminate. now apply Hps. }
    { lia. }
    destruct (items_pair (Main Snd) (Main Rcv) ltac:(discriminate) (last_range threads tree_n) (runX x (flat_map task_list (seq 0 nt))) m3 (toks (lev nt) zero (lev nt) (lev nt)) nt
       (p_get Snd ph 0 nt kS) (p_get Rcv ph 0 nt kR) (fin nt ps2)) as (m4 & HI4 & R4).
    { intros s. apply last_lt. }
    { lia. }
    { exact HI3. }
    { cbn [fin]. unfold ps2. rewrite upd_other by discriminate. unfold ps1. now rewrite upd_same. }
    { cbn [fin]. unfold ps2. now rewrite upd_same. }
    exists m4. split.
    { unfold runX in *. rewrite <- fold_left_app in HI4. exact HI4. }
    eapply reach_trans; [apply (reach_exec _ _ _ _ E1 ps (Main Snd) eq_refl)|]. fold ps1.
    eapply reach_trans; [apply (reach_exec _ _ _ _ E2 ps1 (Main Rcv) eq_refl)|]. fold ps2.
    eapply reach_trans; [exact R3|]. eapply reach_trans; [exact R4|].
    eapply reach_trans; [apply (reach_exec _ _ _ _ (get_run m4 Snd kS nt 0 zero eq_refl (lev nt) (lev nt) (lev nt) eq_refl) _ (Main Snd));
      rewrite upd_other by discriminate; now rewrite upd_same|].
    eapply reach_trans; [apply (reach_exec _ _ _ _ (get_run m4 Rcv kR nt 0 (with_ zero Snd nt) eq_refl (lev nt) (lev nt) (lev nt) eq_refl) _ (Main Rcv));
      rewrite upd_other by discriminate; now rewrite upd_same|].
    apply reach_refl. split.
    - apply still_ext; auto. intros [d p j|d p j]; cbn [toks]; unfold notok.
      + unfold lev. destruct (Nat.eqb p ph); cbn [andb]; [|reflexivity]. destruct (Nat.leb_spec nt j), (Nat.ltb_spec j nt); cbn [andb]; auto; lia.
      + assert (Q : with_ (with_ zero Snd nt) Rcv (0 + nt) d = nt) by (unfold with_; destruct (side_dec d Rcv); [reflexivity|]; destruct (side_dec d Snd); [reflexivity|]; destruct d; congruence).
        rewrite Q. unfold lev. destruct (Nat.eqb p ph); cbn [andb]; [|reflexivity]. destruct (Nat.leb_spec nt j), (Nat.ltb_spec j nt); cbn [andb]; auto; lia.
    - intros [d|d p j]; cbn [snd].
      + unfold upd. destruct (tid_dec (Main d) (Main Rcv)); [reflexivity|]. destruct (tid_dec (Main d) (Main Snd)); [reflexivity|]. destruct d; congruence.
      + rewrite !upd_other by discriminate. cbn [fin]. unfold ps2, ps1. now rewrite !upd_other by discriminate.
  Qed.
End Run.
