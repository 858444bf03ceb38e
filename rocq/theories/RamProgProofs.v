(** Programs on the oblivious memories: proofs. *)
From Coq Require Import NArith List Bool Arith Permutation Sorted Lia.
From Verif Require Import ListUtil GF128 BoolSpec F2kModel F2kSpec VoleF2kSpec RamModel RamSpec RamThms RamLife TightSpec TightProofs RamProgModel RamProgSpec PropRam.
Import ListNotations.
Ltac Zify.zify_post_hook ::= idtac.

(** * Logs against the plain array *)
Definition results_of (os : list rwop) (log : list acc) : list (option N) := map (fun ox => call_result (fst ox) (a_val (snd ox))) (combine os log).
Lemma last_write_snoc pre x a : last_write (pre ++ [x]) a = if a_write x && N.eqb (a_addr x) a then Some (a_val x) else last_write pre a.
Proof. rewrite last_write_app. cbn [last_write]. now destruct (a_write x && N.eqb (a_addr x) a). Qed.
Lemma reads_latest_at pre x post v : reads_latest (pre ++ x :: post) -> a_write x = false -> last_write pre (a_addr x) = Some v -> a_val x = v.
Proof. intros H W L. exact (H pre x post eq_refl W v L). Qed.
Definition agree (pre : list acc) (ws : list nat) (mem : nat -> N) : Prop := forall i, In i ws -> last_write pre (N.of_nat i) = Some (mem i).
Lemma agree_write pre ws mem x i v : agree pre ws mem -> a_write x = true -> a_addr x = N.of_nat i -> a_val x = v -> agree (pre ++ [x]) (i :: ws) (set_cell mem i v).
Proof.
  intros A W E V j Hj. rewrite last_write_snoc, W, E, V. cbn [andb]. unfold set_cell. destruct (N.eqb_spec (N.of_nat i) (N.of_nat j)) as [e|ne].
  - apply Nat2N.inj in e. subst j. now rewrite Nat.eqb_refl.
  - destruct Hj as [Hj|Hj]; [congruence|]. destruct (Nat.eqb_spec j i) as [e|_]; [congruence|]. now apply A.
Qed.
Lemma agree_read pre ws mem x : agree pre ws mem -> a_write x = false -> agree (pre ++ [x]) ws mem.
Proof. intros A W j Hj. rewrite last_write_snoc, W. now apply A. Qed.
Lemma prog_values os : forall log pre ws mem, Forall2 rw_logs os log -> reads_latest (pre ++ log) -> agree pre ws mem -> rw_reads_written ws os ->
  results_of os log = array_run mem os /\
  (forall p x q, log = p ++ x :: q -> a_write x = false -> last_write (pre ++ p) (a_addr x) <> None).
Proof.
  induction os as [|o os IH]; intros log pre ws mem F R A W; inversion F as [|? x ? log' Hx F']; subst.
  - split; [reflexivity|]. intros [|? ?] x q E; discriminate.
  - assert (R' : reads_latest ((pre ++ [x]) ++ log')) by (rewrite <- app_assoc; exact R).
    assert (Read : forall i, a_addr x = N.of_nat i -> a_write x = false -> In i ws -> rw_reads_written ws os ->
       a_val x = mem i /\ results_of os log' = array_run mem os /\
       (forall p y q, x :: log' = p ++ y :: q -> a_write y = false -> last_write (pre ++ p) (a_addr y) <> None)).
    { intros i E W0 Hi Wo. destruct (IH log' (pre ++ [x]) ws mem F' R' (agree_read _ _ _ _ A W0) Wo) as [I1 I2].
      assert (L : last_write pre (a_addr x) = Some (mem i)) by (rewrite E; now apply A).
      split; [exact (reads_latest_at _ _ _ _ R W0 L)|]. split; [exact I1|]. intros [|z p] y q Ey Wy; cbn [app] in Ey; injection Ey as -> ->.
      - rewrite app_nil_r, L. discriminate.
      - specialize (I2 p y q eq_refl Wy). now rewrite <- app_assoc in I2. }
    assert (Write : forall i v, a_addr x = N.of_nat i -> a_write x = true -> a_val x = v -> rw_reads_written (i :: ws) os ->
       results_of os log' = array_run (set_cell mem i v) os /\
       (forall p y q, x :: log' = p ++ y :: q -> a_write y = false -> last_write (pre ++ p) (a_addr y) <> None)).
    { intros i v E W0 V Wo. destruct (IH log' (pre ++ [x]) (i :: ws) (set_cell mem i v) F' R' (agree_write _ _ _ _ _ _ A W0 E V) Wo) as [I1 I2].
      split; [exact I1|]. intros [|z p] y q Ey Wy; cbn [app] in Ey; injection Ey as -> ->; [congruence|].
      specialize (I2 p y q eq_refl Wy). now rewrite <- app_assoc in I2. }
    destruct o as [i|i v|[] i v| |]; cbn [rw_logs rw_reads_written array_run] in *; try contradiction; unfold results_of in *; cbn [combine map fst snd call_result].
    + destruct Hx as [E W0]. destruct W as [Hi Wo]. destruct (Read i E W0 Hi Wo) as (-> & -> & G). now split.
    + destruct Hx as (E & W0 & V). destruct (Write i v E W0 V W) as (-> & G). now split.
    + destruct Hx as (E & W0 & V). specialize (V eq_refl). destruct (Write i v E W0 V W) as (-> & G). rewrite V. now split.
    + destruct Hx as (E & W0 & _). destruct W as [Hi Wo]. destruct (Read i E W0 Hi Wo) as (-> & -> & G). now split.
Qed.
Lemma prog_values0 os log : Forall2 rw_logs os log -> reads_latest log -> rw_reads_written [] os ->
  results_of os log = array_run zeros os /\ written_first log.
Proof. intros F R W. apply (prog_values os log [] [] zeros F R); [intros i []|exact W]. Qed.

Lemma last_write_in l a v : last_write l a = Some v -> exists x, In x l /\ a_write x = true /\ a_val x = v.
Proof.
  induction l as [|x l IH]; [discriminate|]. cbn [last_write]. destruct (last_write l a) as [w|].
  - intro E. destruct (IH E) as (y & H1 & H2). exists y. split; [now right|exact H2].
  - destruct (a_write x) eqn:W; cbn [andb]; [|discriminate]. destruct (N.eqb (a_addr x) a); [|discriminate]. intro E. injection E as E. exists x. split; [now left|now split].
Qed.
Lemma all_values (P : N -> Prop) log : reads_latest log -> written_first log -> (forall x, In x log -> a_write x = true -> P (a_val x)) -> forall x, In x log -> P (a_val x).
Proof.
  intros R W F x Hx. destruct (a_write x) eqn:E; [now apply F|]. apply in_split in Hx. destruct Hx as (p & q & ->).
  destruct (last_write p (a_addr x)) as [v|] eqn:L; [|now destruct (W p x q eq_refl E)].
  rewrite (R p x q eq_refl E v L). destruct (last_write_in _ _ _ L) as (y & Hy & Wy & <-). apply F; [apply in_or_app; now left|exact Wy].
Qed.
Lemma wlast_write_in l a v : wlast_write l a = Some v -> exists x, In x l /\ b_write x = true /\ b_val x = v.
Proof.
  induction l as [|x l IH]; [discriminate|]. cbn [wlast_write]. destruct (wlast_write l a) as [w|].
  - intro E. destruct (IH E) as (y & H1 & H2). exists y. split; [now right|exact H2].
  - destruct (b_write x) eqn:W; cbn [andb]; [|discriminate]. destruct (N.eqb (b_addr x) a); [|discriminate]. intro E. injection E as E. exists x. split; [now left|now split].
Qed.
Lemma wall_values (P : list N -> Prop) log : wreads_latest log -> wwritten_first log -> (forall x, In x log -> b_write x = true -> P (b_val x)) -> forall x, In x log -> P (b_val x).
Proof.
  intros R W F x Hx. destruct (b_write x) eqn:E; [now apply F|]. apply in_split in Hx. destruct Hx as (p & q & ->).
  destruct (wlast_write p (b_addr x)) as [v|] eqn:L; [|now destruct (W p x q eq_refl E)].
  rewrite (R p x q eq_refl E v L). destruct (wlast_write_in _ _ _ L) as (y & Hy & Wy & <-). apply F; [apply in_or_app; now left|exact Wy].
Qed.

(** * Ranges of the records *)
Lemma pow_N n : N.of_nat (2 ^ n) = (2 ^ N.of_nat n)%N.
Proof. induction n as [|n IH]; [reflexivity|]. rewrite Nat2N.inj_succ, N.pow_succ_r', <- IH, Nat.pow_succ_r'. lia. Qed.
Lemma numbered_in log s e : In e (numbered s log) -> exists x, In x log /\ e_idx e = a_addr x /\ e_op e = a_write x /\ e_val e = a_val x.
Proof.
  revert s. induction log as [|x log IH]; intros s H; [destruct H|]. rewrite numbered_cons in H. destruct H as [<-|H].
  - exists x. cbn. auto.
  - destruct (IH _ H) as (y & Hy & K). exists y. split; [now right|exact K].
Qed.
Lemma wnumbered_in log s e : In e (wnumbered s log) -> exists x, In x log /\ w_idx e = b_addr x /\ w_op e = b_write x /\ w_val e = b_val x.
Proof.
  revert s. induction log as [|x log IH]; intros s H; [destruct H|]. rewrite wnumbered_cons in H. destruct H as [<-|H].
  - exists x. cbn. auto.
  - destruct (IH _ H) as (y & Hy & K). exists y. split; [now right|exact K].
Qed.
Lemma wnumbered_step l : forall s e, In e (wnumbered s l) -> (N.of_nat s <= w_step e < N.of_nat (s + length l))%N.
Proof.
  induction l as [|x l IH]; intros s e H; [destruct H|]. rewrite wnumbered_cons in H. cbn [length]. destruct H as [<-|H]; [cbn [w_step]; lia|].
  specialize (IH _ _ H). lia.
Qed.
Lemma Forall2_in_r {A B} (R : A -> B -> Prop) la lb b : Forall2 R la lb -> In b lb -> exists a, In a la /\ R a b.
Proof.
  induction 1 as [|x y la lb H F IH]; [intros []|]. intros [<-|Hb]; [exists x; split; [now left|exact H]|].
  destruct (IH Hb) as (a & Ha & K). exists a. split; [now right|exact K].
Qed.
Lemma Forall2_len {A B} (R : A -> B -> Prop) la lb : Forall2 R la lb -> length la = length lb.
Proof. induction 1; cbn; congruence. Qed.
Lemma prog_fits n st vz os log : 1 <= st -> Forall2 rw_logs os log -> Forall (rw_call_ok n vz) os -> reads_latest log -> written_first log ->
  length os <= 2 ^ (st - 1) -> log_fits n st vz (numbered 0 log).
Proof.
  intros S1 F C R W L. assert (Len := Forall2_len _ _ _ F).
  assert (V : forall x, In x log -> (a_val x < 2 ^ N.of_nat vz)%N).
  { apply (all_values (fun v => (v < 2 ^ N.of_nat vz)%N)); [exact R|exact W|]. intros x Hx Wx. destruct (Forall2_in_r _ _ _ _ F Hx) as (o & Ho & K). rewrite Forall_forall in C. specialize (C o Ho).
    destruct o as [i|i v|[] i v| |]; cbn [rw_logs rw_call_ok] in *; try contradiction; try (destruct K as [? K]; congruence).
    - destruct K as (_ & _ & ->). apply C.
    - destruct K as (_ & _ & K). rewrite (K eq_refl). apply C.
    - destruct K as (_ & K & _). congruence. }
  assert (Ad : forall x, In x log -> (a_addr x < 2 ^ N.of_nat n)%N).
  { intros x Hx. destruct (Forall2_in_r _ _ _ _ F Hx) as (o & Ho & K). rewrite Forall_forall in C. specialize (C o Ho). rewrite <- pow_N.
    destruct o as [i|i v|op i v| |]; cbn [rw_logs rw_call_ok] in *; try contradiction; destruct K as [-> _]; lia. }
  assert (St : forall e, In e (numbered 0 log) -> (e_step e < 2 ^ N.of_nat (st - 1))%N).
  { intros e He. apply numbered_step in He. rewrite <- pow_N. lia. }
  split; [|split; [|exact S1]]; apply Forall_forall; intros e He.
  - assert (St' := St e He). destruct (numbered_in _ _ _ He) as (x & Hx & E1 & _ & E2). unfold rw_fits. rewrite E1, E2. split; [now apply Ad|]. split; [|now apply V].
    eapply N.lt_le_trans; [exact St'|]. apply N.pow_le_mono_r; lia.
  - exact (St e He).
Qed.
Lemma wide_prog_fits n st nw os log : n <= 32 -> 1 <= st <= 31 -> 1 <= nw -> Forall2 w_logs os log -> Forall (w_in_range nw n) os ->
  (forall i v, In (WWrite i v) os -> Forall w64 v) -> wreads_latest log -> wwritten_first log ->
  length os <= 2 ^ (st - 1) -> wlog_fits n st nw (wnumbered 0 log).
Proof.
  intros Hn S1 Hw F C V64 R W L. assert (Len := Forall2_len _ _ _ F).
  assert (V : forall x, In x log -> Forall w64 (b_val x) /\ length (b_val x) = nw).
  { apply (wall_values (fun v => Forall w64 v /\ length v = nw)); [exact R|exact W|]. intros x Hx Wx. destruct (Forall2_in_r _ _ _ _ F Hx) as (o & Ho & K). rewrite Forall_forall in C. assert (Co := C o Ho).
    destruct o as [i|i v|]; cbn [w_logs w_in_range] in *; try contradiction; [destruct K; congruence|].
    destruct K as (_ & _ & ->). split; [exact (V64 i v Ho)|apply Co]. }
  split; [exact Hn|]. split; [exact S1|]. apply Forall_forall. intros e He. assert (St := wnumbered_step _ _ _ He).
  destruct (wnumbered_in _ _ _ He) as (x & Hx & E1 & _ & E2). rewrite E1, E2. destruct (V x Hx) as [V1 V2]. destruct (Forall2_in_r _ _ _ _ F Hx) as (o & Ho & K).
  rewrite Forall_forall in C. specialize (C o Ho). split; [|split; [|split; [exact V1|split; [|exact V2]]]].
  - rewrite <- pow_N. destruct o as [i|i v|]; cbn [w_logs w_in_range] in *; try contradiction; destruct K as [-> _]; lia.
  - rewrite <- pow_N. lia.
  - intro E0. rewrite E0 in V2. cbn in V2. lia.
Qed.

(** * refresh() after every access *)
Lemma calls_access n vz os : Forall (rw_call_ok n vz) os -> Forall (fun o => rw_is_access o /\ rw_address o < 2 ^ n) os.
Proof. apply Forall_impl. intros [i|i v|op i v| |]; cbn; tauto. Qed.
Lemma refresh_quiet n st os : forall s log, rw_inv n s log -> Forall (fun o => rw_is_access o /\ rw_address o < 2 ^ n) os ->
  (forall k, length log < k <= length log + length os -> k + 2 ^ n <> 2 ^ (st - 1)) -> rw_run n st s (with_refresh os) = rw_run n st s os.
Proof.
  induction os as [|o os IH]; intros s log I F Q; [reflexivity|]. inversion F as [|? ? [A L] F']; subst.
  destruct (rw_access_inv n st s log o I A L) as [s1 [E1 I1]]. unfold with_refresh. cbn [flat_map app rw_run]. rewrite E1. cbn [rw_run].
  assert (T : rw_step s1 = S (length log)). { destruct I1 as (_ & _ & -> & _). rewrite app_length. cbn. lia. }
  cbn [rw_do]. unfold rw_refresh. destruct (Nat.eqb_spec (rw_step s1 + 2 ^ n) (2 ^ (st - 1))) as [e|_].
  - exfalso. rewrite T in e. apply (Q (S (length log))); [cbn [length]; lia|exact e].
  - apply (IH s1 _ I1 F'). intros k Hk. rewrite app_length in Hk. cbn [length] in Hk. apply Q. cbn [length]. lia.
Qed.
Lemma refresh_fires_run n st os : forall s log, rw_inv n s log -> Forall (fun o => rw_is_access o /\ rw_address o < 2 ^ n) os ->
  (exists k, length log < k <= length log + length os /\ k + 2 ^ n = 2 ^ (st - 1)) -> rw_run n st s (with_refresh os) = None.
Proof.
  induction os as [|o os IH]; intros s log I F (k & Hk & E); [cbn [length] in Hk; lia|]. inversion F as [|? ? [A L] F']; subst.
  destruct (rw_access_inv n st s log o I A L) as [s1 [E1 I1]]. unfold with_refresh. cbn [flat_map app rw_run]. rewrite E1. cbn [rw_run rw_do].
  assert (T : rw_step s1 = S (length log)). { destruct I1 as (_ & _ & -> & _). rewrite app_length. cbn. lia. }
  destruct (Nat.eq_dec k (S (length log))) as [->|ne].
  - rewrite rw_refresh_fires; [reflexivity|]. now rewrite T.
  - assert (Q : rw_refresh n st s1 = Some s1).
    { unfold rw_refresh. destruct (Nat.eqb_spec (rw_step s1 + 2 ^ n) (2 ^ (st - 1))) as [e|_]; [|reflexivity]. rewrite T in e. lia. }
    rewrite Q. apply (IH s1 _ I1 F'). exists k. rewrite app_length. cbn [length] in *. split; [lia|exact E].
Qed.
Lemma x_read_all_len nw is : forall s s' vs, x_read_all nw s is = Some (s', vs) -> length vs = length is.
Proof.
  induction is as [|i is IH]; intros s s' vs H; cbn [x_read_all] in H; [now injection H as _ <-|].
  destruct (x_do nw s (WRead i)) as [s1|]; [|discriminate]. destruct (x_read_all nw s1 is) as [[s2 vs']|] eqn:E; [|discriminate].
  injection H as _ <-. cbn [length]. f_equal. eauto.
Qed.
Lemma x_refresh_fires nw n st s : x_step s + 2 ^ n = 2 ^ (st - 1) -> x_refresh nw n st s = None.
Proof.
  intro H. unfold x_refresh. rewrite H, Nat.eqb_refl. destruct (x_read_all nw s (seq 0 (2 ^ n))) as [[s' vs]|] eqn:E; [|reflexivity].
  apply x_read_all_len in E. rewrite seq_length in E. assert (P : 2 ^ n <> 0) by (apply Nat.pow_nonzero; lia).
  destruct (2 ^ n) as [|c]; [lia|]. destruct vs as [|v vs]; [discriminate|]. reflexivity.
Qed.
Lemma x_refresh_quiet nw n st os : forall s log, 1 <= nw -> x_inv nw n s log -> Forall (w_in_range nw n) os ->
  w_reads_written (map (fun x => N.to_nat (b_addr x)) (filter b_write log)) os ->
  (forall k, length log < k <= length log + length os -> k + 2 ^ n <> 2 ^ (st - 1)) ->
  exists s' log', x_calls nw n st s (x_with_refresh os) = Some s' /\ x_inv nw n s' (log ++ log') /\ Forall2 w_logs os log'.
Proof.
  induction os as [|o os IH]; intros s log Hw I F W Q.
  - exists s, []. rewrite app_nil_r. cbn. auto.
  - inversion F as [|? ? A F']; subst.
    assert (W1 : w_reads_written (map (fun x => N.to_nat (b_addr x)) (filter b_write log)) [o]).
    { destruct o; cbn in *; tauto. }
    destruct (x_run_log nw n [o] s log Hw I (Forall_cons _ A (Forall_nil _)) W1) as (s1 & log1 & E1 & I1 & L1).
    inversion L1 as [|? x ? ? Lx L1' Eo El]; subst. inversion L1'; subst.
    unfold x_with_refresh. cbn [flat_map app x_calls x_call]. cbn [x_run] in E1. destruct (x_do nw s o) as [s2|] eqn:D; [|discriminate]. injection E1 as ->.
    assert (T : x_step s1 = S (length log)). { destruct I1 as (_ & _ & -> & _). rewrite app_length. cbn. lia. }
    unfold x_refresh. destruct (Nat.eqb_spec (x_step s1 + 2 ^ n) (2 ^ (st - 1))) as [e|_].
    { exfalso. rewrite T in e. apply (Q (S (length log))); [cbn [length]; lia|exact e]. }
    destruct (IH s1 (log ++ [x]) Hw I1 F') as (s' & log' & E & I' & Ln).
    { rewrite filter_app, map_app. cbn [filter]. destruct o as [i|i v|]; cbn [w_logs] in Lx; [| |contradiction].
      - destruct Lx as [_ ->]. cbn [map]. rewrite app_nil_r. apply W.
      - destruct Lx as (Ax & -> & _). cbn [map]. rewrite Ax, Nat2N.id. exact W. }
    { intros k Hk. rewrite app_length in Hk. cbn [length] in Hk. apply Q. cbn [length]. lia. }
    exists s', (x :: log'). split; [exact E|]. rewrite <- app_assoc in I'. split; [exact I'|]. now constructor.
Qed.
Lemma x_calls_app nw n st c1 : forall c2 s, x_calls nw n st s (c1 ++ c2) = match x_calls nw n st s c1 with None => None | Some s' => x_calls nw n st s' c2 end.
Proof. induction c1 as [|c c1 IH]; intros c2 s; cbn [app x_calls]; [reflexivity|]. destruct (x_call nw n st s c); auto. Qed.

(** * The engine *)
Lemma engine_ok threads bufsz polysz acc_last xs ys : engine_sizes threads bufsz (length xs) -> Permutation xs ys ->
  Forall (fun x => (x < 2 ^ 128)%N) xs -> engine_accepts threads bufsz polysz acc_last xs ys.
Proof.
  intros (S1 & S2 & S3 & S4 & S5 & S6) P B. unfold engine_accepts. intros * Hr Hj Hd E1 E2.
  apply C33_honest_set_equality; auto; [|rewrite E1, E2; exact P].
  assert (B2 : Forall (fun x => (x < 2 ^ 128)%N) ys) by (eapply Permutation_Forall; eassumption).
  intros i Hi. destruct (le_lt_dec (length xs) i) as [G|G].
  - rewrite <- E2 in B2. rewrite Forall_forall in B2. apply B2. apply (in_map (fun i => fst (ext i))). apply in_seq. lia.
  - assert (B1 := B). rewrite <- E1 in B1. rewrite Forall_forall in B1. apply B1. apply (in_map (fun i => fst (ext i))). apply in_seq. lia.
Qed.

(** * Wide memory against the plain array *)
Lemma wlast_write_snoc pre x a : wlast_write (pre ++ [x]) a = if b_write x && N.eqb (b_addr x) a then Some (b_val x) else wlast_write pre a.
Proof. rewrite wlast_write_app. cbn [wlast_write]. now destruct (b_write x && N.eqb (b_addr x) a). Qed.
Definition wagree (pre : list wacc) (ws : list nat) (mem : nat -> list N) : Prop := forall i, In i ws -> wlast_write pre (N.of_nat i) = Some (mem i).
Lemma wide_values os : forall log pre ws mem, Forall2 w_logs os log -> wreads_latest (pre ++ log) -> wagree pre ws mem -> w_reads_written ws os ->
  wide_results os log = warray_run mem os.
Proof.
  induction os as [|o os IH]; intros log pre ws mem F R A W; inversion F as [|? x ? log' Hx F']; subst; [reflexivity|].
  assert (R' : wreads_latest ((pre ++ [x]) ++ log')) by (rewrite <- app_assoc; exact R).
  destruct o as [i|i v|]; cbn [w_logs w_reads_written warray_run] in *; [| |contradiction]; unfold wide_results in *; cbn [combine map fst snd]; f_equal.
  - destruct Hx as [E W0]. destruct W as [Hi _]. f_equal. apply (R pre x log' eq_refl W0). rewrite E. now apply A.
  - destruct Hx as [E W0]. destruct W as [_ W]. apply (IH _ _ ws _ F' R'); [|exact W]. intros j Hj. rewrite wlast_write_snoc, W0. now apply A.
  - destruct Hx as (E & W0 & V). apply (IH _ _ (ws ++ [i]) _ F' R'); [|exact W]. intros j Hj. rewrite wlast_write_snoc, W0, E, V. cbn [andb].
    destruct (N.eqb_spec (N.of_nat i) (N.of_nat j)) as [e|ne].
    + apply Nat2N.inj in e. subst j. now rewrite Nat.eqb_refl.
    + destruct (Nat.eqb_spec j i) as [e|_]; [congruence|]. apply A. apply in_app_or in Hj. destruct Hj as [Hj|[Hj|[]]]; [exact Hj|congruence].
Qed.

(** * Logs of a prover that feeds given values *)
Lemma logs_record os : forall log, Forall2 rw_logs os log -> log = prog_log os (map a_val log) /\ results_of os log = prog_results os (map a_val log).
Proof.
  induction os as [|o os IH]; intros log F; inversion F as [|? x ? log' Hx F']; subst; [now split|].
  destruct (IH log' F') as [I1 I2]. unfold prog_log, prog_results, results_of in *. cbn [map combine fst snd]. rewrite <- I1, <- I2. split; [|reflexivity]. f_equal.
  destruct x as [a w y], o as [i|i v|op i v| |]; cbn in *; try contradiction.
  - now destruct Hx as [-> ->].
  - now destruct Hx as (-> & -> & ->).
  - now destruct Hx as (-> & -> & _).
Qed.
Lemma fed_logs n vz os : forall fs, length fs = length os -> Forall (rw_call_ok n vz) os ->
  Forall2 rw_logs (written_as os fs) (prog_log os fs) /\ results_of (written_as os fs) (prog_log os fs) = prog_results os fs.
Proof.
  induction os as [|o os IH]; intros [|f fs] L C; try discriminate; [split; [constructor|reflexivity]|].
  inversion C as [|? ? Co C']; subst. injection L as L. destruct (IH fs L C') as [I1 I2].
  unfold written_as, prog_log, prog_results, results_of in *. cbn [combine map fst snd]. rewrite I2. split.
  - constructor; [|exact I1]. destruct o as [i|i v|[] i v| |]; cbn in *; try contradiction; auto. split; [reflexivity|]. split; [reflexivity|discriminate].
  - f_equal. destruct o as [i|i v|[] i v| |]; cbn in *; try contradiction; reflexivity.
Qed.
Lemma written_as_ok n vz os : forall fs, length fs = length os -> Forall (rw_call_ok n vz) os -> Forall (fun f => (f < 2 ^ N.of_nat vz)%N) fs -> Forall (rw_call_ok n vz) (written_as os fs).
Proof.
  induction os as [|o os IH]; intros [|f fs] L C F; try discriminate; [constructor|]. inversion C as [|? ? Co C']; subst. inversion F as [|? ? Ff F']; subst. injection L as L.
  unfold written_as in *. cbn [combine map fst snd]. constructor; [|now apply IH]. destruct o as [i|i v|[] i v| |]; cbn in *; tauto.
Qed.
Lemma written_as_reads os : forall fs ws, length fs = length os -> rw_reads_written ws os -> rw_reads_written ws (written_as os fs).
Proof.
  induction os as [|o os IH]; intros [|f fs] ws L W; try discriminate; [exact I|]. injection L as L. unfold written_as in *. cbn [combine map fst snd].
  destruct o as [i|i v|[] i v| |]; cbn in *; try (apply IH; auto; fail); destruct W as [W1 W2]; (split; [exact W1|now apply IH]).
Qed.
Lemma written_as_length os : forall fs, length fs = length os -> length (written_as os fs) = length os.
Proof. intros fs L. unfold written_as. rewrite map_length, combine_length. lia. Qed.
Lemma written_as_same os : forall fs, length fs = length os -> Forall no_writing_access os -> written_as os fs = os.
Proof.
  induction os as [|o os IH]; intros [|f fs] L F; try discriminate; [reflexivity|]. injection L as L. inversion F as [|? ? Fo F']; subst.
  unfold written_as in *. cbn [combine map fst snd]. rewrite (IH fs L F'). f_equal. destruct o as [i|i v|[] i v| |]; cbn in *; tauto.
Qed.
Lemma prog_log_length os fs : length fs = length os -> length (prog_log os fs) = length os.
Proof. intro L. unfold prog_log. rewrite map_length, combine_length. lia. Qed.
Lemma numbered_len log s : length (numbered s log) = length log.
Proof. unfold numbered. rewrite map_length, combine_length, seq_length. lia. Qed.
Lemma wnumbered_len log s : length (wnumbered s log) = length log.
Proof. unfold wnumbered. rewrite map_length, combine_length, seq_length. lia. Qed.

(** * Fill, then read everything *)
Lemma reads_written_app o1 : forall o2 ws, Forall (fun o => exists i v, o = RWrite i v) o1 ->
  (rw_reads_written (rev (map rw_address o1) ++ ws) o2) -> rw_reads_written ws (o1 ++ o2).
Proof.
  induction o1 as [|o o1 IH]; intros o2 ws F W; [exact W|]. inversion F as [|? ? (i & v & ->) F']; subst. cbn [app rw_reads_written]. apply IH; [exact F'|].
  cbn [map rev rw_address] in W. rewrite <- app_assoc in W. exact W.
Qed.
Lemma reads_written_reads is ws : (forall i, In i is -> In i ws) -> rw_reads_written ws (map RRead is).
Proof. induction is as [|i is IH]; intro H; [exact I|]. cbn [map rw_reads_written]. split; [apply H; now left|apply IH; intros j Hj; apply H; now right]. Qed.
Lemma fill_read_written (f : nat -> N) c : rw_reads_written [] (map (fun i => RWrite i (f i)) (seq 0 c) ++ map RRead (seq 0 c)).
Proof.
  apply reads_written_app.
  - apply Forall_forall. intros o Ho. apply in_map_iff in Ho. destruct Ho as (i & <- & _). eauto.
  - apply reads_written_reads. intros i Hi. rewrite app_nil_r, map_map. apply -> in_rev. cbn [rw_address]. now rewrite map_id.
Qed.
Lemma array_run_app_writes (f : nat -> N) o2 is : forall mem, NoDup is ->
  array_run mem (map (fun i => RWrite i (f i)) is ++ o2) = repeat None (length is) ++ array_run (fold_left (fun m i => set_cell m i (f i)) is mem) o2.
Proof. induction is as [|i is IH]; intros mem N; [reflexivity|]. inversion N; subst. cbn [map app array_run length repeat fold_left]. f_equal. now apply IH. Qed.
Lemma fold_cells (f : nat -> N) is : forall mem j, (In j is -> fold_left (fun m i => set_cell m i (f i)) is mem j = f j) /\ (~ In j is -> fold_left (fun m i => set_cell m i (f i)) is mem j = mem j).
Proof.
  induction is as [|i is IH]; intros mem j; [split; [intros []|reflexivity]|]. cbn [fold_left]. destruct (IH (set_cell mem i (f i)) j) as [I1 I2]. split.
  - intro H. destruct (in_dec Nat.eq_dec j is) as [Y|Nn]; [now apply I1|]. rewrite (I2 Nn). destruct H as [->|H]; [|contradiction]. unfold set_cell. now rewrite Nat.eqb_refl.
  - intro H. rewrite I2 by (intro; apply H; now right). unfold set_cell. destruct (Nat.eqb_spec j i) as [->|_]; [|reflexivity]. destruct H. now left.
Qed.
Lemma array_run_reads is : forall mem, array_run mem (map RRead is) = map (fun i => Some (mem i)) is.
Proof. induction is as [|i is IH]; intro mem; [reflexivity|]. cbn [map array_run]. f_equal. apply IH. Qed.
Lemma fill_read_results (f : nat -> N) c : array_run zeros (map (fun i => RWrite i (f i)) (seq 0 c) ++ map RRead (seq 0 c)) = repeat None c ++ map (fun i => Some (f i)) (seq 0 c).
Proof.
  rewrite array_run_app_writes by apply seq_NoDup. rewrite seq_length. f_equal. rewrite array_run_reads. apply map_ext_in. intros i Hi. f_equal. now apply (fold_cells f (seq 0 c) zeros i).
Qed.
Lemma wfill_read_written (f : nat -> list N) c : w_reads_written [] (map (fun i => WWrite i (f i)) (seq 0 c) ++ map WRead (seq 0 c)).
Proof.
  assert (G : forall is o2 ws, w_reads_written (ws ++ is) o2 -> w_reads_written ws (map (fun i => WWrite i (f i)) is ++ o2)).
  { induction is as [|i is IH]; intros o2 ws W; [now rewrite app_nil_r in W|]. cbn [map app w_reads_written]. apply IH. now rewrite <- app_assoc. }
  apply G. cbn [app]. assert (H : forall is, (forall i, In i is -> In i (seq 0 c)) -> w_reads_written (seq 0 c) (map WRead is)).
  { induction is as [|i is IH]; intro H; [exact I|]. cbn [map w_reads_written]. split; [apply H; now left|apply IH; intros j Hj; apply H; now right]. }
  now apply H.
Qed.
Lemma wfill_read_results (f : nat -> list N) c : warray_run (fun _ => []) (map (fun i => WWrite i (f i)) (seq 0 c) ++ map WRead (seq 0 c)) = repeat None c ++ map (fun i => Some (f i)) (seq 0 c).
Proof.
  set (up := fun (m : nat -> list N) i => fun j => if Nat.eqb j i then f i else m j).
  assert (G1 : forall is o2 mem, warray_run mem (map (fun i => WWrite i (f i)) is ++ o2) = repeat None (length is) ++ warray_run (fold_left up is mem) o2).
  { induction is as [|i is IH]; intros o2 mem; [reflexivity|]. cbn [map app warray_run length repeat fold_left]. f_equal. apply IH. }
  assert (G2 : forall is mem j, (In j is -> fold_left up is mem j = f j) /\ (~ In j is -> fold_left up is mem j = mem j)).
  { induction is as [|i is IH]; intros mem j; [split; [intros []|reflexivity]|]. cbn [fold_left]. destruct (IH (up mem i) j) as [I1 I2]. split.
    - intro H. destruct (in_dec Nat.eq_dec j is) as [Y|Nn]; [now apply I1|]. rewrite (I2 Nn). destruct H as [->|H]; [|contradiction]. unfold up. now rewrite Nat.eqb_refl.
    - intro H. rewrite I2 by (intro; apply H; now right). unfold up. destruct (Nat.eqb_spec j i) as [->|_]; [|reflexivity]. destruct H. now left. }
  rewrite G1, seq_length. f_equal. generalize (fun i => proj1 (G2 (seq 0 c) (fun _ => []) i)). generalize (fold_left up (seq 0 c) (fun _ => [])) as mem. intros mem H.
  assert (G3 : forall is, (forall i, In i is -> In i (seq 0 c)) -> warray_run mem (map WRead is) = map (fun i => Some (f i)) is).
  { induction is as [|i is IH]; intro H'; [reflexivity|]. cbn [map warray_run]. rewrite (H i) by (apply H'; now left). f_equal. apply IH. intros j Hj. apply H'. now right. }
  now apply G3.
Qed.
