(** Lemmas for PropTight.v: the two settings of the hash object, and the access logs of the memories. *)
From Coq Require Import NArith List Bool Arith Lia.
From Verif Require Import ListUtil BoolIOModel BoolIOProofs RamModel RamSpec RamThms RamLife TightSpec.
Import ListNotations.
Ltac Zify.zify_post_hook ::= idtac.

(** * The hash object with and without the reset *)
Section Reset.
  Variables (bmi : bool) (NB : nat).
  Definition alike (e e' : ep) : Prop :=
    e_buf e' = e_buf e /\ e_ptr e' = e_ptr e /\ e_hash e' = concat (e_digests e) ++ e_hash e /\
    e_digests e' = prefixes (e_digests e).
  Lemma alike_send e e' b : alike e e' ->
    snd (send_bit bmi NB e' b) = snd (send_bit bmi NB e b) /\ alike (fst (send_bit bmi NB e b)) (fst (send_bit bmi NB e' b)).
  Proof.
    intros (A & B & C & D). unfold send_bit. rewrite A, B. destruct (Nat.eqb (S (e_ptr e)) NB); cbn [fst snd]; unfold alike;
      cbn [e_buf e_ptr e_hash e_digests]; rewrite C, D, ?app_assoc; auto.
  Qed.
  Lemma alike_flush_loop fuel : forall e e', alike e e' ->
    snd (flush_loop bmi NB fuel e') = snd (flush_loop bmi NB fuel e) /\ alike (fst (flush_loop bmi NB fuel e)) (fst (flush_loop bmi NB fuel e')).
  Proof.
    induction fuel as [|f IH]; intros e e' A; [now split|]. cbn [flush_loop].
    assert (B : e_ptr e' = e_ptr e) by apply A. rewrite B. destruct (Nat.eqb (e_ptr e) 0); [now split|].
    destruct (alike_send e e' true A) as [S1 S2]. destruct (send_bit bmi NB e true) as [e1 o1], (send_bit bmi NB e' true) as [e1' o1'].
    cbn [fst snd] in *. subst o1'. destruct (IH e1 e1' S2) as [T1 T2].
    destruct (flush_loop bmi NB f e1), (flush_loop bmi NB f e1'). cbn [fst snd] in *. now subst.
  Qed.
  Lemma prefixes_snoc l x : prefixes (l ++ [x]) = prefixes l ++ [concat (l ++ [x])].
  Proof.
    unfold prefixes. rewrite app_length. cbn [length]. rewrite Nat.add_1_r, seq_S, map_app. f_equal.
    - apply map_ext_in. intros i Hi. apply in_seq in Hi. rewrite firstn_app. replace (S i - length l) with 0 by lia.
      cbn [firstn]. now rewrite app_nil_r.
    - cbn [map Nat.add]. rewrite firstn_all2; [reflexivity|]. rewrite app_length. cbn. lia.
  Qed.
  Lemma alike_sq e e' a : alike e e' ->
    snd (sq bmi false NB e' a) = snd (sq bmi true NB e a) /\ alike (fst (sq bmi true NB e a)) (fst (sq bmi false NB e' a)).
  Proof.
    intro A. assert (B : e_ptr e' = e_ptr e) by apply A. destruct a as [b|[]|[] b| |]; cbn [sq]; rewrite ?B.
    - now apply alike_send.
    - destruct (Nat.eqb (e_ptr e) 0); [now split|]. now apply alike_flush_loop.
    - destruct (Nat.eqb (e_ptr e) NB); [now split|]. now apply alike_flush_loop.
    - now split.
    - split; [reflexivity|]. destruct A as (A1 & A2 & A3 & A4). now split.
    - now apply alike_flush_loop.
    - split; [reflexivity|]. destruct A as (A1 & A2 & A3 & A4). unfold alike. cbn [fst get_hash e_buf e_ptr e_hash e_digests].
      rewrite A3, A4, prefixes_snoc, concat_app. cbn [concat]. now rewrite !app_nil_r.
  Qed.
  Lemma alike_run l : forall e e', alike e e' ->
    snd (sq_run bmi false NB e' l) = snd (sq_run bmi true NB e l) /\ alike (fst (sq_run bmi true NB e l)) (fst (sq_run bmi false NB e' l)).
  Proof.
    induction l as [|a l IH]; intros e e' A; [now split|]. cbn [sq_run]. destruct (alike_sq e e' a A) as [S1 S2].
    destruct (sq bmi true NB e a) as [e1 o1], (sq bmi false NB e' a) as [e1' o1']. cbn [fst snd] in *. subst o1'.
    destruct (IH e1 e1' S2) as [T1 T2]. destruct (sq_run bmi true NB e1 l), (sq_run bmi false NB e1' l). cbn [fst snd] in *. now subst.
  Qed.
  Lemma alike_init g sender : alike (ep_init NB g sender) (ep_init NB g sender).
  Proof. unfold alike. cbn. auto. Qed.
End Reset.

(** * Read-write memory: the log, access by access *)
Lemma rw_run_log n st os : forall s log, rw_inv n s log -> Forall (fun o => rw_is_access o /\ rw_address o < 2 ^ n) os ->
  exists s' log', rw_run n st s os = Some s' /\ rw_inv n s' (log ++ log') /\ Forall2 rw_logs os log'.
Proof.
  induction os as [|o os IH]; intros s log I F.
  - exists s, []. rewrite app_nil_r. cbn. auto.
  - inversion F as [|? ? [A L] F']; subst. destruct (rw_access_inv n st s log o I A L) as [s1 [E1 I1]].
    destruct (IH s1 _ I1 F') as (s' & log' & E & I' & Ln). exists s', (acc_of (rw_mem s) o :: log'). cbn [rw_run]. rewrite E1. split; [exact E|].
    rewrite <- app_assoc in I'. split; [exact I'|]. constructor; [|exact Ln].
    destruct o as [i|i v|[] i v| |]; try contradiction; cbn [rw_logs acc_of a_addr a_write a_val]; auto; try (split; [reflexivity|split; [reflexivity|]]; auto; discriminate).
Qed.
Lemma rw_run_app n st os1 : forall os2 s, rw_run n st s (os1 ++ os2) = match rw_run n st s os1 with None => None | Some s' => rw_run n st s' os2 end.
Proof. induction os1 as [|o os1 IH]; intros os2 s; cbn [app rw_run]; [reflexivity|]. destruct (rw_do n st s o); auto. Qed.

(** * Wide memory *)
Lemma wnumbered_app s l1 l2 : wnumbered s (l1 ++ l2) = wnumbered s l1 ++ wnumbered (s + length l1) l2.
Proof.
  unfold wnumbered. rewrite app_length, seq_app. rewrite <- map_app. f_equal.
  generalize (s + length l1) as k. revert s. induction l1 as [|x l1 IH]; intros s k; [reflexivity|]. cbn. f_equal. apply IH.
Qed.
Lemma wlast_write_app l1 l2 a : wlast_write (l1 ++ l2) a = match wlast_write l2 a with Some v => Some v | None => wlast_write l1 a end.
Proof. induction l1 as [|x l1 IH]; cbn [app wlast_write]; [now destruct (wlast_write l2 a)|]. rewrite IH. now destruct (wlast_write l2 a). Qed.
Definition x_inv (nw n : nat) (s : wst) (log : list wacc) : Prop :=
  length (x_mem s) = 2 ^ n /\ x_list s = wnumbered 0 log /\ x_step s = length log /\ x_checked s = [] /\ wreads_latest log /\ wwritten_first log /\
  (forall i, i < 2 ^ n -> cell (x_mem s) i = Some (match wlast_write log (N.of_nat i) with Some v => v | None => [] end)) /\
  (forall i v, wlast_write log (N.of_nat i) = Some v -> length v = nw).
Lemma x_inv_init nw n : x_inv nw n (x_init n) [].
Proof.
  unfold x_inv. cbn [x_init x_mem x_list x_step x_checked]. rewrite repeat_length. split; [reflexivity|]. split; [reflexivity|]. split; [reflexivity|].
  split; [reflexivity|]. split; [intros [|? ?] ? ? E; discriminate|]. split; [intros [|? ?] ? ? E; discriminate|]. split.
  - intros i Hi. unfold cell. rewrite nth_error_repeat by exact Hi. reflexivity.
  - discriminate.
Qed.
Lemma x_inv_push nw n s log mem i (op : bool) v : x_inv nw n s log -> i < 2 ^ n -> length mem = 2 ^ n -> length v = nw ->
  (op = false -> mem = x_mem s /\ wlast_write log (N.of_nat i) = Some v) -> (op = true -> mem = upd (x_mem s) i v) ->
  x_inv nw n {| x_mem := mem; x_list := x_list s ++ [{| w_idx := N.of_nat i; w_step := N.of_nat (x_step s); w_op := op; w_val := v |}];
             x_step := S (x_step s); x_checked := x_checked s |} (log ++ [{| b_addr := N.of_nat i; b_write := op; b_val := v |}]).
Proof.
  intros (H1 & H2 & H3 & H4 & H5 & H5' & H6 & H7) Hi Hm Lv Hr Hw. unfold x_inv. cbn [x_mem x_list x_step x_checked].
  split; [exact Hm|]. split; [rewrite H2, H3, wnumbered_app; reflexivity|].
  split; [rewrite app_length, H3; cbn; lia|]. split; [exact H4|]. split; [|split; [|split]].
  - intros pre x post E O w Hl. apply app_one_inv in E. destruct E as [[-> [-> ->]]|[post' [-> ->]]].
    + cbn [b_write b_addr b_val] in *. destruct (Hr O) as [_ C]. congruence.
    + exact (H5 _ _ _ eq_refl O w Hl).
  - intros pre x post E O. apply app_one_inv in E. destruct E as [[-> [-> ->]]|[post' [-> ->]]].
    + cbn [b_write b_addr b_val] in *. destruct (Hr O) as [_ C]. congruence.
    + exact (H5' _ _ _ eq_refl O).
  - intros j Hj. rewrite wlast_write_app. cbn [wlast_write b_write b_addr b_val]. destruct op.
    + rewrite (Hw eq_refl). cbn [andb]. destruct (N.eqb_spec (N.of_nat i) (N.of_nat j)) as [e|ne].
      * apply Nat2N.inj in e. subst j. apply cell_upd_eq. lia.
      * rewrite cell_upd_neq by congruence. now apply H6.
    + destruct (Hr eq_refl) as [-> _]. cbn [andb]. now apply H6.
  - intros j w. rewrite wlast_write_app. cbn [wlast_write b_write b_addr b_val].
    destruct (op && N.eqb (N.of_nat i) (N.of_nat j)); [intro E; injection E as <-; exact Lv|apply H7].
Qed.
Lemma x_run_log nw n os : forall s log, 1 <= nw -> x_inv nw n s log -> Forall (w_in_range nw n) os ->
  w_reads_written (map (fun x => N.to_nat (b_addr x)) (filter b_write log)) os ->
  exists s' log', x_run nw s os = Some s' /\ x_inv nw n s' (log ++ log') /\ Forall2 w_logs os log'.
Proof.
  induction os as [|o os IH]; intros s log Hn I F W.
  - exists s, []. rewrite app_nil_r. cbn. auto.
  - inversion F as [|? ? A F']; subst. assert (I0 := I). destruct I0 as (H1 & _ & _ & _ & _ & _ & H6 & H7).
    assert (E1 : exists s1 x, x_do nw s o = Some s1 /\ x_inv nw n s1 (log ++ [x]) /\ w_logs o x).
    { destruct o as [i|i v|]; [| |contradiction]; cbn [w_in_range] in A; cbn [x_do].
      - destruct W as [Wi W].
        assert (Wl : exists v, wlast_write log (N.of_nat i) = Some v).
        { clear - Wi. induction log as [|x log IH]; [contradiction|]. cbn [filter map] in Wi. cbn [wlast_write].
          destruct (wlast_write log (N.of_nat i)) as [v|] eqn:E; [eauto|]. destruct (b_write x) eqn:Bx; cbn [andb].
          - destruct Wi as [Wi|Wi]; [|now destruct (IH Wi)]. rewrite <- Wi, N2Nat.id, N.eqb_refl. eauto.
          - now destruct (IH Wi). }
        destruct Wl as [v Wl]. rewrite (H6 i A), Wl. assert (Lv := H7 i v Wl). rewrite Lv.
        destruct (Nat.ltb_spec nw nw); [lia|]. destruct (Nat.eqb_spec nw 0); [lia|]. cbn [orb].
        eexists. exists {| b_addr := N.of_nat i; b_write := false; b_val := v |}. split; [reflexivity|]. split; [|now split].
        apply x_inv_push; auto. discriminate.
      - destruct A as [A Lv]. rewrite (H6 i A). destruct (Nat.eqb_spec (length v) 0); [lia|].
        eexists. exists {| b_addr := N.of_nat i; b_write := true; b_val := v |}. split; [reflexivity|]. split; [|now split].
        apply x_inv_push; auto; [now rewrite upd_length|discriminate]. }
    destruct E1 as (s1 & x & E1 & I1 & Lx). cbn [x_run]. rewrite E1.
    destruct (IH s1 (log ++ [x]) Hn I1 F') as (s' & log' & E & I' & Ln).
    { rewrite filter_app, map_app. cbn [filter]. destruct o as [i|i v|]; cbn [w_logs] in Lx; [| |contradiction].
      - destruct Lx as [_ ->]. cbn [map]. rewrite app_nil_r. apply W.
      - destruct Lx as (Ax & -> & _). cbn [map]. rewrite Ax, Nat2N.id. exact W. }
    exists s', (x :: log'). split; [exact E|]. rewrite <- app_assoc in I'. split; [exact I'|]. now constructor.
Qed.
Lemma x_run_app nw os1 : forall os2 s, x_run nw s (os1 ++ os2) = match x_run nw s os1 with None => None | Some s' => x_run nw s' os2 end.
Proof. induction os1 as [|o os1 IH]; intros os2 s; cbn [app x_run]; [reflexivity|]. destruct (x_do nw s o); auto. Qed.
