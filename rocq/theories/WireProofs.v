(** The programs of the Boolean engine follow the schedule of the honest prover's run. *)
From Coq Require Import NArith List Bool Arith Lia.
From Verif Require Import Word WordProofs BoolModel BoolSpec BoolProofs BoolAlg BoolThms BoolThms2 BoolIOModel BoolIOSpec BoolIOProofs
  BoolIOThms BoolIOThms2 HideProofs WireModel WireNet.
Import ListNotations.

Lemma some2 {A B} (a a' : A) (b b' : B) : Some (a, b) = Some (a', b') -> a = a' /\ b = b'.
Proof. intro E. now inversion E. Qed.
(** * Encoding of blocks *)
Lemma enc_block_len x : length (enc_block x) = 16.
Proof. unfold enc_block. now rewrite map_length, seq_length. Qed.
Lemma dec_seq x n : forall a, dec_bytes (map (fun i => (x / 2 ^ (8 * N.of_nat i)) mod 256)%N (seq a n)) =
  ((x / 2 ^ (8 * N.of_nat a)) mod 2 ^ (8 * N.of_nat n))%N.
Proof.
  induction n as [|n IH]; intro a; [cbn; now rewrite N.mod_1_r|]. cbn [seq map dec_bytes]. rewrite IH.
  replace (8 * N.of_nat (S a))%N with (8 * N.of_nat a + 8)%N by lia.
  replace (8 * N.of_nat (S n))%N with (8 + 8 * N.of_nat n)%N by lia.
  rewrite !N.pow_add_r. change (2 ^ 8)%N with 256%N. rewrite <- N.div_div by (try apply N.pow_nonzero; lia).
  set (y := (x / 2 ^ (8 * N.of_nat a))%N). rewrite N.mod_mul_r by (try apply N.pow_nonzero; lia). reflexivity.
Qed.
Lemma dec_enc x : (x < 2 ^ 128)%N -> dec_bytes (enc_block x) = x.
Proof.
  intro H. unfold enc_block. rewrite dec_seq. change (8 * N.of_nat 0)%N with 0%N. change (8 * N.of_nat 16)%N with 128%N.
  rewrite N.pow_0_r, N.div_1_r. now apply N.mod_small.
Qed.
Lemma dec2_enc2 A : (fst A < 2 ^ 128)%N -> (snd A < 2 ^ 128)%N -> dec2 (enc2 A) = A.
Proof.
  intros H1 H2. unfold dec2, enc2.
  assert (E1 : firstn 16 (enc_block (fst A) ++ enc_block (snd A)) = enc_block (fst A)).
  { rewrite <- (enc_block_len (fst A)), firstn_app, Nat.sub_diag, firstn_all. cbn [firstn]. apply app_nil_r. }
  assert (E2 : skipn 16 (enc_block (fst A) ++ enc_block (snd A)) = enc_block (snd A)).
  { rewrite <- (enc_block_len (fst A)), skipn_app, Nat.sub_diag, skipn_all. reflexivity. }
  assert (E3 : firstn 16 (enc_block (snd A)) = enc_block (snd A)) by (rewrite <- (enc_block_len (snd A)) at 1; apply firstn_all).
  rewrite E1, E2, E3, !dec_enc by assumption. now destruct A.
Qed.
Lemma enc2_len A : length (enc2 A) = 32.
Proof. unfold enc2. now rewrite app_length, !enc_block_len. Qed.
Lemma same_bytes_refl a : same_bytes a a = true.
Proof. induction a as [|x a IH]; [reflexivity|]. cbn. now rewrite N.eqb_refl. Qed.
Lemma same_bytes_eq a : forall b, same_bytes a b = true -> a = b.
Proof.
  induction a as [|x a IH]; intros [|y b] H; try easy. cbn in H. apply andb_prop in H. destruct H as [H1 H2].
  apply N.eqb_eq in H1. now rewrite H1, (IH b H2).
Qed.

(** * Challenges of a schedule *)
Fixpoint nchal (os : list op) : nat :=
  match os with [] => 0 | OChallenge :: os' | OHashOnly :: os' => S (nchal os') | _ :: os' => nchal os' end.
Lemma nchal_app a : forall b, nchal (a ++ b) = nchal a + nchal b.
Proof. induction a as [|x a IH]; intro b; [reflexivity|]. destruct x; cbn; now rewrite IH. Qed.
Lemma bits_of_app a : forall b, bits_of (a ++ b) = bits_of a ++ bits_of b.
Proof. induction a as [|x a IH]; intro b; [reflexivity|]. destruct x; cbn; now rewrite IH. Qed.
Lemma compile_app a b : compile (a ++ b) = compile a ++ compile b.
Proof. apply flat_map_app. Qed.
Section Count.
  Variables (bs reset : bool) (NB : nat).
  Lemma sb_dig e b : e_digests (fst (send_bit bs NB e b)) = e_digests e.
  Proof. unfold send_bit. destruct (Nat.eqb _ _); reflexivity. Qed.
  Lemma fl_dig n : forall e, e_digests (fst (flush_loop bs NB n e)) = e_digests e.
  Proof.
    induction n as [|n IH]; intro x; [reflexivity|]. cbn [flush_loop]. destruct (Nat.eqb (e_ptr x) 0); [reflexivity|].
    pose proof (sb_dig x true) as Q. destruct (send_bit bs NB x true) as [x1 o1]. pose proof (IH x1) as Q1.
    destruct (flush_loop bs NB n x1) as [x2 o2]. cbn [fst] in *. congruence.
  Qed.
  Lemma sq_dig e a : length (e_digests (fst (sq bs reset NB e a))) = length (e_digests e) + match a with AHash => 1 | _ => 0 end.
  Proof.
    destruct a as [b|[]|[] x| |]; cbn [sq]; rewrite ?Nat.add_0_r.
    - now rewrite sb_dig.
    - destruct (Nat.eqb _ _); [reflexivity|]. unfold flush_s. now rewrite fl_dig.
    - destruct (Nat.eqb _ _); [reflexivity|]. unfold flush_s. now rewrite fl_dig.
    - reflexivity.
    - reflexivity.
    - unfold flush_s. now rewrite fl_dig.
    - cbn [fst get_hash e_digests]. now rewrite app_length.
  Qed.
  Lemma sq_run_dig l : forall e, length (e_digests (fst (sq_run bs reset NB e l))) =
    length (e_digests e) + length (filter (fun a => match a with AHash => true | _ => false end) l).
  Proof.
    induction l as [|a l IH]; intro e; [cbn; lia|]. cbn [sq_run]. pose proof (sq_dig e a) as Q. destruct (sq bs reset NB e a) as [e1 o1].
    pose proof (IH e1) as Q1. destruct (sq_run bs reset NB e1 l) as [e2 o2]. cbn [fst] in *. destruct a; cbn [filter length]; lia.
  Qed.
  Lemma nchal_compile os : length (filter (fun a => match a with AHash => true | _ => false end) (compile os)) = nchal os.
  Proof. induction os as [|o os IH]; [reflexivity|]. unfold compile in *. destruct o; cbn; now rewrite <- IH. Qed.
  Lemma dgs_len gs os : length (dgs bs reset NB gs os) = nchal os.
  Proof. unfold dgs. rewrite sq_run_dig, nchal_compile, nchal_app. cbn. lia. Qed.
  Lemma dgs_shape gs os os' : Forall2 same_shape os os' -> bits_of os = bits_of os' -> dgs bs reset NB gs os = dgs bs reset NB gs os'.
  Proof.
    intros Sh B. unfold dgs.
    assert (Sh' : Forall2 shape (compile (os ++ [OFlush])) (compile (os' ++ [OFlush]))).
    { apply shape_compile, Forall2_app; [exact Sh|]. repeat constructor. }
    assert (E := indep bs reset NB _ _ (ep_init NB gs true) (ep_init NB gs true) Sh'
      ltac:(now rewrite !abits_compile, !bits_of_app, B) eq_refl eq_refl eq_refl).
    unfold obs in E. now injection E.
  Qed.
End Count.

Lemma clear_not_full csz s g : 1 <= csz -> full csz g (length (p_buf (p_clear s))) = false.
Proof. intro Hc. destruct g; try reflexivity. cbn. destruct csz; [lia|reflexivity]. Qed.
Lemma vclear_not_full csz v g : 1 <= csz -> full csz g (length (v_buf (v_clear v))) = false.
Proof. intro Hc. destruct g; try reflexivity. cbn. destruct csz; [lia|reflexivity]. Qed.
(** * The schedule of a prover run *)
Section Sched.
  Variables (r0 r1 : N) (pM : nat -> N) (threads csz : nat) (H : list N -> list N).
  Hypothesis Hth : 1 <= threads.
  Hypothesis Hcsz : threads <= csz.
  Definition chk_ops (s : pst) : list op := [OChallenge; OData true (enc2 (last (p_msgs s) (0, 0)%N)); OFlush].
  Definition fin_ops (s : pst) : list op := [OData true (H (p_hash s))].
  Definition bit_ops (g : gate) (s : pst) : list op := if sends g then [OBit (last (p_bits s) false)] else [].
  Section S.
    Variable seeds : nat -> nat -> N.
    Notation step := (prv_step r0 r1 pM threads csz seeds).
    Fixpoint sched (s : pst) (c : list gate) : option (list op * pst) :=
      match c with
      | [] => match p_buf s with
              | [] => Some (fin_ops s, s)
              | _ => match prv_manage pM threads seeds s with None => None | Some s' => Some (chk_ops s' ++ fin_ops s', s') end
              end
      | g :: c' =>
          if full csz g (length (p_buf s)) then
            match prv_manage pM threads seeds s with
            | None => None
            | Some s1 => match step (p_clear s1) g with
                         | None => None
                         | Some s2 => match sched s2 c' with None => None | Some (os, p) => Some (chk_ops s1 ++ bit_ops g s2 ++ os, p) end
                         end
            end
          else match step s g with
               | None => None
               | Some s2 => match sched s2 c' with None => None | Some (os, p) => Some (bit_ops g s2 ++ os, p) end
               end
      end.
    Lemma step_full s g s1 : full csz g (length (p_buf s)) = true -> prv_manage pM threads seeds s = Some s1 ->
      step s g = step (p_clear s1) g.
    Proof.
      intros Hf Hm. destruct g; try discriminate. cbn [full] in Hf. cbn [prv_step]. unfold prv_precheck. rewrite Hf, Hm.
      cbn [p_clear p_buf length]. destruct (Nat.eqb_spec 0 csz); [lia|reflexivity].
    Qed.
    Lemma step_full_none s g : full csz g (length (p_buf s)) = true -> prv_manage pM threads seeds s = None -> step s g = None.
    Proof.
      intros Hf Hm. destruct g; try discriminate. cbn [full] in Hf. cbn [prv_step]. unfold prv_precheck. now rewrite Hf, Hm.
    Qed.
    Lemma sched_run c : forall s p, match prv_run r0 r1 pM threads csz seeds s c with None => None | Some s => prv_final pM threads seeds s end = Some p ->
      exists os, sched s c = Some (os, p).
    Proof.
      induction c as [|g c IH]; intros s p E; cbn [prv_run sched] in *.
      - unfold prv_final in E. destruct (p_buf s) eqn:Eb; [injection E as <-; eauto|].
        destruct (prv_manage pM threads seeds s) as [s'|]; [|discriminate]. injection E as <-. eauto.
      - destruct (full csz g (length (p_buf s))) eqn:Ef.
        + destruct (prv_manage pM threads seeds s) as [s1|] eqn:Em.
          * rewrite (step_full s g s1 Ef Em) in E. destruct (step (p_clear s1) g) as [s2|]; [|discriminate].
            destruct (IH s2 p E) as [os ->]. eauto.
          * rewrite (step_full_none s g Ef Em) in E. discriminate.
        + destruct (step s g) as [s2|]; [|discriminate]. destruct (IH s2 p E) as [os ->]. eauto.
    Qed.
  End S.
  (** a gate met with room in the buffer uses no challenge *)
  Lemma step_seeds sd sd' s g : full csz g (length (p_buf s)) = false ->
    prv_step r0 r1 pM threads csz sd s g = prv_step r0 r1 pM threads csz sd' s g.
  Proof. destruct g; intro Hf; try reflexivity. cbn [full] in Hf. cbn [prv_step]. unfold prv_precheck. now rewrite Hf. Qed.
  (** states equal up to the check messages *)
  Definition alike (s s' : pst) : Prop :=
    p_wires s = p_wires s' /\ p_buf s = p_buf s' /\ p_hash s = p_hash s' /\ p_cot s = p_cot s' /\ p_chk s = p_chk s' /\
    p_bits s = p_bits s' /\ p_outs s = p_outs s'.
  Lemma alike_step sd s s' g s2 : full csz g (length (p_buf s)) = false -> alike s s' -> prv_step r0 r1 pM threads csz sd s g = Some s2 ->
    exists s2', prv_step r0 r1 pM threads csz sd s' g = Some s2' /\ alike s2 s2'.
  Proof.
    intros Hf (A1 & A2 & A3 & A4 & A5 & A6 & A7) E.
    destruct g; cbn [prv_step prv_input prv_and] in *; unfold prv_precheck in *; cbn [full] in Hf; rewrite <- ?A2, ?Hf in *;
    try (injection E as <-; eexists; split; [reflexivity|]; unfold alike; cbn; rewrite ?A1, ?A2, ?A3, ?A4, ?A5, ?A6, ?A7; repeat split; reflexivity).
  Qed.
  Lemma alike_manage sd sd' s s' s1 : alike s s' -> prv_manage pM threads sd s = Some s1 ->
    exists s1', prv_manage pM threads sd' s' = Some s1' /\ alike s1 s1'.
  Proof.
    intros (A1 & A2 & A3 & A4 & A5 & A6 & A7) E. unfold prv_manage in *. rewrite <- A2.
    destruct (and_ranges threads (length (p_buf s))); [|discriminate]. injection E as <-. eexists. split; [reflexivity|].
    unfold alike. cbn. rewrite A1, A3, A4, A5, A6, A7. repeat split; reflexivity.
  Qed.
  Lemma alike_clear s s' : alike s s' -> alike (p_clear s) (p_clear s').
  Proof. intros (A1 & A2 & A3 & A4 & A5 & A6 & A7). repeat split; assumption. Qed.
  Lemma chk_shape s s' : Forall2 same_shape (chk_ops s) (chk_ops s').
  Proof. repeat constructor. Qed.
  Lemma sched_alike sd sd' c : forall s s' os p, alike s s' -> sched sd s c = Some (os, p) ->
    exists os' p', sched sd' s' c = Some (os', p') /\ Forall2 same_shape os os' /\ bits_of os = bits_of os'.
  Proof.
    induction c as [|g c IH]; intros s s' os p Al E; cbn [sched] in *; pose proof Al as (_ & A2 & _); rewrite <- A2.
    - destruct (p_buf s) eqn:Eb.
      + apply some2 in E; destruct E as [<- <-]. do 2 eexists. split; [reflexivity|]. split; [repeat constructor|reflexivity].
      + destruct (prv_manage pM threads sd s) as [s1|] eqn:Em; [|discriminate]. apply some2 in E; destruct E as [<- <-].
        destruct (alike_manage sd sd' s s' s1 Al Em) as (s1' & -> & _). do 2 eexists. split; [reflexivity|]. split; [repeat constructor|reflexivity].
    - destruct (full csz g (length (p_buf s))) eqn:Ef.
      + destruct (prv_manage pM threads sd s) as [s1|] eqn:Em; [|discriminate].
        destruct (alike_manage sd sd' s s' s1 Al Em) as (s1' & -> & Al1). apply alike_clear in Al1.
        destruct (prv_step r0 r1 pM threads csz sd (p_clear s1) g) as [s2|] eqn:Es; [|discriminate].
        destruct (alike_step sd _ _ g s2 (clear_not_full csz s1 g ltac:(lia)) Al1 Es) as (s2' & Es' & Al2).
        rewrite (step_seeds sd sd') in Es' by (apply clear_not_full; lia). rewrite Es'.
        destruct (sched sd s2 c) as [[os1 p1]|] eqn:E1; [|discriminate]. apply some2 in E; destruct E as [<- <-].
        destruct (IH s2 s2' os1 p1 Al2 E1) as (os' & p' & -> & Sh & B). do 2 eexists. split; [reflexivity|].
        destruct Al2 as (_ & _ & _ & _ & _ & Hb & _). split.
        * apply Forall2_app; [apply chk_shape|]. apply Forall2_app; [|exact Sh]. unfold bit_ops. rewrite Hb. destruct (sends g); repeat constructor.
        * rewrite !bits_of_app, B. unfold bit_ops. now rewrite Hb.
      + destruct (prv_step r0 r1 pM threads csz sd s g) as [s2|] eqn:Es; [|discriminate].
        destruct (alike_step sd _ _ g s2 Ef Al Es) as (s2' & Es' & Al2).
        rewrite (step_seeds sd sd') in Es' by (now rewrite <- A2). rewrite Es'.
        destruct (sched sd s2 c) as [[os1 p1]|] eqn:E1; [|discriminate]. apply some2 in E; destruct E as [<- <-].
        destruct (IH s2 s2' os1 p1 Al2 E1) as (os' & p' & -> & Sh & B). do 2 eexists. split; [reflexivity|].
        destruct Al2 as (_ & _ & _ & _ & _ & Hb & _). split.
        * apply Forall2_app; [|exact Sh]. unfold bit_ops. rewrite Hb. destruct (sends g); repeat constructor.
        * rewrite !bits_of_app, B. unfold bit_ops. now rewrite Hb.
  Qed.
  Lemma sched_no_bare sd c : forall s os p, sched sd s c = Some (os, p) -> no_bare_hash os.
  Proof.
    assert (C : forall s, no_bare_hash (chk_ops s)) by (intro; repeat constructor).
    assert (B : forall g s, no_bare_hash (bit_ops g s)) by (intros; unfold bit_ops; destruct (sends g); repeat constructor).
    assert (F : forall s, no_bare_hash (fin_ops s)) by (intro; repeat constructor).
    unfold no_bare_hash in *.
    induction c as [|g c IH]; intros s os p E; cbn [sched] in E.
    - destruct (p_buf s); [apply some2 in E; destruct E as [<- <-]; apply F|]. destruct (prv_manage pM threads sd s); [|discriminate].
      apply some2 in E; destruct E as [<- <-]. apply Forall_app. now split.
    - destruct (full csz g (length (p_buf s))).
      + destruct (prv_manage pM threads sd s) as [s1|]; [|discriminate]. destruct (prv_step r0 r1 pM threads csz sd (p_clear s1) g) as [s2|]; [|discriminate].
        destruct (sched sd s2 c) as [[os1 p1]|] eqn:E1; [|discriminate]. apply some2 in E; destruct E as [<- <-]. apply Forall_app. split; [apply C|].
        apply Forall_app. split; [apply B|]. exact (IH _ _ _ E1).
      + destruct (prv_step r0 r1 pM threads csz sd s g) as [s2|]; [|discriminate].
        destruct (sched sd s2 c) as [[os1 p1]|] eqn:E1; [|discriminate]. apply some2 in E; destruct E as [<- <-]. apply Forall_app. split; [apply B|]. exact (IH _ _ _ E1).
  Qed.
End Sched.

(** * Both programs follow the schedule *)
Section Follow.
  Variables (r0 r1 : N) (pM vK : nat -> N) (delta : N) (threads csz : nat).
  Variables (G : list N -> nat -> N) (H : list N -> list N).
  Hypothesis Hth : 1 <= threads.
  Hypothesis Hcsz : threads <= csz.
  Hypothesis HH : forall l, length (H l) = 32.
  Variable seeds : nat -> nat -> N.
  Notation sched := (sched r0 r1 pM threads csz H seeds).
  Notation step := (prv_step r0 r1 pM threads csz seeds).
  (** the challenges still to come are those of [dl] *)
  Definition seeds_are (k : nat) (dl : list (list N)) : Prop := forall i h, nth_error dl i = Some h -> seeds (k + i) = G h.
  Lemma seeds_head k h dl : seeds_are k (h :: dl) -> seeds k = G h /\ seeds_are (S k) dl.
  Proof.
    intro S0. split; [rewrite <- (Nat.add_0_r k); now apply S0|]. intros i x E. replace (S k + i) with (k + S i) by lia. now apply S0.
  Qed.
  Lemma manage_facts s s1 : prv_manage pM threads seeds s = Some s1 ->
    p_chk s1 = S (p_chk s) /\ p_bits s1 = p_bits s /\ p_hash s1 = p_hash s /\ p_buf s1 = p_buf s /\
    exists A, p_msgs s1 = p_msgs s ++ [A] /\ (fst A < 2 ^ 128)%N /\ (snd A < 2 ^ 128)%N.
  Proof.
    intro E. unfold prv_manage in E. destruct (and_ranges threads (length (p_buf s))) as [rs|]; [|discriminate]. injection E as <-.
    cbn [p_chk p_bits p_hash p_buf p_msgs]. repeat (split; [reflexivity|]). eexists. split; [reflexivity|]. split; [apply Astar_lt|].
    apply A_snd_lt. unfold pM_slice. now rewrite map_length, seq_length.
  Qed.
  Lemma step_facts s g s2 : full csz g (length (p_buf s)) = false -> step s g = Some s2 ->
    p_chk s2 = p_chk s /\ p_msgs s2 = p_msgs s /\ (exists b, p_bits s2 = p_bits s ++ (if sends g then [b] else [])) /\
    length (p_buf s2) = length (p_buf s) + match g with GAnd _ _ => 1 | _ => 0 end.
  Proof.
    intros Hf E. destruct g; cbn [prv_step prv_input prv_and sends full] in *; unfold prv_precheck in *; rewrite ?Hf in E; injection E as <-;
    cbn [p_add p_chk p_msgs p_bits p_buf]; (split; [reflexivity|]); (split; [reflexivity|]); (split; [try (exists true; now rewrite app_nil_r); eexists; reflexivity|]);
    rewrite ?app_length; cbn; lia.
  Qed.
  Lemma manage_seeds s h : seeds (p_chk s) = G h -> prv_manage pM threads (fun _ => G h) s = prv_manage pM threads seeds s.
  Proof. intro E. unfold prv_manage. now rewrite E. Qed.
  Lemma follow_chk {R : Type} s s1 (k : pst -> proc (option R)) l dl res h : seeds (p_chk s) = G h -> prv_manage pM threads seeds s = Some s1 ->
    follow true (k s1) l dl res -> follow true (prv_check_prog pM threads G s k) (compile (chk_ops s1) ++ l) (h :: dl) res.
  Proof.
    intros Eh Em F. unfold prv_check_prog, chk_ops. cbn [compile flat_map compile1 app follow Bool.eqb]. eexists. split; [reflexivity|]. eexists. split; [reflexivity|].
    cbn beta. rewrite (manage_seeds s h Eh), Em. eexists. split; [reflexivity|]. eexists. split; [reflexivity|]. eexists. split; [reflexivity|]. exact F.
  Qed.
  Lemma follow_gate {R : Type} s g s2 (k : pst -> proc (option R)) l dl res : full csz g (length (p_buf s)) = false -> step s g = Some s2 ->
    follow true (k s2) l dl res -> follow true (prv_gate r0 r1 pM threads csz s g k) (compile (bit_ops g s2) ++ l) dl res.
  Proof.
    intros Hf Es F. unfold prv_gate, bit_ops. rewrite (step_seeds r0 r1 pM threads csz (fun _ _ => 0%N) seeds s g Hf), Es.
    destruct (sends g); [|exact F]. cbn. eexists. split; [reflexivity|]. exact F.
  Qed.
  Lemma prv_follow c : forall s os p dl, sched s c = Some (os, p) -> seeds_are (p_chk s) dl -> length dl = nchal os ->
    follow true (prv_prog r0 r1 pM threads csz G H s c) (compile (os ++ [OFlush])) dl (Some p).
  Proof.
    assert (FIN : forall s, follow true (prv_fin H s) (compile (fin_ops H s ++ [OFlush])) [] (Some s)).
    { intro s. unfold prv_fin. cbn. eexists. split; [reflexivity|]. eexists. split; [reflexivity|]. eexists. split; reflexivity. }
    induction c as [|g c IH]; intros s os p dl E Sd Ld; cbn [WireProofs.sched prv_prog] in *.
    - destruct (p_buf s) eqn:Eb.
      + apply some2 in E; destruct E as [<- <-]. destruct dl; [apply FIN|discriminate].
      + destruct (prv_manage pM threads seeds s) as [s1|] eqn:Em; [|discriminate]. apply some2 in E; destruct E as [<- <-].
        rewrite <- app_assoc, compile_app. destruct dl as [|h [|]]; try discriminate. apply seeds_head in Sd. destruct Sd as [Sd _].
        apply follow_chk with (s1 := s1); auto.
    - destruct (full csz g (length (p_buf s))) eqn:Ef.
      + destruct (prv_manage pM threads seeds s) as [s1|] eqn:Em; [|discriminate].
        destruct (step (p_clear s1) g) as [s2|] eqn:Es; [|discriminate].
        destruct (sched s2 c) as [[os1 p1]|] eqn:E1; [|discriminate]. apply some2 in E; destruct E as [<- <-].
        rewrite <- !app_assoc, compile_app. destruct dl as [|h dl]; [discriminate|]. apply seeds_head in Sd. destruct Sd as [Sh Sd].
        apply follow_chk with (s1 := s1); auto. rewrite compile_app.
        apply follow_gate with (s2 := s2); auto; [apply clear_not_full; lia|].
        apply IH; auto.
        * destruct (manage_facts s s1 Em) as (C1 & _).
          destruct (step_facts (p_clear s1) g s2 (clear_not_full csz s1 g ltac:(lia)) Es) as (C2 & _). cbn in C2. now rewrite C2, C1.
        * rewrite !nchal_app in Ld. cbn in Ld. unfold bit_ops in Ld. destruct (sends g); cbn in Ld; lia.
      + destruct (step s g) as [s2|] eqn:Es; [|discriminate].
        destruct (sched s2 c) as [[os1 p1]|] eqn:E1; [|discriminate]. apply some2 in E; destruct E as [<- <-].
        rewrite <- !app_assoc, compile_app. apply follow_gate with (s2 := s2); auto. apply IH; auto.
        * destruct (step_facts s g s2 Ef Es) as (C2 & _). now rewrite C2.
        * rewrite !nchal_app in Ld. unfold bit_ops in Ld. destruct (sends g); cbn in Ld; lia.
  Qed.
  (** the bits and messages of a state are the beginning of the final ones *)
  Lemma sched_prefix c : forall s os p, sched s c = Some (os, p) -> prefix (p_bits s) (p_bits p) /\ prefix (p_msgs s) (p_msgs p).
  Proof.
    induction c as [|g c IH]; intros s os p E; cbn [WireProofs.sched] in E.
    - destruct (p_buf s); [apply some2 in E; destruct E as [<- <-]; split; apply prefix_refl|].
      destruct (prv_manage pM threads seeds s) as [s1|] eqn:Em; [|discriminate]. apply some2 in E; destruct E as [<- <-].
      destruct (manage_facts s s1 Em) as (_ & -> & _ & _ & A & -> & _). split; [apply prefix_refl|now eexists].
    - destruct (full csz g (length (p_buf s))) eqn:Ef.
      + destruct (prv_manage pM threads seeds s) as [s1|] eqn:Em; [|discriminate].
        destruct (step (p_clear s1) g) as [s2|] eqn:Es; [|discriminate].
        destruct (sched s2 c) as [[os1 p1]|] eqn:E1; [|discriminate]. apply some2 in E; destruct E as [<- <-].
        destruct (manage_facts s s1 Em) as (_ & B1 & _ & _ & A & M1 & _).
        destruct (step_facts (p_clear s1) g s2 (clear_not_full csz s1 g ltac:(lia)) Es) as (_ & M2 & (b & B2) & _).
        cbn [p_clear p_msgs p_bits] in M2, B2. destruct (IH _ _ _ E1) as [P1 P2]. rewrite B2, B1 in P1. rewrite M2, M1 in P2.
        split; eapply prefix_trans; try eassumption; now eexists.
      + destruct (step s g) as [s2|] eqn:Es; [|discriminate].
        destruct (sched s2 c) as [[os1 p1]|] eqn:E1; [|discriminate]. apply some2 in E; destruct E as [<- <-].
        destruct (step_facts s g s2 Ef Es) as (_ & M2 & (b & B2) & _). destruct (IH _ _ _ E1) as [P1 P2].
        rewrite B2 in P1. rewrite M2 in P2. split; [|assumption]. eapply prefix_trans; try eassumption; now eexists.
  Qed.
  (** ** the verifier *)
  Section V.
    Variables (bitmsg : nat -> bool) (chkmsg : nat -> N * N).
    Notation vstep := (ver_step r0 r1 vK delta threads csz seeds bitmsg chkmsg).
    Notation vmanage := (ver_manage vK delta threads seeds chkmsg).
    Lemma vmanage_facts v v1 : vmanage v = Some v1 -> v_chk v1 = S (v_chk v) /\ v_bits v1 = v_bits v /\ v_buf v1 = v_buf v.
    Proof.
      intro E. unfold ver_manage in E. destruct (and_ranges threads (length (v_buf v))); [|discriminate]. injection E as <-.
      cbn. repeat split.
    Qed.
    Lemma vstep_facts v g v2 : full csz g (length (v_buf v)) = false -> vstep v g = Some v2 ->
      v_chk v2 = v_chk v /\ v_bits v2 = v_bits v + (if sends g then 1 else 0) /\
      length (v_buf v2) = length (v_buf v) + match g with GAnd _ _ => 1 | _ => 0 end.
    Proof.
      intros Hf E. destruct g; cbn [ver_step sends full] in *; unfold ver_precheck in *; rewrite ?Hf in E; injection E as <-;
      cbn [v_add v_chk v_bits v_buf]; (split; [reflexivity|]); (split; [lia|]); rewrite ?app_length; cbn; lia.
    Qed.
    Lemma vstep_full v g v1 : full csz g (length (v_buf v)) = true -> vmanage v = Some v1 -> vstep v g = vstep (v_clear v1) g.
    Proof.
      intros Hf Hm. destruct g; try discriminate. cbn [full] in Hf. cbn [ver_step]. unfold ver_precheck. rewrite Hf, Hm.
      cbn [v_clear v_buf length]. destruct (Nat.eqb_spec 0 csz); [lia|reflexivity].
    Qed.
    Lemma vfollow_chk {R : Type} v v1 (k : vst -> proc (option R)) l dl res h s1 A : seeds (v_chk v) = G h -> chkmsg (v_chk v) = A -> last (p_msgs s1) (0, 0)%N = A ->
      (fst A < 2 ^ 128)%N -> (snd A < 2 ^ 128)%N -> vmanage v = Some v1 ->
      follow false (k v1) l dl res -> follow false (ver_check_prog vK delta threads G v k) (compile (chk_ops s1) ++ l) (h :: dl) res.
    Proof.
      intros Eh Ea El A1 A2 Em F. unfold ver_check_prog, chk_ops. rewrite El. cbn [compile flat_map compile1 app follow Bool.eqb].
      eexists. split; [reflexivity|]. eexists. split; [reflexivity|]. cbn beta.
      assert (X : ver_manage vK delta threads (fun _ => G h) (fun _ => dec2 (enc2 A)) v = Some v1)
        by (rewrite <- Em; unfold ver_manage; rewrite Eh, Ea, dec2_enc2 by assumption; reflexivity).
      assert (Y : exists rs, and_ranges threads (length (v_buf v)) = Some rs)
        by (unfold ver_manage in Em; destruct (and_ranges threads (length (v_buf v))); [eauto|discriminate]).
      destruct Y as [rs ->]. rewrite enc2_len. eexists. split; [reflexivity|]. eexists. split; [reflexivity|]. cbn beta. rewrite X.
      eexists. split; [reflexivity|]. exact F.
    Qed.
    Lemma vfollow_gate {R : Type} v g v2 (k : vst -> proc (option R)) l dl res b s2 : full csz g (length (v_buf v)) = false -> vstep v g = Some v2 ->
      (sends g = true -> bitmsg (v_bits v) = b) -> last (p_bits s2) false = b ->
      follow false (k v2) l dl res -> follow false (ver_gate r0 r1 vK delta threads csz v g k) (compile (bit_ops g s2) ++ l) dl res.
    Proof.
      intros Hf Es Hb El F. unfold ver_gate, bit_ops. destruct (sends g) eqn:Eg.
      - rewrite El. cbn [compile flat_map compile1 app follow]. eexists. split; [reflexivity|]. cbn beta.
        replace (ver_step r0 r1 vK delta threads csz (fun _ _ => 0%N) (fun _ => b) (fun _ => (0%N, 0%N)) v g) with (vstep v g); [now rewrite Es|].
        destruct g; try discriminate; cbn [full] in Hf; cbn [ver_step]; unfold ver_precheck; rewrite ?Hf, ?Hb by reflexivity; reflexivity.
      - cbn [compile flat_map app].
        replace (ver_step r0 r1 vK delta threads csz (fun _ _ => 0%N) (fun _ => false) (fun _ => (0%N, 0%N)) v g) with (vstep v g); [now rewrite Es|].
        destruct g; try discriminate; reflexivity.
    Qed.
  End V.
  Lemma prefix_nth {A} (a b : list A) d x : prefix (a ++ [x]) b -> nth (length a) b d = x.
  Proof. intros [y ->]. rewrite <- app_assoc, app_nth2, Nat.sub_diag by lia. reflexivity. Qed.
  Lemma ver_follow (p : pst) : let bitmsg := fun i => nth i (p_bits p) false in let chkmsg := fun k => nth k (p_msgs p) (0, 0)%N in
    forall c s v vf os dl, sched s c = Some (os, p) -> length (v_buf v) = length (p_buf s) -> v_chk v = p_chk s -> v_chk v = length (p_msgs s) ->
    v_bits v = length (p_bits s) ->
    match ver_run r0 r1 vK delta threads csz seeds bitmsg chkmsg v c with None => None | Some v => ver_final vK delta threads seeds chkmsg v end = Some vf ->
    seeds_are (p_chk s) dl -> length dl = nchal os ->
    follow false (ver_prog r0 r1 vK delta threads csz G H v c) (compile (os ++ [OFlush])) dl (Some (vf, ver_finalize same_bytes H vf (H (p_hash p)))).
  Proof.
    intros bitmsg chkmsg.
    assert (FIN : forall s v, follow false (ver_fin H v) (compile (fin_ops H s ++ [OFlush])) [] (Some (v, ver_finalize same_bytes H v (H (p_hash s))))).
    { intros s v. unfold ver_fin. cbn. eexists. split; [reflexivity|]. rewrite HH. eexists. split; [reflexivity|]. eexists. split; reflexivity. }
    induction c as [|g c IH]; intros s v vf os dl E I1 I2 I3 I4 Ev Sd Ld; cbn [WireProofs.sched ver_prog ver_run] in *.
    - unfold ver_final in Ev. destruct (p_buf s) eqn:Eb.
      + destruct (v_buf v); [|discriminate]. injection Ev as <-. apply some2 in E; destruct E as [<- <-]. destruct dl; [apply FIN|discriminate].
      + destruct (v_buf v) eqn:Evb; [discriminate|].
        destruct (prv_manage pM threads seeds s) as [s1|] eqn:Em; [|discriminate]. apply some2 in E; destruct E as [<- <-].
        destruct (manage_facts s s1 Em) as (_ & _ & _ & _ & A & M1 & A1 & A2).
        rewrite <- app_assoc, compile_app. destruct dl as [|h [|]]; try discriminate. apply seeds_head in Sd. destruct Sd as [Sd _].
        apply vfollow_chk with (chkmsg := chkmsg) (A := A) (v1 := vf); auto; try (now rewrite I2).
        * unfold chkmsg. rewrite I3. apply prefix_nth. rewrite M1. apply prefix_refl.
        * rewrite M1. apply last_last.
    - rewrite I1. destruct (full csz g (length (p_buf s))) eqn:Ef.
      + destruct (prv_manage pM threads seeds s) as [s1|] eqn:Em; [|discriminate].
        destruct (step (p_clear s1) g) as [s2|] eqn:Es; [|discriminate].
        destruct (sched s2 c) as [[os1 p1]|] eqn:E1; [|discriminate]. apply some2 in E; destruct E as [<- <-].
        destruct (manage_facts s s1 Em) as (C1 & B1 & _ & _ & A & M1 & A1 & A2).
        destruct (step_facts (p_clear s1) g s2 (clear_not_full csz s1 g ltac:(lia)) Es) as (C2 & M2 & (b & B2) & L2).
        cbn [p_clear p_msgs p_bits p_chk p_buf length] in C2, M2, B2, L2.
        destruct (sched_prefix _ _ _ _ E1) as [P1 P2].
        destruct (ver_manage vK delta threads seeds chkmsg v) as [v1|] eqn:Evm.
        2:{ exfalso. unfold ver_manage in Evm. unfold prv_manage in Em. rewrite I1 in Evm. destruct (and_ranges threads (length (p_buf s))); discriminate. }
        rewrite (vstep_full bitmsg chkmsg v g v1) in Ev by (try assumption; now rewrite I1).
        destruct (ver_step r0 r1 vK delta threads csz seeds bitmsg chkmsg (v_clear v1) g) as [v2|] eqn:Evs; [|discriminate].
        destruct (vmanage_facts chkmsg v v1 Evm) as (VC1 & VB1 & _).
        destruct (vstep_facts bitmsg chkmsg (v_clear v1) g v2 (vclear_not_full csz v1 g ltac:(lia)) Evs) as (VC2 & VB2 & VL2).
        cbn [v_clear v_chk v_bits v_buf length] in VC2, VB2, VL2.
        rewrite <- !app_assoc, compile_app. destruct dl as [|h dl]; [discriminate|]. apply seeds_head in Sd. destruct Sd as [Sh Sd].
        apply vfollow_chk with (chkmsg := chkmsg) (A := A) (v1 := v1); auto; try (now rewrite I2).
        * unfold chkmsg. rewrite I3. apply prefix_nth. rewrite <- M1, <- M2. exact P2.
        * rewrite M1. apply last_last.
        * rewrite compile_app. apply vfollow_gate with (bitmsg := bitmsg) (chkmsg := chkmsg) (v2 := v2) (b := last (p_bits s2) false); auto.
          -- apply vclear_not_full; lia.
          -- intro Hs. rewrite Hs in B2. rewrite B2, last_last. unfold bitmsg. cbn [v_clear v_bits]. rewrite VB1, I4, <- B1. apply prefix_nth. now rewrite <- B2.
          -- apply (IH s2 v2 vf os1 dl); auto.
             ++ now rewrite VL2, L2.
             ++ now rewrite VC2, VC1, C2, C1, I2.
             ++ rewrite VC2, VC1, M2, M1, app_length, I3. cbn. lia.
             ++ rewrite VB2, VB1, B2, B1, app_length, I4. destruct (sends g); reflexivity.
             ++ now rewrite C2, C1.
             ++ rewrite !nchal_app in Ld. cbn in Ld. unfold bit_ops in Ld. destruct (sends g); cbn in Ld; lia.
      + destruct (step s g) as [s2|] eqn:Es; [|discriminate].
        destruct (sched s2 c) as [[os1 p1]|] eqn:E1; [|discriminate]. apply some2 in E; destruct E as [<- <-].
        destruct (step_facts s g s2 Ef Es) as (C2 & M2 & (b & B2) & L2). destruct (sched_prefix _ _ _ _ E1) as [P1 P2].
        destruct (ver_step r0 r1 vK delta threads csz seeds bitmsg chkmsg v g) as [v2|] eqn:Evs; [|discriminate].
        destruct (vstep_facts bitmsg chkmsg v g v2 ltac:(now rewrite I1) Evs) as (VC2 & VB2 & VL2).
        rewrite <- !app_assoc, compile_app.
        apply vfollow_gate with (bitmsg := bitmsg) (chkmsg := chkmsg) (v2 := v2) (b := last (p_bits s2) false); auto.
        * now rewrite I1.
        * intro Hs. rewrite Hs in B2. rewrite B2, last_last. unfold bitmsg. rewrite I4. apply prefix_nth. now rewrite <- B2.
        * apply (IH s2 v2 vf os1 dl); auto.
          -- now rewrite VL2, L2, I1.
          -- now rewrite VC2, C2, I2.
          -- now rewrite VC2, M2.
          -- rewrite VB2, B2, app_length, I4. destruct (sends g); reflexivity.
          -- now rewrite C2.
          -- rewrite !nchal_app in Ld. unfold bit_ops in Ld. destruct (sends g); cbn in Ld; lia.
  Qed.
End Follow.

(** * The session over the channel *)
Theorem net_session : forall bs br reset NB gs gr r0 r1 pM d threads csz G H c,
  1 <= NB -> length gs = NB -> valid_delta d -> (forall l, length (H l) = 32) -> 1 <= threads -> threads <= csz ->
  count_and c = 0 \/ threads <= last_batch csz (count_and c) ->
  exists (bound : nat) (p : pst) (v : vst), forall k n,
    nsteps bs br reset NB k (n_init NB gs gr (prv_prog r0 r1 pM threads csz G H p_init c)
                              (ver_prog r0 r1 (cot_key pM d) d threads csz G H v_init c)) n ->
    k <= bound /\
    ((exists n', nstep bs br reset NB n n') \/
     (n_p n = PDone (Some p) /\ n_v n = PDone (Some (v, false)) /\ n_sr n = [] /\ n_rs n = [])) /\
    p_outs p = plain_outputs c /\ v_outs v = plain_outputs c.
Proof.
  intros bs br reset NB gs gr r0 r1 pM d threads csz G H c HNB Hgs Hd HH Ht Hc Hand.
  destruct (proj2 (exec_defined r0 r1 pM threads csz (fun _ _ => 0%N) c Ht Hc) Hand) as [pz Hz].
  destruct (sched_run r0 r1 pM threads csz H Ht Hc (fun _ _ => 0%N) c p_init pz Hz) as [os0 E0].
  set (dg := dgs bs reset NB gs os0). set (seeds := fun k : nat => G (nth k dg [])).
  destruct (proj2 (exec_defined r0 r1 pM threads csz seeds c Ht Hc) Hand) as [p Hp].
  destruct (sched_run r0 r1 pM threads csz H Ht Hc seeds c p_init p Hp) as [os E].
  assert (Edg : dgs bs reset NB gs os = dg).
  { destruct (sched_alike r0 r1 pM threads csz H Ht Hc (fun _ _ => 0%N) seeds c p_init p_init os0 pz) as (os' & p' & E' & Sh & B); auto.
    { repeat split; reflexivity. }
    rewrite E in E'. injection E' as <- <-. symmetry. now apply dgs_shape. }
  assert (Sd : seeds_are G seeds 0 dg).
  { intros i h Hi. cbn [Nat.add]. unfold seeds. now rewrite (nth_error_nth _ _ [] Hi). }
  assert (Ld : length dg = nchal os) by (rewrite <- Edg; apply dgs_len).
  destruct (session_complete r0 r1 pM threads csz seeds (list N) same_bytes H c p d same_bytes_refl Hd Hp) as (v & Hv & O1 & O2 & Fz).
  assert (FP : follow true (prv_prog r0 r1 pM threads csz G H p_init c) (compile (os ++ [OFlush])) dg (Some p)).
  { eapply prv_follow; try exact E; auto. }
  assert (FV : follow false (ver_prog r0 r1 (cot_key pM d) d threads csz G H v_init c) (compile (os ++ [OFlush])) dg
                 (Some (v, ver_finalize same_bytes H v (H (p_hash p))))).
  { eapply ver_follow; try exact E; auto. }
  rewrite Fz in FV. rewrite <- Edg in FP, FV.
  exists (2 * length (compile (os ++ [OFlush]))), p, v. intros k n Hn.
  destruct (net_run bs br reset NB HNB gs gr os Hgs (sched_no_bare r0 r1 pM threads csz H seeds c _ _ _ E) _ _ _ _ FP FV k n Hn) as [A B].
  auto.
Qed.
