(** C15-C17: the buffered bit channel (emp-zk-bool/bool_io.h). *)
From Coq Require Import NArith List Bool Arith Lia.
From Verif Require Import Word BoolIOModel BoolIOSpec BoolIOProofs BoolIOThms BoolIOThms2.
Import ListNotations.

(** * C15 *)
(** whatever the interleaving, the platforms and the buffer size, what an endpoint has read is a
    prefix of what the other was asked to send *)
Theorem C15_reads_are_prefixes : forall bmi2_s bmi2_r reset NB gs gr os c, 1 <= NB -> length gs = NB ->
  ksteps bmi2_s bmi2_r reset NB (k_init NB gs gr os) c ->
  prefix (e_reads (k_r c)) (to_receiver os) /\ prefix (e_reads (k_s c)) (to_sender os).
Proof. intros. split; [eapply reads_prefix|eapply sender_prefix]; eauto. Qed.
(** no reachable configuration is stuck before both endpoints are done *)
Theorem C15_no_deadlock : forall bmi2_s bmi2_r reset NB gs gr os c, 1 <= NB -> length gs = NB ->
  ksteps bmi2_s bmi2_r reset NB (k_init NB gs gr os) c ->
  k_done c \/ exists c', kstep bmi2_s bmi2_r reset NB c c'.
Proof. intros. eapply no_deadlock; eauto. Qed.
(** and every reachable configuration can be run to completion *)
Theorem C15_terminates : forall bmi2_s bmi2_r reset NB gs gr os c, 1 <= NB -> length gs = NB ->
  ksteps bmi2_s bmi2_r reset NB (k_init NB gs gr os) c ->
  exists c', ksteps bmi2_s bmi2_r reset NB c c' /\ k_done c'.
Proof. intros. eapply terminates; eauto. Qed.
(** every step consumes an operation, so there is no infinite execution *)
Theorem C15_steps_bounded : forall bmi2_s bmi2_r reset NB c c',
  kstep bmi2_s bmi2_r reset NB c c' ->
  length (k_sl c) + length (k_rl c) = S (length (k_sl c') + length (k_rl c')).
Proof. intros * H. destruct H; cbn; lia. Qed.
(** once done, everything was delivered, in order, and nothing is left in flight *)
Theorem C15_delivered : forall bmi2_s bmi2_r reset NB gs gr os c, 1 <= NB -> length gs = NB ->
  ksteps bmi2_s bmi2_r reset NB (k_init NB gs gr os) c -> k_done c ->
  e_reads (k_r c) = to_receiver os /\ e_reads (k_s c) = to_sender os /\ k_sr c = [] /\ k_rs c = [].
Proof.
  intros * H1 H2 H3 H4. destruct (final_state bmi2_s bmi2_r reset NB H1 gs gr os H2 c H3 H4) as (A & B & C & D & _). auto.
Qed.
(** a run of the relation, as a function: sender to the end, then receiver (no data towards the sender) *)
Fixpoint run_seq (fuel : nat) (bs br reset : bool) (NB : nat) (c : conf) : conf :=
  match fuel with
  | 0 => c
  | S f =>
    match k_sl c with
    | a :: l => match s_act bs reset NB (k_s c) a (k_rs c) with
                | Some (e', o, rs') => run_seq f bs br reset NB
                    {| k_s := e'; k_sl := l; k_r := k_r c; k_rl := k_rl c; k_sr := k_sr c ++ o; k_rs := rs' |}
                | None => match k_rl c with
                  | a :: l => match r_act br reset NB (k_r c) a (k_sr c) with
                    | Some (r', o, sr') => run_seq f bs br reset NB
                       {| k_s := k_s c; k_sl := k_sl c; k_r := r'; k_rl := l; k_sr := sr'; k_rs := k_rs c ++ o |}
                    | None => c end
                  | [] => c end
                end
    | [] => match k_rl c with
            | a :: l => match r_act br reset NB (k_r c) a (k_sr c) with
                | Some (r', o, sr') => run_seq f bs br reset NB
                    {| k_s := k_s c; k_sl := []; k_r := r'; k_rl := l; k_sr := sr'; k_rs := k_rs c ++ o |}
                | None => c end
            | [] => c end
    end
  end.
Lemma run_seq_steps fuel bs br reset NB : forall c0 c, ksteps bs br reset NB c0 c -> ksteps bs br reset NB c0 (run_seq fuel bs br reset NB c).
Proof.
  induction fuel as [|f IH]; intros c0 c H; [exact H|]. cbn [run_seq]. destruct c as [s sl r rl sr rs]. cbn [k_s k_sl k_r k_rl k_sr k_rs].
  destruct sl as [|a l].
  - destruct rl as [|a l]; [exact H|]. destruct (r_act br reset NB r a sr) as [[[r' o] sr']|] eqn:E; [|exact H].
    apply IH. econstructor; [exact H|]. now constructor.
  - destruct (s_act bs reset NB s a rs) as [[[e' o] rs']|] eqn:E.
    + apply IH. econstructor; [exact H|]. now constructor.
    + destruct rl as [|a' l']; [exact H|]. destruct (r_act br reset NB r a' sr) as [[[r' o] sr']|] eqn:E2; [|exact H].
      apply IH. econstructor; [exact H|]. now constructor.
Qed.
Definition demo_ops : list op :=
  [OBit true; OBit false; OData true [7; 9]%N; OBit true; OData false [1; 2; 3]%N; OBit false; OBit true; OChallenge;
   OBit true; OData true [5]%N; OBit true].
Definition demo_conf : conf := run_seq 60 true false true 8 (k_init 8 (repeat true 8) [] demo_ops).
(** eleven operations in both directions on mixed platforms, completed in the model *)
Example C15_example :
  ksteps true false true 8 (k_init 8 (repeat true 8) [] demo_ops) demo_conf /\ k_done demo_conf /\
  e_reads (k_r demo_conf) = [RdBit true; RdBit false; RdData [7; 9]%N; RdBit true; RdBit false; RdBit true; RdBit true; RdData [5]%N; RdBit true] /\
  e_reads (k_s demo_conf) = [RdData [1; 2; 3]%N].
Proof.
  split; [apply run_seq_steps; constructor|]. vm_compute. repeat split.
Qed.

(** * C16 *)
(** if every challenge is preceded by a flush, the two endpoints hash the same byte strings in every
    call of get_hash_block, and their hash states agree at the end *)
Theorem C16_same_challenges : forall bmi2_s bmi2_r reset NB gs gr os c, 1 <= NB -> length gs = NB -> no_bare_hash os ->
  ksteps bmi2_s bmi2_r reset NB (k_init NB gs gr os) c -> k_done c ->
  e_digests (k_r c) = e_digests (k_s c) /\ e_hash (k_r c) = e_hash (k_s c).
Proof.
  intros * H1 H2 Hn H3 H4. destruct (final_state bmi2_s bmi2_r reset NB H1 gs gr os H2 c H3 H4) as (_ & _ & _ & _ & A).
  destruct (A Hn); auto.
Qed.
(** without the flush they can differ *)
Theorem C16_without_flush_refuted : forall bmi2_s bmi2_r reset, exists NB gs gr os c, 1 <= NB /\ length gs = NB /\
  ksteps bmi2_s bmi2_r reset NB (k_init NB gs gr os) c /\ k_done c /\
  e_digests (k_r c) <> e_digests (k_s c).
Proof.
  intros bs br reset. exists 8, (repeat true 8), [], [OBit false; OHashOnly],
    (run_seq 20 bs br reset 8 (k_init 8 (repeat true 8) [] [OBit false; OHashOnly])).
  split; [lia|]. split; [reflexivity|]. split; [apply run_seq_steps; constructor|].
  destruct bs, br, reset; vm_compute; (split; [easy|discriminate]).
Qed.
Lemma final_sender bs br reset NB gs gr os c : ksteps bs br reset NB (k_init NB gs gr os) c -> k_done c ->
  1 <= NB -> length gs = NB -> k_s c = fst (sq_run bs reset NB (ep_init NB gs true) (compile (os ++ [OFlush]))).
Proof.
  intros H [E1 E2] HNB Hgs. apply (KI_reach bs br reset NB HNB gs gr os Hgs) in H.
  destruct H as (dS & dR & outS & ES & ER & HS & HR & HP). rewrite E1, app_nil_r in ES. unfold L in ES.
  now rewrite ES, HS.
Qed.
(** the transcript binds the bits: two complete runs of schedules of the same shape whose hash
    inputs agree exchanged the same bits (also across different platforms) *)
Theorem C16_transcript_binds_bits :
  forall b1 b2 b1' b2' reset NB gs gr gs' gr' os os' c c', 1 <= NB -> length gs = NB -> length gs' = NB ->
  Forall2 same_shape os os' ->
  ksteps b1 b2 reset NB (k_init NB gs gr os) c -> k_done c ->
  ksteps b1' b2' reset NB (k_init NB gs' gr' os') c' -> k_done c' ->
  e_digests (k_s c) = e_digests (k_s c') -> e_hash (k_s c) = e_hash (k_s c') ->
  bits_of os = bits_of os'.
Proof.
  intros * HNB G G' Sh H D H' D' E1 E2.
  rewrite (final_sender _ _ _ _ _ _ _ _ H D HNB G) in E1, E2.
  rewrite (final_sender _ _ _ _ _ _ _ _ H' D' HNB G') in E1, E2.
  rewrite (platform_sq b1' b1) in E1, E2.
  assert (Sh' : Forall2 shape (compile (os ++ [OFlush])) (compile (os' ++ [OFlush]))).
  { apply shape_compile, Forall2_app; [exact Sh|]. repeat constructor. }
  destruct (bind b1 reset NB HNB _ _ (ep_init NB gs true) (ep_init NB gs' true) Sh') as (_ & _ & B); auto.
  - destruct (sq_run b1 reset NB (ep_init NB gs true) (compile (os ++ [OFlush]))) as [e out] eqn:E.
    exact (L_final b1 reset NB HNB gs os G e out E).
  - unfold obs. congruence.
  - rewrite !abits_compile in B.
    assert (X : forall o, bits_of (o ++ [OFlush]) = bits_of o).
    { clear. induction o as [|x o IH]; [reflexivity|]. destruct x; cbn; now rewrite IH. }
    now rewrite !X in B.
Qed.
(** it does not bind payloads sent with send_data: schedules that differ only there give the same
    hash inputs *)
Theorem C16_payloads_not_bound :
  forall b1 b2 reset NB gs gr gr' os os' c c', 1 <= NB -> length gs = NB ->
  Forall2 same_shape os os' -> bits_of os = bits_of os' ->
  ksteps b1 b2 reset NB (k_init NB gs gr os) c -> k_done c ->
  ksteps b1 b2 reset NB (k_init NB gs gr' os') c' -> k_done c' ->
  e_digests (k_s c) = e_digests (k_s c') /\ e_hash (k_s c) = e_hash (k_s c').
Proof.
  intros * HNB G Sh Eb H D H' D'.
  rewrite (final_sender _ _ _ _ _ _ _ _ H D HNB G), (final_sender _ _ _ _ _ _ _ _ H' D' HNB G).
  assert (Sh' : Forall2 shape (compile (os ++ [OFlush])) (compile (os' ++ [OFlush]))).
  { apply shape_compile, Forall2_app; [exact Sh|]. repeat constructor. }
  assert (X : forall o, bits_of (o ++ [OFlush]) = bits_of o).
  { clear. induction o as [|x o IH]; [reflexivity|]. destruct x; cbn; now rewrite IH. }
  assert (E := indep b1 reset NB _ _ (ep_init NB gs true) (ep_init NB gs true) Sh'
    ltac:(now rewrite !abits_compile, !X) eq_refl eq_refl eq_refl).
  unfold obs in E. now injection E.
Qed.
Definition demo_ops' : list op :=
  [OBit true; OBit false; OData true [0; 0]%N; OBit true; OData false [4]%N; OBit false; OBit true; OChallenge;
   OBit true; OData true []%N; OBit true].
Definition demo_ops2 : list op :=
  [OBit true; OBit false; OData true [7; 9]%N; OBit true; OData false [1; 2; 3]%N; OBit true; OBit true; OChallenge;
   OBit true; OData true [5]%N; OBit true].
Example C16_example :
  no_bare_hash demo_ops /\ e_digests (k_s demo_conf) = [[253; 255; 254]%N] /\ e_hash (k_s demo_conf) = [255; 255]%N /\
  Forall2 same_shape demo_ops demo_ops' /\ bits_of demo_ops = bits_of demo_ops' /\
  Forall2 same_shape demo_ops demo_ops2 /\
  e_digests (k_s (run_seq 60 true false true 8 (k_init 8 (repeat true 8) [] demo_ops2))) <> e_digests (k_s demo_conf).
Proof.
  split; [repeat constructor|]. split; [vm_compute; reflexivity|]. split; [vm_compute; reflexivity|].
  split; [repeat constructor|]. split; [reflexivity|]. split; [repeat constructor|]. vm_compute. discriminate.
Qed.

(** * C17 *)
(** whatever the two platforms and the length, unpacking what was packed gives the array back, the
    hashed bytes are the sent bytes, and the rest of the channel is untouched *)
Theorem C17_roundtrip : forall bmi2_s bmi2_r data rest,
  recv_bool_raw bmi2_r (length data) (send_bool_raw bmi2_s data ++ rest) = Some (data, send_bool_raw bmi2_s data, rest).
Proof. intros. apply raw_roundtrip. Qed.
(** the two code paths agree on the bytes produced and on every byte received *)
Theorem C17_paths_agree : forall data byte,
  send_bool_raw true data = send_bool_raw false data /\ ((byte < 256)%N -> unpack8 true byte = unpack8 false byte).
Proof. intros. split; [apply raw_paths|apply unpack8_paths]. Qed.
(** packing is injective on arrays of one length, and the wire size is fixed by the length *)
Theorem C17_injective : forall bmi2 d1 d2, length d1 = length d2 ->
  length (send_bool_raw bmi2 d1) = length d1 / 8 + length d1 mod 8 /\
  (send_bool_raw bmi2 d1 = send_bool_raw bmi2 d2 -> d1 = d2).
Proof.
  intros b d1 d2 H. split; [|now apply raw_inj].
  rewrite send_bool_raw_len. pose proof (Nat.div_mod (length d1) 8). lia.
Qed.
(** array lengths are not recoverable from the bytes: they must be known to the receiver *)
Theorem C17_length_not_encoded : exists d1 d2, length d1 <> length d2 /\ send_bool_raw true d1 = send_bool_raw true d2.
Proof. exists (true :: repeat false 7), [true]. split; [discriminate|]. vm_compute. reflexivity. Qed.
Example C17_example :
  let l := [true; false; true; true; false; false; true; false; true; true; false] in
  send_bool_raw true l = [77; 1; 1; 0]%N /\ send_bool_raw false l = [77; 1; 1; 0]%N /\
  recv_bool_raw false 11 [77; 1; 1; 0; 200]%N = Some (l, [77; 1; 1; 0]%N, [200]%N).
Proof. vm_compute. repeat split. Qed.

Print Assumptions C15_reads_are_prefixes.
Print Assumptions C15_no_deadlock.
Print Assumptions C15_terminates.
Print Assumptions C15_steps_bounded.
Print Assumptions C15_delivered.
Print Assumptions C16_same_challenges.
Print Assumptions C16_without_flush_refuted.
Print Assumptions C16_transcript_binds_bits.
Print Assumptions C16_payloads_not_bound.
Print Assumptions C17_roundtrip.
Print Assumptions C17_paths_agree.
Print Assumptions C17_injective.
Print Assumptions C17_length_not_encoded.
