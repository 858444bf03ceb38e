(** Property C63: the read-only memory at gate level - cells, reads, order circuit, packed labels and set equality in one
    boolean session. *)
From Coq Require Import NArith List Bool Arith Lia Permutation Sorted.
From Verif Require Import Word GF128 BoolModel BoolSpec BoolProofs F2kModel F2kSpec VoleF2kSpec RamModel RamSpec RamThms PropRam
  RamGateModel RamGateSpec RamGateProofs RamGateThms RamGateSess RoGateModel RoGateSpec RoGateProofs RoGateSess.
Import ListNotations.
Ltac Zify.zify_post_hook ::= idtac.

(** the circuit of init(), any reads and check(), on any private inputs: the revealed bits are all true exactly if the
    claimed list is in order; the recorded list is the memory with its addresses, then the reads *)
Theorem C63_meaning : forall index_sz val_sz pre data os claims post ins,
  program_ok index_sz val_sz pre data os -> length claims = records data os ->
  (N.of_nat (length data) <= 2 ^ N.of_nat index_sz)%N ->
  let bc := q_check index_sz val_sz pre data os claims post in
  let W := plain_wires (with_inputs ins bc) in
  let sorted := fst (q_lists index_sz val_sz pre data os) in
  let recs := snd (q_lists index_sz val_sz pre data os) in
  q_verdict (q_reveal index_sz val_sz pre data os) (records data os - 1) (plain_outputs (with_inputs ins bc)) =
    ro_order index_sz (map (pair_at W) sorted) /\
  map (pair_at W) recs = ro_records (map (field W) data) (reads_at index_sz val_sz W pre data os) /\
  Forall (ro_fits index_sz val_sz) (reads_at index_sz val_sz W pre data os) /\
  length (reads_at index_sz val_sz W pre data os) = length (filter is_read os) /\
  length sorted = records data os /\ length recs = records data os /\
  count_and bc = count_and (q_gates (q_run index_sz val_sz pre data os)) + (records data os - 1) * (2 * index_sz + val_sz + 3) + count_and post.
Proof.
  intros n v pre data os claims post ins Hp Hc Hd bc W sorted recs.
  destruct (qlog_facts n v pre data os claims post Hp Hc Hd ins) as (A & B & C & D & E & F & G).
  destruct (qcheck_meaning n v pre data os claims post Hp Hc ins) as (_ & _ & _ & _ & _ & _ & K).
  split; [exact G|]. split; [exact A|]. split; [exact C|]. split; [|split; [exact E|split; [exact F|exact K]]].
  unfold reads_at. rewrite map_length, skipn_length. change (q_recs (q_run n v pre data os)) with recs. unfold recs. rewrite F. unfold records. lia.
Qed.
(** whatever the prover sends: a program in which some read of a cell does not return its content survives fewer
    challenges of the set-equality test than there are records, if the claimed addresses lie in the memory *)
Theorem C63_sound : forall index_sz val_sz pre data os claims post r0 r1 pM threads csz seeds bitmsg
    D (Deqb : D -> D -> bool) H voleV voleM bM oM fthreads bufsz polysz rs,
  index_sz + val_sz <= 128 -> program_ok index_sz val_sz pre data os -> length claims = records data os ->
  (N.of_nat (length data) <= 2 ^ N.of_nat index_sz)%N -> (N.of_nat (records data os) < 2 ^ 64)%N ->
  (forall a b, Deqb a b = true -> a = b) -> 1 <= fthreads -> 1 <= bufsz -> 1 <= records data os ->
  let bc := q_check index_sz val_sz pre data os claims post in
  let cm := commit pM csz bitmsg bc in
  let W := plain_wires (with_inputs (c_ins cm) bc) in
  ~ and_errors_cancel threads seeds cm ->
  Forall (fun m => (field W (q_idx m) < 2 ^ N.of_nat index_sz)%N) (fst (q_lists index_sz val_sz pre data os)) ->
  ~ ro_consistent (map (field W) data) (reads_at index_sz val_sz W pre data os) -> NoDup rs ->
  (forall r, In r rs -> (r < 2 ^ 128)%N /\
     ro_check_passes r0 r1 pM threads csz seeds bitmsg D Deqb H voleV voleM bM oM fthreads bufsz polysz index_sz val_sz pre data os claims post r) ->
  length rs < records data os.
Proof.
  intros n v pre data os claims post r0 r1 pM threads csz seeds bitmsg D Deqb H voleV voleM bM oM fthreads bufsz polysz rs A1 A2 A3 A4 A5 A6 A7 A8 A9 bc cm W B1 B2 B3 B4 B5.
  exact (qcheck_sound n v pre data os claims post A1 A2 A3 A4 A5 r0 r1 pM threads csz seeds bitmsg D Deqb H voleV voleM bM oM fthreads bufsz polysz rs A6 A7 A8 A9 B1 B2 B3 B4 B5).
Qed.
(** honest parties: every program that reads cells of the memory and gets their content is accepted, under every key *)
Theorem C63_complete : forall index_sz val_sz pre data os claims post r0 r1 pM threads csz seeds
    D (Deqb : D -> D -> bool) H p d voleV voleM bM oM fthreads bufsz polysz fseeds pseeds r junkp junkv g1 g2 g3 g4 h1 h2,
  index_sz + val_sz <= 128 -> program_ok index_sz val_sz pre data os ->
  (N.of_nat (length data) <= 2 ^ N.of_nat index_sz)%N -> (N.of_nat (records data os) < 2 ^ 64)%N -> 3 <= records data os ->
  let W := plain_wires (q_gates (q_run index_sz val_sz pre data os)) in
  let mem := map (field W) data in
  let reads := reads_at index_sz val_sz W pre data os in
  ro_in_memory mem reads -> ro_consistent mem reads ->
  Permutation claims (ro_records mem reads) -> Sorted N.le (map (ro_word index_sz val_sz) claims) ->
  (forall a, Deqb a a = true) -> valid_delta d ->
  prv_exec r0 r1 pM threads csz seeds (q_check index_sz val_sz pre data os claims post) = Some p ->
  1 <= fthreads -> fthreads <= bufsz -> 6 <= bufsz -> (r < 2 ^ 128)%N -> (forall r i, (junkv r i < 2 ^ 128)%N) ->
  (records data os mod 4 = 1 \/ fthreads <= 2 * ((records data os - 1) mod 4)) ->
  ro_check_accepted r0 r1 pM threads csz seeds D Deqb H voleV voleM bM oM fthreads bufsz polysz fseeds pseeds junkp junkv g1 g2 g3 g4 h1 h2
    index_sz val_sz pre data os claims post r p d.
Proof.
  intros n v pre data os claims post r0 r1 pM threads csz seeds D Deqb H p d voleV voleM bM oM fthreads bufsz polysz fseeds pseeds r junkp junkv g1 g2 g3 g4 h1 h2
    A1 A2 A3 A4 A5 W mem reads IM CO PC SC B1 B2 B3 B4 B5 B6 B7 B8 B9.
  destruct (honest_facts n v pre data os A2 A3) as (LR & FM & FR). fold W mem reads in LR, FM, FR.
  assert (A6 : length claims = records data os) by (rewrite <- LR; now apply Permutation_length).
  apply (qcheck_accepts n v pre data os claims post A1 A2 A6 A3 A4); auto.
  - apply (Permutation_Forall (Permutation_sym PC)). apply (records_wide n v); auto. unfold mem. now rewrite map_length.
  - apply (C33_honest_passes n v mem reads claims); auto. unfold mem. now rewrite map_length.
  - now apply Permutation_map.
Qed.
(** but the top bit of the claimed addresses is not checked: for every function [f], a read of cell [a] may return [f a]
    instead of the content; the prover, otherwise following the protocol, is accepted under every key and every challenge *)
Theorem C63_top_bit_refuted : forall index_sz val_sz pre data os f,
  index_sz + val_sz <= 128 -> program_ok index_sz val_sz pre data os ->
  (N.of_nat (length data) <= 2 ^ N.of_nat index_sz)%N -> (N.of_nat (records data os) < 2 ^ 64)%N -> 3 <= records data os -> data <> [] ->
  let W := plain_wires (q_gates (q_run index_sz val_sz pre data os)) in
  let mem := map (field W) data in
  let reads := reads_at index_sz val_sz W pre data os in
  ro_in_memory mem reads -> (forall a x, In (N.of_nat a, x) reads -> nth_error mem a = Some x \/ x = f a) ->
  exists claims, length claims = records data os /\
  forall post r0 r1 pM threads csz seeds D (Deqb : D -> D -> bool) H p d voleV voleM bM oM fthreads bufsz polysz fseeds pseeds r junkp junkv g1 g2 g3 g4 h1 h2,
    (forall a, Deqb a a = true) -> valid_delta d ->
    prv_exec r0 r1 pM threads csz seeds (q_check index_sz val_sz pre data os claims post) = Some p ->
    1 <= fthreads -> fthreads <= bufsz -> 6 <= bufsz -> (r < 2 ^ 128)%N -> (forall r i, (junkv r i < 2 ^ 128)%N) ->
    (records data os mod 4 = 1 \/ fthreads <= 2 * ((records data os - 1) mod 4)) ->
    ro_check_accepted r0 r1 pM threads csz seeds D Deqb H voleV voleM bM oM fthreads bufsz polysz fseeds pseeds junkp junkv g1 g2 g3 g4 h1 h2
      index_sz val_sz pre data os claims post r p d.
Proof.
  intros n v pre data os f A1 A2 A3 A4 A5 A6 W mem reads IM FO.
  destruct (honest_facts n v pre data os A2 A3) as (LR & FM & FR). fold W mem reads in LR, FM, FR.
  destruct (C33_top_bit_refuted n v mem reads f) as (l & O & P & F); auto.
  { unfold mem. now rewrite map_length. }
  { unfold mem. destruct data; [congruence|discriminate]. }
  { eapply Forall_impl; [|exact FR]. intros e [_ He]. exact He. }
  assert (A7 : length l = records data os) by (apply Permutation_length in P; rewrite !map_length in P; congruence).
  exists l. split; [exact A7|].
  intros post r0 r1 pM threads csz seeds D Deqb H p d voleV voleM bM oM fthreads bufsz polysz fseeds pseeds r junkp junkv g1 g2 g3 g4 h1 h2 B1 B2 B3 B4 B5 B6 B7 B8 B9.
  apply (qcheck_accepts n v pre data os l post A1 A2 A7 A3 A4); auto.
Qed.
(** and an address at or above the size of the memory, with all claimed addresses in range, may be read with any content *)
Theorem C63_outside_memory_refuted : forall index_sz val_sz pre data os a x,
  index_sz + val_sz <= 128 -> program_ok index_sz val_sz pre data os ->
  (N.of_nat (length data) <= 2 ^ N.of_nat index_sz)%N -> (N.of_nat (records data os) < 2 ^ 64)%N -> 3 <= records data os ->
  let W := plain_wires (q_gates (q_run index_sz val_sz pre data os)) in
  reads_at index_sz val_sz W pre data os = [(N.of_nat a, x)] -> length data <= a ->
  exists claims, length claims = records data os /\ Forall (ro_fits index_sz val_sz) claims /\
  forall post r0 r1 pM threads csz seeds D (Deqb : D -> D -> bool) H p d voleV voleM bM oM fthreads bufsz polysz fseeds pseeds r junkp junkv g1 g2 g3 g4 h1 h2,
    (forall a, Deqb a a = true) -> valid_delta d ->
    prv_exec r0 r1 pM threads csz seeds (q_check index_sz val_sz pre data os claims post) = Some p ->
    1 <= fthreads -> fthreads <= bufsz -> 6 <= bufsz -> (r < 2 ^ 128)%N -> (forall r i, (junkv r i < 2 ^ 128)%N) ->
    (records data os mod 4 = 1 \/ fthreads <= 2 * ((records data os - 1) mod 4)) ->
    ro_check_accepted r0 r1 pM threads csz seeds D Deqb H voleV voleM bM oM fthreads bufsz polysz fseeds pseeds junkp junkv g1 g2 g3 g4 h1 h2
      index_sz val_sz pre data os claims post r p d.
Proof.
  intros n v pre data os a x A1 A2 A3 A4 A5 W ER La.
  destruct (honest_facts n v pre data os A2 A3) as (LR & FM & FR). fold W in LR, FM, FR. rewrite ER in FR, LR.
  pose proof (Forall_inv FR) as [Fa Fx]. cbn [fst snd] in Fa, Fx.
  destruct (C33_outside_memory_refuted n v (map (field W) data) a x) as (l & O & F & P); auto.
  { rewrite map_length. lia. }
  assert (A7 : length l = records data os) by (rewrite <- LR; now apply Permutation_length).
  exists l. split; [exact A7|]. split; [exact F|].
  intros post r0 r1 pM threads csz seeds D Deqb H p d voleV voleM bM oM fthreads bufsz polysz fseeds pseeds r junkp junkv g1 g2 g3 g4 h1 h2 B1 B2 B3 B4 B5 B6 B7 B8 B9.
  apply (qcheck_accepts n v pre data os l post A1 A2 A7 A3 A4); auto.
  - eapply Forall_impl; [|exact F]. intros e [E1 E2]. split; [|exact E2]. eapply N.lt_le_trans; [exact E1|]. apply N.pow_le_mono_r; lia.
  - fold W. rewrite ER. now apply Permutation_map.
Qed.

(** Non-vacuity: one address bit, two value bits.  The memory is [1; 2]; the program reads cell 1. *)
Definition ro_pre : list gate := [GIn true; GIn true; GIn false; GIn false; GIn true].
Definition ro_data : list (list nat) := [[1; 2]; [3; 4]].
Definition ro_ops (v : N) : list qop := [QRead [0] v].
Definition ro_claims : list (N * N) := [(0, 1); (1, 2); (1, 2)]%N.
Definition ro_wires (v : N) : list bool := plain_wires (q_gates (q_run 1 2 ro_pre ro_data (ro_ops v))).
Example C63_ops_ok : forall v, program_ok 1 2 ro_pre ro_data (ro_ops v) /\ records ro_data (ro_ops v) = 3.
Proof. intro v. split; [|reflexivity]. split; cbn; unfold wires_ok; repeat split; repeat constructor; cbn; lia. Qed.
Example C63_demo : map (field (ro_wires 2)) ro_data = [1; 2]%N /\ reads_at 1 2 (ro_wires 2) ro_pre ro_data (ro_ops 2) = [(1, 2)]%N /\
  count_and (q_check 1 2 ro_pre ro_data (ro_ops 2) ro_claims []) = 14 /\
  plain_outputs (q_check 1 2 ro_pre ro_data (ro_ops 2) ro_claims []) = [true; true] /\
  plain_outputs (q_check 1 2 ro_pre ro_data (ro_ops 2) (rev ro_claims) []) = [true; false] /\
  plain_outputs (q_check 1 2 ro_pre ro_data (ro_ops 3) [(0, 1); (1, 2); (1, 3)]%N []) = [true; false].
Proof. vm_compute. auto 10. Qed.
Example C63_honest : ro_in_memory (map (field (ro_wires 2)) ro_data) (reads_at 1 2 (ro_wires 2) ro_pre ro_data (ro_ops 2)) /\
  ro_consistent (map (field (ro_wires 2)) ro_data) (reads_at 1 2 (ro_wires 2) ro_pre ro_data (ro_ops 2)) /\
  Permutation ro_claims (ro_records (map (field (ro_wires 2)) ro_data) (reads_at 1 2 (ro_wires 2) ro_pre ro_data (ro_ops 2))) /\
  Sorted N.le (map (ro_word 1 2) ro_claims).
Proof.
  destruct C63_demo as (-> & -> & _). split; [|split; [|split]].
  - repeat constructor.
  - intros a v [E|[]] _. injection E as E <-. assert (a = 1) as -> by (apply Nat2N.inj; now rewrite <- E). reflexivity.
  - vm_compute. repeat constructor.
  - vm_compute. repeat constructor; discriminate.
Qed.
(** hypotheses of the two refutations: cell 1 read as 3; with a memory of two cells and two address bits, cell 3 read as 0 *)
Example C63_wrong_read : let mem := map (field (ro_wires 3)) ro_data in let reads := reads_at 1 2 (ro_wires 3) ro_pre ro_data (ro_ops 3) in
  mem = [1; 2]%N /\ reads = [(1, 3)]%N /\ ~ ro_consistent mem reads /\ (forall a x, In (N.of_nat a, x) reads -> nth_error mem a = Some x \/ x = 3%N).
Proof.
  cbv zeta. assert (E : map (field (ro_wires 3)) ro_data = [1; 2]%N /\ reads_at 1 2 (ro_wires 3) ro_pre ro_data (ro_ops 3) = [(1, 3)]%N) by (vm_compute; auto).
  destruct E as [-> ->]. split; [reflexivity|]. split; [reflexivity|]. split.
  - intro C. specialize (C 1 3%N (or_introl eq_refl)). cbn in C. assert (Some 2%N = Some 3%N) by (apply C; lia). discriminate.
  - intros a x [E|[]]. injection E as _ <-. now right.
Qed.
Example C63_outside : reads_at 2 2 (plain_wires (q_gates (q_run 2 2 ro_pre ro_data [QRead [0; 1] 0%N]))) ro_pre ro_data [QRead [0; 1] 0%N] = [(N.of_nat 3, 0%N)].
Proof. vm_compute. reflexivity. Qed.
(** six keys, all accepted with the same transcript: the hypotheses of C63_complete are met, and so is [ro_check_passes] *)
Definition ro_cot (i : nat) : N := (2 * (N.of_nat i * 987654321987654321 + 13))%N.
Definition ro_vole (a r i : nat) : N := (N.of_nat a * 123456789 + N.of_nat r * 1000 + N.of_nat i)%N.
Definition ro_seed (k t : nat) : N := (N.of_nat k * 3 + N.of_nat t + 5)%N.
Definition ro_eqb (a b : list N) : bool := if list_eq_dec N.eq_dec a b then true else false.
Definition ro_deltas : list N := [2 ^ 127 + 1; 2 ^ 126 + 77; 5; 2 ^ 64 + 7; 9; 11]%N.
Notation ro_prv := (prv_exec 2 4 ro_cot 1 8 ro_seed (q_check 1 2 ro_pre ro_data (ro_ops 2) ro_claims [])).
Example C63_run_defined : exists p, ro_prv = Some p /\ p_outs p = [true; true].
Proof. destruct ro_prv as [p|] eqn:E; [|vm_compute in E; discriminate]. exists p. vm_compute in E. injection E as <-. vm_compute. auto. Qed.
Example C63_accepted : forall p d, ro_prv = Some p -> In d ro_deltas ->
  valid_delta d /\
  ro_check_accepted 2 4 ro_cot 1 8 ro_seed (list N) ro_eqb (fun h => h) (ro_vole 1) (ro_vole 2) ro_cot ro_cot 1 6 6 ro_seed (fun k => ro_seed k 0)
    (fun _ _ => (0, 0)%N) (fun _ _ => 0%N) (fun _ => 0%N) (fun _ => 0%N) (fun _ => 0%N) (fun _ => 0%N) (fun _ => 0%N) (fun _ => 0%N)
    1 2 ro_pre ro_data (ro_ops 2) ro_claims [] 11 p d.
Proof.
  intros p d Hp Hd. destruct (C63_ops_ok 2) as (A & B). destruct C63_honest as (H1 & H2 & H3 & H4). unfold ro_wires in H1, H2, H3.
  assert (V : valid_delta d).
  { cbn in Hd. repeat (destruct Hd as [<-|Hd]; [split; [now vm_compute|reflexivity]|]). destruct Hd. }
  split; [exact V|]. apply C63_complete.
  - clear; lia.
  - exact A.
  - clear; vm_compute; discriminate.
  - clear; vm_compute; reflexivity.
  - rewrite B. lia.
  - exact H1.
  - exact H2.
  - exact H3.
  - exact H4.
  - intro a. unfold ro_eqb. destruct (list_eq_dec N.eq_dec a a); congruence.
  - exact V.
  - exact Hp.
  - clear; lia.
  - clear; lia.
  - clear; lia.
  - clear; vm_compute; reflexivity.
  - intros _ _. clear; vm_compute; reflexivity.
  - right. rewrite B. cbn. lia.
Qed.
Notation ro_bits := (match ro_prv with Some p => p_bits p | None => [] end).
Definition ro_fp (p : pst) (c : list fgate) :=
  fp_exec (fun i => (nth i (map (ro_word 1 2) (ro_claims ++ ro_records (map (field (ro_wires 2)) ro_data) (reads_at 1 2 (ro_wires 2) ro_pre ro_data (ro_ops 2)))) 0%N,
                     q_macs 1 2 (p_wires p) ro_pre ro_data (ro_ops 2) i))
    (ro_vole 1) (ro_vole 2) ro_cot ro_cot 1 6 6 ro_seed (fun k => ro_seed k 0) (fun _ _ => (0, 0)%N) (fun _ => 0%N) (fun _ => 0%N) (fun _ => 0%N) (fun _ => 0%N) c.
Definition ro_fcm (cm : cst) (p : pst) (c : list fgate) : fcst :=
  fcommit (fun i => nth i (map (fun m => ro_word 1 2 (pair_at (c_wires cm) m))
      (fst (q_lists 1 2 ro_pre ro_data (ro_ops 2)) ++ snd (q_lists 1 2 ro_pre ro_data (ro_ops 2)))) 0%N)
    (ro_vole 1) ro_cot 6 6 (fun i => nth i (fp_corr (ro_fp p c)) 0%N) (fun i => nth i (fp_bits (ro_fp p c)) false) c.
Definition ro_clean (p : pst) (c : list fgate) (cm : cst) : bool :=
  forallb (fun m => N.ltb (F2kModel.r0 m) (2 ^ 128)) (fp_pmsgs (ro_fp p c)) &&
  forallb (forallb (N.eqb 0)) (fbatches (ro_fcm cm p c)) && forallb (forallb (fun e => N.eqb 0 (snd e))) (pbatches (ro_fcm cm p c)).
Lemma ro_clean_ok : match ro_prv, seteq_circuit true (records ro_data (ro_ops 2)) 11 with
  | Some p, Some (c, _, _) => ro_clean p c (commit ro_cot 8 (fun i => nth i ro_bits false) (q_check 1 2 ro_pre ro_data (ro_ops 2) ro_claims []))
  | _, _ => false
  end = true.
Proof. vm_compute. reflexivity. Qed.
Example C63_passes : ro_check_passes 2 4 ro_cot 1 8 ro_seed (fun i => nth i ro_bits false) (list N) ro_eqb (fun h => h) (ro_vole 1) (ro_vole 2) ro_cot ro_cot 1 6 6
  1 2 ro_pre ro_data (ro_ops 2) ro_claims [] 11.
Proof.
  destruct C63_run_defined as (p & Hp & _). pose proof (fun d => C63_accepted p d Hp) as A. pose proof ro_clean_ok as G.
  destruct (seteq_circuit true (records ro_data (ro_ops 2)) 11) as [[[c a0] a1]|] eqn:Ec; [|rewrite Hp in G; discriminate].
  rewrite Hp in *. unfold ro_clean in G. apply andb_prop in G. destruct G as [G G3]. apply andb_prop in G. destruct G as [G1 G2].
  rewrite forallb_forall in G1, G2, G3.
  unfold ro_check_passes. exists (fun k => nth k (p_msgs p) (0, 0)%N), (p_hash p), ro_seed, (fun k => ro_seed k 0), (fun _ _ => 0%N),
    (fun i => nth i (fp_corr (ro_fp p c)) 0%N), (fun i => nth i (fp_bits (ro_fp p c)) false), (fun k => nth k (fp_msgs (ro_fp p c)) (0, 0)%N),
    (fun k => nth k (fp_pmsgs (ro_fp p c)) (0, 0, 0, 0, 0)%N), (fun _ => 0%N), (fun _ => 0%N), (seteq_msg (fp_w (ro_fp p c)) a0 a1), ro_deltas, c, a0, a1.
  split; [exact Ec|]. split.
  { intro k. destruct (nth_in_or_default k (fp_pmsgs (ro_fp p c)) (0, 0, 0, 0, 0)%N) as [I|E]; [|rewrite E; now vm_compute].
    apply N.ltb_lt. exact (G1 _ I). }
  split; [repeat constructor; cbn; intuition discriminate|]. split; [cbn; lia|]. split; [|split; [auto|]].
  - intros d Hd. destruct (A d Hd) as [V (v & c' & b0 & b1 & E1 & E2 & E3 & E4 & w & E5 & E6 & _ & E7)]. split; [exact V|].
    assert (Q : Some (c', b0, b1) = Some (c, a0, a1)) by (rewrite <- Ec; symmetry; exact E4). injection Q as -> -> ->.
    exists v, w. split; [exact E1|]. split; [exact E2|]. split; [exact E3|]. split; [exact E5|]. split; [exact E6|exact E7].
  - split.
    + intros (k & es & E & (e & Ie & Ne) & _). apply nth_error_In in E. pose proof (G2 _ E) as G. rewrite forallb_forall in G.
      apply Ne. symmetry. apply N.eqb_eq. exact (G e Ie).
    + intros (k & es & E & (e & Ie & _ & Ne) & _). apply nth_error_In in E. pose proof (G3 _ E) as G. rewrite forallb_forall in G.
      apply Ne. symmetry. apply N.eqb_eq. exact (G e Ie).
Qed.
Print Assumptions C63_meaning.
Print Assumptions C63_sound.
Print Assumptions C63_complete.
Print Assumptions C63_top_bit_refuted.
Print Assumptions C63_outside_memory_refuted.
