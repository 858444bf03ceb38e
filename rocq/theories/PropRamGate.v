(** Property C62: the read-write memory at gate level - program, order circuit, packed labels and set equality in one
    boolean session. *)
From Coq Require Import NArith List Bool Arith Lia Permutation Sorted.
From Verif Require Import Word GF128 BoolModel BoolSpec BoolProofs F2kModel F2kSpec VoleF2kSpec RamModel RamSpec RamThms PropRam
  RamGateModel RamGateSpec RamGateProofs RamGateThms RamGateSess.
Import ListNotations.
Ltac Zify.zify_post_hook ::= idtac.

(** the order circuit computes the order of the claimed list and has 2*index_sz + step_sz + val_sz + 7 AND gates per
    pair of neighbours; it adds wires and reveals nothing *)
Theorem C62_condition : forall index_sz step_sz val_sz ws l, 1 <= step_sz ->
  Forall (fun m => wires_ok (length ws) (index_sz + 1) (m_idx m) /\ wires_ok (length ws) step_sz (m_step m) /\
                   wires_ok (length ws) val_sz (m_val m) /\ m_op m < length ws) l ->
  exists gs cond e, b_condition l (length ws) = (gs, cond) /\
    (forall outs, plain_eval ws outs gs = (ws ++ e, outs)) /\
    pwire (ws ++ e) cond = rw_order index_sz step_sz (map (entry_at ws) l) /\
    count_and gs = (length l - 1) * (2 * index_sz + step_sz + val_sz + 7).
Proof.
  intros n s v ws l Hs F. destruct (run_condition n s v ws l Hs F) as (e & E & [_ W]).
  pose proof (shape_condition n s v l _ Hs F (length ws)) as [C _]. destruct (b_condition l (length ws)) as [gs cond]. exists gs, cond, e. auto.
Qed.
(** the circuit of any program with a check, on any private inputs: the revealed bit is the order of the claimed list; the
    recorded list is the list of accesses numbered in time order, within the ranges of the memory *)
Theorem C62_meaning : forall index_sz step_sz val_sz os claims post ins, 1 <= step_sz ->
  calls_ok index_sz step_sz val_sz 0 os -> length claims = calls os ->
  (N.of_nat (calls os) <= 2 ^ N.of_nat (step_sz - 1))%N ->
  let bc := m_check index_sz step_sz val_sz os claims post in
  let W := plain_wires (with_inputs ins bc) in
  let sorted := fst (m_lists index_sz step_sz val_sz os) in
  let recs := snd (m_lists index_sz step_sz val_sz os) in
  nth (m_reveal step_sz val_sz os) (plain_outputs (with_inputs ins bc)) false = rw_order index_sz step_sz (map (entry_at W) sorted) /\
  map (entry_at W) recs = numbered 0 (map (access_at W) recs) /\
  log_fits index_sz step_sz val_sz (numbered 0 (map (access_at W) recs)) /\
  length sorted = calls os /\ length recs = calls os /\
  count_and bc = count_and (m_gates (m_run step_sz val_sz os)) + (calls os - 1) * (2 * index_sz + step_sz + val_sz + 7) + count_and post.
Proof.
  intros n s v os claims post ins Hs Hc Hl HL bc W sorted recs.
  destruct (log_facts n s v os claims post Hs Hc Hl HL ins) as (A & B & _ & C & D & E).
  split; [exact E|]. split; [exact A|]. split; [exact B|]. split; [exact C|]. split; [exact D|]. exact (check_ands n s v os claims post Hs Hc Hl).
Qed.
(** whatever the prover sends: a program in which some read does not return the last value written survives fewer
    challenges of the set-equality test than it makes calls, if the claimed addresses lie in the memory *)
Theorem C62_sound : forall index_sz step_sz val_sz os claims post r0 r1 pM threads csz seeds bitmsg
    D (Deqb : D -> D -> bool) H voleV voleM bM oM fthreads bufsz polysz rs,
  1 <= step_sz -> index_sz + step_sz + 1 + val_sz <= 128 ->
  calls_ok index_sz step_sz val_sz 0 os -> length claims = calls os ->
  (N.of_nat (calls os) <= 2 ^ N.of_nat (step_sz - 1))%N -> (N.of_nat (calls os) < 2 ^ 64)%N ->
  (forall a b, Deqb a b = true -> a = b) -> 1 <= fthreads -> 1 <= bufsz ->
  let bc := m_check index_sz step_sz val_sz os claims post in
  let cm := commit pM csz bitmsg bc in
  let W := plain_wires (with_inputs (c_ins cm) bc) in
  ~ and_errors_cancel threads seeds cm ->
  Forall (fun m => (field W (m_idx m) < 2 ^ N.of_nat index_sz)%N) (fst (m_lists index_sz step_sz val_sz os)) ->
  ~ reads_latest (map (access_at W) (snd (m_lists index_sz step_sz val_sz os))) -> NoDup rs ->
  (forall r, In r rs -> (r < 2 ^ 128)%N /\
     check_passes r0 r1 pM threads csz seeds bitmsg D Deqb H voleV voleM bM oM fthreads bufsz polysz index_sz step_sz val_sz os claims post r) ->
  length rs < calls os.
Proof.
  intros n s v os claims post r0 r1 pM threads csz seeds bitmsg D Deqb H voleV voleM bM oM fthreads bufsz polysz rs A1 A2 A3 A4 A5 A6 A7 A8 A9 bc cm W B1 B2 B3 B4 B5.
  exact (check_sound n s v os claims post A1 A2 A3 A4 A5 A6 r0 r1 pM threads csz seeds bitmsg D Deqb H voleV voleM bM oM fthreads bufsz polysz rs A7 A8 A9 B1 B2 B3 B4 B5).
Qed.
(** honest parties: every program whose reads return what was last written is accepted, under every key *)
Theorem C62_complete : forall index_sz step_sz val_sz os claims post r0 r1 pM threads csz seeds
    D (Deqb : D -> D -> bool) H p d voleV voleM bM oM fthreads bufsz polysz fseeds pseeds r junkp junkv g1 g2 g3 g4 h1 h2,
  1 <= step_sz -> index_sz + step_sz + 1 + val_sz <= 128 -> calls_ok index_sz step_sz val_sz 0 os ->
  (N.of_nat (calls os) <= 2 ^ N.of_nat (step_sz - 1))%N -> (N.of_nat (calls os) < 2 ^ 64)%N -> 3 <= calls os ->
  let log := map (access_at (plain_wires (m_gates (m_run step_sz val_sz os)))) (snd (m_lists index_sz step_sz val_sz os)) in
  reads_latest log -> written_first log ->
  Permutation claims (numbered 0 log) -> Sorted N.le (map (rw_word index_sz step_sz val_sz) claims) ->
  (forall a, Deqb a a = true) -> valid_delta d ->
  prv_exec r0 r1 pM threads csz seeds (m_check index_sz step_sz val_sz os claims post) = Some p ->
  1 <= fthreads -> fthreads <= bufsz -> 6 <= bufsz -> (r < 2 ^ 128)%N -> (forall r i, (junkv r i < 2 ^ 128)%N) ->
  (calls os mod 4 = 1 \/ fthreads <= 2 * ((calls os - 1) mod 4)) ->
  check_accepted r0 r1 pM threads csz seeds D Deqb H voleV voleM bM oM fthreads bufsz polysz fseeds pseeds junkp junkv g1 g2 g3 g4 h1 h2
    index_sz step_sz val_sz os claims post r p d.
Proof.
  intros n s v os claims post r0 r1 pM threads csz seeds D Deqb H p d voleV voleM bM oM fthreads bufsz polysz fseeds pseeds r junkp junkv g1 g2 g3 g4 h1 h2
    A1 A2 A3 A5 A6 A7 log RL WF PC SC B1 B2 B3 B4 B5 B6 B7 B8 B9.
  assert (LN : length (numbered 0 log) = calls os).
  { unfold numbered, log. rewrite map_length, combine_length, seq_length, map_length, Nat.min_id. unfold m_lists. cbn [snd]. apply (m_run_inv n s v os A3). }
  assert (A4 : length claims = calls os) by (rewrite <- LN; now apply Permutation_length).
  assert (LF : log_fits n s v (numbered 0 log)).
  { destruct (log_facts n s v os claims post A1 A3 A4 A5 []) as (_ & B & _). rewrite with_inputs_nil in B. rewrite (prefix_log n s v os claims post A3 A4) in B. exact B. }
  apply (check_accepts n s v os claims post A1 A2 A3 A4 A5 A6); auto.
  - destruct LF as [LF _]. rewrite Forall_forall in LF |- *. intros e He. destruct (LF e) as (F1 & F2 & F3); [now apply (Permutation_in _ PC)|].
    split; [|auto]. eapply N.lt_le_trans; [exact F1|]. apply N.pow_le_mono_r; lia.
  - exact (C34_honest_passes n s v log claims LF RL WF PC SC).
  - now apply Permutation_map.
Qed.
(** but the top bit of the claimed addresses is not checked: a read of a written cell may return anything; the prover,
    otherwise following the protocol, is accepted under every key and every challenge *)
Theorem C62_top_bit_refuted : forall index_sz step_sz val_sz os pre after a x w,
  1 <= step_sz -> index_sz + step_sz + 1 + val_sz <= 128 -> calls_ok index_sz step_sz val_sz 0 os ->
  (N.of_nat (calls os) <= 2 ^ N.of_nat (step_sz - 1))%N -> (N.of_nat (calls os) < 2 ^ 64)%N -> 3 <= calls os ->
  map (access_at (plain_wires (m_gates (m_run step_sz val_sz os)))) (snd (m_lists index_sz step_sz val_sz os)) =
    pre ++ {| a_addr := a; a_write := false; a_val := w |} :: after ->
  reads_latest (pre ++ after) -> written_first (pre ++ after) -> last_write pre a = Some x -> x <> w ->
  ~ reads_latest (pre ++ {| a_addr := a; a_write := false; a_val := w |} :: after) /\
  exists claims, length claims = calls os /\
  forall post r0 r1 pM threads csz seeds D (Deqb : D -> D -> bool) H p d voleV voleM bM oM fthreads bufsz polysz fseeds pseeds r junkp junkv g1 g2 g3 g4 h1 h2,
    (forall a, Deqb a a = true) -> valid_delta d ->
    prv_exec r0 r1 pM threads csz seeds (m_check index_sz step_sz val_sz os claims post) = Some p ->
    1 <= fthreads -> fthreads <= bufsz -> 6 <= bufsz -> (r < 2 ^ 128)%N -> (forall r i, (junkv r i < 2 ^ 128)%N) ->
    (calls os mod 4 = 1 \/ fthreads <= 2 * ((calls os - 1) mod 4)) ->
    check_accepted r0 r1 pM threads csz seeds D Deqb H voleV voleM bM oM fthreads bufsz polysz fseeds pseeds junkp junkv g1 g2 g3 g4 h1 h2
      index_sz step_sz val_sz os claims post r p d.
Proof.
  intros n s v os pre after a x w A1 A2 A3 A5 A6 A7 EL RL WF LW NE. split.
  { intro RL'. apply NE. symmetry. exact (RL' pre _ after eq_refl eq_refl x LW). }
  assert (LN : length (pre ++ {| a_addr := a; a_write := false; a_val := w |} :: after) = calls os).
  { rewrite <- EL, map_length. unfold m_lists. cbn [snd]. apply (m_run_inv n s v os A3). }
  assert (LF : log_fits n s v (numbered 0 (pre ++ {| a_addr := a; a_write := false; a_val := w |} :: after))).
  { set (dummy := repeat {| e_idx := 0; e_step := 0; e_op := false; e_val := 0 |}%N (calls os)). assert (A4 : length dummy = calls os) by apply repeat_length.
    destruct (log_facts n s v os dummy [] A1 A3 A4 A5 []) as (_ & B & _). rewrite with_inputs_nil in B. rewrite (prefix_log n s v os dummy [] A3 A4), EL in B. exact B. }
  destruct (C34_top_bit_refuted n s v pre after a w LF RL WF) as (l & O & P & F); [congruence|].
  assert (A4 : length l = calls os).
  { apply Permutation_length in P. rewrite !map_length in P. rewrite P, <- LN. unfold numbered. rewrite map_length, combine_length, seq_length, Nat.min_id. reflexivity. }
  exists l. split; [exact A4|].
  intros post r0 r1 pM threads csz seeds D Deqb H p d voleV voleM bM oM fthreads bufsz polysz fseeds pseeds r junkp junkv g1 g2 g3 g4 h1 h2 B1 B2 B3 B4 B5 B6 B7 B8 B9.
  apply (check_accepts n s v os l post A1 A2 A3 A4 A5 A6); auto. rewrite EL. exact P.
Qed.

(** Non-vacuity: one address bit, three step bits, two value bits.  The program writes 1 to cell 0, 2 to cell 1 and reads
    cell 0; [v] is what the prover's own copy of the memory returns. *)
Definition g_ops (v : N) : list mop := [MGates [GIn false; GIn true; GIn true; GIn false]; MWrite [0] [2; 3]; MWrite [1] [3; 2]; MRead [0] v].
Definition g_claims : list entry :=
  [{| e_idx := 0; e_step := 0; e_op := true; e_val := 1 |}; {| e_idx := 0; e_step := 2; e_op := false; e_val := 1 |};
   {| e_idx := 1; e_step := 1; e_op := true; e_val := 2 |}]%N.
Definition g_log (v : N) := map (access_at (plain_wires (m_gates (m_run 3 2 (g_ops v))))) (snd (m_lists 1 3 2 (g_ops v))).
Example C62_ops_ok : forall v, calls_ok 1 3 2 0 (g_ops v) /\ calls (g_ops v) = 3 /\ (N.of_nat (calls (g_ops v)) <= 2 ^ N.of_nat (3 - 1))%N.
Proof. intro v. split; [|split; [reflexivity|now vm_compute]]. cbn. unfold wires_ok. repeat split; repeat constructor; lia. Qed.
Example C62_log : g_log 1 = [{| a_addr := 0; a_write := true; a_val := 1 |}; {| a_addr := 1; a_write := true; a_val := 2 |};
  {| a_addr := 0; a_write := false; a_val := 1 |}]%N.
Proof. vm_compute. reflexivity. Qed.
(** 28 AND gates for three accesses; the order bit of the honest claim is 1, and 0 with the time order reversed *)
Example C62_demo : count_and (m_check 1 3 2 (g_ops 1) g_claims []) = 28 /\
  nth (m_reveal 3 2 (g_ops 1)) (plain_outputs (m_check 1 3 2 (g_ops 1) g_claims [])) false = true /\
  nth (m_reveal 3 2 (g_ops 1)) (plain_outputs (m_check 1 3 2 (g_ops 1) (rev g_claims) [])) true = false.
Proof. vm_compute. auto. Qed.
Example C62_honest : reads_latest (g_log 1) /\ written_first (g_log 1) /\ Permutation g_claims (numbered 0 (g_log 1)) /\
  Sorted N.le (map (rw_word 1 3 2) g_claims).
Proof.
  rewrite C62_log. split; [|split; [|split]].
  - intros pre a post E Hw x LW. destruct pre as [|p0 [|p1 [|p2 pre]]]; cbn [app] in E; injection E as; subst; try discriminate.
    + cbn in LW. injection LW as; subst. reflexivity.
    + destruct pre; discriminate.
  - intros pre a post E Hw. destruct pre as [|p0 [|p1 [|p2 pre]]]; cbn [app] in E; injection E as; subst; try discriminate.
    destruct pre; discriminate.
  - vm_compute. repeat constructor.
  - vm_compute. repeat constructor; discriminate.
Qed.
(** hypotheses of C62_top_bit_refuted: the same program with a read that returns 3 *)
Example C62_wrong_read : g_log 3 = ([{| a_addr := 0; a_write := true; a_val := 1 |}; {| a_addr := 1; a_write := true; a_val := 2 |}]%N ++
    [{| a_addr := 0; a_write := false; a_val := 3 |}]%N) /\
  last_write [{| a_addr := 0; a_write := true; a_val := 1 |}; {| a_addr := 1; a_write := true; a_val := 2 |}]%N 0%N = Some 1%N.
Proof. vm_compute. auto. Qed.
(** six keys, all accepted with the same transcript: the hypotheses of C62_complete are met, and so is [check_passes] *)
Definition g_cot (i : nat) : N := (2 * (N.of_nat i * 987654321987654321 + 13))%N.
Definition g_vole (a r i : nat) : N := (N.of_nat a * 123456789 + N.of_nat r * 1000 + N.of_nat i)%N.
Definition g_seed (k t : nat) : N := (N.of_nat k * 3 + N.of_nat t + 5)%N.
Definition g_eqb (a b : list N) : bool := if list_eq_dec N.eq_dec a b then true else false.
Definition g_deltas : list N := [2 ^ 127 + 1; 2 ^ 126 + 77; 5; 2 ^ 64 + 7; 9; 11]%N.
Notation g_prv := (prv_exec 2 4 g_cot 1 8 g_seed (m_check 1 3 2 (g_ops 1) g_claims [])).
Example C62_run_defined : exists p, g_prv = Some p /\ p_outs p = [true] /\ length (p_msgs p) = 4.
Proof. destruct g_prv as [p|] eqn:E; [|vm_compute in E; discriminate]. exists p. vm_compute in E. injection E as <-. vm_compute. auto. Qed.
Example C62_accepted : forall p d, g_prv = Some p -> In d g_deltas ->
  valid_delta d /\
  check_accepted 2 4 g_cot 1 8 g_seed (list N) g_eqb (fun h => h) (g_vole 1) (g_vole 2) g_cot g_cot 1 6 6 g_seed (fun k => g_seed k 0)
    (fun _ _ => (0, 0)%N) (fun _ _ => 0%N) (fun _ => 0%N) (fun _ => 0%N) (fun _ => 0%N) (fun _ => 0%N) (fun _ => 0%N) (fun _ => 0%N)
    1 3 2 (g_ops 1) g_claims [] 11 p d.
Proof.
  intros p d Hp Hd. destruct (C62_ops_ok 1) as (A & B & C). destruct C62_honest as (H1 & H2 & H3 & H4).
  assert (V : valid_delta d).
  { cbn in Hd. repeat (destruct Hd as [<-|Hd]; [split; [now vm_compute|reflexivity]|]). destruct Hd. }
  split; [exact V|]. apply C62_complete.
  - clear; lia.
  - clear; lia.
  - exact A.
  - exact C.
  - now vm_compute.
  - rewrite B. lia.
  - exact H1.
  - exact H2.
  - exact H3.
  - exact H4.
  - intro a. unfold g_eqb. destruct (list_eq_dec N.eq_dec a a); congruence.
  - exact V.
  - exact Hp.
  - clear; lia.
  - clear; lia.
  - clear; lia.
  - now vm_compute.
  - intros _ _. now vm_compute.
  - right. rewrite B. cbn. lia.
Qed.
Notation g_bits := (match g_prv with Some p => p_bits p | None => [] end).
Definition g_fp (p : pst) (c : list fgate) :=
  fp_exec (fun i => (nth i (map (rw_word 1 3 2) (g_claims ++ numbered 0 (g_log 1))) 0%N, m_macs 1 3 2 (p_wires p) (g_ops 1) i))
    (g_vole 1) (g_vole 2) g_cot g_cot 1 6 6 g_seed (fun k => g_seed k 0) (fun _ _ => (0, 0)%N) (fun _ => 0%N) (fun _ => 0%N) (fun _ => 0%N) (fun _ => 0%N) c.
Definition g_fcm (cm : cst) (p : pst) (c : list fgate) : fcst :=
  fcommit (fun i => nth i (map (fun m => rw_word 1 3 2 (entry_at (c_wires cm) m)) (fst (m_lists 1 3 2 (g_ops 1)) ++ snd (m_lists 1 3 2 (g_ops 1)))) 0%N)
    (g_vole 1) g_cot 6 6 (fun i => nth i (fp_corr (g_fp p c)) 0%N) (fun i => nth i (fp_bits (g_fp p c)) false) c.
Definition g_clean (p : pst) (c : list fgate) (cm : cst) : bool :=
  forallb (fun m => N.ltb (F2kModel.r0 m) (2 ^ 128)) (fp_pmsgs (g_fp p c)) &&
  forallb (forallb (N.eqb 0)) (fbatches (g_fcm cm p c)) && forallb (forallb (fun e => N.eqb 0 (snd e))) (pbatches (g_fcm cm p c)).
Lemma g_clean_ok : match g_prv, seteq_circuit false (calls (g_ops 1)) 11 with
  | Some p, Some (c, _, _) => g_clean p c (commit g_cot 8 (fun i => nth i g_bits false) (m_check 1 3 2 (g_ops 1) g_claims []))
  | _, _ => false
  end = true.
Proof. vm_compute. reflexivity. Qed.
Example C62_passes : check_passes 2 4 g_cot 1 8 g_seed (fun i => nth i g_bits false) (list N) g_eqb (fun h => h) (g_vole 1) (g_vole 2) g_cot g_cot 1 6 6
  1 3 2 (g_ops 1) g_claims [] 11.
Proof.
  destruct C62_run_defined as (p & Hp & _). pose proof (fun d => C62_accepted p d Hp) as A. pose proof g_clean_ok as G.
  destruct (seteq_circuit false (calls (g_ops 1)) 11) as [[[c a0] a1]|] eqn:Ec; [|rewrite Hp in G; discriminate].
  rewrite Hp in *. unfold g_clean in G. apply andb_prop in G. destruct G as [G G3]. apply andb_prop in G. destruct G as [G1 G2].
  rewrite forallb_forall in G1, G2, G3.
  unfold check_passes. exists (fun k => nth k (p_msgs p) (0, 0)%N), (p_hash p), g_seed, (fun k => g_seed k 0), (fun _ _ => 0%N),
    (fun i => nth i (fp_corr (g_fp p c)) 0%N), (fun i => nth i (fp_bits (g_fp p c)) false), (fun k => nth k (fp_msgs (g_fp p c)) (0, 0)%N),
    (fun k => nth k (fp_pmsgs (g_fp p c)) (0, 0, 0, 0, 0)%N), (fun _ => 0%N), (fun _ => 0%N), (seteq_msg (fp_w (g_fp p c)) a0 a1), g_deltas, c, a0, a1.
  split; [exact Ec|]. split.
  { intro k. destruct (nth_in_or_default k (fp_pmsgs (g_fp p c)) (0, 0, 0, 0, 0)%N) as [I|E]; [|rewrite E; now vm_compute].
    apply N.ltb_lt. exact (G1 _ I). }
  split; [repeat constructor; cbn; intuition discriminate|]. split; [cbn; lia|]. split; [|split; [auto|]].
  - intros d Hd. destruct (A d Hd) as [V (v & c' & b0 & b1 & E1 & E2 & E3 & E4 & w & E5 & E6 & _ & E7)]. split; [exact V|].
    assert (Q : Some (c', b0, b1) = Some (c, a0, a1)) by (rewrite <- Ec; symmetry; exact E4). injection Q as -> -> ->.
    exists v, w. split; [exact E1|]. split; [exact E2|]. split; [exact E3|]. split; [exact E5|]. split; [exact E6|exact E7].
  - split.
    + intros (k & es & E & (e & Ie & Ne) & _). apply nth_error_In in E. pose proof (G2 _ E) as G. rewrite forallb_forall in G.
      apply Ne. symmetry. apply N.eqb_eq. exact (G e Ie).
    + intros (k & es & E & (e & Ie & _ & Ne) & _). apply nth_error_In in E. pose proof (G3 _ E) as G. rewrite forallb_forall in G.
      apply Ne. symmetry. apply N.eqb_eq. exact (G e Ie).
Qed.
Print Assumptions C62_condition.
Print Assumptions C62_meaning.
Print Assumptions C62_sound.
Print Assumptions C62_complete.
Print Assumptions C62_top_bit_refuted.
