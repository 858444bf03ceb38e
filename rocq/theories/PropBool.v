(** Properties C04, C05, C06, C07 (boolean engine). *)
From Coq Require Import NArith List Bool Arith Lia.
From Verif Require Import Word WordProofs GF128 GF128Ring BoolModel BoolSpec BoolProofs BoolAlg BoolThms BoolThms2.
Import ListNotations.

(** ** C04: completeness.  [cot_key pM d] is the ideal correlation, [nth ...] is the channel. *)
Theorem C04_honest_session_accepts :
  forall (r0 r1 : N) (pM : nat -> N) (threads csz : nat) (seeds : nat -> nat -> N)
         (D : Type) (Deqb : D -> D -> bool) (H : list N -> D) (c : list gate) (p : pst) (d : N),
  (forall a, Deqb a a = true) -> valid_delta d ->
  prv_exec r0 r1 pM threads csz seeds c = Some p ->
  exists v, ver_exec r0 r1 (cot_key pM d) d threads csz seeds
              (fun i => nth i (p_bits p) false) (fun k => nth k (p_msgs p) (0, 0)%N) c = Some v /\
    v_outs v = plain_outputs c /\ p_outs p = plain_outputs c /\
    ver_finalize Deqb H v (H (p_hash p)) = false.
Proof. exact session_complete. Qed.
(** when an honest session has no undefined behaviour, exactly *)
Theorem C04_defined_iff :
  forall r0 r1 pM threads csz seeds c, 1 <= threads -> threads <= csz ->
  ((exists p, prv_exec r0 r1 pM threads csz seeds c = Some p) <->
   (count_and c = 0 \/ threads <= last_batch csz (count_and c))).
Proof. intros. now apply exec_defined. Qed.
Corollary C04_single_thread_defined r0 r1 pM csz seeds c : 1 <= csz ->
  exists p, prv_exec r0 r1 pM 1 csz seeds c = Some p.
Proof.
  intro H. apply exec_defined; auto. unfold last_batch. destruct (count_and c); [now left|right; lia].
Qed.
(** a two-thread session with a single AND gate divides by zero *)
Theorem C04_small_batch_refuted :
  exists c, forall r0 r1 pM csz seeds, 2 <= csz -> prv_exec r0 r1 pM 2 csz seeds c = None.
Proof.
  exists [GPub true; GAnd 0 0]. intros r0 r1 pM csz seeds H.
  destruct (prv_exec r0 r1 pM 2 csz seeds [GPub true; GAnd 0 0]) eqn:E; [|reflexivity].
  assert (X : exists p, prv_exec r0 r1 pM 2 csz seeds [GPub true; GAnd 0 0] = Some p) by eauto.
  apply exec_defined in X; [|lia|lia]. cbn in X. rewrite Nat.mod_0_l in X by lia. lia.
Qed.
(** a session with three batches (batch size 2), computed *)
Definition demo_pM (i : nat) : N := N.of_nat (i * i + 3 * i + 1).
Definition demo_circuit : list gate :=
  [GIn true; GIn false; GPub true; GAnd 0 2; GXor 3 1; GAnd 4 0; GNot 1; GAnd 5 6; GAnd 7 7; GAnd 8 0;
   GReveal 9; GReveal 1].
Definition demo_seeds (k i : nat) : N := N.of_nat (77 * k + i + 5).
Definition demo_delta : N := 0xABCDEF0123456789ABCDEF0123456789.
Example C04_example :
  match prv_exec 11 12 demo_pM 1 2 demo_seeds demo_circuit with
  | Some p => p_outs p = [true; false] /\ length (p_msgs p) = 3
  | None => False end /\ valid_delta demo_delta.
Proof. vm_compute. auto. Qed.

(** ** C05: soundness of a whole session against an arbitrary prover *)
Theorem C05_session_soundness :
  forall (r0 r1 : N) (pM : nat -> N) (threads csz : nat) (seeds : nat -> nat -> N)
         (bitmsg : nat -> bool) (chkmsg : nat -> N * N)
         (D : Type) (Deqb : D -> D -> bool) (H : list N -> D) (dig : D) (c : list gate) (deltas : list N),
  (forall a b, Deqb a b = true -> a = b) -> NoDup deltas ->
  let cm := commit pM csz bitmsg c in
  let exec d := ver_exec r0 r1 (cot_key pM d) d threads csz seeds bitmsg chkmsg c in
  (forall d, In d deltas -> valid_delta d /\
     exists v, exec d = Some v /\ ver_finalize Deqb H v dig = false /\
               v_outs v <> plain_outputs (with_inputs (c_ins cm) c)) ->
  length deltas <= 2 \/
  (exists k errs rs, nth_error (batches cm) k = Some errs /\ In true errs /\
     and_ranges threads (length errs) = Some rs /\ combined_error rs (seeds k) errs = 0%N) \/
  (exists d1 d2 v1 v2, In d1 deltas /\ In d2 deltas /\ exec d1 = Some v1 /\ exec d2 = Some v2 /\
     v_hash v1 <> v_hash v2 /\ H (v_hash v1) = H (v_hash v2)).
Proof. exact session_soundness. Qed.
(** the challenges for which a non-zero error vector combines to zero: with all other
    worker seeds fixed, at most n values of one worker's seed *)
Theorem C05_challenge_bound :
  forall t errs rs, 1 <= t -> and_ranges t (length errs) = Some rs ->
  length errs mod t < length errs / t -> In true errs ->
  exists k, k < t /\ forall (seed : nat -> N) xs, NoDup xs -> Forall (fun x => (x < 2 ^ 128)%N) xs ->
    (forall x, In x xs -> combined_error rs (fun j => if Nat.eqb j k then x else seed j) errs = 0%N) ->
    length xs <= length errs.
Proof. exact challenge_bound. Qed.
Corollary C05_challenge_bound_one_thread errs : In true errs ->
  forall xs, NoDup xs -> Forall (fun x => (x < 2 ^ 128)%N) xs ->
  (forall x, In x xs -> range_error x errs = 0%N) -> length xs <= length errs.
Proof.
  intros Hin xs Hnd Hlt Hz.
  assert (Hn : length errs <> 0) by (destruct errs; [easy|discriminate]).
  assert (Hr : and_ranges 1 (length errs) = Some [(0, length errs)]).
  { unfold and_ranges. rewrite Nat.div_1_r. destruct (Nat.eqb_spec (length errs) 0); [easy|].
    rewrite Nat.mod_same by easy. cbn. now rewrite Nat.add_0_r. }
  destruct (challenge_bound 1 errs _ (le_n 1) Hr) as [k [Hk HB]]; auto.
  { rewrite Nat.mod_1_r, Nat.div_1_r. lia. }
  apply (HB (fun _ => 0%N) xs); auto. intros x Hx. replace k with 0 by lia. cbn.
  rewrite firstn_all, N.lxor_0_r. now apply Hz.
Qed.
(** the bound is tight in the other direction: whenever the combination vanishes in every
    batch, one fixed message passes for every global key *)
Theorem C05_vanishing_combination_passes :
  forall (r0 r1 : N) (pM : nat -> N) (threads csz : nat) (seeds : nat -> nat -> N)
         (bitmsg : nat -> bool) (c : list gate),
  (exists p, prv_exec r0 r1 pM threads csz seeds c = Some p) ->
  let cm := commit pM csz bitmsg c in
  (forall k errs rs, nth_error (batches cm) k = Some errs -> and_ranges threads (length errs) = Some rs ->
     combined_error rs (seeds k) errs = 0%N) ->
  Forall (fun r => fst r = snd r) (c_rev cm) ->
  exists chkmsg hin, forall (D : Type) (Deqb : D -> D -> bool) (H : list N -> D) d,
    (forall a, Deqb a a = true) -> valid_delta d ->
    exists v, ver_exec r0 r1 (cot_key pM d) d threads csz seeds bitmsg chkmsg c = Some v /\
      ver_finalize Deqb H v (H hin) = false /\ v_outs v = map snd (c_rev cm).
Proof.
  intros r0 r1 pM threads csz seeds bitmsg c Hd cm.
  destruct (s_prv_defined r0 r1 pM threads csz seeds bitmsg c Hd) as [s Es].
  now apply undetected_if_combination_zero with s.
Qed.
(** a cheating session exists and is rejected: the hypotheses above are about real runs *)
Definition cheat_bits (i : nat) : bool :=
  (* corrections: wire 1 = 1 claimed for 0 AND 0, then the (wrong) reveal *)
  match i with 0 => negb (getLSB (demo_pM 1)) | _ => true end.
Example C05_example :
  let c := [GPub false; GAnd 0 0; GReveal 1] in
  batches (commit demo_pM 4 cheat_bits c) = [[true]] /\
  plain_outputs (with_inputs (c_ins (commit demo_pM 4 cheat_bits c)) c) = [false] /\
  match ver_exec 11 12 (cot_key demo_pM demo_delta) demo_delta 1 4 demo_seeds cheat_bits (fun _ => (0, 0)%N) c with
  | Some v => v_outs v = [true] /\ v_cheat v <> []
  | None => False end /\
  combined_error [(0, 1)] (demo_seeds 0) [true] <> 0%N.
Proof. vm_compute. repeat split; discriminate. Qed.

(** ** C06: coverage of the threaded check *)
Theorem C06_exact_coverage : forall t cnt rs i, 1 <= t -> and_ranges t cnt = Some rs ->
  (covered rs i <-> i < t * (cnt / t) + (cnt mod t) mod (cnt / t)).
Proof. exact covered_iff. Qed.
Theorem C06_complete_iff : forall t cnt rs, 1 <= t -> and_ranges t cnt = Some rs ->
  ((forall i, i < cnt -> covered rs i) <-> cnt mod t < cnt / t).
Proof. exact all_covered_iff. Qed.
Theorem C06_in_bounds : forall t cnt rs s n, 1 <= t -> and_ranges t cnt = Some rs ->
  In (s, n) rs -> s + n <= cnt.
Proof. exact ranges_in_bounds. Qed.
Theorem C06_disjoint : forall t cnt rs a b s n s' n' i, 1 <= t -> and_ranges t cnt = Some rs ->
  nth_error rs a = Some (s, n) -> nth_error rs b = Some (s', n') ->
  s <= i < s + n -> s' <= i < s' + n' -> a = b.
Proof. exact ranges_disjoint. Qed.
Theorem C06_large_batches_complete : forall t cnt, 1 <= t -> t * t <= cnt ->
  exists rs, and_ranges t cnt = Some rs /\ forall i, i < cnt -> covered rs i.
Proof.
  intros t cnt Ht Hc.
  assert (Hq : t <= cnt / t) by (apply Nat.div_le_lower_bound; lia).
  destruct (and_ranges t cnt) as [rs|] eqn:E.
  - exists rs. split; [reflexivity|]. apply (all_covered_iff t cnt rs Ht E).
    pose proof (Nat.mod_upper_bound cnt t ltac:(lia)). lia.
  - apply and_ranges_none in E. lia.
Qed.
Theorem C06_division_by_zero_iff : forall t cnt, 1 <= t -> (and_ranges t cnt = None <-> cnt < t).
Proof.
  intros t cnt Ht. rewrite and_ranges_none. apply Nat.div_small_iff. lia.
Qed.
(** the default batch is covered for every realistic thread count *)
Theorem C06_full_batch_complete : forall t, 1 <= t -> t <= 1024 ->
  exists rs, and_ranges t (1024 * 1024) = Some rs /\ forall i, i < 1024 * 1024 -> covered rs i.
Proof. intros t H1 H2. apply C06_large_batches_complete; [easy|]. now apply Nat.mul_le_mono. Qed.
(** consequence of incomplete coverage: with two threads and three AND gates the third gate
    is never checked; a cheating prover makes 0 AND 0 come out as 1 for every global key, every
    correlation and every challenge *)
Theorem C06_unchecked_gate_refuted :
  exists c, (forall ins, plain_outputs (with_inputs ins c) = [false]) /\
  forall r0 r1 pM seeds csz, 3 <= csz ->
  exists bitmsg chkmsg hin, forall (D : Type) (Deqb : D -> D -> bool) (H : list N -> D) d,
    (forall a, Deqb a a = true) -> valid_delta d ->
    exists v, ver_exec r0 r1 (cot_key pM d) d 2 csz seeds bitmsg chkmsg c = Some v /\
      ver_finalize Deqb H v (H hin) = false /\ v_outs v = [true].
Proof.
  set (c := [GPub false; GAnd 0 0; GAnd 0 0; GAnd 0 0; GReveal 3]). exists c.
  split; [intro ins; now destruct ins|].
  intros r0 r1 pM seeds csz Hc.
  set (bm := fun i => match i with 0 => getLSB (pM 1) | 1 => getLSB (pM 2) | 2 => negb (getLSB (pM 3)) | _ => true end).
  assert (Hd : exists p, prv_exec r0 r1 pM 2 csz seeds c = Some p).
  { apply exec_defined; [lia|lia|]. right. cbn. rewrite Nat.mod_small by lia. lia. }
  assert (E : batches (commit pM csz bm c) = [[false; false; true]] /\ c_rev (commit pM csz bm c) = [(true, true)]).
  { destruct csz as [|[|[|csz]]]; try lia. clear. unfold bm, c. lazy -[N.testbit].
    destruct (N.testbit (pM 1) 0), (N.testbit (pM 2) 0), (N.testbit (pM 3) 0); auto. }
  destruct E as [Eb Er].
  destruct (C05_vanishing_combination_passes r0 r1 pM 2 csz seeds bm c Hd) as [chk [hin HX]].
  - rewrite Eb. intros [|k] errs rs Hk Hrs; [|destruct k; discriminate].
    injection Hk as <-. injection Hrs as <-. clear.
    unfold combined_error, range_error. cbn [fst snd length seq combine map firstn skipn fold_right gf_coeff_gen b2N].
    destruct (gf_coeff_gen (seeds 0 0) 1) as [|e0 ?], (gf_coeff_gen (seeds 0 1) 1) as [|e1 ?];
      cbn [fst snd combine map fold_right]; rewrite ?combine_nil; cbn [map fold_right b2N];
      rewrite ?gfmul_0_r; reflexivity.
  - rewrite Er. now constructor.
  - exists bm, chk, hin. rewrite Er in HX. exact HX.
Qed.
Example C06_example :
  and_ranges 3 5 = Some [(0, 1); (1, 1); (2, 1)] /\ and_ranges 3 10 = Some [(0, 3); (3, 3); (6, 4)].
Proof. vm_compute. auto. Qed.

(** ** C07: a reveal binds the value, at any point of a session.  [p] and [s] are the states of the two parties
    before the reveal, [x] the value the prover is committed to on wire i: the verifier's key of the wire is the
    prover's label xor x*d.  [bitmsg (v_bits s)] is the claimed bit the verifier receives. *)
Theorem C07_correct_bit_matches : forall r0 r1 pM vK d threads csz seeds bitmsg chkmsg p s p' s' i (x : bool),
  d <> 0%N -> wire (v_wires s) i = N.lxor (wire (p_wires p) i) (if x then d else 0%N) ->
  prv_step r0 r1 pM threads csz seeds p (GReveal i) = Some p' ->
  ver_step r0 r1 vK d threads csz seeds bitmsg chkmsg s (GReveal i) = Some s' ->
  exists hp hv, p_hash p' = p_hash p ++ [hp] /\ v_hash s' = v_hash s ++ [hv] /\
    v_outs s' = v_outs s ++ [bitmsg (v_bits s)] /\ (hv = hp <-> bitmsg (v_bits s) = x).
Proof.
  intros r0 r1 pM vK d threads csz seeds bitmsg chkmsg p s p' s' i x Hd Hw Ep Ev.
  cbn in Ep, Ev. injection Ep as <-. injection Ev as <-. cbn [p_hash v_hash v_outs]. rewrite Hw.
  set (M := wire (p_wires p) i). set (b := bitmsg (v_bits s)). clearbody M b.
  exists M, (N.lxor (N.lxor M (if x then d else 0%N)) (choice d b)). repeat split.
  - intro E. rewrite N.lxor_assoc in E.
    assert (Z : N.lxor (if x then d else 0%N) (choice d b) = 0%N).
    { rewrite <- (lxor_cancel M (N.lxor _ _)), E. apply N.lxor_nilpotent. }
    destruct b, x; cbn in Z; rewrite ?N.lxor_0_l, ?N.lxor_0_r in Z; congruence.
  - intros ->. rewrite N.lxor_assoc. destruct x; cbn; now rewrite ?N.lxor_nilpotent, N.lxor_0_r.
Qed.
(** a wrong bit: what the verifier hashes is the prover's label xor the global key *)
Theorem C07_wrong_bit_needs_key : forall r0 r1 pM vK d threads csz seeds bitmsg chkmsg p s p' s' i (x : bool),
  wire (v_wires s) i = N.lxor (wire (p_wires p) i) (if x then d else 0%N) -> bitmsg (v_bits s) <> x ->
  prv_step r0 r1 pM threads csz seeds p (GReveal i) = Some p' ->
  ver_step r0 r1 vK d threads csz seeds bitmsg chkmsg s (GReveal i) = Some s' ->
  exists hp, p_hash p' = p_hash p ++ [hp] /\ v_hash s' = v_hash s ++ [N.lxor hp d].
Proof.
  intros r0 r1 pM vK d threads csz seeds bitmsg chkmsg p s p' s' i x Hw Hb Ep Ev.
  cbn in Ep, Ev. injection Ep as <-. injection Ev as <-. cbn [p_hash v_hash]. rewrite Hw.
  exists (wire (p_wires p) i). split; [reflexivity|]. rewrite N.lxor_assoc. do 3 f_equal.
  destruct (bitmsg (v_bits s)), x; cbn; try congruence; now rewrite ?N.lxor_nilpotent, ?N.lxor_0_l, ?N.lxor_0_r.
Qed.
(** fixed label M and fixed string [str] of the prover: at most one key makes the wrong bit match, whatever the rest of
    the verifier's state *)
Theorem C07_wrong_bit_one_key : forall r0 r1 threads csz M (x : bool) str i deltas, NoDup deltas ->
  (forall d, In d deltas -> exists vK seeds bitmsg chkmsg s s',
     wire (v_wires s) i = N.lxor M (if x then d else 0%N) /\ bitmsg (v_bits s) <> x /\
     ver_step r0 r1 vK d threads csz seeds bitmsg chkmsg s (GReveal i) = Some s' /\ v_hash s' = v_hash s ++ [str]) ->
  length deltas <= 1.
Proof.
  intros r0 r1 threads csz M x str i deltas Hnd H.
  destruct deltas as [|d1 [|d2 l]]; cbn; try lia. exfalso.
  assert (E : forall d, In d (d1 :: d2 :: l) -> d = N.lxor M str).
  { intros d Hd. destruct (H d Hd) as (vK & seeds & bitmsg & chkmsg & s & s' & Hw & Hb & Ev & Eh).
    cbn in Ev. injection Ev as <-. cbn [v_hash] in Eh. apply app_inv_head in Eh. injection Eh as <-.
    rewrite Hw, N.lxor_assoc.
    replace (N.lxor (if x then d else 0%N) (choice d (bitmsg (v_bits s)))) with d; [now rewrite lxor_cancel|].
    destruct (bitmsg (v_bits s)), x; cbn; try congruence; now rewrite ?N.lxor_0_l, ?N.lxor_0_r. }
  rewrite (E d1), (E d2) in Hnd by (cbn; auto). inversion Hnd as [|? ? Hn _]. apply Hn. now left.
Qed.
(** a whole session whose gates are right but which reveals a wrong bit: two accepted keys give
    a hash collision (instance of session soundness with no gate error) *)
Theorem C07_session_binding :
  forall r0 r1 pM threads csz seeds bitmsg chkmsg (D : Type) (Deqb : D -> D -> bool) (H : list N -> D) dig c d1 d2 v1 v2,
  (forall a b, Deqb a b = true -> a = b) -> d1 <> d2 -> valid_delta d1 -> valid_delta d2 ->
  let cm := commit pM csz bitmsg c in
  let exec d := ver_exec r0 r1 (cot_key pM d) d threads csz seeds bitmsg chkmsg c in
  exec d1 = Some v1 -> exec d2 = Some v2 ->
  ver_finalize Deqb H v1 dig = false -> ver_finalize Deqb H v2 dig = false ->
  Exists (fun r => fst r <> snd r) (c_rev cm) ->
  v_hash v1 <> v_hash v2 /\ H (v_hash v1) = H (v_hash v2).
Proof.
  intros r0 r1 pM threads csz seeds bitmsg chkmsg D Deqb H dig c d1 d2 v1 v2 Deq Hne [L1 B1] [L2 B2] cm exec E1 E2 F1 F2 Hex.
  apply finalize_false in F1, F2. destruct F1 as [_ F1], F2 as [_ F2]. apply Deq in F1, F2.
  split; [|congruence].
  pose proof (sim_exec r0 r1 pM threads csz bitmsg d1 seeds chkmsg B1 L1 c) as S1.
  pose proof (sim_exec r0 r1 pM threads csz bitmsg d2 seeds chkmsg B2 L2 c) as S2.
  rewrite <- (ver_exec_ext _ _ (cot_key pM d1)) in S1 by (intro; apply keys_vK).
  rewrite <- (ver_exec_ext _ _ (cot_key pM d2)) in S2 by (intro; apply keys_vK).
  unfold exec in E1, E2. rewrite E1 in S1. rewrite E2 in S2.
  destruct (s_exec r0 r1 pM threads csz bitmsg c) as [s|] eqn:Es; [|easy].
  destruct (exec_proj r0 r1 pM threads csz bitmsg c s Es) as [_ [Pr _]]. fold cm in Pr.
  rewrite Pr, Exists_map in Hex. apply Exists_exists in Hex. destruct Hex as [r [Hin Hr]]. cbn in Hr.
  rewrite (vs_h _ _ _ _ _ S1), (vs_h _ _ _ _ _ S2). intro E.
  assert (E' : rev_key d1 r = rev_key d2 r).
  { clear -E Hin. induction (s_rev s) as [|r' l IH]; [easy|]. cbn in E. injection E as Ea Eb.
    destruct Hin as [->|Hin]; auto. }
  unfold rev_key in E'. replace (xorb (snd (fst r)) (snd r)) with true in E'.
  - cbn [choice] in E'. apply Hne.
    rewrite <- (lxor_cancel (fst (fst r)) d1), E'. apply lxor_cancel.
  - destruct (snd (fst r)), (snd r); auto; now contradiction Hr.
Qed.
(** the session of C04_example, its first output opened with the right and with the wrong bit *)
Example C07_example :
  match prv_run 11 12 demo_pM 1 2 demo_seeds p_init (firstn 10 demo_circuit) with
  | Some p =>
      let bits b i := if Nat.eqb i (length (p_bits p)) then b else nth i (p_bits p) false in
      let run b := ver_run 11 12 (cot_key demo_pM demo_delta) demo_delta 1 2 demo_seeds (bits b)
                     (fun k => nth k (p_msgs p) (0, 0)%N) v_init (firstn 10 demo_circuit ++ [GReveal 9]) in
      let M := wire (p_wires p) 9 in
      match run true, run false with
      | Some v, Some v' => v_hash v = [M] /\ v_outs v = [true] /\ v_hash v' = [N.lxor M demo_delta] /\ v_outs v' = [false]
      | _, _ => False end
  | None => False end.
Proof. vm_compute. auto. Qed.

Print Assumptions C04_honest_session_accepts.
Print Assumptions C04_defined_iff.
Print Assumptions C04_small_batch_refuted.
Print Assumptions C05_session_soundness.
Print Assumptions C05_challenge_bound.
Print Assumptions C05_vanishing_combination_passes.
Print Assumptions C06_exact_coverage.
Print Assumptions C06_complete_iff.
Print Assumptions C06_in_bounds.
Print Assumptions C06_disjoint.
Print Assumptions C06_large_batches_complete.
Print Assumptions C06_division_by_zero_iff.
Print Assumptions C06_full_batch_complete.
Print Assumptions C06_unchecked_gate_refuted.
Print Assumptions C07_correct_bit_matches.
Print Assumptions C07_wrong_bit_needs_key.
Print Assumptions C07_wrong_bit_one_key.
Print Assumptions C07_session_binding.
