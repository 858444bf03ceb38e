(** Property C64: the boolean test programs prove what they claim - and what they do not. *)
From Coq Require Import NArith List Bool Arith Lia.
From Verif Require Import Word GF128 BoolModel BoolSpec BoolProofs F2kModel F2kSpec RamModel RamSpec LowMcModel RamGateModel RamGateSpec RamGateProofs
  BTestModel BTestSpec BTestProofs.
Import ListNotations.
Ltac Zify.zify_post_hook ::= idtac.

(** a Bristol circuit evaluated on any existing wires of any session computes its function; earlier wires and opened bits
    stay; one AND per AND gate of the file *)
Theorem C64_bristol_in_context : forall cf ws inp outs, bristol_ok cf -> br_n1 cf <= length inp -> Forall (fun i => i < length ws) (firstn (br_n1 cf) inp) ->
  let (gs, res) := b_bristol cf inp (length ws) in
  exists new, plain_eval ws outs gs = (ws ++ new, outs) /\
    map (pwire (ws ++ new)) res = bristol_fun cf (map (pwire ws) (firstn (br_n1 cf) inp)) /\ count_and gs = bristol_ands cf.
Proof.
  intros cf ws inp outs Hok L F.
  assert (W : are_wires (map (pwire ws) (firstn (br_n1 cf) inp)) ws (firstn (br_n1 cf) inp)) by (clear -F; induction F; constructor; [now split|assumption]).
  pose proof (does_bristol cf [] ws _ inp Hok L W) as Q. destruct Q as (N & K & e & E & R). destruct (b_bristol cf inp (length ws)) as [gs res]. cbn [fst snd] in *.
  specialize (E outs). rewrite with_none in E by assumption. rewrite app_nil_r in E. exists e. split; [exact E|]. split; [|exact K].
  clear -R. induction R as [|v i vs l [_ H] _ IH]; [reflexivity|]. cbn. now rewrite H, IH.
Qed.
(** the same for the sum and the difference of emp-tool's Integer, modulo 2^width *)
Theorem C64_add_in_context : forall ws a b outs, length a = length b -> Forall (fun i => i < length ws) a -> Forall (fun i => i < length ws) b ->
  let x := word_of (map (pwire ws) a) in let y := word_of (map (pwire ws) b) in let m := (2 ^ N.of_nat (length a))%N in
  let (gs, res) := b_add a b (length ws) in
  exists new, plain_eval ws outs gs = (ws ++ new, outs) /\ word_of (map (pwire (ws ++ new)) res) = ((x + y) mod m)%N /\ count_and gs = length a - 1.
Proof.
  intros ws a b outs L Fa Fb x y m.
  assert (W : forall l, Forall (fun i => i < length ws) l -> are_wires (map (pwire ws) l) ws l) by (intros l F; induction F; constructor; [now split|assumption]).
  assert (L' : length (map (pwire ws) a) = length (map (pwire ws) b)) by (rewrite !map_length; exact L).
  pose proof (does_add [] ws _ _ a b L' (W a Fa) (W b Fb)) as Q. destruct Q as (N & K & e & E & R). rewrite map_length in K.
  destruct (b_add a b (length ws)) as [gs res]. cbn [fst snd] in *.
  specialize (E outs). rewrite with_none in E by assumption. rewrite app_nil_r in E. exists e. split; [exact E|]. split; [|exact K].
  pose proof (add_value (map (pwire ws) a) (map (pwire ws) b)) as V. rewrite !map_length in V. specialize (V L). unfold x, y, m. rewrite <- V. f_equal.
  clear -R. induction R as [|v i vs l [_ H] _ IH]; [reflexivity|]. cbn. now rewrite H, IH.
Qed.
Theorem C64_sub_in_context : forall ws a b outs, length a = length b -> Forall (fun i => i < length ws) a -> Forall (fun i => i < length ws) b ->
  let x := word_of (map (pwire ws) a) in let y := word_of (map (pwire ws) b) in let m := (2 ^ N.of_nat (length a))%N in
  let (gs, res) := b_sub a b (length ws) in
  exists new, plain_eval ws outs gs = (ws ++ new, outs) /\ word_of (map (pwire (ws ++ new)) res) = ((x + m - y) mod m)%N /\ count_and gs = length a - 1.
Proof.
  intros ws a b outs L Fa Fb x y m.
  assert (W : forall l, Forall (fun i => i < length ws) l -> are_wires (map (pwire ws) l) ws l) by (intros l F; induction F; constructor; [now split|assumption]).
  assert (L' : length (map (pwire ws) a) = length (map (pwire ws) b)) by (rewrite !map_length; exact L).
  pose proof (does_sub [] ws _ _ a b L' (W a Fa) (W b Fb)) as Q. destruct Q as (N & K & e & E & R). rewrite map_length in K.
  destruct (b_sub a b (length ws)) as [gs res]. cbn [fst snd] in *.
  specialize (E outs). rewrite with_none in E by assumption. rewrite app_nil_r in E. exists e. split; [exact E|]. split; [|exact K].
  pose proof (sub_value (map (pwire ws) a) (map (pwire ws) b)) as V. rewrite !map_length in V. specialize (V L). unfold x, y, m. rewrite <- V. f_equal.
  clear -R. induction R as [|v i vs l [_ H] _ IH]; [reflexivity|]. cbn. now rewrite H, IH.
Qed.

Lemma program {A} (m : build A) n k (R : list bool -> list bool) :
  (forall ins, length ins = n -> does ins m [] n k (R ins) (fun _ _ => True)) -> length (inputs_of (circuit m)) = n ->
  session_shows (circuit m) (R (inputs_of (circuit m))) /\
  session_proves (circuit m) (fun ins outs => length ins = n /\ outs = R ins) /\
  count_and (circuit m) = k.
Proof.
  intros D L. assert (G := fun ins (H : length ins = n) => does_outputs ins m _ _ _ _ (D ins H)).
  destruct (G _ L) as (G1 & G2 & G3). rewrite fed_with in G1. split; [rewrite <- G1; apply shows_outputs|]. split; [|exact G3].
  apply proves_outputs. intros ins H. rewrite G2 in H. split; [exact H|]. now apply G.
Qed.
(** example.cpp: the opened number is a - b modulo 2^width, of the numbers the prover is committed to *)
Theorem C64_example : forall a b, length a = length b ->
  let width := length a in
  let diff x y := int_bits width ((word_of x + 2 ^ N.of_nat width - word_of y) mod 2 ^ N.of_nat width) in
  session_shows (circuit (example_prog a b)) (diff a b) /\
  session_proves (circuit (example_prog a b)) (fun ins outs => length ins = 2 * width /\ outs = diff (firstn width ins) (skipn width ins)) /\
  count_and (circuit (example_prog a b)) = width - 1.
Proof.
  intros a b L width diff.
  pose proof (program (example_prog a b) (2 * width) (width - 1) (fun ins => diff (firstn width ins) (skipn width ins))) as P.
  rewrite example_feeds in P. cbv beta in P.
  assert (Ea : firstn width (a ++ b) = a) by (unfold width; rewrite firstn_app, Nat.sub_diag, firstn_all; apply app_nil_r).
  assert (Eb : skipn width (a ++ b) = b) by (unfold width; rewrite skipn_app, Nat.sub_diag, skipn_all; reflexivity).
  rewrite Ea, Eb in P.
  apply P; [|rewrite app_length; unfold width; lia]. intros ins Li. unfold width. replace (2 * length a) with (length a + length b) by lia.
  apply example_does; [exact L|unfold width in Li; lia].
Qed.
(** sha256.cpp: the opened digest is the iterated hash of the witness the prover is committed to *)
Theorem C64_sha256 : forall cf zero rounds wit, bristol_ok cf -> br_n1 cf = zero -> br_n3 cf <= zero -> length wit = zero ->
  let chain := hash_chain (bristol_fun cf) (zero - br_n3 cf) rounds in
  session_shows (circuit (sha_prog cf zero rounds wit)) (chain wit) /\
  session_proves (circuit (sha_prog cf zero rounds wit)) (fun ins outs => length ins = zero /\ outs = chain ins) /\
  count_and (circuit (sha_prog cf zero rounds wit)) = S rounds * bristol_ands cf.
Proof.
  intros cf zero rounds wit Hok H1 H3 L chain. pose proof (program (sha_prog cf zero rounds wit) zero (S rounds * bristol_ands cf) chain) as P.
  rewrite sha_feeds in P. apply P; [|exact L]. intros ins Li. now apply sha_does.
Qed.
(** memory_scalability.cpp: whatever bits the leaves hold, the wires returned by merkle_tree() hold the Merkle root, at
    one circuit per node of the tree *)
Theorem C64_merkle_root : forall cf h leaf k ws outs ins, bristol_ok cf -> br_n1 cf = 2 * h -> br_n3 cf = h -> length ins = 2 ^ k * (2 * h) ->
  let (gs, res) := b_merkle cf h leaf k 0 (length ws) in
  exists new, plain_eval ws outs (with_inputs ins gs) = (ws ++ new, outs) /\
    map (pwire (ws ++ new)) res = merkle_root (bristol_fun cf) (2 * h) k ins /\
    inputs_of gs = flat_map (fun n => map (leaf n) (seq 0 (2 * h))) (seq 0 (2 ^ k)) /\
    count_and gs = (2 * 2 ^ k - 1) * bristol_ands cf.
Proof.
  intros cf h leaf k ws outs ins Hok H1 H3 L. pose proof (merkle_does cf h leaf Hok H1 H3 k 0 ins ws ltac:(lia)) as Q.
  pose proof (merkle_feeds cf h leaf k 0 (length ws)) as F. rewrite merkle_leaves_rows, Nat.mul_0_r in F.
  destruct Q as (N & K & e & E & R). destruct (b_merkle cf h leaf k 0 (length ws)) as [gs res]. cbn [fst snd] in *.
  specialize (E outs). rewrite app_nil_r in E. exists e. split; [exact E|]. split; [|split; [exact F|rewrite Nat.pow_succ_r' in K; exact K]].
  clear -R. induction R as [|v i vs l [_ H] _ IH]; [reflexivity|]. cbn. now rewrite H, IH.
Qed.
(** ... but the program feeds in a pointer for each bit: every leaf bit is one, whatever the witness array holds; and the
    digest is not opened, so an accepted session says nothing about it *)
Theorem C64_merkle_witness_refuted : forall cf h depth base witness, bristol_ok cf -> br_n1 cf = 2 * h -> br_n3 cf = h -> 1 <= depth -> base <> 0%N ->
  let c := circuit (merkle_prog cf h depth base witness) in
  inputs_of c = repeat true (2 ^ (depth - 1) * (2 * h)) /\
  (forall other, circuit (merkle_prog cf h depth base other) = c) /\
  session_shows c [true] /\ session_proves c (fun ins outs => length ins = 2 ^ (depth - 1) * (2 * h) /\ outs = [true]) /\
  count_and c = (2 * 2 ^ (depth - 1) - 1) * bristol_ands cf.
Proof.
  intros cf h depth base witness Hok H1 H3 Hd Hb c.
  assert (I : inputs_of c = repeat true (2 ^ (depth - 1) * (2 * h))).
  { unfold c. rewrite merkle_prog_feeds. apply merkle_leaves_true. intros n i. unfold pointer_arg. apply negb_true_iff, N.eqb_neq. clear -Hb. lia. }
  split; [exact I|]. split; [reflexivity|].
  apply (program (merkle_prog cf h depth base witness) (2 ^ (depth - 1) * (2 * h)) _ (fun _ => [true])).
  - intros ins Li. apply merkle_prog_does; try assumption. lia.
  - fold c. rewrite I. apply repeat_length.
Qed.
(** circuit_scalability.cpp: exactly the 100 ANDs per round the program prints; any accepted session opens the constant 0 *)
Theorem C64_circuit_gates : forall rounds a b, length a = 32 -> length b = 32 ->
  let c := circuit (circuit_prog rounds a b) in
  count_and c = 100 * rounds /\ session_shows c [false] /\ session_proves c (fun ins outs => length ins = 64 /\ outs = [false]).
Proof.
  intros rounds a b La Lb c.
  destruct (program (circuit_prog rounds a b) 64 (100 * rounds) (fun _ => [false])) as (P1 & P2 & P3); [|rewrite circuit_feeds, app_length; lia|].
  2: { split; [exact P3|]. split; [exact P1|exact P2]. }
  intros ins Li. now apply circuit_does.
Qed.
(** input_scalability.cpp: the opened bit is the first committed input; the others stay unconstrained *)
Theorem C64_input : forall xs, 1 <= length xs ->
  let c := circuit (input_prog xs) in
  session_shows c [nth 0 xs false] /\ session_proves c (fun ins outs => length ins = length xs /\ outs = [nth 0 ins false]) /\ count_and c = 0.
Proof.
  intros xs L c. pose proof (program (input_prog xs) (length xs) 0 (fun ins => [nth 0 ins false])) as P. rewrite input_feeds in P.
  apply P; [|reflexivity]. intros ins Li. now apply input_does.
Qed.

(** * Cases *)
(** a hash of two bits into one: NAND, then exclusive or with the first *)
Definition demo_hash : bristol := {| br_n1 := 2; br_n3 := 1; br_wires := 5;
  br_gates := [{| g_kind := BAnd; g_in1 := 0; g_in2 := 1; g_out := 2 |}; {| g_kind := BInv; g_in1 := 2; g_in2 := 0; g_out := 3 |}; {| g_kind := BXor; g_in1 := 3; g_in2 := 0; g_out := 4 |}] |}.
Example case_hash_ok : bristol_ok demo_hash /\ bristol_ands demo_hash = 1.
Proof. unfold bristol_ok. cbn. repeat split; try lia. Qed.
Example case_hash_values : map (bristol_fun demo_hash) [[false; false]; [false; true]; [true; false]; [true; true]] = [[true]; [true]; [false]; [true]].
Proof. reflexivity. Qed.
Example case_tree : merkle_root (bristol_fun demo_hash) 2 1 [true; false; true; true] = [true] /\ merkle_root (bristol_fun demo_hash) 2 1 [true; true; true; false] = [false].
Proof. split; reflexivity. Qed.
Definition demo_cot (j : nat) : N := (2 * (N.of_nat j * 987654321987654321 + 13))%N.
Definition demo_seed (k t : nat) : N := (N.of_nat k * 3 + N.of_nat t + 5)%N.
Notation demo_run c := (prv_exec 2 4 demo_cot 2 4 demo_seed c).
(** 2 - 3 modulo 8 *)
Definition demo_example : list gate := circuit (example_prog [false; true; false] [true; true; false]).
Example case_example_runs : exists p, demo_run demo_example = Some p /\ p_outs p = [true; true; true].
Proof. destruct (demo_run demo_example) as [p|] eqn:E; [|vm_compute in E; discriminate E]. exists p. split; [reflexivity|]. vm_compute in E. injection E as <-. reflexivity. Qed.
Notation demo_chain := (circuit (sha_prog demo_hash 2 3 [true; false])).
Example case_chain_runs : exists p, demo_run demo_chain = Some p /\ p_outs p = [true] /\ hash_chain (bristol_fun demo_hash) 1 3 [true; false] = [true].
Proof. destruct (demo_run demo_chain) as [p|] eqn:E; [|vm_compute in E; discriminate E]. exists p. split; [reflexivity|]. vm_compute in E. injection E as <-. split; reflexivity. Qed.
(** three keys under which one transcript of the chain is accepted, with no wrong AND: the hypotheses of [session_proves] *)
Definition demo_eqb (a b : list N) : bool := if list_eq_dec N.eq_dec a b then true else false.
Definition demo_deltas : list N := [2 ^ 127 + 1; 2 ^ 126 + 77; 5]%N.
Example case_chain_accepted : exists p, demo_run demo_chain = Some p /\
  (forall d, In d demo_deltas -> valid_delta d /\
    exists v, ver_exec 2 4 (cot_key demo_cot d) d 2 4 demo_seed (fun i => nth i (p_bits p) false) (fun k => nth k (p_msgs p) (0, 0)%N) demo_chain = Some v /\
      ver_finalize demo_eqb (fun h => h) v (p_hash p) = false) /\
  ~ and_errors_cancel 2 demo_seed (commit demo_cot 4 (fun i => nth i (p_bits p) false) demo_chain) /\
  c_ins (commit demo_cot 4 (fun i => nth i (p_bits p) false) demo_chain) = [true; false].
Proof.
  destruct (demo_run demo_chain) as [p|] eqn:E; [|vm_compute in E; discriminate E]. exists p. split; [reflexivity|]. split; [|split].
  - intros d Hd. assert (V : valid_delta d) by (cbn in Hd; repeat (destruct Hd as [<-|Hd]; [split; [now vm_compute|reflexivity]|]); destruct Hd).
    split; [exact V|].
    destruct (proj1 (C64_sha256 demo_hash 2 3 [true; false] (proj1 case_hash_ok) eq_refl (le_S _ _ (le_n 1)) eq_refl) 2%N 4%N demo_cot 2 4 demo_seed (list N) demo_eqb (fun h => h) p d) as (v & V1 & _ & _ & V2).
    + intro a. unfold demo_eqb. destruct (list_eq_dec N.eq_dec a a); congruence.
    + exact V.
    + exact E.
    + exists v. split; [exact V1|exact V2].
  - vm_compute in E. injection E as <-. intros (k & errs & rs & K & T & _).
    revert K. clear -T. vm_compute. intro K. destruct k as [|[|k]]; try discriminate K; injection K as <-; cbn in T; intuition discriminate.
  - vm_compute in E. injection E as <-. vm_compute. reflexivity.
Qed.
(** one wrong bit in the array changes nothing *)
Example case_pointer : circuit (merkle_prog demo_hash 1 2 4096 [true; false; true; true]) = circuit (merkle_prog demo_hash 1 2 4096 [true; true; true; false]) /\
  plain_outputs (circuit (merkle_prog demo_hash 1 2 4096 [])) = [true].
Proof. split; vm_compute; reflexivity. Qed.
(** five rounds of the AND mill *)
Example case_mill : count_and (circuit (circuit_prog 5 (int_bits 32 305419896) (int_bits 32 2596069104))) = 500.
Proof. vm_compute. reflexivity. Qed.
Example case_words : word_of (plain_outputs demo_example) = 7%N.
Proof. vm_compute. reflexivity. Qed.

Print Assumptions C64_bristol_in_context.
Print Assumptions C64_add_in_context.
Print Assumptions C64_sub_in_context.
Print Assumptions C64_example.
Print Assumptions C64_sha256.
Print Assumptions C64_merkle_root.
Print Assumptions C64_merkle_witness_refuted.
Print Assumptions C64_circuit_gates.
Print Assumptions C64_input.
