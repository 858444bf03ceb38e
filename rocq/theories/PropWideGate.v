(** Property C66: the wide memory at gate level - program, order circuit, packed and compressed labels and set equality
    in one boolean session. *)
From Coq Require Import NArith List Bool Arith Lia Permutation Sorted.
From Verif Require Import Word GF128 BoolModel BoolSpec BoolProofs BoolThms2 F2kModel F2kSpec VoleF2kSpec RamModel RamSpec RamWide RamThms PropRam
  RamGateModel RamGateSpec RamGateProofs RamGateThms RamGateSess WideCountSpec WideGateModel WideGateSpec WideGateProofs WideGateThms WideGateSess.
Import ListNotations.
Ltac Zify.zify_post_hook ::= idtac.

(** the order circuit computes the order of the claimed list and has index_sz + step_sz + 65 nw + 4 AND gates per pair of
    neighbours; it adds wires and reveals nothing *)
Theorem C66_condition : forall index_sz step_sz nw ws l, 1 <= step_sz -> 1 <= nw ->
  Forall (fun m => wires_ok (length ws) index_sz (z_idx m) /\ wires_ok (length ws) step_sz (z_step m) /\
                   words_ok (length ws) nw (z_val m) /\ z_op m < length ws) l ->
  exists gs cond e, b_wcondition l (length ws) = (gs, cond) /\
    (forall outs, plain_eval ws outs gs = (ws ++ e, outs)) /\
    pwire (ws ++ e) cond = ext_order step_sz (map (zentry_at ws) l) /\
    count_and gs = (length l - 1) * (index_sz + step_sz + 65 * nw + 4).
Proof.
  intros n s nw ws l Hs Hn F. destruct (run_wcondition n s nw ws l Hs Hn F) as (e & E & [_ W]).
  pose proof (shape_wcondition n s nw l _ Hs Hn F (length ws)) as [C _]. destruct (b_wcondition l (length ws)) as [gs cond]. exists gs, cond, e. auto.
Qed.
(** the circuit of any program with a check, on any private inputs: the revealed bit is the order of the claimed list; the
    recorded list is the list of accesses numbered in time order, within the ranges of the memory *)
Theorem C66_meaning : forall index_sz step_sz nw os claims post ins,
  index_sz <= 32 -> 1 <= step_sz -> step_sz <= 31 -> 2 <= nw ->
  zcalls_ok index_sz step_sz nw 0 os -> length claims = zcalls os -> Forall (fun e => length (w_val e) = nw) claims ->
  (N.of_nat (zcalls os) <= 2 ^ N.of_nat (step_sz - 1))%N ->
  let bc := z_check index_sz step_sz nw os claims post in
  let W := plain_wires (with_inputs ins bc) in
  let sorted := fst (z_lists index_sz step_sz nw os) in
  let recs := snd (z_lists index_sz step_sz nw os) in
  nth (z_reveal step_sz nw os) (plain_outputs (with_inputs ins bc)) false = ext_order step_sz (map (zentry_at W) sorted) /\
  map (zentry_at W) recs = wnumbered 0 (map (zaccess_at W) recs) /\
  wlog_fits index_sz step_sz nw (wnumbered 0 (map (zaccess_at W) recs)) /\
  length sorted = zcalls os /\ length recs = zcalls os /\
  count_and bc = count_and (z_gates (z_run step_sz nw os)) + (zcalls os - 1) * (index_sz + step_sz + 65 * nw + 4) + count_and post.
Proof.
  intros n s nw os claims post ins Hi Hs Hs31 Hn2 Hc Hl Hw HL bc W sorted recs.
  assert (Hn : 1 <= nw) by (clear - Hn2; lia). destruct (zlog_facts n s nw os claims post Hi Hs Hs31 Hn Hc Hl Hw HL ins) as (A & B & _ & _ & C & D & E).
  split; [exact E|]. split; [exact A|]. split; [exact B|]. split; [exact C|]. split; [exact D|]. exact (zcheck_ands n s nw os claims post Hs Hn Hc Hl Hw).
Qed.
(** whatever the prover sends, if the list it claims is sorted by address: a program in which some read does not return
    the last value written survives as many challenges of the set-equality test as it makes calls only for a fraction of
    n^2 / 2^128 of the compression coefficients *)
Theorem C66_sound_if_sorted : forall index_sz step_sz nw os claims post r0 r1 pM threads csz seeds bitmsg
    D (Deqb : D -> D -> bool) H voleV voleM bM oM fthreads bufsz polysz cs,
  index_sz <= 32 -> 1 <= step_sz -> step_sz <= 31 -> 2 <= nw ->
  zcalls_ok index_sz step_sz nw 0 os -> length claims = zcalls os -> Forall (fun e => length (w_val e) = nw) claims ->
  (N.of_nat (zcalls os) <= 2 ^ N.of_nat (step_sz - 1))%N ->
  (forall a b, Deqb a b = true -> a = b) -> 1 <= fthreads -> 1 <= bufsz ->
  let bc := z_check index_sz step_sz nw os claims post in
  let cm := commit pM csz bitmsg bc in
  let W := plain_wires (with_inputs (c_ins cm) bc) in
  ~ and_errors_cancel threads seeds cm ->
  StronglySorted (fun a b => (w_idx a <= w_idx b)%N) (map (zentry_at W) (fst (z_lists index_sz step_sz nw os))) ->
  ~ wreads_latest (map (zaccess_at W) (snd (z_lists index_sz step_sz nw os))) ->
  NoDup cs -> Forall (blocks ((nw + 2) / 2)) cs ->
  (forall coef, In coef cs -> exists rs, NoDup rs /\ zcalls os <= length rs /\ forall r, In r rs -> (r < 2 ^ 128)%N /\
     wide_passes r0 r1 pM threads csz seeds bitmsg D Deqb H voleV voleM bM oM fthreads bufsz polysz index_sz step_sz nw os claims post coef r) ->
  (N.of_nat (length cs) * 2 ^ 128 <= N.of_nat (zcalls os * zcalls os) * 2 ^ (128 * N.of_nat ((nw + 2) / 2)))%N.
Proof.
  intros n s nw os claims post r0 r1 pM threads csz seeds bitmsg D Deqb H voleV voleM bM oM fthreads bufsz polysz cs A1 A2 A3 A4 A5 A6 A7 A8 B1 B2 B3 bc cm W C1 C2 C3 C4 C5 C6.
  assert (A4' : 1 <= nw) by (clear - A4; lia). exact (zcheck_sound n s nw os claims post A1 A2 A3 A4' A5 A6 A7 A8 r0 r1 pM threads csz seeds bitmsg D Deqb H voleV voleM bM oM fthreads bufsz polysz cs B1 B2 B3 C1 C2 C3 C4 C5 C6).
Qed.
(** honest parties: every program whose reads return what was last written is accepted, under every key, for all
    compression coefficients and challenges *)
Theorem C66_complete : forall index_sz step_sz nw os claims post r0 r1 pM threads csz seeds
    D (Deqb : D -> D -> bool) H p d voleV voleM bM oM fthreads bufsz polysz fseeds pseeds coef r junkp junkv g1 g2 g3 g4 h1 h2,
  index_sz <= 32 -> 1 <= step_sz -> step_sz <= 31 -> 2 <= nw -> zcalls_ok index_sz step_sz nw 0 os ->
  (N.of_nat (zcalls os) <= 2 ^ N.of_nat (step_sz - 1))%N -> 3 <= zcalls os ->
  let log := map (zaccess_at (plain_wires (z_gates (z_run step_sz nw os)))) (snd (z_lists index_sz step_sz nw os)) in
  wreads_latest log -> wwritten_first log ->
  Permutation claims (wnumbered 0 log) -> Sorted N.le (map (fun e => hd 0%N (wide_row e)) claims) ->
  (forall a, Deqb a a = true) -> valid_delta d ->
  prv_exec r0 r1 pM threads csz seeds (z_check index_sz step_sz nw os claims post) = Some p ->
  1 <= fthreads -> fthreads <= bufsz -> 6 <= bufsz -> (r < 2 ^ 128)%N -> (forall r i, (junkv r i < 2 ^ 128)%N) ->
  (zcalls os mod 4 = 1 \/ fthreads <= 2 * ((zcalls os - 1) mod 4)) ->
  wide_accepted r0 r1 pM threads csz seeds D Deqb H voleV voleM bM oM fthreads bufsz polysz fseeds pseeds junkp junkv g1 g2 g3 g4 h1 h2
    index_sz step_sz nw os claims post coef r p d.
Proof.
  intros n s nw os claims post r0 r1 pM threads csz seeds D Deqb H p d voleV voleM bM oM fthreads bufsz polysz fseeds pseeds coef r junkp junkv g1 g2 g3 g4 h1 h2
    A1 A2 A3 A4 A5 A6 A7 log RL WF PC SC B1 B2 B3 B4 B5 B6 B7 B8 B9.
  assert (A4' : 1 <= nw) by (clear - A4; lia). destruct (log_of_claims n s nw os claims A1 A2 A3 A4' A5 A6 PC) as (L & Fw & FC & LF).
  apply (zcheck_accepts n s nw os claims post A1 A2 A3 A4' A5 L Fw A6); auto.
  exact (C35_honest_passes n s nw log claims LF RL WF PC SC).
Qed.
(** but nothing makes the prover sort: whatever the reads returned, a list of the recorded accesses in which no address
    follows itself is accepted, under every key, for all compression coefficients and challenges *)
Theorem C66_unsorted_refuted : forall index_sz step_sz nw os claims,
  index_sz <= 32 -> 1 <= step_sz -> step_sz <= 31 -> 2 <= nw -> zcalls_ok index_sz step_sz nw 0 os ->
  (N.of_nat (zcalls os) <= 2 ^ N.of_nat (step_sz - 1))%N -> 3 <= zcalls os ->
  let log := map (zaccess_at (plain_wires (z_gates (z_run step_sz nw os)))) (snd (z_lists index_sz step_sz nw os)) in
  Permutation claims (wnumbered 0 log) -> (forall l1 a b l2, claims = l1 ++ a :: b :: l2 -> w_idx a <> w_idx b) ->
  forall post r0 r1 pM threads csz seeds D (Deqb : D -> D -> bool) H p d voleV voleM bM oM fthreads bufsz polysz fseeds pseeds coef r junkp junkv g1 g2 g3 g4 h1 h2,
    (forall a, Deqb a a = true) -> valid_delta d ->
    prv_exec r0 r1 pM threads csz seeds (z_check index_sz step_sz nw os claims post) = Some p ->
    1 <= fthreads -> fthreads <= bufsz -> 6 <= bufsz -> (r < 2 ^ 128)%N -> (forall r i, (junkv r i < 2 ^ 128)%N) ->
    (zcalls os mod 4 = 1 \/ fthreads <= 2 * ((zcalls os - 1) mod 4)) ->
    wide_accepted r0 r1 pM threads csz seeds D Deqb H voleV voleM bM oM fthreads bufsz polysz fseeds pseeds junkp junkv g1 g2 g3 g4 h1 h2
      index_sz step_sz nw os claims post coef r p d.
Proof.
  intros n s nw os claims A1 A2 A3 A4 A5 A6 A7 log PC NA
    post r0 r1 pM threads csz seeds D Deqb H p d voleV voleM bM oM fthreads bufsz polysz fseeds pseeds coef r junkp junkv g1 g2 g3 g4 h1 h2 B1 B2 B3 B4 B5 B6 B7 B8 B9.
  assert (A4' : 1 <= nw) by (clear - A4; lia). destruct (log_of_claims n s nw os claims A1 A2 A3 A4' A5 A6 PC) as (L & Fw & FC & LF).
  apply (zcheck_accepts n s nw os claims post A1 A2 A3 A4' A5 L Fw A6); auto.
  apply ext_order_alternating. exact NA.
Qed.
(** in particular the log itself, in time order, if no two calls in a row use the same address *)
Theorem C66_alternating_refuted : forall index_sz step_sz nw os,
  index_sz <= 32 -> 1 <= step_sz -> step_sz <= 31 -> 2 <= nw -> zcalls_ok index_sz step_sz nw 0 os ->
  (N.of_nat (zcalls os) <= 2 ^ N.of_nat (step_sz - 1))%N -> 3 <= zcalls os ->
  let log := map (zaccess_at (plain_wires (z_gates (z_run step_sz nw os)))) (snd (z_lists index_sz step_sz nw os)) in
  (forall m1 a b m2, log = m1 ++ a :: b :: m2 -> b_addr a <> b_addr b) ->
  forall post r0 r1 pM threads csz seeds D (Deqb : D -> D -> bool) H p d voleV voleM bM oM fthreads bufsz polysz fseeds pseeds coef r junkp junkv g1 g2 g3 g4 h1 h2,
    (forall a, Deqb a a = true) -> valid_delta d ->
    prv_exec r0 r1 pM threads csz seeds (z_check index_sz step_sz nw os (wnumbered 0 log) post) = Some p ->
    1 <= fthreads -> fthreads <= bufsz -> 6 <= bufsz -> (r < 2 ^ 128)%N -> (forall r i, (junkv r i < 2 ^ 128)%N) ->
    (zcalls os mod 4 = 1 \/ fthreads <= 2 * ((zcalls os - 1) mod 4)) ->
    wide_accepted r0 r1 pM threads csz seeds D Deqb H voleV voleM bM oM fthreads bufsz polysz fseeds pseeds junkp junkv g1 g2 g3 g4 h1 h2
      index_sz step_sz nw os (wnumbered 0 log) post coef r p d.
Proof.
  intros n s nw os A1 A2 A3 A4 A5 A6 A7 log NA. apply (C66_unsorted_refuted n s nw os (wnumbered 0 log) A1 A2 A3 A4 A5 A6 A7).
  - apply Permutation_refl.
  - intros l1 a b l2 E Ei. apply (f_equal (map werase)) in E. rewrite wnumbered_erase, map_app in E. cbn [map] in E. exact (NA _ _ _ _ E Ei).
Qed.

(** so every program in which no address makes more than half of the accesses (rounded up) has a claim that is accepted,
    whatever its reads returned *)
Theorem C66_balanced_refuted : forall index_sz step_sz nw os,
  index_sz <= 32 -> 1 <= step_sz -> step_sz <= 31 -> 2 <= nw -> zcalls_ok index_sz step_sz nw 0 os ->
  (N.of_nat (zcalls os) <= 2 ^ N.of_nat (step_sz - 1))%N -> 3 <= zcalls os ->
  let log := map (zaccess_at (plain_wires (z_gates (z_run step_sz nw os)))) (snd (z_lists index_sz step_sz nw os)) in
  (forall k, length (filter (fun x => N.eqb (b_addr x) k) log) <= (length log + 1) / 2) ->
  exists claims, Permutation claims (wnumbered 0 log) /\
  forall post r0 r1 pM threads csz seeds D (Deqb : D -> D -> bool) H p d voleV voleM bM oM fthreads bufsz polysz fseeds pseeds coef r junkp junkv g1 g2 g3 g4 h1 h2,
    (forall a, Deqb a a = true) -> valid_delta d ->
    prv_exec r0 r1 pM threads csz seeds (z_check index_sz step_sz nw os claims post) = Some p ->
    1 <= fthreads -> fthreads <= bufsz -> 6 <= bufsz -> (r < 2 ^ 128)%N -> (forall r i, (junkv r i < 2 ^ 128)%N) ->
    (zcalls os mod 4 = 1 \/ fthreads <= 2 * ((zcalls os - 1) mod 4)) ->
    wide_accepted r0 r1 pM threads csz seeds D Deqb H voleV voleM bM oM fthreads bufsz polysz fseeds pseeds junkp junkv g1 g2 g3 g4 h1 h2
      index_sz step_sz nw os claims post coef r p d.
Proof.
  intros n s nw os A1 A2 A3 A4 A5 A6 A7 log NA. destruct (spread w_idx (wnumbered 0 log)) as (claims & P & N).
  - intro k. rewrite <- (wnumbered_erase log 0), map_length in NA. eapply Nat.le_trans; [|exact (NA k)].
    apply Nat.eq_le_incl. unfold carries. generalize (wnumbered 0 log). intro l. induction l as [|e l IH]; [reflexivity|]. cbn [map filter].
    change (b_addr (werase e)) with (w_idx e). destruct (N.eqb (w_idx e) k); cbn [length]; now rewrite IH.
  - exists claims. split; [exact P|]. exact (C66_unsorted_refuted n s nw os claims A1 A2 A3 A4 A5 A6 A7 P N).
Qed.

(** a memory of two cells of two words: writes of (1, 2) to cell 0 and of (3, 4) to cell 1, then a read of cell 0 that returns v.
    Wires 0-255: the constants 1, 2, 3, 4; 256, 257: the addresses 0, 1 *)
Definition wg_ops (v : list N) : list zop :=
  [ZGates (map GPub (flat_map (fun k => int_bits 64 k) [1; 2; 3; 4]%N ++ [false; true]));
   ZWrite [256] [seq 0 64; seq 64 64]; ZWrite [257] [seq 128 64; seq 192 64]; ZRead [256] v].
Notation wg_log v := (map (zaccess_at (plain_wires (z_gates (z_run 3 2 (wg_ops v))))) (snd (z_lists 1 3 2 (wg_ops v)))).
Definition wg_claims : list wentry :=
  [{| w_idx := 0; w_step := 0; w_op := true; w_val := [1; 2] |};
   {| w_idx := 0; w_step := 2; w_op := false; w_val := [1; 2] |};
   {| w_idx := 1; w_step := 1; w_op := true; w_val := [3; 4] |}]%N.
Example C66_log : forall v, v = [1; 2]%N \/ v = [7; 7]%N ->
  wg_log v = [{| b_addr := 0; b_write := true; b_val := [1; 2] |}; {| b_addr := 1; b_write := true; b_val := [3; 4] |};
    {| b_addr := 0; b_write := false; b_val := v |}]%N.
Proof. intros v [-> | ->]; vm_compute; reflexivity. Qed.
Example C66_ops_ok : forall v, length v = 2 ->
  zcalls_ok 1 3 2 0 (wg_ops v) /\ zcalls (wg_ops v) = 3 /\ (N.of_nat (zcalls (wg_ops v)) <= 2 ^ N.of_nat (3 - 1))%N.
Proof.
  intros v Hv. split; [|split; [reflexivity|now vm_compute]].
  assert (S64 : forall b, b + 64 <= 258 -> forall n, 258 <= n -> wires_ok n 64 (seq b 64)).
  { intros b Hb n Hn. split; [apply seq_length|]. apply Forall_forall. intros i Hi. apply in_seq in Hi. lia. }
  assert (S1 : forall b, b < 258 -> forall n, 258 <= n -> wires_ok n 1 [b]).
  { intros b Hb n Hn. split; [reflexivity|]. repeat constructor. lia. }
  unfold wg_ops. cbn [zcalls_ok]. change (0 + nwires _) with 258.
  split; [apply S1; lia|]. split; [split; [reflexivity|apply Forall_cons; [apply S64; lia|apply Forall_cons; [apply S64; lia|apply Forall_nil]]]|].
  split; [apply S1; lia|]. split; [split; [reflexivity|apply Forall_cons; [apply S64; lia|apply Forall_cons; [apply S64; lia|apply Forall_nil]]]|].
  split; [apply S1; lia|]. split; [exact Hv|exact I].
Qed.
(** 276 AND gates for three accesses; the order bit of the honest claim is 1, and 0 with the time order reversed *)
Example C66_demo : count_and (z_check 1 3 2 (wg_ops [1; 2]%N) wg_claims []) = 276 /\
  nth (z_reveal 3 2 (wg_ops [1; 2]%N)) (plain_outputs (z_check 1 3 2 (wg_ops [1; 2]%N) wg_claims [])) false = true /\
  nth (z_reveal 3 2 (wg_ops [1; 2]%N)) (plain_outputs (z_check 1 3 2 (wg_ops [1; 2]%N) (rev wg_claims) [])) true = false.
Proof. vm_compute. auto. Qed.
Example C66_honest : wreads_latest (wg_log [1; 2]%N) /\ wwritten_first (wg_log [1; 2]%N) /\ Permutation wg_claims (wnumbered 0 (wg_log [1; 2]%N)) /\
  Sorted N.le (map (fun e => hd 0%N (wide_row e)) wg_claims).
Proof.
  rewrite C66_log by auto. split; [|split; [|split]].
  - intros pre a post E Hw x LW. destruct pre as [|p0 [|p1 [|p2 pre]]]; cbn [app] in E; injection E as; subst; try discriminate.
    + cbn in LW. injection LW as; subst. reflexivity.
    + destruct pre; discriminate.
  - intros pre a post E Hw. destruct pre as [|p0 [|p1 [|p2 pre]]]; cbn [app] in E; injection E as; subst; try discriminate.
    destruct pre; discriminate.
  - vm_compute. repeat constructor.
  - vm_compute. repeat constructor; discriminate.
Qed.
(** hypotheses of C66_alternating_refuted, with a read that returns (7, 7) *)
Example C66_wrong_read : ~ wreads_latest (wg_log [7; 7]%N) /\
  (forall m1 a b m2, wg_log [7; 7]%N = m1 ++ a :: b :: m2 -> b_addr a <> b_addr b).
Proof.
  rewrite C66_log by auto. split.
  - intro R. specialize (R [{| b_addr := 0; b_write := true; b_val := [1; 2] |}; {| b_addr := 1; b_write := true; b_val := [3; 4] |}]%N
      {| b_addr := 0; b_write := false; b_val := [7; 7] |}%N [] eq_refl eq_refl [1; 2]%N eq_refl). discriminate R.
  - intros m1 a b m2 E. destruct m1 as [|p0 [|p1 m1]]; cbn [app] in E; injection E as; subst; try discriminate.
    destruct m1 as [|? [|? ?]]; discriminate.
Qed.
(** hypothesis of C66_balanced_refuted: at most two of the three accesses have the same address *)
Example C66_balanced : forall k, length (filter (fun x => N.eqb (b_addr x) k) (wg_log [7; 7]%N)) <= (length (wg_log [7; 7]%N) + 1) / 2.
Proof. intro k. rewrite C66_log by auto. cbn. destruct k as [|[k|k|]]; cbn; lia. Qed.
Definition wg_cot (i : nat) : N := (2 * (N.of_nat i * 987654321987654321 + 13))%N.
Definition wg_vole (a r i : nat) : N := (N.of_nat a * 123456789 + N.of_nat r * 1000 + N.of_nat i)%N.
Definition wg_seed (k t : nat) : N := (N.of_nat k * 3 + N.of_nat t + 5)%N.
Definition wg_eqb (a b : list N) : bool := if list_eq_dec N.eq_dec a b then true else false.
Definition wg_deltas : list N := [2 ^ 127 + 1; 2 ^ 126 + 77; 5; 2 ^ 64 + 7; 9; 11]%N.
Definition wg_coef : list N := [2 ^ 100 + 3; 2 ^ 90 + 5]%N.
Notation wg_prv v cl := (prv_exec 2 4 wg_cot 1 300 wg_seed (z_check 1 3 2 (wg_ops v) cl [])).
Notation wg_acc v cl p d := (wide_accepted 2 4 wg_cot 1 300 wg_seed (list N) wg_eqb (fun h => h) (wg_vole 1) (wg_vole 2) wg_cot wg_cot 1 6 6 wg_seed (fun k => wg_seed k 0)
    (fun _ _ => (0, 0)%N) (fun _ _ => 0%N) (fun _ => 0%N) (fun _ => 0%N) (fun _ => 0%N) (fun _ => 0%N) (fun _ => 0%N) (fun _ => 0%N)
    1 3 2 (wg_ops v) cl [] wg_coef 11 p d).
Lemma wg_run v cl : v = [1; 2]%N \/ v = [7; 7]%N -> length cl = 3 -> Forall (fun e => length (w_val e) = 2) cl -> exists p, wg_prv v cl = Some p.
Proof.
  intros Hc Hl Hw. assert (Hv : length v = 2) by (destruct Hc as [-> | ->]; reflexivity). apply exec_defined; [lia|lia|]. destruct (C66_ops_ok v Hv) as (A & B & _).
  rewrite (zcheck_ands 1 3 2 (wg_ops v) cl []); [|lia|lia|exact A|now rewrite B|exact Hw].
  right. rewrite B. assert (Z : count_and (z_gates (z_run 3 2 (wg_ops v))) = 0) by (clear - Hc; destruct Hc as [-> | ->]; vm_compute; reflexivity).
  rewrite Z. vm_compute. apply le_n_S, Nat.le_0_l.
Qed.
Lemma wg_valid d : In d wg_deltas -> valid_delta d.
Proof. intro Hd. cbn in Hd. repeat (destruct Hd as [<-|Hd]; [split; [now vm_compute|reflexivity]|]). destruct Hd. Qed.
Lemma wg_eqb_refl a : wg_eqb a a = true. Proof. unfold wg_eqb. destruct (list_eq_dec N.eq_dec a a); congruence. Qed.
(** six keys, all accepted with the same transcript: the hypotheses of C66_complete are met *)
Example C66_accepted : forall p d, wg_prv [1; 2]%N wg_claims = Some p -> In d wg_deltas -> valid_delta d /\ wg_acc [1; 2]%N wg_claims p d.
Proof.
  intros p d Hp Hd. destruct (C66_ops_ok [1; 2]%N eq_refl) as (A & B & C). destruct C66_honest as (H1 & H2 & H3 & H4).
  split; [exact (wg_valid d Hd)|]. apply C66_complete.
  - clear; lia.
  - clear; lia.
  - clear; lia.
  - clear; lia.
  - exact A.
  - exact C.
  - rewrite B. clear; lia.
  - exact H1.
  - exact H2.
  - exact H3.
  - exact H4.
  - exact wg_eqb_refl.
  - exact (wg_valid d Hd).
  - exact Hp.
  - clear; lia.
  - clear; lia.
  - clear; lia.
  - reflexivity.
  - intros _ _. reflexivity.
  - right. rewrite B. cbn. clear; lia.
Qed.
(** the wrong read is accepted under the same keys *)
Example C66_wrong_accepted : forall p d, wg_prv [7; 7]%N (wnumbered 0 (wg_log [7; 7]%N)) = Some p -> In d wg_deltas ->
  wg_acc [7; 7]%N (wnumbered 0 (wg_log [7; 7]%N)) p d.
Proof.
  intros p d Hp Hd. destruct (C66_ops_ok [7; 7]%N eq_refl) as (A & B & C).
  apply (C66_alternating_refuted 1 3 2 (wg_ops [7; 7]%N)).
  - clear; lia.
  - clear; lia.
  - clear; lia.
  - clear; lia.
  - exact A.
  - exact C.
  - rewrite B. clear; lia.
  - exact (proj2 C66_wrong_read).
  - exact wg_eqb_refl.
  - exact (wg_valid d Hd).
  - exact Hp.
  - clear; lia.
  - clear; lia.
  - clear; lia.
  - reflexivity.
  - intros _ _. reflexivity.
  - right. rewrite B. cbn. clear; lia.
Qed.
(** [wide_passes] holds for the honest claim *)
Notation wg_bits := (match wg_prv [1; 2]%N wg_claims with Some p => p_bits p | None => [] end).
Definition wg_fp (p : pst) (c : list fgate) :=
  fp_exec (fun i => (nth i (map (fun e => compress wg_coef (wide_row e)) (wg_claims ++ wnumbered 0 (wg_log [1; 2]%N))) 0%N, z_macs 1 3 2 wg_coef (p_wires p) (wg_ops [1; 2]%N) i))
    (wg_vole 1) (wg_vole 2) wg_cot wg_cot 1 6 6 wg_seed (fun k => wg_seed k 0) (fun _ _ => (0, 0)%N) (fun _ => 0%N) (fun _ => 0%N) (fun _ => 0%N) (fun _ => 0%N) c.
Definition wg_fcm (cm : cst) (p : pst) (c : list fgate) : fcst :=
  let fp := wg_fp p c in let corr := fp_corr fp in let bits := fp_bits fp in
  let vals := map (fun m => compress wg_coef (wide_row (zentry_at (c_wires cm) m))) (fst (z_lists 1 3 2 (wg_ops [1; 2]%N)) ++ snd (z_lists 1 3 2 (wg_ops [1; 2]%N))) in
  fcommit (fun i => nth i vals 0%N)
    (wg_vole 1) wg_cot 6 6 (fun i => nth i corr 0%N) (fun i => nth i bits false) c.
Definition wg_clean (p : pst) (c : list fgate) (cm : cst) : bool :=
  forallb (fun m => N.ltb (F2kModel.r0 m) (2 ^ 128)) (fp_pmsgs (wg_fp p c)) &&
  forallb (forallb (N.eqb 0)) (fbatches (wg_fcm cm p c)) && forallb (forallb (fun e => N.eqb 0 (snd e))) (pbatches (wg_fcm cm p c)).
Lemma wg_clean_ok : match wg_prv [1; 2]%N wg_claims, seteq_circuit false (zcalls (wg_ops [1; 2]%N)) 11 with
  | Some p, Some (c, _, _) => wg_clean p c (let bits := p_bits p in commit wg_cot 300 (fun i => nth i bits false) (z_check 1 3 2 (wg_ops [1; 2]%N) wg_claims []))
  | _, _ => false
  end = true.
Proof. vm_compute. reflexivity. Qed.
Example C66_passes : wide_passes 2 4 wg_cot 1 300 wg_seed (fun i => nth i wg_bits false) (list N) wg_eqb (fun h => h) (wg_vole 1) (wg_vole 2) wg_cot wg_cot 1 6 6
  1 3 2 (wg_ops [1; 2]%N) wg_claims [] wg_coef 11.
Proof.
  destruct (wg_run [1; 2]%N wg_claims) as (p & Hp); [now left|reflexivity|repeat constructor|].
  pose proof (fun d => C66_accepted p d Hp) as A. pose proof wg_clean_ok as G.
  destruct (seteq_circuit false (zcalls (wg_ops [1; 2]%N)) 11) as [[[c a0] a1]|] eqn:Ec; [|rewrite Hp in G; discriminate].
  rewrite Hp in *. unfold wg_clean in G. apply andb_prop in G. destruct G as [G G3]. apply andb_prop in G. destruct G as [G1 G2].
  rewrite forallb_forall in G1, G2, G3.
  unfold wide_passes. exists (fun k => nth k (p_msgs p) (0, 0)%N), (p_hash p), wg_seed, (fun k => wg_seed k 0), (fun _ _ => 0%N),
    (fun i => nth i (fp_corr (wg_fp p c)) 0%N), (fun i => nth i (fp_bits (wg_fp p c)) false), (fun k => nth k (fp_msgs (wg_fp p c)) (0, 0)%N),
    (fun k => nth k (fp_pmsgs (wg_fp p c)) (0, 0, 0, 0, 0)%N), (fun _ => 0%N), (fun _ => 0%N), (seteq_msg (fp_w (wg_fp p c)) a0 a1), wg_deltas, c, a0, a1.
  split; [exact Ec|]. split.
  { intro k. destruct (nth_in_or_default k (fp_pmsgs (wg_fp p c)) (0, 0, 0, 0, 0)%N) as [I|E]; [|rewrite E; reflexivity].
    apply N.ltb_lt. exact (G1 _ I). }
  split; [repeat constructor; cbn; intuition discriminate|]. split; [cbn; lia|]. split; [|split; [auto|]].
  - intros d Hd. destruct (A d Hd) as [V (v & c' & b0 & b1 & E1 & E2 & E3 & E4 & w & E5 & E6 & _ & E7)]. split; [exact V|].
    assert (Q : Some (c', b0, b1) = Some (c, a0, a1)) by (rewrite <- Ec; symmetry; exact E4). injection Q as -> -> ->.
    exists v, w. split; [exact E1|]. split; [exact E2|]. split; [exact E3|]. split; [exact E5|]. split; [exact E6|exact E7].
  - split.
    + intros (k & es & E & (e & Ie & Ne) & _). apply nth_error_In in E. pose proof (G2 _ E) as G. rewrite forallb_forall in G.
      apply Ne. symmetry. apply N.eqb_eq. exact (G e Ie).
    + intros (k & es & E & (e & Ie & _ & Ne) & _). apply nth_error_In in E. pose proof (G3 _ E) as G. rewrite forallb_forall in G.
      apply Ne. symmetry. apply N.eqb_eq. exact (G e Ie).
Qed.
Print Assumptions C66_condition.
Print Assumptions C66_meaning.
Print Assumptions C66_sound_if_sorted.
Print Assumptions C66_complete.
Print Assumptions C66_unsorted_refuted.
Print Assumptions C66_alternating_refuted.
Print Assumptions C66_balanced_refuted.
