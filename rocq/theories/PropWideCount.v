(** Property C35, counted: compression of the rows of the wide memory, and its check for a prover that sorts. *)
From Coq Require Import NArith List Bool Arith Permutation Sorted Lia.
From Verif Require Import ListUtil GF128 BoolSpec F2kModel F2kSpec VoleF2kSpec RamModel RamSpec RamWide RamThms WideCountSpec WideCount PropRam.
Import ListNotations.
Ltac Zify.zify_post_hook ::= idtac.

(** lists of rows that are not rearrangements of each other compress to rearranged lists for a fraction of at most
    |A| |B| / 2^128 of the coefficient vectors (zk-mem-ext.h:259-272 draws them from a hash of the transcript) *)
Theorem C35_compression_counted : forall m A B cs,
  Forall (blocks m) A -> Forall (blocks m) B -> ~ Permutation A B -> NoDup cs -> Forall (blocks m) cs ->
  (forall c, In c cs -> Permutation (map (compress c) A) (map (compress c) B)) ->
  (N.of_nat (length cs) * 2 ^ 128 <= N.of_nat (length A * length B) * 2 ^ (128 * N.of_nat m))%N.
Proof. exact compression_count. Qed.

(** a prover that keeps the records sorted by address, but whose reads are wrong: for all but a fraction of n^2 / 2^128 of the
    coefficient vectors fewer than n challenges survive, whatever it commits to and sends *)
Theorem C35_session_if_sorted : forall index_sz step_sz nw log l threads bufsz polysz cs,
  1 <= threads -> 1 <= bufsz -> wlog_fits index_sz step_sz nw (wnumbered 0 log) ->
  Forall wide_fits l -> Forall (fun e => length (w_val e) = nw) l -> length l = length log -> (N.of_nat (length l) < 2 ^ 64)%N ->
  StronglySorted (fun a b => (w_idx a <= w_idx b)%N) l -> ext_order step_sz l = true -> ~ wreads_latest log ->
  let n := length l in
  NoDup cs -> Forall (blocks ((nw + 2) / 2)) cs ->
  (forall c, In c cs -> exists ext voleV voleM bM oM rs,
     map (fun i => fst (ext i)) (seq 0 n) = map (fun e => compress c (wide_row e)) l /\
     map (fun i => fst (ext i)) (seq n n) = map (fun e => compress c (wide_row e)) (wnumbered 0 log) /\
     NoDup rs /\ n <= length rs /\
     forall r, In r rs -> (r < 2 ^ 128)%N /\ seteq_passes ext voleV voleM bM oM threads bufsz polysz false n r) ->
  (N.of_nat (length cs) * 2 ^ 128 <= N.of_nat (n * n) * 2 ^ (128 * N.of_nat ((nw + 2) / 2)))%N.
Proof.
  intros ix st nw log l threads bufsz polysz cs Ht Hb HF Fl Fn Ll L64 SS O NL n ND FC H.
  assert (Fr : Forall wide_fits (wnumbered 0 log) /\ Forall (fun e => length (w_val e) = nw) (wnumbered 0 log)).
  { destruct HF as (Hx & Hs & HF). rewrite !Forall_forall in *. split; intros e He; destruct (HF e He) as (K1 & K2 & K3 & K4 & K5); [|exact K5].
    split; [eapply N.lt_le_trans; [exact K1|]; change (2 ^ 32)%N with (2 ^ N.of_nat 32)%N; apply N.pow_le_mono_r; lia|].
    split; [eapply N.lt_le_trans; [exact K2|]; change (2 ^ 31)%N with (2 ^ N.of_nat 31)%N; apply N.pow_le_mono_r; lia|]. now split. }
  destruct Fr as [Fr1 Fr2].
  assert (Blk : forall L, Forall wide_fits L -> Forall (fun e => length (w_val e) = nw) L -> Forall (blocks ((nw + 2) / 2)) (map wide_row L)).
  { intros L F1 F2. rewrite Forall_forall in *. intros r Hr. apply in_map_iff in Hr. destruct Hr as (e & <- & He). apply wide_row_blocks; auto. }
  assert (Le : length (map wide_row l) * length (map wide_row (wnumbered 0 log)) = n * n).
  { rewrite !map_length. unfold wnumbered. rewrite map_length, combine_length, seq_length. unfold n. rewrite Ll. f_equal. lia. }
  rewrite <- Le. apply compression_count; auto.
  - intro P. apply NL. exact (C35_consistency_if_sorted ix st nw log l HF Fl Fn P SS O).
  - intros c Hc. destruct (H c Hc) as (ext & voleV & voleM & bM & oM & rs & E1 & E2 & NDr & Lr & Hr). rewrite !map_map.
    destruct (perm_em (map (fun e => compress c (wide_row e)) l) (map (fun e => compress c (wide_row e)) (wnumbered 0 log))) as [P|NP]; [exact P|]. exfalso.
    assert (length rs < n); [|lia]. apply (seteq_challenges ext voleV voleM bM oM threads bufsz polysz false n rs Ht Hb L64); auto; [|now rewrite E1, E2].
    intros i Hi. destruct (le_lt_dec n i) as [G|G].
    + assert (Hin : In (fst (ext i)) (map (fun i => fst (ext i)) (seq n n))) by (apply in_map_iff; exists i; split; [reflexivity|apply in_seq; lia]).
      rewrite E2 in Hin. apply in_map_iff in Hin. destruct Hin as (e & <- & _). apply compress_lt.
    + assert (Hin : In (fst (ext i)) (map (fun i => fst (ext i)) (seq 0 n))) by (apply in_map_iff; exists i; split; [reflexivity|apply in_seq; lia]).
      rewrite E1 in Hin. apply in_map_iff in Hin. destruct Hin as (e & <- & _). apply compress_lt.
Qed.

(** ** Concrete cases *)
(** two rows of two blocks: the vector [0; c] compresses both to the same element, [1; c] does not *)
Example C35_count_ex : compress [0; 5]%N [1; 9]%N = compress [0; 5]%N [2; 9]%N /\ compress [1; 5]%N [1; 9]%N <> compress [1; 5]%N [2; 9]%N /\
  blocks 2 [1; 9]%N /\ ~ Permutation [[1; 9]]%N [[2; 9]]%N.
Proof.
  split; [reflexivity|]. split; [vm_compute; discriminate|]. split; [split; [reflexivity|repeat constructor]|]. intro P. apply Permutation_length_1 in P. discriminate.
Qed.
(** a stale read, and a sorted list of other records that passes the order check *)
Definition wide_lie : list wacc := [{| b_addr := 0; b_write := true; b_val := [1; 2] |}; {| b_addr := 0; b_write := true; b_val := [3; 4] |}; {| b_addr := 0; b_write := false; b_val := [1; 2] |}]%N.
Definition wide_claim : list wentry := [{| w_idx := 0; w_step := 0; w_op := true; w_val := [1; 2] |}; {| w_idx := 0; w_step := 1; w_op := true; w_val := [1; 2] |}; {| w_idx := 0; w_step := 2; w_op := false; w_val := [1; 2] |}]%N.
Example C35_session_ex : wlog_fits 1 5 2 (wnumbered 0 wide_lie) /\ Forall wide_fits wide_claim /\ length wide_claim = length wide_lie /\
  StronglySorted (fun a b => (w_idx a <= w_idx b)%N) wide_claim /\ ext_order 5 wide_claim = true /\ ~ wreads_latest wide_lie.
Proof.
  split; [split; [lia|]; split; [lia|]; repeat constructor; discriminate|]. split; [repeat constructor; discriminate|]. split; [reflexivity|].
  split; [repeat constructor; cbn; lia|]. split; [reflexivity|]. intro H.
  specialize (H (firstn 2 wide_lie) {| b_addr := 0; b_write := false; b_val := [1; 2] |}%N [] eq_refl eq_refl [3; 4]%N eq_refl). discriminate.
Qed.

Print Assumptions C35_compression_counted.
Print Assumptions C35_session_if_sorted.
