(** Statements that pin down further parts of properties C16, C33, C35, C37 and C38. *)
From Coq Require Import NArith List Bool Arith Permutation Lia.
From Verif Require Import BoolModel BoolSpec BoolIOModel BoolIOProofs BoolIOThms BoolIOThms2 RamModel RamSpec RamThms RamLife LowMcModel LowMcSpec LowMcThms.
From Verif Require Import TightSpec TightProofs PropBoolIO PropRam PropLowMc.
Import ListNotations.
Ltac Zify.zify_post_hook ::= idtac.

(** ** C16: what the hash object covers, with and without the reset in get_hash_block *)
(** two complete runs of one schedule, with the reset and without: the same bytes are absorbed; with the reset every challenge covers
    the bytes since the last challenge, without it all bytes from the start *)
Theorem C16_reset_only_splits : forall bmi2_s bmi2_r bmi2_s' bmi2_r' NB gs gr gr' os c c', 1 <= NB -> length gs = NB ->
  ksteps bmi2_s bmi2_r true NB (k_init NB gs gr os) c -> k_done c ->
  ksteps bmi2_s' bmi2_r' false NB (k_init NB gs gr' os) c' -> k_done c' ->
  e_hash (k_s c') = concat (e_digests (k_s c)) ++ e_hash (k_s c) /\
  e_digests (k_s c') = prefixes (e_digests (k_s c)).
Proof.
  intros * H1 H2 S1 D1 S2 D2. rewrite (final_sender _ _ _ _ _ _ _ _ S1 D1 H1 H2), (final_sender _ _ _ _ _ _ _ _ S2 D2 H1 H2).
  rewrite (platform_sq bmi2_s' bmi2_s).
  destruct (alike_run bmi2_s NB (compile (os ++ [OFlush])) _ _ (alike_init NB gs true)) as [_ (_ & _ & A & B)]. now split.
Qed.

(** ** C33: a wrong read that passes the set-equality test stops the verifier *)
Theorem C33_wrong_read_stops : forall index_sz val_sz mem reads l,
  (N.of_nat (length mem) <= 2 ^ N.of_nat index_sz)%N -> Forall (fun x => (x < 2 ^ N.of_nat val_sz)%N) mem ->
  Forall (ro_fits index_sz val_sz) reads -> Forall (ro_fits index_sz val_sz) l ->
  Permutation (map (ro_word index_sz val_sz) l) (map (ro_word index_sz val_sz) (ro_records mem reads)) ->
  ~ ro_consistent mem reads -> stop_verdict (ro_order index_sz l) true = Stopped.
Proof.
  intros * H1 H2 H3 H4 H5 H6. unfold stop_verdict. destruct (ro_order index_sz l) eqn:E; [|reflexivity].
  exfalso. apply H6. exact (C33_consistency _ _ _ _ _ H1 H2 H3 H4 E H5).
Qed.
(** correct reads with an honestly sorted list pass *)
Theorem C33_right_reads_pass : forall index_sz val_sz mem reads l,
  (N.of_nat (length mem) <= 2 ^ N.of_nat index_sz)%N -> Forall (fun x => (x < 2 ^ N.of_nat val_sz)%N) mem ->
  ro_in_memory mem reads -> ro_consistent mem reads -> Permutation l (ro_records mem reads) ->
  Sorted.Sorted N.le (map (ro_word index_sz val_sz) l) -> stop_verdict (ro_order index_sz l) true = Passed.
Proof. intros * H1 H2 H3 H4 H5 H6. unfold stop_verdict. now rewrite (C33_honest_passes _ _ _ _ _ H1 H2 H3 H4 H5 H6). Qed.

(** ** C37: what check() is given *)
(** one record per access, in order, with the address, kind and value of that access; reads return the value written last; check()
    receives exactly this list and leaves no records behind *)
Theorem C37_check_sees_every_access : forall index_sz step_sz os, Forall (fun o => rw_is_access o /\ rw_address o < 2 ^ index_sz) os ->
  exists s log, rw_run index_sz step_sz (rw_init index_sz) (os ++ [RCheck]) = Some s /\ Forall2 rw_logs os log /\ reads_latest log /\
    rw_checked s = [numbered 0 log] /\ rw_list s = [].
Proof.
  intros n st os F. destruct (rw_run_log n st os (rw_init n) [] (rw_inv_init n) F) as (s & log & E & I & L).
  exists (rw_check s), log. rewrite rw_run_app, E. cbn [rw_run rw_do rw_check rw_checked rw_list app] in *.
  destruct I as (_ & I2 & _ & I4 & I5 & _ & _). rewrite I2, I4. split; [reflexivity|]. split; [exact L|]. split; [exact I5|]. now split.
Qed.
(** the same for the wide memory, when every cell is written before it is read *)
Theorem C37_wide_check_sees_every_access : forall nw index_sz os, 1 <= nw -> Forall (w_in_range nw index_sz) os -> w_reads_written [] os ->
  exists s log, x_run nw (x_init index_sz) (os ++ [WCheck]) = Some s /\ Forall2 w_logs os log /\ wreads_latest log /\ wwritten_first log /\
    x_checked s = [wnumbered 0 log] /\ x_list s = [].
Proof.
  intros nw n os Hn F W. destruct (x_run_log nw n os (x_init n) [] Hn (x_inv_init nw n) F W) as (s & log & E & I & L).
  eexists. exists log. rewrite x_run_app, E. cbn [x_run x_do app] in *.
  destruct I as (_ & I2 & _ & I4 & I5 & I6 & _). split; [reflexivity|]. cbn [x_checked x_list]. rewrite I2, I4. split; [exact L|]. split; [exact I5|]. split; [exact I6|]. now split.
Qed.

(** ** C38: the parameters of the code, in numbers *)
Theorem C38_code_instance : forall lin rc km key msg nblocks, length rc = 704 -> length key = 128 -> length msg = nblocks * 64 ->
  let program := lowmc_program numofboxes blocksize keysize rounds lin rc km key msg nblocks in
  plain_outputs program = lowmc_ref 15 64 128 11 lin rc km key msg nblocks /\ count_and program = nblocks * 495.
Proof.
  intros * H1 H2 H3 program.
  assert (A : 1 <= keysize) by (unfold keysize; lia). assert (B : 1 <= blocksize) by (unfold blocksize; lia).
  assert (C : 3 * numofboxes <= blocksize) by (unfold blocksize, numofboxes; lia).
  split; [exact (C38_program_is_lowmc numofboxes blocksize keysize rounds lin rc km key msg nblocks A B C H1 H2 H3)|].
  exact (C38_and_count numofboxes blocksize keysize rounds lin rc km key msg nblocks A B C H1 H2 H3).
Qed.

(** ** Cases *)
Example C16_reset_ex :
  let run r := run_seq 40 true true r 8 (k_init 8 (repeat true 8) [] [OBit true; OChallenge; OBit false; OChallenge; OBit true]) in
  k_done (run true) /\ k_done (run false) /\
  e_digests (k_s (run true)) = [[255]; [254]]%N /\ e_digests (k_s (run false)) = [[255]; [255; 254]]%N.
Proof. vm_compute. repeat split. Qed.
Example C37_check_ex : option_map rw_checked (rw_run 1 4 (rw_init 1) [RWrite 1 4%N; RRead 1; RCheck]) =
  Some [[{| e_idx := 1; e_step := 0; e_op := true; e_val := 4 |}; {| e_idx := 1; e_step := 1; e_op := false; e_val := 4 |}]]%N.
Proof. reflexivity. Qed.
Example C37_wide_check_ex : option_map x_checked (x_run 2 (x_init 1) [WWrite 1 [4; 5]%N; WRead 1; WCheck]) =
  Some [[{| w_idx := 1; w_step := 0; w_op := true; w_val := [4; 5] |}; {| w_idx := 1; w_step := 1; w_op := false; w_val := [4; 5] |}]]%N.
Proof. reflexivity. Qed.
Example C33_stops_ex : stop_verdict (ro_order 1 [(0, 5); (1, 7); (1, 9)]%N) true = Stopped.
Proof. reflexivity. Qed.
Example C38_instance_ex : length (repeat false 704) = 704 /\ length (repeat true 128) = 128 /\ length (repeat false 128) = 2 * 64.
Proof. now rewrite !repeat_length. Qed.

Print Assumptions C16_reset_only_splits.
Print Assumptions C33_wrong_read_stops.
Print Assumptions C33_right_reads_pass.
Print Assumptions C37_check_sees_every_access.
Print Assumptions C37_wide_check_sees_every_access.
Print Assumptions C38_code_instance.
