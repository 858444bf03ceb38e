(** Property C61: programs on the oblivious memories see an array, end to end. *)
From Coq Require Import NArith List Bool Arith Permutation Sorted Lia.
From Verif Require Import ListUtil GF128 BoolSpec F2kModel F2kSpec VoleF2kSpec RamModel RamSpec RamPack RamWide RamThms RamLife TightSpec TightProofs RamProgModel RamProgSpec RamProgProofs PropRam.
Import ListNotations.
Ltac Zify.zify_post_hook ::= idtac.

(** ** Honest parties *)
(** any program of reads, writes and accesses that writes a cell before reading it, with refresh() after every call and check() at
    the end: the results are those of an array, check() gets the record of every call, prints nothing and is accepted *)
Theorem C61_rw_complete : forall index_sz step_sz val_sz os threads bufsz polysz,
  index_sz + step_sz + 1 + val_sz <= 128 -> Forall (rw_call_ok index_sz val_sz) os -> rw_reads_written [] os ->
  length os + 2 ^ index_sz < 2 ^ (step_sz - 1) -> engine_sizes threads bufsz (length os) ->
  exists s fs, length fs = length os /\ Forall (fun f => (f < 2 ^ N.of_nat val_sz)%N) fs /\
    rw_run index_sz step_sz (rw_init index_sz) (with_refresh os ++ [RCheck]) = Some s /\
    rw_checked s = [numbered 0 (prog_log os fs)] /\ prog_results os fs = array_run zeros os /\
    forall l, Permutation l (numbered 0 (prog_log os fs)) -> Sorted N.le (map (rw_word index_sz step_sz val_sz) l) ->
      rw_verdict (rw_order index_sz step_sz l) true = Passed /\
      engine_accepts threads bufsz polysz false (map (rw_word index_sz step_sz val_sz) l) (map (rw_word index_sz step_sz val_sz) (numbered 0 (prog_log os fs))).
Proof.
  intros n st vz os threads bufsz polysz HW C W L ES. assert (P : 0 < 2 ^ n) by (apply Nat.neq_0_lt_0, Nat.pow_nonzero; lia).
  assert (S1 : 1 <= st). { destruct st; [cbn in L; lia|lia]. }
  assert (CA := calls_access _ _ _ C).
  assert (I0 : rw_inv n (rw_init n) []) by apply rw_inv_init.
  destruct (rw_run_log n st os (rw_init n) [] I0 CA) as (s & log & E & I1 & F). cbn [app] in I1.
  assert (Q : rw_run n st (rw_init n) (with_refresh os) = Some s).
  { rewrite (refresh_quiet n st os (rw_init n) [] I0 CA); [exact E|]. cbn [length]. intros k Hk. lia. }
  destruct I1 as (_ & Il & _ & Ic & R & _). destruct (prog_values0 os log F R W) as [V WF]. destruct (logs_record os log F) as [LR RR].
  assert (FT : log_fits n st vz (numbered 0 log)) by (apply (prog_fits n st vz os); auto; lia).
  assert (Len := Forall2_len _ _ _ F).
  exists (rw_check s), (map a_val log). rewrite <- LR, <- RR. split; [now rewrite map_length|]. split.
  { apply Forall_forall. intros f Hf. apply in_map_iff in Hf. destruct Hf as (x & <- & Hx). rewrite <- (numbered_erase log 0) in Hx. apply in_map_iff in Hx. destruct Hx as (e & <- & He).
    destruct FT as [FT _]. rewrite Forall_forall in FT. apply (FT e He). }
  split; [rewrite rw_run_app, Q; reflexivity|]. split; [unfold rw_check; cbn [rw_checked]; now rewrite Il, Ic|]. split; [exact V|].
  intros l PL SL. split.
  - now rewrite (C34_honest_passes n st vz log l FT R WF PL SL).
  - apply engine_ok; [rewrite map_length, (Permutation_length PL), numbered_len, <- Len; exact ES|now apply Permutation_map|].
    apply Forall_forall. intros x Hx. apply in_map_iff in Hx. destruct Hx as (e & <- & _). now apply rw_word_lt.
Qed.
(** the same for the wide memory, whose check compresses the rows with random coefficients *)
Theorem C61_wide_complete : forall nw index_sz step_sz os threads bufsz polysz,
  2 <= nw -> index_sz <= 32 -> step_sz <= 31 -> Forall (w_in_range nw index_sz) os -> (forall i v, In (WWrite i v) os -> Forall w64 v) -> w_reads_written [] os ->
  length os + 2 ^ index_sz < 2 ^ (step_sz - 1) -> engine_sizes threads bufsz (length os) ->
  exists s log, x_calls nw index_sz step_sz (x_init index_sz) (x_with_refresh os ++ [XOp WCheck]) = Some s /\
    Forall2 w_logs os log /\ x_checked s = [wnumbered 0 log] /\ wide_results os log = warray_run (fun _ => []) os /\
    forall l, Permutation l (wnumbered 0 log) -> Sorted N.le (map (fun e => hd 0%N (wide_row e)) l) ->
      stop_verdict (ext_order step_sz l) true = Passed /\
      forall coef, engine_accepts threads bufsz polysz false (map (fun e => compress coef (wide_row e)) l) (map (fun e => compress coef (wide_row e)) (wnumbered 0 log)).
Proof.
  intros nw n st os threads bufsz polysz Hw Hn Hs C C64 W L ES. assert (P : 0 < 2 ^ n) by (apply Nat.neq_0_lt_0, Nat.pow_nonzero; lia).
  assert (S1 : 1 <= st). { destruct st; [cbn in L; lia|lia]. }
  destruct (x_refresh_quiet nw n st os (x_init n) []) as (s & log & E & I1 & F); [lia|apply x_inv_init|exact C|exact W|cbn [length]; intros k Hk; lia|]. cbn [app] in I1.
  destruct I1 as (_ & Il & _ & Ic & R & WF & _). assert (Len := Forall2_len _ _ _ F).
  assert (FT : wlog_fits n st nw (wnumbered 0 log)) by (apply (wide_prog_fits n st nw os); auto; lia).
  eexists. exists log. split; [rewrite x_calls_app, E; reflexivity|]. split; [exact F|]. split; [cbn [x_checked]; now rewrite Il, Ic|]. split.
  { apply (wide_values os log [] []); auto. intros i []. }
  intros l PL SL. split.
  - now rewrite (C35_honest_passes n st nw log l FT R WF PL SL).
  - intro coef. apply engine_ok; [rewrite map_length, (Permutation_length PL), wnumbered_len, <- Len; exact ES|now apply Permutation_map|].
    apply Forall_forall. intros x Hx. apply in_map_iff in Hx. destruct Hx as (e & <- & _). apply compress_lt.
Qed.
(** the same for the read-only memory, as long as it has not checked itself *)
Theorem C61_ro_complete : forall index_sz val_sz data is threads bufsz polysz,
  index_sz + val_sz <= 128 -> length data <= 2 ^ index_sz -> Forall (fun x => (x < 2 ^ N.of_nat val_sz)%N) data -> data <> [] ->
  Forall (fun i => i < length data) is -> length is < 8 * length data -> engine_sizes threads bufsz (length data + length is) ->
  exists s, ro_reads (ro_init data) is = Some (s, map (fun i => nth i data 0%N) is) /\
    ro_checked (ro_check s) = [ro_records data (ro_log data is)] /\
    forall l, Permutation l (ro_records data (ro_log data is)) -> Sorted N.le (map (ro_word index_sz val_sz) l) ->
      stop_verdict (ro_order index_sz l) true = Passed /\
      engine_accepts threads bufsz polysz true (map (ro_word index_sz val_sz) l) (map (ro_word index_sz val_sz) (ro_records data (ro_log data is))).
Proof.
  intros n vz data is threads bufsz polysz HW HL HV ND F L ES. destruct (C33_unchecked_tail data is ND F) as (s & pending & drop & E & Lc & Lp & El & Er & _).
  rewrite Nat.div_small in Lc by exact L. rewrite Nat.mod_small in Lp by exact L.
  assert (Ed : drop = []). { apply length_zero_iff_nil. apply (f_equal (@length _)) in El. unfold ro_log in El. rewrite map_length, app_length in El. lia. }
  subst drop. cbn [app] in El. rewrite <- El in Er. exists s. split; [exact E|]. split.
  { unfold ro_check. cbn [ro_checked]. rewrite Er. apply length_zero_iff_nil in Lc. now rewrite Lc. }
  assert (B : (N.of_nat (length data) <= 2 ^ N.of_nat n)%N) by (rewrite <- pow_N; lia).
  assert (RL : length (ro_records data (ro_log data is)) = length data + length is).
  { unfold ro_records, ro_log. rewrite app_length, combine_length, !map_length, seq_length. lia. }
  intros l PL SL. split.
  - rewrite (C33_honest_passes n vz data (ro_log data is) l B HV); [reflexivity| | |exact PL|exact SL].
    + unfold ro_in_memory, ro_log. apply Forall_forall. intros r Hr. apply in_map_iff in Hr. destruct Hr as (i & <- & Hi). rewrite Forall_forall in F. specialize (F i Hi). cbn [fst]. lia.
    + intros a v Ha La. unfold ro_log in Ha. apply in_map_iff in Ha. destruct Ha as (i & Ei & Hi). injection Ei as Ei <-. apply Nat2N.inj in Ei. subst a. now apply nth_error_nth'.
  - apply engine_ok; [rewrite map_length, (Permutation_length PL), RL; exact ES|now apply Permutation_map|].
    apply Forall_forall. intros x Hx. apply in_map_iff in Hx. destruct Hx as (e & <- & _). now apply ro_word_lt.
Qed.

(** ** Cheating provers *)
(** API level: a prover whose results differ from those of an array survives fewer challenges than there are calls *)
Theorem C61_rw_sound_as_written : forall index_sz step_sz val_sz os fs l ext voleV voleM bM oM threads bufsz polysz rs,
  1 <= threads -> 1 <= bufsz -> 1 <= step_sz -> index_sz + step_sz + 1 + val_sz <= 128 ->
  Forall (rw_call_ok index_sz val_sz) os -> rw_reads_written [] os -> length os <= 2 ^ (step_sz - 1) -> (N.of_nat (length os) < 2 ^ 64)%N ->
  length fs = length os -> Forall (fun f => (f < 2 ^ N.of_nat val_sz)%N) fs ->
  prog_results os fs <> array_run zeros (written_as os fs) ->
  length l = length os -> Forall (rw_fits index_sz step_sz val_sz) l -> rw_order index_sz step_sz l = true ->
  let n := length os in
  map (fun i => fst (ext i)) (seq 0 n) = map (rw_word index_sz step_sz val_sz) l ->
  map (fun i => fst (ext i)) (seq n n) = map (rw_word index_sz step_sz val_sz) (numbered 0 (prog_log os fs)) ->
  NoDup rs -> (forall r, In r rs -> (r < 2 ^ 128)%N /\ seteq_passes ext voleV voleM bM oM threads bufsz polysz false n r) ->
  length rs < n.
Proof.
  intros n st vz os fs l ext voleV voleM bM oM threads bufsz polysz rs Ht Hb S1 HW C W L L64 Lf Ff NR Ll Fl O k E1 E2 ND H.
  destruct (fed_logs n vz os fs Lf C) as [FL RS]. subst k. rewrite <- Ll in *.
  apply (C34_session n st vz (prog_log os fs) l ext voleV voleM bM oM threads bufsz polysz rs); auto.
  - assert (C' := written_as_ok n vz os fs (eq_trans Lf Ll) C Ff). clear FL RS. destruct (fed_logs n vz os fs (eq_trans Lf Ll) C) as [FL RS].
    assert (V : forall x, In x (prog_log os fs) -> (a_val x < 2 ^ N.of_nat vz)%N).
    { intros x Hx. unfold prog_log in Hx. apply in_map_iff in Hx. destruct Hx as ([o f] & <- & Hof). cbn [fst snd]. rewrite Forall_forall in C, Ff.
      assert (Co := C o (in_combine_l _ _ _ _ Hof)). assert (Fo := Ff f (in_combine_r _ _ _ _ Hof)). destruct o as [i|i v|op i v| |]; cbn in *; try contradiction; auto. apply Co. }
    assert (Ad : forall x, In x (prog_log os fs) -> (a_addr x < 2 ^ N.of_nat n)%N).
    { intros x Hx. unfold prog_log in Hx. apply in_map_iff in Hx. destruct Hx as ([o f] & <- & Hof). cbn [fst snd]. rewrite Forall_forall in C. assert (Co := C o (in_combine_l _ _ _ _ Hof)).
      rewrite <- pow_N. destruct o as [i|i v|op i v| |]; cbn -[N.of_nat] in *; try contradiction; lia. }
    assert (St : forall e, In e (numbered 0 (prog_log os fs)) -> (e_step e < 2 ^ N.of_nat (st - 1))%N).
    { intros e He. apply numbered_step in He. rewrite prog_log_length in He by congruence. rewrite <- pow_N. lia. }
    split; [|split; [|exact S1]]; apply Forall_forall; intros e He; [|exact (St e He)].
    assert (St' := St e He). destruct (numbered_in _ _ _ He) as (x & Hx & X1 & _ & X2). unfold rw_fits. rewrite X1, X2. split; [now apply Ad|]. split; [|now apply V].
    eapply N.lt_le_trans; [exact St'|]. apply N.pow_le_mono_r; lia.
  - intro R. apply NR. rewrite <- RS. apply prog_values0; auto. apply written_as_reads; [congruence|exact W].
Qed.
Theorem C61_rw_sound : forall index_sz step_sz val_sz os fs l ext voleV voleM bM oM threads bufsz polysz rs,
  1 <= threads -> 1 <= bufsz -> 1 <= step_sz -> index_sz + step_sz + 1 + val_sz <= 128 ->
  Forall (rw_call_ok index_sz val_sz) os -> Forall no_writing_access os -> rw_reads_written [] os ->
  length os <= 2 ^ (step_sz - 1) -> (N.of_nat (length os) < 2 ^ 64)%N ->
  length fs = length os -> Forall (fun f => (f < 2 ^ N.of_nat val_sz)%N) fs ->
  prog_results os fs <> array_run zeros os ->
  length l = length os -> Forall (rw_fits index_sz step_sz val_sz) l -> rw_order index_sz step_sz l = true ->
  let n := length os in
  map (fun i => fst (ext i)) (seq 0 n) = map (rw_word index_sz step_sz val_sz) l ->
  map (fun i => fst (ext i)) (seq n n) = map (rw_word index_sz step_sz val_sz) (numbered 0 (prog_log os fs)) ->
  NoDup rs -> (forall r, In r rs -> (r < 2 ^ 128)%N /\ seteq_passes ext voleV voleM bM oM threads bufsz polysz false n r) ->
  length rs < n.
Proof.
  intros n st vz os fs l ext voleV voleM bM oM threads bufsz polysz rs Ht Hb S1 HW C NW W L L64 Lf Ff NR Ll Fl O k E1 E2 ND H.
  apply (C61_rw_sound_as_written n st vz os fs l ext voleV voleM bM oM threads bufsz polysz rs); auto. now rewrite written_as_same.
Qed.
(** access(1, i, v) does not bind v: the prover writes any other w, everything is accepted, and the program reads w *)
Theorem C61_access_value_refuted : forall index_sz step_sz val_sz os i v w threads bufsz polysz,
  index_sz + step_sz + 1 + val_sz <= 128 -> Forall (rw_call_ok index_sz val_sz) os -> rw_reads_written [] os ->
  i < 2 ^ index_sz -> (v < 2 ^ N.of_nat val_sz)%N -> (w < 2 ^ N.of_nat val_sz)%N ->
  length os + 2 + 2 ^ index_sz < 2 ^ (step_sz - 1) -> engine_sizes threads bufsz (length os + 2) ->
  let prog := os ++ [RAccess true i v; RRead i] in
  exists fs, length fs = length prog /\ prog_results prog fs = array_run zeros os ++ [Some w; Some w] /\
    forall l, Permutation l (numbered 0 (prog_log prog fs)) -> Sorted N.le (map (rw_word index_sz step_sz val_sz) l) ->
      rw_verdict (rw_order index_sz step_sz l) true = Passed /\
      engine_accepts threads bufsz polysz false (map (rw_word index_sz step_sz val_sz) l) (map (rw_word index_sz step_sz val_sz) (numbered 0 (prog_log prog fs))).
Proof.
  intros n st vz os i v w threads bufsz polysz HW C W Hi Hv Hw L ES prog.
  set (prog' := os ++ [RAccess true i w; RRead i]).
  assert (Lp : length prog' = length os + 2) by (unfold prog'; rewrite app_length; reflexivity).
  assert (RW : forall os ws, rw_reads_written ws os -> rw_reads_written ws (os ++ [RAccess true i w; RRead i])).
  { clear. induction os as [|o os IH]; intros ws W; [cbn; auto|]. destruct o as [j|j u|[] j u| |]; cbn [app rw_reads_written] in *; auto; destruct W as [W1 W2]; split; auto. }
  assert (AR : forall os mem, (Forall (rw_call_ok n vz) os) -> array_run mem (os ++ [RAccess true i w; RRead i]) = array_run mem os ++ [Some w; Some w]).
  { clear. induction os as [|o os IH]; intros mem C.
    - cbn [app array_run]. unfold set_cell. now rewrite Nat.eqb_refl.
    - inversion C; subst. destruct o as [j|j u|[] j u| |]; cbn [app array_run rw_call_ok] in *; try contradiction; f_equal; now apply IH. }
  destruct (C61_rw_complete n st vz prog' threads bufsz polysz HW) as (s & fs & Lf & _ & _ & _ & PR & A).
  - unfold prog'. apply Forall_app. split; [exact C|]. repeat constructor; cbn; auto.
  - now apply RW.
  - rewrite Lp. exact L.
  - rewrite Lp. exact ES.
  - assert (Same : forall os fs, prog_log (os ++ [RAccess true i v; RRead i]) fs = prog_log (os ++ [RAccess true i w; RRead i]) fs /\
        prog_results (os ++ [RAccess true i v; RRead i]) fs = prog_results (os ++ [RAccess true i w; RRead i]) fs).
    { clear. unfold prog_log, prog_results. induction os as [|o os IH]; intros [|f fs]; try (now split).
      cbn [app combine map fst snd]. destruct (IH fs) as [-> ->]. now split. }
    destruct (Same os fs) as [S1 S2]. exists fs. unfold prog. rewrite S1, S2. fold prog'. split; [unfold prog' in Lf; rewrite app_length in *; exact Lf|].
    split; [rewrite PR; unfold prog'; now apply AR|]. exact A.
Qed.

(** ** refresh() *)
(** a program of enough accesses, each followed by refresh(), is undefined *)
Theorem C61_refresh_refuted : forall index_sz step_sz os,
  Forall (fun o => rw_is_access o /\ rw_address o < 2 ^ index_sz) os -> 2 ^ index_sz < 2 ^ (step_sz - 1) <= length os + 2 ^ index_sz ->
  rw_run index_sz step_sz (rw_init index_sz) (with_refresh os) = None.
Proof.
  intros n st os C L. apply (refresh_fires_run n st os (rw_init n) []); [apply rw_inv_init|exact C|].
  exists (2 ^ (st - 1) - 2 ^ n). cbn [length]. lia.
Qed.
Theorem C61_wide_refresh_refuted : forall nw index_sz step_sz os, 1 <= nw ->
  Forall (w_in_range nw index_sz) os -> w_reads_written [] os -> 2 ^ index_sz < 2 ^ (step_sz - 1) <= length os + 2 ^ index_sz ->
  x_calls nw index_sz step_sz (x_init index_sz) (x_with_refresh os) = None.
Proof.
  intros nw n st os Hw C W L. set (k := 2 ^ (st - 1) - 2 ^ n - 1).
  assert (K : k < length os) by (unfold k; lia). destruct (nth_error os k) as [o|] eqn:No; [|apply nth_error_None in No; lia].
  apply nth_error_split in No. destruct No as (o1 & o2 & -> & Lk). unfold x_with_refresh. rewrite flat_map_app, x_calls_app. fold (x_with_refresh o1).
  assert (W1 : w_reads_written [] (o1 ++ [o])).
  { clear - W. revert W. generalize (@nil nat) as ws. induction o1 as [|p o1 IH]; intros ws W; cbn [app] in *.
    - destruct o; cbn in *; tauto.
    - destruct p; cbn in *; [destruct W as [W1 W2]; split; [exact W1|]; now apply IH|now apply IH|now apply IH]. }
  apply Forall_app in C. destruct C as [C1 C2]. inversion C2 as [|? ? Co _]; subst.
  (* the log after o1, and after o *)
  destruct (x_refresh_quiet nw n st o1 (x_init n) []) as (s & log & E & I1 & F); [exact Hw|apply x_inv_init|exact C1| |cbn [length]; intros j Hj; unfold k in *; lia|].
  { clear - W1. cbn [filter map]. revert W1. generalize (@nil nat) as ws. induction o1 as [|p o1 IH]; intros ws W; [exact I|]. destruct p; cbn in *; [destruct W as [W1 W2]; split; [exact W1|]; now apply IH|now apply IH|now apply IH]. }
  rewrite E. cbn [flat_map app x_calls x_call]. destruct (x_do nw s o) as [s1|] eqn:D; [|reflexivity].
  rewrite x_refresh_fires; [reflexivity|]. cbn [app] in I1. destruct I1 as (_ & _ & T & _). assert (Len := Forall2_len _ _ _ F).
  assert (T1 : x_step s1 = S (x_step s)).
  { destruct o as [i|i v|]; cbn in D, Co; [| |contradiction].
    - destruct (cell (x_mem s) i); [|discriminate]. destruct (_ || _); [discriminate|]. now injection D as <-.
    - destruct (cell (x_mem s) i); [|discriminate]. destruct (Nat.eqb (length v) 0); [discriminate|]. now injection D as <-. }
  rewrite T1, T. unfold k in *. lia.
Qed.

(** ** The test programs *)
Lemma pow2_mod4 n : 1 <= n -> (2 * 2 ^ n - 1) mod 4 = 3 /\ 4 <= 2 * 2 ^ n.
Proof.
  intro H. destruct n as [|n]; [lia|]. assert (P : 0 < 2 ^ n) by (apply Nat.neq_0_lt_0, Nat.pow_nonzero; lia).
  rewrite Nat.pow_succ_r'. split; [|lia]. replace (2 * (2 * 2 ^ n) - 1) with (3 + (2 ^ n - 1) * 4) by lia. now rewrite Nat.mod_add.
Qed.
Lemma test_sizes threads bufsz n : 1 <= n <= 62 -> 1 <= threads <= 6 -> 6 <= bufsz -> engine_sizes threads bufsz (2 * 2 ^ n).
Proof.
  intros Hn Ht Hb. destruct (pow2_mod4 n) as [M1 M2]; [lia|]. unfold engine_sizes. rewrite M1.
  assert (B : (N.of_nat (2 * 2 ^ n) < 2 ^ 64)%N).
  { rewrite <- Nat.pow_succ_r', pow_N. apply N.pow_lt_mono_r; lia. }
  split; [lia|]. split; [lia|]. split; [lia|]. split; [lia|]. split; [exact B|]. right. lia.
Qed.
(** ram_test.cpp bench: the memory gives back what was written *)
Theorem C61_ram_bench : forall index_sz step_sz val_sz threads bufsz polysz,
  1 <= index_sz <= 62 -> index_sz + step_sz + 1 + val_sz <= 128 -> 3 * 2 ^ index_sz < 2 ^ (step_sz - 1) -> 1 <= threads <= 6 -> 6 <= bufsz ->
  exists s fs, rw_run index_sz step_sz (rw_init index_sz) (ram_bench index_sz val_sz) = Some s /\
    let os := fill index_sz val_sz 1 ++ read_all index_sz in
    prog_results os fs = repeat None (2 ^ index_sz) ++ map (fun i => Some (N.of_nat i mod 2 ^ N.of_nat val_sz)%N) (seq 0 (2 ^ index_sz)) /\
    rw_checked s = [numbered 0 (prog_log os fs)] /\
    forall l, Permutation l (numbered 0 (prog_log os fs)) -> Sorted N.le (map (rw_word index_sz step_sz val_sz) l) ->
      rw_verdict (rw_order index_sz step_sz l) true = Passed /\
      engine_accepts threads bufsz polysz false (map (rw_word index_sz step_sz val_sz) l) (map (rw_word index_sz step_sz val_sz) (numbered 0 (prog_log os fs))).
Proof.
  intros n st vz threads bufsz polysz Hn HW L Ht Hb. set (os := fill n vz 1 ++ read_all n).
  assert (Lo : length os = 2 * 2 ^ n). { unfold os, fill, read_all. rewrite app_length, !map_length, seq_length. lia. }
  destruct (C61_rw_complete n st vz os threads bufsz polysz HW) as (s & fs & Lf & _ & E & Ck & R & A).
  - unfold os. apply Forall_app. split; apply Forall_forall; intros o Ho; apply in_map_iff in Ho; destruct Ho as (i & <- & Hi); apply in_seq in Hi; cbn [rw_call_ok]; [|lia].
    split; [lia|]. apply N.mod_lt, N.pow_nonzero. lia.
  - apply fill_read_written.
  - rewrite Lo. lia.
  - rewrite Lo. now apply test_sizes.
  - exists s, fs. split; [exact E|]. cbv zeta. split; [|now split]. rewrite R. unfold os, fill, read_all.
    rewrite fill_read_results. f_equal. apply map_ext. intro i. now rewrite N.mul_1_l.
Qed.
(** ram_ext_test.cpp: every comparison of the program finds equal words *)
Theorem C61_ram_ext_test : forall nw index_sz step_sz threads bufsz polysz,
  2 <= nw -> 1 <= index_sz <= 32 -> step_sz <= 31 -> 3 * 2 ^ index_sz < 2 ^ (step_sz - 1) -> 1 <= threads <= 6 -> 6 <= bufsz ->
  exists s log, x_calls nw index_sz step_sz (x_init index_sz) (ram_ext_test nw index_sz) = Some s /\
    let os := wide_fill nw index_sz ++ wide_read_all index_sz in
    wide_results os log = repeat None (2 ^ index_sz) ++
      map (fun i => Some (map (fun j => (2 * N.of_nat i + N.of_nat j) mod 2 ^ 64)%N (seq 0 nw))) (seq 0 (2 ^ index_sz)) /\
    x_checked s = [wnumbered 0 log] /\
    forall l, Permutation l (wnumbered 0 log) -> Sorted N.le (map (fun e => hd 0%N (wide_row e)) l) ->
      stop_verdict (ext_order step_sz l) true = Passed /\
      forall coef, engine_accepts threads bufsz polysz false (map (fun e => compress coef (wide_row e)) l) (map (fun e => compress coef (wide_row e)) (wnumbered 0 log)).
Proof.
  intros nw n st threads bufsz polysz Hw Hn Hs L Ht Hb. set (os := wide_fill nw n ++ wide_read_all n).
  assert (Lo : length os = 2 * 2 ^ n). { unfold os, wide_fill, wide_read_all. rewrite app_length, !map_length, seq_length. lia. }
  destruct (C61_wide_complete nw n st os threads bufsz polysz Hw) as (s & log & E & F & Ck & R & A); try lia.
  - unfold os. apply Forall_app. split; apply Forall_forall; intros o Ho; apply in_map_iff in Ho; destruct Ho as (i & <- & Hi); apply in_seq in Hi; cbn [w_in_range]; [|lia].
    split; [lia|]. now rewrite map_length, seq_length.
  - intros i v Hv. unfold os in Hv. apply in_app_or in Hv. destruct Hv as [Hv|Hv]; apply in_map_iff in Hv; destruct Hv as (j & Ej & _); [|discriminate].
    injection Ej as _ <-. apply Forall_forall. intros x Hx. apply in_map_iff in Hx. destruct Hx as (q & <- & _). unfold w64. apply N.mod_lt. discriminate.
  - apply wfill_read_written.
  - rewrite Lo. apply test_sizes; lia.
  - exists s, log. split; [exact E|]. cbv zeta. split; [|now split]. fold os. rewrite R. unfold os, wide_fill, wide_read_all. apply wfill_read_results.
Qed.
(** ro_ram_test.cpp test *)
Theorem C61_ro_ram_test : forall index_sz val_sz threads bufsz polysz,
  1 <= index_sz <= 62 -> index_sz + val_sz <= 128 -> 1 <= threads <= 6 -> 6 <= bufsz ->
  let data := ro_test_data index_sz val_sz in let is := seq 0 (2 ^ index_sz) in
  exists s, ro_reads (ro_init data) is = Some (s, map (fun i => (2 * N.of_nat i) mod 2 ^ N.of_nat val_sz)%N is) /\
    ro_checked (ro_check s) = [ro_records data (ro_log data is)] /\
    forall l, Permutation l (ro_records data (ro_log data is)) -> Sorted N.le (map (ro_word index_sz val_sz) l) ->
      stop_verdict (ro_order index_sz l) true = Passed /\
      engine_accepts threads bufsz polysz true (map (ro_word index_sz val_sz) l) (map (ro_word index_sz val_sz) (ro_records data (ro_log data is))).
Proof.
  intros n vz threads bufsz polysz Hn HW Ht Hb data is. assert (P : 0 < 2 ^ n) by (apply Nat.neq_0_lt_0, Nat.pow_nonzero; lia).
  assert (Ld : length data = 2 ^ n) by (unfold data, ro_test_data; now rewrite map_length, seq_length).
  assert (Li : length is = 2 ^ n) by (unfold is; now rewrite seq_length).
  destruct (C61_ro_complete n vz data is threads bufsz polysz HW) as (s & E & K); try lia.
  - unfold data, ro_test_data. apply Forall_forall. intros x Hx. apply in_map_iff in Hx. destruct Hx as (i & <- & _). apply N.mod_lt, N.pow_nonzero. lia.
  - intro Z. rewrite Z in Ld. cbn in Ld. lia.
  - rewrite Ld. apply Forall_forall. intros i Hi. apply in_seq in Hi. lia.
  - rewrite Ld, Li. replace (2 ^ n + 2 ^ n) with (2 * 2 ^ n) by lia. now apply test_sizes.
  - exists s. split; [|exact K]. rewrite E. do 2 f_equal. transitivity data; [|reflexivity]. unfold is. rewrite <- Ld. clear. induction data as [|x d IH] using rev_ind; [reflexivity|].
    rewrite app_length. cbn [length]. rewrite seq_app, map_app. cbn [map seq]. f_equal.
    + rewrite <- IH at 2. apply map_ext_in. intros i Hi. apply in_seq in Hi. rewrite app_nth1; [reflexivity|]. lia.
    + rewrite app_nth2, Nat.add_0_l, Nat.sub_diag; [reflexivity|lia].
Qed.
(** ram_test.cpp test writes after check(), which has emptied the vector: undefined for all sizes *)
Theorem C61_ram_test_refuted : forall index_sz step_sz val_sz, rw_run index_sz step_sz (rw_init index_sz) (ram_test index_sz val_sz) = None.
Proof.
  intros n st vz. destruct (rw_run n st (rw_init n) (ram_test n vz)) as [s|] eqn:E; [|reflexivity]. exfalso.
  unfold ram_test in E. cbn [app] in E. apply C37_after_check in E. destruct E as [F _]. apply Forall_app in F. destruct F as [F _].
  assert (P : 2 ^ n <> 0) by (apply Nat.pow_nonzero; lia). rewrite Forall_forall in F. apply (F (RWrite 0 ((3 * 0) mod 2 ^ N.of_nat vz)%N)); [|exact I].
  unfold with_refresh. apply in_flat_map. eexists. split; [apply in_or_app; left; apply in_map_iff; exists 0; split; [reflexivity|apply in_seq; lia]|now left].
Qed.

(** ** Concrete cases *)
Definition demo_prog : list rwop := [RWrite 0 5; RWrite 1 6; RRead 1; RAccess true 1 7; RRead 1; RAccess false 0 0]%N.
Example C61_demo : array_run zeros demo_prog = [None; None; Some 6; Some 7; Some 7; Some 5]%N /\ Forall (rw_call_ok 1 8) demo_prog /\ rw_reads_written [] demo_prog /\
  length demo_prog + 2 ^ 1 < 2 ^ (5 - 1) /\ engine_sizes 1 100 (length demo_prog) /\
  option_map rw_checked (rw_run 1 5 (rw_init 1) (with_refresh demo_prog ++ [RCheck])) = Some [numbered 0 (prog_log demo_prog [5; 6; 6; 7; 7; 5]%N)].
Proof. split; [reflexivity|]. split; [repeat constructor|]. split; [cbn; intuition|]. split; [cbn; lia|]. split; [|reflexivity]. unfold engine_sizes. cbn. repeat split; try lia. Qed.
(** what a prover that feeds 9 instead of 7 to access() gets *)
Example C61_access_demo : prog_results demo_prog [5; 6; 6; 9; 9; 5]%N = [None; None; Some 6; Some 9; Some 9; Some 5]%N.
Proof. reflexivity. Qed.
(** a prover that lies about a read: its log is not consistent, so C61_rw_sound applies *)
Example C61_sound_demo : prog_results [RWrite 0 5; RWrite 0 6; RRead 0]%N [0; 0; 5]%N <> array_run zeros [RWrite 0 5; RWrite 0 6; RRead 0]%N /\
  rw_order 1 5 (numbered 0 (prog_log [RWrite 0 5; RWrite 0 6; RRead 0] [0; 0; 6]))%N = true /\
  rw_order 1 5 (numbered 0 (prog_log [RWrite 0 5; RWrite 0 6; RRead 0] [0; 0; 5]))%N = false.
Proof. split; [discriminate|]. split; reflexivity. Qed.
(** sizes of the test programs: index_sz 5, step_sz 14 or 18 *)
Example C61_test_sizes : 3 * 2 ^ 5 < 2 ^ 9 /\ engine_sizes 1 100 (2 * 2 ^ 5).
Proof. split; [cbn; lia|]. apply test_sizes; lia. Qed.
Example C61_refresh_demo : rw_run 1 4 (rw_init 1) (with_refresh [RWrite 0 1; RWrite 0 2; RWrite 0 3; RWrite 0 4; RWrite 0 5; RWrite 0 6]%N) = None /\
  rw_run 1 4 (rw_init 1) (with_refresh [RWrite 0 1; RWrite 0 2; RWrite 0 3; RWrite 0 4; RWrite 0 5]%N) <> None.
Proof. split; [reflexivity|discriminate]. Qed.

Print Assumptions C61_rw_complete.
Print Assumptions C61_wide_complete.
Print Assumptions C61_ro_complete.
Print Assumptions C61_rw_sound_as_written.
Print Assumptions C61_rw_sound.
Print Assumptions C61_access_value_refuted.
Print Assumptions C61_refresh_refuted.
Print Assumptions C61_wide_refresh_refuted.
Print Assumptions C61_ram_bench.
Print Assumptions C61_ram_ext_test.
Print Assumptions C61_ro_ram_test.
Print Assumptions C61_ram_test_refuted.
