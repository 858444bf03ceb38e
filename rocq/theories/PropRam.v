(** Properties C33-C37: read-only, read-write and wide oblivious memories. *)
From Coq Require Import NArith List Bool Arith Permutation Sorted Lia.
From Verif Require Import Word GF128 GF128Ring ListUtil GfmulModel BoolModel BoolSpec BoolProofs BoolAlg F2kModel F2kSpec F2kAlg VoleF2kSpec RamModel RamSpec RamAlg RamPack RamWide RamProd RamSess RamOrder RamThms RamLife.
Import ListNotations.
Ltac Zify.zify_post_hook ::= idtac.

(** the set-equality test: committed lists that are not rearrangements of each other survive fewer
    than n challenges *)
Lemma seteq_challenges ext voleV voleM bM oM threads bufsz polysz acc_last n rs : 1 <= threads -> 1 <= bufsz -> (N.of_nat n < 2 ^ 64)%N ->
  (forall i, i < 2 * n -> (fst (ext i) < 2 ^ 128)%N) ->
  ~ Permutation (map (fun i => fst (ext i)) (seq 0 n)) (map (fun i => fst (ext i)) (seq n n)) -> NoDup rs ->
  (forall r, In r rs -> (r < 2 ^ 128)%N /\ seteq_passes ext voleV voleM bM oM threads bufsz polysz acc_last n r) -> length rs < n.
Proof.
  intros Ht Hb Hn He NP ND H. rewrite <- (seq_length n 0), <- (map_length (fun i => fst (ext i)) (seq 0 n)).
  apply (sprod_bound _ (map (fun i => fst (ext i)) (seq n n))); auto.
  - now rewrite !map_length, !seq_length.
  - apply Forall_forall. intros x Hx. apply in_map_iff in Hx. destruct Hx as [i [<- Hi]]. apply in_seq in Hi. apply He. lia.
  - apply Forall_forall. intros x Hx. apply in_map_iff in Hx. destruct Hx as [i [<- Hi]]. apply in_seq in Hi. apply He. lia.
  - apply Forall_forall. intros r Hr. now apply H.
  - intros r Hr. destruct (H r Hr) as [Br (seeds & pseeds & junk & corr & bitmsg & chkmsg & polymsg & g1 & g2 & msg & ds & c & a0 & a1 & Ec & Hp & NDd & L6 & Hall & C1 & C2)].
    destruct (seteq_sound ext voleV voleM bM oM threads bufsz polysz seeds pseeds acc_last n r Ht Hn Br He c a0 a1 Ec Hb junk corr bitmsg chkmsg polymsg g1 g2 msg ds Hp NDd Hall) as [X|[X|[X|X]]].
    + lia.
    + destruct (C1 X).
    + destruct (C2 X).
    + exact X.
Qed.

(** ** C33: read-only memory *)
Theorem C33_consistency : forall index_sz val_sz mem reads l,
  (N.of_nat (length mem) <= 2 ^ N.of_nat index_sz)%N -> Forall (fun x => (x < 2 ^ N.of_nat val_sz)%N) mem ->
  Forall (ro_fits index_sz val_sz) reads -> Forall (ro_fits index_sz val_sz) l ->
  ro_order index_sz l = true ->
  Permutation (map (ro_word index_sz val_sz) l) (map (ro_word index_sz val_sz) (ro_records mem reads)) ->
  ro_consistent mem reads.
Proof. exact ro_sound. Qed.
(** the list the honest prover sorts by packed words passes *)
Theorem C33_honest_passes : forall index_sz val_sz mem reads l,
  (N.of_nat (length mem) <= 2 ^ N.of_nat index_sz)%N -> Forall (fun x => (x < 2 ^ N.of_nat val_sz)%N) mem ->
  ro_in_memory mem reads -> ro_consistent mem reads -> Permutation l (ro_records mem reads) ->
  Sorted N.le (map (ro_word index_sz val_sz) l) -> ro_order index_sz l = true.
Proof. exact ro_honest. Qed.
(** the whole check: wrong reads, an accepted order and sorted addresses in range survive fewer set-equality challenges
    than there are records *)
Theorem C33_session : forall index_sz val_sz mem reads l ext voleV voleM bM oM threads bufsz polysz rs,
  1 <= threads -> 1 <= bufsz -> index_sz + val_sz <= 128 -> (N.of_nat (length l) < 2 ^ 64)%N ->
  let n := length l in
  map (fun i => fst (ext i)) (seq 0 n) = map (ro_word index_sz val_sz) l ->
  map (fun i => fst (ext i)) (seq n n) = map (ro_word index_sz val_sz) (ro_records mem reads) ->
  (N.of_nat (length mem) <= 2 ^ N.of_nat index_sz)%N -> Forall (fun x => (x < 2 ^ N.of_nat val_sz)%N) mem ->
  Forall (ro_fits index_sz val_sz) reads -> Forall (ro_fits index_sz val_sz) l ->
  ro_order index_sz l = true -> ~ ro_consistent mem reads -> NoDup rs ->
  (forall r, In r rs -> (r < 2 ^ 128)%N /\ seteq_passes ext voleV voleM bM oM threads bufsz polysz true n r) ->
  length rs < n.
Proof.
  intros index_sz val_sz mem reads l ext voleV voleM bM oM threads bufsz polysz rs Ht Hb Hw Hl n E1 E2 Hm F1 F2 F3 O NC ND H.
  apply (seteq_challenges ext voleV voleM bM oM threads bufsz polysz true n rs Ht Hb Hl); auto.
  - intros i Hi. destruct (le_lt_dec n i) as [L|L].
    + assert (In (fst (ext i)) (map (fun i => fst (ext i)) (seq n n))) by (apply in_map_iff; exists i; split; [reflexivity|apply in_seq; lia]).
      rewrite E2 in H0. apply in_map_iff in H0. destruct H0 as [e [<- _]]. now apply ro_word_lt.
    + assert (In (fst (ext i)) (map (fun i => fst (ext i)) (seq 0 n))) by (apply in_map_iff; exists i; split; [reflexivity|apply in_seq; lia]).
      rewrite E1 in H0. apply in_map_iff in H0. destruct H0 as [e [<- _]]. now apply ro_word_lt.
  - rewrite E1, E2. intro P. apply NC. exact (ro_sound index_sz val_sz mem reads l Hm F1 F2 F3 O P).
Qed.
(** honest parties: the set-equality test of any rearranged list is accepted *)
Theorem C33_honest_set_equality : forall ext voleV voleM bM oM threads bufsz polysz seeds pseeds acc_last n r junkp junkv g1 g2 g3 g4 h1 h2 d,
  1 <= threads -> threads <= bufsz -> 6 <= bufsz -> 3 <= n -> (N.of_nat n < 2 ^ 64)%N -> (r < 2 ^ 128)%N ->
  (forall i, i < 2 * n -> (fst (ext i) < 2 ^ 128)%N) -> (forall r i, (junkv r i < 2 ^ 128)%N) -> valid_delta d ->
  (n mod 4 = 1 \/ threads <= 2 * ((n - 1) mod 4)) ->
  Permutation (map (fun i => fst (ext i)) (seq 0 n)) (map (fun i => fst (ext i)) (seq n n)) ->
  exists c a0 a1, seteq_circuit acc_last n r = Some (c, a0, a1) /\
  let p := fp_exec ext voleV voleM bM oM threads bufsz polysz seeds pseeds junkp g1 g2 g3 g4 c in
  exists v, f_session ext voleV voleM bM oM threads bufsz polysz seeds pseeds junkv
       (fun i => nth i (fp_corr p) 0%N) (fun i => nth i (fp_bits p) false)
       (fun k => nth k (fp_msgs p) (0, 0)%N) (fun k => nth k (fp_pmsgs p) (0, 0, 0, 0, 0)%N) h1 h2 c d = Some v /\
    fv_printed v = 0 /\ fv_cheat v = [] /\ seteq_accept (fv_w v) a0 a1 (seteq_msg (fp_w p) a0 a1) = true.
Proof.
  intros ext voleV voleM bM oM threads bufsz polysz seeds pseeds acc_last n r junkp junkv g1 g2 g3 g4 h1 h2 d Ht Htb H6 H3 Hn Hr He Hj Vd Hm HP.
  destruct (seteq_circuit_ok acc_last n r (fun i => fst (ext i)) H3 Hn Hr He) as [c [a0 [a1 [E _]]]]. exists c, a0, a1. split; [exact E|].
  exact (seteq_honest ext voleV voleM bM oM threads bufsz polysz seeds pseeds acc_last n r Ht Hn Hr He c a0 a1 E junkp junkv g1 g2 g3 g4 h1 h2 d Htb H6 Hj Vd Hm HP).
Qed.
(** without the range of the claimed addresses nothing is left: for every memory and every wrong content [f],
    reads may return [f] instead of the memory *)
Theorem C33_top_bit_refuted : forall index_sz val_sz mem reads f,
  (N.of_nat (length mem) <= 2 ^ N.of_nat index_sz)%N -> mem <> [] -> Forall (fun x => (x < 2 ^ N.of_nat val_sz)%N) mem ->
  ro_in_memory mem reads -> Forall (fun r => (snd r < 2 ^ N.of_nat val_sz)%N) reads ->
  (forall a x, In (N.of_nat a, x) reads -> nth_error mem a = Some x \/ x = f a) ->
  exists l, ro_order index_sz l = true /\
    Permutation (map (ro_word index_sz val_sz) l) (map (ro_word index_sz val_sz) (ro_records mem reads)) /\
    Forall (fun e => (fst e < 2 ^ N.of_nat (index_sz + 1))%N /\ (snd e < 2 ^ N.of_nat val_sz)%N) l.
Proof. exact ro_forged. Qed.
(** reads at or above the size of the memory are not tied to anything: any single value passes in range *)
Theorem C33_outside_memory_refuted : forall index_sz val_sz mem a x,
  (N.of_nat (length mem) <= N.of_nat a)%N -> (N.of_nat a < 2 ^ N.of_nat index_sz)%N -> Forall (fun x => (x < 2 ^ N.of_nat val_sz)%N) mem -> (x < 2 ^ N.of_nat val_sz)%N ->
  exists l, ro_order index_sz l = true /\ Forall (ro_fits index_sz val_sz) l /\ Permutation l (ro_records mem [(N.of_nat a, x)]).
Proof.
  intros n v mem a x L Ha F Hx. exists (ro_records mem [(N.of_nat a, x)]). split; [|split; [|reflexivity]].
  - assert (FR : Forall (ro_fits n v) (ro_records mem [])) by (apply ro_records_fits; auto; lia).
    unfold ro_records in *. rewrite app_nil_r in FR. apply ro_order_app; [|reflexivity|].
    + apply ro_order_spec. intros m1 e e' m2 E. left. assert (G : forall s m, StronglySorted (fun p q : N * N => (fst p < fst q)%N) (combine (map N.of_nat (seq s (length m))) m)).
      { intros s m. revert s. induction m as [|y m IH]; intro s; cbn; constructor; [apply IH|]. apply Forall_forall. intros [b z] Hb. apply in_combine_l, in_map_iff in Hb. destruct Hb as [j [<- Hj]]. apply in_seq in Hj. cbn. lia. }
      specialize (G 0 mem). rewrite E in G, FR. destruct (SS_split _ _ _ _ G) as [_ [B _]]. specialize (B e' (or_introl eq_refl)). rewrite Forall_forall in FR.
      rewrite igeq_spec; [apply N.leb_gt; exact B|apply FR, in_or_app; right; now left|apply FR, in_or_app; right; right; now left].
    + intros A' e b B' EA EB. injection EB as <- _. rewrite EA in FR. rewrite Forall_forall in FR. assert (Ie : In e (A' ++ [e])) by (apply in_or_app; right; now left).
      assert (I2 := Ie). rewrite <- EA in I2. destruct e as [c z]. apply in_combine_l, in_map_iff in I2. destruct I2 as [j [<- Hj]]. apply in_seq in Hj. cbn [fst].
      rewrite igeq_spec; [apply N.leb_gt; lia|apply (FR _ Ie)|exact Ha].
  - apply ro_records_fits; auto; [lia|]. repeat constructor; cbn; lia.
Qed.
(** read-only memory checks itself after every 8*size reads; what was read since is never checked *)
Theorem C33_unchecked_tail : forall data is, data <> [] -> Forall (fun i => i < length data) is ->
  exists s pending drop, ro_reads (ro_init data) is = Some (s, map (fun i => nth i data 0%N) is) /\
    length (ro_checked s) = length is / (8 * length data) /\
    length pending = length is mod (8 * length data) /\ ro_log data is = drop ++ pending /\
    ro_list s = ro_records data pending /\ Forall (fun l => length l = 9 * length data) (ro_checked s).
Proof.
  intros data is Hd F. destruct (ro_reads_inv data is (ro_init data) [] 0 (ro_inv_init data Hd) F) as (s & pending & E & I & L & drop & Ed).
  exists s, pending, drop. destruct I as (_ & I2 & _ & I4 & _ & I6). auto 10.
Qed.

(** ** C34: read-write memory *)
Theorem C34_consistency : forall index_sz step_sz val_sz log l,
  log_fits index_sz step_sz val_sz (numbered 0 log) -> Forall (rw_fits index_sz step_sz val_sz) l ->
  rw_order index_sz step_sz l = true ->
  Permutation (map (rw_word index_sz step_sz val_sz) l) (map (rw_word index_sz step_sz val_sz) (numbered 0 log)) ->
  reads_latest log.
Proof.
  intros n s v log l HF Fl O P. rewrite <- (numbered_erase log 0). apply glatest_erase.
  exact (rw_sound_entries n s v _ l HF (numbered_timed log 0) Fl O P).
Qed.
Theorem C34_honest_passes : forall index_sz step_sz val_sz log l,
  log_fits index_sz step_sz val_sz (numbered 0 log) -> reads_latest log -> written_first log ->
  Permutation l (numbered 0 log) -> Sorted N.le (map (rw_word index_sz step_sz val_sz) l) ->
  rw_order index_sz step_sz l = true.
Proof.
  intros n s v log l HF H1 H2 P S. rewrite <- (numbered_erase log 0) in H1, H2. apply glatest_erase in H1. apply gfirst_erase in H2.
  exact (rw_honest_entries n s v _ l HF (numbered_timed log 0) H1 H2 P S).
Qed.
Theorem C34_session : forall index_sz step_sz val_sz log l ext voleV voleM bM oM threads bufsz polysz rs,
  1 <= threads -> 1 <= bufsz -> index_sz + step_sz + 1 + val_sz <= 128 -> (N.of_nat (length l) < 2 ^ 64)%N ->
  let n := length l in
  map (fun i => fst (ext i)) (seq 0 n) = map (rw_word index_sz step_sz val_sz) l ->
  map (fun i => fst (ext i)) (seq n n) = map (rw_word index_sz step_sz val_sz) (numbered 0 log) ->
  log_fits index_sz step_sz val_sz (numbered 0 log) -> Forall (rw_fits index_sz step_sz val_sz) l ->
  rw_order index_sz step_sz l = true -> ~ reads_latest log -> NoDup rs ->
  (forall r, In r rs -> (r < 2 ^ 128)%N /\ seteq_passes ext voleV voleM bM oM threads bufsz polysz false n r) ->
  length rs < n.
Proof.
  intros n0 s v log l ext voleV voleM bM oM threads bufsz polysz rs Ht Hb Hw Hl n E1 E2 HF Fl O NC ND H.
  apply (seteq_challenges ext voleV voleM bM oM threads bufsz polysz false n rs Ht Hb Hl); auto.
  - intros i Hi. destruct (le_lt_dec n i) as [L|L].
    + assert (In (fst (ext i)) (map (fun i => fst (ext i)) (seq n n))) by (apply in_map_iff; exists i; split; [reflexivity|apply in_seq; lia]).
      rewrite E2 in H0. apply in_map_iff in H0. destruct H0 as [e [<- _]]. now apply rw_word_lt.
    + assert (In (fst (ext i)) (map (fun i => fst (ext i)) (seq 0 n))) by (apply in_map_iff; exists i; split; [reflexivity|apply in_seq; lia]).
      rewrite E1 in H0. apply in_map_iff in H0. destruct H0 as [e [<- _]]. now apply rw_word_lt.
  - rewrite E1, E2. intro P. apply NC. exact (C34_consistency n0 s v log l HF Fl O P).
Qed.
(** a read of a cell that was written may return anything, wherever it stands in an otherwise correct log *)
Theorem C34_top_bit_refuted : forall index_sz step_sz val_sz pre post a w,
  log_fits index_sz step_sz val_sz (numbered 0 (pre ++ {| a_addr := a; a_write := false; a_val := w |} :: post)) ->
  reads_latest (pre ++ post) -> written_first (pre ++ post) -> last_write pre a <> None ->
  exists l, rw_order index_sz step_sz l = true /\
    Permutation (map (rw_word index_sz step_sz val_sz) l)
      (map (rw_word index_sz step_sz val_sz) (numbered 0 (pre ++ {| a_addr := a; a_write := false; a_val := w |} :: post))) /\
    Forall (fun e => (e_idx e < 2 ^ N.of_nat (index_sz + 1))%N /\ (e_step e < 2 ^ N.of_nat step_sz)%N /\ (e_val e < 2 ^ N.of_nat val_sz)%N) l.
Proof.
  intros n s v pre post a w HF H1 H2 H3. pose proof (numbered_timed (pre ++ {| a_addr := a; a_write := false; a_val := w |} :: post) 0) as T.
  rewrite numbered_app, numbered_cons in *. apply rw_forged_entries; auto.
  - apply glatest_erase. now rewrite map_app, !numbered_erase.
  - apply gfirst_erase. now rewrite map_app, !numbered_erase.
  - cbn [e_idx a_addr]. now rewrite glw_erase, numbered_erase.
Qed.
(** more accesses than half the step range: a stale read passes with every field in range *)
Theorem C34_long_log_refuted : exists index_sz step_sz val_sz log l,
  Forall (rw_fits index_sz step_sz val_sz) (numbered 0 log) /\ Permutation l (numbered 0 log) /\
  rw_order index_sz step_sz l = true /\ ~ reads_latest log.
Proof.
  set (W := fun v => {| a_addr := 0%N; a_write := true; a_val := v |}). set (R := fun v => {| a_addr := 0%N; a_write := false; a_val := v |}).
  exists 1, 2, 8, [W 5; R 5; W 6; R 5]%N.
  exists [nth 2 (numbered 0 [W 5; R 5; W 6; R 5]%N) (Build_entry 0 0 false 0); nth 0 (numbered 0 [W 5; R 5; W 6; R 5]%N) (Build_entry 0 0 false 0);
          nth 1 (numbered 0 [W 5; R 5; W 6; R 5]%N) (Build_entry 0 0 false 0); nth 3 (numbered 0 [W 5; R 5; W 6; R 5]%N) (Build_entry 0 0 false 0)].
  split; [repeat constructor|]. split; [|split; [reflexivity|]].
  - cbn. eapply perm_trans; [apply perm_swap|]. apply perm_skip. apply perm_swap.
  - intro H. specialize (H [W 5; R 5; W 6]%N (R 5%N) [] eq_refl eq_refl 6%N eq_refl). discriminate.
Qed.
(** a failing order check only prints: a prover that hands its log over unsorted is never stopped, whatever it read *)
Theorem C34_failure_only_prints : forall index_sz step_sz val_sz log,
  log_fits index_sz step_sz val_sz (numbered 0 log) -> ~ reads_latest log ->
  rw_verdict (rw_order index_sz step_sz (numbered 0 log)) true = PrintedWrong.
Proof.
  intros n s v log HF H. destruct (rw_order n s (numbered 0 log)) eqn:O; [|reflexivity]. exfalso. apply H.
  apply (C34_consistency n s v log (numbered 0 log) HF); [apply HF|exact O|reflexivity].
Qed.
(** a correct prover that reads a cell before writing it is reported, unless the cell is the smallest one used *)
Theorem C34_unwritten_read_reported : forall index_sz step_sz val_sz pre x post p l,
  log_fits index_sz step_sz val_sz (numbered 0 (pre ++ x :: post)) -> a_write x = false -> last_write pre (a_addr x) = None ->
  In p (pre ++ x :: post) -> (a_addr p < a_addr x)%N -> Forall (rw_fits index_sz step_sz val_sz) l ->
  Permutation (map (rw_word index_sz step_sz val_sz) l) (map (rw_word index_sz step_sz val_sz) (numbered 0 (pre ++ x :: post))) ->
  rw_order index_sz step_sz l = false.
Proof.
  intros n s v pre x post p l HF Ox G Hp Lp Fl P. pose proof (numbered_timed (pre ++ x :: post) 0) as T.
  assert (Hp' : exists q, In q (numbered 0 (pre ++ x :: post)) /\ e_idx q = a_addr p).
  { rewrite <- (numbered_erase (pre ++ x :: post) 0) in Hp. apply in_map_iff in Hp. destruct Hp as [q [<- Hq]]. now exists q. }
  destruct Hp' as [q [Hq Eq]].
  apply (rw_unwritten_entries n s v (numbered 0 (pre ++ x :: post)) l (numbered 0 pre)
     {| e_idx := a_addr x; e_step := N.of_nat (0 + length pre); e_op := a_write x; e_val := a_val x |} (numbered (S (0 + length pre)) post) q HF T); auto.
  - rewrite numbered_app, numbered_cons. reflexivity.
  - cbn [e_idx]. now rewrite glw_erase, numbered_erase.
  - cbn [e_idx]. lia.
Qed.

(** ** C35: wide memory *)
Theorem C35_honest_passes : forall index_sz step_sz nw log l,
  wlog_fits index_sz step_sz nw (wnumbered 0 log) -> wreads_latest log -> wwritten_first log ->
  Permutation l (wnumbered 0 log) -> Sorted N.le (map (fun e => hd 0%N (wide_row e)) l) ->
  ext_order step_sz l = true.
Proof.
  intros n s nw log l HF H1 H2 P S. rewrite <- (wnumbered_erase log 0) in H1, H2. apply wglatest_erase in H1. apply wgfirst_erase in H2.
  exact (wide_honest_entries n s nw _ l HF (wnumbered_timed log 0) H1 H2 P S).
Qed.
(** the check is sound only for a prover that keeps the accesses sorted by address *)
Theorem C35_consistency_if_sorted : forall index_sz step_sz nw log l,
  wlog_fits index_sz step_sz nw (wnumbered 0 log) -> Forall wide_fits l -> Forall (fun e => length (w_val e) = nw) l ->
  Permutation (map wide_row l) (map wide_row (wnumbered 0 log)) ->
  StronglySorted (fun a b => (w_idx a <= w_idx b)%N) l -> ext_order step_sz l = true -> wreads_latest log.
Proof.
  intros n s nw log l HF Fl Fn P S O. rewrite <- (wnumbered_erase log 0). apply wglatest_erase.
  exact (wide_grouped_entries n s nw _ l HF (wnumbered_timed log 0) Fl Fn P S O).
Qed.
(** but nothing enforces that: any log in which no address is used twice in a row passes unsorted, whatever was read *)
Theorem C35_alternating_log_refuted : forall step_sz log,
  (forall m1 a b m2, log = m1 ++ a :: b :: m2 -> b_addr a <> b_addr b) -> ext_order step_sz (wnumbered 0 log) = true.
Proof.
  intros s log H. apply ext_order_alternating. intros m1 a b m2 E Ei. apply (f_equal (map werase)) in E. rewrite wnumbered_erase, map_app in E. cbn [map] in E.
  exact (H _ _ _ _ E Ei).
Qed.

(** ** C36: packing *)
Theorem C36_ro_pack : forall index_sz val_sz i v, index_sz + val_sz <= 128 ->
  (i < 2 ^ N.of_nat index_sz)%N -> (v < 2 ^ N.of_nat val_sz)%N -> ro_pack val_sz i v = ro_word index_sz val_sz (i, v).
Proof. exact ro_pack_word. Qed.
Theorem C36_rw_pack : forall index_sz step_sz val_sz i v s (o : bool), index_sz + step_sz + 1 <= 64 -> index_sz + step_sz + 1 + val_sz <= 128 ->
  (i < 2 ^ N.of_nat index_sz)%N -> (v < 2 ^ N.of_nat val_sz)%N -> (s < 2 ^ N.of_nat step_sz)%N ->
  rw_pack step_sz val_sz i v s (N.b2n o) = rw_word index_sz step_sz val_sz {| e_idx := i; e_step := s; e_op := o; e_val := v |}.
Proof. exact rw_pack_word. Qed.
Theorem C36_wide_pack : forall e, wide_fits e -> ext_pack (w_idx e) (w_val e) (w_step e) (N.b2n (w_op e)) = Some (wide_row e).
Proof. exact wide_pack_row. Qed.
Theorem C36_ro_injective : forall index_sz val_sz i v i' v', index_sz + val_sz <= 128 ->
  ro_fits index_sz val_sz (i, v) -> ro_fits index_sz val_sz (i', v') -> ro_pack val_sz i v = ro_pack val_sz i' v' -> i = i' /\ v = v'.
Proof.
  intros n w i v i' v' L F F' E. rewrite (ro_pack_word n w i v), (ro_pack_word n w i' v') in E by (apply F || apply F' || exact L).
  apply ro_fits_inj in E; auto. now injection E.
Qed.
Theorem C36_rw_injective : forall index_sz step_sz val_sz e e', index_sz + step_sz + 1 <= 64 -> index_sz + step_sz + 1 + val_sz <= 128 ->
  rw_fits index_sz step_sz val_sz e -> rw_fits index_sz step_sz val_sz e' ->
  rw_pack step_sz val_sz (e_idx e) (e_val e) (e_step e) (N.b2n (e_op e)) = rw_pack step_sz val_sz (e_idx e') (e_val e') (e_step e') (N.b2n (e_op e')) -> e = e'.
Proof.
  intros n s w e e' L1 L2 F F' E. rewrite (rw_pack_word n s w (e_idx e)), (rw_pack_word n s w (e_idx e')) in E by (apply F || apply F' || assumption).
  destruct e as [i st o v], e' as [i' st' o' v']. cbn [e_idx e_step e_op e_val] in E. exact (rw_word_inj n s w _ _ F F' E).
Qed.
Theorem C36_wide_injective : forall e e', wide_fits e -> wide_fits e' -> length (w_val e) = length (w_val e') ->
  ext_pack (w_idx e) (w_val e) (w_step e) (N.b2n (w_op e)) = ext_pack (w_idx e') (w_val e') (w_step e') (N.b2n (w_op e')) -> e = e'.
Proof.
  intros e e' F F' L E. rewrite (wide_pack_row e F), (wide_pack_row e' F') in E. apply wide_row_inj; auto. congruence.
Qed.
(** address and step wider than a 64-bit word: different addresses pack to the same element *)
Theorem C36_narrow_word_refuted : forall step_sz val_sz i v s o, step_sz <= 63 ->
  rw_pack step_sz val_sz (i + 2 ^ N.of_nat (63 - step_sz)) v s o = rw_pack step_sz val_sz i v s o.
Proof.
  intros st vs i v s o L. unfold rw_pack. cbv zeta. replace (shl_u64 (i + 2 ^ N.of_nat (63 - st)) (st + 1)) with (shl_u64 i (st + 1)); [reflexivity|].
  unfold shl_u64. rewrite !N.shiftl_mul_pow2, N.mul_add_distr_r, <- N.pow_add_r. replace (N.of_nat (63 - st) + N.of_nat (st + 1))%N with 64%N by lia.
  replace (2 ^ 64)%N with (1 * 2 ^ 64)%N at 2 by reflexivity. now rewrite N.mod_add.
Qed.
(** items of the sorted list are split back into the fields they were packed from *)
Theorem C36_ro_unpack : forall index_sz val_sz e, index_sz <= 63 -> val_sz <= 64 -> ro_fits index_sz val_sz e ->
  ro_unpack index_sz val_sz (ro_word index_sz val_sz e) = e.
Proof. intros n v e L1 L2 [F1 F2]. now apply ro_unpack_word. Qed.
Theorem C36_rw_unpack : forall index_sz step_sz val_sz e, index_sz + step_sz + 1 <= 64 -> val_sz <= 64 -> 1 <= step_sz ->
  rw_fits index_sz step_sz val_sz e ->
  rw_unpack index_sz step_sz val_sz (rw_word index_sz step_sz val_sz e) = (e_idx e, e_step e, e_op e, e_val e).
Proof. exact rw_unpack_word. Qed.
Theorem C36_wide_unpack : forall nw, 2 <= nw -> (N.of_nat nw < 2 ^ 64)%N ->
  x_unpack_plan nw = Some (map (fun k => ((k + 1) / 2, Nat.odd k)) (seq 0 nw)).
Proof. exact x_unpack_plan_ok. Qed.
Theorem C36_wide_unpack_one_refuted : x_unpack_plan 1 = None.
Proof. reflexivity. Qed.
(** labels: packing the keys gives the key of the packed value *)
Theorem C36_ro_mac : forall d index_sz val_sz li lv, index_sz + val_sz <= 128 -> index_sz <= length li -> val_sz <= length lv ->
  ro_pack_mac index_sz val_sz (map (kof d) li) (map (kof d) lv) =
  key_of d (ro_word index_sz val_sz (word_of (map snd li), word_of (map snd lv)),
            ro_pack_mac index_sz val_sz (map fst li) (map fst lv)).
Proof. exact ro_pack_mac_kof. Qed.
Theorem C36_rw_mac : forall d index_sz step_sz val_sz li lv ls x, index_sz + step_sz + 1 + val_sz <= 128 ->
  index_sz <= length li -> val_sz <= length lv -> step_sz <= length ls ->
  rw_pack_mac index_sz step_sz val_sz (map (kof d) li) (map (kof d) lv) (map (kof d) ls) (kof d x) =
  key_of d (rw_word index_sz step_sz val_sz
              {| e_idx := word_of (map snd li); e_step := word_of (map snd ls); e_op := snd x; e_val := word_of (map snd lv) |},
            rw_pack_mac index_sz step_sz val_sz (map fst li) (map fst lv) (map fst ls) (fst x)).
Proof. exact rw_pack_mac_kof. Qed.
Theorem C36_wide_mac : forall d li vals ls x, vals <> [] -> Forall (fun l => length l = 64) vals -> length ls <= 31 -> length li <= 32 ->
  exists ms, ext_pack_mac (map fst li) (map (map fst) vals) (map fst ls) (fst x) = Some ms /\
  ext_pack_mac (map (kof d) li) (map (map (kof d)) vals) (map (kof d) ls) (kof d x) =
    Some (map (key_of d) (combine (wide_row {| w_idx := word_of (map snd li); w_step := word_of (map snd ls); w_op := snd x;
                                               w_val := map (fun l => word_of (map snd l)) vals |}) ms)) /\
  length ms = length (wide_row {| w_idx := word_of (map snd li); w_step := word_of (map snd ls); w_op := snd x;
                                  w_val := map (fun l => word_of (map snd l)) vals |}).
Proof. exact ext_pack_mac_kof. Qed.
Theorem C36_wide_compress : forall d coef vs ms, length vs = length ms ->
  compress coef (map (key_of d) (combine vs ms)) = key_of d (compress coef vs, compress coef ms).
Proof. exact compress_kof. Qed.
Theorem C36_wide_collision : forall a b, length a = length b -> Forall (fun x => (x < 2 ^ 128)%N) a -> Forall (fun x => (x < 2 ^ 128)%N) b -> a <> b ->
  exists j, j < length a /\ forall c1 c2 u v, length c1 = j -> (u < 2 ^ 128)%N -> (v < 2 ^ 128)%N ->
    compress (c1 ++ u :: c2) a = compress (c1 ++ u :: c2) b -> compress (c1 ++ v :: c2) a = compress (c1 ++ v :: c2) b -> u = v.
Proof. exact compress_collision. Qed.
(** the two products *)
Theorem C36_products : forall acc_last n r ev, 3 <= n -> (N.of_nat n < 2 ^ 64)%N -> (r < 2 ^ 128)%N -> (forall i, i < 2 * n -> (ev i < 2 ^ 128)%N) ->
  exists c a0 a1, seteq_circuit acc_last n r = Some (c, a0, a1) /\
    let ws := fplain ev 0 [] c in
    nth_error ws a0 = Some (shifted_product r (map ev (seq 0 n))) /\ nth_error ws a1 = Some (shifted_product r (map ev (seq n n))).
Proof.
  intros acc_last n r ev H3 Hn Hr He. destruct (seteq_circuit_ok acc_last n r ev H3 Hn Hr He) as (c & a0 & a1 & E & L0 & L1 & V0 & V1 & _).
  exists c, a0, a1. split; [exact E|]. cbv zeta in *. unfold fval in *. rewrite <- V0, <- V1. split; now apply nth_error_nth'.
Qed.
Theorem C36_short_lists_refuted : forall acc_last n r, n < 3 -> seteq_circuit acc_last n r = None.
Proof. exact seteq_small. Qed.
(** different multisets agree on fewer shifts than their size *)
Theorem C36_multiset_bound : forall xs ys rs, length xs = length ys ->
  Forall (fun x => (x < 2 ^ 128)%N) xs -> Forall (fun x => (x < 2 ^ 128)%N) ys -> Forall (fun x => (x < 2 ^ 128)%N) rs ->
  ~ Permutation xs ys -> NoDup rs -> (forall r, In r rs -> shifted_product r xs = shifted_product r ys) -> length rs < length xs.
Proof. exact sprod_bound. Qed.

(** ** C37: life cycle *)
Theorem C37_before_check : forall index_sz step_sz os, Forall (fun o => rw_is_access o /\ rw_address o < 2 ^ index_sz) os ->
  exists s log, rw_run index_sz step_sz (rw_init index_sz) os = Some s /\ rw_list s = numbered 0 log /\ length log = length os /\
    reads_latest log /\ rw_checked s = [] /\
    forall i, i < 2 ^ index_sz -> nth_error (rw_mem s) i = Some (match last_write log (N.of_nat i) with Some v => v | None => 0%N end).
Proof.
  intros n st os F. destruct (rw_run_inv n st os (rw_init n) [] (rw_inv_init n) F) as (s & log & E & I & L). exists s, log.
  destruct I as (_ & I2 & _ & I4 & I5 & I6 & _). auto 10.
Qed.
Theorem C37_after_check : forall index_sz step_sz os1 os2 s s', rw_run index_sz step_sz s (os1 ++ RCheck :: os2) = Some s' ->
  Forall (fun o => ~ rw_is_access o) os2 /\ rw_mem s' = [].
Proof.
  intros n st os1 os2. induction os1 as [|o os1 IH]; intros s s' H; cbn [app rw_run] in H.
  - cbn [rw_do] in H. exact (rw_mem_empty_stays n st os2 (rw_check s) s' eq_refl H).
  - destruct (rw_do n st s o) as [s1|]; [|discriminate]. exact (IH s1 s' H).
Qed.
Theorem C37_refresh_out_of_bounds : forall index_sz step_sz s, rw_step s + 2 ^ index_sz = 2 ^ (step_sz - 1) -> rw_do index_sz step_sz s RRefresh = None.
Proof. exact rw_refresh_fires. Qed.
Theorem C37_refresh_otherwise_nothing : forall index_sz step_sz s, rw_step s + 2 ^ index_sz <> 2 ^ (step_sz - 1) -> rw_do index_sz step_sz s RRefresh = Some s.
Proof. intros n st s H. cbn [rw_do]. unfold rw_refresh. apply Nat.eqb_neq in H. now rewrite H. Qed.
Theorem C37_wide_after_check : forall nw s o s', x_do nw s WCheck = Some s' -> w_is_access o -> x_do nw s' o = None.
Proof. intros nw s o s' H A. injection H as <-. now apply x_no_cells. Qed.
Theorem C37_wide_unwritten_read : forall nw index_sz os s i, x_run nw (x_init index_sz) os = Some s -> (forall o, In o os -> w_is_access o) ->
  (forall v, ~ In (WWrite i v) os) -> x_do nw s (WRead i) = None.
Proof. intros nw n os s i H A Hn. exact (x_fresh_read nw n s os H A i Hn). Qed.

(** ** Examples *)
Example C33_consistency_ex :
  ro_order 1 [(0, 5); (0, 5); (1, 7); (1, 7)]%N = true /\
  Permutation (map (ro_word 1 8) [(0, 5); (0, 5); (1, 7); (1, 7)]%N) (map (ro_word 1 8) (ro_records [5; 7]%N [(1, 7); (0, 5)]%N)) /\
  ro_consistent [5; 7]%N [(1, 7); (0, 5)]%N.
Proof.
  assert (P : Permutation [(0, 5); (0, 5); (1, 7); (1, 7)]%N (ro_records [5; 7]%N [(1, 7); (0, 5)]%N)).
  { cbn. apply perm_skip. eapply perm_trans; [apply perm_swap|]. apply perm_skip. apply perm_swap. }
  split; [reflexivity|]. split; [now apply Permutation_map|].
  apply (C33_consistency 1 8 _ _ [(0, 5); (0, 5); (1, 7); (1, 7)]%N); [cbn; lia|repeat constructor|repeat constructor|repeat constructor|reflexivity|now apply Permutation_map].
Qed.
(** the read of 9 at address 1 of the memory 5, 7 *)
Example C33_top_bit_ex : ro_order 1 [(3, 9); (0, 5); (1, 7)]%N = true /\
  Permutation (map (ro_word 1 8) [(3, 9); (0, 5); (1, 7)]%N) (map (ro_word 1 8) (ro_records [5; 7]%N [(1, 9)]%N)) /\
  ~ ro_consistent [5; 7]%N [(1, 9)]%N.
Proof.
  split; [reflexivity|]. split.
  - vm_compute. eapply perm_trans; [apply perm_swap|]. apply perm_skip. apply perm_swap.
  - intro H. specialize (H 1 9%N). cbn in H. specialize (H (or_introl eq_refl) ltac:(lia)). discriminate.
Qed.
Definition ex_log : list acc :=
  [{| a_addr := 1; a_write := true; a_val := 4 |}; {| a_addr := 0; a_write := true; a_val := 3 |};
   {| a_addr := 1; a_write := false; a_val := 4 |}; {| a_addr := 1; a_write := true; a_val := 6 |};
   {| a_addr := 1; a_write := false; a_val := 6 |}]%N.
Lemma split5 {A} (P : list A -> A -> list A -> Prop) a b c d e :
  P [] a [b; c; d; e] -> P [a] b [c; d; e] -> P [a; b] c [d; e] -> P [a; b; c] d [e] -> P [a; b; c; d] e [] ->
  forall pre x post, [a; b; c; d; e] = pre ++ x :: post -> P pre x post.
Proof.
  intros H1 H2 H3 H4 H5 pre x post E. destruct pre as [|p1 [|p2 [|p3 [|p4 [|p5 pre]]]]]; cbn in E; injection E; intros; subst; try assumption.
  destruct pre; discriminate.
Qed.
Example ex_log_ok : reads_latest ex_log /\ written_first ex_log /\ log_fits 1 4 8 (numbered 0 ex_log).
Proof.
  repeat split.
  - unfold reads_latest, ex_log. apply (split5 (fun pre x post => a_write x = false -> forall v, last_write pre (a_addr x) = Some v -> a_val x = v)); cbn; intros; congruence.
  - unfold written_first, ex_log. apply (split5 (fun pre x post => a_write x = false -> last_write pre (a_addr x) <> None)); cbn; intros; congruence.
  - repeat constructor.
  - repeat constructor.
  - lia.
Qed.
Example C34_honest_ex : rw_order 1 4 (isort (rw_word 1 4 8) (numbered 0 ex_log)) = true.
Proof.
  destruct ex_log_ok as [H1 [H2 H3]]. apply (C34_honest_passes 1 4 8 ex_log); auto; [apply isort_perm|].
  apply StronglySorted_Sorted, (SS_map (rw_word 1 4 8) N.le), isort_sorted.
Qed.
Example C34_top_bit_ex : exists l, rw_order 1 4 l = true /\
  Permutation (map (rw_word 1 4 8) l) (map (rw_word 1 4 8) (numbered 0 (ex_log ++ [{| a_addr := 1; a_write := false; a_val := 99 |}]%N))) /\
  ~ reads_latest (ex_log ++ [{| a_addr := 1; a_write := false; a_val := 99 |}]%N).
Proof.
  destruct ex_log_ok as [H1 [H2 H3]]. destruct (C34_top_bit_refuted 1 4 8 ex_log [] 1 99) as [l [A [B _]]].
  - split; [repeat constructor|]. split; [repeat constructor|lia].
  - now rewrite app_nil_r.
  - now rewrite app_nil_r.
  - discriminate.
  - exists l. split; [exact A|]. split; [exact B|]. intro H. specialize (H ex_log _ [] eq_refl eq_refl 6%N eq_refl). discriminate.
Qed.
Example C34_unwritten_ex : forall l, Forall (rw_fits 1 4 8) l ->
  Permutation (map (rw_word 1 4 8) l) (map (rw_word 1 4 8) (numbered 0 [{| a_addr := 0; a_write := true; a_val := 3 |}; {| a_addr := 1; a_write := false; a_val := 0 |}]%N)) ->
  rw_order 1 4 l = false.
Proof.
  intros l F P. apply (C34_unwritten_read_reported 1 4 8 [{| a_addr := 0; a_write := true; a_val := 3 |}]%N {| a_addr := 1; a_write := false; a_val := 0 |}%N [] {| a_addr := 0; a_write := true; a_val := 3 |}%N l); auto.
  - split; [repeat constructor|]. split; [repeat constructor|lia].
  - now left.
  - reflexivity.
Qed.
(** wide memory: 7, 8 read where 1, 2 was written *)
Definition ex_wlog : list wacc := [{| b_addr := 1; b_write := true; b_val := [1; 2] |}; {| b_addr := 0; b_write := true; b_val := [3; 4] |}; {| b_addr := 1; b_write := false; b_val := [7; 8] |}]%N.
Example C35_alternating_ex : ext_order 4 (wnumbered 0 ex_wlog) = true /\ ~ wreads_latest ex_wlog.
Proof.
  split; [reflexivity|]. intro H. specialize (H [nth 0 ex_wlog (Build_wacc 0 true []); nth 1 ex_wlog (Build_wacc 0 true [])] _ [] eq_refl eq_refl [1; 2]%N eq_refl). discriminate.
Qed.
Example C37_before_check_ex : option_map rw_mem (rw_run 1 4 (rw_init 1) [RWrite 1 4; RRead 1; RAccess true 0 3; RRead 0]%N) = Some [3; 4]%N.
Proof. reflexivity. Qed.
Example C37_after_check_ex : rw_run 1 4 (rw_init 1) [RWrite 1 4%N; RCheck; RRead 1] = None.
Proof. reflexivity. Qed.
Example C37_refresh_ex : rw_run 1 3 (rw_init 1) [RWrite 1 4%N; RRead 1; RRefresh] = None.
Proof. reflexivity. Qed.
Example C37_wide_ex : option_map x_mem (x_run 2 (x_init 1) [WWrite 1 [4; 5]%N; WRead 1]) = Some [[]; [4; 5]%N] /\ x_run 2 (x_init 1) [WWrite 1 [4; 5]%N; WRead 0] = None.
Proof. split; reflexivity. Qed.
Example C33_unchecked_tail_ex : option_map (fun p => (length (ro_checked (fst p)), snd p)) (ro_reads (ro_init [5; 7]%N) [1; 0; 1]) = Some (0, [7; 5; 7]%N).
Proof. reflexivity. Qed.
Example C36_products_ex : option_map (fun t => length (fst (fst t))) (seteq_circuit true 6 3%N) = Some 28.
Proof. reflexivity. Qed.

Print Assumptions C33_consistency.
Print Assumptions C33_honest_passes.
Print Assumptions C33_session.
Print Assumptions C33_honest_set_equality.
Print Assumptions C33_top_bit_refuted.
Print Assumptions C33_outside_memory_refuted.
Print Assumptions C33_unchecked_tail.
Print Assumptions C34_consistency.
Print Assumptions C34_honest_passes.
Print Assumptions C34_session.
Print Assumptions C34_top_bit_refuted.
Print Assumptions C34_long_log_refuted.
Print Assumptions C34_failure_only_prints.
Print Assumptions C34_unwritten_read_reported.
Print Assumptions C35_honest_passes.
Print Assumptions C35_consistency_if_sorted.
Print Assumptions C35_alternating_log_refuted.
Print Assumptions C36_ro_pack.
Print Assumptions C36_rw_pack.
Print Assumptions C36_wide_pack.
Print Assumptions C36_ro_injective.
Print Assumptions C36_rw_injective.
Print Assumptions C36_wide_injective.
Print Assumptions C36_narrow_word_refuted.
Print Assumptions C36_ro_unpack.
Print Assumptions C36_rw_unpack.
Print Assumptions C36_wide_unpack.
Print Assumptions C36_wide_unpack_one_refuted.
Print Assumptions C36_ro_mac.
Print Assumptions C36_rw_mac.
Print Assumptions C36_wide_mac.
Print Assumptions C36_wide_compress.
Print Assumptions C36_wide_collision.
Print Assumptions C36_products.
Print Assumptions C36_short_lists_refuted.
Print Assumptions C36_multiset_bound.
Print Assumptions C37_before_check.
Print Assumptions C37_after_check.
Print Assumptions C37_refresh_out_of_bounds.
Print Assumptions C37_refresh_otherwise_nothing.
Print Assumptions C37_wide_after_check.
Print Assumptions C37_wide_unwritten_read.
