From Coq Require Import NArith List Bool Arith Lia.
From Verif Require Import Word WordProofs GF128 GF128Ring GF128Field BoolModel BoolSpec.
Import ListNotations.
Local Open Scope N_scope.
Ltac Zify.zify_post_hook ::= idtac.

(** * Bit-level facts *)
Lemma getLSB_lxor a b : getLSB (N.lxor a b) = xorb (getLSB a) (getLSB b).
Proof. apply N.lxor_spec. Qed.
Lemma minusone_bit i : N.testbit minusone i = (0 <? i) && (i <? 128).
Proof.
  assert (E : minusone = N.shiftl (N.ones 127) 1) by reflexivity.
  rewrite E. destruct (N.eq_dec i 0) as [->|Hi]; [reflexivity|].
  rewrite N.shiftl_spec_high' by lia.
  replace (0 <? i) with true by (symmetry; apply N.ltb_lt; lia). cbn [andb].
  destruct (N.lt_ge_cases i 128) as [H|H].
  - rewrite N.ones_spec_low by lia. symmetry. now apply N.ltb_lt.
  - rewrite N.ones_spec_high by lia. symmetry. now apply N.ltb_ge.
Qed.
Lemma minusone_lt : minusone < 2 ^ 128. Proof. reflexivity. Qed.
Lemma szb_lt a : set_zero_bit a < 2 ^ 128.
Proof. unfold set_zero_bit. apply land_lt_r. exact minusone_lt. Qed.
Lemma bit_high a i : a < 2 ^ 128 -> 128 <= i -> N.testbit a i = false.
Proof. intros. now apply testbit_high with 128. Qed.
Lemma getLSB_choice d b : getLSB d = true -> getLSB (choice d b) = b.
Proof. intro H. destruct b; [exact H|reflexivity]. Qed.
Lemma choice_lt d b : d < 2 ^ 128 -> choice d b < 2 ^ 128.
Proof. intro. destruct b; [easy|reflexivity]. Qed.
Lemma choice_bit d b i : N.testbit (choice d b) i = b && N.testbit d i.
Proof. destruct b; [reflexivity|exact (N.bits_0 i)]. Qed.
Lemma svb_bit a v i : N.testbit (set_value_in_block a v) i =
  if i =? 0 then v else (i <? 128) && N.testbit a i.
Proof.
  unfold set_value_in_block. rewrite N.lxor_spec, N.land_spec, minusone_bit.
  destruct (N.eq_dec i 0) as [->|Hi].
  - rewrite andb_false_r. now destruct v.
  - replace (i =? 0) with false by (symmetry; now apply N.eqb_neq).
    replace (0 <? i) with true by (symmetry; apply N.ltb_lt; lia). cbn [andb].
    replace (N.testbit (if v then 1 else 0) i) with false.
    + rewrite xorb_false_r. apply andb_comm.
    + destruct v; [|now rewrite N.bits_0].
      destruct i as [|p]; [easy|]. now destruct p.
Qed.
Lemma getLSB_svb a v : getLSB (set_value_in_block a v) = v.
Proof. unfold getLSB. now rewrite svb_bit. Qed.
Lemma svb_lt a v : set_value_in_block a v < 2 ^ 128.
Proof.
  apply lt_pow2_testbit. intros i Hi. rewrite svb_bit.
  replace (i =? 0) with false by (symmetry; apply N.eqb_neq; lia).
  replace (i <? 128) with false by (symmetry; apply N.ltb_ge; lia). reflexivity.
Qed.

(** key held by the verifier for the committed pair (M, x) *)
Definition kof (d : N) (mx : N * bool) : N := N.lxor (fst mx) (choice d (snd mx)).

Lemma kof_input d M b : getLSB d = true -> d < 2 ^ 128 ->
  ver_input d (kof d (M, getLSB M)) b =
  kof d (set_value_in_block M (xorb (getLSB M) b), xorb (getLSB M) b).
Proof.
  intros Hd Hlt. unfold ver_input, set_zero_bit, kof. cbn [fst snd].
  apply N.bits_inj. intro i. rewrite N.land_spec, !N.lxor_spec, !choice_bit, minusone_bit, svb_bit.
  destruct (N.eq_dec i 0) as [->|Hi].
  - rewrite andb_false_r. unfold getLSB in Hd. rewrite Hd. cbn.
    now destruct (getLSB M), b.
  - replace (i =? 0) with false by (symmetry; now apply N.eqb_neq).
    replace (0 <? i) with true by (symmetry; apply N.ltb_lt; lia). cbn [andb].
    destruct (N.lt_ge_cases i 128) as [H|H].
    + replace (i <? 128) with true by (symmetry; now apply N.ltb_lt). cbn [andb].
      rewrite andb_true_r. destruct (getLSB M), b, (N.testbit M i), (N.testbit d i); reflexivity.
    + replace (i <? 128) with false by (symmetry; now apply N.ltb_ge). cbn [andb].
      rewrite andb_false_r. rewrite (bit_high d i) by easy. now rewrite andb_false_r.
Qed.
Lemma kof_xor d a b : N.lxor (kof d a) (kof d b) = kof d (N.lxor (fst a) (fst b), xorb (snd a) (snd b)).
Proof.
  unfold kof. cbn [fst snd]. rewrite lxor_swap. f_equal.
  destruct (snd a), (snd b); cbn; rewrite ?N.lxor_nilpotent, ?N.lxor_0_r, ?N.lxor_0_l; reflexivity.
Qed.
Lemma kof_not d a : ver_not d (kof d a) = kof d (prv_not (fst a), negb (snd a)).
Proof.
  unfold ver_not, prv_not, zdelta, kof. cbn [fst snd].
  apply N.bits_inj. intro i. rewrite !N.lxor_spec, !choice_bit.
  destruct (snd a); cbn [negb andb]; destruct (N.testbit (fst a) i), (N.testbit d i), (N.testbit 1 i); reflexivity.
Qed.
Lemma kof_pub d r0 r1 b : ver_pub_label d r0 r1 b = kof d (prv_pub_label r0 r1 b, b).
Proof.
  unfold ver_pub_label, prv_pub_label, zdelta, kof. cbn [fst snd].
  destruct b; cbn [choice]; [|now rewrite N.lxor_0_r].
  rewrite N.lxor_assoc. f_equal. apply N.lxor_comm.
Qed.
Lemma kof_reveal d a b :
  N.lxor (kof d a) (choice d b) = N.lxor (fst a) (choice d (xorb (snd a) b)).
Proof.
  unfold kof. rewrite N.lxor_assoc. f_equal.
  destruct (snd a), b; cbn; rewrite ?N.lxor_nilpotent, ?N.lxor_0_r; reflexivity.
Qed.

(** * Shadow execution: labels and committed bits, no Delta *)
Definition sgate : Type := (N * bool) * (N * bool) * (N * bool).
Definition vgate (d : N) (g : sgate) : N * N * N :=
  let '(l, r, o) := g in (kof d l, kof d r, kof d o).
Record check_inst := { ci_buf : list sgate; ci_ranges : list (nat * nat); ci_idx : nat;
                       ci_ope : list (N * bool) }.
Record sst := { s_wires : list (N * bool); s_buf : list sgate; s_rev : list ((N * bool) * bool);
                s_cot : nat; s_chk : nat; s_bits : nat; s_checks : list check_inst }.
Definition swire (ws : list (N * bool)) (i : nat) : N * bool := nth i ws (0, false).
Section Shadow.
  Variables (r0 r1 : N) (pM : nat -> N) (threads csz : nat) (bitmsg : nat -> bool).
  Definition sM (i : nat) : N * bool := (pM i, getLSB (pM i)).
  Definition s_manage (s : sst) : option sst :=
    match and_ranges threads (length (s_buf s)) with
    | None => None
    | Some rs =>
        Some {| s_wires := s_wires s; s_buf := s_buf s; s_rev := s_rev s; s_cot := s_cot s + 128;
                s_chk := S (s_chk s); s_bits := s_bits s;
                s_checks := s_checks s ++ [{| ci_buf := s_buf s; ci_ranges := rs; ci_idx := s_chk s;
                                              ci_ope := map sM (seq (s_cot s) 128) |}] |}
    end.
  Definition s_clear (s : sst) : sst :=
    {| s_wires := s_wires s; s_buf := []; s_rev := s_rev s; s_cot := s_cot s; s_chk := s_chk s;
       s_bits := s_bits s; s_checks := s_checks s |}.
  Definition s_precheck (s : sst) : option sst :=
    if Nat.eqb (length (s_buf s)) csz
    then match s_manage s with None => None | Some s' => Some (s_clear s') end else Some s.
  Definition s_add (s : sst) (w : N * bool) : sst :=
    {| s_wires := s_wires s ++ [w]; s_buf := s_buf s; s_rev := s_rev s; s_cot := s_cot s;
       s_chk := s_chk s; s_bits := s_bits s; s_checks := s_checks s |}.
  Definition snew (s : sst) : N * bool :=
    let M := pM (s_cot s) in let x := xorb (getLSB M) (bitmsg (s_bits s)) in
    (set_value_in_block M x, x).
  Definition s_step (s : sst) (g : gate) : option sst :=
    match g with
    | GIn _ => Some {| s_wires := s_wires s ++ [snew s]; s_buf := s_buf s; s_rev := s_rev s;
                       s_cot := S (s_cot s); s_chk := s_chk s; s_bits := S (s_bits s);
                       s_checks := s_checks s |}
    | GPub b => Some (s_add s (prv_pub_label r0 r1 b, b))
    | GXor i j => let a := swire (s_wires s) i in let b := swire (s_wires s) j in
                  Some (s_add s (N.lxor (fst a) (fst b), xorb (snd a) (snd b)))
    | GNot i => let a := swire (s_wires s) i in Some (s_add s (prv_not (fst a), negb (snd a)))
    | GAnd i j =>
        match s_precheck s with
        | None => None
        | Some s =>
            let a := swire (s_wires s) i in let b := swire (s_wires s) j in
            Some {| s_wires := s_wires s ++ [snew s]; s_buf := s_buf s ++ [(a, b, snew s)];
                    s_rev := s_rev s; s_cot := S (s_cot s); s_chk := s_chk s; s_bits := S (s_bits s);
                    s_checks := s_checks s |}
        end
    | GReveal i =>
        Some {| s_wires := s_wires s; s_buf := s_buf s;
                s_rev := s_rev s ++ [(swire (s_wires s) i, bitmsg (s_bits s))];
                s_cot := s_cot s; s_chk := s_chk s; s_bits := S (s_bits s); s_checks := s_checks s |}
    end.
  Definition s_init : sst :=
    {| s_wires := []; s_buf := []; s_rev := []; s_cot := 1; s_chk := 0; s_bits := 0; s_checks := [] |}.
  Fixpoint s_run (s : sst) (c : list gate) : option sst :=
    match c with [] => Some s | g :: c' => match s_step s g with None => None | Some s' => s_run s' c' end end.
  Definition s_final (s : sst) : option sst := match s_buf s with [] => Some s | _ => s_manage s end.
  Definition s_exec (c : list gate) : option sst :=
    match s_run s_init c with None => None | Some s => s_final s end.

  (** ** The verifier for a given Delta is the image of the shadow *)
  Variables (d : N) (seeds : nat -> nat -> N) (chkmsg : nat -> N * N).
  Hypothesis Hd1 : getLSB d = true.
  Hypothesis Hd : d < 2 ^ 128.
  Definition vK (i : nat) : N := kof d (sM i).
  Definition ci_ok (ci : check_inst) : bool :=
    ver_accept d (chkmsg (ci_idx ci))
      (ver_B_star d (map (vgate d) (ci_buf ci)) (ci_ranges ci) (seeds (ci_idx ci)) (map (kof d) (ci_ope ci))).
  Definition rev_key (r : (N * bool) * bool) : N :=
    N.lxor (fst (fst r)) (choice d (xorb (snd (fst r)) (snd r))).
  Record vsim (v : vst) (s : sst) : Prop := {
    vs_w : v_wires v = map (kof d) (s_wires s);
    vs_b : v_buf v = map (vgate d) (s_buf s);
    vs_h : v_hash v = map rev_key (s_rev s);
    vs_c : v_cot v = s_cot s; vs_k : v_chk v = s_chk s; vs_m : v_bits v = s_bits s;
    vs_o : v_outs v = map snd (s_rev s);
    vs_x : v_cheat v = repeat 0%nat (length (filter (fun ci => negb (ci_ok ci)) (s_checks s))) }.
  Lemma wire_kof ws i : wire (map (kof d) ws) i = kof d (swire ws i).
  Proof.
    unfold wire, swire. change 0 with (kof d (0, false)) at 1. apply map_nth.
  Qed.
  Lemma slice_eq from n : vK_slice vK from n = map (kof d) (map sM (seq from n)).
  Proof. unfold vK_slice. now rewrite map_map. Qed.
  Lemma repeat_snoc {A} (a : A) n : repeat a n ++ [a] = repeat a (S n).
  Proof. induction n; cbn; auto. now rewrite IHn. Qed.
  Lemma sim_manage v s : vsim v s ->
    match ver_manage vK d threads seeds chkmsg v, s_manage s with
    | Some v', Some s' => vsim v' s' | None, None => True | _, _ => False end.
  Proof.
    intros []. unfold ver_manage, s_manage. rewrite vs_b0, map_length.
    destruct (and_ranges threads (length (s_buf s))) as [rs|]; [|easy].
    rewrite vs_c0, vs_k0, slice_eq.
    constructor; cbn; auto.
    rewrite filter_app, app_length. cbn [filter].
    unfold ci_ok at 2. cbn [ci_idx ci_buf ci_ranges ci_ope].
    destruct (ver_accept _ _ _); cbn [negb length].
    - now rewrite Nat.add_0_r.
    - rewrite vs_x0, Nat.add_1_r. apply repeat_snoc.
  Qed.
  Lemma sim_precheck v s : vsim v s ->
    match ver_precheck vK d threads csz seeds chkmsg v, s_precheck s with
    | Some v', Some s' => vsim v' s' | None, None => True | _, _ => False end.
  Proof.
    intro H. pose proof (sim_manage v s H) as Hm.
    unfold ver_precheck, s_precheck. rewrite (vs_b v s H), map_length.
    destruct (Nat.eqb _ _); [|easy].
    destruct (ver_manage _ _ _ _ _ v), (s_manage s); try easy.
    destruct Hm. constructor; cbn; auto.
  Qed.
  Lemma sim_new s : ver_input d (vK (s_cot s)) (bitmsg (s_bits s)) = kof d (snew s).
  Proof. unfold vK, sM, snew. now apply kof_input. Qed.
  Lemma sim_step v s g : vsim v s ->
    match ver_step r0 r1 vK d threads csz seeds bitmsg chkmsg v g, s_step s g with
    | Some v', Some s' => vsim v' s' | None, None => True | _, _ => False end.
  Proof.
    intro H. destruct g as [x|b|i j|i|i j|i].
    - destruct H. cbn. rewrite vs_c0, vs_m0, sim_new. constructor; cbn; auto.
      now rewrite map_app, vs_w0.
    - destruct H. cbn. constructor; cbn; auto. rewrite map_app, vs_w0, kof_pub. reflexivity.
    - destruct H. cbn. constructor; cbn; auto.
      rewrite map_app, vs_w0. unfold xor_gate. now rewrite !wire_kof, kof_xor.
    - destruct H. cbn. constructor; cbn; auto.
      rewrite map_app, vs_w0. now rewrite !wire_kof, kof_not.
    - cbn [ver_step s_step]. pose proof (sim_precheck v s H) as Hp.
      destruct (ver_precheck _ _ _ _ _ _ v) as [v'|], (s_precheck s) as [s'|]; try easy.
      destruct Hp. change ver_and with ver_input. rewrite vs_c0, vs_m0, sim_new.
      constructor; cbn; auto.
      + now rewrite map_app, vs_w0.
      + now rewrite map_app, vs_b0, vs_w0, !wire_kof.
    - destruct H. cbn. constructor; cbn; auto.
      + rewrite map_app, vs_h0, vs_w0, vs_m0. cbn [map]. now rewrite wire_kof, kof_reveal.
      + now rewrite map_app, vs_o0, vs_m0.
  Qed.
  Lemma sim_run c : forall v s, vsim v s ->
    match ver_run r0 r1 vK d threads csz seeds bitmsg chkmsg v c, s_run s c with
    | Some v', Some s' => vsim v' s' | None, None => True | _, _ => False end.
  Proof.
    induction c as [|g c IH]; intros v s H; [exact H|]. cbn.
    pose proof (sim_step v s g H) as Hs.
    destruct (ver_step _ _ _ _ _ _ _ _ _ v g), (s_step s g); try easy. now apply IH.
  Qed.
  Lemma sim_exec c :
    match ver_exec r0 r1 vK d threads csz seeds bitmsg chkmsg c, s_exec c with
    | Some v', Some s' => vsim v' s' | None, None => True | _, _ => False end.
  Proof.
    unfold ver_exec, s_exec.
    pose proof (sim_run c v_init s_init) as H.
    assert (H0 : vsim v_init s_init) by (constructor; reflexivity). specialize (H H0).
    destruct (ver_run _ _ _ _ _ _ _ _ _ v_init c) as [v|], (s_run s_init c) as [s|]; try easy.
    unfold ver_final, s_final. rewrite (vs_b v s H).
    destruct (s_buf s) eqn:E; [now cbn|].
    cbn [map]. now apply sim_manage.
  Qed.
End Shadow.
