(** Proofs about the boolean test programs. *)
From Coq Require Import NArith List Bool Arith Lia.
From Verif Require Import Word WordProofs GF128 BoolModel BoolSpec BoolProofs BoolThms BoolThms2 F2kModel F2kSpec RamModel RamSpec
  LowMcModel LowMcThms RamGateModel RamGateSpec RamGateProofs RamGateThms RamGateSess BTestModel BTestSpec.
Import ListNotations.
Ltac Zify.zify_post_hook ::= idtac.

(** * Rules: inputs consumed, AND gates, opened bits, result *)
Definition does {A} (ins : list bool) (m : build A) (ws : list bool) (n k : nat) (os : list bool) (P : list bool -> A -> Prop) : Prop :=
  nin (fst (m (length ws))) = n /\ count_and (fst (m (length ws))) = k /\
  exists e, (forall outs, plain_eval ws outs (with_inputs ins (fst (m (length ws)))) = (ws ++ e, outs ++ os)) /\
            P (ws ++ e) (snd (m (length ws))).
Lemma nin_app a b : nin (a ++ b) = nin a + nin b.
Proof. unfold nin. now rewrite filter_app, app_length. Qed.
Lemma does_ret {A} ins (a : A) ws (P : list bool -> A -> Prop) : P ws a -> does ins (b_ret a) ws 0 0 [] P.
Proof. intro H. split; [reflexivity|]. split; [reflexivity|]. exists []. split; [intro; cbn; now rewrite !app_nil_r|]. cbn. now rewrite app_nil_r. Qed.
Lemma does_bind {A B} ins (m : build A) (f : A -> build B) ws n k os P n' k' os' Q : does ins m ws n k os P ->
  (forall e a, P (ws ++ e) a -> does (skipn n ins) (f a) (ws ++ e) n' k' os' Q) ->
  does ins (b_bind m f) ws (n + n') (k + k') (os ++ os') Q.
Proof.
  intros (N & K & e & E & HP) HF. specialize (HF _ _ HP). unfold does, b_bind in *. destruct (m (length ws)) as [g1 a] eqn:Em. cbn [fst snd] in *.
  assert (L : length ws + nwires g1 = length (ws ++ e)).
  { destruct (plain_eval_ext (with_inputs ins g1) ws []) as (e' & o' & E' & Le & _). specialize (E []). rewrite E' in E. injection E as E _. apply app_inv_head in E. subst e'.
    destruct (with_inputs_count g1 ins) as (C & _). rewrite app_length. lia. }
  rewrite L. destruct (f a (length (ws ++ e))) as [g2 b] eqn:Ef. cbn [fst snd] in *. destruct HF as (N2 & K2 & e2 & E2 & HQ).
  split; [rewrite nin_app; congruence|]. split; [rewrite count_and_app; congruence|]. exists (e ++ e2).
  split; [|now rewrite app_assoc]. intro outs. rewrite with_inputs_app, plain_eval_app, E, N. cbn [fst snd]. rewrite E2. now rewrite !app_assoc.
Qed.
Lemma does_eq {A} ins (m : build A) ws n k os n' k' os' P : does ins m ws n k os P -> n = n' -> k = k' -> os = os' -> does ins m ws n' k' os' P.
Proof. now intros H <- <- <-. Qed.
Lemma does_weaken {A} ins (m : build A) ws n k os (P Q : list bool -> A -> Prop) : does ins m ws n k os P -> (forall e a, P (ws ++ e) a -> Q (ws ++ e) a) -> does ins m ws n k os Q.
Proof. intros (N & K & e & E & HP) H. split; [exact N|]. split; [exact K|]. exists e. auto. Qed.
(** circuits without inputs and openings *)
Lemma nin_logic gs : forallb logic gs = true -> nin gs = 0.
Proof. induction gs as [|g gs IH]; [reflexivity|]. cbn. intro H. apply andb_prop in H. destruct H as [H1 H2]. destruct g; try discriminate; unfold nin in *; cbn; auto. Qed.
Lemma does_lift {A} ins (m : build A) ws k P : runs m ws P -> shape m k -> does ins m ws 0 k [] P.
Proof.
  intros (e & E & HP) H. destruct (H (length ws)) as [K L]. split; [now apply nin_logic|]. split; [exact K|]. exists e. split; [|exact HP].
  intro outs. rewrite with_inputs_logic by exact L. rewrite E. now rewrite app_nil_r.
Qed.
Definition are_wires (vs : list bool) (ws : list bool) (l : list nat) : Prop := Forall2 (fun v i => is_wire v ws i) vs l.
Lemma are_wires_app vs ws e l : are_wires vs ws l -> are_wires vs (ws ++ e) l.
Proof. intro H. induction H; constructor; [now apply is_wire_app|assumption]. Qed.
Lemma are_wires_len vs ws l : are_wires vs ws l -> length vs = length l.
Proof. intro H. induction H; cbn; congruence. Qed.
Lemma are_wires_cat v1 v2 ws l1 l2 : are_wires v1 ws l1 -> are_wires v2 ws l2 -> are_wires (v1 ++ v2) ws (l1 ++ l2).
Proof. apply Forall2_app. Qed.
Lemma are_wires_firstn n vs ws l : are_wires vs ws l -> are_wires (firstn n vs) ws (firstn n l).
Proof. intro H. revert n. induction H; intros [|n]; cbn; constructor; auto. apply IHForall2. Qed.
Lemma are_wires_skipn n vs ws l : are_wires vs ws l -> are_wires (skipn n vs) ws (skipn n l).
Proof. intro H. revert n. induction H; intros [|n]; cbn; [constructor|constructor|now constructor|apply IHForall2]. Qed.
Lemma are_wires_nth vs ws l i : are_wires vs ws l -> i < length vs -> is_wire (nth i vs false) ws (rd 0 l i).
Proof. intro H. revert i. induction H; intros [|i] Hi; cbn in *; [lia|lia|assumption|]. apply IHForall2. lia. Qed.
Lemma are_wires_seq ws bs : are_wires bs (ws ++ bs) (seq (length ws) (length bs)).
Proof.
  revert ws. induction bs as [|b bs IH]; intro ws; [constructor|]. cbn [length seq]. constructor.
  - split; [rewrite app_length; cbn; lia|]. unfold pwire. rewrite app_nth2 by lia. now rewrite Nat.sub_diag.
  - specialize (IH (ws ++ [b])). rewrite <- app_assoc in IH. cbn [app] in IH. rewrite app_length in IH. cbn [length] in IH. rewrite Nat.add_1_r in IH. exact IH.
Qed.
Lemma with_ins bs : forall ins, length bs <= length ins -> with_inputs ins (map GIn bs) = map GIn (firstn (length bs) ins).
Proof. induction bs as [|b bs IH]; intros ins H; [reflexivity|]. destruct ins as [|x ins]; [cbn in H; lia|]. cbn in *. rewrite IH by lia. reflexivity. Qed.
Lemma nin_ins bs : nin (map GIn bs) = length bs.
Proof. induction bs; [reflexivity|]. unfold nin in *. cbn. now rewrite IHbs. Qed.
Lemma ands_ins bs : count_and (map GIn bs) = 0.
Proof. induction bs; [reflexivity|]. exact IHbs. Qed.
Lemma does_ins ins ws bs : length bs <= length ins -> does ins (b_ins bs) ws (length bs) 0 [] (are_wires (firstn (length bs) ins)).
Proof.
  intro H. unfold does, b_ins. cbn [fst snd]. split; [apply nin_ins|]. split; [apply ands_ins|]. exists (firstn (length bs) ins). split.
  - intro outs. rewrite with_ins by exact H. rewrite eval_ins. now rewrite app_nil_r.
  - pose proof (are_wires_seq ws (firstn (length bs) ins)) as Q. rewrite firstn_length_le in Q by exact H. exact Q.
Qed.
Lemma logic_pubs bs : forallb logic (map GPub bs) = true.
Proof. induction bs; [reflexivity|]. exact IHbs. Qed.
Lemma ands_pubs bs : count_and (map GPub bs) = 0.
Proof. induction bs; [reflexivity|]. exact IHbs. Qed.
Lemma does_pubs ins ws bs : does ins (b_pubs bs) ws 0 0 [] (are_wires bs).
Proof.
  unfold does, b_pubs. cbn [fst snd]. split; [apply nin_logic, logic_pubs|]. split; [apply ands_pubs|]. exists bs. split; [|apply are_wires_seq].
  intro outs. rewrite with_inputs_logic by apply logic_pubs. rewrite eval_pubs. now rewrite app_nil_r.
Qed.
Lemma does_reveal ins ws vs l : are_wires vs ws l -> does ins (b_reveal l) ws 0 0 vs (fun _ _ => True).
Proof.
  intro H. unfold does, b_reveal. cbn [fst snd]. split; [clear H; induction l; [reflexivity|]; exact IHl|].
  split; [clear H; induction l; [reflexivity|]; exact IHl|]. exists []. split; [|trivial]. rewrite app_nil_r.
  induction H as [|v i vs l [_ Hv] _ IH]; intro outs; [cbn; now rewrite app_nil_r|]. cbn [map with_inputs plain_eval]. rewrite Hv, IH, <- app_assoc. reflexivity.
Qed.
(** from the rules to sessions *)
Lemma does_outputs {A} ins (m : build A) n k os P : does ins m [] n k os P ->
  plain_outputs (with_inputs ins (circuit m)) = os /\ nin (circuit m) = n /\ count_and (circuit m) = k.
Proof. intros (N & K & e & E & _). unfold plain_outputs, circuit. cbn [length] in *. rewrite E. auto. Qed.
Lemma shows_outputs c : session_shows c (plain_outputs c).
Proof. unfold session_shows. intros. now apply session_complete. Qed.
Lemma count_ins_nin c : count_ins c = nin c.
Proof. induction c as [|g c IH]; [reflexivity|]. unfold nin in *. destruct g; cbn; congruence. Qed.
Lemma proves_outputs c (R : list bool -> list bool -> Prop) : (forall ins, length ins = nin c -> R ins (plain_outputs (with_inputs ins c))) -> session_proves c R.
Proof.
  intro HR. red. intros r0 r1 pM threads csz seeds bitmsg chkmsg D Deqb H dig deltas Deq ND L3 Hall NA NH d v Hd Ev.
  destruct (accepted_session r0 r1 pM threads csz seeds bitmsg chkmsg D Deqb H dig c deltas Deq ND L3 Hall NA NH) as (s & _ & _ & Hv).
  destruct (Hv d v Hd Ev) as [_ ->]. apply HR. rewrite <- count_ins_nin. apply c_ins_length.
Qed.

(** * Subtraction *)
Fixpoint sub_bits (c : bool) (l : list (bool * bool)) : list bool :=
  match l with [] => [] | (a, b) :: r => xorb (xorb a b) c :: sub_bits (xorb c (xorb a b && xorb c b)) r end.
Lemma sub_bits_len l : forall c, length (sub_bits c l) = length l.
Proof. induction l as [|[a b] l IH]; intro c; [reflexivity|]. cbn. now rewrite IH. Qed.
Lemma sub_word la : forall lb c, length la = length lb ->
  (word_of la + 2 ^ N.of_nat (length la) * N.b2n (borrow_of c (combine la lb)) = word_of lb + N.b2n c + word_of (sub_bits c (combine la lb)))%N.
Proof.
  induction la as [|a la IH]; intros [|b lb] c H; try discriminate.
  - cbn. destruct c; reflexivity.
  - cbn [combine borrow_of sub_bits]. rewrite !word_cons. injection H as H. specialize (IH lb (xorb c (xorb a b && xorb c b)) H).
    cbn [length]. rewrite Nat2N.inj_succ, N.pow_succ_r'. destruct a, b, c; cbn [xorb andb N.b2n] in *; lia.
Qed.
Lemma sub_value la lb : length la = length lb ->
  word_of (sub_bits false (combine la lb)) = ((word_of la + 2 ^ N.of_nat (length la) - word_of lb) mod 2 ^ N.of_nat (length la))%N.
Proof.
  intro H. pose proof (sub_word la lb false H) as E. pose proof (word_lt (sub_bits false (combine la lb))) as L. rewrite sub_bits_len, combine_length, <- H, Nat.min_id in L.
  pose proof (word_lt lb) as Lb. rewrite <- H in Lb. cbn [N.b2n] in E.
  destruct (borrow_of false (combine la lb)); cbn [N.b2n] in E.
  - apply N.mod_unique with 0%N; lia.
  - apply N.mod_unique with 1%N; lia.
Qed.
Lemma word_bits l : int_bits (length l) (word_of l) = l.
Proof.
  induction l as [|b l IH]; [reflexivity|]. unfold int_bits in *. cbn [length seq map]. f_equal.
  - rewrite word_cons. cbn [N.of_nat]. destruct b; cbn [N.b2n]; [apply N.testbit_odd_0|rewrite N.add_0_r; apply N.testbit_even_0].
  - rewrite <- seq_shift, map_map. etransitivity; [|exact IH]. apply map_ext. intro i. rewrite word_cons, Nat2N.inj_succ.
    destruct b; [apply N.testbit_odd_succ; lia|cbn [N.b2n]; rewrite N.add_0_r; apply N.testbit_even_succ; lia].
Qed.

Lemma Forall2_impl' {A B} (P Q : A -> B -> Prop) la lb : (forall a b, P a b -> Q a b) -> Forall2 P la lb -> Forall2 Q la lb.
Proof. intros H F. induction F; constructor; auto. Qed.
Lemma does_xor ins ws i j a b : is_wire a ws i -> is_wire b ws j -> does ins (b_gate (GXor i j)) ws 0 0 [] (is_wire (xorb a b)).
Proof. intros. apply does_lift; [now apply run_xor|apply shape_x]. Qed.
Lemma does_and ins ws i j a b : is_wire a ws i -> is_wire b ws j -> does ins (b_gate (GAnd i j)) ws 0 1 [] (is_wire (a && b)).
Proof. intros. apply does_lift; [now apply run_and|apply shape_a]. Qed.
Lemma does_not ins ws i a : is_wire a ws i -> does ins (b_gate (GNot i)) ws 0 0 [] (is_wire (negb a)).
Proof. intros. apply does_lift; [now apply run_not|apply shape_n]. Qed.
Lemma does_pub ins ws b : does ins (b_gate (GPub b)) ws 0 0 [] (is_wire b).
Proof. apply does_lift; [apply run_pub|apply shape_p]. Qed.
Lemma does_or ins ws i j a b : is_wire a ws i -> is_wire b ws j -> does ins (b_or i j) ws 0 1 [] (is_wire (a || b)).
Proof. intros. apply does_lift; [now apply run_or|apply shape_or]. Qed.
Ltac wires := repeat first [eassumption | apply is_wire_app | apply are_wires_app].
Lemma does_sub_from vs : forall ins ab bw ws c, is_wire c ws bw -> Forall2 (fun v p => is_wire (fst v) ws (fst p) /\ is_wire (snd v) ws (snd p)) vs ab ->
  does ins (b_sub_from bw ab) ws 0 (length vs - 1) [] (are_wires (sub_bits c vs)).
Proof.
  induction vs as [|[a b] vs IH]; intros ins ab bw ws c Hc F.
  { inversion F; subst. cbn. apply does_ret. constructor. }
  inversion F as [|v0 [i j] vs0 r [Ha Hb] Fr]; subst; clear F; cbn [fst snd] in Ha, Hb.
  destruct vs as [|v2 vs].
  - inversion Fr; subst. cbn [b_sub_from sub_bits]. eapply does_eq; [|reflexivity|reflexivity|reflexivity].
    eapply (does_bind _ _ _ _ 0 0 []); [apply (does_xor _ _ _ _ _ _ Ha Hb)|]. intros e1 x Hx.
    eapply (does_bind _ _ _ _ 0 0 []); [apply (does_xor _ _ _ _ _ c Hx); wires|]. intros e2 d Hd.
    apply does_ret. constructor; [exact Hd|constructor].
  - inversion Fr as [|v3 p3 vs3 r3 F3 Fr3]; subst. cbn [b_sub_from]. set (rest := p3 :: r3) in *. cbn [sub_bits].
    eapply does_eq; [|reflexivity| |reflexivity].
    + eapply (does_bind _ _ _ _ 0 0 []); [apply (does_xor _ _ _ _ _ _ Ha Hb)|]. intros e1 bxa Hx.
      eapply (does_bind _ _ _ _ 0 0 []); [apply (does_xor _ _ _ _ c b); wires|]. intros e2 bxc Hy.
      eapply (does_bind _ _ _ _ 0 1 []); [apply (does_and _ _ _ _ (xorb a b) (xorb c b)); wires|]. intros e3 t Ht.
      eapply (does_bind _ _ _ _ 0 0 []); [apply (does_xor _ _ _ _ (xorb a b) c); wires|]. intros e4 d Hd.
      eapply (does_bind _ _ _ _ 0 0 []); [apply (does_xor _ _ _ _ c (xorb a b && xorb c b)); wires|]. intros e5 bw' Hbw.
      eapply (does_bind _ _ _ _ 0 _ []).
      { apply (IH _ rest bw' _ _ Hbw). revert Fr. apply Forall2_impl'. intros v p [A B]. split; wires. }
      intros e6 ds Hds. apply does_ret. constructor; [wires|exact Hds].
    + cbn [length]. lia.
Qed.
Lemma combine_wires va : forall vb ws la lb, are_wires va ws la -> are_wires vb ws lb ->
  Forall2 (fun v p => is_wire (fst v) ws (fst p) /\ is_wire (snd v) ws (snd p)) (combine va vb) (combine la lb).
Proof.
  induction va as [|a va IH]; intros vb ws la lb Ha Hb; inversion Ha; subst; [constructor|]. inversion Hb; subst; [constructor|].
  cbn [combine]. constructor; [split; assumption|]. now apply IH.
Qed.
Lemma does_sub ins ws va vb la lb : length va = length vb -> are_wires va ws la -> are_wires vb ws lb ->
  does ins (b_sub la lb) ws 0 (length va - 1) [] (are_wires (sub_bits false (combine va vb))).
Proof.
  intros L Ha Hb. unfold b_sub. eapply does_eq; [|reflexivity| |reflexivity].
  - eapply (does_bind _ _ _ _ 0 0 []); [apply does_pub|]. intros e f Hf. apply (does_sub_from (combine va vb)); [exact Hf|]. apply combine_wires; wires.
  - rewrite combine_length, <- L, Nat.min_id. reflexivity.
Qed.

(** * Addition *)
Fixpoint add_bits (c : bool) (l : list (bool * bool)) : list bool :=
  match l with [] => [] | (a, b) :: r => xorb a (xorb b c) :: add_bits (xorb c (xorb a c && xorb b c)) r end.
Fixpoint carry_of (c : bool) (l : list (bool * bool)) : bool :=
  match l with [] => c | (a, b) :: r => carry_of (xorb c (xorb a c && xorb b c)) r end.
Lemma add_bits_len l : forall c, length (add_bits c l) = length l.
Proof. induction l as [|[a b] l IH]; intro c; [reflexivity|]. cbn. now rewrite IH. Qed.
Lemma add_word la : forall lb c, length la = length lb ->
  (word_of la + word_of lb + N.b2n c = word_of (add_bits c (combine la lb)) + 2 ^ N.of_nat (length la) * N.b2n (carry_of c (combine la lb)))%N.
Proof.
  induction la as [|a la IH]; intros [|b lb] c H; try discriminate.
  - cbn. destruct c; reflexivity.
  - cbn [combine carry_of add_bits]. rewrite !word_cons. injection H as H. specialize (IH lb (xorb c (xorb a c && xorb b c)) H).
    cbn [length]. rewrite Nat2N.inj_succ, N.pow_succ_r'. destruct a, b, c; cbn [xorb andb N.b2n] in *; lia.
Qed.
Lemma add_value la lb : length la = length lb ->
  word_of (add_bits false (combine la lb)) = ((word_of la + word_of lb) mod 2 ^ N.of_nat (length la))%N.
Proof.
  intro H. pose proof (add_word la lb false H) as E. pose proof (word_lt (add_bits false (combine la lb))) as L. rewrite add_bits_len, combine_length, <- H, Nat.min_id in L.
  apply N.mod_unique with (N.b2n (carry_of false (combine la lb))); [exact L|]. cbn [N.b2n] in E. lia.
Qed.
Lemma does_add_from vs : forall ins ab cy ws c, is_wire c ws cy -> Forall2 (fun v p => is_wire (fst v) ws (fst p) /\ is_wire (snd v) ws (snd p)) vs ab ->
  does ins (b_add_from cy ab) ws 0 (length vs - 1) [] (are_wires (add_bits c vs)).
Proof.
  induction vs as [|[a b] vs IH]; intros ins ab cy ws c Hc F.
  { inversion F; subst. cbn. apply does_ret. constructor. }
  inversion F as [|v0 [i j] vs0 r [Ha Hb] Fr]; subst; clear F; cbn [fst snd] in Ha, Hb.
  destruct vs as [|v2 vs].
  - inversion Fr; subst. cbn [b_add_from add_bits]. eapply does_eq; [|reflexivity|reflexivity|reflexivity].
    eapply (does_bind _ _ _ _ 0 0 []); [apply (does_xor _ _ _ _ c b); wires|]. intros e1 x Hx.
    eapply (does_bind _ _ _ _ 0 0 []); [apply (does_xor _ _ _ _ _ a Hx); wires|]. intros e2 d Hd.
    apply does_ret. constructor; [|constructor]. replace (xorb a (xorb b c)) with (xorb (xorb c b) a) by (now destruct a, b, c). exact Hd.
  - inversion Fr as [|v3 p3 vs3 r3 F3 Fr3]; subst. cbn [b_add_from]. set (rest := p3 :: r3) in *. cbn [add_bits].
    eapply does_eq; [|reflexivity| |reflexivity].
    + eapply (does_bind _ _ _ _ 0 0 []); [apply (does_xor _ _ _ _ a c); wires|]. intros e1 axc Hx.
      eapply (does_bind _ _ _ _ 0 0 []); [apply (does_xor _ _ _ _ b c); wires|]. intros e2 bxc Hy.
      eapply (does_bind _ _ _ _ 0 0 []); [apply (does_xor _ _ _ _ a (xorb b c)); wires|]. intros e3 d Hd.
      eapply (does_bind _ _ _ _ 0 1 []); [apply (does_and _ _ _ _ (xorb a c) (xorb b c)); wires|]. intros e4 t Ht.
      eapply (does_bind _ _ _ _ 0 0 []); [apply (does_xor _ _ _ _ c (xorb a c && xorb b c)); wires|]. intros e5 cy' Hcy.
      eapply (does_bind _ _ _ _ 0 _ []).
      { apply (IH _ rest cy' _ _ Hcy). revert Fr. apply Forall2_impl'. intros v p [A B]. split; wires. }
      intros e6 ds Hds. apply does_ret. constructor; [wires|exact Hds].
    + cbn [length]. lia.
Qed.
Lemma does_add ins ws va vb la lb : length va = length vb -> are_wires va ws la -> are_wires vb ws lb ->
  does ins (b_add la lb) ws 0 (length va - 1) [] (are_wires (add_bits false (combine va vb))).
Proof.
  intros L Ha Hb. unfold b_add. eapply does_eq; [|reflexivity| |reflexivity].
  - eapply (does_bind _ _ _ _ 0 0 []); [apply does_pub|]. intros e f Hf. apply (does_add_from (combine va vb)); [exact Hf|]. apply combine_wires; wires.
  - rewrite combine_length, <- L, Nat.min_id. reflexivity.
Qed.

(** * Bristol circuits *)
Lemma rd_wr l i (x : nat) j : i < length l -> rd 0 (wr l i x) j = if j =? i then x else rd 0 l j.
Proof.
  revert i j. induction l as [|y l IH]; intros i j H; [cbn in H; lia|]. destruct i as [|i]; [destruct j; reflexivity|].
  destruct j as [|j]; [reflexivity|]. cbn in H. exact (IH i j ltac:(lia)).
Qed.
Lemma wr_len l i (x : nat) : length (wr l i x) = length l.
Proof. revert i. induction l as [|y l IH]; intros [|i]; cbn; auto. Qed.
Definition gate_ands (gs : list bgate) : nat := length (filter (fun g => match g_kind g with BAnd => true | _ => false end) gs).
Lemma does_bgates size final gs : forall ins ws mem m set, length mem = size -> gates_set size set gs final ->
  (forall i, set i -> is_wire (m i) ws (rd 0 mem i)) ->
  does ins (b_each b_bgate mem gs) ws 0 (gate_ands gs) []
    (fun ws' mem' => exists set', final set' /\ forall i, set' i -> is_wire (fold_left bg_run gs m i) ws' (rd 0 mem' i)).
Proof.
  induction gs as [|g gs IH]; intros ins ws mem m set L G Hm.
  { cbn. apply does_ret. exists set. auto. }
  cbn [b_each fold_left]. destruct G as (G1 & G2 & G3 & G4).
  eapply does_eq with (n := 0 + 0) (k := (match g_kind g with BAnd => 1 | _ => 0 end) + gate_ands gs) (os := [] ++ []); [|reflexivity|unfold gate_ands; cbn; destruct (g_kind g); reflexivity|reflexivity].
  eapply does_bind with (P := fun ws' mem' => length mem' = size /\ forall i, (i = g_out g \/ set i) -> is_wire (bg_run m g i) ws' (rd 0 mem' i)).
  - unfold b_bgate. eapply does_eq with (k := (match g_kind g with BAnd => 1 | _ => 0 end) + 0) (n := 0 + 0) (os := [] ++ []); [|reflexivity|apply Nat.add_0_r|reflexivity].
    eapply does_bind with (P := is_wire (bg_value m g)).
    + unfold bg_value. destruct (g_kind g) eqn:K.
      * apply does_and; apply Hm; [exact G1|apply G2; discriminate].
      * apply does_xor; apply Hm; [exact G1|apply G2; discriminate].
      * apply does_not; apply Hm; exact G1.
    + intros e x Hx. apply does_ret. split; [now rewrite wr_len|]. intros i Hi. rewrite rd_wr by lia. unfold bg_run. destruct (Nat.eqb_spec i (g_out g)) as [->|Ni]; [exact Hx|].
      destruct Hi as [->|Hi]; [congruence|]. apply is_wire_app, Hm, Hi.
  - intros e mem' [L' Hm']. exact (IH (skipn 0 ins) (ws ++ e) mem' (bg_run m g) _ L' G4 Hm').
Qed.
Lemma does_bristol cf ins ws x inp : bristol_ok cf -> br_n1 cf <= length inp -> are_wires x ws (firstn (br_n1 cf) inp) ->
  does ins (b_bristol cf inp) ws 0 (bristol_ands cf) [] (are_wires (bristol_fun cf x)).
Proof.
  intros (B1 & B2 & G) L Hx. unfold b_bristol. pose proof (are_wires_len _ _ _ Hx) as Lx. rewrite firstn_length_le in Lx by exact L.
  eapply does_eq with (n := 0 + 0) (k := gate_ands (br_gates cf) + 0) (os := [] ++ []); [|reflexivity|apply Nat.add_0_r|reflexivity].
  eapply does_bind.
  - apply (does_bgates (br_wires cf) (fun set => forall i, br_wires cf - br_n3 cf <= i < br_wires cf -> set i) (br_gates cf) ins ws _ (fun i => nth i x false) (fun i => i < br_n1 cf)); [|exact G|].
    + rewrite app_length, firstn_length_le, repeat_length by exact L. lia.
    + intros i Hi. unfold rd. rewrite app_nth1 by (rewrite firstn_length_le; lia). apply (are_wires_nth _ _ _ i Hx). lia.
  - intros e mem (set' & F & Hs). apply does_ret. unfold bristol_fun, are_wires.
    assert (Q : forall i, In i (seq (br_wires cf - br_n3 cf) (br_n3 cf)) -> is_wire (fold_left bg_run (br_gates cf) (fun i => nth i x false) i) (ws ++ e) (rd 0 mem i)).
    { intros i Hi. apply in_seq in Hi. apply Hs, F. lia. }
    induction (seq (br_wires cf - br_n3 cf) (br_n3 cf)) as [|i l IH]; constructor; [apply Q; now left|]. apply IH. intros j Hj. apply Q. now right.
Qed.
Lemma bristol_fun_len cf x : length (bristol_fun cf x) = br_n3 cf.
Proof. unfold bristol_fun. now rewrite map_length, seq_length. Qed.

(** * The programs *)
Lemma example_does ins a b : length a = length b -> length ins = length a + length b ->
  let x := firstn (length a) ins in let y := skipn (length a) ins in
  does ins (example_prog a b) [] (length a + length b) (length a - 1)
    (int_bits (length a) ((word_of x + 2 ^ N.of_nat (length a) - word_of y) mod 2 ^ N.of_nat (length a))) (fun _ _ => True).
Proof.
  intros L H x y. unfold example_prog.
  assert (Lx : length x = length a) by (apply firstn_length_le; lia). assert (Ly : length y = length a) by (unfold y; rewrite skipn_length; lia).
  assert (Ey : firstn (length b) (skipn (length a) ins) = y) by (apply firstn_all2; fold y; lia).
  eapply does_eq.
  - eapply does_bind; [apply does_ins; lia|]. intros e1 la Ha.
    eapply does_bind; [apply does_ins; rewrite skipn_length; lia|]. intros e2 lb Hb. rewrite Ey in Hb. fold x in Ha.
    eapply does_bind; [apply (does_sub _ _ x y); [lia|wires|wires]|]. intros e3 d Hd.
    apply does_reveal. exact Hd.
  - lia.
  - rewrite Lx. lia.
  - cbn [app]. rewrite <- Lx, <- (sub_value x y) by lia. rewrite <- (word_bits (sub_bits false (combine x y))) at 1. f_equal. rewrite sub_bits_len, combine_length. lia.
Qed.
Lemma Nat_iter_succ_r' {A} n (f : A -> A) x : Nat.iter (S n) f x = Nat.iter n f (f x).
Proof. induction n as [|n IH]; [reflexivity|]. cbn in *. now rewrite IH. Qed.
Lemma sha_rounds cf pad : bristol_ok cf -> br_n1 cf = br_n3 cf + pad -> forall (l : list nat) ins ws d o, are_wires d ws (firstn (br_n3 cf) o) -> are_wires (repeat false pad) ws (skipn (br_n3 cf) o) -> length d = br_n3 cf ->
  does ins (b_each (fun o (_ : nat) => sha_step cf o) o l) ws 0 (length l * bristol_ands cf) []
    (fun ws' o' => are_wires (Nat.iter (length l) (fun o => bristol_fun cf (o ++ repeat false pad)) d) ws' (firstn (br_n3 cf) o')).
Proof.
  intros Hok Hn. induction l as [|x l IH]; intros ins ws d o Hd Hz Ld.
  { apply does_ret. exact Hd. }
  cbn [b_each length].
  assert (Lo : length o = br_n1 cf).
  { rewrite <- (firstn_skipn (br_n3 cf) o), app_length, <- (are_wires_len _ _ _ Hd), <- (are_wires_len _ _ _ Hz), repeat_length. lia. }
  eapply does_eq with (n := 0 + 0) (k := (bristol_ands cf + 0) + length l * bristol_ands cf) (os := [] ++ []); [|reflexivity|cbn; lia|reflexivity].
  eapply does_bind with (P := fun ws' o' => are_wires (bristol_fun cf (d ++ repeat false pad)) ws' (firstn (br_n3 cf) o') /\ are_wires (repeat false pad) ws' (skipn (br_n3 cf) o')).
  - unfold sha_step. eapply does_bind with (n := 0) (os := []) (n' := 0) (os' := []).
    + apply (does_bristol cf _ _ (d ++ repeat false pad)); [exact Hok|lia|]. rewrite firstn_all2 by lia. rewrite <- (firstn_skipn (br_n3 cf) o). now apply are_wires_cat.
    + intros e r Hr. apply does_ret. pose proof (are_wires_len _ _ _ Hr) as Lr. rewrite bristol_fun_len in Lr.
      rewrite Lr. rewrite firstn_app, skipn_app, Nat.sub_diag, firstn_all, skipn_all. cbn [firstn skipn app]. rewrite app_nil_r, <- Lr. split; [exact Hr|wires].
  - intros e o' [H1 H2]. eapply does_weaken; [apply (IH (skipn 0 ins) (ws ++ e) (bristol_fun cf (d ++ repeat false pad)) o' H1 H2), bristol_fun_len|].
    intros e' o'' H. rewrite Nat_iter_succ_r'. exact H.
Qed.
Lemma sha_does cf zero rounds wit ins : bristol_ok cf -> br_n1 cf = zero -> br_n3 cf <= zero -> length wit = zero -> length ins = zero ->
  does ins (sha_prog cf zero rounds wit) [] zero (S rounds * bristol_ands cf) (hash_chain (bristol_fun cf) (zero - br_n3 cf) rounds ins) (fun _ _ => True).
Proof.
  intros Hok Hn Hz Lw Li. unfold sha_prog. eapply does_eq.
  - eapply does_bind; [apply does_ins; lia|]. intros e1 w Hw. rewrite firstn_all2 in Hw by lia.
    eapply does_bind; [apply does_pubs|]. intros e2 o Ho.
    pose proof (are_wires_len _ _ _ Hw) as Lww. pose proof (are_wires_len _ _ _ Ho) as Lo. rewrite repeat_length in Lo.
    eapply does_bind; [apply (does_bristol cf _ _ ins); [exact Hok|lia|rewrite firstn_all2 by lia; wires]|]. intros e3 d Hd.
    pose proof (are_wires_len _ _ _ Hd) as Ld. rewrite bristol_fun_len in Ld.
    eapply does_bind; [apply (sha_rounds cf (zero - br_n3 cf)); [exact Hok|lia| | |]|].
    + rewrite Ld, firstn_app, Nat.sub_diag, firstn_all. cbn [firstn]. rewrite app_nil_r. exact Hd.
    + rewrite Ld, skipn_app, Nat.sub_diag, skipn_all. cbn [skipn app]. apply are_wires_app. rewrite <- Ld.
      replace (repeat false (zero - br_n3 cf)) with (skipn (br_n3 cf) (repeat false zero)); [now apply are_wires_skipn|].
      clear -Hz. rewrite <- (firstn_skipn (br_n3 cf) (repeat false (zero - br_n3 cf))). replace zero with (br_n3 cf + (zero - br_n3 cf)) at 1 by lia. rewrite repeat_app, skipn_app, repeat_length, Nat.sub_diag.
      rewrite skipn_all2 by (rewrite repeat_length; lia). cbn [skipn app]. now rewrite firstn_skipn.
    + apply bristol_fun_len.
    + intros e4 o' Ho'. rewrite seq_length in Ho'. apply does_reveal. exact Ho'.
  - lia.
  - rewrite seq_length. cbn. lia.
  - reflexivity.
Qed.
Lemma merkle_prefix f n k : forall l, merkle_root f n k (firstn (2 ^ k * n) l) = merkle_root f n k l.
Proof.
  induction k as [|k IH]; intro l; cbn [merkle_root].
  - rewrite firstn_firstn. f_equal. f_equal. cbn. lia.
  - rewrite firstn_firstn. replace (Nat.min (2 ^ k * n) (2 ^ S k * n)) with (2 ^ k * n) by (cbn; lia).
    rewrite skipn_firstn_comm. replace (2 ^ S k * n - 2 ^ k * n) with (2 ^ k * n) by (cbn; lia). rewrite (IH (skipn _ l)). reflexivity.
Qed.
Lemma merkle_does cf h leaf : bristol_ok cf -> br_n1 cf = 2 * h -> br_n3 cf = h -> forall k node ins ws, 2 ^ k * (2 * h) <= length ins ->
  does ins (b_merkle cf h leaf k node) ws (2 ^ k * (2 * h)) ((2 ^ S k - 1) * bristol_ands cf) [] (are_wires (merkle_root (bristol_fun cf) (2 * h) k ins)).
Proof.
  intros Hok H1 H3. induction k as [|k IH]; intros node ins ws Li.
  - cbn [b_merkle]. assert (Ll : length (map (leaf node) (seq 0 (2 * h))) = 2 * h) by (now rewrite map_length, seq_length). eapply does_eq.
    + eapply does_bind; [apply does_ins; rewrite Ll; cbn [Nat.pow] in Li; clear -Li; lia|]. intros e l Hl. rewrite Ll in Hl. pose proof (are_wires_len _ _ _ Hl) as L.
      assert (Lf : length (firstn (2 * h) ins) = 2 * h) by (apply firstn_length_le; cbn [Nat.pow] in Li; clear -Li; lia).
      apply (does_bristol cf _ _ (firstn (2 * h) ins)); [exact Hok|rewrite H1, <- L, Lf; reflexivity|]. rewrite (firstn_all2 (n := br_n1 cf) l) by (rewrite H1, <- L, Lf; reflexivity). exact Hl.
    + rewrite Ll. cbn [Nat.pow]. clear; lia.
    + cbn [Nat.pow]. clear; lia.
    + reflexivity.
  - cbn [b_merkle merkle_root]. rewrite merkle_prefix. set (n := 2 ^ k * (2 * h)) in *.
    assert (E2 : 2 ^ S k * (2 * h) = n + n) by (unfold n; cbn [Nat.pow]; clear; lia). rewrite E2 in *.
    assert (P1 : 1 <= 2 ^ k) by (clear; induction k; cbn [Nat.pow]; lia).
    eapply does_eq.
    + eapply does_bind; [apply IH; clear -Li; lia|]. intros e1 l Hl.
      eapply does_bind; [apply IH; rewrite skipn_length; clear -Li; lia|]. intros e2 r Hr.
      eapply does_bind; [apply does_pubs|]. intros e3 one Ho.
      pose proof (are_wires_len _ _ _ Hl) as L1. pose proof (are_wires_len _ _ _ Hr) as L2.
      assert (Lm : forall k x, length (merkle_root (bristol_fun cf) (2 * h) k x) = h) by (intros [|j] x; cbn [merkle_root]; rewrite bristol_fun_len; exact H3).
      rewrite Lm in L1, L2.
      apply (does_bristol cf _ _ (merkle_root (bristol_fun cf) (2 * h) k ins ++ merkle_root (bristol_fun cf) (2 * h) k (skipn n ins))); [exact Hok|rewrite !app_length, H1; clear -L1 L2; lia|].
      rewrite app_assoc, firstn_app, app_length. replace (br_n1 cf - (length l + length r)) with 0 by (clear -L1 L2 H1; lia). cbn [firstn]. rewrite app_nil_r.
      rewrite firstn_all2 by (rewrite app_length; clear -L1 L2 H1; lia). apply are_wires_cat; wires.
    + clear; lia.
    + cbn [Nat.pow] in *. clear -P1. nia.
    + reflexivity.
Qed.

(** circuit_scalability: wires stay in range *)
Definition two (ws : list bool) (ab : list nat * list nat) : Prop := wires_ok (length ws) 32 (fst ab) /\ wires_ok (length ws) 32 (snd ab).
Lemma two_app ws e ab : two ws ab -> two (ws ++ e) ab.
Proof. intros [A B]. split; (eapply wires_ok_le; [eassumption|rewrite app_length; lia]). Qed.
Lemma rd_ok ws n l i : wires_ok (length ws) n l -> i < n -> is_wire (pwire ws (rd 0 l i)) ws (rd 0 l i).
Proof. intros [L F] Hi. split; [|reflexivity]. rewrite Forall_forall in F. apply F. unfold rd. apply nth_In. lia. Qed.
Lemma wr_ok w n l i x : wires_ok w n l -> x < w -> wires_ok w n (wr l i x).
Proof. intros [L F] Hx. split; [now rewrite wr_len|]. revert i. clear L. induction F as [|y l Hy F IH]; intros [|i]; cbn; constructor; auto. Qed.
Lemma wires_of ws n l : wires_ok (length ws) n l -> are_wires (map (pwire ws) l) ws l.
Proof. intros [_ F]. induction F; constructor; [now split|assumption]. Qed.
Lemma are_ok vs ws l n : are_wires vs ws l -> length vs = n -> wires_ok (length ws) n l.
Proof. intros H L. split; [now rewrite <- L, (are_wires_len _ _ _ H)|]. clear L. induction H as [|v i vs l [H _]]; constructor; assumption. Qed.
Lemma does_each {A B} (I : list bool -> A -> Prop) (f : A -> B -> build A) k (l : list B) :
  (forall ins ws a x, In x l -> I ws a -> does ins (f a x) ws 0 k [] I) ->
  forall ins ws a, I ws a -> does ins (b_each f a l) ws 0 (length l * k) [] I.
Proof.
  induction l as [|x l IH]; intros H ins ws a Ha; [now apply does_ret|]. cbn [b_each length].
  eapply does_eq with (n := 0 + 0) (k := k + length l * k) (os := [] ++ []); [|reflexivity|reflexivity|reflexivity].
  eapply does_bind; [apply H; [now left|exact Ha]|]. intros e a' Ha'. apply IH; [|exact Ha']. intros ins' ws' a0 y Hy. apply H. now right.
Qed.
Lemma mix_does ins ws ab j : j < 32 -> two ws ab -> does ins (circuit_mix ab j) ws 0 2 [] two.
Proof.
  intros Hj T. destruct ab as [a b]. pose proof T as [Ta Tb]. cbn [fst snd] in *. unfold circuit_mix.
  eapply does_eq with (n := 0 + (0 + 0)) (k := 1 + (1 + 0)) (os := [] ++ ([] ++ [])); [|reflexivity|reflexivity|reflexivity].
  eapply does_bind; [eapply does_and; eapply rd_ok; eassumption|]. intros e1 x [Hx _]. cbv zeta.
  pose proof (two_app _ e1 _ T) as [Ta1 Tb1]. cbn [fst snd] in *.
  assert (W1 : wires_ok (length (ws ++ e1)) 32 (wr a j x)) by now apply wr_ok.
  eapply does_bind; [eapply does_or; [eapply rd_ok; [exact W1|apply Nat.mod_upper_bound; lia]|eapply rd_ok; eassumption]|]. intros e2 y [Hy _].
  apply does_ret. split; cbn [fst snd].
  - apply wr_ok; [|exact Hy]. eapply wires_ok_le; [exact W1|rewrite !app_length; lia].
  - eapply wires_ok_le; [exact Tb1|rewrite !app_length; lia].
Qed.
Lemma tail_does ins ws ab j : j < 5 -> two ws ab -> does ins (circuit_tail ab j) ws 0 1 [] two.
Proof.
  intros Hj T. destruct ab as [a b]. pose proof T as [Ta Tb]. cbn [fst snd] in *. unfold circuit_tail.
  eapply does_eq with (n := 0 + 0) (k := 1 + 0) (os := [] ++ []); [|reflexivity|reflexivity|reflexivity].
  eapply does_bind; [eapply does_and; (eapply rd_ok; [eassumption|lia])|]. intros e1 x [Hx _].
  pose proof (two_app _ e1 _ T) as [Ta1 Tb1]. cbn [fst snd] in *. apply does_ret. split; cbn [fst snd]; [exact Ta1|now apply wr_ok].
Qed.
Lemma xors_does (ps : list (nat * nat)) : forall ins ws (x : nat), Forall (fun p => fst p < length ws /\ snd p < length ws) ps ->
  does ins (b_each (fun (_ : nat) p => b_gate (GXor (fst p) (snd p))) x ps) ws 0 0 [] (fun _ _ => True).
Proof.
  induction ps as [|p ps IH]; intros ins ws x F; [now apply does_ret|]. cbn [b_each].
  eapply does_eq with (n := 0 + 0) (k := 0 + 0) (os := [] ++ []); [|reflexivity|reflexivity|reflexivity].
  pose proof (Forall_inv F) as [H1 H2]. eapply does_bind; [apply (does_xor _ _ _ _ (pwire ws (fst p)) (pwire ws (snd p))); split; auto|].
  intros e y _. apply IH. eapply Forall_impl; [|exact (Forall_inv_tail F)]. intros q [Q1 Q2]. cbv beta. rewrite !app_length. lia.
Qed.
Lemma round_does ins ws ab (x : nat) : two ws ab -> does ins (circuit_round ab x) ws 0 100 [] two.
Proof.
  intro T. destruct ab as [a b]. pose proof T as [Ta Tb]. cbn [fst snd] in *. unfold circuit_round.
  assert (La : length (map (pwire ws) a) = 32) by (rewrite map_length; apply Ta). assert (Lb : length (map (pwire ws) b) = 32) by (rewrite map_length; apply Tb).
  eapply does_eq.
  - eapply does_bind; [apply (does_add _ _ (map (pwire ws) b) (map (pwire ws) a)); [congruence|now apply (wires_of _ 32)|now apply (wires_of _ 32)]|]. intros e1 b' Hb.
    assert (T1 : two (ws ++ e1) (a, b')).
    { split; cbn [fst snd]; [eapply wires_ok_le; [exact Ta|rewrite app_length; lia]|]. apply (are_ok _ _ _ _ Hb). rewrite add_bits_len, combine_length, La, Lb. reflexivity. }
    eapply does_bind; [apply (does_each two circuit_mix 2); [|exact T1]; intros; apply mix_does; [apply in_seq in H; lia|assumption]|]. intros e2 ab2 T2.
    eapply does_bind; [apply (does_each two circuit_tail 1); [|exact T2]; intros; apply tail_does; [apply in_seq in H; lia|assumption]|]. intros e3 ab3 T3.
    eapply does_bind; [apply xors_does|].
    { destruct T3 as [[_ F1] [_ F2]]. apply Forall_forall. intros [i j] Hij. rewrite Forall_forall in F1, F2. split; [apply F1; eapply in_combine_l; exact Hij|apply F2; eapply in_combine_r; exact Hij]. }
    intros e4 y _. apply does_ret. now apply two_app.
  - reflexivity.
  - rewrite Lb. reflexivity.
  - reflexivity.
Qed.
Lemma circuit_does ins rounds a b : length a = 32 -> length b = 32 -> length ins = 64 ->
  does ins (circuit_prog rounds a b) [] 64 (100 * rounds) [false] (fun _ _ => True).
Proof.
  intros La Lb Li. unfold circuit_prog. eapply does_eq.
  - eapply does_bind; [apply does_ins; lia|]. intros e1 la Ha.
    eapply does_bind; [apply does_ins; rewrite skipn_length; lia|]. intros e2 lb Hb.
    eapply does_bind; [apply does_pubs|]. intros e3 c _.
    eapply does_bind; [apply (does_each two circuit_round 100); [intros; now apply round_does|]|].
    { split; cbn [fst snd]; (eapply are_ok; [wires|]); rewrite firstn_length; rewrite ?skipn_length; lia. }
    intros e4 ab _.
    eapply does_bind; [apply does_pub|]. intros e5 r Hr. apply does_reveal. constructor; [exact Hr|constructor].
  - lia.
  - rewrite seq_length. lia.
  - reflexivity.
Qed.
Lemma merkle_prog_does cf h depth base witness ins : bristol_ok cf -> br_n1 cf = 2 * h -> br_n3 cf = h -> 1 <= depth -> 2 ^ (depth - 1) * (2 * h) <= length ins ->
  does ins (merkle_prog cf h depth base witness) [] (2 ^ (depth - 1) * (2 * h)) ((2 * 2 ^ (depth - 1) - 1) * bristol_ands cf) [true] (fun _ _ => True).
Proof.
  intros Hok H1 H3 Hd Li. unfold merkle_prog. eapply does_eq.
  - eapply does_bind; [apply (merkle_does cf h _ Hok H1 H3 (depth - 1) 0 ins [] Li)|]. intros e1 l _.
    eapply does_bind; [apply does_pub|]. intros e2 r Hr. apply does_reveal. constructor; [exact Hr|constructor].
  - clear; lia.
  - cbn [Nat.pow]. clear; lia.
  - reflexivity.
Qed.
Lemma input_does ins xs : 1 <= length xs -> length ins = length xs -> does ins (input_prog xs) [] (length xs) 0 [nth 0 ins false] (fun _ _ => True).
Proof.
  intros L1 Li. unfold input_prog. eapply does_eq.
  - eapply does_bind; [apply does_ins; lia|]. intros e l Hl. rewrite firstn_all2 in Hl by lia. apply does_reveal. constructor; [|constructor]. apply (are_wires_nth _ _ _ 0 Hl). lia.
  - lia.
  - reflexivity.
  - reflexivity.
Qed.
(** what a program feeds in *)
Lemma fed_with c : with_inputs (inputs_of c) c = c.
Proof. induction c as [|g c IH]; [reflexivity|]. destruct g; cbn; congruence. Qed.
Lemma fed_len c : length (inputs_of c) = nin c.
Proof. induction c as [|g c IH]; [reflexivity|]. unfold nin in *. destruct g; cbn; congruence. Qed.
Lemma with_none gs : nin gs = 0 -> with_inputs [] gs = gs.
Proof. intro H. rewrite <- fed_len in H. apply length_zero_iff_nil in H. rewrite <- H. apply fed_with. Qed.
Lemma fed_app a b : inputs_of (a ++ b) = inputs_of a ++ inputs_of b.
Proof. induction a as [|g a IH]; [reflexivity|]. destruct g; cbn; congruence. Qed.
Lemma fed_ins bs : inputs_of (map GIn bs) = bs.
Proof. induction bs; cbn; congruence. Qed.
Lemma fed_pubs bs : inputs_of (map GPub bs) = [].
Proof. induction bs; [reflexivity|assumption]. Qed.
Definition feeds {A} (m : build A) (bs : list bool) : Prop := forall w, inputs_of (fst (m w)) = bs.
Lemma feeds_bind {A B} (m : build A) (k : A -> build B) a b : feeds m a -> (forall x, feeds (k x) b) -> feeds (b_bind m k) (a ++ b).
Proof.
  intros Hm Hk w. unfold b_bind. specialize (Hm w). destruct (m w) as [g1 x]. specialize (Hk x (w + nwires g1)).
  destruct (k x (w + nwires g1)) as [g2 y]. cbn [fst] in *. rewrite fed_app. congruence.
Qed.
Lemma feeds_bind_nil {A B} (m : build A) (k : A -> build B) b : feeds m [] -> (forall x, feeds (k x) b) -> feeds (b_bind m k) b.
Proof. exact (feeds_bind m k [] b). Qed.
Lemma feeds_bind_end {A B} (m : build A) (k : A -> build B) a : feeds m a -> (forall x, feeds (k x) []) -> feeds (b_bind m k) a.
Proof. intros H1 H2. rewrite <- (app_nil_r a). now apply feeds_bind. Qed.
Lemma feeds_ret {A} (a : A) : feeds (b_ret a) [].
Proof. intro w. reflexivity. Qed.
Lemma feeds_logic g : match g with GIn _ => False | _ => True end -> feeds (b_gate g) [].
Proof. intros H w. destruct g; now try destruct H. Qed.
Lemma feeds_reveal l : feeds (b_reveal l) [].
Proof. intro w. cbn. induction l; [reflexivity|assumption]. Qed.
Lemma feeds_ins bs : feeds (b_ins bs) bs.
Proof. intro w. apply fed_ins. Qed.
Lemma feeds_pubs bs : feeds (b_pubs bs) [].
Proof. intro w. apply fed_pubs. Qed.
Lemma feeds_each {A B} (f : A -> B -> build A) l : (forall a x, feeds (f a x) []) -> forall a, feeds (b_each f a l) [].
Proof. intro H. induction l as [|x l IH]; intro a; cbn [b_each]; [apply feeds_ret|]. apply feeds_bind_nil; [apply H|apply IH]. Qed.
Ltac nofeed := repeat first [apply feeds_ret | apply feeds_reveal | apply feeds_pubs | (apply feeds_logic; exact I) | (apply feeds_bind_nil; [|intro]) | (apply feeds_each; intros)].
Lemma feeds_bristol cf inp : feeds (b_bristol cf inp) [].
Proof.
  unfold b_bristol. apply feeds_bind_nil; [|intro; apply feeds_ret]. apply feeds_each. intros m g. unfold b_bgate. cbv zeta.
  apply feeds_bind_nil; [apply feeds_logic; now destruct (g_kind g)|intro; apply feeds_ret].
Qed.
Lemma feeds_sub a b : feeds (b_sub a b) [].
Proof.
  unfold b_sub. apply feeds_bind_nil; [now apply feeds_logic|]. induction (combine a b) as [|[i j] r IH]; intro f; cbn [b_sub_from]; [apply feeds_ret|].
  destruct r; [nofeed|]. do 5 (apply feeds_bind_nil; [now apply feeds_logic|intro]). apply feeds_bind_nil; [apply IH|intro; apply feeds_ret].
Qed.
Lemma feeds_add a b : feeds (b_add a b) [].
Proof.
  unfold b_add. apply feeds_bind_nil; [now apply feeds_logic|]. induction (combine a b) as [|[i j] r IH]; intro f; cbn [b_add_from]; [apply feeds_ret|].
  destruct r; [nofeed|]. do 5 (apply feeds_bind_nil; [now apply feeds_logic|intro]). apply feeds_bind_nil; [apply IH|intro; apply feeds_ret].
Qed.
Lemma feeds_circuit {A} (m : build A) bs : feeds m bs -> inputs_of (circuit m) = bs.
Proof. intro H. apply H. Qed.
Lemma example_feeds a b : inputs_of (circuit (example_prog a b)) = a ++ b.
Proof.
  apply feeds_circuit. unfold example_prog. apply feeds_bind; [apply feeds_ins|]. intro x. rewrite <- (app_nil_r b) at 2.
  apply feeds_bind; [apply feeds_ins|]. intro y. apply feeds_bind_nil; [apply feeds_sub|]. intro d. apply feeds_reveal.
Qed.
Lemma sha_feeds cf zero rounds wit : inputs_of (circuit (sha_prog cf zero rounds wit)) = wit.
Proof.
  apply feeds_circuit. unfold sha_prog. rewrite <- (app_nil_r wit) at 2. apply feeds_bind; [apply feeds_ins|]. intro x.
  apply feeds_bind_nil; [apply feeds_pubs|]. intro o. apply feeds_bind_nil; [apply feeds_bristol|]. intro d.
  apply feeds_bind_nil; [apply feeds_each; intros o' n; unfold sha_step; apply feeds_bind_nil; [apply feeds_bristol|intro; apply feeds_ret]|].
  intro. apply feeds_reveal.
Qed.
Lemma circuit_feeds rounds a b : inputs_of (circuit (circuit_prog rounds a b)) = a ++ b.
Proof.
  apply feeds_circuit. unfold circuit_prog. apply feeds_bind; [apply feeds_ins|]. intro x. rewrite <- (app_nil_r b) at 2.
  apply feeds_bind; [apply feeds_ins|]. intro y. apply feeds_bind_nil; [apply feeds_pubs|]. intro z.
  apply feeds_bind_nil; [|intro; nofeed]. apply feeds_each. intros [la lb] n. unfold circuit_round. apply feeds_bind_nil; [apply feeds_add|]. intro b'.
  apply feeds_bind_nil; [apply feeds_each; intros [u v] j; unfold circuit_mix, b_or; nofeed|]. intro ab.
  apply feeds_bind_nil; [apply feeds_each; intros [u v] j; unfold circuit_tail; nofeed|]. intro ab'.
  nofeed.
Qed.
Lemma input_feeds xs : inputs_of (circuit (input_prog xs)) = xs.
Proof. apply feeds_circuit. unfold input_prog. rewrite <- (app_nil_r xs) at 2. apply feeds_bind; [apply feeds_ins|]. intro. apply feeds_reveal. Qed.

Fixpoint merkle_leaves (h : nat) (leaf : nat -> nat -> bool) (k node : nat) : list bool :=
  match k with
  | 0 => map (leaf node) (seq 0 (2 * h))
  | S k' => merkle_leaves h leaf k' (2 * node) ++ merkle_leaves h leaf k' (2 * node + 1)
  end.
Lemma merkle_feeds cf h leaf k : forall node, feeds (b_merkle cf h leaf k node) (merkle_leaves h leaf k node).
Proof.
  induction k as [|k IH]; intro node; cbn [b_merkle merkle_leaves].
  - apply feeds_bind_end; [apply feeds_ins|intro; apply feeds_bristol].
  - apply feeds_bind; [apply IH|]. intro l. apply feeds_bind_end; [apply IH|]. intro r.
    apply feeds_bind_nil; [apply feeds_pubs|]. intro. apply feeds_bristol.
Qed.
(** the leaves, left to right, are consecutive rows *)
Lemma merkle_leaves_rows h leaf k : forall node, merkle_leaves h leaf k node = flat_map (fun n => map (leaf n) (seq 0 (2 * h))) (seq (2 ^ k * node) (2 ^ k)).
Proof.
  induction k as [|k IH]; intro node.
  - cbn [merkle_leaves Nat.pow seq flat_map]. now rewrite app_nil_r, Nat.mul_1_l.
  - cbn [merkle_leaves]. rewrite !IH, <- flat_map_app. f_equal. rewrite Nat.pow_succ_r'. replace (2 * 2 ^ k) with (2 ^ k + 2 ^ k) by lia. rewrite seq_app. f_equal; f_equal; lia.
Qed.
Lemma merkle_prog_feeds cf h depth base witness : inputs_of (circuit (merkle_prog cf h depth base witness)) = merkle_leaves h (pointer_arg base witness h) (depth - 1) 0.
Proof.
  apply feeds_circuit. unfold merkle_prog. apply feeds_bind_end; [apply merkle_feeds|]. intro. nofeed.
Qed.
Lemma merkle_leaves_true h leaf k : (forall n i, leaf n i = true) -> forall node, merkle_leaves h leaf k node = repeat true (2 ^ k * (2 * h)).
Proof.
  intro H. induction k as [|k IH]; intro node; cbn [merkle_leaves].
  - rewrite Nat.pow_0_r, Nat.mul_1_l. generalize (2 * h). intro n. generalize 0. induction n as [|n IHn]; intro s; [reflexivity|]. cbn. now rewrite H, IHn.
  - rewrite !IH, <- repeat_app. f_equal. rewrite Nat.pow_succ_r'. lia.
Qed.
