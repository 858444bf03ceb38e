(** Proofs about the gate-level read-write memory: circuits. *)
From Coq Require Import NArith List Bool Arith Lia.
From Verif Require Import Word WordProofs GF128 BoolModel BoolSpec F2kModel F2kSpec VoleF2kSpec RamModel RamSpec RamGateModel RamGateSpec.
Import ListNotations.
Ltac Zify.zify_post_hook ::= idtac.

(** * Evaluation *)
Lemma nwires_app a b : nwires (a ++ b) = nwires a + nwires b.
Proof. unfold nwires. now rewrite filter_app, app_length. Qed.
Lemma plain_eval_app c1 : forall ws outs c2, plain_eval ws outs (c1 ++ c2) =
  plain_eval (fst (plain_eval ws outs c1)) (snd (plain_eval ws outs c1)) c2.
Proof. induction c1 as [|g c1 IH]; intros; [reflexivity|]. destruct g; cbn [app plain_eval]; apply IH. Qed.
Definition nrev (c : list gate) : nat := length (filter (fun g => match g with GReveal _ => true | _ => false end) c).
Lemma plain_eval_ext c : forall ws outs, exists e o, plain_eval ws outs c = (ws ++ e, outs ++ o) /\ length e = nwires c /\ length o = nrev c.
Proof.
  induction c as [|g c IH]; intros ws outs.
  - exists [], []. now rewrite !app_nil_r.
  - destruct g; cbn [plain_eval];
      match goal with |- exists e o, plain_eval ?a ?b c = _ /\ _ => destruct (IH a b) as (e & o & E & L & Lo) end; rewrite E;
      [exists (x :: e), o|exists (b :: e), o|exists (xorb (pwire ws i) (pwire ws j) :: e), o|exists (negb (pwire ws i) :: e), o
      |exists (pwire ws i && pwire ws j :: e), o|exists e, (pwire ws i :: o)]; rewrite <- !app_assoc; cbn [app]; (split; [reflexivity|]);
      unfold nwires, nrev in *; cbn; lia.
Qed.
Lemma pwire_app ws e i : i < length ws -> pwire (ws ++ e) i = pwire ws i.
Proof. intro H. unfold pwire. now apply app_nth1. Qed.
Lemma pwire_new ws b : pwire (ws ++ [b]) (length ws) = b.
Proof. unfold pwire. now rewrite nth_middle. Qed.
Lemma field_app ws e l : Forall (fun i => i < length ws) l -> field (ws ++ e) l = field ws l.
Proof. intro H. unfold field. f_equal. apply map_ext_in. intros i Hi. rewrite Forall_forall in H. apply pwire_app. now apply H. Qed.

(** * Hoare-style rules for circuit builders *)
Definition runs {A} (m : build A) (ws : list bool) (P : list bool -> A -> Prop) : Prop :=
  exists e, (forall outs, plain_eval ws outs (fst (m (length ws))) = (ws ++ e, outs)) /\
            P (ws ++ e) (snd (m (length ws))).
Definition logic (g : gate) : bool := match g with GIn _ | GReveal _ => false | _ => true end.
Definition shape {A} (m : build A) (k : nat) : Prop :=
  forall w, count_and (fst (m w)) = k /\ forallb logic (fst (m w)) = true.
Lemma runs_ret {A} (a : A) ws (P : list bool -> A -> Prop) : P ws a -> runs (b_ret a) ws P.
Proof. intro H. exists []. rewrite app_nil_r. split; [intro; cbn; reflexivity|exact H]. Qed.
Lemma runs_bind {A B} (m : build A) (k : A -> build B) ws P Q : runs m ws P ->
  (forall e a, P (ws ++ e) a -> runs (k a) (ws ++ e) Q) -> runs (b_bind m k) ws Q.
Proof.
  intros (e & E & HP) Hk. destruct (Hk e _ HP) as (e' & E' & HQ). exists (e ++ e'). unfold b_bind. rewrite app_assoc.
  destruct (plain_eval_ext (fst (m (length ws))) ws []) as (e0 & o0 & E0 & L0 & _). rewrite (E []) in E0.
  injection E0 as E0 _. apply app_inv_head in E0. subst e0.
  assert (LL : length (ws ++ e) = length ws + nwires (fst (m (length ws)))) by (rewrite app_length; lia).
  rewrite LL in E', HQ. destruct (m (length ws)) as [g1 a]. cbn [fst snd] in *. destruct (k a (length ws + nwires g1)) as [g2 b]. cbn [fst snd] in *.
  split; [|exact HQ]. intro outs. rewrite plain_eval_app, E. cbn [fst snd]. apply E'.
Qed.
Lemma runs_gate g ws v (P : list bool -> nat -> Prop) :
  (forall outs, plain_eval ws outs [g] = (ws ++ [v], outs)) ->
  P (ws ++ [v]) (length ws) -> runs (b_gate g) ws P.
Proof. intros E HP. exists [v]. split; [exact E|exact HP]. Qed.
Lemma runs_weaken {A} (m : build A) ws (P Q : list bool -> A -> Prop) : runs m ws P -> (forall e a, P (ws ++ e) a -> Q (ws ++ e) a) -> runs m ws Q.
Proof. intros (e & E & HP) H. exists e. auto. Qed.
(** the result is a wire with value [v] *)
Definition is_wire (v : bool) (ws : list bool) (a : nat) : Prop := a < length ws /\ pwire ws a = v.
Lemma is_wire_app v ws e a : is_wire v ws a -> is_wire v (ws ++ e) a.
Proof. intros [L E]. split; [rewrite app_length; lia|now rewrite pwire_app]. Qed.
Lemma gate_wire g v ws : (forall outs, plain_eval ws outs [g] = (ws ++ [v], outs)) -> runs (b_gate g) ws (is_wire v).
Proof. intro E. eapply runs_gate; [exact E|]. split; [rewrite app_length; cbn; lia|apply pwire_new]. Qed.
Lemma run_xor ws i j a b : is_wire a ws i -> is_wire b ws j -> runs (b_gate (GXor i j)) ws (is_wire (xorb a b)).
Proof. intros [_ <-] [_ <-]. apply gate_wire. reflexivity. Qed.
Lemma run_and ws i j a b : is_wire a ws i -> is_wire b ws j -> runs (b_gate (GAnd i j)) ws (is_wire (a && b)).
Proof. intros [_ <-] [_ <-]. apply gate_wire. reflexivity. Qed.
Lemma run_not ws i a : is_wire a ws i -> runs (b_gate (GNot i)) ws (is_wire (negb a)).
Proof. intros [_ <-]. apply gate_wire. reflexivity. Qed.
Lemma run_pub ws b : runs (b_gate (GPub b)) ws (is_wire b).
Proof. apply gate_wire. reflexivity. Qed.
Lemma shape_ret {A} (a : A) : shape (b_ret a) 0.
Proof. intro w. now cbn. Qed.
Lemma count_and_app a b : count_and (a ++ b) = count_and a + count_and b.
Proof. induction a as [|g a IH]; [reflexivity|]. destruct g; cbn [app count_and]; lia. Qed.
Lemma shape_bind {A B} (m : build A) (k : A -> build B) n n' : shape m n -> (forall a, shape (k a) n') -> shape (b_bind m k) (n + n').
Proof.
  intros Hm Hk w. unfold b_bind. specialize (Hm w). destruct (m w) as [g1 a]. cbn [fst] in Hm. destruct Hm as [Hm1 Hm2].
  specialize (Hk a (w + nwires g1)). destruct (k a (w + nwires g1)) as [g2 b]. cbn [fst] in *. destruct Hk as [Hk1 Hk2].
  now rewrite count_and_app, forallb_app, Hm1, Hm2, Hk1, Hk2.
Qed.
Lemma shape_gate g : logic g = true -> shape (b_gate g) (count_and [g]).
Proof. intros H w. cbn [b_gate fst forallb]. now rewrite H. Qed.
Lemma shape_x i j : shape (b_gate (GXor i j)) 0.
Proof. now apply (shape_gate (GXor i j)). Qed.
Lemma shape_a i j : shape (b_gate (GAnd i j)) 1.
Proof. now apply (shape_gate (GAnd i j)). Qed.
Lemma shape_n i : shape (b_gate (GNot i)) 0.
Proof. now apply (shape_gate (GNot i)). Qed.
Lemma shape_p b : shape (b_gate (GPub b)) 0.
Proof. now apply (shape_gate (GPub b)). Qed.
Lemma shape_eq {A} (m : build A) n n' : shape m n -> n = n' -> shape m n'.
Proof. now intros H <-. Qed.

(** * The emp-tool circuits *)
Ltac wir := repeat first [assumption | apply is_wire_app].
Lemma run_or ws i j a b : is_wire a ws i -> is_wire b ws j -> runs (b_or i j) ws (is_wire (a || b)).
Proof.
  intros Ha Hb. unfold b_or. eapply runs_bind; [apply (run_xor _ _ _ a b); wir|]. intros e x Hx.
  eapply runs_bind; [apply (run_and _ _ _ a b); wir|]. intros e' y Hy.
  eapply runs_weaken; [apply (run_xor _ _ _ (xorb a b) (a && b)); wir|]. intros e'' z Hz. now destruct a, b.
Qed.
Lemma shape_or i j : shape (b_or i j) 1.
Proof.
  unfold b_or. eapply shape_eq; [|instantiate (1 := 0 + (1 + 0)); reflexivity].
  eapply (shape_bind _ _ 0); [now apply shape_gate|intro]. eapply (shape_bind _ _ 1); [now apply shape_gate|intro]. now apply (shape_gate (GXor _ _)).
Qed.
(** pairs of wires with given values *)
Definition pairs_at (ws : list bool) (ab : list (nat * nat)) : list (bool * bool) := map (fun p => (pwire ws (fst p), pwire ws (snd p))) ab.
Definition pairs_ok (ws : list bool) (ab : list (nat * nat)) : Prop := Forall (fun p => fst p < length ws /\ snd p < length ws) ab.
Lemma pairs_app ws e ab : pairs_ok ws ab -> pairs_at (ws ++ e) ab = pairs_at ws ab /\ pairs_ok (ws ++ e) ab.
Proof.
  intro H. split.
  - apply map_ext_in. intros p Hp. unfold pairs_ok in H. rewrite Forall_forall in H. destruct (H p Hp). now rewrite !pwire_app.
  - eapply Forall_impl; [|exact H]. cbn beta. intros p [A B]. rewrite app_length. lia.
Qed.
Lemma run_eq_from vs : forall ab res ws t, is_wire t ws res -> pairs_ok ws ab -> pairs_at ws ab = vs ->
  runs (b_eq_from res ab) ws (is_wire (t && forallb (fun p => eqb (fst p) (snd p)) vs)).
Proof.
  induction vs as [|v vs IH]; intros ab res ws t Ht Hok E; destruct ab as [|[a b] ab]; try discriminate.
  - apply runs_ret. cbn. now rewrite andb_true_r.
  - injection E as <- E. inversion Hok as [|? ? [Ha Hb] Hok']; subst. cbn [fst snd] in Ha, Hb. cbn [b_eq_from].
    eapply runs_bind; [apply (run_xor _ _ _ (pwire ws a) (pwire ws b)); split; auto|]. intros e x Hx.
    eapply runs_bind; [apply run_not; exact Hx|]. intros e' y Hy.
    eapply runs_bind; [apply run_and; [wir; exact Ht|exact Hy]|]. intros e'' z Hz.
    rewrite <- !app_assoc in *. destruct (pairs_app ws (e ++ e' ++ e'') ab Hok') as [P1 P2].
    eapply runs_weaken; [apply (IH ab z _ _ Hz P2 P1)|]. intros e4 u Hu. cbn [forallb fst snd].
    replace (t && (eqb (pwire ws a) (pwire ws b) && forallb (fun p : bool * bool => eqb (fst p) (snd p)) (pairs_at ws ab)))
      with (t && negb (xorb (pwire ws a) (pwire ws b)) && forallb (fun p : bool * bool => eqb (fst p) (snd p)) (pairs_at ws ab)); [exact Hu|].
    rewrite andb_assoc. f_equal. f_equal. now destruct (pwire ws a), (pwire ws b).
Qed.
Lemma shape_eq_from ab : forall res, shape (b_eq_from res ab) (length ab).
Proof.
  induction ab as [|[a b] ab IH]; intro res; [apply shape_ret|]. cbn [b_eq_from length].
  eapply (shape_bind _ _ 0); [now apply shape_gate|intro]. eapply (shape_bind _ _ 0); [now apply (shape_gate (GNot _))|intro].
  eapply (shape_bind _ _ 1); [now apply (shape_gate (GAnd _ _))|intro; apply IH].
Qed.
(** words *)
Lemma word_cons b l : word_of (b :: l) = (2 * word_of l + N.b2n b)%N.
Proof. unfold word_of. cbn [fold_right]. now destruct b. Qed.
Lemma word_eqb la : forall lb, length la = length lb ->
  forallb (fun p => eqb (fst p) (snd p)) (combine la lb) = N.eqb (word_of la) (word_of lb).
Proof.
  induction la as [|a la IH]; destruct lb as [|b lb]; intro L; try discriminate; [reflexivity|]. cbn [combine forallb fst snd].
  rewrite (IH lb) by (injection L; auto). rewrite !word_cons.
  destruct a, b; cbn [eqb N.b2n andb]; destruct (N.eqb_spec (word_of la) (word_of lb)) as [E|E]; try rewrite E; symmetry;
    first [apply N.eqb_eq; lia|apply N.eqb_neq; lia].
Qed.
Lemma word_lt l : (word_of l < 2 ^ N.of_nat (length l))%N.
Proof.
  induction l as [|b l IH]; [cbn; lia|]. rewrite word_cons. cbn [length]. rewrite Nat2N.inj_succ, N.pow_succ_r'. destruct b; cbn [N.b2n]; lia.
Qed.
Lemma word_snoc l b : word_of (l ++ [b]) = (word_of l + 2 ^ N.of_nat (length l) * N.b2n b)%N.
Proof.
  induction l as [|a l IH]; [cbn [app]; rewrite word_cons; cbn; now destruct b|].
  cbn [app length]. rewrite !word_cons, IH, Nat2N.inj_succ, N.pow_succ_r'. nia.
Qed.
Lemma combine_map2 {A B C D} (f : A -> C) (g : B -> D) la : forall lb, combine (map f la) (map g lb) = map (fun p => (f (fst p), g (snd p))) (combine la lb).
Proof. induction la as [|a la IH]; destruct lb; cbn; auto. now rewrite IH. Qed.
Lemma pairs_combine ws la lb : Forall (fun i => i < length ws) la -> Forall (fun i => i < length ws) lb -> pairs_ok ws (combine la lb).
Proof.
  intros Ha Hb. apply Forall_forall. intros [a b] Hin. rewrite Forall_forall in Ha, Hb. split; [apply Ha; now apply in_combine_l in Hin|apply Hb; now apply in_combine_r in Hin].
Qed.
Lemma run_eq ws n la lb : wires_ok (length ws) n la -> wires_ok (length ws) n lb ->
  runs (b_eq la lb) ws (is_wire (N.eqb (field ws la) (field ws lb))).
Proof.
  intros [La Fa] [Lb Fb]. unfold b_eq. eapply runs_bind; [apply run_pub|]. intros e t Ht.
  destruct (pairs_app ws e (combine la lb) (pairs_combine ws la lb Fa Fb)) as [P1 P2].
  eapply runs_weaken; [apply (run_eq_from _ _ _ _ _ Ht P2 P1)|]. intros e' a H. cbn [andb] in H.
  unfold pairs_at in H. rewrite <- (combine_map2 (pwire ws) (pwire ws)), word_eqb in H by (rewrite !map_length; congruence). exact H.
Qed.
Lemma shape_beq n la lb : length la = n -> length lb = n -> shape (b_eq la lb) n.
Proof.
  intros La Lb. unfold b_eq. eapply shape_eq; [eapply (shape_bind _ _ 0); [now apply shape_gate|intro; apply shape_eq_from]|].
  rewrite combine_length. lia.
Qed.
(** the borrow chain *)
Fixpoint borrow_of (c : bool) (l : list (bool * bool)) : bool :=
  match l with [] => c | (a, b) :: r => borrow_of (xorb c (xorb a b && xorb c b)) r end.
Lemma borrow_lt la : forall lb c, length la = length lb -> borrow_of c (combine la lb) = N.ltb (word_of la) (word_of lb + N.b2n c).
Proof.
  induction la as [|a la IH]; destruct lb as [|b lb]; intros c L; try discriminate; [now destruct c|].
  cbn [combine borrow_of]. rewrite IH by (injection L; auto). rewrite !word_cons.
  destruct a, b, c; cbn [xorb andb N.b2n]; apply eq_true_iff_eq; rewrite !N.ltb_lt; lia.
Qed.
Lemma run_borrow vs : forall ab bw ws c, is_wire c ws bw -> pairs_ok ws ab -> pairs_at ws ab = vs -> runs (b_borrow bw ab) ws (is_wire (borrow_of c vs)).
Proof.
  induction vs as [|v vs IH]; intros ab bw ws c Hc Hok E; destruct ab as [|[a b] ab]; try discriminate; [now apply runs_ret|].
  injection E as <- E. inversion Hok as [|? ? [Ha Hb] Hok']; subst. cbn [fst snd] in Ha, Hb. cbn [b_borrow].
  eapply runs_bind; [apply (run_xor _ _ _ (pwire ws a) (pwire ws b)); split; auto|]. intros e x Hx.
  eapply runs_bind; [apply (run_xor _ _ _ c (pwire ws b)); [wir|apply is_wire_app; now split]|]. intros e' y Hy.
  eapply runs_bind; [apply run_and; [apply is_wire_app; exact Hx|exact Hy]|]. intros e'' z Hz.
  eapply runs_bind; [apply (run_xor _ _ _ c); [wir|exact Hz]|]. intros e3 u Hu.
  rewrite <- !app_assoc in *. destruct (pairs_app ws (e ++ e' ++ e'' ++ e3) ab Hok') as [P1 P2].
  exact (IH ab u _ _ Hu P2 P1).
Qed.
Lemma shape_borrow ab : forall bw, shape (b_borrow bw ab) (length ab).
Proof.
  induction ab as [|[a b] ab IH]; intro bw; [apply shape_ret|]. cbn [b_borrow length].
  eapply (shape_bind _ _ 0); [now apply shape_gate|intro]. eapply (shape_bind _ _ 0); [now apply (shape_gate (GXor _ _))|intro].
  eapply (shape_bind _ _ 1); [now apply (shape_gate (GAnd _ _))|intro]. eapply (shape_bind _ _ 0); [now apply (shape_gate (GXor _ _))|intro; apply IH].
Qed.
Lemma top_bit k r m : (r < 2 ^ m)%N -> N.testbit (k * 2 ^ m + r) m = N.odd k.
Proof.
  intro H. rewrite <- N.bit0_odd. rewrite <- (N.div_pow2_bits _ m 0).
  rewrite N.div_add_l by (apply N.pow_nonzero; lia). rewrite N.div_small by exact H. now rewrite N.add_0_r.
Qed.
Lemma mod_top m k r : (r < 2 ^ m)%N -> N.testbit ((k * 2 ^ m + r) mod 2 ^ (m + 1)) m = N.odd k.
Proof. intro H. rewrite N.mod_pow2_bits_low by lia. now apply top_bit. Qed.
Lemma igeq_bits la lb x y : length la = length lb ->
  igeq (S (length la)) (word_of (la ++ [x])) (word_of (lb ++ [y])) = negb (xorb (xorb x y) (borrow_of false (combine la lb))).
Proof.
  intro L. unfold igeq. f_equal. rewrite borrow_lt by exact L. cbn [N.b2n]. rewrite N.add_0_r. rewrite !word_snoc.
  pose proof (word_lt la) as A. pose proof (word_lt lb) as B. rewrite <- L in *. set (m := N.of_nat (length la)) in *.
  replace (N.of_nat (S (length la))) with (m + 1)%N by (unfold m; lia). replace (m + 1 - 1)%N with m by lia.
  assert (E2 : (2 ^ (m + 1) = 2 * 2 ^ m)%N) by (rewrite N.add_1_r; apply N.pow_succ_r').
  destruct (N.ltb_spec (word_of la) (word_of lb)) as [C|C].
  - assert (R : (word_of la + 2 ^ m - word_of lb < 2 ^ m)%N) by lia.
    destruct x, y; cbn [N.b2n xorb].
    + replace (word_of la + 2 ^ m * 1 + 2 ^ (m + 1) - (word_of lb + 2 ^ m * 1))%N with (1 * 2 ^ m + (word_of la + 2 ^ m - word_of lb))%N by lia. now rewrite mod_top.
    + replace (word_of la + 2 ^ m * 1 + 2 ^ (m + 1) - (word_of lb + 2 ^ m * 0))%N with (2 * 2 ^ m + (word_of la + 2 ^ m - word_of lb))%N by lia. now rewrite mod_top.
    + replace (word_of la + 2 ^ m * 0 + 2 ^ (m + 1) - (word_of lb + 2 ^ m * 1))%N with (0 * 2 ^ m + (word_of la + 2 ^ m - word_of lb))%N by lia. now rewrite mod_top.
    + replace (word_of la + 2 ^ m * 0 + 2 ^ (m + 1) - (word_of lb + 2 ^ m * 0))%N with (1 * 2 ^ m + (word_of la + 2 ^ m - word_of lb))%N by lia. now rewrite mod_top.
  - assert (R : (word_of la - word_of lb < 2 ^ m)%N) by lia.
    destruct x, y; cbn [N.b2n xorb].
    + replace (word_of la + 2 ^ m * 1 + 2 ^ (m + 1) - (word_of lb + 2 ^ m * 1))%N with (2 * 2 ^ m + (word_of la - word_of lb))%N by lia. now rewrite mod_top.
    + replace (word_of la + 2 ^ m * 1 + 2 ^ (m + 1) - (word_of lb + 2 ^ m * 0))%N with (3 * 2 ^ m + (word_of la - word_of lb))%N by lia. now rewrite mod_top.
    + replace (word_of la + 2 ^ m * 0 + 2 ^ (m + 1) - (word_of lb + 2 ^ m * 1))%N with (1 * 2 ^ m + (word_of la - word_of lb))%N by lia. now rewrite mod_top.
    + replace (word_of la + 2 ^ m * 0 + 2 ^ (m + 1) - (word_of lb + 2 ^ m * 0))%N with (2 * 2 ^ m + (word_of la - word_of lb))%N by lia. now rewrite mod_top.
Qed.
Lemma snoc_split {A} (l : list A) d n : length l = S n -> l = removelast l ++ [last l d] /\ length (removelast l) = n.
Proof.
  intro H. assert (l <> []) by (destruct l; [discriminate|easy]). pose proof (app_removelast_last d H0) as E. split; [exact E|].
  apply (f_equal (@length A)) in E. rewrite app_length in E. cbn in E. lia.
Qed.
Lemma run_lt ws n la lb : wires_ok (length ws) (S n) la -> wires_ok (length ws) (S n) lb ->
  runs (b_lt la lb) ws (is_wire (ilt (S n) (field ws la) (field ws lb))).
Proof.
  intros [La Fa] [Lb Fb]. unfold b_lt, b_geq.
  destruct (snoc_split la 0 n La) as [Ea Ra]. destruct (snoc_split lb 0 n Lb) as [Eb Rb].
  set (a' := removelast la) in *. set (x := last la 0) in *. set (b' := removelast lb) in *. set (y := last lb 0) in *.
  rewrite Ea in Fa. rewrite Eb in Fb. apply Forall_app in Fa. apply Forall_app in Fb. destruct Fa as [Fa Fx]. destruct Fb as [Fb Fy].
  apply Forall_inv in Fx, Fy. rename Fx into Hx, Fy into Hy.
  assert (V : ilt (S (length a')) (field ws la) (field ws lb) = negb (negb (xorb (xorb (pwire ws x) (pwire ws y)) (borrow_of false (combine (map (pwire ws) a') (map (pwire ws) b')))))).
  { unfold ilt, field. rewrite Ea, Eb, !map_app. cbn [map]. f_equal. rewrite <- (map_length (pwire ws) a'). apply igeq_bits. rewrite !map_length. congruence. }
  rewrite Ra in *. rewrite V.
  eapply runs_bind; [|intros e g Hg; apply run_not; exact Hg].
  eapply runs_bind; [apply run_pub|]. intros e f Hf.
  destruct (pairs_app ws e (combine a' b') (pairs_combine ws a' b' Fa Fb)) as [P1 P2].
  eapply runs_bind; [apply (run_borrow _ _ _ _ _ Hf P2 P1)|]. intros e' bw Hbw.
  eapply runs_bind; [apply (run_xor _ _ _ (pwire ws x) (pwire ws y)); apply is_wire_app, is_wire_app; now split|]. intros e'' z Hz.
  unfold pairs_at in Hbw. rewrite <- (combine_map2 (pwire ws) (pwire ws)) in Hbw.
  eapply runs_bind; [apply run_xor; [exact Hz|apply is_wire_app; exact Hbw]|]. intros e3 u Hu. apply run_not. exact Hu.
Qed.
Lemma shape_lt n la lb : length la = S n -> length lb = S n -> shape (b_lt la lb) n.
Proof.
  intros La Lb. destruct (snoc_split la 0 n La) as [_ Ra]. destruct (snoc_split lb 0 n Lb) as [_ Rb].
  unfold b_lt, b_geq. eapply shape_eq.
  - eapply (shape_bind _ _ _ 0); [|intro; now apply (shape_gate (GNot _))].
    eapply (shape_bind _ _ 0); [now apply shape_gate|intro]. eapply shape_bind; [apply shape_borrow|intro].
    eapply shape_bind; [apply shape_x|intro]. eapply shape_bind; [apply shape_x|intro]. apply shape_n.
  - rewrite combine_length, Ra, Rb. cbn. lia.
Qed.

(** * The order condition *)
Section Order.
  Variables (index_sz step_sz val_sz : nat).
  (** wires of a claimed record *)
  Definition claim_ok (w : nat) (m : mrec) : Prop :=
    wires_ok w (index_sz + 1) (m_idx m) /\ wires_ok w step_sz (m_step m) /\ wires_ok w val_sz (m_val m) /\ m_op m < w.
  Lemma wires_ok_le w w' n l : wires_ok w n l -> w <= w' -> wires_ok w' n l.
  Proof. intros [L F] H. split; [exact L|]. eapply Forall_impl; [|exact F]. cbn beta. lia. Qed.
  Lemma claim_ok_le w w' m : claim_ok w m -> w <= w' -> claim_ok w' m.
  Proof. intros (A & B & C & D) H. split; [now apply (wires_ok_le w)|]. split; [now apply (wires_ok_le w)|]. split; [now apply (wires_ok_le w)|lia]. Qed.
  Lemma entry_app w ws e m : claim_ok w m -> w <= length ws -> entry_at (ws ++ e) m = entry_at ws m.
  Proof.
    intros H L. destruct (claim_ok_le _ _ _ H L) as ((_ & A) & (_ & B) & (_ & C) & D). unfold entry_at. now rewrite !field_app, pwire_app by assumption.
  Qed.
  Ltac okk := match goal with H : claim_ok _ _ |- _ => eapply wires_ok_le; [apply H|rewrite !app_length; lia] end.
  Lemma run_order l : 1 <= step_sz -> forall ws cond c, is_wire c ws cond -> Forall (claim_ok (length ws)) l ->
    runs (b_order cond l) ws (is_wire (c && rw_order index_sz step_sz (map (entry_at ws) l))).
  Proof.
    intro Hst. induction l as [|a l IH]; intros ws cond c Hc F; [apply runs_ret; cbn; now rewrite andb_true_r|].
    destruct l as [|b l]; [apply runs_ret; cbn; now rewrite andb_true_r|].
    pose proof (Forall_inv F) as Ka. pose proof (Forall_inv (Forall_inv_tail F)) as Kb. apply Forall_inv_tail in F.
    cbn [b_order]. set (rest := b :: l) in *.
    destruct Ka as (Ai & As & Av & Ao). destruct Kb as (Bi & Bs & Bv & Bo).
    rewrite Nat.add_1_r in Ai, Bi. assert (exists st, step_sz = S st) as [st Est] by (destruct step_sz as [|st]; [lia|now exists st]). rewrite Est in As, Bs.
    eapply runs_bind; [apply (run_eq ws _ _ _ Ai Bi)|]. intros e1 eq Heq.
    assert (LE : forall e, length ws <= length (ws ++ e)) by (intro; rewrite app_length; lia).
    assert (FA : forall e n x, wires_ok (length ws) n x -> field (ws ++ e) x = field ws x) by (intros e n x [_ Fx]; now apply field_app).
    eapply runs_bind; [apply (run_lt _ index_sz); eapply wires_ok_le; eauto|]. intros e2 lt Hlt. rewrite !(FA _ (S index_sz)) in Hlt by assumption.
    rewrite <- app_assoc in *. eapply runs_bind; [apply (run_lt _ st); eapply wires_ok_le; eauto|]. intros e3 ls Hls. rewrite !(FA _ (S st)) in Hls by assumption.
    eapply runs_bind; [apply run_and; [|exact Hls]|].
    { rewrite app_assoc. apply is_wire_app, is_wire_app. exact Heq. }
    intros e4 es Hes. eapply runs_bind; [apply run_or; [|exact Hes]|].
    { apply is_wire_app, is_wire_app. exact Hlt. }
    intros e5 o1 Ho1. eapply runs_bind; [apply run_and; [|exact Ho1]|].
    { do 4 apply is_wire_app. exact Hc. }
    intros e6 c1 Hc1. rewrite <- !app_assoc in Hc1. rewrite <- !app_assoc.
    eapply runs_bind; [apply (run_eq _ val_sz); eapply wires_ok_le; eauto|]. intros e7 ev Hev. rewrite !(FA _ val_sz) in Hev by assumption.
    eapply runs_bind; [apply (run_or _ _ _ _ (pwire ws (m_op b)) Hev)|].
    { do 2 apply is_wire_app. now split. }
    intros e8 o2 Ho2. eapply runs_bind; [apply run_and; [|exact Ho2]|].
    { do 2 apply is_wire_app. exact Hc1. }
    intros e9 c2 Hc2.
    assert (Heq2 : is_wire (field ws (m_idx a) =? field ws (m_idx b))%N ((((ws ++ e1 ++ e2 ++ e3 ++ e4 ++ e5 ++ e6) ++ e7) ++ e8) ++ e9) eq).
    { do 3 apply is_wire_app. rewrite app_assoc. apply is_wire_app. exact Heq. }
    eapply runs_bind; [apply (run_or _ _ _ _ (pwire ws (m_op b)) Heq2)|].
    { do 4 apply is_wire_app. now split. }
    intros e10 o3 Ho3. eapply runs_bind; [apply run_and; [|exact Ho3]|].
    { apply is_wire_app. exact Hc2. }
    intros e11 c3 Hc3. rewrite <- !app_assoc in Hc3. rewrite <- !app_assoc.
    match type of Hc3 with is_wire _ (ws ++ ?x) _ => set (E := x) in * end.
    eapply runs_weaken; [apply (IH (ws ++ E) c3 _ Hc3)|].
    { eapply Forall_impl; [|exact F]. intros m Hm. eapply claim_ok_le; [exact Hm|apply LE]. }
    intros e12 z Hz. assert (M : map (entry_at (ws ++ E)) rest = map (entry_at ws) rest).
    { apply map_ext_in. intros m Hm. rewrite Forall_forall in F. apply (entry_app (length ws)); auto. }
    rewrite M in Hz. revert Hz. unfold rest. cbn [map rw_order e_idx e_step e_op e_val entry_at]. rewrite Nat.add_1_r.
    rewrite Est, !andb_assoc. auto.
  Qed.
  Lemma shape_order l : 1 <= step_sz -> Forall (fun m => length (m_idx m) = index_sz + 1 /\ length (m_step m) = step_sz /\ length (m_val m) = val_sz) l ->
    forall cond, shape (b_order cond l) ((length l - 1) * (2 * index_sz + step_sz + val_sz + 7)).
  Proof.
    intro Hst. induction l as [|a l IH]; intros F cond; [apply shape_ret|]. destruct l as [|b l]; [apply shape_ret|].
    destruct (Forall_inv F) as (A1 & A2 & A3). destruct (Forall_inv (Forall_inv_tail F)) as (B1 & B2 & B3). apply Forall_inv_tail in F.
    cbn [b_order]. rewrite Nat.add_1_r in A1, B1. assert (exists st, step_sz = S st) as [st Est] by (destruct step_sz as [|st]; [lia|now exists st]). rewrite Est in A2, B2.
    eapply shape_eq.
    - eapply shape_bind; [apply (shape_beq (S index_sz)); assumption|intro]. eapply shape_bind; [apply (shape_lt index_sz); assumption|intro].
      eapply shape_bind; [apply (shape_lt st); assumption|intro]. eapply shape_bind; [apply shape_a|intro]. eapply shape_bind; [apply shape_or|intro].
      eapply shape_bind; [apply shape_a|intro]. eapply shape_bind; [apply (shape_beq val_sz); assumption|intro]. eapply shape_bind; [apply shape_or|intro].
      eapply shape_bind; [apply shape_a|intro]. eapply shape_bind; [apply shape_or|intro]. eapply shape_bind; [apply shape_a|intro]. apply (IH F).
    - cbn [length]. rewrite !Nat.sub_succ, !Nat.sub_0_r. cbn [Nat.mul]. lia.
  Qed.
End Order.
