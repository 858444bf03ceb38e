(** The two test programs of the boolean relations, and the number of choices that let a dishonest prover pass them. *)
From Coq Require Import NArith List Bool Arith Lia.
From Verif Require Import ListUtil LowMcProofs LowMcCirc BoolModel BoolSpec BoolThms BoolThms2 LowMcModel LowMcSpec LowMcThms BoolPolyModel BoolPolySpec BoolPolyProofs
  BSessModel BSessSpec BSessProofs BSessThms BSessGame GameSpec CountAlg GameProofs GameBool GameArith2.
Import ListNotations.

Definition test_app (w : list bool) (c : bcall nat) (rep : nat) : list bop := map (fun b => OGate (GIn b)) w ++ repeat (OPoly c) rep.
Lemma ta_gates w c rep : gates_of (test_app w c rep) = map GIn w.
Proof.
  unfold test_app. induction w as [|b w IH]; cbn [map app gates_of]; [|now rewrite IH].
  induction rep as [|rep IH]; [reflexivity|exact IH].
Qed.
Lemma ta_calls w c rep : calls_of (test_app w c rep) = repeat c rep.
Proof.
  unfold test_app. induction w as [|b w IH]; cbn [map app calls_of]; [|exact IH].
  induction rep as [|rep IH]; [reflexivity|]. cbn [repeat calls_of]. now rewrite IH.
Qed.
Lemma ta_rel w c rep : count_rel (test_app w c rep) = rep * call_rels c.
Proof.
  unfold test_app. induction w as [|b w IH]; cbn [map app count_rel]; [|exact IH].
  induction rep as [|rep IH]; [reflexivity|]. cbn [repeat count_rel]. rewrite IH. reflexivity.
Qed.
Lemma ta_and w c rep : count_and (gates_of (test_app w c rep)) = 0.
Proof. rewrite ta_gates. induction w as [|b w IH]; [reflexivity|exact IH]. Qed.
Lemma ta_with w c rep : forall ins, length ins = length w -> bwith_inputs ins (test_app w c rep) = test_app ins c rep.
Proof.
  unfold test_app. induction w as [|b w IH]; intros [|x ins] L; try discriminate; cbn [map app bwith_inputs].
  - clear. induction rep as [|rep IH]; [reflexivity|]. cbn [repeat bwith_inputs]. now rewrite IH.
  - rewrite IH by (injection L; auto). reflexivity.
Qed.
Lemma ta_wf w c rep : Forall (fun i => i < length w) (wires_of c) -> wf_prog 0 (test_app w c rep) = true.
Proof.
  intro F. unfold test_app.
  assert (X : forall v n, n + length v = length w -> wf_prog n (map (fun b => OGate (GIn b)) v ++ repeat (OPoly c) rep) = true).
  { induction v as [|b v IH]; intros n E; cbn [map app wf_prog gate_wires makes_wire forallb length] in *.
    - rewrite Nat.add_0_r in E. subst n. induction rep as [|rep' IHr]; [reflexivity|]. cbn [repeat wf_prog].
      rewrite IHr, andb_true_r. apply forallb_forall. intros i Hi. rewrite Forall_forall in F. now apply Nat.ltb_lt, F.
    - cbn [andb]. apply IH. lia. }
  now apply X.
Qed.
Lemma plain_ins w : forall ws outs, plain_eval ws outs (map GIn w) = (ws ++ w, outs).
Proof.
  induction w as [|b w IH]; intros ws outs; cbn [map plain_eval]; [now rewrite app_nil_r|]. rewrite IH, <- app_assoc. reflexivity.
Qed.
Lemma ta_rels w c rep : Forall (fun i => i < length w) (wires_of c) ->
  brels (test_app w c rep) = concat (repeat (defects (bcall_map (pwire w) c)) rep).
Proof.
  intro F. rewrite brels_gates by now apply ta_wf. rewrite ta_gates, plain_ins. cbn [fst app]. unfold committed_rels. rewrite ta_calls.
  induction rep as [|rep IH]; [reflexivity|]. cbn [repeat flat_map concat]. now rewrite IH.
Qed.
Lemma all_hold_app a b : all_hold (a ++ b) = all_hold a && all_hold b.
Proof. apply forallb_app. Qed.
Lemma ta_hold w c rep : Forall (fun i => i < length w) (wires_of c) -> 1 <= rep ->
  all_hold (brels (test_app w c rep)) = all_hold (defects (bcall_map (pwire w) c)).
Proof.
  intros F Hr. rewrite ta_rels by exact F. destruct rep as [|rep]; [lia|]. clear Hr. cbn [repeat concat].
  rewrite all_hold_app. destruct (all_hold (defects (bcall_map (pwire w) c))) eqn:E; [|reflexivity]. cbn [andb].
  induction rep as [|rep IH]; [reflexivity|]. cbn [repeat concat]. now rewrite all_hold_app, E, IH.
Qed.
Lemma ver_ins_hash r0 r1 K d t csz sd bm cm w : forall v v',
  ver_run r0 r1 K d t csz sd bm cm v (map GIn w) = Some v' -> v_hash v' = v_hash v /\ v_buf v' = v_buf v.
Proof.
  induction w as [|b w IH]; intros v v' E; cbn [map ver_run] in E; [injection E as <-; now split|].
  cbn [ver_step] in E. apply IH in E. exact E.
Qed.
Lemma ver_ins_nohash r0 r1 K d t csz sd bm cm w v : ver_exec r0 r1 K d t csz sd bm cm (map GIn w) = Some v -> v_hash v = [].
Proof.
  unfold ver_exec. destruct (ver_run _ _ _ _ _ _ _ _ _ _ _) as [v0|] eqn:E; [|discriminate].
  apply ver_ins_hash in E. destruct E as [E1 E2]. unfold ver_final. rewrite E2. cbn. intro X. injection X as <-. exact E1.
Qed.

Lemma sumf_map' {A B : Type} (g : A -> B) f l : sumf f (map g l) = sumf (fun x => f (g x)) l.
Proof. induction l as [|x l IH]; cbn [map sumf]; [reflexivity|]. now rewrite IH. Qed.
(** ** counting *)
Section Count.
  Variables (r0 r1 : N) (pM : nat -> N) (ope : nat -> list N) (t csz psz : nat) (w : list bool) (c : bcall nat) (rep : nat).
  Variables (D : Type) (Deqb : D -> D -> bool) (H : list N -> D).
  Variables (bit : list (list N) -> list N -> nat -> bool).
  Variables (reply preply : list (list N) -> list N -> nat -> N * N) (digest : list (list N) -> list N -> D).
  Variables (Y deltas : list N).
  Hypothesis Ht : 1 <= t.
  Hypothesis Hc : 1 <= csz.
  Hypothesis Hp : 1 <= psz.
  Hypothesis Hrep : 1 <= rep.
  Hypothesis Hw : Forall (fun i => i < length w) (wires_of c).
  Hypothesis NY : NoDup Y.
  Hypothesis LY : Forall (fun x => (x < 2 ^ 128)%N) Y.
  Hypothesis Hd : forall a b : D, Deqb a b = true -> a = b.
  Hypothesis Nd : NoDup deltas.
  Hypothesis Vd : Forall valid_delta deltas.
  Hypothesis Hr : forall s r k, (fst (preply s r k) < 2 ^ 128)%N.
  Let prog := test_app w c rep.
  Let Br := num_checks psz (rep * call_rels c).
  Definition tgood (ins : list bool) : bool := all_hold (defects (bcall_map (pwire ins) c)).
  Lemma tins_len b s r : length (bcommitted pM csz psz prog b s r) = length w.
  Proof. unfold bcommitted. rewrite c_ins_length. unfold prog. rewrite ta_gates. clear. induction w as [|x v IH]; [reflexivity|]. cbn. now rewrite IH. Qed.
  Lemma tbad_cheats s r d : baccepts_bad r0 r1 pM ope t csz psz prog D Deqb H bit reply preply digest tgood s r d = true ->
    bcheats r0 r1 pM ope t csz psz prog D Deqb H bit reply preply digest s r d = true.
  Proof.
    unfold baccepts_bad, bcheats. destruct (bgame _ _ _ _ _ _ _ _ _ _ _ _ _ _) as [v|]; [|discriminate]. intro E.
    apply andb_true_iff in E. destruct E as [E1 E2]. rewrite E1. cbn [andb].
    pose proof (tins_len bit s r) as L. set (ins := bcommitted pM csz psz prog bit s r) in *.
    assert (X : bwith_inputs ins prog = test_app ins c rep) by exact (ta_with w c rep ins L). cbv zeta. rewrite X.
    rewrite ta_hold; [|eapply Forall_impl; [|exact Hw]; intro i; cbv beta; now rewrite L|exact Hrep].
    apply negb_true_iff in E2. unfold tgood in E2. rewrite E2. now rewrite andb_false_r.
  Qed.
  Lemma count_test :
    cnt (fun x => baccepts_bad r0 r1 pM ope t csz psz prog D Deqb H bit reply preply digest tgood [] (fst x) (snd x))
        (list_prod (tuples Br Y) deltas) <=
    2 * length Y ^ Br + rep * call_rels c * length Y ^ (Br - 1) * length deltas.
  Proof.
    assert (Cov : all_covered t csz (count_and (gates_of prog))) by (unfold prog; rewrite ta_and; split; lia).
    pose proof (count_bcheats r0 r1 pM ope t csz psz prog D Deqb H bit reply preply digest [] Y deltas Ht Hc Hp
      (ta_wf w c rep Hw) Cov (NoDup_nil _) (Forall_nil _) NY LY Hd Nd Vd Hr) as [C|C].
    - exfalso. destruct C as (s & r & _ & _ & d1 & d2 & v1 & v2 & _ & _ & G1 & G2 & Hne & _). apply Hne.
      unfold bgame in G1, G2. rewrite bv_exec_factor in G1, G2 by (now apply ta_wf).
      unfold prog in G1 at 2, G2 at 2.
      destruct (ver_exec _ _ _ d1 _ _ _ _ _ _) as [w1|] eqn:E1; [|discriminate].
      destruct (ver_exec _ _ _ d2 _ _ _ _ _ _) as [w2|] eqn:E2; [|discriminate].
      apply (f_equal (fun o => match o with Some x => bv_gates x | None => w1 end)) in G1.
      apply (f_equal (fun o => match o with Some x => bv_gates x | None => w1 end)) in G2. cbn [bv_gates] in G1, G2. subst w1 w2.
      rewrite ta_gates in E1, E2. now rewrite (ver_ins_nohash _ _ _ _ _ _ _ _ _ _ _ E1), (ver_ins_nohash _ _ _ _ _ _ _ _ _ _ _ E2).
    - assert (Ea : count_and (gates_of prog) = 0) by apply ta_and. assert (Er : count_rel prog = rep * call_rels c) by apply ta_rel.
      rewrite Ea, Er in C. cbn [num_checks tuples] in C. rewrite Nat.mul_0_r in C. cbn [Nat.pow Nat.sub] in C.
      fold Br in C. rewrite !Nat.mul_1_l, !Nat.mul_0_l, Nat.add_0_l, Nat.mul_1_r in C.
      refine (Nat.le_trans _ _ _ _ C). cbn [list_prod]. rewrite app_nil_r.
      rewrite (cnt_prod (fun (x : list (list N) * list N) d => bcheats r0 r1 pM ope t csz psz prog D Deqb H bit reply preply digest (fst x) (snd x) d)).
      rewrite sumf_map'. rewrite (cnt_prod (fun r d => baccepts_bad r0 r1 pM ope t csz psz prog D Deqb H bit reply preply digest tgood [] r d)).
      apply sumf_le. intros r _. apply cnt_mono. intros d _. apply tbad_cheats.
  Qed.
End Count.

(** ** the statements on plain bits *)
Definition inner_ok (sz : nat) (constant : bool) (w : list bool) : bool :=
  Bool.eqb (xsum (prods (firstn sz w) (skipn sz w))) constant.
Definition poly_ok (sz : nat) (coeff : list bool) (w : list bool) : bool :=
  Bool.eqb (xsum (map (fun p => fst p && snd p) (combine (tl coeff) (prods (firstn sz w) (skipn sz w))))) (hd false coeff).
Lemma pwire_seq w : forall a n, a + n <= length w -> map (pwire w) (seq a n) = firstn n (skipn a w).
Proof.
  intros a n L. apply (nth_ext _ _ false false).
  - rewrite map_length, seq_length, firstn_length, skipn_length. lia.
  - rewrite map_length, seq_length. intros i Hi. rewrite (nth_indep _ false (pwire w 0)) by (rewrite map_length, seq_length; exact Hi).
    rewrite map_nth, seq_nth by exact Hi. unfold pwire. rewrite nth_firstn by exact Hi. now rewrite nth_skipn.
Qed.
Lemma halves sz w : length w = 2 * sz -> map (pwire w) (seq 0 sz) = firstn sz w /\ map (pwire w) (seq sz sz) = skipn sz w.
Proof.
  intro L. rewrite !pwire_seq by lia. split; [reflexivity|]. apply firstn_all2. rewrite skipn_length. lia.
Qed.
Lemma inner_good sz k w : length w = 2 * sz -> tgood (BInn (seq 0 sz) (seq sz sz) k) w = inner_ok sz k w.
Proof.
  intro L. unfold tgood, inner_ok. cbn [bcall_map defects all_hold forallb]. destruct (halves sz w L) as [-> ->].
  destruct k, (xsum _); reflexivity.
Qed.
Lemma poly_good sz k w : length w = 2 * sz -> tgood (BDeg2 (seq 0 sz) (seq sz sz) k) w = poly_ok sz k w.
Proof.
  intro L. unfold tgood, poly_ok. cbn [bcall_map defects all_hold forallb]. destruct (halves sz w L) as [-> ->].
  destruct (hd false k), (xsum _); reflexivity.
Qed.
Lemma seq_in sz (w : list bool) : length w = 2 * sz -> Forall (fun i => i < length w) (seq 0 sz ++ seq sz sz).
Proof. intro L. apply Forall_app. split; apply Forall_forall; intros i Hi; apply in_seq in Hi; lia. Qed.
Lemma accepts_ext r0 r1 pM ope t csz psz prog (D : Type) (Deqb : D -> D -> bool) H bit reply preply digest g g' s r d :
  (forall ins, length ins = count_ins (gates_of prog) -> g ins = g' ins) ->
  baccepts_bad r0 r1 pM ope t csz psz prog D Deqb H bit reply preply digest g s r d =
  baccepts_bad r0 r1 pM ope t csz psz prog D Deqb H bit reply preply digest g' s r d.
Proof. intro E. unfold baccepts_bad. rewrite E; [reflexivity|]. unfold bcommitted. apply c_ins_length. Qed.
Lemma ta_ins w c rep : count_ins (gates_of (test_app w c rep)) = length w.
Proof. rewrite ta_gates. induction w as [|x v IH]; [reflexivity|]. cbn. now rewrite IH. Qed.

Section Apps.
  Variables (r0 r1 : N) (pM : nat -> N) (ope : nat -> list N) (t csz psz sz rep : nat) (w : list bool).
  Variables (D : Type) (Deqb : D -> D -> bool) (H : list N -> D).
  Variables (bit : list (list N) -> list N -> nat -> bool).
  Variables (reply preply : list (list N) -> list N -> nat -> N * N) (digest : list (list N) -> list N -> D).
  Variables (Y deltas : list N).
  Hypothesis Ht : 1 <= t.
  Hypothesis Hc : 1 <= csz.
  Hypothesis Hp : 1 <= psz.
  Hypothesis Hrep : 1 <= rep.
  Hypothesis Hw : length w = 2 * sz.
  Hypothesis NY : NoDup Y.
  Hypothesis LY : Forall (fun x => (x < 2 ^ 128)%N) Y.
  Hypothesis Hd : forall a b : D, Deqb a b = true -> a = b.
  Hypothesis Nd : NoDup deltas.
  Hypothesis Vd : Forall valid_delta deltas.
  Hypothesis Hr : forall s r k, (fst (preply s r k) < 2 ^ 128)%N.
  Let Br := num_checks psz rep.
  Theorem inner_test k :
    cnt (fun x => baccepts_bad r0 r1 pM ope t csz psz (binner_app sz rep w k) D Deqb H bit reply preply digest (inner_ok sz k) [] (fst x) (snd x))
        (list_prod (tuples Br Y) deltas) <= 2 * length Y ^ Br + rep * length Y ^ (Br - 1) * length deltas.
  Proof.
    pose proof (count_test r0 r1 pM ope t csz psz w (BInn (seq 0 sz) (seq sz sz) k) rep D Deqb H bit reply preply digest Y deltas
      Ht Hc Hp Hrep (seq_in sz w Hw) NY LY Hd Nd Vd Hr) as C. cbn [call_rels] in C. rewrite Nat.mul_1_r in C. fold Br in C.
    refine (Nat.le_trans _ _ _ _ C). apply cnt_mono. intros x _. cbv beta. intro E. rewrite <- E. apply accepts_ext.
    intros ins L. change (binner_app sz rep w k) with (test_app w (BInn (seq 0 sz) (seq sz sz) k) rep) in L.
    rewrite ta_ins in L. apply inner_good. congruence.
  Qed.
  Theorem poly_test k :
    cnt (fun x => baccepts_bad r0 r1 pM ope t csz psz (bpoly_app sz rep w k) D Deqb H bit reply preply digest (poly_ok sz k) [] (fst x) (snd x))
        (list_prod (tuples Br Y) deltas) <= 2 * length Y ^ Br + rep * length Y ^ (Br - 1) * length deltas.
  Proof.
    pose proof (count_test r0 r1 pM ope t csz psz w (BDeg2 (seq 0 sz) (seq sz sz) k) rep D Deqb H bit reply preply digest Y deltas
      Ht Hc Hp Hrep (seq_in sz w Hw) NY LY Hd Nd Vd Hr) as C. cbn [call_rels] in C. rewrite Nat.mul_1_r in C. fold Br in C.
    refine (Nat.le_trans _ _ _ _ C). apply cnt_mono. intros x _. cbv beta. intro E. rewrite <- E. apply accepts_ext.
    intros ins L. change (bpoly_app sz rep w k) with (test_app w (BDeg2 (seq 0 sz) (seq sz sz) k) rep) in L.
    rewrite ta_ins in L. apply poly_good. congruence.
  Qed.
End Apps.

(** ** honest runs of the two programs *)
Lemma test_honest r0 r1 pM threads csz psz seeds rseeds ope (D : Type) (Deqb : D -> D -> bool) (H : list N -> D) w c rep d :
  (forall a, Deqb a a = true) -> valid_delta d -> 1 <= psz -> 1 <= threads -> threads <= csz -> (forall k, length (ope k) = 128) ->
  Forall (fun i => i < length w) (wires_of c) -> tgood c w = true ->
  exists p v, bp_exec r0 r1 pM threads csz psz seeds rseeds ope (test_app w c rep) = Some p /\
    bv_exec r0 r1 (cot_key pM d) d threads csz psz seeds rseeds (fun k => map (ot_key d) (ope k))
      (fun i => nth i (p_bits (bp_gates p)) false) (fun k => nth k (p_msgs (bp_gates p)) (0, 0)%N)
      (fun k => nth k (pp_msgs (bp_poly p)) (0, 0)%N) (test_app w c rep) = Some v /\
    bv_finalize Deqb H v (H (p_hash (bp_gates p))) = false.
Proof.
  intros Hd Vd Hp Ht Htc Ho Hw G.
  destruct (proj2 (bsess_defined r0 r1 pM threads csz psz seeds rseeds ope (test_app w c rep) Ht Htc (ta_wf w c rep Hw))) as (p & Ep).
  { left. apply ta_and. }
  destruct (bsess_complete r0 r1 pM threads csz psz seeds rseeds ope D Deqb H (test_app w c rep) p d Hd Vd Hp Ho (ta_wf w c rep Hw))
    as (v & Ev & _ & _ & Fv); [|exact Ep|].
  - destruct rep as [|rep']; [|rewrite ta_hold; [exact G|exact Hw|lia]]. rewrite ta_rels by exact Hw. reflexivity.
  - now exists p, v.
Qed.
Theorem inner_honest : forall r0 r1 pM threads csz psz seeds rseeds ope (D : Type) (Deqb : D -> D -> bool) (H : list N -> D) sz rep w k d,
  (forall a, Deqb a a = true) -> valid_delta d -> 1 <= psz -> 1 <= threads -> threads <= csz -> (forall k, length (ope k) = 128) ->
  length w = 2 * sz -> inner_ok sz k w = true ->
  exists p v, bp_exec r0 r1 pM threads csz psz seeds rseeds ope (binner_app sz rep w k) = Some p /\
    bv_exec r0 r1 (cot_key pM d) d threads csz psz seeds rseeds (fun k => map (ot_key d) (ope k))
      (fun i => nth i (p_bits (bp_gates p)) false) (fun k => nth k (p_msgs (bp_gates p)) (0, 0)%N)
      (fun k => nth k (pp_msgs (bp_poly p)) (0, 0)%N) (binner_app sz rep w k) = Some v /\
    bv_finalize Deqb H v (H (p_hash (bp_gates p))) = false.
Proof.
  intros. apply (test_honest r0 r1 pM threads csz psz seeds rseeds ope D Deqb H w (BInn (seq 0 sz) (seq sz sz) k) rep d); try assumption.
  - now apply seq_in.
  - now rewrite inner_good.
Qed.
Theorem poly_honest : forall r0 r1 pM threads csz psz seeds rseeds ope (D : Type) (Deqb : D -> D -> bool) (H : list N -> D) sz rep w k d,
  (forall a, Deqb a a = true) -> valid_delta d -> 1 <= psz -> 1 <= threads -> threads <= csz -> (forall k, length (ope k) = 128) ->
  length w = 2 * sz -> poly_ok sz k w = true ->
  exists p v, bp_exec r0 r1 pM threads csz psz seeds rseeds ope (bpoly_app sz rep w k) = Some p /\
    bv_exec r0 r1 (cot_key pM d) d threads csz psz seeds rseeds (fun k => map (ot_key d) (ope k))
      (fun i => nth i (p_bits (bp_gates p)) false) (fun k => nth k (p_msgs (bp_gates p)) (0, 0)%N)
      (fun k => nth k (pp_msgs (bp_poly p)) (0, 0)%N) (bpoly_app sz rep w k) = Some v /\
    bv_finalize Deqb H v (H (p_hash (bp_gates p))) = false.
Proof.
  intros. apply (test_honest r0 r1 pM threads csz psz seeds rseeds ope D Deqb H w (BDeg2 (seq 0 sz) (seq sz sz) k) rep d); try assumption.
  - now apply seq_in.
  - now rewrite poly_good.
Qed.

(** ** LowMC: the accepted ciphertext is the LowMC encryption of the committed message under the committed key *)
Definition outs_differ r0 r1 pM t csz c (D : Type) (Deqb : D -> D -> bool) (H : list N -> D) bit reply digest
    (ref : list bool -> list bool) (s : list (list N)) (d : N) : bool :=
  match game_exec r0 r1 pM t csz c bit reply s d with
  | Some v => negb (ver_finalize Deqb H v (digest s)) &&
              (if list_eq_dec bool_dec (v_outs v) (ref (GameSpec.committed pM csz c bit s)) then false else true)
  | None => false
  end.
Theorem lowmc_count : forall nb n k nr lin rc km key msg nblocks r0 r1 pM t csz (D : Type) (Deqb : D -> D -> bool) (H : list N -> D)
    bit reply digest (xs deltas : list N),
  1 <= k -> 1 <= n -> 3 * nb <= n -> length rc = nr * n -> length key = k -> length msg = nblocks * n ->
  let m := nblocks * (nr * (3 * nb)) in
  1 <= t -> 1 <= csz -> all_covered t csz m ->
  NoDup xs -> Forall (fun x => (x < 2 ^ 128)%N) xs -> NoDup deltas -> Forall valid_delta deltas ->
  (forall a b, Deqb a b = true -> a = b) ->
  let c := lowmc_program nb n k nr lin rc km key msg nblocks in
  let B := num_checks csz m in let q := length xs in
  (exists s d1 d2 v1 v2, In s (tuples B (tuples t xs)) /\ In d1 deltas /\ In d2 deltas /\
      game_exec r0 r1 pM t csz c bit reply s d1 = Some v1 /\ game_exec r0 r1 pM t csz c bit reply s d2 = Some v2 /\
      v_hash v1 <> v_hash v2 /\ H (v_hash v1) = H (v_hash v2)) \/
  cnt (fun x => outs_differ r0 r1 pM t csz c D Deqb H bit reply digest
                  (fun ins => lowmc_ref nb n k nr lin rc km (firstn k ins) (skipn k ins) nblocks) (fst x) (snd x))
      (list_prod (tuples B (tuples t xs)) deltas)
    <= 2 * q ^ (t * B) + m * q ^ (t * B - 1) * length deltas.
Proof.
  intros nb n k nr lin rc km key msg nblocks r0 r1 pM t csz D Deqb H bit reply digest xs deltas Hk Hn Hnb Hrc Lk Lm m Ht Hc Hcov
    Nx Lx Nd Vd Hd c B q.
  assert (Ec : count_and c = m) by now apply program_spec.
  rewrite <- Ec in Hcov.
  destruct (count_cheats r0 r1 pM t csz c D Deqb H bit reply digest xs Ht Hc Hcov Nx Lx deltas Hd Nd Vd) as [(s & Hs & d1 & d2 & v1 & v2 & X)|X].
  - left. exists s, d1, d2, v1, v2. rewrite Ec in Hs. split; [exact Hs|exact X].
  - right. rewrite Ec in X. refine (Nat.le_trans _ _ _ _ X). apply cnt_mono. intros [s d] _. cbn [fst snd]. unfold outs_differ, cheats.
    destruct (game_exec r0 r1 pM t csz c bit reply s d) as [v|]; [|trivial].
    assert (E : plain_outputs (with_inputs (GameSpec.committed pM csz c bit s) c) =
      lowmc_ref nb n k nr lin rc km (firstn k (GameSpec.committed pM csz c bit s)) (skipn k (GameSpec.committed pM csz c bit s)) nblocks).
    { set (ins := GameSpec.committed pM csz c bit s).
      assert (Li : length ins = length key + length msg) by (unfold ins, GameSpec.committed, c; now rewrite c_ins_length, program_ins).
      rewrite <- (firstn_skipn k ins) at 1. unfold c.
      rewrite program_with_inputs; [|rewrite firstn_length; lia|rewrite skipn_length; lia].
      apply program_ref; try assumption; [rewrite firstn_length|rewrite skipn_length]; lia. }
    rewrite E. trivial.
Qed.
