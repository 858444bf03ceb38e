(** Property C56: what the conversions show of the converted values. *)
From Coq Require Import NArith List Bool Arith Lia Ring.
From Verif Require Import Word WordProofs FpModel Prime61 ArithSpec CopeProofs EdaModel EdaSpec EdaStock EdaProofs EdaThms EdaCutSpec EdaCutThms
  EdaHideSpec EdaHideThms PropEda.
Import ListNotations.
Ltac Zify.zify_post_hook ::= idtac.
Add Ring fp_ring : fp_rt.

(** ** One generation and up to NN conversions through its masks: whatever is converted, the candidates' values correspond
    one to one to the words shown together with the values of the unused masks. *)
Theorem C56_one_generation : forall NN C r cs ms v, 1 <= NN -> r < NN + C -> r + C <= NN + C -> length cs <= NN ->
  Forall conv_ok cs -> canon (2 * NN + C) ms -> view_ok NN C (length cs) v ->
  exists fs, (canon (2 * NN + C) fs /\ gen_view NN C r cs fs ms = v) /\
  forall fs', canon (2 * NN + C) fs' /\ gen_view NN C r cs fs' ms = v -> fs' = fs.
Proof.
  intros NN C r cs ms v HN Hr HrC Hk Hc Hm Hv. exists (solve NN C r cs v). split; [split|].
  - now apply solve_canon.
  - now apply solve_view.
  - intros fs' [H1 H2]. rewrite <- H2. symmetry. now apply solve_unique.
Qed.
(** the words are always of that number and range *)
Theorem C56_shape : forall NN C st, 1 <= NN -> strat_ok NN C st -> forall gens past,
  Forall (fun g => canon (2 * NN + C) (fst g) /\ canon (2 * NN + C) (snd g)) gens ->
  views_ok NN C st past (views NN C st past gens).
Proof. exact views_shape. Qed.
(** ** Any number of generations; offsets and conversions depend on everything shown before: the words are uniform. *)
Theorem C56_uniform : forall NN C st, 1 <= NN -> strat_ok NN C st -> forall mss vs past,
  length mss = length vs -> Forall (canon (2 * NN + C)) mss -> views_ok NN C st past vs ->
  exists fss, (length fss = length mss /\ Forall (canon (2 * NN + C)) fss /\ views NN C st past (combine fss mss) = vs) /\
  forall fss', length fss' = length mss /\ Forall (canon (2 * NN + C)) fss' /\ views NN C st past (combine fss' mss) = vs -> fss' = fss.
Proof. exact views_unique. Qed.
(** Two provers converting different values, as often and at the same points: every run of the one shows the words of
    exactly one run of the other. *)
Theorem C56_values_hidden : forall NN C st st', 1 <= NN -> strat_ok NN C st -> strat_ok NN C st' ->
  (forall past, length (snd (st past)) = length (snd (st' past))) ->
  forall mss fss mss' past, Forall (canon (2 * NN + C)) mss -> Forall (canon (2 * NN + C)) mss' -> Forall (canon (2 * NN + C)) fss ->
  length fss = length mss -> length mss' = length mss ->
  exists fss', (length fss' = length mss' /\ Forall (canon (2 * NN + C)) fss' /\
    views NN C st' past (combine fss' mss') = views NN C st past (combine fss mss)) /\
  forall fss2, length fss2 = length mss' /\ Forall (canon (2 * NN + C)) fss2 /\
    views NN C st' past (combine fss2 mss') = views NN C st past (combine fss mss) -> fss2 = fss'.
Proof.
  intros NN C st st' HN S1 S2 Hl mss fss mss' past H1 H2 H3 L1 L2. apply views_unique; auto.
  - rewrite L2. clear - L1. revert mss L1 past. induction fss as [|f fss IH]; intros [|m mss] L1 past; try discriminate L1; [reflexivity|].
    cbn [combine views length]. f_equal. injection L1 as L1. now apply IH.
  - assert (Q : forall vs p, views_ok NN C st p vs -> views_ok NN C st' p vs).
    { clear - Hl. induction vs as [|v vs IH]; intros p H; [exact I|]. cbn [views_ok] in *. rewrite <- Hl. destruct H. split; auto. }
    apply Q, views_shape; auto. clear - H1 H3. revert mss H1. induction H3 as [|f fss Hf HF IH]; intros [|m mss] H1; try constructor.
    + inversion H1. now split.
    + inversion H1. now apply IH.
Qed.
(** The mac side of every mask changes none of the words. *)
Theorem C56_macs_unused : forall NN C r cs fs ms ms', 1 <= NN -> r < NN + C -> Forall conv_ok cs -> canon (2 * NN + C) fs ->
  canon (2 * NN + C) ms -> canon (2 * NN + C) ms' -> gen_view NN C r cs fs ms = gen_view NN C r cs fs ms'.
Proof. intros NN C r cs fs ms ms' HN Hr Hc Hf Hm Hm'. now rewrite !view_eq by assumption. Qed.

(** ** The last offset (drawn like any other, and open to a verifier that picks it): the second opened word is the value
    of the first mask of the next generation, so the first conversion after it shows the value converted. *)
Theorem C56_last_offset_refuted : forall NN np_sz g (A : nat -> nat -> N) bl sl x a, 1 <= NN -> ell NN 2 2 <= np_sz ->
  S (g mod (np_sz / ell NN 2 2)) < np_sz / ell NN 2 2 ->
  (forall i j, (hi64 (A i j) < prm)%N /\ (lo64 (A i j) < prm)%N) -> (x < prm)%N -> conv_ok (ToBool a) ->
  let r := ell_faulty NN 2 2 - 1 in
  let at_ k := A (fst (snd (kth_mask NN (ell NN 2 2) np_sz k))) (snd (snd (kth_mask NN (ell NN 2 2) np_sz k))) in
  let shares i := A (fst (snd (kth_mask NN (ell NN 2 2) np_sz (g * NN)))) (snd (snd (kth_mask NN (ell NN 2 2) np_sz (g * NN))) + i) in
  let word := nth 1 (nth 0 (fst (gen_prv NN 2 shares bl sl r)) []) 0%N in
  random_point NN 2 2 r = r /\
  ((conv_word (ToArith x) (at_ (S g * NN)%nat) + word) mod prm = x)%N /\
  ((conv_word (ToBool a) (at_ (S g * NN)%nat) + (prm - word)) mod prm = hi64 a)%N.
Proof.
  intros NN np_sz g A bl sl x a HN Hs Hq HA Hx Ha r at_ shares word. change prm with PR in *.
  destruct (C28_last_offset_refuted NN np_sz g HN Hs Hq) as (R & _ & _ & (fill & E1 & E2)).
  split; [exact R|]. destruct (F_eq NN 2 2 HN ltac:(lia)) as [EF EL].
  assert (W : word = hi64 (at_ (S g * NN))).
  { unfold word. assert (Hr : r < ell_faulty NN 2 2) by (unfold r; lia).
    rewrite (gen_prv_eq NN 2 _ (fun _ => 0%N) _ (fun _ => []) _ (fun _ => []) r HN Hr). cbv zeta. cbn [fst nth seq map op_send_both snd].
    unfold op_send_both. cbn [fst map nth]. unfold op_send_fp. cbn [fst snd]. unfold shares, at_. rewrite E1, E2. cbn [fst snd]. do 2 f_equal. unfold r. lia. }
  destruct (HA (fst (snd (kth_mask NN (ell NN 2 2) np_sz (S g * NN)))) (snd (snd (kth_mask NN (ell NN 2 2) np_sz (S g * NN))))) as [B1 B2].
  fold (at_ (S g * NN)) in B1, B2. rewrite W. generalize dependent (at_ (S g * NN)). intros m W B1 B2.
  clear - Hx Ha B1 B2. rewrite !cword by assumption. cbn [cval]. split; (apply toF_inj; [apply mod_lt|first [exact Hx|exact (proj1 Ha)]|]).
  - rewrite toF_mod, toF_add, sub_back by exact (lt_le _ B1). ring.
  - rewrite sub_back by exact (lt_le _ B1). rewrite toF_mod, toF_add. ring.
Qed.

(** ** The offset received is not checked (edabits.h:295-297).  For every mask of a later window of the same filling there is an offset,
    which no honest verifier draws, for which the first word opened is the value of this mask: the word is sent (auth_helper.h:90-91)
    before any boolean candidate is read.  The conversion that uses the mask later then shows its value *)
Theorem C56_received_offset_refuted : forall NN np_sz g m i (A : nat -> nat -> N) bl sl x a, i < NN -> ell NN 2 2 <= np_sz ->
  1 <= m -> g mod (np_sz / ell NN 2 2) + m < np_sz / ell NN 2 2 ->
  (forall f j, (hi64 (A f j) < prm)%N /\ (lo64 (A f j) < prm)%N) -> (x < prm)%N -> conv_ok (ToBool a) ->
  let at_ k := A (fst (snd (kth_mask NN (ell NN 2 2) np_sz k))) (snd (snd (kth_mask NN (ell NN 2 2) np_sz k))) in
  let shares i := A (fst (snd (kth_mask NN (ell NN 2 2) np_sz (g * NN)))) (snd (snd (kth_mask NN (ell NN 2 2) np_sz (g * NN))) + i) in
  exists w, (forall n, random_point NN 2 2 n <> w) /\
  let word := nth 0 (nth 0 (fst (gen_prv NN 2 shares bl sl (point_received w))) []) 0%N in
  ((conv_word (ToArith x) (at_ ((g + m) * NN + i)%nat) + word) mod prm = x)%N /\
  ((conv_word (ToBool a) (at_ ((g + m) * NN + i)%nat) + (prm - word)) mod prm = hi64 a)%N.
Proof.
  intros NN np_sz g m i A bl sl x a Hi Hs Hm Hq HA Hx Ha at_ shares. change prm with PR in *.
  assert (HN : 1 <= NN) by lia. destruct (F_eq NN 2 2 HN ltac:(lia)) as [EF EL].
  exists (m * ell NN 2 2 + i - NN). split.
  { intros n E. unfold random_point in E. assert (B : n mod ell_faulty NN 2 2 < ell_faulty NN 2 2) by (apply Nat.mod_upper_bound; lia).
    assert (ell NN 2 2 <= m * ell NN 2 2) by (clear - Hm; nia). lia. }
  intro word.
  assert (W : word = hi64 (at_ ((g + m) * NN + i))).
  { unfold word, point_received, gen_prv, op_send_both, opened, op_send_fp. cbv zeta. cbn [fst snd nth seq map]. unfold shares, at_, kth_mask. cbn [fst snd].
    assert (D0 : g * NN / NN = g) by (apply Nat.div_mul; lia). assert (M0 : (g * NN) mod NN = 0) by (apply Nat.mod_mul; lia).
    assert (D1 : ((g + m) * NN + i) / NN = g + m) by (rewrite Nat.add_comm, Nat.div_add by lia; rewrite Nat.div_small by lia; lia).
    assert (M1 : ((g + m) * NN + i) mod NN = i) by (rewrite Nat.add_comm, Nat.mod_add by lia; apply Nat.mod_small; lia).
    rewrite D0, M0, D1, M1. set (q := np_sz / ell NN 2 2) in *. assert (Hq0 : q <> 0) by lia.
    assert (Eg := Nat.div_mod g q Hq0).
    assert (D2 : (g + m) / q = g / q) by (symmetry; apply (Nat.div_unique (g + m) q (g / q) (g mod q + m)); lia).
    assert (M2 : (g + m) mod q = g mod q + m) by (symmetry; apply (Nat.mod_unique (g + m) q (g / q) (g mod q + m)); lia).
    rewrite D2, M2. do 2 f_equal. assert (NN <= m * ell NN 2 2) by (clear - EL EF Hm; nia). rewrite Nat.mul_add_distr_r. lia. }
  destruct (HA (fst (snd (kth_mask NN (ell NN 2 2) np_sz ((g + m) * NN + i)))) (snd (snd (kth_mask NN (ell NN 2 2) np_sz ((g + m) * NN + i))))) as [B1 B2].
  fold (at_ ((g + m) * NN + i)) in B1, B2. rewrite W. generalize dependent (at_ ((g + m) * NN + i)). intros y W B1 B2.
  clear - Hx Ha B1 B2. rewrite !cword by assumption. cbn [cval]. split; (apply toF_inj; [apply mod_lt|first [exact Hx|exact (proj1 Ha)]|]).
  - rewrite toF_mod, toF_add, sub_back by exact (lt_le _ B1). ring.
  - rewrite sub_back by exact (lt_le _ B1). rewrite toF_mod, toF_add. ring.
Qed.
Example C56_received_offset_case : (* ell = 6; three windows in a buffer of 20; second mask of the third window *)
  0 mod (20 / ell 2 2 2) + 2 < 20 / ell 2 2 2 /\
  let A := fun _ j => mkblock (N.of_nat (100 + j)) 1 in
  let w := 2 * ell 2 2 2 + 1 - 2 in w = 11 /\
  nth 0 (nth 0 (fst (gen_prv 2 2 (A 1) (fun _ => []) (fun _ => []) w)) []) 0%N = 113%N /\
  kth_mask 2 (ell 2 2 2) 20 5 = ((3, 1), (1, 13)) /\ conv_word (ToArith 1113) (A 1 13) = 1000%N.
Proof. vm_compute. repeat split; reflexivity || auto. Qed.

(** ** Examples: NN = 3, C = 2, offset 1, a conversion each way *)
Definition hide_fs : list N := [5; 7; 11; 13; 17; 19; 23; 29]%N.
Definition hide_ms : list N := [1; 2; 3; 4; 5; 6; 7; 8]%N.
Definition hide_cs (x y : N) : list conv := [ToArith x; ToBool (mkblock y 9)].
Example C56_case :
  gen_view 3 2 1 (hide_cs 3 6) hide_fs hide_ms =
    {| g_open := [17; 19]%N; g_sums := [28; 36; 24]%N; g_conv := [(prm - 2)%N; 13%N]; g_rest := [11]%N |} /\
  gen_view 3 2 1 (hide_cs 4 5) [6; 8; 11; 13; 17; 19; 22; 28]%N hide_ms = gen_view 3 2 1 (hide_cs 3 6) hide_fs hide_ms.
Proof. split; vm_compute; reflexivity. Qed.
Example C56_strategy_case : strat_ok 3 2 (fun past => (length past mod 4, hide_cs 3 6)).
Proof.
  intro past. cbn [fst snd]. pose proof (Nat.mod_upper_bound (length past) 4 ltac:(lia)).
  split; [lia|]. split; [lia|]. split; [cbn; lia|]. repeat constructor; vm_compute; reflexivity.
Qed.
Example C56_last_offset_case : (* ell = 6; two windows in a buffer of 12 *)
  S (0 mod (12 / ell 2 2 2)) < 12 / ell 2 2 2 /\
  let A := fun _ j => mkblock (N.of_nat (100 + j)) 1 in
  fst (gen_prv 2 2 (A 1) (fun _ => []) (fun _ => []) 3) = [[105; 106]; [203; 205]]%N /\
  conv_word (ToArith 1106) (A 1 6) = 1000%N.
Proof. vm_compute. repeat split; reflexivity || auto. Qed.

Print Assumptions C56_one_generation.
Print Assumptions C56_shape.
Print Assumptions C56_uniform.
Print Assumptions C56_values_hidden.
Print Assumptions C56_macs_unused.
Print Assumptions C56_last_offset_refuted.
Print Assumptions C56_received_offset_refuted.
