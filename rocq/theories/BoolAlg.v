(** Algebra of the AND-gate batch check. *)
From Coq Require Import NArith List Bool Arith Lia Ring.
From Verif Require Import Word WordProofs GF128 GF128Ring GF128Field BoolModel BoolSpec BoolProofs.
Import ListNotations.
Ltac Zify.zify_post_hook ::= idtac.

Definition b2g (b : bool) : GF := if b then g1 else g0.
Lemma b2g_xor a b : b2g (xorb a b) = gadd (b2g a) (b2g b).
Proof. destruct a, b; cbn; ring. Qed.
Lemma b2g_and a b : b2g (a && b) = gmul (b2g a) (b2g b).
Proof. destruct a, b; cbn; ring. Qed.
Lemma toG_b2N b : toG (b2N b) = b2g b. Proof. now destruct b. Qed.
Lemma b2g_inj0 b : b2g b = g0 -> b = false.
Proof. destruct b; [|easy]. intro H. apply (f_equal gv) in H. discriminate. Qed.

Fixpoint gdot (a b : list GF) : GF :=
  match a, b with x :: a', y :: b' => gadd (gmul x y) (gdot a' b') | _, _ => g0 end.
Definition gsum (l : list GF) : GF := fold_right gadd g0 l.
Lemma toG_inn a : forall b, toG (gf_inn_prdt a b) = gdot (map toG a) (map toG b).
Proof.
  intros b. rewrite gf_inn_prdt_dot. revert b.
  induction a as [|x a IH]; intros [|y b]; try reflexivity.
  cbn [gf_dot map gdot]. now rewrite toG_lxor, toG_gfmul, IH.
Qed.
Lemma gdot_lin3 {A} (chi : list GF) (f u v w : A -> GF) D l :
  (forall g, In g l -> f g = gadd (gadd (u g) (gmul (v g) D)) (gmul (w g) (gmul D D))) ->
  gdot chi (map f l) =
  gadd (gadd (gdot chi (map u l)) (gmul (gdot chi (map v l)) D)) (gmul (gdot chi (map w l)) (gmul D D)).
Proof.
  revert l. induction chi as [|c chi IH]; intros [|g l] H; cbn [map gdot]; try ring.
  rewrite (H g (or_introl eq_refl)), IH by (intros; apply H; now right). ring.
Qed.
Lemma gdot_lin2 {A} (chi : list GF) (f u v : A -> GF) D l :
  (forall g, In g l -> f g = gadd (u g) (gmul (v g) D)) ->
  gdot (map f l) chi = gadd (gdot (map u l) chi) (gmul (gdot (map v l) chi) D).
Proof.
  revert chi. induction l as [|g l IH]; intros [|c chi] H; cbn [map gdot]; try ring.
  rewrite (H g (or_introl eq_refl)), IH by (intros; apply H; now right). ring.
Qed.
Lemma gsum_lin3 {A} (f u v w : A -> GF) D l :
  (forall g, In g l -> f g = gadd (gadd (u g) (gmul (v g) D)) (gmul (w g) (gmul D D))) ->
  gsum (map f l) =
  gadd (gadd (gsum (map u l)) (gmul (gsum (map v l)) D)) (gmul (gsum (map w l)) (gmul D D)).
Proof.
  induction l as [|g l IH]; intros H; cbn [map gsum fold_right]; [ring|].
  fold (gsum (map f l)). rewrite (H g (or_introl eq_refl)), IH by (intros; apply H; now right).
  unfold gsum. ring.
Qed.
Lemma gdot_zero chi l : Forall (fun x => x = g0) l -> gdot chi l = g0.
Proof.
  intro H. revert chi. induction H as [|x l -> _ IH]; intros [|c chi]; cbn; auto. rewrite IH. ring.
Qed.

(** * One gate *)
Definition eA0 (g : sgate) : N := let '(l, r, o) := g in gfmul (fst l) (fst r).
Definition eA1 (g : sgate) : N :=
  let '(l, r, o) := g in
  N.lxor (N.lxor (if snd l then fst r else 0%N) (if snd r then fst l else 0%N)) (fst o).
Definition eErr (g : sgate) : bool := let '(l, r, o) := g in xorb (snd l && snd r) (snd o).
Lemma toG_choice d b : toG (choice d b) = gmul (b2g b) (toG d).
Proof. destruct b; cbn [choice b2g]; [ring|]. rewrite toG_0. ring. Qed.
Lemma toG_kof d a : toG (kof d a) = gadd (toG (fst a)) (gmul (b2g (snd a)) (toG d)).
Proof. unfold kof. now rewrite toG_lxor, toG_choice. Qed.
Lemma toG_if (b : bool) x : toG (if b then x else 0%N) = gmul (b2g b) (toG x).
Proof. destruct b; cbn [b2g]; [ring|]. rewrite toG_0. ring. Qed.
Lemma term_decomp d g : let D := toG d in
  toG (ver_term d (vgate d g)) =
  gadd (gadd (toG (eA0 g)) (gmul (toG (eA1 g)) D)) (gmul (b2g (eErr g)) (gmul D D)).
Proof.
  destruct g as [[l r] o]. cbn [vgate ver_term eA0 eA1 eErr].
  rewrite !toG_lxor, !toG_gfmul, !toG_kof, !toG_if, b2g_xor, b2g_and. ring.
Qed.

(** * A worker's range, all ranges, the mask *)
Definition gR0 (buf : list sgate) st n seed :=
  gdot (map toG (gf_coeff_gen seed n)) (map (fun g => toG (eA0 g)) (segment st n buf)).
Definition gR1 (buf : list sgate) st n seed :=
  gdot (map toG (gf_coeff_gen seed n)) (map (fun g => toG (eA1 g)) (segment st n buf)).
Definition gRE (buf : list sgate) st n seed :=
  gdot (map toG (gf_coeff_gen seed n)) (map (fun g => b2g (eErr g)) (segment st n buf)).
Lemma segment_map {A B} (f : A -> B) st n l : segment st n (map f l) = map f (segment st n l).
Proof. unfold segment. now rewrite skipn_map, firstn_map. Qed.
Lemma range_decomp d buf st n seed : let D := toG d in
  toG (ver_check_range d (map (vgate d) buf) st n seed) =
  gadd (gadd (gR0 buf st n seed) (gmul (gR1 buf st n seed) D)) (gmul (gRE buf st n seed) (gmul D D)).
Proof.
  intro D. unfold ver_check_range. rewrite toG_inn, segment_map, !map_map.
  apply gdot_lin3. intros g _. apply term_decomp.
Qed.
Definition enum {A} (rs : list A) : list (nat * A) := combine (seq 0 (length rs)) rs.
Definition gS0 buf rs (seed : nat -> N) :=
  gsum (map (fun ir => gR0 buf (fst (snd ir)) (snd (snd ir)) (seed (fst ir))) (enum rs)).
Definition gS1 buf rs (seed : nat -> N) :=
  gsum (map (fun ir => gR1 buf (fst (snd ir)) (snd (snd ir)) (seed (fst ir))) (enum rs)).
Definition gSE buf rs (seed : nat -> N) :=
  gsum (map (fun ir => gRE buf (fst (snd ir)) (snd (snd ir)) (seed (fst ir))) (enum rs)).
Lemma fold_xor_sum {A} (f : A -> N) l : forall a,
  toG (fold_left (fun acc x => N.lxor acc (f x)) l a) = gadd (toG a) (gsum (map (fun x => toG (f x)) l)).
Proof.
  induction l as [|x l IH]; intro a; cbn [fold_left map gsum fold_right]; [ring|].
  rewrite IH, toG_lxor. unfold gsum. ring.
Qed.
Definition gB : list GF := map toG pack_base.
Definition gO0 (ope : list (N * bool)) := gdot (map (fun o => toG (fst o)) ope) gB.
Definition gO1 (ope : list (N * bool)) := gdot (map (fun o => b2g (snd o)) ope) gB.
Lemma pack_decomp d ope :
  toG (packing (map (kof d) ope)) = gadd (gO0 ope) (gmul (gO1 ope) (toG d)).
Proof.
  unfold packing. rewrite toG_inn, map_map. apply gdot_lin2. intros o _. apply toG_kof.
Qed.
Lemma Bstar_decomp d buf rs seed ope : let D := toG d in
  toG (ver_B_star d (map (vgate d) buf) rs seed (map (kof d) ope)) =
  gadd (gadd (gadd (gO0 ope) (gS0 buf rs seed)) (gmul (gadd (gO1 ope) (gS1 buf rs seed)) D))
       (gmul (gSE buf rs seed) (gmul D D)).
Proof.
  intro D. unfold ver_B_star. rewrite fold_xor_sum, pack_decomp.
  erewrite gsum_lin3; [|intros ir _; apply range_decomp].
  fold (@enum (nat * nat) rs). fold (gS0 buf rs seed) (gS1 buf rs seed) (gSE buf rs seed).
  fold D. ring.
Qed.
(** acceptance is a polynomial equation in Delta whose coefficients do not depend on Delta *)
Lemma accept_poly d A buf rs seed ope :
  ver_accept d A (ver_B_star d (map (vgate d) buf) rs seed (map (kof d) ope)) = true ->
  gadd (gadd (gadd (toG (fst A)) (gadd (gO0 ope) (gS0 buf rs seed)))
             (gmul (gadd (toG (snd A)) (gadd (gO1 ope) (gS1 buf rs seed))) (toG d)))
       (gmul (gSE buf rs seed) (gmul (toG d) (toG d))) = g0.
Proof.
  unfold ver_accept. intro H. apply N.eqb_eq in H. apply (f_equal toG) in H.
  rewrite Bstar_decomp, toG_lxor, toG_gfmul in H.
  transitivity (gadd (gadd (gmul (toG (snd A)) (toG d)) (toG (fst A)))
                     (gadd (gmul (toG (snd A)) (toG d)) (toG (fst A)))); [|ring].
  rewrite H at 2. ring.
Qed.

(** * Honest prover's message *)
Definition pgate (g : sgate) : N * N * N := let '(l, r, o) := g in (fst l, fst r, fst o).
Definition lsb_ok (w : N * bool) : Prop := getLSB (fst w) = snd w.
Definition lsb_ok_gate (g : sgate) : Prop := let '(l, r, o) := g in lsb_ok l /\ lsb_ok r /\ lsb_ok o.
Lemma prv_terms_ok g : lsb_ok_gate g -> prv_terms (pgate g) = (eA0 g, eA1 g).
Proof.
  destruct g as [[l r] o]. intros [Hl [Hr Ho]]. cbn.
  now rewrite Hl, Hr.
Qed.
Lemma In_skipn' {A} (x : A) n l : In x (skipn n l) -> In x l.
Proof. revert l. induction n; intros [|y l] H; cbn in *; auto. Qed.
Lemma In_firstn' {A} (x : A) n l : In x (firstn n l) -> In x l.
Proof. revert l. induction n; intros [|y l] H; cbn in *; try easy. destruct H; auto. Qed.
Lemma Forall_segment {A} (P : A -> Prop) st n l : Forall P l -> Forall P (segment st n l).
Proof.
  intro H. unfold segment. rewrite Forall_forall in *. intros x Hx.
  apply H. eapply In_skipn', In_firstn', Hx.
Qed.
Lemma prv_range_ok buf st n seed : Forall lsb_ok_gate buf ->
  toG (fst (prv_check_range (map pgate buf) st n seed)) = gR0 buf st n seed /\
  toG (snd (prv_check_range (map pgate buf) st n seed)) = gR1 buf st n seed.
Proof.
  intro H. unfold prv_check_range. cbn [fst snd]. rewrite !toG_inn, !segment_map, !map_map.
  pose proof (Forall_segment _ st n _ H) as Hs. rewrite Forall_forall in Hs.
  unfold gR0, gR1. split; f_equal; apply map_ext_in; intros g Hg; now rewrite prv_terms_ok by auto.
Qed.
Lemma fold_xor2_sum {A} (f : A -> N * N) l : forall a,
  let r := fold_left (fun acc x => (N.lxor (fst acc) (fst (f x)), N.lxor (snd acc) (snd (f x)))) l a in
  toG (fst r) = gadd (toG (fst a)) (gsum (map (fun x => toG (fst (f x))) l)) /\
  toG (snd r) = gadd (toG (snd a)) (gsum (map (fun x => toG (snd (f x))) l)).
Proof.
  induction l as [|x l IH]; intro a; cbn [fold_left map gsum fold_right].
  - cbn zeta. split; ring.
  - destruct (IH (N.lxor (fst a) (fst (f x)), N.lxor (snd a) (snd (f x)))) as [E1 E2].
    cbn zeta in *. cbn [fst snd] in *. rewrite E1, E2, !toG_lxor. unfold gsum. split; ring.
Qed.
(** ch_bits *)
Lemma ch_word_lxor m l : ch_word (m :: l) = N.lxor (b2N (getLSB m)) (N.double (ch_word l)).
Proof.
  cbn [ch_word]. unfold b2N. destruct (getLSB m).
  - rewrite <- sd_lxor. rewrite N.succ_double_spec. lia.
  - change (N.lxor 0 (N.double (ch_word l))) with (N.double (ch_word l)).
    pose proof (N.double_spec (ch_word l)). lia.
Qed.
Lemma ch_word_app l1 l2 : ch_word (l1 ++ l2) = (ch_word l1 + 2 ^ N.of_nat (length l1) * ch_word l2)%N.
Proof.
  induction l1 as [|m l1 IH]; [cbn [app length ch_word]; rewrite N.pow_0_r; lia|].
  cbn [app ch_word length]. rewrite IH, Nat2N.inj_succ, N.pow_succ_r'. lia.
Qed.
Lemma ch_bits_word ope : length ope = 128%nat -> ch_bits ope = ch_word ope.
Proof.
  intro H. unfold ch_bits, segment. cbn [skipn].
  rewrite (firstn_all2 (skipn 64 ope)) by (rewrite skipn_length; lia).
  rewrite <- (firstn_skipn 64 ope) at 3. rewrite ch_word_app, firstn_length, H.
  unfold mkblock. change (2 ^ N.of_nat (Nat.min 64 128))%N with W64. lia.
Qed.
Lemma gfmul_pow2 b i : (i < 128)%nat -> gfmul (b2N b) (2 ^ N.of_nat i) = if b then (2 ^ N.of_nat i)%N else 0%N.
Proof.
  intro H. destruct b; cbn [b2N]; [|reflexivity]. apply gfmul_1_l.
  apply N.pow_lt_mono_r; lia.
Qed.
Lemma ch_word_gdot l : forall i, (i + length l <= 128)%nat ->
  gdot (map (fun m => b2g (getLSB m)) l) (map toG (map (fun i => (2 ^ N.of_nat i)%N) (seq i (length l)))) =
  toG (N.shiftl (ch_word l) (N.of_nat i)).
Proof.
  induction l as [|m l IH]; intros i Hi; [reflexivity|]. cbn [length] in *.
  cbn [seq map gdot]. rewrite IH by lia.
  rewrite ch_word_lxor, N.shiftl_lxor, toG_lxor. f_equal.
  - destruct (getLSB m); cbn [b2g b2N]; [|rewrite N.shiftl_0_l, toG_0; ring].
    rewrite N.shiftl_1_l. ring.
  - f_equal. rewrite !N.shiftl_mul_pow2, N.double_spec, Nat2N.inj_succ, N.pow_succ_r'. lia.
Qed.
Lemma ch_bits_ok ope : length ope = 128%nat ->
  toG (ch_bits ope) = gdot (map (fun m => b2g (getLSB m)) ope) gB.
Proof.
  intro H. rewrite ch_bits_word by easy. unfold gB, pack_base. rewrite <- H at 1.
  rewrite ch_word_gdot by lia. now rewrite N.shiftl_0_r.
Qed.
Lemma Astar_ok buf rs seed ope : Forall lsb_ok_gate buf -> Forall lsb_ok ope -> length ope = 128%nat ->
  let A := prv_A_star (map pgate buf) rs seed (map fst ope) in
  toG (fst A) = gadd (gO0 ope) (gS0 buf rs seed) /\
  toG (snd A) = gadd (gO1 ope) (gS1 buf rs seed).
Proof.
  intros Hb Ho Hl. unfold prv_A_star. cbv zeta.
  destruct (fold_xor2_sum (fun ir => prv_check_range (map pgate buf) (fst (snd ir)) (snd (snd ir)) (seed (fst ir)))
             (enum rs) (packing (map fst ope), ch_bits (map fst ope))) as [E1 E2].
  unfold enum in E1, E2. rewrite E1, E2. cbn [fst snd].
  rewrite ch_bits_ok by now rewrite map_length.
  unfold packing. rewrite toG_inn. fold gB. split.
  - f_equal; [unfold gO0; now rewrite map_map|].
    unfold gS0, enum. f_equal. apply map_ext. intro ir. now apply prv_range_ok.
  - f_equal.
    + unfold gO1. rewrite map_map. f_equal. apply map_ext_in. intros o Hin.
      rewrite Forall_forall in Ho. f_equal. now apply Ho.
    + unfold gS1, enum. f_equal. apply map_ext. intro ir. now apply prv_range_ok.
Qed.
Lemma fold_xor_lt {A} (f : A -> N) l : forall a, (a < 2 ^ 128)%N -> (forall x, (f x < 2 ^ 128)%N) ->
  (fold_left (fun acc x => N.lxor acc (f x)) l a < 2 ^ 128)%N.
Proof.
  induction l as [|x l IH]; intros a Ha Hf; cbn; auto. apply IH; auto. now apply lxor_lt.
Qed.
Lemma fold_xor2_fst {A} (f : A -> N * N) l : forall a,
  fst (fold_left (fun acc x => (N.lxor (fst acc) (fst (f x)), N.lxor (snd acc) (snd (f x)))) l a) =
  fold_left (fun acc x => N.lxor acc (fst (f x))) l (fst a).
Proof. induction l as [|x l IH]; intro a; cbn; auto. now rewrite IH. Qed.
Lemma inn_lt a b : (gf_inn_prdt a b < 2 ^ 128)%N.
Proof. unfold gf_inn_prdt. apply reduce_lt. Qed.
Lemma Bstar_lt d buf rs seed ope : (ver_B_star d buf rs seed ope < 2 ^ 128)%N.
Proof.
  unfold ver_B_star. apply fold_xor_lt; [apply inn_lt|]. intro. apply inn_lt.
Qed.
Lemma Astar_lt buf rs seed ope : (fst (prv_A_star buf rs seed ope) < 2 ^ 128)%N.
Proof.
  unfold prv_A_star. rewrite fold_xor2_fst. apply fold_xor_lt; [apply inn_lt|]. intro. apply inn_lt.
Qed.
Lemma honest_accept d buf rs seed ope : Forall lsb_ok_gate buf -> Forall lsb_ok ope -> length ope = 128%nat ->
  Forall (fun g => eErr g = false) buf ->
  ver_accept d (prv_A_star (map pgate buf) rs seed (map fst ope))
    (ver_B_star d (map (vgate d) buf) rs seed (map (kof d) ope)) = true.
Proof.
  intros Hb Ho Hl He. unfold ver_accept. apply N.eqb_eq. apply toG_inj.
  - apply lxor_lt; [apply gfmul_lt|apply Astar_lt].
  - apply Bstar_lt.
  - rewrite toG_lxor, toG_gfmul, Bstar_decomp.
    destruct (Astar_ok buf rs seed ope Hb Ho Hl) as [-> ->].
    assert (E : gSE buf rs seed = g0).
    { unfold gSE. assert (Z : forall ir : nat * (nat * nat),
        gRE buf (fst (snd ir)) (snd (snd ir)) (seed (fst ir)) = g0).
      { intro ir. unfold gRE. apply gdot_zero. apply Forall_map.
        eapply Forall_impl; [|apply Forall_segment; exact He]. cbv beta. intros g ->. reflexivity. }
      induction (enum rs) as [|ir l IH]; [reflexivity|].
      cbn [map gsum fold_right]. rewrite Z. fold (gsum (map (fun ir => gRE buf (fst (snd ir)) (snd (snd ir)) (seed (fst ir))) l)).
      rewrite IH. ring. }
    rewrite E. ring.
Qed.
(** the error polynomial is the specification's combined error *)
Lemma powers_prefix seed n : forall pw m, (n <= m)%nat ->
  gf_powers_from pw seed n = firstn n (gf_powers_from pw seed m).
Proof.
  induction n as [|n IH]; intros pw m H; [reflexivity|].
  destruct m as [|m]; [lia|]. cbn. f_equal. apply IH. lia.
Qed.
Lemma gdot_prefix a b : gdot (firstn (length b) a) b = gdot a b.
Proof. revert a. induction b as [|y b IH]; intros [|x a]; cbn; auto. now rewrite IH. Qed.
Lemma toG_foldxor l : toG (fold_right N.lxor 0%N l) = gsum (map toG l).
Proof. induction l as [|x l IH]; [reflexivity|]. cbn. now rewrite toG_lxor, IH. Qed.
Lemma range_error_ok seed errs :
  toG (range_error seed errs) = gdot (map toG (gf_coeff_gen seed (length errs))) (map b2g errs).
Proof.
  unfold range_error. rewrite toG_foldxor, map_map.
  generalize (gf_coeff_gen seed (length errs)). intro l. revert l.
  induction errs as [|e errs IH]; intros [|c l]; try reflexivity.
  cbn [combine map gsum fold_right gdot]. rewrite toG_gfmul. cbn [fst snd]. rewrite toG_b2N.
  f_equal. apply IH.
Qed.
Lemma gRE_range buf st n seed :
  gRE buf st n seed = toG (range_error seed (segment st n (map eErr buf))).
Proof.
  rewrite range_error_ok. unfold gRE. rewrite segment_map, map_map, map_length.
  assert (H : (length (segment st n buf) <= n)%nat).
  { unfold segment. rewrite firstn_length. lia. }
  rewrite <- (gdot_prefix (map toG (gf_coeff_gen seed n))), map_length, firstn_map.
  unfold gf_coeff_gen. now rewrite <- powers_prefix.
Qed.
Lemma gSE_combined buf rs seed : gSE buf rs seed = toG (combined_error rs seed (map eErr buf)).
Proof.
  unfold gSE, combined_error. rewrite toG_foldxor, map_map. f_equal.
  apply map_ext. intro ir. apply gRE_range.
Qed.
