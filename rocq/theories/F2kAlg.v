(** Algebra of the multiplication check and of the product proofs. *)
From Coq Require Import NArith List Bool Arith Lia Ring.
From Verif Require Import Word WordProofs GF128 GF128Ring GF128Field GfmulModel GfmulProofs PolyRoots ListUtil.
From Verif Require Import BoolModel BoolSpec BoolProofs BoolAlg BoolThms F2kModel F2kSpec.
Import ListNotations.
Ltac Zify.zify_post_hook ::= idtac.

Definition fgateS : Type := fwire * fwire * fwire.   (* left, right, output *)
Definition fgV (g : fgateS) : N := let '(l, r, o) := g in N.lxor (gfmul (fst l) (fst r)) (fst o).
Definition fg0 (g : fgateS) : N := let '(l, r, o) := g in gfmul (snd l) (snd r).
Definition fg1 (g : fgateS) : N :=
  let '(l, r, o) := g in N.lxor (N.lxor (gfmul (fst r) (snd l)) (gfmul (fst l) (snd r))) (snd o).
Definition fgK (d : N) (g : fgateS) : N :=
  let '(l, r, o) := g in N.lxor (gfmul (key_of d l) (key_of d r)) (gfmul (key_of d o) d).
Lemma toG_key d w : toG (key_of d w) = gadd (toG (snd w)) (gmul (toG (fst w)) (toG d)).
Proof. unfold key_of. now rewrite toG_lxor, toG_gfmul. Qed.
Lemma fgK_decomp d g : let D := toG d in
  toG (fgK d g) = gadd (gadd (toG (fg0 g)) (gmul (toG (fg1 g)) D)) (gmul (toG (fgV g)) (gmul D D)).
Proof.
  destruct g as [[l r] o]. cbn [fgK fg0 fg1 fgV]. rewrite !toG_lxor, !toG_gfmul, !toG_key, ?toG_gfmul. ring.
Qed.

(** * List versions of the range sums *)
Definition lp_range (buf : list fgateS) (start n : nat) (seed : N) (junk : N * N) : N * N :=
  if Nat.eqb n 0 then junk else
  (gf_inn_prdt (gf_coeff_gen seed n) (map fg0 (segment start n buf)),
   gf_inn_prdt (gf_coeff_gen seed n) (map fg1 (segment start n buf))).
Definition lv_range (d : N) (buf : list fgateS) (start n : nat) (seed : N) (junk : N) : N :=
  if Nat.eqb n 0 then junk else
  gf_inn_prdt (gf_coeff_gen seed n) (map (fgK d) (segment start n buf)).
Definition lp_A (buf : list fgateS) (rs : list (nat * nat)) (seed : nat -> N) (junk : nat -> N * N) (ope : list N) : N * N :=
  fold_left (fun acc ir =>
      let s := lp_range buf (fst (snd ir)) (snd (snd ir)) (seed (fst ir)) (junk (fst ir)) in
      (N.lxor (fst acc) (fst s), N.lxor (snd acc) (snd s)))
    (combine (seq 0 (length rs)) rs) (packing ope, ch_bits ope).
Definition lv_B (d : N) (buf : list fgateS) (rs : list (nat * nat)) (seed : nat -> N) (junk : nat -> N) (ope : list N) : N :=
  fold_left (fun acc ir =>
      N.lxor acc (lv_range d buf (fst (snd ir)) (snd (snd ir)) (seed (fst ir)) (junk (fst ir))))
    (combine (seq 0 (length rs)) rs) (packing ope).

Lemma seq_segment st n N : st + n <= N -> seq st n = segment st n (seq 0 N).
Proof.
  intro H. unfold segment. replace N with (st + (n + (N - st - n))) by lia.
  rewrite seq_app, seq_app. cbn [Nat.add]. rewrite skipn_app, seq_length.
  rewrite skipn_all2 by now rewrite seq_length.
  rewrite Nat.sub_diag. cbn [app skipn]. rewrite firstn_app, seq_length, Nat.sub_diag.
  rewrite firstn_all2 by now rewrite seq_length. cbn. now rewrite app_nil_r.
Qed.
Lemma f_ranges_in_bounds t cnt s n : 1 <= t -> In (s, n) (f_ranges t cnt) -> s + n <= cnt.
Proof.
  intros Ht Hin. unfold f_ranges in Hin. apply in_app_iff in Hin.
  destruct (Nat.ltb_spec cnt t) as [L|G].
  - destruct Hin as [Hin|[Hin|[]]].
    + apply in_map_iff in Hin. destruct Hin as [j [E _]]. injection E as <- <-. lia.
    + injection Hin as <- <-. lia.
  - set (q := cnt / t) in *.
    assert (Hq : 1 <= q) by (apply Nat.div_le_lower_bound; lia).
    assert (Ec : cnt = t * q + cnt mod t) by (apply Nat.div_mod_eq).
    assert (Em : cnt mod q = (cnt mod t) mod q).
    { rewrite Ec at 1. rewrite Nat.add_comm, Nat.mod_add by lia. reflexivity. }
    assert (Hr : (cnt mod t) mod q <= cnt mod t) by (apply Nat.mod_le; lia).
    assert (E : (t - 1) * q + q = t * q) by (replace t with (S (t - 1)) at 2 by lia; lia).
    destruct Hin as [Hin|[Hin|[]]].
    + apply in_map_iff in Hin. destruct Hin as [j [Ej Hj]]. injection Ej as <- <-.
      apply in_seq in Hj. assert (S j * q <= t * q) by (apply Nat.mul_le_mono_r; lia). lia.
    + injection Hin as <- <-. rewrite Em. lia.
Qed.
Lemma f_ranges_length t cnt : 1 <= t -> length (f_ranges t cnt) = t.
Proof. intro H. unfold f_ranges. rewrite app_length, map_length, seq_length. cbn. lia. Qed.

Lemma map_seq_segment {A} (f : nat -> A) (buf : list A) st n :
  map f (seq 0 (length buf)) = buf -> st + n <= length buf -> map f (seq st n) = segment st n buf.
Proof. intros E H. rewrite (seq_segment st n (length buf)), <- segment_map, E by easy. reflexivity. Qed.
Lemma in_enum {A} (rs : list A) ir : In ir (enum rs) -> In (snd ir) rs.
Proof. destruct ir as [i r]. unfold enum. apply in_combine_r. Qed.
Lemma fold_left_ext_in {A B} (f g : A -> B -> A) l : forall a,
  (forall a x, In x l -> f a x = g a x) -> fold_left f l a = fold_left g l a.
Proof.
  induction l as [|x l IH]; intros a H; [reflexivity|]. cbn. rewrite H by now left. apply IH.
  intros. apply H. now right.
Qed.
Lemma fp_A_list lv lm rv rm om ov buf t seed junk ope : 1 <= t ->
  map (fun i => ((lv i, lm i), (rv i, rm i), (ov i, om i))) (seq 0 (length buf)) = buf ->
  fp_A_star lv lm rv rm om (f_ranges t (length buf)) seed junk ope =
  lp_A buf (f_ranges t (length buf)) seed junk ope.
Proof.
  intros Ht E. unfold fp_A_star, lp_A. apply fold_left_ext_in. intros a [i [s n]] Hin.
  apply in_enum in Hin. cbn [fst snd] in *. apply f_ranges_in_bounds in Hin; [|exact Ht].
  unfold fp_range, lp_range. destruct (Nat.eqb n 0); [reflexivity|].
  rewrite !map_map.
  rewrite <- !segment_map.
  rewrite <- (map_seq_segment (fun i => fst (fp_terms lv lm rv rm om i)) (map fg0 buf)).
  2:{ rewrite map_length. rewrite <- E at 2. rewrite map_map. apply map_ext. reflexivity. }
  2:{ now rewrite map_length. }
  rewrite <- (map_seq_segment (fun i => snd (fp_terms lv lm rv rm om i)) (map fg1 buf)).
  2:{ rewrite map_length. rewrite <- E at 2. rewrite map_map. apply map_ext. reflexivity. }
  2:{ now rewrite map_length. }
  reflexivity.
Qed.
Lemma fv_B_list d lm rm om buf t seed junk ope : 1 <= t ->
  map (fun i => (lm i, rm i, om i)) (seq 0 (length buf)) =
    map (fun g : fgateS => let '(l, r, o) := g in (key_of d l, key_of d r, key_of d o)) buf ->
  fv_B_star d lm rm om (f_ranges t (length buf)) seed junk ope =
  lv_B d buf (f_ranges t (length buf)) seed junk ope.
Proof.
  intros Ht E. unfold fv_B_star, lv_B. apply fold_left_ext_in. intros a [i [s n]] Hin.
  apply in_enum in Hin. cbn [fst snd] in *. apply f_ranges_in_bounds in Hin; [|exact Ht].
  unfold fv_range, lv_range. destruct (Nat.eqb n 0); [reflexivity|].
  rewrite <- !segment_map.
  rewrite <- (map_seq_segment (fv_term d lm rm om) (map (fgK d) buf)); [reflexivity| |now rewrite map_length].
  rewrite map_length.
  apply (f_equal (map (fun x : N * N * N => let '(l, r, o) := x in N.lxor (gfmul l r) (gfmul o d)))) in E.
  rewrite !map_map in E. etransitivity; [exact E|]. apply map_ext. intros [[l r] o]. reflexivity.
Qed.

(** * Decomposition in powers of Delta *)
Section Decomp.
  Variables (buf : list fgateS) (rs : list (nat * nat)) (seed : nat -> N).
  Definition h0 (junk : nat -> N) (ir : nat * (nat * nat)) : GF :=
    if Nat.eqb (snd (snd ir)) 0 then toG (junk (fst ir)) else
    gdot (map toG (gf_coeff_gen (seed (fst ir)) (snd (snd ir))))
         (map (fun g => toG (fg0 g)) (segment (fst (snd ir)) (snd (snd ir)) buf)).
  Definition h1 (ir : nat * (nat * nat)) : GF :=
    if Nat.eqb (snd (snd ir)) 0 then g0 else
    gdot (map toG (gf_coeff_gen (seed (fst ir)) (snd (snd ir))))
         (map (fun g => toG (fg1 g)) (segment (fst (snd ir)) (snd (snd ir)) buf)).
  Definition hE (ir : nat * (nat * nat)) : GF :=
    if Nat.eqb (snd (snd ir)) 0 then g0 else
    gdot (map toG (gf_coeff_gen (seed (fst ir)) (snd (snd ir))))
         (map (fun g => toG (fgV g)) (segment (fst (snd ir)) (snd (snd ir)) buf)).
  Lemma lv_range_decomp d junk ir : let D := toG d in
    toG (lv_range d buf (fst (snd ir)) (snd (snd ir)) (seed (fst ir)) (junk (fst ir))) =
    gadd (gadd (h0 junk ir) (gmul (h1 ir) D)) (gmul (hE ir) (gmul D D)).
  Proof.
    intro D. unfold lv_range, h0, h1, hE. destruct (Nat.eqb (snd (snd ir)) 0); [ring|].
    rewrite toG_inn, !map_map. apply gdot_lin3. intros g _. apply fgK_decomp.
  Qed.
  Definition H0 junk := gsum (map (h0 junk) (enum rs)).
  Definition H1 := gsum (map h1 (enum rs)).
  Definition HE := gsum (map hE (enum rs)).
  Lemma lv_B_decomp d junk ope : let D := toG d in
    toG (lv_B d buf rs seed junk (map (kof d) ope)) =
    gadd (gadd (gadd (gO0 ope) (H0 junk)) (gmul (gadd (gO1 ope) H1) D)) (gmul HE (gmul D D)).
  Proof.
    intro D. unfold lv_B. rewrite fold_xor_sum, pack_decomp.
    rewrite (gsum_lin3 _ (h0 junk) h1 hE D); [|intros ir _; apply lv_range_decomp].
    fold (@enum (nat * nat) rs). fold (H0 junk) H1 HE. fold D. ring.
  Qed.
  Lemma f_accept_poly d A junk ope :
    ver_accept d A (lv_B d buf rs seed junk (map (kof d) ope)) = true ->
    gadd (gadd (gadd (toG (fst A)) (gadd (gO0 ope) (H0 junk)))
               (gmul (gadd (toG (snd A)) (gadd (gO1 ope) H1)) (toG d)))
         (gmul HE (gmul (toG d) (toG d))) = g0.
  Proof.
    unfold ver_accept. intro H. apply N.eqb_eq in H. apply (f_equal toG) in H.
    rewrite lv_B_decomp, toG_lxor, toG_gfmul in H.
    transitivity (gadd (gadd (gmul (toG (snd A)) (toG d)) (toG (fst A)))
                       (gadd (gmul (toG (snd A)) (toG d)) (toG (fst A)))); [|ring].
    rewrite H at 2. ring.
  Qed.
  Lemma lv_B_lt d junk ope : (forall i, (junk i < 2 ^ 128)%N) -> (lv_B d buf rs seed junk ope < 2 ^ 128)%N.
  Proof.
    intro Hj. unfold lv_B. apply fold_xor_lt; [apply inn_lt|]. intro x. unfold lv_range.
    destruct (Nat.eqb _ _); [apply Hj|apply inn_lt].
  Qed.
  Lemma lp_A_ok junk ope : length ope = 128 -> Forall lsb_ok ope ->
    Forall (fun r => snd r <> 0) rs ->
    forall jv, let A := lp_A buf rs seed junk (map fst ope) in
    toG (fst A) = gadd (gO0 ope) (H0 jv) /\ toG (snd A) = gadd (gO1 ope) H1.
  Proof.
    intros Hl Ho Hr jv. unfold lp_A. cbv zeta.
    destruct (fold_xor2_sum (fun ir => lp_range buf (fst (snd ir)) (snd (snd ir)) (seed (fst ir)) (junk (fst ir)))
               (enum rs) (packing (map fst ope), ch_bits (map fst ope))) as [E1 E2].
    unfold enum in E1, E2. rewrite E1, E2. cbn [fst snd].
    rewrite ch_bits_ok by now rewrite map_length.
    unfold packing. rewrite toG_inn. fold gB. rewrite Forall_forall in Hr.
    assert (Z : forall ir, In ir (enum rs) -> Nat.eqb (snd (snd ir)) 0 = false).
    { intros ir Hin. apply Nat.eqb_neq. apply Hr. now apply in_enum. }
    split.
    - f_equal; [unfold gO0; now rewrite map_map|]. unfold H0. f_equal. apply map_ext_in. intros ir Hin.
      unfold lp_range, h0. rewrite (Z ir Hin). cbn [fst snd]. now rewrite toG_inn, map_map.
    - f_equal.
      + unfold gO1. rewrite map_map. f_equal. apply map_ext_in. intros o Hin.
        rewrite Forall_forall in Ho. f_equal. now apply Ho.
      + unfold H1. f_equal. apply map_ext_in. intros ir Hin.
        unfold lp_range, h1. rewrite (Z ir Hin). cbn [fst snd]. now rewrite toG_inn, map_map.
  Qed.
  Lemma lp_A_lt junk ope : Forall (fun r => snd r <> 0) rs -> (fst (lp_A buf rs seed junk ope) < 2 ^ 128)%N.
  Proof.
    intro Hr. unfold lp_A. rewrite fold_xor2_fst.
    rewrite (fold_left_ext_in _ (fun acc ir => N.lxor acc (gf_inn_prdt (gf_coeff_gen (seed (fst ir)) (snd (snd ir)))
                 (map fg0 (segment (fst (snd ir)) (snd (snd ir)) buf))))).
    - apply fold_xor_lt; [apply inn_lt|]. intro. apply inn_lt.
    - intros a ir Hin. unfold lp_range.
      replace (Nat.eqb (snd (snd ir)) 0) with false; [reflexivity|].
      symmetry. apply Nat.eqb_neq. rewrite Forall_forall in Hr. apply Hr. now apply in_enum.
  Qed.
  Lemma HE_zero : Forall (fun g => fgV g = 0%N) buf -> HE = g0.
  Proof.
    intro He. unfold HE. assert (Z : forall ir, hE ir = g0).
    { intro ir. unfold hE. destruct (Nat.eqb _ _); [reflexivity|]. apply gdot_zero. apply Forall_map.
      eapply Forall_impl; [|apply Forall_segment; exact He]. cbv beta. intros g ->. apply toG_0. }
    induction (enum rs) as [|ir l IH]; [reflexivity|].
    cbn [map gsum fold_right]. rewrite Z. fold (gsum (map hE l)). rewrite IH. ring.
  Qed.
  Lemma f_honest_accept d junkp junkv ope : Forall lsb_ok ope -> length ope = 128 ->
    Forall (fun r => snd r <> 0) rs -> Forall (fun g => fgV g = 0%N) buf ->
    (forall i, (junkv i < 2 ^ 128)%N) ->
    ver_accept d (lp_A buf rs seed junkp (map fst ope)) (lv_B d buf rs seed junkv (map (kof d) ope)) = true.
  Proof.
    intros Ho Hl Hr He Hj. unfold ver_accept. apply N.eqb_eq. apply toG_inj.
    - apply lxor_lt; [apply gfmul_lt|now apply lp_A_lt].
    - now apply lv_B_lt.
    - rewrite toG_lxor, toG_gfmul, lv_B_decomp.
      destruct (lp_A_ok junkp ope Hl Ho Hr junkv) as [-> ->].
      rewrite (HE_zero He). ring.
  Qed.
  Lemma weighted_ok sd es :
    toG (weighted sd es) = gdot (map toG (gf_coeff_gen sd (length es))) (map toG es).
  Proof.
    unfold weighted. rewrite toG_foldxor, map_map.
    generalize (gf_coeff_gen sd (length es)). intro l. revert l.
    induction es as [|e es IH]; intros [|c l]; try reflexivity.
    cbn [combine map gsum fold_right gdot]. rewrite toG_gfmul. cbn [fst snd]. f_equal. apply IH.
  Qed.
  Lemma HE_combined : HE = toG (fcombined rs seed (map fgV buf)).
  Proof.
    unfold HE, fcombined. rewrite toG_foldxor, map_map. f_equal.
    apply map_ext. intros [i [st n]]. unfold hE. cbn [fst snd].
    destruct (Nat.eqb_spec n 0) as [->|Hn]; [reflexivity|].
    rewrite weighted_ok. change (firstn n (skipn st (map fgV buf))) with (segment st n (map fgV buf)).
    rewrite segment_map, map_map, map_length.
    assert (H : length (segment st n buf) <= n) by (unfold segment; rewrite firstn_length; lia).
    rewrite <- (gdot_prefix (map toG (gf_coeff_gen (seed i) n))), map_length, firstn_map.
    unfold gf_coeff_gen. now rewrite <- powers_prefix.
  Qed.
End Decomp.
Lemma weighted_lt sd es : (weighted sd es < 2 ^ 128)%N.
Proof.
  unfold weighted. induction (combine _ _) as [|x l IH]; [reflexivity|]. cbn [map fold_right]. apply lxor_lt; auto. apply gfmul_lt.
Qed.
Lemma fcombined_lt rs seed es : (fcombined rs seed es < 2 ^ 128)%N.
Proof.
  unfold fcombined. induction (combine _ _) as [|x l IH]; [reflexivity|]. cbn [map fold_right]. apply lxor_lt; auto. apply weighted_lt.
Qed.

(** * Product proofs *)
Definition pent : Type := list fwire * fwire.    (* factors, claimed product *)
Definition p_row (e : pent) : row5 :=
  match fst e with
  | [a; b; c] => prv_poly3 (fst a) (snd a) (fst b) (snd b) (fst c) (snd c) (snd (snd e))
  | [a; b; c; f] => prv_poly4 (fst a) (snd a) (fst b) (snd b) (fst c) (snd c) (fst f) (snd f) (snd (snd e))
  | [a; b; c; f; h] => prv_poly5 (fst a) (snd a) (fst b) (snd b) (fst c) (snd c) (fst f) (snd f) (fst h) (snd h) (snd (snd e))
  | _ => (0, 0, 0, 0, 0)%N
  end.
Definition v_row (d : N) (e : pent) : N :=
  let K := key_of d in
  match fst e with
  | [a; b; c] => ver_poly3 d (K a) (K b) (K c) (K (snd e))
  | [a; b; c; f] => ver_poly4 d (K a) (K b) (K c) (K f) (K (snd e))
  | [a; b; c; f; h] => ver_poly5 d (K a) (K b) (K c) (K f) (K h) (K (snd e))
  | _ => 0%N
  end.
Definition p_err (e : pent) : N :=
  match fst e with
  | [a; b; c] => N.lxor (prod3 (fst a) (fst b) (fst c)) (fst (snd e))
  | [a; b; c; f] => N.lxor (prod4 (fst a) (fst b) (fst c) (fst f)) (fst (snd e))
  | [a; b; c; f; h] => N.lxor (prod5 (fst a) (fst b) (fst c) (fst f) (fst h)) (fst (snd e))
  | _ => 0%N
  end.
Definition p_deg (e : pent) : nat := length (fst e).
Definition p_ok (e : pent) : Prop := p_deg e = 3 \/ p_deg e = 4 \/ p_deg e = 5.
Definition dg (n : nat) (e : pent) : GF := if Nat.eqb (p_deg e) n then toG (p_err e) else g0.
Ltac gpush := rewrite ?gfmul_1_ok; cbn [combine map fst snd at_ nth];
  repeat (rewrite ?toG_lxor, ?toG_gfmul, ?toG_key, ?toG_0).
Lemma v_row_decomp d e : p_ok e -> let D := toG d in
  toG (v_row d e) =
  gadd (gadd (gadd (gadd (gadd (toG (r0 (p_row e))) (gmul (toG (r1 (p_row e))) D))
                         (gmul (toG (r2 (p_row e))) (gmul D D)))
                   (gmul (gadd (toG (r3 (p_row e))) (dg 3 e)) (gmul (gmul D D) D)))
             (gmul (gadd (toG (r4 (p_row e))) (dg 4 e)) (gmul (gmul (gmul D D) D) D)))
       (gmul (dg 5 e) (gmul (gmul (gmul (gmul D D) D) D) D)).
Proof.
  destruct e as [fs o]. intros H D. unfold p_ok, p_deg in H. cbn [fst] in H.
  destruct fs as [|a [|b [|c [|f [|h [|? ?]]]]]]; cbn [length] in H; try (exfalso; lia); clear H;
    unfold v_row, dg, p_deg, p_err, p_row; cbn [fst snd length Nat.eqb].
  - unfold ver_poly3, prv_poly3, dpow, prod3, r0, r1, r2, r3, r4, at_.
    rewrite !gfmul_1_ok. cbn [combine map fst snd nth].
    rewrite ?toG_lxor, ?toG_gfmul, ?toG_lxor, ?toG_gfmul, ?toG_lxor, ?toG_gfmul, ?toG_key, ?toG_0. fold D. ring.
  - unfold ver_poly4, prv_poly4, dpow, prod4, prod3, r0, r1, r2, r3, r4, at_.
    rewrite !gfmul_1_ok. cbn [combine map fst snd nth].
    repeat (rewrite ?toG_lxor, ?toG_gfmul). rewrite ?toG_key, ?toG_0. fold D. ring.
  - unfold ver_poly5, prv_poly5, dpow, prod5, prod4, prod3, r0, r1, r2, r3, r4, at_.
    rewrite !gfmul_1_ok. cbn [combine map fst snd nth].
    repeat (rewrite ?toG_lxor, ?toG_gfmul). rewrite ?toG_key, ?toG_0. fold D. ring.
Qed.
Lemma gdot_lin6 {A} (chi : list GF) (f u0 u1 u2 u3 u4 u5 : A -> GF) D2 D3 D4 D5 D l :
  (forall g, In g l -> f g =
     gadd (gadd (gadd (gadd (gadd (u0 g) (gmul (u1 g) D)) (gmul (u2 g) D2)) (gmul (u3 g) D3)) (gmul (u4 g) D4)) (gmul (u5 g) D5)) ->
  gdot chi (map f l) =
  gadd (gadd (gadd (gadd (gadd (gdot chi (map u0 l)) (gmul (gdot chi (map u1 l)) D)) (gmul (gdot chi (map u2 l)) D2))
    (gmul (gdot chi (map u3 l)) D3)) (gmul (gdot chi (map u4 l)) D4)) (gmul (gdot chi (map u5 l)) D5).
Proof.
  revert l. induction chi as [|c chi IH]; intros [|g l] H; cbn [map gdot]; try ring.
  rewrite (H g (or_introl eq_refl)), IH by (intros; apply H; now right). ring.
Qed.
Lemma gdot_add {A} (chi : list GF) (u v : A -> GF) l :
  gdot chi (map (fun x => gadd (u x) (v x)) l) = gadd (gdot chi (map u l)) (gdot chi (map v l)).
Proof. revert l. induction chi as [|c chi IH]; intros [|g l]; cbn [map gdot]; try ring. rewrite IH. ring. Qed.
Definition chis (seed : N) (buf : list pent) : list GF := map toG (gf_coeff_gen seed (length buf)).
Definition dsum (seed : N) (n : nat) (buf : list pent) : GF := gdot (chis seed buf) (map (dg n) buf).
Lemma dsum_weighted seed n buf : dsum seed n buf = toG (weighted seed (deg_errs n (map (fun e => (p_deg e, p_err e)) buf))).
Proof.
  rewrite weighted_ok. unfold dsum, chis, deg_errs. rewrite !map_length, !map_map. f_equal.
  apply map_ext. intro e. unfold dg. cbn [fst snd]. destruct (Nat.eqb _ _); [reflexivity|now rewrite toG_0].
Qed.
Definition psums (buf : list pent) (seed : N) : row5 := prv_poly_sums (map p_row buf) seed.
(** the verifier's test as an equation in Delta *)
Lemma poly_accept_iff d buf seed s : Forall p_ok buf -> (r0 s < 2 ^ 128)%N ->
  let D := toG d in let P := psums buf seed in
  ver_poly_accept d (map (v_row d) buf) seed s = true <->
  gadd (gadd (gadd (gadd (gadd (gadd (toG (r0 P)) (toG (r0 s)))
     (gmul (gadd (toG (r1 P)) (toG (r1 s))) D))
     (gmul (gadd (toG (r2 P)) (toG (r2 s))) (gmul D D)))
     (gmul (gadd (gadd (toG (r3 P)) (dsum seed 3 buf)) (toG (r3 s))) (gmul (gmul D D) D)))
     (gmul (gadd (gadd (toG (r4 P)) (dsum seed 4 buf)) (toG (r4 s))) (gmul (gmul (gmul D D) D) D)))
     (gmul (dsum seed 5 buf) (gmul (gmul (gmul (gmul D D) D) D) D)) = g0.
Proof.
  intros Hb Hs D P. unfold ver_poly_accept. rewrite map_length, gfmul_1_ok. cbn [combine map fst snd at_ nth].
  set (B := gf_inn_prdt _ _).
  set (C := N.lxor (r0 s) _).
  assert (EB : toG B =
    gadd (gadd (gadd (gadd (gadd (toG (r0 P)) (gmul (toG (r1 P)) D)) (gmul (toG (r2 P)) (gmul D D)))
      (gmul (gadd (toG (r3 P)) (dsum seed 3 buf)) (gmul (gmul D D) D)))
      (gmul (gadd (toG (r4 P)) (dsum seed 4 buf)) (gmul (gmul (gmul D D) D) D)))
      (gmul (dsum seed 5 buf) (gmul (gmul (gmul (gmul D D) D) D) D))).
  { unfold B. rewrite toG_inn, map_map.
    rewrite (gdot_lin6 _ (fun e => toG (v_row d e)) (fun e => toG (r0 (p_row e))) (fun e => toG (r1 (p_row e)))
       (fun e => toG (r2 (p_row e))) (fun e => gadd (toG (r3 (p_row e))) (dg 3 e))
       (fun e => gadd (toG (r4 (p_row e))) (dg 4 e)) (dg 5)
       (gmul D D) (gmul (gmul D D) D) (gmul (gmul (gmul D D) D) D) (gmul (gmul (gmul (gmul D D) D) D) D) D).
    2:{ intros e He. rewrite Forall_forall in Hb. apply v_row_decomp. now apply Hb. }
    rewrite !gdot_add. unfold P, psums, prv_poly_sums, dsum, chis. cbn [r0 r1 r2 r3 r4].
    rewrite !toG_inn, !map_length, !map_map. reflexivity. }
  assert (EC : toG C = gadd (gadd (gadd (gadd (toG (r0 s)) (gmul (toG (r1 s)) D)) (gmul (toG (r2 s)) (gmul D D)))
      (gmul (toG (r3 s)) (gmul (gmul D D) D))) (gmul (toG (r4 s)) (gmul (gmul (gmul D D) D) D))).
  { unfold C, dpow. rewrite !toG_lxor, !toG_gfmul. fold D. ring. }
  assert (LC : (C < 2 ^ 128)%N).
  { unfold C. repeat (apply lxor_lt); try apply gfmul_lt. exact Hs. }
  assert (LB : (B < 2 ^ 128)%N) by apply inn_lt.
  clearbody B C. rewrite N.eqb_eq. split.
  - intros ->. transitivity (gadd (toG C) (toG C)); [|ring]. rewrite EB at 1. rewrite EC. ring.
  - intro E. apply toG_inj; auto.
    transitivity (gadd (gadd (toG B) (toG C)) (toG C)); [ring|].
    replace (gadd (toG B) (toG C)) with g0; [ring|]. rewrite <- E, EB, EC. ring.
Qed.
Lemma psums_lt buf seed : (r0 (psums buf seed) < 2 ^ 128)%N.
Proof. apply inn_lt. Qed.
Lemma dsum_zero seed n buf : Forall (fun e => p_err e = 0%N) buf -> dsum seed n buf = g0.
Proof.
  intro H. unfold dsum. apply gdot_zero. apply Forall_map. eapply Forall_impl; [|exact H]. intros e E. cbv beta.
  unfold dg. rewrite E, toG_0. now destruct (Nat.eqb _ _).
Qed.
Lemma poly_honest d buf seed : Forall p_ok buf -> Forall (fun e => p_err e = 0%N) buf ->
  ver_poly_accept d (map (v_row d) buf) seed (psums buf seed) = true.
Proof.
  intros Hb He. apply poly_accept_iff; auto using psums_lt. rewrite !dsum_zero by exact He. ring.
Qed.
Lemma poly_keys buf seed s ds : Forall p_ok buf -> (r0 s < 2 ^ 128)%N -> dsum seed 5 buf <> g0 -> NoDup ds ->
  (forall d, In d ds -> (d < 2 ^ 128)%N /\ ver_poly_accept d (map (v_row d) buf) seed s = true) ->
  length ds <= 5.
Proof.
  intros Hb Hs Hn Hnd Hd. rewrite <- (map_length toG ds). apply le_S_n.
  set (P := psums buf seed).
  apply (GF_root_count
    [gadd (toG (r0 P)) (toG (r0 s)); gadd (toG (r1 P)) (toG (r1 s)); gadd (toG (r2 P)) (toG (r2 s));
     gadd (gadd (toG (r3 P)) (dsum seed 3 buf)) (toG (r3 s));
     gadd (gadd (toG (r4 P)) (dsum seed 4 buf)) (toG (r4 s)); dsum seed 5 buf]).
  - intro H. apply Hn. rewrite Forall_forall in H. apply H. cbn. tauto.
  - apply In_map_toG_inj; [|exact Hnd]. apply Forall_forall. intros d Hin. now apply Hd.
  - intros g Hg. apply in_map_iff in Hg. destruct Hg as [d [<- Hin]]. destruct (Hd d Hin) as [_ Ha].
    apply poly_accept_iff in Ha; auto. etransitivity; [|exact Ha]. cbn [peval]. fold P. ring.
Qed.
(** a cheating message for entries of degree 3 and 4 *)
Lemma poly_cheat buf seed : Forall p_ok buf -> Forall (fun e => p_deg e = 5 -> p_err e = 0%N) buf ->
  exists s, forall d, ver_poly_accept d (map (v_row d) buf) seed s = true.
Proof.
  intros Hb He. set (P := psums buf seed).
  exists (r0 P, r1 P, r2 P, gv (gadd (toG (r3 P)) (dsum seed 3 buf)), gv (gadd (toG (r4 P)) (dsum seed 4 buf))).
  intro d. apply poly_accept_iff; auto; [apply psums_lt|]. cbn [r0 r1 r2 r3 r4]. rewrite !toG_gv. fold P.
  assert (E : dsum seed 5 buf = g0).
  { unfold dsum. apply gdot_zero. apply Forall_map. eapply Forall_impl; [|exact He]. intros e E. cbv beta in *.
    unfold dg. destruct (Nat.eqb_spec (p_deg e) 5) as [E5|]; [|reflexivity]. now rewrite (E E5), toG_0. }
  rewrite E. ring.
Qed.
