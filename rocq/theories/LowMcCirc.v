(** The gates emitted by the authenticated LowMC compute the plain path. *)
From Coq Require Import NArith List Bool Arith Lia.
From Verif Require Import Word GF128 BoolModel BoolSpec LowMcModel LowMcSpec LowMcProofs.
Import ListNotations.
Ltac Zify.zify_post_hook ::= idtac.

(** * Gates without input and reveal *)
Definition pure (g : gate) : Prop := match g with GIn _ | GReveal _ => False | _ => True end.
Definition gval (ws : list bool) (g : gate) : bool :=
  match g with
  | GIn x | GPub x => x
  | GXor i j => xorb (pwire ws i) (pwire ws j)
  | GNot i => negb (pwire ws i)
  | GAnd i j => pwire ws i && pwire ws j
  | GReveal _ => false
  end.
Definition wires (ws : list bool) (gs : list gate) : list bool :=
  fold_left (fun ws g => ws ++ [gval ws g]) gs ws.
Lemma wires_app ws a b : wires ws (a ++ b) = wires (wires ws a) b.
Proof. apply fold_left_app. Qed.
Lemma wires_ext : forall gs ws, exists new, length new = length gs /\ wires ws gs = ws ++ new.
Proof.
  induction gs as [|g gs IH]; intro ws; [exists []; cbn; now rewrite app_nil_r|].
  destruct (IH (ws ++ [gval ws g])) as [new [L E]]. exists (gval ws g :: new). cbn. rewrite L.
  split; auto. unfold wires in E. rewrite E. now rewrite <- app_assoc.
Qed.
Lemma wires_length ws gs : length (wires ws gs) = length ws + length gs.
Proof. destruct (wires_ext gs ws) as [new [L ->]]. now rewrite app_length, L. Qed.
Lemma plain_eval_pure : forall gs ws outs rest, Forall (fun g => match g with GReveal _ => False | _ => True end) gs ->
  plain_eval ws outs (gs ++ rest) = plain_eval (wires ws gs) outs rest.
Proof.
  induction gs as [|g gs IH]; intros ws outs rest H; [reflexivity|].
  inversion H as [|? ? Hg Hgs]; subst. destruct g; cbn [app plain_eval]; try easy; rewrite IH by assumption; reflexivity.
Qed.

(** wire numbers [idx] carry the values [vs] *)
Definition holds (ws : list bool) (idx : list nat) (vs : list bool) : Prop :=
  Forall (fun i => i < length ws) idx /\ map (pwire ws) idx = vs.
Lemma pwire_app ws new i : i < length ws -> pwire (ws ++ new) i = pwire ws i.
Proof. intro H. unfold pwire. now apply app_nth1. Qed.
Lemma holds_app ws new idx vs : holds ws idx vs -> holds (ws ++ new) idx vs.
Proof.
  intros [F E]. split.
  - rewrite app_length. eapply Forall_impl; [|exact F]. cbn. lia.
  - rewrite <- E. apply map_ext_in. intros i Hi. apply pwire_app. rewrite Forall_forall in F. auto.
Qed.
Lemma holds_wires ws gs idx vs : holds ws idx vs -> holds (wires ws gs) idx vs.
Proof. destruct (wires_ext gs ws) as [new [_ ->]]. apply holds_app. Qed.
Lemma holds_length ws idx vs : holds ws idx vs -> length idx = length vs.
Proof. intros [_ <-]. now rewrite map_length. Qed.
Lemma holds_rd ws idx vs i : holds ws idx vs -> i < length vs ->
  rd 0 idx i < length ws /\ pwire ws (rd 0 idx i) = rd false vs i.
Proof.
  intros H Hi. assert (L := holds_length _ _ _ H). destruct H as [F <-]. rewrite map_length in Hi.
  unfold rd. split.
  - rewrite Forall_forall in F. apply F. now apply nth_In.
  - rewrite (nth_indep _ false (pwire ws 0)) by now rewrite map_length. now rewrite map_nth.
Qed.
Lemma holds_new ws new : holds (ws ++ new) (seq (length ws) (length new)) new.
Proof.
  split.
  - apply Forall_forall. intros i Hi. apply in_seq in Hi. rewrite app_length. lia.
  - apply (nth_ext _ _ false false); [now rewrite map_length, seq_length|].
    intros i Hi. rewrite map_length, seq_length in Hi.
    rewrite (nth_indep _ false (pwire (ws ++ new) 0)) by now rewrite map_length, seq_length.
    rewrite map_nth, seq_nth by assumption. unfold pwire. rewrite app_nth2 by lia. f_equal. lia.
Qed.
Lemma holds_new_len ws new n : length new = n -> holds (ws ++ new) (seq (length ws) n) new.
Proof. intros <-. apply holds_new. Qed.
Lemma holds_skipn ws idx vs o : holds ws idx vs -> holds ws (skipn o idx) (skipn o vs).
Proof.
  intros [F <-]. split; [|now rewrite skipn_map].
  apply Forall_forall. intros x Hx. rewrite Forall_forall in F. apply F.
  rewrite <- (firstn_skipn o idx). apply in_or_app. now right.
Qed.
Lemma holds_cat ws i1 v1 i2 v2 : holds ws i1 v1 -> holds ws i2 v2 -> holds ws (i1 ++ i2) (v1 ++ v2).
Proof. intros [F1 <-] [F2 <-]. split; [now apply Forall_app|apply map_app]. Qed.
Lemma holds_wr ws idx vs i x b : holds ws idx vs -> x < length ws -> pwire ws x = b ->
  holds ws (wr idx i x) (wr vs i b).
Proof. intros [F <-] Hx <-. split; [now apply Forall_wr|apply map_wr]. Qed.

(** a row of independent xors *)
Lemma wires_xors (a b : nat -> nat) is : forall ws,
  (forall i, In i is -> a i < length ws /\ b i < length ws) ->
  wires ws (map (fun i => GXor (a i) (b i)) is) =
  ws ++ map (fun i => xorb (pwire ws (a i)) (pwire ws (b i))) is.
Proof.
  induction is as [|i is IH]; intros ws H; [cbn; now rewrite app_nil_r|].
  cbn [map]. change (wires ws (?g :: ?l)) with (wires (ws ++ [gval ws g]) l).
  unfold wires at 1. cbn [fold_left]. fold (wires (ws ++ [gval ws (GXor (a i) (b i))]) (map (fun i => GXor (a i) (b i)) is)).
  rewrite IH.
  - rewrite <- app_assoc. f_equal. cbn [app gval]. f_equal. apply map_ext_in. intros j Hj.
    destruct (H j (or_intror Hj)) as [Ha Hb]. now rewrite !pwire_app.
  - intros j Hj. destruct (H j (or_intror Hj)). rewrite app_length. lia.
Qed.
Lemma pure_xors (a b : nat -> nat) is : Forall pure (map (fun i => GXor (a i) (b i)) is).
Proof. apply Forall_forall. intros g Hg. apply in_map_iff in Hg. destruct Hg as [i [<- _]]. exact I. Qed.
Lemma ands_app a b : count_and (a ++ b) = count_and a + count_and b.
Proof. induction a as [|[] a IH]; cbn; auto. Qed.
Lemma ands_xors (a b : nat -> nat) is : count_and (map (fun i => GXor (a i) (b i)) is) = 0.
Proof. induction is; cbn; auto. Qed.

(** what a piece of code that starts at wire number [length ws] achieves *)
Record does (ws : list bool) (c : code) (vs : list bool) (ands : nat) : Prop := {
  do_pure : Forall pure (fst c);
  do_holds : holds (wires ws (fst c)) (snd c) vs;
  do_ands : count_and (fst c) = ands }.
Lemma does_xor ws a b va vb len : holds ws a va -> holds ws b vb -> len <= length va -> len <= length vb ->
  does ws (g_xor (length ws) a b len) (bv_xor va vb len) 0.
Proof.
  intros Ha Hb La Lb. split; cbn [g_xor fst snd].
  - apply pure_xors.
  - rewrite (wires_xors (fun i => rd 0 a i) (fun i => rd 0 b i)).
    + replace (map _ (seq 0 len)) with (bv_xor va vb len).
      * apply holds_new_len, bv_xor_length.
      * unfold bv_xor. apply map_ext_in. intros i Hi. apply in_seq in Hi.
        destruct (holds_rd _ _ _ i Ha) as [_ ->]; [lia|]. now destruct (holds_rd _ _ _ i Hb) as [_ ->]; [lia|].
    + intros i Hi. apply in_seq in Hi. split; eapply holds_rd; eauto; lia.
  - apply ands_xors.
Qed.

Lemma wires_step ws l g gs v : gval (ws ++ l) g = v -> wires (ws ++ l) (g :: gs) = wires (ws ++ (l ++ [v])) gs.
Proof. intros <-. unfold wires. cbn [fold_left]. now rewrite app_assoc. Qed.
Lemma sbox_wires ws p0 p1 p2 b0 b1 b2 : p0 < length ws -> p1 < length ws -> p2 < length ws ->
  pwire ws p0 = b0 -> pwire ws p1 = b1 -> pwire ws p2 = b2 ->
  let ws' := wires ws (g_sbox (length ws) p0 p1 p2) in
  pwire ws' (length ws + 1) = xorb b0 (b1 && b2) /\
  pwire ws' (length ws + 4) = xorb b0 (xorb b1 (b0 && b2)) /\
  pwire ws' (length ws + 8) = xorb b0 (xorb b1 (xorb b2 (b0 && b1))).
Proof.
  intros H0 H1 H2 V0 V1 V2 ws'.
  assert (P : forall new i, i < length ws -> pwire (ws ++ new) i = pwire ws i) by (intros; now apply pwire_app).
  assert (Q : forall new i, pwire (ws ++ new) (length ws + i) = nth i new false).
  { intros. unfold pwire. rewrite app_nth2 by lia. f_equal. lia. }
  assert (Q0 : forall new, pwire (ws ++ new) (length ws) = nth 0 new false).
  { intros. rewrite <- (Nat.add_0_r (length ws)). apply Q. }
  assert (E : ws' = ws ++ [b1 && b2; xorb b0 (b1 && b2);
                           b0 && b2; xorb b1 (b0 && b2); xorb b0 (xorb b1 (b0 && b2));
                           b0 && b1; xorb b2 (b0 && b1); xorb b1 (xorb b2 (b0 && b1));
                           xorb b0 (xorb b1 (xorb b2 (b0 && b1)))]).
  { unfold ws', g_sbox. rewrite <- (app_nil_r ws) at 1.
    rewrite (wires_step _ _ _ _ (b1 && b2)) by (cbn [gval app nth]; rewrite ?Q, ?Q0, ?P, ?V0, ?V1, ?V2 by assumption; reflexivity).
    rewrite (wires_step _ _ _ _ (xorb b0 (b1 && b2))) by (cbn [gval app nth]; rewrite ?Q, ?Q0, ?P, ?V0, ?V1, ?V2 by assumption; reflexivity).
    rewrite (wires_step _ _ _ _ (b0 && b2)) by (cbn [gval app nth]; rewrite ?Q, ?Q0, ?P, ?V0, ?V1, ?V2 by assumption; reflexivity).
    rewrite (wires_step _ _ _ _ (xorb b1 (b0 && b2))) by (cbn [gval app nth]; rewrite ?Q, ?Q0, ?P, ?V0, ?V1, ?V2 by assumption; reflexivity).
    rewrite (wires_step _ _ _ _ (xorb b0 (xorb b1 (b0 && b2)))) by (cbn [gval app nth]; rewrite ?Q, ?Q0, ?P, ?V0, ?V1, ?V2 by assumption; reflexivity).
    rewrite (wires_step _ _ _ _ (b0 && b1)) by (cbn [gval app nth]; rewrite ?Q, ?Q0, ?P, ?V0, ?V1, ?V2 by assumption; reflexivity).
    rewrite (wires_step _ _ _ _ (xorb b2 (b0 && b1))) by (cbn [gval app nth]; rewrite ?Q, ?Q0, ?P, ?V0, ?V1, ?V2 by assumption; reflexivity).
    rewrite (wires_step _ _ _ _ (xorb b1 (xorb b2 (b0 && b1)))) by (cbn [gval app nth]; rewrite ?Q, ?Q0, ?P, ?V0, ?V1, ?V2 by assumption; reflexivity).
    rewrite (wires_step _ _ _ _ (xorb b0 (xorb b1 (xorb b2 (b0 && b1))))) by (cbn [gval app nth]; rewrite ?Q, ?Q0, ?P, ?V0, ?V1, ?V2 by assumption; reflexivity).
    reflexivity. }
  rewrite E, !Q. auto.
Qed.

Section Sub.
  Variable ws0 : list bool.
  (** loop invariant form: [c] is what has been emitted so far *)
  Lemma does_sub_box c vs i q : does ws0 c vs q -> 3 * i + 2 < length vs ->
    does ws0 (g_sub_box (length ws0) c i) (sub_box vs i) (3 + q).
  Proof.
    intros [Dp Dh Da] Hi. destruct c as [gs st]. cbn [fst snd] in *. unfold g_sub_box.
    destruct (holds_rd _ _ _ (3 * i) Dh ltac:(lia)) as [L0 V0].
    destruct (holds_rd _ _ _ (3 * i + 1) Dh ltac:(lia)) as [L1 V1].
    destruct (holds_rd _ _ _ (3 * i + 2) Dh ltac:(lia)) as [L2 V2].
    rewrite <- wires_length.
    set (ws := wires ws0 gs) in *.
    pose proof (sbox_wires ws _ _ _ _ _ _ L0 L1 L2 V0 V1 V2) as S. cbv zeta in S.
    set (g := g_sbox (length ws) (rd 0 st (3 * i)) (rd 0 st (3 * i + 1)) (rd 0 st (3 * i + 2))) in *.
    destruct S as [Sa [Sb Sc]].
    assert (Lg : length (wires ws g) = length ws + 9) by (rewrite wires_length; reflexivity).
    split; cbn [fst snd].
    - apply Forall_app. split; auto. repeat constructor.
    - rewrite wires_app. fold ws. unfold sub_box.
      apply holds_wr; [apply holds_wr; [apply holds_wr|..]|..]; auto; try (rewrite Lg; lia).
      now apply holds_wires.
    - rewrite ands_app, Da. unfold g, g_sbox. cbn. lia.
  Qed.
  Lemma sub_box_length vs i : length (sub_box vs i) = length vs.
  Proof. unfold sub_box. now rewrite !wr_length. Qed.
  Lemma does_substitution nb st vs : holds ws0 st vs -> 3 * nb <= length vs ->
    does ws0 (g_substitution nb (length ws0) st) (substitution nb vs) (3 * nb) /\
    length (substitution nb vs) = length vs.
  Proof.
    intros Hh. unfold g_substitution, substitution. induction nb; intro H.
    - split; auto. split; cbn; auto.
    - destruct IHnb as [D L]; [lia|]. rewrite seq_S, !fold_left_app. cbn [fold_left Nat.add].
      split; [|now rewrite sub_box_length]. replace (3 * S nb) with (3 + 3 * nb) by lia.
      apply does_sub_box; [exact D|]. rewrite L. lia.
  Qed.
End Sub.

Section Mul.
  Variables (n k z : nat) (ws0 : list bool).
  Hypothesis (Hz : z < length ws0) (Vz : pwire ws0 z = false).
  Lemma choice_ok ws new b x vx : ws = ws0 ++ new -> x < length ws -> pwire ws x = vx ->
    g_choice z b x < length ws /\ pwire ws (g_choice z b x) = b && vx.
  Proof.
    intros -> Hx <-. destruct b; cbn [g_choice andb]; auto. rewrite app_length, pwire_app by assumption.
    split; [lia|assumption].
  Qed.
  Lemma mul_row_length m v buf i : length (mul_row n m v buf i) = n.
  Proof. unfold mul_row. now rewrite map_length, seq_length. Qed.
  Lemma does_mul_row m v vv c vs i q : holds ws0 v vv -> does ws0 c vs q -> i < length vv -> length vs = n ->
    does ws0 (g_mul_row n z (length ws0) m v c i) (mul_row n m vv vs i) q.
  Proof.
    intros Hv [Dp Dh Da] Hi L. destruct c as [gs buf]. cbn [fst snd] in *. unfold g_mul_row.
    rewrite <- wires_length.
    destruct (wires_ext gs ws0) as [new [_ En]].
    pose proof (holds_wires _ gs _ _ Hv) as Hv'. rewrite En in *.
    set (ws := ws0 ++ new) in *.
    destruct (holds_rd _ _ _ i Hv' Hi) as [Li Vi].
    split; cbn [fst snd].
    - apply Forall_app. split; auto. apply pure_xors.
    - rewrite wires_app, En. fold ws.
      rewrite (wires_xors (fun j => rd 0 buf j) (fun j => g_choice z (rd false m (i * n + j)) (rd 0 v i))).
      + replace (map _ (seq 0 n)) with (mul_row n m vv vs i).
        * apply holds_new_len, mul_row_length.
        * unfold mul_row. apply map_ext_in. intros j Hj. apply in_seq in Hj.
          destruct (holds_rd _ _ _ j Dh) as [_ ->]; [lia|].
          now destruct (choice_ok ws new (rd false m (i * n + j)) _ _ eq_refl Li Vi) as [_ ->].
      + intros j Hj. apply in_seq in Hj. split; [eapply holds_rd; eauto; lia|].
        eapply choice_ok; eauto. reflexivity.
    - rewrite ands_app, ands_xors. lia.
  Qed.
  Lemma mul_lin_length m v : length (mul_lin n m v) = n.
  Proof. rewrite mul_lin_spec. apply mat_vec_length. Qed.
  Lemma does_mul_lin m v vv : holds ws0 v vv -> length vv = n -> 1 <= n ->
    does ws0 (g_mul_lin n z (length ws0) m v) (mul_lin n m vv) 0.
  Proof.
    intros Hv L Hn. unfold g_mul_lin, mul_lin.
    assert (E : forall q, q < n ->
      does ws0 (fold_left (g_mul_row n z (length ws0) m v) (seq 1 q)
                  ([], map (fun j => g_choice z (rd false m j) (rd 0 v 0)) (seq 0 n)))
               (fold_left (mul_row n m vv) (seq 1 q) (mul_row0 n m vv)) 0 /\
      length (fold_left (mul_row n m vv) (seq 1 q) (mul_row0 n m vv)) = n).
    { induction q; intro Hq.
      - split; [|unfold mul_row0; cbn; now rewrite map_length, seq_length].
        destruct (holds_rd _ _ _ 0 Hv) as [L0 V0]; [lia|].
        split; cbn [seq fold_left fst snd]; auto. cbn [wires fold_left].
        split.
        + apply Forall_forall. intros x Hx. apply in_map_iff in Hx. destruct Hx as [j [<- _]].
          destruct (rd false m j); cbn; auto.
        + unfold mul_row0. rewrite map_map. apply map_ext. intro j.
          destruct (rd false m j); cbn [g_choice andb]; auto.
      - destruct IHq as [D Lq]; [lia|]. rewrite seq_S, !fold_left_app. cbn [fold_left Nat.add].
        split; [|apply mul_row_length]. apply does_mul_row; auto. lia. }
    apply E. lia.
  Qed.

  Lemma key_bit_does m key vkey i : holds ws0 key vkey -> length vkey = k -> 1 <= k ->
    let c := g_key_bit k z (length ws0) m key i in
    does ws0 (fst c, [snd c]) [key_bit k m vkey i] 0.
  Proof.
    intros Hk L H1. unfold g_key_bit, key_bit.
    assert (E : forall q, q < k ->
      let c := fold_left (g_key_step k z (length ws0) m key i) (seq 1 q)
                 ([], g_choice z (rd false m (i * k)) (rd 0 key 0)) in
      does ws0 (fst c, [snd c])
        [fold_left (fun acc j => xorb acc (rd false m (i * k + j) && rd false vkey j)) (seq 1 q)
                   (rd false m (i * k) && rd false vkey 0)] 0).
    { induction q; intros Hq c.
      - destruct (holds_rd _ _ _ 0 Hk) as [L0 V0]; [lia|].
        split; cbn [c seq fold_left fst snd]; auto. cbn [wires fold_left]. split.
        + constructor; auto. destruct (rd false m (i * k)); cbn; auto.
        + cbn [map]. f_equal. destruct (rd false m (i * k)); cbn [g_choice andb]; auto.
      - unfold c. clear c. rewrite seq_S, !fold_left_app. cbn [fold_left Nat.add].
        specialize (IHq ltac:(lia)). cbv zeta in IHq.
        destruct (fold_left (g_key_step k z (length ws0) m key i) (seq 1 q)
                    ([], g_choice z (rd false m (i * k)) (rd 0 key 0))) as [gs o].
        cbn [fst snd] in *. destruct IHq as [Dp [Df De] Da]. cbn [fst snd map] in *.
        pose proof (Forall_inv Df) as Lo. cbn beta in Lo. injection De as Vo.
        destruct (wires_ext gs ws0) as [new [Ln En]].
        pose proof (holds_wires _ gs _ _ Hk) as Hk'. rewrite En in *.
        destruct (holds_rd _ _ _ (S q) Hk') as [Lj Vj]; [lia|].
        destruct (choice_ok _ new (rd false m (i * k + S q)) _ _ eq_refl Lj Vj) as [Lc Vc].
        cbn [g_key_step fst snd]. split; cbn [fst snd].
        + apply Forall_app. split; auto. repeat constructor.
        + rewrite wires_app, En. cbn [wires fold_left gval]. rewrite Vo, Vc.
          rewrite <- Ln, <- app_length.
          rewrite <- (app_nil_r [length (ws0 ++ new)]). 
          apply (holds_new (ws0 ++ new) [_]).
        + rewrite ands_app. cbn. lia. }
    apply E. lia.
  Qed.
End Mul.

(** loops that append outputs *)
Lemma does_loop (f : nat -> nat -> code) (g : nat -> list bool) (q : nat) ws0 is :
  (forall new i, In i is -> does (ws0 ++ new) (f (length (ws0 ++ new)) i) (g i) q) ->
  does ws0 (g_loop f (length ws0) is) (flat_map g is) (length is * q).
Proof.
  intro H. unfold g_loop. induction is as [|i is IH] using rev_ind.
  - split; cbn; auto. split; cbn; auto.
  - rewrite fold_left_app, flat_map_app, app_length. cbn [fold_left flat_map length].
    destruct IH as [Dp Dh Da]; [intros new j Hj; apply H; apply in_or_app; now left|].
    match goal with H : Forall pure (fst ?c) |- _ => destruct c as [gs os] end. cbn [fst snd] in *.
    destruct (wires_ext gs ws0) as [new [_ En]].
    specialize (H new i ltac:(apply in_or_app; right; now left)).
    rewrite <- En, wires_length in H.
    destruct (f (length ws0 + length gs) i) as [gs' os']. destruct H as [Hp Hh Ha]. cbn [fst snd] in *.
    split; cbn [fst snd].
    + now apply Forall_app.
    + rewrite wires_app, app_nil_r. apply holds_cat; auto. now apply holds_wires.
    + rewrite ands_app. lia.
Qed.

Lemma does_loop0 (f : nat -> nat -> code) (g : nat -> list bool) ws0 is :
  (forall new i, In i is -> does (ws0 ++ new) (f (length (ws0 ++ new)) i) (g i) 0) ->
  does ws0 (g_loop f (length ws0) is) (flat_map g is) 0.
Proof. intro H. rewrite <- (Nat.mul_0_r (length is)). now apply does_loop. Qed.

Section Enc.
  Variables (nb n k nr z : nat) (ws0 : list bool).
  Hypothesis (Hz : z < length ws0) (Vz : pwire ws0 z = false) (Hk : 1 <= k) (Hn : 1 <= n) (Hnb : 3 * nb <= n).
  Lemma zero_app new : z < length (ws0 ++ new) /\ pwire (ws0 ++ new) z = false.
  Proof. rewrite app_length, pwire_app by assumption. split; [lia|assumption]. Qed.
  Lemma does_mul_key m key vkey new : holds ws0 key vkey -> length vkey = k ->
    does (ws0 ++ new) (g_mul_key n k z (length (ws0 ++ new)) m key) (mul_key n k m vkey) 0.
  Proof.
    intros H L. unfold g_mul_key, mul_key.
    replace (map (key_bit k m vkey) (seq 0 n)) with (flat_map (fun i => [key_bit k m vkey i]) (seq 0 n)).
    - apply does_loop0. intros new' i _.
      rewrite <- app_assoc. destruct (zero_app (new ++ new')) as [Z1 Z2].
      pose proof (key_bit_does k z _ Z1 Z2 m key vkey i (holds_app _ (new ++ new') _ _ H) L Hk) as D. cbv zeta in D.
      now destruct (g_key_bit k z (length (ws0 ++ new ++ new')) m key i) as [gs o].
    - generalize (seq 0 n). induction l; cbn; congruence.
  Qed.
  Lemma does_keyschedule km key vkey : holds ws0 key vkey -> length vkey = k ->
    does ws0 (g_keyschedule n k nr z (length ws0) km key) (keyschedule n k nr km vkey) 0.
  Proof.
    intros H L. unfold g_keyschedule, keyschedule.
    apply does_loop0.
    intros new i _. now apply does_mul_key.
  Qed.

  Variables (lin : list bool) (rc rk : list nat) (vrc vrk : list bool).
  Hypothesis (Hrc : holds ws0 rc vrc) (Hrk : holds ws0 rk vrk)
             (Lrc : length vrc = nr * n) (Lrk : length vrk = (nr + 1) * n).
  Lemma does_seq c1 v1 q1 c2 v2 q2 : does ws0 c1 v1 q1 -> does (wires ws0 (fst c1)) c2 v2 q2 ->
    does ws0 (fst c1 ++ fst c2, snd c2) v2 (q1 + q2).
  Proof.
    intros [P1 H1 A1] [P2 H2 A2]. split; cbn [fst snd].
    - now apply Forall_app.
    - now rewrite wires_app.
    - rewrite ands_app. lia.
  Qed.
  Lemma does_round c vs q r : does ws0 c vs q -> length vs = n -> r < nr ->
    does ws0 (g_round nb n z (length ws0) lin rc rk c (S r)) (round nb n lin vrc vrk vs (S r)) (q + 3 * nb).
  Proof.
    intros D L Hr. unfold g_round, round. destruct c as [gs st].
    assert (S r * n <= nr * n) by now apply Nat.mul_le_mono_r.
    rewrite <- wires_length.
    destruct (does_substitution (wires ws0 gs) nb st vs) as [D1 L1]; [apply D|lia|].
    pose proof (does_seq _ _ _ _ _ _ D D1) as E1.
    destruct (g_substitution nb (length (wires ws0 gs)) st) as [g1 st1]. cbn [fst snd] in *.
    rewrite <- wires_length.
    destruct (wires_ext (gs ++ g1) ws0) as [n1 [_ N1]].
    assert (D2 : does (wires ws0 (gs ++ g1))
                   (g_mul_lin n z (length (wires ws0 (gs ++ g1))) (skipn ((S r - 1) * n * n) lin) st1)
                   (mul_lin n (skipn ((S r - 1) * n * n) lin) (substitution nb vs)) 0).
    { destruct (zero_app n1). apply does_mul_lin; rewrite ?N1; auto; try lia. rewrite <- N1. apply E1. }
    pose proof (does_seq _ _ _ _ _ _ E1 D2) as E2.
    destruct (g_mul_lin n z _ _ st1) as [g2 st2]. cbn [fst snd] in *.
    rewrite <- wires_length.
    assert (D3 : does (wires ws0 ((gs ++ g1) ++ g2))
                   (g_xor (length (wires ws0 ((gs ++ g1) ++ g2))) st2 (skipn ((S r - 1) * n) rc) n)
                   (bv_xor (mul_lin n (skipn ((S r - 1) * n * n) lin) (substitution nb vs))
                           (skipn ((S r - 1) * n) vrc) n) 0).
    { apply does_xor; [apply E2| |rewrite mul_lin_length; lia|rewrite skipn_length; nia].
      apply holds_skipn. now apply holds_wires. }
    pose proof (does_seq _ _ _ _ _ _ E2 D3) as E3.
    destruct (g_xor _ st2 _ n) as [g3 st3]. cbn [fst snd] in *.
    rewrite <- wires_length.
    assert (D4 : does (wires ws0 (((gs ++ g1) ++ g2) ++ g3))
                   (g_xor (length (wires ws0 (((gs ++ g1) ++ g2) ++ g3))) st3 (skipn (S r * n) rk) n)
                   (bv_xor (bv_xor (mul_lin n (skipn ((S r - 1) * n * n) lin) (substitution nb vs))
                           (skipn ((S r - 1) * n) vrc) n) (skipn (S r * n) vrk) n) 0).
    { apply does_xor; [apply E3| |rewrite bv_xor_length; lia|rewrite skipn_length; nia].
      apply holds_skipn. now apply holds_wires. }
    pose proof (does_seq _ _ _ _ _ _ E3 D4) as E4.
    destruct (g_xor _ st3 _ n) as [g4 st4]. cbn [fst snd] in *.
    replace (q + 3 * nb) with (q + 3 * nb + 0 + 0 + 0) by lia. exact E4.
  Qed.
  Lemma round_length vs r : length (round nb n lin vrc vrk vs r) = n.
  Proof. unfold round. apply bv_xor_length. Qed.
  Lemma does_encrypt_block msg vmsg : holds ws0 msg vmsg -> n <= length vmsg ->
    does ws0 (g_encrypt_block nb n nr z (length ws0) lin rc rk msg)
         (encrypt_block nb n nr lin vrc vrk vmsg) (nr * (3 * nb)).
  Proof.
    intros Hm Lm. unfold g_encrypt_block, encrypt_block.
    assert (E : forall q, q <= nr ->
      does ws0 (fold_left (g_round nb n z (length ws0) lin rc rk) (seq 1 q) (g_xor (length ws0) msg rk n))
               (fold_left (round nb n lin vrc vrk) (seq 1 q) (bv_xor vmsg vrk n)) (q * (3 * nb)) /\
      length (fold_left (round nb n lin vrc vrk) (seq 1 q) (bv_xor vmsg vrk n)) = n).
    { induction q; intro Hq.
      - split; [|apply bv_xor_length]. cbn [seq fold_left]. apply does_xor; auto. nia.
      - destruct IHq as [D L]; [lia|]. rewrite seq_S, !fold_left_app. cbn [fold_left Nat.add].
        split; [|apply round_length]. replace (S q * (3 * nb)) with (q * (3 * nb) + 3 * nb) by lia.
        apply does_round; auto. }
    now apply E.
  Qed.
End Enc.
Lemma does_encrypt nb n nr z ws0 lin rc rk vrc vrk msg vmsg nblocks :
  z < length ws0 -> pwire ws0 z = false -> 1 <= n -> 3 * nb <= n ->
  holds ws0 rc vrc -> holds ws0 rk vrk -> length vrc = nr * n -> length vrk = (nr + 1) * n ->
  holds ws0 msg vmsg -> length vmsg = nblocks * n ->
  does ws0 (g_encrypt nb n nr z (length ws0) lin rc rk msg nblocks)
       (encrypt nb n nr lin vrc vrk vmsg nblocks) (nblocks * (nr * (3 * nb))).
Proof.
  intros Hz Vz Hn Hnb Hrc Hrk Lrc Lrk Hm Lm. unfold g_encrypt, encrypt.
  replace (nblocks * (nr * (3 * nb))) with (length (seq 0 nblocks) * (nr * (3 * nb))) by now rewrite seq_length.
  apply does_loop. intros new i Hi. apply in_seq in Hi.
  assert (Z : z < length (ws0 ++ new) /\ pwire (ws0 ++ new) z = false)
    by (rewrite app_length, pwire_app by assumption; split; [lia|assumption]).
  destruct Z. apply does_encrypt_block with (k := 1); auto using holds_app.
  - now apply holds_skipn, holds_app.
  - rewrite skipn_length, Lm. assert (S i * n <= nblocks * n) by (apply Nat.mul_le_mono_r; lia). lia.
Qed.
