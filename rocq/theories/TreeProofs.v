(** Proofs about TreeModel. *)
From Coq Require Import NArith List Bool Arith Lia.
From Verif Require Import Word TreeModel TreeSpec.
Import ListNotations.

Lemma mset_eq {A} (m : nat -> A) i v : mset m i v i = v. Proof. unfold mset. now rewrite Nat.eqb_refl. Qed.
Lemma mset_neq {A} (m : nat -> A) i j v : j <> i -> mset m i v j = m j.
Proof. unfold mset. intro H. apply Nat.eqb_neq in H. now rewrite H. Qed.

Lemma nth_map_seq {A} (f : nat -> A) n x d : x < n -> nth x (map f (seq 0 n)) d = f x.
Proof.
  intro H. rewrite nth_indep with (d' := f 0) by (rewrite map_length, seq_length; lia).
  rewrite map_nth, seq_nth by lia. reflexivity.
Qed.

(** * OT *)
Lemma flip_loop_ok len : forall k b i bits,
  let '(bits', msg) := flip_loop len k b i bits in
  (forall j, bits' j = if (k <=? j) && (j <? k + len) then xorb (b (i + (j - k))) (bits j) else bits j) /\
  msg = map (fun x => xorb (b (i + x)) (bits (k + x))) (seq 0 len).
Proof.
  induction len as [|len IH]; intros k b i bits; cbn [flip_loop].
  - split; [|reflexivity]. intro j. rewrite Nat.add_0_r. destruct (k <=? j) eqn:E; [|reflexivity].
    destruct (j <? k) eqn:E2; [|reflexivity]. apply Nat.leb_le in E. apply Nat.ltb_lt in E2. lia.
  - specialize (IH (S k) b (S i) (mset bits k (xorb (b i) (bits k)))).
    destruct (flip_loop len (S k) b (S i) (mset bits k (xorb (b i) (bits k)))) as [bits' msg].
    destruct IH as [H1 H2]. split.
    + intro j. rewrite H1. clear H1 H2.
      destruct (Nat.eq_dec j k) as [->|N].
      * rewrite mset_eq. replace (S k <=? k) with false by (symmetry; apply Nat.leb_gt; lia). cbn [andb].
        rewrite (proj2 (Nat.leb_le k k)), (proj2 (Nat.ltb_lt k (k + S len))) by lia. cbn [andb].
        now rewrite Nat.sub_diag, Nat.add_0_r.
      * rewrite mset_neq by easy.
        destruct (Nat.leb_spec (S k) j), (Nat.leb_spec k j); cbn [andb]; try lia; auto.
        replace (S k + len) with (k + S len) by lia. destruct (j <? k + S len); [|easy].
        now replace (S i + (j - S k)) with (i + (j - k)) by lia.
    + rewrite H2. cbn [seq map]. rewrite !Nat.add_0_r. f_equal. rewrite <- seq_shift, map_map.
      apply map_ext_in. intros x Hx. rewrite mset_neq by lia.
      now replace (i + S x) with (S i + x) by lia; replace (k + S x) with (S k + x) by lia.
Qed.
Lemma put_bits_ok msg : forall k bits j,
  put_bits k msg bits j = if (k <=? j) && (j <? k + length msg) then nth (j - k) msg false else bits j.
Proof.
  induction msg as [|v msg IH]; intros k bits j; cbn [put_bits length].
  - rewrite Nat.add_0_r. destruct (Nat.leb_spec k j), (Nat.ltb_spec j k); cbn; auto; lia.
  - rewrite IH. destruct (Nat.eq_dec j k) as [->|N].
    + rewrite mset_eq. replace (S k <=? k) with false by (symmetry; apply Nat.leb_gt; lia). cbn [andb].
      rewrite (proj2 (Nat.leb_le k k)), (proj2 (Nat.ltb_lt k (k + S (length msg)))) by lia. cbn [andb]. now rewrite Nat.sub_diag.
    + rewrite mset_neq by easy.
      destruct (Nat.leb_spec (S k) j), (Nat.leb_spec k j); cbn [andb]; try lia; auto.
      replace (S k + length msg) with (k + S (length msg)) by lia. destruct (j <? k + S (length msg)); [|easy].
      now replace (j - k) with (S (j - S k)) by lia.
Qed.
Lemma in_range k len x : x < len -> (k <=? k + x) && (k + x <? k + len) = true.
Proof. intro H. rewrite (proj2 (Nat.leb_le _ _)), (proj2 (Nat.ltb_lt _ _)) by lia. reflexivity. Qed.
Lemma out_range k len j : j < k \/ k + len <= j -> (k <=? j) && (j <? k + len) = false.
Proof. intro H. destruct (Nat.leb_spec k j), (Nat.ltb_spec j (k + len)); cbn; auto; lia. Qed.
Lemma choices_all_ok len times : forall b i s1 s2, o_count s1 = o_count s2 ->
  let '(s1', msgs) := choices_all_r len b i times s1 in
  let s2' := choices_all_s len msgs s2 in
  (forall s x, s < times -> x < len ->
     o_bits s1' (o_count s1 + (s * len + x)) = xorb (b (i + s) x) (o_bits s1 (o_count s1 + (s * len + x))) /\
     o_bits s2' (o_count s1 + (s * len + x)) = xorb (b (i + s) x) (o_bits s1 (o_count s1 + (s * len + x)))) /\
  (forall j, j < o_count s1 -> o_bits s1' j = o_bits s1 j /\ o_bits s2' j = o_bits s2 j) /\
  (forall j, o_count s1 + times * len <= j -> o_bits s1' j = o_bits s1 j /\ o_bits s2' j = o_bits s2 j).
Proof.
  induction times as [|times IH]; intros b i s1 s2 Hc; cbn [choices_all_r].
  - cbn [choices_all_s]. split; [lia|auto].
  - unfold choices_recver. pose proof (flip_loop_ok len (o_count s1) (b i) 0 (o_bits s1)) as F.
    destruct (flip_loop len (o_count s1) (b i) 0 (o_bits s1)) as [bits' msg]. destruct F as [F1 F2].
    set (t1 := {| o_bits := bits'; o_count := o_count s1 + len |}).
    specialize (IH b (S i) t1 (choices_sender len msg s2)).
    destruct (choices_all_r len b (S i) times t1) as [s1' msgs]. cbn [choices_all_s].
    destruct IH as (I1 & I2 & I3); [cbn; lia|]. cbn [o_count t1] in I1, I2, I3.
    assert (Lm : length msg = len) by (rewrite F2, map_length; apply seq_length).
    assert (B2 : forall j, o_bits (choices_sender len msg s2) j =
      if (o_count s1 <=? j) && (j <? o_count s1 + len) then nth (j - o_count s1) msg false else o_bits s2 j).
    { intro j. unfold choices_sender. cbn [o_bits]. now rewrite put_bits_ok, <- Hc, Lm. }
    assert (Nm : forall x, x < len -> nth x msg false = xorb (b i x) (o_bits s1 (o_count s1 + x))).
    { intros x Hx. rewrite F2. now rewrite nth_map_seq. }
    split; [|split].
    + intros [|s] x Hs Hx.
      * cbn [Nat.mul Nat.add]. rewrite Nat.add_0_r. destruct (I2 (o_count s1 + x)) as [-> ->]; [lia|].
        cbn [t1 o_bits]. rewrite F1, B2, in_range by easy. rewrite (Nat.add_comm (o_count s1) x), Nat.add_sub.
        rewrite Nm by easy. now rewrite (Nat.add_comm x (o_count s1)).
      * destruct (I1 s x ltac:(lia) Hx) as [J1 J2].
        replace (o_count s1 + (S s * len + x)) with (o_count s1 + len + (s * len + x)) by lia.
        rewrite J1, J2. cbn [t1 o_bits]. rewrite F1, out_range by lia.
        now replace (S i + s) with (i + S s) by lia.
    + intros j Hj. destruct (I2 j) as [-> ->]; [lia|]. cbn [t1 o_bits]. rewrite F1, B2, out_range by lia. auto.
    + intros j Hj. destruct (I3 j) as [-> ->]; [lia|]. cbn [t1 o_bits]. rewrite F1, B2, out_range by lia. auto.
Qed.
Lemma recv_send n len : forall k i pre pre' bits b m0 m1 data,
  (forall x, x < len -> bits (k + x) = bits (k + x)) ->
  let pads := send_loop n len k i pre bits m0 m1 in
  (forall x, x < len -> pre' (k + x) = (if xorb (b (i + x)) (bits (k + x)) then pre (k + x + n) else pre (k + x))) ->
  forall j, recv_loop k i pre' b pads data j =
    if (i <=? j) && (j <? i + len) then (if b j then m1 j else m0 j) else data j.
Proof.
  induction len as [|len IH]; intros k i pre pre' bits b m0 m1 data _ pads Hp j; subst pads; cbn [send_loop recv_loop].
  - now rewrite out_range by lia.
  - pose proof (Hp 0 ltac:(lia)) as P0. rewrite !Nat.add_0_r in P0.
    rewrite IH; [|easy|].
    + destruct (Nat.eq_dec j i) as [->|N].
      * rewrite mset_eq. rewrite out_range by lia. rewrite (proj2 (Nat.leb_le i i)), (proj2 (Nat.ltb_lt i (i + S len))) by lia. cbn [andb].
        rewrite P0. destruct (b i), (bits k); cbn [xorb negb fst snd];
          rewrite (N.lxor_comm (pre _)), N.lxor_assoc, N.lxor_nilpotent, N.lxor_0_r; reflexivity.
      * rewrite mset_neq by easy.
        destruct (Nat.leb_spec (S i) j), (Nat.leb_spec i j); cbn [andb]; try lia; auto.
        now replace (i + S len) with (S i + len) by lia.
    + intros x Hx. specialize (Hp (S x) ltac:(lia)). now rewrite <- !Nat.add_succ_comm in Hp.
Qed.

(** * Xor sums *)
Lemma lxor_rot a b c : N.lxor (N.lxor a b) c = N.lxor (N.lxor a c) b.
Proof. now rewrite !N.lxor_assoc, (N.lxor_comm b c). Qed.
Lemma xsum_ext f g n : (forall x, x < n -> f x = g x) -> xsum f n = xsum g n.
Proof. induction n as [|n IH]; intro H; [reflexivity|]. cbn. rewrite IH, H by auto. reflexivity. Qed.
Lemma xsum_hole f g n p : p < n -> (forall x, x < n -> x <> p -> f x = g x) -> f p = 0%N ->
  N.lxor (xsum f n) (xsum g n) = g p.
Proof.
  induction n as [|n IH]; intros Hp E Z; [lia|]. cbn [xsum].
  destruct (Nat.eq_dec p n) as [->|N].
  - rewrite (xsum_ext f g n) by (intros; apply E; lia). rewrite Z, N.lxor_0_r, <- N.lxor_assoc, N.lxor_nilpotent. apply N.lxor_0_l.
  - rewrite (E n) by lia. rewrite N.lxor_assoc, (N.lxor_comm (xsum g n)), <- (N.lxor_assoc (g n)), N.lxor_nilpotent, N.lxor_0_l.
    apply IH; auto. lia.
Qed.
Lemma xsum_shift f n : xsum f (S n) = N.lxor (f 0) (xsum (fun x => f (S x)) n).
Proof. induction n as [|n IH]; [cbn; now rewrite N.lxor_0_r|]. cbn [xsum] in *. now rewrite IH, N.lxor_assoc. Qed.
Lemma xor_every2_ok cnt : forall i t acc, xor_every2 cnt i t acc = N.lxor acc (xsum (fun x => t (i + 2 * x)) cnt).
Proof.
  induction cnt as [|cnt IH]; intros i t acc; cbn [xor_every2]; [cbn; now rewrite N.lxor_0_r|].
  rewrite IH, xsum_shift, Nat.mul_0_r, Nat.add_0_r, N.lxor_assoc. do 2 f_equal.
  apply xsum_ext. intros x _. f_equal. lia.
Qed.

(** * Trees *)
Section Ggm.
  Variables L R : N -> N.
  Definition child (j : nat) (p : N) : N := if Nat.odd j then R p else L p.
  Lemma expand_2to4_ok t c j : let t' := expand_2to4 L R t (2 * (2 * c)) (2 * c) in
    (4 * c <= j < 4 * c + 4 -> t' j = child j (t (j / 2))) /\ (j < 4 * c \/ 4 * c + 4 <= j -> t' j = t j).
  Proof.
    cbv zeta. unfold expand_2to4. split; intro Hj.
    - assert (E : j = 4 * c \/ j = 4 * c + 1 \/ j = 4 * c + 2 \/ j = 4 * c + 3) by lia. unfold child.
      destruct E as [-> | [-> | [-> | ->]]]; unfold mset.
      + replace (4 * c) with (2 * (2 * c)) by lia.
        replace (2 * (2 * c) / 2) with (2 * c) by (apply (Nat.div_unique _ 2 _ 0); lia).
        replace (Nat.odd (2 * (2 * c))) with false by (symmetry; rewrite Nat.odd_mul; reflexivity).
        rewrite !(proj2 (Nat.eqb_neq (2 * (2 * c)) _)) by lia. now rewrite Nat.eqb_refl.
      + replace ((4 * c + 1) / 2) with (2 * c) by (apply (Nat.div_unique _ 2 _ 1); lia).
        replace (Nat.odd (4 * c + 1)) with true by (symmetry; rewrite Nat.odd_add, Nat.odd_mul; reflexivity).
        rewrite !(proj2 (Nat.eqb_neq (4 * c + 1) _)) by lia.
        now rewrite (proj2 (Nat.eqb_eq _ _)) by lia.
      + replace ((4 * c + 2) / 2) with (2 * c + 1) by (apply (Nat.div_unique _ 2 _ 0); lia).
        replace (Nat.odd (4 * c + 2)) with false by (symmetry; rewrite Nat.odd_add, Nat.odd_mul; reflexivity).
        rewrite (proj2 (Nat.eqb_neq (4 * c + 2) (2 * (2 * c) + 3))) by lia.
        now rewrite (proj2 (Nat.eqb_eq _ _)) by lia.
      + replace ((4 * c + 3) / 2) with (2 * c + 1) by (apply (Nat.div_unique _ 2 _ 1); lia).
        replace (Nat.odd (4 * c + 3)) with true by (symmetry; rewrite Nat.odd_add, Nat.odd_mul; reflexivity).
        now rewrite (proj2 (Nat.eqb_eq _ _)) by lia.
    - now rewrite !mset_neq by lia.
  Qed.
  Lemma expand_layer_ok c : forall t j,
    (j < 4 * c -> expand_layer L R c t j = child j (t (j / 2))) /\ (4 * c <= j -> expand_layer L R c t j = t j).
  Proof.
    induction c as [|c IH]; intros t j; [cbn [expand_layer]; split; [lia|easy]|].
    cbn [expand_layer]. set (t' := expand_2to4 L R t (2 * (2 * c)) (2 * c)).
    split; intro Hj.
    - destruct (Nat.lt_ge_cases j (4 * c)) as [Hl|Hl].
      + rewrite (proj1 (IH t' j)) by easy.
        assert (Hd : j / 2 < 4 * c) by (apply Nat.div_lt_upper_bound; lia).
        subst t'. now rewrite (proj2 (expand_2to4_ok t c (j / 2))) by lia.
      + rewrite (proj2 (IH t' j)) by easy. subst t'. now apply expand_2to4_ok; lia.
    - rewrite (proj2 (IH t' j)) by lia. subst t'. apply expand_2to4_ok. lia.
  Qed.
  Lemma gen_layer_ok c : forall t m0 m1, exists t', gen_layer L R c t m0 m1 =
      (t', N.lxor m0 (xsum (fun x => t' (2 * x)) (2 * c)), N.lxor m1 (xsum (fun x => t' (2 * x + 1)) (2 * c))) /\
      t' = expand_layer L R c t.
  Proof.
    induction c as [|c IH]; intros t m0 m1; cbn [gen_layer].
    - eexists. split; [|reflexivity]. cbn. now rewrite !N.lxor_0_r.
    - set (t1 := expand_2to4 L R t (2 * (2 * c)) (2 * c)).
      destruct (IH t1 (N.lxor (N.lxor m0 (t1 (2 * (2 * c)))) (t1 (2 * (2 * c) + 2)))
                      (N.lxor (N.lxor m1 (t1 (2 * (2 * c) + 1))) (t1 (2 * (2 * c) + 3)))) as (t' & E & Et).
      exists t'. rewrite E. split; [|subst t' t1; reflexivity].
      assert (U : forall j, 4 * c <= j -> t' j = t1 j) by (intros j Hj; rewrite Et; now apply expand_layer_ok).
      replace (2 * S c) with (S (S (2 * c))) by lia. cbn [xsum].
      rewrite !U by lia.
      replace (2 * S (2 * c)) with (2 * (2 * c) + 2) by lia.
      replace (2 * (2 * c) + 2 + 1) with (2 * (2 * c) + 3) by lia.
      f_equal; [f_equal|].
      + rewrite !N.lxor_assoc. f_equal. rewrite (N.lxor_comm (xsum _ _)). now rewrite !N.lxor_assoc.
      + rewrite !N.lxor_assoc. f_equal. rewrite (N.lxor_comm (xsum _ _)). now rewrite !N.lxor_assoc.
  Qed.
  Lemma pow2_half h : 1 <= h -> 2 * (2 ^ h / 2) = 2 ^ h.
  Proof. intro H. destruct h as [|h]; [lia|]. cbn [Nat.pow]. rewrite (Nat.mul_comm 2 (2 ^ h)), Nat.div_mul by lia. lia. Qed.
  Lemma div2_lt j h : j < 2 ^ S h -> j / 2 < 2 ^ h.
  Proof. intro H. apply Nat.div_lt_upper_bound; [lia|]. cbn [Nat.pow] in H. lia. Qed.
  Variable seed : N.
  Notation nd := (node L R seed).
  Lemma node_S h j : nd (S h) j = child j (nd h (j / 2)). Proof. reflexivity. Qed.
  Lemma gen_layers_ok cnt : forall h t m0 m1, 1 <= h -> (forall j, j < 2 ^ h -> t j = nd h j) ->
    let '(t', m0', m1') := gen_layers L R cnt h t m0 m1 in
    (forall j, j < 2 ^ (h + cnt) -> t' j = nd (h + cnt) j) /\
    (forall j, 2 ^ (h + cnt) <= j -> t' j = t j) /\
    (forall x, h <= x < h + cnt -> m0' x = xsum (fun y => nd (S x) (2 * y)) (2 ^ x) /\
                                   m1' x = xsum (fun y => nd (S x) (2 * y + 1)) (2 ^ x)) /\
    (forall x, x < h -> m0' x = m0 x /\ m1' x = m1 x).
  Proof.
    induction cnt as [|cnt IH]; intros h t m0 m1 Hh Ht; cbn [gen_layers].
    - rewrite Nat.add_0_r. split; [easy|]. split; [easy|]. split; [lia|auto].
    - destruct (gen_layer_ok (2 ^ h / 2) t 0%N 0%N) as (t1 & E & Et). rewrite E. rewrite !N.lxor_0_l, pow2_half by easy.
      assert (P4 : 4 * (2 ^ h / 2) = 2 ^ S h) by (pose proof (pow2_half h Hh); cbn [Nat.pow]; lia).
      assert (N1 : forall j, j < 2 ^ S h -> t1 j = nd (S h) j).
      { intros j Hj. rewrite Et, (proj1 (expand_layer_ok _ t j)) by lia. rewrite node_S. f_equal. apply Ht. now apply div2_lt. }
      assert (U1 : forall j, 2 ^ S h <= j -> t1 j = t j).
      { intros j Hj. rewrite Et. apply expand_layer_ok. lia. }
      specialize (IH (S h) t1 (mset m0 h (xsum (fun x => t1 (2 * x)) (2 ^ h))) (mset m1 h (xsum (fun x => t1 (2 * x + 1)) (2 ^ h)))
        ltac:(lia) N1).
      destruct (gen_layers L R cnt (S h) t1 _ _) as [[t' m0'] m1']. destruct IH as (A & B & C & D).
      replace (S h + cnt) with (h + S cnt) in * by lia.
      assert (Ple : 2 ^ S h <= 2 ^ (h + S cnt)) by (apply Nat.pow_le_mono_r; lia).
      split; [exact A|]. split; [intros j Hj; rewrite B by easy; apply U1; lia|].
      split.
      + intros x Hx. destruct (Nat.eq_dec x h) as [->|N]; [|apply C; lia].
        destruct (D h ltac:(lia)) as [-> ->]. rewrite !mset_eq.
        split; apply xsum_ext; intros y Hy; apply N1; cbn [Nat.pow]; lia.
      + intros x Hx. destruct (D x ltac:(lia)) as [-> ->]. now rewrite !mset_neq by lia.
  Qed.
  Lemma ggm_gen_ok depth t0 : 2 <= depth ->
    let '(t, m0, m1) := ggm_gen L R depth seed t0 in
    (forall j, j < 2 ^ (depth - 1) -> t j = nd (depth - 1) j) /\
    (forall j, 2 ^ (depth - 1) <= j -> t j = t0 j) /\
    (forall x, x < depth - 1 -> m0 x = xsum (fun y => nd (S x) (2 * y)) (2 ^ x) /\
                                m1 x = xsum (fun y => nd (S x) (2 * y + 1)) (2 ^ x)).
  Proof.
    intro Hd. unfold ggm_gen. set (t := expand_1to2 L R t0 seed).
    assert (T0 : t 0 = L seed) by reflexivity. assert (T1 : t 1 = R seed) by reflexivity.
    assert (Ht : forall j, j < 2 ^ 1 -> t j = nd 1 j).
    { intros j Hj. cbn in Hj. assert (E : j = 0 \/ j = 1) by lia. destruct E as [-> | ->]; reflexivity. }
    pose proof (gen_layers_ok (depth - 2) 1 t (mset (fun _ => 0%N) 0 (t 0)) (mset (fun _ => 0%N) 0 (t 1)) (le_n 1) Ht) as G.
    destruct (gen_layers L R (depth - 2) 1 t _ _) as [[t' m0] m1]. destruct G as (A & B & C & D).
    replace (1 + (depth - 2)) with (depth - 1) in * by lia.
    split; [easy|]. split.
    - intros j Hj. rewrite B by easy. assert (2 ^ 1 <= 2 ^ (depth - 1)) by (apply Nat.pow_le_mono_r; lia). cbn in H.
      unfold t, expand_1to2. now rewrite !mset_neq by lia.
    - intros x Hx. destruct x as [|x]; [|apply C; lia].
      destruct (D 0 ltac:(lia)) as [-> ->]. rewrite !mset_eq. now rewrite T0, T1.
  Qed.

  Lemma index_loop_ok cnt : forall i b, index_loop cnt i b (punctured i b) = punctured (i + cnt) b.
  Proof.
    induction cnt as [|cnt IH]; intros i b; cbn [index_loop]; [now rewrite Nat.add_0_r|].
    replace (i + S cnt) with (S i + cnt) by lia. rewrite <- IH. cbn [punctured]. f_equal. now destruct (b i).
  Qed.
  Lemma get_index_ok depth b : get_index depth b = punctured (depth - 1) b.
  Proof. unfold get_index. change 0 with (punctured 0 b) at 2. now rewrite index_loop_ok. Qed.
  Lemma punctured_lt h b : punctured h b < 2 ^ h.
  Proof. induction h as [|h IH]; [cbn; lia|]. cbn [punctured Nat.pow]. destruct (b h); lia. Qed.

  (** the state after filling layer i: everything but the punctured node *)
  Definition layer_known (i : nat) (b : nat -> bool) (t : mem) : Prop :=
    t (punctured i b) = 0%N /\ forall j, j < 2 ^ i -> j <> punctured i b -> t j = nd i j.
  Lemma fill_ok i b (m : mem) t fill : 1 <= i -> fill = punctured (i - 1) b ->
    (m (i - 1) = if b (i - 1) then xsum (fun y => nd i (2 * y + 1)) (2 ^ (i - 1)) else xsum (fun y => nd i (2 * y)) (2 ^ (i - 1))) ->
    (forall j, j < 2 ^ i -> j <> 2 * fill -> j <> 2 * fill + 1 -> t j = nd i j) ->
    let t0 := mset (mset t (2 * fill + 1) 0%N) (2 * fill) 0%N in
    let t1 := if b (i - 1) then mset t0 (2 * fill + 1) (N.lxor (xor_every2 (2 ^ i / 2) 1 t0 0%N) (m (i - 1)))
              else mset t0 (2 * fill) (N.lxor (xor_every2 (2 ^ i / 2) 0 t0 0%N) (m (i - 1))) in
    layer_known i b t1 /\ (forall j, 2 ^ i <= j -> t1 j = t j).
  Proof.
    intros Hi Hf Hm Ht t0 t1. destruct i as [|i]; [lia|]. replace (S i - 1) with i in * by lia.
    assert (Hfl : fill < 2 ^ i) by (subst fill; apply punctured_lt).
    assert (Z0 : t0 (2 * fill) = 0%N) by (unfold t0; now rewrite mset_eq).
    assert (Z1 : t0 (2 * fill + 1) = 0%N) by (unfold t0; rewrite mset_neq by lia; now rewrite mset_eq).
    assert (K0 : forall j, j < 2 ^ S i -> j <> 2 * fill -> j <> 2 * fill + 1 -> t0 j = nd (S i) j).
    { intros j A B C. unfold t0. rewrite !mset_neq by lia. now apply Ht. }
    assert (U0 : forall j, 2 ^ S i <= j -> t0 j = t j).
    { intros j A. cbn [Nat.pow] in A. unfold t0. now rewrite !mset_neq by lia. }
    clearbody t0.
    assert (P2 : 2 ^ S i / 2 = 2 ^ i) by (cbn [Nat.pow]; rewrite Nat.mul_comm, Nat.div_mul; lia).
    subst t1. rewrite P2. replace (S i - 1) with i by lia. unfold layer_known. cbn [punctured]. rewrite <- Hf. cbn [Nat.pow] in *.
    assert (Sum : forall o, o < 2 -> N.lxor (xsum (fun y => t0 (o + 2 * y)) (2 ^ i)) (xsum (fun y => nd (S i) (2 * y + o)) (2 ^ i)) = nd (S i) (2 * fill + o)).
    { intros o Ho. refine (xsum_hole _ (fun y => nd (S i) (2 * y + o)) (2 ^ i) fill Hfl _ _).
      - intros y Hy N. rewrite (Nat.add_comm o). apply K0; lia.
      - assert (E : o = 0 \/ o = 1) by lia. destruct E as [-> | ->]; [exact Z0|]. now rewrite Nat.add_comm. }
    destruct (b i).
    - split; [split|].
      + rewrite Nat.add_0_r. now rewrite mset_neq by lia.
      + intros j A B. rewrite Nat.add_0_r in B. destruct (Nat.eq_dec j (2 * fill + 1)) as [->|N].
        * rewrite mset_eq, xor_every2_ok, N.lxor_0_l, Hm. now apply Sum; lia.
        * rewrite mset_neq by easy. now apply K0.
      + intros j A. rewrite mset_neq by lia. now apply U0.
    - split; [split|].
      + now rewrite mset_neq by lia.
      + intros j A B. destruct (Nat.eq_dec j (2 * fill)) as [->|N].
        * rewrite mset_eq, xor_every2_ok, N.lxor_0_l, Hm.
          specialize (Sum 0 ltac:(lia)). rewrite Nat.add_0_r in Sum. rewrite <- Sum. f_equal. apply xsum_ext. intros y _. now rewrite Nat.add_0_r.
        * rewrite mset_neq by easy. now apply K0.
      + intros j A. rewrite mset_neq by lia. now apply U0.
  Qed.
  Lemma recon_loop_ok cnt : forall i depth b (m : mem) fill t, 1 <= i -> i + S cnt = depth -> fill = punctured (i - 1) b ->
    (forall x, x < depth - 1 -> m x = if b x then xsum (fun y => nd (S x) (2 * y + 1)) (2 ^ x) else xsum (fun y => nd (S x) (2 * y)) (2 ^ x)) ->
    (forall j, j < 2 ^ i -> j <> 2 * fill -> j <> 2 * fill + 1 -> t j = nd i j) ->
    let t' := recon_loop L R (S cnt) i depth b m fill t in
    layer_known (depth - 1) b t' /\ (forall j, 2 ^ (depth - 1) <= j -> t' j = t j).
  Proof.
    induction cnt as [|cnt IH]; intros i depth b m fill t Hi Hd Hf Hm Ht t'.
    - assert (Hm1 : m (i - 1) = if b (i - 1) then xsum (fun y => nd i (2 * y + 1)) (2 ^ (i - 1)) else xsum (fun y => nd i (2 * y)) (2 ^ (i - 1))).
      { rewrite Hm by lia. now replace (S (i - 1)) with i by lia. }
      pose proof (fill_ok i b m t fill Hi Hf Hm1 Ht) as F. cbv zeta in F.
      subst t'. cbn [recon_loop]. unfold layer_recover.
      rewrite (proj2 (Nat.eqb_eq i (depth - 1))) by lia. replace (depth - 1) with i by lia.
      destruct (b (i - 1)); cbn [negb]; exact F.
    - assert (Hm1 : m (i - 1) = if b (i - 1) then xsum (fun y => nd i (2 * y + 1)) (2 ^ (i - 1)) else xsum (fun y => nd i (2 * y)) (2 ^ (i - 1))).
      { rewrite Hm by lia. now replace (S (i - 1)) with i by lia. }
      pose proof (fill_ok i b m t fill Hi Hf Hm1 Ht) as F. cbv zeta in F.
      remember (S cnt) as c1. subst t'. cbn [recon_loop]. unfold layer_recover.
      rewrite (proj2 (Nat.eqb_neq i (depth - 1))) by lia.
      set (t0 := mset (mset t (2 * fill + 1) 0%N) (2 * fill) 0%N) in *.
      set (t1 := if b (i - 1) then _ else _) in F.
      assert (E : (if negb (b (i - 1))
        then recon_loop L R c1 (S i) depth b m (2 * fill + 1) (expand_layer L R (2 ^ i / 2) (mset t0 (2 * fill) (N.lxor (xor_every2 (2 ^ i / 2) 0 t0 0%N) (m (i - 1)))))
        else recon_loop L R c1 (S i) depth b m (2 * fill) (expand_layer L R (2 ^ i / 2) (mset t0 (2 * fill + 1) (N.lxor (xor_every2 (2 ^ i / 2) 1 t0 0%N) (m (i - 1))))))
        = recon_loop L R c1 (S i) depth b m (punctured i b) (expand_layer L R (2 ^ i / 2) t1)).
      { unfold t1. destruct i as [|i]; [lia|]. replace (S i - 1) with i in * by lia. cbn [punctured]. rewrite <- Hf.
        destruct (b i); cbn [negb]; now rewrite ?Nat.add_0_r. }
      rewrite E. clearbody t1 t0. clear E. subst c1.
      assert (P4 : 4 * (2 ^ i / 2) = 2 ^ S i) by (pose proof (pow2_half i Hi); cbn [Nat.pow]; lia).
      destruct F as ((Z & K) & U).
      assert (G1 : forall j, j < 2 ^ S i -> j <> 2 * punctured i b -> j <> 2 * punctured i b + 1 ->
        expand_layer L R (2 ^ i / 2) t1 j = nd (S i) j).
      { intros j A B C. rewrite (proj1 (expand_layer_ok _ t1 j)) by lia. rewrite node_S. f_equal. apply K; [now apply div2_lt|].
        pose proof (Nat.div_mod j 2). assert (j mod 2 < 2) by (apply Nat.mod_upper_bound; lia). lia. }
      assert (Hp : punctured i b = punctured (S i - 1) b) by (f_equal; lia).
      destruct (IH (S i) depth b m (punctured i b) (expand_layer L R (2 ^ i / 2) t1) ltac:(lia) ltac:(lia) Hp Hm G1) as (IHa & IHb).
      split; [exact IHa|]. intros j A. rewrite IHb by easy.
      assert (2 ^ S i <= 2 ^ (depth - 1)) by (apply Nat.pow_le_mono_r; lia).
      assert (2 ^ i <= 2 ^ S i) by (cbn; lia).
      rewrite (proj2 (expand_layer_ok _ t1 j)) by lia. apply U. lia.
  Qed.
  Lemma ggm_recon_ok depth (b : nat -> bool) (m : mem) t0 : 2 <= depth ->
    (forall x, x < depth - 1 -> m x = if b x then xsum (fun y => nd (S x) (2 * y + 1)) (2 ^ x) else xsum (fun y => nd (S x) (2 * y)) (2 ^ x)) ->
    let t := ggm_recon L R depth b m t0 in
    t (punctured (depth - 1) b) = 0%N /\
    (forall j, j < 2 ^ (depth - 1) -> j <> punctured (depth - 1) b -> t j = nd (depth - 1) j) /\
    (forall j, 2 ^ (depth - 1) <= j -> t j = t0 j).
  Proof.
    intros Hd Hm. unfold ggm_recon. destruct depth as [|[|cnt]]; try lia. cbn [Nat.sub].
    destruct (recon_loop_ok cnt 1 (S (S cnt)) b m 0 t0 (le_n 1) ltac:(lia) eq_refl Hm) as ((A & B) & C).
    - intros j H1 H2 H3. cbn in H1. lia.
    - auto.
  Qed.
End Ggm.
