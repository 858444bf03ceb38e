(** Proofs for LowMC: plain path = specification, gates = plain path. *)
From Coq Require Import List Bool Arith Lia.
From Verif Require Import BoolModel BoolSpec LowMcModel LowMcSpec.
Import ListNotations.
Ltac Zify.zify_post_hook ::= idtac.

(** * Lists *)
Lemma map_nth_seq {A} (d : A) (l : list A) : map (fun i => nth i l d) (seq 0 (length l)) = l.
Proof.
  apply (nth_ext _ _ d d); [now rewrite map_length, seq_length|].
  intros i H. rewrite map_length, seq_length in H.
  rewrite (nth_indep _ d (nth 0 l d)) by now rewrite map_length, seq_length.
  rewrite (map_nth (fun i => nth i l d)). now rewrite seq_nth.
Qed.
Lemma nth_map_seq {A} (f : nat -> A) d n i : i < n -> nth i (map f (seq 0 n)) d = f i.
Proof.
  intro H. rewrite (nth_indep _ d (f 0)) by now rewrite map_length, seq_length.
  rewrite (map_nth f). now rewrite seq_nth.
Qed.
Lemma nth_skipn {A} (d : A) l o i : nth i (skipn o l) d = nth (o + i) l d.
Proof.
  revert l. induction o; intros [|x l]; cbn; auto. now destruct i.
Qed.
Lemma nth_firstn {A} (d : A) l n i : i < n -> nth i (firstn n l) d = nth i l d.
Proof. revert l i. induction n; intros [|x l] [|i] H; cbn; auto; try lia. apply IHn. lia. Qed.
Lemma wr_app {A} (p l : list A) i x : wr (p ++ l) (length p + i) x = p ++ wr l i x.
Proof. induction p; cbn; [reflexivity|now rewrite IHp]. Qed.
Lemma rd_app {A} (d : A) p l i : rd d (p ++ l) (length p + i) = rd d l i.
Proof. unfold rd. rewrite app_nth2 by lia. f_equal. lia. Qed.
Lemma wr_app0 {A} (p l : list A) x : wr (p ++ l) (length p) x = p ++ wr l 0 x.
Proof. rewrite <- (Nat.add_0_r (length p)). apply wr_app. Qed.
Lemma rd_app0 {A} (d : A) p l : rd d (p ++ l) (length p) = rd d l 0.
Proof. rewrite <- (Nat.add_0_r (length p)). apply rd_app. Qed.
Lemma wr_length {A} (l : list A) i x : length (wr l i x) = length l.
Proof. revert i. induction l; intros [|i]; cbn; auto. Qed.
Lemma map_wr {A B} (f : A -> B) l i x : map f (wr l i x) = wr (map f l) i (f x).
Proof. revert i. induction l; intros [|i]; cbn; auto. now rewrite IHl. Qed.
Lemma Forall_wr {A} (P : A -> Prop) l i x : Forall P l -> P x -> Forall P (wr l i x).
Proof. intros H Hx. revert i. induction H; intros [|i]; cbn; auto. Qed.

(** * S-box *)
Definition sbox_formula (p0 p1 p2 : bool) : list bool :=
  [xorb p0 (p1 && p2); xorb p0 (xorb p1 (p0 && p2)); xorb p0 (xorb p1 (xorb p2 (p0 && p1)))].
Lemma sbox_formula_table p0 p1 p2 :
  sbox_formula p0 p1 p2 = of_bits3 (nth (bits3 p0 p1 p2) sbox_table 0).
Proof. now destruct p0, p1, p2. Qed.

Lemma sub_box_at pre p0 p1 p2 rest j : length pre = 3 * j ->
  sub_box (pre ++ p0 :: p1 :: p2 :: rest) j = pre ++ sbox_formula p0 p1 p2 ++ rest.
Proof.
  intro H. unfold sub_box.
  rewrite <- H. rewrite !rd_app, rd_app0, wr_app0, !wr_app. reflexivity.
Qed.
Lemma substitution_from nb : forall j pre st, length pre = 3 * j -> 3 * nb <= length st ->
  fold_left sub_box (seq j nb) (pre ++ st) = pre ++ sbox_layer nb st.
Proof.
  induction nb; intros j pre st Hp Hs; [now destruct st|].
  destruct st as [|p0 [|p1 [|p2 st]]]; cbn [length] in Hs; try lia.
  cbn [seq fold_left sbox_layer]. rewrite sub_box_at by assumption.
  rewrite <- sbox_formula_table, !app_assoc. apply IHnb; [|lia].
  rewrite app_length. unfold sbox_formula. cbn [length]. lia.
Qed.
Lemma substitution_spec nb st : 3 * nb <= length st -> substitution nb st = sbox_layer nb st.
Proof. intro H. unfold substitution. now apply (substitution_from nb 0 []). Qed.
Lemma sbox_layer_length nb : forall st, length (sbox_layer nb st) = length st.
Proof.
  induction nb; [now intros [|]|]. intros [|p0 [|p1 [|p2 st]]]; auto.
  cbn [sbox_layer]. rewrite app_length, IHnb. reflexivity.
Qed.

(** * Matrices *)
Lemma mul_lin_spec n m v : mul_lin n m v = mat_vec (fun j i => nth (i * n + j) m false) n n v.
Proof.
  unfold mul_lin, mat_vec. destruct n as [|n']; [reflexivity|]. set (n := S n') in *.
  replace (n - 1) with n' by (unfold n; lia).
  assert (H : forall q, q <= n' ->
    fold_left (mul_row n m v) (seq 1 q) (mul_row0 n m v) =
    map (fun j => gf2_sum (fun i => nth (i * n + j) m false && nth i v false) (S q)) (seq 0 n)).
  { induction q; intro Hq.
    - cbn [seq fold_left]. unfold mul_row0, rd. apply map_ext. intro j. cbn [gf2_sum]. now rewrite xorb_false_l.
    - rewrite seq_S, fold_left_app, IHq by lia. cbn [fold_left]. unfold mul_row.
      apply map_ext_in. intros j Hj. apply in_seq in Hj. unfold rd.
      rewrite nth_map_seq by lia. reflexivity. }
  apply H. lia.
Qed.
Lemma gf2_sum_ext f g n : (forall i, i < n -> f i = g i) -> gf2_sum f n = gf2_sum g n.
Proof. induction n; intro H; cbn; auto. rewrite IHn, H; auto. Qed.
Lemma mat_vec_ext A B r c v : (forall j i, j < r -> i < c -> A j i = B j i) -> mat_vec A r c v = mat_vec B r c v.
Proof.
  intro H. unfold mat_vec. apply map_ext_in. intros j Hj. apply in_seq in Hj.
  apply gf2_sum_ext. intros i Hi. rewrite H; auto; lia.
Qed.
Lemma mat_vec_length A r c v : length (mat_vec A r c v) = r.
Proof. unfold mat_vec. now rewrite map_length, seq_length. Qed.
Lemma key_bit_spec k m key i : 1 <= k ->
  key_bit k m key i = gf2_sum (fun j => nth (i * k + j) m false && nth j key false) k.
Proof.
  intro H. unfold key_bit, rd.
  assert (E : forall q, fold_left (fun acc j => xorb acc (nth (i * k + j) m false && nth j key false))
                (seq 1 q) (nth (i * k) m false && nth 0 key false) =
              gf2_sum (fun j => nth (i * k + j) m false && nth j key false) (S q)).
  { induction q.
    - cbn [seq fold_left gf2_sum]. now rewrite Nat.add_0_r, xorb_false_l.
    - rewrite seq_S, fold_left_app, IHq. reflexivity. }
  rewrite E. f_equal. lia.
Qed.
Lemma mul_key_spec n k m key : 1 <= k ->
  mul_key n k m key = mat_vec (fun j i => nth (j * k + i) m false) n k key.
Proof. intro H. unfold mul_key, mat_vec. apply map_ext. intro i. now apply key_bit_spec. Qed.
Lemma mul_key_length n k m key : length (mul_key n k m key) = n.
Proof. unfold mul_key. now rewrite map_length, seq_length. Qed.

Lemma vxor_nth : forall a b i, i < length a -> i < length b ->
  nth i (vxor a b) false = xorb (nth i a false) (nth i b false).
Proof. induction a; intros [|y b] [|i] Ha Hb; cbn in *; try lia; auto. apply IHa; lia. Qed.
Lemma vxor_length : forall a b, length (vxor a b) = Nat.min (length a) (length b).
Proof. induction a; intros [|y b]; cbn; auto. Qed.
Lemma bv_xor_spec a b n : n <= length a -> n <= length b ->
  bv_xor a b n = vxor (firstn n a) (firstn n b).
Proof.
  intros Ha Hb. apply (nth_ext _ _ false false).
  - unfold bv_xor. rewrite map_length, seq_length, vxor_length, !firstn_length. lia.
  - intros i Hi. unfold bv_xor in *. rewrite map_length, seq_length in Hi.
    rewrite nth_map_seq by assumption. unfold rd.
    rewrite vxor_nth by (rewrite firstn_length; lia). now rewrite !nth_firstn.
Qed.
Lemma bv_xor_length a b n : length (bv_xor a b n) = n.
Proof. unfold bv_xor. now rewrite map_length, seq_length. Qed.

(** pieces of constant length laid out one after the other *)
Lemma flat_map_length_const {A} (f : nat -> list A) n l : (forall i, length (f i) = n) ->
  length (flat_map f l) = length l * n.
Proof. intro H. induction l; cbn; auto. rewrite app_length, H, IHl. lia. Qed.
Lemma flat_map_slice {A} (f : nat -> list A) n q r : (forall i, length (f i) = n) -> r < q ->
  firstn n (skipn (r * n) (flat_map f (seq 0 q))) = f r.
Proof.
  intros H Hr. replace q with (r + S (q - r - 1)) by lia. rewrite seq_app, flat_map_app.
  rewrite skipn_app. rewrite (flat_map_length_const f n) by assumption.
  rewrite seq_length, Nat.sub_diag. rewrite skipn_all2 by (rewrite (flat_map_length_const f n), seq_length; auto).
  cbn [app skipn seq flat_map]. rewrite Nat.add_0_l. rewrite firstn_app, (H r), Nat.sub_diag.
  rewrite firstn_all2 by (rewrite H; lia). cbn. apply app_nil_r.
Qed.

Section Plain.
  Variables (nb n k nr : nat) (lin rc km key : list bool).
  Hypothesis (Hk : 1 <= k) (Hnb : 3 * nb <= n) (Hrc : length rc = nr * n).
  Let rk := keyschedule n k nr km key.
  Lemma rk_length : length rk = (nr + 1) * n.
  Proof.
    unfold rk, keyschedule. rewrite (flat_map_length_const _ n), seq_length; auto.
    intro. apply mul_key_length.
  Qed.
  Lemma rk_slice r : r <= nr -> firstn n (skipn (r * n) rk) = round_key n k (key_entry n k km) key r.
  Proof.
    intro H. unfold rk, keyschedule.
    rewrite (flat_map_slice (fun r => mul_key n k (skipn (r * n * k) km) key)) by (auto using mul_key_length; lia).
    rewrite mul_key_spec by assumption. unfold round_key, key_entry. apply mat_vec_ext.
    intros j i _ _. now rewrite nth_skipn, Nat.add_assoc.
  Qed.
  Let ref := lowmc nb n k (lin_entry n lin) (const_row n rc) (key_entry n k km).
  Lemma ref_length r m : r <= nr -> length m = n -> length (ref r key m) = n.
  Proof.
    intros Hr Hm. destruct r; cbn -[Nat.min]; unfold round_key.
    - rewrite vxor_length, mat_vec_length. lia.
    - rewrite !vxor_length, !mat_vec_length. unfold const_row. rewrite firstn_length, skipn_length, Hrc.
      assert (S r * n <= nr * n) by now apply Nat.mul_le_mono_r. nia.
  Qed.
  Lemma round_spec r st : r < nr -> length st = n ->
    round nb n lin rc rk st (S r) =
    vxor (vxor (mat_vec (lin_entry n lin (S r)) n n (sbox_layer nb st)) (const_row n rc (S r)))
         (round_key n k (key_entry n k km) key (S r)).
  Proof.
    intros Hr Hs. assert (S r * n <= nr * n) by now apply Nat.mul_le_mono_r.
    assert (Hl := rk_length). unfold round.
    rewrite substitution_spec by lia. rewrite mul_lin_spec.
    rewrite bv_xor_spec.
    2: rewrite bv_xor_length; lia. 2: rewrite skipn_length; nia.
    rewrite rk_slice by lia. rewrite firstn_all2 by (rewrite bv_xor_length; lia).
    rewrite bv_xor_spec. 2: now rewrite mat_vec_length. 2: rewrite skipn_length, Hrc; nia.
    rewrite firstn_all2 by (rewrite mat_vec_length; lia).
    do 2 f_equal. apply mat_vec_ext. intros j i _ _. unfold lin_entry. rewrite nth_skipn. f_equal. lia.
  Qed.
  Lemma encrypt_block_spec m : n <= length m ->
    encrypt_block nb n nr lin rc rk m = ref nr key (firstn n m).
  Proof.
    intro Hm. unfold encrypt_block.
    assert (E : forall q, q <= nr ->
      fold_left (round nb n lin rc rk) (seq 1 q) (bv_xor m rk n) = ref q key (firstn n m)); [|now apply E].
    induction q; intro H.
    - cbn [seq fold_left]. rewrite bv_xor_spec; [|assumption|rewrite rk_length; nia].
      change rk with (skipn (0 * n) rk). rewrite (rk_slice 0) by lia. reflexivity.
    - rewrite seq_S, fold_left_app, IHq by lia. cbn [fold_left Nat.add].
      rewrite round_spec; [reflexivity|lia|]. apply ref_length; [lia|]. rewrite firstn_length. lia.
  Qed.
  Lemma encrypt_spec m nblocks : length m = nblocks * n ->
    encrypt nb n nr lin rc rk m nblocks = lowmc_ref nb n k nr lin rc km key m nblocks.
  Proof.
    intro Hm. unfold encrypt, lowmc_ref. rewrite !flat_map_concat_map. f_equal.
    apply map_ext_in. intros i Hi. apply in_seq in Hi. apply encrypt_block_spec.
    rewrite skipn_length, Hm. assert (S i * n <= nblocks * n) by (apply Nat.mul_le_mono_r; lia). lia.
  Qed.
End Plain.
