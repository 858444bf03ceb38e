(** Packing of memory records: values, injectivity, macs. *)
From Coq Require Import NArith List Bool Arith Permutation Lia Ring.
From Verif Require Import Word WordProofs GF128 GF128Ring GF128Field GfmulModel BoolModel BoolSpec BoolProofs BoolAlg F2kModel F2kSpec F2kAlg F2kProofs RamModel RamSpec.
Import ListNotations.
Ltac Zify.zify_post_hook ::= idtac.

Lemma lor_shift a b k : (b < 2 ^ k)%N -> N.lor (N.shiftl a k) b = (b + 2 ^ k * a)%N.
Proof.
  intro H. rewrite <- N.lxor_lor.
  - rewrite <- N.add_nocarry_lxor; [rewrite N.shiftl_mul_pow2; lia|].
    apply N.bits_inj. intro i. rewrite N.land_spec, N.bits_0. destruct (N.lt_ge_cases i k) as [L|L].
    + now rewrite N.shiftl_spec_low.
    + rewrite (testbit_high b k i) by assumption. apply andb_false_r.
  - apply N.bits_inj. intro i. rewrite N.land_spec, N.bits_0. destruct (N.lt_ge_cases i k) as [L|L].
    + now rewrite N.shiftl_spec_low.
    + rewrite (testbit_high b k i) by assumption. apply andb_false_r.
Qed.
Lemma lxor_shift a b k : (b < 2 ^ k)%N -> N.lxor b (2 ^ k * a) = (b + 2 ^ k * a)%N.
Proof.
  intro H. symmetry. apply N.add_nocarry_lxor. apply N.bits_inj. intro i. rewrite N.land_spec, N.bits_0.
  destruct (N.lt_ge_cases i k) as [L|L].
  - rewrite (N.mul_comm (2 ^ k)), <- N.shiftl_mul_pow2, N.shiftl_spec_low by assumption. apply andb_false_r.
  - now rewrite (testbit_high b k i) by assumption.
Qed.
Lemma shl_u128_small a k : (a * 2 ^ N.of_nat k < 2 ^ 128)%N -> shl_u128 a k = N.shiftl a (N.of_nat k).
Proof. intro H. unfold shl_u128. rewrite N.mod_small; [reflexivity|]. now rewrite N.shiftl_mul_pow2. Qed.
Lemma shl_u64_small a k : (a * 2 ^ N.of_nat k < 2 ^ 64)%N -> shl_u64 a k = N.shiftl a (N.of_nat k).
Proof. intro H. unfold shl_u64. rewrite N.mod_small; [reflexivity|]. now rewrite N.shiftl_mul_pow2. Qed.
Lemma mul_pow_lt a n k m : (a < 2 ^ N.of_nat n)%N -> n + k <= m -> (a * 2 ^ N.of_nat k < 2 ^ N.of_nat m)%N.
Proof.
  intros H L. apply N.lt_le_trans with (2 ^ N.of_nat n * 2 ^ N.of_nat k)%N.
  - apply N.mul_lt_mono_pos_r; [apply N.neq_0_lt_0, N.pow_nonzero; lia|assumption].
  - rewrite <- N.pow_add_r. apply N.pow_le_mono_r; lia.
Qed.

(** ** values *)
Lemma ro_pack_word index_sz val_sz i v : index_sz + val_sz <= 128 ->
  (i < 2 ^ N.of_nat index_sz)%N -> (v < 2 ^ N.of_nat val_sz)%N ->
  ro_pack val_sz i v = ro_word index_sz val_sz (i, v).
Proof.
  intros L Hi Hv. unfold ro_pack, ro_word. cbn [fst snd].
  rewrite shl_u128_small by (apply (mul_pow_lt i index_sz val_sz 128); lia).
  rewrite lor_shift by assumption. now rewrite !N.mod_small.
Qed.
Lemma rw_pack_word index_sz step_sz val_sz i v s (o : bool) : index_sz + step_sz + 1 <= 64 -> index_sz + step_sz + 1 + val_sz <= 128 ->
  (i < 2 ^ N.of_nat index_sz)%N -> (v < 2 ^ N.of_nat val_sz)%N -> (s < 2 ^ N.of_nat step_sz)%N ->
  rw_pack step_sz val_sz i v s (N.b2n o) = rw_word index_sz step_sz val_sz {| e_idx := i; e_step := s; e_op := o; e_val := v |}.
Proof.
  intros L1 L2 Hi Hv Hs. unfold rw_pack, rw_word. cbn [e_idx e_step e_op e_val]. rewrite !N.mod_small by assumption.
  rewrite (shl_u64_small i) by (apply (mul_pow_lt i index_sz (step_sz + 1) 64); lia).
  rewrite (shl_u64_small s) by (apply (mul_pow_lt s step_sz 1 64); lia).
  assert (Eo : N.land (N.b2n o) 1 = N.b2n o) by now destruct o. rewrite Eo.
  rewrite <- N.lor_assoc. rewrite (lor_shift s (N.b2n o)) by (destruct o; reflexivity).
  assert (B : (N.b2n o + 2 ^ N.of_nat 1 * s < 2 ^ N.of_nat (step_sz + 1))%N).
  { rewrite Nat2N.inj_add, N.pow_add_r. change (2 ^ N.of_nat 1)%N with 2%N. destruct o; cbn [N.b2n]; lia. }
  rewrite lor_shift by exact B.
  set (h := (N.b2n o + 2 ^ N.of_nat 1 * s + 2 ^ N.of_nat (step_sz + 1) * i)%N).
  assert (Hh : (h < 2 ^ N.of_nat (index_sz + step_sz + 1))%N).
  { unfold h. apply N.lt_le_trans with (2 ^ N.of_nat (step_sz + 1) * (i + 1))%N; [lia|].
    replace (index_sz + step_sz + 1) with ((step_sz + 1) + index_sz) by lia. rewrite (Nat2N.inj_add (step_sz + 1)), N.pow_add_r.
    apply N.mul_le_mono_l. lia. }
  rewrite shl_u128_small by (apply (mul_pow_lt h (index_sz + step_sz + 1) val_sz 128); [exact Hh|lia]).
  rewrite lor_shift by assumption. f_equal. f_equal. unfold h. rewrite Nat2N.inj_add, N.pow_add_r. change (2 ^ N.of_nat 1)%N with 2%N. lia.
Qed.
Lemma ro_word_lt index_sz val_sz e : index_sz + val_sz <= 128 -> (ro_word index_sz val_sz e < 2 ^ 128)%N.
Proof.
  intro L. unfold ro_word. set (v := (snd e mod 2 ^ N.of_nat val_sz)%N). set (i := (fst e mod 2 ^ N.of_nat index_sz)%N).
  assert (Hv : (v < 2 ^ N.of_nat val_sz)%N) by (apply N.mod_lt, N.pow_nonzero; lia).
  assert (Hi : (i < 2 ^ N.of_nat index_sz)%N) by (apply N.mod_lt, N.pow_nonzero; lia).
  apply N.lt_le_trans with (2 ^ N.of_nat val_sz * (i + 1))%N; [lia|].
  apply N.le_trans with (2 ^ N.of_nat val_sz * 2 ^ N.of_nat index_sz)%N; [apply N.mul_le_mono_l; lia|].
  rewrite <- N.pow_add_r. apply N.pow_le_mono_r; lia.
Qed.
Lemma ro_word_inj index_sz val_sz e e' : (fst e < 2 ^ N.of_nat index_sz)%N -> (fst e' < 2 ^ N.of_nat index_sz)%N ->
  (snd e < 2 ^ N.of_nat val_sz)%N -> (snd e' < 2 ^ N.of_nat val_sz)%N ->
  ro_word index_sz val_sz e = ro_word index_sz val_sz e' -> e = e'.
Proof.
  destruct e as [i v], e' as [i' v']. unfold ro_word. cbn [fst snd]. intros H1 H2 H3 H4 E.
  rewrite !N.mod_small in E by assumption.
  assert (P : (2 ^ N.of_nat val_sz <> 0)%N) by (apply N.pow_nonzero; lia).
  assert (i = i').
  { apply (f_equal (fun x => x / 2 ^ N.of_nat val_sz)%N) in E. rewrite !(N.mul_comm (2 ^ _)) in E.
    rewrite !N.div_add in E by assumption. rewrite !(N.div_small v), !(N.div_small v') in E by assumption. lia. }
  subst i'. f_equal. lia.
Qed.
(** generic: quotient and remainder by a power of two *)
Lemma split_inj a b a' b' m : (a < m)%N -> (a' < m)%N -> (a + m * b = a' + m * b')%N -> a = a' /\ b = b'.
Proof.
  intros H1 H2 E. assert (P : m <> 0%N) by lia. assert (b = b').
  { apply (f_equal (fun x => x / m)%N) in E. rewrite !(N.mul_comm m), !N.div_add in E by assumption.
    rewrite (N.div_small a), (N.div_small a') in E by assumption. lia. }
  subst b'. split; [lia|reflexivity].
Qed.
Lemma rw_word_lt index_sz step_sz val_sz e : index_sz + step_sz + 1 + val_sz <= 128 -> (rw_word index_sz step_sz val_sz e < 2 ^ 128)%N.
Proof.
  intro L. unfold rw_word.
  set (v := (e_val e mod 2 ^ N.of_nat val_sz)%N). set (i := (e_idx e mod 2 ^ N.of_nat index_sz)%N). set (s := (e_step e mod 2 ^ N.of_nat step_sz)%N).
  assert (Hv : (v < 2 ^ N.of_nat val_sz)%N) by (apply N.mod_lt, N.pow_nonzero; lia).
  assert (Hi : (i < 2 ^ N.of_nat index_sz)%N) by (apply N.mod_lt, N.pow_nonzero; lia).
  assert (Hs : (s < 2 ^ N.of_nat step_sz)%N) by (apply N.mod_lt, N.pow_nonzero; lia).
  clearbody v i s. assert (H1 : (s + 2 ^ N.of_nat step_sz * i < 2 ^ N.of_nat (step_sz + index_sz))%N).
  { apply N.lt_le_trans with (2 ^ N.of_nat step_sz * (i + 1))%N; [lia|]. rewrite Nat2N.inj_add, N.pow_add_r. apply N.mul_le_mono_l. lia. }
  set (t := (s + 2 ^ N.of_nat step_sz * i)%N) in *. clearbody t.
  assert (H2 : (N.b2n (e_op e) + 2 * t < 2 ^ N.of_nat (step_sz + index_sz + 1))%N).
  { rewrite (Nat2N.inj_add _ 1), N.pow_add_r. change (2 ^ N.of_nat 1)%N with 2%N. clear -H1. destruct (e_op e); cbn [N.b2n]; lia. }
  set (u := (N.b2n (e_op e) + 2 * t)%N) in *. clearbody u.
  apply N.lt_le_trans with (2 ^ N.of_nat val_sz * (u + 1))%N; [lia|].
  apply N.le_trans with (2 ^ N.of_nat val_sz * 2 ^ N.of_nat (step_sz + index_sz + 1))%N; [apply N.mul_le_mono_l; lia|].
  rewrite <- N.pow_add_r. apply N.pow_le_mono_r; lia.
Qed.
Lemma rw_word_inj index_sz step_sz val_sz e e' : rw_fits index_sz step_sz val_sz e -> rw_fits index_sz step_sz val_sz e' ->
  rw_word index_sz step_sz val_sz e = rw_word index_sz step_sz val_sz e' -> e = e'.
Proof.
  destruct e as [i s o v], e' as [i' s' o' v']. unfold rw_word, rw_fits. cbn [e_idx e_step e_op e_val].
  intros (H1 & H2 & H3) (H1' & H2' & H3') E. rewrite !N.mod_small in E by assumption.
  apply split_inj in E; [|assumption..]. destruct E as [-> E].
  apply split_inj in E; [|destruct o; reflexivity|destruct o'; reflexivity]. destruct E as [Eo E].
  apply split_inj in E; [|assumption..]. destruct E as [-> ->].
  f_equal. destruct o, o'; try reflexivity; discriminate.
Qed.
(** the words read back from a packed item *)
Lemma land_mask x k : k <= 127 -> N.land x (shl_u128 1 k - 1) = (x mod 2 ^ N.of_nat k)%N.
Proof.
  intro L. unfold shl_u128. rewrite N.mod_small; [|rewrite N.shiftl_1_l; apply N.pow_lt_mono_r; lia].
  rewrite N.shiftl_1_l. replace (2 ^ N.of_nat k - 1)%N with (N.ones (N.of_nat k)) by (rewrite N.ones_equiv, <- N.sub_1_r; reflexivity).
  apply N.land_ones.
Qed.
Lemma land_mask64 x k : k <= 63 -> N.land x (shl_u64 1 k - 1) = (x mod 2 ^ N.of_nat k)%N.
Proof.
  intro L. unfold shl_u64. rewrite N.mod_small; [|rewrite N.shiftl_1_l; apply N.pow_lt_mono_r; lia].
  rewrite N.shiftl_1_l. replace (2 ^ N.of_nat k - 1)%N with (N.ones (N.of_nat k)) by (rewrite N.ones_equiv, <- N.sub_1_r; reflexivity).
  apply N.land_ones.
Qed.
Lemma pow_le64 k : k <= 64 -> (2 ^ N.of_nat k <= 2 ^ 64)%N. Proof. intro. apply N.pow_le_mono_r; lia. Qed.
Lemma split_div a b m : (a < m)%N -> ((a + m * b) / m = b)%N.
Proof. intro H. rewrite (N.mul_comm m), N.div_add by lia. now rewrite N.div_small. Qed.
Lemma split_mod a b m : (a < m)%N -> ((a + m * b) mod m = a)%N.
Proof. intro H. rewrite (N.mul_comm m), N.mod_add by lia. now apply N.mod_small. Qed.
Lemma ro_unpack_word index_sz val_sz e : index_sz <= 63 -> val_sz <= 64 ->
  (fst e < 2 ^ N.of_nat index_sz)%N -> (snd e < 2 ^ N.of_nat val_sz)%N ->
  ro_unpack index_sz val_sz (ro_word index_sz val_sz e) = e.
Proof.
  intros L1 L2 Hi Hv. destruct e as [i v]. unfold ro_unpack, ro_word. cbn [fst snd] in *. rewrite (N.mod_small i (2 ^ N.of_nat index_sz)), (N.mod_small v (2 ^ N.of_nat val_sz)) by assumption.
  rewrite land_mask by lia. rewrite N.shiftr_div_pow2, split_div, split_mod by assumption.
  pose proof (pow_le64 val_sz L2). pose proof (pow_le64 index_sz ltac:(lia)).
  assert ((2 ^ N.of_nat index_sz < 2 ^ N.of_nat (index_sz + 1))%N) by (apply N.pow_lt_mono_r; lia).
  rewrite (N.mod_small v (2 ^ 64)), (N.mod_small i (2 ^ 64)) by lia. now rewrite !N.mod_small by lia.
Qed.
Lemma rw_unpack_word index_sz step_sz val_sz e : index_sz + step_sz + 1 <= 64 -> val_sz <= 64 -> 1 <= step_sz ->
  rw_fits index_sz step_sz val_sz e ->
  rw_unpack index_sz step_sz val_sz (rw_word index_sz step_sz val_sz e) = (e_idx e, e_step e, e_op e, e_val e).
Proof.
  intros L1 L2 L3 (Hi & Hs & Hv). destruct e as [i s o v]. unfold rw_unpack, rw_word. cbn [e_idx e_step e_op e_val] in *.
  rewrite (N.mod_small i (2 ^ N.of_nat index_sz)), (N.mod_small s (2 ^ N.of_nat step_sz)), (N.mod_small v (2 ^ N.of_nat val_sz)) by assumption.
  rewrite (land_mask _ val_sz) by lia. rewrite (N.shiftr_div_pow2 _ (N.of_nat val_sz)), split_div, split_mod by assumption.
  set (t := (s + 2 ^ N.of_nat step_sz * i)%N).
  assert (Ht : (t < 2 ^ N.of_nat (step_sz + index_sz))%N).
  { unfold t. apply N.lt_le_trans with (2 ^ N.of_nat step_sz * (i + 1))%N; [lia|]. rewrite Nat2N.inj_add, N.pow_add_r. apply N.mul_le_mono_l. lia. }
  assert (Ho : (N.b2n o < 2)%N) by (destruct o; reflexivity).
  assert (Hh : (N.b2n o + 2 * t < 2 ^ 64)%N).
  { apply N.lt_le_trans with (2 ^ N.of_nat (step_sz + index_sz + 1))%N; [|apply pow_le64; lia].
    rewrite (Nat2N.inj_add _ 1), N.pow_add_r. change (2 ^ N.of_nat 1)%N with 2%N. lia. }
  rewrite (N.mod_small _ (2 ^ 64)) by exact Hh.
  assert (B0 : N.testbit (N.b2n o + 2 * t) 0 = o).
  { rewrite N.bit0_odd, N.odd_add_mul_2. now destruct o. }
  rewrite B0. rewrite !N.shiftr_div_pow2. change (2 ^ 1)%N with 2%N. rewrite split_div by assumption.
  rewrite land_mask by lia. rewrite land_mask64 by lia.
  assert (E : ((N.b2n o + 2 * t) / 2 ^ N.of_nat (step_sz + 1) = i)%N).
  { rewrite Nat.add_comm, Nat2N.inj_add, N.pow_add_r. change (2 ^ N.of_nat 1)%N with 2%N.
    rewrite <- N.div_div by (try apply N.pow_nonzero; lia). rewrite split_div by assumption. unfold t. now rewrite split_div. }
  rewrite E. unfold t. rewrite split_mod by assumption.
  assert ((2 ^ N.of_nat index_sz < 2 ^ N.of_nat (index_sz + 1))%N) by (apply N.pow_lt_mono_r; lia).
  rewrite (N.mod_small i (2 ^ N.of_nat index_sz)) by assumption. rewrite !N.mod_small by lia. reflexivity.
Qed.
(** ** macs *)
Lemma inn_at_lt l o n : (inn_at l o n < 2 ^ 128)%N. Proof. apply inn_lt. Qed.
Lemma base_segment o n : o + n <= 128 -> firstn n (skipn o pack_base) = map (fun i => (2 ^ N.of_nat i)%N) (seq o n).
Proof.
  intro L. unfold pack_base. rewrite skipn_map, firstn_map. f_equal.
  replace 128 with (o + (n + (128 - o - n))) by lia. rewrite seq_app, skipn_len_app by now rewrite seq_length.
  now rewrite seq_app, firstn_len_app by now rewrite seq_length.
Qed.
Lemma word_at bs o : o + length bs <= 128 ->
  gdot (map b2g bs) (map toG (map (fun i => (2 ^ N.of_nat i)%N) (seq o (length bs)))) = toG (2 ^ N.of_nat o * word_of bs)%N.
Proof.
  intro L. pose proof (ch_word_gdot (map b2N bs) o) as H. rewrite map_length in H. specialize (H L).
  rewrite map_map in H. rewrite word_of_ch. rewrite N.mul_comm, <- N.shiftl_mul_pow2, <- H. f_equal.
  apply map_ext. intro b. now destruct b.
Qed.
Lemma inn_at_kof d l o n : n <= length l -> o + n <= 128 ->
  inn_at (map (kof d) l) o n = key_of d ((2 ^ N.of_nat o * word_of (firstn n (map snd l)))%N, inn_at (map fst l) o n).
Proof.
  intros Hn L. apply toG_inj; [apply inn_at_lt|unfold key_of; apply lxor_lt; [apply inn_at_lt|apply gfmul_lt]|].
  rewrite toG_key. cbn [fst snd]. unfold inn_at. rewrite base_segment by assumption. rewrite !toG_inn.
  assert (E : n = length (firstn n (map snd l))) by (rewrite firstn_length, map_length; lia).
  rewrite <- word_at by lia. rewrite <- E. rewrite !firstn_map, !map_map.
  apply gdot_lin2. intros x _. apply toG_kof.
Qed.
Lemma key_of_xor d a b : N.lxor (key_of d a) (key_of d b) = key_of d (N.lxor (fst a) (fst b), N.lxor (snd a) (snd b)).
Proof.
  unfold key_of. cbn [fst snd]. rewrite gfmul_lxor_l.
  rewrite <- !N.lxor_assoc. f_equal. rewrite !N.lxor_assoc. f_equal. apply N.lxor_comm.
Qed.
Lemma word_of_lt bs : (word_of bs < 2 ^ N.of_nat (length bs))%N.
Proof.
  induction bs as [|b bs IH]; [reflexivity|]. cbn [word_of fold_right length]. fold (word_of bs).
  rewrite Nat2N.inj_succ, N.pow_succ_r'. destruct b; cbn [b2N]; lia.
Qed.
Lemma word_of_firstn n bs : n <= length bs -> word_of (firstn n bs) = (word_of bs mod 2 ^ N.of_nat n)%N.
Proof.
  intro H. rewrite <- (firstn_skipn n bs) at 2. rewrite word_of_app, firstn_length, Nat.min_l by assumption.
  rewrite split_mod; [reflexivity|]. pose proof (word_of_lt (firstn n bs)) as W. rewrite firstn_length, Nat.min_l in W by assumption. exact W.
Qed.
Lemma ro_pack_mac_kof d index_sz val_sz li lv : index_sz + val_sz <= 128 -> index_sz <= length li -> val_sz <= length lv ->
  ro_pack_mac index_sz val_sz (map (kof d) li) (map (kof d) lv) =
  key_of d (ro_word index_sz val_sz (word_of (map snd li), word_of (map snd lv)),
            ro_pack_mac index_sz val_sz (map fst li) (map fst lv)).
Proof.
  intros L Hi Hv. unfold ro_pack_mac. rewrite !inn_at_kof by lia. rewrite key_of_xor. cbn [fst snd].
  f_equal. f_equal. rewrite !word_of_firstn by (now rewrite map_length). rewrite N.pow_0_r, N.mul_1_l.
  apply lxor_shift. apply N.mod_lt, N.pow_nonzero. lia.
Qed.
Lemma nth_base i : i < 128 -> nth i pack_base 0%N = (2 ^ N.of_nat i)%N.
Proof.
  intro H. unfold pack_base. rewrite (nth_indep _ 0%N (2 ^ N.of_nat 0)%N) by (rewrite map_length, seq_length; lia).
  rewrite (map_nth (fun i => (2 ^ N.of_nat i)%N)), seq_nth by lia. reflexivity.
Qed.
Lemma gfmul_kof d (x : N * bool) i : i < 128 ->
  gfmul (kof d x) (nth i pack_base 0%N) = key_of d ((2 ^ N.of_nat i * N.b2n (snd x))%N, gfmul (fst x) (nth i pack_base 0%N)).
Proof.
  intro H. rewrite nth_base by assumption. apply toG_inj; [apply gfmul_lt|unfold key_of; apply lxor_lt; apply gfmul_lt|].
  rewrite toG_key. cbn [fst snd]. rewrite !toG_gfmul, toG_kof.
  destruct (snd x); cbn [N.b2n b2g]; rewrite ?N.mul_1_r, ?N.mul_0_r, ?toG_0; ring.
Qed.
Lemma rw_pack_mac_kof d index_sz step_sz val_sz li lv ls x : index_sz + step_sz + 1 + val_sz <= 128 ->
  index_sz <= length li -> val_sz <= length lv -> step_sz <= length ls ->
  rw_pack_mac index_sz step_sz val_sz (map (kof d) li) (map (kof d) lv) (map (kof d) ls) (kof d x) =
  key_of d (rw_word index_sz step_sz val_sz
              {| e_idx := word_of (map snd li); e_step := word_of (map snd ls); e_op := snd x; e_val := word_of (map snd lv) |},
            rw_pack_mac index_sz step_sz val_sz (map fst li) (map fst lv) (map fst ls) (fst x)).
Proof.
  intros L Hi Hv Hs. unfold rw_pack_mac. cbv zeta. rewrite !inn_at_kof by lia.
  destruct (Nat.eq_dec val_sz 128) as [E|E]; [lia|]. rewrite gfmul_kof by lia.
  rewrite !key_of_xor. cbn [fst snd]. f_equal. f_equal.
  rewrite !word_of_firstn by (now rewrite map_length). unfold rw_word. cbn [e_idx e_step e_op e_val].
  set (v := (word_of (map snd lv) mod 2 ^ N.of_nat val_sz)%N). set (s := (word_of (map snd ls) mod 2 ^ N.of_nat step_sz)%N).
  set (i := (word_of (map snd li) mod 2 ^ N.of_nat index_sz)%N).
  assert (Bv : (v < 2 ^ N.of_nat val_sz)%N) by (apply N.mod_lt, N.pow_nonzero; lia).
  assert (Bs : (s < 2 ^ N.of_nat step_sz)%N) by (apply N.mod_lt, N.pow_nonzero; lia).
  clearbody v i s. rewrite N.pow_0_r, N.mul_1_l.
  rewrite (lxor_shift (N.b2n (snd x)) v) by assumption.
  assert (E1 : (v + 2 ^ N.of_nat val_sz * N.b2n (snd x) < 2 ^ N.of_nat (val_sz + 1))%N).
  { rewrite Nat2N.inj_add, N.pow_add_r. change (2 ^ N.of_nat 1)%N with 2%N. destruct (snd x); cbn [N.b2n]; lia. }
  rewrite (lxor_shift s _ _ E1).
  assert (E2 : (v + 2 ^ N.of_nat val_sz * N.b2n (snd x) + 2 ^ N.of_nat (val_sz + 1) * s < 2 ^ N.of_nat (val_sz + 1 + step_sz))%N).
  { rewrite (Nat2N.inj_add (val_sz + 1)), N.pow_add_r. apply N.lt_le_trans with (2 ^ N.of_nat (val_sz + 1) * (s + 1))%N; [lia|]. apply N.mul_le_mono_l. lia. }
  rewrite lxor_shift by exact E2.
  rewrite !Nat2N.inj_add, !N.pow_add_r. change (2 ^ N.of_nat 1)%N with 2%N. lia.
Qed.
