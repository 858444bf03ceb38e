(** Packing of wide records. *)
From Coq Require Import NArith List Bool Arith Permutation Lia Ring.
From Verif Require Import Word WordProofs GF128 GF128Ring GF128Field GfmulModel BoolModel BoolSpec BoolProofs BoolAlg F2kModel F2kSpec F2kAlg F2kProofs RamModel RamSpec RamPack.
Import ListNotations.
Ltac Zify.zify_post_hook ::= idtac.

Lemma pair_ind (A : Type) (P : list A -> Prop) : P [] -> (forall a, P [a]) -> (forall a b l, P l -> P (a :: b :: l)) -> forall l, P l.
Proof.
  intros H0 H1 H2 l. assert (H : P l /\ forall a, P (a :: l)).
  { induction l as [|x l [IH1 IH2]]; [split; auto|]. split; [apply IH2|]. intro a. now apply H2. }
  apply H.
Qed.
Lemma ext_rows_pairs ws : Forall w64 ws -> ext_rows ws = word_pairs ws.
Proof.
  revert ws. apply (pair_ind N (fun ws => Forall w64 ws -> ext_rows ws = word_pairs ws)).
  - reflexivity.
  - intros a F. inversion F; subst. cbn [ext_rows word_pairs].
    rewrite shl_u128_small by (apply (mul_pow_lt a 64 64 128); [assumption|lia]). rewrite N.shiftl_mul_pow2. f_equal. apply N.mul_comm.
  - intros a b l IH F. inversion F as [|? ? Ha F']; subst. inversion F' as [|? ? Hb F'']; subst. cbn [ext_rows word_pairs].
    rewrite IH by assumption. f_equal.
    rewrite shl_u128_small by (apply (mul_pow_lt a 64 64 128); [assumption|lia]).
    change (N.of_nat 64) with 64%N. rewrite lor_shift by assumption. apply N.add_comm.
Qed.
Lemma wide_pack_row e : wide_fits e -> ext_pack (w_idx e) (w_val e) (w_step e) (N.b2n (w_op e)) = Some (wide_row e).
Proof.
  destruct e as [i s o v]. unfold wide_fits, ext_pack, wide_row. cbn [w_idx w_step w_op w_val]. intros (Hi & Hs & Hv & Hn).
  destruct v as [|v0 r]; [contradiction|]. inversion Hv as [|? ? H0 Hr]; subst. rewrite ext_rows_pairs by assumption. f_equal. f_equal.
  rewrite (shl_u64_small i) by (apply (mul_pow_lt i 32 32 64); [assumption|lia]).
  rewrite (shl_u64_small s) by (apply (mul_pow_lt s 31 1 64); [assumption|lia]).
  replace (N.land (N.b2n o) 1) with (N.b2n o) by now destruct o.
  rewrite <- N.lor_assoc, (lor_shift s (N.b2n o)) by (destruct o; reflexivity). change (2 ^ N.of_nat 1)%N with 2%N.
  assert (B : (N.b2n o + 2 * s < 2 ^ 32)%N).
  { change (2 ^ 31)%N with 2147483648%N in Hs. change (2 ^ 32)%N with 4294967296%N. destruct o; cbn [N.b2n]; lia. }
  rewrite lor_shift by exact B.
  assert (C : ((N.b2n o + 2 * s + 2 ^ N.of_nat 32 * i) < 2 ^ N.of_nat 64)%N).
  { change (2 ^ N.of_nat 64)%N with (2 ^ 32 * 2 ^ 32)%N. change (N.of_nat 32) with 32%N.
    change (2 ^ 32)%N with 4294967296%N in *. lia. }
  rewrite shl_u128_small by (apply (mul_pow_lt _ 64 64 128); [exact C|lia]).
  rewrite lor_shift by exact H0. f_equal. change (N.of_nat 64) with 64%N. f_equal.
  change (2 ^ N.of_nat 32)%N with (2 * 2 ^ 31)%N. lia.
Qed.
Lemma word_pairs_inj : forall a b, Forall w64 a -> Forall w64 b -> length a = length b -> word_pairs a = word_pairs b -> a = b.
Proof.
  apply (pair_ind N (fun a => forall b, Forall w64 a -> Forall w64 b -> length a = length b -> word_pairs a = word_pairs b -> a = b)).
  - intros [|? ?] _ _ L _; [reflexivity|discriminate].
  - intros x [|y [|? ?]] _ _ L E; try discriminate. cbn [word_pairs] in E. assert (E' : (2 ^ 64 * x = 2 ^ 64 * y)%N) by congruence. f_equal. apply N.mul_cancel_l in E'; [exact E'|discriminate].
  - intros x y l IH [|x' [|y' l']] F F' L E; try discriminate. cbn [word_pairs] in E. assert (E1 : (2 ^ 64 * x + y = 2 ^ 64 * x' + y')%N) by congruence. assert (E2 : word_pairs l = word_pairs l') by congruence. clear E.
    inversion F as [|? ? Hx F1]; subst. inversion F1 as [|? ? Hy F2]; subst.
    inversion F' as [|? ? Hx' F1']; subst. inversion F1' as [|? ? Hy' F2']; subst.
    rewrite !(N.add_comm (_ * _)) in E1. apply split_inj in E1; [|assumption..]. destruct E1 as [-> ->].
    f_equal. f_equal. apply IH; auto. cbn in L. lia.
Qed.
Lemma wide_row_inj e e' : wide_fits e -> wide_fits e' -> length (w_val e) = length (w_val e') -> wide_row e = wide_row e' -> e = e'.
Proof.
  destruct e as [i s o v], e' as [i' s' o' v']. unfold wide_fits, wide_row. cbn [w_idx w_step w_op w_val].
  intros (Hi & Hs & Hv & Hn) (Hi' & Hs' & Hv' & Hn') L E.
  destruct v as [|v0 r]; [contradiction|]. destruct v' as [|v0' r']; [contradiction|].
  inversion Hv as [|? ? H0 Hr]; subst. inversion Hv' as [|? ? H0' Hr']; subst. assert (E1 := f_equal (hd 0%N) E). assert (E2 := f_equal (@tl N) E). cbn [hd tl] in E1, E2. clear E.
  apply split_inj in E1; [|assumption..]. destruct E1 as [-> E1].
  apply split_inj in E1; [|destruct o; reflexivity|destruct o'; reflexivity]. destruct E1 as [Eo E1].
  apply split_inj in E1; [|assumption..]. destruct E1 as [-> ->].
  rewrite (word_pairs_inj r r') by (auto; cbn in L; lia). f_equal. destruct o, o'; try reflexivity; discriminate.
Qed.
(** ** macs of the rows *)
Definition vbits (l : list (N * bool)) : N := word_of (map snd l).
Lemma vbits_firstn l : word_of (firstn (length l) (map snd l)) = vbits l.
Proof. rewrite <- (map_length snd l), firstn_all. reflexivity. Qed.
Lemma ext_mac_rows_kof d : forall vals, Forall (fun l => length l = 64) vals ->
  ext_mac_rows (map (map (kof d)) vals) =
  map (key_of d) (combine (word_pairs (map vbits vals)) (ext_mac_rows (map (map fst) vals))) /\
  length (word_pairs (map vbits vals)) = length (ext_mac_rows (map (map fst) vals)).
Proof.
  apply (pair_ind _ (fun vals => Forall (fun l => length l = 64) vals ->
  ext_mac_rows (map (map (kof d)) vals) =
  map (key_of d) (combine (word_pairs (map vbits vals)) (ext_mac_rows (map (map fst) vals))) /\
  length (word_pairs (map vbits vals)) = length (ext_mac_rows (map (map fst) vals)))).
  - auto.
  - intros a F. inversion F as [|? ? Ha _]; subst. cbn [map ext_mac_rows word_pairs combine length]. split; [|reflexivity].
    rewrite !N.lxor_0_r, inn_at_kof by lia. replace (firstn 64 (map snd a)) with (firstn (length a) (map snd a)) by now rewrite Ha. now rewrite vbits_firstn.
  - intros a b l IH F. inversion F as [|? ? Ha F']; subst. inversion F' as [|? ? Hb F'']; subst.
    destruct (IH F'') as [E1 E2]. cbn [map ext_mac_rows word_pairs combine length]. split; [|now rewrite E2].
    rewrite E1. f_equal. rewrite !inn_at_kof by lia. rewrite key_of_xor. cbn [fst snd]. f_equal. f_equal.
    replace (firstn 64 (map snd a)) with (firstn (length a) (map snd a)) by now rewrite Ha. replace (firstn 64 (map snd b)) with (firstn (length b) (map snd b)) by now rewrite Hb. rewrite !vbits_firstn. rewrite N.pow_0_r, N.mul_1_l. change (N.of_nat 64) with 64%N.
    rewrite N.lxor_comm. rewrite lxor_shift; [apply N.add_comm|]. pose proof (word_of_lt (map snd b)) as W. rewrite map_length, Hb in W. exact W.
Qed.
Lemma ext_pack_mac_kof d li vals ls x : vals <> [] -> Forall (fun l => length l = 64) vals -> length ls <= 31 -> length li <= 32 ->
  exists ms, ext_pack_mac (map fst li) (map (map fst) vals) (map fst ls) (fst x) = Some ms /\
  ext_pack_mac (map (kof d) li) (map (map (kof d)) vals) (map (kof d) ls) (kof d x) =
    Some (map (key_of d) (combine (wide_row {| w_idx := vbits li; w_step := vbits ls; w_op := snd x; w_val := map vbits vals |}) ms)) /\
  length ms = length (wide_row {| w_idx := vbits li; w_step := vbits ls; w_op := snd x; w_val := map vbits vals |}).
Proof.
  intros Hn Hv Hs Hi. destruct vals as [|v0 r]; [contradiction|]. inversion Hv as [|? ? H0 Hr]; subst.
  destruct (ext_mac_rows_kof d r Hr) as [E1 E2]. eexists. split; [reflexivity|].
  unfold ext_pack_mac, wide_row. cbn [map w_val w_idx w_step w_op combine length]. split; [|now rewrite E2].
  rewrite E1. do 2 f_equal. rewrite !map_length. rewrite !inn_at_kof by lia. rewrite gfmul_kof by lia. rewrite !key_of_xor. cbn [fst snd].
  rewrite !vbits_firstn. f_equal. f_equal. rewrite N.pow_0_r, N.mul_1_l. change (N.of_nat 64) with 64%N. change (N.of_nat 65) with 65%N. change (N.of_nat 96) with 96%N.
  pose proof (word_of_lt (map snd v0)) as W0. rewrite map_length, H0 in W0. fold (vbits v0) in W0. change (N.of_nat 64) with 64%N in W0.
  assert (Ws : (vbits ls < 2 ^ 31)%N).
  { pose proof (word_of_lt (map snd ls)) as W. rewrite map_length in W. fold (vbits ls) in W. eapply N.lt_le_trans; [exact W|]. change (2 ^ 31)%N with (2 ^ N.of_nat 31)%N. apply N.pow_le_mono_r; lia. }
  set (a := vbits v0) in *. set (s := vbits ls) in *. set (i := vbits li). clearbody a s i.
  rewrite (lxor_shift _ a 64) by exact W0.
  assert (B1 : (a + 2 ^ 64 * N.b2n (snd x) < 2 ^ 65)%N).
  { change (2 ^ 65)%N with (2 * 2 ^ 64)%N. clear -W0. destruct (snd x); cbn [N.b2n]; lia. }
  rewrite (lxor_shift _ _ 65 B1).
  assert (B2 : (a + 2 ^ 64 * N.b2n (snd x) + 2 ^ 65 * s < 2 ^ 96)%N).
  { change (2 ^ 96)%N with (2 ^ 65 * 2 ^ 31)%N. clear -B1 Ws. apply N.lt_le_trans with (2 ^ 65 * (s + 1))%N; [lia|]. apply N.mul_le_mono_l. lia. }
  rewrite (lxor_shift _ _ 96 B2). change (2 ^ 65)%N with (2 ^ 64 * 2)%N. change (2 ^ 96)%N with (2 ^ 64 * 2 * 2 ^ 31)%N. lia.
Qed.
(** compression of a row is linear, so keys compress to keys *)
Lemma compress_lt c r : (compress c r < 2 ^ 128)%N. Proof. apply inn_lt. Qed.
Lemma compress_kof d coef : forall vs ms, length vs = length ms -> 
  compress coef (map (key_of d) (combine vs ms)) = key_of d (compress coef vs, compress coef ms).
Proof.
  intros vs ms L. apply toG_inj; [apply compress_lt|unfold key_of; apply lxor_lt; [apply compress_lt|apply gfmul_lt]|].
  rewrite toG_key. cbn [fst snd]. unfold compress. rewrite !toG_inn. generalize (map toG coef) as c. clear coef.
  revert ms L. induction vs as [|v vs IH]; intros [|m ms] L c; try discriminate; destruct c as [|x c]; cbn [map combine gdot]; try ring.
  rewrite toG_key, IH by (cbn in L; lia). cbn [fst snd]. ring.
Qed.
(** two different rows collide for at most one value of one coefficient, the others fixed *)
Lemma compress_collision a b : length a = length b -> Forall (fun x => (x < 2 ^ 128)%N) a -> Forall (fun x => (x < 2 ^ 128)%N) b -> a <> b ->
  exists j, j < length a /\ forall c1 c2 u v, length c1 = j -> (u < 2 ^ 128)%N -> (v < 2 ^ 128)%N ->
    compress (c1 ++ u :: c2) a = compress (c1 ++ u :: c2) b -> compress (c1 ++ v :: c2) a = compress (c1 ++ v :: c2) b -> u = v.
Proof.
  intros L Fa Fb Hn.
  assert (S : exists p x y a' b', a = p ++ x :: a' /\ b = p ++ y :: b' /\ x <> y).
  { clear Fa Fb. revert b L Hn. induction a as [|x a IH]; intros [|y b] L Hn; try discriminate; [contradiction|].
    destruct (N.eq_dec x y) as [->|E].
    - destruct (IH b) as [p [x' [y' [a' [b' [-> [-> E]]]]]]]; [cbn in L; lia|congruence|]. exists (y :: p), x', y', a', b'. auto.
    - exists [], x, y, a, b. auto. }
  destruct S as [p [x [y [a' [b' [-> [-> E]]]]]]]. exists (length p). split; [rewrite app_length; cbn; lia|].
  intros c1 c2 u v Lc Hu Hv E1 E2.
  assert (K : forall c, toG (compress (c1 ++ c :: c2) (p ++ x :: a')) = gadd (gdot (map toG c1) (map toG p)) (gadd (gmul (toG c) (toG x)) (gdot (map toG c2) (map toG a'))) /\
     toG (compress (c1 ++ c :: c2) (p ++ y :: b')) = gadd (gdot (map toG c1) (map toG p)) (gadd (gmul (toG c) (toG y)) (gdot (map toG c2) (map toG b')))).
  { intro c. unfold compress. rewrite !toG_inn, !map_app, !gdot_app by now rewrite !map_length. auto. }
  apply (f_equal toG) in E1, E2. rewrite (proj1 (K u)), (proj2 (K u)) in E1. rewrite (proj1 (K v)), (proj2 (K v)) in E2.
  set (P := gdot (map toG c1) (map toG p)) in *. set (A := gdot (map toG c2) (map toG a')) in *. set (B := gdot (map toG c2) (map toG b')) in *.
  apply toG_inj; [assumption..|].
  assert (Z : gmul (gadd (toG u) (toG v)) (gadd (toG x) (toG y)) = g0).
  { transitivity (gadd (gadd (gadd P (gadd (gmul (toG u) (toG x)) A)) (gadd P (gadd (gmul (toG u) (toG y)) B)))
                       (gadd (gadd P (gadd (gmul (toG v) (toG x)) A)) (gadd P (gadd (gmul (toG v) (toG y)) B)))); [ring|].
    rewrite E1, E2. ring. }
  apply GF_nzd in Z. destruct Z as [Z|Z].
  - rewrite <- (GF_char2 (toG u) (toG v)). rewrite Z. ring.
  - exfalso. apply E. apply toG_inj.
    + rewrite Forall_forall in Fa. apply Fa, in_elt.
    + rewrite Forall_forall in Fb. apply Fb, in_elt.
    + rewrite <- (GF_char2 (toG x) (toG y)). rewrite Z. ring.
Qed.
