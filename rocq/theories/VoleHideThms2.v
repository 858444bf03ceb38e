From Coq Require Import NArith ZArith Lia List Bool Arith.
From Verif Require Import Word FpModel WordProofs FpProofs GF128 ListUtil ArithSpec ArithProofs TreeModel TreeSpec TreeProofs BoolModel
  VoleModel VoleSpec LpnProofs CopeProofs MpfssProofs VoleTripleModel VoleThms VoleThms2 VoleF2kModel VoleF2kSpec VoleF2kProofs VoleHideSpec VoleHideThms.
Import ListNotations.
Local Open Scope nat_scope.
Ltac Zify.zify_post_hook ::= idtac.

Lemma delivered_eq L R H Hs word threads t k log n v : vpub_ok v -> 1 <= threads -> 1 <= log -> 1 <= k -> (N.of_nat k < 2 ^ 31)%N -> n = t * 2 ^ log ->
  exists E : nat -> list nat, (forall p x, In x (E p) -> x < k) /\
    (forall p, length (E p) = if p <? lpn_reach n threads then 10 else 0) /\
    forall s q, vsec_ok s -> vmask_ok q ->
      all_ok L R H Hs threads t k log v s q word n = true /\
      forall p, p < n -> delivered L R H Hs threads t k log v s q word n p = ((noise log s p + nsum (map (fun e => s_x s (t + 1 + e)) (E p))) mod prm)%N.
Proof.
  intros Hv Hthr Hlog Hk Hk31 Hn. destruct (expansion_ok word k n threads Hk Hk31) as (E & E1 & E2 & E3). exists E.
  split; [exact E2|]. split; [exact E1|]. intros s q Hx Hq.
  assert (D : (v_d v < PR)%N) by exact (proj1 Hv).
  assert (Xw : forall j, (run_x t k s q j < W64)%N) by (intro j; apply c_w, rx_c; assumption).
  assert (B : forall j, share_ok (v_d v) (run_mac t k v s q j) (run_key t k v s q j)).
  { intro j. exact (proj1 (base_corr (v_d v) _ _ _ _ _ D (w_ok v Hv s q Hx Hq) Xw j)). }
  assert (C : forall i, i < (log + 1 - 1) * t -> r_ot_r (run_rnd v s q) i = N.lxor (r_ot_s (run_rnd v s q) i) (if r_ot_b (run_rnd v s q) i then r_ot_delta (run_rnd v s q) else 0%N)) by reflexivity.
  pose proof (mpfss_ok L R H Hs threads t (log + 1) (run_rnd v s q) (v_d v) (run_key t k v s q) (run_mac t k v s q) ltac:(lia) Hthr D C
    (fun i _ => B i) (fun _ => 0%N) (fun _ => 0%N)) as MP.
  pose proof (base_ok_true (v_d v) (run_w0 v q) (run_w1 v q) (run_w0c v q) (run_w1c v q) (run_x t k s q) (v_seed v) D (w_ok v Hv s q Hx Hq)
      Xw (c_w _ (proj2 (proj2 (proj2 Hv)))) (vsize t k) ltac:(unfold vsize; lia)) as BO.
  unfold all_ok, delivered, vole_extend. rewrite BO. clear BO.
  destruct (mpfss_pair L R H Hs threads t (log + 1) (run_rnd v s q) (v_d v) (run_key t k v s q) (run_mac t k v s q) (fun _ => 0%N) (fun _ => 0%N)) as [[Y Z] ok].
  destruct MP as [-> MP]. cbn [fst snd andb]. split; [reflexivity|].
  unfold leave_n in MP. rewrite Nat.add_sub in MP.
  assert (Hp0 : 2 ^ log <> 0) by (apply Nat.pow_nonzero; lia).
  assert (MP' : forall p, p < n -> share_ok (v_d v) (Z p) (Y p) /\ xval (Z p) = noise log s p).
  { intros p Hp. assert (Q1 : p / 2 ^ log < t) by (apply Nat.div_lt_upper_bound; [exact Hp0|rewrite Nat.mul_comm; now rewrite <- Hn]).
    assert (Q2 : p mod 2 ^ log < 2 ^ log) by now apply Nat.mod_upper_bound.
    pose proof (MP (p / 2 ^ log) (p mod 2 ^ log) Q1 Q2) as (A1 & _ & A3).
    rewrite (Nat.mul_comm (p / 2 ^ log)), <- Nat.div_mod_eq in A1, A3. split; [exact A1|]. rewrite A3. unfold noise, pos. rewrite Nat.add_sub.
    cbn [r_b run_rnd]. destruct (p mod 2 ^ log =? punctured log (s_b s (p / 2 ^ log))); [|reflexivity]. change (xval ?b) with (hi64 b). rewrite mac_hi by assumption. apply (rx_lt t k log Hlog). exact Q1. }
  intros p Hp. destruct (E3 (v_d v) (view (run_key t k v s q) (t + 1)) (view (run_mac t k v s q) (t + 1)) Y Z) as (_ & F & _).
  - intros i _ _. apply B.
  - intros i _ Hi. now apply MP'.
  - destruct (F p Hp) as (_ & F2 & _). refine (eq_trans F2 _). rewrite (proj2 (MP' p Hp)). f_equal. f_equal. f_equal.
    apply map_ext_in. intros e He. specialize (E2 p e He). unfold view. change (xval ?b) with (hi64 b). rewrite mac_hi by assumption.
    unfold run_x, vsize. rewrite !(proj2 (Nat.eqb_neq _ _)) by lia. reflexivity.
Qed.

(** * GF(2^128) *)
Lemma f2_X_run L R H Hs tree_n depth rnd key mac s : forall ts, NoDup (map fst ts) -> forall Y Z V W X,
  snd (f2_run_trees L R H Hs tree_n depth rnd ts key mac Y Z V W X) s =
  if mem_nat s (map fst ts) then f2_chi_alpha depth (Hs (r_chal rnd s)) (r_b rnd s) else X s.
Proof.
  induction ts as [|[x c] ts IH]; intros Hd Y Z V W X; cbn [f2_run_trees map fst]; [reflexivity|].
  inversion_clear Hd as [|? ? Hn Hd']. destruct (f2_tree_pair _ _ _ _ _ _ _ _ _ _ _) as [a b]. rewrite IH by exact Hd'.
  unfold mem_nat at 2. cbn [existsb]. fold (mem_nat s (map fst ts)). unfold mset. destruct (Nat.eqb_spec s x) as [->|Ne]; cbn [orb]; [|reflexivity].
  destruct (mem_nat x (map fst ts)) eqn:M; [|reflexivity]. apply mem_nat_In in M. contradiction.
Qed.
Lemma f2_transcript_eq L R H Hs threads t log rnd key val mac : 1 <= threads ->
  f2_transcript L R H Hs threads t log rnd key val mac =
  (map (fun s => map (fun j => xorb (r_b rnd s j) (r_ot_b rnd (s * log + j))) (seq 0 log)) (seq 0 t),
   N.lxor (xsum (fun s => gfmul (val s) (f2_coeff Hs log (r_b rnd) (r_chal rnd) s)) t) (val t)).
Proof.
  intros Hthr. unfold f2_transcript. f_equal; [apply choices_msgs|]. unfold f2_x_star. rewrite f2_bca_ok, N.lxor_0_l. f_equal.
  apply xsum_ext. intros s Hs'. cbn [Nat.add]. f_equal. unfold f2_run_X.
  assert (ND : NoDup (map fst (tree_tasks threads t))) by (rewrite tasks_fst by easy; apply seq_NoDup).
  rewrite f2_X_run by exact ND. rewrite (proj2 (mem_nat_In s _)) by (rewrite tasks_fst by easy; apply in_seq; lia).
  unfold f2_chi_alpha, f2_coeff. rewrite get_index_ok. unfold leave_n. now rewrite Nat.add_sub.
Qed.
Lemma f2_delivered_eq word threads k n : 1 <= k -> (N.of_nat k < 2 ^ 31)%N ->
  exists E : nat -> list nat, (forall p x, In x (E p) -> x < k) /\ (forall p, length (E p) = if p <? lpn_reach n threads then 10 else 0) /\
    forall L R H Hs t log rnd key val mac d, n = t * 2 ^ log -> forall p, p < n ->
      f2_delivered L R H Hs threads t k log rnd key val mac word n d p = N.lxor (f2_noise log (r_b rnd) val p) (xorl (fun e => val (t + e)) (E p)).
Proof.
  intros Hk Hk31. destruct (f2_lpn_ok word k n threads Hk Hk31) as (E & E1 & E2). exists E.
  split; [intros p; apply E1|]. split; [intros p; apply E1|].
  intros L R H Hs t log rnd key val mac d Hn p Hp. unfold f2_delivered, f2_extend.
  destruct (f2_mpfss _ _ _ _ _ _ _ _ _ _ _ _ _ _) as [[Y Z] ok]. cbn [fst snd]. rewrite E2. f_equal.
  assert (Hp0 : 2 ^ log <> 0) by (apply Nat.pow_nonzero; lia).
  assert (Q1 : p / 2 ^ log < t) by (apply Nat.div_lt_upper_bound; [exact Hp0|rewrite Nat.mul_comm; now rewrite <- Hn]).
  assert (Q2 : p mod 2 ^ log < 2 ^ log) by now apply Nat.mod_upper_bound.
  pose proof (f2_set_x_ok (log + 1) rnd val t 0 (fun _ => 0%N) (p / 2 ^ log) (p mod 2 ^ log)) as S. unfold leave_n in S. rewrite Nat.add_sub in S.
  specialize (S Q2). rewrite (Nat.mul_comm (p / 2 ^ log)), <- Nat.div_mod_eq in S. refine (eq_trans S _). rewrite N.lxor_0_l.
  rewrite (proj2 (Nat.ltb_lt _ _)) by (cbn [Nat.add]; exact Q1). cbn [Nat.leb andb]. unfold f2_noise, pos. now rewrite Nat.add_sub.
Qed.
