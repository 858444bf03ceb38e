(** One stage of the GF(2^128) generator against a verifier that shifts the lowest level of every tree. *)
From Coq Require Import NArith Lia List Bool Arith.
From Verif Require Import Word WordProofs GF128 GF128Ring GF128Field BoolModel BoolProofs BoolAlg TreeModel TreeSpec TreeProofs VoleModel VoleSpec PoolModel PoolProofs VoleTripleModel
  LpnProofs MpfssProofs VoleThms VoleF2kModel VoleF2kSpec VoleF2kProofs CheatProofs CheatF2kModel CheatF2kProofs MalVerModel MalVerSpec MalVerProofs.
Import ListNotations.
Local Open Scope nat_scope.
Ltac Zify.zify_post_hook ::= idtac.

Section Gen.
  Variables (L R : N -> N) (depth : nat) (b : nat -> nat -> bool) (vs : list (list N * N)) (mac : mem) (lf : nat -> nat -> N).
  Notation lv := (leave_n depth).
  Lemma r2_trees_gen ts : (forall s, In s (map fst ts) -> forall t0 j, j < lv ->
      f2_recv L R depth (b s) (fun x => nth x (fst (nth s vs ([], 0%N))) 0%N) (snd (nth s vs ([], 0%N))) (mac s) t0 j = lf s j) -> forall Z s j, j < lv ->
    r2_trees L R depth ts b vs mac Z (s * lv + j) = if mem_nat s (map fst ts) then lf s j else Z (s * lv + j).
  Proof.
    induction ts as [|[a c] ts IH]; intros Hv Z s j Hj; cbn [r2_trees map fst mem_nat existsb]; [reflexivity|].
    rewrite IH by (auto; intros x Hx; apply Hv; now right). fold (mem_nat s (map fst ts)).
    rewrite store_at by (auto using lv_pos).
    destruct (Nat.eqb_spec s a) as [->|Ne]; cbn [orb]; [|reflexivity].
    rewrite (Hv a (or_introl eq_refl)) by exact Hj. now destruct (mem_nat a (map fst ts)).
  Qed.
End Gen.
Lemma code_msg_ok L R depth seed b key s t0 : 2 <= depth ->
  view2_ok L R depth seed b key s (view_of depth (b s) (code_msg L R depth (seed s) (key s) t0)).
Proof.
  intro Hd. unfold code_msg, view2_ok, view_of. pose proof (f2_send_ok L R depth (seed s) Hd (key s) t0) as T.
  destruct (f2_send L R depth (seed s) (key s) t0) as [[[t m0] m1] sum]. destruct T as (_ & _ & T3 & T4). cbn [fst snd q_m0 q_m1 q_sum]. split; [|exact T4].
  intros x Hx. rewrite nth_map_seq by exact Hx. destruct (T3 x Hx) as [-> ->]. reflexivity.
Qed.

Section Attack.
  Variables (L R : N -> N) (word : nat -> nat -> N) (threads : nat) (bits : nat -> nat -> nat -> bool).
  Variables (w : kworld) (p : lpn_param) (i : nat) (d : N) (key val mac Y0 Z0 : mem) (dig err : nat -> N) (junk : mem).
  Hypothesis Hthr : 1 <= threads.
  Hypothesis Wf : lp_wf p.
  Hypothesis Hc : corr2 d (lp_M p) key val mac.
  Notation depth := (lp_log p + 1).
  Notation lv := (leave_n depth).
  Notation tasks := (tree_tasks threads (lp_t p)).
  Definition bad_msg (s : nat) : tmsg := shifted depth (dig s) (err s) (code_msg L R depth (k_seed w i s) (key s) junk).
  Definition bad_views (k : nat) : list (list N * N) := map (fun s => view_of depth (bits k s) (bad_msg s)) (seq 0 (lp_t p)).
  Notation Y := (fst (s2_sparse L R threads bits w p i key Y0)).
  Notation Z := (r2_trees L R depth tasks (bits i) (bad_views i) mac Z0).
  Lemma dep_ok : 2 <= depth. Proof. destruct Wf as (_ & Hl & _). lia. Qed.
  Lemma bad_tree s j : s < lp_t p -> j < lv ->
    Y (s * lv + j) = node L R (k_seed w i s) (depth - 1) j /\
    Z (s * lv + j) = N.lxor (leaf2R L R depth (k_seed w i) (bits i) d val s j) (pair_err (depth - 1) (dig s) (err s) (bits i s) j).
  Proof.
    intros Hs Hj. pose proof dep_ok as Hd.
    split; [exact (proj1 (sparse2_ok L R word threads bits (fun _ => snd (s2_sparse L R threads bits w p i key Y0)) Hthr w p i d key val mac Y0 Z0 Wf Hc eq_refl s j Hs Hj))|].
    pose proof (tasks_fst threads (lp_t p) Hthr) as TF.
    rewrite (r2_trees_gen L R depth (bits i) (bad_views i) mac
      (fun s j => N.lxor (leaf2R L R depth (k_seed w i) (bits i) d val s j) (pair_err (depth - 1) (dig s) (err s) (bits i s) j))); [| |exact Hj].
    - replace (mem_nat s (map fst tasks)) with true; [reflexivity|]. symmetry. apply mem_nat_In. rewrite TF. apply in_seq. lia.
    - clear s j Hs Hj. intros s Hs t0 j Hj. rewrite TF in Hs. apply in_seq in Hs. unfold bad_views. rewrite nth_map_seq by lia. unfold bad_msg.
      rewrite f2_recv_shift by exact Hd. f_equal.
      pose proof (code_msg_ok L R depth (k_seed w i) (bits i) key s junk Hd) as [V1 V2].
      destruct (f2_recv_ok L R depth (k_seed w i s) d Hd (bits i s) _ _ (key s) (val s) (mac s) t0 V1 V2 ltac:(apply Hc; unfold lp_M; lia)) as (R1 & R2 & _).
      unfold leaf2R. destruct (Nat.eqb_spec j (punctured (depth - 1) (bits i s))) as [->|Nj]; [exact R2|now apply R1].
  Qed.
  (** the check accepts the reply of the verifier's unchanged code *)
  Lemma bad_accepted Hs : r2_accepts Hs threads p dig mac Z
      (Hs (f2_vb (lp_t p) d (s2_msgs depth tasks dig Y (fun _ => 0%N)) (key (lp_t p))
        (f2_x_star (lp_t p) val (fun s => f2_chi_alpha depth (dig s) (bits i s))))) = true.
  Proof.
    pose proof dep_ok as Hd. unfold r2_accepts. apply N.eqb_eq. f_equal. unfold f2_va, f2_vb, f2_x_star.
    pose proof (tasks_fst threads (lp_t p) Hthr) as TF.
    assert (Nd : NoDup (map fst tasks)) by (rewrite TF; apply seq_NoDup).
    rewrite !xor_loop_ok, f2_bca_ok, N.lxor_0_l. cbn [Nat.add].
    assert (T : share2 d (val (lp_t p)) (mac (lp_t p)) (key (lp_t p))) by (apply Hc; unfold lp_M; lia). unfold share2 in T. rewrite T.
    set (X := fun s => f2_chi_alpha depth (dig s) (bits i s)).
    assert (SV : xsum (fun x => s2_msgs depth tasks dig Y (fun _ => 0%N) x) (lp_t p) =
      N.lxor (xsum (fun x => s2_msgs depth tasks dig Z (fun _ => 0%N) x) (lp_t p)) (gfmul d (xsum (fun x => gfmul (val x) (X x)) (lp_t p)))).
    { rewrite <- xsum_mul, <- xsum_lxor. apply xsum_ext. intros s Hs'. rewrite !(msgs2_ok depth tasks) by exact Nd.
      assert (I : mem_nat s (map fst tasks) = true) by (apply mem_nat_In; rewrite TF; apply in_seq; lia). rewrite I.
      rewrite (f2_V_shift depth (dig s) (err s) (bits i s) (leaf2R L R depth (k_seed w i) (bits i) d val s) (view Z (s * lv)) Hd).
      2:{ intros j Hj. unfold view. now apply bad_tree. }
      rewrite !f2_V_ok. unfold X, f2_chi_alpha. rewrite get_index_ok.
      pose proof (punctured_lt (depth - 1) (bits i s)) as Pl.
      apply xsum_one with (p := punctured (depth - 1) (bits i s)).
      - exact Pl.
      - intros x Hx Ne. unfold view. destruct (bad_tree s x Hs' Hx) as [-> _]. unfold leaf2R. now rewrite (proj2 (Nat.eqb_neq _ _) Ne).
      - unfold view. destruct (bad_tree s _ Hs' Pl) as [-> _]. unfold leaf2R. rewrite Nat.eqb_refl, gfmul_lxor_r.
        set (c := nth _ _ _). set (a := node _ _ _ _ _). set (v := val s).
        replace (gfmul d (gfmul v c)) with (gfmul c (gfmul v d)); [xor_solve|].
        rewrite (gfmul_comm c), <- (gfmul_assoc d), (gfmul_comm d v). reflexivity. }
    rewrite SV, !gfmul_lxor_r, (gfmul_comm (val (lp_t p)) d).
    set (a := gfmul d (xsum _ _)). set (c := gfmul d (val (lp_t p))). set (f := xsum _ _). set (g := key (lp_t p)). xor_solve.
  Qed.
  (** the shares it leaves the prover with *)
  Lemma bad_shares : let o := r2_stage L R word threads bits bad_views p i (val, mac) Z0 in
    forall q, q < lp_n p -> snd o q = N.lxor (N.lxor (s2_stage L R word threads bits w p i key Y0 q) (gfmul (fst o q) d))
      (pair_err (depth - 1) (dig (q / lv)) (err (q / lv)) (bits i (q / lv)) (q mod lv)).
  Proof.
    intro o. unfold o, r2_stage, s2_stage. cbn [fst snd]. clear o. pose proof bad_tree as MP. destruct Wf as (Hn & Hl & Hk & Hk31).
    set (Y' := Y) in *. set (Z' := Z) in *. set (X := f2_set_x depth (r2_rnd (bits i)) (lp_t p) 0 val (fun _ => 0%N)).
    assert (C0 : forall q, q < lp_n p -> Z' q = N.lxor (N.lxor (Y' q) (gfmul (X q) d))
      (pair_err (depth - 1) (dig (q / lv)) (err (q / lv)) (bits i (q / lv)) (q mod lv))).
    { intros q Hq. assert (Hp : lv <> 0) by (pose proof (lv_pos depth); lia).
      assert (Hq' : q / lv < lp_t p).
      { apply Nat.div_lt_upper_bound; [easy|]. unfold leave_n. rewrite Nat.add_sub. lia. }
      pose proof (Nat.mod_upper_bound q _ Hp) as Hr.
      destruct (MP _ _ Hq' Hr) as [A B].
      pose proof (f2_set_x_ok depth (r2_rnd (bits i)) val (lp_t p) 0 (fun _ => 0%N) (q / lv) _ Hr) as E. fold X in E.
      rewrite (Nat.mul_comm (q / _)), <- Nat.div_mod_eq in A, B, E. rewrite A, B, E, N.lxor_0_l.
      replace (0 <=? q / lv) with true by reflexivity. rewrite Nat.add_0_l.
      rewrite (proj2 (Nat.ltb_lt _ _) Hq'). cbn [andb]. unfold leaf2R, MpfssProofs.pos. cbn [r_b r2_rnd]. f_equal.
      destruct (_ =? _); [reflexivity|]. now rewrite gfmul_0_l, N.lxor_0_r. }
    clearbody X Y' Z'. clear MP. destruct (f2_lpn_ok word (lp_k p) (lp_n p) threads Hk Hk31) as (E & E1 & E2).
    intros q Hq. rewrite !E2, C0 by exact Hq.
    assert (S : share2 d (xorl (view val (lp_t p)) (E q)) (xorl (view mac (lp_t p)) (E q)) (xorl (view key (lp_t p)) (E q))).
    { apply xorl_share. intros x Hx. unfold view. apply Hc. unfold lp_M. destruct (E1 q) as [G _]. specialize (G x Hx). lia. }
    unfold share2 in S. rewrite S, gfmul_lxor_l. set (a := gfmul (X q) d). set (c := gfmul _ d). set (f := pair_err _ _ _ _ _). set (g := xorl _ _). xor_solve.
  Qed.
End Attack.
Lemma pair_err_zero h s e b j : (0 < s < 2 ^ 128)%N -> (0 < e < 2 ^ 128)%N -> pair_err h s e b j = 0%N <-> same_pair h b j = false.
Proof.
  intros Hs He. unfold pair_err. destruct (same_pair h b j); [|now split]. split; [|discriminate].
  destruct (Nat.odd j); intro E; exfalso; [rewrite E in He; now apply (N.lt_irrefl 0)|].
  destruct (gfmul_nzd s e (proj2 Hs) (proj2 He) E) as [E'|E']; rewrite E' in *; [now apply (N.lt_irrefl 0)|now apply (N.lt_irrefl 0)].
Qed.
