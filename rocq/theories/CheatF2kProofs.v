(** The GF(2^128) keys of a verifier whose correlation generator ran against an arbitrary prover. *)
From Coq Require Import NArith Lia List Bool Arith.
From Verif Require Import Word WordProofs GF128 GF128Ring GF128Field BoolModel BoolProofs BoolAlg TreeModel TreeSpec TreeProofs VoleModel VoleSpec PoolModel PoolProofs VoleTripleModel
  LpnProofs MpfssProofs VoleThms VoleF2kModel VoleF2kSpec VoleF2kProofs CheatProofs CheatF2kModel.
From Verif Require HideProofs.
Import ListNotations.
Local Open Scope nat_scope.
Ltac Zify.zify_post_hook ::= idtac.

(** * One stage *)
Section Stage.
  Variables (L R : N -> N) (depth : nat) (seed : nat -> N) (b : nat -> nat -> bool) (key : mem).
  Hypothesis Hdep : 2 <= depth.
  Notation lv := (leave_n depth).
  Notation leaf2 s j := (node L R (seed s) (depth - 1) j).
  Definition view2_ok (s : nat) (v : list N * N) : Prop :=
    (forall x, x < depth - 1 -> nth x (fst v) 0%N =
       if b s x then xsum (fun y => node L R (seed s) (S x) (2 * y + 1)) (2 ^ x) else xsum (fun y => node L R (seed s) (S x) (2 * y)) (2 ^ x)) /\
    snd v = N.lxor (xsum (fun j => leaf2 s j) lv) (key s).
  Lemma s2_trees_ok ts : forall Y,
    let '(Y', vs) := s2_trees L R depth ts seed b key Y in
    (forall s j, j < lv -> Y' (s * lv + j) = if mem_nat s (map fst ts) then leaf2 s j else Y (s * lv + j)) /\
    (forall k s c, nth_error ts k = Some (s, c) -> exists v, nth_error vs k = Some v /\ view2_ok s v).
  Proof.
    induction ts as [|[s c] ts IH]; intros Y; cbn [s2_trees map fst mem_nat existsb].
    - split; [auto|]. intros [|k] s c E; discriminate.
    - pose proof (f2_send_ok L R depth (seed s) Hdep (key s) (view Y (s * lv))) as T.
      destruct (f2_send L R depth (seed s) (key s) (view Y (s * lv))) as [[[t m0] m1] sum]. destruct T as (T1 & T2 & T3 & T4).
      specialize (IH (store Y (s * lv) lv t)).
      destruct (s2_trees L R depth ts seed b key (store Y (s * lv) lv t)) as [Y' vs]. destruct IH as [A B]. split.
      + intros s' j Hj. rewrite (A s' j Hj). fold (mem_nat s' (map fst ts)). rewrite store_at by (auto using lv_pos).
        destruct (Nat.eqb_spec s' s) as [->|Ne]; cbn [orb]; [rewrite T1 by easy; now destruct (mem_nat s (map fst ts))|reflexivity].
      + intros [|k] s' c' E; cbn [nth_error] in *; [|now apply (B k s' c')].
        injection E as <- <-. eexists. split; [reflexivity|]. split; [|exact T4].
        intros x Hx. cbn [fst]. rewrite nth_map_seq by easy. destruct (T3 x Hx) as [-> ->]. reflexivity.
  Qed.
  Variables (d : N) (vs : list (list N * N)) (val mac : mem).
  Definition leaf2R (s j : nat) : N := if j =? punctured (depth - 1) (b s) then N.lxor (leaf2 s j) (gfmul (val s) d) else leaf2 s j.
  Lemma r2_trees_ok ts : (forall s, In s (map fst ts) -> view2_ok s (nth s vs ([], 0%N)) /\ share2 d (val s) (mac s) (key s)) -> forall Z,
    forall s j, j < lv -> r2_trees L R depth ts b vs mac Z (s * lv + j) = if mem_nat s (map fst ts) then leaf2R s j else Z (s * lv + j).
  Proof.
    induction ts as [|[a c] ts IH]; intros Hv Z s j Hj; cbn [r2_trees map fst mem_nat existsb]; [reflexivity|].
    rewrite IH by (auto; intros x Hx; apply Hv; now right). fold (mem_nat s (map fst ts)).
    rewrite store_at by (auto using lv_pos).
    destruct (Nat.eqb_spec s a) as [->|Ne]; cbn [orb]; [|reflexivity].
    destruct (Hv a (or_introl eq_refl)) as [[V1 V2] Sh].
    destruct (f2_recv_ok L R depth (seed a) d Hdep (b a) (fun x => nth x (fst (nth a vs ([], 0%N))) 0%N) (snd (nth a vs ([], 0%N))) (key a) (val a) (mac a)
      (view Z (a * lv)) V1 V2 Sh) as (R1 & R2 & _).
    destruct (mem_nat a (map fst ts)); [reflexivity|]. unfold leaf2R.
    destruct (Nat.eqb_spec j (punctured (depth - 1) (b a))) as [->|Nj]; [exact R2|now apply R1].
  Qed.
End Stage.

Section Extract.
  Variables (L R : N -> N) (word : nat -> nat -> N) (threads : nat) (bits : nat -> nat -> nat -> bool) (views : nat -> list (list N * N)).
  Hypothesis Hthr : 1 <= threads.
  Lemma sparse2_ok w p i d key val mac Y0 Z0 : lp_wf p -> corr2 d (lp_M p) key val mac ->
    snd (s2_sparse L R threads bits w p i key Y0) = views i ->
    forall s j, s < lp_t p -> j < leave_n (lp_log p + 1) ->
    fst (s2_sparse L R threads bits w p i key Y0) (s * leave_n (lp_log p + 1) + j) = node L R (k_seed w i s) (lp_log p + 1 - 1) j /\
    r2_trees L R (lp_log p + 1) (tree_tasks threads (lp_t p)) (bits i) (views i) mac Z0 (s * leave_n (lp_log p + 1) + j) =
    leaf2R L R (lp_log p + 1) (k_seed w i) (bits i) d val s j.
  Proof.
    intros (Hn & Hl & Hk & Hk31) Hc Hv s j Hs Hj. unfold s2_sparse, lp_M in *.
    assert (Hdep : 2 <= lp_log p + 1) by lia.
    pose proof (s2_trees_ok L R (lp_log p + 1) (k_seed w i) (bits i) key Hdep (tree_tasks threads (lp_t p)) Y0) as T.
    destruct (s2_trees L R (lp_log p + 1) (tree_tasks threads (lp_t p)) (k_seed w i) (bits i) key Y0) as [Y' vs].
    destruct T as [A B]. cbn [fst snd] in *. subst vs.
    pose proof (tasks_fst threads (lp_t p) Hthr) as TF.
    assert (I : mem_nat s (map fst (tree_tasks threads (lp_t p))) = true) by (apply mem_nat_In; rewrite TF; apply in_seq; lia).
    split; [now rewrite A, I by exact Hj|].
    rewrite (r2_trees_ok L R (lp_log p + 1) (k_seed w i) (bits i) key Hdep d (views i) val mac); [now rewrite I| |exact Hj].
    intros x Hx. rewrite TF in Hx. apply in_seq in Hx. split; [|apply Hc; lia].
    destruct (tasks_nth threads (lp_t p) x Hthr ltac:(lia)) as [c Ec]. destruct (B x x c Ec) as (v & Ev & Vo).
    now rewrite (nth_error_nth (views i) x ([], 0%N) Ev).
  Qed.
  Lemma stage2_ok w p i d key val mac Y0 Z0 : lp_wf p -> corr2 d (lp_M p) key val mac ->
    snd (s2_sparse L R threads bits w p i key Y0) = views i ->
    let o := r2_stage L R word threads bits views p i (val, mac) Z0 in
    corr2 d (lp_n p) (s2_stage L R word threads bits w p i key Y0) (fst o) (snd o).
  Proof.
    intros Wf Hc Hv o. pose proof (sparse2_ok w p i d key val mac Y0 Z0 Wf Hc Hv) as MP.
    destruct Wf as (Hn & Hl & Hk & Hk31). unfold o, r2_stage, s2_stage. cbn [fst snd]. clear o.
    set (Y := fst (s2_sparse L R threads bits w p i key Y0)) in *.
    set (Z := r2_trees L R (lp_log p + 1) (tree_tasks threads (lp_t p)) (bits i) (views i) mac Z0) in *.
    set (X := f2_set_x (lp_log p + 1) (r2_rnd (bits i)) (lp_t p) 0 val (fun _ => 0%N)).
    assert (C0 : corr2 d (lp_n p) Y X Z).
    { intros q Hq. assert (Hp : leave_n (lp_log p + 1) <> 0) by (pose proof (lv_pos (lp_log p + 1)); lia).
      assert (Hq' : q / leave_n (lp_log p + 1) < lp_t p).
      { apply Nat.div_lt_upper_bound; [easy|]. unfold leave_n. rewrite Nat.add_sub. lia. }
      pose proof (Nat.mod_upper_bound q _ Hp) as Hr.
      destruct (MP _ _ Hq' Hr) as [A B].
      pose proof (f2_set_x_ok (lp_log p + 1) (r2_rnd (bits i)) val (lp_t p) 0 (fun _ => 0%N) (q / leave_n (lp_log p + 1)) _ Hr) as E. fold X in E.
      rewrite (Nat.mul_comm (q / _)), <- Nat.div_mod_eq in A, B, E. unfold share2. rewrite A, B, E, N.lxor_0_l.
      replace (0 <=? q / leave_n (lp_log p + 1)) with true by reflexivity. rewrite Nat.add_0_l.
      rewrite (proj2 (Nat.ltb_lt _ _) Hq'). cbn [andb]. unfold leaf2R, MpfssProofs.pos. cbn [r_b r2_rnd].
      destruct (_ =? _); [reflexivity|]. now rewrite gfmul_0_l, N.lxor_0_r. }
    clearbody X Y Z. clear MP. destruct (f2_lpn_ok word (lp_k p) (lp_n p) threads Hk Hk31) as (E & E1 & E2).
    intros q Hq. rewrite !E2. apply share2_add; [now apply C0|]. apply xorl_share. intros x Hx. unfold view. apply Hc. unfold lp_M.
    destruct (E1 q) as [G _]. specialize (G x Hx). lia.
  Qed.
End Extract.

(** * All runs *)
Section Runs.
  Variables (L R : N -> N) (word : nat -> nat -> N) (threads : nat) (pre main : lpn_param) (bits : nat -> nat -> nat -> bool).
  Variables (views : nat -> list (list N * N)) (cot : mem) (zbuf : nat -> mem).
  Hypothesis Hthr : 1 <= threads.
  Hypothesis Wp : lp_wf pre.
  Hypothesis Wm : lp_wf main.
  Hypothesis Sz1 : lp_M main <= lp_n pre.
  Hypothesis Sz2 : lp_M main <= lp_n main.
  Notation rin i := (r2_in L R word threads pre main bits views cot zbuf i).
  Notation sin w i := (s2_in L R word threads pre main bits w i).
  Notation par i := (s2_par pre main i).
  Definition fits2 (w : kworld) : Prop :=
    (forall i, s2_view L R word threads pre main bits w i = views i) /\
    (forall j, j < 128 * lp_M pre -> cot j = N.lxor (k_cot w j) (if getLSB (cot j) then k_d w else 0%N)).
  Section W.
    Variable w : kworld.
    Hypothesis Hw : fits2 w.
    Lemma base2_ok : corr2 (k_d w) (lp_M pre) (s2_base w) (f2_base_val cot) (f2_base_mac cot).
    Proof. intros i Hi. apply f2_base_ok. intros j Hj. apply (proj2 Hw). lia. Qed.
    Lemma view2_at i : snd (s2_sparse L R threads bits w main (i + 1) (s2_seeds L R word threads pre main bits w i) (k_buf w i)) = views (i + 1).
    Proof. rewrite Nat.add_comm. exact (proj1 Hw (1 + i)). Qed.
    Lemma in2_ok i : corr2 (k_d w) (lp_M (par i)) (sin w i) (fst (rin i)) (snd (rin i)).
    Proof.
      destruct i as [|i]; cbn [s2_par s2_in r2_in fst snd]; [exact base2_ok|].
      induction i as [|i IH].
      - cbn [s2_seeds r2_seeds]. intros q Hq. 
        pose proof (stage2_ok L R word threads bits views Hthr w pre 0 (k_d w) _ _ _ (fun _ => 0%N) (fun _ => 0%N) Wp base2_ok (proj1 Hw 0)) as S.
        apply S. lia.
      - cbn [s2_seeds r2_seeds]. set (vm := r2_seeds L R word threads pre main bits views cot zbuf i) in *.
        pose proof (stage2_ok L R word threads bits views Hthr w main (i + 1) (k_d w) _ _ _ (k_buf w i) (zbuf i) Wm IH (view2_at i)) as S. cbv zeta in *.
        rewrite <- surjective_pairing in S. cbn [fst snd]. intros q Hq. rewrite !memcpy_in by lia. apply S. unfold lp_limit; lia.
    Qed.
    Lemma out2_ok i p : p < lp_n main ->
      share2 (k_d w) (r2_val L R word threads pre main bits views cot zbuf i p) (r2_mac L R word threads pre main bits views cot zbuf i p)
             (s2_key L R word threads pre main bits w i p).
    Proof.
      intro Hp. pose proof (in2_ok (S i)) as IH. cbn [s2_par s2_in r2_in] in IH.
      pose proof (stage2_ok L R word threads bits views Hthr w main (i + 1) (k_d w) _ _ _ (k_buf w i) (zbuf i) Wm IH (view2_at i)) as S. cbv zeta in *.
      rewrite <- surjective_pairing in S. exact (S p Hp).
    Qed.
    (** the block hashed in the check *)
    Lemma msgs2_ok depth ts dig Y : NoDup (map fst ts) -> forall V s,
      s2_msgs depth ts dig Y V s = if mem_nat s (map fst ts) then f2_V depth (dig s) (view Y (s * leave_n depth)) else V s.
    Proof.
      induction ts as [|[a c] ts IH]; intros Nd V s; cbn [s2_msgs map fst mem_nat existsb]; [reflexivity|].
      inversion Nd as [|? ? Na Nd']; subst. rewrite IH by easy. fold (mem_nat s (map fst ts)). destruct (Nat.eqb_spec s a) as [->|Ne]; cbn [orb].
      - replace (mem_nat a (map fst ts)) with false; [now rewrite mset_eq|].
        symmetry. apply not_true_is_false. intro E. apply Na. now apply mem_nat_In in E.
      - destruct (mem_nat s (map fst ts)); [reflexivity|]. now rewrite mset_neq.
    Qed.
    Definition r2_word (dig : nat -> nat -> N) (i : nat) : N :=
      let p := par i in
      N.lxor (snd (rin i) (lp_t p)) (xsum (fun s => f2_V (lp_log p + 1) (dig i s)
        (view (r2_trees L R (lp_log p + 1) (tree_tasks threads (lp_t p)) (bits i) (views i) (snd (rin i)) (fun _ => 0%N)) (s * leave_n (lp_log p + 1)))) (lp_t p)).
    Lemma reply2_ok dig i xs :
      s2_reply L R word threads pre main bits w dig i xs =
      N.lxor (r2_word dig i) (gfmul (k_d w) (N.lxor (r2_star L R word threads pre main bits views cot zbuf dig i) xs)).
    Proof.
      unfold s2_reply, r2_word, r2_star, f2_vb, f2_x_star. set (p := par i).
      assert (Wf : lp_wf p) by (unfold p; destruct i; assumption).
      pose proof (in2_ok i) as Hin. fold p in Hin.
      assert (Hv : snd (s2_sparse L R threads bits w p i (sin w i) (s2_buf w i)) = views i) by exact (proj1 Hw i).
      pose proof (sparse2_ok L R word threads bits views Hthr w p i (k_d w) _ _ _ (s2_buf w i) (fun _ => 0%N) Wf Hin Hv) as MP.
      set (Y := fst (s2_sparse L R threads bits w p i (sin w i) (s2_buf w i))) in *.
      set (Z := r2_trees L R (lp_log p + 1) (tree_tasks threads (lp_t p)) (bits i) (views i) (snd (rin i)) (fun _ => 0%N)) in *.
      pose proof (tasks_fst threads (lp_t p) Hthr) as TF.
      assert (Nd : NoDup (map fst (tree_tasks threads (lp_t p)))) by (rewrite TF; apply seq_NoDup).
      rewrite xor_loop_ok, f2_bca_ok, N.lxor_0_l. cbn [Nat.add].
      assert (T : share2 (k_d w) (fst (rin i) (lp_t p)) (snd (rin i) (lp_t p)) (sin w i (lp_t p))) by (apply Hin; unfold lp_M; lia).
      unfold share2 in T. rewrite T.
      set (X := fun s => f2_chi_alpha (lp_log p + 1) (dig i s) (bits i s)).
      assert (SV : xsum (fun x => s2_msgs (lp_log p + 1) (tree_tasks threads (lp_t p)) (dig i) Y (fun _ => 0%N) x) (lp_t p) =
        N.lxor (xsum (fun s => f2_V (lp_log p + 1) (dig i s) (view Z (s * leave_n (lp_log p + 1)))) (lp_t p))
               (gfmul (k_d w) (xsum (fun x => gfmul (fst (rin i) x) (X x)) (lp_t p)))).
      { rewrite <- xsum_mul, <- xsum_lxor. apply xsum_ext. intros s Hs. rewrite msgs2_ok by exact Nd.
        assert (I : mem_nat s (map fst (tree_tasks threads (lp_t p))) = true) by (apply mem_nat_In; rewrite TF; apply in_seq; lia).
        rewrite I, !f2_V_ok. unfold X, f2_chi_alpha. rewrite get_index_ok.
        pose proof (punctured_lt (lp_log p + 1 - 1) (bits i s)) as Pl.
        apply xsum_one with (p := punctured (lp_log p + 1 - 1) (bits i s)).
        - exact Pl.
        - intros x Hx Ne. unfold view. destruct (MP s x Hs Hx) as [-> ->]. unfold leaf2R. now rewrite (proj2 (Nat.eqb_neq _ _) Ne).
        - unfold view. destruct (MP s _ Hs Pl) as [-> ->]. unfold leaf2R. rewrite Nat.eqb_refl, gfmul_lxor_r.
          set (c := nth _ _ _). set (a := node _ _ _ _ _). set (v := fst (rin i) s).
          replace (gfmul (k_d w) (gfmul v c)) with (gfmul c (gfmul v (k_d w))); [xor_solve|].
          rewrite (gfmul_comm c), <- (gfmul_assoc (k_d w)), (gfmul_comm (k_d w) v). reflexivity. }
      rewrite SV, !gfmul_lxor_r, (gfmul_comm (fst (rin i) (lp_t p)) (k_d w)).
      set (a := gfmul (k_d w) (xsum _ _)). set (b := gfmul (k_d w) (fst (rin i) (lp_t p))). set (e := gfmul (k_d w) xs). set (f := xsum _ _).
      set (g := sin w i (lp_t p)). xor_solve.
    Qed.
  End W.
End Runs.
(** the reply is injective in the key unless the word is the expected one *)
Lemma reply2_inj a x0 xs d1 d2 : (d1 < 2 ^ 128)%N -> (d2 < 2 ^ 128)%N -> (x0 < 2 ^ 128)%N -> (xs < 2 ^ 128)%N -> xs <> x0 ->
  N.lxor a (gfmul d1 (N.lxor x0 xs)) = N.lxor a (gfmul d2 (N.lxor x0 xs)) -> d1 = d2.
Proof.
  intros H1 H2 H3 H4 Ne E. set (u := N.lxor x0 xs) in *.
  assert (Hu : (u < 2 ^ 128)%N) by (now apply lxor_lt).
  assert (E' : gfmul d1 u = gfmul d2 u).
  { rewrite <- (N.lxor_0_l (gfmul d1 u)), <- (N.lxor_nilpotent a), N.lxor_assoc, E, <- N.lxor_assoc, N.lxor_nilpotent. apply N.lxor_0_l. }
  assert (Z : gfmul (N.lxor d1 d2) u = 0%N) by (rewrite gfmul_lxor_l, E'; apply N.lxor_nilpotent).
  assert (Hd : (N.lxor d1 d2 < 2 ^ 128)%N) by (now apply lxor_lt).
  destruct (gfmul_nzd _ _ Hd Hu Z) as [Q|Q]; apply N.lxor_eq in Q; [exact Q|]. exfalso. apply Ne. now symmetry.
Qed.

(** * The prover's words are field elements *)
Lemma xorl_lt v e : (forall x, In x e -> (v x < 2 ^ 128)%N) -> (xorl v e < 2 ^ 128)%N.
Proof. induction e as [|x e IH]; intro H; cbn [xorl]; [reflexivity|]. apply lxor_lt; [apply H; now left|]. apply IH. intros; apply H; now right. Qed.
Lemma xsum_lt f n : (forall x, x < n -> (f x < 2 ^ 128)%N) -> (xsum f n < 2 ^ 128)%N.
Proof. induction n as [|n IH]; intro H; cbn [xsum]; [reflexivity|]. apply lxor_lt; [apply IH; intros; apply H; lia|apply H; lia]. Qed.
Section Bounds.
  Variables (L R : N -> N) (word : nat -> nat -> N) (threads : nat) (pre main : lpn_param) (bits : nat -> nat -> nat -> bool).
  Variables (views : nat -> list (list N * N)) (cot : mem) (zbuf : nat -> mem).
  Hypothesis Wp : lp_wf pre.
  Hypothesis Wm : lp_wf main.
  Hypothesis Sz1 : lp_M main <= lp_n pre.
  Hypothesis Sz2 : lp_M main <= lp_n main.
  Lemma stage2_lt p i val mac Z0 : lp_wf p -> (forall x, x < lp_M p -> (val x < 2 ^ 128)%N) ->
    forall q, q < lp_n p -> (fst (r2_stage L R word threads bits views p i (val, mac) Z0) q < 2 ^ 128)%N.
  Proof.
    intros (Hn & Hl & Hk & Hk31) Hv q Hq. unfold r2_stage, lp_M in *. cbn [fst snd].
    destruct (f2_lpn_ok word (lp_k p) (lp_n p) threads Hk Hk31) as (E & E1 & E2). rewrite E2. apply lxor_lt.
    - assert (Hp : leave_n (lp_log p + 1) <> 0) by (pose proof (lv_pos (lp_log p + 1)); lia).
      pose proof (Nat.mod_upper_bound q _ Hp) as Hr.
      pose proof (f2_set_x_ok (lp_log p + 1) (r2_rnd (bits i)) val (lp_t p) 0 (fun _ => 0%N) (q / leave_n (lp_log p + 1)) _ Hr) as E0.
      rewrite (Nat.mul_comm (q / _)), <- Nat.div_mod_eq in E0. rewrite E0, N.lxor_0_l.
      destruct ((0 <=? q / leave_n (lp_log p + 1)) && (q / leave_n (lp_log p + 1) <? 0 + lp_t p)) eqn:B; cbn [andb]; [|reflexivity].
      destruct (_ =? _); [|reflexivity]. apply andb_true_iff in B. destruct B as [_ B]. apply Nat.ltb_lt in B. apply Hv. lia.
    - apply xorl_lt. intros x Hx. unfold view. apply Hv. destruct (E1 q) as [G _]. specialize (G x Hx). lia.
  Qed.
  Lemma in2_lt i q : q < lp_M (s2_par pre main i) -> (fst (r2_in L R word threads pre main bits views cot zbuf i) q < 2 ^ 128)%N.
  Proof.
    assert (B0 : forall q, (f2_base_val cot q < 2 ^ 128)%N).
    { intro x. unfold f2_base_val. set (l := map _ _). assert (El : length l = 128) by (unfold l; now rewrite map_length, seq_length).
      rewrite ch_bits_word by exact El. pose proof (HideProofs.ch_word_lt l) as Q. now rewrite El in Q. }
    destruct i as [|i]; cbn [s2_par r2_in fst]; [intros _; apply B0|].
    revert q. induction i as [|i IH]; intros q Hq; cbn [r2_seeds].
    - apply stage2_lt; auto. lia.
    - cbn [fst]. rewrite memcpy_in by lia. rewrite (surjective_pairing (r2_seeds L R word threads pre main bits views cot zbuf i)).
      apply stage2_lt; [exact Wm|exact IH|unfold lp_limit; lia].
  Qed.
  Lemma star2_lt dig i : (r2_star L R word threads pre main bits views cot zbuf dig i < 2 ^ 128)%N.
  Proof.
    unfold r2_star, f2_x_star. rewrite f2_bca_ok, N.lxor_0_l. apply lxor_lt.
    - apply xsum_lt. intros. apply gfmul_lt.
    - apply in2_lt. unfold lp_M. lia.
  Qed.
End Bounds.

(** * The two-party run of VoleF2kModel *)
Lemma run_trees2_fst L R H Hs tree_n depth rnd b key mac : forall ts Y Z V W X,
  fst (fst (fst (fst (f2_run_trees L R H Hs tree_n depth rnd ts key mac Y Z V W X)))) = fst (s2_trees L R depth ts (r_seed rnd) b key Y).
Proof.
  induction ts as [|[s c] ts IH]; intros Y Z V W X; cbn [f2_run_trees s2_trees fst]; [reflexivity|].
  unfold f2_tree_pair at 1. destruct (f2_send L R depth (r_seed rnd s) (key s) (view Y (s * leave_n depth))) as [[[t m0] m1] sum].
  rewrite IH. destruct (s2_trees L R depth ts (r_seed rnd) b key (store Y (s * leave_n depth) (leave_n depth) t)). reflexivity.
Qed.
Lemma set_x_bits depth rnd val : forall cnt i out, f2_set_x depth rnd cnt i val out = f2_set_x depth (r2_rnd (r_b rnd)) cnt i val out.
Proof. induction cnt as [|c IH]; intros i out; cbn [f2_set_x]; [reflexivity|]. apply IH. Qed.
Section Honest.
  Variables (L R H Hs : N -> N) (word : nat -> nat -> N) (threads : nat) (pre main : lpn_param) (rnd : nat -> trand) (d : N).
  Variables (cotA cotB : mem) (garbage : nat -> mem).
  Notation bits := (fun i => r_b (rnd i)).
  Notation w := {| k_d := d; k_cot := cotB; k_seed := fun i => r_seed (rnd i); k_buf := fun i => garbage (2 * i) |}.
  Notation zbuf := (fun i => garbage (2 * i + 1)).
  Lemma stage2_run b views p i key val mac y z : let o := f2_stage L R H Hs word threads rnd d p i key val mac y z in
    fst (fst (fst o)) = s2_stage L R word threads b w p i key y /\
    snd (fst o) = fst (r2_stage L R word threads bits views p i (val, mac) z).
  Proof.
    unfold f2_stage, f2_extend, f2_mpfss, s2_stage, s2_sparse, r2_stage. cbn [k_seed].
    pose proof (run_trees2_fst L R H Hs (lp_t p) (lp_log p + 1) (rnd i) (b i) key mac (tree_tasks threads (lp_t p)) y z (fun _ => 0%N) (fun _ => 0%N) (fun _ => 0%N)) as E.
    destruct (f2_run_trees _ _ _ _ _ _ _ _ _ _ _ _ _ _ _) as [[[[Y Z] V] W] X]. cbn [fst snd] in *. rewrite <- E, <- set_x_bits. auto.
  Qed.
  Lemma seeds2_run b views i : let st := f2_seeds L R H Hs word threads pre main rnd d cotA cotB garbage i in
    fst (fst st) = s2_seeds L R word threads pre main b w i /\
    snd (fst st) = fst (r2_seeds L R word threads pre main bits views cotA zbuf i).
  Proof.
    induction i as [|i IH]; cbn [f2_seeds s2_seeds r2_seeds].
    - unfold f2_setup. 
      pose proof (stage2_run b views pre 0 (f2_base_mac cotB) (f2_base_val cotA) (f2_base_mac cotA) (fun _ => 0%N) (fun _ => 0%N)) as E.
      destruct (f2_stage _ _ _ _ _ _ _ _ _ _ _ _ _ _ _) as [[[y z] x] ok]. cbn [fst snd] in *. exact E.
    - cbv zeta in *. unfold f2_step. destruct (f2_seeds L R H Hs word threads pre main rnd d cotA cotB garbage i) as [[pk pv] pm]. cbn [fst snd] in IH.
      destruct IH as [-> ->]. set (vm := r2_seeds L R word threads pre main bits views cotA zbuf i).
      pose proof (stage2_run b views main (i + 1) (s2_seeds L R word threads pre main b w i) (fst vm) pm (garbage (2 * i)) (garbage (2 * i + 1))) as E.
      destruct (f2_stage _ _ _ _ _ _ _ _ _ _ _ _ _ _ _) as [[[y z] x] ok]. cbn [fst snd k_buf] in *. destruct E as [-> ->]. split; reflexivity.
  Qed.
  Lemma run2 b views i : let st := fst (fst (f2_step L R H Hs word threads main rnd d garbage i (f2_seeds L R H Hs word threads pre main rnd d cotA cotB garbage i))) in
    fst (fst st) = s2_key L R word threads pre main b w i /\
    snd (fst st) = r2_val L R word threads pre main bits views cotA zbuf i.
  Proof.
    pose proof (seeds2_run b views i) as S. cbv zeta in *. unfold s2_key, r2_val, r2_out, f2_step.
    destruct (f2_seeds L R H Hs word threads pre main rnd d cotA cotB garbage i) as [[pk pv] pm]. cbn [fst snd] in S. destruct S as [-> ->].
    set (vm := r2_seeds L R word threads pre main bits views cotA zbuf i).
    pose proof (stage2_run b views main (i + 1) (s2_seeds L R word threads pre main b w i) (fst vm) pm (garbage (2 * i)) (garbage (2 * i + 1))) as E.
    destruct (f2_stage _ _ _ _ _ _ _ _ _ _ _ _ _ _ _) as [[[y z] x] ok]. cbn [fst snd k_buf] in *. destruct E as [-> ->]. split; reflexivity.
  Qed.
End Honest.
