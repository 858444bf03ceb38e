(** A verifier that knows the challenge of the GF(2^128) MPFSS check before it sends the tree messages. *)
From Coq Require Import NArith Lia List Bool Arith.
From Verif Require Import Word WordProofs GF128 GF128Ring GF128Field BoolModel BoolProofs BoolAlg TreeModel TreeSpec TreeProofs VoleModel VoleSpec PoolModel PoolProofs VoleTripleModel
  LpnProofs MpfssProofs VoleThms VoleF2kModel VoleF2kSpec VoleF2kProofs CheatProofs CheatF2kModel CheatF2kProofs MalVerModel MalVerSpec.
Import ListNotations.
Local Open Scope nat_scope.
Ltac Zify.zify_post_hook ::= idtac.

Definition sib (p : nat) : nat := if Nat.odd p then p - 1 else p + 1.
Lemma pair_cases j p : (j / 2 =? p / 2) = (j =? p) || (j =? sib p).
Proof.
  unfold sib. pose proof (Nat.div2_odd j) as A. pose proof (Nat.div2_odd p) as B. rewrite !Nat.div2_div in *.
  destruct (Nat.eqb_spec (j / 2) (p / 2)) as [E|E], (Nat.eqb_spec j p) as [F|F], (Nat.eqb_spec j (if Nat.odd p then p - 1 else p + 1)) as [G|G];
    cbn [orb]; try reflexivity; exfalso; destruct (Nat.odd j), (Nat.odd p); cbn [Nat.b2n] in *; try lia.
Qed.

Section Shift.
  Variables L R : N -> N.
  Lemma recon_loop_shift e (m m' : mem) (b : nat -> bool) depth : 
    (forall x, x < depth - 2 -> m' x = m x) -> m' (depth - 2) = N.lxor (m (depth - 2)) e ->
    forall cnt i fill t, 1 <= i -> i + S cnt = depth -> fill = punctured (i - 1) b -> forall j,
    recon_loop L R (S cnt) i depth b m' fill t j =
    N.lxor (recon_loop L R (S cnt) i depth b m fill t j) (if j =? sib (punctured (depth - 1) b) then e else 0%N).
  Proof.
    intros Hm He. induction cnt as [|cnt IH]; intros i fill t Hi Hd Hf j.
    - cbn [recon_loop]. unfold layer_recover. rewrite (proj2 (Nat.eqb_eq i (depth - 1))) by lia.
      replace (depth - 1) with i by lia. replace (i - 1) with (depth - 2) by lia. rewrite He.
      destruct i as [|i]; [lia|]. cbn [punctured]. replace (depth - 2) with i by lia. replace (S i - 1) with i in Hf by lia. rewrite <- Hf.
      unfold sib. destruct (b i); cbn [negb].
      + rewrite Nat.add_0_r. replace (Nat.odd (2 * fill)) with false by (rewrite Nat.odd_mul; reflexivity).
        set (t1 := mset (mset t _ _) _ _). unfold mset at 1 2. destruct (j =? 2 * fill + 1); [xor_solve|]. now rewrite N.lxor_0_r.
      + replace (Nat.odd (2 * fill + 1)) with true by (rewrite Nat.odd_add, Nat.odd_mul; reflexivity).
        replace (2 * fill + 1 - 1) with (2 * fill) by lia.
        set (t1 := mset (mset t _ _) _ _). unfold mset at 1 2. destruct (j =? 2 * fill); [xor_solve|]. now rewrite N.lxor_0_r.
    - remember (S cnt) as c eqn:Ec. cbn [recon_loop]. rewrite Hm by lia.
      assert (Hp : punctured i b = 2 * fill + (if b (i - 1) then 0 else 1)).
      { destruct i as [|i]; [lia|]. cbn [punctured]. replace (S i - 1) with i in * by lia. now rewrite Hf. }
      destruct (b (i - 1)); cbn [negb]; apply IH; try lia; replace (S i - 1) with i by lia; rewrite Hp; lia.
  Qed.
  Lemma ggm_recon_shift depth e (m m' : mem) (b : nat -> bool) t : 2 <= depth ->
    (forall x, x < depth - 2 -> m' x = m x) -> m' (depth - 2) = N.lxor (m (depth - 2)) e ->
    forall j, ggm_recon L R depth b m' t j = N.lxor (ggm_recon L R depth b m t j) (if j =? sib (punctured (depth - 1) b) then e else 0%N).
  Proof.
    intros Hd Hm He j. unfold ggm_recon. destruct depth as [|[|c]]; try lia. cbn [Nat.sub] in *.
    replace (c - 0) with c in * by lia. apply (recon_loop_shift e m m' b (S (S c))); cbn [Nat.sub]; rewrite ?Nat.sub_0_r; auto.
  Qed.
  Lemma sib_lt n p : p < 2 ^ S n -> sib p < 2 ^ S n.
  Proof.
    intro H. unfold sib. destruct (Nat.odd p) eqn:O; [lia|]. pose proof (Nat.div2_odd p) as B. rewrite O in B. cbn [Nat.b2n] in B.
    cbn [Nat.pow] in *. rewrite Nat.div2_div in B. lia.
  Qed.
  Lemma sib_odd p : Nat.odd (sib p) = negb (Nat.odd p).
  Proof.
    unfold sib. destruct (Nat.odd p) eqn:O.
    - pose proof (Nat.div2_odd p) as B. rewrite O in B. cbn [Nat.b2n] in B. rewrite B. replace (2 * Nat.div2 p + 1 - 1) with (2 * Nat.div2 p) by lia.
      rewrite Nat.odd_mul. reflexivity.
    - rewrite Nat.odd_add, O. reflexivity.
  Qed.
  Lemma sib_ne p : sib p <> p. Proof. intro E. pose proof (sib_odd p) as H. rewrite E in H. now destruct (Nat.odd p). Qed.
  Lemma punctured_odd h b : Nat.odd (punctured (S h) b) = negb (b h).
  Proof. cbn [punctured]. rewrite Nat.odd_add, Nat.odd_mul. now destruct (b h). Qed.

  (** the leaves of a prover whose lowest-level messages were shifted *)
  Lemma f2_recv_shift depth s e (g : tmsg) (b : nat -> bool) mac t0 : 2 <= depth ->
    let v := view_of depth b g in let v' := view_of depth b (shifted depth s e g) in
    forall j, f2_recv L R depth b (fun x => nth x (fst v') 0%N) (snd v') mac t0 j =
    N.lxor (f2_recv L R depth b (fun x => nth x (fst v) 0%N) (snd v) mac t0 j) (pair_err (depth - 1) s e b j).
  Proof.
    intros Hd v v' j. unfold f2_recv. rewrite get_index_ok. set (pos := punctured (depth - 1) b).
    set (m := fun x => nth x (fst v) 0%N). set (m' := fun x => nth x (fst v') 0%N).
    set (eb := if b (depth - 2) then e else gfmul s e).
    assert (Hm : forall x, x < depth - 2 -> m' x = m x).
    { intros x Hx. unfold m, m', v, v', view_of, shifted. cbn [fst q_m0 q_m1]. rewrite !nth_map_seq by lia. now rewrite (proj2 (Nat.eqb_neq _ _)) by lia. }
    assert (He : m' (depth - 2) = N.lxor (m (depth - 2)) eb).
    { unfold m, m', v, v', view_of, shifted, eb. cbn [fst q_m0 q_m1]. rewrite !nth_map_seq by lia. rewrite Nat.eqb_refl. now destruct (b (depth - 2)). }
    pose proof (ggm_recon_shift depth eb m m' b t0 Hd Hm He) as G. fold pos in G.
    set (t := ggm_recon L R depth b m t0) in *. set (t' := ggm_recon L R depth b m' t0) in *. clearbody t t'.
    assert (Hp : pos < 2 ^ (depth - 1)) by apply punctured_lt.
    assert (Hs : sib pos < 2 ^ (depth - 1)) by (revert Hp; replace (depth - 1) with (S (depth - 2)) by lia; apply sib_lt).
    assert (Ho : Nat.odd pos = negb (b (depth - 2))) by (unfold pos; replace (depth - 1) with (S (depth - 2)) by lia; apply punctured_odd).
    assert (Sv : snd v' = N.lxor (snd v) (N.lxor e (gfmul s e))) by reflexivity. rewrite Sv.
    unfold pair_err, same_pair. fold pos. rewrite pair_cases.
    destruct (Nat.eqb_spec j pos) as [->|Ne]; cbn [orb].
    - rewrite !mset_eq, !xor_loop_ok, !N.lxor_0_l. cbn [Nat.add]. unfold leave_n.
      rewrite (xsum_one (fun x => mset t' pos 0%N x) (fun x => mset t pos 0%N x) (2 ^ (depth - 1)) (sib pos) eb); auto.
      + rewrite Ho. unfold eb. generalize (xsum (fun x => mset t pos 0%N x) (2 ^ (depth - 1))). intro u. generalize (gfmul s e). intro w. generalize (snd v). intro z.
        destruct (b (depth - 2)); cbn [negb]; xor_solve.
      + intros x Hx Nx. destruct (Nat.eq_dec x pos) as [->|Np]; [now rewrite !mset_eq|]. rewrite !mset_neq by easy.
        now rewrite G, (proj2 (Nat.eqb_neq _ _) Nx), N.lxor_0_r.
      + rewrite !mset_neq by apply sib_ne. now rewrite G, Nat.eqb_refl.
    - rewrite !mset_neq by easy. rewrite G. destruct (Nat.eqb_spec j (sib pos)) as [->|Ns]; [|reflexivity].
      f_equal. rewrite sib_odd, Ho, negb_involutive. reflexivity.
  Qed.
End Shift.

(** * the check does not see the error *)
Lemma powers_step seed n : forall pw j, S j < n -> nth (S j) (gf_powers_from pw seed n) 0%N = gfmul (nth j (gf_powers_from pw seed n) 0%N) seed.
Proof.
  induction n as [|n IH]; intros pw j Hj; [lia|]. cbn [gf_powers_from nth]. destruct j as [|j].
  - destruct n; [lia|]. reflexivity.
  - rewrite <- IH by lia. reflexivity.
Qed.
Lemma f2_V_shift depth s e b (t t' : mem) : 2 <= depth -> (forall j, j < leave_n depth -> t' j = N.lxor (t j) (pair_err (depth - 1) s e b j)) ->
  f2_V depth s t' = f2_V depth s t.
Proof.
  intros Hd Ht. rewrite !f2_V_ok. set (c := gf_coeff_gen s (leave_n depth)). set (pos := punctured (depth - 1) b).
  pose proof (punctured_lt (depth - 1) b) as Hp. fold pos in Hp.
  set (k := pos / 2).
  assert (Hk : 2 * k + 1 < leave_n depth).
  { unfold leave_n. unfold k. pose proof (Nat.div2_odd pos) as B. rewrite Nat.div2_div in B. revert Hp.
    replace (depth - 1) with (S (depth - 2)) by lia. cbn [Nat.pow]. destruct (Nat.odd pos); cbn [Nat.b2n] in B; lia. }
  assert (Hc : nth (2 * k + 1) c 0%N = gfmul (nth (2 * k) c 0%N) s).
  { replace (2 * k + 1) with (S (2 * k)) by lia. unfold c, gf_coeff_gen. apply powers_step. lia. }
  assert (Sp : forall j, same_pair (depth - 1) b j = (j =? 2 * k) || (j =? 2 * k + 1)).
  { intro j. unfold same_pair. fold pos. fold k. pose proof (Nat.div2_odd j) as B. rewrite Nat.div2_div in B.
    destruct (Nat.eqb_spec (j / 2) k), (Nat.eqb_spec j (2 * k)), (Nat.eqb_spec j (2 * k + 1)); cbn [orb]; try reflexivity; exfalso;
      destruct (Nat.odd j); cbn [Nat.b2n] in B; lia. }
  set (d := fun j => gfmul (nth j c 0%N) (pair_err (depth - 1) s e b j)).
  rewrite (xsum_ext _ (fun j => N.lxor (gfmul (nth j c 0%N) (t j)) (d j))).
  2:{ intros j Hj. rewrite Ht by exact Hj. unfold d. apply gfmul_lxor_r. }
  rewrite xsum_lxor. set (u := gfmul (gfmul (nth (2 * k) c 0%N) s) e).
  assert (Z0 : forall n, xsum (fun _ => 0%N) n = 0%N) by (induction n as [|n IH]; cbn [xsum]; [|rewrite IH]; reflexivity).
  assert (D : xsum d (leave_n depth) = 0%N).
  { set (f1 := fun j => if j =? 2 * k then u else 0%N).
    rewrite (xsum_one d f1 (leave_n depth) (2 * k + 1) u).
    - rewrite (xsum_one f1 (fun _ => 0%N) (leave_n depth) (2 * k) u); [|lia| |].
      + rewrite Z0, N.lxor_0_l. apply N.lxor_nilpotent.
      + intros x _ Nx. unfold f1. now rewrite (proj2 (Nat.eqb_neq _ _) Nx).
      + unfold f1. now rewrite Nat.eqb_refl.
    - exact Hk.
    - intros x _ Nx. unfold d, f1, pair_err. rewrite Sp, (proj2 (Nat.eqb_neq _ _) Nx), orb_false_r.
      destruct (Nat.eqb_spec x (2 * k)) as [->|_]; [|apply gfmul_0_r].
      replace (Nat.odd (2 * k)) with false by (rewrite Nat.odd_mul; reflexivity). unfold u. now rewrite gfmul_assoc.
    - unfold d, f1, pair_err. rewrite Sp, Nat.eqb_refl, orb_true_r.
      replace (Nat.odd (2 * k + 1)) with true by (rewrite Nat.odd_add, Nat.odd_mul; reflexivity).
      rewrite (proj2 (Nat.eqb_neq (2 * k + 1) (2 * k))) by lia. now rewrite N.lxor_0_l, Hc. }
  now rewrite D, N.lxor_0_r.
Qed.
