(** Openings, the prover's own tests and the bulk extension of UnusedModel. *)
From Coq Require Import NArith ZArith Lia List Bool Arith.
From Verif Require Import Word WordProofs FpModel GF128 GF128Ring GF128Field BoolModel ArithModel ArithSpec TreeModel VoleModel VoleSpec
  VoleF2kSpec PoolModel PoolSpec PoolProofs VoleThms2 UnusedModel UnusedSpec.
Import ListNotations.
Local Open Scope nat_scope.

(** * openings *)
Lemma mac_valid_iff d key x m : mac_valid d key (x, m) = true <-> share2 d x m key.
Proof. unfold mac_valid, share2. cbn [fst snd]. rewrite N.eqb_eq, N.lxor_comm. split; intro; now symmetry. Qed.
Lemma two_shares d x m x' m' key : (d < 2 ^ 128)%N -> (x < 2 ^ 128)%N -> (x' < 2 ^ 128)%N -> x <> x' ->
  share2 d x m key -> share2 d x' m' key -> gfmul (N.lxor x x') d = N.lxor m m'.
Proof.
  intros Hd Hx Hx' Ne A B. unfold share2 in *. subst m m'. rewrite gfmul_lxor_l.
  apply N.bits_inj. intro i. rewrite !N.lxor_spec. destruct (N.testbit key i), (N.testbit (gfmul x d) i), (N.testbit (gfmul x' d) i); reflexivity.
Qed.
Lemma one_key d1 d2 x m x' m' k1 k2 : (d1 < 2 ^ 128)%N -> (d2 < 2 ^ 128)%N -> (x < 2 ^ 128)%N -> (x' < 2 ^ 128)%N -> x <> x' ->
  share2 d1 x m k1 -> share2 d2 x m k2 -> mac_valid d1 k1 (x', m') = true -> mac_valid d2 k2 (x', m') = true -> d1 = d2.
Proof.
  intros H1 H2 Hx Hx' Ne A1 A2 B1 B2. rewrite mac_valid_iff in B1, B2.
  pose proof (two_shares d1 x m x' m' k1 H1 Hx Hx' Ne A1 B1) as E1. pose proof (two_shares d2 x m x' m' k2 H2 Hx Hx' Ne A2 B2) as E2.
  assert (Q : gfmul (N.lxor x x') (N.lxor d1 d2) = 0%N).
  { rewrite gfmul_lxor_r, E1, E2. apply N.lxor_nilpotent. }
  apply gfmul_nzd in Q; [|now apply lxor_lt|now apply lxor_lt].
  destruct Q as [Q|Q]; apply N.lxor_eq in Q; [contradiction|easy].
Qed.
Lemma f2k_chk_none d keys : forall i recv, length recv = length keys ->
  f2k_chk d i keys recv = None <-> forall j, j < length keys -> share2 d (fst (nth j recv (0, 0)%N)) (snd (nth j recv (0, 0)%N)) (nth j keys 0%N).
Proof.
  induction keys as [|k ks IH]; intros i recv Hl; destruct recv as [|[v m] rs]; cbn [length] in Hl; try discriminate.
  - cbn. split; [intros _ j Hj; lia|reflexivity].
  - injection Hl as Hl. cbn [f2k_chk]. destruct (N.eqb_spec (N.lxor (gfmul v d) k) m) as [E|E].
    + rewrite IH by easy. split.
      * intros H [|j] Hj; cbn [nth fst snd]; [unfold share2; rewrite N.lxor_comm; now symmetry|apply H; cbn [length] in Hj; lia].
      * intros H j Hj. apply (H (S j)). cbn [length]. lia.
    + split; [discriminate|]. intro H. exfalso. apply E. specialize (H 0 ltac:(cbn [length]; lia)). cbn [nth fst snd] in H. unfold share2 in H.
      rewrite N.lxor_comm. now symmetry.
Qed.
Lemma f2k_chk_some d keys : forall i recv j, length recv = length keys -> f2k_chk d i keys recv = Some j ->
  i <= j < i + length keys /\ ~ share2 d (fst (nth (j - i) recv (0, 0)%N)) (snd (nth (j - i) recv (0, 0)%N)) (nth (j - i) keys 0%N) /\
  forall l, l < j - i -> share2 d (fst (nth l recv (0, 0)%N)) (snd (nth l recv (0, 0)%N)) (nth l keys 0%N).
Proof.
  induction keys as [|k ks IH]; intros i recv j Hl; destruct recv as [|[v m] rs]; cbn [length] in Hl; try discriminate.
  injection Hl as Hl. cbn [f2k_chk]. destruct (N.eqb_spec (N.lxor (gfmul v d) k) m) as [E|E]; intro H.
  - destruct (IH _ _ _ Hl H) as (A & B & C). cbn [length]. split; [lia|]. replace (j - i) with (S (j - S i)) by lia. cbn [nth]. split; [exact B|].
    intros [|l] Hq; cbn [nth fst snd]; [unfold share2; rewrite N.lxor_comm; now symmetry|apply C; lia].
  - injection H as <-. cbn [length]. rewrite Nat.sub_diag. cbn [nth fst snd]. split; [lia|]. split; [|lia].
    intro S. apply E. unfold share2 in S. rewrite N.lxor_comm. now symmetry.
Qed.

(** * the prover's own tests *)
Lemma bits_value_ok : forall labels i, i + length labels <= 64 -> int_bits_value i labels = Some (digits labels * 2 ^ N.of_nat i)%N.
Proof.
  induction labels as [|l ls IH]; intros i Hi; cbn [int_bits_value length] in *; [cbn [digits fold_right]; now rewrite N.mul_0_l|].
  rewrite (proj2 (Nat.leb_gt 64 i)) by lia. rewrite IH by lia. f_equal. cbn [digits fold_right]. fold (digits ls). rewrite Nat2N.inj_succ, N.pow_succ_r'.
  change (getLSB l) with (N.testbit l 0). destruct (N.testbit l 0); generalize (2 ^ N.of_nat i)%N; intro; lia.
Qed.
Lemma bits_value_long : forall labels i, 64 < i + length labels -> labels <> [] -> int_bits_value i labels = None.
Proof.
  induction labels as [|l ls IH]; intros i Hi Ne; [congruence|]. cbn [int_bits_value]. cbn [length] in Hi. destruct (Nat.leb_spec 64 i) as [|Hl]; [reflexivity|].
  rewrite IH; [reflexivity|lia|]. intros ->. cbn in Hi. lia.
Qed.
Lemma edabit_chk_ok labels blk : length labels <= 64 -> (edabit_chk true labels blk = Some true <-> digits labels = xval blk) /\
  (edabit_chk true labels blk = Some true \/ edabit_chk true labels blk = Some false).
Proof.
  intro Hl. unfold edabit_chk. rewrite bits_value_ok by lia. rewrite N.mul_1_r. change (int_word_value blk) with (xval blk).
  destruct (N.eqb_spec (digits labels) (xval blk)) as [E|E]; (split; [split; intro Q|]); auto; [discriminate Q|contradiction].
Qed.
Lemma conversion_chk_ok labels blk : length labels <= 64 ->
  (conversion_chk true labels blk = Some true <-> digits labels = xval blk /\ canon (xval blk)) /\
  (conversion_chk true labels blk = None <-> ~ (canon (digits labels) /\ canon (xval blk))).
Proof.
  intro Hl. unfold conversion_chk. rewrite bits_value_ok by lia. rewrite N.mul_1_r. change (int_word_value blk) with (xval blk).
  unfold canon. change prm with PR.
  destruct (N.ltb_spec (digits labels) PR) as [A|A]; cbn [negb].
  - destruct (N.ltb_spec (xval blk) PR) as [B|B]; cbn [negb].
    + destruct (N.eqb_spec (digits labels) (xval blk)); split; split; intros; try discriminate; try tauto; auto.
    + apply N.le_ngt in B. split; split; intros; try discriminate; try tauto; auto.
  - apply N.le_ngt in A. split; split; intros Q; try discriminate; try tauto; auto. destruct Q as [Q1 Q2]. rewrite <- Q1 in Q2. contradiction.
Qed.

(** * bulk extension *)
Section B.
  Context {A : Type}.
  Variable item : nat -> nat -> A.
  Lemma bulk_loop_eq n M : forall cnt it data pt p u, bulk_loop item n M cnt it data pt =
    (ps_it (fst (inplace2 item n M cnt {| ps_pool := p; ps_used := u; ps_it := it |} data pt)),
     snd (inplace2 item n M cnt {| ps_pool := p; ps_used := u; ps_it := it |} data pt)).
  Proof. induction cnt as [|c IH]; intros; cbn [bulk_loop inplace2 ps_pool ps_used ps_it]; [reflexivity|]. apply IH. Qed.
  Variables M L : nat.
  Hypothesis HM : 1 <= M.
  Hypothesis HL : M <= L.
  Lemma bulk_ok space it data :
    (forall r, 1 <= r -> space = r * L + M -> exists d',
       bulk_extend item (L + M) M (Z.of_nat space) it data = Some (it + r, d', Z.of_nat (r * L)) /\
       (forall q j, q < r -> j < L -> d' (q * L + j) = item (it + q) j) /\
       (forall j, j < M -> d' (r * L + j) = item (it + r - 1) (L + j)) /\
       (forall i, space <= i -> d' i = data i)) /\
    ((forall r, 1 <= r -> space <> r * L + M) -> bulk_extend item (L + M) M (Z.of_nat space) it data = None).
  Proof.
    set (st := {| ps_pool := data; ps_used := Z.of_nat L; ps_it := it |}).
    assert (Hr : rep item L st ([], it)).
    { unfold rep, wf, st. cbn. repeat split; try lia. }
    destruct (extend_inplace_served item M L HM HL space st ([], it) data Hr) as [X Y].
    assert (E : bulk_extend item (L + M) M (Z.of_nat space) it data =
      match extend_inplace item (L + M) M (Z.of_nat space) st data with Some (s, d, z) => Some (ps_it s, d, z) | None => None end).
    { unfold bulk_extend, extend_inplace. change (bulk_limit (L + M) M) with (lim (L + M) M). destruct (_ <? _)%Z; [reflexivity|]. cbv zeta.
      destruct (negb _); [reflexivity|].
      rewrite (bulk_loop_eq (L + M) M _ it data 0 data (Z.of_nat L)). fold st. destruct (inplace2 _ _ _ _ _ _ _) as [s d]. reflexivity. }
    rewrite E. split.
    - intros r H1 H2. destruct (X r H1 H2) as (st' & d' & s' & X1 & (X2 & _ & _) & X3 & X4 & X5 & X6). rewrite X1. exists d'. cbn [fst snd] in *.
      split; [|split; [|split; [exact X5|exact X6]]].
      + do 3 f_equal. destruct X3 as (_ & I & _). rewrite I. exact X2.
      + intros q j Hq Hj. rewrite X4 by nia. rewrite (runs_nth M) by nia. unfold val. cbn [fst snd].
        rewrite (Nat.add_comm (q * L)), Nat.div_add, Nat.mod_add, Nat.div_small, Nat.mod_small by lia. f_equal.
    - intro Hn. now rewrite (Y Hn).
  Qed.
  Lemma bulk_need_ok need : 1 <= need ->
    exists r, 1 <= r /\ bulk_need (L + M) M (Z.of_nat need) = Z.of_nat (r * L + M) /\ need <= r * L /\ (r - 1) * L < need.
  Proof. intro H. exact (memory_need_ok M L need HM ltac:(lia) H). Qed.
End B.
