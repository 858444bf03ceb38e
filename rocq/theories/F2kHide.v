(** What the GF(2^128) product proof and the set-equality opening tell the verifier. *)
From Coq Require Import NArith List Bool Arith Lia Ring.
From Verif Require Import Word WordProofs GF128 GF128Ring GF128Field GfmulModel GfmulProofs BoolModel BoolSpec BoolProofs BoolAlg F2kModel F2kSpec F2kAlg F2kProofs F2kSim F2kThms RamModel RamSpec RamProd RamSess.
Import ListNotations.
Ltac Zify.zify_post_hook ::= idtac.

Lemma gf_one_chi s x : gf_inn_prdt (gf_coeff_gen s 1) [x] = gfmul s x.
Proof.
  apply toG_inj; [apply inn_lt|apply gfmul_lt|]. rewrite toG_inn, toG_gfmul. cbn [gf_coeff_gen gf_powers_from map gdot].
  unfold gf_coeff_gen. cbn. ring.
Qed.
Section One.
  Variables (ext : nat -> fwire) (voleV voleM : nat -> nat -> N) (bM oM : nat -> N) (threads bufsz polysz : nat)
    (seeds : nat -> nat -> N) (pseeds : nat -> N) (junk : nat -> nat -> N * N) (g1 g2 g3 g4 : nat -> N).
  Lemma product_message : 1 <= polysz ->
    exists r, fp_pmsgs (fp_exec ext voleV voleM bM oM threads bufsz polysz seeds pseeds junk g1 g2 g3 g4
                          [FExt; FExt; FExt; FMul3 0 1 2]) = [r] /\
      r0 r = gfmul (pseeds 0) (gfmul (gfmul (snd (ext 0)) (snd (ext 1))) (snd (ext 2))).
  Proof.
    intro H. destruct polysz as [|ps]; [lia|].
    unfold fp_exec. cbn [fold_left fp_step].
    eexists. split.
    - unfold fp_final, fp_batch, fp_chain. cbn -[prv_poly3 pack130 in_bits prv_poly_sums Nat.mul seq]. reflexivity.
    - unfold prv_poly_sums, r0. cbn [app length map fp_w fp_poly].
      change (let '(a, _, _, _, _) := ?x in a) with (r0 x).
      rewrite gf_one_chi. f_equal. unfold prv_poly3. cbv zeta. rewrite !gfmul_1_ok. reflexivity.
  Qed.
End One.

Lemma lxor_cancel_l a b c : N.lxor a b = N.lxor a c -> b = c.
Proof. intro H. assert (E : N.lxor a (N.lxor a b) = N.lxor a (N.lxor a c)) by now rewrite H. rewrite <- !N.lxor_assoc, N.lxor_nilpotent, !N.lxor_0_l in E. exact E. Qed.
Lemma gfmul_cancel_r a b d : (a < 2 ^ 128)%N -> (b < 2 ^ 128)%N -> (d < 2 ^ 128)%N -> d <> 0%N -> gfmul a d = gfmul b d -> a = b.
Proof.
  intros Ha Hb Hd Nd E. assert (L : (N.lxor a b < 2 ^ 128)%N) by now apply lxor_lt.
  assert (Z : gfmul (N.lxor a b) d = 0%N).
  { apply toG_inj; [apply gfmul_lt|reflexivity|]. rewrite toG_gfmul, toG_lxor. assert (E' : toG (gfmul a d) = toG (gfmul b d)) by now rewrite E.
    rewrite !toG_gfmul in E'. apply (f_equal (fun z => gadd z (gmul (toG b) (toG d)))) in E'. 
    transitivity (gadd (gmul (toG a) (toG d)) (gmul (toG b) (toG d))); [ring|]. rewrite E'. replace (toG 0) with g0 by reflexivity. exact (Ropp_def GF_rt _). }
  destruct (gfmul_nzd _ _ L Hd Z) as [Z0|Z0]; [|contradiction]. now apply N.lxor_eq.
Qed.
(** the pair of value [x] under the verifier's key [k] *)
Definition pair_under (d k x : N) : fwire := (x, N.lxor k (gfmul x d)).
Lemma key_of_pair d k x : key_of d (pair_under d k x) = k.
Proof. unfold key_of, pair_under. cbn [fst snd]. now rewrite N.lxor_assoc, N.lxor_nilpotent, N.lxor_0_r. Qed.
Lemma gf_nz a b : (a < 2 ^ 128)%N -> (b < 2 ^ 128)%N -> a <> 0%N -> b <> 0%N -> gfmul a b <> 0%N.
Proof. intros Ha Hb Na Nb E. destruct (gfmul_nzd a b Ha Hb E); contradiction. Qed.
Lemma product_tells voleV voleM bM oM threads bufsz polysz seeds (pseeds : nat -> N) junk g1 g2 g3 g4
      voleV' voleM' bM' oM' junk' g1' g2' g3' g4' d (k : nat -> N) (x x' : nat -> N) :
  1 <= polysz -> valid_delta d -> (forall i, (k i < 2 ^ 128)%N) -> (forall i, (x i < 2 ^ 128)%N) -> (forall i, (x' i < 2 ^ 128)%N) ->
  (pseeds 0%nat < 2 ^ 128)%N -> pseeds 0 <> 0%N ->
  x 0 <> x' 0 -> x 1 = x' 1 -> x 2 = x' 2 -> k 1 <> gfmul (x 1) d -> k 2 <> gfmul (x 2) d ->
  fp_pmsgs (fp_exec (fun i => pair_under d (k i) (x i)) voleV voleM bM oM threads bufsz polysz seeds pseeds junk g1 g2 g3 g4
              [FExt; FExt; FExt; FMul3 0 1 2]) <>
  fp_pmsgs (fp_exec (fun i => pair_under d (k i) (x' i)) voleV' voleM' bM' oM' threads bufsz polysz seeds pseeds junk' g1' g2' g3' g4'
              [FExt; FExt; FExt; FMul3 0 1 2]).
Proof.
  intros Hp [Ld Bd] Lk Lx Lx' Ls Ns Nx E1 E2 N1 N2 E.
  destruct (product_message (fun i => pair_under d (k i) (x i)) voleV voleM bM oM threads bufsz polysz seeds pseeds junk g1 g2 g3 g4 Hp) as [r [Er Vr]].
  destruct (product_message (fun i => pair_under d (k i) (x' i)) voleV' voleM' bM' oM' threads bufsz polysz seeds pseeds junk' g1' g2' g3' g4' Hp) as [r' [Er' Vr']].
  rewrite Er, Er' in E. assert (Err : r = r') by congruence. subst r'. rewrite Vr in Vr'. unfold pair_under in Vr'. cbn [snd] in Vr'.
  rewrite <- E1, <- E2 in Vr'.
  assert (Nd : d <> 0%N) by (intros ->; discriminate).
  assert (B : forall k x, (k < 2 ^ 128)%N -> (N.lxor k (gfmul x d) < 2 ^ 128)%N) by (intros; apply lxor_lt; [assumption|apply gfmul_lt]).
  assert (Z : forall k x, k <> gfmul x d -> N.lxor k (gfmul x d) <> 0%N) by (intros k0 x0 H H0; apply H, N.lxor_eq, H0).
  rewrite (gfmul_comm (pseeds 0)), (gfmul_comm (pseeds 0)) in Vr'.
  apply gfmul_cancel_r in Vr'; auto using gfmul_lt.
  apply gfmul_cancel_r in Vr'; auto using gfmul_lt.
  apply gfmul_cancel_r in Vr'; auto using gfmul_lt.
  apply lxor_cancel_l in Vr'. apply gfmul_cancel_r in Vr'; auto.
Qed.
Lemma seteq_reveals ext voleV voleM bM oM threads bufsz polysz seeds pseeds acc_last n r junkp junkv g1 g2 g3 g4 h1 h2 d :
  1 <= threads -> threads <= bufsz -> 6 <= bufsz -> 3 <= n -> (N.of_nat n < 2 ^ 64)%N -> (r < 2 ^ 128)%N ->
  (forall i, i < 2 * n -> (fst (ext i) < 2 ^ 128)%N) -> (forall r i, (junkv r i < 2 ^ 128)%N) -> valid_delta d ->
  (n mod 4 = 1 \/ threads <= 2 * ((n - 1) mod 4)) ->
  exists c a0 a1, seteq_circuit acc_last n r = Some (c, a0, a1) /\
  let p := fp_exec ext voleV voleM bM oM threads bufsz polysz seeds pseeds junkp g1 g2 g3 g4 c in
  exists v, f_session ext voleV voleM bM oM threads bufsz polysz seeds pseeds junkv
       (fun i => nth i (fp_corr p) 0%N) (fun i => nth i (fp_bits p) false)
       (fun k => nth k (fp_msgs p) (0, 0)%N) (fun k => nth k (fp_pmsgs p) (0, 0, 0, 0, 0)%N) h1 h2 c d = Some v /\
    gfmul (shifted_product r (map (fun i => fst (ext i)) (seq 0 n))) d = N.lxor (nth a0 (fv_w v) 0%N) (fst (seteq_msg (fp_w p) a0 a1)) /\
    gfmul (shifted_product r (map (fun i => fst (ext i)) (seq n n))) d = N.lxor (nth a1 (fv_w v) 0%N) (snd (seteq_msg (fp_w p) a0 a1)).
Proof.
  intros Ht Htb H6 H3 Hn Hr He Hj Vd Hm.
  destruct (seteq_circuit_ok acc_last n r (fun i => fst (ext i)) H3 Hn Hr He) as [c [a0 [a1 [E (L0 & L1 & V0 & V1 & Cm & _)]]]].
  exists c, a0, a1. split; [exact E|]. intro p.
  destruct (honest_run ext voleV voleM bM oM threads bufsz polysz seeds pseeds junkp junkv Ht Htb Hj g1 g2 g3 g4 h1 h2 c d Vd) as [v [E1 [E2 [E3 E4]]]].
  { rewrite Cm. unfold last_batch. destruct ((n - 1) mod 4) as [|m] eqn:Em; [now left|]. right.
    assert ((n - 1) mod 4 < 4) by (apply Nat.mod_upper_bound; lia).
    destruct Hm as [Hm|Hm].
    - exfalso. assert (n = 4 * (n / 4) + 1) by (pose proof (Nat.div_mod n 4 ltac:(lia)) as Q; rewrite Hm in Q; exact Q).
      replace (n - 1) with (n / 4 * 4) in Em by lia. rewrite Nat.mod_mul in Em by lia. discriminate.
    - replace (2 * S m) with (S (2 * m + 1)) by lia. rewrite Nat.mod_small by lia. lia. }
  exists v. fold p in E1, E4. split; [exact E1|]. rewrite E4.
  pose proof (fp_exec_plain ext voleV voleM bM oM threads bufsz polysz seeds pseeds junkp g1 g2 g3 g4 c) as W. fold p in W.
  assert (Lw : length (fp_w p) = length (fplain (fun i => fst (ext i)) 0 [] c)) by now rewrite <- W, map_length.
  assert (Q : forall a, a < length (fp_w p) -> nth a (map (key_of d) (fp_w p)) 0%N = N.lxor (snd (pw (fp_w p) a)) (gfmul (fval (fplain (fun i => fst (ext i)) 0 [] c) a) d)).
  { intros a La. rewrite <- W. unfold fval, pw. rewrite (nth_indep _ 0%N (key_of d (0, 0)%N)) by now rewrite map_length.
    rewrite map_nth. unfold key_of. f_equal. f_equal. now rewrite (map_nth fst (fp_w p) (0, 0)%N). }
  rewrite (Q a0), (Q a1), V0, V1 by lia. unfold seteq_msg. cbn [fst snd].
  assert (X : forall a b, N.lxor (N.lxor a b) a = b) by (intros; rewrite N.lxor_comm, <- N.lxor_assoc, N.lxor_nilpotent; apply N.lxor_0_l).
  now rewrite !X.
Qed.
