(** 2^61-1 is prime (Lucas certificate with primitive root 37), and the field F_p
    as a type with the [ring] tactic and root counting. *)
From Coq Require Import ZArith Znumtheory Zpow_facts Lia List Bool Ring Ring_theory Eqdep_dec ZifyBool ZifyNat ZifyN NArith.
From Verif Require Import Word WordProofs FpModel FpProofs PolyRoots ListUtil.
Import ListNotations.
Local Open Scope Z_scope.
Ltac Zify.zify_post_hook ::= idtac.

Ltac zl := repeat match goal with
                  | H : ?T |- _ => match T with
                                   | context [Z.modulo] => clear H
                                   | context [Z.pow] => clear H end end; lia.

(** * Small primes by checking all gcds *)
Definition prime_check (p : Z) : bool :=
  (1 <? p) && forallb (fun n => Z.gcd (Z.of_nat n) p =? 1) (seq 1 (Z.to_nat p - 1)).
Lemma prime_check_ok p : prime_check p = true -> prime p.
Proof.
  unfold prime_check. intros H. apply andb_prop in H. destruct H as [H1 H2].
  apply Z.ltb_lt in H1. rewrite forallb_forall in H2.
  apply prime_intro; auto. intros n Hn.
  apply Zgcd_1_rel_prime.
  specialize (H2 (Z.to_nat n)). rewrite Z2Nat.id in H2 by lia.
  apply Z.eqb_eq. apply H2. apply in_seq. lia.
Qed.
Lemma prime_divisor (m : Z) : 1 < m -> exists r, prime r /\ (r | m).
Proof.
  intros H. assert (H0 : 0 <= m) by lia. revert H.
  pattern m. apply Zlt_0_ind; [|exact H0]. clear m H0. intros m IH _ H.
  destruct (prime_dec m) as [P|P].
  - exists m. split; [assumption|exists 1; lia].
  - destruct (not_prime_divide m H P) as [n [Hn Hd]].
    destruct (IH n) as [r [Hr Hrn]]; try lia.
    exists r. split; auto. now apply Z.divide_trans with n.
Qed.

(** * Lucas test *)
Section Lucas.
  Variable n g : Z.
  Variable fs : list Z.             (* prime factors of n-1, with repetition *)
  Hypothesis n_big : 2 < n.
  Hypothesis fs_prime : Forall prime fs.
  Hypothesis fs_prod : fold_right Z.mul 1 fs = n - 1.
  Hypothesis full : (g ^ (n - 1)) mod n = 1.
  (* Bezout witness: g^((n-1)/r) - 1 is invertible modulo n *)
  Hypothesis nontriv : forall r, In r fs -> exists u, ((g ^ ((n - 1) / r) - 1) * u) mod n = 1.

  Section Q.
    Variable q : Z.
    Hypothesis q_range : 1 < q < n.
    Hypothesis q_div : (q | n).

    Definition one (d : Z) := 0 <= d /\ (g ^ d) mod q = 1.
    Lemma modq a b : a mod n = b mod n -> a mod q = b mod q.
    Proof.
      intros H. rewrite (Zmod_div_mod q n a), (Zmod_div_mod q n b) by (zl || assumption).
      now rewrite H.
    Qed.
    Lemma one_full : one (n - 1).
    Proof. split; [zl|]. transitivity (1 mod q); [|apply Z.mod_1_l; zl].
      apply modq. rewrite full. now rewrite Z.mod_1_l by zl. Qed.
    Lemma one_nontriv r : In r fs -> ~ one ((n - 1) / r).
    Proof.
      intros Hr [_ H1]. destruct (nontriv r Hr) as [u Hu].
      assert (E : ((g ^ ((n - 1) / r) - 1) * u) mod q = 1).
      { transitivity (1 mod q); [|apply Z.mod_1_l; zl].
        apply modq. rewrite Hu. now rewrite Z.mod_1_l by zl. }
      rewrite <- Z.mul_mod_idemp_l, Zminus_mod, H1, (Z.mod_1_l q), Z.sub_diag in E by zl.
      rewrite (Z.mod_0_l q), Z.mul_0_l, (Z.mod_0_l q) in E by zl. zl.
    Qed.
    Lemma one_mul d k : one d -> 0 <= k -> one (d * k).
    Proof.
      intros [Hd H1] Hk. split; [now apply Z.mul_nonneg_nonneg|]. rewrite Z.pow_mul_r by assumption.
      rewrite Zpower_mod by zl. rewrite H1. rewrite Z.pow_1_l by assumption. apply Z.mod_1_l; zl.
    Qed.
    Lemma one_sub a b : one a -> one b -> b <= a -> one (a - b).
    Proof.
      intros [Ha H1] [Hb H2] Hle. split; [zl|].
      replace a with (b + (a - b)) in H1 by zl.
      rewrite Z.pow_add_r, Z.mul_mod, H2, Z.mul_1_l in H1 by zl.
      now rewrite Z.mod_mod in H1 by zl.
    Qed.
    Lemma one_mod a b : one a -> one b -> 0 < b -> one (a mod b).
    Proof.
      intros Ha Hb Hp. assert (0 <= a) by apply Ha.
      rewrite Z.mod_eq by zl. apply one_sub; auto.
      - apply one_mul; auto. apply Z.div_pos; zl.
      - apply Z.mul_div_le; zl.
    Qed.
    Lemma one_gcd b : forall a, one a -> one b -> one (Z.gcd a b).
    Proof.
      destruct (Z_lt_le_dec b 0) as [|Hb0]. { intros a _ [H _]. zl. }
      pattern b. apply Zlt_0_ind; [|exact Hb0]. clear b Hb0. intros b IH Hb a Ha1 Hb1.
      destruct (Z.eq_dec b 0) as [->|Hn].
      - rewrite Z.gcd_0_r. rewrite Z.abs_eq by apply Ha1. assumption.
      - replace (Z.gcd a b) with (Z.gcd b (a mod b)).
        + apply IH; auto. * pose proof (Z.mod_pos_bound a b); zl.
          * apply one_mod; auto; zl.
        + rewrite (Z.gcd_comm b), Z.gcd_mod by zl. apply Z.gcd_comm.
    Qed.
    Lemma factor_in : forall l r, Forall prime l -> prime r -> (r | fold_right Z.mul 1 l) -> In r l.
    Proof.
      induction l as [|x l IH]; intros r Hl Hr Hd; cbn in Hd.
      - exfalso. apply Z.divide_1_r_nonneg in Hd; destruct Hr; zl.
      - inversion Hl; subst. destruct (prime_mult _ Hr _ _ Hd) as [D|D].
        + left. symmetry. apply prime_div_prime; auto.
        + right. auto.
    Qed.
    Lemma order_full d : 0 < d < n - 1 -> ~ one d.
    Proof.
      intros Hd H1. pose proof (one_gcd (n - 1) d H1 one_full) as He.
      set (e := Z.gcd d (n - 1)) in *.
      destruct (Z.gcd_divide_r d (n - 1)) as [m Hm]. fold e in Hm.
      assert (0 < e). { pose proof (Z.gcd_nonneg d (n - 1)). fold e in H.
        assert (e <> 0); [|zl]. intro E. apply Z.gcd_eq_0_l in E. zl. }
      assert (e <= d). { apply Z.divide_pos_le; [zl|]. apply Z.gcd_divide_l. }
      assert (1 < m) by (repeat match goal with H : ?T |- _ => match T with context [Z.modulo] => clear H | context [Z.pow] => clear H end end; nia).
      destruct (prime_divisor m) as [r [Hr [s Hs]]]; auto.
      assert (In r fs) as Hin.
      { apply factor_in; auto. rewrite fs_prod. exists (s * e). (repeat match goal with H : ?T |- _ => match T with context [Z.modulo] => clear H | context [Z.pow] => clear H end end; nia). }
      apply (one_nontriv r Hin).
      assert (2 <= r) by (destruct Hr; zl).
      replace ((n - 1) / r) with (e * s).
      2:{ replace (n - 1) with (e * s * r) by (repeat match goal with H : ?T |- _ => match T with context [Z.modulo] => clear H | context [Z.pow] => clear H end end; nia). now rewrite Z.div_mul by zl. }
      apply one_mul; auto. (repeat match goal with H : ?T |- _ => match T with context [Z.modulo] => clear H | context [Z.pow] => clear H end end; nia).
    Qed.
    Lemma pow_nonzero i : 0 <= i < n - 1 -> (g ^ i) mod q <> 0.
    Proof.
      intros Hi E. destruct one_full as [_ H1].
      replace (n - 1) with (i + (n - 1 - i)) in H1 by zl.
      rewrite Z.pow_add_r, Z.mul_mod, E, Z.mul_0_l, Z.mod_0_l in H1 by zl. zl.
    Qed.
    Lemma pow_inj_lt i j : 0 <= i < j -> j < n - 1 -> (g ^ i) mod q <> (g ^ j) mod q.
    Proof.
      intros Hi Hj E.
      (* g^(j-i) = 1: multiply by g^(n-1-i) *)
      apply (order_full (j - i)); [zl|]. split; [zl|].
      destruct one_full as [_ H1].
      assert (E2 : (g ^ i * g ^ (n - 1 - i)) mod q = (g ^ j * g ^ (n - 1 - i)) mod q).
      { now rewrite Z.mul_mod, E, <- Z.mul_mod by zl. }
      rewrite <- !Z.pow_add_r in E2 by zl.
      replace (i + (n - 1 - i)) with (n - 1) in E2 by zl.
      replace (j + (n - 1 - i)) with ((n - 1) + (j - i)) in E2 by zl.
      rewrite (Z.pow_add_r g (n - 1)), Z.mul_mod, H1, Z.mul_1_l, Z.mod_mod in E2 by zl. auto.
    Qed.
    Lemma no_divisor : False.
    Proof.
      set (f := fun i : nat => (g ^ Z.of_nat i) mod q).
      set (l := map f (seq 0 (Z.to_nat q))).
      set (l' := map Z.of_nat (seq 1 (Z.to_nat q - 1))).
      assert (NoDup l).
      { unfold l. apply NoDup_map_in; [|apply seq_NoDup].
        intros i j Hi Hj E. apply in_seq in Hi. apply in_seq in Hj. unfold f in E.
        destruct (Nat.lt_trichotomy i j) as [L|[L|L]]; auto; exfalso.
        - apply (pow_inj_lt (Z.of_nat i) (Z.of_nat j)); auto; zl.
        - apply (pow_inj_lt (Z.of_nat j) (Z.of_nat i)); auto; zl. }
      assert (incl l l').
      { intros z Hz. unfold l in Hz. apply in_map_iff in Hz. destruct Hz as [i [<- Hi]].
        apply in_seq in Hi. unfold l'. apply in_map_iff. unfold f.
        pose proof (Z.mod_pos_bound (g ^ Z.of_nat i) q ltac:(zl)) as M1.
        pose proof (pow_nonzero (Z.of_nat i) ltac:(zl)) as M2.
        set (z := (g ^ Z.of_nat i) mod q) in *. clearbody z.
        exists (Z.to_nat z). split; [zl|]. apply in_seq. zl. }
      pose proof (NoDup_incl_length H H0) as L. unfold l, l' in L.
      rewrite !map_length, !seq_length in L. zl.
    Qed.
  End Q.
  Theorem lucas : prime n.
  Proof.
    destruct (prime_dec n) as [P|P]; auto. exfalso.
    destruct (not_prime_divide n ltac:(zl) P) as [q [Hq Hd]].
    exact (no_divisor q Hq Hd).
  Qed.
End Lucas.

(** * The certificate *)
Fixpoint zpowmod (a : Z) (e : positive) (n : Z) : Z :=
  match e with
  | xH => a mod n
  | xO e' => let s := zpowmod a e' n in (s * s) mod n
  | xI e' => let s := zpowmod a e' n in (a * ((s * s) mod n)) mod n
  end.
Lemma zpowmod_ok a e n : n <> 0 -> zpowmod a e n = (a ^ Zpos e) mod n.
Proof.
  intros Hn. induction e; cbn [zpowmod].
  - rewrite IHe. rewrite (Pos2Z.inj_xI e), Z.pow_add_r, Z.pow_1_r by lia.
    replace (2 * Zpos e) with (Zpos e + Zpos e) by lia. rewrite Z.pow_add_r by lia.
    rewrite <- Z.mul_mod by assumption. rewrite Z.mul_mod_idemp_r by assumption. f_equal. lia.
  - rewrite IHe. rewrite (Pos2Z.inj_xO e).
    replace (2 * Zpos e) with (Zpos e + Zpos e) by lia. rewrite Z.pow_add_r by lia.
    now rewrite <- Z.mul_mod by assumption.
  - now rewrite Z.pow_1_r.
Qed.

Definition zp : Z := 2305843009213693951.
Definition zp_factors : list Z := [2; 3; 3; 5; 5; 7; 11; 13; 31; 41; 61; 151; 331; 1321].
Definition zp_invs : list (Z * Z) := [(2, 1152921504606846975); (3, 212086872990781878); (5, 1436392118636136522); (7, 62135951423208583); (11, 2117382201747708966); (13, 1243296897272292213); (31, 42235654463646013); (41, 730874616585150915); (61, 329365932848850065); (151, 68233547637592170); (331, 1960352316127796739); (1321, 2165998172066445805)].
Definition inv_ok (ru : Z * Z) : bool :=
  match (zp - 1) / fst ru with
  | Zpos e => (((zpowmod 37 e zp - 1) * snd ru) mod zp =? 1)
  | _ => false
  end.
Theorem zp_prime : prime zp.
Proof.
  apply (lucas zp 37 zp_factors).
  - reflexivity.
  - unfold zp_factors. 
    repeat (apply Forall_cons; [apply prime_check_ok; vm_compute; reflexivity|]). apply Forall_nil.
  - reflexivity.
  - change (zp - 1) with (Zpos 2305843009213693950).
    rewrite <- zpowmod_ok by discriminate. vm_compute. reflexivity.
  - intros r Hr.
    assert (A : forallb inv_ok zp_invs = true) by (vm_compute; reflexivity).
    assert (B : exists u, In (r, u) zp_invs).
    { unfold zp_factors in Hr. cbn [In] in Hr. unfold zp_invs. cbn [In].
      repeat (destruct Hr as [<-|Hr]; [eexists; repeat (try (left; reflexivity); right)|]).
      destruct Hr. }
    destruct B as [u Hu]. exists u.
    rewrite forallb_forall in A. specialize (A _ Hu). unfold inv_ok in A. cbn [fst snd] in A.
    destruct ((zp - 1) / r) as [|e|e] eqn:E; try discriminate.
    apply Z.eqb_eq in A. rewrite zpowmod_ok in A by discriminate.
    set (X := 37 ^ Z.pos e) in *. clearbody X.
    rewrite <- (Z.mul_mod_idemp_l (X mod zp - 1)), Zminus_mod_idemp_l in A by discriminate.
    now rewrite Z.mul_mod_idemp_l in A by discriminate.
Qed.

(** * The field F_p as a type *)
Local Open Scope N_scope.
Lemma PR_nzd a b : a < PR -> b < PR -> (a * b) mod PR = 0 -> a = 0 \/ b = 0.
Proof.
  intros Ha Hb H.
  assert (D : (zp | Z.of_N a * Z.of_N b)%Z).
  { exists (Z.of_N (a * b / PR)). rewrite <- N2Z.inj_mul.
    rewrite (N.div_mod (a * b) PR) at 1 by discriminate. rewrite H, N.add_0_r.
    rewrite N2Z.inj_mul. change (Z.of_N PR) with zp. lia. }
  apply prime_mult in D; [|exact zp_prime].
  assert (forall c, c < PR -> (zp | Z.of_N c)%Z -> c = 0) as K.
  { intros c Hc Hd. destruct (N.eq_dec c 0); auto. exfalso.
    apply Z.divide_pos_le in Hd; [|lia]. change zp with (Z.of_N PR) in Hd. lia. }
  destruct D; [left|right]; auto.
Qed.

Definition fp : Type := { x : N | (x <? PR) = true }.
Definition fv (a : fp) : N := proj1_sig a.
Lemma fv_lt a : fv a < PR. Proof. destruct a as [x H]. cbn. now apply N.ltb_lt. Qed.
Lemma fv_inj a b : fv a = fv b -> a = b.
Proof. destruct a as [x H], b as [y H']. cbn. intros ->. f_equal. apply UIP_dec. apply bool_dec. Qed.
Lemma modPR_ltb a : (a mod PR <? PR) = true.
Proof. apply N.ltb_lt. apply mod_PR_lt. Qed.
Definition toF (a : N) : fp := exist _ (a mod PR) (modPR_ltb a).
Definition p0 : fp := toF 0.
Definition p1 : fp := toF 1.
Definition padd (a b : fp) : fp := toF (fv a + fv b).
Definition pmul (a b : fp) : fp := toF (fv a * fv b).
Definition popp (a : fp) : fp := toF (PR - fv a).
Definition psub (a b : fp) : fp := padd a (popp b).
Lemma fv_toF a : fv (toF a) = a mod PR. Proof. reflexivity. Qed.
Lemma toF_eq a b : toF a = toF b <-> a mod PR = b mod PR.
Proof. split; intros H. - now rewrite <- !fv_toF, H. - now apply fv_inj. Qed.
Lemma toF_inj a b : a < PR -> b < PR -> toF a = toF b -> a = b.
Proof. intros Ha Hb H. apply toF_eq in H. now rewrite !N.mod_small in H. Qed.
Lemma toF_fv a : toF (fv a) = a.
Proof. apply fv_inj. rewrite fv_toF. apply N.mod_small, fv_lt. Qed.
Lemma toF_add a b : toF (a + b) = padd (toF a) (toF b).
Proof. unfold padd. apply toF_eq. rewrite !fv_toF. now rewrite <- N.add_mod by discriminate. Qed.
Lemma toF_mul a b : toF (a * b) = pmul (toF a) (toF b).
Proof. unfold pmul. apply toF_eq. rewrite !fv_toF. now rewrite <- N.mul_mod by discriminate. Qed.
Lemma toF_mod a : toF (a mod PR) = toF a.
Proof. apply toF_eq. now rewrite N.mod_mod. Qed.
Lemma toF_0 : toF 0 = p0. Proof. reflexivity. Qed.
Lemma toF_1 : toF 1 = p1. Proof. reflexivity. Qed.
Lemma toF_PR : toF PR = p0. Proof. now apply toF_eq. Qed.

Lemma fp_rt : ring_theory p0 p1 padd pmul psub popp eq.
Proof.
  assert (A : forall a b c, padd (padd a b) c = padd a (padd b c)).
  { intros. rewrite <- (toF_fv a), <- (toF_fv b), <- (toF_fv c), <- !toF_add. f_equal. lia. }
  constructor; intros; try reflexivity; try (symmetry; apply A).
  - rewrite <- (toF_fv x), <- toF_0, <- toF_add. f_equal.
  - unfold padd. f_equal. lia.
  - rewrite <- (toF_fv x), <- toF_1, <- toF_mul. f_equal. lia.
  - unfold pmul. f_equal. lia.
  - rewrite <- (toF_fv x), <- (toF_fv y), <- (toF_fv z), <- !toF_mul. f_equal. lia.
  - rewrite <- (toF_fv x), <- (toF_fv y), <- (toF_fv z), <- toF_add, <- !toF_mul, <- toF_add. f_equal. lia.
  - unfold popp. rewrite <- (toF_fv x) at 1. rewrite <- toF_add. rewrite <- toF_PR.
    f_equal. pose proof (fv_lt x). lia.
Qed.
Add Ring fpring : fp_rt.
Lemma fp_eq_dec (a b : fp) : {a = b} + {a <> b}.
Proof.
  destruct (N.eq_dec (fv a) (fv b)) as [E|E].
  - left. now apply fv_inj. - right. congruence.
Qed.
Lemma fp_nzd a b : pmul a b = p0 -> a = p0 \/ b = p0.
Proof.
  intros H. assert ((fv a * fv b) mod PR = 0) as E.
  { change (fv (pmul a b) = fv p0). now rewrite H. }
  apply PR_nzd in E; auto using fv_lt.
  destruct E; [left|right]; apply fv_inj; assumption.
Qed.
Lemma toF_sub a b : b <= a -> toF (a - b) = psub (toF a) (toF b).
Proof.
  intros H. assert (padd (toF (a - b)) (toF b) = toF a) as E.
  { rewrite <- toF_add. f_equal. lia. }
  rewrite <- E. ring.
Qed.
Lemma toF_PR_sub b : b <= PR -> toF (PR - b) = popp (toF b).
Proof. intros. rewrite toF_sub by assumption. rewrite toF_PR. ring. Qed.
(** homomorphism lemmas for the machine functions *)
Lemma toF_mult_mod a b : a * b < 2 ^ 124 -> toF (mult_mod a b) = pmul (toF a) (toF b).
Proof. intros. rewrite <- toF_mul. apply toF_eq. now apply mult_mod_congr. Qed.
Lemma toF_add_mod a b : a + b < W64 -> toF (add_mod a b) = padd (toF a) (toF b).
Proof. intros. rewrite <- toF_add. apply toF_eq. now apply add_mod_congr. Qed.
Definition fp_quad := quad_roots fp p0 p1 padd pmul psub popp fp_rt fp_nzd.
Definition fp_lin := lin_roots fp p0 p1 padd pmul psub popp fp_rt fp_nzd.
Definition fp_root_count := root_count fp p0 p1 padd pmul psub popp fp_rt fp_nzd.
Definition fp_pow_roots := pow_sum_roots fp p0 p1 padd pmul psub popp fp_rt fp_nzd.
