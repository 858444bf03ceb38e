(** Polynomials over an arbitrary commutative domain: a non-zero polynomial of
    length n (degree < n) has fewer than n distinct roots.  Generic in the domain;
    instantiated with F_p (Prime61.v) and GF(2^128) (GF128Field.v). *)
From Coq Require Import List Lia Ring Ring_theory.
Import ListNotations.

Section PolyRoots.
  Variable F : Type.
  Variables (f0 f1 : F) (fadd fmul fsub : F -> F -> F) (fopp : F -> F).
  Hypothesis Rth : ring_theory f0 f1 fadd fmul fsub fopp eq.
  Hypothesis F_eq_dec : forall a b : F, {a = b} + {a <> b}.
  Hypothesis F_nzd : forall a b, fmul a b = f0 -> a = f0 \/ b = f0.
  Add Ring Fring : Rth.

  Local Infix "+" := fadd.
  Local Infix "*" := fmul.
  Local Infix "-" := fsub.

  (** value at x of the polynomial with coefficients p, constant term first *)
  Fixpoint peval (p : list F) (x : F) : F :=
    match p with [] => f0 | c :: p' => c + x * peval p' x end.

  (** quotient of p by (X - r) *)
  Fixpoint pdiv (p : list F) (r : F) : list F :=
    match p with
    | [] => []
    | _ :: p' => match p' with [] => [] | _ => peval p' r :: pdiv p' r end
    end.
  Lemma pdiv_length p r : length (pdiv p r) = pred (length p).
  Proof.
    induction p as [|c p IH]; auto. destruct p as [|d p]; auto.
    change (S (length (pdiv (d :: p) r)) = length (d :: p)).
    rewrite IH. reflexivity.
  Qed.
  Lemma pdiv_eval p r x : peval p x = (x - r) * peval (pdiv p r) x + peval p r.
  Proof.
    induction p as [|c p IH]; [cbn; ring|].
    destruct p as [|d p]; [cbn; ring|].
    change (pdiv (c :: d :: p) r) with (peval (d :: p) r :: pdiv (d :: p) r).
    set (q := d :: p) in *.
    change (peval (c :: q) x) with (c + x * peval q x).
    change (peval (c :: q) r) with (c + r * peval q r).
    change (peval (peval q r :: pdiv q r) x) with (peval q r + x * peval (pdiv q r) x).
    rewrite IH at 1. ring.
  Qed.
  Lemma peval_zeros p x : Forall (fun c => c = f0) p -> peval p x = f0.
  Proof. induction 1; cbn; [reflexivity|]. subst. rewrite IHForall. ring. Qed.
  Lemma pdiv_zero p r : peval p r = f0 -> Forall (fun c => c = f0) (pdiv p r) ->
    Forall (fun c => c = f0) p.
  Proof.
    induction p as [|c p IH]; intros Hr Hz; [constructor|].
    destruct p as [|d p].
    - constructor; [|constructor]. cbn in Hr. transitivity (c + r * f0); [ring|exact Hr].
    - change (pdiv (c :: d :: p) r) with (peval (d :: p) r :: pdiv (d :: p) r) in Hz.
      set (q := d :: p) in *.
      pose proof (Forall_inv Hz) as H1. pose proof (Forall_inv_tail Hz) as H2.
      cbv beta in H1. specialize (IH H1 H2).
      constructor; auto.
      change (c + r * peval q r = f0) in Hr. rewrite H1 in Hr.
      transitivity (c + r * f0); [ring|exact Hr].
  Qed.
  Lemma sub_zero a b : a - b = f0 -> a = b.
  Proof. intros H. transitivity ((a - b) + b); [ring|]. rewrite H. ring. Qed.

  Theorem root_count : forall (p : list F) (rs : list F),
    ~ Forall (fun c => c = f0) p ->
    NoDup rs -> (forall r, In r rs -> peval p r = f0) ->
    (S (length rs) <= length p)%nat.
  Proof.
    intros p. remember (length p) as n eqn:En. revert p En.
    induction n as [|n IH]; intros p En rs Hp Hnd Hr.
    - destruct p; [|discriminate]. exfalso. apply Hp. constructor.
    - destruct rs as [|r rs]; [cbn; lia|].
      inversion Hnd; subst.
      assert (Er : peval p r = f0) by (apply Hr; now left).
      assert (length (pdiv p r) = n) by (rewrite pdiv_length, <- En; reflexivity).
      cut (S (length rs) <= n)%nat; [cbn; lia|].
      apply (IH (pdiv p r)); auto.
      + intro Hz. apply Hp. eapply pdiv_zero; eauto.
      + intros s Hs. assert (Es : peval p s = f0) by (apply Hr; now right).
        rewrite (pdiv_eval p r s), Er in Es.
        assert (Es' : (s - r) * peval (pdiv p r) s = f0).
        { transitivity ((s - r) * peval (pdiv p r) s + f0); [ring|exact Es]. }
        destruct (F_nzd _ _ Es') as [E|E]; auto.
        apply sub_zero in E. subst. contradiction.
  Qed.

  (** sum of scalars against powers x^1 .. x^n *)
  Fixpoint pow_sum (e : list F) (x pw : F) : F :=
    match e with [] => f0 | c :: e' => c * pw + pow_sum e' x (pw * x) end.
  Lemma pow_sum_peval e x : forall pw, pow_sum e x pw = pw * peval e x.
  Proof. induction e as [|c e IH]; intros pw; cbn; [ring|]. rewrite IH. ring. Qed.

  (** at most [length e] values x make  sum_i e_i * x^(i+1)  vanish *)
  Theorem pow_sum_roots e xs :
    ~ Forall (fun c => c = f0) e -> NoDup xs ->
    (forall x, In x xs -> pow_sum e x x = f0) -> (length xs <= length e)%nat.
  Proof.
    intros He Hnd Hx.
    assert (H := root_count (f0 :: e) xs).
    cbn [length] in H. apply le_S_n. apply H; auto.
    - intro Hz. apply He. now inversion Hz.
    - intros x Hin. specialize (Hx x Hin). rewrite pow_sum_peval in Hx.
      cbn [peval]. rewrite Hx. ring.
  Qed.

  (** at most two values d satisfy a + b*d + c*d^2 = 0 when c <> 0 *)
  Theorem quad_roots a b c ds : c <> f0 -> NoDup ds ->
    (forall d, In d ds -> a + b * d + c * (d * d) = f0) -> (length ds <= 2)%nat.
  Proof.
    intros Hc Hnd Hd. apply le_S_n.
    apply (root_count [a; b; c] ds); auto.
    - intro Hz. inversion Hz as [|? ? _ Hz1]; inversion Hz1 as [|? ? _ Hz2]; inversion Hz2; auto.
    - intros d Hin. rewrite <- (Hd d Hin). cbn. ring.
  Qed.
  (** at most one value d satisfies a + b*d = 0 when b <> 0 *)
  Theorem lin_roots a b ds : b <> f0 -> NoDup ds ->
    (forall d, In d ds -> a + b * d = f0) -> (length ds <= 1)%nat.
  Proof.
    intros Hc Hnd Hd. apply le_S_n.
    apply (root_count [a; b] ds); auto.
    - intro Hz. inversion Hz as [|? ? _ Hz1]; inversion Hz1; auto.
    - intros d Hin. rewrite <- (Hd d Hin). cbn. ring.
  Qed.
End PolyRoots.
