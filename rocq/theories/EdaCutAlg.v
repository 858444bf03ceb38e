(** Rotations of a cyclic word: how many of them can agree. *)
From Coq Require Import List Arith Lia Bool.
Import ListNotations.

Section Period.
  Context {A : Type} (a : nat -> A).
  Definition period (s : nat) : Prop := forall t, a (t + s) = a t.
  Lemma period_0 : period 0. Proof. intro t. now rewrite Nat.add_0_r. Qed.
  Lemma period_add s s' : period s -> period s' -> period (s + s').
  Proof. intros H H' t. now rewrite Nat.add_assoc, H', H. Qed.
  Lemma period_sub s s' : s' <= s -> period s -> period s' -> period (s - s').
  Proof. intros L H H' t. rewrite <- (H' (t + (s - s'))). replace (t + (s - s') + s') with (t + s) by lia. apply H. Qed.
  Lemma period_mul s k : period s -> period (k * s).
  Proof. intro H. induction k as [|k IH]; [apply period_0|]. cbn [Nat.mul]. now apply period_add. Qed.
  Lemma period_mod s s' : s' <> 0 -> period s -> period s' -> period (s mod s').
  Proof.
    intros N H H'. rewrite Nat.mod_eq by exact N. apply period_sub; [now apply Nat.mul_div_le|exact H|].
    rewrite Nat.mul_comm. now apply period_mul.
  Qed.
  Lemma period_gcd : forall x y, period x -> period y -> period (Nat.gcd x y).
  Proof.
    induction x as [x IH] using (well_founded_induction lt_wf). intros y Hx Hy. destruct x as [|x]; [exact Hy|].
    cbn [Nat.gcd]. change (period (Nat.gcd (y mod S x) (S x))). apply IH.
    - apply Nat.mod_upper_bound. discriminate.
    - now apply period_mod.
    - exact Hx.
  Qed.
  Lemma period_class g t : g <> 0 -> period g -> a (t mod g) = a t.
  Proof.
    intros N H. rewrite (Nat.div_mod t g N) at 2. rewrite Nat.add_comm, Nat.mul_comm. symmetry. apply period_mul, H.
  Qed.
  (** a word with a zero block of length C that is not zero everywhere has no period up to C *)
  Lemma period_long (z : A) g n C : g <> 0 -> period g -> (forall t, n <= t < n + C -> a t = z) -> g <= C -> forall t, a t = z.
  Proof.
    intros N H Z L t. rewrite <- (period_class g t N H).
    (* a representative of the class inside the block *)
    set (u := n + (t mod g + g - n mod g) mod g).
    assert (U : n <= u < n + C).
    { unfold u. pose proof (Nat.mod_upper_bound (t mod g + g - n mod g) g N). lia. }
    rewrite <- (Z u U). rewrite <- (period_class g u N H). f_equal. unfold u.
    rewrite Nat.add_mod_idemp_r by exact N. pose proof (Nat.mod_upper_bound n g N) as B1. pose proof (Nat.mod_upper_bound t g N) as B2.
    rewrite (Nat.div_mod n g N) at 1.
    replace (g * (n / g) + n mod g + (t mod g + g - n mod g)) with (t mod g + (1 + n / g) * g) by lia.
    rewrite Nat.mod_add by exact N. now rewrite Nat.mod_mod.
  Qed.
End Period.

(** numbers below M in one residue class *)
Lemma class_count g M c rs : g <> 0 -> Nat.divide g M -> NoDup rs -> (forall r, In r rs -> r < M /\ r mod g = c) -> length rs * g <= M.
Proof.
  intros N (k & ->) ND H. apply Nat.mul_le_mono_r.
  assert (E : length (map (fun r => r / g) rs) <= length (seq 0 k)).
  { apply NoDup_incl_length.
    - clear - ND H N. induction rs as [|r rs IH]; [constructor|]. inversion ND as [|? ? Hn ND']; subst. cbn [map]. constructor.
      + intro Hi. apply in_map_iff in Hi. destruct Hi as (r' & E & Hr'). apply Hn. replace r with r'; [exact Hr'|].
        destruct (H r (or_introl eq_refl)) as [_ C1]. destruct (H r' (or_intror Hr')) as [_ C2].
        rewrite (Nat.div_mod r g N), (Nat.div_mod r' g N), E. congruence.
      + apply IH; [exact ND'|]. intros; apply H. now right.
    - intros x Hx. apply in_map_iff in Hx. destruct Hx as (r & <- & Hr). destruct (H r Hr) as [L _]. apply in_seq. split; [lia|].
      apply Nat.div_lt_upper_bound; [exact N|]. lia. }
  now rewrite map_length, seq_length in E.
Qed.

(** [b] cyclic of length M; the rotations of [b] that give the word [a] with C zeros at its end *)
Section Rotations.
  Context {A : Type} (z : A) (n C : nat) (a b : nat -> A).
  Notation M := (n + C).
  Hypothesis HM : M <> 0.
  Hypothesis Hb : forall t, b (t mod M) = b t.
  Hypothesis Ha : forall t, a (t mod M) = a t.
  Hypothesis Hz : forall t, n <= t < M -> a t = z.
  Definition rot (r : nat) : Prop := forall t, t < M -> b (r + C + t) = a t.
  Lemma rot_all r t : rot r -> b (r + C + t) = a t.
  Proof.
    intro H. rewrite <- (Ha t), <- (Hb (r + C + t)). rewrite <- Nat.add_mod_idemp_r by exact HM. rewrite Hb. apply H.
    apply Nat.mod_upper_bound. exact HM.
  Qed.
  Lemma period_M : period a M.
  Proof. intro t. rewrite <- (Ha (t + M)). replace (t + M) with (t + 1 * M) by lia. rewrite Nat.mod_add by exact HM. apply Ha. Qed.
  Lemma rot_diff r r' : rot r -> rot r' -> r' <= r -> period a (r - r').
  Proof.
    intros H H' L t. rewrite <- (rot_all r' (t + (r - r')) H'). replace (r' + C + (t + (r - r'))) with (r + C + t) by lia. now apply rot_all.
  Qed.
  (** a common divisor of M and all differences that is a period *)
  Lemma common rs r0 : rot r0 -> (forall r, In r rs -> rot r) ->
    exists g, g <> 0 /\ Nat.divide g M /\ period a g /\ forall r, In r rs -> r mod g = r0 mod g.
  Proof.
    intros H0. induction rs as [|r rs IH]; intro H.
    - exists M. split; [exact HM|]. split; [exists 1; lia|]. split; [apply period_M|]. intros r [].
    - destruct IH as (g & N & D & P & E); [intros; apply H; now right|].
      set (s := if r0 <=? r then r - r0 else r0 - r).
      assert (Ps : period a s).
      { unfold s. destruct (Nat.leb_spec r0 r); apply rot_diff; auto; try lia; apply H; now left. }
      exists (Nat.gcd s g). assert (Dg : Nat.divide (Nat.gcd s g) g) by apply Nat.gcd_divide_r.
      assert (N' : Nat.gcd s g <> 0). { intro Q. apply Nat.gcd_eq_0_r in Q. contradiction. }
      split; [exact N'|]. split; [eapply Nat.divide_trans; eassumption|]. split; [now apply period_gcd|].
      intros r' [->|Hr'].
      + assert (Ds : Nat.divide (Nat.gcd s g) s) by apply Nat.gcd_divide_l. destruct Ds as (k & Ek). unfold s in Ek at 1.
        assert (Z : forall x y G, G <> 0 -> x = y + k * G -> x mod G = y mod G) by (intros x y G NG ->; now apply Nat.mod_add).
        destruct (Nat.leb_spec r0 r').
        * apply Z; [exact N'|lia].
        * symmetry. apply Z; [exact N'|lia].
      + destruct Dg as (k & Ek). specialize (E r' Hr').
        assert (Q : forall x G, G <> 0 -> g = k * G -> (x mod g) mod G = x mod G).
        { intros x G NG EG. rewrite (Nat.div_mod x g N) at 2.
          replace (g * (x / g) + x mod g) with (x mod g + (x / g * k) * G) by (rewrite EG at 3; lia). symmetry. now apply Nat.mod_add. }
        rewrite <- (Q r' _ N' Ek), <- (Q r0 _ N' Ek). now rewrite E.
  Qed.
  Theorem rot_bound q i0 rs : (forall d, Nat.divide d M -> C < d -> q <= d) -> a i0 <> z ->
    NoDup rs -> (forall r, In r rs -> r < M /\ rot r) -> length rs * q <= M.
  Proof.
    intros Hq H0 ND H. destruct rs as [|r0 rs]; [cbn; lia|].
    destruct (common (r0 :: rs) r0) as (g & N & D & P & E); [apply H; now left|intros; now apply H|].
    assert (L : C < g).
    { destruct (Nat.lt_ge_cases C g) as [L|L]; [exact L|]. exfalso. apply H0. now apply (period_long a z g n C). }
    apply Nat.le_trans with (length (r0 :: rs) * g).
    - apply Nat.mul_le_mono_l. now apply Hq.
    - apply (class_count g M (r0 mod g)); auto. intros r Hr. split; [now apply H|now apply E].
  Qed.
End Rotations.
