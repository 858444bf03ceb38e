(** Algebra behind the base check against a dishonest prover: keys that are not affine in the verifier's key are caught. *)
From Coq Require Import NArith ZArith Znumtheory Lia List Bool Arith Ring.
From Verif Require Import Word FpModel WordProofs FpProofs PolyRoots Prime61 ArithSpec ArithProofs ArithAlg VoleModel CopeProofs.
Import ListNotations.
Local Open Scope nat_scope.
Ltac Zify.zify_post_hook ::= idtac.
Add Ring fp_ring_ca : fp_rt.
Notation pev := (peval fp p0 padd pmul).

Lemma fp_inv (a : fp) : a <> p0 -> exists i, pmul i a = p1.
Proof.
  intro Ha.
  assert (Rp : rel_prime (Z.of_N (fv a)) zp).
  { apply rel_prime_sym, prime_rel_prime; [exact zp_prime|]. intro D. apply Ha. apply fv_inj. change (fv p0) with 0%N.
    destruct (N.eq_dec (fv a) 0) as [E|E]; [exact E|]. exfalso. apply Z.divide_pos_le in D; [|lia].
    pose proof (fv_lt a) as Q. change zp with (Z.of_N PR) in D. lia. }
  apply rel_prime_bezout in Rp. destruct Rp as [u v E].
  exists (toF (Z.to_N (u mod zp))). rewrite <- (toF_fv a), <- toF_mul, <- toF_1. apply toF_eq.
  assert (U : (0 <= u mod zp < zp)%Z) by (apply Z.mod_pos_bound; reflexivity).
  apply N2Z.inj. rewrite !N2Z.inj_mod, N2Z.inj_mul, Z2N.id by easy. change (Z.of_N PR) with zp.
  rewrite Z.mul_mod_idemp_l by discriminate. replace (u * Z.of_N (fv a))%Z with (1 + (- v) * zp)%Z by lia.
  rewrite Z.mod_add by discriminate. reflexivity.
Qed.

(** * Sums against powers of the seed *)
Fixpoint ppw (x : fp) (n : nat) : fp := match n with 0 => p1 | S n' => pmul x (ppw x n') end.
Lemma toF_pow s n : toF (s ^ N.of_nat n) = ppw (toF s) n.
Proof. induction n as [|n IH]; [reflexivity|]. rewrite Nat2N.inj_succ, N.pow_succ_r', toF_mul, IH. reflexivity. Qed.
Lemma chiF_pow s n i : (s < PR)%N -> i < n -> chiF s n i = ppw (toF s) (S i).
Proof.
  intros Hs Hi. unfold chiF. rewrite uni_hash_coeff_gen_ok by (auto; lia).
  rewrite (nth_indep _ 0%N ((fun i => s ^ (1 + N.of_nat i) mod PR)%N 0)) by (rewrite map_length, seq_length; exact Hi).
  rewrite (map_nth (fun i => s ^ (1 + N.of_nat i) mod PR)%N (seq 0 n) 0 i), seq_nth by easy. cbn [Nat.add].
  rewrite toF_mod, <- toF_pow. do 2 f_equal. lia.
Qed.
Lemma psum_pev x : forall n f, psum (fun i => pmul (ppw x (S i)) (f i)) n = pmul x (pev (map f (seq 0 n)) x).
Proof.
  induction n as [|n IH]; intro f; [cbn; ring|].
  rewrite psum_shift. cbn [seq map peval]. rewrite <- seq_shift, map_map, <- (IH (fun i => f (S i))).
  rewrite (psum_ext (fun i => pmul (ppw x (S (S i))) (f (S i))) (fun i => pmul x (pmul (ppw x (S i)) (f (S i))))) by (intros; cbn [ppw]; ring).
  rewrite psum_scal. cbn [ppw]. ring.
Qed.
Lemma chi_sum_pev s n f : (s < PR)%N -> psum (fun i => pmul (chiF s n i) (f i)) n = pmul (toF s) (pev (map f (seq 0 n)) (toF s)).
Proof. intro Hs. rewrite <- psum_pev. apply psum_ext. intros i Hi. now rewrite chiF_pow. Qed.

(** * Few seeds *)
Lemma split_list {A} (P Q : A -> Prop) (l : list A) : NoDup l -> (forall x, In x l -> P x \/ Q x) ->
  exists l1 l2, length l = length l1 + length l2 /\ NoDup l1 /\ NoDup l2 /\ incl l1 l /\ incl l2 l /\ (forall x, In x l1 -> P x) /\ (forall x, In x l2 -> Q x).
Proof.
  induction l as [|a l IH]; intros Nd H.
  - exists [], []. repeat split; try constructor; try easy.
  - inversion Nd as [|? ? Na Nd']; subst. destruct IH as (l1 & l2 & E & N1 & N2 & I1 & I2 & A1 & A2); auto.
    { intros x Hx. apply H. now right. }
    destruct (H a (or_introl eq_refl)) as [Ha|Ha].
    + exists (a :: l1), l2. split; [cbn; lia|]. split; [constructor; auto|]. split; [easy|]. split; [|split; [now apply incl_tl|]].
      * intros x [<-|Hx]; [now left|right; auto].
      * split; [|easy]. intros x [<-|Hx]; auto.
    + exists l1, (a :: l2). split; [cbn; lia|]. split; [easy|]. split; [constructor; auto|]. split; [now apply incl_tl|]. split.
      * intros x [<-|Hx]; [now left|right; auto].
      * split; [easy|]. intros x [<-|Hx]; auto.
Qed.
Lemma cover_count {A B} (P : B -> A -> Prop) n (cs : list B) : (forall c l, In c cs -> NoDup l -> (forall x, In x l -> P c x) -> length l <= n) ->
  forall l, NoDup l -> (forall x, In x l -> exists c, In c cs /\ P c x) -> length l <= length cs * n.
Proof.
  induction cs as [|c cs IH]; intros Hc l Nd H.
  - destruct l as [|a l]; [cbn; lia|]. destruct (H a (or_introl eq_refl)) as (c & [] & _).
  - destruct (split_list (fun x => P c x) (fun x => exists c', In c' cs /\ P c' x) l Nd) as (l1 & l2 & E & N1 & N2 & I1 & I2 & A1 & A2).
    { intros x Hx. destruct (H x Hx) as (c' & [<-|Hc'] & Px); [now left|right; eauto]. }
    pose proof (Hc c l1 (or_introl eq_refl) N1 A1) as B1.
    assert (B2 : length l2 <= length cs * n). { apply IH; auto. intros c' l' Hc'. apply Hc. now right. }
    cbn [length]. lia.
Qed.

(** * What one accepted check says *)
Definition wrapF (j : bool) : fp := if j then toF 8 else p0.
Lemma check_F n d key b s xz : 1 <= n -> (s < PR)%N -> (d < PR)%N -> (forall j, j < n -> (key j < PR)%N) -> (b < PR)%N -> (snd xz < W64)%N ->
  base_sender_check n d key b s xz = true -> exists j : bool,
  toF (fst xz) = padd (padd (psum (fun i => pmul (chiF s n i) (toF (key i))) n) (toF b)) (psub (pmul (toF (snd xz)) (toF d)) (wrapF j)) /\
  ((snd xz < 2 ^ 63)%N -> j = false).
Proof.
  intros Hn Hs Hd Hk Hb Hx E. unfold base_sender_check in E. apply N.eqb_eq in E.
  assert (Kl : forall j, j < n -> (lo64 (key j) < PR)%N) by (intros j Hj; rewrite lo_id; [|apply N.lt_le_incl]; auto).
  destruct (inn_slice s (fun j => lo64 (key j)) n Hs Hn Kl) as [[A1 _] [A2 _]].
  set (I := vector_inn_prdt_sum_red (slice (fun j => lo64 (key j)) n) _) in *. clearbody I.
  rewrite (lo_id b), (lo_id d) in E by now apply N.lt_le_incl.
  pose proof (am_lt I b A1 (N.lt_le_incl _ _ Hb)) as Q1.
  assert (Cm : forall x y, add_mod x y = add_mod y x). { intros x y. unfold add_mod, add64. now rewrite (N.add_comm x y). }
  rewrite Cm in E. destruct (mm_add_F (snd xz) d (add_mod I b) Hx Hd Q1) as (j & F & J).
  exists j. split; [|exact J]. rewrite <- E, F, am_F, A2 by now apply N.lt_le_incl.
  rewrite (psum_ext (fun i => pmul (chiF s n i) (toF (lo64 (key i)))) (fun i => pmul (chiF s n i) (toF (key i)))); [unfold wrapF; ring|].
  intros i Hi. now rewrite lo_id by (apply N.lt_le_incl; auto).
Qed.

(** * Three keys *)
Section Three.
  Variables (d1 d2 d3 : fp).
  Definition def3 (a1 a2 a3 : fp) : fp := padd (pmul (psub d2 d3) a1) (padd (pmul (psub d3 d1) a2) (pmul (psub d1 d2) a3)).
  Lemma def3_sum c f1 f2 f3 n : psum (fun i => pmul (c i) (def3 (f1 i) (f2 i) (f3 i))) n =
    def3 (psum (fun i => pmul (c i) (f1 i)) n) (psum (fun i => pmul (c i) (f2 i)) n) (psum (fun i => pmul (c i) (f3 i)) n).
  Proof. unfold def3. induction n as [|n IH]; cbn [psum]; [ring|]. rewrite IH. ring. Qed.
  Definition offs (b1 b2 b3 : fp) (js : bool * bool * bool) : fp :=
    let '(j1, j2, j3) := js in psub (def3 b1 b2 b3) (def3 (wrapF j1) (wrapF j2) (wrapF j3)).
  Lemma acc3 s n (f1 f2 f3 : nat -> fp) b1 b2 b3 X Z j1 j2 j3 : (s < PR)%N ->
    Z = padd (padd (psum (fun i => pmul (chiF s n i) (f1 i)) n) b1) (psub (pmul X d1) (wrapF j1)) ->
    Z = padd (padd (psum (fun i => pmul (chiF s n i) (f2 i)) n) b2) (psub (pmul X d2) (wrapF j2)) ->
    Z = padd (padd (psum (fun i => pmul (chiF s n i) (f3 i)) n) b3) (psub (pmul X d3) (wrapF j3)) ->
    pev (offs b1 b2 b3 (j1, j2, j3) :: map (fun i => def3 (f1 i) (f2 i) (f3 i)) (seq 0 n)) (toF s) = p0.
  Proof.
    intros Hs E1 E2 E3. cbn [peval]. rewrite <- chi_sum_pev by easy. rewrite (def3_sum (chiF s n) f1 f2 f3). cbn [offs].
    set (S1 := psum (fun i => pmul (chiF s n i) (f1 i)) n) in *. set (S2 := psum (fun i => pmul (chiF s n i) (f2 i)) n) in *.
    set (S3 := psum (fun i => pmul (chiF s n i) (f3 i)) n) in *. clearbody S1 S2 S3.
    transitivity (def3 (padd (padd S1 b1) (psub (pmul X d1) (wrapF j1))) (padd (padd S2 b2) (psub (pmul X d2) (wrapF j2))) (padd (padd S3 b3) (psub (pmul X d3) (wrapF j3)))).
    - unfold def3. ring.
    - rewrite <- E1, <- E2, <- E3. unfold def3. ring.
  Qed.
End Three.
Definition triples : list (bool * bool * bool) :=
  [(false,false,false); (false,false,true); (false,true,false); (false,true,true); (true,false,false); (true,false,true); (true,true,false); (true,true,true)].
Lemma triples_all js : In js triples.
Proof. destruct js as [[[] []] []]; cbn; tauto. Qed.

Section Bind.
  Variables (n : nat) (key : N -> nat -> N) (b : N -> N).
  Hypothesis Hn : 1 <= n.
  Hypothesis Hk : forall d j, (d < PR)%N -> j < n -> (key d j < PR)%N.
  Hypothesis Hb : forall d, (d < PR)%N -> (b d < PR)%N.
  Lemma three_bound e1 e2 e3 seeds (reply : N -> N * N) jj : (e1 < PR)%N -> (e2 < PR)%N -> (e3 < PR)%N ->
    NoDup seeds -> (forall s, In s seeds -> (s < PR)%N /\ (snd (reply s) < W64)%N) ->
    (forall s d, In s seeds -> In d [e1; e2; e3] -> base_sender_check n d (key d) (b d) s (reply s) = true) ->
    jj < n -> def3 (toF e1) (toF e2) (toF e3) (toF (key e1 jj)) (toF (key e2 jj)) (toF (key e3 jj)) <> p0 ->
    length seeds <= 8 * n /\ ((forall s, In s seeds -> (snd (reply s) < 2 ^ 63)%N) -> length seeds <= n).
  Proof.
    intros L1 L2 L3 Nd Hs Ha Hj Hd.
    set (D := map (fun i => def3 (toF e1) (toF e2) (toF e3) (toF (key e1 i)) (toF (key e2 i)) (toF (key e3 i))) (seq 0 n)).
    set (off := offs (toF e1) (toF e2) (toF e3) (toF (b e1)) (toF (b e2)) (toF (b e3))).
    assert (Nz : forall c, ~ Forall (fun x => x = p0) (c :: D)).
    { intros c F. apply Forall_inv_tail in F. unfold D in F. rewrite Forall_map, Forall_forall in F. apply Hd. apply (F jj). apply in_seq. lia. }
    assert (Ln : forall c, length (c :: D) = S n) by (intro c; unfold D; cbn [length]; now rewrite map_length, seq_length).
    assert (At : forall s, In s seeds -> exists js, pev (off js :: D) (toF s) = p0 /\ ((snd (reply s) < 2 ^ 63)%N -> js = (false, false, false))).
    { intros s Is. destruct (Hs s Is) as [S1 S2].
      destruct (check_F n e1 (key e1) (b e1) s (reply s)) as (j1 & F1 & J1); auto; [apply Ha; cbn; tauto|].
      destruct (check_F n e2 (key e2) (b e2) s (reply s)) as (j2 & F2 & J2); auto; [apply Ha; cbn; tauto|].
      destruct (check_F n e3 (key e3) (b e3) s (reply s)) as (j3 & F3 & J3); auto; [apply Ha; cbn; tauto|].
      exists (j1, j2, j3). split; [|intro Q; now rewrite J1, J2, J3].
      exact (acc3 _ _ _ s n (fun i => toF (key e1 i)) (fun i => toF (key e2 i)) (fun i => toF (key e3 i)) _ _ _ _ _ _ _ _ S1 F1 F2 F3). }
    assert (Cnt : forall js l, NoDup l -> incl l seeds -> (forall s, In s l -> pev (off js :: D) (toF s) = p0) -> length l <= n).
    { intros js l Nl Il Hl. assert (Q : S (length (map toF l)) <= length (off js :: D)).
      { apply fp_root_count; [apply Nz| |].
        - revert Nl Il. clear -Hs. induction l as [|a l IH]; intros Nl Il; cbn [map]; [constructor|]. inversion Nl; subst. constructor.
          + intro I. apply in_map_iff in I. destruct I as (y & E & Iy). apply toF_inj in E; [subst; contradiction| |].
            * apply (Hs y). apply Il. now right.
            * apply (Hs a). apply Il. now left.
          + apply IH; [easy|]. intros x Hx. apply Il. now right.
        - intros r Hr. apply in_map_iff in Hr. destruct Hr as (s & <- & Is). auto. }
      rewrite map_length, Ln in Q. lia. }
    split.
    - change 8 with (length triples). apply (cover_count (fun js s => In s seeds /\ pev (off js :: D) (toF s) = p0) n triples); auto.
      + intros js l _ Nl Hl. apply (Cnt js); auto; [intros x Hx; now apply Hl|intros; now apply Hl].
      + intros s Is. destruct (At s Is) as (js & E & _). exists js. split; [apply triples_all|auto].
    - intro Sm. apply (Cnt (false, false, false)); [easy|apply incl_refl|]. intros s Is. destruct (At s Is) as (js & E & J). rewrite J in E; auto.
  Qed.

  (** a line through the keys, or a column that is on no line *)
  Definition on_line (ds : list N) : Prop := exists blk : nat -> N, forall d j, In d ds -> j < n -> share_ok d (blk j) (key d j).
  Definition line_at (u v : fp) (d : N) (j : nat) : Prop := toF (key d j) = psub v (pmul u (toF d)).
  Lemma line_blk ds (u v : nat -> fp) : (forall d, In d ds -> (d < PR)%N) -> (forall d j, In d ds -> j < n -> line_at (u j) (v j) d j) -> on_line ds.
  Proof.
    intros Hd H. exists (fun j => mkblock (fv (u j)) (fv (v j))). intros d j Id Hj. apply share_F.
    rewrite hi64_mk, lo64_mk by (eapply N.lt_trans; [apply fv_lt|reflexivity]).
    split; [repeat split; try apply fv_lt; auto|]. rewrite !toF_fv. specialize (H d j Id Hj). unfold line_at in H. rewrite H. ring.
  Qed.
  Lemma def3_line e1 e2 e3 a1 a2 a3 u v : psub e1 e2 <> p0 -> a1 = psub v (pmul u e1) -> a2 = psub v (pmul u e2) ->
    def3 e1 e2 e3 a1 a2 a3 = p0 -> a3 = psub v (pmul u e3).
  Proof.
    intros Ne A1 A2 E. apply (sub_zero fp p0 p1 padd pmul psub popp fp_rt).
    destruct (fp_nzd (psub e1 e2) (psub a3 (psub v (pmul u e3)))) as [Q|Q]; [|contradiction|exact Q].
    rewrite <- E. unfold def3. rewrite A1, A2. ring.
  Qed.
  Lemma line_or_triple ds : NoDup ds -> (forall d, In d ds -> (d < PR)%N) ->
    on_line ds \/ exists e1 e2 e3 j, In e1 ds /\ In e2 ds /\ In e3 ds /\ j < n /\
      def3 (toF e1) (toF e2) (toF e3) (toF (key e1 j)) (toF (key e2 j)) (toF (key e3 j)) <> p0.
  Proof.
    intros Nd Hd. destruct ds as [|e1 [|e2 ds]].
    - left. exists (fun _ => 0%N). intros d j [].
    - left. apply (line_blk _ (fun _ => p0) (fun j => toF (key e1 j))); [auto|]. intros d j [<-|[]] _. unfold line_at. ring.
    - assert (Ne : psub (toF e1) (toF e2) <> p0).
      { intro E. apply (sub_zero fp p0 p1 padd pmul psub popp fp_rt) in E. apply toF_inj in E; [|apply Hd; cbn; tauto|apply Hd; cbn; tauto].
        subst. inversion Nd as [|? ? Na _]. apply Na. now left. }
      destruct (fp_inv _ Ne) as [iv Hi].
      set (u := fun j => pmul iv (psub (toF (key e2 j)) (toF (key e1 j)))). set (v := fun j => padd (toF (key e1 j)) (pmul (u j) (toF e1))).
      assert (Q1 : forall j, line_at (u j) (v j) e1 j) by (intro j; unfold line_at, v; ring).
      assert (Q2 : forall j, line_at (u j) (v j) e2 j).
      { intro j. unfold line_at, v, u.
        transitivity (padd (toF (key e1 j)) (pmul (pmul iv (psub (toF e1) (toF e2))) (psub (toF (key e2 j)) (toF (key e1 j))))); [rewrite Hi|]; ring. }
      set (bad := fun x : N * nat => if fp_eq_dec (toF (key (fst x) (snd x))) (psub (v (snd x)) (pmul (u (snd x)) (toF (fst x)))) then false else true).
      destruct (existsb bad (list_prod ds (seq 0 n))) eqn:E.
      + right. apply existsb_exists in E. destruct E as ([e3 j] & I & B). apply in_prod_iff in I. destruct I as [I3 Ij]. apply in_seq in Ij.
        unfold bad in B. cbn [fst snd] in B. destruct (fp_eq_dec (toF (key e3 j)) (psub (v j) (pmul (u j) (toF e3)))) as [X|X]; [discriminate|].
        exists e1, e2, e3, j. split; [now left|]. split; [now (right; left)|]. split; [now (right; right)|]. split; [lia|]. intro Z. apply X. exact (def3_line _ _ _ _ _ _ (u j) (v j) Ne (Q1 j) (Q2 j) Z).
      + left. apply (line_blk _ u v Hd). intros d j [<-|[<-|Id]] Hj; [apply Q1|apply Q2|].
        destruct (fp_eq_dec (toF (key d j)) (psub (v j) (pmul (u j) (toF d)))) as [X|X]; [exact X|]. exfalso.
        assert (T : existsb bad (list_prod ds (seq 0 n)) = true).
        { apply existsb_exists. exists (d, j). split; [apply in_prod; [easy|apply in_seq; lia]|]. unfold bad. cbn [fst snd].
          now destruct (fp_eq_dec (toF (key d j)) (psub (v j) (pmul (u j) (toF d)))). }
        congruence.
  Qed.
  Theorem check_binds ds : NoDup ds -> (forall d, In d ds -> (d < prm)%N) ->
    (exists blk : nat -> N, forall d j, In d ds -> j < n -> share_ok d (blk j) (key d j)) \/
    (forall seeds (reply : N -> N * N), NoDup seeds -> (forall s, In s seeds -> (s < prm)%N /\ (snd (reply s) < 2 ^ 64)%N) ->
      (forall s d, In s seeds -> In d ds -> base_sender_check n d (key d) (b d) s (reply s) = true) ->
      length seeds <= 8 * n /\ ((forall s, In s seeds -> (snd (reply s) < 2 ^ 63)%N) -> length seeds <= n)).
  Proof.
    intros Nd Hd. destruct (line_or_triple ds Nd Hd) as [L|(e1 & e2 & e3 & j & I1 & I2 & I3 & Hj & D)]; [now left|right].
    intros seeds reply Ns Hs Ha.
    apply (three_bound e1 e2 e3 seeds reply j (Hd e1 I1) (Hd e2 I2) (Hd e3 I3) Ns Hs); auto. intros s d Is [<-|[<-|[<-|[]]]]; apply Ha; auto.
  Qed.
End Bind.
(** the keys of cope.h are reduced whatever words the receiver sends, as long as these are at most p *)
Lemma cope_send_lt w0r w1r d tau j : (forall i j, (w0r i j < W64)%N) -> (forall i j, (w1r i j < W64)%N) -> (forall i j, (tau i j <= PR)%N) ->
  (cope_send 61 w0r w1r d tau j < PR)%N.
Proof.
  intros H0 H1 Ht. unfold cope_send. apply prm2pr_ok. intros i _. apply am_lt.
  - unfold wsr. destruct (dbit d i); apply mod1_lt; auto.
  - destruct (dbit d i); [auto|discriminate].
Qed.
