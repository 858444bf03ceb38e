From Coq Require Import ZArith List Arith Bool Lia Permutation.
From Verif Require Import PoolModel PoolSpec.
Import ListNotations.

  Lemma memcpy_in : forall (A : Type) (dst : arr A) a (src : arr A) f len i, a <= i < a + len -> memcpy dst a src f len i = src (f + (i - a)).
  Proof. intros. unfold memcpy. destruct (Nat.leb_spec a i); destruct (Nat.ltb_spec i (a+len)); simpl; auto; lia. Qed.
  Lemma memcpy_out : forall (A : Type) (dst : arr A) a (src : arr A) f len i, i < a \/ a + len <= i -> memcpy dst a src f len i = dst i.
  Proof. intros. unfold memcpy. destruct (Nat.leb_spec a i); destruct (Nat.ltb_spec i (a+len)); simpl; auto; lia. Qed.


Section P.
  Context {A : Type}.
  Variable item : nat -> nat -> A.
  Variables (M L : nat).
  Notation n := (L + M).
  Hypothesis HM : 1 <= M.
  Hypothesis HML : M <= L.
  Lemma lim_L : lim n M = Z.of_nat L. Proof. unfold lim. lia. Qed.

  (** contents of a buffer region filled by runs it, it+1, ... *)
  Definition src (it i : nat) : A := item (it + i / L) (i mod L).
  Lemma src_lt : forall it i, i < L -> src it i = item it i.
  Proof. intros. unfold src. rewrite Nat.div_small, Nat.mod_small by lia. f_equal; lia. Qed.
  Lemma src_step : forall it i, L <= i -> src it i = src (S it) (i - L).
  Proof.
    intros. unfold src. replace i with ((i - L) + 1 * L) at 1 2 by lia.
    rewrite Nat.div_add, Nat.mod_add by lia. f_equal; lia.
  Qed.

  Lemma inplace_ok : forall cnt (st : pst A) data pt st' d' pt',
    inplace item n M cnt st data (Z.of_nat pt) = (st', d', pt') ->
    pt' = Z.of_nat (pt + cnt * L) /\
    ps_pool st' = ps_pool st /\ ps_it st' = ps_it st + cnt /\ ps_used st' = (if cnt =? 0 then ps_used st else Z.of_nat L) /\
    (forall i, i < pt -> d' i = data i) /\
    (forall i, pt <= i < pt + cnt * L -> d' i = src (ps_it st) (i - pt)) /\
    (1 <= cnt -> forall i, pt + cnt * L <= i < pt + cnt * L + M -> d' i = item (ps_it st + cnt - 1) (i - pt - (cnt-1)*L)) /\
    (forall i, pt + cnt * L + M <= i -> d' i = data i) /\ (cnt = 0 -> d' = data).
  Proof.
    induction cnt; intros st data pt st' d' pt' E; cbn [inplace] in E.
    - injection E as <- <- <-. repeat split; intros; try lia; auto. 
    - rewrite lim_L in E. rewrite <- Nat2Z.inj_add in E.
      destruct (IHcnt _ _ _ _ _ _ E) as (P1 & P2 & P3 & P4 & P5 & P6 & P7 & P8 & P9).
      cbn [ps_pool ps_it ps_used] in *. unfold raw in *. rewrite Nat2Z.id in *.
      split; [rewrite P1; f_equal; lia|]. split; [auto|]. split; [lia|].
      split; [rewrite P4; destruct (cnt =? 0); auto|].
      split; [intros; rewrite P5 by lia; apply memcpy_out; lia|].
      split.
      + intros i Hi. destruct (lt_dec i (pt + L)).
        * rewrite P5 by lia. rewrite memcpy_in by lia. rewrite src_lt by lia. f_equal; lia.
        * rewrite P6 by lia. rewrite (src_step (ps_it st)) by lia. f_equal; lia.
      + split.
        * intros _ i Hi. destruct (Nat.eq_dec cnt 0) as [->|Hc].
          -- rewrite P9 by auto. rewrite memcpy_in by lia. f_equal; lia.
          -- rewrite P7 by lia. f_equal; [lia|]. replace (S cnt - 1) with (S (cnt - 1)) by lia. cbn [Nat.mul]. lia.
        * split; [|lia]. intros i Hi. destruct (Nat.eq_dec cnt 0) as [->|Hc].
          -- rewrite P9 by auto. apply memcpy_out. lia.
          -- rewrite P8 by lia. apply memcpy_out. assert (L <= cnt * L) by nia. lia.
  Qed.

  Lemma inplace2_eq : forall cnt (st : pst A) data pt, exists u pt',
    inplace item n M cnt st data pt =
    ({| ps_pool := ps_pool (fst (inplace2 item n M cnt st data pt)); ps_used := u; ps_it := ps_it (fst (inplace2 item n M cnt st data pt)) |},
     snd (inplace2 item n M cnt st data pt), pt') /\ ps_used (fst (inplace2 item n M cnt st data pt)) = ps_used st.
  Proof.
    induction cnt; intros; cbn [inplace inplace2].
    - exists (ps_used st), pt. cbn. split; [destruct st; reflexivity|auto].
    - destruct (IHcnt {| ps_pool := ps_pool st; ps_used := lim n M; ps_it := S (ps_it st) |} (raw item n (ps_it st) data (Z.to_nat pt)) (pt + lim n M)%Z) as (u & p & E & _).
      rewrite E. 
      assert (Q : forall c a a' d p1, ps_pool a = ps_pool a' -> ps_it a = ps_it a' ->
        snd (inplace2 item n M c a d p1) = snd (inplace2 item n M c a' d p1) /\
        ps_it (fst (inplace2 item n M c a d p1)) = ps_it (fst (inplace2 item n M c a' d p1)) /\
        ps_pool (fst (inplace2 item n M c a d p1)) = ps_pool (fst (inplace2 item n M c a' d p1))).
      { clear. induction c; intros; cbn [inplace2]; [auto|]. rewrite H0. apply IHc; cbn; auto. }
      destruct (Q cnt {| ps_pool := ps_pool st; ps_used := lim n M; ps_it := S (ps_it st) |} {| ps_pool := ps_pool st; ps_used := ps_used st; ps_it := S (ps_it st) |} (raw item n (ps_it st) data (Z.to_nat pt)) (pt + lim n M)%Z eq_refl eq_refl) as (Q1 & Q2 & Q3).
      rewrite Q1, Q2, Q3. exists u, p. split; [reflexivity|].
      destruct (IHcnt {| ps_pool := ps_pool st; ps_used := ps_used st; ps_it := S (ps_it st) |} (raw item n (ps_it st) data (Z.to_nat pt)) (pt + lim n M)%Z) as (_ & _ & _ & E2).
      rewrite E2. reflexivity.
  Qed.

  (** pointwise description of extend *)
  Definition wf (st : pst A) : Prop := (0 <= ps_used st <= Z.of_nat L)%Z.
  Lemma extend_ok : forall num (st : pst A) data st' d', wf st ->
    extend item n M (Z.of_nat num) st data = (st', d') ->
    let u := Z.to_nat (ps_used st) in let g := L - u in
    wf st' /\ (forall i, num <= i -> d' i = data i) /\
    (forall i, i < num -> d' i = if i <? g then ps_pool st (u + i) else src (ps_it st) (i - g)) /\
    (num <= g -> ps_pool st' = ps_pool st /\ ps_used st' = Z.of_nat (u + num) /\ ps_it st' = ps_it st) /\
    (g < num -> let r := (num - g - 1) / L in
       ps_it st' = ps_it st + r + 1 /\ ps_used st' = Z.of_nat (num - g - r * L) /\
       num - g - r * L <= L /\ 1 <= num - g - r * L /\
       (forall i, i < L -> ps_pool st' i = item (ps_it st + r) i)).
  Proof.
    intros num st data st' d' Hw E u g. unfold wf in Hw. unfold extend in E. unfold left in E. rewrite lim_L in E.
    assert (Hu : ps_used st = Z.of_nat u) by (unfold u; lia).
    assert (Hul : u <= L) by (unfold u; lia).
    assert (Hg : (Z.of_nat L - ps_used st = Z.of_nat g)%Z) by (unfold g; lia).
    rewrite Hg, Hu, !Nat2Z.id in E. clear Hg.
    destruct (Z.leb_spec (Z.of_nat num) (Z.of_nat g)) as [Hc|Hc].
    - injection E as <- <-. unfold wf. cbn [ps_pool ps_used ps_it].
      split; [unfold g in *; lia|]. split; [intros; apply memcpy_out; lia|].
      split; [intros; destruct (Nat.ltb_spec i g); [|lia]; rewrite memcpy_in by lia; f_equal; lia|].
      split; [intros; repeat split; auto; lia|intros; lia].
    - assert (Hgn : g < num) by lia. clear Hc.
      set (X := num - g) in *. assert (HX : 1 <= X) by (unfold X; lia).
      replace (Z.of_nat num - Z.of_nat g)%Z with (Z.of_nat X) in E by (unfold X; lia).
      assert (E0 : (if (0 <? Z.of_nat g)%Z then (memcpy data 0 (ps_pool st) u g, Z.of_nat g) else (data, 0%Z))
                   = (memcpy data 0 (ps_pool st) u g, Z.of_nat g) \/ g = 0 /\
                   (if (0 <? Z.of_nat g)%Z then (memcpy data 0 (ps_pool st) u g, Z.of_nat g) else (data, 0%Z)) = (data, Z.of_nat 0)).
      { destruct (Z.ltb_spec 0 (Z.of_nat g)); [left; reflexivity|right; split; [lia|reflexivity]]. }
      set (d0 := fst (if (0 <? Z.of_nat g)%Z then (memcpy data 0 (ps_pool st) u g, Z.of_nat g) else (data, 0%Z))) in *.
      assert (E1 : (if (0 <? Z.of_nat g)%Z then (memcpy data 0 (ps_pool st) u g, Z.of_nat g) else (data, 0%Z)) = (d0, Z.of_nat g)).
      { destruct E0 as [E0|[G E0]]; [unfold d0; rewrite E0; reflexivity|unfold d0; rewrite E0; cbn; rewrite G; reflexivity]. }
      assert (D1 : forall i, i < g -> d0 i = ps_pool st (u + i)).
      { intros. destruct E0 as [E0|[G E0]]; [unfold d0; rewrite E0; cbn [fst]; rewrite memcpy_in by lia; f_equal; lia|lia]. }
      assert (D2 : forall i, g <= i -> d0 i = data i).
      { intros. destruct E0 as [E0|[G E0]]; unfold d0; rewrite E0; cbn [fst]; auto. apply memcpy_out; lia. }
      rewrite E1 in E. clear E0 E1. clearbody d0.
      (* rounds *)
      set (rip := (X - M) / L).
      assert (HL : 1 <= L) by lia.
      assert (Er : Z.quot (Z.of_nat X - Z.of_nat M) (Z.of_nat L) = Z.of_nat rip).
      { unfold rip. destruct (le_lt_dec M X).
        - rewrite <- Nat2Z.inj_sub by lia. rewrite Z.quot_div_nonneg by lia. rewrite <- Nat2Z.inj_div. reflexivity.
        - replace (X - M) with 0 by lia. rewrite Nat.div_0_l by lia.
          replace (Z.of_nat X - Z.of_nat M)%Z with (- (Z.of_nat (M - X)))%Z by lia.
          rewrite Z.quot_opp_l by lia. rewrite Z.quot_small by lia. reflexivity. }
      rewrite Er, Nat2Z.id in E. clear Er.
      assert (Hrip : rip * L <= X - M /\ X - M < rip * L + L).
      { unfold rip. pose proof (Nat.div_mod_eq (X - M) L). pose proof (Nat.mod_upper_bound (X - M) L). lia. }
      assert (Hrip0 : X < M -> rip = 0) by (intros; unfold rip; replace (X - M) with 0 by lia; apply Nat.div_0_l; lia).
      replace (Z.of_nat X - Z.of_nat rip * Z.of_nat L)%Z with (Z.of_nat (X - rip * L)) in E by lia.
      clearbody rip.
      set (last := X - rip * L) in *.
      assert (Hlast1 : 1 <= last) by (unfold last; lia).
      assert (Hlast2 : last < L + M) by (unfold last; lia).
      destruct (inplace item n M rip st d0 (Z.of_nat g)) as [[st1 d1] pt1] eqn:EI.
      destruct (inplace_ok _ _ _ _ _ _ _ EI) as (P1 & P2 & P3 & P4 & P5 & P6 & _ & P8 & P9).
      assert (P8' : forall i, num <= i -> d1 i = d0 i).
      { intros i Hi. destruct (Nat.eq_dec rip 0) as [Hz|Hz]; [rewrite P9; auto|]. apply P8. unfold X in *. lia. }
      clear P8 P9 EI. subst pt1.
      destruct (Z.ltb_spec (Z.of_nat L) (Z.of_nat last)) as [Hm|Hm].
      + (* memcpy round *)
        replace (Z.of_nat last - Z.of_nat L)%Z with (Z.of_nat (last - L)) in E by lia.
        rewrite <- Nat2Z.inj_add, !Nat2Z.id in E.
        destruct (Z.ltb_spec 0 (Z.of_nat (last - L))) as [Hp|Hp]; [|lia].
        cbn [ps_pool ps_it] in E. injection E as <- <-. unfold wf. cbn [ps_pool ps_used ps_it].
        assert (Hr : (X - 1) / L = rip + 1).
        { symmetry. apply Nat.div_unique with (last - L - 1); unfold last in *; lia. }
        split; [lia|]. split; [|split; [|split; [intros; lia|]]].
        * intros i Hi. rewrite memcpy_out by (unfold last, X in *; lia). rewrite memcpy_out by (unfold last, X in *; lia).
          rewrite P8' by lia. apply D2. lia.
        * intros i Hi. destruct (Nat.ltb_spec i g).
          -- rewrite !memcpy_out by lia. rewrite P5 by lia. apply D1; auto.
          -- destruct (lt_dec i (g + rip * L)); [rewrite !memcpy_out by lia; rewrite P6 by lia; reflexivity|].
             assert (S1 : forall k j, j < L -> src (ps_it st) (k * L + j) = item (ps_it st + k) j).
             { intros k j Hj. unfold src. rewrite (Nat.add_comm (k * L)). rewrite Nat.div_add, Nat.mod_add by lia. rewrite Nat.div_small, Nat.mod_small by lia. f_equal; lia. }
             destruct (lt_dec i (g + rip * L + L)).
             ++ rewrite memcpy_out by lia. rewrite memcpy_in by lia. unfold raw. rewrite memcpy_in by lia.
                replace (i - g) with (rip * L + (i - g - rip * L)) by lia. rewrite S1 by lia. f_equal; lia.
             ++ rewrite memcpy_in by (unfold last, X in *; lia). unfold raw. rewrite memcpy_in by (unfold last, X in *; lia).
                replace (i - g) with ((rip + 1) * L + (i - g - (rip + 1) * L)) by lia. rewrite S1 by (unfold last, X in *; lia). f_equal; lia.
        * intros _. rewrite Hr. split; [lia|]. split; [f_equal; unfold last; lia|]. split; [unfold last in *; lia|]. split; [unfold last in *; lia|].
          intros i Hi. unfold raw. rewrite memcpy_in by lia. f_equal; lia.
      + rewrite !Nat2Z.id in E.
        destruct (Z.ltb_spec 0 (Z.of_nat last)) as [Hp|Hp]; [|lia].
        cbn [ps_pool ps_it] in E. injection E as <- <-. unfold wf. cbn [ps_pool ps_used ps_it].
        assert (Hr : (X - 1) / L = rip).
        { symmetry. apply Nat.div_unique with (last - 1); unfold last in *; lia. }
        split; [lia|]. split; [|split; [|split; [intros; lia|]]].
        * intros i Hi. rewrite memcpy_out by (unfold last, X in *; lia).
          rewrite P8' by lia. apply D2. lia.
        * intros i Hi. destruct (Nat.ltb_spec i g).
          -- rewrite !memcpy_out by lia. rewrite P5 by lia. apply D1; auto.
          -- destruct (lt_dec i (g + rip * L)); [rewrite !memcpy_out by lia; rewrite P6 by lia; reflexivity|].
             rewrite memcpy_in by (unfold last, X in *; lia). unfold raw. rewrite memcpy_in by (unfold last, X in *; lia).
             replace (i - g) with ((i - g - rip * L) + rip * L) by lia. unfold src. rewrite Nat.div_add, Nat.mod_add by lia.
             rewrite Nat.div_small, Nat.mod_small by (unfold last, X in *; lia). f_equal; lia.
        * intros _. rewrite Hr. split; [lia|]. split; [reflexivity|]. split; [unfold last in *; lia|]. split; [unfold last in *; lia|].
          intros i Hi. unfold raw. rewrite memcpy_in by lia. f_equal; lia.
  Qed.
End P.

(** list level *)
Section Q.
  Context {A : Type}.
  Variable item : nat -> nat -> A.
  Variables (M L : nat).
  Notation n := (L + M).
  Hypothesis HM : 1 <= M.
  Hypothesis HML : M <= L.
  Definition val (t : tag) : A := item (fst t) (snd t).
  (** the stock that a state represents *)
  Definition rep (st : pst A) (s : stock) : Prop :=
    wf L st /\ ps_it st = snd s /\ length (fst s) = L - Z.to_nat (ps_used st) /\
    forall i, i < length (fst s) -> ps_pool st (Z.to_nat (ps_used st) + i) = val (nth i (fst s) (0, 0)).
  Lemma rep_init : forall g, rep (pool_init n M g) ([], 0).
  Proof.
    intros. unfold rep, pool_init, wf. cbn. unfold lim. repeat split; try lia. 
  Qed.
  Lemma run_len : forall it, length (run_tags L it) = L.
  Proof. intros. unfold run_tags. rewrite map_length, seq_length. auto. Qed.
  Lemma runs_S : forall f c, runs_tags L f (S c) = run_tags L f ++ runs_tags L (S f) c.
  Proof. reflexivity. Qed.
  Lemma runs_len : forall c f, length (runs_tags L f c) = c * L.
  Proof. induction c; intros; [reflexivity|]. rewrite runs_S, app_length, run_len, IHc. reflexivity. Qed.
  Lemma run_nth : forall it i, i < L -> nth i (run_tags L it) (0, 0) = (it, i).
  Proof.
    intros. unfold run_tags. rewrite nth_indep with (d' := (it, 0)) by (rewrite map_length, seq_length; lia).
    change (it, 0) with (pair it 0). rewrite map_nth. rewrite seq_nth by lia. auto.
  Qed.
  Lemma runs_nth : forall c f i, i < c * L -> nth i (runs_tags L f c) (0, 0) = (f + i / L, i mod L).
  Proof.
    induction c; intros; [lia|]. rewrite runs_S. cbn [Nat.mul] in H. destruct (lt_dec i L).
    - rewrite app_nth1 by (rewrite run_len; auto). rewrite run_nth by auto.
      rewrite Nat.div_small, Nat.mod_small by lia. f_equal; lia.
    - rewrite app_nth2 by (rewrite run_len; lia). rewrite run_len. rewrite IHc by lia.
      replace i with ((i - L) + 1 * L) at 3 4 by lia. rewrite Nat.div_add, Nat.mod_add by lia. f_equal; lia.
  Qed.

  Lemma nth_firstn' : forall (B : Type) (l : list B) k i d, i < k -> nth i (firstn k l) d = nth i l d.
  Proof. induction l; intros [|k] [|i] d H; simpl; auto; try lia. apply IHl. lia. Qed.
  Lemma nth_skipn' : forall (B : Type) k (l : list B) i d, nth i (skipn k l) d = nth (k + i) l d.
  Proof. induction k; intros l i d; [reflexivity|]. destruct l; [destruct i; reflexivity|]. simpl. apply IHk. Qed.

  Lemma extend_served : forall num st s data st' d', rep st s ->
    extend item n M (Z.of_nat num) st data = (st', d') ->
    exists out s', served L num s out s' /\ rep st' s' /\
      (forall i, i < num -> d' i = val (nth i out (0, 0))) /\ (forall i, num <= i -> d' i = data i).
  Proof.
    intros num st [l nx] data st' d' (W & Hit & Hlen & Hp) E. cbn [fst snd] in *.
    destruct (extend_ok item M L HM HML num st data st' d' W E) as (W' & O & I & A1 & A2).
    set (u := Z.to_nat (ps_used st)) in *. set (g := L - u) in *.
    assert (Hu : u <= L) by (unfold wf in W; unfold u; lia).
    destruct (le_lt_dec num g) as [Hc|Hc].
    - destruct (A1 Hc) as (B1 & B2 & B3). exists (firstn num l), (skipn num l, nx).
      split; [exists 0; cbn [fst snd]; repeat split; [lia|rewrite firstn_length; lia|rewrite firstn_skipn, app_nil_r; auto|right; auto]|].
      split; [|split; [|auto]].
      + split; auto. cbn [fst snd]. rewrite B2, Nat2Z.id, skipn_length. split; [lia|]. split; [lia|].
        intros. rewrite B1, nth_skipn'. rewrite <- Nat.add_assoc. apply Hp. lia.
      + intros i Hi. rewrite I by auto. destruct (Nat.ltb_spec i g); [|lia]. rewrite nth_firstn' by auto. apply Hp. lia.
    - destruct (A2 Hc) as (B1 & B2 & B3 & B4 & B5). set (r := (num - g - 1) / L) in *.
      set (all := l ++ runs_tags L nx (r + 1)).
      assert (Hall : length all = g + (r + 1) * L) by (unfold all; rewrite app_length, runs_len; lia).
      exists (firstn num all), (skipn num all, nx + (r + 1)).
      split; [exists (r + 1); cbn [fst snd]; split; [auto|]; split; [rewrite firstn_length; lia|]; split; [rewrite firstn_skipn; auto|left; rewrite skipn_length; lia]|].
      split; [|split; [|auto]].
      + split; auto. cbn [fst snd]. rewrite B2, Nat2Z.id, skipn_length. split; [lia|]. split; [lia|].
        intros i Hi. rewrite nth_skipn'. unfold all. rewrite app_nth2 by lia. rewrite runs_nth by lia.
        rewrite B5 by lia. unfold val. cbn [fst snd].
        replace (num + i - length l) with ((num - g - r * L + i) + r * L) by lia.
        rewrite Nat.div_add, Nat.mod_add by lia. rewrite Nat.div_small, Nat.mod_small by lia. f_equal; lia.
      + intros i Hi. rewrite I by auto. rewrite nth_firstn' by auto. unfold all. destruct (Nat.ltb_spec i g).
        * rewrite app_nth1 by lia. apply Hp. lia.
        * rewrite app_nth2 by lia. rewrite runs_nth by lia. rewrite Hlen. unfold val, src. cbn [fst snd]. rewrite Hit. reflexivity.
  Qed.

  Lemma extend_inplace_served : forall space st s data, rep st s ->
    (forall r, 1 <= r -> space = r * L + M -> exists st' d' s',
       extend_inplace item n M (Z.of_nat space) st data = Some (st', d', Z.of_nat (r * L)) /\
       served_inplace L r s (runs_tags L (snd s) r) s' /\ rep st' s' /\
       (forall i, i < r * L -> d' i = val (nth i (runs_tags L (snd s) r) (0, 0))) /\
       (forall i, i < M -> d' (r * L + i) = item (snd s + r - 1) (L + i)) /\
       (forall i, space <= i -> d' i = data i)) /\
    ((forall r, 1 <= r -> space <> r * L + M) -> extend_inplace item n M (Z.of_nat space) st data = None).
  Proof.
    intros space st [l nx] data (W & Hit & Hlen & Hp). cbn [fst snd] in *. assert (HL : 1 <= L) by lia. unfold extend_inplace. rewrite (lim_L M L) by assumption. split.
    - intros r Hr ->. destruct (Z.ltb_spec (Z.of_nat (r * L + M)) (Z.of_nat n)) as [H|H]; [nia|].
      replace (Z.of_nat (r * L + M) - Z.of_nat M)%Z with (Z.of_nat r * Z.of_nat L)%Z by lia.
      rewrite Z.rem_mul by lia. cbn [Z.eqb negb]. rewrite Z.quot_mul by lia. rewrite Nat2Z.id.
      destruct (inplace2_eq item M L r st data 0%Z) as (v & pt' & E & Eu).
      destruct (inplace2 item n M r st data 0) as [st' d'] eqn:E2. cbn [fst snd] in *.
      destruct (inplace_ok item M L HM HML r st data 0 _ _ _ E) as (P1 & P2 & P3 & P4 & P5 & P6 & P7 & P8 & _).
      cbn [ps_pool ps_it ps_used] in *.
      exists st', d', (l, nx + r). split; [f_equal; f_equal; lia|]. split; [split; [reflexivity|split; reflexivity]|].
      split; [|split; [|split]].
      + split; [unfold wf in *; rewrite Eu; auto|]. cbn [fst snd]. split; [lia|]. split; [rewrite Eu; auto|].
        intros. rewrite P2, Eu. auto.
      + intros i Hi. rewrite P6 by lia. rewrite runs_nth by auto. unfold src, val. cbn [fst snd]. rewrite Hit, Nat.sub_0_r. reflexivity.
      + intros i Hi. rewrite P7 by lia. rewrite Hit. f_equal; nia.
      + intros i Hi. apply P8. lia.
    - intros Hn. destruct (Z.ltb_spec (Z.of_nat space) (Z.of_nat n)) as [H|H]; [reflexivity|].
      replace (Z.of_nat space - Z.of_nat M)%Z with (Z.of_nat (space - M)) by lia.
      rewrite Z.rem_mod_nonneg by lia. rewrite <- Nat2Z.inj_mod.
      destruct (Z.eqb_spec (Z.of_nat ((space - M) mod L)) 0) as [E|E]; [|reflexivity]. exfalso.
      apply (Hn ((space - M) / L)).
      + apply Nat.div_le_lower_bound; lia.
      + pose proof (Nat.div_mod_eq (space - M) L). lia.
  Qed.

End Q.

Lemma run_tags_nodup : forall L c f, NoDup (runs_tags L f c) /\ (forall t, In t (runs_tags L f c) -> f <= fst t < f + c /\ snd t < L).
Proof.
  intros L. induction c; intros f; [split; [constructor|intros t []]|]. 
  destruct (IHc (S f)) as [I1 I2]. rewrite runs_S.
  assert (R : NoDup (run_tags L f)) by (unfold run_tags; apply FinFun.Injective_map_NoDup; [intros a b E; congruence|apply seq_NoDup]).
  assert (R2 : forall t, In t (run_tags L f) -> fst t = f /\ snd t < L).
  { intros t H. unfold run_tags in H. apply in_map_iff in H as (x & <- & H). apply in_seq in H. cbn. lia. }
  split.
  - clear IHc. revert I1 I2 R2. induction R; intros; cbn [app]; auto. constructor.
    + rewrite in_app_iff. intros [?|?]; [auto|]. destruct (R2 x (or_introl eq_refl)). apply I2 in H0. lia.
    + apply IHR; auto. intros. apply R2. right; auto.
  - intros t H. apply in_app_iff in H as [H|H]; [apply R2 in H; lia|apply I2 in H; lia].
Qed.

Section S.
  Context {A : Type}.
  Variable item : nat -> nat -> A.
  Variables (M L : nat).
  Hypothesis HM : 1 <= M.
  Hypothesis HML : M <= L.
  Definition req_len (r : req) : nat := match r with Take k => k | TakeInplace k => k * L end.
  Definition req_ok (r : req) : Prop := match r with Take _ => True | TakeInplace k => 1 <= k end.

  Lemma map_vals : forall (d : nat -> A) (out : list tag) len, length out = len ->
    (forall i, i < len -> d i = val item (nth i out (0, 0))) -> map d (seq 0 len) = map (val item) out.
  Proof.
    intros d out len <- H. apply nth_ext with (d := d 0) (d' := val item (0, 0)).
    - rewrite !map_length, seq_length. auto.
    - intros i Hi. rewrite map_length, seq_length in Hi. rewrite !map_nth, seq_nth by auto. apply H. auto.
  Qed.

  Lemma session_ok : forall rs st s bufs, rep item L st s -> Forall req_ok rs ->
    exists outs st' s', run_session item (L + M) M rs st bufs = Some (map (map (val item)) outs, st') /\
      rep item L st' s' /\ snd s <= snd s' /\ map (@length tag) outs = map req_len rs /\
      Permutation (concat outs ++ fst s') (fst s ++ runs_tags L (snd s) (snd s' - snd s)).
  Proof.
    induction rs as [|r rs IH]; intros st s bufs R F.
    - exists [], st, s. cbn. rewrite Nat.sub_diag. cbn. rewrite app_nil_r. repeat split; auto; apply R.
    - inversion F as [|? ? F1 F2]; subst. destruct r as [num|k].
      + cbn [run_session]. destruct (extend item (L + M) M (Z.of_nat num) st (bufs 0)) as [st1 d1] eqn:E.
        destruct (extend_served item M L HM HML _ _ _ _ _ _ R E) as (out & s1 & (c & S1 & S2 & S3 & _) & R1 & V & _).
        destruct (IH st1 s1 (fun i => bufs (S i)) R1 F2) as (outs & st' & s' & E' & R' & L1 & L2 & P).
        exists (out :: outs), st', s'. rewrite E'. split; [cbn [map]; rewrite (map_vals d1 out num S2 V); reflexivity|].
        split; [auto|]. split; [lia|]. split; [cbn; rewrite L2, S2; reflexivity|].
        cbn [concat]. rewrite <- app_assoc, P, app_assoc, S3, <- app_assoc. apply Permutation_app_head.
        unfold runs_tags. rewrite S1, <- flat_map_app, <- seq_app. replace (c + (snd s' - (snd s + c))) with (snd s' - snd s) by lia. reflexivity.
      + cbn [run_session]. cbn in F1. 
        destruct (extend_inplace_served item M L HM HML (k * L + M) st s (bufs 0) R) as [E _].
        destruct (E k F1 eq_refl) as (st1 & d1 & s1 & E1 & (S1 & S2 & S3) & R1 & V & _). 
        replace (Z.of_nat (k * (L + M - M) + M)) with (Z.of_nat (k * L + M)) by (f_equal; f_equal; f_equal; lia).
        rewrite E1. rewrite Nat2Z.id.
        destruct (IH st1 s1 (fun i => bufs (S i)) R1 F2) as (outs & st' & s' & E' & R' & L1 & L2 & P).
        exists (runs_tags L (snd s) k :: outs), st', s'. rewrite E'.
        split; [cbn [map]; rewrite (map_vals d1 _ (k * L) (runs_len L k (snd s)) V); reflexivity|].
        split; [auto|]. split; [lia|]. split; [cbn; rewrite L2, runs_len; reflexivity|].
        cbn [concat]. rewrite <- app_assoc, P. rewrite S3, S1.
        rewrite Permutation_app_comm, <- app_assoc. apply Permutation_app_head. rewrite Permutation_app_comm.
        unfold runs_tags. rewrite <- flat_map_app, <- seq_app. replace (k + (snd s' - (snd s + k))) with (snd s' - snd s) by lia. reflexivity.
  Qed.

  Theorem session_fresh : forall rs garbage bufs, Forall req_ok rs ->
    exists outs st', run_session item (L + M) M rs (pool_init (L + M) M garbage) bufs = Some (map (map (val item)) outs, st') /\
      map (@length tag) outs = map req_len rs /\ NoDup (concat outs) /\
      forall t, In t (concat outs) -> fst t < ps_it st' /\ snd t < L.
  Proof.
    intros rs g bufs F. destruct (session_ok rs _ ([], 0) bufs (rep_init item M L HM HML g) F) as (outs & st' & s' & E & R & _ & L2 & P).
    cbn [fst snd] in P. rewrite Nat.sub_0_r in P. cbn [app] in P.
    destruct (run_tags_nodup L (snd s') 0) as [N1 N2].
    exists outs, st'. split; [exact E|]. split; [exact L2|]. split.
    - apply (Permutation_NoDup (Permutation_sym P)) in N1. clear -N1. induction (concat outs); [constructor|].
      cbn in N1. inversion N1; subst. constructor; [rewrite in_app_iff in *; tauto|auto].
    - intros t Ht. destruct R as (_ & -> & _). assert (In t (runs_tags L 0 (snd s'))).
      { apply (Permutation_in _ P). apply in_app_iff. auto. }
      apply N2 in H. lia.
  Qed.
End S.

(** two parties making the same requests obtain the values at the same tags *)
Section S2.
  Context {A B : Type}.
  Variables (ia : nat -> nat -> A) (ib : nat -> nat -> B) (M L : nat).
  Hypothesis HM : 1 <= M.
  Hypothesis HML : M <= L.
  Lemma served_det l r r' num (o o' l' l'' : list tag) nx : 
    length o = num -> length o' = num -> o ++ l' = l ++ runs_tags L nx r -> o' ++ l'' = l ++ runs_tags L nx r' ->
    (length l' < L \/ r = 0) -> (length l'' < L \/ r' = 0) -> r = r' /\ o = o' /\ l' = l''.
  Proof.
    intros A1 A2 E1 E2 C1 C2.
    pose proof (f_equal (@length tag) E1) as F1. pose proof (f_equal (@length tag) E2) as F2.
    rewrite !app_length, runs_len in F1, F2.
    assert (r = r') as <-.
    { destruct (Nat.lt_trichotomy r r') as [X|[X|X]]; [exfalso|exact X|exfalso].
      - destruct C2 as [C2|C2]; [|lia]. assert ((r + 1) * L <= r' * L) by (apply Nat.mul_le_mono_r; lia). lia.
      - destruct C1 as [C1|C1]; [|lia]. assert ((r' + 1) * L <= r * L) by (apply Nat.mul_le_mono_r; lia). lia. }
    split; [reflexivity|]. rewrite <- E2 in E1. split.
    - apply (f_equal (firstn num)) in E1. rewrite !firstn_app, A1, A2, Nat.sub_diag in E1. cbn in E1. rewrite !app_nil_r in E1.
      rewrite <- A1 in E1 at 1. rewrite <- A2 in E1. now rewrite !firstn_all in E1.
    - apply (f_equal (skipn num)) in E1. rewrite !skipn_app, A1, A2, Nat.sub_diag in E1. cbn in E1.
      rewrite <- A1 in E1 at 1. rewrite <- A2 in E1. now rewrite !skipn_all in E1.
  Qed.
  Lemma session_pair : forall rs sa sb s ba bb, rep ia L sa s -> rep ib L sb s -> Forall (@req_ok) rs ->
    exists outs sa' sb' s',
      run_session ia (L + M) M rs sa ba = Some (map (map (val ia)) outs, sa') /\
      run_session ib (L + M) M rs sb bb = Some (map (map (val ib)) outs, sb') /\
      map (@length tag) outs = map (req_len L) rs /\ snd s <= snd s' /\
      Permutation (concat outs ++ fst s') (fst s ++ runs_tags L (snd s) (snd s' - snd s)).
  Proof.
    induction rs as [|r rs IH]; intros sa sb s ba bb Ra Rb F.
    - exists [], sa, sb, s. cbn. rewrite Nat.sub_diag. cbn. rewrite app_nil_r. repeat split; auto.
    - inversion F as [|? ? F1 F2]; subst. destruct r as [num|k]; cbn [run_session].
      + destruct (extend ia (L + M) M (Z.of_nat num) sa (ba 0)) as [sa1 da] eqn:Ea.
        destruct (extend ib (L + M) M (Z.of_nat num) sb (bb 0)) as [sb1 db] eqn:Eb.
        destruct (extend_served ia M L HM HML _ _ _ _ _ _ Ra Ea) as (o & s1 & (c & S1 & S2 & S3 & S4) & R1 & V1 & _).
        destruct (extend_served ib M L HM HML _ _ _ _ _ _ Rb Eb) as (o' & s1' & (c' & S1' & S2' & S3' & S4') & R1' & V1' & _).
        destruct s1 as [l1 n1], s1' as [l1' n1']. cbn [fst snd] in *.
        destruct (served_det _ _ _ num _ _ _ _ _ S2 S2' S3 S3' S4 S4') as (<- & <- & <-). rewrite <- S1 in S1'. subst n1'.
        destruct (IH sa1 sb1 (l1, n1) (fun i => ba (S i)) (fun i => bb (S i)) R1 R1' F2) as (outs & sa' & sb' & s' & Ea' & Eb' & Ln & Le & P).
        exists (o :: outs), sa', sb', s'. rewrite Ea', Eb'. cbn [map].
        rewrite (map_vals ia da o num S2 V1), (map_vals ib db o num S2 V1').
        split; [reflexivity|]. split; [reflexivity|]. split; [rewrite Ln, S2; reflexivity|]. cbn [fst snd] in *. split; [lia|].
        cbn [concat]. rewrite <- app_assoc, P, app_assoc, S3, <- app_assoc. apply Permutation_app_head.
        unfold runs_tags. rewrite S1, <- flat_map_app, <- seq_app. replace (c + (snd s' - (snd s + c))) with (snd s' - snd s) by lia. reflexivity.
      + cbn in F1.
        destruct (extend_inplace_served ia M L HM HML (k * L + M) sa s (ba 0) Ra) as [Ea _].
        destruct (extend_inplace_served ib M L HM HML (k * L + M) sb s (bb 0) Rb) as [Eb _].
        destruct (Ea k F1 eq_refl) as (sa1 & da & s1 & E1 & (S1 & S2 & S3) & R1 & V & _).
        destruct (Eb k F1 eq_refl) as (sb1 & db & s1' & E1' & (S1' & S2' & S3') & R1' & V' & _).
        replace (Z.of_nat (k * (L + M - M) + M)) with (Z.of_nat (k * L + M)) by (f_equal; f_equal; f_equal; lia).
        rewrite E1, E1', Nat2Z.id. destruct s1 as [l1 n1], s1' as [l1' n1']. cbn [fst snd] in *. rewrite <- S3 in S3'. rewrite <- S1 in S1'. subst l1' n1'.
        destruct (IH sa1 sb1 (l1, n1) (fun i => ba (S i)) (fun i => bb (S i)) R1 R1' F2) as (outs & sa' & sb' & s' & Ea' & Eb' & Ln & Le & P).
        exists (runs_tags L (snd s) k :: outs), sa', sb', s'. rewrite Ea', Eb'. cbn [map].
        rewrite (map_vals ia da _ (k * L) (runs_len L k (snd s)) V), (map_vals ib db _ (k * L) (runs_len L k (snd s)) V').
        split; [reflexivity|]. split; [reflexivity|]. split; [rewrite Ln, runs_len; reflexivity|]. cbn [fst snd] in *. split; [lia|].
        cbn [concat]. rewrite <- app_assoc, P. rewrite S3, S1.
        rewrite Permutation_app_comm, <- app_assoc. apply Permutation_app_head. rewrite Permutation_app_comm.
        unfold runs_tags. rewrite <- flat_map_app, <- seq_app. replace (k + (snd s' - (snd s + k))) with (snd s' - snd s) by lia. reflexivity.
  Qed.
  Theorem session_tags rs ga gb ba bb : Forall req_ok rs ->
    exists outs sa sb,
      run_session ia (L + M) M rs (pool_init (L + M) M ga) ba = Some (map (map (val ia)) outs, sa) /\
      run_session ib (L + M) M rs (pool_init (L + M) M gb) bb = Some (map (map (val ib)) outs, sb) /\
      map (@length tag) outs = map (req_len L) rs /\ NoDup (concat outs) /\
      forall t, In t (concat outs) -> snd t < L.
  Proof.
    intro F. destruct (session_pair rs _ _ ([], 0) ba bb (rep_init ia M L HM HML ga) (rep_init ib M L HM HML gb) F) as (outs & sa & sb & s' & Ea & Eb & Ln & _ & P).
    exists outs, sa, sb. cbn [fst snd] in P. rewrite Nat.sub_0_r in P. cbn [app] in P.
    destruct (run_tags_nodup L (snd s') 0) as [N1 N2].
    split; [exact Ea|]. split; [exact Eb|]. split; [exact Ln|]. split.
    - apply (Permutation_NoDup (Permutation_sym P)) in N1. clear -N1. induction (concat outs); [constructor|].
      cbn in N1. inversion N1; subst. constructor; [rewrite in_app_iff in *; tauto|auto].
    - intros t Ht. apply (N2 t). apply (Permutation_in _ P), in_app_iff. auto.
  Qed.
End S2.
