(** Sorted access lists: what adjacent comparisons say about the log. *)
From Coq Require Import NArith List Bool Arith Permutation Sorted RelationClasses Lia.
From Verif Require Import ListUtil RamModel RamSpec RamPack RamWide.
Import ListNotations.
Ltac Zify.zify_post_hook ::= idtac.

(** * Comparison by sign bit *)
Lemma pow_S n : (2 ^ N.of_nat (n + 1) = 2 * 2 ^ N.of_nat n)%N.
Proof. rewrite Nat2N.inj_add, N.pow_add_r. change (2 ^ N.of_nat 1)%N with 2%N. lia. Qed.
Lemma top_bit n x : (x < 2 * 2 ^ N.of_nat n)%N -> N.testbit x (N.of_nat n) = N.leb (2 ^ N.of_nat n) x.
Proof.
  intro H. assert (P : (2 ^ N.of_nat n <> 0)%N) by (apply N.pow_nonzero; lia).
  destruct (N.leb_spec (2 ^ N.of_nat n) x) as [L|L].
  - replace x with ((x - 2 ^ N.of_nat n) + 1 * 2 ^ N.of_nat n)%N by lia.
    rewrite N.testbit_odd, N.shiftr_div_pow2, N.div_add, N.div_small by lia. reflexivity.
  - rewrite N.testbit_odd, N.shiftr_div_pow2, N.div_small by lia. reflexivity.
Qed.
Lemma igeq_spec n a b : (a < 2 ^ N.of_nat n)%N -> (b < 2 ^ N.of_nat n)%N -> igeq (n + 1) a b = N.leb b a.
Proof.
  intros Ha Hb. unfold igeq. replace (N.of_nat (n + 1) - 1)%N with (N.of_nat n) by lia. rewrite pow_S.
  assert (P : (2 ^ N.of_nat n <> 0)%N) by (apply N.pow_nonzero; lia). set (m := (2 ^ N.of_nat n)%N) in *.
  destruct (N.leb_spec b a) as [L|L].
  - replace ((a + 2 * m - b) mod (2 * m))%N with (a - b)%N.
    + rewrite top_bit by (fold m; lia). fold m. destruct (N.leb_spec m (a - b)); [lia|reflexivity].
    + replace (a + 2 * m - b)%N with ((a - b) + 1 * (2 * m))%N by lia. rewrite N.mod_add, N.mod_small by lia. reflexivity.
  - rewrite (N.mod_small (a + 2 * m - b)) by lia. rewrite top_bit by (fold m; lia). fold m.
    destruct (N.leb_spec m (a + 2 * m - b)); [reflexivity|lia].
Qed.
Lemma ilt_spec n a b : (a < 2 ^ N.of_nat n)%N -> (b < 2 ^ N.of_nat n)%N -> ilt (n + 1) a b = N.ltb a b.
Proof. intros Ha Hb. unfold ilt. rewrite igeq_spec by assumption. symmetry. apply N.ltb_antisym. Qed.
(** a set top bit compares below every smaller address *)
Lemma igeq_top n a b : (b <= a)%N -> (a < 2 ^ N.of_nat n)%N -> igeq (n + 1) (a + 2 ^ N.of_nat n) b = false.
Proof.
  intros L Ha. unfold igeq. replace (N.of_nat (n + 1) - 1)%N with (N.of_nat n) by lia. rewrite pow_S.
  set (m := (2 ^ N.of_nat n)%N) in *. replace (a + m + 2 * m - b)%N with ((a - b + m) + 1 * (2 * m))%N by lia.
  rewrite N.mod_add, N.mod_small by lia. rewrite top_bit by (fold m; lia). fold m. destruct (N.leb_spec m (a - b + m)); [reflexivity|lia].
Qed.
Lemma igeq_top2 n a b : (a < 2 ^ N.of_nat n)%N -> (b < 2 ^ N.of_nat n)%N ->
  igeq (n + 1) (a + 2 ^ N.of_nat n) (b + 2 ^ N.of_nat n) = N.leb b a.
Proof.
  intros Ha Hb. rewrite <- (igeq_spec n a b Ha Hb). unfold igeq. f_equal. f_equal. f_equal. rewrite pow_S. lia.
Qed.

(** * Sorting *)
Section Isort.
  Context {E : Type} (key : E -> N).
  Fixpoint insert (x : E) (l : list E) : list E :=
    match l with [] => [x] | y :: r => if N.leb (key x) (key y) then x :: l else y :: insert x r end.
  Definition isort (l : list E) : list E := fold_right insert [] l.
  Lemma insert_perm x l : Permutation (insert x l) (x :: l).
  Proof.
    induction l as [|y r IH]; [reflexivity|]. cbn [insert]. destruct (N.leb _ _); [reflexivity|].
    rewrite IH. apply perm_swap.
  Qed.
  Lemma isort_perm l : Permutation (isort l) l.
  Proof. induction l as [|x l IH]; [reflexivity|]. cbn. rewrite insert_perm. now constructor. Qed.
  Lemma insert_sorted x l : StronglySorted (fun a b => (key a <= key b)%N) l -> StronglySorted (fun a b => (key a <= key b)%N) (insert x l).
  Proof.
    induction 1 as [|y r H IH F]; cbn [insert]; [repeat constructor|]. destruct (N.leb_spec (key x) (key y)) as [L|L].
    - constructor; [now constructor|]. constructor; [exact L|]. eapply Forall_impl; [|exact F]. cbn. intros; lia.
    - constructor; [exact IH|]. rewrite Forall_forall in *. intros z Hz. apply (Permutation_in _ (insert_perm x r)) in Hz.
      destruct Hz as [<-|Hz]; [lia|now apply F].
  Qed.
  Lemma isort_sorted l : StronglySorted (fun a b => (key a <= key b)%N) (isort l).
  Proof. induction l as [|x l IH]; [constructor|]. cbn. now apply insert_sorted. Qed.
End Isort.

Lemma SS_mono {A} (R R' : A -> A -> Prop) l : (forall a b, In a l -> In b l -> R a b -> R' a b) -> StronglySorted R l -> StronglySorted R' l.
Proof.
  intros H S. induction S as [|x l S IH F]; constructor.
  - apply IH. intros a b Ha Hb. apply H; now right.
  - rewrite Forall_forall in *. intros y Hy. apply H; [now left|now right|now apply F].
Qed.
Lemma SS_split {A} (R : A -> A -> Prop) l1 x l2 : StronglySorted R (l1 ++ x :: l2) ->
  (forall y, In y l1 -> R y x) /\ (forall y, In y l2 -> R x y) /\ (forall y z, In y l1 -> In z l2 -> R y z).
Proof.
  induction l1 as [|w l1 IH]; cbn; intro S; apply StronglySorted_inv in S; destruct S as [S F]; rewrite Forall_forall in F.
  - repeat split; [intros ? []|exact F|intros ? ? []].
  - destruct (IH S) as [H1 [H2 H3]]. repeat split.
    + intros y [<-|Hy]; [apply F, in_or_app; right; now left|now apply H1].
    + exact H2.
    + intros y z [<-|Hy] Hz; [apply F, in_or_app; right; now right|now apply H3].
Qed.
Lemma SS_le_sorted (l : list N) : Sorted N.le l -> StronglySorted N.le l.
Proof. apply Sorted_StronglySorted. intros a b c. apply N.le_trans. Qed.
Lemma SS_map {A B} (f : A -> B) (R : B -> B -> Prop) l : StronglySorted R (map f l) <-> StronglySorted (fun a b => R (f a) (f b)) l.
Proof.
  induction l as [|x l IH]; [split; constructor|]. cbn [map]. split; intro S; apply StronglySorted_inv in S; destruct S as [S F]; constructor; try now apply IH.
  - now rewrite Forall_map in F.
  - now rewrite Forall_map.
Qed.
(** strict comparison between any two members of a list without repetitions of the key *)
Lemma SS_strict {A} (R Q : A -> A -> Prop) l : NoDup l -> (forall a b, In a l -> In b l -> a <> b -> R a b -> Q a b) ->
  StronglySorted R l -> StronglySorted Q l.
Proof.
  intros ND H S. induction S as [|x l S IH F]; constructor.
  - inversion ND; subst. apply IH; [assumption|]. intros a b Ha Hb. apply H; now right.
  - rewrite Forall_forall in *. intros y Hy. inversion ND as [|? ? Nx _]; subst. apply H; [now left|now right|congruence|now apply F].
Qed.
Lemma perm_map_inj {A B} (f : A -> B) (P : A -> Prop) : (forall a b, P a -> P b -> f a = f b -> a = b) ->
  forall l l', Forall P l -> Forall P l' -> Permutation (map f l) (map f l') -> Permutation l l'.
Proof.
  intro H. induction l as [|x l IH]; intros l' F F' E.
  - apply Permutation_nil in E. destruct l'; [constructor|discriminate].
  - inversion F as [|? ? Px Pl]; subst. cbn [map] in E.
    assert (I : In (f x) (map f l')) by (eapply Permutation_in; [exact E|now left]).
    apply in_map_iff in I. destruct I as [x' [Ex I]]. assert (x' = x) by (apply H; [rewrite Forall_forall in F'; auto|assumption|exact Ex]). subst x'.
    apply in_split in I. destruct I as [a [b ->]]. rewrite map_app in E. cbn [map] in E.
    apply Permutation_cons_app_inv in E. rewrite <- map_app in E. apply Permutation_cons_app. apply IH; auto.
    apply Forall_app in F'. destruct F' as [Fa Fb]. inversion Fb; subst. now apply Forall_app.
Qed.

(** * Generic log *)
Section Log.
  Context {Ent V : Type} (idx step : Ent -> N) (op : Ent -> bool) (val : Ent -> V).
  Definition lex (a b : Ent) : Prop := (idx a < idx b)%N \/ idx a = idx b /\ (step a < step b)%N.
  Fixpoint glw (l : list Ent) (a : N) : option V :=
    match l with
    | [] => None
    | x :: r => match glw r a with Some v => Some v | None => if op x && N.eqb (idx x) a then Some (val x) else None end
    end.
  Definition glatest (L : list Ent) : Prop := forall pre x post, L = pre ++ x :: post -> op x = false ->
    forall v, glw pre (idx x) = Some v -> val x = v.
  Definition gfirst (L : list Ent) : Prop := forall pre x post, L = pre ++ x :: post -> op x = false -> glw pre (idx x) <> None.
  Definition timed (L : list Ent) : Prop := StronglySorted (fun a b => (step a < step b)%N) L.

  Lemma glw_some l a v : glw l a = Some v -> exists l1 y l2, l = l1 ++ y :: l2 /\ op y = true /\ idx y = a /\ val y = v /\
    forall z, In z l2 -> idx z = a -> op z = false.
  Proof.
    induction l as [|x l IH]; [discriminate|]. cbn [glw]. destruct (glw l a) as [w|] eqn:Ew.
    - intro H. injection H as ->. destruct (IH eq_refl) as (l1 & y & l2 & -> & H). exists (x :: l1), y, l2. split; [reflexivity|exact H].
    - destruct (op x && N.eqb (idx x) a) eqn:C; [|discriminate]. intro H. injection H as H. apply andb_prop in C. destruct C as [C1 C2]. apply N.eqb_eq in C2.
      exists [], x, l. repeat split; auto. intros z Hz Ez. destruct (op z) eqn:Oz; [|reflexivity]. exfalso.
      clear -Ew Hz Ez Oz. induction l as [|y l IH]; [destruct Hz|]. cbn [glw] in Ew. destruct (glw l a) eqn:G; [discriminate|].
      destruct Hz as [->|Hz]; [|now apply IH]. rewrite Oz, Ez, N.eqb_refl in Ew. discriminate.
  Qed.
  Lemma glw_app_none l1 l2 a : (forall z, In z l2 -> idx z = a -> op z = false) -> glw (l1 ++ l2) a = glw l1 a.
  Proof.
    intro H. induction l1 as [|x l1 IH]; cbn [app glw].
    - induction l2 as [|y l2 IH2]; [reflexivity|]. cbn [glw]. rewrite IH2 by (intros; apply H; [now right|assumption]). cbn [glw].
      destruct (N.eqb_spec (idx y) a) as [Ey|Ey]; [rewrite (H y (or_introl eq_refl) Ey)|rewrite andb_false_r]; reflexivity.
    - now rewrite IH.
  Qed.
  Lemma timed_inj L a b : timed L -> In a L -> In b L -> step a = step b -> a = b.
  Proof.
    intros T Ha Hb Es. apply in_split in Ha. destruct Ha as [l1 [l2 ->]]. destruct (SS_split _ _ _ _ T) as [H1 [H2 _]].
    apply in_app_or in Hb. destruct Hb as [Hb|[Hb|Hb]]; [specialize (H1 b Hb); lia|exact Hb|specialize (H2 b Hb); lia].
  Qed.
  Lemma lex_sorted_before l a b : StronglySorted lex l -> In a l -> In b l -> lex a b -> exists l1 l2 l3, l = l1 ++ a :: l2 ++ b :: l3.
  Proof.
    intros S Ha Hb La. apply in_split in Ha. destruct Ha as [l1 [l2 ->]]. destruct (SS_split _ _ _ _ S) as [H1 _].
    apply in_app_or in Hb. destruct Hb as [Hb|[Hb|Hb]].
    - specialize (H1 b Hb). unfold lex in *. lia.
    - subst b. unfold lex in La. lia.
    - apply in_split in Hb. destruct Hb as [m1 [m2 ->]]. now exists l1, m1, m2.
  Qed.
  Lemma chain l a l2 b : (forall m1 x y m2, l = m1 ++ x :: y :: m2 -> idx x = idx y -> op y = false -> val x = val y) ->
    (exists l1 l3, l = l1 ++ a :: l2 ++ b :: l3) -> (forall z, In z l2 -> idx z = idx b /\ op z = false) -> idx a = idx b -> op b = false -> val a = val b.
  Proof.
    intro H. revert a. induction l2 as [|z l2 IH]; intros a [l1 [l3 E]] Hz Ia Ob.
    - exact (H l1 a b l3 E Ia Ob).
    - destruct (Hz z (or_introl eq_refl)) as [Iz Oz]. transitivity (val z).
      + apply (H l1 a z (l2 ++ b :: l3)); [exact E|congruence|exact Oz].
      + apply IH; [|intros; apply Hz; now right|exact Iz|exact Ob]. exists (l1 ++ [a]), l3. rewrite <- app_assoc. exact E.
  Qed.
  Theorem order_sound L l : timed L -> Permutation l L -> StronglySorted lex l ->
    (forall m1 x y m2, l = m1 ++ x :: y :: m2 -> idx x = idx y -> op y = false -> val x = val y) -> glatest L.
  Proof.
    intros T P S H pre x post EL Ox v Hv. destruct (glw_some _ _ _ Hv) as (l1 & y & l2 & Ep & Oy & Iy & Vy & Hn).
    assert (Ix : In x L) by (rewrite EL; apply in_or_app; right; now left).
    assert (Iny : In y L) by (rewrite EL, Ep, <- app_assoc; apply in_or_app; right; now left).
    assert (T' := T). unfold timed in T'. rewrite EL in T'. destruct (SS_split _ _ _ _ T') as [B1 [B2 _]].
    assert (Lyx : (step y < step x)%N) by (apply B1; rewrite Ep; apply in_or_app; right; now left).
    destruct (lex_sorted_before l y x S) as (m1 & m2 & m3 & El).
    { apply (Permutation_in _ (Permutation_sym P)); exact Iny. } { apply (Permutation_in _ (Permutation_sym P)); exact Ix. } { right. split; [exact Iy|exact Lyx]. }
    rewrite <- Vy. symmetry. apply (chain l y m2 x H); [now exists m1, m3| |exact Iy|exact Ox].
    intros z Hz. assert (Hzl : In z l) by (rewrite El; apply in_or_app; right; right; apply in_or_app; now left).
    assert (S' := S). rewrite El in S'. destruct (SS_split _ _ _ _ S') as [_ [A _]].
    assert (Lz1 : lex y z) by (apply A, in_or_app; now left).
    assert (Lz2 : lex z x). { rewrite app_comm_cons, app_assoc in S'. destruct (SS_split _ _ _ _ S') as [A' _]. apply A', in_or_app. right. now right. }
    assert (Iz : idx z = idx x /\ (step y < step z)%N /\ (step z < step x)%N) by (unfold lex in *; lia).
    destruct Iz as [Iz [S1 S2]]. split; [exact Iz|]. apply Hn; [|exact Iz].
    assert (HzL : In z L) by (apply (Permutation_in _ P); exact Hzl). rewrite EL, Ep in HzL.
    rewrite EL, Ep, <- app_assoc in T. cbn [app] in T. destruct (SS_split _ _ _ _ T) as [C1 [C2 _]].
    rewrite <- app_assoc in HzL. cbn [app] in HzL. apply in_app_or in HzL. destruct HzL as [HzL|[HzL|HzL]].
    - specialize (C1 z HzL). lia.
    - subst z. lia.
    - apply in_app_or in HzL. destruct HzL as [HzL|[HzL|HzL]]; [exact HzL|subst z; lia|specialize (B2 z HzL); lia].
  Qed.
  Theorem order_complete L l : timed L -> Permutation l L -> StronglySorted lex l -> glatest L -> gfirst L ->
    forall m1 a b m2, l = m1 ++ a :: b :: m2 -> op b = false -> idx a = idx b /\ val a = val b.
  Proof.
    intros T P S HL HF m1 a b m2 El Ob.
    assert (Inb : In b L) by (apply (Permutation_in _ P); rewrite El; apply in_or_app; right; right; now left).
    assert (Ina : In a L) by (apply (Permutation_in _ P); rewrite El; apply in_or_app; right; now left).
    assert (S' := S). rewrite El in S'. destruct (SS_split _ _ _ _ S') as [A1 [A2 _]].
    change (m1 ++ a :: b :: m2) with (m1 ++ [a] ++ b :: m2) in S'. rewrite (app_assoc m1 [a] (b :: m2)) in S'. destruct (SS_split _ _ _ _ S') as [_ [B2 _]].
    (* nobody is strictly between *)
    assert (NB : forall w, In w L -> lex a w -> lex w b -> False).
    { intros w Hw La Lb. apply (Permutation_in _ (Permutation_sym P)) in Hw. rewrite El in Hw. apply in_app_or in Hw.
      destruct Hw as [Hw|[Hw|[Hw|Hw]]].
      - specialize (A1 w Hw). unfold lex in *. lia.
      - subst w. unfold lex in *. lia.
      - subst w. unfold lex in *. lia.
      - specialize (B2 w Hw). unfold lex in *. lia. }
    assert (Lab : lex a b) by (apply A2; now left).
    destruct (in_split _ _ Inb) as [pre [post EL]]. destruct (glw pre (idx b)) as [v|] eqn:G; [|exfalso; exact (HF pre b post EL Ob G)].
    pose proof (HL pre b post EL Ob v G) as Vb. destruct (glw_some _ _ _ G) as (l1 & y & l2 & Ep & Oy & Iy & Vy & Hn).
    assert (T' := T). unfold timed in T'. rewrite EL in T'. destruct (SS_split _ _ _ _ T') as [C1 [C2 _]].
    assert (Iny : In y L) by (rewrite EL, Ep, <- app_assoc; apply in_or_app; right; now left).
    assert (Syb : (step y < step b)%N) by (apply C1; rewrite Ep; apply in_or_app; right; now left).
    assert (Lyb : lex y b) by (right; split; [exact Iy|exact Syb]).
    assert (Iab : idx a = idx b).
    { destruct (N.eq_dec (idx a) (idx b)) as [e|ne]; [exact e|]. exfalso. apply (NB y Iny); [|exact Lyb]. unfold lex in *. lia. }
    split; [exact Iab|]. rewrite Vb.
    assert (Sya : (step y <= step a)%N) by (destruct (N.le_gt_cases (step y) (step a)); [assumption|exfalso; apply (NB y Iny); [unfold lex; lia|exact Lyb]]).
    destruct (N.eq_dec (step y) (step a)) as [e|ne]; [rewrite <- (timed_inj L y a T Iny Ina e); exact Vy|].
    assert (Sab : (step a < step b)%N) by (unfold lex in Lab; lia).
    (* a lies in l2 *)
    assert (Ha2 : In a l2).
    { assert (X := Ina). rewrite EL, Ep, <- app_assoc in X. cbn [app] in X. rewrite EL, Ep, <- app_assoc in T. cbn [app] in T.
      destruct (SS_split _ _ _ _ T) as [D1 [D2 _]]. apply in_app_or in X. destruct X as [X|[X|X]].
      - specialize (D1 a X). lia.
      - subst y. lia.
      - apply in_app_or in X. destruct X as [X|[X|X]]; [exact X|subst a; lia|specialize (C2 a X); lia]. }
    assert (Oa : op a = false) by (apply Hn; assumption).
    apply in_split in Ha2. destruct Ha2 as [k1 [k2 E2]].
    apply (HL (l1 ++ y :: k1) a (k2 ++ b :: post)); [|exact Oa|].
    - rewrite EL, Ep, E2. rewrite <- !app_assoc. cbn [app]. now rewrite <- app_assoc.
    - rewrite <- G, Iab, Ep, E2. symmetry.
      replace (l1 ++ y :: k1 ++ a :: k2) with ((l1 ++ y :: k1) ++ a :: k2) by (rewrite <- app_assoc; reflexivity).
      apply glw_app_none. intros z Hz Ez. apply Hn; [|exact Ez]. rewrite E2. apply in_or_app. now right.
  Qed.
  (** the first access to an address comes right after an access to another one *)
  Lemma first_access L l x p : timed L -> Permutation l L -> StronglySorted lex l -> In x L -> In p L -> (idx p < idx x)%N ->
    exists m1 a b m2, l = m1 ++ a :: b :: m2 /\ idx b = idx x /\ (idx a < idx x)%N /\ (step b <= step x)%N.
  Proof.
    intros T P S Hx Hp Lp. apply (Permutation_in _ (Permutation_sym P)) in Hx, Hp. clear T P L.
    induction S as [|a l S IH F]; [destruct Hx|]. rewrite Forall_forall in F.
    destruct l as [|b l].
    - destruct Hx as [<-|[]]. destruct Hp as [<-|[]]. lia.
    - destruct (N.eq_dec (idx a) (idx x)) as [e|ne].
      { exfalso. destruct Hp as [<-|Hp]; [lia|]. specialize (F p Hp). unfold lex in F. lia. }
      destruct Hx as [<-|Hx]; [lia|]. assert (La : (idx a < idx x)%N) by (specialize (F x Hx); unfold lex in F; lia).
      destruct (N.eq_dec (idx b) (idx x)) as [e'|ne'].
      + exists [], a, b, l. repeat split; auto. destruct Hx as [<-|Hx]; [lia|]. apply StronglySorted_inv in S. destruct S as [_ Fb].
        rewrite Forall_forall in Fb. specialize (Fb x Hx). unfold lex in Fb. lia.
      + assert (Lb : (idx b < idx x)%N). { destruct Hx as [Hx|Hx]; [congruence|]. apply StronglySorted_inv in S. destruct S as [_ Fb].
          rewrite Forall_forall in Fb. specialize (Fb x Hx). unfold lex in Fb. lia. }
        destruct Hp as [<-|Hp].
        * assert (HH : exists m1 a0 b0 m2, b :: l = m1 ++ a0 :: b0 :: m2 /\ idx b0 = idx x /\ (idx a0 < idx x)%N /\ (step b0 <= step x)%N).
          { clear IH. revert b ne' Lb S F Hx. induction l as [|c l IH2]; intros b ne' Lb S F Hx; [destruct Hx as [<-|[]]; lia|].
            destruct Hx as [<-|Hx]; [lia|]. assert (Sb := S). apply StronglySorted_inv in S. destruct S as [S Fb]. rewrite Forall_forall in Fb.
            destruct (N.eq_dec (idx c) (idx x)) as [e''|ne''].
            - exists [], b, c, l. repeat split; auto. destruct Hx as [<-|Hx]; [lia|]. apply StronglySorted_inv in S. destruct S as [_ Fc].
              rewrite Forall_forall in Fc. specialize (Fc x Hx). unfold lex in Fc. lia.
            - assert (Lc : (idx c < idx x)%N). { destruct Hx as [Hx|Hx]; [congruence|]. apply StronglySorted_inv in S. destruct S as [_ Fc].
                rewrite Forall_forall in Fc. specialize (Fc x Hx). unfold lex in Fc. lia. }
              destruct (IH2 c ne'' Lc S) as (m1 & a0 & b0 & m2 & El & Q); [intros; apply F; now right|exact Hx|].
              exists (b :: m1), a0, b0, m2. split; [cbn; now rewrite El|exact Q]. }
          destruct HH as (m1 & a0 & b0 & m2 & El & Q). exists (a :: m1), a0, b0, m2. split; [cbn; now rewrite El|exact Q].
        * destruct (IH Hx Hp) as (m1 & a0 & b0 & m2 & El & Q). exists (a :: m1), a0, b0, m2. split; [cbn; now rewrite El|exact Q].
  Qed.
End Log.

(** * The three order checks as statements about neighbours *)
Lemma ro_order_spec n l : ro_order n l = true <-> forall m1 a b m2, l = m1 ++ a :: b :: m2 ->
  igeq (n + 1) (fst a) (fst b) = false \/ fst a = fst b /\ snd a = snd b.
Proof.
  induction l as [|x [|y l] IH].
  - split; [|reflexivity]. intros _ [|? [|? ?]] ? ? ? E; discriminate.
  - split; [|reflexivity]. intros _ [|? [|? ?]] ? ? ? E; discriminate.
  - change (ro_order n (x :: y :: l)) with ((negb (igeq (n + 1) (fst x) (fst y)) || (N.eqb (fst x) (fst y) && N.eqb (snd x) (snd y))) && ro_order n (y :: l)).
    split.
    + intros H m1 a b m2 E. apply andb_prop in H. destruct H as [H1 H2]. destruct m1 as [|z m1].
      * injection E as -> -> _. apply orb_prop in H1. destruct H1 as [H1|H1]; [left; now apply negb_true_iff|right].
        apply andb_prop in H1. destruct H1 as [A B]. split; now apply N.eqb_eq.
      * injection E as _ E. rewrite IH in H2. exact (H2 _ _ _ _ E).
    + intro H. apply andb_true_intro. split.
      * destruct (H [] x y l eq_refl) as [G|[G1 G2]]; [now rewrite G|]. rewrite G1, G2, !N.eqb_refl. apply orb_true_r.
      * apply IH. intros m1 a b m2 E. apply (H (x :: m1) a b m2). cbn. now rewrite E.
Qed.
Lemma rw_order_spec n s l : rw_order n s l = true <-> forall m1 a b m2, l = m1 ++ a :: b :: m2 ->
  (ilt (n + 1) (e_idx a) (e_idx b) = true \/ e_idx a = e_idx b /\ ilt s (e_step a) (e_step b) = true) /\
  (e_op b = false -> e_idx a = e_idx b /\ e_val a = e_val b).
Proof.
  induction l as [|x [|y l] IH].
  - split; [|reflexivity]. intros _ [|? [|? ?]] ? ? ? E; discriminate.
  - split; [|reflexivity]. intros _ [|? [|? ?]] ? ? ? E; discriminate.
  - change (rw_order n s (x :: y :: l)) with (((ilt (n + 1) (e_idx x) (e_idx y) || (N.eqb (e_idx x) (e_idx y) && ilt s (e_step x) (e_step y)))
       && (N.eqb (e_val x) (e_val y) || e_op y) && (N.eqb (e_idx x) (e_idx y) || e_op y)) && rw_order n s (y :: l)).
    split.
    + intros H m1 a b m2 E. apply andb_prop in H. destruct H as [H1 H2]. destruct m1 as [|z m1].
      * injection E as -> -> _. apply andb_prop in H1. destruct H1 as [H1 H3]. apply andb_prop in H1. destruct H1 as [H1 H4]. split.
        -- apply orb_prop in H1. destruct H1 as [H1|H1]; [now left|right]. apply andb_prop in H1. destruct H1 as [A B]. split; [now apply N.eqb_eq|exact B].
        -- intro O. rewrite O, orb_false_r in H3, H4. split; now apply N.eqb_eq.
      * injection E as _ E. rewrite IH in H2. exact (H2 _ _ _ _ E).
    + intro H. apply andb_true_intro. split.
      * destruct (H [] x y l eq_refl) as [G1 G2]. apply andb_true_intro. split; [apply andb_true_intro; split|].
        -- destruct G1 as [G|[G G']]; [now rewrite G|]. rewrite G, N.eqb_refl, G'. apply orb_true_r.
        -- destruct (e_op y); [apply orb_true_r|]. destruct (G2 eq_refl) as [_ ->]. now rewrite N.eqb_refl.
        -- destruct (e_op y); [apply orb_true_r|]. destruct (G2 eq_refl) as [-> _]. now rewrite N.eqb_refl.
      * apply IH. intros m1 a b m2 E. apply (H (x :: m1) a b m2). cbn. now rewrite E.
Qed.
Lemma words_eq_refl a : words_eq a a = true.
Proof. induction a as [|x a IH]; [reflexivity|]. cbn. now rewrite N.eqb_refl. Qed.
Lemma words_eq_true a : forall b, words_eq a b = true -> a = b.
Proof.
  induction a as [|x a IH]; intros [|y b] H; try discriminate; [reflexivity|]. cbn in H. apply andb_prop in H. destruct H as [H1 H2].
  apply N.eqb_eq in H1. now rewrite H1, (IH b H2).
Qed.
Lemma ext_order_spec s l : ext_order s l = true <-> forall m1 a b m2, l = m1 ++ a :: b :: m2 -> w_idx a = w_idx b ->
  ilt s (w_step a) (w_step b) = true /\ (w_op b = false -> w_val a = w_val b).
Proof.
  induction l as [|x [|y l] IH].
  - split; [|reflexivity]. intros _ [|? [|? ?]] ? ? ? E; discriminate.
  - split; [|reflexivity]. intros _ [|? [|? ?]] ? ? ? E; discriminate.
  - change (ext_order s (x :: y :: l)) with ((negb (N.eqb (w_idx x) (w_idx y)) || (negb (negb (N.eqb (w_idx x) (w_idx y))) && ilt s (w_step x) (w_step y) &&
        ((negb (w_op y) && words_eq (w_val x) (w_val y)) || w_op y))) && ext_order s (y :: l)).
    split.
    + intros H m1 a b m2 E Ei. apply andb_prop in H. destruct H as [H1 H2]. destruct m1 as [|z m1].
      * injection E as -> -> _. rewrite Ei, N.eqb_refl in H1. cbn in H1. apply andb_prop in H1. destruct H1 as [A B]. split; [exact A|].
        intro O. rewrite O in B. cbn in B. rewrite orb_false_r in B. now apply words_eq_true.
      * injection E as _ E. rewrite IH in H2. exact (H2 _ _ _ _ E Ei).
    + intro H. apply andb_true_intro. split.
      * destruct (N.eqb_spec (w_idx x) (w_idx y)) as [e|ne]; [|reflexivity]. cbn. destruct (H [] x y l eq_refl e) as [-> G].
        destruct (w_op y); [apply orb_true_r|]. cbn. rewrite (G eq_refl). now rewrite words_eq_refl.
      * apply IH. intros m1 a b m2 E. apply (H (x :: m1) a b m2). cbn. now rewrite E.
Qed.
