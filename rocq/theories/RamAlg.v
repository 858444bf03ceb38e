(** Products of shifted elements determine the multiset, except for few shifts. *)
From Coq Require Import NArith List Bool Arith Permutation Lia Ring.
From Verif Require Import Word WordProofs GF128 GF128Ring GF128Field PolyRoots RamSpec.
Import ListNotations.
Ltac Zify.zify_post_hook ::= idtac.

(** monic polynomial with the given roots (characteristic 2) *)
Fixpoint gprod (r : GF) (xs : list GF) : GF :=
  match xs with [] => g1 | x :: t => gmul (gadd r x) (gprod r t) end.
Lemma gprod_perm r xs ys : Permutation xs ys -> gprod r xs = gprod r ys.
Proof. induction 1; cbn [gprod]; [reflexivity|now rewrite IHPermutation|ring|congruence]. Qed.
Lemma gprod_app r a b : gprod r (a ++ b) = gmul (gprod r a) (gprod r b).
Proof. induction a as [|x a IH]; cbn [gprod app]; [ring|rewrite IH; ring]. Qed.
Lemma gprod_zero r xs : gprod r xs = g0 <-> In r xs.
Proof.
  induction xs as [|x xs IH]; cbn [gprod In].
  - split; [|tauto]. intro H. exfalso. assert (gv g1 = gv g0) by now rewrite H. discriminate.
  - split.
    + intro H. destruct (GF_nzd _ _ H) as [E|E]; [left|right; now apply IH].
      rewrite <- (GF_char2 x r). replace (gadd x r) with (gadd r x) by ring. rewrite E. ring.
    + intros [->|E]; [ring|]. apply IH in E. rewrite E. ring.
Qed.
Lemma toG_sprod r xs : toG (shifted_product r xs) = gprod (toG r) (map toG xs).
Proof.
  unfold shifted_product. induction xs as [|x xs IH]; [reflexivity|]. cbn [map fold_right gprod].
  now rewrite toG_gfmul, toG_lxor, IH.
Qed.
Lemma sprod_lt r xs : (shifted_product r xs < 2 ^ 128)%N.
Proof. unfold shifted_product. destruct xs; cbn [map fold_right]; [reflexivity|apply gfmul_lt]. Qed.

(** coefficients *)
Fixpoint padd (a b : list GF) : list GF :=
  match a, b with
  | [], _ => b
  | _, [] => a
  | x :: a', y :: b' => gadd x y :: padd a' b'
  end.
Fixpoint pcoef (xs : list GF) : list GF :=
  match xs with
  | [] => [g1]
  | x :: t => padd (map (gmul x) (pcoef t)) (g0 :: pcoef t)
  end.
Notation gpeval := (peval GF g0 gadd gmul).
Lemma peval_padd r a : forall b, gpeval (padd a b) r = gadd (gpeval a r) (gpeval b r).
Proof.
  induction a as [|x a IH]; intros [|y b]; cbn [padd peval]; [ring|ring|ring|rewrite IH; ring].
Qed.
Lemma peval_scale r c a : gpeval (map (gmul c) a) r = gmul c (gpeval a r).
Proof. induction a as [|x a IH]; cbn [map peval]; [ring|rewrite IH; ring]. Qed.
Lemma peval_pcoef r xs : gpeval (pcoef xs) r = gprod r xs.
Proof.
  induction xs as [|x xs IH]; cbn [pcoef gprod]; [cbn [peval]; ring|].
  rewrite peval_padd, peval_scale. cbn [peval]. rewrite IH. ring.
Qed.
Lemma padd_length a : forall b, length (padd a b) = Nat.max (length a) (length b).
Proof. induction a as [|x a IH]; intros [|y b]; cbn [padd length]; [reflexivity..|]. now rewrite IH. Qed.
Lemma pcoef_shape xs : exists c, pcoef xs = c ++ [g1] /\ length c = length xs.
Proof.
  induction xs as [|x xs [c [E L]]]; cbn [pcoef]; [exists []; auto|]. rewrite E.
  assert (H : forall a b, length b = S (length a) -> exists c', padd (map (gmul x) (a ++ [g1])) (b ++ [g1]) = c' ++ [g1] /\ length c' = length b).
  { clear. intros a. induction a as [|y a IH]; intros [|z b] H; cbn [length] in H; try lia.
    - destruct b; [|cbn in H; lia]. cbn [app map padd]. exists [gadd (gmul x g1) z]. auto.
    - cbn [app map padd]. destruct (IH b ltac:(lia)) as [c' [E' L']]. exists (gadd (gmul x y) z :: c'). rewrite E'. cbn [app length]. auto. }
  destruct (H c (g0 :: c)) as [c' [E' L']]; [cbn [length]; lia|]. exists c'. split; [exact E'|]. cbn [length] in *. lia.
Qed.
Lemma gprod_diff xs ys : length xs = length ys -> exists c, length c = length xs /\
  forall r, gpeval c r = gadd (gprod r xs) (gprod r ys).
Proof.
  intro L. destruct (pcoef_shape xs) as [c [Ec Lc]]. destruct (pcoef_shape ys) as [e [Ee Le]].
  exists (padd c e). split; [rewrite padd_length; lia|]. intro r.
  rewrite <- !peval_pcoef, Ec, Ee, peval_padd.
  assert (A : forall a b, length a = length b -> gadd (gpeval a r) (gpeval b r) = gadd (gpeval (a ++ [g1]) r) (gpeval (b ++ [g1]) r)).
  { clear. induction a as [|x a IH]; intros [|y b] H; cbn [length] in H; try lia; cbn [app peval]; [ring|].
    specialize (IH b ltac:(lia)).
    transitivity (gadd (gadd x y) (gmul r (gadd (gpeval a r) (gpeval b r)))); [ring|]. rewrite IH. ring. }
  apply A. lia.
Qed.

(** remove common elements *)
Lemma common_split_k k : forall xs : list GF, length xs <= k -> forall ys : list GF, length xs = length ys ->
  exists cm xs' ys', Permutation xs (cm ++ xs') /\ Permutation ys (cm ++ ys') /\ length xs' = length ys' /\
    (forall x, In x xs' -> ~ In x ys').
Proof.
  induction k as [|k IHk]; intros xs Hk ys L.
  - destruct xs; [|cbn in Hk; lia]. destruct ys; [|cbn in L; lia]. exists [], [], []. repeat split; auto.
  - destruct (Exists_dec (fun x => In x ys) xs (fun x => in_dec GF_eq_dec x ys)) as [E|E].
    + apply Exists_exists in E. destruct E as [x [Hx Hy]].
      destruct (in_split _ _ Hx) as [a [b ->]]. destruct (in_split _ _ Hy) as [c [e ->]].
      rewrite !app_length in *. cbn [length] in *.
      destruct (IHk (a ++ b)) with (ys := c ++ e) as [cm [xs' [ys' [P1 [P2 [L' D]]]]]];
        [rewrite app_length; lia|rewrite !app_length; lia|].
      exists (x :: cm), xs', ys'. repeat split; auto; cbn [app]; rewrite <- Permutation_middle; now constructor.
    + exists [], xs, ys. repeat split; auto. intros x Hx Hy. apply E. apply Exists_exists. eauto.
Qed.
Definition common_split (xs ys : list GF) := common_split_k _ xs (le_n _) ys.

(** few shifts make two different multisets look equal *)
Lemma gprod_bound xs ys rs : length xs = length ys -> ~ Permutation xs ys -> NoDup rs ->
  (forall r, In r rs -> gprod r xs = gprod r ys) -> length rs < length xs.
Proof.
  intros L NP ND H. destruct (common_split xs ys L) as [cm [xs' [ys' [P1 [P2 [L' D]]]]]].
  assert (Hx : exists x t, xs' = x :: t).
  { destruct xs' as [|x t]; [|eauto]. destruct ys'; [|cbn in L'; lia]. exfalso. apply NP.
    now rewrite P1, P2. }
  destruct Hx as [x [t Ex]].
  destruct (gprod_diff xs' ys' L') as [c [Lc Hc]].
  assert (Nz : ~ Forall (fun u => u = g0) c).
  { intro F. assert (Z : gpeval c x = g0).
    { clear -F. induction c as [|u c IH]; [reflexivity|]. inversion F; subst. cbn [peval]. rewrite IH by assumption. ring. }
    rewrite Hc in Z. rewrite (proj2 (gprod_zero x xs')) in Z by (rewrite Ex; now left).
    assert (Y : gprod x ys' = g0) by (rewrite <- Z; ring).
    apply gprod_zero in Y. revert Y. apply D. rewrite Ex. now left. }
  (* split rs into the common elements and the others *)
  set (inb := fun r => if in_dec GF_eq_dec r cm then true else false).
  assert (S : length rs = length (filter inb rs) + length (filter (fun r => negb (inb r)) rs)).
  { clear. induction rs as [|r rs IH]; [reflexivity|]. cbn [filter length]. destruct (inb r); cbn [negb length]; lia. }
  assert (B1 : length (filter inb rs) <= length cm).
  { apply NoDup_incl_length; [now apply NoDup_filter|]. intros r Hr. apply filter_In in Hr. destruct Hr as [_ Hr].
    unfold inb in Hr. destruct (in_dec GF_eq_dec r cm); [assumption|discriminate]. }
  assert (B2 : length (filter (fun r => negb (inb r)) rs) < length c).
  { apply GF_root_count; [exact Nz|now apply NoDup_filter|].
    intros r Hr. apply filter_In in Hr. destruct Hr as [Hr Hb]. specialize (H r Hr).
    rewrite (gprod_perm r _ _ P1), (gprod_perm r _ _ P2), !gprod_app in H. rewrite Hc.
    assert (Hn : gprod r cm <> g0).
    { intro Z. apply gprod_zero in Z. unfold inb in Hb. destruct (in_dec GF_eq_dec r cm); [discriminate|contradiction]. }
    destruct (GF_nzd (gprod r cm) (gadd (gprod r xs') (gprod r ys'))) as [Z|Z]; [|contradiction|exact Z].
    transitivity (gadd (gmul (gprod r cm) (gprod r xs')) (gmul (gprod r cm) (gprod r ys'))); [ring|]. rewrite H. ring. }
  apply Permutation_length in P1. rewrite app_length in P1. lia.
Qed.
Lemma map_toG_perm xs ys : Forall (fun x => (x < 2 ^ 128)%N) xs -> Forall (fun x => (x < 2 ^ 128)%N) ys ->
  Permutation (map toG xs) (map toG ys) -> Permutation xs ys.
Proof.
  intros Hx Hy P. apply (Permutation_map gv) in P. rewrite !map_map in P.
  assert (E : forall l, Forall (fun x => (x < 2 ^ 128)%N) l -> map (fun x => gv (toG x)) l = l).
  { induction l as [|a l IH]; intro F; [reflexivity|]. inversion F; subst. cbn [map]. rewrite gv_toG_small, IH by assumption. reflexivity. }
  now rewrite !E in P.
Qed.
Lemma sprod_bound xs ys rs : length xs = length ys ->
  Forall (fun x => (x < 2 ^ 128)%N) xs -> Forall (fun x => (x < 2 ^ 128)%N) ys -> Forall (fun x => (x < 2 ^ 128)%N) rs ->
  ~ Permutation xs ys -> NoDup rs ->
  (forall r, In r rs -> shifted_product r xs = shifted_product r ys) -> length rs < length xs.
Proof.
  intros L Hx Hy Hr NP ND H. rewrite <- (map_length toG rs), <- (map_length toG xs).
  apply (gprod_bound _ (map toG ys)).
  - now rewrite !map_length.
  - intro P. apply NP. now apply map_toG_perm.
  - clear H. induction rs as [|r rs IH]; cbn [map]; [constructor|]. inversion ND; subst. inversion Hr; subst. constructor; [|now apply IH].
    intro F. apply in_map_iff in F. destruct F as [r' [E I]]. apply toG_inj in E; [subst; contradiction| |assumption].
    rewrite Forall_forall in H4. now apply H4.
  - intros r I. apply in_map_iff in I. destruct I as [r' [<- I]]. rewrite <- !toG_sprod. now rewrite H.
Qed.
Lemma sprod_perm r xs ys : Permutation xs ys -> shifted_product r xs = shifted_product r ys.
Proof.
  intro P. apply toG_inj; [apply sprod_lt..|]. rewrite !toG_sprod. apply gprod_perm. now apply Permutation_map.
Qed.
