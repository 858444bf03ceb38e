(** Counting the coefficient vectors that compress different rows to the same element: proofs for PropWideCount.v. *)
From Coq Require Import NArith List Bool Arith Permutation Sorted Lia.
From Verif Require Import ListUtil GF128 RamModel RamSpec RamWide WideCountSpec.
Import ListNotations.
Ltac Zify.zify_post_hook ::= idtac.

(** * How many different rows there are *)
Fixpoint digits (r : list N) : N := match r with [] => 0%N | x :: r' => (x + 2 ^ 128 * digits r')%N end.
Lemma digits_inj : forall m r r', blocks m r -> blocks m r' -> digits r = digits r' -> r = r'.
Proof.
  induction m as [|m IH]; intros r r' [L F] [L' F'] E.
  - destruct r, r'; try discriminate; reflexivity.
  - destruct r as [|x r], r' as [|x' r']; try discriminate. inversion F; inversion F'; subst. cbn [digits] in E. injection L as L. injection L' as L'.
    assert (E1 : x = x'). { rewrite <- (N.mod_small x (2 ^ 128)), <- (N.mod_small x' (2 ^ 128)) by assumption. rewrite <- (N.mod_add x (digits r) (2 ^ 128)), <- (N.mod_add x' (digits r') (2 ^ 128)) by discriminate.
      f_equal. lia. }
    subst x'. f_equal. apply IH; [split; assumption|split; assumption|].
    apply (N.mul_cancel_l _ _ (2 ^ 128)%N); [discriminate|]. lia.
Qed.
Lemma digits_lt : forall m r, blocks m r -> (digits r < 2 ^ (128 * N.of_nat m))%N.
Proof.
  induction m as [|m IH]; intros r [L F].
  - destruct r; [|discriminate]. now compute.
  - destruct r as [|x r]; [discriminate|]. inversion F; subst. cbn [digits]. injection L as L. assert (D := IH r (conj L H2)).
    replace (128 * N.of_nat (S m))%N with (128 + 128 * N.of_nat m)%N by lia. rewrite N.pow_add_r.
    assert (K : (digits r + 1 <= 2 ^ (128 * N.of_nat m))%N) by lia. apply (N.mul_le_mono_l _ _ (2 ^ 128)%N) in K. lia.
Qed.
Lemma nodup_below (l : list N) (B : N) : NoDup l -> Forall (fun x => (x < B)%N) l -> (N.of_nat (length l) <= B)%N.
Proof.
  intros ND F. assert (H : length l <= length (map N.of_nat (seq 0 (N.to_nat B)))).
  { apply NoDup_incl_length; [exact ND|]. intros x Hx. rewrite Forall_forall in F. specialize (F x Hx). apply in_map_iff. exists (N.to_nat x). split; [apply N2Nat.id|]. apply in_seq. lia. }
  rewrite map_length, seq_length in H. lia.
Qed.
Lemma nodup_map {A B} (f : A -> B) l : NoDup l -> (forall x y, In x l -> In y l -> f x = f y -> x = y) -> NoDup (map f l).
Proof.
  induction 1 as [|x l N ND IH]; intro I; cbn [map]; [constructor|]. constructor.
  - intro H. apply in_map_iff in H. destruct H as (y & E & Hy). apply N. rewrite <- (I y x); auto; [now right|now left].
  - apply IH. intros a b Ha Hb. apply I; now right.
Qed.
Lemma rows_count m cs : NoDup cs -> Forall (blocks m) cs -> (N.of_nat (length cs) <= 2 ^ (128 * N.of_nat m))%N.
Proof.
  intros ND F. rewrite <- (map_length digits). rewrite Forall_forall in F. apply nodup_below.
  - apply nodup_map; [exact ND|]. intros x y Hx Hy. apply (digits_inj m); now apply F.
  - apply Forall_forall. intros x Hx. apply in_map_iff in Hx. destruct Hx as (c & <- & Hc). now apply digits_lt, F.
Qed.

(** * One pair of rows *)
Lemma app_same_len {A} (a b x y : list A) : length a = length b -> a ++ x = b ++ y -> a = b /\ x = y.
Proof. revert b. induction a as [|h a IH]; intros [|k b] L E; try discriminate; [now split|]. cbn in *. injection L as L. injection E as -> E. destruct (IH b L E) as [-> ->]. now split. Qed.
Definition without (j : nat) (c : list N) : list N := firstn j c ++ skipn (S j) c.
Lemma collide_count m x y cs : blocks m x -> blocks m y -> x <> y -> NoDup cs -> Forall (blocks m) cs ->
  (forall c, In c cs -> compress c x = compress c y) -> (N.of_nat (length cs) * 2 ^ 128 <= 2 ^ (128 * N.of_nat m))%N.
Proof.
  intros [Lx Fx] [Ly Fy] Ne ND F H. destruct (compress_collision x y) as (j & Hj & K); [congruence|exact Fx|exact Fy|exact Ne|]. rewrite Lx in Hj.
  destruct m as [|m]; [lia|]. rewrite Forall_forall in F.
  assert (Sp : forall c, In c cs -> exists u, c = firstn j c ++ u :: skipn (S j) c /\ (u < 2 ^ 128)%N /\ length (firstn j c) = j).
  { intros c Hc. destruct (F c Hc) as [Lc Fc]. destruct (nth_error c j) as [u|] eqn:E; [|apply nth_error_None in E; lia].
    destruct (nth_error_split _ _ E) as (c1 & c2 & -> & L1). exists u.
    rewrite <- L1. rewrite firstn_app, Nat.sub_diag, firstn_all, app_nil_r. cbn [firstn]. rewrite skipn_app, skipn_all2, Nat.sub_succ_l, Nat.sub_diag by lia. cbn [app skipn].
    split; [reflexivity|]. split; [|reflexivity]. rewrite Forall_forall in Fc. apply Fc, in_or_app. right. now left. }
  assert (C : (N.of_nat (length (map (without j) cs)) <= 2 ^ (128 * N.of_nat m))%N).
  { apply rows_count.
    - apply nodup_map; [exact ND|]. intros c d Hc Hd E. destruct (Sp c Hc) as (u & Ec & Bu & Lc). destruct (Sp d Hd) as (v & Ed & Bv & Ld).
      unfold without in E. destruct (app_same_len _ _ _ _ (eq_trans Lc (eq_sym Ld)) E) as [E1 E2].
      assert (Hc' := H c Hc). assert (Hd' := H d Hd). rewrite Ec in Hc'. rewrite Ed in Hd'. rewrite <- E1, <- E2 in Hd'. refine (eq_trans Ec (eq_trans _ (eq_sym Ed))). rewrite <- E1, <- E2. f_equal. f_equal.
      exact (K (firstn j c) (skipn (S j) c) u v Lc Bu Bv Hc' Hd').
    - apply Forall_forall. intros r Hr. apply in_map_iff in Hr. destruct Hr as (c & <- & Hc). destruct (F c Hc) as [Lc Fc]. unfold without. split.
      + rewrite app_length, firstn_length, skipn_length. lia.
      + rewrite Forall_forall in Fc. apply Forall_forall. intros z Hz. apply Fc. apply in_app_or in Hz. destruct Hz as [Hz|Hz].
        * rewrite <- (firstn_skipn j c). apply in_or_app. now left.
        * rewrite <- (firstn_skipn (S j) c). apply in_or_app. now right. }
  rewrite map_length in C. replace (128 * N.of_nat (S m))%N with (128 * N.of_nat m + 128)%N by lia. rewrite N.pow_add_r. now apply N.mul_le_mono_r.
Qed.

(** * All pairs *)
Lemma perm_images {A B} (f : A -> B) l1 l2 : (forall x y, In x l1 -> In y l2 -> f x = f y -> x = y) -> Permutation (map f l1) (map f l2) -> Permutation l1 l2.
Proof.
  intros I P. destruct (Permutation_map_inv f l2 P) as (l3 & E & P3). 
  assert (l1 = l3).
  { assert (I' : forall x y, In x l1 -> In y l3 -> f x = f y -> x = y). { intros x y Hx Hy. apply I; [exact Hx|]. eapply Permutation_in; [symmetry; exact P3|exact Hy]. }
    clear - E I'. revert l3 E I'. induction l1 as [|x l IH]; intros [|y l3] E I'; try discriminate; [reflexivity|]. cbn [map] in E. injection E as E1 E2.
    f_equal; [apply I'; [now left|now left|exact E1]|]. apply IH; [exact E2|]. intros a b Ha Hb. apply I'; now right. }
  subst l3. now symmetry.
Qed.
Lemma perm_em : forall l1 l2 : list N, Permutation l1 l2 \/ ~ Permutation l1 l2.
Proof.
  induction l1 as [|x l1 IH]; intro l2.
  - destruct l2 as [|y l2]; [now left|]. right. intro P. apply Permutation_nil in P. discriminate.
  - destruct (in_dec N.eq_dec x l2) as [Hx|Nx].
    + apply in_split in Hx. destruct Hx as (a & b & ->). destruct (IH (a ++ b)) as [P|NP].
      * left. now apply Permutation_cons_app.
      * right. intro P. apply NP. now apply Permutation_cons_app_inv in P.
    + right. intro P. apply Nx. eapply Permutation_in; [exact P|now left].
Qed.
Definition row_dec : forall a b : list N, {a = b} + {a <> b} := list_eq_dec N.eq_dec.
Definition collides (c : list N) (xy : list N * list N) : bool := N.eqb (compress c (fst xy)) (compress c (snd xy)) && if row_dec (fst xy) (snd xy) then false else true.
Lemma collides_spec c x y : collides c (x, y) = true <-> compress c x = compress c y /\ x <> y.
Proof. unfold collides. cbn [fst snd]. rewrite andb_true_iff, N.eqb_eq. destruct (row_dec x y); intuition congruence. Qed.
Lemma covered_count {A B} (p : A -> B -> bool) (bs : list B) (K M : N) : forall cs, NoDup cs -> (forall c, In c cs -> exists b, In b bs /\ p c b = true) ->
  (forall b ds, In b bs -> NoDup ds -> incl ds cs -> (forall d, In d ds -> p d b = true) -> (N.of_nat (length ds) * K <= M)%N) ->
  (N.of_nat (length cs) * K <= N.of_nat (length bs) * M)%N.
Proof.
  induction bs as [|b bs IH]; intros cs ND C Bd.
  - destruct cs as [|c cs]; [reflexivity|]. destruct (C c (or_introl eq_refl)) as (b & [] & _).
  - assert (Sp : length cs = length (filter (fun c => p c b) cs) + length (filter (fun c => negb (p c b)) cs)).
    { clear. induction cs as [|c cs IH]; [reflexivity|]. cbn [filter length]. destruct (p c b); cbn [negb length]; lia. }
    assert (B1 : (N.of_nat (length (filter (fun c => p c b) cs)) * K <= M)%N).
    { apply (Bd b); [now left|now apply NoDup_filter|apply incl_filter|]. intros d Hd. now apply filter_In in Hd. }
    assert (B2 : (N.of_nat (length (filter (fun c => negb (p c b)) cs)) * K <= N.of_nat (length bs) * M)%N).
    { apply IH; [now apply NoDup_filter| |].
      - intros c Hc. apply filter_In in Hc. destruct Hc as [Hc Nb]. destruct (C c Hc) as (b' & [<-|Hb] & Pb); [rewrite Pb in Nb; discriminate|]. now exists b'.
      - intros b' ds Hb' NDd I Pd. apply (Bd b'); [now right|exact NDd| |exact Pd]. intros d Hd. apply I in Hd. now apply filter_In in Hd. }
    rewrite Sp. cbn [length]. rewrite Nat2N.inj_add, Nat2N.inj_succ, N.mul_add_distr_r, N.mul_succ_l. lia.
Qed.
Lemma compression_count m A B cs : Forall (blocks m) A -> Forall (blocks m) B -> ~ Permutation A B -> NoDup cs -> Forall (blocks m) cs ->
  (forall c, In c cs -> Permutation (map (compress c) A) (map (compress c) B)) ->
  (N.of_nat (length cs) * 2 ^ 128 <= N.of_nat (length A * length B) * 2 ^ (128 * N.of_nat m))%N.
Proof.
  intros FA FB NP ND FC H. rewrite <- prod_length. rewrite Forall_forall in FA, FB. apply (covered_count collides (list_prod A B)); [exact ND| |].
  - intros c Hc. destruct (existsb (collides c) (list_prod A B)) eqn:E; [apply existsb_exists in E; exact E|]. exfalso. apply NP. apply (perm_images (compress c)); [|now apply H].
    intros x y Hx Hy Exy. destruct (row_dec x y) as [e|ne]; [exact e|]. exfalso.
    assert (T : existsb (collides c) (list_prod A B) = true); [|congruence]. apply existsb_exists. exists (x, y). split; [now apply in_prod|]. now apply collides_spec.
  - intros [x y] ds Hb NDd I Pd. apply in_prod_iff in Hb. destruct Hb as [Hx Hy]. destruct ds as [|d0 ds0] eqn:Eds; [apply N.le_0_l|]. rewrite <- Eds in *.
    assert (Ne : x <> y). { apply (collides_spec d0). apply Pd. rewrite Eds. now left. }
    apply (collide_count m x y); [now apply FA|now apply FB|exact Ne|exact NDd| |].
    + rewrite Forall_forall in FC. apply Forall_forall. intros d Hd. now apply FC, I.
    + intros d Hd. now apply collides_spec, Pd.
Qed.

(** * Rows of a wide record *)
Lemma word_pairs_len : forall ws, length (word_pairs ws) = (length ws + 1) / 2.
Proof.
  apply (pair_ind N (fun ws => length (word_pairs ws) = (length ws + 1) / 2)); [reflexivity|reflexivity|]. intros a b l IH. cbn [word_pairs length].
  rewrite IH. replace (S (S (length l)) + 1) with (length l + 1 + 1 * 2) by lia. rewrite Nat.div_add by lia. lia.
Qed.
Lemma word_pairs_lt : forall ws, Forall w64 ws -> Forall (fun x => (x < 2 ^ 128)%N) (word_pairs ws).
Proof.
  apply (pair_ind N (fun ws => Forall w64 ws -> Forall (fun x => (x < 2 ^ 128)%N) (word_pairs ws))); [constructor| |].
  - intros a F. inversion F; subst. cbn [word_pairs]. constructor; [|constructor]. unfold w64 in *. change (2 ^ 128)%N with (2 ^ 64 * 2 ^ 64)%N. lia.
  - intros a b l IH F. inversion F as [|? ? Ha F']; subst. inversion F' as [|? ? Hb F'']; subst. cbn [word_pairs]. constructor; [|now apply IH]. unfold w64 in *. change (2 ^ 128)%N with (2 ^ 64 * 2 ^ 64)%N. lia.
Qed.
Lemma wide_row_blocks nw e : wide_fits e -> length (w_val e) = nw -> blocks ((nw + 2) / 2) (wide_row e).
Proof.
  intros (Fi & Fs & Fv & Ne) L. unfold wide_row. destruct (w_val e) as [|v0 r]; [congruence|]. inversion Fv; subst. split.
  - cbn [length]. rewrite word_pairs_len. replace (S (length r) + 2) with (length r + 1 + 1 * 2) by lia. rewrite Nat.div_add by lia. lia.
  - constructor; [|now apply word_pairs_lt]. unfold w64 in *. assert (B : (N.b2n (w_op e) <= 1)%N) by (destruct (w_op e); cbn; lia).
    change (2 ^ 128)%N with (2 ^ 64 * (2 * (2 ^ 31 * 2 ^ 32)))%N. lia.
Qed.
