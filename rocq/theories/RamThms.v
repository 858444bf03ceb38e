(** Consistency of the three memories. *)
From Coq Require Import NArith List Bool Arith Permutation Sorted Lia.
From Verif Require Import ListUtil GF128 F2kModel RamModel RamSpec RamAlg RamPack RamWide RamOrder.
Import ListNotations.
Ltac Zify.zify_post_hook ::= idtac.

Lemma split_le a b a' b' m : (a < m)%N -> (a' < m)%N -> (a + m * b <= a' + m * b')%N -> (b < b')%N \/ b = b' /\ (a <= a')%N.
Proof. intros H1 H2 L. destruct (N.lt_trichotomy b b') as [C|[C|C]]; [now left|right; split; [exact C|subst; lia]|exfalso]. nia. Qed.

Lemma SS_le_map {A} (f : A -> N) l : Sorted N.le (map f l) -> StronglySorted (fun a b => (f a <= f b)%N) l.
Proof. intro S. apply (SS_map f N.le). now apply SS_le_sorted. Qed.

(** * Read-only memory *)
Lemma ro_fits_inj n v e e' : ro_fits n v e -> ro_fits n v e' -> ro_word n v e = ro_word n v e' -> e = e'.
Proof. intros [] []. now apply ro_word_inj. Qed.
Lemma ro_word_le n v e e' : ro_fits n v e -> ro_fits n v e' -> (ro_word n v e <= ro_word n v e')%N -> (fst e <= fst e')%N.
Proof.
  intros [H1 H2] [H3 H4]. unfold ro_word. rewrite (N.mod_small (fst e)), (N.mod_small (snd e)), (N.mod_small (fst e')), (N.mod_small (snd e')) by assumption.
  intro L. apply split_le in L; [|assumption..]. lia.
Qed.
Lemma ro_records_in mem reads a v : In (a, v) (ro_records mem reads) <-> (exists i, a = N.of_nat i /\ nth_error mem i = Some v) \/ In (a, v) reads.
Proof.
  unfold ro_records. rewrite in_app_iff.
  assert (G : forall s m, In (a, v) (combine (map N.of_nat (seq s (length m))) m) <-> exists i, a = N.of_nat (s + i) /\ nth_error m i = Some v).
  { intros s m. revert s. induction m as [|x m IH]; intro s.
    - cbn. split; [tauto|]. intros [[|i] [_ H]]; discriminate.
    - cbn [length seq map combine]. cbn [In]. rewrite IH. split.
      + intros [H|[i [H1 H2]]]; [injection H as <- <-; exists 0; split; [f_equal; lia|reflexivity]|]. exists (S i). split; [rewrite H1; f_equal; lia|exact H2].
      + intros [[|i] [H1 H2]]; [left; cbn in H2; injection H2 as <-; f_equal; rewrite H1; f_equal; lia|]. right. exists i. split; [rewrite H1; f_equal; lia|exact H2]. }
  rewrite (G 0 mem). tauto.
Qed.
Lemma ro_records_fits n v mem reads : (N.of_nat (length mem) <= 2 ^ N.of_nat n)%N -> Forall (fun x => (x < 2 ^ N.of_nat v)%N) mem ->
  Forall (ro_fits n v) reads -> Forall (ro_fits n v) (ro_records mem reads).
Proof.
  intros L F1 F2. rewrite Forall_forall in *. intros [a x] Hi. apply ro_records_in in Hi. destruct Hi as [[i [-> Hi]]|Hi]; [|now apply F2].
  split; cbn [fst snd]; [|apply F1; eapply nth_error_In; eassumption]. assert (i < length mem) by (apply nth_error_Some; congruence). lia.
Qed.
Lemma ro_order_equal n v l : Forall (ro_fits n v) l -> ro_order n l = true -> forall e e', In e l -> In e' l -> fst e = fst e' -> snd e = snd e'.
Proof.
  intros F H.
  assert (S : StronglySorted (fun a b => (fst a < fst b)%N \/ a = b) l).
  { apply Sorted_StronglySorted; [intros a b c [H1|H1] [H2|H2]; subst; auto; left; lia|].
    rewrite ro_order_spec in H. induction l as [|x l IH]; [constructor|]. inversion F as [|? ? Fx Fl]; subst.
    constructor; [apply IH; [exact Fl|]; intros m1 a b m2 E; apply (H (x :: m1) a b m2); cbn; now rewrite E|].
    destruct l as [|y l]; constructor. inversion Fl as [|? ? Fy _]; subst. destruct (H [] x y l eq_refl) as [G|[G1 G2]].
    - left. rewrite igeq_spec in G by (apply Fx || apply Fy). apply N.leb_gt in G. exact G.
    - right. destruct x, y; cbn in *. congruence. }
  intros e e' He He' Ef. apply in_split in He. destruct He as [l1 [l2 ->]]. destruct (SS_split _ _ _ _ S) as [A [B _]].
  apply in_app_or in He'. destruct He' as [He'|[He'|He']].
  - destruct (A e' He') as [G|G]; [lia|now subst].
  - now subst.
  - destruct (B e' He') as [G|G]; [lia|now subst].
Qed.
Lemma ro_sound n v mem reads l : (N.of_nat (length mem) <= 2 ^ N.of_nat n)%N -> Forall (fun x => (x < 2 ^ N.of_nat v)%N) mem ->
  Forall (ro_fits n v) reads -> Forall (ro_fits n v) l -> ro_order n l = true ->
  Permutation (map (ro_word n v) l) (map (ro_word n v) (ro_records mem reads)) -> ro_consistent mem reads.
Proof.
  intros L F1 F2 Fl O P. apply (perm_map_inj (ro_word n v) (ro_fits n v)) in P; [|intros; now apply (ro_fits_inj n v)|exact Fl|now apply ro_records_fits].
  intros a x Hi La. destruct (nth_error mem a) as [m|] eqn:Em; [|apply nth_error_None in Em; lia].
  assert (In (N.of_nat a, x) l) by (apply (Permutation_in _ (Permutation_sym P)), ro_records_in; now right).
  assert (In (N.of_nat a, m) l) by (apply (Permutation_in _ (Permutation_sym P)), ro_records_in; left; now exists a).
  f_equal. exact (ro_order_equal n v l Fl O (N.of_nat a, m) (N.of_nat a, x) H0 H eq_refl).
Qed.
Lemma ro_honest n v mem reads l : (N.of_nat (length mem) <= 2 ^ N.of_nat n)%N -> Forall (fun x => (x < 2 ^ N.of_nat v)%N) mem ->
  ro_in_memory mem reads -> ro_consistent mem reads -> Permutation l (ro_records mem reads) -> Sorted N.le (map (ro_word n v) l) -> ro_order n l = true.
Proof.
  intros L F1 Hin C P S.
  assert (Val : forall e, In e l -> exists i, fst e = N.of_nat i /\ nth_error mem i = Some (snd e)).
  { intros [a x] He. apply (Permutation_in _ P), ro_records_in in He. destruct He as [He|He]; [exact He|]. exists (N.to_nat a). cbn [fst snd]. rewrite N2Nat.id. split; [reflexivity|].
    unfold ro_in_memory in Hin. rewrite Forall_forall in Hin. specialize (Hin _ He). cbn [fst] in Hin. apply C; [now rewrite N2Nat.id|lia]. }
  assert (Fl : Forall (ro_fits n v) l).
  { apply Forall_forall. intros e He. destruct (Val e He) as [i [Ei Hi]]. rewrite Forall_forall in F1. split; [|apply F1; eapply nth_error_In; eassumption].
    assert (i < length mem) by (apply nth_error_Some; congruence). lia. }
  apply ro_order_spec. intros m1 a b m2 E. assert (Ha : In a l) by (rewrite E; apply in_or_app; right; now left).
  assert (Hb : In b l) by (rewrite E; apply in_or_app; right; right; now left).
  rewrite Forall_forall in Fl. destruct (Fl a Ha) as [Ia Va]. destruct (Fl b Hb) as [Ib Vb].
  apply SS_le_map in S. rewrite E in S. destruct (SS_split _ _ _ _ S) as [_ [B _]].
  specialize (B b (or_introl eq_refl)). apply ro_word_le in B; [|now apply Fl..].
  rewrite igeq_spec by assumption. destruct (N.leb_spec (fst b) (fst a)) as [G|G]; [right|now left].
  assert (Eab : fst a = fst b) by lia. split; [exact Eab|]. destruct (Val a Ha) as [i [Ei Hi]]. destruct (Val b Hb) as [j [Ej Hj]].
  assert (i = j) by lia. subst j. congruence.
Qed.
Lemma ro_order_app n A B : ro_order n A = true -> ro_order n B = true ->
  (forall A' a b B', A = A' ++ [a] -> B = b :: B' -> igeq (n + 1) (fst a) (fst b) = false) -> ro_order n (A ++ B) = true.
Proof.
  intros HA HB H. induction A as [|x A IH]; [exact HB|]. destruct A as [|y A].
  - destruct B as [|b B]; [reflexivity|]. apply ro_order_spec. intros m1 a b' m2 E. destruct m1 as [|z m1].
    + cbn in E. injection E as <- <- _. left. apply (H [] x b B eq_refl eq_refl).
    + cbn in E. injection E as _ E. rewrite ro_order_spec in HB. exact (HB _ _ _ _ E).
  - change ((x :: y :: A) ++ B) with (x :: y :: A ++ B). change (ro_order n (x :: y :: A ++ B)) with ((negb (igeq (n + 1) (fst x) (fst y)) || (N.eqb (fst x) (fst y) && N.eqb (snd x) (snd y))) && ro_order n ((y :: A) ++ B)).
    change (ro_order n (x :: y :: A)) with ((negb (igeq (n + 1) (fst x) (fst y)) || (N.eqb (fst x) (fst y) && N.eqb (snd x) (snd y))) && ro_order n (y :: A)) in HA.
    apply andb_prop in HA. destruct HA as [HA1 HA2]. rewrite HA1. apply IH; [exact HA2|].
    intros A' a b B' EA EB. apply (H (x :: A') a b B'); [cbn; now rewrite EA|exact EB].
Qed.
Lemma filter_perm {A} (p : A -> bool) l : Permutation (filter (fun x => negb (p x)) l ++ filter p l) l.
Proof.
  induction l as [|x l IH]; [constructor|]. cbn [filter]. destruct (p x); cbn [negb].
  - symmetry. apply Permutation_cons_app. now symmetry.
  - cbn. now constructor.
Qed.
Lemma add_pow_mod a n : ((a + 2 ^ N.of_nat n) mod 2 ^ N.of_nat n = a mod 2 ^ N.of_nat n)%N.
Proof. replace (a + 2 ^ N.of_nat n)%N with (a + 1 * 2 ^ N.of_nat n)%N by lia. apply N.mod_add. apply N.pow_nonzero. lia. Qed.
Definition top_set (n : nat) (e : N * N) : N * N := (fst e + 2 ^ N.of_nat n, snd e)%N.
Lemma top_set_word n v e : (fst e < 2 ^ N.of_nat n)%N -> ro_word n v (top_set n e) = ro_word n v e.
Proof.
  intro H. unfold ro_word, top_set. cbn [fst snd]. now rewrite add_pow_mod.
Qed.
(** every forgery of a read-only memory passes, as long as one address is lied about consistently *)
Lemma ro_forged n v mem reads f : (N.of_nat (length mem) <= 2 ^ N.of_nat n)%N -> mem <> [] -> Forall (fun x => (x < 2 ^ N.of_nat v)%N) mem ->
  ro_in_memory mem reads -> Forall (fun r => (snd r < 2 ^ N.of_nat v)%N) reads ->
  (forall a x, In (N.of_nat a, x) reads -> nth_error mem a = Some x \/ x = f a) ->
  exists l, ro_order n l = true /\ Permutation (map (ro_word n v) l) (map (ro_word n v) (ro_records mem reads)) /\
    Forall (fun e => (fst e < 2 ^ N.of_nat (n + 1))%N /\ (snd e < 2 ^ N.of_nat v)%N) l.
Proof.
  intros L Hne F1 Hin F2 Hf.
  set (p := fun e : N * N => match nth_error mem (N.to_nat (fst e)) with Some m => N.eqb m (snd e) | None => false end).
  set (R := ro_records mem reads). set (bad := filter (fun x => negb (p x)) R). set (good := filter p R).
  assert (FR : Forall (ro_fits n v) R).
  { apply ro_records_fits; auto. rewrite Forall_forall in *. intros e He. split; [|now apply F2]. unfold ro_in_memory in Hin. rewrite Forall_forall in Hin. specialize (Hin e He). cbn in Hin. lia. }
  assert (Fb : Forall (ro_fits n v) (isort (ro_word n v) bad)).
  { apply (Permutation_Forall (Permutation_sym (isort_perm _ bad))). unfold bad. apply Forall_forall. intros e He. apply filter_In in He. rewrite Forall_forall in FR. now apply FR. }
  assert (Fg : Forall (ro_fits n v) (isort (ro_word n v) good)).
  { apply (Permutation_Forall (Permutation_sym (isort_perm _ good))). unfold good. apply Forall_forall. intros e He. apply filter_In in He. rewrite Forall_forall in FR. now apply FR. }
  assert (Hbad : forall e, In e bad -> snd e = f (N.to_nat (fst e))).
  { intros [a x] He. apply filter_In in He. destruct He as [He Hp]. apply ro_records_in in He. cbn [fst snd]. destruct He as [[i [-> Hi]]|He].
    - exfalso. unfold p in Hp. cbn [fst snd] in Hp. rewrite Nat2N.id, Hi, N.eqb_refl in Hp. discriminate.
    - rewrite <- (N2Nat.id a) in He. destruct (Hf _ _ He) as [G|G]; [|exact G]. exfalso. unfold p in Hp. cbn [fst snd] in Hp. rewrite G, N.eqb_refl in Hp. discriminate. }
  assert (Hgood : forall e, In e good -> nth_error mem (N.to_nat (fst e)) = Some (snd e)).
  { intros [a x] He. apply filter_In in He. destruct He as [_ Hp]. unfold p in Hp. cbn [fst snd] in *. destruct (nth_error mem (N.to_nat a)); [|discriminate]. apply N.eqb_eq in Hp. now subst. }
  exists (map (top_set n) (isort (ro_word n v) bad) ++ isort (ro_word n v) good). split; [|split].
  - apply ro_order_app.
    + apply ro_order_spec. intros m1 a b m2 E. apply map_eq_app in E. destruct E as [k1 [k2 [E [_ E2]]]].
      destruct k2 as [|a' [|b' k2]]; try discriminate. cbn [map] in E2. injection E2 as <- <- _. cbn [top_set fst snd].
      pose proof (isort_sorted (ro_word n v) bad) as S. assert (Pb := isort_perm (ro_word n v) bad). rewrite E in S, Fb, Pb. destruct (SS_split _ _ _ _ S) as [_ [B _]].
      specialize (B b' (or_introl eq_refl)). rewrite Forall_forall in Fb.
      assert (Fa : ro_fits n v a') by (apply Fb, in_or_app; right; now left). assert (Fb' : ro_fits n v b') by (apply Fb, in_or_app; right; right; now left).
      apply ro_word_le in B; [|assumption..]. rewrite igeq_top2 by (apply Fa || apply Fb').
      destruct (N.leb_spec (fst b') (fst a')) as [G|G]; [right|now left]. assert (Eab : fst a' = fst b') by lia. rewrite Eab. split; [reflexivity|].
      rewrite (Hbad a'), (Hbad b'), Eab; [reflexivity| |]; apply (Permutation_in _ Pb), in_or_app; right; cbn; auto.
    + apply ro_order_spec. intros m1 a b m2 E. pose proof (isort_sorted (ro_word n v) good) as S. assert (Pg := isort_perm (ro_word n v) good). rewrite E in S, Fg, Pg.
      destruct (SS_split _ _ _ _ S) as [_ [B _]]. specialize (B b (or_introl eq_refl)). rewrite Forall_forall in Fg.
      assert (Fa : ro_fits n v a) by (apply Fg, in_or_app; right; now left). assert (Fb' : ro_fits n v b) by (apply Fg, in_or_app; right; right; now left).
      apply ro_word_le in B; [|assumption..]. rewrite igeq_spec by (apply Fa || apply Fb').
      destruct (N.leb_spec (fst b) (fst a)) as [G|G]; [right|now left]. assert (Eab : fst a = fst b) by lia. split; [exact Eab|].
      assert (Ga : nth_error mem (N.to_nat (fst a)) = Some (snd a)) by (apply Hgood, (Permutation_in _ Pg), in_or_app; right; cbn; auto).
      assert (Gb : nth_error mem (N.to_nat (fst b)) = Some (snd b)) by (apply Hgood, (Permutation_in _ Pg), in_or_app; right; cbn; auto). congruence.
    + intros A' a b B' EA EB. assert (Ia : In a (map (top_set n) (isort (ro_word n v) bad))) by (rewrite EA; apply in_or_app; right; now left).
      apply in_map_iff in Ia. destruct Ia as [a' [<- Ia]]. cbn [top_set fst]. rewrite Forall_forall in Fb, Fg. apply igeq_top; [|now apply Fb].
      assert (Eb0 : fst b = 0%N); [|lia].
      destruct mem as [|m0 mem']; [contradiction|]. assert (I0 : In (0%N, m0) (isort (ro_word n v) good)).
      { apply (Permutation_in _ (Permutation_sym (isort_perm _ good))). apply filter_In. split; [apply ro_records_in; left; now exists 0|]. unfold p. cbn. apply N.eqb_refl. }
      pose proof (isort_sorted (ro_word n v) good) as S. rewrite EB in *. destruct I0 as [->|I0]; [reflexivity|].
      destruct (SS_split _ [] _ _ S) as [_ [B _]]. specialize (B _ I0). apply ro_word_le in B; [cbn in B; lia|apply Fg; now left|apply Fg; now right].
  - rewrite map_app, map_map. rewrite (map_ext_in _ (ro_word n v)).
    + rewrite <- map_app. apply Permutation_map. transitivity (bad ++ good); [apply Permutation_app; apply isort_perm|apply filter_perm].
    + intros e He. rewrite Forall_forall in Fb. apply top_set_word, Fb, He.
  - apply Forall_app. split.
    + rewrite Forall_map. eapply Forall_impl; [|exact Fb]. intros e [H1 H2]. cbn [top_set fst snd]. rewrite pow_S. split; [lia|exact H2].
    + eapply Forall_impl; [|exact Fg]. intros e [H1 H2]. rewrite pow_S. split; [lia|exact H2].
Qed.

(** * Logs and numbered entries *)
Definition erase (e : entry) : acc := {| a_addr := e_idx e; a_write := e_op e; a_val := e_val e |}.
Definition werase (e : wentry) : wacc := {| b_addr := w_idx e; b_write := w_op e; b_val := w_val e |}.
Lemma numbered_cons s x l : numbered s (x :: l) = {| e_idx := a_addr x; e_step := N.of_nat s; e_op := a_write x; e_val := a_val x |} :: numbered (S s) l.
Proof. reflexivity. Qed.
Lemma wnumbered_cons s x l : wnumbered s (x :: l) = {| w_idx := b_addr x; w_step := N.of_nat s; w_op := b_write x; w_val := b_val x |} :: wnumbered (S s) l.
Proof. reflexivity. Qed.
Lemma numbered_erase l : forall s, map erase (numbered s l) = l.
Proof. induction l as [|x l IH]; intro s; [reflexivity|]. rewrite numbered_cons. cbn [map]. rewrite IH. now destruct x. Qed.
Lemma wnumbered_erase l : forall s, map werase (wnumbered s l) = l.
Proof. induction l as [|x l IH]; intro s; [reflexivity|]. rewrite wnumbered_cons. cbn [map]. rewrite IH. now destruct x. Qed.
Lemma numbered_step l : forall s e, In e (numbered s l) -> (N.of_nat s <= e_step e < N.of_nat (s + length l))%N.
Proof.
  induction l as [|x l IH]; intros s e H; [destruct H|]. rewrite numbered_cons in H. cbn [length]. destruct H as [<-|H]; [cbn [e_step]; lia|].
  specialize (IH _ _ H). lia.
Qed.
Lemma wnumbered_step l : forall s e, In e (wnumbered s l) -> (N.of_nat s <= w_step e < N.of_nat (s + length l))%N.
Proof.
  induction l as [|x l IH]; intros s e H; [destruct H|]. rewrite wnumbered_cons in H. cbn [length]. destruct H as [<-|H]; [cbn [w_step]; lia|].
  specialize (IH _ _ H). lia.
Qed.
Lemma numbered_timed l : forall s, timed e_step (numbered s l).
Proof.
  induction l as [|x l IH]; intro s; [constructor|]. rewrite numbered_cons. constructor; [apply IH|]. apply Forall_forall. intros e He. apply numbered_step in He. cbn [e_step]. lia.
Qed.
Lemma wnumbered_timed l : forall s, timed w_step (wnumbered s l).
Proof.
  induction l as [|x l IH]; intro s; [constructor|]. rewrite wnumbered_cons. constructor; [apply IH|]. apply Forall_forall. intros e He. apply wnumbered_step in He. cbn [w_step]. lia.
Qed.
Lemma numbered_app l1 : forall s l2, numbered s (l1 ++ l2) = numbered s l1 ++ numbered (s + length l1) l2.
Proof.
  induction l1 as [|x l1 IH]; intros s l2; [cbn [app length]; now rewrite Nat.add_0_r|]. rewrite <- app_comm_cons, !numbered_cons, IH. cbn [length app]. f_equal. f_equal. f_equal. lia.
Qed.
Lemma glw_erase L a : glw e_idx e_op e_val L a = last_write (map erase L) a.
Proof. induction L as [|x L IH]; [reflexivity|]. cbn [glw map last_write]. rewrite IH. reflexivity. Qed.
Lemma wglw_erase L a : glw w_idx w_op w_val L a = wlast_write (map werase L) a.
Proof. induction L as [|x L IH]; [reflexivity|]. cbn [glw map wlast_write]. rewrite IH. reflexivity. Qed.
Lemma glatest_erase L : glatest e_idx e_op e_val L <-> reads_latest (map erase L).
Proof.
  split; intro H.
  - intros pre x post E O v Hv. apply map_eq_app in E. destruct E as [k1 [k2 [EL [E1 E2]]]]. destruct k2 as [|y k2]; [discriminate|].
    cbn [map] in E2. injection E2 as <- _. subst pre. rewrite <- glw_erase in Hv. exact (H _ _ _ EL O v Hv).
  - intros pre x post E O v Hv. apply (H (map erase pre) (erase x) (map erase post)); [rewrite E, map_app; reflexivity|exact O|]. now rewrite <- glw_erase.
Qed.
Lemma wglatest_erase L : glatest w_idx w_op w_val L <-> wreads_latest (map werase L).
Proof.
  split; intro H.
  - intros pre x post E O v Hv. apply map_eq_app in E. destruct E as [k1 [k2 [EL [E1 E2]]]]. destruct k2 as [|y k2]; [discriminate|].
    cbn [map] in E2. injection E2 as <- _. subst pre. rewrite <- wglw_erase in Hv. exact (H _ _ _ EL O v Hv).
  - intros pre x post E O v Hv. apply (H (map werase pre) (werase x) (map werase post)); [rewrite E, map_app; reflexivity|exact O|]. now rewrite <- wglw_erase.
Qed.
Lemma gfirst_erase L : written_first (map erase L) -> gfirst e_idx e_op e_val L.
Proof.
  intros H pre x post E O. rewrite glw_erase. apply (H (map erase pre) (erase x) (map erase post)); [rewrite E, map_app; reflexivity|exact O].
Qed.
Lemma wgfirst_erase L : wwritten_first (map werase L) -> gfirst w_idx w_op w_val L.
Proof.
  intros H pre x post E O. rewrite wglw_erase. apply (H (map werase pre) (werase x) (map werase post)); [rewrite E, map_app; reflexivity|exact O].
Qed.

(** * Read-write memory *)
Lemma rw_sorted_lex n s v l : Forall (rw_fits n s v) l -> Forall (fun e => (e_step e < 2 ^ N.of_nat (s - 1))%N) l -> 1 <= s -> rw_order n s l = true ->
  StronglySorted (lex e_idx e_step) l /\ (forall m1 x y m2, l = m1 ++ x :: y :: m2 -> e_op y = false -> e_idx x = e_idx y /\ e_val x = e_val y).
Proof.
  intros F1 F2 Hs O. rewrite rw_order_spec in O. split; [|intros; now apply (O m1 x y m2)].
  apply Sorted_StronglySorted; [intros a b c H1 H2; unfold lex in *; lia|].
  induction l as [|x l IH]; [constructor|]. inversion F1 as [|? ? Fx Fl]; subst. inversion F2 as [|? ? Sx Sl]; subst.
  constructor; [apply IH; [exact Fl|exact Sl|]; intros m1 a b m2 E; apply (O (x :: m1) a b m2); cbn; now rewrite E|].
  destruct l as [|y l]; constructor. inversion Fl as [|? ? Fy _]; subst. inversion Sl as [|? ? Sy _]; subst. destruct (O [] x y l eq_refl) as [[G|[G1 G2]] _].
  - left. rewrite ilt_spec in G by (apply Fx || apply Fy). now apply N.ltb_lt.
  - right. split; [exact G1|]. replace s with (s - 1 + 1) in G2 by lia. rewrite ilt_spec in G2 by assumption. now apply N.ltb_lt.
Qed.
Lemma rw_sound_entries n s v L l : log_fits n s v L -> timed e_step L -> Forall (rw_fits n s v) l -> rw_order n s l = true ->
  Permutation (map (rw_word n s v) l) (map (rw_word n s v) L) -> glatest e_idx e_op e_val L.
Proof.
  intros [FL [SL Hs]] T Fl O P. apply (perm_map_inj (rw_word n s v) (rw_fits n s v)) in P; [|intros; now apply (rw_word_inj n s v)|exact Fl|exact FL].
  destruct (rw_sorted_lex n s v l Fl) as [S H]; [apply (Permutation_Forall (Permutation_sym P)); exact SL|exact Hs|exact O|].
  apply (order_sound e_idx e_step e_op e_val L l T P S). intros m1 x y m2 E _ Oy. now apply (H m1 x y m2).
Qed.
Lemma rw_word_lex n s v a b : rw_fits n s v a -> rw_fits n s v b -> (rw_word n s v a <= rw_word n s v b)%N ->
  (e_idx a < e_idx b)%N \/ e_idx a = e_idx b /\ (e_step a <= e_step b)%N.
Proof.
  intros (H1 & H2 & H3) (H4 & H5 & H6) L. unfold rw_word in L.
  rewrite (N.mod_small (e_idx a)), (N.mod_small (e_idx b)), (N.mod_small (e_step a)), (N.mod_small (e_step b)), (N.mod_small (e_val a)), (N.mod_small (e_val b)) in L by assumption.
  apply split_le in L; [|assumption..].
  assert (L' : (N.b2n (e_op a) + 2 * (e_step a + 2 ^ N.of_nat s * e_idx a) <= N.b2n (e_op b) + 2 * (e_step b + 2 ^ N.of_nat s * e_idx b))%N) by lia.
  apply split_le in L'; [|destruct (e_op a); reflexivity|destruct (e_op b); reflexivity].
  assert (L2 : (e_step a + 2 ^ N.of_nat s * e_idx a <= e_step b + 2 ^ N.of_nat s * e_idx b)%N) by lia.
  apply split_le in L2; [|assumption..]. lia.
Qed.
Lemma timed_NoDup (L : list entry) : timed e_step L -> NoDup L.
Proof.
  induction 1 as [|x L S IH F]; constructor; [|exact IH]. intro H. rewrite Forall_forall in F. specialize (F x H). lia.
Qed.
Lemma word_sorted_lex n s v L l : log_fits n s v L -> timed e_step L -> Permutation l L -> Sorted N.le (map (rw_word n s v) l) -> StronglySorted (lex e_idx e_step) l.
Proof.
  intros [FL _] T P S. apply SS_le_map in S. revert S. apply SS_strict.
  - apply (Permutation_NoDup (Permutation_sym P)). now apply timed_NoDup.
  - intros a b Ha Hb Hne Hle. apply (Permutation_in _ P) in Ha, Hb. rewrite Forall_forall in FL. apply rw_word_lex in Hle; [|now apply FL..].
    destruct Hle as [H|[H1 H2]]; [now left|right]. split; [exact H1|]. destruct (N.eq_dec (e_step a) (e_step b)) as [e|ne]; [|lia].
    exfalso. apply Hne. exact (timed_inj e_idx e_step e_op e_val L a b T Ha Hb e).
Qed.
Lemma lex_order n s v l : Forall (rw_fits n s v) l -> Forall (fun e => (e_step e < 2 ^ N.of_nat (s - 1))%N) l -> 1 <= s -> StronglySorted (lex e_idx e_step) l ->
  (forall m1 a b m2, l = m1 ++ a :: b :: m2 -> e_op b = false -> e_idx a = e_idx b /\ e_val a = e_val b) -> rw_order n s l = true.
Proof.
  intros Fl Sl Hs S H. apply rw_order_spec. intros m1 a b m2 E. split; [|now apply (H m1 a b m2)].
  assert (Ha : In a l) by (rewrite E; apply in_or_app; right; now left). assert (Hb : In b l) by (rewrite E; apply in_or_app; right; right; now left).
  rewrite Forall_forall in Fl, Sl. rewrite E in S. destruct (SS_split _ _ _ _ S) as [_ [B _]]. specialize (B b (or_introl eq_refl)).
  destruct B as [B|[B1 B2]]; [left; rewrite ilt_spec by (now apply Fl); now apply N.ltb_lt|right]. split; [exact B1|].
  replace s with (s - 1 + 1) by lia. rewrite ilt_spec by (now apply Sl). now apply N.ltb_lt.
Qed.
Lemma rw_honest_entries n s v L l : log_fits n s v L -> timed e_step L -> glatest e_idx e_op e_val L -> gfirst e_idx e_op e_val L -> Permutation l L ->
  Sorted N.le (map (rw_word n s v) l) -> rw_order n s l = true.
Proof.
  intros HF T HL H1 P S. pose proof (word_sorted_lex n s v L l HF T P S) as SL. destruct HF as [FL [SS Hs]].
  apply (lex_order n s v); [apply (Permutation_Forall (Permutation_sym P)); exact FL|apply (Permutation_Forall (Permutation_sym P)); exact SS|exact Hs|exact SL|].
  exact (order_complete e_idx e_step e_op e_val L l T P SL HL H1).
Qed.
(** an address that is read before it was written, after a smaller address was used, is always reported *)
Lemma rw_unwritten_entries n s v L l pre x post p : log_fits n s v L -> timed e_step L -> L = pre ++ x :: post -> e_op x = false ->
  glw e_idx e_op e_val pre (e_idx x) = None -> In p L -> (e_idx p < e_idx x)%N ->
  Forall (rw_fits n s v) l -> Permutation (map (rw_word n s v) l) (map (rw_word n s v) L) -> rw_order n s l = false.
Proof.
  intros [FL [SL Hs]] T EL Ox G Hp Lp Fl P. apply (perm_map_inj (rw_word n s v) (rw_fits n s v)) in P; [|intros; now apply (rw_word_inj n s v)|exact Fl|exact FL].
  destruct (rw_order n s l) eqn:O; [|reflexivity]. exfalso.
  destruct (rw_sorted_lex n s v l Fl) as [S H]; [apply (Permutation_Forall (Permutation_sym P)); exact SL|exact Hs|exact O|].
  assert (Hx : In x L) by (rewrite EL; apply in_or_app; right; now left).
  destruct (first_access e_idx e_step e_op e_val L l x p T P S Hx Hp Lp) as (m1 & a & b & m2 & El & Ib & Ia & Sb).
  assert (Hb : In b L) by (apply (Permutation_in _ P); rewrite El; apply in_or_app; right; right; now left).
  assert (Ob : e_op b = false).
  { destruct (N.eq_dec (e_step b) (e_step x)) as [e|ne]; [now rewrite (timed_inj e_idx e_step e_op e_val L b x T Hb Hx e)|].
    rewrite EL in Hb, T. destruct (SS_split _ _ _ _ T) as [A1 [A2 _]]. apply in_app_or in Hb. destruct Hb as [Hb|[Hb|Hb]]; [|subst; congruence|specialize (A2 b Hb); lia].
    destruct (e_op b) eqn:O'; [|reflexivity]. exfalso. clear -G Hb Ib O'. induction pre as [|y pre IH]; [destruct Hb|]. cbn [glw] in G.
    destruct (glw e_idx e_op e_val pre (e_idx x)) eqn:G'; [discriminate|]. destruct Hb as [->|Hb]; [|now apply IH]. rewrite O', Ib, N.eqb_refl in G. discriminate. }
  destruct (H m1 a b m2 El Ob) as [Hi _]. lia.
Qed.
Definition etop (n : nat) (e : entry) : entry := {| e_idx := e_idx e + 2 ^ N.of_nat n; e_step := e_step e; e_op := e_op e; e_val := e_val e |}%N.
Lemma etop_word n s v e : (e_idx e < 2 ^ N.of_nat n)%N -> rw_word n s v (etop n e) = rw_word n s v e.
Proof.
  intro H. unfold rw_word, etop. cbn [e_idx e_step e_op e_val]. now rewrite add_pow_mod.
Qed.
(** one read of a written address may return anything *)
Lemma rw_forged_entries n s v L1 x L2 : log_fits n s v (L1 ++ x :: L2) -> timed e_step (L1 ++ x :: L2) ->
  glatest e_idx e_op e_val (L1 ++ L2) -> gfirst e_idx e_op e_val (L1 ++ L2) -> glw e_idx e_op e_val L1 (e_idx x) <> None ->
  exists l, rw_order n s l = true /\ Permutation (map (rw_word n s v) l) (map (rw_word n s v) (L1 ++ x :: L2)) /\
    Forall (fun e => (e_idx e < 2 ^ N.of_nat (n + 1))%N /\ (e_step e < 2 ^ N.of_nat s)%N /\ (e_val e < 2 ^ N.of_nat v)%N) l.
Proof.
  intros [FL [SL Hs]] T HL H1 Hw. set (L := L1 ++ L2) in *.
  assert (FxL : rw_fits n s v x /\ Forall (rw_fits n s v) L).
  { apply Forall_app in FL. destruct FL as [F1 F2]. inversion F2; subst. split; [assumption|]. now apply Forall_app. }
  destruct FxL as [Fx FL'].
  assert (SL' : Forall (fun e => (e_step e < 2 ^ N.of_nat (s - 1))%N) L).
  { apply Forall_app in SL. destruct SL as [F1 F2]. inversion F2; subst. now apply Forall_app. }
  assert (T' : timed e_step L).
  { clear -T. unfold L, timed in *. induction L1 as [|y L1 IH]; cbn in *; apply StronglySorted_inv in T; destruct T as [T F]; [exact T|].
    constructor; [now apply IH|]. apply Forall_app in F. destruct F as [Fa Fb]. inversion Fb; subst. now apply Forall_app. }
  set (l := isort (rw_word n s v) L). assert (P : Permutation l L) by apply isort_perm.
  assert (S : Sorted N.le (map (rw_word n s v) l)) by (apply StronglySorted_Sorted, (SS_map (rw_word n s v) N.le), isort_sorted).
  assert (HF : log_fits n s v L) by (split; [exact FL'|split; [exact SL'|exact Hs]]).
  pose proof (rw_honest_entries n s v L l HF T' HL H1 P S) as O. pose proof (word_sorted_lex n s v L l HF T' P S) as Sx.
  exists (etop n x :: l). split; [|split].
  - apply rw_order_spec. intros m1 a b m2 E. destruct m1 as [|z m1]; [|cbn in E; injection E as _ E; rewrite rw_order_spec in O; exact (O _ _ _ _ E)].
    cbn [app] in E. injection E as <- El. cbn [etop e_idx].
    rewrite El in Sx, P. destruct (SS_split _ [] _ _ Sx) as [_ [B _]].
    assert (Low : forall e, In e L -> e = b \/ lex e_idx e_step b e).
    { intros e He. apply (Permutation_in _ (Permutation_sym P)) in He. destruct He as [He|He]; [now left|right; now apply B]. }
    assert (Inb : In b L) by (apply (Permutation_in _ P); now left).
    split.
    + left. unfold ilt. rewrite igeq_top; [reflexivity| |apply Fx].
      destruct (glw e_idx e_op e_val L1 (e_idx x)) as [w|] eqn:G; [|contradiction]. apply glw_some in G. destruct G as (k1 & y & k2 & Ek & _ & Iy & _).
      assert (Hy : In y L) by (unfold L; rewrite Ek, <- app_assoc; apply in_or_app; right; now left).
      destruct (Low y Hy) as [->|Ly]; [lia|]. unfold lex in Ly. lia.
    + intro Ob. exfalso. destruct (in_split _ _ Inb) as [q1 [q2 Eq]]. destruct (glw e_idx e_op e_val q1 (e_idx b)) as [w|] eqn:G; [|exact (H1 _ _ _ Eq Ob G)].
      apply glw_some in G. destruct G as (k1 & y & k2 & Ek & _ & Iy & _).
      assert (Hyq : In y q1) by (rewrite Ek; apply in_or_app; right; now left).
      assert (Hy : In y L) by (rewrite Eq; apply in_or_app; now left).
      unfold timed in T'. rewrite Eq in T'. destruct (SS_split _ _ _ _ T') as [A _]. specialize (A y Hyq).
      destruct (Low y Hy) as [->|Ly]; [lia|]. unfold lex in Ly. lia.
  - cbn [map]. rewrite etop_word by apply Fx. rewrite map_app. cbn [map]. apply Permutation_cons_app. rewrite <- map_app. now apply Permutation_map.
  - constructor.
    + cbn [etop e_idx e_step e_val]. destruct Fx as (? & ? & ?). rewrite pow_S. repeat split; [lia|assumption..].
    + apply (Permutation_Forall (Permutation_sym P)). eapply Forall_impl; [|exact FL']. intros e (? & ? & ?). rewrite pow_S. repeat split; [lia|assumption..].
Qed.

(** * Wide memory *)
Lemma wlog_wide n s nw L : wlog_fits n s nw L -> Forall wide_fits L.
Proof.
  intros (Hn & Hs & F). eapply Forall_impl; [|exact F]. intros e (H1 & H2 & H3 & H4 & _). repeat split; auto.
  - eapply N.lt_le_trans; [exact H1|]. apply N.pow_le_mono_r; lia.
  - eapply N.lt_le_trans; [exact H2|]. apply N.pow_le_mono_r; lia.
Qed.
Lemma wide_word_lex a b : wide_fits a -> wide_fits b -> (hd 0 (wide_row a) <= hd 0 (wide_row b))%N ->
  (w_idx a < w_idx b)%N \/ w_idx a = w_idx b /\ (w_step a <= w_step b)%N.
Proof.
  intros (H1 & H2 & H3 & H4) (H5 & H6 & H7 & H8) L. unfold wide_row in L. destruct (w_val a) as [|va ra]; [contradiction|]. destruct (w_val b) as [|vb rb]; [contradiction|].
  cbn [hd] in L. inversion H3; subst. inversion H7; subst. apply split_le in L; [|assumption..].
  assert (L' : (N.b2n (w_op a) + 2 * (w_step a + 2 ^ 31 * w_idx a) <= N.b2n (w_op b) + 2 * (w_step b + 2 ^ 31 * w_idx b))%N) by lia.
  apply split_le in L'; [|destruct (w_op a); reflexivity|destruct (w_op b); reflexivity].
  assert (L2 : (w_step a + 2 ^ 31 * w_idx a <= w_step b + 2 ^ 31 * w_idx b)%N) by lia.
  apply split_le in L2; [|assumption..]. lia.
Qed.
Lemma wtimed_NoDup (L : list wentry) : timed w_step L -> NoDup L.
Proof.
  induction 1 as [|x L S IH F]; constructor; [|exact IH]. intro H. rewrite Forall_forall in F. specialize (F x H). lia.
Qed.
Lemma wide_honest_entries n s nw L l : wlog_fits n s nw L -> timed w_step L -> glatest w_idx w_op w_val L -> gfirst w_idx w_op w_val L -> Permutation l L ->
  Sorted N.le (map (fun e => hd 0%N (wide_row e)) l) -> ext_order s l = true.
Proof.
  intros HF T HL H1 P S. pose proof (wlog_wide n s nw L HF) as FW. destruct HF as (Hn & Hs & FL).
  assert (Sx : StronglySorted (lex w_idx w_step) l).
  { apply SS_le_map in S. revert S. apply SS_strict; [apply (Permutation_NoDup (Permutation_sym P)); now apply wtimed_NoDup|].
    intros a b Ha Hb Hne Hle. apply (Permutation_in _ P) in Ha, Hb. rewrite Forall_forall in FW. apply wide_word_lex in Hle; [|now apply FW..].
    destruct Hle as [H|[G1 G2]]; [now left|right]. split; [exact G1|]. destruct (N.eq_dec (w_step a) (w_step b)) as [e|ne]; [|lia].
    exfalso. apply Hne. exact (timed_inj w_idx w_step w_op w_val L a b T Ha Hb e). }
  apply ext_order_spec. intros m1 a b m2 E Ei. split.
  - assert (Ha : In a L) by (apply (Permutation_in _ P); rewrite E; apply in_or_app; right; now left).
    assert (Hb : In b L) by (apply (Permutation_in _ P); rewrite E; apply in_or_app; right; right; now left).
    rewrite E in Sx. destruct (SS_split _ _ _ _ Sx) as [_ [B _]]. specialize (B b (or_introl eq_refl)).
    rewrite Forall_forall in FL. replace s with (s - 1 + 1) by lia. rewrite ilt_spec by (now apply FL). apply N.ltb_lt. unfold lex in B. lia.
  - intro Ob. exact (proj2 (order_complete w_idx w_step w_op w_val L l T P Sx HL H1 m1 a b m2 E Ob)).
Qed.
Lemma wide_grouped_entries n s nw L l : wlog_fits n s nw L -> timed w_step L ->
  Forall wide_fits l -> Forall (fun e => length (w_val e) = nw) l -> Permutation (map wide_row l) (map wide_row L) ->
  StronglySorted (fun a b => (w_idx a <= w_idx b)%N) l -> ext_order s l = true -> glatest w_idx w_op w_val L.
Proof.
  intros HF T Fl Fn P Sg O. pose proof (wlog_wide n s nw L HF) as FW. destruct HF as (Hn & Hs & FL).
  apply (perm_map_inj wide_row (fun e => wide_fits e /\ length (w_val e) = nw)) in P.
  - assert (Sl : Forall (fun e => (w_step e < 2 ^ N.of_nat (s - 1))%N) l) by (apply (Permutation_Forall (Permutation_sym P)); eapply Forall_impl; [|exact FL]; intros e He; apply He).
    rewrite ext_order_spec in O.
    assert (Sx : StronglySorted (lex w_idx w_step) l).
    { apply Sorted_StronglySorted; [intros a b c H1 H2; unfold lex in *; lia|]. clear P Fl Fn. induction l as [|x l IH]; [constructor|].
      inversion Sl as [|? ? Sx Sl']; subst. apply StronglySorted_inv in Sg. destruct Sg as [Sg Fx].
      constructor; [apply IH; [exact Sg|intros m1 a b m2 E; apply (O (x :: m1) a b m2); cbn; now rewrite E|exact Sl']|]. destruct l as [|y l]; constructor.
      inversion Fx as [|? ? Lxy _]; subst. inversion Sl' as [|? ? Sy _]; subst. destruct (N.eq_dec (w_idx x) (w_idx y)) as [e|ne]; [right|left; lia]. split; [exact e|].
      destruct (O [] x y l eq_refl e) as [G _]. replace s with (s - 1 + 1) in G by lia. rewrite ilt_spec in G by assumption. now apply N.ltb_lt. }
    apply (order_sound w_idx w_step w_op w_val L l T P Sx). intros m1 x y m2 E Ei Oy. exact (proj2 (O m1 x y m2 E Ei) Oy).
  - intros a b [A1 A2] [B1 B2]. apply wide_row_inj; auto; congruence.
  - rewrite Forall_forall in *. intros e He. split; [now apply Fl|now apply Fn].
  - rewrite Forall_forall in *. intros e He. split; [now apply FW|apply FL, He].
Qed.
Lemma ext_order_alternating s l : (forall m1 a b m2, l = m1 ++ a :: b :: m2 -> w_idx a <> w_idx b) -> ext_order s l = true.
Proof. intro H. apply ext_order_spec. intros m1 a b m2 E Ei. destruct (H _ _ _ _ E Ei). Qed.
