(** Interleavings of programs with separate footprints. *)
From Coq Require Import NArith List Bool Arith Lia.
From Verif Require Import Word BoolModel ThreadModel ThreadSpec.
Import ListNotations.

Lemma arr_eqb_spec a b : reflect (a = b) (arr_eqb a b).
Proof. destruct a, b; cbn; constructor; congruence. Qed.
Lemma loc_eqb_spec a b : reflect (a = b) (loc_eqb a b).
Proof.
  destruct a as [a i], b as [b j]. unfold loc_eqb. cbn [fst snd].
  destruct (arr_eqb_spec a b), (Nat.eqb_spec i j); cbn; constructor; congruence.
Qed.
Lemma put_same m l v : put m l v l = v.
Proof. unfold put. destruct (loc_eqb_spec l l); congruence. Qed.
Lemma put_other m l v x : x <> l -> put m l v x = m x.
Proof. unfold put. destruct (loc_eqb_spec x l); congruence. Qed.
Lemma put_ext m m' l v : (forall x, m x = m' x) -> forall x, put m l v x = put m' l v x.
Proof. intros H x. unfold put. destruct (loc_eqb x l); auto. Qed.
Lemma run_ext p : forall m m', (forall x, m x = m' x) -> forall x, run m p x = run m' p x.
Proof.
  induction p as [|l k IH|l v k IH]; intros m m' H x; cbn [run]; [apply H| |].
  - rewrite (H l). apply IH, H.
  - apply IH. now apply put_ext.
Qed.
Lemma run_all_ext ps : forall m m', (forall x, m x = m' x) -> forall x, run_all m ps x = run_all m' ps x.
Proof. unfold run_all. induction ps as [|p ps IH]; intros m m' H x; cbn [fold_left]; [apply H|]. apply IH. now apply run_ext. Qed.

(** footprints *)
Fixpoint within (R W : loc -> Prop) (p : prog) : Prop :=
  match p with
  | Done => True
  | Read l k => R l /\ forall v, within R W (k v)
  | Write l v k => W l /\ within R W k
  end.
Lemma run_out R W p : forall m l, within R W p -> ~ W l -> run m p l = m l.
Proof.
  induction p as [|l' k IH|l' v k IH]; intros m l H N; cbn [run within] in *; [reflexivity| |].
  - destruct H as [_ H]. now apply IH.
  - destruct H as [H1 H2]. rewrite IH by assumption. apply put_other. intros ->. contradiction.
Qed.
Lemma put_put m l v l' v' x : l <> l' -> put (put m l v) l' v' x = put (put m l' v') l v x.
Proof. intro N. unfold put. destruct (loc_eqb_spec x l'), (loc_eqb_spec x l); congruence. Qed.
Lemma run_put R W p : forall m l v x, within R W p -> ~ R l -> ~ W l -> run (put m l v) p x = put (run m p) l v x.
Proof.
  induction p as [|l' k IH|l' v' k IH]; intros m l v x H NR NW; cbn [run within] in *; [reflexivity| |].
  - destruct H as [H1 H2]. rewrite put_other by (intros ->; contradiction). now apply IH.
  - destruct H as [H1 H2]. rewrite <- IH by assumption. apply run_ext. intro y. apply put_put. intros ->. contradiction.
Qed.
Lemma run_agree R W p : forall m m', within R W p -> (forall l, R l \/ W l -> m l = m' l) -> forall l, W l -> run m p l = run m' p l.
Proof.
  induction p as [|l' k IH|l' v k IH]; intros m m' H E l Hl; cbn [run within] in *; [auto| |].
  - destruct H as [H1 H2]. rewrite (E l') by auto. now apply IH.
  - destruct H as [H1 H2]. apply IH; auto. intros x Hx. unfold put. destruct (loc_eqb x l'); auto.
Qed.
Definition fpr : Type := ((loc -> Prop) * (loc -> Prop))%type.
Definition fits (f : fpr) (p : prog) : Prop := within (fst f) (snd f) p.
Definition apart (f g : fpr) : Prop := forall l, snd f l -> ~ fst g l /\ ~ snd g l.
Definition separate (fs : list fpr) : Prop :=
  forall i j f g, i <> j -> nth_error fs i = Some f -> nth_error fs j = Some g -> apart f g.
Lemma separate_mid fa f fb : separate (fa ++ f :: fb) -> forall g, In g fa \/ In g fb -> apart f g /\ apart g f.
Proof.
  intros H g [Hg|Hg]; apply In_nth_error in Hg; destruct Hg as [i Hi].
  - assert (L : i < length fa) by (apply nth_error_Some; congruence).
    assert (E : nth_error (fa ++ f :: fb) i = Some g) by (now rewrite nth_error_app1).
    assert (E' : nth_error (fa ++ f :: fb) (length fa) = Some f) by (rewrite nth_error_app2, Nat.sub_diag by lia; reflexivity).
    split; [apply (H (length fa) i)|apply (H i (length fa))]; auto; lia.
  - assert (E : nth_error (fa ++ f :: fb) (length fa + S i) = Some g) by (rewrite nth_error_app2 by lia; now replace (length fa + S i - length fa) with (S i) by lia).
    assert (E' : nth_error (fa ++ f :: fb) (length fa) = Some f) by (rewrite nth_error_app2, Nat.sub_diag by lia; reflexivity).
    split; [apply (H (length fa) (length fa + S i))|apply (H (length fa + S i) (length fa))]; auto; lia.
Qed.
Lemma run_all_put fs ps l v : Forall2 fits fs ps -> (forall f, In f fs -> ~ fst f l /\ ~ snd f l) ->
  forall m x, run_all (put m l v) ps x = put (run_all m ps) l v x.
Proof.
  unfold run_all. induction 1 as [|f p fs ps Hf HF IH]; intros N m x; cbn [fold_left]; [reflexivity|].
  rewrite <- IH by (intros; apply N; now right). destruct (N f (or_introl eq_refl)) as [N1 N2].
  apply (run_all_ext ps). intro y. now apply (run_put (fst f) (snd f)).
Qed.
Lemma run_all_out fs ps l : Forall2 fits fs ps -> (forall f, In f fs -> ~ snd f l) -> forall m, run_all m ps l = m l.
Proof.
  unfold run_all. induction 1 as [|f p fs ps Hf HF IH]; intros N m; cbn [fold_left]; [reflexivity|].
  rewrite IH by (intros; apply N; now right). apply (run_out (fst f) (snd f)); auto. apply N. now left.
Qed.
Lemma run_all_app m a b : run_all m (a ++ b) = run_all (run_all m a) b.
Proof. unfold run_all. apply fold_left_app. Qed.
Lemma run_all_cons m p b : run_all m (p :: b) = run_all (run m p) b. Proof. reflexivity. Qed.

Lemma step_keeps fs m ps m' ps' : separate fs -> Forall2 fits fs ps -> step (m, ps) (m', ps') ->
  Forall2 fits fs ps' /\ forall x, run_all m' ps' x = run_all m ps x.
Proof.
  intros S F H. inversion H as [m0 a l k b E1 E2|m0 a l v k b E1 E2]; subst.
  - destruct (Forall2_app_inv_r _ _ F) as (fa & fb' & Fa & Fb & ->). inversion Fb as [|f p0 fb b0 Hf Fb' E1 E2]; subst. destruct Hf as [Hl Hk].
    split. { apply Forall2_app; [exact Fa|]. constructor; [apply Hk|exact Fb']. }
    intro x. rewrite !run_all_app, !run_all_cons. cbn [run]. rewrite (run_all_out fa a l Fa); [reflexivity|].
    intros g Hg Hw. destruct (separate_mid fa f fb S g (or_introl Hg)) as [_ A]. now apply A in Hw.
  - destruct (Forall2_app_inv_r _ _ F) as (fa & fb' & Fa & Fb & ->). inversion Fb as [|f p0 fb b0 Hf Fb' E1 E2]; subst. destruct Hf as [Hl Hk].
    split. { apply Forall2_app; [exact Fa|]. constructor; [apply Hk|exact Fb']. }
    intro x. rewrite !run_all_app, !run_all_cons. cbn [run]. apply run_all_ext. apply run_ext. intro y.
    apply (run_all_put fa a l v Fa). intros g Hg. destruct (separate_mid fa f fb S g (or_introl Hg)) as [A _]. now apply A.
Qed.
Lemma steps_keep fs n : separate fs -> forall m ps m' ps', Forall2 fits fs ps -> steps n (m, ps) (m', ps') ->
  Forall2 fits fs ps' /\ forall x, run_all m' ps' x = run_all m ps x.
Proof.
  intro S. induction n as [|n IH]; intros m ps m' ps' F H; inversion H as [c|n0 c c1 c2 H1 H2]; subst; [auto|].
  destruct c1 as [m1 ps1]. destruct (step_keeps fs _ _ _ _ S F H1) as [F1 E1]. destruct (IH _ _ _ _ F1 H2) as [F2 E2].
  split; [exact F2|]. intro x. now rewrite E2.
Qed.
Lemma done_run ps : all_done ps -> forall m x, run_all m ps x = m x.
Proof. unfold run_all. induction 1 as [|p ps -> H IH]; intros m x; cbn [fold_left run]; auto. Qed.
Lemma no_race fs ps : separate fs -> Forall2 fits fs ps -> ~ race ps.
Proof.
  intros S F (i & j & p & q & l & w & w' & N & Hp & Hq & Np & Nq & O).
  assert (G : forall i p, nth_error ps i = Some p -> exists f, nth_error fs i = Some f /\ fits f p).
  { clear -F. induction F as [|f p fs ps Hf F IH]; intros [|i] q H; cbn in *; try discriminate; [injection H as <-; eauto|]. now apply IH. }
  destruct (G i p Hp) as [f [Ef Ff]]. destruct (G j q Hq) as [g [Eg Fg]].
  assert (U : forall f p l w, fits f p -> next p = Some (l, w) -> if w then snd f l else fst f l).
  { clear. intros f p l w H E. unfold fits in H. destruct p; cbn in *; try discriminate; injection E as <- <-; tauto. }
  apply (U f) in Np; [|exact Ff]. apply (U g) in Nq; [|exact Fg].
  pose proof (S i j f g N Ef Eg l) as A. pose proof (S j i g f ltac:(lia) Eg Ef l) as B.
  destruct w; [destruct w'; tauto|]. destruct w'; [tauto|discriminate].
Qed.
(** number of accesses *)
Fixpoint accesses (n : nat) (p : prog) {struct p} : Prop :=
  match p with
  | Done => n = 0
  | Read l k => match n with 0 => False | S n' => forall v, accesses n' (k v) end
  | Write l v k => match n with 0 => False | S n' => accesses n' k end
  end.
Definition total (ns : list nat) : nat := fold_right Nat.add 0 ns.
Lemma total_app a b : total (a ++ b) = total a + total b.
Proof. unfold total. induction a; cbn [fold_right app]; lia. Qed.
Lemma step_total ns m ps m' ps' : Forall2 accesses ns ps -> step (m, ps) (m', ps') ->
  exists ns', Forall2 accesses ns' ps' /\ total ns = S (total ns').
Proof.
  intros F H. inversion H as [m0 a l k b E1 E2|m0 a l v k b E1 E2]; subst;
    destruct (Forall2_app_inv_r _ _ F) as (na & nb' & Fa & Fb & ->); inversion Fb as [|n p0 nb b0 Hn Fb' E1 E2]; subst;
    destruct n as [|n]; cbn [accesses] in Hn; try contradiction; exists (na ++ n :: nb); (split; [apply Forall2_app; [exact Fa|constructor; [apply Hn|exact Fb']]|]);
    rewrite !total_app; cbn [total fold_right]; lia.
Qed.
Lemma steps_total n : forall ns m ps m' ps', Forall2 accesses ns ps -> steps n (m, ps) (m', ps') ->
  exists ns', Forall2 accesses ns' ps' /\ total ns = n + total ns'.
Proof.
  induction n as [|n IH]; intros ns m ps m' ps' F H; inversion H as [c|n0 c c1 c2 H1 H2]; subst; [exists ns; auto|].
  destruct c1 as [m1 ps1]. destruct (step_total _ _ _ _ _ F H1) as [n1 [F1 E1]]. destruct (IH _ _ _ _ _ F1 H2) as [n2 [F2 E2]].
  exists n2. split; [exact F2|]. lia.
Qed.
Lemma total_done ns ps : Forall2 accesses ns ps -> (total ns = 0 <-> all_done ps).
Proof.
  unfold all_done. induction 1 as [|n p ns ps Hn F IH]; cbn [total fold_right]; [split; auto|]. fold (total ns). split.
  - intro H. constructor; [|apply IH; lia]. destruct p; cbn in Hn; auto; destruct n; try contradiction; lia.
  - intro H. inversion H as [|p0 ps0 Hp Hps E1]; subst. cbn in Hn. subst n. apply IH in Hps. lia.
Qed.
Lemma can_step ns m ps : Forall2 accesses ns ps -> 0 < total ns -> exists c, step (m, ps) c.
Proof.
  intros F T. assert (N : ~ all_done ps) by (rewrite <- (total_done ns ps F); lia).
  assert (X : exists p, In p ps /\ p <> Done).
  { clear -N. induction ps as [|p ps IH]; [exfalso; apply N; constructor|]. destruct p as [|l k|l v k].
    - destruct IH as [p [Hp Np]]; [intro H; apply N; constructor; auto|]. exists p. split; [now right|auto].
    - eexists. split; [now left|discriminate].
    - eexists. split; [now left|discriminate]. }
  destruct X as [p [Hp Np]]. apply in_split in Hp. destruct Hp as (a & b & ->).
  destruct p as [|l k|l v k]; [contradiction| |]; eexists; constructor.
Qed.
Theorem interleave fs ns m ps : separate fs -> Forall2 fits fs ps -> Forall2 accesses ns ps ->
  schedule_independent m ps (fun m' => forall x, m' x = run_all m ps x).
Proof.
  intros S F A. constructor.
  - intros n m' ps' H. destruct (steps_keep fs n S _ _ _ _ F H) as [F' _]. now apply (no_race fs).
  - exists (total ns). intros n m' ps' H. destruct (steps_total _ _ _ _ _ _ A H) as [ns' [A' E]].
    split; [lia|]. split; [rewrite <- (total_done ns' ps' A'); lia|]. intro L. apply (can_step ns'); auto. lia.
  - intros n m' ps' H D x. destruct (steps_keep fs n S _ _ _ _ F H) as [_ E]. rewrite <- E. symmetry. now apply done_run.
Qed.
Lemma weaken m ps (Q Q' : smem -> Prop) : (forall m', Q m' -> Q' m') -> schedule_independent m ps Q -> schedule_independent m ps Q'.
Proof. intros H [A B C]. constructor; auto. intros. eapply H, C; eauto. Qed.
Lemma F2_length {A B} (P : A -> B -> Prop) a b : Forall2 P a b -> length a = length b.
Proof. induction 1; cbn; congruence. Qed.
(** the part of a thread in the joint result *)
Lemma run_all_part fs ps : separate fs -> Forall2 fits fs ps -> forall m i f p l, nth_error fs i = Some f -> nth_error ps i = Some p ->
  snd f l -> run_all m ps l = run m p l.
Proof.
  intros S F m i f p l Ef Ep Hl.
  destruct (nth_error_split _ _ Ep) as (a & b & -> & La). destruct (Forall2_app_inv_r _ _ F) as (fa & fb' & Fa & Fb & ->).
  inversion Fb as [|g p0 fb b0 Hf Fb' E1 E2]; subst. assert (Lf : length fa = length a) by (exact (F2_length _ _ _ Fa)).
  rewrite nth_error_app2 in Ef by lia. rewrite Lf, Nat.sub_diag in Ef. cbn in Ef. injection Ef as ->.
  rewrite run_all_app, run_all_cons. rewrite (run_all_out fb b l Fb').
  - apply (run_agree (fst f) (snd f)); auto. intros y Hy. apply (run_all_out fa a y Fa).
    intros g Hg Hw. destruct (separate_mid fa f fb S g (or_introl Hg)) as [_ A]. apply A in Hw. tauto.
  - intros g Hg. destruct (separate_mid fa f fb S g (or_intror Hg)) as [A _]. now apply A.
Qed.
