(** Counting over tuples. *)
From Coq Require Import List Bool Arith Lia.
From Verif Require Import GameSpec.
Import ListNotations.

Section Sums.
  Context {A : Type}.
  Fixpoint sumf (f : A -> nat) (l : list A) : nat := match l with [] => 0 | x :: l' => f x + sumf f l' end.
  Lemma sumf_le f g l : (forall x, In x l -> f x <= g x) -> sumf f l <= sumf g l.
  Proof. induction l as [|x l IH]; intros H; cbn; [lia|]. specialize (H x (or_introl eq_refl)) as Hx.
    assert (sumf f l <= sumf g l) by (apply IH; intros; apply H; now right). lia. Qed.
  Lemma sumf_const k l : sumf (fun _ => k) l = length l * k.
  Proof. induction l as [|x l IH]; cbn; [easy|]. rewrite IH. lia. Qed.
  Lemma sumf_plus f g l : sumf (fun x => f x + g x) l = sumf f l + sumf g l.
  Proof. induction l as [|x l IH]; cbn; [easy|]. rewrite IH. lia. Qed.
  Lemma cnt_sum P l : cnt P l = sumf (fun x : A => if P x then 1 else 0) l.
  Proof. unfold cnt. induction l as [|x l IH]; cbn; [easy|]. destruct (P x); cbn; rewrite IH; lia. Qed.
  Lemma cnt_le P (l : list A) : cnt P l <= length l.
  Proof. unfold cnt. induction l as [|x l IH]; cbn; [easy|]. destruct (P x); cbn; lia. Qed.
  Lemma cnt_mono P Q (l : list A) : (forall x, In x l -> P x = true -> Q x = true) -> cnt P l <= cnt Q l.
  Proof. intros H. rewrite !cnt_sum. apply sumf_le. intros x Hx. specialize (H x Hx).
    destruct (P x), (Q x); try (specialize (H eq_refl); discriminate); lia. Qed.
  Lemma cnt_app P (l m : list A) : cnt P (l ++ m) = cnt P l + cnt P m.
  Proof. unfold cnt. now rewrite filter_app, app_length. Qed.
End Sums.
Lemma sumf_swap {A B : Type} (f : A -> B -> nat) (l : list A) (m : list B) :
  sumf (fun x => sumf (f x) m) l = sumf (fun y => sumf (fun x => f x y) l) m.
Proof. induction l as [|x l IH]; cbn [sumf].
  - symmetry. clear. induction m as [|y m IH]; cbn; [easy|exact IH].
  - rewrite IH, <- sumf_plus. reflexivity. Qed.
Lemma cnt_map {A B : Type} (g : A -> B) P l : cnt P (map g l) = cnt (fun x => P (g x)) l.
Proof. rewrite !cnt_sum. induction l as [|x l IH]; cbn; [easy|]. now rewrite IH. Qed.
Lemma cnt_flat_map {A B : Type} (g : A -> list B) P l : cnt P (flat_map g l) = sumf (fun x => cnt P (g x)) l.
Proof. induction l as [|x l IH]; cbn [flat_map sumf]; [easy|]. rewrite cnt_app, IH. reflexivity. Qed.
Lemma cnt_prod {A B : Type} (P : A -> B -> bool) l m :
  cnt (fun p => P (fst p) (snd p)) (list_prod l m) = sumf (fun x => cnt (P x) m) l.
Proof. induction l as [|x l IH]; cbn [list_prod]; [easy|]. rewrite cnt_app, cnt_map, IH. reflexivity. Qed.

Section Tuples.
  Context {A : Type}.
  Variable l : list A.
  Lemma tuples_len n : length (tuples n l) = length l ^ n.
  Proof. induction n as [|n IH]; cbn [tuples Nat.pow]; [easy|].
    assert (forall m, length (flat_map (fun x => map (cons x) (tuples n l)) m) = length m * length l ^ n) as G.
    { induction m as [|x m IHm]; cbn; [easy|]. rewrite app_length, map_length, IHm, IH. lia. }
    now rewrite G. Qed.
  Lemma tuples_in n s : In s (tuples n l) -> length s = n /\ (forall x, In x s -> In x l).
  Proof. revert s. induction n as [|n IH]; intros s H; cbn in H.
    - destruct H as [<-|[]]. split; [easy|]. intros x [].
    - apply in_flat_map in H. destruct H as (x & Hx & H). apply in_map_iff in H. destruct H as (s' & <- & H).
      destruct (IH _ H) as [L I]. cbn. split; [lia|]. intros y [<-|Hy]; auto. Qed.
  Lemma in_tuples n s : length s = n -> (forall x, In x s -> In x l) -> In s (tuples n l).
  Proof. revert s. induction n as [|n IH]; intros [|x s] L I; cbn in L; try lia; [now left|].
    cbn. apply in_flat_map. exists x. split; [apply I; now left|]. apply in_map, IH; [lia|]. intros y Hy. apply I. now right. Qed.
  Lemma cnt_tuples P n : cnt P (tuples (S n) l) = sumf (fun x => cnt (fun s => P (x :: s)) (tuples n l)) l.
  Proof. cbn [tuples]. rewrite cnt_flat_map. generalize (tuples n l). intros T.
    induction l as [|x m IH]; cbn [sumf]; [easy|]. rewrite cnt_map. now rewrite IH. Qed.

  (** one coordinate decides, the others are arbitrary *)
  Lemma cnt_coordinate n k : forall (P : list A -> bool) b, k < n ->
    (forall l1 l2, length l1 = k -> length l2 = n - 1 - k -> cnt (fun x => P (l1 ++ x :: l2)) l <= b) ->
    cnt P (tuples n l) <= b * length l ^ (n - 1).
  Proof.
    revert n. induction k as [|k IH]; intros [|n] P b Hk H; try lia; rewrite cnt_tuples; replace (S n - 1) with n by lia.
    - rewrite (sumf_le _ (fun x => sumf (fun s => if P (x :: s) then 1 else 0) (tuples n l)))
        by (intros x _; now rewrite cnt_sum).
      rewrite (sumf_swap (fun x s => if P (x :: s) then 1 else 0)).
      rewrite (sumf_le _ (fun _ => b)); [rewrite sumf_const, tuples_len; lia|].
      intros s Hs. rewrite <- (cnt_sum (fun x => P (x :: s))). apply (H [] s); [easy|].
      apply tuples_in in Hs. lia.
    - destruct n as [|n]; [lia|].
      rewrite (sumf_le _ (fun _ => b * length l ^ n)); [rewrite sumf_const; cbn [Nat.pow]; nia|].
      intros x _. replace n with (S n - 1) at 2 by lia. apply IH; [lia|]. intros l1 l2 L1 L2.
      apply (H (x :: l1) l2); cbn; lia.
  Qed.
End Tuples.

(** a sequence is caught by [bad] at some position, given what came before *)
Fixpoint hits {A : Type} (bad : list A -> A -> bool) (pre s : list A) : bool :=
  match s with [] => false | x :: s' => bad pre x || hits bad (pre ++ [x]) s' end.
Lemma hits_nth {A} (bad : list A -> A -> bool) s : forall pre, (exists k x, nth_error s k = Some x /\ bad (pre ++ firstn k s) x = true) ->
  hits bad pre s = true.
Proof.
  induction s as [|y s IH]; intros pre (k & x & E & B); [destruct k; discriminate|]. cbn [hits]. apply orb_true_iff.
  destruct k as [|k]; cbn in E, B; [injection E as ->; rewrite app_nil_r in B; now left|]. right. apply IH.
  exists k, x. split; [exact E|]. rewrite <- app_assoc. exact B.
Qed.
Lemma cnt_hits {A : Type} (l : list A) M n : forall (bad : list A -> A -> bool) (N : nat -> nat) pre,
  (forall p, length pre <= length p < length pre + n -> (forall x, In x p -> In x pre \/ In x l) ->
     cnt (bad p) l <= N (length p) * M) ->
  cnt (hits bad pre) (tuples n l) <= sumf N (seq (length pre) n) * M * length l ^ (n - 1).
Proof.
  induction n as [|n IH]; intros bad N pre H; [cbn; lia|].
  rewrite cnt_tuples. replace (S n - 1) with n by lia. cbn [seq sumf].
  rewrite (sumf_le _ (fun x => (if bad pre x then 1 else 0) * length l ^ n + sumf N (seq (S (length pre)) n) * M * length l ^ (n - 1))).
  - rewrite sumf_plus, sumf_const.
    assert (E : sumf (fun x => (if bad pre x then 1 else 0) * length l ^ n) l = cnt (bad pre) l * length l ^ n).
    { rewrite cnt_sum. clear. generalize (length l ^ n). intros w. induction l as [|x m IH]; cbn; [easy|].
      rewrite IH. lia. }
    rewrite E. specialize (H pre). assert (C : cnt (bad pre) l <= N (length pre) * M) by (apply H; [lia|tauto]).
    assert (F : length l * (sumf N (seq (S (length pre)) n) * M * length l ^ (n - 1)) <=
                sumf N (seq (S (length pre)) n) * M * length l ^ n).
    { destruct n as [|n]; [cbn; lia|]. replace (S n - 1) with n by lia. cbn [Nat.pow]. nia. }
    nia.
  - intros x Hx. cbn [hits]. destruct (bad pre x) eqn:B; cbn [orb].
    + rewrite Nat.mul_1_l, <- tuples_len. pose proof (cnt_le (fun _ : list A => true) (tuples n l)). lia.
    + rewrite Nat.mul_0_l, Nat.add_0_l. specialize (IH bad N (pre ++ [x])). rewrite app_length in IH. cbn in IH.
      replace (length pre + 1) with (S (length pre)) in IH by lia. apply IH. intros p Hp Hi. apply H; [lia|].
      intros y Hy. destruct (Hi y Hy) as [Hj|Hj]; [|now right]. apply in_app_or in Hj. destruct Hj as [Hj|[<-|[]]]; auto.
Qed.
