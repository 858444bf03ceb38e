(** Small list lemmas. *)
From Coq Require Import List Lia Arith.
Import ListNotations.

Lemma NoDup_map_in {A B} (f : A -> B) (l : list A) :
  (forall x y, In x l -> In y l -> f x = f y -> x = y) -> NoDup l -> NoDup (map f l).
Proof.
  induction l as [|a l IH]; intros Hf Hn; cbn; [constructor|].
  inversion Hn; subst. constructor.
  - rewrite in_map_iff. intros [y [E Hy]]. assert (y = a) by (apply Hf; cbn; auto). now subst.
  - apply IH; auto. intros x y Hx Hy. apply Hf; now right.
Qed.
