(** The revealed bits of a session are its outputs, so equal messages mean equal outputs. *)
From Coq Require Import NArith List Bool Arith Lia.
From Verif Require Import Word BoolModel BoolSpec HideSpec HideProofs HideThms.
Import ListNotations.
Fixpoint count_rev (c : list gate) : nat :=
  match c with [] => 0 | GReveal _ :: c' => S (count_rev c') | _ :: c' => count_rev c' end.
Lemma plain_len c : forall ws o, length (snd (plain_eval ws o c)) = length o + count_rev c.
Proof. induction c as [|[] c IH]; intros ws o; cbn [plain_eval count_rev snd]; rewrite ?IH, ?app_length; cbn [length]; lia. Qed.
Lemma rev_inputs c : forall ins, count_rev (with_inputs ins c) = count_rev c.
Proof. induction c as [|[] c IH]; intros [|y ins]; cbn [with_inputs count_rev]; auto. Qed.
Lemma weave_inj c : forall m o o', length o = count_rev c -> length o' = count_rev c -> weave c m o = weave c m o' -> o = o'.
Proof.
  induction c as [|g c IH]; intros m o o' L L' E.
  - destruct o, o'; cbn in *; congruence.
  - destruct g; cbn [weave count_rev] in *; try (apply (IH _ _ _ L L' E)); try (injection E as E; apply (IH _ _ _ L L' E)).
    destruct o as [|a o], o' as [|a' o']; cbn in L, L'; try discriminate. cbn [hd tl] in E. injection E as -> E.
    f_equal. apply (IH m); auto; congruence.
Qed.
Lemma equal_outputs r0 r1 key d threads csz F c ins ins' u u' p p' : valid_keys key -> valid_delta d -> session_ok threads csz c ->
  honest r0 r1 key d threads csz F c ins u p -> honest r0 r1 key d threads csz F c ins' u' p' -> view p = view p' ->
  plain_outputs (with_inputs ins c) = plain_outputs (with_inputs ins' c).
Proof.
  intros Hk Hd Hok H H' E. assert (Eb : p_bits p = p_bits p') by (unfold view in E; congruence).
  pose proof (honest_outs r0 r1 key d threads csz F c Hd ins u p H) as O. pose proof (honest_outs r0 r1 key d threads csz F c Hd ins' u' p' H') as O'.
  destruct (exec_weave _ _ _ _ _ _ _ _ H) as [W _]. destruct (exec_weave _ _ _ _ _ _ _ _ H') as [W' _].
  assert (M : forall c ins b, masked_bits (with_inputs ins c) b = masked_bits c b).
  { clear. induction c as [|[] c IH]; intros [|y ins] bb; destruct bb; cbn; rewrite ?IH; auto. }
  rewrite weave_inputs, M, O in W. rewrite weave_inputs, M, O', <- Eb in W'. rewrite <- W in W' at 2.
  symmetry. apply (weave_inj c (masked_bits c (p_bits p))); [unfold plain_outputs; rewrite plain_len, rev_inputs; reflexivity..|exact W'].
Qed.
