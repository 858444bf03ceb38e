(** How often a residue modulo p is the challenge of a 64-bit word or of a 128-bit block. *)
From Coq Require Import NArith List Bool Arith Lia.
From Verif Require Import ArithModel ArithSpec GameSpec CountAlg GameArithSpec GameArith2.
Import ListNotations.

Lemma words_spread l : NoDup l -> Forall (fun x => (x < 2 ^ 64)%N) l -> spread word_chal 9 l.
Proof.
  intros Nd F r. unfold cnt. set (f := filter _ l).
  assert (I : forall x, In x f -> In x l /\ (x mod prm)%N = r).
  { intros x Hx. apply filter_In in Hx. destruct Hx as [Hx E]. split; [exact Hx|]. now apply N.eqb_eq in E. }
  rewrite <- (map_length (fun x => (x / prm)%N) f).
  change 9 with (length (map N.of_nat (seq 0 9))). apply NoDup_incl_length.
  - assert (Nf : NoDup f) by now apply NoDup_filter. revert Nf I. generalize f. clear. induction f as [|x f IH]; intros Nf I; cbn [map]; [constructor|].
    inversion Nf as [|? ? Hx Nf']; subst. constructor; [|apply IH; [exact Nf'|intros; apply I; now right]].
    intros H. apply in_map_iff in H. destruct H as (y & E & Hy). destruct (I x (or_introl eq_refl)) as [_ Ex]. destruct (I y (or_intror Hy)) as [_ Ey].
    apply Hx. replace x with y; [exact Hy|]. rewrite (N.div_mod y prm), (N.div_mod x prm) by discriminate. now rewrite E, Ex, Ey.
  - intros q Hq. apply in_map_iff in Hq. destruct Hq as (x & <- & Hx). destruct (I x Hx) as [Hl _].
    rewrite Forall_forall in F. specialize (F x Hl).
    assert (Q : (x / prm < 9)%N) by (apply N.div_lt_upper_bound; [discriminate|]; eapply N.lt_trans; [exact F|reflexivity]).
    apply in_map_iff. exists (N.to_nat (x / prm)). split; [now rewrite N2Nat.id|]. apply in_seq. revert Q. generalize (x / prm)%N. intros; lia.
Qed.
Definition blocks (his los : list N) : list N := map (fun p => fst p * 2 ^ 64 + snd p)%N (list_prod his los).
Lemma blocks_spread his los : NoDup los -> Forall (fun x => (x < 2 ^ 64)%N) los -> spread block_chal (length his * 9) (blocks his los).
Proof.
  intros Nd F r. unfold blocks. rewrite cnt_map.
  transitivity (cnt (fun p : N * N => (fun _ lo => N.eqb (word_chal lo) r) (fst p) (snd p)) (list_prod his los)).
  - assert (E : forall l : list (N * N), (forall p, In p l -> (snd p < 2 ^ 64)%N) ->
       cnt (fun x => N.eqb (block_chal (fst x * 2 ^ 64 + snd x)) r) l <= cnt (fun p => N.eqb (word_chal (snd p)) r) l).
    { induction l as [|p l IH]; intros Hl; [apply Nat.le_refl|]. specialize (IH (fun x Hx => Hl x (or_intror Hx))).
      specialize (Hl p (or_introl eq_refl)). unfold cnt in *. cbn [filter]. unfold block_chal at 1.
      rewrite N.add_comm, N.mod_add by discriminate. rewrite (N.mod_small (snd p)) by exact Hl. change (snd p mod prm)%N with (word_chal (snd p)).
      destruct (N.eqb (word_chal (snd p)) r); cbn [length]; [now apply le_n_S|exact IH]. }
    apply E. intros [h lo] Hp. apply in_prod_iff in Hp. rewrite Forall_forall in F. cbn [snd]. now apply F.
  - rewrite (cnt_prod (fun _ lo => N.eqb (word_chal lo) r)). rewrite (sumf_le _ (fun _ => 9)); [now rewrite sumf_const|].
    intros h _. now apply words_spread.
Qed.
