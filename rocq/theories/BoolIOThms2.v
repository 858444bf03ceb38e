(** What the transcript hash binds. *)
From Coq Require Import NArith List Bool Arith Lia.
From Verif Require Import Word BoolIOModel BoolIOSpec BoolIOProofs BoolIOThms.
Import ListNotations.

Section Bind.
  Variables (bs reset : bool) (NB : nat).
  Hypothesis HNB : 1 <= NB.
  Notation sqr := (sq_run bs reset NB).
  Definition shape (a a' : act) : Prop :=
    match a, a' with
    | ABit _, ABit _ => True
    | AAlign d, AAlign d' => d = d'
    | AXfer d _, AXfer d' _ => d = d'
    | AFlush, AFlush | AHash, AHash => True
    | _, _ => False
    end.
  Fixpoint abits (l : list act) : list bool :=
    match l with [] => [] | ABit b :: l' => b :: abits l' | _ :: l' => abits l' end.
  Lemma shape_compile os os' : Forall2 same_shape os os' -> Forall2 shape (compile os) (compile os').
  Proof.
    induction 1 as [|o o' os os' H _ IH]; [constructor|]. unfold compile. cbn [flat_map]. fold (compile os) (compile os').
    apply Forall2_app; [|exact IH]. destruct o as [|[]| | |], o' as [|[]| | |]; try easy; cbn; repeat constructor.
  Qed.
  Lemma abits_compile os : abits (compile os) = bits_of os.
  Proof.
    induction os as [|o os IH]; [reflexivity|]. unfold compile. cbn [flat_map]. fold (compile os).
    destruct o as [b|[] b| | |]; cbn [compile1 app abits bits_of]; now rewrite ?IH.
  Qed.
  Definition obs (e : ep) := (e_digests e, e_hash e).
  Lemma bind l : forall l' s s', Forall2 shape l l' -> e_ptr s = e_ptr s' -> e_ptr s < NB ->
    length (e_buf s) = NB -> length (e_buf s') = NB -> length (e_hash s) = length (e_hash s') ->
    e_ptr (fst (sqr s l)) = 0 -> obs (fst (sqr s l)) = obs (fst (sqr s' l')) ->
    obs s = obs s' /\ firstn (e_ptr s) (e_buf s) = firstn (e_ptr s) (e_buf s') /\ abits l = abits l'.
  Proof.
    induction l as [|a l IH]; intros l' s s' Hsh Hp Hlt L1 L2 Lh Z Ho; destruct l' as [|a' l2]; try (exfalso; now inversion Hsh);
      try (assert (Sa : shape a a') by (now inversion Hsh); assert (Sl : Forall2 shape l l2) by (now inversion Hsh)).
    - cbn [sq_run fst] in *. rewrite Z. auto.
    - cbn [sq_run] in Z, Ho.
      destruct (is_align a) eqn:Ia.
      + assert (Ia' : is_align a' = true) by (destruct a as [|[]| | |], a' as [|[]| | |]; easy).
        assert (Ab : abits (a :: l) = abits l) by (destruct a as [|[]| | |]; easy).
        assert (Ab' : abits (a' :: l2) = abits l2) by (destruct a' as [|[]| | |]; easy).
        rewrite Ab, Ab'. rewrite (sq_align bs reset NB HNB s a) in Z, Ho by (auto; lia).
        rewrite (sq_align bs reset NB HNB s' a') in Ho by (auto; lia).
        destruct (Nat.eq_dec (e_ptr s) 0) as [E|E].
        * rewrite (flush_zero bs NB HNB s E) in Z, Ho. rewrite (flush_zero bs NB HNB s') in Ho by congruence.
          specialize (IH l2 s s' Sl Hp Hlt L1 L2 Lh).
          destruct (sqr s l) as [e1 o1]. destruct (sqr s' l2) as [e2 o2]. cbn [fst] in *. now apply IH.
        * destruct (flush_pos bs NB HNB s ltac:(lia) L1) as (blk & Eb & Lb & Fb).
          destruct (flush_pos bs NB HNB s' ltac:(lia) L2) as (blk' & Eb' & Lb' & Fb').
          rewrite Eb in Z, Ho. rewrite Eb' in Ho.
          match type of Z with context [sqr ?s1 l] => set (t := s1) in * end.
          match type of Ho with context [sqr ?s1 l2] => set (t' := s1) in * end.
          specialize (IH l2 t t' Sl). destruct (sqr t l) as [e1 o1]. destruct (sqr t' l2) as [e2 o2]. cbn [fst] in *.
          destruct IH as (O & _ & B); auto; try (subst t t'; cbn [e_ptr e_buf e_hash]; rewrite ?app_length, ?send_bool_raw_len, ?Lb, ?Lb'; lia || auto).
          try subst t t'. unfold obs in *. cbn [e_digests e_hash] in O. injection O as O1 O2.
          assert (Lp : length (send_bool_raw bs blk) = length (send_bool_raw bs blk')) by (rewrite !send_bool_raw_len; congruence).
          assert (Q : e_hash s = e_hash s' /\ send_bool_raw bs blk = send_bool_raw bs blk').
          { clear -O2 Lh. revert O2 Lh. generalize (e_hash s) (e_hash s'). induction l as [|x l IH]; intros [|y l'] E H; cbn in *; try lia; auto.
            injection E as -> E. destruct (IH l' E) as [-> ->]; [lia|auto]. }
          destruct Q as [Q1 Q2]. apply raw_inj in Q2; [|congruence]. subst blk'.
          split; [congruence|]. split; [|exact B]. rewrite <- Fb. rewrite Hp at 1. rewrite Fb'. now rewrite Hp.
      + destruct a as [b|[]|d b| |], a' as [b'|[]|d' b'| |]; try easy; cbn [sq abits] in *.
        * (* bit *)
          unfold send_bit in Z, Ho. rewrite <- Hp in Ho.
          pose proof (upd_firstn (e_buf s) (e_ptr s) b ltac:(lia)) as U.
          pose proof (upd_firstn (e_buf s') (e_ptr s) b' ltac:(lia)) as U'.
          assert (Conc : forall (X : firstn (S (e_ptr s)) (upd (e_buf s) (e_ptr s) b) = firstn (S (e_ptr s)) (upd (e_buf s') (e_ptr s) b')),
             firstn (e_ptr s) (e_buf s) = firstn (e_ptr s) (e_buf s') /\ b = b').
          { intro X. rewrite U, U' in X. now apply app_inj_tail in X. }
          destruct (Nat.eqb_spec (S (e_ptr s)) NB) as [EN|EN].
          -- match type of Z with context [sqr ?s1 l] => set (t := s1) in * end.
             match type of Ho with context [sqr ?s1 l2] => set (t' := s1) in * end.
             specialize (IH l2 t t' Sl). destruct (sqr t l) as [e1 o1]. destruct (sqr t' l2) as [e2 o2]. cbn [fst] in *.
             destruct IH as (O & _ & B); auto; try (subst t t'; cbn [e_ptr e_buf e_hash]; rewrite ?app_length, ?send_bool_raw_len, ?upd_length, ?L1, ?L2; lia || auto).
             try subst t t'. unfold obs in *. cbn [e_digests e_hash] in O. injection O as O1 O2.
             assert (Q : e_hash s = e_hash s' /\ send_bool_raw bs (upd (e_buf s) (e_ptr s) b) = send_bool_raw bs (upd (e_buf s') (e_ptr s) b')).
             { clear -O2 Lh. revert O2 Lh. generalize (e_hash s) (e_hash s'). induction l as [|x l IH]; intros [|y l'] E H; cbn in *; try lia; auto.
               injection E as -> E. destruct (IH l' E) as [-> ->]; [lia|auto]. }
             destruct Q as [Q1 Q2]. apply raw_inj in Q2; [|now rewrite !upd_length, L1, L2].
             rewrite Q2 in Conc. destruct (Conc eq_refl) as [C1 ->]. split; [congruence|]. split; [easy|]. now rewrite B.
          -- match type of Z with context [sqr ?s1 l] => set (t := s1) in * end.
             match type of Ho with context [sqr ?s1 l2] => set (t' := s1) in * end.
             specialize (IH l2 t t' Sl). destruct (sqr t l) as [e1 o1]. destruct (sqr t' l2) as [e2 o2]. cbn [fst] in *.
             destruct IH as (O & F & B); auto; try (subst t t'; cbn [e_ptr e_buf e_hash]; rewrite ?upd_length; lia || auto).
             try subst t t'. unfold obs in *. cbn [e_digests e_hash e_ptr e_buf] in O, F.
             destruct (Conc F) as [C1 ->]. split; [congruence|]. split; [easy|]. now rewrite B.
        * (* transfer *)
          cbn in Sa. subst d'.
          set (t := fst (sq bs reset NB s (AXfer d b))). set (t' := fst (sq bs reset NB s' (AXfer d b'))).
          assert (Et : obs t = obs s /\ e_ptr t = e_ptr s /\ e_buf t = e_buf s) by (subst t; destruct d; repeat split).
          assert (Et' : obs t' = obs s' /\ e_ptr t' = e_ptr s' /\ e_buf t' = e_buf s') by (subst t'; destruct d; repeat split).
          specialize (IH l2 t t' Sl).
          assert (Z' : e_ptr (fst (sqr t l)) = 0) by (subst t; destruct d; cbn [sq fst] in *; destruct (sqr _ l); exact Z).
          assert (Ho' : obs (fst (sqr t l)) = obs (fst (sqr t' l2))).
          { subst t t'; destruct d; cbn [sq fst] in *; destruct (sqr _ l); destruct (sqr _ l2); exact Ho. }
          destruct Et as (O1 & O2 & O3), Et' as (O1' & O2' & O3').
          rewrite O2, O2', O3, O3', O1, O1' in IH. apply IH; auto.
          unfold obs in O1, O1'. injection O1 as _ O1. injection O1' as _ O1'. now rewrite O1, O1'.
        * (* hash *)
          specialize (IH l2 (get_hash reset s) (get_hash reset s') Sl).
          destruct (sqr (get_hash reset s) l) as [e1 o1]. destruct (sqr (get_hash reset s') l2) as [e2 o2]. cbn [fst] in *.
          destruct IH as (O & F & B); auto.
          { cbn [get_hash e_hash]. now destruct reset. }
          unfold obs in *. cbn [get_hash e_digests e_hash e_ptr e_buf] in O, F.
          injection O as O1 _. apply app_inj_tail in O1. destruct O1 as [O1 O2]. split; [congruence|]. auto.
  Qed.
  Lemma indep l : forall l' s s', Forall2 shape l l' -> abits l = abits l' ->
    e_ptr s = e_ptr s' -> e_buf s = e_buf s' -> obs s = obs s' ->
    obs (fst (sqr s l)) = obs (fst (sqr s' l')).
  Proof.
    assert (FL : forall f s s', e_ptr s = e_ptr s' -> e_buf s = e_buf s' -> obs s = obs s' ->
       let t := fst (flush_loop bs NB f s) in let t' := fst (flush_loop bs NB f s') in
       e_ptr t = e_ptr t' /\ e_buf t = e_buf t' /\ obs t = obs t').
    { induction f as [|f IH]; intros s s' E1 E2 E3; [cbn; auto|]. cbn [flush_loop]. rewrite <- E1.
      destruct (Nat.eqb (e_ptr s) 0); [cbn; auto|].
      assert (B : let t := fst (send_bit bs NB s true) in let t' := fst (send_bit bs NB s' true) in
         e_ptr t = e_ptr t' /\ e_buf t = e_buf t' /\ obs t = obs t').
      { unfold send_bit. rewrite <- E1, <- E2. unfold obs in *. injection E3 as E3 E4.
        destruct (Nat.eqb _ _); cbn; rewrite E3, E4; auto. }
      destruct (send_bit bs NB s true) as [t o]. destruct (send_bit bs NB s' true) as [t' o']. cbn [fst] in B.
      destruct B as (B1 & B2 & B3). specialize (IH t t' B1 B2 B3).
      destruct (flush_loop bs NB f t). destruct (flush_loop bs NB f t'). exact IH. }
    induction l as [|a l IH]; intros l' s s' Hsh Hb E1 E2 E3; destruct l' as [|a' l2]; try (exfalso; now inversion Hsh);
      try (assert (Sa : shape a a') by (now inversion Hsh); assert (Sl : Forall2 shape l l2) by (now inversion Hsh)). { exact E3. }
    assert (B : (let t := fst (sq bs reset NB s a) in let t' := fst (sq bs reset NB s' a') in
         e_ptr t = e_ptr t' /\ e_buf t = e_buf t' /\ obs t = obs t') /\ abits l = abits l2).
    { destruct a as [b|d|d b| |], a' as [b'|d'|d' b'| |]; try easy; cbn [sq abits] in *.
      - injection Hb as -> Hb. split; [|easy]. unfold send_bit. rewrite <- E1, <- E2. unfold obs in *. injection E3 as E3 E4.
        destruct (Nat.eqb _ _); cbn; rewrite E3, E4; auto.
      - cbn in Sa. subst d'. split; [|easy]. unfold flush_s. rewrite <- E1. destruct d; destruct (Nat.eqb _ _); cbn [fst]; auto; now apply FL.
      - cbn in Sa. subst d'. split; [|easy]. destruct d; cbn; auto.
      - split; [|easy]. now apply FL.
      - split; [|easy]. unfold obs in *. injection E3 as E3 E4. cbn. rewrite E3, E4. auto. }
    destruct B as [(B1 & B2 & B3) Hb']. cbn [sq_run].
    destruct (sq bs reset NB s a) as [t o]. destruct (sq bs reset NB s' a') as [t' o']. cbn [fst] in *.
    specialize (IH l2 t t' Sl Hb' B1 B2 B3). destruct (sqr t l). destruct (sqr t' l2). exact IH.
  Qed.
End Bind.
Lemma platform_flush b b' NB f : forall e, flush_loop b NB f e = flush_loop b' NB f e.
Proof.
  induction f as [|f IH]; intro e; [reflexivity|]. cbn [flush_loop].
  assert (E : send_bit b NB e true = send_bit b' NB e true) by (unfold send_bit; now rewrite (raw_any b b')).
  rewrite E. destruct (Nat.eqb _ _); [easy|]. destruct (send_bit b' NB e true). now rewrite IH.
Qed.
Lemma platform_sq b b' reset NB l : forall e, sq_run b reset NB e l = sq_run b' reset NB e l.
Proof.
  induction l as [|a l IH]; intro e; [reflexivity|]. cbn [sq_run].
  assert (E : sq b reset NB e a = sq b' reset NB e a).
  { destruct a as [x|[]|[] x| |]; cbn [sq]; unfold flush_s; rewrite ?(platform_flush b b'); auto. unfold send_bit. now rewrite (raw_any b b'). }
  rewrite E. destruct (sq b' reset NB e a). now rewrite IH.
Qed.
