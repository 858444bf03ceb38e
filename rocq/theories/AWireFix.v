(** What the verifier's challenges and keys can influence: errors are fixed before the challenge is drawn, and keys only
    decide when the verifier stops. *)
From Coq Require Import NArith List Bool Arith Lia.
From Verif Require Import Word FpModel ArithModel ArithSpec WireModel WireProofs WireAny AWireModel AWireNet AWireProofs AWireAny.
Import ListNotations.

Section Walk.
  Variables (auto : bool) (coins : bool -> nat -> N).
  Context {RP RV : Type}.
  Lemma aact_walk (V V' : aproc RV) vs vs' o pv pv' r reads c0 c1 n0 n1 : aact auto V vs pv = Some (V', vs', o, pv', r) ->
    awalk coins V (r ++ reads) c0 c1 n0 n1 = awalk coins V' reads c0 c1 n0 n1.
  Proof.
    destruct V as [v|bs k|t len k|k|b k]; cbn [aact]; intro E; try discriminate.
    - injection E as <- <- <- <- <-. reflexivity.
    - destruct (auto && negb (is_nil vs)); [injection E as <- <- <- <- <-; reflexivity|].
      destruct (Nat.ltb_spec (length pv) len) as [L|L]; [discriminate|]. injection E as <- <- <- <- <-.
      cbn [app awalk]. rewrite site_eqb_refl, firstn_length, Nat.min_l, Nat.eqb_refl by lia. reflexivity.
    - injection E as <- <- <- <- <-. reflexivity.
  Qed.
  Lemma walk_steps (P : aproc RP) (V : aproc RV) k n : msteps auto coins k (m_init P V) n -> forall reads n0 n1, m_c0 n <= n0 -> m_c1 n <= n1 ->
    awalk coins V (m_reads n ++ reads) 0 0 n0 n1 = awalk coins (m_v n) reads (m_c0 n) (m_c1 n) n0 n1.
  Proof.
    intro Hn. remember (m_init P V) as m0 eqn:E0. induction Hn as [n|k n n1 n2 Hn IH Hs]; intros reads a0 a1 L0 L1; [now subst|].
    specialize (IH E0). destruct Hs as [n1 n2 M|P0 V0 a b vs pv vp rd0 x0 x1 Ha|P0 V0 ps a b pv vp rd0 x0 x1 Ha];
      [|now apply (IH reads)|now apply (IH reads)].
    destruct M; cbn [m_v m_reads m_c0 m_c1] in *; try now apply (IH reads).
    - rewrite <- app_assoc, IH by assumption. eapply aact_walk; eauto.
    - rewrite IH by lia. cbn [awalk]. destruct reads; [|reflexivity]. destruct (Nat.eqb_spec c0 a0); [lia|reflexivity].
    - rewrite IH by lia. cbn [awalk]. destruct reads; [|reflexivity]. destruct (Nat.eqb_spec c1 a1); [lia|]. now rewrite andb_false_r.
  Qed.
  Lemma walk_coin (P : aproc RP) (V : aproc RV) k n b q : msteps auto coins k (m_init P V) n -> m_v n = QCoin b q ->
    awalk coins V (m_reads n) 0 0 (m_c0 n) (m_c1 n) = Some (QCoin b q).
  Proof.
    intros Hn Hv. pose proof (walk_steps P V k n Hn [] (m_c0 n) (m_c1 n) (le_n _) (le_n _)) as X. rewrite app_nil_r in X. rewrite X, Hv.
    cbn [awalk]. now rewrite !Nat.eqb_refl.
  Qed.
End Walk.

(** * Errors are fixed before the challenge *)
Section Fixed.
  Variables (pub_mac : N) (vK : nat -> N) (delta : N) (threads csz psz : nat).
  Variables (G : N -> nat -> N) (H : list N -> list N) (coins : bool -> nat -> N) (pU : nat -> N).
  Hypothesis Hcsz : 1 <= csz.
  Notation vprog := (av_prog pub_mac vK delta threads csz psz G H).
  Record corr (v : avst) (s : acst) : Prop := {
    cr_buf : length (av_buf v) = length (ac_errs s); cr_poly : length (av_poly v) = length (ac_perrs s);
    cr_words : av_words v = ac_words s; cr_chk : av_chk v = length (ac_done s); cr_pchk : av_pchk v = length (ac_pdone s) }.
  Definition batches_of (b : bool) (s : acst) : list (list N) := if b then rel_batches s else mul_batches s.
  Notation acs w := (ac_step pU csz psz w).
  Lemma app_prefix {A} (l l' t : list A) k : l' = l ++ t -> k < length l -> nth_error l' k = nth_error l k.
  Proof. intros -> L. now apply nth_error_app1. Qed.
  Lemma step_prefix w s g : (exists t, ac_done (acs w s g) = ac_done s ++ t) /\ (exists t, ac_pdone (acs w s g) = ac_pdone s ++ t).
  Proof.
    assert (Z : forall l : list (list N), exists t, l = l ++ t) by (intro l; exists []; now rewrite app_nil_r).
    assert (Q : forall e, (exists t, ac_done (ac_queue psz s e) = ac_done s ++ t) /\ (exists t, ac_pdone (ac_queue psz s e) = ac_pdone s ++ t)).
    { intro e. unfold ac_queue. destruct (ac_perrs s); [split; apply Z|]. destruct (Nat.leb _ _); [|split; apply Z].
      cbn [ac_done ac_pdone ac_pflush]. split; [apply Z|eexists; reflexivity]. }
    destruct g; cbn [ac_step]; try (split; apply Z); try apply Q.
    destruct (Nat.eqb _ _); cbn [ac_done ac_pdone ac_flush]; [|split; apply Z]. split; [eexists; reflexivity|apply Z].
  Qed.
  Lemma run_prefix w c : forall s, (exists t, ac_done (fold_left (acs w) c s) = ac_done s ++ t) /\ (exists t, ac_pdone (fold_left (acs w) c s) = ac_pdone s ++ t).
  Proof.
    induction c as [|g c IH]; intro s; cbn [fold_left].
    - split; exists []; now rewrite app_nil_r.
    - destruct (IH (acs w s g)) as [[t1 E1] [t2 E2]], (step_prefix w s g) as [[u1 X1] [u2 X2]]. rewrite E1, E2, X1, X2, <- !app_assoc. split; eexists; reflexivity.
  Qed.
  Lemma batches_prefix w c s (b : bool) k : k < length (if b then ac_pdone s else ac_done s) ->
    nth_error (batches_of b (fold_left (acs w) c s)) k = nth_error (if b then ac_pdone s else ac_done s) k.
  Proof.
    intro L. destruct (run_prefix w c s) as [[t1 E1] [t2 E2]]. unfold batches_of, mul_batches, rel_batches. destruct b.
    - rewrite E2, <- app_assoc. now apply nth_error_app1.
    - rewrite E1, <- app_assoc. now apply nth_error_app1.
  Qed.

  Lemma walk_fin v pre c0 c1 n0 n1 b q : awalk coins (av_fin H v) pre c0 c1 n0 n1 = Some (QCoin b q) -> False.
  Proof.
    unfold av_fin. cbn [awalk]. destruct pre as [|[t x] pre].
    - destruct (Nat.eqb c0 n0 && Nat.eqb c1 n1); discriminate.
    - destruct (site_eqb t AtDigest && (length x =? 32)); [|discriminate]. destruct (same_bytes _ _); cbn [awalk]; destruct pre; try discriminate;
      destruct (Nat.eqb c0 n0 && Nat.eqb c1 n1); discriminate.
  Qed.
  Lemma walk_check v k pre n0 n1 b q : awalk coins (av_check_prog vK delta threads G v k) pre (av_chk v) (av_pchk v) n0 n1 = Some (QCoin b q) ->
    (b = false /\ av_chk v = n0) \/
    exists v1 x pre', pre = (AtCheck, x) :: pre' /\
      av_words v1 = av_words v /\ av_chk v1 = S (av_chk v) /\ av_pchk v1 = av_pchk v /\ length (av_poly v1) = length (av_poly v) /\
      awalk coins (k v1) pre' (av_chk v1) (av_pchk v1) n0 n1 = Some (QCoin b q).
  Proof.
    intro E. unfold av_check_prog, r_send in E. cbn [awalk] in E.
    destruct (match pre with [] => Nat.eqb (av_chk v) n0 && Nat.eqb (av_pchk v) n1 | _ => false end)%bool eqn:Ez.
    - left. destruct pre; [|discriminate]. apply andb_prop in Ez. destruct Ez as [Ez _]. apply Nat.eqb_eq in Ez. split; [|exact Ez]. now injection E as <-.
    - right. destruct (a_ranges threads (length (av_buf v))) as [rs|] eqn:Er; cbn [awalk] in E.
      + destruct pre as [|[t x] pre]; [destruct (Nat.eqb (S (av_chk v)) n0 && Nat.eqb (av_pchk v) n1); discriminate|].
        destruct (site_eqb t AtCheck) eqn:Et; [|discriminate]. apply site_eqb_eq in Et. subst t. cbn [andb] in E. destruct (length x =? 16); [|discriminate].
        unfold av_manage in E. rewrite Er in E. match type of E with context[if av_err ?e then _ else _] => set (v1 := e) in *; destruct (av_err v1) end.
        * cbn [awalk] in E. destruct pre; [destruct (Nat.eqb (S (av_chk v)) n0 && Nat.eqb (av_pchk v) n1)|]; discriminate.
        * cbn [awalk] in E. exists v1, x, pre. repeat (split; [reflexivity|]). exact E.
      + destruct pre; [destruct (Nat.eqb (S (av_chk v)) n0 && Nat.eqb (av_pchk v) n1)|]; discriminate.
  Qed.
  Lemma walk_batch v k pre n0 n1 b q : av_poly v <> [] -> awalk coins (av_batch_prog vK delta v k) pre (av_chk v) (av_pchk v) n0 n1 = Some (QCoin b q) ->
    (b = true /\ av_pchk v = n1) \/
    exists v1 x pre', pre = (AtPoly, x) :: pre' /\
      av_words v1 = av_words v /\ av_chk v1 = av_chk v /\ av_pchk v1 = S (av_pchk v) /\ av_poly v1 = [] /\ av_buf v1 = av_buf v /\
      awalk coins (k v1) pre' (av_chk v1) (av_pchk v1) n0 n1 = Some (QCoin b q).
  Proof.
    intros Hne E. unfold av_batch_prog, r_send in E. cbn [awalk] in E.
    destruct (match pre with [] => Nat.eqb (av_chk v) n0 && Nat.eqb (av_pchk v) n1 | _ => false end)%bool eqn:Ez.
    - left. destruct pre; [|discriminate]. apply andb_prop in Ez. destruct Ez as [_ Ez]. apply Nat.eqb_eq in Ez. split; [|exact Ez]. now injection E as <-.
    - right. destruct pre as [|[t x] pre]; [destruct (Nat.eqb (av_chk v) n0 && Nat.eqb (S (av_pchk v)) n1); discriminate|].
      destruct (site_eqb t AtPoly) eqn:Et; [|discriminate]. apply site_eqb_eq in Et. subst t. cbn [andb] in E. destruct (length x =? 16); [|discriminate].
      match type of E with context[k ?e] => set (v1 := e) in * end. exists v1, x, pre. split; [reflexivity|].
      assert (X : av_words v1 = av_words v /\ av_chk v1 = av_chk v /\ av_pchk v1 = S (av_pchk v) /\ av_poly v1 = [] /\ av_buf v1 = av_buf v).
      { unfold v1, av_batch. destruct (av_poly v); [congruence|]. repeat split. }
      destruct X as (X1 & X2 & X3 & X4 & X5). rewrite X2, X3. repeat (split; [assumption || reflexivity|]). exact E.
  Qed.
  Lemma walk_gate v g k pre n0 n1 b q s w : a_full csz g (length (av_buf v)) = false -> a_pfull psz g (length (av_poly v)) = false -> corr v s ->
    awalk coins (av_gate pub_mac vK delta threads csz psz v g k) pre (av_chk v) (av_pchk v) n0 n1 = Some (QCoin b q) ->
    exists v1 pre', corr v1 (acs w s g) /\
      (if a_sends g then exists x, pre = (AtWord, x) :: pre' /\ av_words v1 = S (av_words v) else pre = pre' /\ av_words v1 = av_words v) /\
      awalk coins (k v1) pre' (av_chk v1) (av_pchk v1) n0 n1 = Some (QCoin b q).
  Proof.
    intros F1 F2 [C1 C2 C3 C4 C5] E. unfold av_gate in E.
    assert (ST : forall sd ps wd cm pm, exists v1, av_step pub_mac vK delta threads csz psz sd ps wd cm pm v g = Some v1 /\
       corr v1 (acs w s g) /\ av_words v1 = (if a_sends g then S (av_words v) else av_words v) /\ av_chk v1 = av_chk v /\ av_pchk v1 = av_pchk v).
    { intros sd ps wd cm pm.
      assert (Q : forall t e, (Nat.leb psz (length (av_poly v)) && negb (length (av_poly v) =? 0))%bool = false ->
        let q := av_queue vK delta psz ps pm v t in corr q (ac_queue psz s e) /\ av_words q = av_words v /\ av_chk q = av_chk v /\ av_pchk q = av_pchk v).
      { intros t e Z. unfold av_queue, ac_queue. rewrite <- C2. destruct (Nat.leb psz (length (av_poly v))).
        - destruct (av_poly v) eqn:Ep; [|discriminate]. unfold av_batch. rewrite Ep. destruct (ac_perrs s) eqn:Es; [|discriminate].
          cbn [av_words av_chk av_pchk]. split; [|repeat split].
          split; cbn [av_buf av_poly av_words av_chk av_pchk ac_errs ac_perrs ac_words ac_done ac_pdone]; rewrite ?app_length; auto; now rewrite ?Ep, ?Es.
        - assert (W : (match ac_perrs s with [] => s | _ => s end) = s) by now destruct (ac_perrs s). rewrite W. split; [|repeat split].
          split; cbn [av_buf av_poly av_words av_chk av_pchk ac_errs ac_perrs ac_words ac_done ac_pdone]; rewrite ?app_length; auto; now rewrite C2. }
      destruct g; cbn [av_step ac_step a_full a_pfull a_sends] in *; unfold av_precheck; rewrite <- ?C1; rewrite ?F1;
      try (eexists; split; [reflexivity|]; split; [|repeat split];
           split; cbn [av_buf av_poly av_words av_chk av_pchk av_add av_reveal ac_push ac_errs ac_perrs ac_words ac_done ac_pdone]; rewrite ?app_length; auto; fail);
      try (eexists; split; [reflexivity|]; now apply Q). }
    destruct (a_sends g) eqn:Eg.
    - cbn [awalk] in E. destruct pre as [|[t x] pre]; [destruct (Nat.eqb (av_chk v) n0 && Nat.eqb (av_pchk v) n1); discriminate|].
      destruct (site_eqb t AtWord) eqn:Et; [|discriminate]. apply site_eqb_eq in Et. subst t. cbn [andb] in E. destruct (length x =? 8); [|discriminate].
      destruct (ST (fun _ _ => 0%N) (fun _ => 0%N) (fun _ => dec_bytes x) (fun _ => (0, 0)%N) (fun _ => (0, 0)%N)) as (v1 & Ev & Cv & W & X1 & X2).
      rewrite Ev in E. destruct (av_err v1).
      + cbn [awalk] in E. destruct pre; [destruct (Nat.eqb (av_chk v) n0 && Nat.eqb (av_pchk v) n1)|]; discriminate.
      + exists v1, pre. split; [exact Cv|]. split; [eauto|]. now rewrite X1, X2.
    - destruct (ST (fun _ _ => 0%N) (fun _ => 0%N) (fun _ => 0%N) (fun _ => (0, 0)%N) (fun _ => (0, 0)%N)) as (v1 & Ev & Cv & W & X1 & X2).
      rewrite Ev in E. destruct (av_err v1).
      + cbn [awalk] in E. destruct pre; [destruct (Nat.eqb (av_chk v) n0 && Nat.eqb (av_pchk v) n1)|]; discriminate.
      + exists v1, pre. split; [exact Cv|]. split; [auto|]. now rewrite X1, X2.
  Qed.
  Lemma step_words w w' s g : (a_sends g = true -> w (ac_words s) = w' (ac_words s)) -> acs w s g = acs w' s g.
  Proof.
    intro Hw. destruct g; cbn [ac_step a_sends] in *; unfold ac_new; rewrite ?Hw by reflexivity; try reflexivity.
    destruct (Nat.eqb (length (ac_errs s)) csz); cbn [ac_words ac_flush ac_vole]; now rewrite Hw.
  Qed.
  (** full buffers on the specification side *)
  Lemma ac_full w s g : a_full csz g (length (ac_errs s)) = true -> acs w s g = acs w (ac_flush s) g.
  Proof.
    destruct g; try discriminate. cbn [a_full ac_step ac_flush ac_errs length]. intros ->. destruct (Nat.eqb_spec 0 csz) as [e|]; [rewrite <- e in Hcsz; inversion Hcsz|]. reflexivity.
  Qed.
  Lemma ac_pfull w s g : a_pfull psz g (length (ac_perrs s)) = true -> acs w s g = acs w (ac_pflush s) g.
  Proof.
    assert (Q : forall e, (Nat.leb psz (length (ac_perrs s)) && negb (length (ac_perrs s) =? 0))%bool = true -> ac_queue psz s e = ac_queue psz (ac_pflush s) e).
    { intros e F. apply andb_prop in F. destruct F as [F F']. unfold ac_queue. destruct (ac_perrs s) eqn:Es; [discriminate|]. rewrite F. reflexivity. }
    destruct g; try discriminate; cbn [a_pfull ac_step]; intro F; rewrite Q by exact F; reflexivity.
  Qed.
  Lemma fixed_end v s pre b q n0 n1 : corr v s -> awalk coins (av_end vK delta threads G H v) pre (av_chk v) (av_pchk v) n0 n1 = Some (QCoin b q) ->
    b = false /\ n0 = length (ac_done s) /\ ac_errs s <> [].
  Proof.
    intros C E. unfold av_end in E. destruct (av_buf v) eqn:Eb; [now apply walk_fin in E|]. destruct C as [C1 C2 C3 C4 C5].
    assert (Z : ac_errs s <> []) by (rewrite Eb in C1; intro Z; rewrite Z in C1; discriminate).
    destruct (walk_check v _ pre n0 n1 b q E) as [[-> X]|(v1 & x & pre' & _ & _ & _ & _ & _ & E')]; [|now apply walk_fin in E'].
    split; [reflexivity|]. split; [congruence|exact Z].
  Qed.
  Lemma fixed_batch c : forall v s pre b q n0 n1 w w', corr v s ->
    awalk coins (vprog v c) pre (av_chk v) (av_pchk v) n0 n1 = Some (QCoin b q) ->
    (forall i, i < av_words v + length (reads_at AtWord pre) -> w i = w' i) ->
    exists errs, errs <> [] /\ nth_error (batches_of b (fold_left (acs w) c s)) (if b then n1 else n0) = Some errs /\
                 nth_error (batches_of b (fold_left (acs w') c s)) (if b then n1 else n0) = Some errs.
  Proof.
    induction c as [|g c IH]; intros v s pre b q n0 n1 w w' C E Hw; cbn [av_prog fold_left] in *.
    - assert (FIN : forall s, b = false /\ n0 = length (ac_done s) /\ ac_errs s <> [] -> nth_error (mul_batches s) n0 = Some (ac_errs s)).
      { intros s0 (_ & -> & Hne). unfold mul_batches. rewrite nth_error_app2, Nat.sub_diag by lia. destruct (ac_errs s0); [congruence|reflexivity]. }
      destruct (av_poly v) eqn:Ep.
      + pose proof (fixed_end v s pre b q n0 n1 C E) as X. destruct X as (-> & X). exists (ac_errs s). split; [apply X|]. split; apply FIN; auto.
      + assert (Hne : av_poly v <> []) by (rewrite Ep; discriminate).
        assert (Hs : ac_perrs s <> []) by (destruct C as [_ C2 _ _ _]; rewrite Ep in C2; intro Z; rewrite Z in C2; discriminate).
        destruct (walk_batch v _ pre n0 n1 b q Hne E) as [[-> X]|(v1 & x & pre' & -> & Y1 & Y2 & Y3 & Y4 & Y5 & E')].
        * exists (ac_perrs s). split; [exact Hs|]. assert (nth_error (rel_batches s) n1 = Some (ac_perrs s)); [|split; assumption].
          unfold rel_batches. destruct C as [_ _ _ _ C5]. rewrite <- X, C5, nth_error_app2, Nat.sub_diag by lia. destruct (ac_perrs s); [congruence|reflexivity].
        * destruct C as [C1 C2 C3 C4 C5].
          assert (C' : corr v1 (ac_pflush s)).
          { split; cbn [ac_errs ac_perrs ac_words ac_done ac_pdone ac_pflush]; rewrite ?Y1, ?Y2, ?Y3, ?Y4, ?Y5; auto. rewrite app_length. cbn. lia. }
          pose proof (fixed_end v1 (ac_pflush s) pre' b q n0 n1 C' E') as X. destruct X as (-> & X).
          exists (ac_errs s). split; [apply X|]. split; apply FIN; auto.
    - pose proof C as [C1 C2 C3 C4 C5].
      assert (GATE : forall v1 s1 pre1, corr v1 s1 -> a_full csz g (length (av_buf v1)) = false -> a_pfull psz g (length (av_poly v1)) = false ->
        awalk coins (av_gate pub_mac vK delta threads csz psz v1 g (fun s => vprog s c)) pre1 (av_chk v1) (av_pchk v1) n0 n1 = Some (QCoin b q) ->
        (forall i, i < av_words v1 + length (reads_at AtWord pre1) -> w i = w' i) ->
        exists errs, errs <> [] /\ nth_error (batches_of b (fold_left (acs w) c (acs w s1 g))) (if b then n1 else n0) = Some errs /\
                 nth_error (batches_of b (fold_left (acs w') c (acs w' s1 g))) (if b then n1 else n0) = Some errs).
      { intros v1 s1 pre1 Cv F1 F2 E1 Hw1. destruct (walk_gate v1 g _ pre1 n0 n1 b q s1 w F1 F2 Cv E1) as (v2 & pre2 & C' & Hp & E2).
        assert (W : acs w s1 g = acs w' s1 g).
        { apply step_words. intro Hs. rewrite Hs in Hp. destruct Hp as (x & -> & _). rewrite <- (cr_words _ _ Cv). apply Hw1. cbn [reads_at site_eqb length]. lia. }
        rewrite <- W. apply (IH v2 (acs w s1 g) pre2 b q n0 n1 w w' C' E2). intros i Hi. apply Hw1.
        destruct (a_sends g); [destruct Hp as (x & -> & Hv); cbn [reads_at site_eqb length]; lia|destruct Hp as [-> Hv]; lia]. }
      destruct (a_full csz g (length (av_buf v))) eqn:F1; [|destruct (a_pfull psz g (length (av_poly v))) eqn:F2].
      + assert (F1s := F1). rewrite C1 in F1s. rewrite (ac_full w s g F1s), (ac_full w' s g F1s).
        destruct (walk_check v _ pre n0 n1 b q E) as [[-> X]|(v1 & x & pre' & -> & Y1 & Y2 & Y3 & Y4 & E')].
        * assert (B : forall u, nth_error (batches_of false (fold_left (acs u) c (acs u (ac_flush s) g))) n0 = Some (ac_errs s)).
          { intro u. change (fold_left (acs u) c (acs u (ac_flush s) g)) with (fold_left (acs u) (g :: c) (ac_flush s)).
            rewrite batches_prefix; cbn [ac_done ac_flush]; rewrite <- X, C4; [|rewrite app_length; cbn; lia]. rewrite nth_error_app2, Nat.sub_diag by lia. reflexivity. }
          exists (ac_errs s). split; [|split; apply B]. intro Z. rewrite Z in C1. destruct g; try discriminate. cbn [a_full] in F1. apply Nat.eqb_eq in F1.
          cbn [length] in C1. rewrite C1 in F1. rewrite <- F1 in Hcsz. inversion Hcsz.
        * apply (GATE (av_clear v1) (ac_flush s) pre').
          -- split; cbn [av_buf av_poly av_words av_chk av_pchk av_clear ac_errs ac_perrs ac_words ac_done ac_pdone ac_flush]; rewrite ?app_length; cbn; try lia; congruence.
          -- now apply vclear_full.
          -- eapply full_not_p; eauto.
          -- exact E'.
          -- intros i Hi. apply Hw. cbn [av_clear av_words reads_at site_eqb] in *. lia.
      + assert (F2s := F2). rewrite C2 in F2s. rewrite (ac_pfull w s g F2s), (ac_pfull w' s g F2s).
        assert (Hne : av_poly v <> []).
        { intro Z. rewrite Z in F2. destruct g; try discriminate; cbn in F2; now rewrite andb_false_r in F2. }
        assert (Hs : ac_perrs s <> []) by (intro Z; rewrite Z in C2; destruct (av_poly v); [congruence|discriminate]).
        destruct (walk_batch v _ pre n0 n1 b q Hne E) as [[-> X]|(v1 & x & pre' & -> & Y1 & Y2 & Y3 & Y4 & Y5 & E')].
        * assert (B : forall u, nth_error (batches_of true (fold_left (acs u) c (acs u (ac_pflush s) g))) n1 = Some (ac_perrs s)).
          { intro u. change (fold_left (acs u) c (acs u (ac_pflush s) g)) with (fold_left (acs u) (g :: c) (ac_pflush s)).
            rewrite batches_prefix; cbn [ac_pdone ac_pflush]; rewrite <- X, C5; [|rewrite app_length; cbn; lia]. rewrite nth_error_app2, Nat.sub_diag by lia. reflexivity. }
          exists (ac_perrs s). split; [exact Hs|split; apply B].
        * apply (GATE v1 (ac_pflush s) pre').
          -- split; cbn [ac_errs ac_perrs ac_words ac_done ac_pdone ac_pflush]; rewrite ?Y1, ?Y2, ?Y3, ?Y4, ?Y5, ?app_length; cbn; try lia.
          -- rewrite Y5. eapply pfull_not; eauto.
          -- rewrite Y4. destruct g; try reflexivity; cbn; apply andb_false_r.
          -- exact E'.
          -- intros i Hi. apply Hw. cbn [reads_at site_eqb] in *. lia.
      + now apply (GATE v s pre).
  Qed.
End Fixed.

(** * Keys only decide when the verifier stops *)
Inductive atwin : aproc vend -> aproc vend -> Prop :=
| ATDone r r' : atwin (QDone r) (QDone r')
| ATStop V : atwin V (QDone VError)
| ATStop' V : atwin (QDone VError) V
| ATPut bs k k' : atwin k k' -> atwin (QPut bs k) (QPut bs k')
| ATGet t len k k' : (forall x, atwin (k x) (k' x)) -> atwin (QGet t len k) (QGet t len k')
| ATFlush k k' : atwin k k' -> atwin (QFlush k) (QFlush k')
| ATCoin b k k' : (forall x, atwin (k x) (k' x)) -> atwin (QCoin b k) (QCoin b k').
Section TwinRun.
  Variables (auto : bool) (coins : bool -> nat -> N).
  Context {RP : Type}.
  Notation net := (@anet RP vend).
  (** same state up to the verifier's program *)
  Definition alike (n n' : net) : Prop :=
    m_p n' = m_p n /\ m_ps n' = m_ps n /\ m_vs n' = m_vs n /\ m_pv n' = m_pv n /\ m_vp n' = m_vp n /\ m_reads n' = m_reads n /\
    m_c0 n' = m_c0 n /\ m_c1 n' = m_c1 n.
  Definition stopped (n : net) : Prop := m_v n = QDone VError.
  Lemma twin_step n n1 n' : mstep auto coins n n1 -> alike n n' -> atwin (m_v n) (m_v n') -> stopped n \/ stopped n' \/
    exists n1', mstep auto coins n' n1' /\ alike n1 n1' /\ atwin (m_v n1) (m_v n1').
  Proof.
    intros M (A1 & A2 & A3 & A4 & A5 & A6 & A7 & A8) T. destruct n' as [P' V' ps' vs' pv' vp' rd' c0' c1']. unfold stopped.
    destruct M as [n n1 M|P V a b vs pv vp rd c0 c1 Ha|P V ps a b pv vp rd c0 c1 Ha]; [destruct M as [P V ps vs pv vp rd c0 c1 P1 ps1 o vp1 r E|P V ps vs pv vp rd c0 c1 V1 vs1 o pv1 r E|P k ps vs pv vp rd c0 c1|P k ps vs pv vp rd c0 c1]| |];
    cbn [m_p m_v m_ps m_vs m_pv m_vp m_reads m_c0 m_c1] in *; subst.
    - right. right. eexists. split; [eapply MProg, MP; exact E|]. split; [repeat split|exact T].
    - destruct T as [r0 r1|V|V|bs k k' T|t len k k' T|k k' T|b k k' T]; auto; try discriminate; cbn [aact] in E.
      + injection E as <- <- <- <- <-. right. right. eexists. split; [eapply MProg, MV; reflexivity|]. split; [repeat split|exact T].
      + destruct (auto && negb (is_nil vs)) eqn:Ea.
        * injection E as <- <- <- <- <-. right. right. eexists. split; [eapply MProg, MV; cbn [aact]; rewrite Ea; reflexivity|].
          split; [repeat split|]. constructor. exact T.
        * destruct (Nat.ltb (length pv) len) eqn:El; [discriminate|]. injection E as <- <- <- <- <-. right. right.
          eexists. split; [eapply MProg, MV; cbn [aact]; rewrite Ea, El; reflexivity|]. split; [repeat split|apply T].
      + injection E as <- <- <- <- <-. right. right. eexists. split; [eapply MProg, MV; reflexivity|]. split; [repeat split|exact T].
    - inversion T as [| | | | | |b k0 k' T' E1 E2]; subst; auto. right. right. eexists. split; [eapply MProg, MC0|]. split; [repeat split|apply T'].
    - inversion T as [| | | | | |b k0 k' T' E1 E2]; subst; auto. right. right. eexists. split; [eapply MProg, MC1|]. split; [repeat split|apply T'].
    - right. right. eexists. split; [eapply MDP; exact Ha|]. split; [repeat split|exact T].
    - right. right. eexists. split; [eapply MDV; exact Ha|]. split; [repeat split|exact T].
  Qed.
  Theorem twin_steps (P : aproc RP) V V2 k n : atwin V V2 -> msteps auto coins k (m_init P V) n ->
    exists j n1 n1', j <= k /\ msteps auto coins j (m_init P V) n1 /\ msteps auto coins j (m_init P V2) n1' /\ alike n1 n1' /\
      ((j = k /\ n1 = n /\ atwin (m_v n) (m_v n1')) \/ stopped n1 \/ stopped n1').
  Proof.
    intros T Hn. remember (m_init P V) as n0 eqn:E0. induction Hn as [n|k n na nb Hn IH Hs].
    - subst. exists 0, (m_init P V), (m_init P V2). split; [lia|]. split; [constructor|]. split; [constructor|]. split; [repeat split|]. left. repeat split. exact T.
    - specialize (IH E0). destruct IH as (j & n1 & n1' & Lj & R1 & R2 & A & [(-> & -> & T')|X]).
      + destruct (twin_step _ _ _ Hs A T') as [X|[X|(n2 & M2 & A2 & T2)]].
        * exists k, na, n1'. split; [lia|]. split; [exact R1|]. split; [exact R2|]. split; [exact A|]. right. now left.
        * exists k, na, n1'. split; [lia|]. split; [exact R1|]. split; [exact R2|]. split; [exact A|]. right. now right.
        * exists (S k), nb, n2. split; [lia|]. split; [econstructor; eauto|]. split; [econstructor; eauto|]. split; [exact A2|]. left. auto.
      + exists j, n1, n1'. split; [lia|]. auto.
  Qed.
End TwinRun.
Section VerTwin.
  Variables (pub_mac pub_mac' : N) (vK vK' : nat -> N) (d d' : N) (threads csz psz : nat).
  Variables (G : N -> nat -> N) (H : list N -> list N).
  Hypothesis Hcsz : 1 <= csz.
  Definition vlen (v v' : avst) : Prop := length (av_buf v) = length (av_buf v') /\ length (av_poly v) = length (av_poly v').
  Lemma tw_check v v' k k' : vlen v v' -> (forall x x', vlen x x' -> atwin (k x) (k' x')) ->
    atwin (av_check_prog vK d threads G v k) (av_check_prog vK' d' threads G v' k').
  Proof.
    intros [L1 L2] K. unfold av_check_prog, r_send. constructor. constructor. intro c. constructor. constructor. constructor. rewrite <- L1.
    destruct (a_ranges threads (length (av_buf v))) eqn:Er; [|constructor]. constructor. intro x. unfold av_manage. rewrite <- L1, Er.
    match goal with |- atwin (if ?e then _ else _) _ => destruct e end; [constructor|].
    match goal with |- atwin _ (if ?e then _ else _) => destruct e end; [constructor|]. constructor. apply K. split; assumption.
  Qed.
  Lemma tw_batch v v' k k' : vlen v v' -> av_poly v <> [] -> (forall x x', vlen x x' -> atwin (k x) (k' x')) ->
    atwin (av_batch_prog vK d v k) (av_batch_prog vK' d' v' k').
  Proof.
    intros [L1 L2] Hne K. unfold av_batch_prog, r_send. constructor. constructor. intro c. constructor. constructor. constructor. intro x. apply K.
    unfold av_batch. destruct (av_poly v); [congruence|]. destruct (av_poly v'); [discriminate|]. split; [exact L1|reflexivity].
  Qed.
  Lemma tw_gate v v' g k k' : a_full csz g (length (av_buf v)) = false -> a_pfull psz g (length (av_poly v)) = false -> vlen v v' ->
    (forall x x', vlen x x' -> atwin (k x) (k' x')) ->
    atwin (av_gate pub_mac vK d threads csz psz v g k) (av_gate pub_mac' vK' d' threads csz psz v' g k').
  Proof.
    intros F1 F2 [L1 L2] K. unfold av_gate.
    assert (X : forall w w', atwin
      (match av_step pub_mac vK d threads csz psz (fun _ _ => 0%N) (fun _ => 0%N) (fun _ => w) (fun _ => (0, 0)%N) (fun _ => (0, 0)%N) v g with
       | None => QDone VUndef | Some s' => if av_err s' then QDone VError else k s' end)
      (match av_step pub_mac' vK' d' threads csz psz (fun _ _ => 0%N) (fun _ => 0%N) (fun _ => w') (fun _ => (0, 0)%N) (fun _ => (0, 0)%N) v' g with
       | None => QDone VUndef | Some s' => if av_err s' then QDone VError else k' s' end)).
    { intros w w'.
      assert (ST : exists v1 v1', av_step pub_mac vK d threads csz psz (fun _ _ => 0%N) (fun _ => 0%N) (fun _ => w) (fun _ => (0, 0)%N) (fun _ => (0, 0)%N) v g = Some v1 /\
        av_step pub_mac' vK' d' threads csz psz (fun _ _ => 0%N) (fun _ => 0%N) (fun _ => w') (fun _ => (0, 0)%N) (fun _ => (0, 0)%N) v' g = Some v1' /\ vlen v1 v1').
      { assert (Q : forall t t', (Nat.leb psz (length (av_poly v)) && negb (length (av_poly v) =? 0))%bool = false ->
          vlen (av_queue vK d psz (fun _ => 0%N) (fun _ => (0, 0)%N) v t) (av_queue vK' d' psz (fun _ => 0%N) (fun _ => (0, 0)%N) v' t')).
        { intros t t' Z. unfold av_queue. rewrite <- L2. destruct (Nat.leb psz (length (av_poly v))).
          - destruct (av_poly v) eqn:Ep; [|discriminate]. destruct (av_poly v') eqn:Ep'; [|discriminate]. unfold av_batch. rewrite Ep, Ep'.
            split; cbn [av_buf av_poly]; [exact L1|]. now rewrite Ep, Ep'.
          - split; cbn [av_buf av_poly]; [exact L1|]. rewrite !app_length. cbn. congruence. }
        destruct g; cbn [av_step a_full a_pfull] in *; unfold av_precheck; rewrite <- ?L1, ?F1;
        (eexists; eexists; (split; [reflexivity|]); (split; [reflexivity|]));
        try (apply Q; exact F2); split; cbn [av_buf av_poly av_add av_reveal]; rewrite ?app_length; cbn [length]; congruence. }
      destruct ST as (v1 & v1' & -> & -> & L). destruct (av_err v1); [constructor|]. destruct (av_err v1'); [constructor|]. now apply K. }
    destruct (a_sends g); [|apply X]. constructor. intro x. apply X.
  Qed.
  Lemma ver_atwin c : forall v v', vlen v v' -> atwin (av_prog pub_mac vK d threads csz psz G H v c) (av_prog pub_mac' vK' d' threads csz psz G H v' c).
  Proof.
    assert (FIN : forall v v', atwin (av_fin H v) (av_fin H v')).
    { intros v v'. unfold av_fin. constructor. intro x. destruct (same_bytes _ _), (same_bytes _ _); constructor. }
    assert (END : forall v v', vlen v v' -> atwin (av_end vK d threads G H v) (av_end vK' d' threads G H v')).
    { intros v v' L. unfold av_end. destruct L as [L1 L2]. destruct (av_buf v) eqn:E1, (av_buf v') eqn:E2; try discriminate; [apply FIN|].
      apply tw_check; [split; [now rewrite E1, E2|exact L2]|auto]. }
    induction c as [|g c IH]; intros v v' L; cbn [av_prog]; pose proof L as [L1 L2].
    - destruct (av_poly v) eqn:E1, (av_poly v') eqn:E2; try discriminate; [now apply END|]. apply tw_batch; auto. now rewrite E1.
    - rewrite <- L1, <- L2. destruct (a_full csz g (length (av_buf v))) eqn:F1; [|destruct (a_pfull psz g (length (av_poly v))) eqn:F2].
      + apply tw_check; [exact L|]. intros x x' [Lx1 Lx2]. apply tw_gate; auto; [now apply vclear_full|eapply full_not_p; eauto|split; [reflexivity|exact Lx2]].
      + assert (Hne : av_poly v <> []).
        { intro Z. rewrite Z in F2. destruct g; try discriminate; cbn in F2; now rewrite andb_false_r in F2. }
        unfold av_batch_prog, r_send. constructor. constructor. intro y. constructor. constructor. constructor. intro x. 
        assert (LB : vlen (av_batch vK d (fun _ => y) (fun _ => dec_pair x) v) (av_batch vK' d' (fun _ => y) (fun _ => dec_pair x) v') /\
                     av_poly (av_batch vK d (fun _ => y) (fun _ => dec_pair x) v) = []).
        { unfold av_batch. destruct (av_poly v); [congruence|]. destruct (av_poly v'); [discriminate|]. split; [split; [exact L1|reflexivity]|reflexivity]. }
        destruct LB as [LB Z]. apply tw_gate; auto; [eapply pfull_not; eauto|]. rewrite Z. destruct g; try reflexivity; cbn; apply andb_false_r.
      + now apply tw_gate.
  Qed.
End VerTwin.
