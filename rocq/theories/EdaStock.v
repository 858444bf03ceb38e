(** The stock of conversion masks and the cut-and-choose indices. *)
From Coq Require Import NArith List Bool Arith Lia.
From Verif Require Import EdaModel EdaSpec.
Import ListNotations.

Lemma divmod_unique n k g i : k = g * n + i -> i < n -> k / n = g /\ k mod n = i.
Proof.
  intros -> H. split.
  - rewrite Nat.add_comm, Nat.div_add, Nat.div_small by lia. lia.
  - rewrite Nat.add_comm, Nat.mod_add, Nat.mod_small by lia. reflexivity.
Qed.
Lemma divmod_split n k : 1 <= n -> k = (k / n) * n + k mod n /\ k mod n < n.
Proof.
  intro H. split; [|apply Nat.mod_upper_bound; lia].
  pose proof (Nat.div_mod k n ltac:(lia)). lia.
Qed.

Section Stock.
  Variables (NN B C np_sz : nat).
  Hypotheses (HN : 1 <= NN) (HB : 1 <= B) (Hsz : ell NN B C <= np_sz).
  Notation L := (ell NN B C).
  Notation q := (np_sz / L).
  Notation kth := (kth_mask NN L np_sz).
  Lemma L_pos : NN <= L.
  Proof. unfold ell. destruct B as [|b]; [lia|]. cbn [Nat.mul]. lia. Qed.
  Lemma q_pos : 1 <= q.
  Proof. pose proof L_pos. apply Nat.div_le_lower_bound; lia. Qed.

  (** state after k masks *)
  Definition inv (k : nat) (s : eda) : Prop :=
    match k with
    | 0 => s = eda_init
    | S k' => let g := k' / NN in let r := k' mod NN in
              s = {| e_num := NN - S r; e_off := S r; e_pt := (g mod q) * L; e_rg := (g mod q) * L + L;
                     e_fill := S (g / q); e_gen := S g |}
    end.
  Lemma next_window g : Nat.ltb np_sz ((g mod q) * L + L + L) = Nat.eqb (S (g mod q)) q.
  Proof.
    pose proof L_pos. pose proof q_pos. destruct (divmod_split q g q_pos) as [_ Hg].
    destruct (divmod_split L np_sz ltac:(lia)) as [E1 E2].
    set (m := g mod q) in *. set (Q := q) in *. clearbody m Q.
    destruct (Nat.eqb_spec (S m) Q).
    - apply Nat.ltb_lt. subst Q. nia.
    - apply Nat.ltb_ge. assert (m + 2 <= Q) by lia. nia.
  Qed.
  Lemma succ_div g : (if Nat.eqb (S (g mod q)) q then (S (g / q), 0) else (g / q, S (g mod q))) = (S g / q, S g mod q).
  Proof.
    pose proof q_pos. destruct (divmod_split q g q_pos) as [E1 E2].
    destruct (Nat.eqb_spec (S (g mod q)) q) as [E|E].
    - destruct (divmod_unique q (S g) (S (g / q)) 0) as [-> ->]; [nia|lia|reflexivity].
    - destruct (divmod_unique q (S g) (g / q) (S (g mod q))) as [-> ->]; [nia|lia|reflexivity].
  Qed.
  Lemma single_inv k s : inv k s ->
    fst (single NN B C np_sz s) = kth k /\ inv (S k) (snd (single NN B C np_sz s)).
  Proof.
    pose proof L_pos as HL. pose proof q_pos as Hq. intro I. destruct k as [|k].
    - cbn in I. subst s. unfold single, next_edabits, gen_backend, eda_init. cbn [e_num e_off e_pt e_rg e_fill e_gen].
      change (Nat.eqb 0 0) with true. cbn match. rewrite Nat.add_0_l.
      replace (Nat.ltb np_sz L) with false by (symmetry; apply Nat.ltb_ge; lia).
      cbn [e_num e_off e_pt e_rg e_fill e_gen fst snd]. unfold kth_mask, inv.
      rewrite (Nat.div_0_l NN), (Nat.mod_0_l NN), (Nat.div_0_l q), (Nat.mod_0_l q) by lia.
      split; [reflexivity|]. now rewrite Nat.add_0_l.
    - cbn [inv] in I. set (g := k / NN) in *. set (r := k mod NN) in *.
      destruct (divmod_split NN k HN) as [E1 E2]. fold g r in E1, E2.
      unfold single, next_edabits, gen_backend. subst s. cbn [e_num e_off e_pt e_rg e_fill e_gen].
      destruct (Nat.eqb_spec (NN - S r) 0) as [Z|Z].
      + cbn [e_num e_off e_pt e_rg e_fill e_gen]. rewrite next_window.
        destruct (divmod_unique NN (S k) (S g) 0) as [D M]; [lia|lia|].
        pose proof (succ_div g) as SD.
        assert (P : exists f m, (if Nat.eqb (S (g mod q)) q then (S (S (g / q)), 0) else (S (g / q), (g mod q) * L + L))
                                = (S f, m * L) /\ f = S g / q /\ m = S g mod q).
        { exists (S g / q), (S g mod q). split; [|easy].
          destruct (Nat.eqb (S (g mod q)) q); injection SD as <- <-; f_equal; lia. }
        destruct P as (f & m & -> & -> & ->).
        cbn [e_num e_off e_pt e_rg e_fill e_gen fst snd]. unfold kth_mask, inv. rewrite D, M.
        split; [reflexivity|]. reflexivity.
      + cbn [e_num e_off e_pt e_rg e_fill e_gen fst snd].
        destruct (divmod_unique NN (S k) g (S r)) as [D M]; [lia|lia|].
        unfold kth_mask, inv. rewrite D, M. split; [reflexivity|].
        f_equal; lia.
  Qed.
  Lemma take_inv n : forall k s, inv k s ->
    fst (take NN B C np_sz n s) = map kth (seq k n) /\ inv (k + n) (snd (take NN B C np_sz n s)).
  Proof.
    induction n as [|n IH]; intros k s I; cbn [take].
    - cbn. now rewrite Nat.add_0_r.
    - pose proof (single_inv k s I) as [A A']. destruct (single NN B C np_sz s) as [m s1]. cbn [fst snd] in A, A'.
      pose proof (IH (S k) s1 A') as [D D']. destruct (take NN B C np_sz n s1) as [ms s2]. cbn [fst snd] in D, D' |- *.
      subst m ms. split; [reflexivity|]. now replace (k + S n) with (S k + n) by lia.
  Qed.
  Lemma reread_same b k n s : inv (k + n) s -> k mod NN + n <= NN ->
    map (reread b s) (map kth (seq k n)) = map kth (seq k n).
  Proof.
    intros I H. rewrite map_map. apply map_ext_in. intros i Hi. apply in_seq in Hi.
    destruct (divmod_split NN k HN) as [E1 E2].
    destruct (divmod_unique NN i (k / NN) (k mod NN + (i - k))) as [D M]; [lia|lia|].
    destruct (k + n) as [|k'] eqn:Ek; [lia|]. cbn [inv] in I.
    destruct (divmod_unique NN k' (k / NN) (k mod NN + (n - 1))) as [D' M']; [lia|lia|].
    unfold reread, kth_mask. subst s. cbn [e_fill e_gen fst snd]. rewrite D, D'. destruct b; reflexivity.
  Qed.
  (** rounds that stay inside one generation *)
  Fixpoint aligned (k : nat) (sizes : list nat) : Prop :=
    match sizes with [] => True | n :: l => (n = 0 \/ k mod NN + n <= NN) /\ aligned (k + n) l end.
  Lemma rounds_ok b plan : forall cnt j k s, inv k s -> aligned k (map (round_size NN plan) (seq j cnt)) ->
    let tot := list_sum (map (round_size NN plan) (seq j cnt)) in
    fst (rounds NN B C np_sz b plan j cnt s) = map kth (seq k tot) /\ inv (k + tot) (snd (rounds NN B C np_sz b plan j cnt s)).
  Proof.
    induction cnt as [|cnt IH]; intros j k s I A.
    - cbn. now rewrite Nat.add_0_r.
    - cbn [seq map aligned list_sum fold_right rounds] in *. destruct A as [A1 A2].
      set (n := round_size NN plan j) in *.
      pose proof (take_inv n k s I) as [T T']. destruct (take NN B C np_sz n s) as [ms s1]. cbn [fst snd] in T, T'.
      pose proof (IH (S j) (k + n) s1 T' A2) as [R R'].
      destruct (rounds NN B C np_sz b plan (S j) cnt s1) as [rest s2]. cbn [fst snd] in *. subst ms rest.
      split.
      + rewrite seq_app, map_app. f_equal. destruct A1 as [->|A1]; [reflexivity|]. now apply reread_same.
      + now rewrite Nat.add_assoc.
  Qed.
  Lemma aligned_app k l1 l2 : aligned k l1 -> aligned (k + list_sum l1) l2 -> aligned k (l1 ++ l2).
  Proof.
    revert k. induction l1 as [|n l IH]; intros k A H.
    - cbn in *. now rewrite Nat.add_0_r in H.
    - cbn in *. destruct A as [A1 A2]. split; [easy|]. apply IH; [easy|]. now rewrite <- Nat.add_assoc.
  Qed.
  Lemma aligned_full m : forall k, k mod NN = 0 -> aligned k (repeat NN m).
  Proof.
    induction m; intros k H; [exact Logic.I|]. cbn. split; [right; lia|]. apply IHm.
    replace (k + NN) with (k + 1 * NN) by lia. now rewrite Nat.mod_add by lia.
  Qed.
  Lemma sum_repeat m : list_sum (repeat NN m) = m * NN.
  Proof. induction m; cbn; [reflexivity|]. unfold list_sum in IHm. rewrite IHm. reflexivity. Qed.
  Lemma sum_cons n l : list_sum (n :: l) = n + list_sum l. Proof. reflexivity. Qed.
  Lemma sizes_shape r r1 lo : 2 <= r ->
    map (round_size NN (r, r1, lo)) (seq 0 r) = r1 :: repeat NN (r - 2) ++ [lo].
  Proof.
    intro H. replace r with (S (r - 2 + 1)) at 2 by lia. cbn [seq map]. rewrite seq_app, map_app. cbn [seq map].
    f_equal. f_equal.
    - assert (Q : forall c st, st + c <= r - 1 -> 1 <= st -> map (round_size NN (r, r1, lo)) (seq st c) = repeat NN c).
      { induction c; intros st A D; [reflexivity|]. cbn. rewrite IHc by lia. f_equal.
        destruct (Nat.eqb_spec st 0); [lia|]. destruct (Nat.eqb_spec st (r - 1)); [lia|reflexivity]. }
      apply Q; lia.
    - unfold round_size. replace (1 + (r - 2)) with (r - 1) by lia. rewrite Nat.eqb_refl.
      destruct (Nat.eqb_spec (r - 1) 0); [lia|reflexivity].
  Qed.
  Lemma plan_ok k s len : inv k s -> let plan := round_plan NN len (e_num s) in
    aligned k (map (round_size NN plan) (seq 0 (fst (fst plan)))) /\
    list_sum (map (round_size NN plan) (seq 0 (fst (fst plan)))) = len.
  Proof.
    intro I. assert (Hn : e_num s = match k with 0 => 0 | S k' => NN - S (k' mod NN) end).
    { destruct k; cbn in I; subst s; reflexivity. }
    assert (Hk : (e_num s = 0 /\ k mod NN = 0) \/ (0 < e_num s /\ k mod NN + e_num s = NN)).
    { rewrite Hn. destruct k as [|k']; [left; split; [reflexivity|apply Nat.mod_0_l; lia]|].
      destruct (divmod_split NN k' HN) as [E1 E2]. destruct (Nat.eq_dec (S (k' mod NN)) NN) as [E|E].
      - left. split; [lia|]. apply (divmod_unique NN (S k') (S (k' / NN)) 0); lia.
      - right. split; [lia|]. destruct (divmod_unique NN (S k') (k' / NN) (S (k' mod NN))) as [_ M]; lia. }
    clear Hn. set (num := e_num s) in *. clearbody num. cbn zeta. unfold round_plan.
    destruct (Nat.leb_spec len num) as [Hle|Hlt].
    - cbn [fst seq map round_size list_sum fold_right aligned]. change (Nat.eqb 0 0) with true. cbn match.
      split; [|lia]. split; [|exact Logic.I]. destruct Hk as [[]|[]]; [left; lia|right; lia].
    - destruct (divmod_split NN (len - num) HN) as [E1 E2].
      set (d := (len - num) / NN) in *. set (m := (len - num) mod NN) in *. clearbody d m.
      assert (X : exists R lo, (if Nat.eqb m 0 then (d + 2 - 1, NN) else (d + 2, m)) = (R, lo) /\ 2 <= R /\ 1 <= lo <= NN /\
                  (R - 2) * NN + lo = len - num).
      { destruct (Nat.eqb_spec m 0).
        - exists (d + 2 - 1), NN. split; [reflexivity|]. destruct d; [lia|]. split; [lia|]. split; [lia|].
          replace (S d + 2 - 1 - 2) with d by lia. rewrite E1. cbn [Nat.mul]. lia.
        - exists (d + 2), m. split; [reflexivity|]. split; [lia|]. split; [lia|]. replace (d + 2 - 2) with d by lia. lia. }
      destruct X as (R & lo & -> & HR & Hlo & HS).
      destruct Hk as [[Z K]|[Z K]].
      + rewrite Z, Nat.eqb_refl. cbn [fst snd]. destruct (Nat.eqb_spec (R - 1) 1) as [Q|Q].
        * rewrite Q. cbn [fst seq map round_size list_sum fold_right aligned]. change (Nat.eqb 0 0) with true. cbn match.
          replace (R - 2) with 0 in HS by lia. split; [|lia]. split; [right; lia|exact Logic.I].
        * rewrite sizes_shape by lia. split.
          -- change (NN :: repeat NN (R - 1 - 2) ++ [lo]) with (repeat NN (S (R - 1 - 2)) ++ [lo]).
             apply aligned_app; [now apply aligned_full|]. rewrite sum_repeat. cbn [aligned]. split; [|exact Logic.I].
             right. rewrite Nat.mod_add by lia. lia.
          -- rewrite sum_cons, list_sum_app, sum_repeat. cbn [list_sum fold_right].
             replace (R - 2) with (S (R - 1 - 2)) in HS by lia. cbn [Nat.mul] in HS. lia.
      + replace (Nat.eqb num 0) with false by (symmetry; apply Nat.eqb_neq; lia). cbn [fst snd]. rewrite sizes_shape by lia.
        assert (M0 : (k + num) mod NN = 0).
        { destruct (divmod_split NN k HN) as [F1 F2]. apply (divmod_unique NN (k + num) (S (k / NN)) 0); lia. }
        split.
        * cbn [aligned]. split; [right; lia|]. apply aligned_app; [now apply aligned_full|].
          rewrite sum_repeat. cbn [aligned]. split; [|exact Logic.I]. right. rewrite Nat.mod_add by lia. lia.
        * rewrite sum_cons, list_sum_app, sum_repeat. cbn [list_sum fold_right]. lia.
  Qed.
  Theorem batch_inv b len k s : inv k s ->
    fst (batch NN B C np_sz b len s) = map kth (seq k len) /\ inv (k + len) (snd (batch NN B C np_sz b len s)).
  Proof.
    intro I. pose proof (plan_ok k s len I) as [A S]. cbn zeta in A, S.
    pose proof (rounds_ok b _ _ _ k s I A) as R. cbn zeta in R. rewrite S in R. exact R.
  Qed.
  Definition calls_len (cs : list ccall) : nat :=
    list_sum (map (fun c => match c with COne => 1 | CBatch _ len => len end) cs).
  Theorem calls_inv cs : forall k s, inv k s ->
    fst (run_calls NN B C np_sz cs s) = map kth (seq k (calls_len cs)) /\
    inv (k + calls_len cs) (snd (run_calls NN B C np_sz cs s)).
  Proof.
    induction cs as [|c cs IH]; intros k s I; cbn [run_calls].
    - cbn. now rewrite Nat.add_0_r.
    - set (n := match c with COne => 1 | CBatch _ len => len end).
      assert (X : exists ms s1, (match c with
                      | COne => let '(m, s) := single NN B C np_sz s in ([m], s)
                      | CBatch b len => batch NN B C np_sz b len s end) = (ms, s1) /\ ms = map kth (seq k n) /\ inv (k + n) s1).
      { destruct c as [|b len].
        - pose proof (single_inv k s I) as [A A']. destruct (single NN B C np_sz s) as [m s1].
          exists [m], s1. cbn [fst snd] in *. subst m. repeat split. subst n. now rewrite Nat.add_1_r.
        - pose proof (batch_inv b len k s I) as [A A']. destruct (batch NN B C np_sz b len s) as [ms s1].
          exists ms, s1. auto. }
      destruct X as (ms & s1 & -> & -> & I1).
      pose proof (IH _ _ I1) as [R R']. destruct (run_calls NN B C np_sz cs s1) as [rest s2]. cbn [fst snd] in *. subst rest.
      unfold calls_len. cbn [map]. rewrite sum_cons. fold n. fold (calls_len cs). split.
      + rewrite seq_app, map_app. reflexivity.
      + now rewrite Nat.add_assoc.
  Qed.
  (** the closed form is injective in either half *)
  Lemma kth_inj_f2 i j : fst (kth i) = fst (kth j) -> i = j.
  Proof.
    unfold kth_mask. cbn [fst]. intro E. injection E as D M.
    destruct (divmod_split NN i HN) as [Ei _]. destruct (divmod_split NN j HN) as [Ej _]. congruence.
  Qed.
  Lemma kth_inj_fp i j : snd (kth i) = snd (kth j) -> i = j.
  Proof.
    pose proof L_pos as HL. pose proof q_pos as Hq.
    unfold kth_mask. cbn [snd]. intro E. injection E as D M.
    destruct (divmod_split NN i HN) as [Ei Bi]. destruct (divmod_split NN j HN) as [Ej Bj].
    set (gi := i / NN) in *. set (gj := j / NN) in *.
    destruct (divmod_split q gi Hq) as [Fi _]. destruct (divmod_split q gj Hq) as [Fj _].
    destruct (divmod_unique L ((gi mod q) * L + i mod NN) (gi mod q) (i mod NN) eq_refl ltac:(lia)) as [A1 A2].
    destruct (divmod_unique L ((gj mod q) * L + j mod NN) (gj mod q) (j mod NN) eq_refl ltac:(lia)) as [B1 B2].
    rewrite M in A1, A2. assert (gi mod q = gj mod q) by congruence. assert (i mod NN = j mod NN) by congruence.
    assert (gi = gj) by congruence. congruence.
  Qed.
  Lemma kth_in_range k : snd (fst (kth k)) < NN /\ snd (snd (kth k)) < np_sz.
  Proof.
    pose proof L_pos as HL. pose proof q_pos as Hq. unfold kth_mask. cbn [fst snd].
    destruct (divmod_split NN k HN) as [_ Bk]. split; [exact Bk|].
    destruct (divmod_split q (k / NN) Hq) as [_ Bg]. destruct (divmod_split L np_sz ltac:(lia)) as [E _].
    set (Q := q) in *. clearbody Q. set (m := (k / NN) mod Q) in *. clearbody m. nia.
  Qed.
End Stock.

(** * Cut and choose *)
Lemma opened_ok NN C pt r : opened NN C pt r = map (fun i => (NN + (r + i), pt + (NN + (r + i)))) (seq 0 C).
Proof. unfold opened. apply map_ext. intro i. f_equal; lia. Qed.
Section Cut.
  Variables (NN B C : nat).
  Hypotheses (HN : 1 <= NN) (HB : 2 <= B).
  Notation L := (ell NN B C).
  Notation F := (ell_faulty NN B C).
  Lemma F_eq : F = Bm1 B * NN + C /\ L = NN + F.
  Proof.
    unfold ell_faulty, ell, Bm1. destruct B as [|b]; [lia|]. replace (S b - 1) with b by lia. cbn [Nat.mul]. lia.
  Qed.
  Lemma F_pos : 1 <= F /\ Bm1 B <= F /\ C <= F.
  Proof. destruct F_eq as [E _]. unfold Bm1 in *. rewrite E. nia. Qed.
  Lemma wrap a d : d <= F -> f2_index NN B C (NN + a mod F + d) = NN + (a + d) mod F.
  Proof.
    intro Hd. destruct F_eq as [_ E]. pose proof F_pos. destruct (divmod_split F a ltac:(lia)) as [Ea Ha].
    unfold f2_index. destruct (Nat.leb_spec L (NN + a mod F + d)) as [H1|H1].
    - destruct (divmod_unique F (a + d) (S (a / F)) (a mod F + d - F)) as [_ M]; [lia| |rewrite M; lia].
      destruct (Nat.eq_dec d F); lia.
    - destruct (divmod_unique F (a + d) (a / F) (a mod F + d)) as [_ M]; [lia|lia|rewrite M; lia].
  Qed.
  Lemma wrap_fp' pt a d : d <= F -> fp_index NN B C (pt + L) (pt + (NN + a mod F + d)) = pt + (NN + (a + d) mod F).
  Proof.
    intro Hd. rewrite <- wrap by exact Hd. destruct F_eq as [_ E]. unfold fp_index, f2_index.
    destruct (Nat.leb_spec (pt + L) (pt + (NN + a mod F + d))), (Nat.leb_spec L (NN + a mod F + d)); lia.
  Qed.
  Lemma loop_ok pt : forall cnt i a,
    bucket_loop NN B C cnt i pt (pt + L) (NN + a mod F) (pt + (NN + a mod F)) =
    map (fun m => (i + m, (NN + (a + m * Bm1 B) mod F, pt + (NN + (a + m * Bm1 B) mod F)))) (seq 0 cnt).
  Proof.
    induction cnt as [|c IH]; intros i a; [reflexivity|]. cbn [bucket_loop seq map]. f_equal.
    - cbn [Nat.mul]. now rewrite !Nat.add_0_r.
    - rewrite wrap by apply F_pos. rewrite <- (Nat.add_assoc pt (NN + a mod F) (Bm1 B)).
      rewrite wrap_fp' by apply F_pos. rewrite IH. rewrite <- seq_shift, map_map. apply map_ext. intro m.
      cbn [Nat.mul]. replace (S i + m) with (i + S m) by lia.
      replace (a + Bm1 B + m * Bm1 B) with (a + (Bm1 B + m * Bm1 B)) by lia. reflexivity.
  Qed.
  (** the buckets in closed form *)
  Definition partner (rand_pt j i : nat) : nat := NN + (rand_pt + C + j + i * Bm1 B) mod F.
  Lemma buckets_ok pt r : r < F ->
    buckets NN B C pt r =
    flat_map (fun j => map (fun i => (i, (partner r j i, pt + partner r j i))) (seq 0 NN)) (seq 0 (Bm1 B)).
  Proof.
    intro Hr. pose proof F_pos as (P1 & P2 & P3). unfold buckets.
    assert (E0 : r = r mod F) by (symmetry; now apply Nat.mod_small).
    assert (E1 : f2_index NN B C (r + NN + C) = NN + (r + C) mod F).
    { rewrite <- wrap by exact P3. f_equal. rewrite (Nat.mod_small r) by exact Hr. lia. }
    assert (E2 : fp_index NN B C (pt + L) (pt + NN + r + C) = pt + (NN + (r + C) mod F)).
    { rewrite <- wrap_fp' by exact P3. f_equal. rewrite (Nat.mod_small r) by exact Hr. lia. }
    rewrite E1, E2, !flat_map_concat_map. f_equal. apply map_ext_in. intros j Hj. apply in_seq in Hj.
    rewrite wrap by lia. rewrite <- (Nat.add_assoc pt (NN + (r + C) mod F) j). rewrite wrap_fp' by lia. rewrite loop_ok.
    apply map_ext. intro i. reflexivity.
  Qed.
  (** every slot of [NN, L) is  NN + (r + k) mod F  for exactly one k < F; k < C is opened, the others are partners *)
  Lemma slot_unique r k k' : k < F -> k' < F -> (r + k) mod F = (r + k') mod F -> k = k'.
  Proof.
    intros H H' E. pose proof F_pos as (P1 & _). 
    destruct (divmod_split F (r + k) P1) as [A1 A2]. destruct (divmod_split F (r + k') P1) as [B1 B2].
    rewrite E in A1. assert ((r + k) / F = (r + k') / F) by nia. nia.
  Qed.
  Lemma slot_exists r x : x < F -> exists k, k < F /\ (r + k) mod F = x.
  Proof.
    intro H. pose proof F_pos as (P1 & _). destruct (divmod_split F r P1) as [A1 A2].
    destruct (Nat.le_gt_cases (r mod F) x).
    - exists (x - r mod F). split; [lia|]. apply (divmod_unique F _ (r / F) x); lia.
    - exists (x + F - r mod F). split; [lia|]. apply (divmod_unique F _ (S (r / F)) x); lia.
  Qed.
  Lemma pair_unique m j i j' i' : j < m -> j' < m -> j + i * m = j' + i' * m -> j = j' /\ i = i'.
  Proof.
    intros Hj Hj' E. destruct (divmod_unique m (j + i * m) i j ltac:(lia) Hj) as [A1 A2].
    destruct (divmod_unique m (j' + i' * m) i' j' ltac:(lia) Hj') as [B1 B2]. rewrite E in *. split; congruence.
  Qed.
  Theorem partner_unique r j i j' i' : j < Bm1 B -> j' < Bm1 B -> i < NN -> i' < NN ->
    partner r j i = partner r j' i' -> j = j' /\ i = i'.
  Proof.
    intros Hj Hj' Hi Hi' E. unfold partner in E. destruct F_eq as [EF _].
    assert (D : C + (j + i * Bm1 B) = C + (j' + i' * Bm1 B)).
    { apply (slot_unique r).
      - rewrite EF. nia.
      - rewrite EF. nia.
      - replace (r + (C + (j + i * Bm1 B))) with (r + C + j + i * Bm1 B) by lia.
        replace (r + (C + (j' + i' * Bm1 B))) with (r + C + j' + i' * Bm1 B) by lia. lia. }
    apply (pair_unique (Bm1 B)); lia.
  Qed.
  Theorem partner_range r j i : NN <= partner r j i < L.
  Proof.
    unfold partner. destruct F_eq as [_ E]. pose proof F_pos as (P1 & _).
    pose proof (Nat.mod_upper_bound (r + C + j + i * Bm1 B) F ltac:(lia)). lia.
  Qed.
  (** slots: opened with wrap-around, or partner of exactly one entry *)
  Theorem slot_cases r x : NN <= x < L ->
    (exists k, k < C /\ x = NN + (r + k) mod F) \/ (exists j i, j < Bm1 B /\ i < NN /\ x = partner r j i).
  Proof.
    intro H. destruct F_eq as [EF EL]. destruct (slot_exists r (x - NN) ltac:(lia)) as (k & Hk & E).
    destruct (Nat.lt_ge_cases k C) as [Hc|Hc].
    - left. exists k. split; [exact Hc|lia].
    - right. assert (Hb : 1 <= Bm1 B) by (unfold Bm1; lia).
      destruct (divmod_split (Bm1 B) (k - C) Hb) as [D1 D2].
      exists ((k - C) mod Bm1 B), ((k - C) / Bm1 B). split; [exact D2|]. split.
      + apply Nat.div_lt_upper_bound; [lia|]. rewrite EF in Hk. lia.
      + unfold partner. replace (r + C + (k - C) mod Bm1 B + (k - C) / Bm1 B * Bm1 B) with (r + k) by lia. lia.
  Qed.
  Theorem slot_exclusive r k j i : k < C -> j < Bm1 B -> i < NN -> NN + (r + k) mod F <> partner r j i.
  Proof.
    intros Hk Hj Hi E. unfold partner in E. destruct F_eq as [EF _].
    assert (D : k = C + (j + i * Bm1 B)).
    { apply (slot_unique r).
      - rewrite EF. nia.
      - rewrite EF. nia.
      - replace (r + (C + (j + i * Bm1 B))) with (r + C + j + i * Bm1 B) by lia. lia. }
    lia.
  Qed.
End Cut.
