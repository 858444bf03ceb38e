(** The F_p MPFSS check, whose challenge is drawn after the tree messages, against an arbitrary verifier. *)
From Coq Require Import NArith Lia List Bool Arith Ring.
From Verif Require Import Word FpModel WordProofs FpProofs PolyRoots ListUtil Prime61 ArithSpec ArithProofs TreeModel TreeSpec TreeProofs VoleModel VoleSpec LpnProofs CopeProofs MpfssProofs CheatAlg MalVerModel MalVerSpec.
Import ListNotations.
Local Open Scope nat_scope.
Ltac Zify.zify_post_hook ::= idtac.
Add Ring fp_ring_mv : fp_rt.

Lemma bca_gen mac X n : (forall s, s < n -> (hi64 (mac s) < PR)%N) -> (forall s, s < n -> (X s < PR)%N) -> forall cnt i acc, (acc < PR)%N -> i + cnt <= n ->
  (bca_loop cnt i mac X acc < PR)%N /\
  toF (bca_loop cnt i mac X acc) = padd (toF acc) (psum (fun x => pmul (toF (hi64 (mac (i + x)))) (toF (X (i + x)))) cnt).
Proof.
  intros Hm HX. induction cnt as [|c IH]; intros i acc Ha Hi; cbn [bca_loop]; [split; [easy|cbn; ring]|].
  pose proof (HX i ltac:(lia)) as Q. pose proof (Hm i ltac:(lia)) as Q2.
  rewrite lo_id by now apply N.lt_le_incl.
  pose proof (mm_lt (hi64 (mac i)) (X i) (N.lt_le_incl _ _ Q2) (N.lt_le_incl _ _ Q)) as Q3.
  destruct (IH (S i) (add_mod acc (mult_mod (hi64 (mac i)) (X i)))) as [A B]; auto; [|lia|].
  { apply am_lt; [easy|now apply N.lt_le_incl]. }
  split; [easy|]. rewrite B, am_F, mm_F, psum_shift, Nat.add_0_r by now apply N.lt_le_incl.
  rewrite (psum_ext (fun x => pmul (toF (hi64 (mac (S i + x)))) (toF (X (S i + x)))) (fun x => pmul (toF (hi64 (mac (i + S x)))) (toF (X (i + S x)))))
    by (intros; now rewrite Nat.add_succ_r). ring.
Qed.
Lemma va_gen W n : (forall s, s < n -> (W s < PR)%N) -> forall cnt i acc, (acc <= PR)%N -> i + cnt <= n ->
  toF (va_loop cnt i W acc) = padd (toF acc) (psum (fun x => toF (W (i + x))) cnt).
Proof.
  intro HW. induction cnt as [|c IH]; intros i acc Ha Hi; cbn [va_loop]; [cbn; ring|].
  pose proof (HW i ltac:(lia)) as Q. rewrite mod128_s by (auto; now apply N.lt_le_incl).
  pose proof (mod_PR_lt (acc + W i)) as M. rewrite lo_id by now apply N.lt_le_incl.
  rewrite (IH (S i) ((acc + W i) mod PR)%N) by (try lia; now apply N.lt_le_incl).
  rewrite toF_mod, toF_add, psum_shift, Nat.add_0_r.
  rewrite (psum_ext (fun x => toF (W (S i + x))) (fun x => toF (W (i + S x)))) by (intros; now rewrite Nat.add_succ_r). ring.
Qed.
(** leaves of a prover are canonical whatever it received, if secret_sum is *)
Lemma p_leaves_lt L R depth b g mac t0 : 2 <= depth -> (q_sum g < PR)%N -> (lo64 mac < PR)%N -> forall j, j < leave_n depth -> (p_leaves L R depth b g mac t0 j < PR)%N.
Proof.
  intros Hd Hg Hm j Hj. unfold p_leaves, sp_recv. set (t := ggm_recon _ _ _ _ _ _). set (pos := get_index depth b).
  destruct (leaf_loop_ok (leave_n depth) 0 (mset t pos 0%N) 0%N eq_refl) as [A [B C]].
  destruct (leaf_loop (leave_n depth) 0 (mset t pos 0%N) 0%N) as [t' s]. cbn [fst snd] in A, B, C.
  destruct (Nat.eq_dec j pos) as [->|Ne].
  - rewrite mset_eq. cbn [view_of snd]. apply am_lt; [exact Hm|]. apply sub_le, N.lt_le_incl, am_lt; [exact Hg|now apply N.lt_le_incl].
  - rewrite mset_neq by exact Ne. rewrite A. rewrite (proj2 (Nat.leb_le 0 j)), (proj2 (Nat.ltb_lt j (0 + leave_n depth))) by lia. apply ext_lt.
Qed.

Section World.
  Variables (L R : N -> N) (tree_n depth : nat) (d : N) (g : nat -> tmsg) (key : mem).
  Hypothesis Hdep : 2 <= depth.
  Hypothesis Hd : (d < PR)%N.
  Hypothesis Hg : forall s, s < tree_n -> (q_sum (g s) < PR)%N.
  Notation lv := (leave_n depth).
  Section One.
    Variables (b : nat -> nat -> bool) (mac : mem) (t0 : nat -> mem).
    Hypothesis Hc : forall s, s < tree_n -> share_ok d (mac s) (key s).
    Notation leaves s := (p_leaves L R depth (b s%nat) (g s%nat) (mac s%nat) (t0 s%nat)).
    Notation pos s := (punctured (depth - 1) (b s)).
    Definition effF (s j : nat) : fp := psub (toF (leaves s j)) (if j =? pos s then pmul (toF (hi64 (mac s))) (toF d) else p0).
    Lemma eff_F s j : s < tree_n -> toF (eff_key d (pos s) (mac s) (leaves s) j) = effF s j.
    Proof.
      intro Hs. unfold eff_key, effF. destruct (j =? pos s); [|ring]. change prm with PR. change (xval (mac s)) with (hi64 (mac s)).
      rewrite toF_mod, toF_add. pose proof (mod_PR_lt (hi64 (mac s) * d)) as M. rewrite toF_PR_sub by now apply N.lt_le_incl. rewrite toF_mod, toF_mul. ring.
    Qed.
    Definition p_va (dig z : N) : N := va tree_n (fun s => sp_V depth dig (leaves s)) z.
    Lemma va_F dig z kz : (dig < PR)%N -> share_ok d z kz ->
      toF (p_va dig z) = psub (psum (fun j => pmul (chiF dig lv j) (psum (fun s => effF s j) tree_n)) lv)
        (padd (toF kz) (pmul (toF d) (toF (p_star tree_n depth dig b mac z)))).
    Proof.
      intros Hdig Hz. apply share_F in Hz. destruct Hz as [[Z1 [Z2 Z3]] Z4]. pose proof (lv_pos depth) as Lp.
      assert (Lt : forall s j, s < tree_n -> j < lv -> (leaves s j < PR)%N).
      { intros s j Hs Hj. apply p_leaves_lt; auto. pose proof (proj1 (share_F _ _ _) (Hc s Hs)). tauto. }
      assert (In : forall s, s < tree_n -> (sp_V depth dig (leaves s) < PR)%N /\ toF (sp_V depth dig (leaves s)) = psum (fun j => pmul (chiF dig lv j) (toF (leaves s j))) lv).
      { intros s Hs. unfold sp_V. destruct (inn_slice dig (fun i => lo64 (leaves s i)) lv Hdig Lp) as [[_ A1] [_ A2]].
        { intros x Hx. rewrite lo_id by (apply N.lt_le_incl; auto). auto. }
        split; [exact A1|]. rewrite A2. apply psum_ext. intros j Hj. now rewrite lo_id by (apply N.lt_le_incl; auto). }
      assert (CH : forall s, (sp_chi_alpha depth dig (b s) < PR)%N).
      { intro s. unfold sp_chi_alpha. rewrite get_index_ok. pose proof (chi_lt dig lv Hdig) as C.
        apply Forall_forall with (x := nth (pos s) (uni_hash_coeff_gen dig lv) 0%N) in C; [exact C|]. apply nth_In. rewrite chi_len by easy. apply punctured_lt. }
      unfold p_va, p_star, va, x_star.
      destruct (bca_gen mac (fun s => sp_chi_alpha depth dig (b s)) tree_n (fun s Hs => proj1 (proj1 (proj1 (share_F _ _ _) (Hc s Hs)))) (fun s _ => CH s)
        tree_n 0 0%N eq_refl (le_n _)) as [B1 B2]. cbn [Nat.add] in B2.
      set (bc := bca_loop tree_n 0 mac _ 0%N) in *. clearbody bc.
      rewrite am_F, sub_F by (try apply sub_le; now apply N.lt_le_incl).
      rewrite sub_PR by (apply N.lt_le_incl; exact Z2).
      rewrite (va_gen _ tree_n (fun s Hs => proj1 (In s Hs)) tree_n 0 _ (N.le_sub_l _ _) (le_n _)). cbn [Nat.add].
      rewrite toF_PR_sub by now apply N.lt_le_incl. rewrite Z4, B2, toF_0.
      rewrite (psum_ext (fun x => toF (sp_V depth dig (leaves x))) (fun s => padd (psum (fun j => pmul (chiF dig lv j) (effF s j)) lv)
        (pmul (toF d) (pmul (toF (hi64 (mac s))) (toF (sp_chi_alpha depth dig (b s))))))).
      2:{ intros s Hs. rewrite (proj2 (In s Hs)). unfold sp_chi_alpha. rewrite get_index_ok. fold (chiF dig lv (pos s)).
          assert (E : forall n, psum (fun j => pmul (chiF dig lv j) (toF (leaves s j))) n =
            padd (psum (fun j => pmul (chiF dig lv j) (effF s j)) n) (if pos s <? n then pmul (toF d) (pmul (toF (hi64 (mac s))) (chiF dig lv (pos s))) else p0)).
          { induction n as [|n IH]; [cbn; ring|]. cbn [psum]. rewrite IH. unfold effF at 3. destruct (Nat.eqb_spec n (pos s)) as [->|Ne].
            - rewrite Nat.ltb_irrefl. rewrite (proj2 (Nat.ltb_lt (pos s) (S (pos s)))) by lia. ring.
            - destruct (Nat.ltb_spec (pos s) n), (Nat.ltb_spec (pos s) (S n)); try lia; ring. }
          rewrite E. assert (Pl : pos s < lv) by apply punctured_lt. now rewrite (proj2 (Nat.ltb_lt _ _) Pl). }
      rewrite psum_add, psum_scal.
      assert (Sw : forall m n (f : nat -> nat -> fp) (c : nat -> fp), psum (fun s => psum (fun j => pmul (c j) (f s j)) m) n = psum (fun j => pmul (c j) (psum (fun s => f s j) n)) m).
      { intros m n f c. induction n as [|n IH]; cbn [psum].
        - induction m as [|m IH]; cbn [psum]; [reflexivity|]. rewrite <- IH. ring.
        - rewrite IH, <- psum_add. apply psum_ext. intros; ring. }
      rewrite Sw. ring.
    Qed.
  End One.
End World.
Lemma nsum_F f n : toF (nsum (map f (seq 0 n))) = psum (fun s => toF (f s)) n.
Proof.
  assert (G : forall n k, toF (nsum (map f (seq k n))) = psum (fun s => toF (f (k + s))) n).
  { clear n. induction n as [|n IH]; intro k; cbn [seq map nsum]; [apply toF_0|]. rewrite toF_add, IH, psum_shift, Nat.add_0_r.
    f_equal. apply psum_ext. intros x _. now rewrite Nat.add_succ_r. }
  exact (G n 0).
Qed.
Lemma all_or {A} (P : A -> Prop) (Q : Prop) l : (forall x, In x l -> P x \/ Q) -> (forall x, In x l -> P x) \/ Q.
Proof.
  induction l as [|a l IH]; intro H; [left; intros ? []|]. destruct (H a (or_introl eq_refl)) as [Ha|Q']; [|now right].
  destruct IH as [I|Q']; [intros; apply H; now right| |now right]. left. intros x [<-|Hx]; auto.
Qed.
Section Two.
  Variables (L R Hs : N -> N) (tree_n depth : nat) (d : N) (g : nat -> tmsg) (key : mem).
  Variables (b b' : nat -> nat -> bool) (mac mac' : mem) (t0 t0' : nat -> mem).
  Hypothesis Hdep : 2 <= depth.
  Hypothesis Hd : (d < PR)%N.
  Hypothesis Hg : forall s, s < tree_n -> (q_sum (g s) < PR)%N.
  Hypothesis Hc : forall s, s < tree_n -> share_ok d (mac s) (key s).
  Hypothesis Hc' : forall s, s < tree_n -> share_ok d (mac' s) (key s).
  Notation lv := (leave_n depth).
  Definition eff_of (b : nat -> nat -> bool) (mac : mem) (t0 : nat -> mem) (s j : nat) : N :=
    eff_key d (punctured (depth - 1) (b s)) (mac s) (p_leaves L R depth (b s) (g s) (mac s) (t0 s)) j.
  Lemma late_challenge : (exists j, j < 2 ^ (depth - 1) /\ key_sum tree_n (eff_of b mac t0) j <> key_sum tree_n (eff_of b' mac' t0') j) ->
    forall digs, NoDup digs -> (forall x, In x digs -> (x < PR)%N /\ exists z z' kz h,
      share_ok d z kz /\ share_ok d z' kz /\ p_star tree_n depth x b mac z = p_star tree_n depth x b' mac' z' /\
      p_accepts L R Hs tree_n depth x b g mac z t0 h = true /\ p_accepts L R Hs tree_n depth x b' g mac' z' t0' h = true) ->
    length digs <= 2 ^ (depth - 1) \/ exists x y, x <> y /\ Hs x = Hs y.
  Proof.
    intros (j & Hj & Ne) digs Nd Hdg.
    set (U := fun j => psum (fun s => effF L R depth d g b mac t0 s j) tree_n). set (U' := fun j => psum (fun s => effF L R depth d g b' mac' t0' s j) tree_n).
    set (e := map (fun j => psub (U j) (U' j)) (seq 0 lv)).
    assert (NeU : U j <> U' j).
    { intro E. apply Ne. apply toF_inj; try apply mod_PR_lt. change prm with PR. unfold key_sum. change prm with PR. rewrite !toF_mod, !nsum_F.
      rewrite (psum_ext (fun s => toF (eff_of b mac t0 s j)) (fun s => effF L R depth d g b mac t0 s j)) by (intros s Hs'; unfold eff_of; now apply (eff_F L R tree_n)).
      rewrite (psum_ext (fun s => toF (eff_of b' mac' t0' s j)) (fun s => effF L R depth d g b' mac' t0' s j)) by (intros s Hs'; unfold eff_of; now apply (eff_F L R tree_n)).
      exact E. }
    destruct (all_or (fun x => pow_sum fp p0 padd pmul e (toF x) (toF x) = p0) (exists x y, x <> y /\ Hs x = Hs y) digs) as [A|Q]; [|left|now right].
    - intros x Hx. destruct (Hdg x Hx) as (Lx & z & z' & kz & h & Sz & Sz' & Est & A1 & A2). unfold p_accepts in A1, A2. apply N.eqb_eq in A1, A2. rewrite A1 in A2.
      fold (p_va L R tree_n depth g b mac t0 x z) in A2. fold (p_va L R tree_n depth g b' mac' t0' x z') in A2.
      destruct (N.eq_dec (p_va L R tree_n depth g b mac t0 x z) (p_va L R tree_n depth g b' mac' t0' x z')) as [E|N']; [left|right; eauto].
      apply (f_equal toF) in E. rewrite (va_F L R tree_n depth d g key Hdep Hd Hg b mac t0 Hc x z kz Lx Sz) in E.
      rewrite (va_F L R tree_n depth d g key Hdep Hd Hg b' mac' t0' Hc' x z' kz Lx Sz') in E. rewrite Est in E.
      rewrite (pow_sum_peval fp p0 p1 padd pmul psub popp fp_rt). unfold e. rewrite <- chi_sum_pev by exact Lx.
      assert (Sb : forall n, psum (fun j => pmul (chiF x lv j) (psub (U j) (U' j))) n = psub (psum (fun j => pmul (chiF x lv j) (U j)) n) (psum (fun j => pmul (chiF x lv j) (U' j)) n))
        by (induction n as [|n IH]; cbn [psum]; [|rewrite IH]; ring).
      rewrite Sb. set (q := padd _ _) in E.
      change (psub (psum (fun j => pmul (chiF x lv j) (U j)) lv) q = psub (psum (fun j => pmul (chiF x lv j) (U' j)) lv) q) in E.
      set (s1 := psum (fun j => pmul (chiF x lv j) (U j)) lv) in *. set (s2 := psum (fun j => pmul (chiF x lv j) (U' j)) lv) in *.
      transitivity (psub (psub s1 q) (psub s2 q)); [ring|]. rewrite E. ring.
    - rewrite <- (map_length toF digs). replace (2 ^ (depth - 1)) with (length e) by (unfold e; now rewrite map_length, seq_length).
      apply fp_pow_roots.
      + intro F. rewrite Forall_forall in F. specialize (F (psub (U j) (U' j))). apply NeU.
        transitivity (padd (psub (U j) (U' j)) (U' j)); [ring|]. rewrite F; [ring|]. unfold e. apply in_map_iff. exists j. split; [reflexivity|]. apply in_seq. unfold leave_n. lia.
      + apply NoDup_map_in; [|exact Nd]. intros x y Hx Hy E. apply toF_inj; auto; apply Hdg; auto.
      + intros y Hy. apply in_map_iff in Hy. destruct Hy as (x & <- & Hx). now apply A.
  Qed.
End Two.
(** * acceptance does not depend on the prover's values *)
Lemma va_lt W n : (forall s, s < n -> (W s < PR)%N) -> forall cnt i acc, (acc <= PR)%N -> i + cnt <= n -> 1 <= cnt -> (va_loop cnt i W acc < PR)%N.
Proof.
  intro HW. induction cnt as [|c IH]; intros i acc Ha Hi Hc; [lia|]. cbn [va_loop].
  pose proof (HW i ltac:(lia)) as Q. rewrite mod128_s by (auto; now apply N.lt_le_incl).
  pose proof (mod_PR_lt (acc + W i)) as M. rewrite lo_id by now apply N.lt_le_incl.
  destruct c as [|c]; [exact M|]. apply IH; try lia.
Qed.
Section Values.
  Variables (L R Hs : N -> N) (tree_n depth : nat) (d : N) (g : nat -> tmsg) (key : mem) (b : nat -> nat -> bool) (mac mac' : mem) (t0 : nat -> mem).
  Hypothesis Hn : 1 <= tree_n.
  Hypothesis Hdep : 2 <= depth.
  Hypothesis Hd : (d < PR)%N.
  Hypothesis Hg : forall s, s < tree_n -> (q_sum (g s) < PR)%N.
  Hypothesis Hc : forall s, s < tree_n -> share_ok d (mac s) (key s).
  Hypothesis Hc' : forall s, s < tree_n -> share_ok d (mac' s) (key s).
  Lemma effF_val m s j : s < tree_n -> j < leave_n depth -> (forall s, s < tree_n -> share_ok d (m s) (key s)) ->
    effF L R depth d g b m t0 s j =
    let v := view_of depth (b s) (g s) in let pos := get_index depth (b s) in
    let tr := leaf_loop (leave_n depth) 0 (mset (ggm_recon L R depth (b s) (fun x => nth x (fst v) 0%N) (t0 s)) pos 0%N) 0%N in
    if j =? pos then psub (toF (key s)) (padd (toF (snd v)) (toF (snd tr))) else toF (fst tr j).
  Proof.
    intros Hs' Hj Hm. unfold effF, p_leaves, sp_recv. cbv zeta. rewrite get_index_ok. set (pos := punctured (depth - 1) (b s)).
    set (t := ggm_recon _ _ _ _ _ _). pose proof (proj1 (share_F _ _ _) (Hm s Hs')) as [[M1 [M2 M3]] M4].
    destruct (leaf_loop_ok (leave_n depth) 0 (mset t pos 0%N) 0%N eq_refl) as [_ [B _]].
    destruct (leaf_loop (leave_n depth) 0 (mset t pos 0%N) 0%N) as [t' s0]. cbn [fst snd] in *.
    destruct (Nat.eqb_spec j pos) as [->|Ne]; [|rewrite mset_neq by exact Ne; ring]. rewrite mset_eq.
    assert (Q : (q_sum (g s) < PR)%N) by auto. cbn [view_of snd].
    assert (A : (add_mod (q_sum (g s)) s0 < PR)%N) by (apply am_lt; [exact Q|now apply N.lt_le_incl]).
    rewrite am_F, sub_F, am_F, M4 by (try apply sub_le; now apply N.lt_le_incl). ring.
  Qed.
  Lemma accept_values x z z' kz h : (x < PR)%N -> share_ok d z kz -> share_ok d z' kz ->
    p_star tree_n depth x b mac z = p_star tree_n depth x b mac' z' ->
    p_accepts L R Hs tree_n depth x b g mac z t0 h = p_accepts L R Hs tree_n depth x b g mac' z' t0 h.
  Proof.
    intros Hx Sz Sz' E. unfold p_accepts. fold (p_va L R tree_n depth g b mac t0 x z). fold (p_va L R tree_n depth g b mac' t0 x z').
    assert (Lt : forall m z, (forall s, s < tree_n -> share_ok d (m s) (key s)) -> share_ok d z kz -> (p_va L R tree_n depth g b m t0 x z < PR)%N).
    { clear - Hn Hdep Hd Hg Hx. intros m z Hm Sz. unfold p_va, va. rewrite sub_PR.
      - apply (va_lt _ tree_n); [|apply N.le_sub_l|lia|exact Hn]. intros s Hs. unfold sp_V. apply inn_slice; [exact Hx|apply lv_pos|].
        assert (forall j, j < leave_n depth -> (p_leaves L R depth (b s) (g s) (m s) (t0 s) j < PR)%N).
        { intros j Hj. apply p_leaves_lt; auto. pose proof (proj1 (share_F _ _ _) (Hm s Hs)). tauto. }
        intros j Hj. rewrite lo_id by (apply N.lt_le_incl; auto). auto.
      - apply N.lt_le_incl. pose proof (proj1 (share_F _ _ _) Sz). tauto. }
    replace (p_va L R tree_n depth g b mac t0 x z) with (p_va L R tree_n depth g b mac' t0 x z'); [reflexivity|]. symmetry.
    apply toF_inj; auto. rewrite (va_F L R tree_n depth d g key Hdep Hd Hg b mac t0 Hc x z kz Hx Sz), (va_F L R tree_n depth d g key Hdep Hd Hg b mac' t0 Hc' x z' kz Hx Sz'), E.
    f_equal. apply psum_ext. intros j Hj. f_equal. apply psum_ext. intros s Hs'. now rewrite !effF_val.
  Qed.
End Values.
