(** One tree on both sides: what the two threads do together. *)
From Coq Require Import NArith List Bool Arith Lia.
From Verif Require Import Word FpModel TreeModel VoleModel MpThreadModel MpThreadSpec MpThreadDiamond MpThreadRun.
Import ListNotations.

Definition agree (n : nat) (t t' : mem) : Prop := forall i, i < n -> t i = t' i.
Lemma agree_mset n t t' i v : agree n t t' -> agree n (mset t i v) (mset t' i v).
Proof. intros H j Hj. unfold mset. destruct (Nat.eqb j i); auto. Qed.
Section Ext.
  Variables L R : N -> N.
  Lemma expand_ext n t t' ch pa : agree n t t' -> pa + 1 < n -> agree n (expand_2to4 L R t ch pa) (expand_2to4 L R t' ch pa).
  Proof. intros H Hp. unfold expand_2to4. rewrite (H pa), (H (pa + 1)) by lia. now repeat apply agree_mset. Qed.
  Lemma gen_layer_ext n c : forall t t' m0 m1, agree n t t' -> 4 * c <= n ->
    let '(a, x, y) := gen_layer L R c t m0 m1 in let '(a', x', y') := gen_layer L R c t' m0 m1 in agree n a a' /\ x = x' /\ y = y'.
  Proof.
    induction c as [|c IH]; intros t t' m0 m1 H Hc; cbn [gen_layer]; [auto|].
    pose proof (expand_ext n t t' (2 * (2 * c)) (2 * c) H ltac:(lia)) as E.
    rewrite !(E (2 * (2 * c))), !(E (2 * (2 * c) + 2)), !(E (2 * (2 * c) + 1)), !(E (2 * (2 * c) + 3)) by lia.
    apply IH; [exact E|lia].
  Qed.
  Lemma gen_layers_ext n cnt : forall h t t' m0 m1, agree n t t' -> 1 <= h -> 2 ^ (h + cnt) <= n ->
    let '(a, x, y) := gen_layers L R cnt h t m0 m1 in let '(a', x', y') := gen_layers L R cnt h t' m0 m1 in agree n a a' /\ x = x' /\ y = y'.
  Proof.
    induction cnt as [|cnt IH]; intros h t t' m0 m1 H Hh Hc; cbn [gen_layers]; [auto|].
    assert (P : 4 * (2 ^ h / 2) <= n).
    { destruct h as [|h]; [lia|]. cbn [Nat.pow]. rewrite (Nat.mul_comm 2 (2 ^ h)), Nat.div_mul by lia.
      assert (2 ^ (S (S h)) <= 2 ^ (S h + S cnt)) by (apply Nat.pow_le_mono_r; lia). cbn [Nat.pow] in H0. lia. }
    pose proof (gen_layer_ext n (2 ^ h / 2) t t' 0%N 0%N H P) as E.
    destruct (gen_layer L R (2 ^ h / 2) t 0%N 0%N) as [[a x] y], (gen_layer L R (2 ^ h / 2) t' 0%N 0%N) as [[a' x'] y'].
    destruct E as (E & -> & ->). apply IH; [exact E|lia|]. replace (S h + cnt) with (h + S cnt) by lia. exact Hc.
  Qed.
  Lemma leaf_loop_ext n cnt : forall i t t' acc, agree n t t' -> i + cnt <= n ->
    let '(a, x) := leaf_loop cnt i t acc in let '(a', x') := leaf_loop cnt i t' acc in agree n a a' /\ x = x'.
  Proof.
    induction cnt as [|cnt IH]; intros i t t' acc H Hc; cbn [leaf_loop]; [auto|]. rewrite (H i) by lia. apply IH; [now apply agree_mset|lia].
  Qed.
  Lemma sp_send_ext depth seed g t t' : 2 <= depth -> agree (leave_n depth) t t' ->
    let '(a, x, y, z) := sp_send L R depth seed g t in let '(a', x', y', z') := sp_send L R depth seed g t' in
    agree (leave_n depth) a a' /\ x = x' /\ y = y' /\ z = z'.
  Proof.
    intros Hd H. unfold sp_send, ggm_gen.
    assert (E0 : agree (leave_n depth) (expand_1to2 L R t seed) (expand_1to2 L R t' seed)) by (unfold expand_1to2; now repeat apply agree_mset).
    assert (P : 2 ^ (1 + (depth - 2)) <= leave_n depth) by (unfold leave_n; replace (1 + (depth - 2)) with (depth - 1) by lia; lia).
    pose proof (gen_layers_ext (leave_n depth) (depth - 2) 1 _ _ (mset (fun _ => 0%N) 0 (expand_1to2 L R t seed 0)) (mset (fun _ => 0%N) 0 (expand_1to2 L R t seed 1)) E0 (le_n 1) P) as E.
    replace (expand_1to2 L R t' seed 0) with (expand_1to2 L R t seed 0) by reflexivity.
    replace (expand_1to2 L R t' seed 1) with (expand_1to2 L R t seed 1) by reflexivity.
    destruct (gen_layers _ _ _ _ (expand_1to2 L R t seed) _ _) as [[a x] y], (gen_layers _ _ _ _ (expand_1to2 L R t' seed) _ _) as [[a' x'] y'].
    destruct E as (E & -> & ->). pose proof (leaf_loop_ext (leave_n depth) (leave_n depth) 0 a a' 0%N E (le_n _)) as F.
    destruct (leaf_loop (leave_n depth) 0 a 0%N) as [c s], (leaf_loop (leave_n depth) 0 a' 0%N) as [c' s']. destruct F as [F ->]. auto.
  Qed.
  Lemma xor2_ext n cnt : forall i t t' acc, agree n t t' -> i + 2 * cnt <= n + 1 -> xor_every2 cnt i t acc = xor_every2 cnt i t' acc.
  Proof. induction cnt as [|cnt IH]; intros i t t' acc H Hc; cbn [xor_every2]; [reflexivity|]. rewrite (H i) by lia. apply IH; [exact H|lia]. Qed.
  Lemma expand_layer_ext n c : forall t t', agree n t t' -> 2 * c <= n -> agree n (expand_layer L R c t) (expand_layer L R c t').
  Proof. induction c as [|c IH]; intros t t' H Hc; cbn [expand_layer]; [exact H|]. apply IH; [|lia]. apply expand_ext; [exact H|lia]. Qed.
  Lemma recover_ext n depth d lr fill sum t t' : agree n t t' -> 1 <= d -> 2 ^ d <= n -> lr <= 1 ->
    agree n (layer_recover L R depth d lr fill sum t) (layer_recover L R depth d lr fill sum t').
  Proof.
    intros H Hd Hn Hl. unfold layer_recover.
    assert (D : 2 * (2 ^ d / 2) = 2 ^ d) by (destruct d as [|d]; [lia|]; cbn [Nat.pow]; rewrite (Nat.mul_comm 2 (2 ^ d)), Nat.div_mul by lia; lia).
    rewrite (xor2_ext n (2 ^ d / 2) lr t t' 0%N H) by lia.
    pose proof (agree_mset n t t' fill (N.lxor (xor_every2 (2 ^ d / 2) lr t' 0%N) sum) H) as E.
    destruct (Nat.eqb d (depth - 1)); [exact E|]. apply expand_layer_ext; [exact E|lia].
  Qed.
  Lemma recon_ext n depth b m cnt : forall i fill t t', agree n t t' -> 1 <= i -> (0 < cnt -> 2 ^ (i + cnt - 1) <= n) ->
    agree n (recon_loop L R cnt i depth b m fill t) (recon_loop L R cnt i depth b m fill t').
  Proof.
    induction cnt as [|cnt IH]; intros i fill t t' H Hi Hc; cbn [recon_loop]; [exact H|].
    assert (E : agree n (mset (mset t (2 * fill + 1) 0%N) (2 * fill) 0%N) (mset (mset t' (2 * fill + 1) 0%N) (2 * fill) 0%N)) by (now repeat apply agree_mset).
    assert (P : 2 ^ i <= n) by (etransitivity; [apply Nat.pow_le_mono_r; [|apply (Nat.le_add_r i cnt)]; lia|]; replace (i + cnt) with (i + S cnt - 1) by lia; apply Hc; lia).
    destruct (negb (b (i - 1))); (apply IH; [apply recover_ext; auto|lia|]); intro Hp; replace (S i + cnt - 1) with (i + S cnt - 1) by lia; apply Hc; lia.
  Qed.
  Lemma sp_recv_ext depth b m sh d2 t t' : agree (leave_n depth) t t' ->
    agree (leave_n depth) (sp_recv L R depth b m sh d2 t) (sp_recv L R depth b m sh d2 t').
  Proof.
    intro H. unfold sp_recv, ggm_recon.
    assert (E : agree (leave_n depth) (recon_loop L R (depth - 1) 1 depth b m 0 t) (recon_loop L R (depth - 1) 1 depth b m 0 t')).
    { apply recon_ext; [exact H|lia|]. intro Hp. unfold leave_n. replace (1 + (depth - 1) - 1) with (depth - 1) by lia. lia. }
    pose proof (leaf_loop_ext (leave_n depth) (leave_n depth) 0 _ _ 0%N (agree_mset _ _ _ (get_index depth b) 0%N E) (le_n _)) as F.
    destruct (leaf_loop _ _ (mset (recon_loop _ _ _ _ _ _ _ _ t) _ _) _) as [c s], (leaf_loop _ _ (mset (recon_loop _ _ _ _ _ _ _ _ t') _ _) _) as [c' s'].
    destruct F as [F ->]. now apply agree_mset.
  Qed.
  Lemma sp_V_ext depth d t t' : agree (leave_n depth) t t' -> sp_V depth d t = sp_V depth d t'.
  Proof. intro H. unfold sp_V, slice. f_equal. apply map_ext_in. intros i Hi. apply in_seq in Hi. rewrite H; [reflexivity|lia]. Qed.
End Ext.
Lemma store_ext v v' base len t t' : (forall i, v i = v' i) -> agree len t t' -> forall i, store v base len t i = store v' base len t' i.
Proof.
  intros A B i. unfold store. destruct ((base <=? i) && (i <? base + len)) eqn:E; [|apply A].
  apply andb_true_iff in E. rewrite Nat.leb_le, Nat.ltb_lt in E. apply B. lia.
Qed.
Lemma cells_map f a n i : i < n -> cells (map f (seq a n)) i = f (a + i).
Proof. intro H. unfold cells. rewrite (nth_indep _ 0%N (f 0)) by (rewrite map_length, seq_length; exact H). rewrite map_nth, seq_nth by exact H. reflexivity. Qed.
Lemma nth_slice t n i : i < n -> nth i (slice t n) 0%N = t i.
Proof. intro H. exact (cells_map t 0 n i H). Qed.
Lemma warr_same m sd a f i : warr m sd a f (sd, a, i) = f i.
Proof. unfold warr. destruct sd, a; reflexivity. Qed.
Lemma warr_other m sd a f sd' a' i : sd' <> sd \/ a' <> a -> warr m sd a f (sd', a', i) = m (sd', a', i).
Proof. unfold warr. destruct sd, sd', a, a'; cbn; intros [H|H]; congruence. Qed.

Section Ot.
  Variables (cap tree_n depth : nat).
  Definition flat (ps : list (N * N)) : list N := flat_map (fun p => [fst p; snd p]) ps.
  Lemma exec_ot_send ch n : forall k i m0 m1 c s,
    exec cap s (p_ot_send tree_n depth ch n k i m0 m1 c)
      (sends cap s (Snd, ch) (flat (send_loop (ot_n tree_n depth) n k i (arr (s_mem s) Snd Pre) (fun j => bit_of (s_mem s (Snd, Bits, j))) m0 m1))) c.
  Proof.
    induction n as [|n IH]; intros k i m0 m1 c s; cbn [p_ot_send send_loop flat flat_map]; [apply exec_refl|].
    eapply exec_S; [reflexivity|]. destruct (negb (bit_of (s_mem s (Snd, Bits, k)))); cbn [fst snd app];
      (eapply exec_S; [reflexivity|]; eapply exec_S; [reflexivity|]; eapply exec_S; [reflexivity|]; eapply exec_S; [reflexivity|]).
    - eapply exec_eqv_r; [apply IH|].
      change (sends cap s (Snd, ch) (?a :: ?b :: ?l)) with (sends cap (send cap (send cap s (Snd, ch) a) (Snd, ch) b) (Snd, ch) l).
      rewrite !(sends_mem cap (send cap s _ _) (Snd, ch) [_] : s_mem (send cap (send cap s _ _) _ _) = _).
      rewrite !(sends_mem cap s (Snd, ch) [_] : s_mem (send cap s _ _) = _). apply eqv_refl.
    - eapply exec_eqv_r; [apply IH|].
      rewrite !(sends_mem cap (send cap s _ _) (Snd, ch) [_] : s_mem (send cap (send cap s _ _) _ _) = _).
      rewrite !(sends_mem cap s (Snd, ch) [_] : s_mem (send cap s _ _) = _). apply eqv_refl.
  Qed.
  Lemma exec_ot_recv m tk ch pads : forall k i bs data c rest,
    exec cap (quiet m tk (Snd, ch) (flat pads ++ rest)) (p_ot_recv ch (length pads) k i bs data c)
      (quiet m tk (Snd, ch) rest) (c (recv_loop k i (arr m Rcv Pre) bs pads data)).
  Proof.
    induction pads as [|[a0 a1] pads IH]; intros k i bs data c rest; cbn [length p_ot_recv recv_loop flat flat_map app fst snd]; [apply exec_refl|].
    eapply exec_trans; [apply exec_recv|]. cbv beta. eapply exec_trans; [apply exec_recv|]. cbv beta. eapply exec_S; [reflexivity|].
    apply IH.
  Qed.
  Lemma send_loop_ext N0 n : forall k i pre pre' bits bits' m0 m1,
    (forall j, k <= j < k + n -> pre j = pre' j /\ pre (j + N0) = pre' (j + N0) /\ bits j = bits' j) ->
    send_loop N0 n k i pre bits m0 m1 = send_loop N0 n k i pre' bits' m0 m1.
  Proof.
    induction n as [|n IH]; intros k i pre pre' bits bits' m0 m1 H; cbn [send_loop]; [reflexivity|].
    destruct (H k ltac:(lia)) as (A & B & C). rewrite A, B, C. f_equal. apply IH. intros j Hj. apply H. lia.
  Qed.
  Lemma send_loop_length N0 n : forall k i pre bits m0 m1, length (send_loop N0 n k i pre bits m0 m1) = n.
  Proof. induction n as [|n IH]; intros; cbn [send_loop length]; [reflexivity|]. now rewrite IH. Qed.
  Lemma recv_loop_ext pads : forall k i pre pre' b data, (forall j, k <= j < k + length pads -> pre j = pre' j) ->
    recv_loop k i pre b pads data = recv_loop k i pre' b pads data.
  Proof.
    induction pads as [|p pads IH]; intros k i pre pre' b data H; cbn [recv_loop length] in *; [reflexivity|].
    rewrite (H k) by lia. apply IH. intros j Hj. apply H. lia.
  Qed.
End Ot.

Section Items.
  Variables (cap : nat) (L R H Hs : N -> N) (G : N -> nat -> N) (threads tree_n depth : nat) (rnd : trand) (key mac : mem).
  Hypothesis Hd : 2 <= depth.
  Notation lv := (leave_n depth).
  Notation len := (depth - 1).
  Notation item := (p_item L R Hs tree_n depth (r_seed rnd) (r_b rnd)).
  (** the arrays that do not change after the choices *)
  Record fixed (m : loc -> N) : Prop := {
    f_bits : forall k, k < ot_n tree_n depth -> bit_of (m (Snd, Bits, k)) = o_bits (ots_s tree_n depth rnd) k;
    f_pre_s : forall i, i < 2 * ot_n tree_n depth -> m (Snd, Pre, i) = send_pre H (ot_n tree_n depth) (r_ot_s rnd) (r_ot_delta rnd) i;
    f_pre_r : forall i, i < ot_n tree_n depth -> m (Rcv, Pre, i) = recv_pre H (r_ot_r rnd) i;
    f_key : forall i, i <= tree_n -> m (Snd, Tri, i) = key i;
    f_mac : forall i, i <= tree_n -> m (Rcv, Tri, i) = mac i }.
  Lemma fixed_warr m sd a f : fixed m -> (a = Vec \/ a = Buf \/ a = Chi \/ a = Seed \/ a = Verdict) -> fixed (warr m sd a f).
  Proof.
    intros [A B C D E] Ha. assert (Q : forall sd' a' i, a' = Bits \/ a' = Pre \/ a' = Tri -> warr m sd a f (sd', a', i) = m (sd', a', i)).
    { intros sd' a' i Hi. apply warr_other. right. destruct Hi as [->|[->| ->]]; destruct Ha as [->|[->|[->|[->| ->]]]]; discriminate. }
    constructor; intros; rewrite Q by auto; auto.
  Qed.
  Definition Inv1 (x : mem * mem) (m : loc -> N) : Prop :=
    (forall i, m (Snd, Vec, i) = fst x i) /\ (forall i, m (Rcv, Vec, i) = snd x i) /\ fixed m.
  Definition step1 (x : mem * mem) (s c : nat) : mem * mem := run_trees L R H tree_n depth rnd [(s, c)] key mac (fst x) (snd x).
  Lemma tree_index s i : s < tree_n -> i < len -> s * len + i < ot_n tree_n depth.
  Proof.
    intros A B. unfold ot_n. assert (S s * len <= tree_n * len) by (apply Nat.mul_le_mono_r; lia).
    rewrite (Nat.mul_comm len). cbn in H0. lia.
  Qed.
  Lemma tree_item x m tk ch s kA kB : s < tree_n -> ch < threads -> Inv1 x m ->
    exists m1 m' l, exec cap (still m tk) (item Snd 1 ch s kA) (quiet m1 tk (Snd, ch) l) kA /\
      exec cap (quiet m1 tk (Snd, ch) l) (item Rcv 1 ch s kB) (still m' tk) kB /\ Inv1 (step1 x s ch) m'.
  Proof.
    intros Hs0 _ (VS & VR & F). destruct x as [Y Z]. cbn [fst snd] in VS, VR. unfold step1. cbn [run_trees fst snd].
    unfold tree_pair.
    set (vs := map (arr m Snd Vec) (seq (s * lv) lv)). set (vr := map (arr m Rcv Vec) (seq (s * lv) lv)).
    assert (AS : agree lv (cells vs) (view Y (s * lv))) by (intros i Hi; unfold vs; rewrite cells_map by exact Hi; apply VS).
    assert (AR : agree lv (cells vr) (view Z (s * lv))) by (intros i Hi; unfold vr; rewrite cells_map by exact Hi; apply VR).
    pose proof (sp_send_ext L R depth (r_seed rnd s) (key s) _ _ Hd AS) as X.
    destruct (sp_send L R depth (r_seed rnd s) (key s) (cells vs)) as [[[t m0] m1] sum] eqn:ES.
    destruct (sp_send L R depth (r_seed rnd s) (key s) (view Y (s * lv))) as [[[t' m0'] m1'] sum'] eqn:ES'.
    destruct X as (At & <- & <- & <-).
    set (mS := warr m Snd Vec (store (arr m Snd Vec) (s * lv) lv (fun j => nth j (slice t lv) 0%N))).
    set (pads := send_loop (ot_n tree_n depth) len (s * len) 0 (arr mS Snd Pre) (fun j => bit_of (mS (Snd, Bits, j))) m0 m1).
    assert (FS : fixed mS) by (apply fixed_warr; auto).
    assert (EP : pads = ot_send (ot_n tree_n depth) len s (send_pre H (ot_n tree_n depth) (r_ot_s rnd) (r_ot_delta rnd)) (ots_s tree_n depth rnd) m0 m1).
    { unfold pads, ot_send. apply send_loop_ext. intros j Hj. assert (j < ot_n tree_n depth) by (replace j with (s * len + (j - s * len)) by lia; apply tree_index; lia).
      unfold arr. rewrite !(f_pre_s _ FS) by lia. rewrite (f_bits _ FS) by assumption. auto. }
    exists mS.
    set (mm := recv_loop (s * len) 0 (arr mS Rcv Pre) (r_b rnd s) pads (fun _ => 0%N)).
    assert (LP : length pads = len) by apply send_loop_length.
    assert (EM : mm = ot_recv len s (recv_pre H (r_ot_r rnd)) (r_b rnd s) pads).
    { unfold mm, ot_recv. apply recv_loop_ext. intros j Hj. apply (f_pre_r _ FS). rewrite LP in Hj. replace j with (s * len + (j - s * len)) by lia. apply tree_index; lia. }
    set (tr := sp_recv L R depth (r_b rnd s) mm sum (mac s) (cells vr)).
    exists (warr mS Rcv Vec (store (arr mS Rcv Vec) (s * lv) lv (fun j => nth j (slice tr lv) 0%N))), (flat pads ++ [sum]).
    split; [|split].
    - cbn [p_item]. unfold p_tree_s. eapply exec_S; [reflexivity|]. cbn [still s_mem]. rewrite (f_key _ F) by lia.
      eapply exec_trans; [apply exec_read_from|]. cbn [still s_mem]. fold vs. rewrite ES.
      eapply exec_trans; [apply exec_write_from|]. unfold slice at 1. rewrite map_length, seq_length. 
      match goal with |- exec _ ?s _ _ _ => change s with (still mS tk) end.
      eapply exec_trans; [apply exec_ot_send|]. change (s_mem (still mS tk)) with mS. fold pads.
      eapply exec_S; [reflexivity|]. eapply exec_S; [reflexivity|]. eapply exec_S; [reflexivity|]. apply exec_0.
      change (send cap (sends cap (still mS tk) (Snd, ch) (flat pads)) (Snd, ch) sum) with (sends cap (sends cap (still mS tk) (Snd, ch) (flat pads)) (Snd, ch) [sum]).
      rewrite <- sends_app. apply eqv_trans with (flush (quiet mS tk (Snd, ch) (flat pads ++ [sum])) (Snd, ch)); [apply flush_eqv, flush_sends|apply flush_quiet].
    - cbn [p_item]. unfold p_tree_r. rewrite <- LP at 1. eapply exec_trans; [apply exec_ot_recv|]. fold mm.
      eapply exec_trans; [apply exec_recv|]. cbv beta. eapply exec_S; [reflexivity|]. cbn [quiet s_mem].
      rewrite (f_mac _ FS) by lia. eapply exec_trans; [apply exec_read_from|]. cbn [quiet s_mem].
      replace (map (arr mS Rcv Vec) (seq (s * lv) lv)) with vr.
      2:{ unfold vr. apply map_ext. intro i. unfold arr, mS. rewrite warr_other by (left; discriminate). reflexivity. }
      fold tr. eapply exec_trans; [apply exec_write_from|]. unfold slice at 1. rewrite map_length, seq_length. cbn [quiet s_mem wmem].
      eapply exec_S; [reflexivity|]. apply exec_0.
      eapply eqv_trans; [apply (flush_quiet _ tk (Snd, ch) (Rcv, ch) [])|]. apply eqv_sym, still_quiet.
    - split; [|split].
      + intro i. rewrite warr_other by (left; discriminate). unfold mS. rewrite warr_same. cbn [fst].
        apply store_ext; [apply VS|]. intros j Hj. rewrite nth_slice by exact Hj. now apply At.
      + intro i. rewrite warr_same. cbn [snd]. apply store_ext.
        * intro j. unfold arr, mS. rewrite warr_other by (left; discriminate). apply VR.
        * intros j Hj. rewrite nth_slice by exact Hj. unfold tr. rewrite EM, EP. now apply sp_recv_ext.
      + apply fixed_warr; auto.
  Qed.
  Lemma run1 ts : forall x, runX (mem * mem) step1 x ts = run_trees L R H tree_n depth rnd ts key mac (fst x) (snd x).
  Proof.
    induction ts as [|[s c] ts IH]; intros [Y Z]; cbn [runX fold_left]; [reflexivity|]. change (fold_left _ ts ?x) with (runX _ step1 x ts). rewrite IH.
    unfold step1. cbn [fst snd run_trees]. destruct (tree_pair _ _ _ _ _ _ _ _ _ _ _) as [a e]. reflexivity.
  Qed.

  (** second phase *)
  Variable sd0 : N.
  Hypothesis chal : forall c, r_chal rnd c = G sd0 c.
  Definition st2 : Type := (mem * mem * mem * mem)%type.
  Definition Inv2 (Y : mem) (x : st2) (m : loc -> N) : Prop :=
    let '(Z, V, W, X) := x in
    (forall i, m (Snd, Vec, i) = Y i) /\ (forall i, m (Rcv, Vec, i) = Z i) /\ fixed m /\
    (forall sd c, c < threads -> m (sd, Seed, c) = G sd0 c) /\
    (forall s, m (Snd, Buf, s) = V s) /\ (forall s, m (Rcv, Buf, s) = W s) /\ (forall s, m (Rcv, Chi, s) = X s).
  Definition step2 (Y : mem) (x : st2) (s c : nat) : st2 :=
    let '(Z, V, W, X) := x in run_msgs Hs depth rnd [(s, c)] mac Y Z V W X.
  Lemma exec_write1 s sd a i v k : exec cap s (Write (sd, a, i) v k) (wmem s (warr (s_mem s) sd a (mset (arr (s_mem s) sd a) i v))) k.
  Proof.
    eapply exec_S; [reflexivity|]. apply exec_0. repeat split; auto. intros [[x y] j]. cbn [set_mem wmem s_mem warr]. unfold mset, arr.
    destruct (loc_dec (x, y, j) (sd, a, i)) as [E|N0].
    - injection E as -> -> ->. rewrite Nat.eqb_refl. destruct sd, a; reflexivity.
    - destruct (side_eqb x sd && cell_eqb y a) eqn:E; [|reflexivity]. apply andb_true_iff in E. destruct E as [E1 E2].
      assert (x = sd) by (destruct x, sd; try discriminate; reflexivity). assert (y = a) by (destruct y, a; try discriminate; reflexivity). subst.
      destruct (Nat.eqb_spec j i); [congruence|reflexivity].
  Qed.
  Lemma dig_chal c : digest_of Hs rnd c = dig Hs (G sd0 c).
  Proof. unfold digest_of, dig. now rewrite chal. Qed.
  Lemma index_lt' bs : get_index depth bs < lv.
  Proof.
    unfold get_index, leave_n. assert (X : forall c i p k, p < 2 ^ k -> index_loop c i bs p < 2 ^ (k + c)).
    { induction c as [|c IH]; intros i p k Hp; cbn [index_loop]; [now rewrite Nat.add_0_r|].
      replace (k + S c) with (S k + c) by lia. apply IH. cbn [Nat.pow]. destruct (negb (bs i)); lia. }
    apply (X (depth - 1) 0 0 0). cbn. lia.
  Qed.
  Ltac other := rewrite warr_other by (first [left; discriminate|right; discriminate]).
  Lemma msg_item Y x m tk ch s kA kB : s < tree_n -> ch < threads -> Inv2 Y x m ->
    exists m1 m' l, exec cap (still m tk) (item Snd 2 ch s kA) (quiet m1 tk (Snd, ch) l) kA /\
      exec cap (quiet m1 tk (Snd, ch) l) (item Rcv 2 ch s kB) (still m' tk) kB /\ Inv2 Y (step2 Y x s ch) m'.
  Proof.
    destruct x as [[[Z V] W] X]. intros Hs0 Hch (VS & VR & F & SD & BS & BR & CR). cbn [step2 run_msgs]. rewrite dig_chal.
    set (vs := map (arr m Snd Vec) (seq (s * lv) lv)). set (vr := map (arr m Rcv Vec) (seq (s * lv) lv)).
    assert (AS : agree lv (cells vs) (view Y (s * lv))) by (intros i Hi; unfold vs; rewrite cells_map by exact Hi; apply VS).
    assert (AR : agree lv (cells vr) (view Z (s * lv))) by (intros i Hi; unfold vr; rewrite cells_map by exact Hi; apply VR).
    set (d := dig Hs (G sd0 ch)). set (pos := get_index depth (r_b rnd s)). pose proof (index_lt' (r_b rnd s)) as HP. fold pos in HP.
    set (mS := warr m Snd Buf (mset (arr m Snd Buf) s (sp_V depth d (cells vs)))).
    set (m2 := warr mS Rcv Chi (mset (arr mS Rcv Chi) s (sp_chi_alpha depth d (r_b rnd s)))).
    set (m3 := warr m2 Rcv Buf (mset (arr m2 Rcv Buf) s (sp_V depth d (cells vr)))).
    set (m4 := warr m3 Rcv Vec (mset (arr m3 Rcv Vec) (s * lv + pos) (N.lxor (mkblock (hi64 (mac s)) 0) (m3 (Rcv, Vec, s * lv + pos))))).
    assert (FS : fixed mS) by (apply fixed_warr; auto).
    exists mS, m4, []. split; [|split].
    - eapply exec_eqv_r; [|apply still_quiet]. cbn [p_item]. unfold p_msg_s. eapply exec_S; [reflexivity|]. cbn [still s_mem]. rewrite SD by exact Hch.
      eapply exec_trans; [apply exec_read_from|]. cbn [still s_mem]. fold vs. fold d. apply exec_write1.
    - eapply exec_eqv_l; [|apply eqv_sym, still_quiet]. cbn [p_item]. unfold p_msg_r.
      eapply exec_S; [reflexivity|]. cbn [still s_mem]. rewrite (f_mac _ FS) by lia.
      eapply exec_S; [reflexivity|]. cbn [still s_mem]. replace (mS (Rcv, Seed, ch)) with (G sd0 ch) by (unfold mS; other; now rewrite SD).
      fold d. eapply exec_trans; [apply exec_write1|]. cbn [still s_mem].
      match goal with |- exec _ ?q _ _ _ => change q with (still m2 tk) end.
      eapply exec_trans; [apply exec_read_from|]. cbn [still s_mem].
      replace (map (arr m2 Rcv Vec) (seq (s * lv) lv)) with vr.
      2:{ unfold vr. apply map_ext. intro i. unfold arr, m2, mS. do 2 other. reflexivity. }
      eapply exec_trans; [apply exec_write1|]. cbn [still s_mem].
      match goal with |- exec _ ?q _ _ _ => change q with (still m3 tk) end.
      eapply exec_S; [reflexivity|]. cbn [still s_mem]. fold pos. apply exec_write1.
    - cbn [Inv2].
      assert (W3 : forall i, m3 (Rcv, Vec, i) = Z i) by (intro i; unfold m3, m2, mS; do 3 other; apply VR).
      split; [|split; [|split; [|split; [|split; [|split]]]]].
      + intro i. unfold m4, m3, m2, mS. do 4 other. apply VS.
      + intro i. unfold m4. rewrite warr_same. rewrite W3. unfold mset, arr. rewrite W3. unfold store, sp_mark. fold pos.
        destruct (Nat.eqb_spec i (s * lv + pos)) as [->|N0].
        * replace ((s * lv <=? s * lv + pos) && (s * lv + pos <? s * lv + lv)) with true by (symmetry; apply andb_true_iff; rewrite Nat.leb_le, Nat.ltb_lt; lia).
          unfold mset, view. replace (s * lv + pos - s * lv) with pos by lia. now rewrite Nat.eqb_refl.
        * destruct ((s * lv <=? i) && (i <? s * lv + lv)) eqn:E; [|reflexivity]. apply andb_true_iff in E. rewrite Nat.leb_le, Nat.ltb_lt in E.
          unfold mset, view. destruct (Nat.eqb_spec (i - s * lv) pos); [lia|]. f_equal. lia.
      + unfold m4, m3, m2. repeat (apply fixed_warr; auto).
      + intros sd c Hc. unfold m4, m3, m2, mS. do 4 other. now apply SD.
      + intro i. unfold m4, m3, m2. do 3 other. unfold mS. rewrite warr_same. unfold mset. destruct (Nat.eqb i s); [now apply sp_V_ext|apply BS].
      + intro i. unfold m4. other. unfold m3. rewrite warr_same. unfold mset. destruct (Nat.eqb i s); [now apply sp_V_ext|].
        unfold arr, m2, mS. do 2 other. apply BR.
      + intro i. unfold m4, m3. do 2 other. unfold m2. rewrite warr_same. unfold mset. destruct (Nat.eqb i s); [reflexivity|].
        unfold arr, mS. other. apply CR.
  Qed.
  Lemma run2 Y ts : forall Z V W X, runX st2 (step2 Y) (Z, V, W, X) ts = run_msgs Hs depth rnd ts mac Y Z V W X.
  Proof.
    induction ts as [|[s c] ts IH]; intros Z V W X; cbn [runX fold_left]; [reflexivity|]. change (fold_left _ ts ?x) with (runX _ (step2 Y) x ts).
    cbn [fst snd step2 run_msgs]. apply IH.
  Qed.
  (** the check buffers of trees in the list do not depend on what they held before *)
  Lemma run_msgs_old Y ts : forall Z V W X V' W' X',
    let '(z, v, w, x) := run_msgs Hs depth rnd ts mac Y Z V W X in let '(z', v', w', x') := run_msgs Hs depth rnd ts mac Y Z V' W' X' in
    z = z' /\ forall s, In s (map fst ts) \/ (V s = V' s /\ W s = W' s /\ X s = X' s) -> v s = v' s /\ w s = w' s /\ x s = x' s.
  Proof.
    induction ts as [|[s c] ts IH]; intros Z V W X V' W' X'; cbn [run_msgs map fst].
    - split; [reflexivity|]. intros s [[]|H0]; exact H0.
    - specialize (IH (store Z (s * lv) lv (sp_mark depth (r_b rnd s) (mac s) (view Z (s * lv))))
        (mset V s (sp_V depth (digest_of Hs rnd c) (view Y (s * lv)))) (mset W s (sp_V depth (digest_of Hs rnd c) (view Z (s * lv))))
        (mset X s (sp_chi_alpha depth (digest_of Hs rnd c) (r_b rnd s)))
        (mset V' s (sp_V depth (digest_of Hs rnd c) (view Y (s * lv)))) (mset W' s (sp_V depth (digest_of Hs rnd c) (view Z (s * lv))))
        (mset X' s (sp_chi_alpha depth (digest_of Hs rnd c) (r_b rnd s)))).
      destruct (run_msgs _ _ _ _ _ _ _ (mset V _ _) _ _) as [[[z v] w] x], (run_msgs _ _ _ _ _ _ _ (mset V' _ _) _ _) as [[[z' v'] w'] x'].
      destruct IH as [E IH]. split; [exact E|]. intros q Hq. apply IH. unfold mset.
      destruct (Nat.eqb_spec q s) as [->|N0]; [right; auto|]. destruct Hq as [[->|Hq]|Hq]; [congruence|now left|right; exact Hq].
  Qed.
End Items.
