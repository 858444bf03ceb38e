(** The word the verifier hashes in the MPFSS check, and the link with the honest run of VoleTripleModel. *)
From Coq Require Import NArith ZArith Lia List Bool Arith Ring.
From Verif Require Import Word FpModel WordProofs FpProofs PolyRoots Prime61 ArithSpec ArithProofs TreeModel TreeSpec TreeProofs VoleModel VoleSpec
  LpnProofs CopeProofs MpfssProofs PoolModel PoolProofs VoleTripleModel VoleThms VoleThms2 CheatModel CheatProofs.
Import ListNotations.
Local Open Scope nat_scope.
Ltac Zify.zify_post_hook ::= idtac.
Add Ring fp_ring_ch2 : fp_rt.

Lemma snd_msgs_ok depth ts dig Y : NoDup (map fst ts) -> forall V s,
  snd_msgs depth ts dig Y V s =
  match find (fun x => fst x =? s) ts with Some x => sp_V depth (dig (snd x)) (view Y (s * leave_n depth)) | None => V s end.
Proof.
  induction ts as [|[a c] ts IH]; intros Nd V s; cbn [snd_msgs find fst snd]; [reflexivity|].
  inversion Nd as [|? ? Na Nd']; subst. rewrite IH by easy. destruct (Nat.eqb_spec a s) as [->|Ne].
  - destruct (find (fun x => fst x =? s) ts) as [[a' c']|] eqn:F.
    + exfalso. apply find_some in F. destruct F as [I E]. cbn in E. apply Nat.eqb_eq in E. subst. apply Na. apply in_map_iff. now exists (s, c').
    + unfold mset. now rewrite Nat.eqb_refl.
  - destruct (find (fun x => fst x =? s) ts) as [[a' c']|]; [reflexivity|]. unfold mset. 
    destruct (Nat.eqb_spec s a) as [E|E]; [congruence|reflexivity].
Qed.
Lemma vb_loop_ok V n cnt : (forall s, s < n -> (V s < PR)%N) -> forall i acc, (acc <= PR)%N -> i + cnt <= n ->
  (vb_loop cnt i V acc <= PR)%N /\ (1 <= cnt -> (vb_loop cnt i V acc < PR)%N) /\
  toF (vb_loop cnt i V acc) = padd (toF acc) (psum (fun x => toF (V (i + x))) cnt).
Proof.
  intros HV. induction cnt as [|c IH]; intros i acc Ha Hi; cbn [vb_loop]; [split; [easy|split; [lia|cbn; ring]]|].
  pose proof (HV i ltac:(lia)) as Q. rewrite lo_id by now apply N.lt_le_incl.
  pose proof (am_lt' acc (V i) Ha Q) as M.
  destruct (IH (S i) (add_mod acc (V i))) as [A [B C]]; [now apply N.lt_le_incl|lia|].
  split; [easy|]. split.
  - intros _. destruct c; [exact M|apply B; lia].
  - rewrite C, am_F, psum_shift, Nat.add_0_r by (auto; now apply N.lt_le_incl).
    rewrite (psum_ext (fun x => toF (V (S i + x))) (fun x => toF (V (i + S x)))) by (intros; now rewrite Nat.add_succ_r). ring.
Qed.
Lemma psum_lin (f g : nat -> fp) d n : psum (fun x => psub (f x) (pmul d (g x))) n = psub (psum f n) (pmul d (psum g n)).
Proof. induction n as [|n IH]; cbn [psum]; [ring|]. rewrite IH. ring. Qed.

(** what the prover's blocks say about the reply *)
Definition r_lo (lv : nat) (dig : nat -> N) (ch : nat -> nat) (z : mem) (s : nat) : fp :=
  psum (fun j => pmul (chiF (dig (ch s)) lv j) (toF (lo64 (z (s * lv + j))))) lv.
Definition r_hi (lv : nat) (dig : nat -> N) (ch : nat -> nat) (z : mem) (s : nat) : fp :=
  psum (fun j => pmul (chiF (dig (ch s)) lv j) (toF (hi64 (z (s * lv + j))))) lv.
Definition r_word (tree_n lv : nat) (dig : nat -> N) (ch : nat -> nat) (z mac : mem) : N :=
  fv (psub (psum (r_lo lv dig ch z) tree_n) (toF (lo64 (mac tree_n)))).
Definition r_star (tree_n lv : nat) (dig : nat -> N) (ch : nat -> nat) (z mac : mem) : N :=
  fv (psub (toF (hi64 (mac tree_n))) (psum (r_hi lv dig ch z) tree_n)).

Lemma reply_ok threads tree_n depth d dig (key mac Y Z : mem) xs : 2 <= depth -> 1 <= threads -> 1 <= tree_n -> (d < PR)%N -> (xs < PR)%N ->
  (forall c, (dig c < PR)%N) -> corr d 0 (tree_n * leave_n depth) Y Z -> share_ok d (mac tree_n) (key tree_n) ->
  let ch := chan (tree_tasks threads tree_n) in
  snd_reply threads tree_n depth d dig key Y xs =
  ((r_word tree_n (leave_n depth) dig ch Z mac + d * (r_star tree_n (leave_n depth) dig ch Z mac + (PR - xs))) mod PR)%N.
Proof.
  intros Hdep Hthr Ht Hd Hxs Hdig Hc Hk ch. unfold snd_reply, vb.
  pose proof (lv_pos depth) as Lp. set (lv := leave_n depth) in *.
  pose proof (tasks_fst threads tree_n Hthr) as TF.
  assert (Nd : NoDup (map fst (tree_tasks threads tree_n))) by (rewrite TF; apply seq_NoDup).
  set (V := snd_msgs depth (tree_tasks threads tree_n) dig Y (fun _ => 0%N)).
  assert (EV : forall s, s < tree_n -> (V s < PR)%N /\ toF (V s) = psub (r_lo lv dig ch Z s) (pmul (toF d) (r_hi lv dig ch Z s))).
  { intros s Hs. unfold V. rewrite snd_msgs_ok by exact Nd. unfold ch, chan, r_lo, r_hi.
    destruct (find (fun x => fst x =? s) (tree_tasks threads tree_n)) as [[a c]|] eqn:F.
    - cbn [snd]. unfold sp_V. fold lv.
      assert (Sh : forall j, j < lv -> share_ok d (Z (s * lv + j)) (Y (s * lv + j))) by (intros j Hj; apply Hc; [lia|nia]).
      assert (B : forall j, j < lv -> (Y (s * lv + j)%nat < PR)%N) by (intros j Hj; pose proof (proj1 (share_F _ _ _) (Sh j Hj)); tauto).
      unfold view. destruct (inn_slice (dig c) (fun i => lo64 (Y (s * lv + i))) lv (Hdig c) Lp) as [[_ A1] [_ A2]].
      { intros j Hj. rewrite lo_id by (apply N.lt_le_incl; auto). auto. }
      split; [exact A1|]. rewrite A2, <- psum_lin. apply psum_ext. intros j Hj. rewrite lo_id by (apply N.lt_le_incl; auto).
      pose proof (proj1 (share_F _ _ _) (Sh j Hj)) as [_ E]. rewrite E. ring.
    - exfalso. assert (I : In s (map fst (tree_tasks threads tree_n))) by (rewrite TF; apply in_seq; lia).
      apply in_map_iff in I. destruct I as (x & E & I). apply (find_none _ _ F) in I. rewrite E, Nat.eqb_refl in I. discriminate. }
  pose proof (proj1 (share_F _ _ _) Hk) as [[K1 [K2 K3]] K4].
  rewrite (lo_id (key tree_n)), (lo_id d) by now apply N.lt_le_incl.
  pose proof (mm_lt d xs (N.lt_le_incl _ _ Hd) (N.lt_le_incl _ _ Hxs)) as Q1.
  pose proof (am_lt (key tree_n) (mult_mod d xs) K3 (N.lt_le_incl _ _ Q1)) as Q2.
  set (tmp := add_mod (key tree_n) (mult_mod d xs)) in *.
  assert (Et : toF tmp = padd (toF (key tree_n)) (pmul (toF d) (toF xs))) by (unfold tmp; rewrite am_F, mm_F by (now apply N.lt_le_incl); reflexivity).
  assert (Es : sub128 PR tmp = (PR - tmp)%N) by (apply sub128_small; [now apply N.lt_le_incl|reflexivity]).
  rewrite Es, lo_id by apply N.le_sub_l.
  destruct (vb_loop_ok V tree_n tree_n (fun s Hs => proj1 (EV s Hs)) 0 (PR - tmp)%N (N.le_sub_l _ _) ltac:(lia)) as (B1 & B2 & B3).
  apply toF_inj; [apply B2, Ht|apply mod_PR_lt|]. rewrite B3. clear B1 B2 B3. cbn [Nat.add].
  rewrite (psum_ext (fun x => toF (V x)) (fun s => psub (r_lo lv dig ch Z s) (pmul (toF d) (r_hi lv dig ch Z s)))) by (intros s Hs; now apply EV).
  rewrite psum_lin, toF_PR_sub, Et by now apply N.lt_le_incl.
  rewrite toF_mod, toF_add, toF_mul, toF_add, toF_PR_sub by now apply N.lt_le_incl. unfold r_word, r_star. rewrite !toF_fv, K4. ring.
Qed.
(** the expected word is the one the receiver's code computes *)
Lemma star_code L R p (b : nat -> nat -> bool) vs (mac : mem) dig ch : lp_wf p -> (forall c, (dig c < PR)%N) -> (forall i, i <= lp_t p -> (hi64 (mac i) < PR)%N) ->
  r_star (lp_t p) (leave_n (lp_log p + 1)) dig ch (x_sparse L R p b vs mac) mac =
  x_star (lp_t p) mac (fun s => sp_chi_alpha (lp_log p + 1) (dig (ch s)) (b s)) (mac (lp_t p)).
Proof.
  intros Wf Hdig Hm. set (X := fun s => sp_chi_alpha (lp_log p + 1) (dig (ch s)) (b s)).
  assert (El : leave_n (lp_log p + 1) = 2 ^ lp_log p) by (unfold leave_n; f_equal; lia).
  pose proof (lv_pos (lp_log p + 1)) as Lp.
  assert (Pl : forall s, punctured (lp_log p) (b s) < leave_n (lp_log p + 1)) by (intro s; rewrite El; apply punctured_lt).
  assert (EX : forall s, (X s < PR)%N /\ toF (X s) = chiF (dig (ch s)) (leave_n (lp_log p + 1)) (punctured (lp_log p) (b s))).
  { intro s. unfold X, sp_chi_alpha. rewrite get_index_ok, Nat.add_sub. split; [|reflexivity].
    pose proof (chi_lt (dig (ch s)) (leave_n (lp_log p + 1)) (Hdig _)) as C.
    eapply Forall_forall in C; [exact C|]. apply nth_In. rewrite chi_len by easy. apply Pl. }
  assert (B : forall cnt i acc, (acc < PR)%N -> i + cnt <= lp_t p -> (bca_loop cnt i mac X acc < PR)%N /\
    toF (bca_loop cnt i mac X acc) = padd (toF acc) (psum (fun x => pmul (toF (hi64 (mac (i + x)))) (toF (X (i + x)))) cnt)).
  { induction cnt as [|c IH]; intros i acc Ha Hi; cbn [bca_loop]; [split; [easy|cbn; ring]|].
    pose proof (proj1 (EX i)) as Q. pose proof (Hm i ltac:(lia)) as Q2. rewrite lo_id by now apply N.lt_le_incl.
    pose proof (mm_lt (hi64 (mac i)) (X i) (N.lt_le_incl _ _ Q2) (N.lt_le_incl _ _ Q)) as Q3.
    destruct (IH (S i) (add_mod acc (mult_mod (hi64 (mac i)) (X i)))) as [A B]; [apply am_lt; [easy|now apply N.lt_le_incl]|lia|].
    split; [easy|]. rewrite B, am_F, mm_F, psum_shift, Nat.add_0_r by now apply N.lt_le_incl.
    rewrite (psum_ext (fun x => pmul (toF (hi64 (mac (S i + x)))) (toF (X (S i + x)))) (fun x => pmul (toF (hi64 (mac (i + S x)))) (toF (X (i + S x)))))
      by (intros; now rewrite Nat.add_succ_r). ring. }
  destruct (B (lp_t p) 0 0%N eq_refl (Nat.le_refl _)) as [B1 B2]. unfold x_star.
  pose proof (Hm (lp_t p) (Nat.le_refl _)) as Ht.
  apply toF_inj; [apply fv_lt|apply am_lt; [exact Ht|apply sub_le, N.lt_le_incl, B1]|].
  unfold r_star. rewrite toF_fv, am_F by (try apply sub_le; now apply N.lt_le_incl). rewrite sub_F, B2, toF_0 by now apply N.lt_le_incl.
  cbn [Nat.add]. rewrite (psum_ext (r_hi (leave_n (lp_log p + 1)) dig ch (x_sparse L R p b vs mac)) (fun x => pmul (toF (hi64 (mac x))) (toF (X x)))); [ring|].
  intros s Hs. rewrite (proj2 (EX s)). unfold r_hi.
  assert (G : forall n, n <= leave_n (lp_log p + 1) ->
    psum (fun j => pmul (chiF (dig (ch s)) (leave_n (lp_log p + 1)) j) (toF (hi64 (x_sparse L R p b vs mac (s * leave_n (lp_log p + 1) + j))))) n =
    if punctured (lp_log p) (b s) <? n then pmul (toF (hi64 (mac s))) (chiF (dig (ch s)) (leave_n (lp_log p + 1)) (punctured (lp_log p) (b s))) else p0).
  { induction n as [|n IH]; intro Hn; cbn [psum]; [reflexivity|]. rewrite IH by lia. 
    replace (s * leave_n (lp_log p + 1) + n) with (s * 2 ^ lp_log p + n) by (now rewrite El). assert (Hn' : n < 2 ^ lp_log p) by (rewrite El in Hn; exact Hn). rewrite (x_sparse_hi L R p b vs mac s n Hn').
    destruct (Nat.eqb_spec n (punctured (lp_log p) (b s))) as [->|Ne].
    - rewrite Nat.ltb_irrefl, (proj2 (Nat.ltb_lt _ (S _)) (Nat.lt_succ_diag_r _)). ring.
    - rewrite toF_0. destruct (Nat.ltb_spec (punctured (lp_log p) (b s)) n), (Nat.ltb_spec (punctured (lp_log p) (b s)) (S n)); try lia; ring. }
  rewrite G by apply Nat.le_refl. now rewrite (proj2 (Nat.ltb_lt _ _) (Pl s)).
Qed.
(** the reply is injective in the key unless the word is the expected one *)
Lemma reply_inj a x0 xs d1 d2 : (x0 < PR)%N -> (xs < PR)%N -> (d1 < PR)%N -> (d2 < PR)%N -> xs <> x0 ->
  ((a + d1 * (x0 + (PR - xs))) mod PR = (a + d2 * (x0 + (PR - xs))) mod PR)%N -> d1 = d2.
Proof.
  intros H0 H1 H2 H3 Ne E. apply toF_eq in E. rewrite !toF_add, !toF_mul, !toF_add, !toF_PR_sub in E by now apply N.lt_le_incl.
  apply toF_inj; auto. apply (sub_zero fp p0 p1 padd pmul psub popp fp_rt).
  destruct (fp_nzd (psub (toF d1) (toF d2)) (psub (toF x0) (toF xs))) as [Q|Q]; [|exact Q|].
  - apply (sub_zero fp p0 p1 padd pmul psub popp fp_rt) in E || idtac.
    transitivity (psub (padd (toF a) (pmul (toF d1) (psub (toF x0) (toF xs)))) (padd (toF a) (pmul (toF d2) (psub (toF x0) (toF xs))))); [ring|].
    transitivity (psub (padd (toF a) (pmul (toF d1) (padd (toF x0) (popp (toF xs))))) (padd (toF a) (pmul (toF d2) (padd (toF x0) (popp (toF xs)))))); [ring|].
    rewrite E. ring.
  - exfalso. apply Ne. apply (sub_zero fp p0 p1 padd pmul psub popp fp_rt) in Q. symmetry. now apply toF_inj.
Qed.

Section RunReply.
  Variables (L R : N -> N) (word : nat -> nat -> N) (threads : nat) (pre0 pre main : lpn_param) (bits : nat -> nat -> nat -> bool).
  Variable views : nat -> list (list N * N).
  Variable blk0 : mem.
  Hypothesis Hthr : 1 <= threads.
  Hypothesis Wp0 : lp_wf pre0.
  Hypothesis Wp : lp_wf pre.
  Hypothesis Wm : lp_wf main.
  Hypothesis Sz0 : lp_M pre <= lp_n pre0.
  Hypothesis Sz1 : lp_M main <= lp_n pre.
  Hypothesis Sz2 : lp_M main <= lp_n main.
  Lemma run_reply i dig : 1 <= lp_t (gen_par pre0 pre main i) -> (forall c, (dig c < PR)%N) -> exists mac a, (a < PR)%N /\
    forall (w : vworld) key0, (forall i, gen_view L R word threads pre0 pre main bits w key0 i = views i) ->
    corr (v_d w) 0 (lp_M pre0) key0 blk0 -> (v_d w < PR)%N ->
    let p := gen_par pre0 pre main i in
    let x0 := x_star (lp_t p) mac (fun s => sp_chi_alpha (lp_log p + 1) (dig (chan (tree_tasks threads (lp_t p)) s)) (bits i s)) (mac (lp_t p)) in
    corr (v_d w) 0 (lp_M p) (gen_in L R word threads pre0 pre main bits w key0 i) mac /\ (x0 < PR)%N /\
    forall xs, (xs < PR)%N ->
    gen_reply L R word threads pre0 pre main bits w dig key0 i xs = ((a + v_d w * (x0 + (PR - xs))) mod PR)%N.
  Proof.
    intros Ht Hdig. set (p := gen_par pre0 pre main i) in *.
    set (mac := x_in L R word threads pre0 pre main bits views blk0 i).
    set (Z := x_sparse L R p (bits i) (views i) mac).
    assert (Wf : lp_wf p) by (unfold p; destruct i as [|[|i]]; assumption).
    exists mac, (r_word (lp_t p) (leave_n (lp_log p + 1)) dig (chan (tree_tasks threads (lp_t p))) Z mac). split; [apply fv_lt|].
    intros w key0 Hv Hb Hd. cbv zeta.
    pose proof (in_ok L R word threads pre0 pre main bits views blk0 Hthr Wp0 Wp Wm Sz0 Sz1 Sz2 w key0 Hv Hb i) as Hin. fold p mac in Hin.
    pose proof (x_sparse_ok L R word threads p bits w i (v_d w) _ mac (gen_buf w i) Wf Hthr Hin) as Hs.
    pose proof (Hv i) as Vi. unfold gen_view in Vi. fold p in Vi. rewrite Vi in Hs. fold Z in Hs.
    assert (El : lp_t p * leave_n (lp_log p + 1) = lp_n p) by (unfold leave_n; rewrite Nat.add_sub; destruct Wf as (-> & _); reflexivity).
    assert (Hm : forall x, x <= lp_t p -> (hi64 (mac x) < PR)%N).
    { intros x Hx. pose proof (proj1 (share_F _ _ _) (Hin x ltac:(lia) ltac:(unfold lp_M; lia))). tauto. }
    rewrite <- (star_code L R p (bits i) (views i) mac dig _ Wf Hdig Hm). fold Z. split; [exact Hin|]. split; [apply fv_lt|].
    intros xs Hxs. unfold gen_reply. fold p. apply reply_ok; auto.
    - destruct Wf as (_ & Hl & _). lia.
    - rewrite El. exact Hs.
    - apply Hin; unfold lp_M; lia.
  Qed.
End RunReply.

(** * The honest run of VoleTripleModel is the run of the verifier alone *)
Lemma run_trees_fst L R H tree_n depth rnd b key mac : forall ts Y Z,
  fst (run_trees L R H tree_n depth rnd ts key mac Y Z) = fst (snd_trees L R depth ts (r_seed rnd) b key Y).
Proof.
  induction ts as [|[s c] ts IH]; intros Y Z; cbn [run_trees snd_trees fst]; [reflexivity|].
  unfold tree_pair at 1. destruct (sp_send L R depth (r_seed rnd s) (key s) (view Y (s * leave_n depth))) as [[[t m0] m1] sum].
  rewrite IH. destruct (snd_trees L R depth ts (r_seed rnd) b key (store Y (s * leave_n depth) (leave_n depth) t)). reflexivity.
Qed.
Section Honest.
  Variables (L R H Hs : N -> N) (word : nat -> nat -> N) (threads : nat) (pre0 pre main : lpn_param) (rnd : nat -> trand) (d : N).
  Variables (w0r w1r w0c w1c : nat -> nat -> N) (xr : nat -> N) (seedr : N) (garbage : nat -> mem).
  Definition honest_world : vworld := {| v_d := d; v_seed := fun i => r_seed (rnd i); v_buf := fun i => garbage (2 * i) |}.
  Notation honest_key0 := (base_key w0r w1r d (cope_tau w0r w1r (base_x xr))).
  Lemma stage_fst bits p i key mac y z :
    fst (fst (stage L R H Hs word threads rnd d p i key mac y z)) = snd_stage L R word threads bits honest_world p i key y.
  Proof.
    unfold stage, vole_extend, mpfss_pair, snd_stage, snd_sparse. cbn [v_seed honest_world].
    pose proof (run_trees_fst L R H (lp_t p) (lp_log p + 1) (rnd i) (bits i) key mac (tree_tasks threads (lp_t p)) y z) as E.
    destruct (run_trees L R H (lp_t p) (lp_log p + 1) (rnd i) (tree_tasks threads (lp_t p)) key mac y z) as [Y Z]. cbn [fst] in E. rewrite <- E.
    destruct (run_msgs _ _ _ _ _ _ _ _ _ _) as [[[Z' V] W] X]. reflexivity.
  Qed.
  Lemma seeds_fst bits i :
    fst (vt_seeds L R H Hs word threads pre0 pre main rnd d w0r w1r w0c w1c xr seedr garbage i) =
    gen_seeds L R word threads pre0 pre main bits honest_world honest_key0 i.
  Proof.
    induction i as [|i IH]; cbn [vt_seeds gen_seeds].
    - unfold vt_setup, gen_setup. cbv zeta.
      generalize (base_key w0r w1r d (cope_tau w0r w1r (base_x xr))) as key0. generalize (base_mac w0r xr) as mac0. intros mac0 key0.
      pose proof (stage_fst bits pre0 0 key0 mac0 (fun _ => 0%N) (fun _ => 0%N)) as E0.
      destruct (stage L R H Hs word threads rnd d pre0 0 key0 mac0 (fun _ => 0%N) (fun _ => 0%N)) as [[y0 z0] o0]. cbn [fst] in E0. rewrite <- E0.
      pose proof (stage_fst bits pre 1 y0 z0 (fun _ => 0%N) (fun _ => 0%N)) as E1.
      destruct (stage L R H Hs word threads rnd d pre 1 y0 z0 (fun _ => 0%N) (fun _ => 0%N)) as [[y z] o]. cbn [fst] in *. exact E1.
    - cbv zeta. rewrite <- IH. set (st := vt_seeds L R H Hs word threads pre0 pre main rnd d w0r w1r w0c w1c xr seedr garbage i). unfold vt_extend.
      pose proof (stage_fst bits main (i + 2) (fst st) (snd st) (garbage (2 * i)) (garbage (2 * i + 1))) as E.
      destruct (stage L R H Hs word threads rnd d main (i + 2) (fst st) (snd st) (garbage (2 * i)) (garbage (2 * i + 1))) as [[y z] o].
      cbn [fst snd] in *. rewrite E. reflexivity.
  Qed.
  Lemma honest_keys bits i p :
    vt_key L R H Hs word threads pre0 pre main rnd d w0r w1r w0c w1c xr seedr garbage i p =
    gen_key L R word threads pre0 pre main bits honest_world honest_key0 i p.
  Proof.
    unfold vt_key, gen_key. rewrite <- (seeds_fst bits). set (st := vt_seeds L R H Hs word threads pre0 pre main rnd d w0r w1r w0c w1c xr seedr garbage i).
    unfold vt_extend. pose proof (stage_fst bits main (i + 2) (fst st) (snd st) (garbage (2 * i)) (garbage (2 * i + 1))) as E.
    destruct (stage L R H Hs word threads rnd d main (i + 2) (fst st) (snd st) (garbage (2 * i)) (garbage (2 * i + 1))) as [[y z] o].
    cbn [fst snd] in *. now rewrite E.
  Qed.
End Honest.
