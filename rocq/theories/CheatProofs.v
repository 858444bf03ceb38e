(** The keys of a verifier whose correlation generator ran against an arbitrary prover. *)
From Coq Require Import NArith ZArith Lia List Bool Arith Ring.
From Verif Require Import Word FpModel WordProofs FpProofs PolyRoots Prime61 ArithSpec ArithProofs TreeModel TreeSpec TreeProofs VoleModel VoleSpec
  LpnProofs CopeProofs MpfssProofs PoolModel PoolProofs VoleTripleModel VoleThms VoleThms2 CheatModel.
Import ListNotations.
Local Open Scope nat_scope.
Ltac Zify.zify_post_hook ::= idtac.
Add Ring fp_ring_ch : fp_rt.

(** * One stage *)
Section Stage.
  Variables (L R : N -> N) (depth : nat) (seed : nat -> N) (b : nat -> nat -> bool) (key : mem).
  Hypothesis Hdep : 2 <= depth.
  Notation lv := (leave_n depth).
  Definition view_ok (s : nat) (v : list N * N) : Prop :=
    (forall x, x < depth - 1 -> nth x (fst v) 0%N =
       if b s x then xsum (fun y => node L R (seed s) (S x) (2 * y + 1)) (2 ^ x) else xsum (fun y => node L R (seed s) (S x) (2 * y)) (2 ^ x)) /\
    (snd v < PR)%N /\ toF (snd v) = psub (toF (key s)) (psum (fun j => toF (leaf L R depth (seed s) j)) lv).
  Lemma snd_trees_ok ts : (forall x, In x (map fst ts) -> (key x < PR)%N) -> forall Y,
    let '(Y', vs) := snd_trees L R depth ts seed b key Y in
    (forall s j, j < lv -> Y' (s * lv + j) = if mem_nat s (map fst ts) then leaf L R depth (seed s) j else Y (s * lv + j)) /\
    (forall k s c, nth_error ts k = Some (s, c) -> exists v, nth_error vs k = Some v /\ view_ok s v).
  Proof.
    induction ts as [|[s c] ts IH]; intros Hk Y; cbn [snd_trees map fst mem_nat existsb].
    - split; [auto|]. intros [|k] s c E; discriminate.
    - pose proof (sp_send_ok L R depth (seed s) Hdep (key s) (view Y (s * lv)) (Hk s (or_introl eq_refl))) as T.
      destruct (sp_send L R depth (seed s) (key s) (view Y (s * lv))) as [[[t m0] m1] sum]. destruct T as (T1 & T2 & T3 & T4 & T5).
      specialize (IH (fun x Hx => Hk x (or_intror Hx)) (store Y (s * lv) lv t)).
      destruct (snd_trees L R depth ts seed b key (store Y (s * lv) lv t)) as [Y' vs]. destruct IH as [A B]. split.
      + intros s' j Hj. rewrite (A s' j Hj). fold (mem_nat s' (map fst ts)). rewrite store_at by (auto using lv_pos).
        destruct (Nat.eqb_spec s' s) as [->|Ne]; cbn [orb]; [rewrite T1 by easy; now destruct (mem_nat s (map fst ts))|reflexivity].
      + intros [|k] s' c' E; cbn [nth_error] in *; [|now apply (B k s' c')].
        injection E as <- <-. eexists. split; [reflexivity|]. split; [|split; [exact T4|exact T5]].
        intros x Hx. cbn [fst]. rewrite nth_map_seq by easy. destruct (T3 x Hx) as [-> ->]. reflexivity.
  Qed.
End Stage.
Lemma tasks_nth threads tree_n s : 1 <= threads -> s < tree_n -> exists c, nth_error (tree_tasks threads tree_n) s = Some (s, c).
Proof.
  intros Ht Hs. pose proof (tasks_fst threads tree_n Ht) as F.
  assert (E : nth_error (map fst (tree_tasks threads tree_n)) s = Some s).
  { rewrite F. rewrite (nth_error_nth' (seq 0 tree_n) 0) by (now rewrite seq_length). now rewrite seq_nth. }
  rewrite nth_error_map in E. destruct (nth_error (tree_tasks threads tree_n) s) as [[s' c]|]; [|discriminate].
  cbn in E. injection E as ->. now exists c.
Qed.

(** * The blocks the prover is left with: a function of its view and of its base blocks *)
Section Extract.
  Variables (L R : N -> N) (word : nat -> nat -> N) (threads : nat).
  Definition x_leaf (depth : nat) (b : nat -> bool) (v : list N * N) (mac : N) (j : nat) : N :=
    mkblock (if j =? punctured (depth - 1) b then hi64 mac else 0%N)
            (lo64 (sp_recv L R depth b (fun x => nth x (fst v) 0%N) (snd v) mac (fun _ => 0%N) j)).
  Definition x_sparse (p : lpn_param) (b : nat -> nat -> bool) (vs : list (list N * N)) (mac : mem) : mem :=
    fun q => let s := q / 2 ^ lp_log p in x_leaf (lp_log p + 1) (b s) (nth s vs ([], 0%N)) (mac s) (q mod 2 ^ lp_log p).
  Definition x_stage (p : lpn_param) (b : nat -> nat -> bool) (vs : list (list N * N)) (mac : mem) : mem :=
    lpn_compute word (lp_k p) (lp_n p) threads false (view mac (lp_t p + 1)) (x_sparse p b vs mac).
  Lemma x_leaf_ok depth seed (b : nat -> nat -> bool) key d s v mac j : 2 <= depth -> j < leave_n depth ->
    view_ok L R depth seed b key s v -> share_ok d mac (key s) ->
    share_ok d (x_leaf depth (b s) v mac j) (leaf L R depth (seed s) j).
  Proof.
    intros Hd Hj (V1 & V2 & V3) Hk.
    destruct (sp_recv_ok L R depth (seed s) d Hd (b s) (fun x => nth x (fst v) 0%N) (snd v) (key s) mac (fun _ => 0%N) V1 V2 V3 Hk) as (R1 & R2 & R3).
    pose proof (leaf_lt L R depth (seed s) j) as Q. pose proof (proj1 (share_F _ _ _) Hk) as [[K1 [K2 K3]] K4].
    unfold x_leaf. destruct (Nat.eqb_spec j (punctured (depth - 1) (b s))) as [E|Ne].
    - rewrite E, R2. rewrite E in Q. pose proof (mod_PR_lt (leaf L R depth (seed s) (punctured (depth - 1) (b s)) + xval mac * d)) as M.
      rewrite lo_id by now apply N.lt_le_incl.
      apply share_F. rewrite hi64_mk, lo64_mk by (eapply N.lt_trans; [exact M|reflexivity]). split; [auto|].
      rewrite toF_mod, toF_add, toF_mul. reflexivity.
    - rewrite R1 by easy. rewrite lo_id by now apply N.lt_le_incl. apply share_F. rewrite hi64_mk, lo64_mk by (eapply N.lt_trans; [exact Q|reflexivity]).
      split; [split; [reflexivity|auto]|]. rewrite toF_0. ring.
  Qed.
  Lemma x_sparse_hi p b vs mac s j : j < 2 ^ lp_log p ->
    hi64 (x_sparse p b vs mac (s * 2 ^ lp_log p + j)) = if j =? punctured (lp_log p) (b s) then hi64 (mac s) else 0%N.
  Proof.
    clear word threads. intro Hj. unfold x_sparse. rewrite Nat.div_add_l, Nat.div_small, Nat.add_0_r by lia.
    rewrite (Nat.add_comm (s * 2 ^ lp_log p) j), Nat.mod_add, Nat.mod_small by lia. unfold x_leaf. rewrite Nat.add_sub. apply hi64_mk, lo64_lt.
  Qed.
  Lemma x_sparse_ok p bits w i d key mac Y0 : lp_wf p -> 1 <= threads -> corr d 0 (lp_M p) key mac ->
    corr d 0 (lp_n p) (fst (snd_sparse L R threads bits w p i key Y0)) (x_sparse p (bits i) (snd (snd_sparse L R threads bits w p i key Y0)) mac).
  Proof.
    intros (Hn & Hl & Hk & Hk31) Ht Hc q _ Hq. unfold snd_sparse, lp_M in *.
    assert (Kc : forall x, In x (map fst (tree_tasks threads (lp_t p))) -> (key x < PR)%N).
    { intros x Hx. rewrite tasks_fst in Hx by easy. apply in_seq in Hx.
      pose proof (proj1 (share_F _ _ _) (Hc x ltac:(lia) ltac:(lia))) as X. tauto. }
    pose proof (snd_trees_ok L R (lp_log p + 1) (v_seed w i) (bits i) key ltac:(lia) (tree_tasks threads (lp_t p)) Kc Y0) as T.
    destruct (snd_trees L R (lp_log p + 1) (tree_tasks threads (lp_t p)) (v_seed w i) (bits i) key Y0) as [Y' vs].
    destruct T as [A B]. cbn [fst snd].
    assert (Hp : 2 ^ lp_log p <> 0) by (apply Nat.pow_nonzero; lia).
    assert (Hs : q / 2 ^ lp_log p < lp_t p) by (rewrite Hn in Hq; apply Nat.div_lt_upper_bound; lia).
    assert (Hj : q mod 2 ^ lp_log p < 2 ^ lp_log p) by (now apply Nat.mod_upper_bound).
    assert (El : leave_n (lp_log p + 1) = 2 ^ lp_log p) by (unfold leave_n; f_equal; lia).
    set (s := q / 2 ^ lp_log p) in *. set (j := q mod 2 ^ lp_log p) in *.
    assert (Eq : q = s * leave_n (lp_log p + 1) + j) by (rewrite El, Nat.mul_comm; apply Nat.div_mod_eq).
    rewrite Eq at 2. rewrite A by (rewrite El; exact Hj).
    assert (I : mem_nat s (map fst (tree_tasks threads (lp_t p))) = true) by (apply mem_nat_In; rewrite tasks_fst by easy; apply in_seq; lia).
    rewrite I. destruct (tasks_nth threads (lp_t p) s Ht Hs) as [c Ec]. destruct (B s s c Ec) as (v & Ev & Vo).
    unfold x_sparse. fold s j. rewrite (nth_error_nth vs s ([], 0%N) Ev).
    apply (x_leaf_ok (lp_log p + 1) (v_seed w i) (bits i) key); [lia|rewrite El; exact Hj|exact Vo|]. apply Hc; lia.
  Qed.
  Lemma x_stage_ok p bits w i d key mac Y0 : lp_wf p -> 1 <= threads -> corr d 0 (lp_M p) key mac ->
    corr d 0 (lp_n p) (snd_stage L R word threads bits w p i key Y0)
      (x_stage p (bits i) (snd (snd_sparse L R threads bits w p i key Y0)) mac).
  Proof.
    intros Wf Ht Hc. pose proof (x_sparse_ok p bits w i d key mac Y0 Wf Ht Hc) as S. destruct Wf as (Hn & Hl & Hk & Hk31).
    destruct (expansion_ok word (lp_k p) (lp_n p) threads Hk Hk31) as (E & E1 & E2 & E3).
    unfold snd_stage, x_stage. apply E3; [|exact S]. intros x _ Hx. unfold view. apply Hc; unfold lp_M; lia.
  Qed.
End Extract.

(** * All runs *)
Section Runs.
  Variables (L R : N -> N) (word : nat -> nat -> N) (threads : nat) (pre0 pre main : lpn_param) (bits : nat -> nat -> nat -> bool).
  Variable views : nat -> list (list N * N).
  Variable blk0 : mem.
  Hypothesis Hthr : 1 <= threads.
  Hypothesis Wp0 : lp_wf pre0.
  Hypothesis Wp : lp_wf pre.
  Hypothesis Wm : lp_wf main.
  Hypothesis Sz0 : lp_M pre <= lp_n pre0.
  Hypothesis Sz1 : lp_M main <= lp_n pre.
  Hypothesis Sz2 : lp_M main <= lp_n main.
  Notation xst p i mac := (x_stage L R word threads p (bits i) (views i) mac).
  Fixpoint x_seeds (i : nat) : mem :=
    match i with
    | 0 => xst pre 1 (xst pre0 0 blk0)
    | S i' => memcpy (x_seeds i') 0 (xst main (i' + 2) (x_seeds i')) (lp_limit main) (lp_M main)
    end.
  Definition x_blk (i p : nat) : N := xst main (i + 2) (x_seeds i) p.
  Definition x_in (i : nat) : mem := match i with 0 => blk0 | 1 => xst pre0 0 blk0 | S (S i') => x_seeds i' end.
  Section W.
    Variables (w : vworld) (key0 : mem).
    Hypothesis Hv : forall i, gen_view L R word threads pre0 pre main bits w key0 i = views i.
    Hypothesis Hb : corr (v_d w) 0 (lp_M pre0) key0 blk0.
    Lemma view_at i : snd (snd_sparse L R threads bits w main (i + 2) (gen_seeds L R word threads pre0 pre main bits w key0 i) (v_buf w i)) = views (i + 2).
    Proof. rewrite Nat.add_comm. exact (Hv (2 + i)). Qed.
    Lemma in_ok i : corr (v_d w) 0 (lp_M (gen_par pre0 pre main i)) (gen_in L R word threads pre0 pre main bits w key0 i) (x_in i).
    Proof.
      assert (S1 : corr (v_d w) 0 (lp_n pre0) (snd_stage L R word threads bits w pre0 0 key0 (fun _ => 0%N)) (xst pre0 0 blk0)).
      { rewrite <- (Hv 0). apply x_stage_ok; auto. }
      assert (M1 : corr (v_d w) 0 (lp_M pre) (snd_stage L R word threads bits w pre0 0 key0 (fun _ => 0%N)) (xst pre0 0 blk0)).
      { intros q A B. apply S1; lia. }
      destruct i as [|[|i]]; cbn [gen_par gen_in x_in]; [exact Hb|exact M1|].
      induction i as [|i IH].
      - cbn [gen_seeds x_seeds]. unfold gen_setup. intros q A B. rewrite <- (Hv 1). apply (x_stage_ok L R word threads pre bits w 1); auto. lia.
      - pose proof (x_stage_ok L R word threads main bits w (i + 2) (v_d w) _ _ (v_buf w i) Wm Hthr IH) as S. rewrite view_at in S.
        cbn [gen_seeds x_seeds]. intros q A B. rewrite !memcpy_in by lia. apply S; unfold lp_limit; lia.
    Qed.
    Lemma blk_ok i p : p < lp_n main -> share_ok (v_d w) (x_blk i p) (gen_key L R word threads pre0 pre main bits w key0 i p).
    Proof.
      intro Hp. pose proof (in_ok (S (S i))) as IH. cbn [gen_par gen_in x_in] in IH.
      pose proof (x_stage_ok L R word threads main bits w (i + 2) (v_d w) _ _ (v_buf w i) Wm Hthr IH) as S. rewrite view_at in S.
      apply S; [lia|exact Hp].
    Qed.
  End W.
End Runs.
