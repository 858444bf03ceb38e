From Coq Require Import NArith Lia List Bool Arith.
From Verif Require Import Word WordProofs GF128 GF128Ring GF128Field BoolModel BoolProofs BoolAlg TreeModel TreeSpec TreeProofs VoleModel VoleSpec PoolModel PoolProofs VoleTripleModel
  LpnProofs MpfssProofs VoleThms VoleF2kModel VoleF2kSpec.
Import ListNotations.
Local Open Scope nat_scope.
Ltac Zify.zify_post_hook ::= idtac.

Ltac xor_solve := apply N.bits_inj; intro; rewrite ?N.lxor_spec, ?N.bits_0;
  repeat match goal with |- context [N.testbit ?a ?b] => destruct (N.testbit a b) end; reflexivity.

(** * sums *)
Lemma xor_loop_ok cnt : forall i t acc, xor_loop cnt i t acc = N.lxor acc (xsum (fun x => t (i + x)) cnt).
Proof.
  induction cnt as [|c IH]; intros i t acc; cbn [xor_loop]; [now rewrite N.lxor_0_r|].
  rewrite IH, xsum_shift, Nat.add_0_r, N.lxor_assoc. do 2 f_equal. apply xsum_ext. intros. now rewrite Nat.add_succ_r.
Qed.
Lemma xsum_lxor f g n : xsum (fun x => N.lxor (f x) (g x)) n = N.lxor (xsum f n) (xsum g n).
Proof. induction n as [|n IH]; [reflexivity|]. cbn [xsum]. rewrite IH. xor_solve. Qed.
Lemma xsum_mul d f n : xsum (fun x => gfmul d (f x)) n = gfmul d (xsum f n).
Proof. induction n as [|n IH]; [symmetry; apply gfmul_0_r|]. cbn [xsum]. now rewrite IH, gfmul_lxor_r. Qed.
Lemma dot_slice a : forall t k, gf_dot a (map t (seq k (length a))) = xsum (fun j => gfmul (nth j a 0%N) (t (k + j))) (length a).
Proof.
  induction a as [|x a IH]; intros t k; [reflexivity|]. cbn [length seq map gf_dot]. rewrite xsum_shift, Nat.add_0_r. cbn [nth]. f_equal.
  rewrite IH. apply xsum_ext. intros. now rewrite Nat.add_succ_r.
Qed.
Lemma powers_len seed n : forall pw, length (gf_powers_from pw seed n) = n.
Proof. induction n; intros; cbn; auto. Qed.
Lemma f2_V_ok depth dg t : f2_V depth dg t = xsum (fun j => gfmul (nth j (gf_coeff_gen dg (leave_n depth)) 0%N) (t j)) (leave_n depth).
Proof.
  unfold f2_V, slice. rewrite gf_inn_prdt_dot.
  assert (E : length (gf_coeff_gen dg (leave_n depth)) = leave_n depth) by apply powers_len.
  rewrite <- E at 2. rewrite dot_slice. rewrite E. reflexivity.
Qed.
Lemma xsum_one f g n p v : p < n -> (forall x, x < n -> x <> p -> f x = g x) -> f p = N.lxor (g p) v -> xsum f n = N.lxor (xsum g n) v.
Proof.
  intros Hp Hne He. induction n as [|n IH]; [lia|]. cbn [xsum]. destruct (Nat.eq_dec p n) as [->|Ne].
  - rewrite He, (xsum_ext f g n) by (intros; apply Hne; lia). xor_solve.
  - rewrite IH, (Hne n) by (try lia; intros; apply Hne; lia). xor_solve.
Qed.

(** * one tree *)
Section Tree.
  Variables (L R : N -> N) (depth : nat) (seed d : N).
  Hypothesis Hdep : 2 <= depth.
  Notation lv := (leave_n depth).
  Notation leaf j := (node L R seed (depth - 1) j).
  Lemma f2_send_ok key t0 : let '(t, m0, m1, sum) := f2_send L R depth seed key t0 in
    (forall j, j < lv -> t j = leaf j) /\ (forall j, lv <= j -> t j = t0 j) /\
    (forall x, x < depth - 1 -> m0 x = xsum (fun y => node L R seed (S x) (2 * y)) (2 ^ x) /\
                                m1 x = xsum (fun y => node L R seed (S x) (2 * y + 1)) (2 ^ x)) /\
    sum = N.lxor (xsum (fun j => leaf j) lv) key.
  Proof.
    unfold f2_send. pose proof (ggm_gen_ok L R seed depth t0 Hdep) as G.
    destruct (ggm_gen L R depth seed t0) as [[t m0] m1]. destruct G as [G1 [G2 G3]].
    split; [exact G1|]. split; [exact G2|]. split; [exact G3|]. rewrite xor_loop_ok, N.lxor_0_l. f_equal. apply xsum_ext. exact G1.
  Qed.
  Lemma f2_recv_ok (b : nat -> bool) (m : mem) share key val mac t0 :
    (forall x, x < depth - 1 -> m x = if b x then xsum (fun y => node L R seed (S x) (2 * y + 1)) (2 ^ x) else xsum (fun y => node L R seed (S x) (2 * y)) (2 ^ x)) ->
    share = N.lxor (xsum (fun j => leaf j) lv) key -> share2 d val mac key ->
    let t := f2_recv L R depth b m share mac t0 in
    let pos := punctured (depth - 1) b in
    (forall j, j < lv -> j <> pos -> t j = leaf j) /\ t pos = N.lxor (leaf pos) (gfmul val d) /\ (forall j, lv <= j -> t j = t0 j).
  Proof.
    intros Hm Hs Hk t pos. pose proof (ggm_recon_ok L R seed depth b m t0 Hdep Hm) as G. cbv zeta in G.
    pose proof (punctured_lt (depth - 1) b) as Hp. fold pos in G, Hp. change (2 ^ (depth - 1)) with lv in G, Hp.
    unfold t, f2_recv. rewrite get_index_ok. fold pos. clear t. set (t1 := ggm_recon L R depth b m t0) in *. destruct G as [G1 [G2 G3]].
    split; [|split].
    - intros j Hj Ne. rewrite !mset_neq by easy. now apply G2.
    - rewrite mset_eq, xor_loop_ok, N.lxor_0_l, Hs, Hk.
      rewrite (xsum_one (fun x => mset t1 pos 0%N (0 + x)) (fun j => leaf j) lv pos (leaf pos)); auto.
      + xor_solve.
      + intros x Hx Ne. cbn [Nat.add]. rewrite mset_neq by easy. now apply G2.
      + cbn [Nat.add]. rewrite mset_eq. symmetry. apply N.lxor_nilpotent.
    - intros j Hj. rewrite !mset_neq by lia. now apply G3.
  Qed.
End Tree.

Section M2.
  Variables (L R H Hs : N -> N) (threads tree_n depth : nat) (rnd : trand) (d : N) (key val mac : mem).
  Hypothesis Hdep : 2 <= depth.
  Hypothesis Hthr : 1 <= threads.
  Hypothesis Hcot : forall i, i < (depth - 1) * tree_n ->
    r_ot_r rnd i = N.lxor (r_ot_s rnd i) (if r_ot_b rnd i then r_ot_delta rnd else 0%N).
  Hypothesis Hcor : corr2 d (tree_n + 1) key val mac.
  Notation lv := (leave_n depth).
  Definition lf2 (s j : nat) : N := node L R (r_seed rnd s) (depth - 1) j.
  Notation pos := (MpfssProofs.pos depth rnd).
  Definition lf2R (s j : nat) : N := if j =? pos s then N.lxor (lf2 s j) (gfmul (val s) d) else lf2 s j.
  Lemma f2_tree_pair_ok s t0s t0r : s < tree_n -> let '(a, b) := f2_tree_pair L R H tree_n depth rnd s key mac t0s t0r in
    (forall j, j < lv -> a j = lf2 s j /\ b j = lf2R s j) /\ (forall j, lv <= j -> a j = t0s j /\ b j = t0r j).
  Proof.
    intro Hs'. unfold f2_tree_pair. pose proof (f2_send_ok L R depth (r_seed rnd s) Hdep (key s) t0s) as S.
    destruct (f2_send L R depth (r_seed rnd s) (key s) t0s) as [[[ts m0] m1] sum]. destruct S as [S1 [S2 [S3 S4]]].
    set (m := ot_recv _ _ _ _ _).
    assert (Hm : forall x, x < depth - 1 -> m x = if r_b rnd s x then xsum (fun y => node L R (r_seed rnd s) (S x) (2 * y + 1)) (2 ^ x) else xsum (fun y => node L R (r_seed rnd s) (S x) (2 * y)) (2 ^ x)).
    { intros x Hx. pose proof (ot_ok H (depth - 1) tree_n (r_ot_s rnd) (r_ot_r rnd) (r_ot_b rnd) (fun _ => false) (r_ot_delta rnd) (r_b rnd) Hcot s m0 m1 x Hs' Hx) as O.
      destruct (S3 x Hx) as [E0 E1]. rewrite <- E0, <- E1. exact O. }
    destruct (f2_recv_ok L R depth (r_seed rnd s) d Hdep (r_b rnd s) m sum (key s) (val s) (mac s) t0r Hm S4 (Hcor s ltac:(lia))) as [R1 [R2 R3]].
    split; intros j Hj; (split; [first [now apply S1|now apply S2]|]).
    - unfold lf2R. destruct (Nat.eqb_spec j (pos s)) as [->|Ne]; [exact R2|]. now apply R1.
    - now apply R3.
  Qed.
  Lemma f2_run_trees_ok ts : NoDup (map fst ts) -> (forall x, In x (map fst ts) -> x < tree_n) -> forall Y Z V W X,
    let '(Y', Z', V', W', X') := f2_run_trees L R H Hs tree_n depth rnd ts key mac Y Z V W X in
    (forall s j, j < lv ->
      Y' (s * lv + j) = (if mem_nat s (map fst ts) then lf2 s j else Y (s * lv + j)) /\
      Z' (s * lv + j) = (if mem_nat s (map fst ts) then lf2R s j else Z (s * lv + j))) /\
    (forall s, In s (map fst ts) -> V' s = f2_V depth (Hs (r_chal rnd s)) (lf2 s) /\ W' s = f2_V depth (Hs (r_chal rnd s)) (lf2R s) /\
       X' s = f2_chi_alpha depth (Hs (r_chal rnd s)) (r_b rnd s)) /\
    (forall s, ~ In s (map fst ts) -> V' s = V s /\ W' s = W s /\ X' s = X s).
  Proof.
    induction ts as [|[s c] ts IH]; intros D Hr Y Z V W X; cbn [f2_run_trees map fst mem_nat existsb].
    - split; [auto|]. split; [intros s []|auto].
    - inversion_clear D. pose proof (f2_tree_pair_ok s (view Y (s * lv)) (view Z (s * lv)) (Hr s (or_introl eq_refl))) as T.
      destruct (f2_tree_pair L R H tree_n depth rnd s key mac _ _) as [a b]. destruct T as [T _].
      specialize (IH H1 (fun x Hx => Hr x (or_intror Hx)) (store Y (s * lv) lv a) (store Z (s * lv) lv b)
        (mset V s (f2_V depth (Hs (r_chal rnd s)) a)) (mset W s (f2_V depth (Hs (r_chal rnd s)) b)) (mset X s (f2_chi_alpha depth (Hs (r_chal rnd s)) (r_b rnd s)))).
      destruct (f2_run_trees _ _ _ _ _ _ _ _ _ _ _ _ _ _ _) as [[[[Y' Z'] V'] W'] X']. destruct IH as [I1 [I2 I3]]. split; [|split].
      + intros s' j Hj. destruct (I1 s' j Hj) as [A B].
        rewrite A, B, !store_at by (auto using lv_pos). fold (mem_nat s' (map fst ts)). destruct (Nat.eqb_spec s' s) as [->|Ne]; cbn [orb].
        * destruct (T j Hj) as [-> ->]. destruct (mem_nat s (map fst ts)); auto.
        * auto.
      + intros s' [<-|Hin]; [|now apply I2]. destruct (I3 s H0) as [-> [-> ->]]. rewrite !mset_eq. split; [|split; [|reflexivity]].
        * rewrite !f2_V_ok. apply xsum_ext. intros j Hj. now destruct (T j Hj) as [-> _].
        * rewrite !f2_V_ok. apply xsum_ext. intros j Hj. now destruct (T j Hj) as [_ ->].
      + intros s' Hn. cbn [In] in Hn. destruct (I3 s' (fun q => Hn (or_intror q))) as [-> [-> ->]]. rewrite !mset_neq by (intro; subst; tauto). auto.
  Qed.
  Lemma f2_bca_ok X cnt : forall i acc, f2_bca cnt i val X acc = N.lxor acc (xsum (fun x => gfmul (val (i + x)) (X (i + x))) cnt).
  Proof.
    induction cnt as [|c IH]; intros i acc; cbn [f2_bca]; [now rewrite N.lxor_0_r|].
    rewrite IH, xsum_shift, Nat.add_0_r, N.lxor_assoc. do 2 f_equal. apply xsum_ext. intros. now rewrite Nat.add_succ_r.
  Qed.
  Lemma f2_VW s dg : f2_V depth dg (lf2R s) = N.lxor (f2_V depth dg (lf2 s)) (gfmul d (gfmul (val s) (f2_chi_alpha depth dg (r_b rnd s)))).
  Proof.
    rewrite !f2_V_ok. unfold f2_chi_alpha. rewrite get_index_ok. change (punctured (depth - 1) (r_b rnd s)) with (pos s).
    apply xsum_one with (p := pos s).
    - apply pos_lt; auto.
    - intros x _ Ne. unfold lf2R. now rewrite (proj2 (Nat.eqb_neq x (pos s))) by easy.
    - unfold lf2R. rewrite Nat.eqb_refl, gfmul_lxor_r. f_equal.
      rewrite <- (gfmul_assoc d), (gfmul_comm d (val s)). apply gfmul_comm.
  Qed.
  Theorem f2_mpfss_ok Y0 Z0 :
    let '(Y, Z, ok) := f2_mpfss L R H Hs threads tree_n depth rnd d key val mac Y0 Z0 in
    ok = true /\ (forall s j, s < tree_n -> j < lv ->
      Y (s * lv + j) = lf2 s j /\ Z (s * lv + j) = lf2R s j).
  Proof.
    unfold f2_mpfss. pose proof (tasks_fst threads tree_n Hthr) as TF.
    pose proof (f2_run_trees_ok (tree_tasks threads tree_n)) as RT. rewrite TF in RT.
    specialize (RT (seq_NoDup _ _) (fun x Hx => proj2 (proj1 (in_seq tree_n 0 x) Hx)) Y0 Z0 (fun _ => 0%N) (fun _ => 0%N) (fun _ => 0%N)).
    destruct (f2_run_trees _ _ _ _ _ _ _ _ _ _ _ _ _ _ _) as [[[[Y Z] V] W] X]. destruct RT as [R1 [R2 _]].
    split.
    - apply N.eqb_eq. f_equal. unfold f2_vb, f2_va, f2_x_star. rewrite !xor_loop_ok, f2_bca_ok, N.lxor_0_l.
      pose proof (Hcor tree_n ltac:(lia)) as E. unfold share2 in E. rewrite E. cbn [Nat.add].
      assert (SW : xsum W tree_n = N.lxor (xsum V tree_n) (gfmul d (xsum (fun x => gfmul (val x) (X x)) tree_n))).
      { rewrite <- xsum_mul, <- xsum_lxor. apply xsum_ext. intros s Hs'. destruct (R2 s) as [-> [-> ->]]; [apply in_seq; lia|]. apply f2_VW. }
      rewrite (xsum_ext (fun x => W x) W) by auto. rewrite SW. rewrite gfmul_lxor_r, (gfmul_comm (val tree_n) d).
      set (a := gfmul d (xsum _ _)). set (b := gfmul d (val tree_n)). rewrite (xsum_ext (fun x => V x) V) by auto. xor_solve.
    - intros s j Hs' Hj. destruct (R1 s j Hj) as [-> ->].
      assert (IN : mem_nat s (seq 0 tree_n) = true) by (apply mem_nat_In, in_seq; lia). now rewrite IN.
  Qed.
End M2.
Section SetX.
  Variables (depth : nat) (rnd : trand) (val : mem).
  Notation lv := (leave_n depth).
  Notation pos := (MpfssProofs.pos depth rnd).
  Lemma f2_set_x_ok cnt : forall i out s j, j < lv ->
    f2_set_x depth rnd cnt i val out (s * lv + j) =
    N.lxor (out (s * lv + j)) (if (i <=? s) && (s <? i + cnt) && (j =? pos s) then val s else 0%N).
  Proof.
    induction cnt as [|c IH]; intros i out s j Hj; cbn [f2_set_x].
    - replace ((i <=? s) && (s <? i + 0) && (j =? pos s)) with false; [now rewrite N.lxor_0_r|].
      destruct (Nat.leb_spec i s), (Nat.ltb_spec s (i + 0)); cbn; auto; lia.
    - rewrite IH by easy. rewrite get_index_ok. change (punctured (depth - 1) (r_b rnd i)) with (pos i).
      pose proof (pos_lt depth rnd i) as Hpi. 
      destruct (Nat.eq_dec s i) as [->|Ne].
      + replace (S i <=? i) with false by (symmetry; apply Nat.leb_gt; lia). cbn [andb]. rewrite N.lxor_0_r.
        rewrite Nat.leb_refl. replace (i <? i + S c) with true by (symmetry; apply Nat.ltb_lt; lia). cbn [andb].
        destruct (Nat.eqb_spec j (pos i)) as [->|Nj]; [now rewrite mset_eq|]. rewrite mset_neq by lia. now rewrite N.lxor_0_r.
      + rewrite mset_neq.
        * f_equal. replace (S i <=? s) with (i <=? s) by (destruct (Nat.leb_spec i s), (Nat.leb_spec (S i) s); auto; lia).
          replace (s <? S i + c) with (s <? i + S c) by (f_equal; lia). reflexivity.
        * intro E. destruct (Nat.lt_ge_cases s i).
          -- assert (Q : S s * lv <= i * lv) by (apply Nat.mul_le_mono_r; lia). cbn [Nat.mul] in Q. lia.
          -- assert (Q : S i * lv <= s * lv) by (apply Nat.mul_le_mono_r; lia). cbn [Nat.mul] in Q. lia.
  Qed.
End SetX.

(** * LPN *)
Lemma xorl_app f a b : xorl f (a ++ b) = N.lxor (xorl f a) (xorl f b).
Proof. induction a; cbn [xorl app]; [now rewrite N.lxor_0_l|]. now rewrite IHa, N.lxor_assoc. Qed.
Lemma inb_true st e p : inb st e p = true <-> st <= p < e.
Proof. unfold inb. rewrite andb_true_iff, Nat.leb_le, Nat.ltb_lt. tauto. Qed.
Section L2.
  Variables (word : nat -> nat -> N) (k n threads : nat).
  Hypothesis Hk : 1 <= k.
  Hypothesis Hk31 : (N.of_nat k < 2 ^ 31)%N.
  Notation good e := (forall x, In x e -> x < k).
  Lemma f2_add_ok pre e : forall V i p, f2_add pre V i e p = if p =? i then N.lxor (V i) (xorl pre e) else V p.
  Proof.
    unfold f2_add. induction e as [|x e IH]; intros V i p; cbn [fold_left xorl].
    - rewrite N.lxor_0_r. destruct (Nat.eqb_spec p i); subst; auto.
    - rewrite IH, mset_eq. destruct (Nat.eqb_spec p i); [now rewrite N.lxor_assoc|]. now rewrite mset_neq.
  Qed.
  Lemma f2_edges4_good i l : length (f2_edges4 word k i l) = 10 /\ good (f2_edges4 word k i l).
  Proof.
    split; [unfold f2_edges4; now rewrite map_length, seq_length|]. intros x Hx. apply in_map_iff in Hx as [w [<- _]]. apply (lpn_idx_lt word k Hk Hk31).
  Qed.
  Lemma f2_edges1_good i : length (f2_edges1 word k i) = 10 /\ good (f2_edges1 word k i).
  Proof.
    split; [unfold f2_edges1; now rewrite map_length, seq_length|]. intros x Hx. apply in_map_iff in Hx as [w [<- _]]. apply (lpn_idx_lt word k Hk Hk31).
  Qed.
  Lemma f2_compute4_ok pre V i p : f2_compute4 word k pre V i p = if inb i (i + 4) p then N.lxor (V p) (xorl pre (f2_edges4 word k i (p - i))) else V p.
  Proof.
    unfold f2_compute4. cbn [seq fold_left]. rewrite !f2_add_ok.
    destruct (inb i (i + 4) p) eqn:I.
    - apply inb_true in I. assert (C : p = i + 0 \/ p = i + 1 \/ p = i + 2 \/ p = i + 3) by lia.
      destruct C as [->|[->|[->| ->]]];
      repeat match goal with |- context [?a =? ?b] => destruct (Nat.eqb_spec a b); try lia end;
      rewrite Nat.add_comm, Nat.add_sub; reflexivity.
    - assert (~ (i <= p < i + 4)) by (rewrite <- inb_true; now rewrite I).
      repeat match goal with |- context [?a =? ?b] => destruct (Nat.eqb_spec a b); try lia end.
  Qed.
  Lemma f2_task_ok fuel : forall j e, e - j <= fuel -> exists E : nat -> list nat,
    (forall p, good (E p) /\ length (E p) = (if inb j e p then 10 else 0)) /\
    (forall pre V p, f2_task_loop word k fuel j e pre V p = N.lxor (V p) (xorl pre (E p))).
  Proof.
    assert (Base : forall j e, ~ j < e -> exists E : nat -> list nat,
      (forall p, good (E p) /\ length (E p) = (if inb j e p then 10 else 0)) /\
      (forall (pre V : mem) p, V p = N.lxor (V p) (xorl pre (E p)))).
    { intros j e Hn. exists (fun _ => []). split.
      - intro p. split; [intros x []|]. destruct (inb j e p) eqn:E; [apply inb_true in E; lia|reflexivity].
      - intros. symmetry. apply N.lxor_0_r. }
    induction fuel as [|f IH]; intros j e Hf; cbn [f2_task_loop]; [apply Base; lia|].
    destruct (Nat.ltb_spec (j + 4) e) as [L4|L4].
    - destruct (IH (j + 4) e) as [E [E1 E2]]; [lia|].
      exists (fun p => (if inb j (j + 4) p then f2_edges4 word k j (p - j) else []) ++ E p). split.
      + intro p. destruct (E1 p) as [G1 G2]. split.
        * intros x Hx. apply in_app_or in Hx as [Hx|Hx]; [|auto]. destruct (inb j (j + 4) p); [|destruct Hx]. eapply f2_edges4_good; eauto.
        * rewrite app_length, G2. destruct (inb j (j + 4) p) eqn:I.
          -- rewrite (proj1 (f2_edges4_good _ _)). apply inb_true in I.
             replace (inb (j + 4) e p) with false; [replace (inb j e p) with true; [reflexivity|]|]; symmetry.
             ++ apply inb_true. lia.
             ++ apply not_true_is_false. rewrite inb_true. lia.
          -- replace (inb j e p) with (inb (j + 4) e p); [reflexivity|]. apply eq_true_iff_eq. rewrite !inb_true.
             assert (~ (j <= p < j + 4)) by (rewrite <- inb_true; now rewrite I). lia.
      + intros pre V p. rewrite E2, f2_compute4_ok, xorl_app. destruct (inb j (j + 4) p); [now rewrite N.lxor_assoc|]. cbn [xorl]. now rewrite N.lxor_0_l.
    - destruct (Nat.ltb_spec j e) as [L1|L1].
      + destruct (IH (S j) e) as [E [E1 E2]]; [lia|].
        exists (fun p => (if p =? j then f2_edges1 word k j else []) ++ E p). split.
        * intro p. destruct (E1 p) as [G1 G2]. split.
          -- intros x Hx. apply in_app_or in Hx as [Hx|Hx]; [|auto]. destruct (p =? j); [|destruct Hx]. eapply f2_edges1_good; eauto.
          -- rewrite app_length, G2. destruct (Nat.eqb_spec p j) as [->|Ne].
             ++ rewrite (proj1 (f2_edges1_good _)).
                replace (inb (S j) e j) with false; [replace (inb j e j) with true; [reflexivity|]|]; symmetry.
                ** apply inb_true. lia.
                ** apply not_true_is_false. rewrite inb_true. lia.
             ++ replace (inb j e p) with (inb (S j) e p); [reflexivity|]. apply eq_true_iff_eq. rewrite !inb_true. lia.
        * intros pre V p. rewrite E2. unfold f2_compute1. rewrite f2_add_ok, xorl_app. destruct (Nat.eqb_spec p j) as [->|Ne]; [now rewrite N.lxor_assoc|].
          cbn [xorl]. now rewrite N.lxor_0_l.
      + apply Base. lia.
  Qed.
  Lemma f2_ranges_ok rs : exists E : nat -> list nat,
    (forall p, good (E p) /\ length (E p) = 10 * hits rs p) /\
    (forall pre V p, fold_left (fun V r => f2_task_loop word k (snd r - fst r) (fst r) (snd r) pre V) rs V p = N.lxor (V p) (xorl pre (E p))).
  Proof.
    induction rs as [|[st e] rs IH]; cbn [fold_left].
    - exists (fun _ => []). split; [intro p; split; [intros x []|reflexivity]|]. intros. symmetry. apply N.lxor_0_r.
    - destruct IH as [E [E1 E2]]. destruct (f2_task_ok (e - st) st e (le_n _)) as [F [F1 F2]].
      exists (fun p => F p ++ E p). split.
      + intro p. destruct (E1 p) as [G1 G2], (F1 p) as [G3 G4]. split.
        * intros x Hx. apply in_app_or in Hx as [Hx|Hx]; auto.
        * rewrite app_length, G2, G4. unfold hits. cbn [filter fst snd]. destruct (inb st e p); cbn [length]; lia.
      + intros pre V p. cbn [fst snd]. now rewrite E2, F2, xorl_app, N.lxor_assoc.
  Qed.
  Lemma f2_lpn_ok : exists E : nat -> list nat,
    (forall p, good (E p) /\ length (E p) = if p <? lpn_reach n threads then 10 else 0) /\
    (forall pre V p, f2_lpn word k n threads pre V p = N.lxor (V p) (xorl pre (E p))).
  Proof.
    destruct (f2_ranges_ok (lpn_ranges n threads)) as [E [E1 E2]]. exists E. split; [|exact E2].
    intro p. destruct (E1 p) as [A B]. split; [exact A|]. rewrite B, (hits_ranges word k n threads Hk Hk31). destruct (p <? lpn_reach n threads); reflexivity.
  Qed.
End L2.
Lemma xorl_share d key val mac e : (forall x, In x e -> share2 d (val x) (mac x) (key x)) -> share2 d (xorl val e) (xorl mac e) (xorl key e).
Proof.
  unfold share2. intro H. induction e as [|x e IH]; cbn [xorl]; [now rewrite gfmul_0_l|].
  rewrite IH by (intros; apply H; now right). rewrite (H x) by now left. rewrite gfmul_lxor_l. 
  set (a := gfmul (val x) d). set (b := gfmul (xorl val e) d). xor_solve.
Qed.
Lemma share2_add d v v' m m' k k' : share2 d v m k -> share2 d v' m' k' -> share2 d (N.lxor v v') (N.lxor m m') (N.lxor k k').
Proof. unfold share2. intros -> ->. rewrite gfmul_lxor_l. set (a := gfmul v d). set (b := gfmul v' d). xor_solve. Qed.

(** * one expansion *)
Lemma f2_extend_ok L R H Hs word threads p rnd d key val mac Y0 Z0 :
  lp_wf p -> 1 <= threads -> cot_ok (lp_log p * lp_t p) rnd -> corr2 d (lp_M p) key val mac ->
  let '(Y, Z, X, ok) := f2_extend L R H Hs word threads (lp_n p) (lp_t p) (lp_k p) (lp_log p) rnd d key val mac Y0 Z0 in
  ok = true /\ corr2 d (lp_n p) Y X Z.
Proof.
  intros (Hn & Hl & Hk & Hk31) Ht Hc Hcor. unfold f2_extend, lp_M in *.
  assert (Hc' : forall i, i < (lp_log p + 1 - 1) * lp_t p -> r_ot_r rnd i = N.lxor (r_ot_s rnd i) (if r_ot_b rnd i then r_ot_delta rnd else 0%N)).
  { intros i Hi. apply Hc. now rewrite Nat.add_sub in Hi. }
  pose proof (f2_mpfss_ok L R H Hs threads (lp_t p) (lp_log p + 1) rnd d key val mac ltac:(lia) Ht Hc'
    (fun i Hi => Hcor i ltac:(lia)) Y0 Z0) as MP.
  destruct (f2_mpfss L R H Hs threads (lp_t p) (lp_log p + 1) rnd d key val mac Y0 Z0) as [[Y Z] ok]. destruct MP as [-> MP].
  split; [reflexivity|]. set (X := f2_set_x (lp_log p + 1) rnd (lp_t p) 0 val (fun _ => 0%N)).
  assert (C0 : corr2 d (lp_n p) Y X Z).
  { intros q Hq. assert (Hp : leave_n (lp_log p + 1) <> 0) by (pose proof (lv_pos (lp_log p + 1)); lia).
    assert (Hq' : q / leave_n (lp_log p + 1) < lp_t p).
    { apply Nat.div_lt_upper_bound; [easy|]. unfold leave_n. rewrite Nat.add_sub. lia. }
    pose proof (Nat.mod_upper_bound q _ Hp) as Hr.
    destruct (MP _ _ Hq' Hr) as [A B].
    pose proof (f2_set_x_ok (lp_log p + 1) rnd val (lp_t p) 0 (fun _ => 0%N) (q / leave_n (lp_log p + 1)) _ Hr) as E. fold X in E.
    rewrite (Nat.mul_comm (q / _)), <- Nat.div_mod_eq in A, B, E. unfold share2. rewrite A, B, E, N.lxor_0_l.
    replace (0 <=? q / leave_n (lp_log p + 1)) with true by reflexivity. rewrite Nat.add_0_l.
    rewrite (proj2 (Nat.ltb_lt _ _) Hq'). cbn [andb]. unfold lf2R.
    destruct (_ =? _); [reflexivity|]. now rewrite gfmul_0_l, N.lxor_0_r. }
  clearbody X. clear MP. destruct (f2_lpn_ok word (lp_k p) (lp_n p) threads Hk Hk31) as (E & E1 & E2).
  intros q Hq. rewrite !E2. apply share2_add; [now apply C0|]. apply xorl_share. intros x Hx. unfold view. apply Hcor. destruct (E1 q) as [G _]. specialize (G x Hx). lia.
Qed.

(** * base correlations from packed COTs *)
Lemma f2_base_ok d cotA cotB i :
  (forall j, j < 128 -> cotA (128 * i + j) = N.lxor (cotB (128 * i + j)) (if getLSB (cotA (128 * i + j)) then d else 0%N)) ->
  share2 d (f2_base_val cotA i) (f2_base_mac cotA i) (f2_base_mac cotB i).
Proof.
  intro Hc. unfold share2, f2_base_val, f2_base_mac. set (A := fun j => cotA (128 * i + j)). set (B := fun j => cotB (128 * i + j)).
  set (ope := map (fun j => (A j, getLSB (A j))) (seq 0 128)).
  assert (EB : map B (seq 0 128) = map (kof d) ope).
  { unfold ope. rewrite map_map. apply map_ext_in. intros j Hj. apply in_seq in Hj. unfold kof, choice. cbn [fst snd].
    unfold A, B. pose proof (Hc j ltac:(lia)) as E. rewrite E at 1. rewrite N.lxor_assoc, N.lxor_nilpotent. symmetry. apply N.lxor_0_r. }
  rewrite EB. apply toG_inj.
  - unfold packing. apply inn_lt.
  - apply lxor_lt; [unfold packing; apply inn_lt|apply gfmul_lt].
  - rewrite toG_lxor, toG_gfmul, pack_decomp, ch_bits_ok by now rewrite map_length, seq_length.
    unfold packing. rewrite toG_inn. fold gB. unfold gO0, gO1, ope. rewrite !map_map. cbn [fst snd]. ring.
Qed.

Section T2.
  Variables (L R H Hs : N -> N) (word : nat -> nat -> N) (threads : nat) (pre main : lpn_param) (rnd : nat -> trand) (d : N).
  Variables (cotA cotB : mem) (garbage : nat -> mem).
  Hypothesis Hthr : 1 <= threads.
  Hypothesis Hcot : forall j, j < 128 * lp_M pre -> cotA j = N.lxor (cotB j) (if getLSB (cotA j) then d else 0%N).
  Hypothesis Wp : lp_wf pre.
  Hypothesis Wm : lp_wf main.
  Hypothesis Sz1 : lp_M main <= lp_n pre.
  Hypothesis Sz2 : lp_M main <= lp_n main.
  Hypothesis C1 : cot_ok (lp_log pre * lp_t pre) (rnd 0).
  Hypothesis C2 : forall i, cot_ok (lp_log main * lp_t main) (rnd (i + 1)).
  Notation setup := (f2_setup L R H Hs word threads pre rnd d cotA cotB).
  Notation seeds := (f2_seeds L R H Hs word threads pre main rnd d cotA cotB garbage).
  Notation out i := (f2_step L R H Hs word threads main rnd d garbage i (seeds i)).
  Definition corr3 cnt (st : mem * mem * mem) := corr2 d cnt (fst (fst st)) (snd (fst st)) (snd st).
  Lemma f2_setup_ok : snd setup = true /\ corr3 (lp_n pre) (fst setup).
  Proof.
    unfold f2_setup, f2_stage.
    pose proof (f2_extend_ok L R H Hs word threads pre (rnd 0) d (f2_base_mac cotB) (f2_base_val cotA) (f2_base_mac cotA) (fun _ => 0%N) (fun _ => 0%N) Wp Hthr C1) as S.
    destruct (f2_extend _ _ _ _ _ _ _ _ _ _ (rnd 0) _ _ _ _ _ _) as [[[y z] x] ok]. apply S.
    intros i Hi. apply f2_base_ok. intros j Hj. apply Hcot. lia.
  Qed.
  Lemma f2_step_ok i : corr3 (lp_M main) (seeds i) -> snd (fst (out i)) = true /\ corr3 (lp_n main) (fst (fst (out i))).
  Proof.
    intro C. unfold f2_step, f2_stage. unfold corr3 in C. destruct (seeds i) as [[pk pv] pm]. cbn [fst snd] in C.
    pose proof (f2_extend_ok L R H Hs word threads main (rnd (i + 1)) d pk pv pm (garbage (2 * i)) (garbage (2 * i + 1)) Wm Hthr (C2 i) C) as S.
    destruct (f2_extend _ _ _ _ _ _ _ _ _ _ (rnd (i + 1)) _ _ _ _ _ _) as [[[y z] x] ok]. exact S.
  Qed.
  Lemma f2_seeds_ok i : corr3 (lp_M main) (seeds i).
  Proof.
    induction i as [|i IH].
    - cbn [f2_seeds]. destruct f2_setup_ok as [_ S]. intros j B. apply S. lia.
    - pose proof (f2_step_ok i IH) as [_ S]. cbn [f2_seeds]. unfold f2_step in *. destruct (seeds i) as [[pk pv] pm].
      destruct (f2_stage _ _ _ _ _ _ _ _ main (i + 1) _ _ _ _ _) as [[[y z] x] ok]. unfold corr3 in *. cbn [fst snd] in *.
      intros j B. rewrite !memcpy_in by lia. apply S; unfold lp_limit; lia.
  Qed.
  Notation kitem := (f2_key L R H Hs word threads pre main rnd d cotA cotB garbage).
  Notation vitem := (f2_val L R H Hs word threads pre main rnd d cotA cotB garbage).
  Notation mitem := (f2_mac L R H Hs word threads pre main rnd d cotA cotB garbage).
  Theorem f2_triple_ok : snd setup = true /\ forall i,
    f2_ok L R H Hs word threads pre main rnd d cotA cotB garbage i = true /\
    forall p, p < lp_n main -> share2 d (vitem i p) (mitem i p) (kitem i p).
  Proof.
    split; [apply f2_setup_ok|]. intro i. destruct (f2_step_ok i (f2_seeds_ok i)) as [A B]. split; [exact A|exact B].
  Qed.
End T2.

Lemma ch_word_bit l : forall j, N.testbit (ch_word l) (N.of_nat j) = getLSB (nth j l 0%N).
Proof.
  induction l as [|m l IH]; intros [|j]; cbn [ch_word nth]; try (rewrite N.bits_0; reflexivity).
  - change (N.of_nat 0) with 0%N. destruct (getLSB m); [apply N.testbit_odd_0|rewrite N.add_0_r; apply N.testbit_even_0].
  - rewrite Nat2N.inj_succ. destruct (getLSB m); [rewrite N.testbit_odd_succ by apply N.le_0_l|rewrite N.add_0_r, N.testbit_even_succ by apply N.le_0_l]; apply IH.
Qed.
