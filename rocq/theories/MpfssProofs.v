From Coq Require Import NArith ZArith Lia List Bool Arith Ring.
From Verif Require Import Word FpModel WordProofs FpProofs PolyRoots Prime61 ArithSpec ArithProofs TreeModel TreeSpec TreeProofs VoleModel VoleSpec LpnProofs CopeProofs.
Import ListNotations.
Local Open Scope nat_scope.
Ltac Zify.zify_post_hook ::= idtac.
Add Ring fp_ring_m : fp_rt.

(** * OT *)
Section Ot.
  Variables (H : N -> N) (len times : nat) (q r : mem) (rb sb : nat -> bool) (delta : N) (b : nat -> nat -> bool).
  Hypothesis Hcot : forall i, i < len * times -> r i = N.lxor (q i) (if rb i then delta else 0%N).
  Definition st_r : ots := {| o_bits := rb; o_count := 0 |}.
  Definition st_s : ots := {| o_bits := sb; o_count := 0 |}.
  Definition msgs := snd (choices_all_r len b 0 times st_r).
  Definition fin_s : ots := ot_reset (choices_all_s len msgs st_s).
  Lemma kx_lt s x : s < times -> x < len -> s * len + x < len * times.
  Proof. intros. assert (S s * len <= times * len) by (apply Nat.mul_le_mono_r; lia). lia. Qed.
  Lemma fin_bits s x : s < times -> x < len -> o_bits fin_s (s * len + x) = xorb (b s x) (rb (s * len + x)).
  Proof.
    intros Hs Hx. pose proof (choices_all_ok len times b 0 st_r st_s eq_refl) as C. unfold fin_s, msgs.
    destruct (choices_all_r len b 0 times st_r) as [s1 m]. destruct C as [C _]. cbn [snd ot_reset o_bits].
    destruct (C s x Hs Hx) as [_ C2]. exact C2.
  Qed.
  Lemma pre_r i : i < len * times -> recv_pre H r i = if rb i then send_pre H (len * times) q delta (i + len * times) else send_pre H (len * times) q delta i.
  Proof.
    intro Hi. unfold recv_pre, send_pre. rewrite (Hcot i Hi).
    rewrite (proj2 (Nat.ltb_lt i (len * times)) Hi). rewrite (proj2 (Nat.ltb_ge (i + len * times) (len * times))) by lia.
    replace (i + len * times - len * times) with i by lia. destruct (rb i); [reflexivity|now rewrite N.lxor_0_r].
  Qed.
  Lemma ot_ok s m0 m1 j : s < times -> j < len ->
    ot_recv len s (recv_pre H r) (b s) (ot_send (len * times) len s (send_pre H (len * times) q delta) fin_s m0 m1) j =
    if b s j then m1 j else m0 j.
  Proof.
    intros Hs Hj. unfold ot_recv, ot_send. rewrite recv_send.
    - rewrite (proj2 (Nat.leb_le 0 j)), (proj2 (Nat.ltb_lt j (0 + len))) by lia. reflexivity.
    - reflexivity.
    - intros x Hx. rewrite fin_bits by easy. cbn [Nat.add]. rewrite pre_r by now apply kx_lt.
      rewrite <- xorb_assoc, xorb_nilpotent, xorb_false_l. reflexivity.
  Qed.
  Lemma send_loop_len n l : forall k i pre bits m0 m1, length (send_loop n l k i pre bits m0 m1) = l.
  Proof. induction l; intros; cbn [send_loop length]; [reflexivity|]. now rewrite IHl. Qed.
  Lemma send_loop_nth n l : forall k i pre bits m0 m1 x, x < l ->
    nth x (send_loop n l k i pre bits m0 m1) (0%N, 0%N) =
    (N.lxor (m0 (i + x)) (pre (if bits (k + x) then k + x + n else k + x)),
     N.lxor (m1 (i + x)) (pre (if bits (k + x) then k + x else k + x + n))).
  Proof.
    induction l as [|l IH]; intros k i pre bits m0 m1 x Hx; [lia|]. cbn [send_loop]. destruct x as [|x]; cbn [nth].
    - rewrite !Nat.add_0_r. now destruct (bits k).
    - rewrite IH by lia. rewrite !Nat.add_succ_r. reflexivity.
  Qed.
  (** the other message is masked with the hash of r xor delta *)
  Lemma ot_masked s m0 m1 j : s < times -> j < len ->
    let pad := nth j (ot_send (len * times) len s (send_pre H (len * times) q delta) fin_s m0 m1) (0%N, 0%N) in
    (if b s j then fst pad else snd pad) = N.lxor (if b s j then m0 j else m1 j) (H (N.lxor (r (s * len + j)) delta)).
  Proof.
    intros Hs Hj pad. subst pad. unfold ot_send. rewrite send_loop_nth by easy. rewrite fin_bits by easy. cbn [Nat.add fst snd].
    pose proof (kx_lt s j Hs Hj) as K. rewrite (Hcot _ K). unfold send_pre.
    destruct (b s j), (rb (s * len + j)); cbn [xorb negb];
      rewrite ?(proj2 (Nat.ltb_lt _ _) K), ?(proj2 (Nat.ltb_ge (s * len + j + len * times) (len * times))) by lia;
      replace (s * len + j + len * times - len * times) with (s * len + j) by lia;
      now rewrite ?N.lxor_assoc, ?N.lxor_nilpotent, ?N.lxor_0_r, ?N.lxor_0_l.
  Qed.
End Ot.

(** * leaves *)
Lemma leaf_loop_ok cnt : forall i t acc, (acc < PR)%N ->
  (forall j, fst (leaf_loop cnt i t acc) j = if (i <=? j) && (j <? i + cnt) then extract_fp (t j) else t j) /\
  (snd (leaf_loop cnt i t acc) < PR)%N /\
  toF (snd (leaf_loop cnt i t acc)) = padd (toF acc) (psum (fun x => toF (extract_fp (t (i + x)))) cnt).
Proof.
  induction cnt as [|c IH]; intros i t acc Ha; cbn [leaf_loop].
  - split; [|split; [easy|cbn; ring]]. intro j. now rewrite out_range by lia.
  - pose proof (ext_lt (t i)) as X. rewrite lo_id by now apply N.lt_le_incl.
    destruct (IH (S i) (mset t i (extract_fp (t i))) (add_mod acc (extract_fp (t i)))) as [A [B C]].
    { apply am_lt; [easy|now apply N.lt_le_incl]. }
    split; [|split; [easy|]].
    + intro j. rewrite A. destruct (Nat.eq_dec j i) as [->|Ne].
      * rewrite mset_eq. rewrite (out_range (S i) c i) by lia.
        rewrite (proj2 (Nat.leb_le i i)), (proj2 (Nat.ltb_lt i (i + S c))) by lia. reflexivity.
      * rewrite mset_neq by easy. replace ((S i <=? j) && (j <? S i + c)) with ((i <=? j) && (j <? i + S c)); [reflexivity|].
        destruct (Nat.leb_spec i j), (Nat.leb_spec (S i) j); cbn [andb]; try lia; try reflexivity.
    + rewrite C, am_F, psum_shift, Nat.add_0_r by now apply N.lt_le_incl.
      rewrite (psum_ext (fun x => toF (extract_fp (mset t i (extract_fp (t i)) (S i + x)))) (fun x => toF (extract_fp (t (i + S x))))).
      * ring.
      * intros x _. rewrite mset_neq by lia. now rewrite Nat.add_succ_r.
Qed.
Lemma psum_hole f g n p : p < n -> (forall x, x < n -> x <> p -> f x = g x) -> f p = p0 -> psum g n = padd (psum f n) (g p).
Proof.
  induction n as [|n IH]; intros Hp E Z; [lia|]. cbn [psum]. destruct (Nat.eq_dec p n) as [->|Ne].
  - rewrite (psum_ext g f n) by (intros; symmetry; apply E; lia). rewrite Z. ring.
  - rewrite IH by (auto; try lia; intros; apply E; lia). rewrite (E n) by lia. ring.
Qed.
Lemma lv_pos depth : 1 <= leave_n depth. Proof. unfold leave_n. pose proof (Nat.pow_nonzero 2 (depth - 1)). lia. Qed.
Section Leaves.
  Variables (L R : N -> N) (depth : nat) (seed : N) (d : N).
  Hypothesis Hdep : 2 <= depth.
  Notation lv := (leave_n depth).
  Definition leaf (j : nat) : N := ((node L R seed (depth - 1) j mod 2 ^ 64) mod prm)%N.
  Lemma leaf_ext j : extract_fp (node L R seed (depth - 1) j) = leaf j.
  Proof. rewrite extract_fp_ok. reflexivity. Qed.
  Lemma leaf_lt j : (leaf j < PR)%N. Proof. rewrite <- leaf_ext. apply ext_lt. Qed.
  Lemma sp_send_ok key t0 : (key < PR)%N -> let '(t, m0, m1, sum) := sp_send L R depth seed key t0 in
    (forall j, j < lv -> t j = leaf j) /\ (forall j, lv <= j -> t j = t0 j) /\
    (forall x, x < depth - 1 -> m0 x = xsum (fun y => node L R seed (S x) (2 * y)) (2 ^ x) /\
                                m1 x = xsum (fun y => node L R seed (S x) (2 * y + 1)) (2 ^ x)) /\
    (sum < PR)%N /\ toF sum = psub (toF key) (psum (fun j => toF (leaf j)) lv).
  Proof.
    intro Hk. unfold sp_send. pose proof (ggm_gen_ok L R seed depth t0 Hdep) as G.
    destruct (ggm_gen L R depth seed t0) as [[t m0] m1]. destruct G as [G1 [G2 G3]].
    destruct (leaf_loop_ok lv 0 t 0%N eq_refl) as [A [B C]].
    destruct (leaf_loop lv 0 t 0%N) as [t' s]. cbn [fst snd] in A, B, C.
    split; [|split; [|split; [exact G3|]]].
    - intros j Hj. rewrite A. rewrite (proj2 (Nat.leb_le 0 j)), (proj2 (Nat.ltb_lt j (0 + lv))) by lia. cbn [andb].
      rewrite G1 by easy. apply leaf_ext.
    - intros j Hj. rewrite A, (out_range 0 lv j) by lia. now apply G2.
    - rewrite lo_id by now apply N.lt_le_incl. split; [apply am_lt; [easy|apply sub_le; now apply N.lt_le_incl]|].
      rewrite am_F, sub_F, C by (try apply sub_le; now apply N.lt_le_incl).
      rewrite (psum_ext (fun x => toF (extract_fp (t (0 + x)))) (fun j => toF (leaf j))).
      + rewrite toF_0. ring.
      + intros x Hx. cbn [Nat.add]. rewrite G1 by easy. now rewrite leaf_ext.
  Qed.
  Lemma sp_recv_ok (b : nat -> bool) (m : mem) share key mac t0 :
    (forall x, x < depth - 1 -> m x = if b x then xsum (fun y => node L R seed (S x) (2 * y + 1)) (2 ^ x) else xsum (fun y => node L R seed (S x) (2 * y)) (2 ^ x)) ->
    (share < PR)%N -> toF share = psub (toF key) (psum (fun j => toF (leaf j)) lv) -> share_ok d mac key ->
    let t := sp_recv L R depth b m share mac t0 in
    let pos := punctured (depth - 1) b in
    (forall j, j < lv -> j <> pos -> t j = leaf j) /\ t pos = ((leaf pos + xval mac * d) mod PR)%N /\ (forall j, lv <= j -> t j = t0 j).
  Proof.
    intros Hm Hs1 Hs2 Hk t pos. pose proof (ggm_recon_ok L R seed depth b m t0 Hdep Hm) as G. cbv zeta in G.
    pose proof (punctured_lt (depth - 1) b) as Hp. fold pos in G, Hp. change (2 ^ (depth - 1)) with lv in G, Hp.
    apply share_F in Hk. destruct Hk as [[K1 [K2 K3]] K4].
    assert (T : t = sp_recv L R depth b m share mac t0) by reflexivity. clearbody t.
    unfold sp_recv in T. rewrite get_index_ok in T. fold pos in T.
    set (t1 := ggm_recon L R depth b m t0) in *. destruct G as [G1 [G2 G3]].
    destruct (leaf_loop_ok lv 0 (mset t1 pos 0%N) 0%N eq_refl) as [A [B C]].
    destruct (leaf_loop lv 0 (mset t1 pos 0%N) 0%N) as [t' s]. cbn [fst snd] in A, B, C. subst t.
    split; [|split].
    - intros j Hj Ne. rewrite mset_neq by easy. rewrite A.
      rewrite (proj2 (Nat.leb_le 0 j)), (proj2 (Nat.ltb_lt j (0 + lv))) by lia. cbn [andb]. rewrite mset_neq by easy.
      rewrite G2 by easy. apply leaf_ext.
    - rewrite mset_eq.
      assert (Q : (add_mod share s < PR)%N) by (apply am_lt; [easy|now apply N.lt_le_incl]).
      apply toF_inj; [apply am_lt; [easy|apply sub_le; now apply N.lt_le_incl]|apply mod_PR_lt|].
      rewrite am_F, sub_F, am_F, C, toF_mod, toF_add, toF_mul, Hs2, K4 by (try apply sub_le; now apply N.lt_le_incl).
      rewrite (psum_hole (fun x => toF (extract_fp (mset t1 pos 0%N (0 + x)))) (fun j => toF (leaf j)) lv pos Hp).
      + change (xval mac) with (hi64 mac). rewrite toF_0. ring.
      + intros x Hx Ne. cbn [Nat.add]. rewrite mset_neq by easy. rewrite G2 by easy. now rewrite leaf_ext.
      + cbn [Nat.add]. rewrite mset_eq. reflexivity.
    - intros j Hj. rewrite mset_neq by lia. rewrite A, (out_range 0 lv j) by lia. rewrite mset_neq by lia. now apply G3.
  Qed.
End Leaves.

(** * distribution over threads *)
Lemma tasks_block m w (c : nat -> nat) :
  map fst (flat_map (fun i => map (fun j => (j, c i)) (seq (i * w) w)) (seq 0 m)) = seq 0 (m * w).
Proof.
  induction m as [|m IH]; [reflexivity|]. rewrite seq_S, flat_map_app, map_app, IH. cbn [flat_map Nat.add]. rewrite app_nil_r, map_map.
  cbn [fst]. rewrite map_id. replace (S m * w) with (m * w + w) by lia. now rewrite seq_app.
Qed.
Lemma tasks_fst threads tree_n : 1 <= threads -> map fst (tree_tasks threads tree_n) = seq 0 tree_n.
Proof.
  intro H. unfold tree_tasks. rewrite map_app, map_map, (tasks_block (threads - 1) (tree_n / threads) (fun i => i * (tree_n / threads) / (tree_n / threads))).
  cbn [fst]. rewrite map_id. set (w := tree_n / threads).
  assert (W : threads * w <= tree_n) by (apply Nat.mul_div_le; lia).
  assert (W2 : (threads - 1) * w <= tree_n) by nia.
  rewrite <- (seq_app ((threads - 1) * w)). f_equal. lia.
Qed.
Lemma tasks_chan threads tree_n s c : 1 <= threads -> In (s, c) (tree_tasks threads tree_n) ->
  c < threads /\ s < tree_n /\ (c < threads - 1 -> c = s / (tree_n / threads)).
Proof.
  intros H Hi. assert (S : s < tree_n).
  { assert (In s (map fst (tree_tasks threads tree_n))) as I by (apply in_map_iff; now exists (s, c)).
    rewrite tasks_fst in I by easy. apply in_seq in I. lia. }
  unfold tree_tasks in Hi. apply in_app_or in Hi as [Hi|Hi].
  - apply in_flat_map in Hi as [i [I1 I2]]. apply in_map_iff in I2 as [j [E I3]]. apply in_seq in I1, I3. injection E as -> <-.
    set (w := tree_n / threads) in *. assert (w <> 0) by lia. rewrite Nat.div_mul by easy. repeat split; try lia.
    intros _. apply (Nat.div_unique s w i (s - i * w)); lia.
  - apply in_map_iff in Hi as [j [E _]]. injection E as -> <-. repeat split; lia.
Qed.

(** * slices *)
Section Slices.
  Variable lv : nat.
  Hypothesis Hlv : 1 <= lv.
  Lemma store_at v s t s' j : j < lv -> store v (s * lv) lv t (s' * lv + j) = if s' =? s then t j else v (s' * lv + j).
  Proof.
    intro Hj. unfold store. destruct (Nat.eqb_spec s' s) as [->|Ne].
    - rewrite (proj2 (Nat.leb_le _ _)), (proj2 (Nat.ltb_lt _ _)) by lia. cbn [andb]. f_equal. lia.
    - destruct (Nat.leb_spec (s * lv) (s' * lv + j)); [|reflexivity]. destruct (Nat.ltb_spec (s' * lv + j) (s * lv + lv)); [|reflexivity].
      exfalso. assert (s' < s \/ s < s') as [C|C] by lia.
      + assert (S s' * lv <= s * lv) by (apply Nat.mul_le_mono_r; lia). lia.
      + assert (S s * lv <= s' * lv) by (apply Nat.mul_le_mono_r; lia). lia.
  Qed.
  Lemma pos_split p n : p < n * lv -> exists s j, p = s * lv + j /\ j < lv /\ s < n.
  Proof.
    intro H. exists (p / lv), (p mod lv). split; [rewrite Nat.mul_comm; apply Nat.div_mod; lia|].
    split; [apply Nat.mod_upper_bound; lia|]. apply Nat.div_lt_upper_bound; lia.
  Qed.
End Slices.
Definition mem_nat (s : nat) (l : list nat) : bool := existsb (Nat.eqb s) l.
Lemma mem_nat_In s l : mem_nat s l = true <-> In s l.
Proof. unfold mem_nat. rewrite existsb_exists. split; [intros [x [H E]]; apply Nat.eqb_eq in E; now subst|]. intro. exists s. split; [easy|apply Nat.eqb_refl]. Qed.

Section M.
  Variables (L R H Hs : N -> N) (threads tree_n depth : nat) (rnd : trand) (d : N) (key mac : mem).
  Hypothesis Hdep : 2 <= depth.
  Hypothesis Hthr : 1 <= threads.
  Hypothesis Hd : (d < PR)%N.
  Hypothesis Hcot : forall i, i < (depth - 1) * tree_n ->
    r_ot_r rnd i = N.lxor (r_ot_s rnd i) (if r_ot_b rnd i then r_ot_delta rnd else 0%N).
  Hypothesis Hcor : forall i, i <= tree_n -> share_ok d (mac i) (key i).
  Notation lv := (leave_n depth).
  Definition lf (s j : nat) : N := leaf L R depth (r_seed rnd s) j.
  Definition pos (s : nat) : nat := punctured (depth - 1) (r_b rnd s).
  Definition lfR (s j : nat) : N := if j =? pos s then ((lf s j + xval (mac s) * d) mod PR)%N else lf s j.
  Lemma pos_lt s : pos s < lv. Proof. apply punctured_lt. Qed.
  Lemma key_lt i : i <= tree_n -> (key i < PR)%N.
  Proof. intro Hi. pose proof (proj1 (share_F _ _ _) (Hcor i Hi)) as X. tauto. Qed.
  Lemma hi_lt i : i <= tree_n -> (hi64 (mac i) < PR)%N.
  Proof. intro Hi. pose proof (proj1 (share_F _ _ _) (Hcor i Hi)) as X. tauto. Qed.
  Lemma tree_pair_ok s t0s t0r : s < tree_n -> let '(a, b) := tree_pair L R H tree_n depth rnd s key mac t0s t0r in
    (forall j, j < lv -> a j = lf s j /\ b j = lfR s j) /\ (forall j, lv <= j -> a j = t0s j /\ b j = t0r j).
  Proof.
    intro Hs'. unfold tree_pair. pose proof (sp_send_ok L R depth (r_seed rnd s) Hdep (key s) t0s (key_lt s ltac:(lia))) as S.
    destruct (sp_send L R depth (r_seed rnd s) (key s) t0s) as [[[ts m0] m1] sum]. destruct S as [S1 [S2 [S3 [S4 S5]]]].
    set (m := ot_recv _ _ _ _ _).
    assert (Hm : forall x, x < depth - 1 -> m x = if r_b rnd s x then xsum (fun y => node L R (r_seed rnd s) (S x) (2 * y + 1)) (2 ^ x) else xsum (fun y => node L R (r_seed rnd s) (S x) (2 * y)) (2 ^ x)).
    { intros x Hx. pose proof (ot_ok H (depth - 1) tree_n (r_ot_s rnd) (r_ot_r rnd) (r_ot_b rnd) (fun _ => false) (r_ot_delta rnd) (r_b rnd) Hcot s m0 m1 x Hs' Hx) as O.
      destruct (S3 x Hx) as [E0 E1]. rewrite <- E0, <- E1. exact O. }
    destruct (sp_recv_ok L R depth (r_seed rnd s) d Hdep (r_b rnd s) m sum (key s) (mac s) t0r Hm S4 S5 (Hcor s ltac:(lia))) as [R1 [R2 R3]].
    split; intros j Hj; (split; [first [now apply S1|now apply S2]|]).
    - unfold lfR. destruct (Nat.eqb_spec j (pos s)) as [->|Ne]; [exact R2|]. now apply R1.
    - now apply R3.
  Qed.
  Lemma run_trees_ok ts : (forall x, In x (map fst ts) -> x < tree_n) -> forall Y Z,
    let '(Y', Z') := run_trees L R H tree_n depth rnd ts key mac Y Z in
    forall s j, j < lv ->
      Y' (s * lv + j) = (if mem_nat s (map fst ts) then lf s j else Y (s * lv + j)) /\
      Z' (s * lv + j) = (if mem_nat s (map fst ts) then lfR s j else Z (s * lv + j)).
  Proof.
    induction ts as [|[s c] ts IH]; intros Hr Y Z; cbn [run_trees map fst mem_nat existsb]; [auto|].
    pose proof (tree_pair_ok s (view Y (s * lv)) (view Z (s * lv)) (Hr s (or_introl eq_refl))) as T.
    destruct (tree_pair L R H tree_n depth rnd s key mac _ _) as [a b]. destruct T as [T _].
    specialize (IH (fun x Hx => Hr x (or_intror Hx)) (store Y (s * lv) lv a) (store Z (s * lv) lv b)).
    destruct (run_trees _ _ _ _ _ _ _ _ _ _ _) as [Y' Z']. intros s' j Hj. destruct (IH s' j Hj) as [A B].
    rewrite A, B, !store_at by (auto using lv_pos). fold (mem_nat s' (map fst ts)). destruct (Nat.eqb_spec s' s) as [->|Ne]; cbn [orb].
    - destruct (T j Hj) as [-> ->]. destruct (mem_nat s (map fst ts)); auto.
    - auto.
  Qed.
  Lemma sp_V_ext dg t t' : (forall j, j < lv -> t j = t' j) -> sp_V depth dg t = sp_V depth dg t'.
  Proof. intro E. unfold sp_V. f_equal. unfold slice. apply map_ext_in. intros x Hx. apply in_seq in Hx. rewrite E; [reflexivity|lia]. Qed.
  Definition markd (s : nat) (t : mem) (j : nat) : N := if j =? pos s then N.lxor (mkblock (hi64 (mac s)) 0) (t j) else t j.
  Lemma sp_mark_ok s t j : sp_mark depth (r_b rnd s) (mac s) t j = markd s t j.
  Proof.
    unfold sp_mark, markd. rewrite get_index_ok. fold (pos s). destruct (Nat.eqb_spec j (pos s)) as [->|Ne]; [apply mset_eq|now apply mset_neq].
  Qed.
  Lemma run_msgs_ok ts : NoDup (map fst ts) -> forall Y Z V W X,
    let '(Z', V', W', X') := run_msgs Hs depth rnd ts mac Y Z V W X in
    (forall s j, j < lv -> Z' (s * lv + j) = if mem_nat s (map fst ts) then markd s (view Z (s * lv)) j else Z (s * lv + j)) /\
    (forall s c, In (s, c) ts -> V' s = sp_V depth (digest_of Hs rnd c) (view Y (s * lv)) /\
       W' s = sp_V depth (digest_of Hs rnd c) (view Z (s * lv)) /\ X' s = sp_chi_alpha depth (digest_of Hs rnd c) (r_b rnd s)) /\
    (forall s, ~ In s (map fst ts) -> V' s = V s /\ W' s = W s /\ X' s = X s).
  Proof.
    induction ts as [|[s c] ts IH]; intros D Y Z V W X; cbn [run_msgs map fst mem_nat existsb].
    - split; [auto|]. split; [intros s c []|auto].
    - inversion_clear D. specialize (IH H1 Y (store Z (s * lv) lv (sp_mark depth (r_b rnd s) (mac s) (view Z (s * lv))))
        (mset V s (sp_V depth (digest_of Hs rnd c) (view Y (s * lv)))) (mset W s (sp_V depth (digest_of Hs rnd c) (view Z (s * lv))))
        (mset X s (sp_chi_alpha depth (digest_of Hs rnd c) (r_b rnd s)))).
      destruct (run_msgs _ _ _ _ _ _ _ _ _ _) as [[[Z' V'] W'] X']. destruct IH as [I1 [I2 I3]]. split; [|split].
      + intros s' j Hj. rewrite (I1 s' j Hj). fold (mem_nat s' (map fst ts)). destruct (Nat.eqb_spec s' s) as [->|Ne]; cbn [orb].
        * destruct (mem_nat s (map fst ts)) eqn:E; [apply mem_nat_In in E; contradiction|].
          rewrite store_at, Nat.eqb_refl by (auto using lv_pos). apply sp_mark_ok.
        * destruct (mem_nat s' (map fst ts)).
          -- unfold markd, view. rewrite store_at by (auto using lv_pos). rewrite (proj2 (Nat.eqb_neq s' s)) by easy. reflexivity.
          -- rewrite store_at by (auto using lv_pos). now rewrite (proj2 (Nat.eqb_neq s' s)) by easy.
      + intros s' c' [E|Hin].
        * injection E as <- <-. destruct (I3 s H0) as [A [B C]]. rewrite A, B, C, !mset_eq. auto.
        * destruct (I2 s' c' Hin) as [A [B C]]. rewrite A, B, C. repeat split; auto. apply sp_V_ext. intros j Hj. unfold view.
          rewrite store_at by (auto using lv_pos). destruct (Nat.eqb_spec s' s) as [->|Ne]; [|reflexivity].
          exfalso. apply H0. apply in_map_iff. now exists (s, c').
      + intros s' Hn. cbn [In] in Hn. destruct (I3 s' (fun q => Hn (or_intror q))) as [A [B C]]. rewrite A, B, C, !mset_neq by (intro; subst; tauto). auto.
  Qed.

  (** * the check *)
  Lemma bca_ok X cnt : forall i acc, (acc < PR)%N -> i + cnt <= tree_n -> (forall s, s < tree_n -> (X s < PR)%N) ->
    (bca_loop cnt i mac X acc < PR)%N /\
    toF (bca_loop cnt i mac X acc) = padd (toF acc) (psum (fun x => pmul (toF (hi64 (mac (i + x)))) (toF (X (i + x)))) cnt).
  Proof.
    induction cnt as [|c IH]; intros i acc Ha Hi HX; cbn [bca_loop]; [split; [easy|cbn; ring]|].
    pose proof (HX i ltac:(lia)) as Q. pose proof (hi_lt i ltac:(lia)) as Q2.
    rewrite lo_id by now apply N.lt_le_incl.
    pose proof (mm_lt (hi64 (mac i)) (X i) (N.lt_le_incl _ _ Q2) (N.lt_le_incl _ _ Q)) as Q3.
    destruct (IH (S i) (add_mod acc (mult_mod (hi64 (mac i)) (X i)))) as [A B]; auto; [|lia|].
    { apply am_lt; [easy|now apply N.lt_le_incl]. }
    split; [easy|]. rewrite B, am_F, mm_F, psum_shift, Nat.add_0_r by now apply N.lt_le_incl.
    rewrite (psum_ext (fun x => pmul (toF (hi64 (mac (S i + x)))) (toF (X (S i + x)))) (fun x => pmul (toF (hi64 (mac (i + S x)))) (toF (X (i + S x)))))
      by (intros; now rewrite Nat.add_succ_r). ring.
  Qed.
  Lemma va_ok W cnt : forall i acc, (acc <= PR)%N -> i + cnt <= tree_n -> (forall s, s < tree_n -> (W s < PR)%N) ->
    (va_loop cnt i W acc <= PR)%N /\ (1 <= cnt -> (va_loop cnt i W acc < PR)%N) /\
    toF (va_loop cnt i W acc) = padd (toF acc) (psum (fun x => toF (W (i + x))) cnt).
  Proof.
    induction cnt as [|c IH]; intros i acc Ha Hi HW; cbn [va_loop]; [split; [easy|split; [lia|cbn; ring]]|].
    pose proof (HW i ltac:(lia)) as Q. rewrite mod128_s by (auto; now apply N.lt_le_incl).
    pose proof (mod_PR_lt (acc + W i)) as M. rewrite lo_id by now apply N.lt_le_incl.
    destruct (IH (S i) ((acc + W i) mod PR)%N) as [A [B C]]; auto; [now apply N.lt_le_incl|lia|].
    split; [easy|]. split.
    - intros _. destruct c; [exact M|apply B; lia].
    - rewrite C, toF_mod, toF_add, psum_shift, Nat.add_0_r.
      rewrite (psum_ext (fun x => toF (W (S i + x))) (fun x => toF (W (i + S x)))) by (intros; now rewrite Nat.add_succ_r). ring.
  Qed.
  Lemma vb_ok V cnt : forall i acc, (acc <= PR)%N -> i + cnt <= tree_n -> (forall s, s < tree_n -> (V s < PR)%N) ->
    (vb_loop cnt i V acc <= PR)%N /\ (1 <= cnt -> (vb_loop cnt i V acc < PR)%N) /\
    toF (vb_loop cnt i V acc) = padd (toF acc) (psum (fun x => toF (V (i + x))) cnt).
  Proof.
    induction cnt as [|c IH]; intros i acc Ha Hi HW; cbn [vb_loop]; [split; [easy|split; [lia|cbn; ring]]|].
    pose proof (HW i ltac:(lia)) as Q. rewrite lo_id by now apply N.lt_le_incl.
    pose proof (am_lt' acc (V i) Ha Q) as M.
    destruct (IH (S i) (add_mod acc (V i))) as [A [B C]]; auto; [now apply N.lt_le_incl|lia|].
    split; [easy|]. split.
    - intros _. destruct c; [exact M|apply B; lia].
    - rewrite C, am_F, psum_shift, Nat.add_0_r by (auto; now apply N.lt_le_incl).
      rewrite (psum_ext (fun x => toF (V (S i + x))) (fun x => toF (V (i + S x)))) by (intros; now rewrite Nat.add_succ_r). ring.
  Qed.
  Lemma lf_lt s j : (lf s j < PR)%N. Proof. apply leaf_lt. Qed.
  Lemma lfR_lt s j : (lfR s j < PR)%N. Proof. unfold lfR. destruct (j =? pos s); [apply mod_PR_lt|apply lf_lt]. Qed.
  Lemma digest_lt c : (digest_of Hs rnd c < PR)%N.
  Proof. apply mod1_lt, lo64_lt. Qed.
  Lemma VW_ok dg s (tY tZ : mem) : (dg < PR)%N -> (forall j, j < lv -> tY j = lf s j /\ tZ j = lfR s j) ->
    (sp_V depth dg tY < PR /\ sp_V depth dg tZ < PR /\ sp_chi_alpha depth dg (r_b rnd s) < PR)%N /\
    toF (sp_V depth dg tZ) = padd (toF (sp_V depth dg tY)) (pmul (toF d) (pmul (toF (hi64 (mac s))) (toF (sp_chi_alpha depth dg (r_b rnd s))))).
  Proof.
    intros Hdg Ht. unfold sp_V, sp_chi_alpha. rewrite get_index_ok. fold (pos s).
    assert (BY : forall j, j < lv -> (lo64 (tY j) < PR)%N) by (intros j Hj; destruct (Ht j Hj) as [-> _]; rewrite lo_id; [|apply N.lt_le_incl]; apply lf_lt).
    assert (BZ : forall j, j < lv -> (lo64 (tZ j) < PR)%N) by (intros j Hj; destruct (Ht j Hj) as [_ ->]; rewrite lo_id; [|apply N.lt_le_incl]; apply lfR_lt).
    pose proof (lv_pos depth) as Lp.
    destruct (inn_slice dg _ lv Hdg Lp BY) as [[_ A1] [_ A2]]. destruct (inn_slice dg _ lv Hdg Lp BZ) as [[_ B1] [_ B2]].
    assert (CH : (nth (pos s) (uni_hash_coeff_gen dg lv) 0 < PR)%N).
    { pose proof (chi_lt dg lv Hdg) as C. apply Forall_forall with (x := nth (pos s) (uni_hash_coeff_gen dg lv) 0%N) in C; [exact C|].
      apply nth_In. rewrite chi_len by easy. apply pos_lt. }
    split; [auto|]. rewrite A2, B2. clear A1 A2 B1 B2.
    fold (chiF dg lv (pos s)).
    assert (E : forall n, psum (fun i => pmul (chiF dg lv i) (toF (lfR s i))) n =
       padd (psum (fun i => pmul (chiF dg lv i) (toF (lf s i))) n) (if pos s <? n then pmul (toF d) (pmul (toF (hi64 (mac s))) (chiF dg lv (pos s))) else p0)).
    { induction n as [|n IH]; [cbn; ring|]. cbn [psum]. rewrite IH. unfold lfR at 1. destruct (Nat.eqb_spec n (pos s)) as [->|Ne].
      - rewrite Nat.ltb_irrefl. rewrite (proj2 (Nat.ltb_lt (pos s) (S (pos s)))) by lia. rewrite toF_mod, toF_add, toF_mul. change (xval (mac s)) with (hi64 (mac s)). ring.
      - destruct (Nat.ltb_spec (pos s) n), (Nat.ltb_spec (pos s) (S n)); try lia; ring. }
    rewrite (psum_ext (fun i => pmul (chiF dg lv i) (toF (lo64 (tZ i)))) (fun i => pmul (chiF dg lv i) (toF (lfR s i)))).
    - rewrite (psum_ext (fun i => pmul (chiF dg lv i) (toF (lo64 (tY i)))) (fun i => pmul (chiF dg lv i) (toF (lf s i)))).
      + rewrite E. rewrite (proj2 (Nat.ltb_lt _ _) (pos_lt s)). reflexivity.
      + intros j Hj. destruct (Ht j Hj) as [-> _]. rewrite lo_id; [reflexivity|apply N.lt_le_incl, lf_lt].
    - intros j Hj. destruct (Ht j Hj) as [_ ->]. rewrite lo_id; [reflexivity|apply N.lt_le_incl, lfR_lt].
  Qed.
  Lemma check_ok V W X : (forall s, s < tree_n -> (V s < PR /\ W s < PR /\ X s < PR)%N /\
      toF (W s) = padd (toF (V s)) (pmul (toF d) (pmul (toF (hi64 (mac s))) (toF (X s))))) ->
    vb tree_n d V (key tree_n) (x_star tree_n mac X (mac tree_n)) = va tree_n W (mac tree_n).
  Proof.
    intro HV. pose proof (Hcor tree_n (le_n _)) as Z. apply share_F in Z. destruct Z as [[Z1 [Z2 Z3]] Z4].
    destruct (bca_ok X tree_n 0 0%N eq_refl (le_n _) (fun s Hs => proj2 (proj2 (proj1 (HV s Hs))))) as [B1 B2].
    unfold vb, va, x_star. set (bc := bca_loop tree_n 0 mac X 0%N) in *. clearbody bc. cbn [Nat.add] in B2.
    assert (XS : (add_mod (hi64 (mac tree_n)) (sub64 PR bc) < PR)%N) by (apply am_lt; [easy|apply sub_le; now apply N.lt_le_incl]).
    assert (XF : toF (add_mod (hi64 (mac tree_n)) (sub64 PR bc)) = psub (toF (hi64 (mac tree_n))) (toF bc)).
    { rewrite am_F, sub_F by (try apply sub_le; now apply N.lt_le_incl). ring. }
    set (xs := add_mod (hi64 (mac tree_n)) (sub64 PR bc)) in *. clearbody xs.
    rewrite !(lo_id d), !(lo_id (key tree_n)) by now apply N.lt_le_incl.
    pose proof (mm_lt d xs (N.lt_le_incl _ _ Hd) (N.lt_le_incl _ _ XS)) as Q1.
    pose proof (am_lt (key tree_n) (mult_mod d xs) Z3 (N.lt_le_incl _ _ Q1)) as Q2.
    rewrite sub128_PR by now apply N.lt_le_incl. rewrite sub_PR by now apply N.lt_le_incl.
    set (tm := add_mod (key tree_n) (mult_mod d xs)) in *.
    assert (TF : toF tm = padd (toF (key tree_n)) (pmul (toF d) (psub (toF (hi64 (mac tree_n))) (toF bc)))).
    { unfold tm. rewrite am_F, mm_F, XF by now apply N.lt_le_incl. reflexivity. }
    clearbody tm. clear Q1 XF XS xs.
    destruct (va_ok W tree_n 0 (PR - lo64 (mac tree_n))%N (N.le_sub_l _ _) (le_n _) (fun s Hs => proj1 (proj2 (proj1 (HV s Hs))))) as [C1 [C2 C3]].
    destruct (vb_ok V tree_n 0 (PR - tm)%N (N.le_sub_l _ _) (le_n _) (fun s Hs => proj1 (proj1 (HV s Hs)))) as [D1 [D2 D3]].
    rewrite toF_PR_sub in C3, D3 by now apply N.lt_le_incl. cbn [Nat.add] in C3, D3.
    assert (SW : psum (fun x => toF (W x)) tree_n = padd (psum (fun x => toF (V x)) tree_n) (pmul (toF d) (toF bc))).
    { rewrite B2. rewrite (psum_ext (fun x => toF (W x)) (fun x => padd (toF (V x)) (pmul (toF d) (pmul (toF (hi64 (mac x))) (toF (X x)))))) by (intros x Hx; now apply HV).
      rewrite psum_add, psum_scal, toF_0. ring. }
    destruct (Nat.eq_dec tree_n 0) as [E0|N0].
    - rewrite E0 in *. cbn [va_loop vb_loop]. f_equal. cbn [psum] in B2. rewrite B2, toF_0 in TF. apply toF_inj; auto. rewrite TF, Z4. ring.
    - apply toF_inj; [apply D2; lia|apply C2; lia|]. rewrite C3, D3, SW, TF, Z4. ring.
  Qed.
  Lemma lxor_mk h x : (x < W64)%N -> N.lxor (mkblock h 0) x = mkblock h x.
  Proof. intro Hx. replace x with (mkblock 0 x) at 1 by reflexivity. rewrite mkblock_lxor by (auto; reflexivity). now rewrite N.lxor_0_r, N.lxor_0_l. Qed.
  Theorem mpfss_ok Y0 Z0 :
    let '(Y, Z, ok) := mpfss_pair L R H Hs threads tree_n depth rnd d key mac Y0 Z0 in
    ok = true /\ (forall s j, s < tree_n -> j < lv ->
      share_ok d (Z (s * lv + j)) (Y (s * lv + j)) /\ Y (s * lv + j) = lf s j /\
      xval (Z (s * lv + j)) = if j =? pos s then xval (mac s) else 0%N).
  Proof.
    unfold mpfss_pair. pose proof (tasks_fst threads tree_n Hthr) as TF.
    pose proof (run_trees_ok (tree_tasks threads tree_n)) as RT. rewrite TF in RT. specialize (RT (fun x Hx => proj2 (proj1 (in_seq tree_n 0 x) Hx)) Y0 Z0).
    destruct (run_trees _ _ _ _ _ _ _ _ _ _ _) as [Y Z].
    pose proof (run_msgs_ok (tree_tasks threads tree_n)) as RM. rewrite TF in RM.
    specialize (RM (seq_NoDup _ _) Y Z (fun _ => 0%N) (fun _ => 0%N) (fun _ => 0%N)).
    destruct (run_msgs _ _ _ _ _ _ _ _ _ _) as [[[Z' V] W] X]. destruct RM as [M1 [M2 M3]].
    assert (IN : forall s, s < tree_n -> mem_nat s (seq 0 tree_n) = true) by (intros; apply mem_nat_In, in_seq; lia).
    split.
    - apply N.eqb_eq. f_equal. apply check_ok. intros s Hs'.
      assert (I : In s (map fst (tree_tasks threads tree_n))) by (rewrite TF; apply in_seq; lia).
      apply in_map_iff in I as [[s0 c] [E I]]. cbn [fst] in E. subst s0. destruct (M2 s c I) as [-> [-> ->]].
      apply VW_ok; [apply digest_lt|]. intros j Hj. unfold view. destruct (RT s j Hj) as [-> ->]. now rewrite (IN s Hs').
    - intros s j Hs' Hj. rewrite (M1 s j Hj), (IN s Hs'). destruct (RT s j Hj) as [A B]. rewrite (IN s Hs') in A, B.
      unfold markd, view. rewrite A, B. pose proof (lfR_lt s j) as Q. pose proof (lf_lt s j) as Q2.
      assert (Q64 : (lfR s j < W64)%N) by (eapply N.lt_trans; [exact Q|reflexivity]).
      pose proof (hi_lt s ltac:(lia)) as Hm.
      unfold lfR in *. destruct (Nat.eqb_spec j (pos s)) as [->|Ne].
      + rewrite lxor_mk by easy. change xval with hi64. rewrite hi64_mk by easy. split; [|auto].
        apply share_F. rewrite hi64_mk, lo64_mk by easy. split; [auto|]. rewrite toF_mod, toF_add, toF_mul. reflexivity.
      + change xval with hi64. assert (hi64 (lf s j) = 0%N) as -> by (unfold hi64; now apply N.div_small).
        split; [|auto]. apply share_F. assert (hi64 (lf s j) = 0%N) as -> by (unfold hi64; now apply N.div_small).
        rewrite lo_id by now apply N.lt_le_incl. split; [split; [reflexivity|auto]|]. rewrite toF_0. ring.
  Qed.
End M.
