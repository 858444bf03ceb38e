(** C53: the MPFSS checks against a cheating verifier. *)
From Coq Require Import NArith List Bool Arith Lia.
From Verif Require Import Word GF128 BoolModel ArithSpec TreeModel TreeSpec VoleModel VoleSpec PoolModel VoleTripleModel VoleThms
  VoleF2kModel VoleF2kSpec CheatF2kModel MalVerModel MalVerSpec MalVerProofs MalVerThms MalVerFp MalVerChal.
From Verif Require BoolIOModel PropBoolIO PropVole.
Import ListNotations.

(** * GF(2^128) *)
(** A verifier that knows the challenges before it sends the trees shifts the lowest level of every tree.  For every choice bits
    of the prover the check accepts the reply of the verifier's unchanged code, and the prover's shares are wrong exactly at the
    noise position of each tree and its brother: every later opening tells the verifier where the noise is. *)
Theorem C53_f2k_check_refuted : forall L R word threads bits w p i d (key val mac : mem) Y0 Z0 (dig err : nat -> N) junk,
  1 <= threads -> lp_wf p -> corr2 d (lp_M p) key val mac ->
  (forall s, s < lp_t p -> (0 < dig s < 2 ^ 128)%N /\ (0 < err s < 2 ^ 128)%N) ->
  let depth := lp_log p + 1 in
  let msgs s := shifted depth (dig s) (err s) (code_msg L R depth (k_seed w i s) (key s) junk) in
  let views k := map (fun s => view_of depth (bits k s) (msgs s)) (seq 0 (lp_t p)) in
  let tasks := tree_tasks threads (lp_t p) in
  let Y := fst (s2_sparse L R threads bits w p i key Y0) in
  let Z := r2_trees L R depth tasks (bits i) (views i) mac Z0 in
  let o := r2_stage L R word threads bits views p i (val, mac) Z0 in
  (forall Hs, r2_accepts Hs threads p dig mac Z
     (Hs (f2_vb (lp_t p) d (s2_msgs depth tasks dig Y (fun _ => 0%N)) (key (lp_t p))
        (f2_x_star (lp_t p) val (fun s => f2_chi_alpha depth (dig s) (bits i s))))) = true) /\
  (forall q, q < lp_n p ->
     (share2 d (fst o q) (snd o q) (s2_stage L R word threads bits w p i key Y0 q) <->
      same_pair (lp_log p) (bits i (q / 2 ^ lp_log p)) (q mod 2 ^ lp_log p) = false)).
Proof.
  intros L R word threads bits w p i d key val mac Y0 Z0 dig err junk Ht Wf Hc Hr depth msgs views tasks Y Z o. split.
  - intro Hs. exact (bad_accepted L R word threads bits w p i d key val mac Y0 Z0 dig err junk Ht Wf Hc Hs).
  - intros q Hq. pose proof (bad_shares L R word threads bits w p i d key val mac Y0 Z0 dig err junk Ht Wf Hc) as B. cbv zeta in B. specialize (B q Hq).
    change (bad_views L R bits w p i key dig err junk) with views in B. unfold share2, o. rewrite B.
    unfold leave_n in *. replace (lp_log p + 1 - 1) with (lp_log p) by lia.
    assert (Hs : q / 2 ^ lp_log p < lp_t p).
    { destruct Wf as (Hn & _). apply Nat.div_lt_upper_bound; [apply Nat.pow_nonzero; lia|]. rewrite Nat.mul_comm, <- Hn. exact Hq. }
    destruct (Hr _ Hs) as [D E]. rewrite <- (pair_err_zero (lp_log p) _ _ (bits i (q / 2 ^ lp_log p)) (q mod 2 ^ lp_log p) D E).
    set (e := pair_err _ _ _ _ _). set (a := N.lxor (s2_stage _ _ _ _ _ _ _ _ _ _ _) _). split; intro X.
    + apply (f_equal (N.lxor a)) in X. now rewrite <- N.lxor_assoc, N.lxor_nilpotent, N.lxor_0_l in X.
    + rewrite X. apply N.lxor_0_r.
Qed.
(** That knowledge is available: get_hash_block absorbs only what send_bit sent.  After a data message, in every interleaving of
    the two endpoints, the first challenge is the one the prover would have obtained before it, and all further ones are hashes of
    a fixed string (the empty one if the hash object is reset by digest), whatever the data messages contain. *)
Theorem C53_challenge_known_in_advance : forall bs br reset NB gs gr gr' pre d m tail c c0 k,
  1 <= NB -> length gs = NB -> Forall no_bits tail -> hashes tail = S k ->
  BoolIOModel.ksteps bs br reset NB (BoolIOModel.k_init NB gs gr (pre ++ BoolIOModel.OData d m :: tail)) c -> BoolIOModel.k_done c ->
  BoolIOModel.ksteps bs br reset NB (BoolIOModel.k_init NB gs gr' (pre ++ [BoolIOModel.OChallenge])) c0 -> BoolIOModel.k_done c0 ->
  BoolIOModel.e_digests (BoolIOModel.k_s c) =
  BoolIOModel.e_digests (BoolIOModel.k_s c0) ++ repeat (if reset then [] else BoolIOModel.e_hash (BoolIOModel.k_s c0)) k.
Proof. exact challenge_known. Qed.

Definition mv_p := {| lp_n := 8; lp_t := 2; lp_k := 3; lp_log := 2 |}.
Definition mv_d : N := 0x123456789.
Definition mv_val (j : nat) : N := N.of_nat (5 * j + 1).
Definition mv_key (j : nat) : N := N.of_nat (100 + 7 * j).
Definition mv_mac (j : nat) : N := N.lxor (mv_key j) (gfmul (mv_val j) mv_d).
Definition mv_w : kworld := {| k_d := mv_d; k_cot := fun _ => 0%N; k_seed := fun i s => N.of_nat (10 + i + s); k_buf := fun _ _ => 0%N |}.
Definition mv_dig (s : nat) : N := N.of_nat (3 + s).
Definition mv_err (s : nat) : N := N.of_nat (1 + s).
Definition mv_run (bits : nat -> nat -> nat -> bool) : bool * list bool :=
  let msgs s := shifted 3 (mv_dig s) (mv_err s) (code_msg PropVole.exL PropVole.exR 3 (k_seed mv_w 0 s) (mv_key s) (fun _ => 0%N)) in
  let views (k : nat) := map (fun s => view_of 3 (bits k s) (msgs s)) (seq 0 2) in
  let Y := fst (s2_sparse PropVole.exL PropVole.exR 2 bits mv_w mv_p 0 mv_key (fun _ => 0%N)) in
  let Z := r2_trees PropVole.exL PropVole.exR 3 (tree_tasks 2 2) (bits 0) (views 0) mv_mac (fun _ => 0%N) in
  let o := r2_stage PropVole.exL PropVole.exR PropVole.ex_word 2 bits views mv_p 0 (mv_val, mv_mac) (fun _ => 0%N) in
  (r2_accepts (fun x => x) 2 mv_p mv_dig mv_mac Z
     (f2_vb 2 mv_d (s2_msgs 3 (tree_tasks 2 2) mv_dig Y (fun _ => 0%N)) (mv_key 2) (f2_x_star 2 mv_val (fun s => f2_chi_alpha 3 (mv_dig s) (bits 0 s)))),
   map (fun q => N.eqb (snd o q) (N.lxor (s2_stage PropVole.exL PropVole.exR PropVole.ex_word 2 bits mv_w mv_p 0 mv_key (fun _ => 0%N) q) (gfmul (fst o q) mv_d))) (seq 0 8)).
(** noise at positions 3 and 4 + 2, then at 0 and 4 + 1: accepted, and the wrong shares show the pair *)
Example C53_case_f2k :
  lp_wf mv_p /\ corr2 mv_d (lp_M mv_p) mv_key mv_val mv_mac /\
  mv_run (fun _ s x => (s =? 1) && (x =? 1)) = (true, [true; true; false; false; true; true; false; false]) /\
  mv_run (fun _ s x => (s =? 0) || (x =? 0)) = (true, [false; false; true; true; false; false; true; true]).
Proof. split; [repeat split; vm_compute; lia || reflexivity|]. split; [intros j _; reflexivity|]. split; vm_compute; reflexivity. Qed.
(** with one message shifted and secret_sum left alone the same check rejects *)
Example C53_case_f2k_plain_error :
  let bits (i s x : nat) := false in
  let msg s := code_msg PropVole.exL PropVole.exR 3 (k_seed mv_w 0 s) (mv_key s) (fun _ => 0%N) in
  let bad s := {| q_m0 := fun x => if x =? 1 then N.lxor (q_m0 (msg s) x) 1 else q_m0 (msg s) x; q_m1 := q_m1 (msg s); q_sum := q_sum (msg s) |} in
  let Y := fst (s2_sparse PropVole.exL PropVole.exR 2 bits mv_w mv_p 0 mv_key (fun _ => 0%N)) in
  let Z m := r2_trees PropVole.exL PropVole.exR 3 (tree_tasks 2 2) (bits 0) (map (fun s => view_of 3 (bits 0 s) (m s)) (seq 0 2)) mv_mac (fun _ => 0%N) in
  let ok m := r2_accepts (fun x => x) 2 mv_p mv_dig mv_mac (Z m)
     (f2_vb 2 mv_d (s2_msgs 3 (tree_tasks 2 2) mv_dig Y (fun _ => 0%N)) (mv_key 2) (f2_x_star 2 mv_val (fun s => f2_chi_alpha 3 (mv_dig s) (bits 0 s)))) in
  ok msg = true /\ ok bad = false.
Proof. vm_compute. split; reflexivity. Qed.
(** two bits, then two trees on the connection: the challenges for two different contents of the trees *)
Example C53_case_challenges :
  let tail m := [BoolIOModel.OHashOnly; BoolIOModel.OData false m; BoolIOModel.OHashOnly] in
  let os m := [BoolIOModel.OBit true; BoolIOModel.OBit false] ++ BoolIOModel.OData false m :: tail m in
  let ini os := BoolIOModel.k_init 8 (repeat true 8) [] os in
  let run os := PropBoolIO.run_seq 60 true false true 8 (ini os) in
  let digs os := (BoolIOModel.e_digests (BoolIOModel.k_s (run os)), BoolIOModel.e_digests (BoolIOModel.k_r (run os))) in
  (forall m, Forall no_bits (tail m) /\ hashes (tail m) = 2 /\ BoolIOModel.ksteps true false true 8 (ini (os m)) (run (os m))) /\
  BoolIOModel.k_done (run (os [1; 2; 3]%N)) /\ BoolIOModel.k_done (run (os [9]%N)) /\
  digs (os [1; 2; 3]%N) = ([[253]; []], [[253]; []])%N /\ digs (os [9]%N) = ([[253]; []], [[253]; []])%N /\
  digs ([BoolIOModel.OBit true; BoolIOModel.OBit false] ++ [BoolIOModel.OChallenge]) = ([[253]], [[253]])%N.
Proof.
  cbv zeta. split; [intro m; split; [repeat constructor|split; [reflexivity|apply PropBoolIO.run_seq_steps; constructor]]|].
  vm_compute. repeat split.
Qed.

(** * F_p: the challenge is drawn by the prover after the trees *)
(** Fixed tree messages, two provers with other choice bits or values under the same keys.  If the keys the verifier would have to
    know (summed over the trees) differ at a leaf, one reply to one word x_star passes both checks for at most 2^(depth-1) of the
    challenges, or two words with the same hash are at hand. *)
Theorem C53_late_challenge_binds : forall L R Hs tree_n depth d (g : nat -> tmsg) (key : mem) b b' mac mac' t0 t0',
  2 <= depth -> (d < prm)%N -> (forall s, s < tree_n -> (q_sum (g s) < prm)%N) ->
  (forall s, s < tree_n -> share_ok d (mac s) (key s)) -> (forall s, s < tree_n -> share_ok d (mac' s) (key s)) ->
  let eff b mac t0 s := eff_key d (punctured (depth - 1) (b s)) (mac s) (p_leaves L R depth (b s) (g s) (mac s) (t0 s)) in
  (exists j, j < 2 ^ (depth - 1) /\ key_sum tree_n (eff b mac t0) j <> key_sum tree_n (eff b' mac' t0') j) ->
  forall digs, NoDup digs -> (forall x, In x digs -> (x < prm)%N /\ exists z z' kz h,
    share_ok d z kz /\ share_ok d z' kz /\ p_star tree_n depth x b mac z = p_star tree_n depth x b' mac' z' /\
    p_accepts L R Hs tree_n depth x b g mac z t0 h = true /\ p_accepts L R Hs tree_n depth x b' g mac' z' t0' h = true) ->
  length digs <= 2 ^ (depth - 1) \/ exists x y, x <> y /\ Hs x = Hs y.
Proof. intros L R Hs tree_n depth d g key b b' mac mac' t0 t0'. exact (late_challenge L R Hs tree_n depth d g key b b' mac mac' t0 t0'). Qed.
(** whether a reply is accepted depends on the choice bits only, not on the values, as long as secret_sum is canonical *)
Theorem C53_values_not_tested : forall L R Hs tree_n depth d (g : nat -> tmsg) (key : mem) b mac mac' t0 x z z' kz h,
  1 <= tree_n -> 2 <= depth -> (d < prm)%N -> (forall s, s < tree_n -> (q_sum (g s) < prm)%N) ->
  (forall s, s < tree_n -> share_ok d (mac s) (key s)) -> (forall s, s < tree_n -> share_ok d (mac' s) (key s)) ->
  (x < prm)%N -> share_ok d z kz -> share_ok d z' kz -> p_star tree_n depth x b mac z = p_star tree_n depth x b mac' z' ->
  p_accepts L R Hs tree_n depth x b g mac z t0 h = p_accepts L R Hs tree_n depth x b g mac' z' t0 h.
Proof.
  intros L R Hs tree_n depth d g key b mac mac' t0 x z z' kz h H1 H2 H3 H4 H5 H6.
  exact (accept_values L R Hs tree_n depth d g key b mac mac' t0 H1 H2 H3 H4 H5 H6 x z z' kz h).
Qed.
(** nothing checks that it is: with secret_sum = 2 p + 5 the verdict tells the verifier something about the value *)
Theorem C53_noncanonical_sum_refuted : exists L R (Hs : N -> N) d (g : nat -> tmsg) (key : mem) b mac mac' t0 x z z' kz h,
  (d < prm)%N /\ (forall s, (q_sum (g s) < 2 ^ 64)%N) /\ share_ok d (mac 0) (key 0) /\ share_ok d (mac' 0) (key 0) /\ (x < prm)%N /\
  share_ok d z kz /\ share_ok d z' kz /\ p_star 1 2 x b mac z = p_star 1 2 x b mac' z' /\
  p_accepts L R Hs 1 2 x b g mac z t0 h = true /\ p_accepts L R Hs 1 2 x b g mac' z' t0 h = false.
Proof.
  exists (fun x => x), (fun x => x), (fun x => x), 1%N, (fun _ => {| q_m0 := fun _ => 0%N; q_m1 := fun _ => 0%N; q_sum := (2 * prm + 5)%N |}), (fun _ => 0%N), (fun _ _ => true),
    (fun _ => mkblock 7 7), (fun _ => mkblock 3 3), (fun _ _ => 0%N), 1%N, (mkblock 7 7), (mkblock 3 3), 0%N, (prm - 5)%N.
  unfold share_ok. repeat split; intros; vm_compute; reflexivity.
Qed.

(** one tree of two leaves whose lower message was changed: the two positions lead to different keys, and a reply that suits the
    first one is accepted there and not at the other one for all of the first challenges but one *)
Definition mf_g : nat -> tmsg := fun _ => {| q_m0 := fun _ => 11%N; q_m1 := fun _ => 20%N; q_sum := 40%N |}.
Definition mf_mac (j : nat) : N := mkblock 6 (100 + 6 * 9).
Definition mf_b (v : bool) (s x : nat) : bool := v.
Definition mf_z (v : bool) (x : N) : N := let xz := (50 + 6 * (if v then x else x * x))%N in mkblock xz (3 + 9 * xz).
Definition mf_eff (v : bool) := eff_key 9 (punctured 1 (mf_b v 0)) (mf_mac 0) (p_leaves (fun x => x) (fun x => x) 2 (mf_b v 0) (mf_g 0) (mf_mac 0) (fun _ => 0%N)).
Definition mf_reply (x : N) : N := va 1 (fun s => sp_V 2 x (p_leaves (fun x => x) (fun x => x) 2 (mf_b true s) (mf_g s) (mf_mac s) (fun _ => 0%N))) (mf_z true x).
Example C53_case_fp :
  share_ok 9 (mf_mac 0) 100 /\ (map (mf_eff true) [0; 1] = [40; 20]%N /\ map (mf_eff false) [0; 1] = [11; 49]%N) /\
  forall x, In x [1; 2; 3; 4; 5]%N ->
  share_ok 9 (mf_z true x) 3 /\ share_ok 9 (mf_z false x) 3 /\ p_star 1 2 x (mf_b true) mf_mac (mf_z true x) = 50%N /\ p_star 1 2 x (mf_b false) mf_mac (mf_z false x) = 50%N /\
  p_accepts (fun x => x) (fun x => x) (fun x => x) 1 2 x (mf_b true) mf_g mf_mac (mf_z true x) (fun _ _ => 0%N) (mf_reply x) = true /\
  p_accepts (fun x => x) (fun x => x) (fun x => x) 1 2 x (mf_b false) mf_g mf_mac (mf_z false x) (fun _ _ => 0%N) (mf_reply x) = N.eqb x 1.
Proof.
  split; [repeat split; vm_compute; reflexivity|]. split; [split; vm_compute; reflexivity|].
  intros x [<-|[<-|[<-|[<-|[<-|[]]]]]]; (split; [repeat split; vm_compute; reflexivity|]); (split; [repeat split; vm_compute; reflexivity|]); vm_compute; repeat split.
Qed.

Print Assumptions C53_f2k_check_refuted.
Print Assumptions C53_challenge_known_in_advance.
Print Assumptions C53_late_challenge_binds.
Print Assumptions C53_values_not_tested.
Print Assumptions C53_noncanonical_sum_refuted.
