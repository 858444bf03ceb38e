(** C18-C25: the vector-OLE generator over F_p (emp-vole/*.h). *)
From Coq Require Import NArith ZArith List Bool Arith Lia.
From Verif Require Import Word FpModel ArithSpec TreeModel TreeSpec TreeProofs VoleModel VoleSpec LpnProofs CopeProofs MpfssProofs
  PoolModel PoolSpec PoolProofs VoleTripleModel VoleThms VoleThms2 LpnWords.
Import ListNotations.

(** * C18 *)
(** [times] executions of [len] OTs from one block of len*times random correlations: whatever the receiver's random bits rb
    and wanted bits b, and whatever the sender's bit array held before, the receiver gets the chosen messages *)
Theorem C18_ot_delivers_choice : forall (H : N -> N) len times (q r : mem) (rb sb : nat -> bool) delta (b : nat -> nat -> bool) s m0 m1 j,
  (forall i, i < len * times -> r i = N.lxor (q i) (if rb i then delta else 0%N)) -> s < times -> j < len ->
  let flips := snd (choices_all_r len b 0 times {| o_bits := rb; o_count := 0 |}) in
  let sender := ot_reset (choices_all_s len flips {| o_bits := sb; o_count := 0 |}) in
  let pads := ot_send (len * times) len s (send_pre H (len * times) q delta) sender m0 m1 in
  length pads = len /\ ot_recv len s (recv_pre H r) (b s) pads j = if b s j then m1 j else m0 j.
Proof.
  intros H len times q r rb sb delta b s m0 m1 j Hc Hs Hj flips sender pads.
  split; [|exact (ot_ok H len times q r rb sb delta b Hc s m0 m1 j Hs Hj)].
  apply send_loop_len.
Qed.
(** the other message is only sent xored with the hash of the receiver's block plus delta *)
Theorem C18_other_message_masked : forall (H : N -> N) len times (q r : mem) (rb sb : nat -> bool) delta (b : nat -> nat -> bool) s m0 m1 j,
  (forall i, i < len * times -> r i = N.lxor (q i) (if rb i then delta else 0%N)) -> s < times -> j < len ->
  let flips := snd (choices_all_r len b 0 times {| o_bits := rb; o_count := 0 |}) in
  let sender := ot_reset (choices_all_s len flips {| o_bits := sb; o_count := 0 |}) in
  let pad := nth j (ot_send (len * times) len s (send_pre H (len * times) q delta) sender m0 m1) (0%N, 0%N) in
  (if b s j then fst pad else snd pad) = N.lxor (if b s j then m0 j else m1 j) (H (N.lxor (r (s * len + j)) delta)).
Proof. intros H len times q r rb sb delta b s m0 m1 j Hc Hs Hj. exact (ot_masked H len times q r rb sb delta b Hc s m0 m1 j Hs Hj). Qed.
(** the bits announced are the wanted bits xored with the random bits of the same position, each used once *)
Theorem C18_choice_bits_masked : forall len times (rb : nat -> bool) (b : nat -> nat -> bool),
  snd (choices_all_r len b 0 times {| o_bits := rb; o_count := 0 |}) =
  map (fun s => map (fun j => xorb (b s j) (rb (s * len + j))) (seq 0 len)) (seq 0 times).
Proof. intros. apply (choices_msgs len times b 0 {| o_bits := rb; o_count := 0 |}). Qed.
Example C18_case :
  let q := fun i => N.of_nat (7 * i + 3) in let rb := fun i => Nat.even i in let delta := 93%N in
  let r := fun i => N.lxor (q i) (if rb i then delta else 0%N) in
  let b := fun s j => Nat.odd (s + j * j) in
  let H := fun x => (x * x * 1000 + 17)%N in
  let sender := ot_reset (choices_all_s 3 (snd (choices_all_r 3 b 0 2 {| o_bits := rb; o_count := 0 |})) {| o_bits := fun _ => true; o_count := 0 |}) in
  map (ot_recv 3 1 (recv_pre H r) (b 1) (ot_send 6 3 1 (send_pre H 6 q delta) sender (fun j => N.of_nat (100 + j)) (fun j => N.of_nat (200 + j)))) [0; 1; 2]
  = [200; 101; 202]%N.
Proof. vm_compute. reflexivity. Qed.

(** * C19 (the GF(2^128) variant is in PropVoleF2k.v) *)
(** one tree: [m] is what the OTs deliver.  Both parties write only their 2^(depth-1) leaves; the sender's leaves are the leaves
    of the full tree reduced into F_p; the receiver has all of them except the punctured one, which is increased by x*d *)
Theorem C19_punctured_tree : forall L R depth seed key mac d (b : nat -> bool) (t0s t0r : mem), 2 <= depth -> share_ok d mac key ->
  let '(ts, m0, m1, sum) := sp_send L R depth seed key t0s in
  forall m : mem, (forall x, x < depth - 1 -> m x = if b x then m1 x else m0 x) ->
  let tr := sp_recv L R depth b m sum mac t0r in
  let pos := punctured (depth - 1) b in
  pos < 2 ^ (depth - 1) /\
  (forall j, j < 2 ^ (depth - 1) -> ts j = ((node L R seed (depth - 1) j mod 2 ^ 64) mod prm)%N) /\
  (forall j, j < 2 ^ (depth - 1) -> j <> pos -> tr j = ts j) /\
  tr pos = ((ts pos + xval mac * d) mod prm)%N /\
  (forall j, 2 ^ (depth - 1) <= j -> ts j = t0s j /\ tr j = t0r j).
Proof. exact spfss_ok. Qed.
Definition exL (x : N) : N := (x * 3 + 1)%N.
Definition exR (x : N) : N := (x * 5 + 3)%N.
Example C19_case : let d := 1000%N in let b := fun x => Nat.eqb x 1 in
  let key := 77%N in let mac := mkblock 5 5077 in
  share_ok d mac key /\
  let '(ts, m0, m1, sum) := sp_send exL exR 4 9 key (fun _ => 0%N) in
  let tr := sp_recv exL exR 4 b (fun x => if b x then m1 x else m0 x) sum mac (fun _ => 0%N) in
  punctured 3 b = 5 /\ map ts (seq 0 8) = [256; 428; 430; 718; 436; 728; 730; 1218]%N /\
  map tr (seq 0 8) = [256; 428; 430; 718; 436; 5728; 730; 1218]%N.
Proof. split; [vm_compute; auto|]. vm_compute. repeat split; reflexivity. Qed.

(** * C20 *)
(** honest parties: the receiver's comparison succeeds for every hash function (so the hashed values are equal), every
    position is a valid correlation, and the value part is the noise value at the punctured position and 0 elsewhere *)
Theorem C20_mpfss_honest : forall L R H Hs threads tree_n depth rnd d key mac, 2 <= depth -> 1 <= threads -> (d < prm)%N ->
  (forall i, i < (depth - 1) * tree_n -> r_ot_r rnd i = N.lxor (r_ot_s rnd i) (if r_ot_b rnd i then r_ot_delta rnd else 0%N)) ->
  (forall i, i <= tree_n -> share_ok d (mac i) (key i)) -> forall Y0 Z0,
  let '(Y, Z, ok) := mpfss_pair L R H Hs threads tree_n depth rnd d key mac Y0 Z0 in
  ok = true /\ forall s j, s < tree_n -> j < 2 ^ (depth - 1) ->
    share_ok d (Z (s * 2 ^ (depth - 1) + j)) (Y (s * 2 ^ (depth - 1) + j)) /\
    Y (s * 2 ^ (depth - 1) + j) = ((node L R (r_seed rnd s) (depth - 1) j mod 2 ^ 64) mod prm)%N /\
    xval (Z (s * 2 ^ (depth - 1) + j)) = if j =? punctured (depth - 1) (r_b rnd s) then xval (mac s) else 0%N.
Proof. exact mpfss_ok. Qed.
(** every tree is processed exactly once, on a channel that exists; the list is the same on both sides *)
Theorem C20_each_tree_once : forall threads tree_n, 1 <= threads ->
  map fst (tree_tasks threads tree_n) = seq 0 tree_n /\
  forall s c, In (s, c) (tree_tasks threads tree_n) -> c < threads /\ s < tree_n.
Proof. intros. split; [now apply tasks_fst|]. intros s c Hin. destruct (tasks_chan threads tree_n s c H Hin) as (A & B & _). auto. Qed.
Definition ex_rnd (d : N) : trand :=
  {| r_seed := fun s => N.of_nat (11 * s + 5); r_b := fun s x => Nat.odd (s + x);
     r_ot_s := fun i => N.of_nat (i * i + 1); r_ot_b := fun i => Nat.even (i / 2);
     r_ot_r := fun i => N.lxor (N.of_nat (i * i + 1)) (if Nat.even (i / 2) then 12345 else 0)%N; r_ot_delta := 12345;
     r_chal := fun s => N.of_nat (s + 40) |}.
Definition ex_key (i : nat) : N := N.of_nat (i * 10 + 3).
Definition ex_mac (i : nat) : N := mkblock (N.of_nat (i + 1)) (N.of_nat (i * 10 + 3) + N.of_nat (i + 1) * 1000).
Lemma ex_corr i : i <= 40 -> share_ok 1000 (ex_mac i) (ex_key i).
Proof.
  intro H. assert (F : forallb (fun i => ((ex_mac i / 2 ^ 64 <? prm) && (ex_mac i mod 2 ^ 64 <? prm) && (ex_key i <? prm)
     && (ex_mac i mod 2 ^ 64 =? (ex_key i + ex_mac i / 2 ^ 64 * 1000) mod prm))%N) (seq 0 41) = true) by (vm_compute; reflexivity).
  rewrite forallb_forall in F. specialize (F i (proj2 (in_seq 41 0 i) ltac:(lia))).
  rewrite !andb_true_iff, !N.ltb_lt, N.eqb_eq in F. unfold share_ok, canon. tauto.
Qed.
Example C20_case : forall threads, 1 <= threads ->
  let '(Y, Z, ok) := mpfss_pair exL exR exL exR threads 3 3 (ex_rnd 1000) 1000 ex_key ex_mac (fun _ => 9%N) (fun _ => 8%N) in ok = true.
Proof.
  intros threads Ht. pose proof (C20_mpfss_honest exL exR exL exR threads 3 3 (ex_rnd 1000) 1000 ex_key ex_mac) as T.
  specialize (T ltac:(lia) Ht eq_refl (fun i _ => eq_refl) (fun i Hi => ex_corr i ltac:(lia)) (fun _ => 9%N) (fun _ => 8%N)).
  destruct (mpfss_pair exL exR exL exR threads 3 3 (ex_rnd 1000) 1000 ex_key ex_mac (fun _ => 9%N) (fun _ => 8%N)) as [[Y Z] ok]. apply T.
Qed.
Example C20_tasks_case : tree_tasks 3 7 = [(0, 0); (1, 0); (2, 1); (3, 1); (4, 2); (5, 2); (6, 2)] /\ tree_tasks 4 2 = [(0, 3); (1, 3)].
Proof. vm_compute. auto. Qed.

(** * C21 *)
(** for every pseudo-random word table there is one table E of indices below k, the same for both parties and for every input,
    such that each party's cell p becomes exactly the sum modulo p of its old content and the entries E p (in particular no
    64-bit or lane overflow happens), the correlation is preserved and nothing beyond n is written *)
Theorem C21_expansion : forall word k n threads, 1 <= k -> (N.of_nat k < 2 ^ 31)%N ->
  exists E : nat -> list nat,
  (forall p, length (E p) = if p <? lpn_reach n threads then 10 else 0) /\ (forall p x, In x (E p) -> x < k) /\
  forall d preK preM K M, corr d 0 k preK preM -> corr d 0 n K M ->
  let K' := lpn_compute word k n threads true preK K in
  let M' := lpn_compute word k n threads false preM M in
  corr d 0 n K' M' /\
  (forall p, p < n ->
    K' p = ((K p + nsum (map preK (E p))) mod prm)%N /\
    xval (M' p) = ((xval (M p) + nsum (map (fun x => xval (preM x)) (E p))) mod prm)%N /\
    mval (M' p) = ((mval (M p) + nsum (map (fun x => mval (preM x)) (E p))) mod prm)%N) /\
  (forall p, n <= p -> K' p = K p /\ M' p = M p).
Proof. exact expansion_ok. Qed.
(** every table index is inside the table *)
Theorem C21_index_in_range : forall word k, 1 <= k -> (N.of_nat k < 2 ^ 31)%N -> forall i w, lpn_idx word k i w < k.
Proof. exact lpn_idx_lt. Qed.
(** which table entries: there is one selection of pseudo-random words, independent of the words, the table and the
    correlations, in which no word is used twice (neither at one position nor at two), and position p adds the entries whose
    indices are the reductions of its own ten words *)
Theorem C21_index_words : forall n threads, exists W, own_words n threads W /\
  forall word k d preK preM K M, 1 <= k -> (N.of_nat k < 2 ^ 31)%N -> corr d 0 k preK preM -> corr d 0 n K M ->
  let E p := map (fun q => lpn_index k (word (fst q) (snd q))) (W p) in
  let K' := lpn_compute word k n threads true preK K in
  let M' := lpn_compute word k n threads false preM M in
  forall p, p < n ->
    K' p = ((K p + nsum (map preK (E p))) mod prm)%N /\
    xval (M' p) = ((xval (M p) + nsum (map (fun x => xval (preM x)) (E p))) mod prm)%N /\
    mval (M' p) = ((mval (M p) + nsum (map (fun x => mval (preM x)) (E p))) mod prm)%N.
Proof. exact expansion_words. Qed.
(** the smallest mask that covers k, as the loop computes it; every index below k can occur *)
Theorem C21_mask : forall k, 1 <= k -> (N.of_nat k < 2 ^ 31)%N ->
  exists h, k_mask k = N.ones h /\ (N.of_nat k <= 2 ^ h - 1 /\ 2 ^ h <= 2 * N.of_nat k)%N.
Proof. exact k_mask_ok. Qed.
Definition ex_word (i w : nat) : N := N.of_nat (i * 17 + w * 29 + 5).
Example C21_case :
  lpn_compute ex_word 5 11 2 true ex_key (fun i => ex_key (i + 5)) 7 = 333%N /\
  xval (lpn_compute ex_word 5 11 2 false ex_mac (fun i => ex_mac (i + 5)) 7) = 41%N /\
  mval (lpn_compute ex_word 5 11 2 false ex_mac (fun i => ex_mac (i + 5)) 7) = 41333%N.
Proof. vm_compute. auto. Qed.

(** * C22 *)
(** positions below (threads+1)*(n/(threads+1)) get ten table entries each; the last n mod (threads+1) none *)
Theorem C22_unprocessed_tail : forall word k n threads d preK preM K M, 1 <= k -> (N.of_nat k < 2 ^ 31)%N ->
  corr d 0 k preK preM -> corr d 0 n K M ->
  (threads + 1) * (n / (threads + 1)) + n mod (threads + 1) = n /\
  forall p, (threads + 1) * (n / (threads + 1)) <= p -> p < n ->
    lpn_compute word k n threads true preK K p = K p /\
    xval (lpn_compute word k n threads false preM M p) = xval (M p) /\
    mval (lpn_compute word k n threads false preM M p) = mval (M p).
Proof.
  intros word k n threads d preK preM K M Hk Hk31 HC HV. split; [apply reach_le|].
  intros p Hp Hn. destruct (expansion_ok word k n threads Hk Hk31) as (E & E1 & E2 & E3).
  destruct (E3 d preK preM K M HC HV) as (_ & A & _). destruct (A p Hn) as (A1 & A2 & A3).
  specialize (E1 p). rewrite (proj2 (Nat.ltb_ge p (lpn_reach n threads))) in E1 by exact Hp.
  destruct (E p); [|discriminate E1]. cbn [map nsum] in *. rewrite !N.add_0_r in *.
  destruct (HV p ltac:(lia) Hn) as (C1 & C2 & C3 & _).
  rewrite A1, A2, A3. rewrite !N.mod_small; auto.
Qed.
(** the English claim "all n positions are expanded" is false of the code: five positions, one worker *)
Theorem C22_all_expanded_refuted : exists n threads, 1 <= threads /\ exists p, p < n /\
  forall word k d preK preM K M, 1 <= k -> (N.of_nat k < 2 ^ 31)%N -> corr d 0 k preK preM -> corr d 0 n K M ->
    lpn_compute word k n threads true preK K p = K p.
Proof.
  exists 5, 1. split; [lia|]. exists 4. split; [lia|]. intros. 
  destruct (C22_unprocessed_tail word k 5 1 d preK preM K M H H0 H1 H2) as [_ T]. apply (T 4); cbn; lia.
Qed.
Example C22_case : let K' := lpn_compute ex_word 5 11 2 true ex_key (fun i => ex_key (i + 5)) in
  map K' (seq 8 3) <> map (fun i => ex_key (i + 5)) (seq 8 3) /\ map K' (seq 9 2) = map (fun i => ex_key (i + 5)) (seq 9 2).
Proof. vm_compute. split; [discriminate|reflexivity]. Qed.

(** * C23 *)
(** one extend(num): exactly the first num cells of the caller's array are written, with the next num undelivered items, in order *)
Theorem C23_extend : forall {A} (item : nat -> nat -> A) M L, 1 <= M -> M <= L -> forall num st s data st' d',
  rep item L st s -> extend item (L + M) M (Z.of_nat num) st data = (st', d') ->
  exists out s', served L num s out s' /\ rep item L st' s' /\
    (forall i, i < num -> d' i = item (fst (nth i out (0, 0))) (snd (nth i out (0, 0)))) /\
    (forall i, num <= i -> d' i = data i).
Proof. intros A item M L HM HL num st s data st' d' Hr E. exact (extend_served item M L HM HL num st s data st' d' Hr E). Qed.
(** extend_inplace: accepts exactly the lengths r*L+M with r >= 1 and then writes r full yields followed by M reserved items,
    inside the buffer *)
Theorem C23_extend_inplace : forall {A} (item : nat -> nat -> A) M L, 1 <= M -> M <= L -> forall space st s data,
  rep item L st s ->
  (forall r, 1 <= r -> space = r * L + M -> exists st' d' s',
     extend_inplace item (L + M) M (Z.of_nat space) st data = Some (st', d', Z.of_nat (r * L)) /\
     served_inplace L r s (runs_tags L (snd s) r) s' /\ rep item L st' s' /\
     (forall i, i < r * L -> d' i = item (fst (nth i (runs_tags L (snd s) r) (0, 0))) (snd (nth i (runs_tags L (snd s) r) (0, 0)))) /\
     (forall i, space <= i -> d' i = data i)) /\
  ((forall r, 1 <= r -> space <> r * L + M) -> extend_inplace item (L + M) M (Z.of_nat space) st data = None).
Proof.
  intros A item M L HM HL space st s data Hr. destruct (extend_inplace_served item M L HM HL space st s data Hr) as [X Y]. split; [|exact Y].
  intros r H1 H2. destruct (X r H1 H2) as (st' & d' & s' & X1 & X2 & X3 & X4 & _ & X5). exists st', d', s'. auto.
Qed.
(** byte_memory_need_inplace returns the smallest accepted length that yields the wanted number *)
Theorem C23_memory_need : forall M L need, 1 <= M -> 1 <= L -> 1 <= need ->
  exists r, 1 <= r /\ memory_need (L + M) M (Z.of_nat need) = Z.of_nat (r * L + M) /\ need <= r * L /\ (r - 1) * L < need.
Proof. exact memory_need_ok. Qed.
(** any sequence of requests: never the same item twice, never a reserved one *)
Theorem C23_session : forall {A} (item : nat -> nat -> A) M L, 1 <= M -> M <= L -> forall rs garbage bufs,
  Forall (fun r => match r with Take _ => True | TakeInplace k => 1 <= k end) rs ->
  exists (outs : list (list tag)) st', run_session item (L + M) M rs (pool_init (L + M) M garbage) bufs =
    Some (map (map (fun t => item (fst t) (snd t))) outs, st') /\
  map (@length tag) outs = map (fun r => match r with Take k => k | TakeInplace k => k * L end) rs /\
  NoDup (concat outs) /\ forall t, In t (concat outs) -> snd t < L.
Proof.
  intros A item M L HM HL rs g bufs F. destruct (session_fresh item M L HM HL rs g bufs F) as (outs & st' & A1 & A2 & A3 & A4).
  exists outs, st'. split; [exact A1|]. split; [exact A2|]. split; [exact A3|]. intros t Ht. now apply A4.
Qed.
(** when the reserve is larger than the yield (no parameter check forbids it) a request writes past the caller's buffer; the
    item written there is a reserved one *)
Theorem C23_large_reserve_refuted : exists n M num, M < n /\ 1 <= M /\ exists i p, num <= i /\ n - M <= p /\
  forall A (item : nat -> nat -> A) g data,
    snd (extend item n M (Z.of_nat num) (pool_init n M g) data) i = item 1 p.
Proof.
  exists 10, 8, 3. split; [lia|]. split; [lia|]. exists 5, 3. split; [lia|]. split; [lia|]. intros. reflexivity.
Qed.
Example C23_case : let item := fun it p => (it, p) in
  option_map fst (run_session item 5 2 [Take 2; Take 5; TakeInplace 2; Take 1] (pool_init 5 2 (fun _ => (9, 9))) (fun _ _ => (8, 8)))
  = Some [[(0, 0); (0, 1)]; [(0, 2); (1, 0); (1, 1); (1, 2); (2, 0)]; [(3, 0); (3, 1); (3, 2); (4, 0); (4, 1); (4, 2)]; [(2, 1)]].
Proof. vm_compute. reflexivity. Qed.

(** * C24 *)
Theorem C24_cope : forall (w0 w1 : nat -> nat -> N) d, (forall i j, (w0 i j < 2 ^ 64)%N) -> (forall i j, (w1 i j < 2 ^ 64)%N) -> (d < prm)%N ->
  forall u j, (u j < prm)%N ->
  share_ok d (mkblock (u j) (cope_recv 61 w0 j)) (cope_send 61 w0 w1 d (cope_tau w0 w1 u) j).
Proof. exact cope_ok. Qed.
Theorem C24_cope_single : forall (w0 w1 : nat -> nat -> N) d u, (d < prm)%N -> (u < prm)%N ->
  share_ok d (mkblock u (cope_recv1 61 w0)) (cope_send1 61 w0 w1 d (cope_tau1 w0 w1 u)).
Proof. exact cope1_ok. Qed.
(** the consistency check accepts an honest receiver, for every seed *)
Theorem C24_check_accepts : forall size d (key mac x : nat -> N) b c a seed, 1 <= size -> (seed < prm)%N -> (d < prm)%N ->
  (forall j, j < size -> share_ok d (mkblock (x j) (mac j)) (key j) /\ (mac j < prm)%N) ->
  share_ok d (mkblock a c) b -> (c < prm)%N ->
  base_sender_check size d key b seed (base_recver_check size mac x c a seed) = true.
Proof. exact base_check_ok. Qed.
(** and the whole base generation: valid correlations and no abort *)
Theorem C24_base : forall size (w0r w1r w0c w1c : nat -> nat -> N) d xr seedr, 1 <= size -> (d < prm)%N ->
  (forall i j, (w0r i j < 2 ^ 64)%N /\ (w1r i j < 2 ^ 64)%N /\ (w0c i j < 2 ^ 64)%N /\ (w1c i j < 2 ^ 64)%N) ->
  (forall j, (xr j < 2 ^ 64)%N) -> (seedr < 2 ^ 64)%N ->
  base_ok size w0r w1r w0c w1c d xr seedr = true /\
  forall j, share_ok d (base_mac w0r xr j) (base_key w0r w1r d (cope_tau w0r w1r (base_x xr)) j).
Proof.
  intros size w0r w1r w0c w1c d xr seedr Hs Hd H0 Hx Hse. split; [now apply base_ok_true|].
  intro j. exact (proj1 (base_corr d w0r w1r w0c w1c xr Hd H0 Hx j)).
Qed.
Definition ex_w0 (i j : nat) : N := (N.of_nat (i * 31 + j * 7 + 3) * 123456789123 mod 2 ^ 64)%N.
Definition ex_w1 (i j : nat) : N := (N.of_nat (i * 13 + j * 5 + 1) * 987654321987 mod 2 ^ 64)%N.
Example C24_case : let d := 1311768467294899695%N in let u := fun j => (N.of_nat j * 1000000007 + 5)%N in
  let k := cope_send 61 ex_w0 ex_w1 d (cope_tau ex_w0 ex_w1 u) 2 in
  let m := cope_recv 61 ex_w0 2 in
  (m =? (k + u 2%nat * d) mod prm)%N = true /\ (k =? m)%N = false.
Proof. vm_compute. auto. Qed.

(** * C25 *)
Theorem C25_all_iterations_valid : forall L R H Hs word threads pre0 pre main rnd d w0r w1r w0c w1c xr seedr garbage,
  1 <= threads -> (d < prm)%N ->
  (forall i j, (w0r i j < 2 ^ 64)%N /\ (w1r i j < 2 ^ 64)%N /\ (w0c i j < 2 ^ 64)%N /\ (w1c i j < 2 ^ 64)%N) ->
  (forall j, (xr j < 2 ^ 64)%N) -> (seedr < 2 ^ 64)%N ->
  lp_wf pre0 -> lp_wf pre -> lp_wf main ->
  lp_M pre <= lp_n pre0 -> lp_M main <= lp_n pre -> lp_M main <= lp_n main ->
  cot_ok (lp_log pre0 * lp_t pre0) (rnd 0) -> cot_ok (lp_log pre * lp_t pre) (rnd 1) ->
  (forall i, cot_ok (lp_log main * lp_t main) (rnd (i + 2))) ->
  snd (vt_setup L R H Hs word threads pre0 pre rnd d w0r w1r w0c w1c xr seedr) = true /\
  forall i, vt_ok L R H Hs word threads pre0 pre main rnd d w0r w1r w0c w1c xr seedr garbage i = true /\
  forall p, p < lp_n main ->
    share_ok d (vt_mac L R H Hs word threads pre0 pre main rnd d w0r w1r w0c w1c xr seedr garbage i p)
               (vt_key L R H Hs word threads pre0 pre main rnd d w0r w1r w0c w1c xr seedr garbage i p).
Proof.
  intros L R H Hs word threads pre0 pre main rnd d w0r w1r w0c w1c xr seedr garbage Ht Hd H0 Hx Hse W0 W1 W2 S0 S1 S2 C0 C1 C2.
  exact (triple_ok L R H Hs word threads pre0 pre main rnd d w0r w1r w0c w1c xr seedr garbage Ht Hd H0 Hx Hse W0 W1 W2 S0 S1 S2 C0 C1 C2).
Qed.
(** what the two parties obtain through any (common) sequence of extend / extend_inplace calls *)
Theorem C25_every_delivered_correlation : forall L R H Hs word threads pre0 pre main rnd d w0r w1r w0c w1c xr seedr garbage rs gk gm bk bm,
  1 <= threads -> (d < prm)%N ->
  (forall i j, (w0r i j < 2 ^ 64)%N /\ (w1r i j < 2 ^ 64)%N /\ (w0c i j < 2 ^ 64)%N /\ (w1c i j < 2 ^ 64)%N) ->
  (forall j, (xr j < 2 ^ 64)%N) -> (seedr < 2 ^ 64)%N ->
  lp_wf pre0 -> lp_wf pre -> lp_wf main ->
  lp_M pre <= lp_n pre0 -> lp_M main <= lp_n pre -> lp_M main <= lp_n main -> lp_M main <= lp_limit main ->
  cot_ok (lp_log pre0 * lp_t pre0) (rnd 0) -> cot_ok (lp_log pre * lp_t pre) (rnd 1) ->
  (forall i, cot_ok (lp_log main * lp_t main) (rnd (i + 2))) ->
  Forall (fun r => match r with Take _ => True | TakeInplace k => 1 <= k end) rs ->
  exists keys macs stk stm,
    run_session (vt_key L R H Hs word threads pre0 pre main rnd d w0r w1r w0c w1c xr seedr garbage) (lp_n main) (lp_M main) rs
      (pool_init (lp_n main) (lp_M main) gk) bk = Some (keys, stk) /\
    run_session (vt_mac L R H Hs word threads pre0 pre main rnd d w0r w1r w0c w1c xr seedr garbage) (lp_n main) (lp_M main) rs
      (pool_init (lp_n main) (lp_M main) gm) bm = Some (macs, stm) /\
    map (@length N) keys = map (fun r => match r with Take k => k | TakeInplace k => k * lp_limit main end) rs /\
    Forall2 (Forall2 (fun k m => share_ok d m k)) keys macs.
Proof.
  intros L R H Hs word threads pre0 pre main rnd d w0r w1r w0c w1c xr seedr garbage rs gk gm bk bm Ht Hd H0 Hx Hse W0 W1 W2 S0 S1 S2 S3 C0 C1 C2 F.
  exact (triple_session L R H Hs word threads pre0 pre main rnd d w0r w1r w0c w1c xr seedr garbage Ht Hd H0 Hx Hse W0 W1 W2 S0 S1 S2 C0 C1 C2 rs gk gm bk bm S3 F).
Qed.
(** the parameters of the repository meet the hypotheses on sizes *)
Theorem C25_default_parameters : lp_wf fp_pre0 /\ lp_wf fp_pre /\ lp_wf fp_main /\
  lp_M fp_pre <= lp_n fp_pre0 /\ lp_M fp_main <= lp_n fp_pre /\ lp_M fp_main <= lp_n fp_main /\ lp_M fp_main <= lp_limit fp_main.
Proof.
  unfold fp_pre0, fp_pre, fp_main.
  split; [apply lp_of_wf; easy|]. split; [apply lp_of_wf; easy|]. split; [apply lp_of_wf; easy|].
  split; [apply N_le_nat; rewrite lp_M_N, lp_n_N; easy|]. split; [apply N_le_nat; rewrite lp_M_N, lp_n_N; easy|].
  split; [apply N_le_nat; rewrite lp_M_N, lp_n_N; easy|].
  unfold lp_limit. apply N_le_nat. rewrite Nat2N.inj_sub, lp_M_N, lp_n_N. easy.
Qed.
(** a small instance run completely: set-up and one main iteration *)
Definition ex_pre0 := {| lp_n := 4; lp_t := 1; lp_k := 1; lp_log := 2 |}.
Definition ex_pre := {| lp_n := 4; lp_t := 1; lp_k := 1; lp_log := 2 |}.
Definition ex_main := {| lp_n := 8; lp_t := 2; lp_k := 1; lp_log := 2 |}.
Example C25_case_sizes : lp_wf ex_pre0 /\ lp_wf ex_pre /\ lp_wf ex_main /\ lp_M ex_pre <= lp_n ex_pre0 /\ lp_M ex_main <= lp_n ex_pre /\
  lp_M ex_main <= lp_n ex_main /\ lp_M ex_main <= lp_limit ex_main /\
  (forall i, cot_ok (lp_log ex_main * lp_t ex_main) (ex_rnd i)).
Proof. unfold lp_wf, lp_limit, lp_M, cot_ok. cbn. repeat split; try lia. Qed.
Definition ex_w0s (i j : nat) : N := N.of_nat (i mod 3 + j).
Definition ex_w1s (i j : nat) : N := N.of_nat (i mod 2 + 2 * j).
Example C25_case : let g := fun i x : nat => N.of_nat (i + x) in
  let key := vt_key exL exR exL exR ex_word 2 ex_pre0 ex_pre ex_main (fun i => ex_rnd 0) 1000 ex_w0s ex_w1s ex_w1s ex_w0s (fun j => N.of_nat j + 1)%N 5 g 0 in
  let mac := vt_mac exL exR exL exR ex_word 2 ex_pre0 ex_pre ex_main (fun i => ex_rnd 0) 1000 ex_w0s ex_w1s ex_w1s ex_w0s (fun j => N.of_nat j + 1)%N 5 g 0 in
  (key 5, mac 5) = (1678, mkblock 310 311678)%N.
Proof. vm_compute. reflexivity. Qed.

Print Assumptions C18_ot_delivers_choice.
Print Assumptions C18_other_message_masked.
Print Assumptions C18_choice_bits_masked.
Print Assumptions C19_punctured_tree.
Print Assumptions C20_mpfss_honest.
Print Assumptions C20_each_tree_once.
Print Assumptions C21_expansion.
Print Assumptions C21_index_in_range.
Print Assumptions C21_index_words.
Print Assumptions C21_mask.
Print Assumptions C22_unprocessed_tail.
Print Assumptions C22_all_expanded_refuted.
Print Assumptions C23_extend.
Print Assumptions C23_extend_inplace.
Print Assumptions C23_memory_need.
Print Assumptions C23_session.
Print Assumptions C23_large_reserve_refuted.
Print Assumptions C24_cope.
Print Assumptions C24_cope_single.
Print Assumptions C24_check_accepts.
Print Assumptions C24_base.
Print Assumptions C25_all_iterations_valid.
Print Assumptions C25_every_delivered_correlation.
Print Assumptions C25_default_parameters.
