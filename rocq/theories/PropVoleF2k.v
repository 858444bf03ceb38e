(** C19-C22 for GF(2^128) and C30: the vector-OLE generator of emp-vole-f2k/*.h. *)
From Coq Require Import NArith ZArith List Bool Arith Lia.
From Verif Require Import Word GF128 BoolModel ArithSpec TreeModel TreeSpec TreeProofs VoleModel VoleSpec LpnProofs LpnWords MpfssProofs
  PoolModel VoleTripleModel VoleThms VoleThms2 VoleF2kModel VoleF2kSpec VoleF2kProofs PropVole.
Import ListNotations.

(** * C19 *)
Theorem C19_punctured_tree_f2k : forall L R depth seed key val mac d (b : nat -> bool) (t0s t0r : mem), 2 <= depth -> share2 d val mac key ->
  let '(ts, m0, m1, sum) := f2_send L R depth seed key t0s in
  forall m : mem, (forall x, x < depth - 1 -> m x = if b x then m1 x else m0 x) ->
  let tr := f2_recv L R depth b m sum mac t0r in
  let pos := punctured (depth - 1) b in
  pos < 2 ^ (depth - 1) /\
  (forall j, j < 2 ^ (depth - 1) -> ts j = node L R seed (depth - 1) j) /\
  (forall j, j < 2 ^ (depth - 1) -> j <> pos -> tr j = ts j) /\
  tr pos = N.lxor (ts pos) (gfmul val d) /\
  (forall j, 2 ^ (depth - 1) <= j -> ts j = t0s j /\ tr j = t0r j).
Proof.
  intros L R depth seed key val mac d b t0s t0r Hd Hk.
  pose proof (f2_send_ok L R depth seed Hd key t0s) as S.
  destruct (f2_send L R depth seed key t0s) as [[[ts m0] m1] sum]. destruct S as (S1 & S2 & S3 & S4).
  intros m Hm. assert (Hm' : forall x, x < depth - 1 -> m x = (if b x then xsum (fun y => node L R seed (S x) (2 * y + 1)) (2 ^ x) else xsum (fun y => node L R seed (S x) (2 * y)) (2 ^ x))).
  { intros x Hx. destruct (S3 x Hx) as [<- <-]. now apply Hm. }
  pose proof (f2_recv_ok L R depth seed d Hd b m sum key val mac t0r Hm' S4 Hk) as Rv. cbv zeta in *.
  pose proof (punctured_lt (depth - 1) b) as Hp. destruct Rv as (R1 & R2 & R3).
  split; [exact Hp|]. split; [exact S1|]. split; [|split].
  - intros j Hj Ne. rewrite S1 by easy. now apply R1.
  - rewrite R2, S1 by easy. reflexivity.
  - intros j Hj. split; [now apply S2|now apply R3].
Qed.
Example C19_case_f2k : let d := (2 ^ 127 + 5)%N in let b := fun x => Nat.eqb x 1 in
  let key := 77%N in let val := 6%N in let mac := N.lxor 77 (gfmul 6 d) in
  let '(ts, m0, m1, sum) := f2_send exL exR 4 9 key (fun _ => 0%N) in
  let tr := f2_recv exL exR 4 b (fun x => if b x then m1 x else m0 x) sum mac (fun _ => 0%N) in
  map ts (seq 0 8) = [256; 428; 430; 718; 436; 728; 730; 1218]%N /\
  map (fun j => N.lxor (tr j) (ts j)) (seq 0 8) = [0; 0; 0; 0; 0; gfmul 6 d; 0; 0]%N.
Proof. vm_compute. split; reflexivity. Qed.

(** * C20 *)
Theorem C20_mpfss_honest_f2k : forall L R H Hs threads tree_n depth rnd d key val mac, 2 <= depth -> 1 <= threads ->
  (forall i, i < (depth - 1) * tree_n -> r_ot_r rnd i = N.lxor (r_ot_s rnd i) (if r_ot_b rnd i then r_ot_delta rnd else 0%N)) ->
  (forall i, i <= tree_n -> share2 d (val i) (mac i) (key i)) -> forall Y0 Z0,
  let '(Y, Z, ok) := f2_mpfss L R H Hs threads tree_n depth rnd d key val mac Y0 Z0 in
  let X := f2_set_x depth rnd tree_n 0 val (fun _ => 0%N) in
  ok = true /\ forall s j, s < tree_n -> j < 2 ^ (depth - 1) ->
    let p := s * 2 ^ (depth - 1) + j in
    share2 d (X p) (Z p) (Y p) /\ Y p = node L R (r_seed rnd s) (depth - 1) j /\
    X p = if j =? punctured (depth - 1) (r_b rnd s) then val s else 0%N.
Proof.
  intros L R H Hs threads tree_n depth rnd d key val mac Hd Ht Hc Hk Y0 Z0.
  pose proof (f2_mpfss_ok L R H Hs threads tree_n depth rnd d key val mac Hd Ht Hc (fun i Hi => Hk i ltac:(lia)) Y0 Z0) as M.
  destruct (f2_mpfss L R H Hs threads tree_n depth rnd d key val mac Y0 Z0) as [[Y Z] ok]. destruct M as [-> M].
  split; [reflexivity|]. intros s j Hs' Hj p. destruct (M s j Hs' Hj) as [A B].
  pose proof (f2_set_x_ok depth rnd val tree_n 0 (fun _ => 0%N) s j Hj) as X.
  rewrite N.lxor_0_l, Nat.add_0_l, (proj2 (Nat.ltb_lt _ _) Hs') in X. cbn [andb Nat.leb] in X.
  fold p in A, B, X. change (s * leave_n depth + j) with p in A, B, X. rewrite X. split; [|split; [exact A|reflexivity]].
  unfold share2. rewrite A, B. unfold lf2R. change (MpfssProofs.pos depth rnd s) with (punctured (depth - 1) (r_b rnd s)).
  destruct (j =? punctured (depth - 1) (r_b rnd s)); [reflexivity|]. now rewrite GF128Ring.gfmul_0_l, N.lxor_0_r.
Qed.
Definition ex_val2 (i : nat) : N := (N.of_nat (i * i + 5) * 2 ^ 70 + N.of_nat i)%N.
Definition ex_key2 (i : nat) : N := (N.of_nat (i * 10 + 3) * 2 ^ 60)%N.
Definition ex_mac2 (i : nat) : N := N.lxor (ex_key2 i) (gfmul (ex_val2 i) (2 ^ 127 + 5)).
Example C20_case_f2k : forall threads, 1 <= threads ->
  let '(Y, Z, ok) := f2_mpfss exL exR exL exR threads 3 3 (ex_rnd 1000) (2 ^ 127 + 5) ex_key2 ex_val2 ex_mac2 (fun _ => 9%N) (fun _ => 8%N) in ok = true.
Proof.
  intros threads Ht. pose proof (C20_mpfss_honest_f2k exL exR exL exR threads 3 3 (ex_rnd 1000) (2 ^ 127 + 5) ex_key2 ex_val2 ex_mac2) as T.
  specialize (T ltac:(lia) Ht (fun i _ => eq_refl) (fun i Hi => eq_refl) (fun _ => 9%N) (fun _ => 8%N)).
  destruct (f2_mpfss exL exR exL exR threads 3 3 (ex_rnd 1000) (2 ^ 127 + 5) ex_key2 ex_val2 ex_mac2 (fun _ => 9%N) (fun _ => 8%N)) as [[Y Z] ok]. apply T.
Qed.

(** * C21, C22 *)
(** one index table for keys, values and macs; ten entries exactly for the first (threads+1)*(n/(threads+1)) positions *)
Theorem C21_expansion_f2k : forall word k n threads, 1 <= k -> (N.of_nat k < 2 ^ 31)%N ->
  exists E : nat -> list nat,
  (forall p, length (E p) = if p <? (threads + 1) * (n / (threads + 1)) then 10 else 0) /\ (forall p x, In x (E p) -> x < k) /\
  (forall pre V p, f2_lpn word k n threads pre V p = N.lxor (V p) (xorl pre (E p))) /\
  forall d preK preV preM K V M, corr2 d k preK preV preM -> corr2 d n K V M ->
  corr2 d n (f2_lpn word k n threads preK K) (f2_lpn word k n threads preV V) (f2_lpn word k n threads preM M).
Proof.
  intros word k n threads Hk Hk31. destruct (f2_lpn_ok word k n threads Hk Hk31) as (E & E1 & E2). exists E.
  split; [intro p; apply E1|]. split; [intros p; apply E1|]. split; [exact E2|].
  intros d preK preV preM K V M HC HV q Hq. rewrite !E2. apply share2_add; [now apply HV|]. apply xorl_share. intros x Hx. apply HC.
  destruct (E1 q) as [G _]. auto.
Qed.
(** every position uses its own ten words (as C21_index_words) *)
Theorem C21_index_words_f2k : forall n threads, exists W, own_words n threads W /\
  forall word k pre V p, 1 <= k -> (N.of_nat k < 2 ^ 31)%N ->
  f2_lpn word k n threads pre V p =
  N.lxor (V p) (xorl pre (map (fun q => lpn_index k (word (fst q) (snd q))) (W p))).
Proof. exact f2_expansion_words. Qed.
Theorem C22_unprocessed_tail_f2k : forall word k n threads pre V p, 1 <= k -> (N.of_nat k < 2 ^ 31)%N ->
  (threads + 1) * (n / (threads + 1)) <= p -> f2_lpn word k n threads pre V p = V p.
Proof.
  intros word k n threads pre V p Hk Hk31 Hp. destruct (f2_lpn_ok word k n threads Hk Hk31) as (E & E1 & E2). rewrite E2.
  destruct (E1 p) as [_ B]. rewrite (proj2 (Nat.ltb_ge p (lpn_reach n threads))) in B by exact Hp.
  destruct (E p); [|discriminate B]. apply N.lxor_0_r.
Qed.
Example C21_case_f2k : let K' := f2_lpn ex_word 5 11 2 ex_key2 (fun i => ex_key2 (i + 5)) in
  let V' := f2_lpn ex_word 5 11 2 ex_val2 (fun i => ex_val2 (i + 5)) in
  let M' := f2_lpn ex_word 5 11 2 ex_mac2 (fun i => ex_mac2 (i + 5)) in
  N.eqb (M' 7) (N.lxor (K' 7) (gfmul (V' 7) (2 ^ 127 + 5))) = true /\ N.eqb (V' 7) (ex_val2 12) = false /\ N.eqb (V' 9) (ex_val2 14) = true.
Proof. vm_compute. auto. Qed.

(** * C30 *)
(** 128 authenticated bits (block of ALICE = block of BOB plus bit times Delta, the bit being the block's low bit) *)
Theorem C30_base : forall d cotA cotB i,
  (forall j, j < 128 -> cotA (128 * i + j) = N.lxor (cotB (128 * i + j)) (if N.testbit (cotA (128 * i + j)) 0 then d else 0%N)) ->
  f2_base_mac cotA i = N.lxor (f2_base_mac cotB i) (gfmul (f2_base_val cotA i) d).
Proof. intros d cotA cotB i H. apply f2_base_ok. exact H. Qed.
(** the packed value has exactly these low bits as its binary digits *)
Theorem C30_base_value_bits : forall cot i j, j < 128 ->
  N.testbit (f2_base_val cot i) (N.of_nat j) = N.testbit (cot (128 * i + j)) 0.
Proof.
  intros cot i j Hj. unfold f2_base_val. rewrite BoolAlg.ch_bits_word by now rewrite map_length, seq_length.
  rewrite ch_word_bit, <- (nth_map_seq (fun j => cot (128 * i + j)) 128 j 0%N Hj). reflexivity.
Qed.
Example C30_case : let d := (2 ^ 127 + 5)%N in let B := fun j => (N.of_nat (j * 6 + 4) * 2 ^ 61)%N in
  let A := fun j => N.lxor (B j) (if Nat.odd (j / 3) then d else 0%N) in
  forallb (fun j => N.eqb (A j) (N.lxor (B j) (if N.testbit (A j) 0 then d else 0%N))) (seq 128 128) = true /\
  N.eqb (f2_base_mac A 1) (N.lxor (f2_base_mac B 1) (gfmul (f2_base_val A 1) d)) = true /\ N.eqb (f2_base_val A 1) 0 = false.
Proof. vm_compute. auto. Qed.
(** set-up and every later iteration deliver valid correlations, and no check aborts *)
Theorem C30_all_iterations_valid : forall L R H Hs word threads pre main rnd d cotA cotB garbage, 1 <= threads ->
  (forall j, j < 128 * lp_M pre -> cotA j = N.lxor (cotB j) (if N.testbit (cotA j) 0 then d else 0%N)) ->
  lp_wf pre -> lp_wf main -> lp_M main <= lp_n pre -> lp_M main <= lp_n main ->
  cot_ok (lp_log pre * lp_t pre) (rnd 0) -> (forall i, cot_ok (lp_log main * lp_t main) (rnd (i + 1))) ->
  snd (f2_setup L R H Hs word threads pre rnd d cotA cotB) = true /\
  forall i, f2_ok L R H Hs word threads pre main rnd d cotA cotB garbage i = true /\
  forall p, p < lp_n main ->
    share2 d (f2_val L R H Hs word threads pre main rnd d cotA cotB garbage i p) (f2_mac L R H Hs word threads pre main rnd d cotA cotB garbage i p)
             (f2_key L R H Hs word threads pre main rnd d cotA cotB garbage i p).
Proof.
  intros L R H Hs word threads pre main rnd d cotA cotB garbage Ht Hc W1 W2 S1 S2 C1 C2.
  exact (f2_triple_ok L R H Hs word threads pre main rnd d cotA cotB garbage Ht Hc W1 W2 S1 S2 C1 C2).
Qed.
Theorem C30_default_parameters : Forall (fun pm => lp_wf (fst pm) /\ lp_wf (snd pm) /\ lp_M (snd pm) <= lp_n (fst pm) /\ lp_M (snd pm) <= lp_n (snd pm))
  [(b13_pre, b13_main); (b12_pre, b12_main); (b11_pre, b11_main)].
Proof.
  unfold b13_pre, b13_main, b12_pre, b12_main, b11_pre, b11_main.
  apply Forall_cons; [|apply Forall_cons; [|apply Forall_cons; [|apply Forall_nil]]]; cbn [fst snd];
  (split; [apply lp_of_wf; easy|split; [apply lp_of_wf; easy|split; apply N_le_nat; rewrite lp_M_N, lp_n_N; easy]]).
Qed.

Print Assumptions C19_punctured_tree_f2k.
Print Assumptions C20_mpfss_honest_f2k.
Print Assumptions C21_expansion_f2k.
Print Assumptions C21_index_words_f2k.
Print Assumptions C22_unprocessed_tail_f2k.
Print Assumptions C30_base.
Print Assumptions C30_base_value_bits.
Print Assumptions C30_all_iterations_valid.
Print Assumptions C30_default_parameters.
