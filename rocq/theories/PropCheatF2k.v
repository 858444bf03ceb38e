(** C49: a dishonest prover in the GF(2^128) correlation generator. *)
From Coq Require Import NArith List Bool Arith Lia.
From Verif Require Import Word GF128 BoolModel BoolSpec TreeModel TreeSpec VoleModel VoleSpec PoolModel VoleTripleModel VoleThms
  VoleF2kModel VoleF2kSpec VoleF2kProofs F2kModel F2kSpec EndProofs CheatF2kModel CheatF2kProofs.
From Verif Require PropVole PropVoleF2k PropF2k.
Import ListNotations.

(** the two sides run alone compute what the two-party run of VoleF2kModel computes: the verifier's keys whatever the prover's
    choice bits are, the prover's values and macs when its bits and what it receives are those of that run *)
Theorem C49_honest_run : forall L R H Hs word threads pre main rnd d cotA cotB garbage i p,
  let w := {| k_d := d; k_cot := cotB; k_seed := fun i => r_seed (rnd i); k_buf := fun i => garbage (2 * i) |} in
  let bits i := r_b (rnd i) in
  let views := s2_view L R word threads pre main bits w in
  (forall b, f2_key L R H Hs word threads pre main rnd d cotA cotB garbage i p = s2_key L R word threads pre main b w i p) /\
  f2_val L R H Hs word threads pre main rnd d cotA cotB garbage i p =
    r2_val L R word threads pre main bits views cotA (fun i => garbage (2 * i + 1)) i p /\
  (1 <= threads -> lp_wf pre -> lp_wf main -> lp_M main <= lp_n pre -> lp_M main <= lp_n main ->
   (forall j, j < 128 * lp_M pre -> cotA j = N.lxor (cotB j) (if N.testbit (cotA j) 0 then d else 0%N)) ->
   cot_ok (lp_log pre * lp_t pre) (rnd 0) -> (forall i, cot_ok (lp_log main * lp_t main) (rnd (i + 1))) -> p < lp_n main ->
   f2_mac L R H Hs word threads pre main rnd d cotA cotB garbage i p =
     r2_mac L R word threads pre main bits views cotA (fun i => garbage (2 * i + 1)) i p).
Proof.
  intros L R H Hs word threads pre main rnd d cotA cotB garbage i p w bits views.
  assert (K : forall b, f2_key L R H Hs word threads pre main rnd d cotA cotB garbage i p = s2_key L R word threads pre main b w i p).
  { intro b. unfold f2_key. now rewrite (proj1 (run2 L R H Hs word threads pre main rnd d cotA cotB garbage b views i)). }
  assert (V : f2_val L R H Hs word threads pre main rnd d cotA cotB garbage i p =
    r2_val L R word threads pre main bits views cotA (fun i => garbage (2 * i + 1)) i p).
  { unfold f2_val. now rewrite (proj2 (run2 L R H Hs word threads pre main rnd d cotA cotB garbage bits views i)). }
  split; [exact K|]. split; [exact V|]. intros Ht W1 W2 S1 S2 Hc C1 C2 Hp.
  destruct (PropVoleF2k.C30_all_iterations_valid L R H Hs word threads pre main rnd d cotA cotB garbage Ht Hc W1 W2 S1 S2 C1 C2) as [_ Q].
  destruct (Q i) as [_ Qi]. specialize (Qi p Hp). unfold share2 in Qi. rewrite Qi, (K bits), V. symmetry.
  apply (out2_ok L R word threads pre main bits views cotA (fun i => garbage (2 * i + 1)) Ht W1 W2 S1 S2 w); [|exact Hp].
  split; [reflexivity|exact Hc].
Qed.

(** world [w] is one in which the prover's blocks of the base transfers are [cot] and it receives [views] in the trees *)
Definition sees L R word threads pre main bits (views : nat -> list (list N * N)) (cot : mem) (w : kworld) : Prop :=
  (forall i, s2_view L R word threads pre main bits w i = views i) /\
  (forall j, j < 128 * lp_M pre -> cot j = N.lxor (k_cot w j) (if N.testbit (cot j) 0 then k_d w else 0%N)).

(** all correlations handed out: whatever choice bits the prover used, in every world with the same view the verifier's keys are
    those of one list of values and tags, namely of what the prover's own code computes from the view *)
Theorem C49_keys_are_bound : forall L R word threads pre main bits views cot zbuf,
  1 <= threads -> lp_wf pre -> lp_wf main -> lp_M main <= lp_n pre -> lp_M main <= lp_n main ->
  forall w, sees L R word threads pre main bits views cot w -> forall i p, p < lp_n main ->
  s2_key L R word threads pre main bits w i p =
  N.lxor (r2_mac L R word threads pre main bits views cot zbuf i p)
         (gfmul (r2_val L R word threads pre main bits views cot zbuf i p) (k_d w)).
Proof.
  intros L R word threads pre main bits views cot zbuf Ht W1 W2 S1 S2 w Hw i p Hp.
  pose proof (out2_ok L R word threads pre main bits views cot zbuf Ht W1 W2 S1 S2 w Hw i p Hp) as E. unfold share2 in E. rewrite E.
  rewrite N.lxor_assoc, N.lxor_nilpotent. symmetry. apply N.lxor_0_r.
Qed.

(** C31 for a verifier whose correlations come from the generator run against a dishonest prover: the wires are bound, and a
    batch with a non-vanishing combination of errors is accepted for at most two keys *)
Theorem C49_session_soundness : forall L R word vthreads pre main bits views cot (zbuf : nat -> mem) (ws : list kworld),
  1 <= vthreads -> lp_wf pre -> lp_wf main -> lp_M main <= lp_n pre -> lp_M main <= lp_n main ->
  (forall w, In w ws -> sees L R word vthreads pre main bits views cot w /\ valid_delta (k_d w)) ->
  exists val : nat -> nat -> N,
  forall ext bM oM threads bufsz polysz seeds pseeds junk corr bitmsg chkmsg polymsg g1 g2 (c : list fgate),
  1 <= threads -> 1 <= bufsz -> bufsz <= lp_n main ->
  let exec w := fv_exec (fun i => key_of (k_d w) (ext i)) (s2_key L R word vthreads pre main bits w) (cot_key bM (k_d w)) (cot_key oM (k_d w)) (k_d w)
    threads bufsz polysz seeds pseeds junk corr bitmsg chkmsg polymsg g1 g2 c in
  let cm := fcommit (fun i => fst (ext i)) val bM bufsz polysz corr bitmsg c in
  (exists wires, map fst wires = fc_w cm /\ forall w v, In w ws -> exec w = Some v -> fv_w v = map (key_of (k_d w)) wires) /\
  (forall k es, nth_error (fbatches cm) k = Some es -> fcombined (f_ranges threads (length es)) (seeds k) es <> 0%N -> NoDup (map k_d ws) ->
     (forall w, In w ws -> exists v, exec w = Some v /\ fv_printed v = 0) -> length ws <= 2).
Proof.
  intros L R word vthreads pre main bits views cot zbuf ws Ht W1 W2 S1 S2 Hs.
  set (val := r2_val L R word vthreads pre main bits views cot zbuf). set (mac := r2_mac L R word vthreads pre main bits views cot zbuf).
  exists val. intros ext bM oM threads bufsz polysz seeds pseeds junk corr bitmsg chkmsg polymsg g1 g2 c T1 T2 T3 exec cm.
  assert (EX : forall w v, In w ws -> exec w = Some v -> exists v',
    f_session ext val mac bM oM threads bufsz polysz seeds pseeds junk corr bitmsg chkmsg polymsg g1 g2 c (k_d w) = Some v' /\
    fv_w v' = fv_w v /\ fv_printed v' = fv_printed v).
  { intros w v Iw E. unfold f_session.
    pose proof (fv_exec_ext (fun i => key_of (k_d w) (ext i)) (fun r i => key_of (k_d w) (val r i, mac r i)) (s2_key L R word vthreads pre main bits w)
      (cot_key bM (k_d w)) (cot_key oM (k_d w)) (k_d w) threads bufsz polysz seeds pseeds junk corr bitmsg chkmsg polymsg T1 T2) as X.
    assert (EK : forall r i, i < bufsz -> key_of (k_d w) (val r i, mac r i) = s2_key L R word vthreads pre main bits w r i).
    { intros r i Hi. symmetry. apply (C49_keys_are_bound L R word vthreads pre main bits views cot zbuf Ht W1 W2 S1 S2 w (proj1 (Hs w Iw))). lia. }
    specialize (X EK g1 g2 c). fold (exec w) in X. rewrite E in X.
    destruct (fv_exec _ (fun r i => key_of (k_d w) (val r i, mac r i)) _ _ _ _ _ _ _ _ _ _ _ _ _ _ _ _) as [v'|]; [|destruct X].
    exists v'. split; [reflexivity|]. destruct X as (_ & _ & X). rewrite X. cbn. auto. }
  split.
  - destruct (PropF2k.C31_outputs_bound ext val mac bM oM threads bufsz polysz seeds pseeds junk corr bitmsg c T1 T2) as (wires & A & B).
    exists wires. split; [exact A|]. intros w v Iw E. destruct (EX w v Iw E) as (v' & E' & <- & _).
    exact (B chkmsg polymsg g1 g2 (k_d w) v' (proj2 (Hs w Iw)) E').
  - intros k es Hk Hf Nd Hacc. rewrite <- (map_length k_d ws).
    apply (PropF2k.C31_mul_soundness ext val mac bM oM threads bufsz polysz seeds pseeds junk corr bitmsg c chkmsg polymsg g1 g2 k es (map k_d ws) T1 T2 Hk Hf Nd).
    intros d Id. apply in_map_iff in Id. destruct Id as (w & <- & Iw). split; [apply (Hs w Iw)|].
    destruct (Hacc w Iw) as (v & E & P). destruct (EX w v Iw E) as (v' & E' & _ & Q). exists v'. split; [exact E'|congruence].
Qed.

(** what the verifier hashes and returns in the MPFSS check of stage i on the word [xs]: an affine function of the key, whose
    slope is the difference to the word the prover's own code computes *)
Theorem C49_reply_affine : forall L R word threads pre main bits views cot zbuf dig i,
  1 <= threads -> lp_wf pre -> lp_wf main -> lp_M main <= lp_n pre -> lp_M main <= lp_n main ->
  exists a, forall w xs, sees L R word threads pre main bits views cot w ->
  s2_reply L R word threads pre main bits w dig i xs =
  N.lxor a (gfmul (k_d w) (N.lxor (r2_star L R word threads pre main bits views cot zbuf dig i) xs)).
Proof.
  intros L R word threads pre main bits views cot zbuf dig i Ht W1 W2 S1 S2.
  exists (r2_word L R word threads pre main bits views cot zbuf dig i). intros w xs Hw. now apply reply2_ok.
Qed.
(** any other word: the returned hash determines the key (for a hash without collisions) *)
Theorem C49_forged_word_exposes_key : forall L R word threads pre main bits views cot zbuf dig i,
  1 <= threads -> lp_wf pre -> lp_wf main -> lp_M main <= lp_n pre -> lp_M main <= lp_n main ->
  let x0 := r2_star L R word threads pre main bits views cot zbuf dig i in
  forall xs, (xs < 2 ^ 128)%N -> forall (D : Type) (Hash : N -> D) (w1 w2 : kworld),
    let good w := sees L R word threads pre main bits views cot w /\ (k_d w < 2 ^ 128)%N in
    let r w := s2_reply L R word threads pre main bits w dig i xs in
    good w1 -> good w2 ->
    (xs = x0 -> r w1 = r w2) /\
    (xs <> x0 -> (forall a b, Hash a = Hash b -> a = b) -> Hash (r w1) = Hash (r w2) -> k_d w1 = k_d w2).
Proof.
  intros L R word threads pre main bits views cot zbuf dig i Ht W1 W2 S1 S2 x0 xs Hxs D Hash w1 w2 good r [A1 B1] [A2 B2].
  destruct (C49_reply_affine L R word threads pre main bits views cot zbuf dig i Ht W1 W2 S1 S2) as [a Q].
  unfold r. rewrite !Q by assumption. fold x0. split.
  - intros ->. now rewrite N.lxor_nilpotent, !GF128Ring.gfmul_0_r.
  - intros Ne Inj E. apply Inj in E. refine (reply2_inj a x0 xs _ _ B1 B2 _ Hxs Ne E).
    unfold x0. now apply star2_lt.
Qed.

(** verifiers with different keys that one prover cannot tell apart (all its values are zero) *)
Definition z2_world (d : N) : kworld := {| k_d := d; k_cot := fun j => N.of_nat (6 * j + 4); k_seed := fun i s => N.of_nat (i + 2 * s); k_buf := fun i x => N.of_nat (i + x) |}.
Example C49_case_worlds : forall d,
  sees PropVole.exL PropVole.exR PropVole.ex_word 2 PropVole.ex_pre PropVole.ex_main (fun i s x => Nat.even (i + s + x))
    (fun i => s2_view PropVole.exL PropVole.exR PropVole.ex_word 2 PropVole.ex_pre PropVole.ex_main (fun i s x => Nat.even (i + s + x)) (z2_world 0) i)
    (fun j => N.of_nat (6 * j + 4)) (z2_world d) .
Proof.
  intro d. split.
  - intros [|i]; reflexivity.
  - intros j _. assert (E : N.testbit (N.of_nat (6 * j + 4)) 0 = false).
    { rewrite N.bit0_odd. replace (N.of_nat (6 * j + 4)) with (2 * N.of_nat (3 * j + 2))%N by lia. now rewrite N.odd_mul. }
    rewrite E, N.lxor_0_r. reflexivity.
Qed.

(** a prover with non-zero values: a tree function that splits the seed in two halves, worlds whose hidden leaves make up for the
    difference of the keys.  The views of the set-up and of the first main run agree for the keys listed; the verifier's
    reply is the same for the expected word and tells the keys apart for another one *)
Definition t2L (x : N) : N := (x mod 2 ^ 64)%N.
Definition t2R (x : N) : N := (x / 2 ^ 64)%N.
Definition t2_pre := {| lp_n := 8; lp_t := 2; lp_k := 3; lp_log := 2 |}.
Definition t2_main := {| lp_n := 8; lp_t := 2; lp_k := 1; lp_log := 2 |}.
Definition t2_cot (j : nat) : N := (6 * N.of_nat j + 4 + if N.testbit (5 * (N.of_nat j / 128) + 1) (N.of_nat j mod 128) then 1 else 0)%N.
Definition t2_bits (i s x : nat) : bool := true.
Definition t2_dig (i s : nat) : N := N.of_nat (3 * i + s + 2).
Definition t2_world (d : N) : kworld :=
  {| k_d := d; k_cot := fun j => N.lxor (t2_cot j) (if N.testbit (t2_cot j) 0 then d else 0);
     k_seed := fun i t => (2 ^ 64 * N.of_nat (3 * i + t + 7) + N.lxor (N.of_nat (50 * i + t + 90)) (gfmul (nth (2 * i + t) [1; 6; 4; 30] 0) d))%N;
     k_buf := fun _ _ => 0%N |}.
Notation t2_view d i := (s2_view t2L t2R PropVole.ex_word 2 t2_pre t2_main t2_bits (t2_world d) i).
Notation t2_key d i p := (s2_key t2L t2R PropVole.ex_word 2 t2_pre t2_main t2_bits (t2_world d) i p).
Notation t2_reply d i xs := (s2_reply t2L t2R PropVole.ex_word 2 t2_pre t2_main t2_bits (t2_world d) t2_dig i xs).
Notation t2_star := (r2_star t2L t2R PropVole.ex_word 2 t2_pre t2_main t2_bits (fun i => t2_view 1%N i) t2_cot (fun _ _ => 0%N) t2_dig).
Example C49_case_slopes :
  let ds := [1; 1001; 2 ^ 50 + 1]%N in
  map (fun d => t2_view d 0) ds = repeat [([7; 0], 318406739479775389424325429912984107501); ([8; 0], 21875627421638697299518155998805445529)]%N 3 /\
  map (fun d => t2_view d 1) [1; 2 ^ 50 + 1]%N = repeat [([10; 0], 19807040628563832598572403417); ([11; 0], 39614081257132168796772042904)]%N 2 /\
  map (fun d => t2_key d 0 4) [1; 2 ^ 50 + 1]%N = map (fun d => N.lxor 141 (gfmul 30 d)) [1; 2 ^ 50 + 1]%N /\ t2_star 0 = 3%N /\
  map (fun d => t2_reply d 0 3) ds = repeat 318406739440161308167193261116212324771%N 3 /\
  map (fun d => t2_reply d 0 8) ds = map (fun d => N.lxor 318406739440161308167193261116212324771 (gfmul 11 d)) ds.
Proof. vm_compute. repeat split. Qed.

Print Assumptions C49_honest_run.
Print Assumptions C49_keys_are_bound.
Print Assumptions C49_session_soundness.
Print Assumptions C49_reply_affine.
Print Assumptions C49_forged_word_exposes_key.
