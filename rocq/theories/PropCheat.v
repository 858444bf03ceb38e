(** C48: a dishonest prover in the F_p correlation generator. *)
From Coq Require Import NArith ZArith List Bool Arith Lia.
From Verif Require Import Word FpModel ArithModel ArithSpec TreeModel TreeSpec VoleModel VoleSpec PoolModel PoolSpec PoolProofs
  VoleTripleModel VoleThms VoleThms2 EndModel EndProofs CheatModel CheatProofs CheatAlg CheatProofs2.
From Verif Require PropArith PropVole PropEnd.
Import ListNotations.

(** the verifier alone, run on the words of an honest prover, computes the keys of the two-party run of VoleTripleModel *)
Theorem C48_honest_run : forall L R H Hs word threads pre0 pre main rnd d w0r w1r w0c w1c xr seedr garbage bits i p,
  let w := {| v_d := d; v_seed := fun i => r_seed (rnd i); v_buf := fun i => garbage (2 * i) |} in
  vt_key L R H Hs word threads pre0 pre main rnd d w0r w1r w0c w1c xr seedr garbage i p =
  gen_key L R word threads pre0 pre main bits w (base_key w0r w1r d (cope_tau w0r w1r (base_x xr))) i p.
Proof. intros. apply honest_keys. Qed.

(** the correction words of cope.h and the words of the base check: whatever (reduced) words the prover sends, for every set
    of verifier keys either the verifier's base keys lie on lines in the key, or only few seeds leave the prover an answer
    that none of these keys rejects *)
Theorem C48_base_check_binds : forall size w0r w1r w0c w1c tau tauc (ds : list N), 1 <= size ->
  (forall i j, (w0r i j < 2 ^ 64)%N /\ (w1r i j < 2 ^ 64)%N /\ (w0c i j < 2 ^ 64)%N /\ (w1c i j < 2 ^ 64)%N) ->
  (forall i j, (tau i j <= prm)%N /\ (tauc i j <= prm)%N) -> NoDup ds -> (forall d, In d ds -> (d < prm)%N) ->
  (exists blk : nat -> N, forall d j, In d ds -> j < size -> share_ok d (blk j) (base_key w0r w1r d tau j)) \/
  (forall seeds (reply : N -> N * N), NoDup seeds -> (forall s, In s seeds -> (s < prm)%N /\ (snd (reply s) < 2 ^ 64)%N) ->
     (forall s d, In s seeds -> In d ds ->
        base_sender_check size d (base_key w0r w1r d tau) (cope_send 61 w0c w1c d tauc 0) s (reply s) = true) ->
     length seeds <= 8 * size /\ ((forall s, In s seeds -> (snd (reply s) < 2 ^ 63)%N) -> length seeds <= size)).
Proof.
  intros size w0r w1r w0c w1c tau tauc ds Hn Hw Ht Nd Hd.
  assert (K : forall d j, (d < PR)%N -> j < size -> (base_key w0r w1r d tau j < PR)%N).
  { intros d j _ _. apply cope_send_lt; intros; try apply Hw; apply Ht. }
  assert (Kb : forall d, (d < PR)%N -> (cope_send 61 w0c w1c d tauc 0 < PR)%N) by (intros d _; apply cope_send_lt; intros; try apply Hw; apply Ht).
  exact (check_binds size (fun d => base_key w0r w1r d tau) (fun d => cope_send 61 w0c w1c d tauc 0) Hn K Kb ds Nd Hd).
Qed.

(** world [w] is one in which the prover receives [views] in the trees *)
Definition fits L R word threads pre0 pre main bits w0r w1r tau (views : nat -> list (list N * N)) (w : vworld) : Prop :=
  (v_d w < prm)%N /\ forall i, gen_view L R word threads pre0 pre main bits w (base_key w0r w1r (v_d w) tau) i = views i.
(** seeds of the base check for which some answer passes with every key of [ds] *)
Definition few_seeds size w0r w1r w0c w1c tau tauc (ds : list N) : Prop :=
  forall seeds (reply : N -> N * N), NoDup seeds -> (forall s, In s seeds -> (s < prm)%N /\ (snd (reply s) < 2 ^ 64)%N) ->
    (forall s d, In s seeds -> In d ds ->
       base_sender_check size d (base_key w0r w1r d tau) (cope_send 61 w0c w1c d tauc 0) s (reply s) = true) ->
    length seeds <= 8 * size.

(** all correlations handed out: in every world with the same view the keys are those of one list of values and tags *)
Theorem C48_keys_are_bound : forall L R word threads pre0 pre main bits w0r w1r w0c w1c tau tauc views (ws : list vworld),
  1 <= threads -> lp_wf pre0 -> lp_wf pre -> lp_wf main ->
  lp_M pre <= lp_n pre0 -> lp_M main <= lp_n pre -> lp_M main <= lp_limit main ->
  (forall i j, (w0r i j < 2 ^ 64)%N /\ (w1r i j < 2 ^ 64)%N /\ (w0c i j < 2 ^ 64)%N /\ (w1c i j < 2 ^ 64)%N) ->
  (forall i j, (tau i j <= prm)%N /\ (tauc i j <= prm)%N) ->
  (forall w, In w ws -> fits L R word threads pre0 pre main bits w0r w1r tau views w) ->
  (exists pU pMac, vole_ok pU pMac /\ forall w gk bk i, In w ws ->
     pool_next (gen_key L R word threads pre0 pre main bits w (base_key w0r w1r (v_d w) tau)) (lp_n main) (lp_M main) gk bk i =
     vole_key pU pMac (v_d w) i) \/
  few_seeds (lp_M pre0) w0r w1r w0c w1c tau tauc (map v_d ws).
Proof.
  intros L R word threads pre0 pre main bits w0r w1r w0c w1c tau tauc views ws Ht W0 W1 W2 S0 S1 S3 Hw Htau Hf.
  assert (S2 : lp_M main <= lp_n main) by (unfold lp_limit in S3; lia).
  assert (HM : 1 <= lp_M main) by (unfold lp_M; lia). assert (HM0 : 1 <= lp_M pre0) by (unfold lp_M; lia).
  destruct (C48_base_check_binds (lp_M pre0) w0r w1r w0c w1c tau tauc (nodup N.eq_dec (map v_d ws)) HM0 Hw Htau (NoDup_nodup _ _)) as [[blk Hb]|B].
  { intros d Id. apply nodup_In, in_map_iff in Id. destruct Id as (w & <- & Iw). apply (Hf w Iw). }
  - left. set (X := x_blk L R word threads pre0 pre main bits views blk).
    assert (Sh : forall w i p, In w ws -> p < lp_n main ->
      share_ok (v_d w) (X i p) (gen_key L R word threads pre0 pre main bits w (base_key w0r w1r (v_d w) tau) i p)).
    { intros w i p Iw Hp. apply blk_ok; auto; [apply (Hf w Iw)|]. intros j _ Hj. apply Hb; [apply nodup_In, in_map, Iw|exact Hj]. }
    destruct ws as [|w0 ws'].
    { exists (fun _ => 0%N), (fun _ => 0%N). split; [intro i; split; reflexivity|intros w gk bk i []]. }
    set (ws := w0 :: ws') in *. assert (I0 : In w0 ws) by (now left).
    set (lim := lp_n main - lp_M main). assert (Hl : forall i, i mod lim < lp_n main).
    { intro i. unfold lp_limit in S3. assert (lim <> 0) by (unfold lim; lia). pose proof (Nat.mod_upper_bound i lim H). unfold lim in *. lia. }
    exists (fun i => (X (i / lim)%nat (i mod lim)%nat / 2 ^ 64)%N), (fun i => (X (i / lim)%nat (i mod lim)%nat mod 2 ^ 64)%N). split.
    { intro i. destruct (Sh w0 (i / lim) (i mod lim) I0 (Hl i)) as (A1 & A2 & _). split; assumption. }
    intros w gk bk i Iw.
    destruct (PropEnd.C43_handouts_in_order N (gen_key L R word threads pre0 pre main bits w (base_key w0r w1r (v_d w) tau))
      (lp_n main) (lp_M main) gk bk HM S3) as [E _]. rewrite E. fold lim.
    destruct (Sh w (i / lim) (i mod lim) Iw (Hl i)) as (A1 & A2 & A3 & A4). unfold vole_key, fsub. rewrite A4.
    set (k := gen_key L R word threads pre0 pre main bits w (base_key w0r w1r (v_d w) tau) (i / lim) (i mod lim)) in *.
    set (x := (X (i / lim)%nat (i mod lim)%nat / 2 ^ 64 * v_d w)%N). clearbody k x. clear -A3.
    assert (P : prm <> 0%N) by easy. pose proof (N.mod_lt x prm P) as Lx.
    assert (Z : ((k + x) mod prm = (k + x mod prm) mod prm)%N) by (now rewrite N.add_mod_idemp_r).
    rewrite Z. set (y := (x mod prm)%N) in *. clearbody y. rewrite <- (N.mod_small k prm A3) at 1.
    assert (Z2 : ((k + y) mod prm + (prm - y) = (if N.ltb (k + y) prm then k + prm else k))%N).
    { destruct (N.ltb_spec (k + y) prm) as [Q|Q].
      - rewrite N.mod_small by exact Q. lia.
      - replace (k + y)%N with (k + y - prm + 1 * prm)%N by lia. rewrite N.mod_add by exact P. rewrite N.mod_small by lia. lia. }
    rewrite Z2. destruct (N.ltb (k + y) prm); [|reflexivity].
    replace (k + prm)%N with (k + 1 * prm)%N by lia. now rewrite N.mod_add by exact P.
  - right. intros seeds reply Ns Hs Ha. apply (B seeds reply Ns Hs). intros s d Is Id. apply Ha; [exact Is|]. now apply nodup_In in Id.
Qed.

(** the soundness bound of C09 for a verifier whose correlations come from the generator run against a dishonest prover *)
Theorem C48_session_soundness : forall L R word vthreads pre0 pre main bits w0r w1r w0c w1c tau tauc views (ws : list vworld),
  1 <= vthreads -> lp_wf pre0 -> lp_wf pre -> lp_wf main ->
  lp_M pre <= lp_n pre0 -> lp_M main <= lp_n pre -> lp_M main <= lp_limit main ->
  (forall i j, (w0r i j < 2 ^ 64)%N /\ (w1r i j < 2 ^ 64)%N /\ (w0c i j < 2 ^ 64)%N /\ (w1c i j < 2 ^ 64)%N) ->
  (forall i j, (tau i j <= prm)%N /\ (tauc i j <= prm)%N) ->
  (forall w, In w ws -> fits L R word vthreads pre0 pre main bits w0r w1r tau views w) -> NoDup (map v_d ws) ->
  few_seeds (lp_M pre0) w0r w1r w0c w1c tau tauc (map v_d ws) \/
  exists pU, forall pub_mac threads csz psz seeds pseeds words chkmsg pchkmsg
         (D : Type) (Deqb : D -> D -> bool) (H : list N -> D) (dig : D) (c : list agate) gk bk,
  (forall a b, Deqb a b = true -> a = b) -> (pub_mac < prm)%N ->
  Forall wf_pub c -> words_ok words 0 c -> (forall k, (pseeds k < 2 ^ 64)%N) ->
  (forall k, (snd (chkmsg k) < 2 ^ 64 /\ snd (pchkmsg k) < 2 ^ 64)%N) ->
  let exec w := av_exec pub_mac
    (pool_next (gen_key L R word vthreads pre0 pre main bits w (base_key w0r w1r (v_d w) tau)) (lp_n main) (lp_M main) gk bk)
    (v_d w) threads csz psz seeds pseeds words chkmsg pchkmsg c in
  let cm := acommit pU csz psz words c in
  let q := aplain (awith_inputs (ac_ins cm) c) in
  (forall w, In w ws -> exists v, exec w = Some v /\ av_outcome Deqb H v dig = (false, false) /\
               (map (fun x => x mod prm)%N (av_outs v) <> pl_outs q \/ pl_ok q = false)) ->
  length ws <= 4 \/
  (exists k errs rs, nth_error (mul_batches cm) k = Some errs /\ (exists e, In e errs /\ e <> 0%N) /\
     a_ranges threads (length errs) = Some rs /\ a_combined rs (a_chal seeds k) errs = 0%N) \/
  (exists k errs, nth_error (rel_batches cm) k = Some errs /\ (exists e, In e errs /\ e <> 0%N) /\
     a_combined [(0, length errs)] (fun _ => pseeds k mod prm)%N errs = 0%N) \/
  (exists w1 w2 v1 v2, In w1 ws /\ In w2 ws /\ exec w1 = Some v1 /\ exec w2 = Some v2 /\
     av_hash v1 <> av_hash v2 /\ H (av_hash v1) = H (av_hash v2)).
Proof.
  intros L R word vthreads pre0 pre main bits w0r w1r w0c w1c tau tauc views ws Ht W0 W1 W2 S0 S1 S3 Hw Htau Hf Nd.
  destruct (C48_keys_are_bound L R word vthreads pre0 pre main bits w0r w1r w0c w1c tau tauc views ws Ht W0 W1 W2 S0 S1 S3 Hw Htau Hf)
    as [(pU & pMac & Vok & EK)|B]; [right|left; exact B].
  exists pU. intros pub_mac threads csz psz seeds pseeds words chkmsg pchkmsg D Deqb H dig c gk bk Hq Hpm Wf Wo Hps Hcm exec cm q Hacc.
  set (exec' := fun d => av_exec pub_mac (vole_key pU pMac d) d threads csz psz seeds pseeds words chkmsg pchkmsg c).
  assert (EE : forall w, In w ws -> exec w = exec' (v_d w)).
  { intros w Iw. unfold exec, exec'. apply av_exec_ext. intro i. now apply EK. }
  rewrite <- (map_length v_d ws).
  destruct (PropArith.C09_session_soundness pub_mac pU pMac threads csz psz seeds pseeds words chkmsg pchkmsg D Deqb H dig c (map v_d ws)
    Hq Nd Hpm Wf Wo Hps Hcm) as [A|[A|[A|A]]].
  - intros d Id. apply in_map_iff in Id. destruct Id as (w & <- & Iw). split; [apply (Hf w Iw)|].
    destruct (Hacc w Iw) as (v & E & O). rewrite (EE w Iw) in E. exists v. split; [exact E|exact O].
  - now left.
  - right; left. exact A.
  - right; right; left. exact A.
  - right; right; right. destruct A as (d1 & d2 & v1 & v2 & I1 & I2 & E1 & E2 & N1 & N2).
    apply in_map_iff in I1, I2. destruct I1 as (w1' & <- & I1). destruct I2 as (w2' & <- & I2).
    exists w1', w2', v1, v2. rewrite (EE w1' I1), (EE w2' I2).
    split; [exact I1|]. split; [exact I2|]. split; [exact E1|]. split; [exact E2|]. split; [exact N1|exact N2].
Qed.

(** what the verifier hashes and returns in the MPFSS check of stage i, for every word [xs] the prover may send: an affine
    function of the key, constant exactly for the word the honest code computes from the prover's blocks *)
Theorem C48_reply_affine : forall L R word threads pre0 pre main bits views blk0 i dig,
  1 <= threads -> lp_wf pre0 -> lp_wf pre -> lp_wf main ->
  lp_M pre <= lp_n pre0 -> lp_M main <= lp_n pre -> lp_M main <= lp_n main ->
  1 <= lp_t (gen_par pre0 pre main i) -> (forall c, (dig c < prm)%N) ->
  exists mac a, (a < prm)%N /\ forall (w : vworld) key0, (v_d w < prm)%N ->
    (forall i, gen_view L R word threads pre0 pre main bits w key0 i = views i) ->
    (forall j, j < lp_M pre0 -> share_ok (v_d w) (blk0 j) (key0 j)) ->
    let p := gen_par pre0 pre main i in
    let x0 := x_star (lp_t p) mac (fun s => sp_chi_alpha (lp_log p + 1) (dig (chan (tree_tasks threads (lp_t p)) s)) (bits i s)) (mac (lp_t p)) in
    (forall j, j < lp_M p -> share_ok (v_d w) (mac j) (gen_in L R word threads pre0 pre main bits w key0 i j)) /\ (x0 < prm)%N /\
    forall xs, (xs < prm)%N ->
      gen_reply L R word threads pre0 pre main bits w dig key0 i xs = ((a + v_d w * (x0 + (prm - xs))) mod prm)%N.
Proof.
  intros L R word threads pre0 pre main bits views blk0 i dig Ht W0 W1 W2 S0 S1 S2 Hp Hdig.
  destruct (run_reply L R word threads pre0 pre main bits views blk0 Ht W0 W1 W2 S0 S1 S2 i dig Hp Hdig) as (mac & a & Ha & Q).
  exists mac, a. split; [exact Ha|]. intros w key0 Hd Hv Hb. destruct (Q w key0 Hv (fun j _ Hj => Hb j Hj) Hd) as (Q1 & Q2 & Q3).
  split; [intros j Hj; apply Q1; [apply Nat.le_0_l|exact Hj]|]. split; [exact Q2|exact Q3].
Qed.
(** any other word: the returned hash determines the key (for a hash without collisions on 61-bit words) *)
Theorem C48_forged_word_exposes_key : forall L R word threads pre0 pre main bits views blk0 i dig,
  1 <= threads -> lp_wf pre0 -> lp_wf pre -> lp_wf main ->
  lp_M pre <= lp_n pre0 -> lp_M main <= lp_n pre -> lp_M main <= lp_n main ->
  1 <= lp_t (gen_par pre0 pre main i) -> (forall c, (dig c < prm)%N) ->
  exists x0, forall xs, (xs < prm)%N -> forall (D : Type) (Hash : N -> D) (w1 w2 : vworld) k1 k2,
    let good w k := (v_d w < prm)%N /\ (forall i, gen_view L R word threads pre0 pre main bits w k i = views i) /\
                    (forall j, j < lp_M pre0 -> share_ok (v_d w) (blk0 j) (k j)) in
    let r w k := gen_reply L R word threads pre0 pre main bits w dig k i xs in
    good w1 k1 -> good w2 k2 ->
    (xs = x0 -> r w1 k1 = r w2 k2) /\
    (xs <> x0 -> (forall a b, (a < prm)%N -> (b < prm)%N -> Hash a = Hash b -> a = b) -> Hash (r w1 k1) = Hash (r w2 k2) -> v_d w1 = v_d w2).
Proof.
  intros L R word threads pre0 pre main bits views blk0 i dig Ht W0 W1 W2 S0 S1 S2 Hp Hdig.
  destruct (C48_reply_affine L R word threads pre0 pre main bits views blk0 i dig Ht W0 W1 W2 S0 S1 S2 Hp Hdig) as (mac & a & Ha & Q).
  cbv zeta in Q. set (p := gen_par pre0 pre main i) in *.
  set (x0 := x_star (lp_t p) mac (fun s => sp_chi_alpha (lp_log p + 1) (dig (chan (tree_tasks threads (lp_t p)) s)) (bits i s)) (mac (lp_t p))) in *.
  exists x0. intros xs Hxs D Hash w1 w2 k1 k2 good r (A1 & A2 & A3) (B1 & B2 & B3). unfold r.
  destruct (Q w1 k1 A1 A2 A3) as (_ & Lx & E1). destruct (Q w2 k2 B1 B2 B3) as (_ & _ & E2). rewrite (E1 xs Hxs), (E2 xs Hxs). clearbody x0. split.
  - intros ->. rewrite (N.add_sub_assoc x0 prm x0), (N.add_comm x0 prm), N.add_sub by (now apply N.lt_le_incl).
    now rewrite !N.mod_add by easy.
  - intros Ne Inj F. apply Inj in F; [|now apply N.mod_lt|now apply N.mod_lt].
    exact (reply_inj a x0 xs (v_d w1) (v_d w2) Lx Hxs A1 B1 Ne F).
Qed.

(** a forged base vector: the prover uses value 1 in bit 0 of the key and 0 elsewhere, and hides it for the seed 5 in the
    mask column.  The three keys lie on no line; seed 5 is one of the few seeds, seed 6 is not *)
Definition fg_tau (i j : nat) : N := cope_tau PropVole.ex_w0s PropVole.ex_w1s (fun _ => if (i =? 0)%nat then 1 else 0)%N i j.
Definition fg_tauc (i j : nat) : N := cope_tau PropVole.ex_w1s PropVole.ex_w0s (fun _ => if (i =? 0)%nat then prm - 5 else 0)%N i j.
Definition fg_reply (s : N) : N * N := base_recver_check 1 (cope_recv 61 PropVole.ex_w0s) (fun _ => 0%N) (cope_recv 61 PropVole.ex_w1s 0) 0 s.
Example C48_case_base :
  let key d := base_key PropVole.ex_w0s PropVole.ex_w1s d fg_tau 0 in
  let chk d s := base_sender_check 1 d (base_key PropVole.ex_w0s PropVole.ex_w1s d fg_tau) (cope_send 61 PropVole.ex_w1s PropVole.ex_w0s d fg_tauc 0) s (fg_reply s) in
  (key 1 = key 3 /\ key 2 <> key 1)%N /\ map (fun d => chk d 5%N) [1; 2; 3]%N = [true; true; true] /\ map (fun d => chk d 6%N) [1; 2; 3]%N = [false; true; false].
Proof. vm_compute. repeat split; discriminate. Qed.

(** five verifiers with different keys that one prover cannot tell apart (all its values are zero), with trees of every stage *)
Definition zr_word (i j : nat) : N := N.of_nat (i + 3).
Definition zr_tau (i j : nat) : N := 0%N.
Definition zr_world (d : N) : vworld := {| v_d := d; v_seed := fun i s => N.of_nat (i + 2 * s); v_buf := fun i x => N.of_nat (i + x) |}.
Example C48_case_worlds : forall d, In d [11; 12; 13; 14; 15]%N ->
  fits PropVole.exL PropVole.exR PropVole.ex_word 2 PropVole.ex_pre0 PropVole.ex_pre PropVole.ex_main (fun i s x => Nat.even (i + s + x))
    zr_word zr_word zr_tau
    (fun i => gen_view PropVole.exL PropVole.exR PropVole.ex_word 2 PropVole.ex_pre0 PropVole.ex_pre PropVole.ex_main (fun i s x => Nat.even (i + s + x))
       (zr_world 0) (base_key zr_word zr_word 0 zr_tau) i)
    (zr_world d).
Proof.
  intros d Hd.
  assert (E : base_key zr_word zr_word d zr_tau = base_key zr_word zr_word 0 zr_tau).
  { destruct Hd as [<-|[<-|[<-|[<-|[<-|[]]]]]]; vm_compute; reflexivity. }
  split.
  - cbn [zr_world v_d]. destruct Hd as [<-|[<-|[<-|[<-|[<-|[]]]]]]; reflexivity.
  - intro i. change (v_d (zr_world d)) with d. rewrite E. reflexivity.
Qed.

(** a prover with non-zero values: a tree function that splits the seed in two halves, worlds whose hidden leaves make up for
    the difference of the keys.  The views of the set-up and of the first main run agree for all keys of the list; the reply of the
    verifier is the same for the expected word and tells the keys apart for the next word *)
Definition spL (x : N) : N := (x / 2 ^ 64)%N.
Definition spR (x : N) : N := (x mod 2 ^ 64)%N.
Definition sp_tau := cope_tau PropVole.ex_w0s PropVole.ex_w1s (fun j => N.of_nat j + 1)%N.
Definition sp_low (d : N) : list N := map (fun x => fst x - (d - 1000) * snd x)%N [(50000000005, 1); (60000000006, 30); (70000000007, 300); (80000000008, 300)]%N.
Definition sp_world (d : N) : vworld :=
  {| v_d := d; v_seed := fun i t => (2 ^ 64 * N.of_nat (3 * i + t + 7) + nth (i + t) (sp_low d) 0)%N; v_buf := fun _ _ => 0%N |}.
Notation sp_view d i := (gen_view spL spR PropVole.ex_word 2 PropVole.ex_pre0 PropVole.ex_pre PropVole.ex_main (fun _ _ _ => false) (sp_world d)
  (base_key PropVole.ex_w0s PropVole.ex_w1s d sp_tau) i).
Notation sp_reply d i xs := (gen_reply spL spR PropVole.ex_word 2 PropVole.ex_pre0 PropVole.ex_pre PropVole.ex_main (fun _ _ _ => false) (sp_world d)
  (fun c => N.of_nat c + 2)%N (base_key PropVole.ex_w0s PropVole.ex_w1s d sp_tau) i xs).
Notation sp_key d p := (gen_key spL spR PropVole.ex_word 2 PropVole.ex_pre0 PropVole.ex_pre PropVole.ex_main (fun _ _ _ => false) (sp_world d)
  (base_key PropVole.ex_w0s PropVole.ex_w1s d sp_tau) 0 p).
Example C48_case_slopes :
  let ds := [1000; 1001; 2000; 5000; 77000]%N in
  map (fun d => map (fun i => sp_view d i) [0; 1; 2]) ds = repeat (map (fun i => sp_view 1000%N i) [0; 1; 2]) 5 /\
  map (fun d => sp_key d 0) ds = map (fun d => 600000300060 - 300 * d)%N ds /\
  map (fun d => sp_key d 3) ds = map (fun d => 670000600067 - 600 * d)%N ds /\
  map (fun d => sp_reply d 0 (prm - 79)) ds = repeat 658816338346851169%N 5 /\
  map (fun d => sp_reply d 0 (prm - 78)) ds = map (fun d => 658816338346851169 - d)%N ds.
Proof. vm_compute. repeat split. Qed.

Print Assumptions C48_honest_run.
Print Assumptions C48_base_check_binds.
Print Assumptions C48_keys_are_bound.
Print Assumptions C48_session_soundness.
Print Assumptions C48_reply_affine.
Print Assumptions C48_forged_word_exposes_key.
