(** C43: proof sessions over correlations that the modelled generators produce. *)
From Coq Require Import NArith ZArith List Bool Arith Lia.
From Verif Require Import Word FpModel ArithModel ArithSpec TreeModel TreeSpec VoleModel VoleSpec PoolModel PoolSpec PoolProofs
  VoleTripleModel VoleThms VoleThms2 BoolSpec F2kModel F2kSpec VoleF2kSpec VoleF2kModel VoleF2kProofs EndModel EndProofs.
From Verif Require PropArith PropVole PropF2k PropVoleF2k.
Import ListNotations.

(** the i-th call of extend(&x, 1) delivers position i mod limit of run i / limit, and requests of any sizes cut the same
    stream into consecutive pieces *)
Theorem C43_handouts_in_order : forall (A : Type) (item : nat -> nat -> A) n M garbage bufs, 1 <= M -> M <= n - M ->
  (forall i, pool_next item n M garbage bufs i = item (i / (n - M)) (i mod (n - M))) /\
  forall ks garbage' bufs', exists outs st,
    run_session item n M (map Take ks) (pool_init n M garbage') bufs' = Some (outs, st) /\
    map (@length A) outs = ks /\
    concat outs = map (pool_next item n M garbage bufs) (seq 0 (fold_right Nat.add 0 ks)).
Proof.
  intros A item n M garbage bufs HM HL. replace n with ((n - M) + M) by lia. replace (n - M + M - M) with (n - M) by lia.
  set (L := n - M) in *. clearbody L. split; [intro i; now apply next_item|]. intros ks g' b'.
  destruct (chunks_stream item M L HM HL g' b' ks b') as (outs & st & E1 & E2 & E3). exists outs, st.
  split; [exact E1|]. split; [exact E2|]. rewrite E3. apply map_ext. intro i. now rewrite !(next_item item M L HM HL).
Qed.

(** the prover's blocks come from the generator's receiver, the verifier's keys from its sender *)
Theorem C43_arith_session : forall L R H Hs word vthreads pre0 pre main rnd d w0r w1r w0c w1c xr seedr garbage
    pub_mac threads csz psz seeds pseeds (c : list agate) gm bm gk bk,
  1 <= vthreads -> (d < prm)%N ->
  (forall i j, (w0r i j < 2 ^ 64)%N /\ (w1r i j < 2 ^ 64)%N /\ (w0c i j < 2 ^ 64)%N /\ (w1c i j < 2 ^ 64)%N) ->
  (forall j, (xr j < 2 ^ 64)%N) -> (seedr < 2 ^ 64)%N ->
  lp_wf pre0 -> lp_wf pre -> lp_wf main ->
  lp_M pre <= lp_n pre0 -> lp_M main <= lp_n pre -> lp_M main <= lp_n main -> lp_M main <= lp_limit main ->
  cot_ok (lp_log pre0 * lp_t pre0) (rnd 0) -> cot_ok (lp_log pre * lp_t pre) (rnd 1) ->
  (forall i, cot_ok (lp_log main * lp_t main) (rnd (i + 2))) ->
  (pub_mac < prm)%N -> (forall k, (pseeds k < 2 ^ 64)%N) -> Forall wf_honest c -> 1 <= threads <= 32 ->
  let mac := vt_mac L R H Hs word vthreads pre0 pre main rnd d w0r w1r w0c w1c xr seedr garbage in
  let key := vt_key L R H Hs word vthreads pre0 pre main rnd d w0r w1r w0c w1c xr seedr garbage in
  exists p v,
    ap_exec pub_mac (pool_next mac (lp_n main) (lp_M main) gm bm) threads csz psz seeds pseeds c = Some p /\
    av_exec pub_mac (pool_next key (lp_n main) (lp_M main) gk bk) d threads csz psz seeds pseeds
      (fun k => nth k (ap_words p) 0%N) (fun k => nth k (ap_msgs p) (0, 0)%N) (fun k => nth k (ap_pmsgs p) (0, 0)%N) c = Some v /\
    ap_outs p = pl_outs (aplain c) /\ av_outs v = pl_outs (aplain c) /\ Forall2 (share_ok d) (ap_w p) (av_w v) /\
    (pl_ok (aplain c) = true -> forall (D : Type) (Deqb : D -> D -> bool) (Hash : list N -> D),
      (forall a, Deqb a a = true) -> av_outcome Deqb Hash v (Hash (ap_hash p)) = (false, false)).
Proof.
  intros L R H Hs word vthreads pre0 pre main rnd d w0r w1r w0c w1c xr seedr garbage pub_mac threads csz psz seeds pseeds c
    gm bm gk bk Ht Hd H0 Hx Hse W0 W1 W2 S0 S1 S2 S3 C0 C1 C2 Hpm Hps Hwf Hth mac key.
  destruct (PropVole.C25_all_iterations_valid L R H Hs word vthreads pre0 pre main rnd d w0r w1r w0c w1c xr seedr garbage
    Ht Hd H0 Hx Hse W0 W1 W2 S0 S1 S2 C0 C1 C2) as [_ V].
  fold mac key in V.
  assert (HM : 1 <= lp_M main) by (unfold lp_M; lia).
  destruct (C43_handouts_in_order N mac (lp_n main) (lp_M main) gm bm HM S3) as [Em _].
  destruct (C43_handouts_in_order N key (lp_n main) (lp_M main) gk bk HM S3) as [Ek _].
  set (pV := pool_next mac (lp_n main) (lp_M main) gm bm) in *. set (vK := pool_next key (lp_n main) (lp_M main) gk bk) in *.
  assert (Sh : forall i, share_ok d (pV i) (vK i)).
  { intro i. rewrite Em, Ek. apply V. fold (lp_limit main). unfold lp_limit in *.
    pose proof (Nat.mod_upper_bound i (lp_n main - lp_M main)). lia. }
  clearbody pV vK. clear Em Ek V.
  set (pU := fun i => (pV i / 2 ^ 64)%N). set (pM := fun i => (pV i mod 2 ^ 64)%N).
  assert (Vok : vole_ok pU pM) by (intro i; destruct (Sh i) as (A1 & A2 & _); split; assumption).
  assert (EV : forall i, pV i = vole_block pU pM i).
  { intro i. unfold vole_block, pU, pM. rewrite N.mul_comm. apply N.div_mod. easy. }
  assert (EK : forall i, vK i = vole_key pU pM d i).
  { intro i. destruct (Sh i) as (A1 & A2 & A3 & A4). fold (pU i) in A1, A4. fold (pM i) in A2, A4.
    unfold vole_key, fsub. rewrite A4. clear -A3 Hd.
    assert (P : prm <> 0%N) by easy. set (x := (pU i * d)%N).
    rewrite <- (N.mod_small (vK i) prm A3) at 1.
    pose proof (N.mod_lt x prm P) as Lx. set (y := (x mod prm)%N) in *.
    assert (Z : ((vK i + x) mod prm = (vK i + y) mod prm)%N) by (unfold y; now rewrite N.add_mod_idemp_r).
    rewrite Z. 
    assert (Z2 : ((vK i + y) mod prm + (prm - y) = (if N.ltb (vK i + y) prm then vK i + prm else vK i))%N).
    { destruct (N.ltb_spec (vK i + y) prm) as [Q|Q].
      - rewrite N.mod_small by exact Q. lia.
      - replace (vK i + y)%N with (vK i + y - prm + 1 * prm)%N by lia. rewrite N.mod_add by exact P. rewrite N.mod_small by lia. lia. }
    rewrite Z2. destruct (N.ltb (vK i + y) prm); [|reflexivity].
    replace (vK i + prm)%N with (vK i + 1 * prm)%N by lia. now rewrite N.mod_add by exact P. }
  destruct (PropArith.C08_defined pub_mac pV threads csz psz seeds pseeds c Hth) as [p Ep].
  rewrite (ap_exec_ext pub_mac pV (vole_block pU pM) threads csz psz seeds pseeds EV) in Ep.
  destruct (PropArith.C08_honest_session_accepts pub_mac pU pM threads csz psz seeds pseeds c p d Vok Hpm Hps Hwf Ep Hd)
    as (_ & B2 & v & B3 & B4 & B5 & B6).
  exists p, v. rewrite (ap_exec_ext pub_mac pV (vole_block pU pM) threads csz psz seeds pseeds EV). split; [exact Ep|].
  rewrite (av_exec_ext pub_mac vK (vole_key pU pM d) d threads csz psz seeds pseeds _ _ _ EK). auto.
Qed.

(** the GF(2^128) engine: every refill is one run of the generator *)
Theorem C43_f2k_session : forall L R H Hs word vthreads pre main rnd d cotA cotB garbage
    ext bM oM threads bufsz polysz seeds pseeds junkp junkv g1 g2 g3 g4 h1 h2 (c : list fgate),
  1 <= vthreads ->
  (forall j, j < 128 * lp_M pre -> cotA j = N.lxor (cotB j) (if N.testbit (cotA j) 0 then d else 0%N)) ->
  lp_wf pre -> lp_wf main -> lp_M main <= lp_n pre -> lp_M main <= lp_n main ->
  cot_ok (lp_log pre * lp_t pre) (rnd 0) -> (forall i, cot_ok (lp_log main * lp_t main) (rnd (i + 1))) ->
  1 <= threads -> threads <= bufsz -> bufsz <= lp_n main -> (forall r i, (junkv r i < 2 ^ 128)%N) -> valid_delta d ->
  (count_mul c = 0 \/ threads <= last_batch bufsz (count_mul c)) ->
  let val := f2_val L R H Hs word vthreads pre main rnd d cotA cotB garbage in
  let mac := f2_mac L R H Hs word vthreads pre main rnd d cotA cotB garbage in
  let key := f2_key L R H Hs word vthreads pre main rnd d cotA cotB garbage in
  let p := fp_exec ext val mac bM oM threads bufsz polysz seeds pseeds junkp g1 g2 g3 g4 c in
  map fst (fp_w p) = fplain (fun i => fst (ext i)) 0 [] c /\
  exists v, fv_exec (fun i => key_of d (ext i)) key (cot_key bM d) (cot_key oM d) d threads bufsz polysz seeds pseeds junkv
       (fun i => nth i (fp_corr p) 0%N) (fun i => nth i (fp_bits p) false)
       (fun k => nth k (fp_msgs p) (0, 0)%N) (fun k => nth k (fp_pmsgs p) (0, 0, 0, 0, 0)%N) h1 h2 c = Some v /\
    fv_printed v = 0 /\ fv_cheat v = [] /\ fv_w v = map (key_of d) (fp_w p).
Proof.
  intros L R H Hs word vthreads pre main rnd d cotA cotB garbage ext bM oM threads bufsz polysz seeds pseeds junkp junkv
    g1 g2 g3 g4 h1 h2 c Ht Hc W1 W2 S1 S2 C1 C2 T1 T2 T3 Hj Hd Hb val mac key p.
  destruct (PropVoleF2k.C30_all_iterations_valid L R H Hs word vthreads pre main rnd d cotA cotB garbage Ht Hc W1 W2 S1 S2 C1 C2) as [_ V].
  fold val mac key in V.
  destruct (PropF2k.C31_honest_run ext val mac bM oM threads bufsz polysz seeds pseeds junkp junkv g1 g2 g3 g4 h1 h2 c d
    T1 T2 Hj Hd Hb) as [A (v & B1 & B2 & B3 & B4)].
  fold p in A, B1, B4. split; [exact A|]. unfold f_session in B1.
  assert (EK : forall r i, i < bufsz -> key_of d (val r i, mac r i) = key r i).
  { intros r i Hi. destruct (V r) as [_ Vr]. specialize (Vr i ltac:(lia)). unfold share2 in Vr. unfold key_of. cbn [fst snd].
    rewrite Vr, N.lxor_assoc, N.lxor_nilpotent. apply N.lxor_0_r. }
  assert (Hb1 : 1 <= bufsz) by lia.
  pose proof (fv_exec_ext (fun i => key_of d (ext i)) (fun r i => key_of d (val r i, mac r i)) key (cot_key bM d) (cot_key oM d) d
    threads bufsz polysz seeds pseeds junkv (fun i => nth i (fp_corr p) 0%N) (fun i => nth i (fp_bits p) false)
    (fun k => nth k (fp_msgs p) (0, 0)%N) (fun k => nth k (fp_pmsgs p) (0, 0, 0, 0, 0)%N) T1 Hb1 EK h1 h2 c) as X.
  rewrite B1 in X. destruct (fv_exec (fun i => key_of d (ext i)) key (cot_key bM d) (cot_key oM d) d
    threads bufsz polysz seeds pseeds junkv (fun i => nth i (fp_corr p) 0%N) (fun i => nth i (fp_bits p) false)
    (fun k => nth k (fp_msgs p) (0, 0)%N) (fun k => nth k (fp_pmsgs p) (0, 0, 0, 0, 0)%N) h1 h2 c) as [v'|]; [|destruct X].
  exists v'. destruct X as (_ & _ & ->). cbn. auto.
Qed.

(** a session of two inputs, a product and an opening over a small instance of the generator: 5 * 7 + 7 = 42 *)
Definition end_circuit : list agate := [AIn 5; AIn 7; AMul 0 1; AAdd 2 1; AReveal 3; ACheck 3 42]%N.
Definition end_mac : nat -> nat -> N :=
  vt_mac PropVole.exL PropVole.exR PropVole.exL PropVole.exR PropVole.ex_word 2 PropVole.ex_pre0 PropVole.ex_pre PropVole.ex_main
    (fun i => PropVole.ex_rnd 0) 1000 PropVole.ex_w0s PropVole.ex_w1s PropVole.ex_w1s PropVole.ex_w0s (fun j => N.of_nat j + 1)%N 5
    (fun i x : nat => N.of_nat (i + x)).
Definition end_key : nat -> nat -> N :=
  vt_key PropVole.exL PropVole.exR PropVole.exL PropVole.exR PropVole.ex_word 2 PropVole.ex_pre0 PropVole.ex_pre PropVole.ex_main
    (fun i => PropVole.ex_rnd 0) 1000 PropVole.ex_w0s PropVole.ex_w1s PropVole.ex_w1s PropVole.ex_w0s (fun j => N.of_nat j + 1)%N 5
    (fun i x : nat => N.of_nat (i + x)).
Example C43_case :
  let n := lp_n PropVole.ex_main in let M := lp_M PropVole.ex_main in
  let seeds := fun k i => N.of_nat (k + i + 3) in
  match ap_exec 9 (pool_next end_mac n M (fun _ => 0%N) (fun _ _ => 0%N)) 2 3 2 seeds (fun _ => 77%N) end_circuit with
  | None => False
  | Some p =>
      match av_exec 9 (pool_next end_key n M (fun _ => 0%N) (fun _ _ => 0%N)) 1000 2 3 2 seeds (fun _ => 77%N)
        (fun k => nth k (ap_words p) 0%N) (fun k => nth k (ap_msgs p) (0, 0)%N) (fun k => nth k (ap_pmsgs p) (0, 0)%N) end_circuit with
      | None => False
      | Some v => ap_outs p = [42%N] /\ av_outs v = [42%N] /\ av_err v = false /\ av_hash v = ap_hash p /\ n - M < av_vole v
      end
  end.
Proof. vm_compute. repeat split; lia. Qed.

Print Assumptions C43_handouts_in_order.
Print Assumptions C43_arith_session.
Print Assumptions C43_f2k_session.
