From Coq Require Import NArith ZArith Lia List Bool Arith Ring.
From Verif Require Import Word FpModel WordProofs FpProofs PolyRoots ListUtil Prime61 ArithSpec ArithProofs TreeModel TreeSpec TreeProofs
  VoleModel VoleSpec LpnProofs CopeProofs MpfssProofs VoleTripleModel VoleThms VoleThms2 VoleF2kModel VoleHideSpec.
Import ListNotations.
Local Open Scope nat_scope.
Ltac Zify.zify_post_hook ::= idtac.
Add Ring fp_ring_vh : fp_rt.

Lemma c_le x : canon x -> (x <= PR)%N. Proof. intro H. apply N.lt_le_incl. exact H. Qed.
Lemma c_w x : canon x -> (x < W64)%N. Proof. intro H. eapply N.lt_trans; [exact H|reflexivity]. Qed.
Lemma c_am a b : canon a -> canon b -> canon (add_mod a b).
Proof. intros A B. apply am_lt; [exact A|now apply c_le]. Qed.
Lemma c_ams a b : canon a -> canon b -> canon (add_mod a (sub64 PR b)).
Proof. intros A B. apply am_lt; [exact A|]. apply sub_le. now apply c_le. Qed.
Lemma am_f a b : canon a -> canon b -> toF (add_mod a b) = padd (toF a) (toF b).
Proof. intros A B. apply am_F; now apply c_le. Qed.
Lemma ams_f a b : canon a -> canon b -> toF (add_mod a (sub64 PR b)) = psub (toF a) (toF b).
Proof. intros A B. rewrite am_F by (try apply sub_le; now apply c_le). rewrite sub_F by now apply c_le. ring. Qed.
Lemma mod1_c x : canon x -> mod1 x = x.
Proof. intro C. rewrite mod1_correct by now apply c_w. apply N.mod_small. exact C. Qed.
Lemma c0 : canon 0. Proof. reflexivity. Qed.

(** one correction word *)
Definition tau_of (bit : bool) (vp kp x : N) : N :=
  let w0 := if bit then kp else vp in let w1 := if bit then vp else kp in add_mod w0 (sub64 PR (add_mod w1 x)).
Definition pad_of (bit : bool) (vp x tau : N) : N :=
  if bit then add_mod (add_mod tau vp) x else add_mod (add_mod vp (sub64 PR x)) (sub64 PR tau).
Lemma pad_c bit vp x tau : canon vp -> canon x -> canon tau -> canon (pad_of bit vp x tau).
Proof. intros. unfold pad_of. destruct bit; [apply c_am; [now apply c_am|easy]|apply c_ams; [now apply c_ams|easy]]. Qed.
Lemma tau_c bit vp kp x : canon vp -> canon kp -> canon x -> canon (tau_of bit vp kp x).
Proof. intros. unfold tau_of. destruct bit; apply c_ams; auto; now apply c_am. Qed.
Lemma tau_pad bit vp x tau : canon vp -> canon x -> canon tau -> tau_of bit vp (pad_of bit vp x tau) x = tau.
Proof.
  intros A B C. apply toF_inj; [apply tau_c; auto; now apply pad_c|exact C|].
  pose proof (pad_c bit vp x tau A B C) as P. unfold tau_of, pad_of in *. destruct bit.
  - rewrite ams_f, !am_f by (auto using c_am). ring.
  - rewrite ams_f, am_f, !ams_f by (auto using c_am, c_ams). ring.
Qed.
Lemma pad_tau bit vp kp x : canon vp -> canon kp -> canon x -> pad_of bit vp x (tau_of bit vp kp x) = kp.
Proof.
  intros A B C. pose proof (tau_c bit vp kp x A B C) as P. apply toF_inj; [now apply pad_c|exact B|].
  unfold tau_of, pad_of in *. destruct bit.
  - rewrite !am_f, ams_f, am_f by (auto using c_am, c_ams). ring.
  - rewrite !ams_f, am_f by (auto using c_am, c_ams). ring.
Qed.
Lemma am_sub a S : canon a -> canon S -> add_mod S (add_mod a (sub64 PR S)) = a.
Proof. intros A B. apply toF_inj; [apply c_am; auto using c_ams|exact A|]. rewrite am_f, ams_f by auto using c_ams. ring. Qed.
Lemma sub_am a S : canon a -> canon S -> add_mod (add_mod S a) (sub64 PR S) = a.
Proof. intros A B. apply toF_inj; [apply c_ams; auto using c_am|exact A|]. rewrite ams_f, am_f by auto using c_am. ring. Qed.
Lemma sub_am2 a S : canon a -> canon S -> add_mod (add_mod a S) (sub64 PR S) = a.
Proof. intros A B. apply toF_inj; [apply c_ams; auto using c_am|exact A|]. rewrite ams_f, am_f by auto using c_am. ring. Qed.
Lemma am_sub2 a S : canon a -> canon S -> add_mod (add_mod a (sub64 PR S)) S = a.
Proof. intros A B. apply toF_inj; [apply c_am; auto using c_ams|exact A|]. rewrite am_f, ams_f by auto using c_ams. ring. Qed.

Lemma map_seq_eq {A} (f : nat -> A) (l : list A) d n : length l = n -> (forall j, j < n -> f j = nth j l d) -> map f (seq 0 n) = l.
Proof.
  intros Hl Hf. apply nth_ext with (d := f 0) (d' := d); [now rewrite map_length, seq_length|].
  intros j Hj. rewrite map_length, seq_length in Hj. rewrite <- Hf by easy.
  rewrite map_nth, seq_nth by easy. reflexivity.
Qed.

(** the challenge coefficients do not depend on the masks *)
Lemma run_msgs_X Hs depth rnd rnd' : r_b rnd = r_b rnd' -> r_chal rnd = r_chal rnd' -> forall ts mac mac' Y Y' Z Z' V V' W W' X,
  snd (run_msgs Hs depth rnd ts mac Y Z V W X) = snd (run_msgs Hs depth rnd' ts mac' Y' Z' V' W' X).
Proof.
  intros Eb Ec ts. induction ts as [|[s c] ts IH]; intros; cbn [run_msgs]; [reflexivity|].
  assert (D : digest_of Hs rnd c = digest_of Hs rnd' c) by (unfold digest_of; now rewrite Ec). rewrite Eb, D. apply IH.
Qed.
Lemma run_msgs_Xc Hs depth rnd : forall ts mac Y Z V W X, (forall i, canon (X i)) -> forall i, canon (snd (run_msgs Hs depth rnd ts mac Y Z V W X) i).
Proof.
  induction ts as [|[s c] ts IH]; intros mac Y Z V W X HX i; cbn [run_msgs]; [apply HX|]. apply IH.
  intro j. unfold mset. destruct (j =? s); [|apply HX]. unfold sp_chi_alpha.
  assert (Hd : (digest_of Hs rnd c < PR)%N) by (apply mod1_lt, N.mod_lt; discriminate).
  pose proof (chi_lt (digest_of Hs rnd c) (leave_n depth) Hd) as Q. unfold clt in Q. rewrite Forall_forall in Q.
  destruct (nth_in_or_default (get_index depth (r_b rnd s)) (uni_hash_coeff_gen (digest_of Hs rnd c) (leave_n depth)) 0%N) as [I|E].
  - exact (Q _ I).
  - rewrite E. exact c0.
Qed.
Lemma bca_ext cnt : forall i mac mac' X acc, (forall j, i <= j -> j < i + cnt -> hi64 (mac j) = hi64 (mac' j)) ->
  bca_loop cnt i mac X acc = bca_loop cnt i mac' X acc.
Proof.
  induction cnt as [|c IH]; intros i mac mac' X acc He; cbn [bca_loop]; [reflexivity|].
  rewrite (He i) by lia. apply IH. intros j A B. apply He; lia.
Qed.
Lemma bca_c cnt : forall i mac X acc, canon acc -> (forall j, canon (X j)) -> (forall j, i <= j -> j < i + cnt -> canon (hi64 (mac j))) ->
  canon (bca_loop cnt i mac X acc).
Proof.
  induction cnt as [|c IH]; intros i mac X acc Ha HX Hm; cbn [bca_loop]; [exact Ha|]. apply IH; auto; [|intros; apply Hm; lia].
  apply c_am; [exact Ha|]. rewrite lo_id by (apply c_le, HX). apply mm_lt; apply c_le; [apply Hm; lia|apply HX].
Qed.
Lemma prm2pr_ext cnt : forall i a a' ret, (forall x, i <= x -> x < i + cnt -> a x = a' x) -> prm2pr_loop cnt i a ret = prm2pr_loop cnt i a' ret.
Proof.
  induction cnt as [|c IH]; intros i a a' ret He; cbn [prm2pr_loop]; [reflexivity|]. rewrite (He i) by lia. apply IH. intros x A B. apply He; lia.
Qed.

Section H.
  Variables (L R H Hs : N -> N) (threads t k log : nat) (v : vpub).
  Hypothesis Hv : vpub_ok v.
  Hypothesis Hlog : 1 <= log.
  Notation size := (vsize t k).
  Notation rx := (run_x t k).
  Notation tr := (transcript L R H Hs threads t k log v).
  Lemma rx_c s q j : vsec_ok s -> vmask_ok q -> canon (rx s q j).
  Proof. intros Hx (_ & _ & A & B). unfold run_x. destruct (j =? t); [exact B|]. destruct (j =? size); [exact A|apply Hx]. Qed.
  Lemma bx_id s q j : vsec_ok s -> vmask_ok q -> base_x (rx s q) j = rx s q j.
  Proof. intros. unfold base_x. apply mod1_c. now apply rx_c. Qed.
  Lemma w_ok s q : vsec_ok s -> vmask_ok q -> forall i j, (run_w0 v q i j < W64)%N /\ (run_w1 v q i j < W64)%N /\ (run_w0c v q i j < W64)%N /\ (run_w1c v q i j < W64)%N.
  Proof.
    intros Hx (A & B & _) i j. destruct Hv as (_ & C & D & _). unfold run_w0, run_w1, run_w0c, run_w1c.
    destruct (dbit (v_d v) i); repeat split; apply c_w; auto.
  Qed.
  Lemma tau_eq s q i j : vsec_ok s -> vmask_ok q ->
    cope_tau (run_w0 v q) (run_w1 v q) (base_x (rx s q)) i j = tau_of (dbit (v_d v) i) (v_pad v i j) (k_pad q i j) (rx s q j).
  Proof.
    intros Hx Hq. unfold cope_tau, tau_of. rewrite bx_id by auto. destruct Hv as (_ & C & D & _). destruct Hq as (A & B & _).
    unfold run_w0, run_w1. destruct (dbit (v_d v) i); rewrite !mod1_c by auto; reflexivity.
  Qed.
  Lemma tauc_eq s q i : vsec_ok s -> vmask_ok q ->
    cope_tau (run_w0c v q) (run_w1c v q) (fun _ => base_x (rx s q) size) i 0 = tau_of (dbit (v_d v) i) (v_padc v i) (k_padc q i) (rx s q size).
  Proof.
    intros Hx Hq. unfold cope_tau, tau_of. rewrite bx_id by auto. destruct Hv as (_ & C & D & _). destruct Hq as (A & B & _).
    unfold run_w0c, run_w1c. destruct (dbit (v_d v) i); rewrite !mod1_c by auto; reflexivity.
  Qed.
  (** the coefficients and the noise sum *)
  Definition Xc (s : vsec) : mem :=
    snd (run_msgs Hs (log + 1) (run_rnd v s {| k_pad := fun _ _ => 0%N; k_padc := fun _ => 0%N; k_a := 0; k_rb := fun _ => false; k_z := 0 |})
      (tree_tasks threads t) (fun _ => 0%N) (fun _ => 0%N) (fun _ => 0%N) (fun _ => 0%N) (fun _ => 0%N) (fun _ => 0%N)).
  Definition bc (s : vsec) : N := bca_loop t 0 (fun i => mkblock (s_x s i) 0) (Xc s) 0%N.
  Lemma X_eq s q : run_X L R H Hs threads t k log v s q = Xc s.
  Proof. unfold run_X, Xc. destruct (run_trees _ _ _ _ _ _ _ _ _ _ _) as [Y Z]. now apply run_msgs_X. Qed.
  Lemma bc_c s : vsec_ok s -> canon (bc s).
  Proof.
    intro Hx. apply bca_c; [exact c0|apply run_msgs_Xc; intro; exact c0|].
    intros j _ _. rewrite hi64_mk by reflexivity. apply Hx.
  Qed.
  Lemma mac_hi s q j : vsec_ok s -> vmask_ok q -> hi64 (run_mac t k v s q j) = rx s q j.
  Proof.
    intros Hx Hq. unfold run_mac, base_mac. rewrite hi64_mk by (apply N.mod_lt; discriminate). now apply bx_id.
  Qed.
  Lemma rx_t s q : rx s q t = k_z q. Proof. unfold run_x. now rewrite Nat.eqb_refl. Qed.
  Lemma rx_size s q : rx s q size = k_a q.
  Proof. unfold run_x. rewrite (proj2 (Nat.eqb_neq _ _)) by (unfold vsize; lia). now rewrite Nat.eqb_refl. Qed.
  Lemma rx_lt s q j : j < t -> rx s q j = s_x s j.
  Proof. intro. unfold run_x, vsize. rewrite !(proj2 (Nat.eqb_neq _ _)) by lia. reflexivity. Qed.
  Lemma xs_eq s q : vsec_ok s -> vmask_ok q -> m_xs (tr s q) = add_mod (k_z q) (sub64 PR (bc s)).
  Proof.
    intros Hx Hq. cbn [m_xs transcript]. unfold x_star. rewrite mac_hi, rx_t by auto. f_equal. f_equal.
    rewrite X_eq. unfold bc. apply bca_ext. intros j _ Hj. rewrite mac_hi, rx_lt by (auto; lia). now rewrite hi64_mk by reflexivity.
  Qed.
  (** the sum of the base check, with the value [z] at position t *)
  Definition xsum_of (s : vsec) (z : N) : N :=
    vector_inn_prdt_sum_red (slice (fun j => if j =? t then z else s_x s j) size) (uni_hash_coeff_gen (v_seed v) size).
  Lemma xsum_c s z : vsec_ok s -> canon z -> canon (xsum_of s z).
  Proof.
    intros Hx Hz. destruct (inn_slice (v_seed v) (fun j => if j =? t then z else s_x s j) size) as [[A _] _].
    - apply Hv.
    - unfold vsize; lia.
    - intros j _. destruct (j =? t); [exact Hz|apply Hx].
    - exact A.
  Qed.
  Lemma xz_eq s q : vsec_ok s -> vmask_ok q -> snd (m_xz (tr s q)) = add_mod (xsum_of s (k_z q)) (k_a q).
  Proof.
    intros Hx Hq. cbn [m_xz transcript]. unfold base_xz, base_recver_check. cbn [snd]. rewrite bx_id, rx_size by auto. f_equal.
    unfold xsum_of, base_seed. rewrite mod1_c by apply Hv. f_equal. unfold slice. apply map_ext_in. intros j Hj. apply in_seq in Hj.
    rewrite bx_id by auto. unfold run_x. destruct (j =? t); [reflexivity|]. rewrite (proj2 (Nat.eqb_neq _ _)) by lia. reflexivity.
  Qed.
  (** the verifier computes its keys from the corrections *)
  Notation vk := (v_keys v).
  Notation vkc := (v_keyc v).
  Lemma nth2_tr s q i j : i < 61 -> j < size ->
    nth2 (m_tau (tr s q)) i j = cope_tau (run_w0 v q) (run_w1 v q) (base_x (rx s q)) i j.
  Proof.
    intros Hi Hj. unfold nth2. cbn [m_tau transcript].
    rewrite (nth_map_seq (fun j => map (fun i => cope_tau (run_w0 v q) (run_w1 v q) (base_x (rx s q)) i j) (seq 0 61)) size j [] Hj).
    exact (nth_map_seq (fun i => cope_tau (run_w0 v q) (run_w1 v q) (base_x (rx s q)) i j) 61 i 0%N Hi).
  Qed.
  Lemma nthc_tr s q i : i < 61 -> nth i (m_tauc (tr s q)) 0%N = cope_tau (run_w0c v q) (run_w1c v q) (fun _ => base_x (rx s q) size) i 0.
  Proof.
    intro Hi. cbn [m_tauc transcript].
    exact (nth_map_seq (fun i => cope_tau (run_w0c v q) (run_w1c v q) (fun _ => base_x (rx s q) size) i 0) 61 i 0%N Hi).
  Qed.
  Lemma vk_eq s q j : j < size -> vk (tr s q) j = base_key (run_w0 v q) (run_w1 v q) (v_d v) (cope_tau (run_w0 v q) (run_w1 v q) (base_x (rx s q))) j.
  Proof.
    intro Hj. unfold v_keys, base_key, cope_send, prm2pr. apply prm2pr_ext. intros i _ Hi. rewrite nth2_tr by auto.
    unfold wsr, run_w0, run_w1. destruct (dbit (v_d v) i); reflexivity.
  Qed.
  Lemma vkc_eq s q : vkc (tr s q) = cope_send 61 (run_w0c v q) (run_w1c v q) (v_d v) (cope_tau (run_w0c v q) (run_w1c v q) (fun _ => base_x (rx s q) size)) 0.
  Proof.
    unfold v_keyc, cope_send, prm2pr. apply prm2pr_ext. intros i _ Hi. rewrite nthc_tr by auto.
    unfold wsr, run_w0c, run_w1c. destruct (dbit (v_d v) i); reflexivity.
  Qed.
  (** first check word the verifier expects *)
  Definition want (m : vtrans) : N :=
    add_mod (add_mod (vector_inn_prdt_sum_red (slice (fun j => lo64 (vk m j)) size) (uni_hash_coeff_gen (v_seed v) size)) (lo64 (vkc m)))
      (mult_mod (snd (m_xz m)) (lo64 (v_d v))).
  Lemma check_want m : base_sender_check size (v_d v) (vk m) (vkc m) (v_seed v) (m_xz m) = N.eqb (want m) (fst (m_xz m)).
  Proof. reflexivity. Qed.
  Lemma check_ext d key key' b seed xz : (forall j, j < size -> key j = key' j) ->
    base_sender_check size d key b seed xz = base_sender_check size d key' b seed xz.
  Proof.
    intro He. unfold base_sender_check. replace (slice (fun j => lo64 (key j)) size) with (slice (fun j => lo64 (key' j)) size); [reflexivity|].
    apply map_ext_in. intros j Hj. apply in_seq in Hj. now rewrite He by lia.
  Qed.
  Lemma fst_eq s q : vsec_ok s -> vmask_ok q -> want (tr s q) = fst (m_xz (tr s q)).
  Proof.
    intros Hx Hq. apply N.eqb_eq. rewrite <- check_want.
    assert (D : (v_d v < PR)%N) by exact (proj1 Hv).
    pose proof (base_ok_true (v_d v) (run_w0 v q) (run_w1 v q) (run_w0c v q) (run_w1c v q) (rx s q) (v_seed v) D (w_ok s q Hx Hq)
      (fun j => c_w _ (rx_c s q j Hx Hq)) (c_w _ (proj2 (proj2 (proj2 Hv)))) size ltac:(unfold vsize; lia)) as Q.
    unfold base_ok in Q. rewrite vkc_eq. rewrite (check_ext _ _ _ _ _ _ (vk_eq s q)). cbn [m_xz transcript].
    replace (base_seed (v_seed v)) with (v_seed v) in Q by (symmetry; apply mod1_c; apply Hv). exact Q.
  Qed.
  (** announced choices *)
  Lemma ann_eq s q : m_ann (tr s q) = map (fun i => map (fun j => xorb (s_b s i j) (k_rb q (i * log + j))) (seq 0 log)) (seq 0 t).
  Proof.
    cbn [m_ann transcript]. rewrite choices_msgs. apply map_ext. intro i. apply map_ext. intro j. cbn. reflexivity.
  Qed.
  Lemma shape s q : vsec_ok s -> vmask_ok q -> trans_ok t k log v (tr s q).
  Proof.
    intros Hx Hq. unfold trans_ok.
    split; [cbn [m_tau transcript]; now rewrite map_length, seq_length|].
    split.
    { cbn [m_tau transcript]. apply Forall_forall. intros l Hl. apply in_map_iff in Hl as (j & <- & Hj).
      split; [now rewrite map_length, seq_length|]. apply Forall_forall. intros w Hw. apply in_map_iff in Hw as (i & <- & Hi).
      rewrite tau_eq by auto. apply tau_c; [apply Hv|apply Hq|now apply rx_c]. }
    split; [cbn [m_tauc transcript]; now rewrite map_length, seq_length|].
    split.
    { cbn [m_tauc transcript]. apply Forall_forall. intros w Hw. apply in_map_iff in Hw as (i & <- & Hi).
      rewrite tauc_eq by auto. apply tau_c; [apply Hv|apply Hq|now apply rx_c]. }
    split; [rewrite xz_eq by auto; apply c_am; [apply xsum_c; [exact Hx|apply Hq]|apply Hq]|].
    split; [rewrite xs_eq by auto; apply c_ams; [apply Hq|now apply bc_c]|].
    split; [rewrite ann_eq; now rewrite map_length, seq_length|].
    split.
    { rewrite ann_eq. apply Forall_forall. intros l Hl. apply in_map_iff in Hl as (i & <- & _). now rewrite map_length, seq_length. }
    rewrite check_want. apply N.eqb_eq. now apply fst_eq.
  Qed.
  (** the masks a transcript determines *)
  Definition solve_z (s : vsec) (m : vtrans) : N := add_mod (m_xs m) (bc s).
  Definition solve_a (s : vsec) (m : vtrans) : N := add_mod (snd (m_xz m)) (sub64 PR (xsum_of s (solve_z s m))).
  Definition solve_x (s : vsec) (m : vtrans) (j : nat) : N := if j =? t then solve_z s m else if j =? size then solve_a s m else s_x s j.
  Definition solve (s : vsec) (m : vtrans) : vmask :=
    {| k_pad := fun i j => pad_of (dbit (v_d v) i) (v_pad v i j) (solve_x s m j) (nth2 (m_tau m) i j);
       k_padc := fun i => pad_of (dbit (v_d v) i) (v_padc v i) (solve_a s m) (nth i (m_tauc m) 0%N);
       k_a := solve_a s m; k_z := solve_z s m;
       k_rb := fun x => xorb (s_b s (x / log) (x mod log)) (nth (x mod log) (nth (x / log) (m_ann m) []) false) |}.
  Lemma nth_c l i : Forall canon l -> canon (nth i l 0%N).
  Proof.
    intro Hl. rewrite Forall_forall in Hl. destruct (nth_in_or_default i l 0%N) as [I|E]; [now apply Hl|]. rewrite E. exact c0.
  Qed.
  Lemma nth2_c m i j : Forall (fun l => length l = 61 /\ Forall canon l) (m_tau m) -> canon (nth2 (m_tau m) i j).
  Proof.
    intro Hl. unfold nth2. apply nth_c. destruct (nth_in_or_default j (m_tau m) []) as [I|E].
    - rewrite Forall_forall in Hl. now apply Hl.
    - rewrite E. constructor.
  Qed.
  Lemma solve_ok s m : vsec_ok s -> trans_ok t k log v m -> vmask_ok (solve s m).
  Proof.
    intros Hx (T1 & T2 & T3 & T4 & T5 & T6 & _).
    assert (Z : canon (solve_z s m)) by (apply c_am; [exact T6|now apply bc_c]).
    assert (A : canon (solve_a s m)) by (apply c_ams; [exact T5|now apply xsum_c]).
    assert (X : forall j, canon (solve_x s m j)) by (intro j; unfold solve_x; destruct (j =? t); [exact Z|]; destruct (j =? size); [exact A|apply Hx]).
    split; [intros i j; cbn; apply pad_c; [apply Hv|apply X|now apply nth2_c]|].
    split; [intros i; cbn; apply pad_c; [apply Hv|exact A|now apply nth_c]|]. split; assumption.
  Qed.
  Lemma solve_tr s m : vsec_ok s -> trans_ok t k log v m -> tr s (solve s m) = m.
  Proof.
    intros Hx Hm. pose proof (solve_ok s m Hx Hm) as Hq. destruct Hm as (T1 & T2 & T3 & T4 & T5 & T6 & T7 & T8 & T9).
    assert (Z : canon (solve_z s m)) by (apply c_am; [exact T6|now apply bc_c]).
    assert (A : canon (solve_a s m)) by (apply c_ams; [exact T5|now apply xsum_c]).
    assert (SX : forall j, rx s (solve s m) j = solve_x s m j) by reflexivity.
    assert (E1 : m_tau (tr s (solve s m)) = m_tau m).
    { cbn [m_tau transcript]. apply map_seq_eq with (d := []); [exact T1|]. intros j Hj.
      assert (Lj : length (nth j (m_tau m) []) = 61).
      { rewrite Forall_forall in T2. apply T2. apply nth_In. now rewrite T1. }
      apply map_seq_eq with (d := 0%N); [exact Lj|]. intros i Hi. rewrite tau_eq by auto. cbn [k_pad solve]. rewrite SX.
      apply tau_pad; [apply Hv|rewrite <- SX; now apply rx_c|now apply nth2_c]. }
    assert (E2 : m_tauc (tr s (solve s m)) = m_tauc m).
    { cbn [m_tauc transcript]. apply map_seq_eq with (d := 0%N); [exact T3|]. intros i Hi. rewrite tauc_eq by auto. cbn [k_padc solve].
      rewrite rx_size. cbn [k_a solve]. apply tau_pad; [apply Hv|exact A|now apply nth_c]. }
    assert (E3 : snd (m_xz (tr s (solve s m))) = snd (m_xz m)).
    { rewrite xz_eq by auto. cbn [k_z k_a solve]. apply am_sub; [exact T5|now apply xsum_c]. }
    assert (E4 : fst (m_xz (tr s (solve s m))) = fst (m_xz m)).
    { rewrite <- fst_eq by auto. pose proof T9 as T9'. rewrite check_want in T9'. apply N.eqb_eq in T9'. rewrite <- T9'.
      unfold want, v_keys, v_keyc. now rewrite E1, E2, E3. }
    assert (E5 : m_ann (tr s (solve s m)) = m_ann m).
    { rewrite ann_eq. apply map_seq_eq with (d := []); [exact T7|]. intros i Hi.
      assert (Li : length (nth i (m_ann m) []) = log).
      { rewrite Forall_forall in T8. apply T8. apply nth_In. now rewrite T7. }
      apply map_seq_eq with (d := false); [exact Li|]. intros j Hj. cbn [k_rb solve].
      replace ((i * log + j) / log) with i by (apply Nat.div_unique with j; lia).
      replace ((i * log + j) mod log) with j by (apply Nat.mod_unique with i; lia).
      rewrite <- xorb_assoc, xorb_nilpotent. apply xorb_false_l. }
    assert (E6 : m_xs (tr s (solve s m)) = m_xs m).
    { rewrite xs_eq by auto. cbn [k_z solve]. unfold solve_z. apply sub_am2; [exact T6|now apply bc_c]. }
    clear - E1 E2 E3 E4 E5 E6. destruct (tr s (solve s m)) as [a b [c1 c2] d e], m as [a' b' [c1' c2'] d' e']. cbn in *. now subst.
  Qed.
  Lemma solve_inv s q : vsec_ok s -> vmask_ok q -> vmask_eq size (log * t) q (solve s (tr s q)).
  Proof.
    intros Hx Hq.
    assert (Z : solve_z s (tr s q) = k_z q).
    { unfold solve_z. rewrite xs_eq by auto. apply am_sub2; [apply Hq|now apply bc_c]. }
    assert (A : solve_a s (tr s q) = k_a q).
    { unfold solve_a. rewrite Z, xz_eq by auto. apply sub_am; [apply Hq|apply xsum_c; [exact Hx|apply Hq]]. }
    assert (X : forall j, solve_x s (tr s q) j = rx s q j) by (intro j; unfold solve_x, run_x; now rewrite Z, A).
    split; [|split; [|split; [|split]]].
    - intros i j Hi Hj. cbn [k_pad solve]. rewrite X, nth2_tr, tau_eq by auto. symmetry. apply pad_tau; [apply Hv|apply Hq|now apply rx_c].
    - intros i Hi. cbn [k_padc solve]. rewrite A, nthc_tr, tauc_eq, rx_size by auto. symmetry. apply pad_tau; [apply (proj1 (proj2 (proj2 Hv)))|apply (proj1 (proj2 Hq))|exact (proj1 (proj2 (proj2 Hq)))].
    - symmetry. exact A.
    - intros x Hx'. cbn [k_rb solve]. rewrite ann_eq.
      assert (D : x / log < t) by (apply Nat.div_lt_upper_bound; lia).
      assert (M : x mod log < log) by (apply Nat.mod_upper_bound; lia).
      rewrite (nth_map_seq (fun i => map (fun j => xorb (s_b s i j) (k_rb q (i * log + j))) (seq 0 log)) t (x / log) [] D).
      rewrite (nth_map_seq (fun j => xorb (s_b s (x / log) j) (k_rb q (x / log * log + j))) log (x mod log) false M).
      replace (x / log * log + x mod log) with x by (rewrite Nat.mul_comm; now apply Nat.div_mod_eq).
      rewrite <- xorb_assoc, xorb_nilpotent. symmetry. apply xorb_false_l.
    - symmetry. exact Z.
  Qed.
End H.
