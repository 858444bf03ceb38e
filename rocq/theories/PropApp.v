(** C59: what the arithmetic test programs prove.  [accepted_by] and [rarely_fooled] are in AppSpec. *)
From Coq Require Import NArith List Bool Arith Lia.
From Verif Require Import Word FpModel ListUtil ArithModel ArithSpec BoolSpec GameSpec GameArithSpec AHideSpec AHideThms2
  AppModel AppSpec AppProofs AppThms2 AppThms5 AppThms6.
Import ListNotations.
Ltac Zify.zify_post_hook ::= idtac.

(** ** sis.cpp *)
Theorem C59_sis_relation : forall n m A t s, sis_rel n m A t s = true <->
  (forall j, j < m -> s j = 0%N \/ s j = 1%N) /\ (forall i, i < n -> (fsum m (fun j => A (i * m + j)%nat * s j) mod prm = t i mod prm)%N).
Proof.
  intros n m A t s. unfold sis_rel. rewrite andb_true_iff, !forall_lt_iff. split; intros [H1 H2]; split; intros i Hi.
  - specialize (H1 i Hi). apply orb_true_iff in H1. destruct H1 as [E|E]; apply N.eqb_eq in E; auto.
  - exact (proj1 (N.eqb_eq _ _) (H2 i Hi)).
  - apply orb_true_iff. destruct (H1 i Hi) as [->| ->]; auto.
  - apply N.eqb_eq. exact (H2 i Hi).
Qed.
Theorem C59_sis_accepts : forall n m A t s rounds, (forall i j, i < n -> j < m -> canon (A (i * m + j))) -> (forall i, i < n -> canon (t i)) ->
  1 <= rounds -> sis_rel n m A t s = true -> accepted_by (sis n m A s t rounds) (sis n m A s t rounds) any.
Proof. intros n m A t s rounds HA Ht Hr HR. exact (sis_honest n m A t s rounds HA Hr Ht HR). Qed.
Theorem C59_sis_sound : forall n m A t s rounds, (forall i j, i < n -> j < m -> canon (A (i * m + j))) -> 1 <= rounds ->
  rarely_fooled (sis n m A s t rounds) any (fun ins => sis_rel n m A t (sis_part m (rounds - 1) ins)) (rounds * m) 0.
Proof. intros. now apply sis_sound. Qed.
(** the first rounds prove nothing: a prover that feeds any canonical vectors there, and a solution in the last round, is always accepted *)
Theorem C59_sis_earlier_rounds_refuted : forall n m A t s rounds pre, (forall i j, i < n -> j < m -> canon (A (i * m + j))) ->
  (forall i, i < n -> canon (t i)) -> 1 <= rounds -> sis_rel n m A t s = true -> length pre = (rounds - 1) * m -> Forall canon pre ->
  accepted_by (awith_inputs (pre ++ map s (seq 0 m)) (sis n m A s t rounds)) (sis n m A s t rounds) any /\
  forall r j, r < rounds - 1 -> j < m -> sis_part m r (pre ++ map s (seq 0 m)) j = nth (r * m + j) pre 0%N.
Proof.
  intros n m A t s rounds pre HA Ht Hr HR Hl Hp. split; [exact (sis_any_start n m A t s rounds pre HA Hr Ht HR Hl Hp)|].
  intros r j Hrr Hj. unfold sis_part. apply app_nth1. rewrite Hl. apply Nat.lt_le_trans with (S r * m); [cbn; lia|]. apply Nat.mul_le_mono_r. lia.
Qed.
(** any two solutions give the verifier identically distributed transcripts (C40) *)
Theorem C59_sis_hidden : forall n m A t s rounds, (forall i j, i < n -> j < m -> canon (A (i * m + j))) -> (forall i, i < n -> canon (t i)) -> 1 <= rounds ->
  forall pub_mac key d threads csz psz F G, canon pub_mac -> (forall h, (G h < 2 ^ 64)%N) -> akeys_ok key d -> 1 <= threads <= 32 -> 1 <= csz -> 1 <= psz ->
  let c := sis n m A s t rounds in
  forall ins ins', length ins = rounds * m -> length ins' = rounds * m -> Forall canon ins -> Forall canon ins' ->
  sis_rel n m A t (sis_part m (rounds - 1) ins) = true -> sis_rel n m A t (sis_part m (rounds - 1) ins') = true ->
  exists phi psi,
    (forall u, fvec (aentropy csz psz c) u -> fvec (aentropy csz psz c) (phi u) /\ psi (phi u) = u) /\
    (forall u, fvec (aentropy csz psz c) u -> fvec (aentropy csz psz c) (psi u) /\ phi (psi u) = u) /\
    (forall u, fvec (aentropy csz psz c) u -> exists p p',
       ahonest pub_mac key d threads csz psz F G c ins u = Some p /\
       ahonest pub_mac key d threads csz psz F G c ins' (phi u) = Some p' /\ aview p = aview p').
Proof.
  intros n m A t s rounds HA Ht Hr pm key d th csz psz F G Hm HG Hk H1 H2 H3 c ins ins' L L' C C' R R'.
  pose proof (sis_ok_session n m A t s rounds HA Hr Ht th csz psz H1 H2 H3) as Hok.
  pose proof (sis_witness n m A t s rounds HA Hr ins L C R) as Hw. pose proof (sis_witness n m A t s rounds HA Hr ins' L' C' R') as Hw'.
  destruct (aview_bijection pm key d th csz psz F G c Hm HG Hk Hok ins ins' [] Hw Hw') as (phi & psi & B1 & B2 & B3). exists phi, psi.
  split; [exact B1|]. split; [exact B2|]. intros u Hu.
  destruct (ahonest_exists pm key d th csz psz F G c Hok ins u) as [p Hp].
  destruct (ahonest_exists pm key d th csz psz F G c Hok ins' (phi u)) as [p' Hp']. exists p, p'. eauto.
Qed.

(** ** matrix_mul.cpp *)
Theorem C59_matmul_accepts : forall n a b t, (forall i, i < n * n -> canon (a i) /\ canon (b i)) ->
  (forall i k, i < n -> k < n -> t (i * n + k) = (fsum n (fun j => a (i * n + j)%nat * b (j * n + k)%nat) mod prm)%N) ->
  accepted_by (matmul n a b t) (matmul n a b t) any.
Proof. exact mm_honest. Qed.
Theorem C59_matmul_sound : forall n a b t, rarely_fooled (matmul n a b t) any (mm_rel n t) (n * n * n) 0.
Proof. exact mm_sound. Qed.

(** ** zk_proof.cpp *)
Theorem C59_zk_proof_accepts : forall n a0 b0 cr sz d e f dd ee, canon a0 -> canon b0 -> (forall i, i < sz -> canon (d i) /\ canon (e i)) ->
  cr = chain_val n a0 b0 -> (forall i, i < sz -> dd i = (d i * e i mod prm)%N /\ ee i = ((dd i + e i) mod prm)%N /\ f i = ee i) ->
  accepted_by (zk_proof n a0 b0 cr sz d e f ee) (zk_proof n a0 b0 cr sz d e f ee) (zk_memcmp sz dd).
Proof. exact zk_honest. Qed.
Theorem C59_zk_proof_sound : forall n a0 b0 cr sz d e f dd ee,
  rarely_fooled (zk_proof n a0 b0 cr sz d e f ee) (zk_memcmp sz dd) (zk_rel n sz cr dd ee) (n + 1 + 2 * sz) 0.
Proof. exact zk_sound. Qed.

(** ** polynomial.cpp and inner_prdt.cpp, for canonical public coefficients *)
Theorem C59_polynomial_accepts : forall sz rep w coeff, 1 <= rep -> length coeff = S sz -> Forall canon coeff -> (forall i, i < 2 * sz -> canon (w i)) ->
  poly_rel sz (fun i => nth i coeff 0%N) (map w (seq 0 (2 * sz))) = true -> accepted_by (poly_app sz rep w coeff) (poly_app sz rep w coeff) any.
Proof. exact poly_honest. Qed.
Theorem C59_polynomial_sound : forall sz rep w coeff, 1 <= rep -> length coeff = S sz -> Forall canon coeff ->
  rarely_fooled (poly_app sz rep w coeff) any (poly_rel sz (fun i => nth i coeff 0%N)) 0 rep.
Proof. exact poly_sound. Qed.
Theorem C59_inner_product_accepts : forall sz rep w k, 1 <= rep -> canon k -> (forall i, i < 2 * sz -> canon (w i)) ->
  poly_rel sz (fun i => match i with 0 => k | _ => 1%N end) (map w (seq 0 (2 * sz))) = true -> accepted_by (inner_app sz rep w k) (inner_app sz rep w k) any.
Proof. exact inner_honest. Qed.
Theorem C59_inner_product_sound : forall sz rep w k, 1 <= rep -> canon k ->
  rarely_fooled (inner_app sz rep w k) any (poly_rel sz (fun i => match i with 0 => k | _ => 1%N end)) 0 rep.
Proof. exact inner_sound. Qed.

(** ** circuit_scalability.cpp: the opened number is the end of the chain that starts from the two committed values *)
Theorem C59_circuit_accepts : forall n a0 b0 cr, canon a0 -> canon b0 -> cr = chain_val n a0 b0 ->
  accepted_by (circuit_app n a0 b0 cr) (circuit_app n a0 b0 cr) any.
Proof. exact circuit_honest. Qed.
Theorem C59_circuit_sound : forall n a0 b0 cr,
  rarely_fooled (circuit_app n a0 b0 cr) any (fun ins => eqm (chain_val n (nth 0 ins 0%N) (nth 1 ins 0%N)) cr) (n + 1) 0.
Proof. exact circuit_sound. Qed.
(** ** input_scalability.cpp: any canonical inputs are accepted, whatever array the verifier holds *)
Theorem C59_inputs_accepted : forall sz w w', (forall i, i < sz -> canon (w i)) -> accepted_by (input_app sz w) (input_app sz w') any.
Proof. exact input_honest. Qed.

(** ** cases *)
Definition tab (l : list N) (i : nat) : N := nth i l 0%N.
(** 2 rows, 3 columns, 2 rounds: (1,0,1) is a solution of A s = t *)
Definition demo_A := tab [3; 5; 7; PR - 1; 2; 4]%N.
Definition demo_t := tab [10; 3]%N.
Definition demo_s := tab [1; 0; 1]%N.
Definition run_demo (cp cv : list agate) : option ((bool * bool) * list N) :=
  let pU i := (N.of_nat i * 1234567 + 89)%N in let pM i := (N.of_nat i * 7654321 + 98)%N in
  let seeds k i := N.of_nat (k * 7 + i + 3) in let pseeds k := N.of_nat (k + 11) in
  match ap_exec 5 (vole_block pU pM) 2 4 4 seeds pseeds cp with
  | Some p => match av_exec 5 (vole_key pU pM 987654321) 987654321 2 4 4 seeds pseeds
        (fun k => nth k (ap_words p) 0%N) (fun k => nth k (ap_msgs p) (0, 0)%N) (fun k => nth k (ap_pmsgs p) (0, 0)%N) cv with
      | Some v => Some (av_outcome (fun a b : list N => if list_eq_dec N.eq_dec a b then true else false) (fun l => l) v (ap_hash p), av_outs v)
      | None => None end
  | None => None end.
Example C59_sis_case : sis_rel 2 3 demo_A demo_t demo_s = true /\ length (sis 2 3 demo_A demo_s demo_t 2) = 63 /\
  run_demo (sis 2 3 demo_A demo_s demo_t 2) (sis 2 3 demo_A demo_s demo_t 2) = Some ((false, false), []).
Proof. vm_compute. auto. Qed.
(** a solution of A s = t that does not consist of bits, and a vector of bits that is no solution, are refused *)
Example C59_sis_wrong : sis_rel 2 3 demo_A demo_t (tab [1; 0; 0]%N) = false /\
  (forall s, s = tab [1; 0; 0]%N \/ s = tab [1257732550480196701; 628866275240098352; 0]%N -> exists e ch, run_demo (sis 2 3 demo_A s demo_t 2) (sis 2 3 demo_A demo_s demo_t 2) = Some ((e, ch), []) /\ (e || ch) = true).
Proof. split; [reflexivity|]. intros s [->| ->]; vm_compute; eauto. Qed.
(** first round: (5, 6, 7) *)
Example C59_sis_first_round : sis_rel 2 3 demo_A demo_t (tab [5; 6; 7]%N) = false /\
  run_demo (awith_inputs [5; 6; 7; 1; 0; 1]%N (sis 2 3 demo_A demo_s demo_t 2)) (sis 2 3 demo_A demo_s demo_t 2) = Some ((false, false), []).
Proof. vm_compute. auto. Qed.
Example C59_matmul_case : let a := tab [1; 2; 3; 4]%N in let b := tab [5; 6; 7; 8]%N in
  let c t := matmul 2 a b t in
  run_demo (c (tab [19; 22; 43; 50]%N)) (c (tab [19; 22; 43; 50]%N)) = Some ((false, false), []) /\
  mm_rel 2 (tab [19; 22; 43; 50]%N) [1; 5; 2; 6; 3; 7; 4; 8]%N = true /\ mm_rel 2 (tab [19; 22; 43; 51]%N) [1; 5; 2; 6; 3; 7; 4; 8]%N = false /\
  exists e ch, run_demo (c (tab [19; 22; 43; 51]%N)) (c (tab [19; 22; 43; 51]%N)) = Some ((e, ch), []) /\ (e || ch) = true.
Proof. vm_compute. eauto 8. Qed.
Example C59_zk_proof_case : let dd := tab [12; 30]%N in let ee := tab [16; 36]%N in
  let c := zk_proof 2 2 3 (chain_val 2 2 3) 2 (tab [3; 5]%N) (tab [4; 6]%N) ee ee in
  run_demo c c = Some ((false, false), [12; 30]%N) /\ zk_memcmp 2 dd [12; 30]%N = true /\
  zk_rel 2 2 (chain_val 2 2 3) dd ee [2; 3; 3; 4; 16; 5; 6; 36]%N = true /\ zk_rel 2 2 (chain_val 2 2 3) dd ee [2; 3; 3; 4; 17; 5; 6; 36]%N = false.
Proof. vm_compute. auto. Qed.
Example C59_relations_case : let w := tab [2; 3; 4; 5]%N in
  run_demo (inner_app 2 3 w (PR - 23)) (inner_app 2 3 w (PR - 23)) = Some ((false, false), []) /\
  run_demo (poly_app 2 3 w [PR - 8 - 30; 1; 2]%N) (poly_app 2 3 w [PR - 8 - 30; 1; 2]%N) = Some ((false, false), []) /\
  poly_rel 2 (tab [PR - 38; 1; 2]%N) [2; 3; 4; 5]%N = true /\
  exists e ch, run_demo (inner_app 2 3 w (PR - 22)) (inner_app 2 3 w (PR - 22)) = Some ((e, ch), []) /\ (e || ch) = true.
Proof. vm_compute. eauto 8. Qed.
(** the shipped inputs 2, 3 with two rounds: (2,3) -> (10,5) -> (150,15) -> 2400; another number is refused *)
Example C59_circuit_case : chain_val 2 2 3 = 2400%N /\ run_demo (circuit_app 2 2 3 2400) (circuit_app 2 2 3 2400) = Some ((false, false), []) /\ run_demo (input_app 2 (tab [7; 8]%N)) (input_app 2 (tab [0; 1]%N)) = Some ((false, false), []) /\ exists e ch, run_demo (circuit_app 2 2 3 2401) (circuit_app 2 2 3 2401) = Some ((e, ch), []) /\ (e || ch) = true.
Proof. vm_compute. eauto 8. Qed.

Print Assumptions C59_sis_relation.
Print Assumptions C59_sis_accepts.
Print Assumptions C59_sis_sound.
Print Assumptions C59_sis_earlier_rounds_refuted.
Print Assumptions C59_sis_hidden.
Print Assumptions C59_matmul_accepts.
Print Assumptions C59_matmul_sound.
Print Assumptions C59_zk_proof_accepts.
Print Assumptions C59_zk_proof_sound.
Print Assumptions C59_polynomial_accepts.
Print Assumptions C59_polynomial_sound.
Print Assumptions C59_inner_product_accepts.
Print Assumptions C59_inner_product_sound.
Print Assumptions C59_circuit_accepts.
Print Assumptions C59_circuit_sound.
Print Assumptions C59_inputs_accepted.
