(** Results of the check tasks under every schedule. *)
From Coq Require Import NArith List Bool Arith Lia.
From Verif Require Import Word FpModel GF128 BoolModel BoolSpec BoolThms ArithModel CopeProofs F2kModel ThreadModel ThreadSpec ThreadProofs ThreadWork.
Import ListNotations.

Lemma check_tasks (sm : nat -> nat -> Prop) task cnt rs m (Q : smem -> Prop) :
  (forall a b i, sm a i -> sm b i -> a = b) -> rs_disjoint rs ->
  (forall thr s n, fits (reg sm thr s n) (task thr s n)) -> (forall thr s n, accesses (cnt thr s n) (task thr s n)) ->
  (forall m', (forall i s n, nth_error rs i = Some (s, n) -> forall x, sm i x -> m' (Sum, x) = run m (task i s n) (Sum, x)) -> Q m') ->
  schedule_independent m (tasks task rs) Q.
Proof.
  intros Hs D Hf Ha HQ.
  assert (S : separate (regs sm rs)) by now apply regs_separate.
  assert (F : Forall2 fits (regs sm rs) (tasks task rs)) by (apply F2_map; intros x _; apply Hf).
  apply (weaken m _ (fun m' => forall x, m' x = run_all m (tasks task rs) x)).
  - intros m' E. apply HQ. intros i s n Hi x Hx. rewrite E.
    apply (run_all_part (regs sm rs) (tasks task rs) S F m i (reg sm i s n)); [rewrite regs_nth, Hi; reflexivity|rewrite tasks_nth, Hi; reflexivity|].
    cbn. right. auto.
  - apply (interleave (regs sm rs) (map (fun ir => cnt (fst ir) (fst (snd ir)) (snd (snd ir))) (combine (seq 0 (length rs)) rs))); auto.
    apply F2_map. intros x _. apply Ha.
Qed.

(** * Boolean engine *)
Lemma holds_nth m buf : holds m buf -> forall i x, nth_error (map prv_terms buf) i = Some x -> prv_A m i = x.
Proof. intros H i x E. rewrite nth_error_map in E. destruct (nth_error buf i) as [g|] eqn:Eg; [|discriminate]. injection E as <-. unfold prv_A. now rewrite (H i g Eg). Qed.
Lemma and_ranges_disjoint t cnt rs : and_ranges t cnt = Some rs -> rs_disjoint rs.
Proof. unfold and_ranges. destruct (Nat.eqb _ _); [discriminate|]. intro H. injection H as <-. apply split_disjoint. Qed.
Lemma and_ranges_length t cnt rs : 1 <= t -> and_ranges t cnt = Some rs -> length rs = t.
Proof. unfold and_ranges. destruct (Nat.eqb _ _); [discriminate|]. intros Ht H. injection H as <-. rewrite app_length, map_length, seq_length. cbn. lia. Qed.
Lemma and_ranges_nonempty t cnt rs s n : and_ranges t cnt = Some rs -> In (s, n) rs -> n <> 0.
Proof.
  unfold and_ranges. destruct (Nat.eqb_spec (cnt / t) 0); [discriminate|]. intros H Hin. injection H as <-. apply in_app_iff in Hin.
  destruct Hin as [Hin|[Hin|[]]]; [apply in_map_iff in Hin; destruct Hin as [x [E _]]|]; [injection E as <- <-|injection Hin as <- <-]; lia.
Qed.
Theorem bool_prover m buf t rs ope : 1 <= t -> and_ranges t (length buf) = Some rs -> holds m buf ->
  schedule_independent m (tasks bp_task rs) (fun m' => bp_combine m' t ope = prv_A_star buf rs (seeds_of m) ope).
Proof.
  intros Ht Hr Hm. apply (check_tasks two bp_task _ rs m _ two_inj (and_ranges_disjoint _ _ _ Hr) bp_fits bp_accesses).
  intros m' E. unfold bp_combine, prv_A_star. rewrite <- (and_ranges_length _ _ _ Ht Hr). apply fold_tag.
  intros acc i [s n] Hi. cbn [fst snd Nat.add].
  assert (Hin : In (s, n) rs) by (eapply nth_error_In; eauto).
  assert (N : n <> 0) by (eapply and_ranges_nonempty; eauto).
  pose proof (ranges_in_bounds t (length buf) rs s n Ht Hr Hin) as B.
  destruct (bp_run m i s n N) as [R1 R2]. rewrite (E i s n Hi) by (unfold two; auto). rewrite (E i s n Hi (2 * i + 1)) by (unfold two; auto).
  rewrite R1, R2. unfold prv_check_range, seeds_of. cbn [fst snd]. rewrite segment_map.
  rewrite (segment_seq (prv_A m) (map prv_terms buf) s n); [reflexivity|now rewrite map_length|now apply holds_nth].
Qed.
(** verifier *)
Lemma within_bv (R W : loc -> Prop) d i n : forall k, (forall a j, buffer a -> i <= j < i + n -> R (a, j) /\ W (a, j)) -> within R W k -> within R W (bv_gates d i n k).
Proof.
  revert i. induction n as [|n IH]; intros i k H Hk; cbn [bv_gates]; [exact Hk|]. cbn [within].
  assert (B : forall a, buffer a -> R (a, i) /\ W (a, i)) by (intros; apply H; auto; lia).
  repeat (split; [apply B; exact I|intro]). split; [apply B; exact I|].
  apply IH; auto. intros; apply H; auto; lia.
Qed.
Lemma accesses_bv d n' n : forall i k, accesses n' k -> accesses (4 * n + n') (bv_gates d i n k).
Proof.
  induction n as [|n IH]; intros i k H; cbn [bv_gates]; [exact H|]. replace (4 * S n + n') with (4 + (4 * n + n')) by lia.
  cbn [Nat.add accesses]. intros. now apply IH.
Qed.
Definition ver_B (d : N) (m : smem) (i : nat) : N := ver_term d (m (Left, i), m (Right, i), m (Out, i)).
Lemma run_bv d n : forall i m k, exists m1, run m (bv_gates d i n k) = run m1 k /\
  (forall j, m1 (Left, j) = if Nat.leb i j && Nat.ltb j (i + n) then ver_B d m j else m (Left, j)) /\
  (forall a j, a <> Left -> m1 (a, j) = m (a, j)).
Proof.
  induction n as [|n IH]; intros i m k.
  - exists m. split; [reflexivity|]. assert (Z : forall j, Nat.leb i j && Nat.ltb j (i + 0) = false).
    { intro j. destruct (Nat.leb_spec i j), (Nat.ltb_spec j (i + 0)); cbn; auto; lia. }
    split; [intro j; now rewrite Z|auto].
  - cbn [bv_gates run]. set (m0 := put m (Left, i) _).
    destruct (IH (S i) m0 k) as (m1 & E & HL & HO). exists m1. split; [exact E|].
    assert (P : forall a j, (a = Left -> j <> i) -> m0 (a, j) = m (a, j)).
    { intros a j Hj. unfold m0. rewrite put_other; auto; intro Q; injection Q as -> ->; now apply Hj; auto. }
    assert (PL : m0 (Left, i) = ver_B d m i) by (unfold m0; rewrite put_same; reflexivity).
    assert (PA : forall j, j <> i -> ver_B d m0 j = ver_B d m j) by (intros j Hj; unfold ver_B; rewrite !P; auto).
    split.
    + intro j. rewrite HL. destruct (Nat.leb_spec (S i) j), (Nat.ltb_spec j (S i + n)), (Nat.leb_spec i j), (Nat.ltb_spec j (i + S n)); cbn [andb]; try lia;
        rewrite ?PA by lia; try reflexivity; try (apply P; intros _; lia). replace j with i by lia. exact PL.
    + intros a j N1. rewrite HO by assumption. apply P. intro; contradiction.
Qed.
Lemma bv_fits d thr s n : fits (reg one thr s n) (bv_task d thr s n).
Proof.
  unfold fits, bv_task. cbn [within]. split; [cbn; now left|]. intro sd. destruct (Nat.eqb n 0); [exact I|].
  apply within_bv. { intros a j Ha Hj. cbn. auto. }
  cbv zeta. apply within_range; [intros; cbn; auto|]. intro vs. cbn [within]. split; [cbn; unfold one; auto|exact I].
Qed.
Lemma bv_accesses d thr s n : accesses (1 + if Nat.eqb n 0 then 0 else 4 * n + (n + 1)) (bv_task d thr s n).
Proof.
  unfold bv_task. cbn [Nat.add accesses]. intro sd. destruct (Nat.eqb n 0); [reflexivity|]. apply accesses_bv. cbv zeta.
  apply accesses_range. intro. reflexivity.
Qed.
Lemma bv_run d m thr s n : n <> 0 ->
  run m (bv_task d thr s n) (Sum, thr) = gf_inn_prdt (gf_coeff_gen (m (Seed, thr)) n) (map (ver_B d m) (seq s n)).
Proof.
  intros N. unfold bv_task. cbn [run]. destruct (Nat.eqb_spec n 0); [contradiction|].
  match goal with |- context [bv_gates d s n ?k] => destruct (run_bv d n s m k) as (m1 & E & HL & HO) end.
  rewrite E. cbv zeta. rewrite run_range. cbn [run]. rewrite put_same. f_equal. apply map_ext_in.
  intros j Hj. rewrite HL, in_rng by exact Hj. reflexivity.
Qed.
Lemma holds_ver d m buf : holds m buf -> forall i x, nth_error (map (ver_term d) buf) i = Some x -> ver_B d m i = x.
Proof. intros H i x E. rewrite nth_error_map in E. destruct (nth_error buf i) as [g|] eqn:Eg; [|discriminate]. injection E as <-. unfold ver_B. now rewrite (H i g Eg). Qed.
Theorem bool_verifier d m buf t rs ope : 1 <= t -> and_ranges t (length buf) = Some rs -> holds m buf ->
  schedule_independent m (tasks (bv_task d) rs) (fun m' => bv_combine m' t ope = ver_B_star d buf rs (seeds_of m) ope).
Proof.
  intros Ht Hr Hm. apply (check_tasks one (bv_task d) _ rs m _ one_inj (and_ranges_disjoint _ _ _ Hr) (bv_fits d) (bv_accesses d)).
  intros m' E. unfold bv_combine, ver_B_star. rewrite <- (and_ranges_length _ _ _ Ht Hr). apply fold_tag.
  intros acc i [s n] Hi. cbn [fst snd Nat.add].
  assert (Hin : In (s, n) rs) by (eapply nth_error_In; eauto).
  assert (N : n <> 0) by (eapply and_ranges_nonempty; eauto).
  pose proof (ranges_in_bounds t (length buf) rs s n Ht Hr Hin) as B.
  rewrite (E i s n Hi) by reflexivity. rewrite (bv_run d m i s n N). unfold ver_check_range, seeds_of. rewrite segment_map.
  rewrite (segment_seq (ver_B d m) (map (ver_term d) buf) s n); [reflexivity|now rewrite map_length|now apply holds_ver].
Qed.

(** * Arithmetic engine *)
Definition arp_A (m : smem) (i : nat) : N * N := a_prv_terms (m (Left, i), m (Right, i), m (Out, i)).
Definition arv_B (d : N) (m : smem) (i : nat) : N := a_ver_term d (m (Left, i), m (Right, i), m (Out, i)).
Lemma within_ap (R W : loc -> Prop) n : forall i chi U V k, (forall a j, buffer a -> i <= j < i + n -> R (a, j)) -> (forall U V, within R W (k U V)) ->
  within R W (ap_gates i n chi U V k).
Proof.
  induction n as [|n IH]; intros i chi U V k H Hk; cbn [ap_gates]; [apply Hk|]. destruct chi as [|c chi]; [apply Hk|]. cbn [within].
  repeat (split; [apply H; [exact I|lia]|intro]). apply IH; auto. intros; apply H; auto; lia.
Qed.
Lemma within_av (R W : loc -> Prop) d n : forall i chi U k, (forall a j, buffer a -> i <= j < i + n -> R (a, j)) -> (forall U, within R W (k U)) ->
  within R W (av_gates d i n chi U k).
Proof.
  induction n as [|n IH]; intros i chi U k H Hk; cbn [av_gates]; [apply Hk|]. destruct chi as [|c chi]; [apply Hk|]. cbn [within].
  repeat (split; [apply H; [exact I|lia]|intro]). apply IH; auto. intros; apply H; auto; lia.
Qed.
Lemma accesses_ap n' n : forall i chi U V k, length chi = n -> (forall U V, accesses n' (k U V)) -> accesses (5 * n + n') (ap_gates i n chi U V k).
Proof.
  induction n as [|n IH]; intros i chi U V k L H; cbn [ap_gates]; [apply H|]. destruct chi as [|c chi]; [discriminate|].
  replace (5 * S n + n') with (5 + (5 * n + n')) by lia. cbn [Nat.add accesses]. intros. apply IH; auto.
Qed.
Lemma accesses_av d n' n : forall i chi U k, length chi = n -> (forall U, accesses n' (k U)) -> accesses (3 * n + n') (av_gates d i n chi U k).
Proof.
  induction n as [|n IH]; intros i chi U k L H; cbn [av_gates]; [apply H|]. destruct chi as [|c chi]; [discriminate|].
  replace (3 * S n + n') with (3 + (3 * n + n')) by lia. cbn [Nat.add accesses]. intros. apply IH; auto.
Qed.
Lemma run_ap m n : forall i chi U V k, length chi = n ->
  run m (ap_gates i n chi U V k) = run m (k (a_acc U (map fst (map (arp_A m) (seq i n))) chi) (a_acc V (map snd (map (arp_A m) (seq i n))) chi)).
Proof.
  induction n as [|n IH]; intros i chi U V k L; cbn [ap_gates seq map a_acc]; [reflexivity|]. destruct chi as [|c chi]; [discriminate|].
  cbn [run]. rewrite IH by (cbn in L; lia). reflexivity.
Qed.
Lemma run_av d m n : forall i chi U k, length chi = n ->
  run m (av_gates d i n chi U k) = run m (k (a_acc U (map (arv_B d m) (seq i n)) chi)).
Proof.
  induction n as [|n IH]; intros i chi U k L; cbn [av_gates seq map a_acc]; [reflexivity|]. destruct chi as [|c chi]; [discriminate|].
  cbn [run]. rewrite IH by (cbn in L; lia). reflexivity.
Qed.
Lemma a_chi_length sd n : n <> 0 -> length (a_chi sd n) = n.
Proof. intro N. apply chi_len. lia. Qed.
Lemma ap_fits thr s n : fits (reg two thr s n) (ap_task thr s n).
Proof.
  unfold fits, ap_task. destruct (Nat.eqb n 0); [exact I|]. cbn [within]. split; [cbn; now left|]. intro sd.
  apply within_ap; [intros a j Ha Hj; cbn; auto|]. intros U V. cbn [within]. split; [cbn; unfold two; auto|]. split; [cbn; unfold two; auto|exact I].
Qed.
Lemma av_fits d thr s n : fits (reg one thr s n) (av_task d thr s n).
Proof.
  unfold fits, av_task. destruct (Nat.eqb n 0); [exact I|]. cbn [within]. split; [cbn; now left|]. intro sd.
  apply within_av; [intros a j Ha Hj; cbn; auto|]. intros U. cbn [within]. split; [cbn; unfold one; auto|exact I].
Qed.
Lemma ap_accesses thr s n : accesses (if Nat.eqb n 0 then 0 else 1 + (5 * n + 2)) (ap_task thr s n).
Proof.
  unfold ap_task. destruct (Nat.eqb_spec n 0) as [|N]; [reflexivity|]. cbn [Nat.add accesses]. intro sd.
  apply accesses_ap; [now apply a_chi_length|]. intros. reflexivity.
Qed.
Lemma av_accesses d thr s n : accesses (if Nat.eqb n 0 then 0 else 1 + (3 * n + 1)) (av_task d thr s n).
Proof.
  unfold av_task. destruct (Nat.eqb_spec n 0) as [|N]; [reflexivity|]. cbn [Nat.add accesses]. intro sd.
  apply accesses_av; [now apply a_chi_length|]. intros. reflexivity.
Qed.
Lemma ap_run m thr s n : n <> 0 ->
  let seg := map (arp_A m) (seq s n) in
  run m (ap_task thr s n) (Sum, 2 * thr) = a_acc 0 (map fst seg) (a_chi (m (Seed, thr)) n) /\
  run m (ap_task thr s n) (Sum, 2 * thr + 1) = a_acc 0 (map snd seg) (a_chi (m (Seed, thr)) n).
Proof.
  intros N seg. unfold ap_task. destruct (Nat.eqb_spec n 0); [contradiction|]. cbn [run]. rewrite run_ap by (now apply a_chi_length).
  cbn [run]. split; [|now rewrite put_same]. rewrite put_other by (intro Q; injection Q; lia). now rewrite put_same.
Qed.
Lemma av_run d m thr s n : n <> 0 -> run m (av_task d thr s n) (Sum, thr) = a_acc 0 (map (arv_B d m) (seq s n)) (a_chi (m (Seed, thr)) n).
Proof.
  intros N. unfold av_task. destruct (Nat.eqb_spec n 0); [contradiction|]. cbn [run]. rewrite run_av by (now apply a_chi_length).
  cbn [run]. now rewrite put_same.
Qed.
Lemma a_ranges_facts t cnt rs : 1 <= t -> 1 <= cnt -> a_ranges t cnt = Some rs ->
  rs_disjoint rs /\ (forall s n, In (s, n) rs -> n <> 0 /\ s + n <= cnt) /\ length rs = if Nat.ltb cnt 32 then 1 else t.
Proof.
  intros Ht Hc. unfold a_ranges. destruct (Nat.ltb cnt 32).
  - intro H. injection H as <-. split; [|split; [|reflexivity]].
    + intros [|a] [|b] s n s' n' i; cbn; try discriminate; auto; try (destruct a; discriminate); destruct b; discriminate.
    + intros s n [H|[]]. injection H as <- <-. lia.
  - intro H. assert (E : and_ranges t cnt = Some rs) by exact H. split; [now apply (and_ranges_disjoint t cnt)|]. split; [|now apply (and_ranges_length t cnt)].
    intros s n Hin. split; [now apply (and_ranges_nonempty t cnt rs s)|now apply (ranges_in_bounds t cnt rs)].
Qed.
Theorem arith_prover m buf t rs : 1 <= t -> buf <> [] -> a_ranges t (length buf) = Some rs -> holds m buf ->
  schedule_independent m (tasks ap_task rs) (fun m' => ap_combine m' (length rs) = a_prv_sum buf rs (seeds_of m)).
Proof.
  intros Ht Hb Hr Hm. assert (Hc : 1 <= length buf) by (destruct buf; [contradiction|cbn; lia]).
  destruct (a_ranges_facts t (length buf) rs Ht Hc Hr) as (D & B & _).
  apply (check_tasks two ap_task _ rs m _ two_inj D ap_fits ap_accesses).
  intros m' E. unfold ap_combine, a_prv_sum. apply fold_tag. intros acc i [s n] Hi. cbn [fst snd Nat.add].
  destruct (B s n) as [N L]; [eapply nth_error_In; eauto|].
  destruct (ap_run m i s n N) as [R1 R2]. rewrite (E i s n Hi) by (unfold two; auto). rewrite (E i s n Hi (2 * i + 1)) by (unfold two; auto).
  rewrite R1, R2. unfold a_prv_range, seeds_of, aseg. cbn [fst snd]. fold (segment s n buf). rewrite segment_map.
  rewrite (segment_seq (arp_A m) (map a_prv_terms buf) s n); [reflexivity|now rewrite map_length|].
  intros j x Ex. rewrite nth_error_map in Ex. destruct (nth_error buf j) as [g|] eqn:Eg; [|discriminate]. injection Ex as <-. unfold arp_A. now rewrite (Hm j g Eg).
Qed.
Theorem arith_verifier d m buf t rs : 1 <= t -> buf <> [] -> a_ranges t (length buf) = Some rs -> holds m buf ->
  schedule_independent m (tasks (av_task d) rs) (fun m' => av_combine m' (length rs) = a_ver_sum d buf rs (seeds_of m)).
Proof.
  intros Ht Hb Hr Hm. assert (Hc : 1 <= length buf) by (destruct buf; [contradiction|cbn; lia]).
  destruct (a_ranges_facts t (length buf) rs Ht Hc Hr) as (D & B & _).
  apply (check_tasks one (av_task d) _ rs m _ one_inj D (av_fits d) (av_accesses d)).
  intros m' E. unfold av_combine, a_ver_sum. apply fold_tag. intros acc i [s n] Hi. cbn [fst snd Nat.add].
  destruct (B s n) as [N L]; [eapply nth_error_In; eauto|].
  rewrite (E i s n Hi) by reflexivity. rewrite (av_run d m i s n N). unfold a_ver_range, seeds_of, aseg. fold (segment s n buf). rewrite segment_map.
  rewrite (segment_seq (arv_B d m) (map (a_ver_term d) buf) s n); [reflexivity|now rewrite map_length|].
  intros j x Ex. rewrite nth_error_map in Ex. destruct (nth_error buf j) as [g|] eqn:Eg; [|discriminate]. injection Ex as <-. unfold arv_B. now rewrite (Hm j g Eg).
Qed.

(** * GF(2^128) engine *)
Lemma within_kp (R W : loc -> Prop) i n : forall k, (forall a j, buffer a -> i <= j < i + n -> R (a, j) /\ W (a, j)) -> within R W k -> within R W (kp_gates i n k).
Proof.
  revert i. induction n as [|n IH]; intros i k H Hk; cbn [kp_gates]; [exact Hk|]. cbn [within].
  assert (B : forall a, buffer a -> R (a, i) /\ W (a, i)) by (intros; apply H; auto; lia).
  repeat (split; [apply B; exact I|intro]). split; [apply B; exact I|]. split; [apply B; exact I|].
  apply IH; auto. intros; apply H; auto; lia.
Qed.
Lemma within_kv (R W : loc -> Prop) d i n : forall k, (forall a j, buffer a -> i <= j < i + n -> R (a, j) /\ W (a, j)) -> within R W k -> within R W (kv_gates d i n k).
Proof.
  revert i. induction n as [|n IH]; intros i k H Hk; cbn [kv_gates]; [exact Hk|]. cbn [within].
  assert (B : forall a, buffer a -> R (a, i) /\ W (a, i)) by (intros; apply H; auto; lia).
  repeat (split; [apply B; exact I|intro]). split; [apply B; exact I|].
  apply IH; auto. intros; apply H; auto; lia.
Qed.
Lemma accesses_kp n' n : forall i k, accesses n' k -> accesses (9 * n + n') (kp_gates i n k).
Proof.
  induction n as [|n IH]; intros i k H; cbn [kp_gates]; [exact H|]. replace (9 * S n + n') with (9 + (9 * n + n')) by lia.
  cbn [Nat.add accesses]. intros. now apply IH.
Qed.
Lemma accesses_kv d n' n : forall i k, accesses n' k -> accesses (4 * n + n') (kv_gates d i n k).
Proof.
  induction n as [|n IH]; intros i k H; cbn [kv_gates]; [exact H|]. replace (4 * S n + n') with (4 + (4 * n + n')) by lia.
  cbn [Nat.add accesses]. intros. now apply IH.
Qed.
Definition kp_A (m : smem) (i : nat) : N * N := fp_terms (arr_of m LVal) (arr_of m LMac) (arr_of m RVal) (arr_of m RMac) (arr_of m OMac) i.
Definition kv_B (d : N) (m : smem) (i : nat) : N := fv_term d (arr_of m LMac) (arr_of m RMac) (arr_of m OMac) i.
Lemma run_kp n : forall i m k, exists m1, run m (kp_gates i n k) = run m1 k /\
  (forall j, m1 (LVal, j) = if Nat.leb i j && Nat.ltb j (i + n) then fst (kp_A m j) else m (LVal, j)) /\
  (forall j, m1 (RVal, j) = if Nat.leb i j && Nat.ltb j (i + n) then snd (kp_A m j) else m (RVal, j)) /\
  (forall a j, a <> LVal -> a <> RVal -> m1 (a, j) = m (a, j)).
Proof.
  induction n as [|n IH]; intros i m k.
  - exists m. split; [reflexivity|]. assert (Z : forall j, Nat.leb i j && Nat.ltb j (i + 0) = false).
    { intro j. destruct (Nat.leb_spec i j), (Nat.ltb_spec j (i + 0)); cbn; auto; lia. }
    split; [intro j; now rewrite Z|]. split; [intro j; now rewrite Z|auto].
  - cbn [kp_gates run]. set (m0 := put (put m (LVal, i) _) (RVal, i) _).
    destruct (IH (S i) m0 k) as (m1 & E & HL & HR & HO). exists m1. split; [exact E|].
    assert (P : forall a j, (a = LVal \/ a = RVal -> j <> i) -> m0 (a, j) = m (a, j)).
    { intros a j Hj. unfold m0. rewrite !put_other; auto; intro Q; injection Q as -> ->; now apply Hj; auto. }
    assert (PL : m0 (LVal, i) = fst (kp_A m i)) by (unfold m0; rewrite put_other by discriminate; rewrite put_same; reflexivity).
    assert (PR : m0 (RVal, i) = snd (kp_A m i)) by (unfold m0; rewrite put_same; reflexivity).
    assert (PA : forall j, j <> i -> kp_A m0 j = kp_A m j) by (intros j Hj; unfold kp_A, fp_terms, arr_of; rewrite !P; auto).
    split; [|split].
    + intro j. rewrite HL. destruct (Nat.leb_spec (S i) j), (Nat.ltb_spec j (S i + n)), (Nat.leb_spec i j), (Nat.ltb_spec j (i + S n)); cbn [andb]; try lia;
        rewrite ?PA by lia; try reflexivity; try (apply P; intros _; lia). replace j with i by lia. exact PL.
    + intro j. rewrite HR. destruct (Nat.leb_spec (S i) j), (Nat.ltb_spec j (S i + n)), (Nat.leb_spec i j), (Nat.ltb_spec j (i + S n)); cbn [andb]; try lia;
        rewrite ?PA by lia; try reflexivity; try (apply P; intros _; lia). replace j with i by lia. exact PR.
    + intros a j N1 N2. rewrite HO by assumption. apply P. intros [|]; contradiction.
Qed.
Lemma run_kv d n : forall i m k, exists m1, run m (kv_gates d i n k) = run m1 k /\
  (forall j, m1 (LVal, j) = if Nat.leb i j && Nat.ltb j (i + n) then kv_B d m j else m (LVal, j)) /\
  (forall a j, a <> LVal -> m1 (a, j) = m (a, j)).
Proof.
  induction n as [|n IH]; intros i m k.
  - exists m. split; [reflexivity|]. assert (Z : forall j, Nat.leb i j && Nat.ltb j (i + 0) = false).
    { intro j. destruct (Nat.leb_spec i j), (Nat.ltb_spec j (i + 0)); cbn; auto; lia. }
    split; [intro j; now rewrite Z|auto].
  - cbn [kv_gates run]. set (m0 := put m (LVal, i) _).
    destruct (IH (S i) m0 k) as (m1 & E & HL & HO). exists m1. split; [exact E|].
    assert (P : forall a j, (a = LVal -> j <> i) -> m0 (a, j) = m (a, j)).
    { intros a j Hj. unfold m0. rewrite put_other; auto; intro Q; injection Q as -> ->; now apply Hj; auto. }
    assert (PL : m0 (LVal, i) = kv_B d m i) by (unfold m0; rewrite put_same; reflexivity).
    assert (PA : forall j, kv_B d m0 j = kv_B d m j) by (intros j; unfold kv_B, fv_term, arr_of; rewrite !P; auto; discriminate).
    split.
    + intro j. rewrite HL. destruct (Nat.leb_spec (S i) j), (Nat.ltb_spec j (S i + n)), (Nat.leb_spec i j), (Nat.ltb_spec j (i + S n)); cbn [andb]; try lia;
        rewrite ?PA; try reflexivity; try (apply P; intros _; lia). replace j with i by lia. exact PL.
    + intros a j N1. rewrite HO by assumption. apply P. intro; contradiction.
Qed.
Lemma kp_fits thr s n : fits (reg two thr s n) (kp_task thr s n).
Proof.
  unfold fits, kp_task. cbn [within]. split; [cbn; now left|]. intro sd. destruct (Nat.eqb n 0); [exact I|].
  apply within_kp. { intros a j Ha Hj. cbn. auto. }
  cbv zeta. apply within_range; [intros; cbn; auto|]. intro vs. cbn [within]. split; [cbn; unfold two; auto|].
  apply within_range; [intros; cbn; auto|]. intro vs'. cbn [within]. split; [cbn; unfold two; auto|exact I].
Qed.
Lemma kv_fits d thr s n : fits (reg one thr s n) (kv_task d thr s n).
Proof.
  unfold fits, kv_task. cbn [within]. split; [cbn; now left|]. intro sd. destruct (Nat.eqb n 0); [exact I|].
  apply within_kv. { intros a j Ha Hj. cbn. auto. }
  cbv zeta. apply within_range; [intros; cbn; auto|]. intro vs. cbn [within]. split; [cbn; unfold one; auto|exact I].
Qed.
Lemma kp_accesses thr s n : accesses (1 + if Nat.eqb n 0 then 0 else 9 * n + (n + (1 + (n + 1)))) (kp_task thr s n).
Proof.
  unfold kp_task. cbn [Nat.add accesses]. intro sd. destruct (Nat.eqb n 0); [reflexivity|]. apply accesses_kp. cbv zeta.
  apply accesses_range. intro. cbn [Nat.add accesses]. apply accesses_range. intro. reflexivity.
Qed.
Lemma kv_accesses d thr s n : accesses (1 + if Nat.eqb n 0 then 0 else 4 * n + (n + 1)) (kv_task d thr s n).
Proof.
  unfold kv_task. cbn [Nat.add accesses]. intro sd. destruct (Nat.eqb n 0); [reflexivity|]. apply accesses_kv. cbv zeta.
  apply accesses_range. intro. reflexivity.
Qed.
(** an empty range leaves the two cells of sum[] as they were (uninitialised) *)
Lemma kp_run m thr s n :
  let r := fp_range (arr_of m LVal) (arr_of m LMac) (arr_of m RVal) (arr_of m RMac) (arr_of m OMac) s n (m (Seed, thr)) (m (Sum, 2 * thr), m (Sum, 2 * thr + 1)) in
  run m (kp_task thr s n) (Sum, 2 * thr) = fst r /\ run m (kp_task thr s n) (Sum, 2 * thr + 1) = snd r.
Proof.
  unfold kp_task, fp_range. cbn [run]. destruct (Nat.eqb_spec n 0) as [|N]; [split; reflexivity|].
  match goal with |- context [kp_gates s n ?k] => destruct (run_kp n s m k) as (m1 & E & HL & HR & HO) end.
  rewrite E. cbv zeta. rewrite run_range. cbn [run]. rewrite run_range. cbn [run fst snd]. split.
  - rewrite put_other by (intro Q; injection Q; lia). rewrite put_same. f_equal. rewrite map_map. apply map_ext_in.
    intros j Hj. rewrite HL, in_rng by exact Hj. reflexivity.
  - rewrite put_same. f_equal. rewrite map_map. apply map_ext_in.
    intros j Hj. rewrite put_other by discriminate. rewrite HR, in_rng by exact Hj. reflexivity.
Qed.
Lemma kv_run d m thr s n :
  run m (kv_task d thr s n) (Sum, thr) = fv_range d (arr_of m LMac) (arr_of m RMac) (arr_of m OMac) s n (m (Seed, thr)) (m (Sum, thr)).
Proof.
  unfold kv_task, fv_range. cbn [run]. destruct (Nat.eqb_spec n 0) as [|N]; [reflexivity|].
  match goal with |- context [kv_gates d s n ?k] => destruct (run_kv d n s m k) as (m1 & E & HL & HO) end.
  rewrite E. cbv zeta. rewrite run_range. cbn [run]. rewrite put_same. f_equal. apply map_ext_in.
  intros j Hj. rewrite HL, in_rng by exact Hj. reflexivity.
Qed.
Lemma f_ranges_disjoint t cnt : rs_disjoint (f_ranges t cnt).
Proof. unfold f_ranges. apply split_disjoint. Qed.
Lemma f_ranges_length t cnt : 1 <= t -> length (f_ranges t cnt) = t.
Proof. intro H. unfold f_ranges. rewrite app_length, map_length, seq_length. cbn. lia. Qed.
Theorem f2k_prover m t cnt ope : 1 <= t ->
  schedule_independent m (tasks kp_task (f_ranges t cnt)) (fun m' => bp_combine m' t ope =
    fp_A_star (arr_of m LVal) (arr_of m LMac) (arr_of m RVal) (arr_of m RMac) (arr_of m OMac) (f_ranges t cnt)
      (seeds_of m) (fun i => (m (Sum, 2 * i), m (Sum, 2 * i + 1))) ope).
Proof.
  intros Ht. apply (check_tasks two kp_task _ _ m _ two_inj (f_ranges_disjoint t cnt) kp_fits kp_accesses).
  intros m' E. unfold bp_combine, fp_A_star. rewrite <- (f_ranges_length t cnt Ht) at 1. apply fold_tag.
  intros acc i [s n] Hi. cbn [fst snd Nat.add].
  destruct (kp_run m i s n) as [R1 R2]. rewrite (E i s n Hi) by (unfold two; auto). rewrite (E i s n Hi (2 * i + 1)) by (unfold two; auto).
  rewrite R1, R2. reflexivity.
Qed.
Theorem f2k_verifier d m t cnt ope : 1 <= t ->
  schedule_independent m (tasks (kv_task d) (f_ranges t cnt)) (fun m' => bv_combine m' t ope =
    fv_B_star d (arr_of m LMac) (arr_of m RMac) (arr_of m OMac) (f_ranges t cnt) (seeds_of m) (fun i => m (Sum, i)) ope).
Proof.
  intros Ht. apply (check_tasks one (kv_task d) _ _ m _ one_inj (f_ranges_disjoint t cnt) (kv_fits d) (kv_accesses d)).
  intros m' E. unfold bv_combine, fv_B_star. rewrite <- (f_ranges_length t cnt Ht) at 1. apply fold_tag.
  intros acc i [s n] Hi. cbn [fst snd Nat.add].
  rewrite (E i s n Hi) by reflexivity. rewrite kv_run. reflexivity.
Qed.
