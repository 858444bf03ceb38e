(** C41: the result of every multi-threaded phase does not depend on the schedule. *)
From Coq Require Import NArith List Bool Arith Lia.
From Verif Require Import Word FpModel GF128 BoolModel ArithModel F2kModel TreeModel VoleModel VoleF2kModel ThreadModel ThreadSpec ThreadProofs ThreadWork ThreadThms ThreadLpn.
Import ListNotations.

(** * Batch check of the boolean engine: no data race, no deadlock, and after every complete
    interleaving of the tasks the main thread computes the sums of the sequential model *)
Theorem C41_bool_prover : forall m buf threads rs ope, 1 <= threads -> and_ranges threads (length buf) = Some rs -> holds m buf ->
  schedule_independent m (tasks bp_task rs) (fun m' => bp_combine m' threads ope = prv_A_star buf rs (seeds_of m) ope).
Proof. exact bool_prover. Qed.
Theorem C41_bool_verifier : forall delta m buf threads rs ope, 1 <= threads -> and_ranges threads (length buf) = Some rs -> holds m buf ->
  schedule_independent m (tasks (bv_task delta) rs) (fun m' => bv_combine m' threads ope = ver_B_star delta buf rs (seeds_of m) ope).
Proof. exact bool_verifier. Qed.
(** * Arithmetic engine *)
Theorem C41_arith_prover : forall m buf threads rs, 1 <= threads -> buf <> [] -> a_ranges threads (length buf) = Some rs -> holds m buf ->
  schedule_independent m (tasks ap_task rs) (fun m' => ap_combine m' (length rs) = a_prv_sum buf rs (seeds_of m)).
Proof. exact arith_prover. Qed.
Theorem C41_arith_verifier : forall delta m buf threads rs, 1 <= threads -> buf <> [] -> a_ranges threads (length buf) = Some rs -> holds m buf ->
  schedule_independent m (tasks (av_task delta) rs) (fun m' => av_combine m' (length rs) = a_ver_sum delta buf rs (seeds_of m)).
Proof. exact arith_verifier. Qed.
(** * F2k engine: for every batch size, also those that leave sum[] unset *)
Theorem C41_f2k_prover : forall m threads cnt ope, 1 <= threads ->
  schedule_independent m (tasks kp_task (f_ranges threads cnt)) (fun m' => bp_combine m' threads ope =
    fp_A_star (arr_of m LVal) (arr_of m LMac) (arr_of m RVal) (arr_of m RMac) (arr_of m OMac) (f_ranges threads cnt)
      (seeds_of m) (fun i => (m (Sum, 2 * i), m (Sum, 2 * i + 1))) ope).
Proof. exact f2k_prover. Qed.
Theorem C41_f2k_verifier : forall delta m threads cnt ope, 1 <= threads ->
  schedule_independent m (tasks (kv_task delta) (f_ranges threads cnt)) (fun m' => bv_combine m' threads ope =
    fv_B_star delta (arr_of m LMac) (arr_of m RMac) (arr_of m OMac) (f_ranges threads cnt) (seeds_of m) (fun i => m (Sum, i)) ope).
Proof. exact f2k_verifier. Qed.
(** * Linear expansion of both fields, both parties, any table and any number of threads *)
Theorem C41_lpn : forall word k n threads party1 m,
  schedule_independent m (lpn_tasks word k party1 (lpn_ranges n threads))
    (fun m' => forall j, m' (Vec, j) = lpn_compute word k n threads party1 (arr_of m Tab) (arr_of m Vec) j).
Proof. exact lpn_schedule. Qed.
Theorem C41_lpn_f2k : forall word k n threads two m,
  schedule_independent m (f2_tasks word k two (lpn_ranges n threads))
    (fun m' => (forall j, m' (Vec, j) = f2_lpn word k n threads (arr_of m Tab) (arr_of m Vec) j) /\
               (forall j, m' (Vec2, j) = if two then f2_lpn word k n threads (arr_of m Tab2) (arr_of m Vec2) j else m (Vec2, j))).
Proof. exact f2_schedule. Qed.

(** five gates, two threads; all three arrays hold non-trivial words *)
Definition t_mem : smem := fun l =>
  match fst l with
  | Left => N.of_nat (17 * snd l + 3) | Right => N.of_nat (29 * snd l + 8) | Out => N.of_nat (snd l * snd l + 41)
  | Seed => N.of_nat (snd l + 5) | _ => N.of_nat (snd l)
  end.
Definition t_buf : list (N * N * N) := map (fun i => (t_mem (Left, i), t_mem (Right, i), t_mem (Out, i))) (seq 0 5).
Example C41_bool_example :
  holds t_mem t_buf /\ and_ranges 2 (length t_buf) = Some [(0, 2); (2, 3)] /\
  prv_A_star t_buf [(0, 2); (2, 3)] (seeds_of t_mem) [] <> (0%N, 0%N) /\
  bp_combine (run_all t_mem (tasks bp_task [(0, 2); (2, 3)])) 2 [] = prv_A_star t_buf [(0, 2); (2, 3)] (seeds_of t_mem) [] /\
  bp_combine (run_all t_mem (rev (tasks bp_task [(0, 2); (2, 3)]))) 2 [] = prv_A_star t_buf [(0, 2); (2, 3)] (seeds_of t_mem) [].
Proof.
  split.
  - intros i g H. unfold t_buf in H. rewrite nth_error_map in H. destruct (nth_error (seq 0 5) i) as [j|] eqn:E; [|discriminate].
    injection H as <-. assert (L : i < 5) by (rewrite <- (seq_length 5 0); apply nth_error_Some; congruence).
    rewrite (nth_error_nth' (seq 0 5) (n := i) 0) in E by (rewrite seq_length; lia). rewrite seq_nth in E by lia. now injection E as <-.
  - split; [vm_compute; reflexivity|]. split; [vm_compute; discriminate|]. split; vm_compute; reflexivity.
Qed.
Definition t_buf33 : list (N * N * N) := map (fun i => (t_mem (Left, i), t_mem (Right, i), t_mem (Out, i))) (seq 0 33).
Example C41_arith_example :
  a_ranges 2 (length t_buf33) = Some [(0, 16); (16, 17)] /\
  ap_combine (run_all t_mem (rev (tasks ap_task [(0, 16); (16, 17)]))) 2 = a_prv_sum t_buf33 [(0, 16); (16, 17)] (seeds_of t_mem) /\
  a_prv_sum t_buf33 [(0, 16); (16, 17)] (seeds_of t_mem) <> (0%N, 0%N).
Proof. split; [vm_compute; reflexivity|]. split; [vm_compute; reflexivity|vm_compute; discriminate]. Qed.
Example C41_f2k_example :
  f_ranges 2 5 = [(0, 2); (2, 3)] /\
  bv_combine (run_all t_mem (rev (tasks (kv_task 9) (f_ranges 2 5)))) 2 [] =
    fv_B_star 9 (arr_of t_mem LMac) (arr_of t_mem RMac) (arr_of t_mem OMac) (f_ranges 2 5) (seeds_of t_mem) (fun i => t_mem (Sum, i)) [].
Proof. split; vm_compute; reflexivity. Qed.
Example C41_lpn_example :
  lpn_ranges 14 1 = [(0, 7); (7, 14)] /\
  let word i w := N.of_nat (31 * i + 7 * w) in
  map (fun j => run_all t_mem (rev (lpn_tasks word 9 false (lpn_ranges 14 1))) (Vec, j)) [0; 6; 7; 13] =
  map (lpn_compute word 9 14 1 false (arr_of t_mem Tab) (arr_of t_mem Vec)) [0; 6; 7; 13] /\
  map (lpn_compute word 9 14 1 false (arr_of t_mem Tab) (arr_of t_mem Vec)) [0; 6; 7; 13] <> map (arr_of t_mem Vec) [0; 6; 7; 13].
Proof. split; [vm_compute; reflexivity|]. split; [vm_compute; reflexivity|vm_compute; discriminate]. Qed.

(** the property is not vacuous: tasks whose ranges share a gate have a reachable race, and even one
    after the other they compute the wrong sums because the worker overwrites the operand buffers *)
Example C41_overlap_races :
  (exists n m' ps', steps n (t_mem, tasks bp_task [(0, 2); (1, 2)]) (m', ps') /\ race ps') /\
  bp_combine (run_all t_mem (tasks bp_task [(0, 2); (1, 2)])) 2 [] <> prv_A_star t_buf [(0, 2); (1, 2)] (seeds_of t_mem) [].
Proof.
  split; [|vm_compute; discriminate].
  unfold tasks. cbn [length seq combine map fst snd].
  set (p := bp_task 0 0 2). set (q := bp_task 1 1 2).
  (* thread 1 reads its seed and stops before it reads Left[1]; thread 0 runs up to its write of Left[1] *)
  destruct q as [| ls kq |] eqn:Eq; unfold q, bp_task in Eq; try discriminate. injection Eq as <- <-.
  unfold p, bp_task. cbn [Nat.eqb bp_gates].
  do 3 eexists. split.
  - eapply steps_S; [apply (step_read _ [_])|]. cbn [app].
    eapply steps_S; [apply (step_read _ [])|]. cbn [app].
    do 7 (eapply steps_S; [apply (step_read _ [])|]; cbn [app]).
    do 2 (eapply steps_S; [apply (step_write _ [])|]; cbn [app]).
    do 7 (eapply steps_S; [apply (step_read _ [])|]; cbn [app]).
    apply steps_0.
  - exists 0, 1. do 2 eexists. exists (Left, 1), true, false. split; [discriminate|]. split; [reflexivity|]. split; [reflexivity|].
    split; [reflexivity|]. split; reflexivity.
Qed.

Print Assumptions C41_bool_prover.
Print Assumptions C41_bool_verifier.
Print Assumptions C41_arith_prover.
Print Assumptions C41_arith_verifier.
Print Assumptions C41_f2k_prover.
Print Assumptions C41_f2k_verifier.
Print Assumptions C41_lpn.
Print Assumptions C41_lpn_f2k.
