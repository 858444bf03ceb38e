(** Property C14 (boolean polynomial proofs).

    A call of the interface is given on authenticated wires (label M, committed bit b); the prover
    works on the labels, the verifier on the keys M xor b*Delta.  [ope k] are the prover's 128 blocks
    of the k-th mask, [ot_key] the verifier's side of that ideal correlated OT. *)
From Coq Require Import NArith List Bool Arith Lia.
From Verif Require Import Word WordProofs GF128 GF128Ring BoolModel BoolSpec BoolThms BoolThms2
  BoolPolyModel BoolPolySpec BoolPolyProofs BoolPolyThms PropBool.
Import ListNotations.

Theorem C14_honest_accepts :
  forall buffer_sz seeds (ope : nat -> list N) (cs : list (bcall (N * bool))) d,
  1 <= buffer_sz -> (forall k, length (ope k) = 128) ->
  Forall (fun c => Forall honest_wire (wires_of c)) cs ->
  Forall (fun e => e = false) (flat_map (fun c => defects (bcall_map snd c)) cs) ->
  let p := pp_exec buffer_sz seeds ope (map (bcall_map fst) cs) in
  pv_cheat (pv_exec buffer_sz seeds d (fun k => map (ot_key d) (ope k)) (fun k => nth k (pp_msgs p) (0, 0)%N)
                    (map (bcall_map (akey d)) cs)) = [].
Proof. intros. now apply poly_complete. Qed.
(** arbitrary prover messages: if the challenge combination of the defects of some batch is not
    zero, at most two keys accept *)
Theorem C14_batch_bound :
  forall buffer_sz seeds (ope : nat -> list N) (cs : list (bcall (N * bool))) (msg : nat -> N * N) deltas k errs,
  1 <= buffer_sz -> NoDup deltas -> (forall d, In d deltas -> (d < 2 ^ 128)%N) -> (forall k, (fst (msg k) < 2 ^ 128)%N) ->
  nth_error (chunks buffer_sz (flat_map (fun c => defects (bcall_map snd c)) cs)) k = Some errs ->
  range_error (seeds k) errs <> 0%N ->
  (forall d, In d deltas -> pv_cheat (pv_exec buffer_sz seeds d (fun k => map (ot_key d) (ope k)) msg (map (bcall_map (akey d)) cs)) = []) ->
  length deltas <= 2.
Proof. intros. eapply poly_batch_bound; eauto. Qed.
Theorem C14_challenge_bound : forall errs, In true errs -> forall xs, NoDup xs -> Forall (fun x => (x < 2 ^ 128)%N) xs ->
  (forall x, In x xs -> range_error x errs = 0%N) -> length xs <= length errs.
Proof. exact C05_challenge_bound_one_thread. Qed.
(** a session with a false relation: few keys, or an unlucky challenge in a batch that has a false relation *)
Theorem C14_session_soundness :
  forall buffer_sz seeds (ope : nat -> list N) (cs : list (bcall (N * bool))) (msg : nat -> N * N) deltas,
  1 <= buffer_sz -> NoDup deltas -> (forall d, In d deltas -> (d < 2 ^ 128)%N) -> (forall k, (fst (msg k) < 2 ^ 128)%N) ->
  let errs := flat_map (fun c => defects (bcall_map snd c)) cs in
  In true errs ->
  (forall d, In d deltas -> pv_cheat (pv_exec buffer_sz seeds d (fun k => map (ot_key d) (ope k)) msg (map (bcall_map (akey d)) cs)) = []) ->
  length deltas <= 2 \/
  (exists k b, nth_error (chunks buffer_sz errs) k = Some b /\ In true b /\ range_error (seeds k) b = 0%N).
Proof.
  intros bs seeds ope cs msg deltas Hb Hnd Hd Hm errs Hin Ha.
  assert (X : exists k b, nth_error (chunks bs errs) k = Some b /\ In true b).
  { clearbody errs. clear -Hb Hin. unfold chunks. revert Hin. assert (L : length errs <= length errs) by lia. revert L.
    generalize (length errs) at 2 3 as f. revert errs. intros errs f. revert errs.
    induction f as [|f IH]; intros [|e l] L Hin; try (cbn in L; lia); try easy. cbn [chunk_fuel].
    rewrite <- (firstn_skipn bs (e :: l)) in Hin. apply in_app_or in Hin. destruct Hin as [Hin|Hin].
    - exists 0, (firstn bs (e :: l)). auto.
    - destruct (IH (skipn bs (e :: l))) as (k & b & E & H); [rewrite skipn_length; cbn [length] in *; lia|easy|].
      exists (S k), b. auto. }
  destruct X as (k & b & Ek & Hb1).
  destruct (N.eq_dec (range_error (seeds k) b) 0) as [Z|Z]; [right; eauto|].
  left. eapply C14_batch_bound; eauto.
Qed.
(** conversely a vanishing combination passes for every key *)
Theorem C14_vanishing_combination_passes :
  forall buffer_sz seeds (ope : nat -> list N) (cs : list (bcall (N * bool))), 1 <= buffer_sz ->
  (forall k errs, nth_error (chunks buffer_sz (flat_map (fun c => defects (bcall_map snd c)) cs)) k = Some errs ->
     range_error (seeds k) errs = 0%N) ->
  exists msg, forall d,
    pv_cheat (pv_exec buffer_sz seeds d (fun k => map (ot_key d) (ope k)) msg (map (bcall_map (akey d)) cs)) = [].
Proof. intros. now apply poly_vanishing. Qed.

(** three relations in two batches of size 2: x*y + z*z + 1 = 0 etc.; the honest run accepts, a
    false one is recorded *)
Definition wx : N * bool := (0x1235, true)%N.
Definition wy : N * bool := (0xFF00000000000000000000000000AB, true)%N.
Definition wz : N * bool := (0x77777776, false)%N.
Definition demo_calls : list (bcall (N * bool)) :=
  [BDeg2 [wx; wz] [wy; wz] [true; true; true]; BInn [wx; wx] [wx; wy] false; BInnEq2 [wx] [wy] [wz] [wx] wy wy;
   BMulti [[wx; wz]; [wy; wy]] [wx; wz] [wx; wz] wx 2].
Definition demo_ope (k : nat) : list N := map (fun i => N.of_nat i * N.of_nat i * 7 + N.of_nat k)%N (seq 0 128).
Example C14_example :
  flat_map (fun c => defects (bcall_map snd c)) demo_calls = [false; false; false; false; false] /\
  Forall (fun c => Forall honest_wire (wires_of c)) demo_calls /\
  flat_map (fun c => defects (bcall_map snd c)) [BInn [wx] [wx] false] = [true] /\
  pv_cheat (pv_exec 2 (fun k => N.of_nat (k + 9)) 12345 (fun k => map (ot_key 12345) (demo_ope k)) (fun _ => (0, 0)%N)
    (map (bcall_map (akey 12345)) [BInn [wx] [wx] false])) = [0].
Proof. vm_compute. repeat (constructor || split). Qed.

Print Assumptions C14_honest_accepts.
Print Assumptions C14_batch_bound.
Print Assumptions C14_challenge_bound.
Print Assumptions C14_session_soundness.
Print Assumptions C14_vanishing_combination_passes.
